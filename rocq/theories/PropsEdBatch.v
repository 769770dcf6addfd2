(** * PropsEdBatch: C114, the batch verifier of Ed25519 *)

From Coq Require Import NArith Strings.Byte.
From mathcomp Require Import all_ssreflect all_algebra zify.
From Verif Require Import Prelude Pratt Errors Engine LibModel CodecModel CodecProofs BTreeMap PolyModel
  SigmaModel PvssModel SetupModel Spec Instance PropsShare PropsHash PropsSetup EdModel EdProofs EdInstance PropsEd.

Set Implicit Arguments.
Unset Strict Implicit.
Unset Printing Implicit Defensive.

Import GRing.Theory.
Local Open Scope ring_scope.

Arguments sc_check : simpl never.
Arguments sc_of_N : simpl never.
Arguments sc_hash : simpl never.
Arguments sig_from_bytes : simpl never.
Arguments pk_from_bytes : simpl never.
Arguments pmul : simpl never.
(** The parts of one vote; [defect] is what the verification equation lacks. *)
Section Votes.
Variables (X : ed_curve) (m : Digest).
Implicit Types (v : PublicKey * Signature).

Definition vx v : scalar X := odflt 0 (sc_check X (part2 v.2)).
Definition vR v : ep X := odflt 0 (ep_dec X (part1 v.2)).
Definition vP v : ep X := odflt 0 (ep_dec X v.1).
Definition vk v : scalar X := sc_hash X (part1 v.2 ++ v.1 ++ m).
Definition defect v : ep X := vR v + pmul (vk v) (vP v) - pmul (vx v) (ep_base X).
(** All three parts can be read. *)
Definition readable v : bool :=
  [&& isSome (sc_check X (part2 v.2)), isSome (ep_dec X (part1 v.2)) & isSome (ep_dec X v.1)].

Lemma sig_readE v : sig_from_bytes [tuple of part1 v.2 ++ part2 v.2]
  = if (of_le_bytes (part2 v.2) <? 2 ^ 253)%num then Some v.2 else None.
Proof. by rewrite /sig_from_bytes -/(sig_flatten v.2) sig_splitK. Qed.
Lemma pk_readE v : pk_from_bytes X v.1 = if isSome (ep_dec X v.1) then Some (v.1, vP v) else None.
Proof. by rewrite /pk_from_bytes /vP; case: (ep_dec X v.1). Qed.

Lemma parse_readE zs votes : parse_votes (ed25519 X zs) votes
  = if all (fun v => of_le_bytes (part2 v.2) <? 2 ^ 253)%num votes && all (fun v => isSome (ep_dec X v.1)) votes
    then Some ([seq v.2 | v <- votes], [seq (v.1, vP v) | v <- votes]) else None.
Proof.
pose p v := (of_le_bytes (part2 v.2) <? 2 ^ 253)%num.
pose q v := isSome (ep_dec X v.1).
have e1 : [seq ed_sig_from_bytes (ed25519 X zs) [tuple of part1 v.2 ++ part2 v.2] | v <- votes]
    = [seq if p v then Some v.2 else None | v <- votes] by apply: eq_map => v; exact: sig_readE.
have e2 : [seq ed_pk_from_bytes (ed25519 X zs) v.1 | v <- votes]
    = [seq if q v then Some (v.1, vP v) else None | v <- votes] by apply: eq_map => v; exact: pk_readE.
rewrite /parse_votes e1 e2 -/p -/q {e1 e2}.
have a1 : all isSome [seq if p v then Some v.2 else None | v <- votes] = all p votes.
  by rewrite all_map; apply: eq_all => v /=; case: (p v).
have a2 : all isSome [seq if q v then Some (v.1, vP v) else None | v <- votes] = all q votes.
  by rewrite all_map; apply: eq_all => v /=; case: (q v).
rewrite a1 a2; case b1: (all p votes) => //; case b2: (all q votes) => //; congr (Some (_, _)).
  by elim: votes b1 {a1 a2 b2} => //= v votes IH /andP[-> /IH <-].
by elim: votes b2 {a1 a2 b1} => //= v votes IH /andP[-> /IH <-].
Qed.

Lemma readable_read v : readable v -> (of_le_bytes (part2 v.2) <? 2 ^ 253)%num && isSome (ep_dec X v.1).
Proof.
case/and3P => c _ ->; rewrite andbT; move: c; rewrite /sc_check.
by case: N.ltb_spec => // h _; apply/N.ltb_lt; have := l_bound X; lia.
Qed.

(** The equation that the batch verifier checks, in one line. *)
Definition batch_sum (zs : seq N) votes : ep X :=
  let z i := sc_of_N X (nth 0%num zs i) in
  let v i := nth (m, Sig m m) votes i in
  pmul (- \sum_(i < size votes) z i * vx (v i)) (ep_base X)
  + \sum_(i < size votes) pmul (z i) (vR (v i)) + \sum_(i < size votes) pmul (vk (v i) * z i) (vP (v i)).

Lemma batchE (zs : seq N) votes :
  signature_verify_batch (ed25519 X zs) m votes
  = if all readable votes && (batch_sum zs votes == 0) then Ok tt else Err Ed25519Error.
Proof.
rewrite C47_batch_exact parse_readE.
case rd: (all readable votes); last first.
  case: ifP => // /andP[a1 a2].
  rewrite -[ed_verify_batch _ _ _]/(verify_batch zs (nseq (size votes) (m : seq byte))
    [seq v.2 | v <- votes] [seq (v.1, vP v) | v <- votes]).
  case vb: (verify_batch _ _ _ _) => //; move: vb; rewrite /verify_batch.
  case: ifP => // _; case: ifP => // /andP[].
  rewrite !all_map => c1 c2 _; move: rd; have -> // : all readable votes.
  have : all (predI (predI (fun v => isSome (sc_check X (part2 v.2))) (fun v => isSome (ep_dec X (part1 v.2))))
      (fun v => isSome (ep_dec X v.1))) votes by rewrite !all_predI c1 c2 a2.
  by apply: sub_all => v /andP[/andP[h1 h2] h3]; apply/and3P.
have -> : all (fun v => of_le_bytes (part2 v.2) <? 2 ^ 253)%num votes && all (fun v => isSome (ep_dec X v.1)) votes.
  by rewrite -all_predI; apply: sub_all rd => v /= /readable_read.
rewrite -[ed_verify_batch _ _ _]/(verify_batch zs (nseq (size votes) (m : seq byte))
  [seq v.2 | v <- votes] [seq (v.1, vP v) | v <- votes]).
rewrite /verify_batch !size_map size_nseq !eqxx andbT.
have -> : all isSome [seq sc_check X (part2 s) | s <- [seq v.2 | v <- votes]] &&
    all isSome [seq ep_dec X (part1 s) | s <- [seq v.2 | v <- votes]].
  by rewrite !all_map -all_predI; apply: sub_all rd => v /and3P[/= -> ->].
have same (G H : ep X) : G = H -> (if G == 0 then Ok tt else Err Ed25519Error)
    = if true && (H == 0) then Ok tt else Err Ed25519Error by move=> ->.
apply: same; rewrite /batch_sum; congr (_ + _ + _).
- congr (pmul (- _) _); apply: eq_bigr => i _; congr (_ * _).
  by rewrite -map_comp (nth_map (m, Sig m m)).
- apply: eq_bigr => i _; congr pmul.
  by rewrite -map_comp (nth_map (m, Sig m m)).
- apply: eq_bigr => i _; rewrite (nth_map (m, Sig m m)) // nth_nseq ltn_ord.
  by rewrite (nth_map (m, Sig m m)).
Qed.

Lemma nth_vote votes v0 (i : nat) : (i < size votes)%N -> List.In (nth v0 votes i) votes.
Proof. by elim: votes i => [|v votes IH] [|i] //=; [left | move/IH; right]. Qed.

Lemma valid_defect zs v : signature_verify (ed25519 X zs) v.2 m v.1 = Ok tt ->
  readable v /\ defect v = 0.
Proof.
move/(proj1 (proj1 (@verify_scP X zs _ _ _))) => [R [P [x [eR eP ex _ eq]]]].
rewrite /readable /defect /vR /vP /vx /vk eR eP ex; split=> //.
by rewrite [odflt _ _]/= [odflt _ _]/= [odflt _ _]/= eq subrr.
Qed.

(** Up to small order, the batch verifier adds the defects with the coefficients. *)
Lemma batch_sum8 zs votes :
  batch_sum zs votes *+ 8 = \sum_(i < size votes)
    pmul (sc_of_N X (nth 0%num zs i)) (defect (nth (m, Sig m m) votes i) *+ 8).
Proof.
rewrite /batch_sum !mulrnDl pmulN ?base_l // pmul_sum ?base_l // mulNrn -!sumrMnl -sumrN -!big_split /=.
apply: eq_bigr => i _; set z := sc_of_N _ _; set v := nth _ _ _.
have ek : pmul (vk v * z) (vP v) *+ 8 = pmul z (pmul (vk v) (vP v)) *+ 8.
  by rewrite -pmul_mulrn mulrC pmulM ?eight_l // !pmul_mulrn.
rewrite ek pmulM ?base_l // pmul_mulrn; move: 8%N => e.
by rewrite -mulNrn -!mulrnDl /defect !pmulDr pmulNr [in RHS]addrC addrA.
Qed.

(** In the subgroup of the base point this holds as it stands. *)
Lemma batch_sum_sub zs votes : (forall v, List.In v votes -> vP v *+ ep_order X = 0) ->
  batch_sum zs votes = \sum_(i < size votes)
    pmul (sc_of_N X (nth 0%num zs i)) (defect (nth (m, Sig m m) votes i)).
Proof.
move=> sub; rewrite /batch_sum pmulN ?base_l // pmul_sum ?base_l // -sumrN -!big_split /=.
apply: eq_bigr => i _; set z := sc_of_N _ _; set v := nth _ _ _.
have oP : vP v *+ ep_order X = 0 by apply: sub; exact: nth_vote.
rewrite pmulM ?base_l // [vk v * z]mulrC pmulM //.
by rewrite /defect !pmulDr pmulNr [in RHS]addrC addrA.
Qed.

End Votes.

(** Every signature verifies on its own, and the keys lie in the subgroup of the base point, as
    generated keys do: then the batch verifies, whatever the coefficients. *)
Theorem C114_honest_partial (X : ed_curve) (zs : seq N) (m : Digest) (votes : seq (PublicKey * Signature)) :
  (forall v, List.In v votes -> signature_verify (ed25519 X zs) v.2 m v.1 = Ok tt) ->
  (forall v P, List.In v votes -> ep_dec X v.1 = Some P -> P *+ ep_order X = 0) ->
  signature_verify_batch (ed25519 X zs) m votes = Ok tt.
Proof.
move=> val sub; rewrite batchE.
have -> : all (@readable X) votes.
  elim: votes val {sub} => //= v votes IH val.
  by rewrite (proj1 (valid_defect (val v _))) ?IH //; [move=> u h; apply: val; right | left].
rewrite batch_sum_sub; last first.
  move=> v iv; rewrite /vP; case eP: (ep_dec X v.1) => [P|]; first exact: sub eP.
  by rewrite mul0rn.
rewrite big1 ?eqxx // => i _.
by rewrite (proj2 (valid_defect (val _ (nth_vote _ (ltn_ord i))))) pmulr0.
Qed.
Print Assumptions C114_honest_partial.

(** What the batch verifier checks, for keys in the subgroup: that the defects cancel. *)
Theorem C114_exact_partial (X : ed_curve) (zs : seq N) (m : Digest) (votes : seq (PublicKey * Signature)) :
  (forall v P, List.In v votes -> ep_dec X v.1 = Some P -> P *+ ep_order X = 0) ->
  signature_verify_batch (ed25519 X zs) m votes = Ok tt <->
  all (@readable X) votes /\
  \sum_(i < size votes) pmul (sc_of_N X (nth 0%num zs i)) (defect X m (nth (m, Sig m m) votes i)) = 0.
Proof.
move=> sub; rewrite batchE batch_sum_sub; last first.
  move=> v iv; rewrite /vP; case eP: (ep_dec X v.1) => [P|]; first exact: sub eP.
  by rewrite mul0rn.
case: (all _ _) => /=; last by split=> [|[]].
by case: eqP => h; split=> // -[].
Qed.
Print Assumptions C114_exact_partial.

(** Soundness for any keys: a vote whose equation fails, even after clearing the small factor,
    gets a batch accepted for at most one value of its coefficient, the others being fixed. *)
Theorem C114_sound_partial (X : ed_curve) (zs zs' : seq N) (m : Digest)
  (votes : seq (PublicKey * Signature)) (j : nat) :
  let z := nth 0%num zs j in
  let z' := nth 0%num zs' j in
  (j < size votes)%N -> defect X m (nth (m, Sig m m) votes j) *+ 8 <> 0 ->
  (forall i, (i < size votes)%N -> i <> j -> nth 0%num zs i = nth 0%num zs' i) ->
  (z < N.of_nat (ep_order X))%num -> (z' < N.of_nat (ep_order X))%num ->
  signature_verify_batch (ed25519 X zs) m votes = Ok tt ->
  signature_verify_batch (ed25519 X zs') m votes = Ok tt -> z = z'.
Proof.
move=> z z' lj nz agree lz lz'; rewrite !batchE.
case: (all _ _) => //=; case: eqP => // e _; case: eqP => // e' _.
have := congr1 (fun P => P *+ 8) e; have := congr1 (fun P => P *+ 8) e'.
rewrite !batch_sum8 !mul0rn.
rewrite (bigD1 (Ordinal lj)) //= => s1; rewrite (bigD1 (Ordinal lj)) //= => s2.
have es : \sum_(i < size votes | i != Ordinal lj)
      pmul (sc_of_N X (nth 0%num zs i)) (defect X m (nth (m, Sig m m) votes i) *+ 8)
    = \sum_(i < size votes | i != Ordinal lj)
      pmul (sc_of_N X (nth 0%num zs' i)) (defect X m (nth (m, Sig m m) votes i) *+ 8).
  by apply: eq_bigr => i ne; rewrite agree // => ei; case/eqP: ne; apply: val_inj.
rewrite es in s2; have := addIr _ (etrans s2 (esym s1)); set P := defect _ _ _ *+ 8 => e0.
have : pmul (sc_of_N X z - sc_of_N X z') P == 0 by rewrite pmulB ?eight_l // e0 subrr.
rewrite pmul_eq0 ?eight_l ?subr_eq0 //; last exact/eqP.
move/eqP/(congr1 val); rewrite /sc_of_N !sc_val !N.mod_small // !modn_small; try lia.
Qed.
Print Assumptions C114_sound_partial.

(** The verifiers differ.  Under the key whose point is the identity nothing verifies on its
    own, but in a batch anybody's signature on any message does, whatever the coefficients. *)
Theorem C114_identity_key_refuted (X : ed_curve) (zs : seq N) (m : Digest) (r : scalar X) :
  let pk := ep_enc (0 : ep X) in
  let s := Sig (ep_enc (pmul r (ep_base X))) (sc_bytes r) in
  signature_verify_batch (ed25519 X zs) m [:: (pk, s)] = Ok tt /\
  forall s', signature_verify (ed25519 X zs) s' m pk = Err Ed25519Error.
Proof.
move=> pk s; split.
  apply/C114_exact_partial.
    by move=> v P /= [<-|] //=; rewrite /pk ep_encK => -[<-]; rewrite mul0rn.
  rewrite /= /readable /= sc_bytesK !ep_encK; split=> //.
  rewrite big_ord1 /defect /vR /vP /vx /= !ep_encK sc_bytesK.
  by rewrite [odflt _ _]/= [odflt _ _]/= [odflt _ _]/= pmulr0 addr0 subrr pmulr0.
move=> s'; have [acc np] := @verify_scP X zs s' m pk.
have nv : ~ sc_valid X s' m pk.
  by case=> R [P [x [_ eP _ [_ nP] _]]]; move: eP; rewrite /pk ep_encK => -[eP]; apply: nP; rewrite -eP mul0rn.
by move: acc np; case: (signature_verify _ _ _ _) => [[]|[]|] // acc _; case: nv; apply/acc.
Qed.
Print Assumptions C114_identity_key_refuted.

Lemma all_two (U : Type) (p : pred U) u u' : p u -> p u' -> all p [:: u; u'].
Proof. by move=> /= -> ->. Qed.

Lemma all_one (U : Type) (p : pred U) u : p u -> all p [:: u].
Proof. by move=> /= ->. Qed.
(** A signature made with the scalar [a] and the nonce [r], off by [e] in its second part. *)
Definition off_by (X : ed_curve) (m : Digest) (a r e : scalar X) : PublicKey * Signature :=
  let A := ep_enc (pmul a (ep_base X)) in
  let R := ep_enc (pmul r (ep_base X)) in
  (A, Sig R (sc_bytes (hram X R A m * a + r + e))).
Lemma off_readable X m a r e : readable X (@off_by X m a r e).
Proof. by rewrite /readable /off_by sc_bytesK !ep_encK. Qed.
Lemma off_defect X m a r e : defect X m (@off_by X m a r e) = - pmul e (ep_base X).
Proof.
rewrite /defect /vR /vP /vx /off_by !ep_encK sc_bytesK [odflt _ _]/= [odflt _ _]/= [odflt _ _]/=.
rewrite !pmulD ?base_l // pmulM ?base_l // -/(hram X _ _ m).
by rewrite [pmul r _ + _]addrC opprD addrA subrr sub0r.
Qed.
Lemma off_sub X m a r e P : ep_dec X (@off_by X m a r e).1 = Some P -> P *+ ep_order X = 0.
Proof. by rewrite /off_by ep_encK => -[<-]; exact: pmul_base_l. Qed.
Lemma off_invalid X zs m a r e : e <> 0 ->
  signature_verify (ed25519 X zs) (@off_by X m a r e).2 m (@off_by X m a r e).1 <> Ok tt.
Proof.
move=> e0 /valid_defect[_]; rewrite off_defect => /eqP; rewrite oppr_eq0 base_eq0 => /eqP z; exact: e0.
Qed.

(** Two signatures, neither valid, whose errors cancel: accepted together exactly if the two
    coefficients are equal modulo the order. *)
Theorem C114_cancel_refuted (X : ed_curve) (zs : seq N) (m : Digest) (a a' r r' : scalar X) :
  let v := off_by m a r 1 in
  let v' := off_by m a' r' (- 1) in
  [/\ signature_verify (ed25519 X zs) v.2 m v.1 <> Ok tt, signature_verify (ed25519 X zs) v'.2 m v'.1 <> Ok tt
    & signature_verify_batch (ed25519 X zs) m [:: v; v'] = Ok tt <->
      sc_of_N X (nth 0%num zs 0) = sc_of_N X (nth 0%num zs 1)].
Proof.
move=> v v'; split.
- by apply: off_invalid; apply/eqP; exact: oner_neq0.
- by apply: off_invalid; apply/eqP; rewrite oppr_eq0 oner_neq0.
rewrite C114_exact_partial; last first.
  by move=> u P /= [<-|[<-|]] //=; rewrite ep_encK => -[<-]; exact: pmul_base_l.
rewrite big_ord_recl big_ord1 ![nth _ _ _]/= !off_defect pmulN ?base_l // opprK pmulNr.
rewrite -!pmulM ?base_l // !mulr1; split=> [[_ /eqP]|e].
  by rewrite addrC subr_eq0 => /eqP/base_inj.
split; last by rewrite e addNr.
by apply: all_two; exact: off_readable.
Qed.
Print Assumptions C114_cancel_refuted.

(** The other way round: a key with a component of order eight.  A signature under it that
    verifies on its own is refused in a batch, unless the coefficient happens to fit. *)
Theorem C114_mixed_refuted (X : ed_curve) (zs : seq N) (m : Digest) (a r : scalar X) (T : ep X) :
  let A := ep_enc (pmul a (ep_base X) + T) in
  let R := ep_enc (pmul r (ep_base X)) in
  let k := hram X R A m in
  let s := Sig R (sc_bytes (k * a + r)) in
  let z := sc_of_N X (nth 0%num zs 0) in
  (forall n, (T *+ n == 0) = (8 %| n)%N) -> a != 0 -> r != 0 -> (8 %| val k)%N ->
  signature_verify (ed25519 X zs) s m A = Ok tt /\
  (signature_verify_batch (ed25519 X zs) m [:: (A, s)] = Ok tt <-> (8 %| val (k * z)%R)%N).
Proof.
move=> A R k s z oT a0 r0 k8.
have T8 : T *+ 8 = 0 by apply/eqP; rewrite oT.
have kT : pmul k T = 0 by apply/eqP; rewrite /pmul oT.
split.
  apply: (proj2 (proj1 (@verify_scP X zs _ _ _))).
  exists (pmul r (ep_base X)), (pmul a (ep_base X) + T), (k * a + r).
  split; rewrite /= ?ep_encK ?sc_bytesK //.
    split; apply/eqP; first by rewrite -/(small_order _) small_base.
    by rewrite mulrnDl T8 addr0 -/(small_order _) small_base.
  by rewrite -/(hram X R A m) -/k pmulDr kT addr0 pmulD ?base_l // pmulM ?base_l // addrC.
rewrite batchE.
have -> : all (readable X) [:: (A, s)] by apply: all_one; rewrite /readable /s sc_bytesK !ep_encK.
have ex : vx X (A, s) = k * a + r by rewrite /vx /s sc_bytesK.
have eR : vR X (A, s) = pmul r (ep_base X) by rewrite /vR /s ep_encK.
have eP : vP X (A, s) = pmul a (ep_base X) + T by rewrite /vP ep_encK.
rewrite /batch_sum !big_ord1 -/z -[nth _ [:: _] _]/(A, s) {}ex {}eR {}eP -[vk X m (A, s)]/k.
rewrite pmulDr -!pmulM ?base_l // addrA -!pmulD ?base_l //.
have -> : - (z * (k * a + r)) + z * r + k * z * a = 0.
  by rewrite mulrDr opprD addrNK mulrA [z * k]mulrC addNr.
rewrite pmul0 add0r /pmul oT.
by case: (8 %| _)%N.
Qed.
Print Assumptions C114_mixed_refuted.

(** The property as worded: a batch verifies exactly if every signature in it does. *)
Definition C114_full (X : ed_curve) (zs : seq N) : Prop :=
  forall (m : Digest) (votes : seq (PublicKey * Signature)),
  signature_verify_batch (ed25519 X zs) m votes = Ok tt <->
  forall v, List.In v votes -> signature_verify (ed25519 X zs) v.2 m v.1 = Ok tt.
Theorem C114_full_refuted (X : ed_curve) (zs : seq N) : ~ C114_full X zs.
Proof.
move=> full; have m : Digest := [tuple of nseq 32 x00].
have [ok no] := @C114_identity_key_refuted X zs m 1.
by have := (full _ _).1 ok _ (or_introl erefl); rewrite no.
Qed.
Print Assumptions C114_full_refuted.

Lemma honest_two X zs m a r a' r' :
  signature_verify_batch (ed25519 X zs) m [:: @off_by X m a r 0; @off_by X m a' r' 0] = Ok tt.
Proof.
apply/C114_exact_partial.
  by move=> u P [<-|[<-|[]]]; exact: off_sub.
split; first by apply: all_two; exact: off_readable.
by rewrite big_ord_recl big_ord1 ![nth _ _ _]/= !off_defect pmul0 oppr0 !pmulr0 addr0.
Qed.
Lemma off_defect8 X m a r : defect X m (@off_by X m a r 1) *+ 8 <> 0.
Proof.
rewrite off_defect mulNrn => /eqP; rewrite oppr_eq0 -/(small_order _) small_base; exact/negP/oner_neq0.
Qed.

(** In the instance: two honest votes are accepted with any coefficients, and a vote that is off
    by one meets the hypothesis of the soundness theorem. *)
Example C114_example (zs : seq N) (m : Digest) :
  let v a r e := @off_by ed_toy m a r e in
  signature_verify_batch (ed25519 ed_toy zs) m [:: v 1 1 0; v 2%:R 3%:R 0] = Ok tt /\
  (signature_verify_batch (ed25519 ed_toy [:: 5; 5]%num) m [:: v 1 1 1; v 1 1 (- 1)] = Ok tt
   /\ defect ed_toy m (v 1 1 1) *+ 8 <> 0).
Proof.
move=> v; split.
  exact: honest_two.
split; last exact: off_defect8.
by have [_ _ h] := @C114_cancel_refuted ed_toy [:: 5; 5]%num m 1 1 1 1; exact: (proj2 h erefl).
Qed.

(** A group of the real order with a hash that is [2^251]: the challenge is a multiple of eight,
    and three times it, reduced, is odd. *)
Lemma big_size : size (le_bytes 64 (2 ^ 251)) == 64%N. Proof. by vm_compute. Qed.
Definition ed_big : ed_curve := cyc_curve ed_l_prime ed_l_odd ed_l_small (fun=> Tuple big_size).
Lemma big_order : N.of_nat (ep_order ed_big) = ed_l. Proof. exact: N2Nat.id. Qed.
Lemma big_sc m : sc_hash ed_big m = (N.to_nat (2 ^ 251))%:R.
Proof. by rewrite /sc_hash /sc_of_N big_order; congr (N.to_nat _)%:R; vm_compute. Qed.
Definition big_T : ep ed_big := cyc_T ed_l.
Lemma big_T_order n : (big_T *+ n == 0) = (8 %| n)%N.
Proof. exact: (cyc_torsion ed_l_prime ed_l_odd ed_l_small). Qed.
Lemma to_nat_dvd8 (n : N) : (8 %| N.to_nat n)%N = (n mod 8 =? 0)%num.
Proof. by rewrite -[8%N]/(N.to_nat 8) dvd_to_nat. Qed.
Lemma sc_val_N (X : ed_curve) (n : N) :
  val ((N.to_nat n)%:R : scalar X) = N.to_nat (n mod N.of_nat (ep_order X)).
Proof.
have l0 : N.of_nat (ep_order X) <> 0%num by have := prime_gt0 (ep_prime X); lia.
by rewrite sc_val to_nat_mod // Nat2N.id.
Qed.
Lemma big_val (n : N) : val ((N.to_nat n)%:R : scalar ed_big) = N.to_nat (n mod ed_l).
Proof. by rewrite sc_val_N big_order. Qed.

Lemma mixed_pair (X : ed_curve) (zs : seq N) (m : Digest) (a r : scalar X) (T : ep X) :
  (forall n, (T *+ n == 0) = (8 %| n)%N) -> a != 0 -> r != 0 ->
  (forall b, (8 %| val (sc_hash X b))%N) ->
  (forall b, ~~ (8 %| val (sc_hash X b * sc_of_N X (nth 0%num zs 0))%R)%N) ->
  exists v, signature_verify (ed25519 X zs) v.2 m v.1 = Ok tt /\
    signature_verify_batch (ed25519 X zs) m [:: v] <> Ok tt.
Proof.
move=> oT a0 r0 k8 kz; have [ok no] := @C114_mixed_refuted X zs m a r T oT a0 r0 (k8 _).
eexists (_, _); split; first exact: ok.
by move/no; apply/negP; exact: kz.
Qed.
Lemma big_k8 b : (8 %| val (sc_hash ed_big b))%N.
Proof. by rewrite big_sc big_val to_nat_dvd8; vm_compute. Qed.
Lemma big_kz b : ~~ (8 %| val (sc_hash ed_big b * sc_of_N ed_big (nth 0%num [:: 3]%num 0))%R)%N.
Proof. by rewrite big_sc /sc_of_N big_order -natrM -to_natM big_val to_nat_dvd8; vm_compute. Qed.

Example C114_mixed_example (m : Digest) :
  exists v, signature_verify (ed25519 ed_big [:: 3]%num) v.2 m v.1 = Ok tt /\
    signature_verify_batch (ed25519 ed_big [:: 3]%num) m [:: v] <> Ok tt.
Proof. exact: (mixed_pair m big_T_order (oner_neq0 _) (oner_neq0 _) big_k8 big_kz). Qed.
