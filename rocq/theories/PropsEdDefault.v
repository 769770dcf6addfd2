(** * PropsEdDefault: C116, votes made of the default key and the default signature *)

From Coq Require Import NArith Strings.Byte.
From mathcomp Require Import all_ssreflect all_algebra zify.
From Verif Require Import Prelude Pratt Errors Engine LibModel CodecModel CodecProofs BTreeMap PolyModel
  SigmaModel PvssModel SetupModel KeyModel Spec Instance PropsShare PropsHash PropsSetup EdModel EdProofs
  EdInstance PropsEd PropsEdBatch.

Set Implicit Arguments.
Unset Strict Implicit.
Unset Printing Implicit Defensive.

Import GRing.Theory.
Local Open Scope ring_scope.

(** ** The curve edwards25519 at [y = 0] *)

(** The order of its field, and that it is prime. *)
Definition ed_q : N := (2 ^ 255 - 19)%num.

Lemma q_p1 : prime (N.to_nat 31757755568855353).
Proof.
by apply: (@check_prime _ 10 [:: (2, 3); (3, 1); (31, 1); (107, 1); (223, 1); (4153, 1); (430751, 1)])%num;
  vm_compute.
Qed.
Lemma q_p2 : prime (N.to_nat 2773320623).
Proof. by apply: (@check_prime _ 5 [:: (2, 1); (2437, 1); (569003, 1)])%num; vm_compute. Qed.
Lemma q_p3 : prime (N.to_nat 72106336199).
Proof.
apply: (@check_prime2 _ 7 [:: (2, 1); (13, 1)] [:: (2773320623, 1)])%num.
- exact: one_prime q_p2.
- by vm_compute.
by vm_compute.
Qed.
Lemma q_p4 : prime (N.to_nat 1919519569386763).
Proof.
by apply: (@check_prime _ 2 [:: (2, 1); (3, 1); (7, 1); (19, 1); (47, 2); (127, 1); (8574133, 1)])%num;
  vm_compute.
Qed.
Lemma q_p5 : prime (N.to_nat 75445702479781427272750846543864801).
Proof.
apply: (@check_prime2 _ 7 [:: (2, 5); (3, 2); (5, 2); (75707, 1)]
  [:: (72106336199, 1); (1919519569386763, 1)])%num.
- exact: two_primes q_p3 q_p4.
- by vm_compute.
by vm_compute.
Qed.
Lemma q_p6 : prime (N.to_nat 74058212732561358302231226437062788676166966415465897661863160754340907).
Proof.
apply: (@check_prime2 _ 2 [:: (2, 1); (3, 1); (353, 1); (57467, 1); (132049, 1); (1923133, 1)]
  [:: (31757755568855353, 1); (75445702479781427272750846543864801, 1)])%num.
- exact: two_primes q_p1 q_p5.
- by vm_compute.
by vm_compute.
Qed.
Lemma ed_q_prime : prime (N.to_nat ed_q).
Proof.
apply: (@check_prime2 _ 2 [:: (2, 2); (3, 1); (65147, 1)]
  [:: (74058212732561358302231226437062788676166966415465897661863160754340907, 1)])%num.
- exact: one_prime q_p6.
- by vm_compute.
by vm_compute.
Qed.

(** The equation and the addition of RFC 8032, section 5.1, over any field with [d] for the
    constant. *)
Section Edwards.
Variables (F : fieldType) (d : F).
Definition on_curve (P : F * F) : Prop :=
  - P.1 ^+ 2 + P.2 ^+ 2 = 1 + d * P.1 ^+ 2 * P.2 ^+ 2.
Definition ed_add (P Q : F * F) : F * F :=
  let t := d * P.1 * Q.1 * P.2 * Q.2 in
  ((P.1 * Q.2 + Q.1 * P.2) / (1 + t), (P.2 * Q.2 + P.1 * Q.1) / (1 - t)).

Lemma on_curve_y0 x : on_curve (x, 0) <-> x ^+ 2 = -1.
Proof.
rewrite /on_curve /= expr0n /= mulr0 !addr0; split=> [e|->]; last by rewrite opprK.
by rewrite -[LHS]opprK e.
Qed.
Lemma double_y0 x : x ^+ 2 = -1 -> ed_add (x, 0) (x, 0) = (0, -1).
Proof. by move=> e; rewrite /ed_add /= !mulr0 !add0r subr0 divr1 mul0r -expr2 e. Qed.
Lemma double_two : ed_add (0, -1) (0, -1) = (0, 1) :> F * F.
Proof. by rewrite /ed_add /= !mulr0 !mul0r !addr0 subr0 !divr1 mulrNN mulr1. Qed.
End Edwards.

(** Over a field of prime order [q] with a root [i] of -1, for any [d]. *)
Section Root.
Variables (q i : N) (q_prime : prime (N.to_nat q)).
Notation F := 'F_(N.to_nat q).
Hypothesis big : (2 < q)%num.
Hypothesis root : ((i * i + 1) mod q = 0)%num.
Hypothesis reduced : (i < q)%num.
Hypothesis even : N.even i.

Lemma root_nat (n : N) : val ((N.to_nat n)%:R : F) = N.to_nat (n mod q).
Proof. by rewrite to_nat_mod; [exact: (val_Fp_nat q_prime) | lia]. Qed.
Lemma root_sqr : ((N.to_nat i)%:R : F) ^+ 2 = -1.
Proof.
apply/eqP; rewrite -addr_eq0 expr2 -natrM -[1]/(1%:R) -natrD -to_natM.
have -> : (N.to_nat (i * i) + 1)%N = N.to_nat (i * i + 1) by rewrite N2Nat.inj_add.
by apply/eqP/val_inj; rewrite root_nat root.
Qed.
Lemma zero_bytes (d : F) :
  exists x : F,
    [/\ ~~ odd (val x), forall x', on_curve d (x', 0) <-> x' = x \/ x' = - x,
        ed_add d (x, 0) (x, 0) = (0, -1), ed_add d (0, -1) (0, -1) = (0, 1)
      & (0, -1) <> (0, 1) :> F * F].
Proof.
exists (N.to_nat i)%:R; split.
- rewrite root_nat N.mod_small //; case/N.even_spec: even => j ->.
  by rewrite to_natM oddM.
- move=> x'; rewrite on_curve_y0 -root_sqr; split=> [/eqP|[->|->]] //; last by rewrite sqrrN.
  by rewrite eqf_sqr => /orP[] /eqP ->; [left | right].
- exact/double_y0/root_sqr.
- exact: double_two.
move=> /(congr1 snd)/eqP; rewrite [snd _]/= [snd _]/= eq_sym -addr_eq0 -[1]/(1%:R) -natrD.
have -> : (1 + 1)%N = N.to_nat 2 by [].
by move/eqP/(congr1 val); rewrite root_nat N.mod_small.
Qed.
End Root.

(** The constant of edwards25519, and the even root of -1. *)
Notation ed_F := 'F_(N.to_nat ed_q).
Definition ed_d : ed_F := - (121665%:R / 121666%:R).
Definition ed_i : N := 19681161376707505956807079304988542015446066515923890162744021073123829784752%num.
Lemma ed_q_big : (2 < ed_q)%num. Proof. by vm_compute. Qed.
Lemma ed_i_root : ((ed_i * ed_i + 1) mod ed_q = 0)%num. Proof. by vm_compute. Qed.
Lemma ed_i_reduced : (ed_i < ed_q)%num. Proof. by vm_compute. Qed.
Lemma ed_i_even : N.even ed_i. Proof. by vm_compute. Qed.

(** Thirty-two zero bytes stand for the point with [y = 0] and even [x].  There is one, and
    doubling it twice gives the identity [(0, 1)], doubling it once does not: the default public
    key is a point of order four. *)
Theorem C116_zero_bytes :
  exists x : ed_F,
    [/\ ~~ odd (val x), forall x', on_curve ed_d (x', 0) <-> x' = x \/ x' = - x,
        ed_add ed_d (x, 0) (x, 0) = (0, -1), ed_add ed_d (0, -1) (0, -1) = (0, 1)
      & (0, -1) <> (0, 1) :> ed_F * ed_F].
Proof. exact (@zero_bytes ed_q ed_i ed_q_prime ed_q_big ed_i_root ed_i_reduced ed_i_even ed_d). Qed.
Print Assumptions C116_zero_bytes.

(** ** What the two verifiers say *)

(** Zero bytes decompress to a point of order four. *)
Definition zero_point (X : ed_curve) : Prop :=
  exists T : ep X, [/\ ep_dec X [tuple of nseq 32 x00] = Some T, T *+ 4 = 0 & T *+ 2 <> 0].

Lemma order_four (V : zmodType) (T : V) n : T *+ 4 = 0 -> T *+ 2 <> 0 -> (T *+ n == 0) = (4 %| n)%N.
Proof.
move=> h4 h2; rewrite {1}(divn_eq n 4) mulrnDr mulnC mulrnA h4 mul0rn add0r /dvdn.
have : (n %% 4 < 4)%N by rewrite ltn_mod.
have h1 : T != 0 by apply/eqP => e; apply: h2; rewrite e mul0rn.
case: (n %% 4)%N => [|[|[|[|k]]]] //= _; first by rewrite mulr0n eqxx.
- by rewrite mulr1n (negbTE h1).
- exact/negbTE/eqP.
- apply/negbTE/eqP => h3; move/eqP: h1; apply.
  by move: h4; rewrite mulrSr h3 add0r.
Qed.

(** One at a time: nothing verifies under the default key, and the default signature verifies
    under no key. *)
Theorem C116_single (X : ed_curve) (zs : seq N) (s : Signature) (m : Digest) (pk : PublicKey) :
  zero_point X ->
  signature_verify (ed25519 X zs) s m public_key_default = Err Ed25519Error /\
  signature_verify (ed25519 X zs) signature_default m pk = Err Ed25519Error.
Proof.
case=> T [eT h4 _].
have h8 : T *+ 8 = 0 by rewrite -[8%N]/(4 * 2)%N mulrnA h4 mul0rn.
have no (t : Signature) (k : PublicKey) : ~ ed_valid X t m k ->
    signature_verify (ed25519 X zs) t m k = Err Ed25519Error.
  move=> nv; have [acc np] := @C112_verify_exact X zs t m k.
  case e: (signature_verify _ _ _ _) np acc => [[]|[]|] // _ acc.
  by case: nv; apply/acc.
split; apply: no => -[R [P [eR eP _ [nR nP] _]]].
- by apply: nP; move: eP; rewrite eT => -[<-].
- by apply: nR; move: eR; rewrite eT => -[<-].
Qed.
Print Assumptions C116_single.

Lemma batch_sum_rcons (X : ed_curve) (m : Digest) zs votes v :
  let z := sc_of_N X (nth 0%num zs (size votes)) in
  batch_sum X m zs (rcons votes v) = batch_sum X m zs votes
    + (pmul (- (z * vx X v)) (ep_base X) + pmul z (vR X v) + pmul (vk X m v * z) (vP X v)).
Proof.
move=> z; rewrite /batch_sum size_rcons !big_ord_recr /= nth_rcons ltnn eqxx -/z.
have e i : (i < size votes)%N -> nth (m, Sig m m) (rcons votes v) i = nth (m, Sig m m) votes i.
  by move=> lt; rewrite nth_rcons lt.
under eq_bigr => i _ do rewrite e //.
under [X in _ + (X + _) + _]eq_bigr => i _ do rewrite e //.
under [X in _ + (X + _)]eq_bigr => i _ do rewrite e //.
have shuffle (a a' b b' c c' : ep X) : (a + a') + (b + b') + (c + c') = (a + b + c) + (a' + b' + c').
  by rewrite [a + a' + _]addrACA addrACA.
by rewrite opprD pmulD ?base_l // shuffle.
Qed.

(** In a batch: behind any valid votes under keys in the subgroup of the base point, the default
    key with the default signature goes through exactly if four divides [z + (k z mod l)], for
    [z] the coefficient of this vote and [k] the hash of 64 zero bytes and the digest. *)
Theorem C116_batch (X : ed_curve) (zs : seq N) (m : Digest) (votes : seq (PublicKey * Signature)) :
  zero_point X ->
  (forall v, List.In v votes -> signature_verify (ed25519 X zs) v.2 m v.1 = Ok tt /\
     forall P, ep_dec X v.1 = Some P -> P *+ ep_order X = 0) ->
  let l := N.of_nat (ep_order X) in
  let k := of_le_bytes (sha512 X (nseq 64 x00 ++ m)) in
  let z := (nth 0%num zs (size votes) mod l)%num in
  signature_verify_batch (ed25519 X zs) m (rcons votes (public_key_default, signature_default))
  = if ((z + k * z mod l) mod 4 =? 0)%num then Ok tt else Err Ed25519Error.
Proof.
case=> T [eT h4 h2] ok l k z; rewrite batchE all_rcons.
have l0 : l <> 0%num by have := prime_gt0 (ep_prime X); rewrite /l; lia.
have ec : sc_check X [tuple of nseq 32 x00] = Some 0.
  have z0 : of_le_bytes [tuple of nseq 32 x00%byte] = 0%num by vm_compute.
  rewrite /sc_check z0 -/l; have /N.ltb_lt -> // : (0 < l)%num by lia.
have -> : readable X (public_key_default, signature_default).
  by rewrite /readable [part2 _]/= [part1 _]/= [fst _]/= ec eT.
have -> : all (readable X) votes.
  elim: votes ok {z} => //= v votes IH ok; rewrite IH; last by move=> w i; apply: ok; right.
  by rewrite andbT; exact: (valid_defect (proj1 (ok v (or_introl erefl)))).1.
rewrite batch_sum_rcons batch_sum_sub; last first.
  move=> v /ok[_ h]; rewrite /vP; case e: (ep_dec X v.1) => [P|] /=; [exact: h | exact: mul0rn].
rewrite big1 ?add0r => [|i _]; last first.
  have i1 : List.In (nth (m, Sig m m) votes i) votes by exact: nth_vote.
  by rewrite (valid_defect (proj1 (ok _ i1))).2 pmulr0.
rewrite /vx /vR /vP [part2 _]/= [part1 _]/= [fst _]/= ec eT [odflt _ _]/= [odflt _ _]/=.
rewrite mulr0 oppr0 pmul0 add0r /pmul -mulrnDr (order_four _ h4 h2).
have ev (v : N) : val (sc_of_N X v) = N.to_nat (v mod l) by exact/val_small/N.mod_lt.
have -> : val (vk X m (public_key_default, signature_default) * sc_of_N X (nth 0%num zs (size votes)))
    = N.to_nat (k * z mod l).
  have -> : vk X m (public_key_default, signature_default) = (N.to_nat (k mod l))%:R.
    rewrite /vk [part1 _]/= [fst _]/= /sc_hash /sc_of_N catA -/l.
    by have -> : nseq 32 x00 ++ nseq 32 x00 = nseq 64 x00 :> seq byte by [].
  rewrite /sc_of_N -/l -/z -natrM -to_natM sc_val -(Nat2N.id (ep_order X)) -/l -to_nat_mod //.
  by rewrite N.mul_mod_idemp_l.
rewrite ev -/z -to_natD; move: (z + _)%num => w.
by have -> : (4 %| N.to_nat w)%N = (w mod 4 =? 0)%num by exact: (@dvd_to_nat 4 w).
Qed.
Print Assumptions C116_batch.

(** A curve of the real size in which zero bytes stand for a point of order four: points are
    written after moving them by that point. *)
Section Moved.
Variables (lN : N) (l_prime : prime (N.to_nat lN)) (l_odd : N.odd lN) (l_small : (lN < 2 ^ 253)%num).
Variable hash : seq byte -> 64.-tuple byte.
Let Y := cyc_curve l_prime l_odd l_small hash.
Definition moved_by : ep Y := cyc_T lN *+ 2.
Definition moved_enc (P : ep Y) : 32.-tuple byte := ep_enc (P - moved_by).
Definition moved_dec (b : 32.-tuple byte) : option (ep Y) := omap (fun P => P + moved_by) (ep_dec Y b).
Lemma moved_encK P : moved_dec (moved_enc P) = Some P.
Proof. by rewrite /moved_dec ep_encK; congr Some; rewrite subrK. Qed.
Definition moved_curve : ed_curve :=
  @EdCurve (ep Y) (ep_order Y) (ep_prime Y) (ep_odd Y) (ep_bound Y) (@ep_exponent Y) (ep_base Y)
    (ep_base_order Y) (ep_base_neq0 Y) moved_enc moved_dec moved_encK hash.
Lemma moved_zero : zero_point moved_curve.
Proof.
have l0 : lN <> 0%num by have := prime_gt0 l_prime; lia.
have z0 : of_le_bytes [tuple of nseq 32 x00%byte] = 0%num by vm_compute.
have d0 : cyc_dec lN [tuple of nseq 32 x00] = Some 0.
  by rewrite /cyc_dec z0; have /N.ltb_lt -> : (0 < 8 * lN)%num by lia.
exists moved_by; split.
- by rewrite -[LHS]/(omap (fun P => P + moved_by) (cyc_dec lN _)) d0; congr Some; rewrite add0r.
- by apply/eqP; rewrite /moved_by -mulrnA (cyc_torsion l_prime l_odd l_small).
- by apply/eqP; rewrite /moved_by -mulrnA (cyc_torsion l_prime l_odd l_small).
Qed.
End Moved.

(** The hash is one more than the first byte of the digest. *)
Definition ed_moved : ed_curve := moved_curve ed_l_prime ed_l_odd ed_l_small (toy_hash 64).
Lemma ed_moved_zero : zero_point ed_moved. Proof. exact: moved_zero. Qed.
Lemma ed_moved_order : N.of_nat (ep_order ed_moved) = ed_l. Proof. exact: N2Nat.id. Qed.
Lemma ed_moved_full : full_size ed_moved.
Proof. by rewrite /full_size ed_moved_order; vm_compute. Qed.

Lemma one_vote (X : ed_curve) zs seed m : full_size X ->
  (forall b, (of_le_bytes (sha512 X b) mod N.of_nat (ep_order X) <> 0)%num) ->
  let pk := (generate_keypair (ed25519_keys X zs) seed).1 in
  exists s, signature_verify (ed25519 X zs) s m pk = Ok tt /\
    forall P, ep_dec X pk = Some P -> P *+ ep_order X = 0.
Proof.
move=> big nz pk; have [s _ e] := @C112_generated X zs seed m unit big; exists s; split.
  by rewrite -/pk in e; rewrite e; case: N.eqb_spec (nz (drop 32 (sha512 X seed) ++ m)).
by move=> P; rewrite ep_encK => -[<-]; exact: pmul_base_l.
Qed.

Lemma two_votes (X : ed_curve) (zs : seq N) (m : Digest) (pk : PublicKey) (s : Signature) (l k : N) :
  zero_point X -> signature_verify (ed25519 X zs) s m pk = Ok tt ->
  (forall P, ep_dec X pk = Some P -> P *+ ep_order X = 0) ->
  N.of_nat (ep_order X) = l -> of_le_bytes (sha512 X (nseq 64 x00 ++ m)) = k ->
  signature_verify_batch (ed25519 X zs) m [:: (pk, s); (public_key_default, signature_default)]
  = if ((nth 0 zs 1 mod l + k * (nth 0 zs 1 mod l) mod l) mod 4 =? 0)%num
    then Ok tt else Err Ed25519Error.
Proof.
move=> zp ok sub el ek; have h v : List.In v [:: (pk, s)] ->
    signature_verify (ed25519 X zs) v.2 m v.1 = Ok tt /\
    forall P, ep_dec X v.1 = Some P -> P *+ ep_order X = 0 by case=> // <-.
by have := @C116_batch X zs m [:: (pk, s)] zp h; rewrite el ek.
Qed.

(** Behind a valid vote, the default vote goes through on a digest that begins with 2 and is
    refused on one that begins with 0, the coefficients being 5 and 1. *)
Example C116_example (seed m : 32.-tuple byte) (b : byte) :
  b = x02 \/ b = x00 -> nth x00 m 0 = b ->
  let zs := [:: 5; 1]%num in
  let pk := (generate_keypair (ed25519_keys ed_moved zs) seed).1 in
  exists s, signature_verify (ed25519 ed_moved zs) s m pk = Ok tt /\
    signature_verify_batch (ed25519 ed_moved zs) m [:: (pk, s); (public_key_default, signature_default)]
    = if b is x02 then Ok tt else Err Ed25519Error.
Proof.
move=> hb em zs pk.
have [s [ok sub]] := @one_vote ed_moved zs seed m ed_moved_full (@toy_mod_neq0 64).
exists s; split=> //.
have eh : of_le_bytes (sha512 ed_moved (nseq 64 x00 ++ m)) = (1 + Byte.to_N b)%num.
  refine (etrans (@toy_hashE 64 _) _).
  by rewrite nth_cat size_nseq ltnn subnn em.
rewrite (two_votes ed_moved_zero ok sub ed_moved_order eh).
by case: hb => ->; vm_compute.
Qed.
