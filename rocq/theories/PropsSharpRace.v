(** * PropsSharpRace: exact forms of C56, C57, C72 and C75

    Each of these properties is false as worded; the theorems here say exactly how far it
    holds. *)

From Coq Require Import NArith Strings.Byte.
From mathcomp Require Import all_ssreflect all_algebra zify.
From Verif Require Import Prelude Errors BTreeMap Engine LibModel PolyModel SigmaModel PvssModel
  Spec PreludeProofs AlgebraProofs PolyProofs PvssProofs AggProofs HistProofs Instance
  PropsPoly PropsShare PropsAgg PropsHist PropsEnd PropsLimits PropsAttack PropsVerdict
  PropsSetup PropsUniform.

Set Implicit Arguments.
Unset Strict Implicit.
Unset Printing Implicit Defensive.

Import GRing.Theory.
Local Open Scope ring_scope.

(** ** C56: how often a dealer counts *)

(** The number of shares of dealer [i] among [acc]. *)
Definition times (E : engine) (i : nat) (acc : seq (PVSSShare E)) : nat :=
  count (fun sh => sh_participant_id sh == i) acc.

(** After any history of fewer than [2^64] shares, a dealer is recorded with exactly the number
    of its shares that were accepted; it is absent if there were none.  So a dealer counts at
    most once exactly when no two of its shares were accepted. *)
Theorem C56_exact_partial (E : engine) (D : eddsa) (b : build) (config : Config E)
  (ps : btmap (Participant E)) (ag0 : PVSSAggregator E) (h : seq (call E)) :
  aggregator_new config ps = Ok ag0 -> shares_only h -> (N.of_nat (size h) < 2 ^ 64)%num ->
  let x := ag_aggregated_tx (run D b ag0 h) in
  let acc := shares_of (accepted D b ag0 h) in
  (forall i, omap (fun v : SignedProof E * N => v.2) (bt_get (as_contributions x) i)
             = if times i acc == 0%N then None else Some (N.of_nat (times i acc))) /\
  ((forall i sp w, bt_get (as_contributions x) i = Some (sp, w) -> (w <= 1)%num)
   <-> uniq (map (@sh_participant_id E) acc)).
Proof.
case=> <-; rewrite -[MkAggregator _ _ _]/(new_aggregator config ps) => so small x acc.
have := @run_logs E D b _ [::] h so small (new_tx_ok D config ps) (new_logs config ps).
rewrite cat0s -/acc -/x => -[lg _ _].
have tE i : times i acc = size (of_id i acc) by rewrite /times /of_id size_filter.
have rec i : omap (fun v : SignedProof E * N => v.2) (bt_get (as_contributions x) i)
             = if times i acc == 0%N then None else Some (N.of_nat (times i acc)).
  by rewrite lg tE; case: (of_id i acc).
have cE i : times i acc = count_mem i (map (@sh_participant_id E) acc) by rewrite count_map.
split=> //; split=> [once|u i sp w g].
  have {}once i : (count_mem i (map (@sh_participant_id E) acc) <= 1)%N.
    rewrite -cE; have := rec i; case e: (bt_get _ i) => [[sp w]|] /=; last by case: eqP => // ->.
    by case: eqP => // _ [ew]; have := once _ _ _ e; rewrite ew; lia.
  elim: (map _ _) once => [|i l IH] once //=; apply/andP; split.
    by have := once i; rewrite /= eqxx add1n ltnS leqn0 => /eqP c0; rewrite -has_pred1 has_count c0.
  by apply: IH => j; apply: leq_trans (once j); rewrite leq_addl.
have := rec i; rewrite g cE count_uniq_mem //=; case: (i \in _) => //= -[->].
by apply: N.le_refl.
Qed.
Print Assumptions C56_exact_partial.

(** The history of C56_example: of four deliveries three are accepted, two of dealer 2. *)
Example C56_exact_example :
  let h := [:: tcall (MsgShare sh2); tcall (MsgShare sh2);
               tcall (MsgShare (tamper_enc sh1 1 (f 9 : Enc TE))); tcall (MsgShare sh1)] in
  let acc := shares_of (accepted TD Debug tag h) in
  [/\ shares_only h, times 2 acc = 2%N, times 1 acc = 1%N, times 0 acc = 0%N
    & uniq (map (@sh_participant_id TE) acc) = false].
Proof. by split; vm_compute. Qed.

(** ** C57: which copies of a share are accepted *)

(** Somebody puts its own identity [j] and its own signature on a share that was accepted, and
    leaves everything else.  The copy is accepted exactly when [j] is registered for one of the
    slots, the dealer filled that slot correctly, and the signature is one on the dealer's proof:
    nothing else ties a share to its dealer. *)
Theorem C57_exact_partial (E : engine) (D : eddsa) (b : build) (R : rng E)
  (ag : PVSSAggregator E) (s : rstate R) (sh : PVSSShare E) (j : nat) (sig : Signature) :
  let dp := sp_decomp_proof (sh_signed_proof sh) in
  config_ok (ag_config ag) -> (share_verify D b ag s sh).1 = Ok tt ->
  (share_verify D b ag s (MkShare j (sh_pvss_core sh) (MkSigned dp sig))).1 = Ok tt <->
  exists pa, [/\ bt_get (ag_participants ag) j = Some pa,
                 (j < cfg_num_participants (ag_config ag))%N,
                 slot_ok ag (sh_pvss_core sh) j
               & eddsa_valid D sig (signed_digest dp) (pa_public_key_ed pa)].
Proof.
move=> dp ok; have [tn nq fn] := ok; case/share_verifyE => // p [_ _ _ cv [pv _]].
split; first by case/share_verifyE => // pa [gj lj so _ [_ ev]]; exists pa.
by case=> pa [gj lj so ev]; apply/share_verifyE => //; exists pa; split.
Qed.
Print Assumptions C57_exact_partial.

(** Dealer 1 copies the share of dealer 2: accepted with its own signature on the proof, not with
    the signature of dealer 2. *)
Example C57_exact_example :
  let dp := sp_decomp_proof (sh_signed_proof sh2) in
  let sig := sp_signature_on_decomp (sh_signed_proof sh2) in
  let copy sg := MkShare 1 (sh_pvss_core sh2) (MkSigned dp sg) in
  let answer sg := (@share_verify TE TD Debug (seq_rng TE) tag [:: f 1; f 9; f 3] (copy sg)).1 in
  [/\ (@share_verify TE TD Debug (seq_rng TE) tag [:: f 1; f 9; f 3] sh2).1 = Ok tt,
      is_ok (answer (tsign1 dp)) & is_ok (answer sig) = false].
Proof. by split; vm_compute. Qed.

(** ** C72: how much the last dealer gains *)

Section LastWord.
Variables (E : engine) (D : eddsa) (b : build).

(** Both dealings succeed and the sum of the two secrets satisfies [P]. *)
Lemma last_wordE (config : Config E) (ps : btmap (Participant E)) (ag0 : PVSSAggregator E)
  (node late : Node E) (k k' : Fr E) (R R' : rng E) (s : rstate R) (s' : rstate R')
  (F : PVSSShare E -> (cfg_degree config).+1.-tuple (Fr E)) (P : pred (Com E))
  (a : (cfg_degree config).+1.-tuple (Fr E)) :
  let g := srs_g2 (cfg_srs config) in
  aggregator_new config ps = Ok ag0 -> config_ok config -> registered ag0 ->
  party_of D ag0 node -> party_of D ag0 late ->
  pa_id (de_participant (nd_dealer node)) <> pa_id (de_participant (nd_dealer late)) ->
  last_word D b ag0 node late k k' s s' F P a
  = if deal D b node a k is Ok sh then
      (Poly (F sh) != 0) && P (((Poly a).[0] + (Poly (F sh)).[0]) *: g)
    else false.
Proof.
set t := cfg_degree config; move=> g e0 ok reg pn pl dif.
have [ec0 ep0] : ag_config ag0 = config /\ ag_participants ag0 = ps by case: e0 => <-.
have et : cfg_degree (ag_config ag0) = t by rewrite ec0.
have ok0 : config_ok (ag_config ag0) by rewrite ec0.
have tx0 : tx_ok D ag0 by case: e0 => <-; exact: new_tx_ok.
have nob i : bt_get (as_contributions (ag_aggregated_tx ag0)) i = None by case: e0 => <-.
have [z0|nz] := boolP (Poly a == 0).
  have := @deal_cases E D b ag0 node t a k et ok0 reg pn; rewrite z0 /last_word.
  by case: (deal D b node a k).
have [sh [z [d1 r1 ez dl [egs oth]]]] := @deal_received E D b ag0 node t a k R s et ok0 reg pn tx0 (nob _) nz.
rewrite /last_word d1.
have [z1|nz'] := boolP (Poly (F sh) == 0).
  have := @deal_cases E D b ag0 late t (F sh) k' et ok0 reg pl; rewrite z1.
  by case: (deal D b late (F sh) k').
have tx1 : tx_ok D (set_tx ag0 z).
  by have := @receive_tx_ok E D b ag0 (Call (MsgShare sh) s) tx0; rewrite /receive /= r1.
have fr : bt_get (as_contributions (ag_aggregated_tx (set_tx ag0 z)))
            (pa_id (de_participant (nd_dealer late))) = None.
  by rewrite /= oth ?nob //; apply/eqP => e; case: dif.
have [sh' [z' [d2 r2 ez' _ _]]] := @deal_received E D b (set_tx ag0 z) late t (F sh) k' R' s'
  et ok0 reg pl tx1 fr nz'.
rewrite d2 /= /receive /= r1 /= r2 /=.
have [tn nq fn] := ok; rewrite [ag_aggregated_tx _]/= in ez'.
have Sz : as_pvss_core z = core_of ag0 (Poly a).
  rewrite ez (_ : as_pvss_core (ag_aggregated_tx ag0) = core_empty E (cfg_num_participants config)).
    by apply: core_add0; rewrite -ec0; exact: core_of_sized.
  by case: e0 => <-.
have sp (u : t.+1.-tuple (Fr E)) : (size (Poly u) <= t.+1)%N.
  by rewrite (leq_trans (size_Poly _)) ?size_tuple.
have cm (u : {poly Fr E}) : (size u <= t.+1)%N -> commits_to t (comms (core_of ag0 u)) (u.[0] *: g).
  by have := @core_of_commits E ag0 u ok0; rewrite ec0; exact.
have cmz : commits_to t (comms (as_pvss_core z')) (((Poly a).[0] + (Poly (F sh)).[0]) *: g).
  rewrite ez' Sz scalerDl; apply: commits_to_add; rewrite ?size_eval_vec ?ec0 //.
  - by rewrite ltnW.
  - by apply: ltn_trans nq.
  - exact: cm.
  - exact: cm.
rewrite ((lagrange_commits b _ _ _ _).2 cmz) //.
- by rewrite ez' size_vadd ?Sz /= !size_eval_vec // ec0; exact: ltnW.
- by apply: ltn_trans nq.
- by clear -fn tn; move: fn tn; rewrite /fits /u64_bound -/t; lia.
Qed.

End LastWord.

(** The late dealer's choice among the constants [cs]: the first that suits, else the first. *)
Definition choosy (E : engine) t (g : Com E) (P : pred (Com E)) (cs : seq (Fr E)) (sh : PVSSShare E)
  : t.+1.-tuple (Fr E) :=
  let gs := dp_gs (sp_decomp_proof (sh_signed_proof sh)) in
  [tuple of nth (head 0 cs) cs (find (fun c => P (gs + c *: g)) cs) :: nseq t 0].

(** The honest secrets from which one of the constants [cs] leads into [P]. *)
Definition reach (E : engine) (g : Com E) (P : pred (Com E)) (cs : seq (Fr E)) : {set Fr E} :=
  [set x | has (fun c => P ((x + c) *: g)) cs].

(** Whatever a late dealer does, if its own secret is one of [cs], it hits a set of secrets at
    most for those honest secrets from which a step in [cs] leads into the set; and choosing by
    the public commitment it hits the set for all of them (the honest dealer's zero polynomial,
    for which there is no share, excepted).  So the gain of the last word is exactly the number
    of secrets that can be reached, and with no bound on the tries there is none on the gain:
    every set of two secrets is then hit for every honest share. *)
Theorem C72_exact_partial (E : engine) (D : eddsa) (b : build) (config : Config E)
  (ps : btmap (Participant E)) (ag0 : PVSSAggregator E) (node late : Node E)
  (k k' : Fr E) (R R' : rng E) (s : rstate R) (s' : rstate R') (P : pred (Com E)) (cs : seq (Fr E)) :
  let t := cfg_degree config in
  let g := srs_g2 (cfg_srs config) in
  let hits F := #|[set a : t.+1.-tuple (Fr E) | last_word D b ag0 node late k k' s s' F P a]| in
  aggregator_new config ps = Ok ag0 -> config_ok config -> registered ag0 ->
  party_of D ag0 node -> party_of D ag0 late ->
  pa_id (de_participant (nd_dealer node)) <> pa_id (de_participant (nd_dealer late)) ->
  [/\ forall F : PVSSShare E -> t.+1.-tuple (Fr E), (forall sh, (Poly (F sh)).[0] \in cs) ->
        (hits F <= #|reach g P cs| * modulus E ^ t)%N,
      0 \notin cs ->
        (hits (choosy t g P cs) + (0%R \in reach g P cs) = #|reach g P cs| * modulus E ^ t)%N
    & forall x y, x != y -> P (x *: g) -> P (y *: g) ->
        (hits (choosy t g P [seq c <- enum (Fr E) | c != 0%R]) + 1 = modulus E ^ t.+1)%N].
Proof.
move=> t g hits e0 ok reg pn pl dif.
have ec0 : ag_config ag0 = config by case: e0 => <-.
have et : cfg_degree (ag_config ag0) = t by rewrite ec0.
have ok0 : config_ok (ag_config ag0) by rewrite ec0.
have lwE F (a : t.+1.-tuple (Fr E)) : last_word D b ag0 node late k k' s s' F P a
  = if deal D b node a k is Ok sh then
      (Poly (F sh) != 0) && P (((Poly a).[0] + (Poly (F sh)).[0]) *: g)
    else false by exact: (@last_wordE E D b config ps ag0 node late k k' R R' s s' F P a e0 ok reg pn pl dif).
have cR cs' := @card_heads E t (fun x => x \in reach g P cs').
have sR cs' : #|[set x | x \in reach g P cs']| = #|reach g P cs'|.
  by congr #|pred_of_set _|; apply/setP => x; rewrite inE.
have best cs' : 0 \notin cs' ->
    (hits (choosy t g P cs') + (0%R \in reach g P cs') = #|reach g P cs'| * modulus E ^ t)%N.
  move=> nz; rewrite -sR -cR (cardsD1 [tuple 0 | i < t.+1]) addnC !inE.
  have -> : (Poly [tuple 0 | i < t.+1]).[0] = 0 :> Fr E.
    have /eqP-> : Poly [tuple 0 | i < t.+1] == 0 :> {poly Fr E} by rewrite Poly_eq0.
    exact: horner0.
  congr (_ + _)%N; rewrite /hits; congr #|pred_of_set _|; apply/setP => a; rewrite !inE lwE -Poly_eq0.
  have := @deal_cases E D b ag0 node t a k et ok0 reg pn; case: (Poly a =P 0) => [_|_].
    by case: (deal D b node a k).
  case=> sh [-> _ _ egs _]; rewrite ec0 -/g in egs.
  pose c := nth (head 0 cs') cs' (find (fun c => P (((Poly a).[0] + c) *: g)) cs').
  have ef : find (fun c0 => P (dp_gs (sp_decomp_proof (sh_signed_proof sh)) + c0 *: g)) cs'
            = find (fun c => P (((Poly a).[0] + c) *: g)) cs'.
    by apply: eq_find => c0; rewrite egs scalerDl.
  have pF : Poly (choosy t g P cs' sh) = c%:P.
    by apply/polyP => -[|i]; rewrite coef_Poly coefC /= ?nth_nseq ?if_same // ef.
  rewrite pF hornerC polyC_eq0 [~~ false]/= [RHS]andTb.
  have [hs|hs] := boolP (has _ cs').
    have lc : (find (fun c => P (((Poly a).[0] + c) *: g)) cs' < size cs')%N by rewrite -has_find.
    rewrite (nth_find (head 0 cs') hs) andbT.
    by apply: contra nz => /eqP <-; exact: mem_nth.
  case: (cs' =P [::]) => [e|/eqP]; first by rewrite /c e eqxx.
  move=> ne; apply/negP => /andP[_ pc]; case/hasP: hs; exists c => //.
  by rewrite /c; case: (leqP (size cs') (find (fun c => P (((Poly a).[0] + c) *: g)) cs')) => l;
    [rewrite nth_default //; case: (cs') ne => [//|u l0] _; exact: mem_head | exact: mem_nth].
split=> [F inF| nz|x y nxy px py].
- rewrite -sR -cR; apply: subset_leq_card; apply/subsetP => a; rewrite !inE lwE.
  case: (deal D b node a k) => // sh /andP[_ pa]; apply/hasP; by exists (Poly (F sh)).[0].
- exact: best.
set all_c := filter _ _.
have full : reach g P all_c = [set: Fr E].
  apply/setP => z; rewrite !inE; apply/hasP.
  have mem u : u != 0 -> u \in all_c by move=> u0; rewrite mem_filter /= u0 mem_enum.
  have [exz|nxz] := eqVneq x z.
    exists (y - z); last by rewrite addrC subrK.
    by apply: mem; rewrite subr_eq0 -exz eq_sym.
  by exists (x - z); [apply: mem; rewrite subr_eq0 | rewrite addrC subrK].
have nz : 0 \notin all_c by rewrite mem_filter eqxx.
have := best _ nz; rewrite full inE cardsT card_Fp ?modulus_prime // => ->.
by rewrite expnS.
Qed.
Print Assumptions C72_exact_partial.

(** In the toy setting of order 11 with the steps 1, 2 and 5: the set of the two secrets 0 and 3 is
    reached from five of the eleven honest secrets. *)
Example C72_exact_example :
  let g : Com TE := srs_g2 (cfg_srs (ag_config tag)) in
  let P : pred (Com TE) := fun T => (T == 0) || (T == f 3 *: g) in
  [/\ g != 0, (0 : Fr TE) \notin [:: f 1; f 2; f 5]
    & count (fun x => has (fun c => P ((x + c) *: g)) [:: f 1; f 2; f 5]) [seq f i | i <- iota 0 11] = 5%N].
Proof. by split; vm_compute. Qed.

(** ** C75: mixing transcripts *)

(** The Lagrange coefficient at zero of recipient [i] in the quorum [ids]. *)
Definition share_of_result (E : engine) (ids : seq nat) (i : nat) : Fr E :=
  \prod_(k <- ids | k != i) (k.+1%:R / (k.+1%:R - i.+1%:R)).

(** Every recipient of a quorum decrypts from a transcript of its own choice, [own i] instead of
    [es].  The quorum then reconstructs the same point exactly when the differences of the slots
    read, decrypted and weighted, cancel. *)
Theorem C75_exact_partial (E : engine) (b : build) (ag : PVSSAggregator E) (sk : nat -> Fr E)
  (ids : seq nat) (es : seq (Enc E)) (own : nat -> seq (Enc E)) :
  let t := cfg_degree (ag_config ag) in
  let n := cfg_num_participants (ag_config ag) in
  (n < modulus E)%N -> fits n -> quorum ag sk ids ->
  size es = n -> (forall i, size (own i) = n) ->
  exists ds ds' P P',
    [/\ mapM (fun i => decrypted_share_generate es (sk i) i) ids = Ok ds :> outcome pvss_error _,
        mapM (fun i => decrypted_share_generate (own i) (sk i) i) ids = Ok ds' :> outcome pvss_error _,
        reconstruct b t ds = Ok P, reconstruct b t ds' = Ok P'
      & P' - P = \sum_(i <- ids) (share_of_result E ids i / sk i) *: (nth 0 (own i) i - nth 0 es i)] /\
    (P = P' <-> \sum_(i <- ids) (share_of_result E ids i / sk i) *: (nth 0 (own i) i - nth 0 es i) = 0).
Proof.
move=> t n nq fn [sz u mem] se so.
have fits_t : (N.of_nat t + 1 < u64_bound)%num.
  have lt : (t < n)%N.
    have : {subset ids <= iota 0 n} by move=> i /mem[li _ _]; rewrite mem_iota.
    by move=> /(uniq_leq_size u); rewrite sz size_iota.
  by move: fn; rewrite /fits /u64_bound -/n; lia.
pose dc (e : nat -> seq (Enc E)) i := MkDec ((sk i)^-1 *: nth 0 (e i) i) i.
have dec_ok (e : nat -> seq (Enc E)) : (forall i, size (e i) = n) ->
    mapM (fun i => decrypted_share_generate (e i) (sk i) i) ids
    = Ok (map (dc e) ids) :> outcome pvss_error _.
  move=> he; apply: mapM_ok_in => i /mem[li s0 _]; rewrite /decrypted_share_generate.
  by rewrite (index_ok 0) ?he // obindE /inverse_unwrap (negbTE s0).
pose points : seq (Fr E) := [seq i.+1%:R | i <- ids].
have pu : uniq points.
  by rewrite map_inj_in_uniq // => i i' /mem[li _ _] /mem[li' _ _]; exact: (pnt_inj nq).
have szp : size points = t.+1 by rewrite size_map sz.
have coefE j : (j < t.+1)%N -> lag_coef (pts points) t j = share_of_result E ids (nth 0%N ids j).
  move=> lj; rewrite /lag_coef /share_of_result (big_nth 0%N) sz big_mkord.
  apply: eq_big => [i|i _]; first by rewrite nth_uniq ?sz.
  by rewrite /pts !(nth_map 0%N) ?sz.
have recE (e : nat -> seq (Enc E)) : (forall i, size (e i) = n) ->
    reconstruct b t (map (dc e) ids) = Ok (\sum_(i <- ids) (share_of_result E ids i / sk i) *: nth 0 (e i) i).
  move=> he; rewrite /reconstruct -!map_comp /lagrange_interpolation_g1 too_fewE // obindE.
  rewrite !size_map sz ltnn eqxx /=.
  rewrite (@lagrange_sumE _ _ _ (pts points)); first 1 last.
  - by apply: index_pts; rewrite szp.
  - by apply: (pts_uniq (t := t)); [rewrite szp | exact: take_uniq].
  - by rewrite size_map sz.
  congr Ok; rewrite [RHS](big_nth 0%N) sz big_mkord; apply: eq_bigr => j _.
  by rewrite coefE // (nth_map 0%N) ?sz //= scalerA.
exists (map (dc (fun _ => es)) ids), (map (dc own) ids).
eexists; eexists; split.
  split; [exact: dec_ok | exact: dec_ok | exact: recE | exact: recE |].
  by rewrite -sumrB; apply: eq_bigr => i _; rewrite scalerBr.
under [in X in _ <-> X]eq_bigr => i _ do rewrite scalerBr.
rewrite sumrB; split=> [->|/eqP]; first by rewrite subrr.
by rewrite subr_eq0 => /eqP ->.
Qed.
Print Assumptions C75_exact_partial.

(** The quorum of recipients 1 and 2 (degree 1) with coefficients 3 and -2. *)
Example C75_exact_example :
  [/\ fits 4, (4 < modulus TE)%N,
      quorum tag (fun i => f (i + 2)) [:: 1%N; 2%N]
    & (\prod_(k <- [:: 1%N; 2%N] | k != 1%N) (k.+1%:R / (k.+1%:R - 2%:R)) : Fr TE) == f 3].
Proof.
split; [by [] | by [] | | by rewrite !big_cons big_nil; vm_compute].
split=> // i; rewrite !inE => /orP[] /eqP ->; split;
  by [vm_compute | apply: val_inj; vm_compute].
Qed.
