(** * PropsAgg: properties C14 to C19, about verifying and merging transcripts *)

From Coq Require Import NArith Strings.Byte.
From mathcomp Require Import all_ssreflect all_algebra zify.
From Verif Require Import Prelude Errors BTreeMap Engine LibModel PolyModel SigmaModel PvssModel
  Spec PreludeProofs AlgebraProofs PolyProofs PvssProofs AggProofs Instance PropsShare.

Set Implicit Arguments.
Unset Strict Implicit.
Unset Printing Implicit Defensive.

Import GRing.Theory.
Local Open Scope ring_scope.

(** ** C14: aggregation_verify accepts exactly the transcripts satisfying its conditions *)

Theorem C14_aggregation_verify_exact (E : engine) (D : eddsa) (b : build) (R : rng E)
  (ag : PVSSAggregator E) (s : rstate R) (x : PVSSAggregatedShare E) :
  let config := ag_config ag in
  let n := cfg_num_participants config in
  let t := cfg_degree config in
  let core := as_pvss_core x in
  let g2 := srs_g2 (cfg_srs config) in
  let deg := ensure_degree b s (comms core) t in
  (** the scalar drawn after the degree check *)
  let r := (rand_fr deg.2).1 in
  (n < modulus E)%N -> fits n -> registered ag ->
  (aggregation_verify D b ag s x).1 = Ok tt <->
  [/\ size (encs core) = n /\ size (comms core) = n,
      deg.1 = Ok tt,
      r = 0 \/ \prod_(i < n) pairing (key_of ag i) (nth 0 (comms core) i)
               = \prod_(i < n) pairing (nth 0 (encs core) i) g2,
      forall i sp w, bt_get (as_contributions x) i = Some (sp, w) ->
        exists p, [/\ bt_get (ag_participants ag) i = Some p, proof_valid g2 (sp_decomp_proof sp)
                    & eddsa_valid D (sp_signature_on_decomp sp)
                        (signed_digest (sp_decomp_proof sp)) (pa_public_key_ed p)]
    & commits_to t (comms core)
        (\sum_(kv <- bt_iter (as_contributions x))
           (N.to_nat kv.2.2)%:R *: dp_gs (sp_decomp_proof kv.2.1))].
Proof.
move=> config n t core g2 deg r nq fn reg; rewrite aggregation_verifyE //.
split=> [[sz dg pr cv cm]|[sz dg pr cv cm]]; split=> //.
  by move=> i sp w /cv[p gp [pv ev]]; exists p.
by move=> i sp w /cv[p [gp pv ev]]; exists p.
Qed.
Print Assumptions C14_aggregation_verify_exact.

(** A transcript holding one honest share, and the same with weight 2. *)
Definition tx_of (sh : PVSSShare TE) : outcome pvss_error (PVSSAggregatedShare TE) :=
  agg_aggregate_pvss_share Debug (agg_empty TE 1 4) sh.

Example C14_example :
  if (@share TE TD Debug (seq_rng TE) (tnode 2) [:: f 7; f 5; f 4]).1 is Ok sh then
    if tx_of sh is Ok x then
      let y := MkAgg 4 1 (as_pvss_core x) (bt_insert bt_new 2 (sh_signed_proof sh, 2%num)) in
      [/\ (@aggregation_verify TE TD Debug (seq_rng TE) tag [:: f 1; f 9; f 3] x).1 = Ok tt
        & (@aggregation_verify TE TD Debug (seq_rng TE) tag [:: f 1; f 9; f 3] y).1
          = Err AggregationReconstructionMismatchError]
    else False
  else False.
Proof. by vm_compute. Qed.

Lemma tag_only_registered : only_registered tag.
Proof. by move=> i p; case: i => [|[|[|[|i]]]]. Qed.

(** ** C15: the slots are checked only together; false as stated *)

(** The transcript with [d] added to slot [i] and taken from slot [j] of the encryptions. *)
Definition move_enc (E : engine) (x : PVSSAggregatedShare E) (i j : nat) (d : Enc E)
  : PVSSAggregatedShare E :=
  let es := encs (as_pvss_core x) in
  let es' := set_nth 0 es i (nth 0 es i + d) in
  MkAgg (as_num_participants x) (as_degree x)
    (MkCore (set_nth 0 es' j (nth 0 es' j - d)) (comms (as_pvss_core x)))
    (as_contributions x).

(** Whoever moves a point from one slot to another leaves the verdict unchanged, for the
    same coins, but breaks the slot. *)
Theorem C15_slots_traded_refuted (E : engine) (D : eddsa) (b : build) (R : rng E)
  (ag : PVSSAggregator E) (s : rstate R) (x : PVSSAggregatedShare E) (i j : nat) (d : Enc E) :
  let n := cfg_num_participants (ag_config ag) in
  (n < modulus E)%N -> fits n -> registered ag -> (i < n)%N -> (j < n)%N -> i <> j ->
  (aggregation_verify D b ag s x).1 = Ok tt ->
  (aggregation_verify D b ag s (move_enc x i j d)).1 = Ok tt /\
  (d != 0 -> srs_g2 (cfg_srs (ag_config ag)) != 0 -> slot_ok ag (as_pvss_core x) i ->
   ~ slot_ok ag (as_pvss_core (move_enc x i j d)) i).
Proof.
move=> n nq fn reg iN jN /eqP ij /aggregation_verifyE[] // [se sc] dg pr cv cm.
set es := encs (as_pvss_core x) in se.
have ni k : nth 0 (encs (as_pvss_core (move_enc x i j d))) k
            = nth 0 es k + (if k == i then d else if k == j then - d else 0).
  rewrite /= -/es !nth_set_nth /= !nth_set_nth /=.
  have [->|kj] := eqVneq k j; first by rewrite eq_sym (negbTE ij).
  by have [->|ki] := eqVneq k i; rewrite ?addr0.
split.
  apply/aggregation_verifyE => //; split=> //.
    by split=> //=; rewrite !size_set_nth -/es se !(maxn_idPr _).
  case: pr => [r0|pr]; [by left | right].
  rewrite /slots_product_ok -/n in pr *; rewrite pr -!pairing_suml; congr pairing.
  under [RHS]eq_bigr do rewrite ni.
  rewrite big_split /= -[LHS]addr0; congr (_ + _).
  rewrite (bigD1 (Ordinal iN)) //= eqxx (bigD1 (Ordinal jN)) /=; last by rewrite -val_eqE eq_sym.
  rewrite eqxx eq_sym (negbTE ij) big1 ?addr0 ?subrr // => k; rewrite -!val_eqE /=.
  by case/andP => /negbTE-> /negbTE->.
move=> d0 g20 so; rewrite /slot_ok ni eqxx [comms _]/= so => /(pairing_injl g20)/eqP.
by rewrite -subr_eq0 opprD addNKr oppr_eq0 (negbTE d0).
Qed.
Print Assumptions C15_slots_traded_refuted.

(** A transcript carrying one polynomial and matching contributions passes everywhere. *)
Lemma core_of_accepted (E : engine) (D : eddsa) (b : build) (R : rng E)
  (ag : PVSSAggregator E) (s : rstate R) (x : PVSSAggregatedShare E) (p : {poly Fr E}) :
  config_ok (ag_config ag) -> registered ag ->
  (size p <= (cfg_degree (ag_config ag)).+1)%N -> as_pvss_core x = core_of ag p ->
  contributions_valid D ag (as_contributions x) ->
  weighted_gs (as_contributions x) = p.[0] *: srs_g2 (cfg_srs (ag_config ag)) ->
  (aggregation_verify D b ag s x).1 = Ok tt.
Proof.
move=> ok reg sp ec cv ew; have [tn nq fn] := ok.
apply/aggregation_verifyE => //; rewrite ec ew; split=> //.
- exact: core_of_sized.
- exact: core_of_degree.
- by right; apply: core_of_product.
- exact: core_of_commits.
Qed.

Lemma core_of0 (E : engine) (ag : PVSSAggregator E) :
  core_of ag 0 = core_empty E (cfg_num_participants (ag_config ag)).
Proof.
rewrite /core_of /core_empty; congr MkCore; apply: (@eq_from_nth _ 0);
  rewrite ?size_enc_vec ?size_eval_vec ?size_nseq // => i li.
  by rewrite nth_enc_vec // nth_nseq li horner0 scale0r.
by rewrite nth_eval_vec // nth_nseq li horner0 scale0r.
Qed.

Lemma empty_accepted (E : engine) (D : eddsa) (b : build) (R : rng E)
  (ag : PVSSAggregator E) (s : rstate R) :
  config_ok (ag_config ag) -> registered ag ->
  (aggregation_verify D b ag s
     (agg_empty E (cfg_degree (ag_config ag)) (cfg_num_participants (ag_config ag)))).1 = Ok tt.
Proof.
move=> ok reg; apply: (@core_of_accepted E D b R ag s _ 0) => //; first by rewrite size_poly0.
  by rewrite core_of0.
by rewrite horner0 scale0r /weighted_gs big_nil.
Qed.

(** The full statement: a transcript with a bad slot is accepted for at most one value in
    [q] of the verifier's last draw. *)
Definition C15_full : Prop :=
  forall (E : engine) (D : eddsa) (b : build) (ag : PVSSAggregator E) (x : PVSSAggregatedShare E),
  let n := cfg_num_participants (ag_config ag) in
  let t := cfg_degree (ag_config ag) in
  config_ok (ag_config ag) -> registered ag ->
  (exists2 i, (i < n)%N & ~ slot_ok ag (as_pvss_core x) i) ->
  (#|[set c : (n - t.+1).+1.-tuple (Fr E) |
      is_ok (aggregation_verify D b (R := seq_rng E) ag (c : seq (Fr E)) x).1]|
   <= modulus E ^ (n - t.+1))%N.

Theorem C15_full_refuted : ~ C15_full.
Proof.
move=> full; have tc : config_ok tconfig by [].
pose x := move_enc (agg_empty TE 1 4) 0 1 (f 1 : Enc TE).
have h := full TE TD Debug tag x tc tag_registered.
have acc (c : seq (Fr TE)) := @empty_accepted TE TD Debug (seq_rng TE) tag c tc tag_registered.
have ne : 0%N <> 1%N by [].
have h2 (c : seq (Fr TE)) := @C15_slots_traded_refuted TE TD Debug (seq_rng TE) tag c
  (agg_empty TE 1 4) 0 1 (f 1) isT erefl tag_registered isT isT ne (acc c).
have [_ bad] := h2 [::].
have {}bad : exists2 i, (i < 4)%N & ~ slot_ok tag (as_pvss_core x) i.
  by exists 0%N => //; apply: bad => //; rewrite /slot_ok nth_nseq nth_nseq pairing0l pairing0r.
have := h bad; rewrite (_ : [set _ | _] = setT).
  by rewrite cardsT card_tuple card_Fp.
by apply/setP => c; rewrite !inE; have [-> _] := h2 c.
Qed.
Print Assumptions C15_full_refuted.

(** What holds: if the slots do not match as a product then at most one value in [q] of the
    scalar drawn after the degree check lets the transcript pass. *)
Theorem C15_product_partial (E : engine) (D : eddsa) (b : build) (ag : PVSSAggregator E)
  (x : PVSSAggregatedShare E) :
  let n := cfg_num_participants (ag_config ag) in
  let t := cfg_degree (ag_config ag) in
  let core := as_pvss_core x in
  config_ok (ag_config ag) -> registered ag ->
  \prod_(i < n) pairing (key_of ag i) (nth 0 (comms core) i)
    != \prod_(i < n) pairing (nth 0 (encs core) i) (srs_g2 (cfg_srs (ag_config ag))) ->
  (#|[set c : (n - t.+1).+1.-tuple (Fr E) |
      is_ok (aggregation_verify D b (R := seq_rng E) ag (c : seq (Fr E)) x).1]|
   <= modulus E ^ (n - t.+1))%N.
Proof.
move=> n t core ok reg bad; have [tn nq fn] := ok.
set A := [set _ | _].
have sub : A \subset [set [tuple of rcons d 0] | d : (n - t.+1).-tuple (Fr E) in setT].
  apply/subsetP => c; rewrite inE => /is_okP[[]] /aggregation_verifyE[] // [se sc] _ [r0|pr] _ _; last first.
    by case/eqP: bad.
  move: r0; rewrite -/t ensure_degreeE ?sc //= -/n draw_seq ?size_tuple //= -nth0 nth_drop addn0.
  move=> cl; have sz : size (take (n - t.+1) c) == (n - t.+1)%N by rewrite size_takel ?size_tuple.
  apply/imsetP; exists (Tuple sz); rewrite ?inE //; apply: val_inj => /=.
  by rewrite -cl -take_nth ?size_tuple // take_oversize // size_tuple.
apply: leq_trans (subset_leq_card sub) _; apply: leq_trans (leq_imset_card _ _) _.
by rewrite cardsT card_tuple card_Fp ?modulus_prime.
Qed.
Print Assumptions C15_product_partial.

(** A transcript whose product of slots is wrong. *)
Definition tx_bad := MkAgg 4 1 (@MkCore TE [:: f 1; f 0; f 0; f 0] [:: f 0; f 0; f 0; f 0])
                       (bt_new : btmap (SignedProof TE * N)).
Example C15_example :
  \prod_(i < 4) @pairing TE (key_of tag i) (nth 0 (comms (as_pvss_core tx_bad)) i)
    != \prod_(i < 4) @pairing TE (nth 0 (encs (as_pvss_core tx_bad)) i) (srs_g2 tsrs).
Proof. by rewrite !big_ord_recl !big_ord0; vm_compute. Qed.

(** ** C16: core aggregation is slotwise addition *)

Theorem C16_core_aggregate (E : engine) (n : nat) :
  let sized (c : PVSSCore E) := size (encs c) = n /\ size (comms c) = n in
  (0 < n)%N ->
  [/\ (** slotwise sums *)
      forall c1 c2, sized c1 -> sized c2 ->
        exists c, [/\ core_aggregate c1 c2 = Ok c, sized c
          & forall i, nth 0 (encs c) i = nth 0 (encs c1) i + nth 0 (encs c2) i /\
                      nth 0 (comms c) i = nth 0 (comms c1) i + nth 0 (comms c2) i],
      forall c1 c2, sized c1 -> sized c2 -> core_aggregate c1 c2 = core_aggregate c2 c1,
      forall c1 c2 c3, sized c1 -> sized c2 -> sized c3 ->
        (let! c := core_aggregate c1 c2 in core_aggregate c c3)
        = (let! c := core_aggregate c2 c3 in core_aggregate c1 c)
    & forall c, sized c -> core_aggregate (core_empty E n) c = Ok c /\
                           core_aggregate c (core_empty E n) = Ok c ].
Proof.
move=> sized n0; have em := core_len_empty E n; split.
- move=> c1 c2 s1 s2; exists (core_add c1 c2); split; first exact: core_aggregate_ok s1 s2.
    exact: core_len_add.
  by case: s1 s2 => [e1 k1] [e2 k2] i; rewrite /= !nth_vadd ?e1 ?k1.
- by move=> c1 c2 s1 s2; rewrite !(core_aggregate_ok n0) // (core_addC s1 s2).
- move=> c1 c2 c3 s1 s2 s3; rewrite !(core_aggregate_ok n0) //= !(core_aggregate_ok n0) //.
  + by rewrite (core_addA s1 s2 s3).
  + exact: core_len_add.
  + exact: core_len_add.
- move=> c sc; rewrite !(core_aggregate_ok n0) // (core_addC sc em).
  by rewrite (core_add0 sc).
Qed.
Print Assumptions C16_core_aggregate.

Example C16_example :
  if @core_aggregate TE (@MkCore TE [:: f 1; f 2] [:: f 3; f 4]) (@MkCore TE [:: f 10; f 3] [:: f 1; f 1])
    is Ok c then (encs c == [:: f 0; f 5]) && (comms c == [:: f 4; f 5]) else false.
Proof. by vm_compute. Qed.

(** ** C17: transcript aggregation is associative and commutative *)

(** Equal up to which of two signed proofs of one [gs] is kept. *)
Definition same_transcript (E : engine) (x y : PVSSAggregatedShare E) : Prop :=
  [/\ as_degree x = as_degree y, as_num_participants x = as_num_participants y,
      as_pvss_core x = as_pvss_core y
    & forall i,
      match bt_get (as_contributions x) i, bt_get (as_contributions y) i with
      | Some (a, w), Some (a', w') =>
          dp_gs (sp_decomp_proof a) = dp_gs (sp_decomp_proof a') /\ w = w'
      | None, None => True
      | _, _ => False
      end].

Theorem C17_associative (E : engine) (b : build) (x y z xy yz : PVSSAggregatedShare E) :
  agg_aggregate b x y = Ok xy -> agg_aggregate b y z = Ok yz ->
  agg_aggregate b xy z = agg_aggregate b x yz.
Proof.
move=> /agg_okE[[d1 n1] [d2 n2] c1 m1 o1] /agg_okE[[d3 n3] [d4 n4] c2 m2 o2].
rewrite /agg_aggregate d2 n2 d4 n4 d1 n1 d3 n3 !eqxx /= -n3 -n1.
have [n [n0 l1 l2 ec1]] := core_aggregate_inv c1.
have [n' [_ l2' l3 ec2]] := core_aggregate_inv c2.
have en : n = n' by case: l2 l2' => [<- _] [<- _].
rewrite -{}en {n' l2'} in l3.
rewrite ec1 ec2 !(core_aggregate_ok n0) ?(core_addA l1 l2 l3) //; last 2 first.
- exact: core_len_add.
- exact: core_len_add.
have -> // : mapM (merge_contribution b (as_contributions xy) (as_contributions z)) (iota 0 (as_num_participants x))
  = mapM (merge_contribution b (as_contributions x) (as_contributions yz)) (iota 0 (as_num_participants x)).
apply: eq_in_mapM => i; rewrite mem_iota add0n => /= li.
by rewrite !merge_contributionE (merge_slot_assoc (m1 i li) (m2 i _)) // -n1.
Qed.
Print Assumptions C17_associative.

Theorem C17_commutative (E : engine) (b : build) (x y z : PVSSAggregatedShare E) :
  agg_aggregate b x y = Ok z ->
  exists2 z', agg_aggregate b y x = Ok z' & same_transcript z z' /\
    ((forall i a w a' w', bt_get (as_contributions x) i = Some (a, w) ->
        bt_get (as_contributions y) i = Some (a', w') -> a = a') -> z' = z).
Proof.
move=> /agg_okE[[d1 n1] [d2 n2] c1 m1 o1].
have [n [n0 l1 l2 ec1]] := core_aggregate_inv c1.
pose g i := if merge_slot b (bt_get (as_contributions y) i) (bt_get (as_contributions x) i) is Ok o
            then o else None.
pose z' := MkAgg (as_num_participants x) (as_degree x) (as_pvss_core z)
             (bt_collect (pmap id [seq (if g j is Some v then Some (j, v) else None) 
                                  | j <- iota 0 (as_num_participants x)])).
have gz' i : bt_get (as_contributions z') i = if (i < as_num_participants x)%N then g i else None.
  exact: bt_get_merged.
have hz' : agg_aggregate b y x = Ok z'.
  apply/agg_okE; split=> //.
  - by rewrite (core_aggregate_ok n0) // ec1 (core_addC l1 l2).
  - move=> i; rewrite -n1 => li; rewrite gz' li /g.
    by have [o' -> _] := merge_slotC (m1 i li).
  - by move=> i; rewrite -n1 gz' ltnNge => ->.
exists z' => //; split.
  split; rewrite ?d2 ?n2 // => i; rewrite gz'; case: ltnP => li; last by rewrite o1.
  rewrite /g; have [o' -> ] := merge_slotC (m1 i li); exact.
move=> one; apply: agg_ext; rewrite ?d2 ?n2 // => i.
rewrite gz'; case: ltnP => li; last by rewrite o1.
have := m1 i li; rewrite /g; case gx: (bt_get (as_contributions x) i) => [[a w]|];
  case gy: (bt_get (as_contributions y) i) => [[a' w']|] /=; try by case=> <-.
rewrite (one _ _ _ _ _ gx gy) eqxx /= => /obind_ok[w'' hw [<-]].
by rewrite u64_addC hw.
Qed.
Print Assumptions C17_commutative.

Theorem C17_identity (E : engine) (b : build) (x : PVSSAggregatedShare E) :
  let n := as_num_participants x in
  (0 < n)%N -> size (encs (as_pvss_core x)) = n -> size (comms (as_pvss_core x)) = n ->
  (forall i, (n <= i)%N -> bt_get (as_contributions x) i = None) ->
  agg_aggregate b (agg_empty E (as_degree x) n) x = Ok x /\
  agg_aggregate b x (agg_empty E (as_degree x) n) = Ok x.
Proof.
move=> n n0 se sc out; have em := core_len_empty E n.
have cx : core_len n (as_pvss_core x) by [].
split; apply/agg_okE; split=> //=.
- by rewrite (core_aggregate_ok n0) // (core_add0 cx).
- by rewrite (core_aggregate_ok n0) // (core_addC cx em) (core_add0 cx).
- by move=> i _; rewrite merge_slot0r.
Qed.
Print Assumptions C17_identity.

(** Three transcripts of one configuration that merge, contributors 0; 0 and 1; 1. *)
Definition tsp (g : nat) : SignedProof TE :=
  MkSigned (MkDecomp (@DlkProof TE (G2 TE) (f 1) (f 2) (f 3)) (f g : Com TE)) (Sig (tpk 0) (tpk 1)).
Definition ttx (es cs : seq nat) (l : seq (nat * (SignedProof TE * N))) : PVSSAggregatedShare TE :=
  MkAgg 2 1 (@MkCore TE [seq f i | i <- es] [seq f i | i <- cs]) (bt_collect l).
Definition ttx1 := ttx [:: 1; 2]%N [:: 3; 4]%N [:: (0%N, (tsp 5, 1%num))].
Definition ttx2 := ttx [:: 7; 7]%N [:: 0; 1]%N [:: (0%N, (tsp 5, 3%num)); (1%N, (tsp 6, 1%num))].
Definition ttx3 := ttx [:: 1; 1]%N [:: 2; 2]%N [:: (1%N, (tsp 6, 2%num))].
Example C17_example :
  is_ok (agg_aggregate Debug ttx1 ttx2) && is_ok (agg_aggregate Debug ttx2 ttx3) &&
  if agg_aggregate Debug ttx1 ttx2 is Ok xy then is_ok (agg_aggregate Debug xy ttx3) else false.
Proof. by vm_compute. Qed.

(** ** C18: the error contract of aggregation *)

(** Participant [i] contributed different commitments to the two transcripts. *)
Definition conflict_at (E : engine) (x y : PVSSAggregatedShare E) (i : nat) : Prop :=
  exists a w a' w', [/\ bt_get (as_contributions x) i = Some (a, w),
                        bt_get (as_contributions y) i = Some (a', w')
                      & dp_gs (sp_decomp_proof a) <> dp_gs (sp_decomp_proof a')].

(** The weights of participant [i] do not fit in 64 bits together. *)
Definition overflow_at (E : engine) (x y : PVSSAggregatedShare E) (i : nat) : Prop :=
  exists a w a' w', [/\ bt_get (as_contributions x) i = Some (a, w),
                        bt_get (as_contributions y) i = Some (a', w'),
                        dp_gs (sp_decomp_proof a) = dp_gs (sp_decomp_proof a')
                      & (2 ^ 64 <= w + w')%num].

Lemma merge_slot_cases (E : engine) (b : build) (x y : PVSSAggregatedShare E) i :
  let m := merge_slot b (bt_get (as_contributions x) i) (bt_get (as_contributions y) i) in
  [/\ m = Err TranscriptDifferentCommitments <-> conflict_at x y i,
      m = Panic ArithOverflow <-> b = Debug /\ overflow_at x y i,
      is_ok m <-> ~ conflict_at x y i /\ ~ (b = Debug /\ overflow_at x y i)
    & ~~ is_ok m -> m = Err TranscriptDifferentCommitments \/ m = Panic ArithOverflow].
Proof.
move=> m; rewrite /m /conflict_at /overflow_at {m}.
case gx: (bt_get (as_contributions x) i) => [[a w]|] /=; last first.
  split=> //; first by split=> // -[? [? [? [? [e]]]]].
    by split=> // -[_ [? [? [? [? [e]]]]]].
  by split=> // _; split=> [[? [? [? [? [e]]]]]|[_ [? [? [? [? [e]]]]]]].
case gy: (bt_get (as_contributions y) i) => [[a' w']|] /=; last first.
  split=> //; first by split=> // -[? [? [? [? [_ e]]]]].
    by split=> // -[_ [? [? [? [? [_ e]]]]]].
  by split=> // _; split=> [[? [? [? [? [_ e]]]]]|[_ [? [? [? [? [_ e]]]]]]].
rewrite /gs_of; case: eqP => [eg|ng] /=.
  rewrite /u64_add; case: N.ltb_spec => hw /=.
    split=> //.
    - by split=> // -[? [? [? [? [[<- _] [<- _]]]]]].
    - by split=> // -[_ [? [? [? [? [[_ <-] [_ <-] _ /N.le_ngt]]]]]].
    - split=> // _; split; first by case=> ? [? [? [? [[<- _] [<- _]]]]].
      by case=> _ [? [? [? [? [[_ <-] [_ <-] _ /N.le_ngt]]]]].
  case: b => /=.
    split=> //.
    - by split=> // -[? [? [? [? [[<- _] [<- _]]]]]].
    - by split=> // _; split=> //; exists a, w, a', w'.
    - by split=> // -[_ []]; split=> //; exists a, w, a', w'.
    - by right.
  split=> //.
  - by split=> // -[? [? [? [? [[<- _] [<- _]]]]]].
  - by split=> // -[].
  - by split=> // _; split=> [[? [? [? [? [[<- _] [<- _]]]]]]|[]].
split=> //.
- by split=> // _; exists a, w, a', w'.
- by split=> // -[_ [? [? [? [? [[<- _] [<- _]]]]]]].
- by split=> // -[[]]; exists a, w, a', w'.
- by left.
Qed.

Theorem C18_transcript_errors (E : engine) (b : build) (x y : PVSSAggregatedShare E) :
  let n := as_num_participants x in
  let same := as_degree x = as_degree y /\ as_num_participants x = as_num_participants y in
  let bad i := conflict_at x y i \/ (b = Debug /\ overflow_at x y i) in
  let sizes := [/\ (0 < size (comms (as_pvss_core x)))%N,
                   size (comms (as_pvss_core x)) = size (comms (as_pvss_core y)),
                   size (encs (as_pvss_core x)) = size (encs (as_pvss_core y))
                 & size (encs (as_pvss_core x)) = size (comms (as_pvss_core x))] in
  let r := agg_aggregate b x y in
  [/\ r = Err (TranscriptDifferentConfig (as_degree x) (as_degree y)
                 (as_num_participants x) (as_num_participants y)) <-> ~ same,
      r = Err TranscriptDifferentCommitments <->
        same /\ exists i, [/\ (i < n)%N, conflict_at x y i & forall j, (j < i)%N -> ~ bad j],
      forall e, r = Err e -> e = TranscriptDifferentCommitments \/ ~ same,
      is_panic r <-> same /\
        ((exists i, [/\ (i < n)%N, b = Debug, overflow_at x y i & forall j, (j < i)%N -> ~ bad j]) \/
         ((forall i, (i < n)%N -> ~ bad i) /\ ~ sizes))
    & is_ok r <-> [/\ same, sizes & forall i, (i < n)%N -> ~ bad i]].
Proof.
move=> n same bad sizes r.
have nb i : is_ok (merge_slot b (bt_get (as_contributions x) i) (bt_get (as_contributions y) i)) <-> ~ bad i.
  have [_ _ -> _] := merge_slot_cases b x y i; rewrite /bad; split; first by case=> h1 h2 [].
  by move=> h; split=> h'; apply: h; [left | right].
have [/andP[/eqP ed /eqP en]|ns] := boolP ((as_degree x == as_degree y) && (as_num_participants x == as_num_participants y)); last first.
  have nsame : ~ same by move=> [ed en]; move: ns; rewrite ed en !eqxx.
  have -> : r = Err (TranscriptDifferentConfig (as_degree x) (as_degree y)
                 (as_num_participants x) (as_num_participants y)).
    by rewrite /r /agg_aggregate -negb_and ns.
  split=> //; try by split=> // -[].
  by move=> e [<-]; right.
have hs : same by [].
have er : r = let! merged := mapM (merge_contribution b (as_contributions x) (as_contributions y)) (iota 0 n) in
    let! core := unwrap (core_aggregate (as_pvss_core x) (as_pvss_core y)) in
    Ok (MkAgg (as_num_participants x) (as_degree x) core (bt_collect (pmap id merged))).
  by rewrite /r /agg_aggregate -ed -en !eqxx.
have hc : sizes <-> is_ok (core_aggregate (as_pvss_core x) (as_pvss_core y)).
  rewrite /sizes /core_aggregate /nilp lt0n; case: eqP => h0 /=; first by split=> // -[].
  case: eqP => h1 /=; last by split=> // -[].
  case: eqP => h2 /=; last by split=> // -[].
  by case: eqP => h3 /=; [split | split=> // -[_ _ _ /esym]].
case: (first_bad b (as_contributions x) (as_contributions y) n) => [allok|[i [li bi before]]].
  have hall i : (i < n)%N -> ~ bad i by move=> li; apply/nb/allok.
  have := merge_all_ok allok; rewrite er.
  case: (mapM _ _) => // merged _ /=.
  have noex : forall P : nat -> Prop, (forall i, P i -> bad i) -> ~ exists i, (i < n)%N /\ P i.
    by move=> P h [i [li /h]]; apply: hall.
  have ntdc : ~ exists i, [/\ (i < n)%N, conflict_at x y i & forall j, (j < i)%N -> ~ bad j].
    by move=> [i [li c _]]; apply: (hall i li); left.
  have nov : ~ exists i, [/\ (i < n)%N, b = Debug, overflow_at x y i & forall j, (j < i)%N -> ~ bad j].
    by move=> [i [li bD o _]]; apply: (hall i li); right.
  case: (core_aggregate _ _) hc => [core|e|p] /= hc.
  - have hsz : sizes by case: hc => _ /(_ isT).
    split; [by split | by split=> // -[_ /ntdc] | by [] | | by split].
    by split=> // -[_ [/nov|[_ /(_ hsz)]]].
  - have nsz : ~ sizes by case: hc => h _ /h.
    split; [by split | by split=> // -[_ /ntdc] | by [] | | by split=> // -[]].
    by split=> // _; split=> //; right.
  - have nsz : ~ sizes by case: hc => h _ /h.
    split; [by split | by split=> // -[_ /ntdc] | by [] | | by split=> // -[]].
    by split=> // _; split=> //; right.
have hbad : bad i.
  have [c1 c2 _ c4] := merge_slot_cases b x y i.
  by case: (c4 bi) => [/c1|/c2]; [left | right].
have hbefore j : (j < i)%N -> ~ bad j by move=> ji; apply/nb/before.
have first k : (forall j, (j < k)%N -> ~ bad j) -> bad k -> k = i.
  move=> hk bk; case: (ltngtP k i) => // [ki|ik]; first by case: (hbefore k ki).
  by case: (hk i ik).
have nall : ~ (forall i, (i < n)%N -> ~ bad i) by move=> h; exact: (h i li).
have := merge_fail li before; have [c1 c2 _ c4] := merge_slot_cases b x y i.
case: (c4 bi) => em; rewrite em /= er => ->; rewrite /obind.
  have ci : conflict_at x y i by apply/c1.
  have noi : ~ (b = Debug /\ overflow_at x y i) by move=> /c2; rewrite em.
  split.
  - by split.
  - by split=> // _; split=> //; exists i.
  - by move=> e [<-]; left.
  - split=> // -[_ [[k [lk bD ok bk]]|[/nall]]] //.
    by have ki : k = i by [apply: first => //; right]; rewrite ki in ok; case: noi.
  - by split=> // -[_ _ /nall].
have oi : b = Debug /\ overflow_at x y i by apply/c2.
have noc : ~ conflict_at x y i by move=> /c1; rewrite em.
split.
- by split.
- split=> // -[_ [k [lk ck bk]]].
  by have ki : k = i by [apply: first => //; left]; rewrite ki in ck; case: noc.
- by [].
- split=> // _; split=> //; left; exists i; by case: oi.
- by split=> // -[_ _ /nall].
Qed.
Print Assumptions C18_transcript_errors.

Theorem C18_core_errors (E : engine) (c1 c2 : PVSSCore E) :
  let e1 := size (encs c1) in let e2 := size (encs c2) in
  let k1 := size (comms c1) in let k2 := size (comms c2) in
  let r := core_aggregate c1 c2 in
  [/\ r = Err EmptyEncryptionsVectorError <-> k1 = 0%N,
      r = Err (MismatchedCommitmentsError k1 k2) <-> k1 <> 0%N /\ k1 <> k2,
      r = Err (MismatchedEncryptionsError e1 e2) <-> [/\ k1 <> 0%N, k1 = k2 & e1 <> e2],
      r = Err (MismatchedCommitmentsEncryptionsError k1 e1) <->
        [/\ k1 <> 0%N, k1 = k2, e1 = e2 & k1 <> e1]
    & is_ok r <-> [/\ k1 <> 0%N, k1 = k2, e1 = e2 & k1 = e1]].
Proof.
move=> e1 e2 k1 k2 r; rewrite /r /core_aggregate /nilp -/e1 -/e2 -/k1 -/k2.
case: eqP => h0 /=; first by split=> //; split=> // -[].
case: eqP => h1 /=; last by split=> //; split=> // -[].
case: eqP => h2 /=; last by split=> //; split=> // -[].
by case: eqP => h3 /=; rewrite -?h2; split=> //; split=> // -[].
Qed.
Print Assumptions C18_core_errors.

Example C18_example :
  let big := ttx [:: 1; 2]%N [:: 3; 4]%N [:: (0%N, (tsp 5, (2 ^ 64 - 1)%num))] in
  let other := ttx [:: 1; 2]%N [:: 3; 4]%N [:: (0%N, (tsp 6, 1%num))] in
  let short := ttx [:: 1]%N [:: 3; 4]%N [::] in
  [/\ (if agg_aggregate Debug ttx1 (agg_empty TE 1 3) is Err (TranscriptDifferentConfig 1 1 2 3)
       then true else false),
      (if agg_aggregate Debug ttx1 other is Err TranscriptDifferentCommitments then true else false),
      (if agg_aggregate Debug ttx1 big is Panic ArithOverflow then true else false),
      is_ok (agg_aggregate Release ttx1 big)
    & is_panic (agg_aggregate Debug ttx1 short)].
Proof. by split; vm_compute. Qed.

(** ** C19: a failed receive leaves the aggregator unchanged *)

Theorem C19_failed_receive (E : engine) (D : eddsa) (b : build) (R : rng E)
  (ag : PVSSAggregator E) (s : rstate R) :
  (forall sh, let: (r, ag', _) := receive_share D b ag s sh in
     if is_ok r then
       [/\ ag_config ag' = ag_config ag, ag_participants ag' = ag_participants ag,
           (share_verify D b ag s sh).1 = Ok tt
         & agg_aggregate_pvss_share b (ag_aggregated_tx ag) sh = Ok (ag_aggregated_tx ag')]
     else ag' = ag) /\
  (forall y, let: (r, ag', _) := receive_aggregated_share D b ag s y in
     if is_ok r then
       [/\ ag_config ag' = ag_config ag, ag_participants ag' = ag_participants ag,
           (aggregation_verify D b ag s y).1 = Ok tt
         & agg_aggregate b (ag_aggregated_tx ag) y = Ok (ag_aggregated_tx ag')]
     else ag' = ag).
Proof.
split=> [sh|y]; rewrite /receive_share /receive_aggregated_share.
  case: (share_verify D b ag s sh) => [[[]|e|p] s'] //=.
  by case: (agg_aggregate_pvss_share b (ag_aggregated_tx ag) sh).
case: (aggregation_verify D b ag s y) => [[[]|e|p] s'] //=.
by case: (agg_aggregate b (ag_aggregated_tx ag) y).
Qed.
Print Assumptions C19_failed_receive.

(** A share that is received, one that fails with a panic and one that fails with Err. *)
Example C19_example :
  let deal i coins := (@share TE TD Debug (seq_rng TE) (tnode i) coins).1 in
  if deal 2%N [:: f 7; f 5; f 4] is Ok sh then
    if deal 2%N [:: f 8; f 5; f 4] is Ok sh' then
      let: (r1, ag1, s1) := @receive_share TE TD Debug (seq_rng TE) tag [:: f 1; f 9] sh in
      let: (r2, _, _) := @receive_share TE TD Debug (seq_rng TE) tag [:: f 1; f 9]
                           (tamper_enc sh 2%N (f 1 : Enc TE)) in
      let: (r3, _, _) := @receive_share TE TD Debug (seq_rng TE) ag1 [:: f 1; f 9] sh' in
      [/\ is_ok r1, is_panic r2 & is_err r3]
    else False
  else False.
Proof. by vm_compute. Qed.
