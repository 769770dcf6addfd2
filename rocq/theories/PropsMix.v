(** * PropsMix: properties C75 and C76, mixing transcripts and wrong evaluations *)

From Coq Require Import NArith Strings.Byte Permutation.
From mathcomp Require Import all_ssreflect all_algebra zify.
From Verif Require Import Prelude Errors BTreeMap Engine LibModel PolyModel SigmaModel PvssModel
  SetupModel Spec PreludeProofs AlgebraProofs PolyProofs PvssProofs AggProofs HistProofs Instance
  PropsPoly PropsSigma PropsShare PropsAgg PropsHist PropsEnd PropsLimits PropsAttack PropsNet
  PropsSetup.

Set Implicit Arguments.
Unset Strict Implicit.
Unset Printing Implicit Defensive.

Import GRing.Theory.
Local Open Scope ring_scope.

(** ** C76: interpolation notices values that do not fit together; false as stated *)

(** The values at the points are those of one polynomial of degree at most [t]. *)
Definition fit_together (E : engine) (C : curve (modulus E)) (t : nat) (v : seq (pt C))
  (points : seq (Fr E)) : Prop :=
  exists2 p : {poly Fr E}, (size p <= t.+1)%N & v = eval_at p (pt_gen C) points.

Definition C76_full : Prop :=
  forall (E : engine) (b : build) (t : nat) (v : seq (Enc E)) (points : seq (Fr E)) P,
  uniq points -> size v = size points -> (N.of_nat t + 1 < 2 ^ 64)%num ->
  lagrange_interpolation_g1 b v points t = Ok P -> @fit_together E (G1 E) t v points.

Section Tail.
Variables (E : engine) (b : build).

Lemma index_take {Er} {A : eqType} (v v' : seq A) t j : size v = size v' ->
  take t.+1 v = take t.+1 v' -> (j <= t)%N -> index v j = index v' j :> outcome Er A.
Proof.
move=> es et lj; case: (ltnP j (size v)) => lv; last first.
  by rewrite !index_oob -?es.
have a : A by case: v lv {es et} => [|a v] //.
by rewrite !(index_ok a) -?es // -(nth_take (n0 := t.+1) a) // et nth_take.
Qed.

Lemma lagrange_weight_tail {Er} (xs xs' : nat -> outcome Er (Fr E)) t j : (j <= t)%N ->
  (forall k, (k <= t)%N -> xs k = xs' k) -> lagrange_weight xs t j = lagrange_weight xs' t j.
Proof.
move=> lj h; rewrite /lagrange_weight h //; case: (xs' j) => // x; rewrite !obindE.
apply: eq_in_foldM => a k; rewrite mem_iota add0n ltnS => /= lk.
by case: ifP => // _; rewrite h.
Qed.

Lemma lagrange_sum_tail {V : lmodType (Fr E)} (xs xs' : nat -> outcome pvss_error (Fr E))
  (v v' : seq V) t :
  (forall k, (k <= t)%N -> xs k = xs' k) -> size v = size v' -> take t.+1 v = take t.+1 v' ->
  lagrange_sum xs v t = lagrange_sum xs' v' t.
Proof.
move=> h es et; rewrite /lagrange_sum; apply: eq_in_foldM => a j.
rewrite mem_iota add0n ltnS => /= lj; rewrite (lagrange_weight_tail lj h).
by rewrite (index_take es et lj).
Qed.

End Tail.

(** Whatever [t], all four functions look at the first [t + 1] values and points only: what
    follows may be anything. *)
Theorem C76_tail_refuted (E : engine) (b : build) (t : nat) :
  [/\ forall (v v' : seq (Enc E)) (points points' : seq (Fr E)),
        size v = size v' -> size points = size points' ->
        take t.+1 v = take t.+1 v' -> take t.+1 points = take t.+1 points' ->
        lagrange_interpolation_g1 b v points t = lagrange_interpolation_g1 b v' points' t,
      forall (v v' : seq (Com E)) (points points' : seq (Fr E)),
        size v = size v' -> size points = size points' ->
        take t.+1 v = take t.+1 v' -> take t.+1 points = take t.+1 points' ->
        lagrange_interpolation_g2 b v points t = lagrange_interpolation_g2 b v' points' t,
      forall (v v' : seq (GT E)) (points points' : seq N),
        size v = size v' -> size points = size points' ->
        take t.+1 v = take t.+1 v' -> take t.+1 points = take t.+1 points' ->
        lagrange_interpolation_gt b v points t = lagrange_interpolation_gt b v' points' t
    & forall v v' : seq (Com E), size v = size v' -> take t.+1 v = take t.+1 v' ->
        lagrange_interpolation_simple b v t = lagrange_interpolation_simple b v' t ].
Proof.
split=> [v v' ps ps' es ep et ept|v v' ps ps' es ep et ept|v v' ps ps' es ep et ept|v v' es et].
- rewrite /lagrange_interpolation_g1 es ep; case: (too_few _ _ _) => // -[]; rewrite !obindE //; case: ifP => // _.
  by apply: lagrange_sum_tail => // k lk; exact: (index_take ep ept).
- rewrite /lagrange_interpolation_g2 es ep; case: (too_few _ _ _) => // -[]; rewrite !obindE //; case: ifP => // _.
  by apply: lagrange_sum_tail => // k lk; exact: (index_take ep ept).
- rewrite /lagrange_interpolation_gt es ep; case: (too_few _ _ _) => // -[]; rewrite !obindE //; case: ifP => // _.
  apply: eq_in_foldM => a j; rewrite mem_iota add0n ltnS => /= lj.
  rewrite (index_take es et lj) (@lagrange_weight_tail _ _ _
    (fun k => let! x := index ps' k in Ok (fr_of_u64 (modulus E) x))) // => k lk.
  by rewrite (index_take ep ept lk).
rewrite /lagrange_interpolation_simple es; case: (too_few _ _ _) => // -[]; rewrite !obindE //.
exact: lagrange_sum_tail.
Qed.
Print Assumptions C76_tail_refuted.

(** Three values of which the third does not fit: accepted. *)
Theorem C76_full_refuted : ~ C76_full.
Proof.
move=> full.
have : if @lagrange_interpolation_g1 TE Debug [:: f 1; f 1; f 2] [:: f 1; f 2; f 3] 1 is Ok _
  then true else false by vm_compute.
case e: (lagrange_interpolation_g1 _ _ _ _) => [P| |] // _.
have u : uniq [:: f 1; f 2; f 3 : Fr TE] by vm_compute.
have [p sp] := full TE Debug 1%N [:: f 1; f 1; f 2] _ P u erefl erefl e.
set g := pt_gen _ => ev.
have e1 : p.[f 1] *: g = (f 1 : Enc TE) by exact: esym (congr1 (nth 0 ^~ 0%N) ev).
have e2 : p.[f 2] *: g = (f 1 : Enc TE) by exact: esym (congr1 (nth 0 ^~ 1%N) ev).
have e3 : p.[f 3] *: g = (f 2 : Enc TE) by exact: esym (congr1 (nth 0 ^~ 2%N) ev).
have h x : p.[x] = p`_0 + p`_1 * x.
  rewrite (horner_coef_wide _ (n := 2)) // !big_ord_recl big_ord0 /= addr0.
  by rewrite expr0 mulr1 expr1.
have e31 : f 3 + f 1 = f 2 + f 2 :> Fr TE by apply: val_inj; vm_compute.
have ne : (f 2 : Enc TE) + f 1 != f 1 + f 1 by vm_compute.
have : p.[f 3] + p.[f 1] = p.[f 2] + p.[f 2].
  by rewrite !h addrACA -mulrDr e31 mulrDr addrACA.
move/(congr1 (fun x => x *: g)); rewrite !scalerDl e1 e2 e3 => e4.
by rewrite e4 eqxx in ne.
Qed.
Print Assumptions C76_full_refuted.

Section Sensitive.
Variables (E : engine) (b : build).

Lemma lag_coef_neq0 (x : nat -> Fr E) t j :
  (forall i k, (i <= t)%N -> (k <= t)%N -> x i = x k -> i = k) -> (j <= t)%N ->
  (forall k, (k <= t)%N -> x k != 0) -> lag_coef x t j != 0.
Proof.
move=> inj lj nz; rewrite /lag_coef; apply/prodf_neq0 => k nk.
have lk : (k <= t)%N by rewrite -ltnS.
rewrite mulf_neq0 ?nz // invr_eq0 subr_eq0; apply: contra nk => /eqP e.
by apply/eqP; apply: inj e.
Qed.

Lemma lagrange_sensitive {V : lmodType (Fr E)} (v v' : seq V) (points : seq (Fr E)) t j :
  (N.of_nat t + 1 < u64_bound)%num ->
  (t < size v)%N -> size v = size points -> size v' = size v -> uniq (take t.+1 points) ->
  0 \notin take t.+1 points -> (j <= t)%N ->
  (forall k, (k <= t)%N -> k <> j -> nth 0 v' k = nth 0 v k) ->
  let run (v : seq V) : outcome pvss_error V :=
    let! few := too_few b (size v) t in
    if few then Err InsufficientEvaluationsError
    else if size v != size points then Err DifferentPointsEvalsError
    else lagrange_sum (index points) v t in
  exists P P', [/\ run v = Ok P, run v' = Ok P' & P = P' <-> nth 0 v j = nth 0 v' j].
Proof.
move=> tb tv es es' u nz lj same run; have tp : (t < size points)%N by rewrite -es.
have E1 w : size w = size v ->
    run w = Ok (\sum_(i < t.+1) lag_coef (pts points) t i *: nth 0 w i).
  move=> ew; rewrite /run too_fewE // obindE ew leqNgt tv es eqxx /=.
  by rewrite (lagrange_sumE (index_pts tp) (pts_uniq tp u)) ?ew.
rewrite !E1 //; do 2!eexists; split; [reflexivity|reflexivity|].
have lj' : (j < t.+1)%N by [].
rewrite [X in X = _](bigD1 (Ordinal lj')) // [X in _ = X](bigD1 (Ordinal lj')) //=.
have -> : \sum_(i < t.+1 | i != Ordinal lj') lag_coef (pts points) t i *: nth 0 v' i
        = \sum_(i < t.+1 | i != Ordinal lj') lag_coef (pts points) t i *: nth 0 v i.
  apply: eq_bigr => i ni; have li : (i <= t)%N by rewrite -ltnS.
  by rewrite same // => ei; move: ni => /eqP[]; apply: val_inj.
have c0 : lag_coef (pts points) t j != 0.
  apply: lag_coef_neq0 => //; first exact: pts_uniq.
  move=> k lk; apply: contra nz => /eqP <-; rewrite /pts -(nth_take (n0 := t.+1) 0) //.
  by apply: mem_nth; rewrite size_takel.
split=> [/addIr|->] //; exact: (scalerI c0).
Qed.

End Sensitive.

(** What holds: every one of the first [t + 1] values counts.  Changing any of them changes
    the result, which is still returned as if it were right. *)
Theorem C76_each_counts_partial (E : engine) (b : build) (t j : nat) :
  (N.of_nat t + 1 < 2 ^ 64)%num -> (j <= t)%N ->
  (forall (v v' : seq (Enc E)) (points : seq (Fr E)),
     (t < size v)%N -> size v = size points -> size v' = size v -> uniq (take t.+1 points) ->
     0 \notin take t.+1 points ->
     (forall k, (k <= t)%N -> k <> j -> nth 0 v' k = nth 0 v k) ->
     exists P P', [/\ lagrange_interpolation_g1 b v points t = Ok P,
                      lagrange_interpolation_g1 b v' points t = Ok P'
                    & P = P' <-> nth 0 v j = nth 0 v' j]) /\
  (forall (v v' : seq (Com E)) (points : seq (Fr E)),
     (t < size v)%N -> size v = size points -> size v' = size v -> uniq (take t.+1 points) ->
     0 \notin take t.+1 points ->
     (forall k, (k <= t)%N -> k <> j -> nth 0 v' k = nth 0 v k) ->
     exists P P', [/\ lagrange_interpolation_g2 b v points t = Ok P,
                      lagrange_interpolation_g2 b v' points t = Ok P'
                    & P = P' <-> nth 0 v j = nth 0 v' j]) /\
  (forall v v' : seq (Com E),
     (t < size v)%N -> (t.+1 < modulus E)%N -> size v' = size v ->
     (forall k, (k <= t)%N -> k <> j -> nth 0 v' k = nth 0 v k) ->
     exists P P', [/\ lagrange_interpolation_simple b v t = Ok P,
                      lagrange_interpolation_simple b v' t = Ok P'
                    & P = P' <-> nth 0 v j = nth 0 v' j]).
Proof.
move=> tb lj; split=> [v v' ps|]; last split=> [v v' ps|v v' tv tq es same].
- by move=> tv es es' u nz same; exact: lagrange_sensitive.
- by move=> tv es es' u nz same; exact: lagrange_sensitive.
rewrite !lagrange_simpleE ?es //; do 2!eexists; split; [reflexivity|reflexivity|].
have lj' : (j < t.+1)%N by [].
rewrite [X in X = _](bigD1 (Ordinal lj')) // [X in _ = X](bigD1 (Ordinal lj')) //=.
have -> : \sum_(i < t.+1 | i != Ordinal lj') lag_coef (@pnt E) t i *: nth 0 v' i
        = \sum_(i < t.+1 | i != Ordinal lj') lag_coef (@pnt E) t i *: nth 0 v i.
  apply: eq_bigr => i ni; have li : (i <= t)%N by rewrite -ltnS.
  by rewrite same // => ei; move: ni => /eqP[]; apply: val_inj.
have c0 : lag_coef (@pnt E) t j != 0.
  apply: lag_coef_neq0 => //; first exact: pnt_inj_le.
  by move=> k lk; apply: (pnt_neq0 tq).
split=> [/addIr|->] //; exact: (scalerI c0).
Qed.
Print Assumptions C76_each_counts_partial.

(** The hypotheses hold for three values of degree 1 at the points 4, 2, 7, and changing the
    second value changes the result. *)
Example C76_example :
  let ps := [:: f 4; f 2; f 7 : Fr TE] in
  let v := [:: f 5; f 3; f 1 : Enc TE] in
  let v' := [:: f 5; f 6; f 1 : Enc TE] in
  [&& uniq (take 2 ps), 0 \notin take 2 ps
    & if @lagrange_interpolation_g1 TE Debug v ps 1 is Ok P then
        if @lagrange_interpolation_g1 TE Debug v' ps 1 is Ok P' then P != P' else false
      else false].
Proof. by vm_compute. Qed.

(** ** C75: nodes that record the same contributions hold the same transcript; false as stated *)

Definition C75_full : Prop :=
  forall (E : engine) (D : eddsa) (b : build) (config : Config E) (ps : btmap (Participant E))
    (ag0 : PVSSAggregator E) (h h' : seq (call E)),
  config_ok config -> aggregator_new config ps = Ok ag0 -> registered ag0 ->
  shares_only h -> shares_only h' ->
  let x := ag_aggregated_tx (run D b ag0 h) in
  let x' := ag_aggregated_tx (run D b ag0 h') in
  as_contributions x = as_contributions x' -> x = x'.

(** A new aggregator after one accepted share. *)
Lemma one_share (E : engine) (D : eddsa) (b : build) (config : Config E)
  (ps : btmap (Participant E)) (sh : PVSSShare E) (c : coins E) :
  config_ok config -> (share_verify D b (new_aggregator config ps) (projT2 c) sh).1 = Ok tt ->
  let x := ag_aggregated_tx (run D b (new_aggregator config ps) [:: with_coins (MsgShare sh) c]) in
  as_contributions x = bt_insert bt_new (sh_participant_id sh) (sh_signed_proof sh, 1%num) /\
  as_pvss_core x = sh_pvss_core sh.
Proof.
move=> ok sv x; have txok := new_tx_ok D config ps.
have [//|z [er mg]] := receive_share_ok txok sv.
have {x} -> : x = z by rewrite /x /= /with_coins er.
have [_ lid _] := share_verify_facts sv.
have /agg_okE[_ _ cz ms out] := mg; split.
  apply: bt_ext => i; rewrite bt_get1.
  case: (ltnP i (cfg_num_participants config)) => li.
    by have := ms i li; rewrite /= bt_get1 => -[].
  by rewrite out //; case: eqP => // ei; move: li; rewrite leqNgt -ei lid.
have [n [_ [l1 _] l2 ->]] := core_aggregate_inv cz.
by move: l1; rewrite /= size_nseq => ->; exact: core_add0.
Qed.

(** A dealer that deals two polynomials with the same secret, under one signed proof: one
    share to each of two nodes.  Both nodes record the same contributions; their transcripts
    differ in the slot of every recipient where the two polynomials differ. *)
Theorem C75_two_dealings_refuted (E : engine) (D : eddsa) (b : build) (config : Config E)
  (ps : btmap (Participant E)) (ag0 : PVSSAggregator E) (sh : PVSSShare E) (d : {poly Fr E})
  (c : coins E) :
  let n := cfg_num_participants config in
  let g2 := srs_g2 (cfg_srs config) in
  config_ok config -> aggregator_new config ps = Ok ag0 ->
  (share_verify D b ag0 (projT2 c) sh).1 = Ok tt ->
  (size d <= (cfg_degree config).+1)%N -> d.[0] = 0 ->
  let sh' := shift_share ag0 sh d in
  let x := ag_aggregated_tx (run D b ag0 [:: with_coins (MsgShare sh) c]) in
  let x' := ag_aggregated_tx (run D b ag0 [:: with_coins (MsgShare sh') c]) in
  as_contributions x = as_contributions x' /\
  (forall i, (i < n)%N ->
     nth 0 (encs (as_pvss_core x')) i
       = nth 0 (encs (as_pvss_core x)) i + d.[i.+1%:R] *: key_of ag0 i /\
     nth 0 (comms (as_pvss_core x')) i
       = nth 0 (comms (as_pvss_core x)) i + d.[i.+1%:R] *: g2).
Proof.
move=> n g2 ok [<-]; rewrite -[MkAggregator _ _ _]/(new_aggregator config ps) => sv sd d0 sh' x x'.
have [sv' [esp _]] := @C13_proof_binds_vector_refuted E D b _ (new_aggregator config ps) _ _ d ok sd d0 sv.
have [-> ->] := one_share ok sv; have [-> ->] := one_share ok sv'.
rewrite esp; split=> // i li; have [[se sc] _ _] := share_verify_facts sv.
rewrite /= in se sc; split.
  rewrite (nth_map (0, 0)) ?size_zip ?se ?size_map ?size_iota ?minnn //.
  rewrite nth_zip ?size_map ?size_iota //=; congr (_ + _).
  by rewrite (nth_map 0%N) ?size_iota // nth_iota.
rewrite (nth_map (0, 0)) ?size_zip ?sc ?size_eval_vec ?minnn //.
by rewrite nth_zip ?size_eval_vec //= nth_eval_vec.
Qed.
Print Assumptions C75_two_dealings_refuted.

(** Such transcripts must not be mixed: if all recipients of a quorum decrypt from the
    encryptions [es], except [j] who decrypts from [es'] where slot [j] differs, the result
    is another point, returned without complaint. *)
Theorem C75_mixing_refuted (E : engine) (b : build) (ag : PVSSAggregator E) (sk : nat -> Fr E)
  (ids : seq nat) (j : nat) (es es' : seq (Enc E)) :
  let t := cfg_degree (ag_config ag) in
  let n := cfg_num_participants (ag_config ag) in
  let own i := if i == j then es' else es in
  (n < modulus E)%N -> fits n ->
  quorum ag sk ids -> j \in ids -> size es = n -> size es' = n -> nth 0 es j <> nth 0 es' j ->
  exists ds ds' P P',
    [/\ mapM (fun i => decrypted_share_generate es (sk i) i) ids = Ok ds :> outcome pvss_error _,
        mapM (fun i => decrypted_share_generate (own i) (sk i) i) ids = Ok ds' :> outcome pvss_error _,
        reconstruct b t ds = Ok P, reconstruct b t ds' = Ok P' & P <> P'].
Proof.
move=> t n own nq fn [sz u mem] jin se se' ne.
have fits_t : (N.of_nat t + 1 < 2 ^ 64)%num.
  have lt : (t < n)%N.
    have : {subset ids <= iota 0 n} by move=> i /mem[li _ _]; rewrite mem_iota.
    by move=> /(uniq_leq_size u); rewrite sz size_iota.
  by move: fn; rewrite /fits -/n; lia.
pose dc (e : nat -> seq (Enc E)) i := MkDec ((sk i)^-1 *: nth 0 (e i) i) i.
have dec_ok (e : nat -> seq (Enc E)) : (forall i, size (e i) = n) ->
    mapM (fun i => decrypted_share_generate (e i) (sk i) i) ids
    = Ok (map (dc e) ids) :> outcome pvss_error _.
  move=> he; apply: mapM_ok_in => i /mem[li s0 _]; rewrite /decrypted_share_generate.
  by rewrite (index_ok 0) ?he // obindE /inverse_unwrap (negbTE s0).
exists (map (dc (fun _ => es)) ids), (map (dc own) ids).
have own_n i : size (own i) = n by rewrite /own; case: ifP.
pose k := seq.index j ids.
have lk : (k <= t)%N by rewrite -ltnS -sz index_mem.
have [ec _] := @C76_each_counts_partial E b t k fits_t lk.
have points (e : nat -> seq (Enc E)) :
    [seq (origin d).+1%:R | d <- map (dc e) ids] = [seq i.+1%:R : Fr E | i <- ids].
  by rewrite -map_comp.
have pu : uniq [seq i.+1%:R : Fr E | i <- ids].
  by rewrite map_inj_in_uniq // => i i' /mem[li _ _] /mem[li' _ _]; exact: (pnt_inj nq).
have pz : 0 \notin [seq i.+1%:R : Fr E | i <- ids].
  apply/mapP => -[i /mem[li _ _] /esym/eqP]; apply/negP; exact: (pnt_neq0 nq).
have tk : take t.+1 [seq i.+1%:R : Fr E | i <- ids] = [seq i.+1%:R : Fr E | i <- ids].
  by rewrite take_oversize // size_map sz.
have value (e : nat -> seq (Enc E)) i : (i < size ids)%N ->
    nth 0 [seq dec d | d <- map (dc e) ids] i = (sk (nth 0%N ids i))^-1 *: nth 0 (e (nth 0%N ids i)) (nth 0%N ids i).
  by move=> li; rewrite -map_comp (nth_map 0%N).
have [|||||i li nk|P [P' [e1 e2 e3]]] := ec [seq dec d | d <- map (dc (fun _ => es)) ids]
    [seq dec d | d <- map (dc own) ids] [seq i.+1%:R : Fr E | i <- ids].
- by rewrite !size_map sz.
- by rewrite !size_map.
- by rewrite !size_map.
- by rewrite tk.
- by rewrite tk.
- have li' : (i < size ids)%N by rewrite sz.
  rewrite !value // /own; case: eqP => // ei; case: nk.
  by rewrite /k -ei index_uniq.
exists P, P'; split; [exact: dec_ok|exact: dec_ok| | |].
- by rewrite /reconstruct points.
- by rewrite /reconstruct points.
move/e3; have lk' : (k < size ids)%N by rewrite index_mem.
rewrite !value // nth_index // /own eqxx => /scalerI h; apply: ne; apply: h.
by have [_ s0 _] := mem _ jin; rewrite invr_eq0.
Qed.
Print Assumptions C75_mixing_refuted.

Theorem C75_full_refuted : ~ C75_full.
Proof.
move=> full; have ok : config_ok (ag_config tag) by [].
have sv : (share_verify TD Debug tag (projT2 tcoins) sh2).1 = Ok tt by vm_compute.
have sd : (size ('X : {poly Fr TE}) <= (cfg_degree (ag_config tag)).+1)%N by rewrite size_polyX.
have [ec slot] := @C75_two_dealings_refuted TE TD Debug tconfig tparts tag sh2 'X tcoins ok erefl sv
  sd (hornerX 0).
have := full TE TD Debug tconfig tparts tag [:: with_coins (MsgShare sh2) tcoins]
  [:: with_coins (MsgShare (shift_share tag sh2 'X)) tcoins] ok erefl tag_registered isT isT ec.
move/(congr1 (fun x => nth 0 (comms (as_pvss_core x)) 0)).
have [_ ->] := slot 0%N isT; rewrite hornerX -[X in X = _]addr0 => /addrI/esym/eqP.
by apply/negP; vm_compute.
Qed.
Print Assumptions C75_full_refuted.

(** What holds.  After any histories whatsoever, nodes that record the same contributions
    hold commitments to the same secret. *)
Theorem C75_same_secret_partial (E : engine) (D : eddsa) (b b' : build) (config : Config E)
  (ps : btmap (Participant E)) (ag0 : PVSSAggregator E) (h h' : seq (call E)) :
  let t := cfg_degree config in
  let n := cfg_num_participants config in
  aggregator_new config ps = Ok ag0 ->
  (t < n)%N -> (n < modulus E)%N -> fits n ->
  (forall i, (i < n)%N <-> exists p, bt_get ps i = Some p) ->
  b = Debug \/ no_wrap_run D b ag0 h -> b' = Debug \/ no_wrap_run D b' ag0 h' ->
  let x := ag_aggregated_tx (run D b ag0 h) in
  let x' := ag_aggregated_tx (run D b' ag0 h') in
  as_contributions x = as_contributions x' ->
  exists S, forall bb,
    lagrange_interpolation_simple bb (comms (as_pvss_core x)) t = Ok S /\
    lagrange_interpolation_simple bb (comms (as_pvss_core x')) t = Ok S.
Proof.
move=> t n ea tn nq fn reg w w' x x' ec.
have fits_t : (N.of_nat t + 1 < 2 ^ 64)%num by move: fn; rewrite /fits -/n; lia.
have tq : (t.+1 < modulus E)%N by exact: leq_ltn_trans nq.
have [p [sp tk eS]] := C21_commitments_balanced ea tn nq fn reg w.
have [p' [sp' tk' eS']] := C21_commitments_balanced ea tn nq fn reg w'.
rewrite -/x' -/x -ec eS in eS'; exists (p.[0] *: pt_gen _) => bb.
by split; [exact: lagrange_simple_poly | rewrite eS'; exact: lagrange_simple_poly].
Qed.
Print Assumptions C75_same_secret_partial.

Lemma perm_Permutation (T : eqType) (s s' : seq T) : perm_eq s s' -> Permutation s s'.
Proof.
elim: s s' => [|a s IH] s'.
  by rewrite perm_sym => /perm_size; case: s'.
move=> pe; have := perm_mem pe a; rewrite mem_head => /esym/splitPr e.
case: s' / e pe => p1 p2 pe.
apply: Permutation_cons_app; apply: IH.
by rewrite -(perm_cons a) (perm_trans pe) // perm_catC /= perm_cons perm_catC.
Qed.

(** And if every dealer deals once, the transcripts are equal. *)
Theorem C75_one_dealing_partial (E : engine) (D : eddsa) (b b' : build) (config : Config E)
  (ps : btmap (Participant E)) (ag0 : PVSSAggregator E) (h h' : seq (call E))
  (deal : nat -> PVSSShare E) :
  aggregator_new config ps = Ok ag0 ->
  shares_only h -> (N.of_nat (size h) < 2 ^ 64)%num ->
  shares_only h' -> (N.of_nat (size h') < 2 ^ 64)%num ->
  (forall sh, List.In sh (shares_of (accepted D b ag0 h) ++ shares_of (accepted D b' ag0 h')) ->
     sh = deal (sh_participant_id sh)) ->
  let x := ag_aggregated_tx (run D b ag0 h) in
  let x' := ag_aggregated_tx (run D b' ag0 h') in
  as_contributions x = as_contributions x' -> x = x'.
Proof.
move=> ea so sz so' sz' one x x' ec.
set acc := shares_of (accepted D b ag0 h) in one.
set acc' := shares_of (accepted D b' ag0 h') in one.
have [cnt _ _] := C22_weights_count D b ea so sz.
have [cnt' _ _] := C22_weights_count D b' ea so' sz'.
have d1 : acc = map deal (map (@sh_participant_id E) acc).
  rewrite -map_comp; elim: {cnt}acc one => [//|a l IH] one /=.
  by rewrite -one /=; [congr cons; apply: IH => sh i; apply: one; right|left].
have d2 : acc' = map deal (map (@sh_participant_id E) acc').
  have {}one sh : List.In sh acc' -> sh = deal (sh_participant_id sh).
    by move=> i; apply: one; apply: List.in_or_app; right.
  rewrite -map_comp; elim: {cnt'}acc' one => [//|a l IH] one /=.
  by rewrite -one /=; [congr cons; apply: IH => sh i; apply: one; right|left].
have counts i : count (pred1 i) (map (@sh_participant_id E) acc)
              = count (pred1 i) (map (@sh_participant_id E) acc').
  have [n0 n1] := cnt i; have [n0' n1'] := cnt' i.
  move: n0 n1 n0' n1'; rewrite -/acc -/acc' -/x -/x' !count_map -!size_filter ec.
  rewrite /preim /=; case: (filter _ acc) => [|a l]; case: (filter _ acc') => [|a' l'] //.
  - by move=> -> // _ _ /(_ a' l' erefl).
  - by move=> _ /(_ a l erefl) -> /(_ erefl).
  by move=> _ /(_ a l erefl) -> _ /(_ a' l' erefl) [_ /=]; lia.
have pm : Permutation acc acc'.
  rewrite d1 d2; apply: Permutation_map; apply: perm_Permutation.
  by apply/permP => P; rewrite -!sum1_count; apply: perm_big; apply/allP => i _; apply/eqP.
have [_ fin] := C23_order_independent ea so sz so' sz' pm.
apply: fin => sh sh' i i' ei.
have e1 : sh = deal (sh_participant_id sh) by apply: one; apply: List.in_or_app; left.
have e2 : sh' = deal (sh_participant_id sh') by apply: one; apply: List.in_or_app; left.
by rewrite e1 e2 ei.
Qed.
Print Assumptions C75_one_dealing_partial.

(** Dealer 2 deals [sh2] to one node and, under the same signed proof, [sh2] shifted by the
    polynomial X to another; both also receive [sh1].  Recipients 0 and 1 get the secret
    [8 g1] from either transcript, and something else if they mix them. *)
Definition sh2X : PVSSShare TE := shift_share tag sh2 'X.

Example C75_example :
  let node sh := run TD Debug tag [:: tcall (MsgShare sh); tcall (MsgShare sh1)] in
  let es sh := encs (as_pvss_core (ag_aggregated_tx (node sh))) in
  let sh2s := MkShare 2 (MkCore
      [seq e.1 + e.2 | e <- zip (encs (sh_pvss_core sh2)) [seq i.+1%:R *: key_of tag i | i <- iota 0 4]]
      [seq e.1 + e.2 | e <- zip (comms (sh_pvss_core sh2))
                              [seq i%:R *: srs_g2 (cfg_srs tconfig) | i <- iota 1 4]])
      (sh_signed_proof sh2) in
  let secret (es0 es1 : seq (Enc TE)) :=
    if (decrypted_share_generate es0 (f 2 : Fr TE) 0 : outcome pvss_error _) is Ok d0 then
      if (decrypted_share_generate es1 (f 3 : Fr TE) 1 : outcome pvss_error _) is Ok d1 then
        if reconstruct Debug 1 [:: d0; d1] is Ok P then Some P else None
      else None
    else None in
  [/\ sh2X = sh2s,
      [seq kv.1 | kv <- bt_iter (as_contributions (ag_aggregated_tx (node sh2s)))] = [:: 1; 2]%N,
      is_ok (receive TD Debug (node sh2) (tcall (MsgTranscript (ag_aggregated_tx (node sh2s))))).1,
      secret (es sh2) (es sh2) == secret (es sh2s) (es sh2s)
    & secret (es sh2) (es sh2s) != secret (es sh2) (es sh2)].
Proof.
split; [|by vm_compute|by vm_compute|by vm_compute|by vm_compute].
rewrite /sh2X /shift_share; congr (MkShare _ (MkCore _ _) _); congr [seq _ | _ <- zip _ _].
- by apply: eq_map => i; rewrite hornerX.
- by apply: eq_map => i /=; rewrite hornerX.
Qed.
