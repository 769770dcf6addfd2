(** * PropsRuin: property C108, one bad share and the transcript it went into *)

From Coq Require Import NArith.
From mathcomp Require Import all_ssreflect all_algebra zify.
From Verif Require Import Prelude Errors BTreeMap Engine LibModel PolyModel SigmaModel PvssModel
  Spec PreludeProofs AlgebraProofs PolyProofs PvssProofs AggProofs HistProofs Instance PropsPoly
  PropsShare PropsAgg PropsHist PropsEnd PropsLimits PropsFree.

Set Implicit Arguments.
Unset Strict Implicit.
Unset Printing Implicit Defensive.

Import GRing.Theory.
Local Open Scope ring_scope.

Section Ruin.

Variables (E : engine) (D : eddsa).
Implicit Types (ag : PVSSAggregator E) (core : PVSSCore E) (m : message E).

(** By how much the encryptions of a message miss its commitments, all slots taken together: 1
    if they match. *)
Definition deviation ag core : GT E :=
  (\prod_(i < cfg_num_participants (ag_config ag)) pairing (key_of ag i) (nth 0 (comms core) i))
  / (\prod_(i < cfg_num_participants (ag_config ag))
       pairing (nth 0 (encs core) i) (srs_g2 (cfg_srs (ag_config ag)))).

Definition core_in m : PVSSCore E :=
  match m with MsgShare sh => sh_pvss_core sh | MsgTranscript y => as_pvss_core y end.

Lemma denominator_neq0 ag core :
  \prod_(i < cfg_num_participants (ag_config ag))
     pairing (nth 0 (encs core) i) (srs_g2 (cfg_srs (ag_config ag))) != 0.
Proof. by apply/prodf_neq0 => i _; exact: pairing_neq0. Qed.

Lemma deviation1 ag core : deviation ag core = 1 <-> slots_product_ok ag core.
Proof.
rewrite /deviation /slots_product_ok; split=> [e|->]; last by rewrite divff ?denominator_neq0.
by rewrite -[LHS](divfK (denominator_neq0 ag core)) e mul1r.
Qed.

Lemma deviation_add ag c1 c2 : core_sized (ag_config ag) c1 -> core_sized (ag_config ag) c2 ->
  deviation ag (core_add c1 c2) = deviation ag c1 * deviation ag c2.
Proof.
move=> [e1 k1] [e2 k2]; rewrite /deviation mulf_div; congr (_ / _).
  by rewrite -big_split /=; apply: eq_bigr => i _; rewrite nth_vadd ?k1 ?k2 // pairing_addr.
by rewrite -big_split /=; apply: eq_bigr => i _; rewrite nth_vadd ?e1 ?e2 // pairing_addl.
Qed.

Lemma deviation_ext ag ag' core : ag_config ag = ag_config ag' ->
  ag_participants ag = ag_participants ag' -> deviation ag core = deviation ag' core.
Proof.
move=> ec ep; rewrite /deviation ec; congr (_ / _); apply: eq_bigr => i _.
by rewrite /key_of ep.
Qed.

Section Session.

Variables (b : build) (config : Config E) (ps : btmap (Participant E)) (ag0 : PVSSAggregator E).
Hypothesis new : aggregator_new config ps = Ok ag0.

Lemma run_deviation ag (h : seq (call E)) : tx_ok D ag ->
  deviation ag (as_pvss_core (ag_aggregated_tx (run D b ag h)))
  = deviation ag (as_pvss_core (ag_aggregated_tx ag))
    * \prod_(m <- accepted D b ag h) deviation ag (core_in m).
Proof.
elim: h ag => [|c h IH] ag ok /=; first by rewrite big_nil mulr1.
have ok' := @receive_tx_ok E D b ag c ok.
case: (receive_cases D b ag c) => [[nok er]|[z [er vf mg]]].
  case: (receive D b ag c) nok er => r ag' /= nok ->.
  by rewrite (negbTE nok) IH.
have := @receive_static E D b ag c; rewrite er /=; case=> ec ep.
have sz := proj1 (verified_facts vf); have [_ sz0 _ _] := ok.
have [_ _ ca _ _] := proj1 (agg_okE _ _ _ _) mg.
have [n' [_ _ _ ez]] := core_aggregate_inv ca.
rewrite er /= in ok'; have := IH _ ok'; rewrite big_cons.
have dx core : deviation (set_tx ag z) core = deviation ag core by exact: deviation_ext.
rewrite dx => ->; rewrite dx /= ez deviation_add // -mulrA; congr (_ * _).
have -> : as_pvss_core (msg_tx ag (call_msg c)) = core_in (call_msg c) by case: (call_msg c).
by congr (_ * _); apply: eq_bigr => m _; rewrite dx.
Qed.

(** The transcript of a node deviates by the product of what the accepted messages deviate by:
    nothing is ever lost, whatever the order, and wherever the weights wrap. *)
Theorem C108_deviation (h : seq (call E)) :
  deviation ag0 (as_pvss_core (ag_aggregated_tx (run D b ag0 h)))
  = \prod_(m <- accepted D b ag0 h) deviation ag0 (core_in m).
Proof.
have e0 : ag0 = new_aggregator config ps by case: new.
rewrite run_deviation; last by rewrite e0; exact: new_tx_ok.
rewrite (_ : deviation ag0 _ = 1) ?mul1r //; apply/deviation1.
rewrite e0 /slots_product_ok /= !big1 // => i _; rewrite nth_nseq.
  by case: ifP => _; rewrite pairing0l.
by case: ifP => _; rewrite pairing0r.
Qed.

(** The scalar that a peer draws for the encryption check, after the [n - t - 1] ones of the
    degree test. *)
Definition scalar_drawn (R : rng E) (s : rstate R) : Fr E :=
  (rand_fr (draw (cfg_num_participants config - (cfg_degree config).+1) s).2).1.

(** A node that has let in one message that deviates, and otherwise only ones that do not: no
    peer ever accepts its transcript, unless the scalar the peer draws is 0. *)
Theorem C108_ruined (h1 h2 : seq (call E)) (c : call E) (b' : build) (R : rng E) (s : rstate R) :
  let ag1 := run D b ag0 h1 in
  let x := ag_aggregated_tx (run D b ag0 (h1 ++ c :: h2)) in
  config_ok config -> registered ag0 ->
  (receive D b ag1 c).1 = Ok tt -> deviation ag0 (core_in (call_msg c)) <> 1 ->
  (forall m, List.In m (accepted D b ag0 h1) \/ List.In m (accepted D b (receive D b ag1 c).2 h2) ->
     deviation ag0 (core_in m) = 1) ->
  scalar_drawn s != 0 -> (aggregation_verify D b' ag0 s x).1 <> Ok tt.
Proof.
move=> ag1 x ok reg acc bad clean r0 av; have [tn nq fn] := ok.
have ec0 : ag_config ag0 = config by case: new => <-.
have sc : size (comms (as_pvss_core x)) = cfg_num_participants config.
  have [] := aggregation_verify_facts av; rewrite ec0; by case.
have {}r0 : (rand_fr (ensure_degree b' s (comms (as_pvss_core x)) (cfg_degree config)).2).1 != 0.
  by rewrite ensure_degreeE ?sc.
have := @aggregation_verifyE E D b' R ag0 s x; rewrite ec0 => /(_ nq fn reg)[/(_ av)[_ _ + _ _] _].
case=> [/eqP|/deviation1]; first by rewrite (negbTE r0).
rewrite /x C108_deviation accepted_cat big_cat /= -/ag1.
case er: (receive D b ag1 c) acc clean => [r ag2] /= -> clean; rewrite big_cons.
have one l : (forall m, List.In m l -> deviation ag0 (core_in m) = 1) ->
    \prod_(m <- l) deviation ag0 (core_in m) = 1.
  elim: l => [|m l IH] al; first by rewrite big_nil.
  by rewrite big_cons IH => [|m' i]; [rewrite mulr1; apply: al; left | apply: al; right].
rewrite !one ?mulr1 ?mul1r // => m i; apply: clean; by [left | right].
Qed.

End Session.

(** What honest nodes send does not deviate, nor does what a peer accepts with a scalar other
    than 0. *)
Theorem C108_clean ag : config_ok (ag_config ag) -> registered ag ->
  [/\ forall sh, honest_share D ag sh -> deviation ag (sh_pvss_core sh) = 1,
      forall x, honest_tx D ag x -> deviation ag (as_pvss_core x) = 1
    & forall b (R : rng E) (s : rstate R) x,
      (aggregation_verify D b ag s x).1 = Ok tt ->
      (rand_fr (ensure_degree b s (comms (as_pvss_core x)) (cfg_degree (ag_config ag))).2).1 != 0 ->
      deviation ag (as_pvss_core x) = 1].
Proof.
move=> ok reg; have [tn nq fn] := ok; split=> [sh hs|x hx|b R s x av r0]; apply/deviation1.
- have [p [pa [[_ ->] _ _ _ _]]] := honest_dealt ok hs; exact: core_of_product.
- have [_ [p [_ ->]] _ _ _] := honest_sound ok hx; exact: core_of_product.
have [_ _ [/eqP e0|//] _ _] := (aggregation_verifyE D b s x nq fn reg).1 av.
by rewrite e0 in r0.
Qed.

(** Every participant can send a share that is accepted by everybody and deviates: an honest one
    with one foreign slot changed. *)
Theorem C108_poison ag (sh : PVSSShare E) (j : nat) (X : Enc E) :
  config_ok (ag_config ag) -> srs_g2 (cfg_srs (ag_config ag)) != 0 -> honest_share D ag sh ->
  (j < cfg_num_participants (ag_config ag))%N -> j <> sh_participant_id sh ->
  X <> nth 0 (encs (sh_pvss_core sh)) j ->
  deviation ag (sh_pvss_core (tamper_enc sh j X)) <> 1 /\
  forall b (R : rng E) (s : rstate R), (share_verify D b ag s (tamper_enc sh j X)).1 = Ok tt.
Proof.
move=> ok g20 hs jn jid neX; have dl := honest_dealt ok hs; have [p [pa [[_ ec] _ _ _ _]]] := dl.
have [se sc] : core_sized (ag_config ag) (sh_pvss_core sh) by rewrite ec; exact: core_of_sized.
have pk : slots_product_ok ag (sh_pvss_core sh) by rewrite ec; exact: core_of_product.
split=> [/deviation1|b R s].
  rewrite /slots_product_ok /= pk; set n := cfg_num_participants _.
  rewrite (bigD1 (Ordinal jn)) //= [RHS](bigD1 (Ordinal jn)) //= nth_set_nth /= eqxx.
  have -> : \prod_(i < n | i != Ordinal jn)
       pairing (nth 0 (set_nth 0 (encs (sh_pvss_core sh)) j X) i) (srs_g2 (cfg_srs (ag_config ag)))
     = \prod_(i < n | i != Ordinal jn)
       pairing (nth 0 (encs (sh_pvss_core sh)) i) (srs_g2 (cfg_srs (ag_config ag))).
    by apply: eq_bigr => i ne; rewrite nth_set_nth /= -(inj_eq val_inj) /= in ne *; rewrite (negbTE ne).
  move/mulIf => /(_ _)/(pairing_injl g20) e; apply: neX; apply/esym/e.
  by apply/prodf_neq0 => i _; exact: pairing_neq0.
rewrite -(dealt_accepted b s ok dl).
have -> : tamper_enc sh j X = with_encs sh (set_nth 0 (encs (sh_pvss_core sh)) j X) by [].
have e : sh = with_encs sh (encs (sh_pvss_core sh)) by case: (sh) => i [? ?] ?.
rewrite [in RHS]e; congr (fst _); apply: C12_other_slots_partial.
  by rewrite size_set_nth se; apply/maxn_idPr.
by rewrite nth_set_nth /=; case: eqP => // /esym.
Qed.

(** ** No way back *)

Definition honest_message ag m : Prop :=
  match m with MsgShare sh => honest_share D ag sh | MsgTranscript y => honest_tx D ag y end.

Lemma accepted_among b ag (h : seq (call E)) m :
  List.In m (accepted D b ag h) -> List.In m (map (@call_msg E) h).
Proof.
elim: h ag => [//|c h IH] ag /=; case: (receive D b ag c) => r ag' /=.
by case: ifP => _ /=; [case=> [->|/IH]; [left|right] | move/IH; right].
Qed.

(** The first share a node receives is an honest one with one foreign slot changed.  Whatever
    honest nodes send it afterwards, every peer refuses its transcript, unless the scalar it
    draws is 0. *)
Theorem C108_no_way_back_refuted (b b' : build) (config : Config E) (ps : btmap (Participant E))
  (ag0 : PVSSAggregator E) (sh : PVSSShare E) (j : nat) (X : Enc E) (R0 R : rng E)
  (s0 : rstate R0) (s : rstate R) (h : seq (call E)) :
  config_ok config -> aggregator_new config ps = Ok ag0 -> registered ag0 ->
  srs_g2 (cfg_srs config) != 0 -> honest_share D ag0 sh -> (j < cfg_num_participants config)%N ->
  j <> sh_participant_id sh -> X <> nth 0 (encs (sh_pvss_core sh)) j ->
  let c := @Call E (MsgShare (tamper_enc sh j X)) R0 s0 in
  (receive D b ag0 c).1 = Ok tt /\
  ((forall m, List.In m (map (@call_msg E) h) -> honest_message ag0 m) ->
   scalar_drawn config s != 0 ->
   (aggregation_verify D b' ag0 s (ag_aggregated_tx (run D b ag0 (c :: h)))).1 <> Ok tt).
Proof.
move=> ok new reg g20 hs jn jid neX c; have e0 : ag0 = new_aggregator config ps by case: new.
have ec0 : ag_config ag0 = config by rewrite e0.
have [bad av] : deviation ag0 (sh_pvss_core (tamper_enc sh j X)) <> 1 /\
    forall b (R : rng E) (s : rstate R), (share_verify D b ag0 s (tamper_enc sh j X)).1 = Ok tt.
  by apply: C108_poison; rewrite ?ec0.
have rc : (receive D b ag0 c).1 = Ok tt.
  rewrite /receive /= /receive_share; case: (share_verify D b ag0 s0 _) (av b R0 s0) => o s' /= ->.
  have sz : core_sized config (sh_pvss_core (tamper_enc sh j X)).
    have [] := share_verify_facts (av b R0 s0); by rewrite ec0.
  have n0 : (0 < cfg_num_participants config)%N by case: (ok); lia.
  rewrite /agg_aggregate_pvss_share /agg_aggregate e0 /= !eqxx /=.
  rewrite (core_aggregate_ok n0) //; last by split; rewrite /= size_nseq.
  have ms : is_ok (mapM (merge_contribution b bt_new
      (bt_insert bt_new (sh_participant_id sh) (sh_signed_proof sh, 1%num)))
      (iota 0 (cfg_num_participants config))).
    by apply: merge_all_ok => i _; rewrite bt_get1; case: ifP.
  by move: ms; case: (mapM _ _).
split=> // hon r0; have okc : config_ok (ag_config ag0) by rewrite ec0.
have [cs ct _] := C108_clean okc reg.
apply: (@C108_ruined b config ps ag0 new [::] h c) => // m [//|/accepted_among/hon].
by case: m => [sh'|y] /=; [exact: cs | exact: ct].
Qed.

End Ruin.
Print Assumptions C108_deviation.
Print Assumptions C108_ruined.
Print Assumptions C108_clean.
Print Assumptions C108_poison.
Print Assumptions C108_no_way_back_refuted.

(** Full statement (refuted): with the help of honest nodes a node can always get back to a
    transcript that its peers accept. *)
Definition C108_full : Prop :=
  forall (E : engine) (D : eddsa) (b b' : build) (config : Config E) (ps : btmap (Participant E))
    (ag0 : PVSSAggregator E) (h : seq (call E)) (R : rng E) (s : rstate R),
  config_ok config -> aggregator_new config ps = Ok ag0 -> registered ag0 ->
  exists2 h', (forall m, List.In m (map (@call_msg E) h') -> honest_message D ag0 m) &
    (aggregation_verify D b' ag0 s (ag_aggregated_tx (run D b ag0 (h ++ h')))).1 = Ok tt.

Theorem C108_full_refuted : ~ C108_full.
Proof.
move=> full; have ok : config_ok tconfig by [].
have jid : 0%N <> sh_participant_id sh2 by vm_compute.
have neX : (f 1 : Enc TE) <> nth 0 (encs (sh_pvss_core sh2)) 0 by apply/eqP; vm_compute.
have [h' hon] := full TE TD Debug Debug tconfig tparts tag
  [:: tcall (MsgShare (tamper_enc sh2 0 (f 1 : Enc TE)))] (seq_rng TE) [:: f 1; f 9; f 3]
  ok erefl tag_registered.
have [_ bad] := @C108_no_way_back_refuted TE TD Debug Debug tconfig tparts tag sh2 0 (f 1 : Enc TE)
  (seq_rng TE) (seq_rng TE) [:: f 1; f 9; f 3] [:: f 1; f 9; f 3] h' ok erefl tag_registered isT
  sh2_honest isT jid neX.
apply: bad => //; by vm_compute.
Qed.
Print Assumptions C108_full_refuted.

(** One share with a changed slot, then the honest share of another dealer and a transcript with
    both dealers: everything is accepted, the transcript deviates.  A second share with the
    opposite change, from the same dealer, would put it right. *)
Example C108_example :
  let bad := tamper_enc sh2 0 (nth 0 (encs (sh_pvss_core sh2)) 0 + f 1 : Enc TE) in
  let opp := tamper_enc sh2 0 (nth 0 (encs (sh_pvss_core sh2)) 0 - f 1 : Enc TE) in
  let good := [:: tcall (MsgShare sh1);
                  tcall (MsgTranscript (ag_aggregated_tx (run TD Debug tag
                     [:: tcall (MsgShare sh1); tcall (MsgShare sh2)])))] in
  let verdict h := is_ok (aggregation_verify TD Debug tag ([:: f 1; f 9; f 3] : rstate (seq_rng TE))
                            (ag_aggregated_tx (run TD Debug tag h))).1 in
  [/\ size (accepted TD Debug tag (tcall (MsgShare bad) :: good)) = 3%N,
      verdict (tcall (MsgShare bad) :: good) = false
    & verdict (tcall (MsgShare bad) :: good ++ [:: tcall (MsgShare opp)]) = true].
Proof. by split; vm_compute. Qed.
