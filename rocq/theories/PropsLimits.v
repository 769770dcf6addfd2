(** * PropsLimits: properties C48 to C52, what verification does and does not guarantee *)

From Coq Require Import NArith Strings.Byte.
From mathcomp Require Import all_ssreflect all_algebra zify.
From Verif Require Import Prelude Errors BTreeMap Engine LibModel PolyModel SigmaModel PvssModel
  Spec PreludeProofs AlgebraProofs PolyProofs PvssProofs AggProofs HistProofs Instance PropsPoly
  PropsShare PropsAgg PropsHist PropsEnd.

Set Implicit Arguments.
Unset Strict Implicit.
Unset Printing Implicit Defensive.

Import GRing.Theory.
Local Open Scope ring_scope.

(** ** C48: zero weights; false as stated *)

Lemma big_list_insert (V : Type) (G : zmodType) (F : nat * V -> G) (l : seq (nat * V)) k v :
  list_get l k = None ->
  \sum_(kv <- list_insert l k v) F kv = F (k, v) + \sum_(kv <- l) F kv.
Proof.
elim: l => [|[k' v'] l IH] /=; first by rewrite big_seq1 big_nil addr0.
case: ltngtP => // h hn; first by rewrite big_cons.
by rewrite !big_cons IH // addrCA.
Qed.

Lemma weighted_gs_insert (E : engine) (cs : btmap (SignedProof E * N)) k sp w :
  bt_get cs k = None ->
  weighted_gs (bt_insert cs k (sp, w)) = (N.to_nat w)%:R *: dp_gs (sp_decomp_proof sp) + weighted_gs cs.
Proof. by move=> h; rewrite /weighted_gs big_list_insert. Qed.

(** The transcript with one more contributor. *)
Definition add_contributor (E : engine) (x : PVSSAggregatedShare E) (i : nat)
  (sp : SignedProof E) (w : N) : PVSSAggregatedShare E :=
  MkAgg (as_num_participants x) (as_degree x) (as_pvss_core x)
    (bt_insert (as_contributions x) i (sp, w)).

(** Anyone holding a valid signed proof of participant [i] can list [i] with weight zero in
    any accepted transcript: it is accepted with the same coins and carries the same core. *)
Theorem C48_free_rider_refuted (E : engine) (D : eddsa) (b : build) (R : rng E)
  (ag : PVSSAggregator E) (s : rstate R) (x : PVSSAggregatedShare E) (i : nat)
  (sp : SignedProof E) (p : Participant E) :
  let n := cfg_num_participants (ag_config ag) in
  (n < modulus E)%N -> fits n -> registered ag ->
  bt_get (as_contributions x) i = None -> bt_get (ag_participants ag) i = Some p ->
  signed_valid D (ag_config ag) sp (pa_public_key_ed p) ->
  (aggregation_verify D b ag s x).1 = Ok tt ->
  (aggregation_verify D b ag s (add_contributor x i sp 0)).1 = Ok tt.
Proof.
move=> n nq fn reg nx gp sv /aggregation_verifyE[] // sz dg pr cv cm.
apply/aggregation_verifyE => //; split=> //=.
  move=> j sp' w'; rewrite bt_get_insert; case: eqP => [<- [<- _]|_ /cv//].
  by exists p.
by rewrite weighted_gs_insert // scale0r add0r.
Qed.
Print Assumptions C48_free_rider_refuted.

(** The full statement. *)
Definition C48_full : Prop :=
  forall (E : engine) (D : eddsa) (b : build) (R : rng E) (ag : PVSSAggregator E) (s : rstate R)
    (x : PVSSAggregatedShare E),
  config_ok (ag_config ag) -> registered ag -> (aggregation_verify D b ag s x).1 = Ok tt ->
  forall i sp w, bt_get (as_contributions x) i = Some (sp, w) -> (0 < w)%num.

Theorem C48_full_refuted : ~ C48_full.
Proof.
move=> full; pose x := add_contributor (agg_empty TE 1 4) 2 (sh_signed_proof sh2) 0.
have tc : config_ok tconfig by [].
have h := full TE TD Debug (seq_rng TE) tag [:: f 1; f 9; f 3] x tc tag_registered.
have acc : (@aggregation_verify TE TD Debug (seq_rng TE) tag [:: f 1; f 9; f 3] x).1 = Ok tt.
  by vm_compute.
have g : bt_get (as_contributions x) 2 = Some (sh_signed_proof sh2, 0%num) by [].
by have := h acc _ _ _ g.
Qed.
Print Assumptions C48_full_refuted.

(** A message whose weights are all positive. *)
Definition positive_weights (E : engine) (cs : btmap (SignedProof E * N)) : Prop :=
  forall i sp w, bt_get cs i = Some (sp, w) -> (0 < w)%num.

(** What holds: as long as the received transcripts list no one with weight zero and no
    weight wraps, neither does the aggregator's. *)
Theorem C48_positive_weights_partial (E : engine) (D : eddsa) (b : build) (config : Config E)
  (ps : btmap (Participant E)) (ag0 : PVSSAggregator E) (h : seq (call E)) :
  aggregator_new config ps = Ok ag0 ->
  b = Debug \/ no_wrap_run D b ag0 h ->
  (forall y, List.In (MsgTranscript y) (map (@call_msg E) h) -> positive_weights (as_contributions y)) ->
  positive_weights (as_contributions (ag_aggregated_tx (run D b ag0 h))).
Proof.
case=> <-; set ag := MkAggregator _ _ _.
have : positive_weights (as_contributions (ag_aggregated_tx ag)) by [].
elim: h ag => [|c h IH] ag //= pos nw msgs; apply: IH.
- case: (receive_cases D b ag c) => [[_ ->//]|[z [-> _ mg]]] /=.
  have pm : positive_weights (msg_contributions (call_msg c)).
    case ec: (call_msg c) => [sh|y]; last by apply: msgs; left.
    by move=> i sp w; rewrite /= bt_get1; case: eqP => // _ [_ <-].
  move: mg => /agg_okE[_ _ _ ms out] i sp w.
  case: (ltnP i (as_num_participants (ag_aggregated_tx ag))) => li; last by rewrite out.
  move=> gz; have := ms i li; rewrite gz msg_tx_contributions.
  have p1 := pos i; have p2 := pm i.
  have nwi : b = Debug \/ forall sp w sp' w',
      bt_get (as_contributions (ag_aggregated_tx ag)) i = Some (sp, w) ->
      bt_get (msg_contributions (call_msg c)) i = Some (sp', w') -> (w + w' < 2 ^ 64)%num.
    by case: nw => [->|[nw _]]; [left | right=> ? ? ? ?; exact: nw].
  case: (bt_get (as_contributions _) i) p1 nwi => [[a1 w1]|] p1 nwi;
    case: (bt_get (msg_contributions _) i) p2 nwi => [[a2 w2]|] p2 nwi //=.
  + case: ifP => // _ /obind_ok[w' hw [_ <-]].
    have h1 := p1 _ _ erefl; move: hw; rewrite /u64_add; case: N.ltb_spec => [_ [<-]|big].
      by lia.
    by case: nwi => [->//|/(_ _ _ _ _ erefl erefl)/N.lt_nge]; case; exact: big.
  + by case=> _ <-; exact: (p1 _ _ erefl).
  + by case=> _ <-; exact: (p2 _ _ erefl).
- by case: nw => [->|[_ nw]]; [left | right].
- by move=> y iny; apply: msgs; right.
Qed.
Print Assumptions C48_positive_weights_partial.

Example C48_example : positive_weights (as_contributions tother) /\
  size (accepted TD Debug tag thist2) = 3%N.
Proof.
split; last by vm_compute.
have e : all (fun kv => (0 <? kv.2.2)%num) (bt_iter (as_contributions tother)) by vm_compute.
move=> i sp w /bt_get_In; elim: (bt_iter _) e => [|kv l IH] //= /andP[h1 h2] [ekv|]; last exact: IH.
by move: h1; rewrite ekv /=; lia.
Qed.

(** ** C50: how often aggregation_verify accepts a bad transcript *)

(** What a transcript must satisfy, as a property of the transcript alone: no coins. *)
Definition sound_transcript (E : engine) (D : eddsa) (ag : PVSSAggregator E)
  (x : PVSSAggregatedShare E) : Prop :=
  let core := as_pvss_core x in
  [/\ core_sized (ag_config ag) core, low_degree (cfg_degree (ag_config ag)) (comms core),
      slots_product_ok ag core, contributions_valid D ag (as_contributions x)
    & commits_to (cfg_degree (ag_config ag)) (comms core) (weighted_gs (as_contributions x))].

Lemma low_degreeP (E : engine) (t : nat) (v : seq (Com E)) :
  reflect (low_degree t v)
    [exists c : t.+1.-tuple (Fr E), v == eval_vec (Poly c) (pt_gen (G2 E)) (size v)].
Proof.
apply: (iffP existsP) => [[c /eqP e]|[p sp e]].
  by exists (Poly c) => //; apply: leq_trans (size_Poly _) _; rewrite size_tuple.
have sz : size (mkseq (fun i => p`_i) t.+1) == t.+1 by rewrite size_mkseq.
exists (Tuple sz); apply/eqP; rewrite {1}e; congr eval_vec; apply/polyP => i.
rewrite coef_Poly /=; case: (ltnP i t.+1) => li; first by rewrite nth_mkseq.
by rewrite !nth_default ?size_mkseq // (leq_trans sp).
Qed.

Lemma low_degree_ok (E : engine) (b : build) (R : rng E) (s : rstate R) (v : seq (Com E)) t :
  (t.+2 <= size v)%N -> (size v < modulus E)%N -> fits (size v) -> low_degree t v ->
  (ensure_degree b s v t).1 = Ok tt.
Proof. by move=> tn nq fn [p sp ->]; rewrite ensure_degree_complete ?size_eval_vec. Qed.

Lemma draw_rcons (E : engine) (R : rng E) k (s : rstate R) :
  (draw k.+1 s).1 = rcons (draw k s).1 (rand_fr (draw k s).2).1.
Proof.
elim: k s => [|k IH] s; first by rewrite /=; case: (rand_fr s).
rewrite [draw k.+2 s]/= [draw k.+1 s]/=; case: (rand_fr s) => a s1.
have := IH s1; rewrite [draw k.+1 s1]/=.
case: (rand_fr s1) => a1 s2; case: (draw k s2) => xs s3.
by case: (draw k s1) => ys s4 /= ->.
Qed.

(** The verdict is a function of the draws only. *)
Lemma agg_verdict_draws (E : engine) (D : eddsa) (b : build) (R : rng E) (ag : PVSSAggregator E)
  (s : rstate R) (x : PVSSAggregatedShare E) :
  let n := cfg_num_participants (ag_config ag) in
  let t := cfg_degree (ag_config ag) in
  config_ok (ag_config ag) -> registered ag ->
  is_ok (aggregation_verify D b ag s x).1
  = is_ok (aggregation_verify D b (R := seq_rng E) ag (draw (n - t.+1).+1 s).1 x).1.
Proof.
move=> n t ok reg; have [tn nq fn] := ok; set c := (draw _ s).1.
have sc : size c = (n - t.+1).+1 by rewrite size_draw.
have ec : c = rcons (draw (n - t.+1) s).1 (rand_fr (draw (n - t.+1) s).2).1 by exact: draw_rcons.
have key : core_sized (ag_config ag) (as_pvss_core x) ->
    let d := ensure_degree b s (comms (as_pvss_core x)) t in
    let d' := ensure_degree b (R := seq_rng E) c (comms (as_pvss_core x)) t in
    d.1 = d'.1 /\ (rand_fr d.2).1 = (rand_fr d'.2).1.
  move=> [_ szc]; rewrite /= !ensure_degreeE ?szc -/n //= draw_seq ?sc //=.
  by rewrite ec -cats1 take_size_cat ?drop_size_cat ?size_draw.
apply/is_okP/is_okP => -[[]] /aggregation_verifyE[] // sz dg pr cv cm; exists tt;
  apply/aggregation_verifyE => //; have [e1 e2] := key sz; split=> //.
- by rewrite -e1.
- by case: pr => [r0|pr]; [left; rewrite -e2 | right].
- by rewrite e1.
- by case: pr => [r0|pr]; [left; rewrite e2 | right].
Qed.

Lemma bad_degree_count (E : engine) (D : eddsa) (b : build) (ag : PVSSAggregator E)
  (x : PVSSAggregatedShare E) :
  let n := cfg_num_participants (ag_config ag) in
  let t := cfg_degree (ag_config ag) in
  config_ok (ag_config ag) -> registered ag -> size (comms (as_pvss_core x)) = n ->
  ~ low_degree t (comms (as_pvss_core x)) ->
  (#|[set c : (n - t.+1).+1.-tuple (Fr E) |
      is_ok (aggregation_verify D b (R := seq_rng E) ag (c : seq (Fr E)) x).1]|
   <= modulus E ^ (n - t.+1))%N.
Proof.
move=> n t ok reg sc nlow; have [tn nq fn] := ok.
pose K := [set c : (n - t.+1).-tuple (Fr E) |
   is_ok (ensure_degree b (R := seq_rng E) (c : seq (Fr E)) (comms (as_pvss_core x)) t).1].
have cK : #|K| = (modulus E ^ (n - t.+2))%N.
  by have := ensure_degree_kernel b (v := comms (as_pvss_core x)) (t := t); rewrite sc => ->.
set A := [set _ | _].
have sub : A \subset [set [tuple of rcons dr.1 dr.2] | dr : (n - t.+1).-tuple (Fr E) * Fr E
                      in setX K setT].
  apply/subsetP => c; rewrite inE => /is_okP[[]] /aggregation_verifyE[] // _ dg _ _ _.
  have sz : size (take (n - t.+1) c) == (n - t.+1)%N by rewrite size_takel ?size_tuple.
  apply/imsetP; exists (Tuple sz, nth 0 c (n - t.+1)); last first.
    apply: val_inj => /=; rewrite -take_nth ?size_tuple // take_oversize //.
    by rewrite size_tuple.
  rewrite !inE andbT /=; move: dg.
  have l1 : (n - t.+1 <= size c)%N by rewrite size_tuple.
  have l2 : (n - t.+1 <= size (take (n - t.+1) c))%N by rewrite size_takel.
  rewrite -/t !ensure_degreeE ?sc // -/n /= (draw_seq l1) (draw_seq l2) /= take_take //.
  by case: ifP.
apply: leq_trans (subset_leq_card sub) _; apply: leq_trans (leq_imset_card _ _) _.
rewrite cardsX cardsT card_Fp ?modulus_prime // cK -expnSr.
by rewrite leq_exp2l ?prime_gt1 ?modulus_prime // /n /t; lia.
Qed.

Theorem C50_transcript_soundness (E : engine) (D : eddsa) (b : build) (ag : PVSSAggregator E)
  (x : PVSSAggregatedShare E) :
  let n := cfg_num_participants (ag_config ag) in
  let t := cfg_degree (ag_config ag) in
  config_ok (ag_config ag) -> registered ag ->
  [/\ (** the verdict depends on the [n - t] scalars drawn and on nothing else *)
      forall (R : rng E) (s : rstate R), exists c : (n - t.+1).+1.-tuple (Fr E),
        is_ok (aggregation_verify D b ag s x).1
        = is_ok (aggregation_verify D b (R := seq_rng E) ag (c : seq (Fr E)) x).1,
      (** a good transcript is always accepted *)
      sound_transcript D ag x -> forall (R : rng E) (s : rstate R),
        (aggregation_verify D b ag s x).1 = Ok tt
    & (** a bad one for at most one in [q] of the draws *)
      ~ sound_transcript D ag x ->
      (#|[set c : (n - t.+1).+1.-tuple (Fr E) |
          is_ok (aggregation_verify D b (R := seq_rng E) ag (c : seq (Fr E)) x).1]|
       <= modulus E ^ (n - t.+1))%N ].
Proof.
move=> n t ok reg; have [tn nq fn] := ok; split.
- move=> R s; have sz : size (draw (n - t.+1).+1 s).1 == (n - t.+1).+1 by rewrite size_draw.
  by exists (Tuple sz); exact: agg_verdict_draws.
- move=> [[se sc] ld pr cv cm] R s; apply/aggregation_verifyE => //; split=> //; last by right.
  by apply: low_degree_ok; rewrite ?sc.
move=> bad; rewrite leqNgt; apply/negP => many.
have [c] : exists c : (n - t.+1).+1.-tuple (Fr E),
    is_ok (aggregation_verify D b (R := seq_rng E) ag (c : seq (Fr E)) x).1.
  set A := [set _ | _] in many; have /set0Pn[c] : A != set0.
    by apply/negP => /eqP e; rewrite e cards0 in many.
  by rewrite inE => h; exists c.
case/is_okP => -[] /aggregation_verifyE[] // sz _ _ cv cm; apply: bad; split=> //.
- apply/low_degreeP; apply: contraLR many => /low_degreeP nlow; rewrite -leqNgt.
  by apply: bad_degree_count => //; case: sz.
- apply/eqP; apply: contraLR many => npr; rewrite -leqNgt.
  exact: C15_product_partial.
Qed.
Print Assumptions C50_transcript_soundness.

(** Both cases occur: the empty transcript is sound, a transcript of squares is not. *)
Example C50_example :
  sound_transcript TD tag (agg_empty TE 1 4) /\
  ~ sound_transcript TD tag
      (MkAgg 4 1 (@MkCore TE (nseq 4 0) [:: f 1; f 4; f 9; f 5]) bt_new).
Proof.
have tc : config_ok tconfig by []; split; last first.
  by case=> _ ld _ _ _; have [_ [_ [_]]] := C02_example; apply.
have [[_ _] [p [sp ec]] cv _ cm] := @sound_empty TE TD tag tc.
split=> //.
- by exists 0; rewrite ?size_poly0 //; apply: (@eq_from_nth _ 0);
    rewrite ?size_eval_vec // => i li; rewrite nth_eval_vec // horner0 scale0r nth_nseq if_same.
- by rewrite ec; exact: core_of_product.
Qed.

(** ** C51: how often share_verify accepts a bad share *)

Definition sound_share (E : engine) (D : eddsa) (ag : PVSSAggregator E) (sh : PVSSShare E) : Prop :=
  let core := sh_pvss_core sh in
  let id := sh_participant_id sh in
  let t := cfg_degree (ag_config ag) in
  exists p, [/\ bt_get (ag_participants ag) id = Some p,
                (id < cfg_num_participants (ag_config ag))%N /\ slot_ok ag core id,
                core_sized (ag_config ag) core /\ low_degree t (comms core),
                commits_to t (comms core) (dp_gs (sp_decomp_proof (sh_signed_proof sh)))
              & signed_valid D (ag_config ag) (sh_signed_proof sh) (pa_public_key_ed p)].

Theorem C51_share_soundness (E : engine) (D : eddsa) (b : build) (ag : PVSSAggregator E)
  (sh : PVSSShare E) :
  let n := cfg_num_participants (ag_config ag) in
  let t := cfg_degree (ag_config ag) in
  config_ok (ag_config ag) ->
  [/\ (** the verdict depends on the [n - t - 1] scalars drawn and on nothing else *)
      forall (R : rng E) (s : rstate R), exists c : (n - t.+1).-tuple (Fr E),
        is_ok (share_verify D b ag s sh).1
        = is_ok (share_verify D b (R := seq_rng E) ag (c : seq (Fr E)) sh).1,
      (** a good share is always accepted *)
      sound_share D ag sh -> forall (R : rng E) (s : rstate R),
        (share_verify D b ag s sh).1 = Ok tt
    & (** a bad one for at most one in [q] of the draws *)
      ~ sound_share D ag sh ->
      (#|[set c : (n - t.+1).-tuple (Fr E) |
          is_ok (share_verify D b (R := seq_rng E) ag (c : seq (Fr E)) sh).1]|
       <= modulus E ^ (n - t.+2))%N ].
Proof.
move=> n t ok; have [tn nq fn] := ok; split.
- move=> R s; have sz : size (draw (n - t.+1) s).1 == (n - t.+1)%N by rewrite size_draw.
  exists (Tuple sz); apply/is_okP/is_okP => -[[]] /share_verifyE[] // p [gp li so [cs dg cm] sv];
    exists tt; apply/share_verifyE => //; exists p; split=> //; split=> //.
    by move: dg; rewrite ensure_degree_draws; case: cs => [_ ->].
  by rewrite ensure_degree_draws; case: cs => [_ ->].
- move=> [p [gp [li so] [cs ld] cm sv]] R s; apply/share_verifyE => //; exists p; split=> //; split=> //.
  by case: cs => _ sc; apply: low_degree_ok; rewrite ?sc.
move=> bad; rewrite leqNgt; apply/negP => many.
have [c] : exists c : (n - t.+1).-tuple (Fr E),
    is_ok (share_verify D b (R := seq_rng E) ag (c : seq (Fr E)) sh).1.
  set A := [set _ | _] in many; have /set0Pn[c] : A != set0.
    by apply/negP => /eqP e; rewrite e cards0 in many.
  by rewrite inE => h; exists c.
case/is_okP => -[] /share_verifyE[] // p [gp li so [cs _ cm] sv]; apply: bad.
exists p; split=> //; split=> //.
apply/low_degreeP; apply: contraLR many => /low_degreeP nlow; rewrite -leqNgt.
case: cs => _ sc; have := ensure_degree_kernel b (v := comms (sh_pvss_core sh)) (t := t).
rewrite sc -/n => <- //; apply: subset_leq_card; apply/subsetP => d; rewrite !inE.
by case/is_okP => -[] /share_verifyE[] // ? [_ _ _ [_ -> _] _].
Qed.
Print Assumptions C51_share_soundness.

Lemma dealt_sound_share (E : engine) (D : eddsa) (ag : PVSSAggregator E) (sh : PVSSShare E) :
  config_ok (ag_config ag) -> dealt D ag sh -> sound_share D ag sh.
Proof.
move=> ok [p [pa [[sp ec] li gp eg sv]]]; exists pa; rewrite ec eg; split=> //.
- by split=> //; exact: core_of_slot.
- by split; [exact: core_of_sized | exact: low_degree_eval].
- exact: core_of_commits.
Qed.

(** Both cases occur. *)
Example C51_example :
  sound_share TD tag sh2 /\ ~ sound_share TD tag (tamper_enc sh2 2 (f 1 : Enc TE)).
Proof.
have tc : config_ok tconfig by []; split.
  exact: (@dealt_sound_share TE TD tag sh2 tc (@honest_dealt TE TD tag sh2 tc sh2_honest)).
move=> bad; have [_ h _] := @C51_share_soundness TE TD Debug tag (tamper_enc sh2 2 (f 1 : Enc TE)) tc.
have {h} := h bad (seq_rng TE) [:: f 1; f 9].
by vm_compute.
Qed.

(** ** C49: weights can be forged and wrap; false as stated *)

(** The full statement: two accepted transcripts of one configuration without a conflicting
    contributor merge into one that can be accepted. *)
Definition C49_full : Prop :=
  forall (E : engine) (D : eddsa) (b : build) (R : rng E) (ag : PVSSAggregator E) (s : rstate R)
    (x y : PVSSAggregatedShare E),
  config_ok (ag_config ag) -> registered ag -> only_registered ag ->
  as_degree x = cfg_degree (ag_config ag) -> as_num_participants x = cfg_num_participants (ag_config ag) ->
  as_degree y = cfg_degree (ag_config ag) -> as_num_participants y = cfg_num_participants (ag_config ag) ->
  (forall i, ~ conflict_at x y i) ->
  (aggregation_verify D b ag s x).1 = Ok tt -> (aggregation_verify D b ag s y).1 = Ok tt ->
  exists2 z, agg_aggregate b x y = Ok z & exists s' : rstate R, (aggregation_verify D b ag s' z).1 = Ok tt.

(** Every slot of a core times a scalar: anyone can compute it from the core. *)
Definition scale_core (E : engine) (k : Fr E) (core : PVSSCore E) : PVSSCore E :=
  MkCore [seq k *: P | P <- encs core] [seq k *: P | P <- comms core].

Section Scale.
Variable E : engine.
Implicit Types (ag : PVSSAggregator E) (core : PVSSCore E).

Lemma ensure_degree_scale b R (s : rstate R) (v : seq (Com E)) t k :
  (t.+2 <= size v)%N -> (size v < modulus E)%N -> fits (size v) ->
  (ensure_degree b s v t).1 = Ok tt ->
  ensure_degree b s [seq k *: P | P <- v] t = ensure_degree b s v t.
Proof.
move=> tn nq fn; rewrite !ensure_degreeE ?size_map //=; case: eqP => // e _.
suff -> : \sum_(i < size v) dual_coef (draw (size v - t.+1) s).1 (size v) i *: nth 0 [seq k *: P | P <- v] i = 0.
  by rewrite eqxx.
rewrite -[RHS](scaler0 _ k) -[X in _ = k *: X]e scaler_sumr; apply: eq_bigr => i _.
by rewrite (nth_map 0) // !scalerA mulrC.
Qed.

Lemma commits_to_scale t (v : seq (Com E)) (P : Com E) (k : Fr E) :
  commits_to t v P -> commits_to t [seq k *: Q | Q <- v] (k *: P).
Proof.
move=> [p [sp e eP]]; exists (k *: p); split; first exact: leq_trans (size_scale_leq _ _) sp.
  rewrite -map_take e /eval_vec -map_comp; apply: eq_map => i /=.
  by rewrite hornerZ scalerA.
by rewrite eP hornerZ scalerA.
Qed.

Lemma product_scale ag core k : core_sized (ag_config ag) core ->
  slots_product_ok ag core -> slots_product_ok ag (scale_core k core).
Proof.
move=> [se sc]; rewrite /slots_product_ok; set n := cfg_num_participants _ in se sc * => e.
transitivity ((\prod_(i < n) pairing (key_of ag i) (nth 0 (comms core) i)) ^+ val k).
  rewrite -prodrXl; apply: eq_bigr => i _.
  by rewrite (nth_map 0) ?sc // pairingZr.
rewrite e -prodrXl; apply: eq_bigr => i _.
by rewrite (nth_map 0) ?se // pairingZl.
Qed.

Lemma two64_neq0 : modulus E <> 2%N -> (N.to_nat (2 ^ 64))%:R != 0 :> Fr E.
Proof.
move=> q2; have -> : N.to_nat (2 ^ 64) = (N.to_nat 2 ^ N.to_nat 64)%N.
  by rewrite Nnat.N2Nat.inj_pow; elim: (N.to_nat 64) => [|k IH] //=; rewrite expnS -IH.
rewrite natrX expf_neq0 //; have -> : N.to_nat 2 = 2%N by [].
apply: Fp_nat_neq0; first exact: modulus_prime.
by have := prime_gt1 (modulus_prime E); lia.
Qed.

End Scale.

(** Whoever sees an accepted transcript of one contribution can make a second one, with
    weight [2^64 - 1], that is accepted with the same coins.  Merging the two panics when
    overflow is checked; otherwise it gives a transcript no one accepts. *)
Theorem C49_forged_weight_refuted (E : engine) (D : eddsa) (b : build) (R : rng E)
  (ag : PVSSAggregator E) (s : rstate R) (core : PVSSCore E) (i : nat) (sp : SignedProof E) :
  let n := cfg_num_participants (ag_config ag) in
  let t := cfg_degree (ag_config ag) in
  let k := (2 ^ 64 - 1)%num in
  let x := MkAgg n t core (bt_insert bt_new i (sp, 1%num)) in
  let y := MkAgg n t (scale_core (N.to_nat k)%:R core) (bt_insert bt_new i (sp, k)) in
  config_ok (ag_config ag) -> registered ag -> (i < n)%N ->
  (aggregation_verify D b ag s x).1 = Ok tt ->
  [/\ (aggregation_verify D b ag s y).1 = Ok tt,
      agg_aggregate Debug x y = Panic ArithOverflow
    & modulus E <> 2%N -> dp_gs (sp_decomp_proof sp) != 0 ->
      exists2 z, agg_aggregate Release x y = Ok z &
        forall b' (R' : rng E) (s' : rstate R'), (aggregation_verify D b' ag s' z).1 <> Ok tt].
Proof.
move=> n t k x y ok reg li acc; have [tn nq fn] := ok.
have [sz dg pr cv cm] := (aggregation_verifyE D b s x nq fn reg).1 acc.
have [se sc] : core_sized (ag_config ag) core by [].
have wx : weighted_gs (as_contributions x) = gs_of sp by exact: weighted_gs1.
have wy : weighted_gs (as_contributions y) = (N.to_nat k)%:R *: gs_of sp.
  by rewrite /weighted_gs /= big_seq1.
have tsz : (t < size core.(comms))%N by rewrite sc ltnW.
have tq : (t.+1 < modulus E)%N by apply: leq_ltn_trans nq; exact: ltnW.
have len : core_len n core by [].
have len' : core_len n (scale_core (N.to_nat k)%:R core) by split; rewrite size_map.
have n0 : (0 < n)%N by apply: leq_ltn_trans li.
have cmk := commits_to_scale (N.to_nat k)%:R cm.
split.
- have edg : ensure_degree b s (comms (scale_core (N.to_nat k)%:R core)) t = ensure_degree b s (comms core) t.
    by apply: ensure_degree_scale; rewrite ?sc.
  apply/aggregation_verifyE => //; split.
  + by split; rewrite size_map.
  + by rewrite [as_pvss_core y]/(scale_core _ _) edg.
  + case: pr => [r0|pr]; [left | right].
      by rewrite [as_pvss_core y]/(scale_core _ _) edg.
    exact: product_scale.
  + move=> j sp' w'; rewrite bt_get1; case: eqP => // <- [<- _].
    by apply: (cv i sp 1%num); rewrite bt_get1 eqxx.
  + by rewrite wy -wx.
- rewrite /agg_aggregate /= !eqxx /=.
  have := @merge_fail E Debug (as_contributions x) (as_contributions y) n i li.
  have ms : merge_slot Debug (Some (sp, 1%num)) (Some (sp, k)) = Panic ArithOverflow.
    by rewrite /merge_slot eqxx.
  rewrite !bt_get1 !eqxx ms => -> // j ji; rewrite !bt_get1; by case: eqP ji => // ->; rewrite ltnn.
move=> q2 gs0.
pose z := MkAgg n t (core_add core (scale_core (N.to_nat k)%:R core)) (bt_insert bt_new i (sp, 0%num)).
exists z; first apply/agg_okE.
  split=> //.
  - exact: core_aggregate_ok len len'.
  - move=> j lj; rewrite !bt_get1; case: eqP => // _.
    by rewrite /merge_slot eqxx.
  - by move=> j; rewrite bt_get1; case: eqP => // <-; rewrite leqNgt li.
move=> b' R' s' /aggregation_verifyE[] // _ _ _ _.
have -> : weighted_gs (as_contributions z) = 0.
  by rewrite /weighted_gs /= big_seq1 scale0r.
have := commits_to_add tsz _ tq cm cmk; rewrite size_map => /(_ erefl) c1 c2.
have := commits_to_fun _ tq c1 c2; rewrite size_vadd ?size_map // => /(_ tsz).
rewrite wx -[X in X + _]scale1r -scalerDl -(natrD _ 1).
have -> : (1 + N.to_nat k = N.to_nat (2 ^ 64))%N.
  by rewrite -[RHS]/(N.to_nat (1 + k)) Nnat.N2Nat.inj_add.
by move/eqP; rewrite scaler_eq0 (negbTE gs0) (negbTE (two64_neq0 q2)).
Qed.
Print Assumptions C49_forged_weight_refuted.

Lemma C49_full_false (E : engine) (D : eddsa) (R : rng E) (ag : PVSSAggregator E) (s : rstate R)
  (core : PVSSCore E) (i : nat) (sp : SignedProof E) :
  let n := cfg_num_participants (ag_config ag) in
  let t := cfg_degree (ag_config ag) in
  let x := MkAgg n t core (bt_insert bt_new i (sp, 1%num)) in
  config_ok (ag_config ag) -> registered ag -> only_registered ag -> (i < n)%N ->
  (aggregation_verify D Debug ag s x).1 = Ok tt -> ~ C49_full.
Proof.
move=> n t x ok reg only li acc full.
have [accy pan _] := C49_forged_weight_refuted ok reg li acc.
set y := MkAgg _ _ (scale_core _ _) _ in accy pan.
have nc j : ~ conflict_at x y j.
  by case=> a [w [a' [w' [+ + +]]]]; rewrite !bt_get1; case: eqP => // _ [<- _] [<- _].
have [z] := full E D Debug R ag s x y ok reg only erefl erefl erefl erefl nc acc accy.
by rewrite pan.
Qed.

Theorem C49_full_refuted : ~ C49_full.
Proof.
have tc : config_ok tconfig by [].
apply: (@C49_full_false TE TD (seq_rng TE) tag [:: f 1; f 9; f 3] (sh_pvss_core sh2) 2
          (sh_signed_proof sh2) tc tag_registered tag_only_registered isT).
by vm_compute.
Qed.
Print Assumptions C49_full_refuted.

Section MergeSound.
Variables (E : engine) (D : eddsa).
Implicit Types ag : PVSSAggregator E.

Lemma low_degree_add t (v w : seq (Com E)) : size v = size w ->
  low_degree t v -> low_degree t w -> low_degree t (vadd v w).
Proof.
move=> sz [p sp ev] [p' sp' ew]; exists (p + p').
  by apply: leq_trans (size_add _ _) _; rewrite geq_max sp.
apply: (@eq_from_nth _ 0); rewrite ?size_eval_vec // => i li.
rewrite nth_eval_vec // nth_vadd // hornerD scalerDl.
rewrite size_vadd // in li.
by rewrite {1}ev {1}ew !nth_eval_vec // sz.
Qed.

Lemma product_add ag (c1 c2 : PVSSCore E) :
  core_sized (ag_config ag) c1 -> core_sized (ag_config ag) c2 ->
  slots_product_ok ag c1 -> slots_product_ok ag c2 -> slots_product_ok ag (core_add c1 c2).
Proof.
move=> [e1 k1] [e2 k2]; rewrite /slots_product_ok => h1 h2.
under eq_bigr do rewrite /= nth_vadd ?k1 ?k2 // pairing_addr.
under [RHS]eq_bigr do rewrite /= nth_vadd ?e1 ?e2 // pairing_addl.
by rewrite !big_split /= h1 h2.
Qed.

End MergeSound.

(** What holds: two sound transcripts (C50) of the configuration, with contributors below
    [n], no conflict and no weight reaching [2^64], merge into a sound one, which every peer
    accepts with every coin. *)
Theorem C49_merge_sound_partial (E : engine) (D : eddsa) (b : build) (ag : PVSSAggregator E)
  (x y : PVSSAggregatedShare E) :
  let n := cfg_num_participants (ag_config ag) in
  let header (z : PVSSAggregatedShare E) := as_degree z = cfg_degree (ag_config ag) /\ as_num_participants z = n in
  let below (z : PVSSAggregatedShare E) :=
    forall i v, bt_get (as_contributions z) i = Some v -> (i < n)%N in
  config_ok (ag_config ag) -> registered ag ->
  header x -> header y -> below x -> below y ->
  (forall i, ~ conflict_at x y i) -> (forall i, ~ overflow_at x y i) ->
  sound_transcript D ag x -> sound_transcript D ag y ->
  exists z, [/\ agg_aggregate b x y = Ok z, header z, below z, sound_transcript D ag z
              & forall b' (R : rng E) (s : rstate R), (aggregation_verify D b' ag s z).1 = Ok tt].
Proof.
move=> n header below ok reg [dx nx] [dy ny] bx by0 nc no sx sy; have [tn nq fn] := ok.
have [[ex kx] lx px cx mx] := sx; have [[ey ky] ly py cy my] := sy.
have n0 : (0 < n)%N by exact: leq_ltn_trans tn.
have : is_ok (agg_aggregate b x y).
  have [_ _ _ _ h] := C18_transcript_errors b x y; apply/h; split.
  - by rewrite dx dy nx ny.
  - by rewrite kx ky ex ey.
  - by move=> i _ [/nc|[_ /no]].
case/is_okP => z mg; have /agg_okE[_ [dz nz] ca ms out] := mg.
have [m [_ l1 l2 ez]] := core_aggregate_inv ca.
have hb : below z.
  by move=> i v; case: (ltnP i n) => // li; rewrite out // nx.
have hs : sound_transcript D ag z.
  split.
  - by rewrite ez; split; rewrite size_vadd ?ex ?ey ?kx ?ky.
  - by rewrite ez; apply: low_degree_add; rewrite ?kx ?ky.
  - by rewrite ez; apply: product_add.
  - move=> i sp w gz; case: (ltnP i (as_num_participants x)) => li; last by rewrite out in gz.
    by have [w' [/cx|/cy]] := merge_slot_src (ms i li) gz.
  - rewrite ez (agg_weighted_gs bx by0 nx _ mg).
      apply: commits_to_add => //; rewrite ?kx ?ky //; first exact: ltnW.
      by apply: leq_ltn_trans nq; exact: ltnW.
    right=> i sp w sp' w' gx gy; apply/N.lt_nge => big.
    have /eqP eg : dp_gs (sp_decomp_proof sp) == dp_gs (sp_decomp_proof sp').
      by apply/negP => /negP/eqP ne; apply: (nc i); exists sp, w, sp', w'.
    by apply: (no i); exists sp, w, sp', w'.
exists z; split=> //; first by rewrite /header dz nz.
move=> b' R s; have [_ h _] := C50_transcript_soundness D b' x ok reg.
by have [_ {}h _] := C50_transcript_soundness D b' z ok reg; exact: h.
Qed.
Print Assumptions C49_merge_sound_partial.

Lemma dealt_sound_transcript (E : engine) (D : eddsa) (ag : PVSSAggregator E) (sh : PVSSShare E) :
  config_ok (ag_config ag) -> dealt D ag sh ->
  sound_transcript D ag (MkAgg (cfg_num_participants (ag_config ag)) (cfg_degree (ag_config ag))
    (sh_pvss_core sh) (bt_insert bt_new (sh_participant_id sh) (sh_signed_proof sh, 1%num))).
Proof.
move=> ok d; have [_ [p [sp /= ec]] cv _ cm] := dealt_sound ok d; split=> //=; rewrite ec.
- exact: core_of_sized.
- exact: low_degree_eval.
- exact: core_of_product.
Qed.

(** The transcripts of two shares of two dealers meet the hypotheses. *)
Definition tx_share (sh : PVSSShare TE) : PVSSAggregatedShare TE :=
  MkAgg 4 1 (sh_pvss_core sh) (bt_insert bt_new (sh_participant_id sh) (sh_signed_proof sh, 1%num)).
Example C49_example :
  [/\ sound_transcript TD tag (tx_share sh1), sound_transcript TD tag (tx_share sh2),
      forall i, ~ conflict_at (tx_share sh1) (tx_share sh2) i
    & forall i, ~ overflow_at (tx_share sh1) (tx_share sh2) i].
Proof.
have tc : config_ok tconfig by [].
have d1 := @honest_dealt TE TD tag sh1 tc sh1_honest.
have d2 := @honest_dealt TE TD tag sh2 tc sh2_honest.
split.
- exact: (@dealt_sound_transcript TE TD tag sh1 tc d1).
- exact: (@dealt_sound_transcript TE TD tag sh2 tc d2).
- move=> i [a [w [a' [w' [+ + _]]]]]; rewrite !bt_get1.
  have -> : sh_participant_id sh1 = 1%N by vm_compute.
  have -> : sh_participant_id sh2 = 2%N by vm_compute.
  by case: eqP => // <-.
- move=> i [a [w [a' [w' [+ + _ _]]]]]; rewrite !bt_get1.
  have -> : sh_participant_id sh1 = 1%N by vm_compute.
  have -> : sh_participant_id sh2 = 2%N by vm_compute.
  by case: eqP => // <-.
Qed.

(** ** C52: merging keeps every contributor; false as stated *)

(** The full statement: after receiving a transcript, every contributor of it is among the
    contributors of the aggregator's transcript. *)
Definition C52_full : Prop :=
  forall (E : engine) (D : eddsa) (b : build) (R : rng E) (ag : PVSSAggregator E) (s : rstate R)
    (y : PVSSAggregatedShare E),
  config_ok (ag_config ag) -> registered ag ->
  is_ok (receive_aggregated_share D b ag s y).1.1 ->
  forall i, isSome (bt_get (as_contributions y) i) ->
  isSome (bt_get (as_contributions (ag_aggregated_tx (receive_aggregated_share D b ag s y).1.2)) i).

(** A fifth registered participant in a configuration with [n = 4]. *)
Definition tag5 : PVSSAggregator TE :=
  MkAggregator tconfig (bt_insert tparts 7 (tpart 2)) (agg_empty TE 1 4).
Definition tx5 : PVSSAggregatedShare TE :=
  MkAgg 4 1 (sh_pvss_core sh2) (bt_insert bt_new 7 (sh_signed_proof sh2, 1%num)).

Theorem C52_full_refuted : ~ C52_full.
Proof.
move=> full; have tc : config_ok tconfig by [].
have reg : registered tag5 by move=> i; case: i => [|[|[|[|i]]]] // _; eexists.
have ok : is_ok (@receive_aggregated_share TE TD Debug (seq_rng TE) tag5 [:: f 1; f 9; f 3] tx5).1.1.
  by vm_compute.
have h := full TE TD Debug (seq_rng TE) tag5 [:: f 1; f 9; f 3] tx5 tc reg ok 7%N isT.
by move: h; vm_compute.
Qed.
Print Assumptions C52_full_refuted.

(** The consequence: after this the commitments no longer match the contributions, and no
    peer accepts the transcript. *)
Theorem C52_dropped_refuted (E : engine) (D : eddsa) (b : build) (R : rng E)
  (ag : PVSSAggregator E) (s : rstate R) (core : PVSSCore E) (i : nat) (sp : SignedProof E) :
  let n := cfg_num_participants (ag_config ag) in
  let t := cfg_degree (ag_config ag) in
  let y := MkAgg n t core (bt_insert bt_new i (sp, 1%num)) in
  config_ok (ag_config ag) -> registered ag -> (n <= i)%N ->
  ag_aggregated_tx ag = agg_empty E t n ->
  (aggregation_verify D b ag s y).1 = Ok tt -> dp_gs (sp_decomp_proof sp) != 0 ->
  let: (r, ag', _) := receive_aggregated_share D b ag s y in
  r = Ok tt /\
  forall b' (R' : rng E) (s' : rstate R'),
    (aggregation_verify D b' ag s' (ag_aggregated_tx ag')).1 <> Ok tt.
Proof.
move=> n t y ok reg li etx acc gs0; have [tn nq fn] := ok.
have n0 : (0 < n)%N by exact: leq_ltn_trans tn.
have [[se sc] _ _ _ cm] := (aggregation_verifyE D b s y nq fn reg).1 acc.
have mg : agg_aggregate b (agg_empty E t n) y = Ok (MkAgg n t core bt_new).
  apply/agg_okE; split=> //.
    by rewrite (core_aggregate_ok n0 (core_len_empty E n)) // (core_add0 (n := n)).
  by move=> j lj; rewrite /= bt_get1; case: eqP => // ej; rewrite -ej ltnNge li in lj.
rewrite /receive_aggregated_share; move: acc.
case: (aggregation_verify D b ag s y) => v s1 /= ->; rewrite etx /= mg /=; split=> //.
move=> b' R' s' /aggregation_verifyE[] // _ _ _ _ cm'.
have tq : (t.+1 < modulus E)%N by apply: leq_ltn_trans nq; exact: ltnW.
have ts : (t < size (comms core))%N by rewrite sc ltnW.
have := commits_to_fun ts tq cm cm'; rewrite weighted_gs1 /weighted_gs big_nil => /eqP.
by rewrite (negbTE gs0).
Qed.
Print Assumptions C52_dropped_refuted.

Example C52_example :
  (@aggregation_verify TE TD Debug (seq_rng TE) tag5 [:: f 1; f 9; f 3] tx5).1 = Ok tt /\
  dp_gs (sp_decomp_proof (sh_signed_proof sh2)) != 0.
Proof. by split; vm_compute. Qed.

(** What holds: when the registered ids are those below [n], every contributor stays, and so
    does every earlier one. *)
Theorem C52_contributors_kept_partial (E : engine) (D : eddsa) (b : build) (R : rng E)
  (ag : PVSSAggregator E) (s : rstate R) (y : PVSSAggregatedShare E) (i : nat) :
  only_registered ag ->
  as_num_participants (ag_aggregated_tx ag) = cfg_num_participants (ag_config ag) ->
  let: (r, ag', _) := receive_aggregated_share D b ag s y in
  is_ok r -> (i < cfg_num_participants (ag_config ag))%N \/ isSome (bt_get (as_contributions y) i) ->
  isSome (bt_get (as_contributions (ag_aggregated_tx ag')) i)
  = isSome (bt_get (as_contributions (ag_aggregated_tx ag)) i) || isSome (bt_get (as_contributions y) i).
Proof.
move=> only en; rewrite /receive_aggregated_share.
case av: (aggregation_verify D b ag s y) => [[[]|e|p] s1] //=.
have [_ cv] : core_sized (ag_config ag) (as_pvss_core y) /\ contributions_valid D ag (as_contributions y).
  by apply: (@aggregation_verify_facts E D b R ag s y); rewrite av.
case mg: (agg_aggregate b (ag_aggregated_tx ag) y) => [z|e|p] //= _ li.
have {}li : (i < cfg_num_participants (ag_config ag))%N.
  case: li => // ; case g: (bt_get _ i) => [[sp w]|] // _.
  by have [pa gp _] := cv _ _ _ g; exact: only gp.
have /agg_okE[_ _ _ /(_ i) ms _] := mg; move: ms; rewrite en => /(_ li).
case: (bt_get (as_contributions (ag_aggregated_tx ag)) i) => [[a w]|];
  case: (bt_get (as_contributions y) i) => [[a' w']|] //=.
- by case: ifP => // _ /obind_ok[w'' _ [<-]].
- by case=> <-.
- by case=> <-.
- by case=> <-.
Qed.
Print Assumptions C52_contributors_kept_partial.
