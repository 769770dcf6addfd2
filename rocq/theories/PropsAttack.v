(** * PropsAttack: properties C56 to C58, what repeated, derived and looped messages do *)

From Coq Require Import NArith Strings.Byte.
From mathcomp Require Import all_ssreflect all_algebra zify.
From Verif Require Import Prelude Errors BTreeMap Engine LibModel PolyModel SigmaModel PvssModel
  Spec PreludeProofs AlgebraProofs PolyProofs PvssProofs AggProofs HistProofs Instance
  PropsShare PropsAgg PropsHist PropsEnd PropsLimits.

Set Implicit Arguments.
Unset Strict Implicit.
Unset Printing Implicit Defensive.

Import GRing.Theory.
Local Open Scope ring_scope.

Lemma eq_big_In (T : Type) (V : zmodType) (F G : T -> V) (l : seq T) :
  (forall a, List.In a l -> F a = G a) -> \sum_(a <- l) F a = \sum_(a <- l) G a.
Proof.
elim: l => [|a l IH] h; first by rewrite !big_nil.
by rewrite !big_cons h ?IH //; [move=> c ic; apply: h; right | left].
Qed.

(** ** C56: a share may be counted many times; false as stated *)

Section Replay.
Variables (E : engine) (D : eddsa) (b : build).
Implicit Types (ag : PVSSAggregator E) (sh : PVSSShare E) (h : seq (call E)).
Local Notation tx := (@ag_aggregated_tx E).

(** Receiving a share succeeds when it verifies and there is neither a conflict with the
    recorded contribution nor an overflow of its weight. *)
Lemma receive_share_ok ag R (s : rstate R) sh : tx_ok D ag ->
  (share_verify D b ag s sh).1 = Ok tt ->
  (forall sp w, bt_get (as_contributions (tx ag)) (sh_participant_id sh) = Some (sp, w) ->
     gs_of sp = gs_of (sh_signed_proof sh) /\ (w + 1 < 2 ^ 64)%num) ->
  exists z, receive D b ag (Call (MsgShare sh) s) = (Ok tt, set_tx ag z) /\
            agg_aggregate b (tx ag) (msg_tx ag (MsgShare sh)) = Ok z.
Proof.
move=> [[ed en] [se sc] cv ids] sv nw; have [[se' sc'] li _] := share_verify_facts sv.
set n := cfg_num_participants (ag_config ag) in en se sc ids se' sc' li.
have ok : is_ok (agg_aggregate b (tx ag) (msg_tx ag (MsgShare sh))).
  have [_ _ _ _ h] := C18_transcript_errors b (tx ag) (msg_tx ag (MsgShare sh)); apply/h; split.
  - by [].
  - by rewrite /= se sc se' sc'; split=> //; exact: leq_ltn_trans li.
  - move=> i _ [[a [w [a' [w' [g g' ne]]]]]|[_ [a [w [a' [w' [g g' eg ge]]]]]]].
    + move: g'; rewrite bt_get1; case: eqP => // e [ea _]; rewrite -e in g.
      by have [eg _] := nw _ _ g; case: ne; rewrite -ea.
    + move: g'; rewrite bt_get1; case: eqP => // e [_ ew]; rewrite -e in g.
      by have [_] := nw _ _ g; move: ge; rewrite -ew; lia.
case/is_okP: ok => z ez; exists z; split=> //.
rewrite /receive /= /receive_share; case: (share_verify D b ag s sh) sv => v s' /= -> /=.
by rewrite /agg_aggregate_pvss_share -[MkAgg _ _ _ _]/(msg_tx ag (MsgShare sh)) ez.
Qed.

(** Copies of a sound share are all accepted. *)
Lemma replay_accepted ag acc h sh :
  config_ok (ag_config ag) -> sound_share D ag sh -> tx_ok D ag -> logs ag acc ->
  (forall a, List.In a acc -> a = sh) -> (forall c, List.In c h -> call_msg c = MsgShare sh) ->
  (N.of_nat (size acc) + N.of_nat (size h) < 2 ^ 64)%num ->
  accepted D b ag h = [seq call_msg c | c <- h].
Proof.
elim: h ag acc => [//|c h IH] ag acc ok snd txok lg copies hc small /=.
have ec := hc c (or_introl erefl); case: c ec hc small => m R s em hc small; have {em}-> : m = MsgShare sh := em.
have {}small : (N.of_nat (size acc) + 1 + N.of_nat (size h) < 2 ^ 64)%num.
  by move: small => /=; lia.
have sv : (share_verify D b ag s sh).1 = Ok tt.
  by have [_ h1 _] := C51_share_soundness D b sh ok; exact: h1.
have [lg1 lg2 lg3] := lg.
have [sp w|z [er mg]] := receive_share_ok txok sv.
  rewrite lg1; case eo: (of_id _ acc) => [//|a l] [<- <-].
  have ina : List.In a (of_id (sh_participant_id sh) acc) by rewrite eo; left.
  have [ina1 _] := proj1 (In_of_id _ _ _) ina.
  split; first by rewrite (copies _ ina1).
  have := size_of_id (sh_participant_id sh) acc; rewrite eo => /= sl.
  by move: small; lia.
have vr : verified D b ag (MsgShare sh) by exists R, s.
rewrite er /=; congr cons.
have cf : ag_config (set_tx ag z) = ag_config ag by [].
apply: (IH _ (rcons acc sh)).
- by [].
- by case: snd => p hp; exists p.
- exact: merge_tx_ok txok vr mg.
- by apply: merge_logs txok lg vr mg; move: small; lia.
- by move=> a /In_rcons[/copies|].
- by move=> c' ic'; apply: hc; right.
- by rewrite size_rcons; move: small; lia.
Qed.

End Replay.

(** The property as worded: however often its share arrives, a dealer counts once. *)
Definition C56_full : Prop :=
  forall (E : engine) (D : eddsa) (b : build) (config : Config E) (ps : btmap (Participant E))
    (ag0 : PVSSAggregator E) (h : seq (call E)) i sp w,
  config_ok config -> aggregator_new config ps = Ok ag0 -> registered ag0 ->
  bt_get (as_contributions (ag_aggregated_tx (run D b ag0 h))) i = Some (sp, w) -> (w <= 1)%num.

(** A sound share (C51) delivered [k] times to a new aggregator, with any coins, is accepted
    each time: its dealer gets weight [k] and the transcript shares [k] times its secret. *)
Theorem C56_replay_refuted (E : engine) (D : eddsa) (b : build) (config : Config E)
  (ps : btmap (Participant E)) (ag0 : PVSSAggregator E) (sh : PVSSShare E) (h : seq (call E)) :
  let k := size h in
  let id := sh_participant_id sh in
  aggregator_new config ps = Ok ag0 -> config_ok config -> sound_share D ag0 sh ->
  (forall c, List.In c h -> call_msg c = MsgShare sh) ->
  (0 < k)%N -> (N.of_nat k < 2 ^ 64)%num ->
  let x := ag_aggregated_tx (run D b ag0 h) in
  [/\ size (accepted D b ag0 h) = k,
      bt_get (as_contributions x) id = Some (sh_signed_proof sh, N.of_nat k),
      forall i, i <> id -> bt_get (as_contributions x) i = None
    & forall j, nth 0 (encs (as_pvss_core x)) j = k%:R *: nth 0 (encs (sh_pvss_core sh)) j /\
                nth 0 (comms (as_pvss_core x)) j = k%:R *: nth 0 (comms (sh_pvss_core sh)) j].
Proof.
move=> k id; case=> <-; rewrite -[MkAggregator _ _ _]/(new_aggregator config ps).
move=> ok snd hc k0 small x.
have acc : accepted D b (new_aggregator config ps) h = [seq call_msg c | c <- h].
  apply: (@replay_accepted E D b _ [::] h sh) => //; first exact: new_tx_ok.
  exact: new_logs.
have so : shares_only h.
  rewrite /shares_only; elim: (h) hc => [//|c h' IH] hc /=; rewrite (hc c (or_introl erefl)) /=.
  by apply: IH => c' ic; apply: hc; right.
have sacc : shares_of (accepted D b (new_aggregator config ps) h) = nseq k sh.
  rewrite acc /k; elim: (h) hc => [//|c h' IH] hc /=; rewrite (hc c (or_introl erefl)) /=.
  by rewrite IH // => c' ic; apply: hc; right.
have := @run_logs E D b _ [::] h so small (new_tx_ok D config ps) (new_logs config ps).
rewrite cat0s sacc -/x => -[lg _ lc]; split.
- by rewrite acc size_map.
- rewrite lg /of_id filter_nseq /= eqxx mul1n; case: (k) k0 => [//|k'] _ /=.
  by rewrite size_nseq.
- by move=> i /eqP ne; rewrite lg /of_id filter_nseq /= eq_sym (negbTE ne) mul0n.
- by move=> j; have [-> ->] := lc j; rewrite !big_nseq -!Monoid.iteropE !scaler_nat.
Qed.
Print Assumptions C56_replay_refuted.

Lemma C56_full_false (E : engine) (D : eddsa) (config : Config E) (ps : btmap (Participant E))
  (sh : PVSSShare E) (R : rng E) (s : rstate R) :
  let ag0 := new_aggregator config ps in
  config_ok config -> registered ag0 -> sound_share D ag0 sh -> ~ C56_full.
Proof.
move=> ag0 ok reg snd full; pose h := nseq 2 (Call (MsgShare sh) s).
have hc c : List.In c h -> call_msg c = MsgShare sh by case=> [<-|[<-|[]]].
have [_ g _ _] := @C56_replay_refuted E D Debug config ps ag0 sh h erefl ok snd hc isT erefl.
by have := full E D Debug config ps ag0 h _ _ _ ok erefl reg g.
Qed.

Theorem C56_full_refuted : ~ C56_full.
Proof.
have tc : config_ok tconfig by [].
have snd := @dealt_sound_share TE TD tag sh2 tc (@honest_dealt TE TD tag sh2 tc sh2_honest).
exact: (@C56_full_false TE TD tconfig tparts sh2 (seq_rng TE) [::] tc tag_registered snd).
Qed.

(** What holds: the secret shared by the transcript is the sum of the secrets behind the
    accepted shares, repetitions included; with C22, an integer multiple of each dealer's
    one secret. *)
Theorem C56_counted_sum_partial (E : engine) (D : eddsa) (b : build) (config : Config E)
  (ps : btmap (Participant E)) (ag0 : PVSSAggregator E) (h : seq (call E)) :
  let t := cfg_degree config in
  aggregator_new config ps = Ok ag0 -> config_ok config ->
  shares_only h -> (N.of_nat (size h) < 2 ^ 64)%num ->
  commits_to t (comms (as_pvss_core (ag_aggregated_tx (run D b ag0 h))))
    (\sum_(sh <- shares_of (accepted D b ag0 h)) dp_gs (sp_decomp_proof (sh_signed_proof sh))).
Proof.
move=> t; case=> <-; rewrite -[MkAggregator _ _ _]/(new_aggregator config ps) => ok so small.
have [tn nq fn] := ok; have [ec _] := run_static D b (new_aggregator config ps) h.
have := @run_logs E D b _ [::] h so small (new_tx_ok D config ps) (new_logs config ps).
rewrite cat0s; set acc := shares_of _ => -[_ _ lc].
have tq : (t.+1 < modulus E)%N by apply: leq_ltn_trans nq; apply: ltnW.
have [_ [_ szx] _ _] := run_tx_ok b h (new_tx_ok D config ps); rewrite ec /= in szx.
have tv : (t < cfg_num_participants config)%N by apply: ltnW.
apply/commits_to_lag; rewrite ?szx //.
under [RHS]eq_bigr => j _ do rewrite (lc j).2 scaler_sumr.
rewrite exchange_big; apply: eq_big_In => sh /accepted_verified[R [s [ag' [ec' _]]]].
have nq' : (cfg_num_participants (ag_config ag') < modulus E)%N by rewrite ec'.
have fn' : fits (cfg_num_participants (ag_config ag')) by rewrite ec'.
case/share_verifyE => // p [_ _ _ [[_ sc] _ cm] _]; rewrite ec' in sc cm.
by apply/commits_to_lag; rewrite ?sc.
Qed.
Print Assumptions C56_counted_sum_partial.

(** Four deliveries, one refused: the secrets 7, 7 and 3 add up. *)
Example C56_example :
  let h := [:: tcall (MsgShare sh2); tcall (MsgShare sh2);
               tcall (MsgShare (tamper_enc sh1 1 (f 9 : Enc TE))); tcall (MsgShare sh1)] in
  let x := ag_aggregated_tx (run TD Debug tag h) in
  [/\ shares_only h, size (accepted TD Debug tag h) = 3%N,
      [seq (kv.1, kv.2.2) | kv <- bt_iter (as_contributions x)] = [:: (1%N, 1%num); (2%N, 2%num)]
    & is_ok (@aggregation_verify TE TD Debug (seq_rng TE) tag [:: f 1; f 9; f 3] x).1].
Proof. by split; vm_compute. Qed.

(** ** C57: a dealer need not know what it shares; false as stated *)

(** What anybody can compute from a core: every commitment times [k] plus that of a polynomial
    [d], and the encryptions likewise. *)
Definition derived_core (E : engine) (ag : PVSSAggregator E) (core : PVSSCore E) (k : Fr E)
  (d : {poly Fr E}) : PVSSCore E :=
  let n := cfg_num_participants (ag_config ag) in
  MkCore [seq k *: nth 0 (encs core) i + d.[i.+1%:R] *: key_of ag i | i <- iota 0 n]
         [seq k *: nth 0 (comms core) i + d.[i.+1%:R] *: srs_g2 (cfg_srs (ag_config ag))
         | i <- iota 0 n].

(** A proof computed from [gs] alone: nobody's secret is used.  The commitment is
    [k gs + r g2], the challenge [c] its hash, and the statement [(k/c) gs + d0 g2]. *)
Definition derived_proof (E : engine) (g gs : Com E) (k r d0 : Fr E) : DecompProof E :=
  let a := k *: gs + r *: g in
  let c := hash_to_field E DLK_PERSONA (pt_ser g ++ pt_ser a) in
  MkDecomp (DlkProof a c (r - c * d0)) ((k / c) *: gs + d0 *: g).

(** The share another dealer [j] makes from it with a signature [sig] of its own. *)
Definition derived_share (E : engine) (ag : PVSSAggregator E) (sh : PVSSShare E) (j : nat)
  (k r : Fr E) (d : {poly Fr E}) (sig : DecompProof E -> Signature) : PVSSShare E :=
  let g := srs_g2 (cfg_srs (ag_config ag)) in
  let dp := derived_proof g (dp_gs (sp_decomp_proof (sh_signed_proof sh))) k r d.[0] in
  let c := dlk_challenge (dp_proof dp) in
  MkShare j (derived_core ag (sh_pvss_core sh) (k / c) d) (MkSigned dp (sig dp)).

Section Derived.
Variables (E : engine) (D : eddsa).
Implicit Types (ag : PVSSAggregator E) (core : PVSSCore E) (sh : PVSSShare E).

Lemma derived_proof_valid (g gs : Com E) (k r d0 : Fr E) :
  let dp := derived_proof g gs k r d0 in
  dlk_challenge (dp_proof dp) != 0 -> proof_valid g dp.
Proof.
move=> dp c0; split=> //=; set c := hash_to_field _ _ _; rewrite -/c in c0.
rewrite scalerBl scalerDr !scalerA mulrCA divff // mulr1.
by rewrite addrC -addrA; congr (_ + _); rewrite addrCA subrr addr0.
Qed.

Lemma derived_comms ag core k (d : {poly Fr E}) :
  let n := cfg_num_participants (ag_config ag) in
  size (comms core) = n ->
  comms (derived_core ag core k d)
  = [seq e.1 + e.2 | e <- zip [seq k *: P | P <- comms core]
                              (eval_vec d (srs_g2 (cfg_srs (ag_config ag))) n)].
Proof.
move=> n sc; set u := [seq k *: P | P <- comms core]; set w := eval_vec _ _ _.
have su : size u = n by rewrite size_map.
have sw : size w = n by rewrite size_eval_vec.
apply: (@eq_from_nth _ 0); first by rewrite !size_map size_iota size_zip su sw minnn.
move=> i; rewrite size_map size_iota => li.
rewrite (nth_map 0%N) ?size_iota // nth_iota // add0n.
rewrite (nth_map (0, 0)) ?size_zip ?su ?sw ?minnn // nth_zip ?su ?sw //=.
by rewrite (nth_map 0) ?sc // nth_eval_vec.
Qed.

Lemma derived_accepted b R ag (s : rstate R) sh j pa k r (d : {poly Fr E}) sig :
  let sh' := derived_share ag sh j k r d sig in
  let c := dlk_challenge (dp_proof (sp_decomp_proof (sh_signed_proof sh'))) in
  let gs := dp_gs (sp_decomp_proof (sh_signed_proof sh)) in
  config_ok (ag_config ag) -> (size d <= (cfg_degree (ag_config ag)).+1)%N ->
  (share_verify D b ag s sh).1 = Ok tt ->
  bt_get (ag_participants ag) j = Some pa -> (j < cfg_num_participants (ag_config ag))%N ->
  slot_ok ag (sh_pvss_core sh) j -> c != 0 ->
  eddsa_valid D (sig (sp_decomp_proof (sh_signed_proof sh')))
    (signed_digest (sp_decomp_proof (sh_signed_proof sh'))) (pa_public_key_ed pa) ->
  (share_verify D b ag s sh').1 = Ok tt.
Proof.
move=> sh' c gs ok sd acc gj lj so c0 ev; have [tn nq fn] := ok.
move: acc => /share_verifyE[] // p [_ _ _ [[se sc] deg cm] _].
set n := cfg_num_participants (ag_config ag) in se sc lj tn nq fn *.
set t := cfg_degree (ag_config ag) in sd tn deg cm *.
set core := sh_pvss_core sh in se sc so deg cm.
have ecore : sh_pvss_core sh' = derived_core ag core (k / c) d by [].
have dc : comms (derived_core ag core (k / c) d)
    = [seq e.1 + e.2 | e <- zip [seq (k / c) *: P | P <- comms core]
                                (eval_vec d (srs_g2 (cfg_srs (ag_config ag))) n)].
  exact: derived_comms.
have szs : size [seq (k / c) *: P | P <- comms core] = n by rewrite size_map.
have tq : (t.+1 < modulus E)%N by apply: leq_ltn_trans nq; apply: ltnW.
apply/share_verifyE => //; exists pa; rewrite ecore; split=> //.
- rewrite /slot_ok /= !(nth_map 0%N) ?size_iota // !nth_iota // !add0n.
  rewrite pairing_addl pairing_addr [X in _ = _ * X]pairingZ; congr (_ * _).
  by rewrite -pairingZ !pairingZl; congr (_ ^+ _).
- split; first by split; rewrite size_map size_iota.
  + have e1 := @ensure_degree_scale E b R s (comms core) t (k / c).
    rewrite dc -szs ensure_degree_shift ?szs //.
    by rewrite e1 // sc.
  + rewrite dc -szs; apply: commits_to_shift; rewrite ?szs //; first exact: ltnW.
    exact: commits_to_scale.
- by split=> //; exact: derived_proof_valid.
Qed.

End Derived.

(** Whoever sees an accepted share and holds any registered signing key makes another accepted
    share, in its own name, with a secret of its choice added to any multiple of the secret of
    the first: it uses no secret but its signing key.  The slot condition holds for every
    honest share (C57_public_function_refuted below). *)
Theorem C57_derived_share_refuted (E : engine) (D : eddsa) (b : build) (R : rng E)
  (ag : PVSSAggregator E) (s : rstate R) (sh : PVSSShare E) (j : nat) (pa : Participant E)
  (k r : Fr E) (d : {poly Fr E}) (sig : DecompProof E -> Signature) :
  let sh' := derived_share ag sh j k r d sig in
  let g := srs_g2 (cfg_srs (ag_config ag)) in
  let gs := dp_gs (sp_decomp_proof (sh_signed_proof sh)) in
  let c := hash_to_field E DLK_PERSONA (pt_ser g ++ pt_ser (k *: gs + r *: g)) in
  config_ok (ag_config ag) -> (size d <= (cfg_degree (ag_config ag)).+1)%N -> c != 0 ->
  (share_verify D b ag s sh).1 = Ok tt ->
  bt_get (ag_participants ag) j = Some pa -> (j < cfg_num_participants (ag_config ag))%N ->
  slot_ok ag (sh_pvss_core sh) j ->
  (forall dp, eddsa_valid D (sig dp) (signed_digest dp) (pa_public_key_ed pa)) ->
  [/\ (share_verify D b ag s sh').1 = Ok tt, sh_participant_id sh' = j
    & dp_gs (sp_decomp_proof (sh_signed_proof sh')) = (k / c) *: gs + d.[0] *: g].
Proof.
move=> sh' g gs c ok sd c0 acc gj lj so ev; split=> //.
exact: derived_accepted acc gj lj so c0 (ev _).
Qed.
Print Assumptions C57_derived_share_refuted.

(** The property as worded, for one engine and signature scheme: no function of what is public
    and of the signing key of a registered dealer turns every honest share into a share of that
    dealer that is accepted and whose secret depends on the honest one. *)
Definition C57_full (E : engine) (D : eddsa) : Prop :=
  ~ exists F : PVSSAggregator E -> nat -> SecretKey -> PVSSShare E -> PVSSShare E,
    forall ag j sk pa sh, config_ok (ag_config ag) -> honest_share D ag sh ->
    bt_get (ag_participants ag) j = Some pa -> (j < cfg_num_participants (ag_config ag))%N ->
    let sh' := F ag j sk sh in
    works_on D sk (pa_public_key_ed pa) (dealt_digest sh') ->
    [/\ sh_participant_id sh' = j,
        forall b (R : rng E) (s : rstate R), (share_verify D b ag s sh').1 = Ok tt
      & exists k d0, k != 0 /\
          dp_gs (sp_decomp_proof (sh_signed_proof sh'))
          = k *: dp_gs (sp_decomp_proof (sh_signed_proof sh))
            + d0 *: srs_g2 (cfg_srs (ag_config ag))].

(** The share signed again by somebody else. *)
Definition copied_share (E : engine) (D : eddsa) (j : nat) (sk : SecretKey) (sh : PVSSShare E)
  : PVSSShare E :=
  let dp := sp_decomp_proof (sh_signed_proof sh) in
  MkShare j (sh_pvss_core sh)
    (MkSigned dp (if signature_new (Er := pvss_error) D (signed_digest dp) sk is Ok sig then sig
                  else sp_signature_on_decomp (sh_signed_proof sh))).

(** It is false for every engine and signature scheme: neither the proof nor the vectors name
    their dealer, so a copy under another signature is accepted. *)
Theorem C57_public_function_refuted (E : engine) (D : eddsa) : ~ C57_full E D.
Proof.
case; exists (fun _ j sk sh => copied_share D j sk sh) => ag j sk pa sh ok hon gj lj sh' [kp hk vk].
split=> //; last first.
  by exists 1, 0; rewrite oner_eq0 scale1r scale0r addr0.
move=> b R s; have dl := honest_dealt ok hon; have := dealt_accepted b s ok dl.
have [p [pa' [[sp ec] _ _ _ _]]] := dl; have [tn nq fn] := ok.
move=> /share_verifyE[] // pa1 [_ _ _ cv [pv _]]; apply/share_verifyE => //; exists pa; split=> //.
  by rewrite /slot_ok /= ec; apply: core_of_slot.
by split=> //=; rewrite /signature_new hk.
Qed.
Print Assumptions C57_public_function_refuted.

Lemma signed_bytes_inj (E : engine) : injective (@signed_bytes E).
Proof.
case=> [[a c z] gs] [[a' c' z'] gs'] /=; rewrite /signed_bytes /= => e.
have /(congr1 (@pt_deser _ (G2 E))) := e; rewrite !pt_deserK => -[-> {}e].
have /(congr1 (@fr_deser E)) := e; rewrite !fr_deserK => -[-> {}e].
have /(congr1 (@fr_deser E)) := e; rewrite !fr_deserK => -[-> {}e].
have /(congr1 (@pt_deser _ (G2 E))) := e.
by rewrite -[pt_ser gs]cats0 -[pt_ser gs']cats0 !pt_deserK => -[->].
Qed.

(** What holds: a proof is bound to the dealer that signed it.  If a dealer's key verifies
    signatures on the digests of [signed] proofs only, then every accepted share in its name
    carries one of those proofs, or two different byte strings with one SHAKE-256 digest are
    known; and with it the secret shared is that of the proof. *)
Theorem C57_signed_proofs_partial (E : engine) (D : eddsa) (b : build) (R : rng E)
  (ag : PVSSAggregator E) (s : rstate R) (sh : PVSSShare E) (pa : Participant E)
  (signed : DecompProof E -> Prop) :
  let dp := sp_decomp_proof (sh_signed_proof sh) in
  config_ok (ag_config ag) ->
  bt_get (ag_participants ag) (sh_participant_id sh) = Some pa ->
  (forall sg m, eddsa_valid D sg m (pa_public_key_ed pa) ->
     exists2 dp', signed dp' & m = signed_digest dp') ->
  (share_verify D b ag s sh).1 = Ok tt ->
  (signed dp /\ commits_to (cfg_degree (ag_config ag)) (comms (sh_pvss_core sh)) (dp_gs dp)) \/
  exists m m', m <> m' /\ shake256 E m = shake256 E m'.
Proof.
move=> dp ok gp forge; have [tn nq fn] := ok.
case/share_verifyE => // pa'; rewrite gp => -[[<-] _ _ [_ _ cm] [_ ev]].
have [dp' sg e] := forge _ _ ev; have [eb|ne] := eqVneq (signed_bytes dp) (signed_bytes dp').
  by left; split=> //; rewrite (signed_bytes_inj eb).
by right; exists (signed_bytes dp), (signed_bytes dp'); split; [exact/eqP|].
Qed.
Print Assumptions C57_signed_proofs_partial.

(** In the toy setting participant 1 makes accepted shares of its own out of the share of
    participant 2: a copy, and one with three times the secret (up to the challenge) plus 6. *)
Definition tsign1 (dp : DecompProof TE) : Signature :=
  if signature_new (Er := pvss_error) TD (signed_digest dp) (tsk 1) is Ok sig then sig
  else sp_signature_on_decomp (sh_signed_proof sh2).
Definition tpoly : {poly Fr TE} := @Polynomial [ringType of Fr TE] [:: f 6; f 2] isT.
Example C57_example :
  let ok sh := is_ok (@share_verify TE TD Debug (seq_rng TE) tag [:: f 1; f 9; f 3] sh).1 in
  [/\ ok sh2, ok (copied_share TD 1 (tsk 1) sh2),
      ok (derived_share tag sh2 1 (f 3) (f 5) tpoly tsign1)
    & ~~ ok (MkShare 1 (sh_pvss_core sh2) (sh_signed_proof sh2))].
Proof. by split; vm_compute. Qed.

(** ** C58: an aggregator that hears itself; false as stated *)

(** What the transcripts of honest parties satisfy. *)
Definition good_tx (E : engine) (D : eddsa) (ag : PVSSAggregator E) (x : PVSSAggregatedShare E)
  : Prop :=
  [/\ as_degree x = cfg_degree (ag_config ag),
      as_num_participants x = cfg_num_participants (ag_config ag),
      forall i v, bt_get (as_contributions x) i = Some v ->
        (i < cfg_num_participants (ag_config ag))%N
    & sound_transcript D ag x].

(** The coins of one call. *)
Definition coins (E : engine) : Type := {R : rng E & rstate R}.
Definition with_coins (E : engine) (m : message E) (c : coins E) : call E :=
  Call m (projT2 c).

(** An aggregator receives its own current transcript, once per element of [cs]; the outcomes
    and the aggregator at the end. *)
Fixpoint loopback (E : engine) (D : eddsa) (b : build) (ag : PVSSAggregator E) (cs : seq (coins E))
  : seq (outcome pvss_error unit) * PVSSAggregator E :=
  if cs is c :: cs' then
    let: (r, ag') := receive D b ag (with_coins (MsgTranscript (ag_aggregated_tx ag)) c) in
    let: (rs, ag'') := loopback D b ag' cs' in (r :: rs, ag'')
  else ([::], ag).

Section Loop.
Variables (E : engine) (D : eddsa) (b : build).
Implicit Types (ag : PVSSAggregator E) (x y z : PVSSAggregatedShare E).
Local Notation tx := (@ag_aggregated_tx E).

Lemma good_accepted R (s : rstate R) ag x : config_ok (ag_config ag) -> registered ag ->
  good_tx D ag x -> (aggregation_verify D b ag s x).1 = Ok tt.
Proof.
by move=> ok reg [_ _ _ gx]; have [_ h _] := C50_transcript_soundness D b x ok reg; exact: h.
Qed.

(** Receiving a transcript succeeds when it verifies and merges. *)
Lemma receive_tx_eq R (s : rstate R) ag y : (aggregation_verify D b ag s y).1 = Ok tt ->
  receive D b ag (Call (MsgTranscript y) s)
  = match agg_aggregate b (tx ag) y with
    | Ok z => (Ok tt, set_tx ag z)
    | Err _ => (Panic UnwrapErr, ag)
    | Panic p => (Panic p, ag)
    end.
Proof.
rewrite /receive /= /receive_aggregated_share; case: (aggregation_verify _ _ _ _ _) => v s' /= ->.
by rewrite /=; case: (agg_aggregate b (tx ag) y).
Qed.

Lemma good_merge ag x y : config_ok (ag_config ag) -> registered ag ->
  good_tx D ag x -> good_tx D ag y ->
  (forall i, ~ conflict_at x y i) -> (forall i, ~ overflow_at x y i) ->
  exists2 z, agg_aggregate b x y = Ok z & good_tx D ag z.
Proof.
move=> ok reg [d1 n1 b1 g1] [d2 n2 b2 g2] nc no.
have [z [mg [dz nz] bz gz _]] :=
  C49_merge_sound_partial b ok reg (conj d1 n1) (conj d2 n2) b1 b2 nc no g1 g2.
by exists z.
Qed.

Definition double (v : SignedProof E * N) : SignedProof E * N := (v.1, (2 * v.2)%num).

Lemma loop_step ag (c : coins E) : config_ok (ag_config ag) -> registered ag ->
  good_tx D ag (tx ag) ->
  (forall i sp w, bt_get (as_contributions (tx ag)) i = Some (sp, w) -> (2 * w < 2 ^ 64)%num) ->
  exists z, [/\ receive D b ag (with_coins (MsgTranscript (tx ag)) c) = (Ok tt, set_tx ag z),
    good_tx D ag z,
    forall i, bt_get (as_contributions z) i = omap double (bt_get (as_contributions (tx ag)) i)
    & as_pvss_core z = core_add (as_pvss_core (tx ag)) (as_pvss_core (tx ag))].
Proof.
move=> ok reg gt small.
have nc i : ~ conflict_at (tx ag) (tx ag) i by case=> a [w [a' [w' [-> [<- _]]]]].
have no i : ~ overflow_at (tx ag) (tx ag) i.
  case=> a [w [a' [w' [ga + _]]]]; rewrite ga => -[_ <-].
  by have := small _ _ _ ga; lia.
have [z mg gz] := good_merge ok reg gt gt nc no.
exists z; split=> //.
- by rewrite receive_tx_eq ?mg //; exact: good_accepted.
- have [_ nz bz _] := gz; have [_ nx bx _] := gt.
  have /agg_okE[_ _ _ ms out] := mg.
  move=> i; case: (ltnP i (cfg_num_participants (ag_config ag))) => li; last first.
    rewrite out ?nx //; case g: (bt_get _ i) => [v|//].
    by have := bx _ _ g; rewrite ltnNge li.
  rewrite -nx in li; have := ms i li; case g: (bt_get _ i) => [[sp w]|] /=; last by case=> <-.
  rewrite eqxx /= /u64_add; have := small _ _ _ g; rewrite /u64_bound => lt.
  have -> : (w + w <? 2 ^ 64)%num by apply/N.ltb_lt; lia.
  by have -> : (w + w = 2 * w)%num; [lia | case=> <-].
- by have /agg_okE[_ _ /core_aggregate_inv[m [_ _ _ ->]] _ _] := mg.
Qed.

(** After [m] turns of a transcript whose weights are all 1 they are all [2^m]. *)
Lemma loop_many ag (cs : seq (coins E)) (w0 : N) : config_ok (ag_config ag) -> registered ag ->
  good_tx D ag (tx ag) ->
  (forall i sp w, bt_get (as_contributions (tx ag)) i = Some (sp, w) -> w = w0) ->
  (w0 * 2 ^ N.of_nat (size cs) < 2 ^ 64)%num ->
  let: (rs, ag') := loopback D b ag cs in
  [/\ rs = nseq (size cs) (Ok tt), ag_config ag' = ag_config ag /\ ag_participants ag' = ag_participants ag,
      good_tx D ag' (tx ag')
    & forall i, bt_get (as_contributions (tx ag')) i
        = omap (fun v => (v.1, (w0 * 2 ^ N.of_nat (size cs))%num)) (bt_get (as_contributions (tx ag)) i)].
Proof.
elim: cs ag w0 => [|c cs IH] ag w0 ok reg gt same small /=.
  split=> // i; case g: (bt_get _ i) => [[sp w]|] //=.
  by rewrite (same _ _ _ g) N.mul_1_r.
have e2 : (w0 * 2 ^ N.of_nat (size (c :: cs)) = 2 * w0 * 2 ^ N.of_nat (size cs))%num.
  rewrite -[N.of_nat (size (c :: cs))]/(N.of_nat (S (size cs))) Nnat.Nat2N.inj_succ N.pow_succ_r'.
  by lia.
rewrite e2 in small *.
have pos : (1 <= 2 ^ N.of_nat (size cs))%num by have := N.pow_nonzero 2 (N.of_nat (size cs)); lia.
have sm i sp w : bt_get (as_contributions (tx ag)) i = Some (sp, w) -> (2 * w < 2 ^ 64)%num.
  by move/same=> ->; nia.
have [z [er gz ct _]] := loop_step c ok reg gt sm; rewrite er.
have gz' : good_tx D (set_tx ag z) (tx (set_tx ag z)) by [].
have sm' i sp w : bt_get (as_contributions (tx (set_tx ag z))) i = Some (sp, w) -> w = (2 * w0)%num.
  by rewrite /= ct; case g: (bt_get _ i) => [[sp' w']|] //= [_ <-]; rewrite (same _ _ _ g).
have := IH (set_tx ag z) (2 * w0)%num ok reg gz' sm' small.
case: (loopback _ _ _ _) => rs ag' [-> [-> ->] g' ct']; split=> // i.
by rewrite ct' ct; case: (bt_get _ i).
Qed.

End Loop.

(** The property as worded: a transcript brings nothing new to the aggregator it comes from. *)
Definition C58_full : Prop :=
  forall (E : engine) (D : eddsa) (b : build) (R : rng E) (ag : PVSSAggregator E) (s : rstate R),
  config_ok (ag_config ag) -> registered ag -> good_tx D ag (ag_aggregated_tx ag) ->
  receive D b ag (Call (MsgTranscript (ag_aggregated_tx ag)) s) = (Ok tt, ag).

(** Starting with weights 1, the first 63 turns are accepted and double every weight.  The
    64th panics when overflow is checked and otherwise sets every weight to zero. *)
Theorem C58_loopback_refuted (E : engine) (D : eddsa) (ag : PVSSAggregator E)
  (cs : seq (coins E)) (c : coins E) (i0 : nat) (sp0 : SignedProof E) :
  let m := N.of_nat (size cs) in
  let weights (a : PVSSAggregator E) i := bt_get (as_contributions (ag_aggregated_tx a)) i in
  config_ok (ag_config ag) -> registered ag -> good_tx D ag (ag_aggregated_tx ag) ->
  weights ag i0 = Some (sp0, 1%num) ->
  (forall i sp w, weights ag i = Some (sp, w) -> w = 1%num) ->
  (m < 64)%num ->
  forall b, let: (rs, ag') := loopback D b ag cs in
  [/\ all (@is_ok _ _) rs /\ size rs = size cs,
      forall i sp w, weights ag i = Some (sp, w) -> weights ag' i = Some (sp, (2 ^ m)%num)
    & m = 63%num ->
      let: (r, ag'') := receive D b ag' (with_coins (MsgTranscript (ag_aggregated_tx ag')) c) in
      match b with
      | Debug => r = Panic ArithOverflow /\ ag'' = ag'
      | Release => r = Ok tt /\ forall i sp w, weights ag'' i = Some (sp, w) -> w = 0%num
      end].
Proof.
move=> m weights ok reg gt g0 same lt b.
have small : (1 * 2 ^ m < 2 ^ 64)%num by rewrite N.mul_1_l; apply: N.pow_lt_mono_r.
have := loop_many b ok reg gt same small.
case: (loopback D b ag cs) => rs ag' [-> [ec ep] gt' ct'].
have ct i : weights ag' i = omap (fun v => (v.1, (2 ^ m)%num)) (weights ag i).
  by rewrite N.mul_1_l in ct'; apply: ct'.
split.
- by rewrite size_nseq all_nseq /= orbT.
- by move=> i sp w g; rewrite ct g.
move=> m63; rewrite m63 in ct.
have ok' : config_ok (ag_config ag') by rewrite ec.
have reg' : registered ag' by rewrite /registered ec ep.
have acc : (aggregation_verify D b ag' (projT2 c) (ag_aggregated_tx ag')).1 = Ok tt.
  exact: good_accepted.
rewrite /with_coins receive_tx_eq //.
have w63 i sp w : weights ag' i = Some (sp, w) -> w = (2 ^ 63)%num.
  by rewrite ct; case: (weights ag i) => [v|//] [_ <-].
have [dx nx bx sx] := gt'; have [[se sc] _ _ _ _] := sx.
set x := ag_aggregated_tx ag' in dx nx bx sx se sc acc w63 *.
have n0 : (0 < cfg_num_participants (ag_config ag'))%N.
  by rewrite ec; have [tn _ _] := ok; apply: leq_trans tn.
case: b acc => acc.
- suff -> : agg_aggregate Debug x x = Panic ArithOverflow by [].
  pose bad i := (i < as_num_participants x)%N && isSome (weights ag' i).
  have ex : exists i, bad i.
    exists i0; rewrite /bad ct g0 /= andbT nx ec.
    by have [_ _ bt _] := gt; exact: bt g0.
  case: (ex_minnP ex) => i /andP[li gi] imin.
  case g: (weights ag' i) gi => [[sp w]|//] _; have ew := w63 _ _ _ g; rewrite ew in g.
  rewrite /agg_aggregate !eqxx /=.
  have := @merge_fail E Debug (as_contributions x) (as_contributions x) _ i li.
  have -> : bt_get (as_contributions x) i = Some (sp, (2 ^ 63)%num) by [].
  have -> : merge_slot Debug (Some (sp, (2 ^ 63)%num)) (Some (sp, (2 ^ 63)%num)) = Panic ArithOverflow.
    by rewrite /merge_slot eqxx.
  move=> -> // j ji; case gj: (bt_get _ j) => [v|] //.
  have : bad j by rewrite /bad (ltn_trans ji li) /weights -/x gj.
  by move/imin; rewrite leqNgt ji.
- have [_ _ _ _ h] := C18_transcript_errors Release x x.
  have : is_ok (agg_aggregate Release x x).
    apply/h; split=> //.
      by rewrite se sc; split.
    move=> i _ [|[]//]; case=> a [w [a' [w' [-> [<- _]]]]] //.
  case/is_okP=> z mg; rewrite mg; split=> // i sp w.
  have /agg_okE[_ _ _ ms out] := mg; rewrite /weights /=.
  case: (ltnP i (as_num_participants x)) => li; last by rewrite out.
  have := ms i li; case g: (bt_get _ i) => [[sp' w']|] /=; last by case=> <-.
  have ew := w63 _ _ _ g; rewrite eqxx ew /= => -[<-].
  by case=> _ <-.
Qed.
Print Assumptions C58_loopback_refuted.

Lemma C58_full_false (E : engine) (D : eddsa) (ag : PVSSAggregator E) (R : rng E) (s : rstate R)
  i sp : config_ok (ag_config ag) -> registered ag -> good_tx D ag (ag_aggregated_tx ag) ->
  bt_get (as_contributions (ag_aggregated_tx ag)) i = Some (sp, 1%num) ->
  (forall j sp w, bt_get (as_contributions (ag_aggregated_tx ag)) j = Some (sp, w) -> w = 1%num) ->
  ~ C58_full.
Proof.
move=> ok reg gt gi same full.
have sm j sp' w : bt_get (as_contributions (ag_aggregated_tx ag)) j = Some (sp', w) -> (2 * w < 2 ^ 64)%num.
  by move/same=> ->.
have [z [er _ ct _]] := loop_step Debug (existT _ R s) ok reg gt sm.
have := full E D Debug R ag s ok reg gt; rewrite -[Call _ s]/(with_coins _ (existT _ R s)) er.
by case=> /(congr1 (fun a => bt_get (as_contributions (ag_aggregated_tx a)) i)); rewrite /= ct gi.
Qed.

(** The aggregator of the toy setting after one honest share. *)
Definition tag2 : PVSSAggregator TE := set_tx tag (tx_share sh2).

Lemma tag2_good : good_tx TD tag2 (ag_aggregated_tx tag2).
Proof.
have tc : config_ok tconfig by [].
have d2 := @honest_dealt TE TD tag sh2 tc sh2_honest.
have snd := @dealt_sound_transcript TE TD tag sh2 tc d2.
split=> //.
move=> i v; rewrite bt_get1; have -> : sh_participant_id sh2 = 2%N by vm_compute.
by case: eqP => // <-.
Qed.

Theorem C58_full_refuted : ~ C58_full.
Proof.
have tc : config_ok (ag_config tag2) by [].
have g2 : bt_get (as_contributions (ag_aggregated_tx tag2)) 2 = Some (sh_signed_proof sh2, 1%num).
  by rewrite bt_get1; have -> : sh_participant_id sh2 = 2%N by vm_compute.
apply: (@C58_full_false TE TD tag2 (seq_rng TE) [::] 2 _ tc tag_registered tag2_good g2).
by move=> j sp w; rewrite bt_get1; case: eqP => // _ [_ <-].
Qed.

(** What holds: as long as no weight reaches [2^63] the aggregator's own transcript is accepted
    and commitments, encryptions and weights are doubled together, so that the result is again
    one that every peer accepts. *)
Theorem C58_loopback_sound_partial (E : engine) (D : eddsa) (b : build) (ag : PVSSAggregator E)
  (R : rng E) (s : rstate R) :
  let x := ag_aggregated_tx ag in
  config_ok (ag_config ag) -> registered ag -> good_tx D ag x ->
  (forall i sp w, bt_get (as_contributions x) i = Some (sp, w) -> (w < 2 ^ 63)%num) ->
  exists ag', let x' := ag_aggregated_tx ag' in
  [/\ receive D b ag (Call (MsgTranscript x) s) = (Ok tt, ag'),
      forall i, bt_get (as_contributions x') i
                = omap (fun v => (v.1, (2 * v.2)%num)) (bt_get (as_contributions x) i),
      forall i, (i < cfg_num_participants (ag_config ag))%N ->
        nth 0 (encs (as_pvss_core x')) i = 2%:R *: nth 0 (encs (as_pvss_core x)) i /\
        nth 0 (comms (as_pvss_core x')) i = 2%:R *: nth 0 (comms (as_pvss_core x)) i
    & forall b' (R' : rng E) (s' : rstate R'), (aggregation_verify D b' ag s' x').1 = Ok tt].
Proof.
move=> x ok reg gt small.
have sm j sp' w : bt_get (as_contributions (ag_aggregated_tx ag)) j = Some (sp', w) -> (2 * w < 2 ^ 64)%num.
  by move/small; rewrite -/(2 ^ 64)%num; lia.
have [z [er gz ct ec]] := loop_step b (existT _ R s) ok reg gt sm; exists (set_tx ag z); split=> //.
  by move=> i li; rewrite /= ec /= !nth_vadd // !scaler_nat !mulr2n.
by move=> b' R' s'; apply: good_accepted gz.
Qed.
Print Assumptions C58_loopback_sound_partial.

Example C58_example :
  let: (rs, ag') := @loopback TE TD Debug tag2 (nseq 3 (existT _ (seq_rng TE) [:: f 1; f 9; f 3])) in
  rs = nseq 3 (Ok tt) /\
  [seq (kv.1, kv.2.2) | kv <- bt_iter (as_contributions (ag_aggregated_tx ag'))] = [:: (2%N, 8%num)].
Proof. by vm_compute. Qed.
