(** * PropsReuse: C109, what opening one session tells about another one *)

From Coq Require Import NArith Strings.Byte.
From mathcomp Require Import all_ssreflect all_algebra zify.
From Verif Require Import Prelude Errors BTreeMap Engine LibModel PolyModel SigmaModel PvssModel
  Spec PreludeProofs AlgebraProofs PolyProofs PvssProofs AggProofs HistProofs Instance PropsPoly
  PropsShare PropsAgg PropsHist PropsEnd PropsLimits PropsAttack PropsSetup PropsMix.

Set Implicit Arguments.
Unset Strict Implicit.
Unset Printing Implicit Defensive.

Import GRing.Theory.
Local Open Scope ring_scope.

(** The members [ids] decrypt their slots of [x] with [sk] and interpolate: they get [S]. *)
Definition opens_to (E : engine) (ag : PVSSAggregator E) (sk : nat -> Fr E) (ids : seq nat)
  (x : PVSSAggregatedShare E) (S : Enc E) : Prop :=
  exists2 ds, mapM (fun i => decrypted_share_generate (encs (as_pvss_core x)) (sk i) i) ids
                = Ok ds :> outcome pvss_error _
            & forall b, reconstruct b (cfg_degree (ag_config ag)) ds = Ok S.

(** Everybody with the configuration and the participants of [ag] accepts the share / the
    transcript, whatever the coins. *)
Definition all_accept_share (E : engine) (D : eddsa) (ag : PVSSAggregator E) (sh : PVSSShare E) :=
  forall peer b (R : rng E) (s : rstate R),
    ag_config peer = ag_config ag -> ag_participants peer = ag_participants ag ->
    (share_verify D b peer s sh).1 = Ok tt.
Definition all_accept (E : engine) (D : eddsa) (ag : PVSSAggregator E) (x : PVSSAggregatedShare E) :=
  forall peer b (R : rng E) (s : rstate R),
    ag_config peer = ag_config ag -> ag_participants peer = ag_participants ag ->
    (aggregation_verify D b peer s x).1 = Ok tt.

Section Reuse.
Variables (E : engine) (D : eddsa).
Implicit Types (ag : PVSSAggregator E) (x y : PVSSAggregatedShare E) (sh : PVSSShare E).

Lemma carries_opens ag sk ids x (p : {poly Fr E}) :
  config_ok (ag_config ag) -> quorum ag sk ids -> carries ag x p ->
  opens_to ag sk ids x (p.[0] *: srs_g1 (cfg_srs (ag_config ag))).
Proof.
set g1 := srs_g1 _; pose t := cfg_degree (ag_config ag).
move=> [tn nq fn] [szi ui hids] [sp ecore].
exists [seq MkDec (p.[i.+1%:R] *: g1) i | i <- ids].
  apply: mapM_ok_in => i /hids[li ski ki].
  have [dc _ _ _] := @C27_decryption E pvss_error (encs (as_pvss_core x)) (sk i) i.
  apply: dc => //; first by rewrite ecore size_enc_vec.
  by rewrite ecore nth_enc_vec // ki.
move=> b; rewrite /reconstruct -!map_comp.
have := @C05_interpolation_g1 E b p g1 [seq i.+1%:R | i <- ids] t sp.
rewrite /eval_at -map_comp; apply.
- by rewrite size_map szi.
- apply: take_uniq; rewrite map_inj_in_uniq // => i j /hids[li _ _] /hids[lj _ _].
  exact: (@pnt_inj E _ nq).
- by move: fn; rewrite /fits /t; lia.
Qed.

Lemma dealt_all_accept ag sh : config_ok (ag_config ag) -> dealt D ag sh -> all_accept_share D ag sh.
Proof.
move=> ok dl peer b R s ec ep; apply: dealt_accepted; first by rewrite ec.
exact: dealt_ext (esym ec) (esym ep) dl.
Qed.

(** A derived share is dealt, with the polynomial [(k/c) p + d]. *)
Lemma derived_dealt ag sh j pa (k r : Fr E) (d : {poly Fr E}) (sig : DecompProof E -> Signature) :
  let sh' := derived_share ag sh j k r d sig in
  let c := dlk_challenge (dp_proof (sp_decomp_proof (sh_signed_proof sh'))) in
  config_ok (ag_config ag) -> (size d <= (cfg_degree (ag_config ag)).+1)%N -> c != 0 ->
  forall p : {poly Fr E}, (size p <= (cfg_degree (ag_config ag)).+1)%N -> sh_pvss_core sh = core_of ag p ->
  dp_gs (sp_decomp_proof (sh_signed_proof sh)) = p.[0] *: srs_g2 (cfg_srs (ag_config ag)) ->
  bt_get (ag_participants ag) j = Some pa -> (j < cfg_num_participants (ag_config ag))%N ->
  (forall dp, eddsa_valid D (sig dp) (signed_digest dp) (pa_public_key_ed pa)) ->
  sh_pvss_core sh' = core_of ag ((k / c) *: p + d) /\ dealt D ag sh'.
Proof.
move=> sh' c ok sd c0 p sp ecore egs gj lj ev.
have ec' : sh_pvss_core sh' = core_of ag ((k / c) *: p + d).
  have -> : sh_pvss_core sh' = derived_core ag (sh_pvss_core sh) (k / c) d by [].
  rewrite ecore /derived_core /core_of; congr MkCore; apply: (@eq_from_nth _ 0).
  - by rewrite size_map size_iota size_enc_vec.
  - move=> i; rewrite size_map size_iota => li.
    rewrite (nth_map 0%N) ?size_iota // nth_iota // add0n !nth_enc_vec //.
    by rewrite hornerD hornerZ scalerDl scalerA.
  - by rewrite size_map size_iota size_eval_vec.
  - move=> i; rewrite size_map size_iota => li.
    rewrite (nth_map 0%N) ?size_iota // nth_iota // add0n !nth_eval_vec //.
    by rewrite hornerD hornerZ scalerDl scalerA.
split=> //; exists ((k / c) *: p + d), pa; split=> //.
- split=> //; apply: leq_trans (size_add _ _) _; rewrite geq_max sd andbT.
  by apply: leq_trans (size_scale_leq _ _) sp.
- have -> : dp_gs (sp_decomp_proof (sh_signed_proof sh'))
      = (k / c) *: dp_gs (sp_decomp_proof (sh_signed_proof sh))
        + d.[0] *: srs_g2 (cfg_srs (ag_config ag)) by [].
  by rewrite egs hornerD hornerZ scalerDl scalerA.
- by split; [exact: derived_proof_valid | exact: ev].
Qed.

End Reuse.

(** An honest dealer has dealt [sh], of secret [a], in some session with these keys.  In a later
    session, with a new aggregator, participant [j] makes a share out of it, using nothing but
    [sh], its own signing key, and numbers and a polynomial of its choice.  Everybody accepts
    it, and the transcript that holds nothing else.  The secret of the later session, as any
    quorum opens it, gives [j] the secret of the dealer. *)
Theorem C109_blinded_refuted (E : engine) (D : eddsa) (b : build) (config : Config E)
  (ps : btmap (Participant E)) (ag : PVSSAggregator E) (sh : PVSSShare E) (a : Fr E)
  (j : nat) (pa : Participant E) (k r : Fr E) (d : {poly Fr E}) (sig : DecompProof E -> Signature)
  (cs : coins E) (sk : nat -> Fr E) (ids : seq nat) :
  let g1 := srs_g1 (cfg_srs config) in
  let g2 := srs_g2 (cfg_srs config) in
  let gs := dp_gs (sp_decomp_proof (sh_signed_proof sh)) in
  let c := hash_to_field E DLK_PERSONA (pt_ser g2 ++ pt_ser (k *: gs + r *: g2)) in
  let sh' := derived_share ag sh j k r d sig in
  let later := run D b ag [:: with_coins (MsgShare sh') cs] in
  aggregator_new config ps = Ok ag -> config_ok config -> registered ag -> g2 != 0 ->
  honest_share D ag sh -> gs = a *: g2 ->
  (size d <= (cfg_degree config).+1)%N -> k != 0 -> c != 0 ->
  bt_get ps j = Some pa -> (j < cfg_num_participants config)%N ->
  (forall dp, eddsa_valid D (sig dp) (signed_digest dp) (pa_public_key_ed pa)) ->
  quorum ag sk ids ->
  [/\ all_accept_share D ag sh', all_accept D ag (ag_aggregated_tx later),
      forall i, isSome (bt_get (as_contributions (ag_aggregated_tx later)) i) = (i == j)
    & exists2 S, opens_to ag sk ids (ag_aggregated_tx later) S
              & (c / k) *: (S - d.[0] *: g1) = a *: g1].
Proof.
move=> g1 g2 gs c sh' later; case=> e0; rewrite -{}e0 in sh' later *.
rewrite -[MkAggregator _ _ _]/(new_aggregator config ps) in sh' later *.
set ag0 := new_aggregator config ps in sh' later *.
move=> ok reg g20 hon ea sd k0 c0 gj lj ev qu.
have [p [pb [[sp ecore] _ _ egs _]]] := @honest_dealt E D ag0 sh ok hon.
have ep0 : p.[0] = a.
  apply/eqP; rewrite -subr_eq0; have : (p.[0] - a) *: g2 == 0.
    by rewrite scalerBl -ea /gs egs subrr.
  by rewrite scaler_eq0 (negbTE g20) orbF.
have [ec' dl] := @derived_dealt E D ag0 sh j pa k r d sig ok sd c0 p sp ecore egs gj lj ev.
have acc := @dealt_all_accept E D ag0 _ ok dl; rewrite -/sh' in acc dl.
have sv : (share_verify D b ag0 (projT2 cs) sh').1 = Ok tt by exact: acc.
have [ecs ecr] := one_share ok sv; rewrite -/later in ecs ecr.
have sd' : (size ((k / c) *: p + d)%R <= (cfg_degree config).+1)%N.
  apply: leq_trans (size_add _ _) _; rewrite geq_max sd andbT.
  exact: leq_trans (size_scale_leq _ _) sp.
split=> //.
- move=> peer b' R s ec ep.
  have dl' : dealt D peer sh' by apply: dealt_ext (esym ec) (esym ep) dl.
  have ok' : config_ok (ag_config peer) by rewrite ec.
  have reg' : registered peer by move=> i; rewrite ec ep; exact: reg.
  have := @sound_accepted E D b' R peer s _ ok' reg' (dealt_sound ok' dl').
  by rewrite /aggregation_verify /= ecr ecs.
- by move=> i; rewrite ecs bt_get1 eq_sym; case: eqP.
exists (((k / c) *: p + d).[0] *: g1).
  by apply: (@carries_opens E ag0) => //; split=> //; rewrite ecr ec'.
rewrite hornerD hornerZ ep0 scalerDl addrK scalerA; congr (_ *: _).
by rewrite mulrA mulf_div [k * c]mulrC divff ?mul1r // mulf_neq0.
Qed.
Print Assumptions C109_blinded_refuted.

(** The property as worded, for one engine and signature scheme: there is no way of making a
    share for a later session out of an honest one, and of computing the honest secret from
    what the later session opens to, without the dealer of the honest share contributing. *)
Definition C109_full (E : engine) (D : eddsa) : Prop :=
  ~ exists (F : PVSSAggregator E -> nat -> SecretKey -> PVSSShare E -> PVSSShare E)
           (G : PVSSShare E -> Enc E -> Enc E),
    forall (b : build) config ps ag sh a j sj pa (cs : coins E) sk ids,
    aggregator_new config ps = Ok ag -> config_ok config -> registered ag ->
    srs_g2 (cfg_srs config) != 0 -> honest_share D ag sh ->
    dp_gs (sp_decomp_proof (sh_signed_proof sh)) = a *: srs_g2 (cfg_srs config) ->
    j <> sh_participant_id sh -> bt_get ps j = Some pa -> (j < cfg_num_participants config)%N ->
    works_on D sj (pa_public_key_ed pa) (dealt_digest (F ag j sj sh)) -> quorum ag sk ids ->
    let later := run D b ag [:: with_coins (MsgShare (F ag j sj sh)) cs] in
    [/\ all_accept D ag (ag_aggregated_tx later),
        bt_get (as_contributions (ag_aggregated_tx later)) (sh_participant_id sh) = None
      & exists2 S, opens_to ag sk ids (ag_aggregated_tx later) S
                 & G sh S = a *: srs_g1 (cfg_srs config)].

(** A copy under another signature does. *)
Theorem C109_full_refuted (E : engine) (D : eddsa) : ~ C109_full E D.
Proof.
case; exists (fun _ j sj sh => copied_share D j sj sh), (fun _ S => S).
move=> b config ps ag sh a j sj pa cs sk ids; case=> e0; rewrite -{}e0.
rewrite -[MkAggregator _ _ _]/(new_aggregator config ps); set ag0 := new_aggregator config ps.
move=> ok reg g20 hon ea nj gj lj [kp hk vk] qu later.
have [p [pb [[sp ecore] _ _ egs sv0]]] := @honest_dealt E D ag0 sh ok hon.
have ep0 : p.[0] = a.
  apply/eqP; rewrite -subr_eq0; have : (p.[0] - a) *: srs_g2 (cfg_srs config) == 0.
    by rewrite scalerBl -ea egs subrr.
  by rewrite scaler_eq0 (negbTE g20) orbF.
have dl : dealt D ag0 (copied_share D j sj sh).
  exists p, pa; split=> //; have [pv _] := sv0.
  by split=> //=; rewrite /signature_new hk.
have sv : (share_verify D b ag0 (projT2 cs) (copied_share D j sj sh)).1 = Ok tt.
  exact: (@dealt_all_accept E D ag0 _ ok dl).
have [ecs ecr] := one_share ok sv; rewrite -/later in ecs ecr.
split.
- move=> peer b' R s ec ep.
  have dl' : dealt D peer (copied_share D j sj sh) by apply: dealt_ext (esym ec) (esym ep) dl.
  have ok' : config_ok (ag_config peer) by rewrite ec.
  have reg' : registered peer by move=> i; rewrite ec ep; exact: reg.
  have := @sound_accepted E D b' R peer s _ ok' reg' (dealt_sound ok' dl').
  by rewrite /aggregation_verify /= ecr ecs.
- by rewrite ecs bt_get1; case: eqP.
exists (p.[0] *: srs_g1 (cfg_srs config)); last by rewrite ep0.
by apply: (@carries_opens E ag0) => //; split=> //; rewrite ecr.
Qed.
Print Assumptions C109_full_refuted.

(** What holds: what two transcripts open to can be compared without opening them.  If their
    cores are those of polynomials (as in every transcript of dealt shares), a quorum opens
    them to the same point exactly if they commit to the same point; more generally one opens
    to [u] times the other plus [v g1] exactly if this holds for what they commit to. *)
Theorem C109_compare_partial (E : engine) (D : eddsa) (ag : PVSSAggregator E)
  (x y : PVSSAggregatedShare E) (sk : nat -> Fr E) (ids ids' : seq nat) (u v : Fr E) (S S' : Enc E) :
  let g1 := srs_g1 (cfg_srs (ag_config ag)) in
  let g2 := srs_g2 (cfg_srs (ag_config ag)) in
  config_ok (ag_config ag) -> g1 != 0 -> g2 != 0 ->
  sound_tx D ag x -> sound_tx D ag y -> quorum ag sk ids -> quorum ag sk ids' ->
  opens_to ag sk ids x S -> opens_to ag sk ids' y S' ->
  S' = u *: S + v *: g1 <->
  weighted_gs (as_contributions y) = u *: weighted_gs (as_contributions x) + v *: g2.
Proof.
move=> g1 g2 ok g10 g20 [_ [p cp] _ _ bx] [_ [p' cp'] _ _ by_] qu qu' [ds ed er] [ds' ed' er'].
have [ds1 ed1 er1] := carries_opens ok qu cp.
have [ds2 ed2 er2] := carries_opens ok qu' cp'.
have [? ?] : ds1 = ds /\ ds2 = ds' by split; [move: ed1; rewrite ed | move: ed2; rewrite ed'] => -[].
subst ds1 ds2.
have -> : S = p.[0] *: g1 by have := er1 Debug; rewrite er => -[].
have -> : S' = p'.[0] *: g1 by have := er2 Debug; rewrite er' => -[].
have [tn nq fn] := ok.
have com (z : PVSSAggregatedShare E) (P : {poly Fr E}) : carries ag z P ->
    commits_to (cfg_degree (ag_config ag)) (comms (as_pvss_core z)) (weighted_gs (as_contributions z)) ->
    weighted_gs (as_contributions z) = P.[0] *: g2.
  move=> [sp ecore] bal; have := core_of_commits ok sp; rewrite -ecore => cm.
  apply: commits_to_fun bal cm; first by rewrite ecore size_eval_vec ltnW.
  by apply: leq_ltn_trans nq; exact: ltnW.
rewrite (com _ _ cp bx) (com _ _ cp' by_) !scalerA -!scalerDl.
have inj (V : lmodType (Fr E)) (g : V) (z w : Fr E) : g != 0 -> z *: g = w *: g -> z = w.
  move=> g0 /eqP; rewrite -subr_eq0 -scalerBl scaler_eq0 (negbTE g0) orbF subr_eq0 => /eqP; exact.
by split=> e; congr (_ *: _); [exact: inj g10 e | exact: inj g20 e].
Qed.
Print Assumptions C109_compare_partial.

(** In the toy setting participant 2 dealt the secret 7; participant 1 brings a blinded copy,
    the only share of a later session.  Recipients 3 and 1 open it. *)
Example C109_example :
  let sh' := derived_share tag sh2 1 (f 3) (f 5) tpoly tsign1 in
  let g2 := srs_g2 tsrs in
  let c := hash_to_field TE DLK_PERSONA
             (pt_ser g2 ++ pt_ser (f 3 *: dp_gs (sp_decomp_proof (sh_signed_proof sh2)) + f 5 *: g2)) in
  let later := run TD Debug tag [:: tcall (MsgShare sh')] in
  let ds := mapM (fun i => @decrypted_share_generate TE pvss_error
                             (encs (as_pvss_core (ag_aggregated_tx later))) (f (i + 2)) i) [:: 3; 1]%N in
  [/\ c != 0, honest_share TD tag sh2, quorum tag (fun i => f (i + 2)) [:: 3; 1]%N
    & (if ds is Ok ds then if reconstruct Debug 1 ds is Ok P
       then [&& P != f 7 *: srs_g1 tsrs, dp_gs (sp_decomp_proof (sh_signed_proof sh')) != f 7 *: g2
              & (c / f 3) *: (P - f 6 *: srs_g1 tsrs) == f 7 *: srs_g1 tsrs]
       else false else false)].
Proof.
split; [by vm_compute | exact: sh2_honest | | by vm_compute].
split; [by [] | by [] |].
move=> i; rewrite !inE => /orP[] /eqP ->; split; [by [] | by vm_compute | | by [] | by vm_compute |];
  by apply: val_inj; vm_compute.
Qed.

(** Two transcripts that can be compared. *)
Example C109_compare_example :
  [/\ sound_tx TD tag (tx_share sh2), sound_tx TD tag (tx_share sh1),
      srs_g1 tsrs != 0 & srs_g2 tsrs != 0].
Proof.
have tc : config_ok (ag_config tag) by [].
split; [| | by vm_compute | by vm_compute].
  exact: (dealt_sound tc (honest_dealt tc sh2_honest)).
exact: (dealt_sound tc (honest_dealt tc sh1_honest)).
Qed.
