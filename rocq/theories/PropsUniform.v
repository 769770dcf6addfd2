(** * PropsUniform: how the random scalars of one dealer spread the secrets *)

From Coq Require Import NArith Strings.Byte.
From mathcomp Require Import all_ssreflect all_algebra zify.
From Verif Require Import Prelude Errors BTreeMap Engine LibModel PolyModel SigmaModel PvssModel
  Spec PreludeProofs AlgebraProofs PolyProofs PvssProofs AggProofs HistProofs Instance
  PropsPoly PropsShare PropsAgg PropsHist PropsEnd PropsLimits PropsVerdict.

Set Implicit Arguments.
Unset Strict Implicit.
Unset Printing Implicit Defensive.

Import GRing.Theory.
Local Open Scope ring_scope.

Section Uniform.
Variables (E : engine) (D : eddsa).
Implicit Types (ag : PVSSAggregator E) (node : Node E).

(** [node] is a registered party of the group of [ag], with a working signing key. *)
Definition party_of ag node : Prop :=
  exists pa : Participant E,
    [/\ ag_config (nd_aggregator node) = ag_config ag,
        ag_participants (nd_aggregator node) = ag_participants ag,
        (pa_id (de_participant (nd_dealer node)) < cfg_num_participants (ag_config ag))%N,
        bt_get (ag_participants ag) (pa_id (de_participant (nd_dealer node))) = Some pa
      & working_key D (de_private_key_ed (nd_dealer node)) (pa_public_key_ed pa)].

(** The same without the promise that its signatures verify: its key can be read. *)
Definition member_of ag node : Prop :=
  [/\ ag_config (nd_aggregator node) = ag_config ag,
      ag_participants (nd_aggregator node) = ag_participants ag,
      (pa_id (de_participant (nd_dealer node)) < cfg_num_participants (ag_config ag))%N
    & ed_keypair_from_bytes D (de_private_key_ed (nd_dealer node)) <> None].

Lemma party_member ag node : party_of ag node -> member_of ag node.
Proof. by case=> pa [ec ep lid _ [kp e _]]; split=> //; rewrite e. Qed.

(** What [node] deals with the coefficients [a] and the nonce [k]. *)
Definition deal b node m (a : m.-tuple (Fr E)) (k : Fr E) : outcome pvss_error (PVSSShare E) :=
  (share D b node (rcons a k : rstate (seq_rng E))).1.

Lemma deal_shape b ag node t (a : t.+1.-tuple (Fr E)) k :
  cfg_degree (ag_config ag) = t -> config_ok (ag_config ag) -> registered ag -> member_of ag node ->
  if Poly a == 0 then is_true (~~ is_ok (deal b node a k))
  else exists sh, [/\ deal b node a k = Ok sh,
    sh_participant_id sh = pa_id (de_participant (nd_dealer node)),
    sh_pvss_core sh = core_of ag (Poly a)
    & dp_gs (sp_decomp_proof (sh_signed_proof sh)) = (Poly a).[0] *: srs_g2 (cfg_srs (ag_config ag))].
Proof.
move=> et; case: t / et a => a ok reg [ec ep lid ld]; have ft := config_fits_t ok.
have [tn nq fn] := ok.
have ft' : fits (cfg_degree (ag_config (nd_aggregator node))).+1 by rewrite ec.
have ea : scalars (cfg_degree (ag_config (nd_aggregator node))).+1
            (rcons a k : rstate (seq_rng E)) = a.
  have := congr1 fst (drawE (cfg_degree (ag_config (nd_aggregator node))).+1
                        (rcons a k : rstate (seq_rng E))).
  rewrite draw_seq ?size_rcons ?size_tuple ec // /fst => <-.
  by rewrite -cats1 takel_cat ?size_tuple // take_oversize ?size_tuple.
have z0 : (Poly a == 0) = all (fun c => c == 0) a.
  by rewrite -truncate_nseq0 -truncate_Poly; apply/eqP/eqP => [e|->] //;
     apply/eqP; rewrite truncate_nseq0; apply/allP => c /(nthP 0)[i li <-];
     rewrite -(coef_Poly _ i) -truncate_Poly e coef0.
have [m [_ v]] := @C62_dealing_verdicts E D b (seq_rng E) node (rcons a k) ft'.
rewrite /deal; rewrite ea in v; move: v; set kk := (rand_fr _).1; move=> v.
have reg' : registered (nd_aggregator node) by move=> i; rewrite ec ep; exact: reg.
have n0 : (0 < cfg_num_participants (ag_config ag))%N by apply: leq_trans tn.
case: (boolP (Poly a == 0)) => [z|nz].
  case: v => // kp sh _ _ nz' _ _; case: nz'; rewrite z0 in z; exact/all_zero_nseq.
have [sh eo [kp hs]] : exists2 sh, (share D b node (rcons a k : rstate (seq_rng E))).1 = Ok sh
                     & exists kp : ed_keypair D, is_share_of node a kk kp sh.
  case: v => [pc e|j lj g _|_ _ [l|e]|_ _ _ e|kp sh _ _ _ hk hs]; last by exists sh; last exists kp.
  - by rewrite ec in e; rewrite e in n0.
  - by have [p] := reg' j lj; rewrite g.
  - by rewrite ec leqNgt lid in l.
  - by case/negP: nz; rewrite z0; apply/all_zero_nseq.
  - by case: ld.
exists sh; split=> //; first by case: hs.
  case: hs => _ ecm een _ _; case: (sh_pvss_core sh) ecm een => e c /= -> ->; rewrite ec.
  rewrite /core_of /enc_vec /eval_vec -[1%N in RHS]addn0 iotaDl -map_comp; congr MkCore.
    by apply: eq_map => i; rewrite /= valueE /key_of ep.
  by apply: eq_map => i /=; rewrite valueE.
by case: hs => _ _ _ -> _; rewrite valueE ec.
Qed.

Lemma deal_cases b ag node t (a : t.+1.-tuple (Fr E)) k :
  cfg_degree (ag_config ag) = t -> config_ok (ag_config ag) -> registered ag -> party_of ag node ->
  if Poly a == 0 then is_true (~~ is_ok (deal b node a k))
  else exists sh, [/\ deal b node a k = Ok sh,
    sh_participant_id sh = pa_id (de_participant (nd_dealer node)),
    sh_pvss_core sh = core_of ag (Poly a),
    dp_gs (sp_decomp_proof (sh_signed_proof sh)) = (Poly a).[0] *: srs_g2 (cfg_srs (ag_config ag))
    & dealt D ag sh].
Proof.
move=> et ok reg pn; have := @deal_shape b ag node t a k et ok reg (party_member pn).
case: ifP => // _ [sh [eo eid ecr egs]]; exists sh; split=> //.
case: pn => pa [ec ep lid gid wk].
have ft' : fits (cfg_degree (ag_config (nd_aggregator node))).+1 by rewrite ec; exact: config_fits_t.
rewrite -ep in gid; have [_ dl] := share_dealt ft' gid (working_on _ wk) eo.
exact: dealt_ext dl.
Qed.

(** If the share of a party is received at all, this is what it does. *)
Lemma deal_added b ag node t (a : t.+1.-tuple (Fr E)) k R (s : rstate R) sh ag' :
  cfg_degree (ag_config ag) = t -> config_ok (ag_config ag) -> registered ag -> member_of ag node ->
  deal b node a k = Ok sh -> (receive_share D b ag s sh).1 = (Ok tt, ag') ->
  Poly a != 0 /\
  as_pvss_core (ag_aggregated_tx ag') = core_add (as_pvss_core (ag_aggregated_tx ag)) (core_of ag (Poly a)).
Proof.
move=> et ok reg mb eo; have := @deal_shape b ag node t a k et ok reg mb; rewrite eo.
case: ifP => // _ [_ [[<-] _ ecr _]]; rewrite /receive_share.
case: (share_verify _ _ _ _ _) => [[u|e|p] s1] //=.
case ez: (agg_aggregate_pvss_share b _ sh) => [z|e|p] //= [<-]; split=> //=.
by have [_ _ /core_aggregate_inv[n [_ _ _ ->]] _ _] := (agg_okE _ _ _ _).1 ez; rewrite /= ecr.
Qed.

(** The transcript after a share of a party that has not contributed yet. *)
Lemma deal_received b ag node t (a : t.+1.-tuple (Fr E)) k R (s : rstate R) :
  cfg_degree (ag_config ag) = t -> config_ok (ag_config ag) -> registered ag -> party_of ag node -> tx_ok D ag ->
  bt_get (as_contributions (ag_aggregated_tx ag)) (pa_id (de_participant (nd_dealer node))) = None ->
  Poly a != 0 ->
  exists sh z, [/\ deal b node a k = Ok sh, (receive_share D b ag s sh).1 = (Ok tt, set_tx ag z),
    as_pvss_core z = core_add (as_pvss_core (ag_aggregated_tx ag)) (core_of ag (Poly a)),
    dealt D ag sh
    & dp_gs (sp_decomp_proof (sh_signed_proof sh)) = (Poly a).[0] *: srs_g2 (cfg_srs (ag_config ag)) /\
      forall i, i != pa_id (de_participant (nd_dealer node)) ->
        bt_get (as_contributions z) i = bt_get (as_contributions (ag_aggregated_tx ag)) i].
Proof.
move=> et ok reg pn [[ed en] sz cv ids] g nz; have := @deal_cases b ag node t a k et ok reg pn.
rewrite (negbTE nz) => -[sh [eo eid ecr egs dl]]; have [tn nq fn] := ok.
have lid : (sh_participant_id sh < cfg_num_participants (ag_config ag))%N by case: dl => p [pa []].
have n0 : (0 < cfg_num_participants (ag_config ag))%N by apply: leq_trans tn.
pose old := ag_aggregated_tx ag.
pose z := MkAgg (as_num_participants old) (as_degree old)
            (core_add (as_pvss_core old) (core_of ag (Poly a)))
            (bt_insert (as_contributions old) (sh_participant_id sh) (sh_signed_proof sh, 1%num)).
have hz : agg_aggregate_pvss_share b old sh = Ok z.
  apply/agg_okE; split=> //=.
  - by rewrite ecr; apply: (core_aggregate_ok n0) => //; exact: core_of_sized.
  - move=> i _; rewrite bt_get1 bt_get_insert; case: eqP => [<-|_]; last exact: merge_slot0r.
    by rewrite eid g.
  - move=> i; rewrite en bt_get_insert => li; case: eqP => [e|_].
      by rewrite e ltnNge li in lid.
    by case e: (bt_get _ i) => [v|//]; have := ids _ _ e; rewrite ltnNge li.
exists sh, z; split=> //; last first.
  by split=> // i; rewrite -eid /= bt_get_insert eq_sym => /negbTE->.
rewrite /receive_share; have := @dealt_accepted E D b R ag s sh ok dl; case: (share_verify _ _ _ _ _) => [o s1] /= ->.
by rewrite -/old hz.
Qed.

Lemma card_head t (x : Fr E) :
  #|[set a : t.+1.-tuple (Fr E) | (Poly a).[0] == x]| = (modulus E ^ t)%N.
Proof.
pose w i : Fr E := (i == 0)%N%:R.
have lf (a : t.+1.-tuple (Fr E)) : (Poly a).[0] = lin_form w a.
  rewrite horner_coef0 coef_Poly /lin_form big_ord_recl big1 ?addr0 => [|i _].
    by rewrite (tnth_nth 0) /w mulr1.
  by rewrite /w mulr0.
transitivity (#|Fr E| ^ t)%N; last by rewrite (card_Fq (modulus_prime E)).
rewrite -(@kernel_card _ t.+1 w ord0) ?oner_eq0 // -(@fibre_card _ _ w ord0 x) ?oner_eq0 //.
by apply: eq_card => a; rewrite !inE lf.
Qed.

Lemma Poly_eq0 m (a : m.-tuple (Fr E)) : (Poly a == 0) = (a == [tuple 0 | i < m]).
Proof.
have z : Poly [tuple (0 : Fr E) | i < m] = 0.
  apply/polyP => i; rewrite coef_Poly coef0; case: (ltnP i m) => li.
    by rewrite -[i]/(val (Ordinal li)) -tnth_nth tnth_mktuple.
  by rewrite nth_default ?size_tuple.
by apply/eqP/eqP => [e|-> //]; apply: Poly_inj; rewrite e z.
Qed.

End Uniform.

(** ** C70: the secret a party deals is uniform *)

(** Whatever the nonce: dealing fails for exactly one of the [q^(t+1)] sequences of
    coefficients (all of them 0), and every secret but 0 is dealt for exactly [q^t] of them. *)
Theorem C70_uniform_secret (E : engine) (D : eddsa) (b : build) (ag : PVSSAggregator E)
  (node : Node E) (k : Fr E) (S : Com E) :
  let t := cfg_degree (ag_config ag) in
  config_ok (ag_config ag) -> registered ag -> member_of D ag node ->
  srs_g2 (cfg_srs (ag_config ag)) != 0 ->
  #|[set a : t.+1.-tuple (Fr E) |
      if deal D b node a k is Ok sh then dp_gs (sp_decomp_proof (sh_signed_proof sh)) == S
      else false]| = (modulus E ^ t - (S == 0%R))%N /\
  #|[set a : t.+1.-tuple (Fr E) | ~~ is_ok (deal D b node a k)]| = 1%N.
Proof.
move=> t ok reg pn g0; pose z : t.+1.-tuple (Fr E) := [tuple 0 | i < t.+1].
have [x ->] := pt_cyclic S g0.
split; last first.
  rewrite -(cards1 z); apply: eq_card => a; rewrite !inE -Poly_eq0.
  by have := @deal_shape E D b ag node t a k erefl ok reg pn; case: ifP => // _ [sh [-> _ _ _]].
rewrite -(card_head t x) scaler_eq0 (negbTE g0) orbF.
rewrite (_ : [set a | _] = [set a : t.+1.-tuple (Fr E) | (Poly a).[0] == x] :\ z); last first.
  apply/setP => a; rewrite !inE -Poly_eq0.
  have := @deal_shape E D b ag node t a k erefl ok reg pn; case: ifP => [_|_ [sh [-> _ _ ->]]] /=.
    by case: (deal _ _ _ _ _).
  by apply/eqP/eqP => [/(scale_inj (modulus_prime E) g0)|->].
rewrite (cardsD1 z [set a : t.+1.-tuple (Fr E) | (Poly a).[0] == x]) inE.
have /eqP -> : Poly z == 0 by rewrite Poly_eq0.
by rewrite horner0 eq_sym addKn.
Qed.
Print Assumptions C70_uniform_secret.

(** ** C71: one honest dealer hides the secret of the transcript *)

(** The secret point read off the commitments of a transcript, and the value recipient [j]
    decrypts with its key [sk], are these. *)
Definition reads_secret (E : engine) (b : build) (t : nat) (x : PVSSAggregatedShare E) (S : Com E)
  : bool :=
  if lagrange_interpolation_simple b (comms (as_pvss_core x)) t is Ok P then P == S else false.
Definition reads_share (E : engine) (x : PVSSAggregatedShare E) (j : nat) (sk : Fr E) (P : Enc E)
  : bool :=
  if (decrypted_share_generate (encs (as_pvss_core x)) sk j : outcome pvss_error _) is Ok d
  then dec d == P else false.

Section Hiding.
Variables (E : engine) (D : eddsa) (b : build) (config : Config E) (ps : btmap (Participant E)).
Variables (ag0 : PVSSAggregator E) (h : seq (call E)).
Hypotheses (e0 : aggregator_new config ps = Ok ag0) (ok : config_ok config).

Let ag := run D b ag0 h.

Lemma hide_static : ag_config ag = config /\ ag_participants ag = ps.
Proof. by rewrite /ag; case: e0 => <-; have [] := run_static D b (new_aggregator config ps) h. Qed.

Lemma hide_tx_ok : tx_ok D ag.
Proof. by rewrite /ag; case: e0 => <-; apply: run_tx_ok; exact: new_tx_ok. Qed.

End Hiding.

(** The transcript [old] after the polynomial of [a] has been added. *)
Definition plus_poly (E : engine) (ag : PVSSAggregator E) m (a : m.-tuple (Fr E)) : PVSSAggregatedShare E :=
  let old := ag_aggregated_tx ag in
  MkAgg (as_num_participants old) (as_degree old)
    (core_add (as_pvss_core old) (core_of ag (Poly a))) (as_contributions old).

Lemma hiding_count (E : engine) (D : eddsa) (b : build) (ag : PVSSAggregator E) :
  let config := ag_config ag in
  let t := cfg_degree config in
  let n := cfg_num_participants config in
  let old := ag_aggregated_tx ag in
  config_ok config -> tx_ok D ag ->
  srs_g1 (cfg_srs config) != 0 -> srs_g2 (cfg_srs config) != 0 ->
  forall (js : t.-tuple nat) (sks : t.-tuple (Fr E)) (ds : t.-tuple (Enc E)) (S : Com E),
  uniq js ->
  (forall i, [/\ (tnth js i < n)%N, tnth sks i != 0
               & key_of ag (tnth js i) = tnth sks i *: srs_g1 (cfg_srs config)]) ->
  let view x := [forall i, reads_share x (tnth js i) (tnth sks i) (tnth ds i)] in
  #|[set a : t.+1.-tuple (Fr E) |
      [&& Poly a != 0, reads_secret b t (plus_poly ag a) S & view (plus_poly ag a)]]|
  = ~~ (reads_secret b t old S && view old) :> nat.
Proof.
move=> config t n old ok txo g10 g20 js sks ds S ujs keys view.
have [tn nq fn] := ok; have tq : (t.+1 < modulus E)%N by apply: ltn_trans nq.
have [_ [se sc] _ _] := txo; rewrite -/config -/n -/old in se sc.
have tb : (N.of_nat t + 1 < u64_bound)%num by move: fn; rewrite /fits -/n /u64_bound; lia.
have [S0 cS0] : exists S0, commits_to t (comms (as_pvss_core old)) S0.
  by apply: commits_to_exists => //; rewrite sc ltnW.
pose D0 i := (tnth sks i)^-1 *: nth 0 (encs (as_pvss_core old)) (tnth js i).
have rsec x (S1 S2 : Com E) : size (comms (as_pvss_core x)) = n ->
    commits_to t (comms (as_pvss_core x)) S1 -> reads_secret b t x S2 = (S1 == S2).
  by move=> sx c1; rewrite /reads_secret ((lagrange_commits b _ _ _ _).2 c1) ?sx // ltnW.
have rshr (x : PVSSAggregatedShare E) i P : size (encs (as_pvss_core x)) = n ->
    reads_share x (tnth js i) (tnth sks i) P
    = ((tnth sks i)^-1 *: nth 0 (encs (as_pvss_core x)) (tnth js i) == P).
  move=> sx; have [lj sk0 _] := keys i.
  by rewrite /reads_share /decrypted_share_generate (index_ok 0) ?sx //= /inverse_unwrap (negbTE sk0).
have [x ex] := pt_cyclic (S - S0) g20.
have [y ey] : exists y : t.-tuple (Fr E), forall i, tnth ds i - D0 i = tnth y i *: srs_g1 (cfg_srs config).
  have /fin_all_exists[y ey] i : exists c, tnth ds i - D0 i = c *: srs_g1 (cfg_srs config).
    exact: pt_cyclic _ g10.
  by exists [tuple y i | i < t] => i; rewrite tnth_mktuple.
have eS : S = S0 + x *: srs_g2 (cfg_srs config) by rewrite -ex addrC subrK.
have ed i : tnth ds i = D0 i + tnth y i *: srs_g1 (cfg_srs config) by rewrite -ey addrC subrK.
have sceq (C : curve (modulus E)) (g : pt C) (c d : Fr E) : g != 0 -> (c *: g == d *: g) = (c == d).
  by move=> g0; apply/eqP/eqP => [/(scale_inj (modulus_prime E) g0)|->].
pose fit (a : t.+1.-tuple (Fr E)) := ((Poly a).[0] == x) &&
  [forall i, (Poly a).[tnth [tuple (tnth js i).+1%:R | i < t] i] == tnth y i].
pose z : t.+1.-tuple (Fr E) := [tuple 0 | i < t.+1].
have z0 : Poly z = 0 by apply/eqP; rewrite Poly_eq0.
have c1 : #|[set a | fit a]| = 1%N.
  apply: shamir_count; rewrite /= map_inj_in_uniq ?enum_uniq; last first.
    move=> i j _ _ /= /eqP; have [li _ _] := keys i; have [lj _ _] := keys j.
    rewrite (Fp_nat_inj (modulus_prime E)) ?(leq_ltn_trans _ nq) // eqSS => /eqP e.
    by apply: (tuple_uniqP _ ujs).
  rewrite andbT; apply/mapP => -[i _ /esym/eqP]; apply/negP.
  have [li _ _] := keys i; apply: Fp_nat_neq0; first exact: modulus_prime.
  by rewrite /=; exact: leq_ltn_trans nq.
rewrite (_ : [set a | _] = [set a | fit a] :\ z); last first.
  apply/setP => a; rewrite !inE -Poly_eq0; case: (boolP (Poly a == 0)) => nz //=.
  rewrite /fit; pose w := plus_poly ag a; rewrite -/w.
  have ew : as_pvss_core w = core_add (as_pvss_core old) (core_of ag (Poly a)) by [].
  have sp : (size (Poly a) <= t.+1)%N by rewrite (leq_trans (size_Poly _)) ?size_tuple.
  have [sne snc] : core_len n (as_pvss_core w).
    by rewrite ew; apply: core_len_add => //; exact: core_of_sized.
  congr (_ && _).
    rewrite (rsec _ (S0 + (Poly a).[0] *: srs_g2 (cfg_srs config))) //; last first.
      rewrite ew; apply: commits_to_add => //; rewrite ?sc ?size_eval_vec // 1?ltnW //.
      exact: (@core_of_commits E ag (Poly a) ok).
    by rewrite eS (inj_eq (addrI _)) sceq.
  apply: eq_forallb => i; rewrite rshr // ew /= nth_vadd; last by rewrite size_enc_vec.
  have [lj sk0 kj] := keys i; rewrite nth_enc_vec // kj scalerDr !scalerA mulrCA mulVf // mulr1 -/(D0 i).
  by rewrite tnth_mktuple (ed i) (inj_eq (addrI _)) sceq.
have self (V : zmodType) (u v : V) : (u == u + v) = (0 == v).
  by rewrite -[X in X == _]addr0 (inj_eq (addrI u)).
have -> : reads_secret b t old S && view old = (z \in [set a | fit a]).
  rewrite inE /fit z0 horner0 (rsec _ _ _ sc cS0) eS self.
  congr (_ && _); first by rewrite -(scale0r (srs_g2 (cfg_srs config))) sceq.
  apply: eq_forallb => i; rewrite rshr // -/(D0 i) (ed i) self.
  by rewrite -(scale0r (srs_g1 (cfg_srs config))) sceq ?horner0.
by move: c1; rewrite (cardsD1 z); case: (z \in _) => /=; case: #|_| => [|[]].
Qed.

(** Any history [h] of the aggregator, whatever it received; then the share of a party that
    has not contributed yet.  Take any [t] recipients, any points [ds] and any point [S].
    For exactly one sequence of coefficients of the party, the recipients decrypt [ds] and
    the secret of the transcript is [S]; for none if these are what they were before. *)
Theorem C71_one_honest_dealer (E : engine) (D : eddsa) (b : build) (config : Config E)
  (ps : btmap (Participant E)) (ag0 : PVSSAggregator E) (h : seq (call E)) (node : Node E)
  (k : Fr E) (R : rng E) (s : rstate R) :
  let ag := run D b ag0 h in
  let t := cfg_degree config in
  let n := cfg_num_participants config in
  let old := ag_aggregated_tx ag in
  aggregator_new config ps = Ok ag0 -> config_ok config -> registered ag0 -> party_of D ag0 node ->
  srs_g1 (cfg_srs config) != 0 -> srs_g2 (cfg_srs config) != 0 ->
  bt_get (as_contributions old) (pa_id (de_participant (nd_dealer node))) = None ->
  forall (js : t.-tuple nat) (sks : t.-tuple (Fr E)) (ds : t.-tuple (Enc E)) (S : Com E),
  uniq js ->
  (forall i, [/\ (tnth js i < n)%N, tnth sks i != 0
               & key_of ag0 (tnth js i) = tnth sks i *: srs_g1 (cfg_srs config)]) ->
  let view x := [forall i, reads_share x (tnth js i) (tnth sks i) (tnth ds i)] in
  #|[set a : t.+1.-tuple (Fr E) |
      if deal D b node a k is Ok sh then
        let: (r, ag') := (receive_share D b ag s sh).1 in
        [&& is_ok r, reads_secret b t (ag_aggregated_tx ag') S & view (ag_aggregated_tx ag')]
      else false]| = ~~ (reads_secret b t old S && view old) :> nat.
Proof.
move=> ag t n old e0 ok reg pn g10 g20 fresh js sks ds S ujs keys view.
have [ec ep] := @hide_static E D b config ps ag0 h e0; rewrite -/ag in ec ep.
have txo := @hide_tx_ok E D b config ps ag0 h e0; rewrite -/ag in txo.
have [ec0 ep0] : ag_config ag0 = config /\ ag_participants ag0 = ps by case: e0 => <-.
have okA : config_ok (ag_config ag) by rewrite ec.
have regA : registered ag by move=> i; rewrite ec ep -ep0 -ec0; exact: reg.
have pnA : party_of D ag node by have [pa] := pn; rewrite ep0 ec0 => h0; exists pa; rewrite ec ep.
have et : cfg_degree (ag_config ag) = t by rewrite ec.
have := @hiding_count E D b ag; rewrite /= ec => /(_ ok txo g10 g20 js sks ds S ujs).
rewrite -/t -/n -/old -/view => <-; last by move=> i; rewrite /key_of ep -ep0; exact: keys.
apply: eq_card => a; rewrite !inE; case: (boolP (Poly a == 0)) => nz.
  have := @deal_cases E D b ag node t a k et okA regA pnA.
  by rewrite nz; case: (deal _ _ _ _ _).
have [sh [w [-> er ew _ _]]] := @deal_received E D b ag node t a k R s et okA regA pnA txo fresh nz.
rewrite er /= (_ : reads_secret b t w S = reads_secret b t (plus_poly ag a) S).
  by congr (_ && _); apply: eq_forallb => i; rewrite /reads_share ew.
by rewrite /reads_secret ew.
Qed.
Print Assumptions C71_one_honest_dealer.

(** The upper bound needs nothing of the signatures: whether or not they verify, no outcome is
    reached in two ways. *)
Theorem C71_at_most_one (E : engine) (D : eddsa) (b : build) (config : Config E)
  (ps : btmap (Participant E)) (ag0 : PVSSAggregator E) (h : seq (call E)) (node : Node E)
  (k : Fr E) (R : rng E) (s : rstate R) :
  let ag := run D b ag0 h in
  let t := cfg_degree config in
  let n := cfg_num_participants config in
  let old := ag_aggregated_tx ag in
  let view js sks ds x := [forall i : 'I_t, reads_share x (tnth js i) (tnth sks i) (tnth ds i)] in
  aggregator_new config ps = Ok ag0 -> config_ok config -> registered ag0 -> member_of D ag0 node ->
  srs_g1 (cfg_srs config) != 0 -> srs_g2 (cfg_srs config) != 0 ->
  forall (js : t.-tuple nat) (sks : t.-tuple (Fr E)) (ds : t.-tuple (Enc E)) (S : Com E),
  uniq js ->
  (forall i, [/\ (tnth js i < n)%N, tnth sks i != 0
               & key_of ag0 (tnth js i) = tnth sks i *: srs_g1 (cfg_srs config)]) ->
  (#|[set a : t.+1.-tuple (Fr E) |
      if deal D b node a k is Ok sh then
        let: (r, ag') := (receive_share D b ag s sh).1 in
        [&& is_ok r, reads_secret b t (ag_aggregated_tx ag') S & view js sks ds (ag_aggregated_tx ag')]
      else false]| <= ~~ (reads_secret b t old S && view js sks ds old))%N.
Proof.
move=> ag t n old view e0 ok reg mb g10 g20 js sks ds S ujs keys.
have [ec ep] := @hide_static E D b config ps ag0 h e0; rewrite -/ag in ec ep.
have txo := @hide_tx_ok E D b config ps ag0 h e0; rewrite -/ag in txo.
have [ec0 ep0] : ag_config ag0 = config /\ ag_participants ag0 = ps by case: e0 => <-.
have regA : registered ag by move=> i; rewrite ec ep -ep0 -ec0; exact: reg.
have mbA : member_of D ag node by case: mb; rewrite ec0 ep0 => *; split; rewrite ?ec ?ep.
have := @hiding_count E D b ag; rewrite /= ec => /(_ ok txo g10 g20 js sks ds S ujs).
rewrite -/t -/n -/old -/(view js sks ds old) => <-; last by move=> i; rewrite /key_of ep -ep0; exact: keys.
apply: subset_leq_card; apply/subsetP => a; rewrite !inE.
case eo: (deal D b node a k) => [sh|e|p] //.
case er: (receive_share D b ag s sh).1 => [[[]|e|p] ag'] //= /andP[rs vw].
have [||nz ew] := @deal_added E D b ag node t a k R s sh ag' _ _ regA mbA eo er; rewrite ?ec //.
rewrite nz -(_ : reads_secret b t (ag_aggregated_tx ag') S = reads_secret b t (plus_poly ag a) S).
  rewrite rs /=; apply/forallP => i; move/forallP: vw => /(_ i).
  by rewrite /reads_share ew.
by rewrite /reads_secret ew.
Qed.
Print Assumptions C71_at_most_one.

(** Hence, given what [t] recipients decrypt, every secret that the transcript did not have
    before is equally likely. *)
Corollary C71_equally_likely (E : engine) (D : eddsa) (b : build) (config : Config E)
  (ps : btmap (Participant E)) (ag0 : PVSSAggregator E) (h : seq (call E)) (node : Node E)
  (k : Fr E) (R : rng E) (s : rstate R) :
  let ag := run D b ag0 h in
  let t := cfg_degree config in
  let n := cfg_num_participants config in
  let old := ag_aggregated_tx ag in
  aggregator_new config ps = Ok ag0 -> config_ok config -> registered ag0 -> party_of D ag0 node ->
  srs_g1 (cfg_srs config) != 0 -> srs_g2 (cfg_srs config) != 0 ->
  bt_get (as_contributions old) (pa_id (de_participant (nd_dealer node))) = None ->
  forall (js : t.-tuple nat) (sks : t.-tuple (Fr E)) (ds : t.-tuple (Enc E)) (S S' : Com E),
  uniq js ->
  (forall i, [/\ (tnth js i < n)%N, tnth sks i != 0
               & key_of ag0 (tnth js i) = tnth sks i *: srs_g1 (cfg_srs config)]) ->
  ~~ reads_secret b t old S -> ~~ reads_secret b t old S' ->
  let ways S := #|[set a : t.+1.-tuple (Fr E) |
      if deal D b node a k is Ok sh then
        let: (r, ag') := (receive_share D b ag s sh).1 in
        [&& is_ok r, reads_secret b t (ag_aggregated_tx ag') S
          & [forall i, reads_share (ag_aggregated_tx ag') (tnth js i) (tnth sks i) (tnth ds i)]]
      else false]| in
  ways S = 1%N /\ ways S' = 1%N.
Proof.
move=> ag t n old e0 ok reg pn g1 g2 fr js sks ds S S' u keys nS nS' ways.
have c := @C71_one_honest_dealer E D b config ps ag0 h node k R s e0 ok reg pn g1 g2 fr js sks ds _ u keys.
by split; rewrite /ways c -/ag -/t -/old ?(negbTE nS) ?(negbTE nS').
Qed.

(** ** C72: who speaks last chooses *)

Lemma card_heads (E : engine) t (Q : pred (Fr E)) :
  #|[set a : t.+1.-tuple (Fr E) | Q (Poly a).[0]]| = (#|[set x | Q x]| * modulus E ^ t)%N.
Proof.
rewrite -sum1_card (partition_big (fun a : t.+1.-tuple (Fr E) => (Poly a).[0]) (mem [set x | Q x])) /=.
  rewrite (eq_bigr (fun=> (modulus E ^ t)%N)) ?sum_nat_const // => x; rewrite inE => qx.
  rewrite -(card_head t x) -sum1_card; apply: eq_bigl => a; rewrite !inE.
  by case: eqP => [->|]; rewrite ?qx ?andbT ?andbF.
by move=> a; rewrite !inE.
Qed.

(** Two candidate steps reach a set that is neither empty nor full more often than one. *)
Lemma two_steps (E : engine) (Q : pred (Fr E)) x y : Q x -> ~~ Q y ->
  (#|[set x | Q x]| < #|[set x : Fr E | Q (x + 1)%R || Q (x + 2%:R)%R]|)%N.
Proof.
move=> qx qy; pose A : {set Fr E} := [set x | Q (x + 1)].
have cA : #|A| = #|[set x | Q x]|.
  rewrite -(card_imset A (addIr 1)); congr #|pred_of_set _|; apply/setP => z; rewrite inE.
  apply/imsetP/idP => [[w]|qz]; first by rewrite inE => qw ->.
  by exists (z - 1); rewrite ?inE subrK.
rewrite -cA; apply: proper_card; rewrite properE; apply/andP; split.
  by apply/subsetP => z; rewrite !inE => ->.
apply/negP => /subsetP sub.
have step z : Q (z + 1) -> Q z.
  have := sub (z - 1); rewrite !inE subrK => h qz; apply: h.
  by rewrite (_ : z - 1 + 2%:R = z + 1) ?qz ?orbT // mulr2n addrA subrK.
have down m : Q (y + m%:R) -> Q y.
  elim: m => [|m IH]; first by rewrite addr0.
  by rewrite mulrS [1 + _]addrC addrA => /step; exact: IH.
case/negP: qy; apply: (down (val (x - y))).
by rewrite Fp_nat_surj addrC subrK.
Qed.

(** An honest [node] deals with the coefficients [a]; then [late], having seen its share, deals
    with the coefficients [F] makes of that share; an aggregator takes both.  Both shares are
    accepted and the secret of the transcript satisfies [P]. *)
Definition last_word (E : engine) (D : eddsa) (b : build) (ag0 : PVSSAggregator E) (node late : Node E)
  (k k' : Fr E) (R R' : rng E) (s : rstate R) (s' : rstate R')
  t (F : PVSSShare E -> t.+1.-tuple (Fr E)) (P : pred (Com E)) (a : t.+1.-tuple (Fr E)) : bool :=
  if deal D b node a k is Ok sh then
    if deal D b late (F sh) k' is Ok sh' then
      let h := [:: Call (MsgShare sh) s; Call (MsgShare sh') s'] in
      (size (accepted D b ag0 h) == 2)%N &&
      (if lagrange_interpolation_simple b
            (comms (as_pvss_core (ag_aggregated_tx (run D b ag0 h)))) t is Ok T then P T else false)
    else false
  else false.

(** The property as worded: whatever the late dealer does, no set of secrets is hit more often
    than by a uniform choice. *)
Definition C72_full (E : engine) (D : eddsa) (b : build) (ag0 : PVSSAggregator E)
  (node late : Node E) : Prop :=
  let t := cfg_degree (ag_config ag0) in
  forall (k k' : Fr E) (R R' : rng E) (s : rstate R) (s' : rstate R')
    (F : PVSSShare E -> t.+1.-tuple (Fr E)) (P : pred (Com E)),
  (#|[set a | last_word D b ag0 node late k k' s s' F P a]|
   <= #|[set x : Fr E | P (x *: srs_g2 (cfg_srs (ag_config ag0)))]| * modulus E ^ t)%N.

(** The late dealer's choice: the constant polynomial 1 or 2, whichever suits. *)
Definition picky (E : engine) t (g : Com E) (P : pred (Com E)) (sh : PVSSShare E)
  : t.+1.-tuple (Fr E) :=
  [tuple of (if P (dp_gs (sp_decomp_proof (sh_signed_proof sh)) + g) then 1 else 2%:R) :: nseq t 0].

(** For every set of secrets that is neither empty nor full, the late dealer makes it more
    likely by choosing between two polynomials; and every peer takes the transcript. *)
Theorem C72_last_word_refuted (E : engine) (D : eddsa) (b : build) (config : Config E)
  (ps : btmap (Participant E)) (ag0 : PVSSAggregator E) (node late : Node E)
  (k k' : Fr E) (R R' : rng E) (s : rstate R) (s' : rstate R') (P : pred (Com E)) (x y : Fr E) :
  let t := cfg_degree config in
  let g := srs_g2 (cfg_srs config) in
  let F := picky t g P in
  aggregator_new config ps = Ok ag0 -> config_ok config -> registered ag0 ->
  party_of D ag0 node -> party_of D ag0 late ->
  pa_id (de_participant (nd_dealer node)) <> pa_id (de_participant (nd_dealer late)) ->
  g != 0 -> P (x *: g) -> ~~ P (y *: g) ->
  ((#|[set x : Fr E | P (x *: g)]| + 1) * modulus E ^ t
   <= #|[set a | last_word D b ag0 node late k k' s s' F P a]| + 1)%N /\
  (forall (a : t.+1.-tuple (Fr E)) sh sh', deal D b node a k = Ok sh -> deal D b late (F sh) k' = Ok sh' ->
   forall (b' : build) (R2 : rng E) (s2 : rstate R2),
   (aggregation_verify D b' ag0 s2 (ag_aggregated_tx (run D b ag0
      [:: Call (MsgShare sh) s; Call (MsgShare sh') s']))).1 = Ok tt).
Proof.
move=> t g F e0 ok reg pn pl dif g0 Px Py; split; last first.
  move=> a sh sh' d1 d2 b' R2 s2.
  have ec0 : ag_config ag0 = config by case: e0 => <-.
  apply: (@C24_honest_transcript_accepted E D ag0 ag0) => //; first by rewrite ec0.
  apply: (@C24_honest_history E D b config ps ag0
            [:: Call (MsgShare sh) s; Call (MsgShare sh') s'] e0) => // sh0 /= [<-|[<-|[]]].
    by have [pa [h1 h2 _ h3 h4]] := pn; exists b, (seq_rng E), node, (rcons a k), pa; split=> //; exact: working_on.
  by have [pa [h1 h2 _ h3 h4]] := pl; exists b, (seq_rng E), late, (rcons (F sh) k'), pa; split=> //; exact: working_on.
pose Q z := P (z *: g).
have two : 2%:R != 0 :> Fr E.
  have [tn nq _] := ok; apply: Fp_nat_neq0; first exact: modulus_prime.
  by rewrite /=; apply: leq_trans nq; move: tn; case: (cfg_num_participants _) => [|[]].
have inc : ([set a : t.+1.-tuple (Fr E) | Q ((Poly a).[0] + 1) || Q ((Poly a).[0] + 2%:R)]
            :\ [tuple 0 | i < t.+1]) \subset [set a | last_word D b ag0 node late k k' s s' F P a].
  apply/subsetP => a; rewrite !inE -Poly_eq0 => /andP[nz hq].
  have [ec0 ep0] : ag_config ag0 = config /\ ag_participants ag0 = ps by case: e0 => <-.
  have et : cfg_degree (ag_config ag0) = t by rewrite ec0.
  have ok0 : config_ok (ag_config ag0) by rewrite ec0.
  have tx0 : tx_ok D ag0 by case: e0 => <-; exact: new_tx_ok.
  have nob i : bt_get (as_contributions (ag_aggregated_tx ag0)) i = None by case: e0 => <-.
  have [sh [z [d1 r1 ez dl [egs oth]]]] := @deal_received E D b ag0 node t a k R s et ok0 reg pn tx0 (nob _) nz.
  have tx1 : tx_ok D (set_tx ag0 z).
    by have := @receive_tx_ok E D b ag0 (Call (MsgShare sh) s) tx0; rewrite /receive /= r1.
  pose c : Fr E := if P (dp_gs (sp_decomp_proof (sh_signed_proof sh)) + g) then 1 else 2%:R.
  have pF : Poly (F sh) = c%:P.
    by apply/polyP => -[|i]; rewrite coef_Poly coefC //= nth_nseq if_same.
  have c0 : c != 0 by rewrite /c; case: ifP; rewrite ?oner_eq0.
  have nz' : Poly (F sh) != 0 by rewrite pF polyC_eq0.
  have fr : bt_get (as_contributions (ag_aggregated_tx (set_tx ag0 z)))
              (pa_id (de_participant (nd_dealer late))) = None.
    by rewrite /= oth ?nob //; apply/eqP => e; case: dif.
  have [sh' [z' [d2 r2 ez' _ _]]] := @deal_received E D b (set_tx ag0 z) late t (F sh) k' R' s'
    et ok0 reg pl tx1 fr nz'.
  rewrite /last_word d1 d2 /= /receive /= r1 /= r2 /=.
  have [tn nq fn] := ok; rewrite [ag_aggregated_tx _]/= pF in ez'.
  have Sz : as_pvss_core z = core_of ag0 (Poly a).
    rewrite ez (_ : as_pvss_core (ag_aggregated_tx ag0) = core_empty E (cfg_num_participants config)).
      by apply: core_add0; rewrite -ec0; exact: core_of_sized.
    by case: e0 => <-.
  have sp (u : t.+1.-tuple (Fr E)) : (size (Poly u) <= t.+1)%N.
    by rewrite (leq_trans (size_Poly _)) ?size_tuple.
  have cm (u : {poly Fr E}) : (size u <= t.+1)%N -> commits_to t (comms (core_of ag0 u)) (u.[0] *: g).
    by have := @core_of_commits E ag0 u ok0; rewrite ec0; exact.
  have cmz : commits_to t (comms (as_pvss_core z')) (((Poly a).[0] + c) *: g).
    rewrite ez' Sz scalerDl; apply: commits_to_add; rewrite ?size_eval_vec ?ec0 //.
    - by rewrite ltnW.
    - by apply: ltn_trans nq.
    - exact: cm.
    - by have := cm c%:P; rewrite hornerC size_polyC; apply; case: (c != 0).
  rewrite ((lagrange_commits b _ _ _ _).2 cmz); last 3 first.
  - by rewrite ez' size_vadd ?Sz /= !size_eval_vec // ec0; exact: ltnW.
  - by apply: ltn_trans nq.
  - by clear -fn tn; move: fn tn; rewrite /fits /u64_bound -/t; lia.
  rewrite /c egs ec0 -/g (_ : _ *: g + g = ((Poly a).[0] + 1) *: g); last by rewrite scalerDl scale1r.
  by move: hq; rewrite /Q; case: ifP => //= _ ->.
have := subset_leq_card inc.
have := cardsD1 [tuple 0 | i < t.+1] [set a : t.+1.-tuple (Fr E) | Q ((Poly a).[0] + 1) || Q ((Poly a).[0] + 2%:R)].
rewrite (@card_heads E t (fun z => Q (z + 1) || Q (z + 2%:R))).
have := @two_steps E Q x y Px Py; rewrite -/(Q _).
set A := #|_|; set B := #|_|; set C := #|_|; set W := #|_| => lAB e1 l1.
have : (A.+1 * modulus E ^ t <= B * modulus E ^ t)%N by rewrite leq_mul2r lAB orbT.
rewrite {}e1 addn1 => /leq_trans; apply; rewrite addnC; apply: leq_add => //.
exact: leq_b1.
Qed.
Print Assumptions C72_last_word_refuted.

(** So the property is false for every engine and group, for degree at least 1. *)
Theorem C72_full_refuted (E : engine) (D : eddsa) (b : build) (config : Config E)
  (ps : btmap (Participant E)) (ag0 : PVSSAggregator E) (node late : Node E) :
  aggregator_new config ps = Ok ag0 -> config_ok config -> registered ag0 ->
  party_of D ag0 node -> party_of D ag0 late ->
  pa_id (de_participant (nd_dealer node)) <> pa_id (de_participant (nd_dealer late)) ->
  srs_g2 (cfg_srs config) != 0 -> (0 < cfg_degree config)%N ->
  ~ C72_full D b ag0 node late.
Proof.
move=> e0 ok reg pn pl dif g0 t0; rewrite /C72_full.
have -> : ag_config ag0 = config by case: e0 => <-.
pose P : pred (Com E) := pred1 0.
move=> /(_ 0 0 (seq_rng E) (seq_rng E) [::] [::] (picky _ (srs_g2 (cfg_srs config)) P) P) le.
have [] := @C72_last_word_refuted E D b config ps ag0 node late 0 0 (seq_rng E) (seq_rng E) [::] [::] P
  0 1 e0 ok reg pn pl dif g0.
- by rewrite /P /= scale0r eqxx.
- by rewrite /P /= scale1r.
move=> ge _; move: (leq_trans ge (leq_add le (leqnn 1))).
rewrite mulnDl mul1n leq_add2l leqNgt => /negP[].
rewrite -{1}(expn0 (modulus E)) ltn_exp2l //; exact: prime_gt1 (modulus_prime E).
Qed.
Print Assumptions C72_full_refuted.

(** What holds: if the honest share comes last, no set of secrets is hit more often than by a
    uniform choice, whatever the aggregator received before. *)
Theorem C72_honest_last_partial (E : engine) (D : eddsa) (b : build) (config : Config E)
  (ps : btmap (Participant E)) (ag0 : PVSSAggregator E) (h : seq (call E)) (node : Node E)
  (k : Fr E) (R : rng E) (s : rstate R) (P : pred (Com E)) :
  let ag := run D b ag0 h in
  let t := cfg_degree config in
  let g := srs_g2 (cfg_srs config) in
  aggregator_new config ps = Ok ag0 -> config_ok config -> registered ag0 -> party_of D ag0 node ->
  g != 0 ->
  bt_get (as_contributions (ag_aggregated_tx ag)) (pa_id (de_participant (nd_dealer node))) = None ->
  let hits := #|[set a : t.+1.-tuple (Fr E) |
      if deal D b node a k is Ok sh then
        let: (r, ag') := (receive_share D b ag s sh).1 in
        is_ok r && (if lagrange_interpolation_simple b
                         (comms (as_pvss_core (ag_aggregated_tx ag'))) t is Ok T then P T else false)
      else false]| in
  (hits <= #|[set x : Fr E | P (x *: g)]| * modulus E ^ t)%N /\
  (#|[set x : Fr E | P (x *: g)]| * modulus E ^ t <= hits + 1)%N.
Proof.
move=> ag t g e0 ok reg pn g0 fresh hits.
have [ec ep] := @hide_static E D b config ps ag0 h e0; rewrite -/ag in ec ep.
have txo := @hide_tx_ok E D b config ps ag0 h e0; rewrite -/ag in txo.
have [tn nq fn] := ok; have tq : (t.+1 < modulus E)%N by apply: ltn_trans nq.
have ep0 : ag_participants ag0 = ps by case: e0 => <-.
have ec0 : ag_config ag0 = config by case: e0 => <-.
have okA : config_ok (ag_config ag) by rewrite ec.
have regA : registered ag by move=> i; rewrite ec ep -ep0 -ec0; exact: reg.
have pnA : party_of D ag node by have [pa] := pn; rewrite ep0 ec0 => h0; exists pa; rewrite ec ep.
have [_ [se sc] _ _] := txo; rewrite ec in se sc.
have [S0 cS0] : exists S0, commits_to t (comms (as_pvss_core (ag_aggregated_tx ag))) S0.
  by apply: commits_to_exists => //; rewrite sc ltnW.
have [x0 ex] := pt_cyclic S0 g0.
have et : cfg_degree (ag_config ag) = t by rewrite ec.
pose z : t.+1.-tuple (Fr E) := [tuple 0 | i < t.+1].
pose A := [set a : t.+1.-tuple (Fr E) | P (((Poly a).[0] + x0) *: g)].
have -> : (#|[set x : Fr E | P (x *: g)]| * modulus E ^ t)%N = #|A|.
  rewrite (@card_heads E t (fun x => P ((x + x0) *: g))); congr (_ * _)%N.
  rewrite -(card_imset [set x | P ((x + x0) *: g)] (addIr x0)); apply: eq_card => y; rewrite inE.
  apply/idP/imsetP => [py|[w]]; last by rewrite inE => pw ->.
  by exists (y - x0); rewrite ?inE subrK.
have -> : hits = #|A :\ z|.
  apply: eq_card => a; rewrite !inE -Poly_eq0; case: (boolP (Poly a == 0)) => nz.
    have := @deal_cases E D b ag node t a k et okA regA pnA.
    by rewrite nz; case: (deal _ _ _ _ _).
  have [sh [w [-> er ew _ _]]] := @deal_received E D b ag node t a k R s et okA regA pnA txo fresh nz.
  rewrite er /=.
  have cw : commits_to t (comms (as_pvss_core w)) (S0 + (Poly a).[0] *: g).
    rewrite ew; apply: commits_to_add => //; rewrite ?sc ?size_eval_vec ?ec // 1?ltnW //.
    have := @core_of_commits E ag (Poly a) okA; rewrite ec; apply.
    by rewrite (leq_trans (size_Poly _)) ?size_tuple.
  rewrite ((lagrange_commits b _ _ _ _).2 cw) //; first by rewrite ex addrC -scalerDl.
    by rewrite ew size_vadd ?size_eval_vec ec ?sc // ltnW.
  by move: fn; rewrite /fits /u64_bound; lia.
by rewrite (cardsD1 z A) leq_addl addnC leq_add2l leq_b1.
Qed.
Print Assumptions C72_honest_last_partial.

(** The bound needs nothing of the signatures, nor that the party has not contributed before. *)
Theorem C72_honest_bound_partial (E : engine) (D : eddsa) (b : build) (config : Config E)
  (ps : btmap (Participant E)) (ag0 : PVSSAggregator E) (h : seq (call E)) (node : Node E)
  (k : Fr E) (R : rng E) (s : rstate R) (P : pred (Com E)) :
  let ag := run D b ag0 h in
  let t := cfg_degree config in
  let g := srs_g2 (cfg_srs config) in
  aggregator_new config ps = Ok ag0 -> config_ok config -> registered ag0 -> member_of D ag0 node ->
  g != 0 ->
  (#|[set a : t.+1.-tuple (Fr E) |
      if deal D b node a k is Ok sh then
        let: (r, ag') := (receive_share D b ag s sh).1 in
        is_ok r && (if lagrange_interpolation_simple b
                         (comms (as_pvss_core (ag_aggregated_tx ag'))) t is Ok T then P T else false)
      else false]|
   <= #|[set x : Fr E | P (x *: g)]| * modulus E ^ t)%N.
Proof.
move=> ag t g e0 ok reg mb g0.
have [ec ep] := @hide_static E D b config ps ag0 h e0; rewrite -/ag in ec ep.
have txo := @hide_tx_ok E D b config ps ag0 h e0; rewrite -/ag in txo.
have [tn nq fn] := ok; have tq : (t.+1 < modulus E)%N by apply: ltn_trans nq.
have [ec0 ep0] : ag_config ag0 = config /\ ag_participants ag0 = ps by case: e0 => <-.
have okA : config_ok (ag_config ag) by rewrite ec.
have regA : registered ag by move=> i; rewrite ec ep -ep0 -ec0; exact: reg.
have mbA : member_of D ag node by case: mb; rewrite ec0 ep0 => *; split; rewrite ?ec ?ep.
have [_ [se sc] _ _] := txo; rewrite ec in se sc.
have [S0 cS0] : exists S0, commits_to t (comms (as_pvss_core (ag_aggregated_tx ag))) S0.
  by apply: commits_to_exists => //; rewrite sc ltnW.
have [x0 ex] := pt_cyclic S0 g0.
have et : cfg_degree (ag_config ag) = t by rewrite ec.
rewrite -(card_imset [set x | P (x *: g)] (addIr (- x0))).
rewrite (_ : _ @: _ = [set x | P ((x + x0) *: g)]); last first.
  apply/setP => y; rewrite inE; apply/imsetP/idP => [[w]|py]; first by rewrite inE => pw ->; rewrite subrK.
  by exists (y + x0); rewrite ?inE ?addrK.
rewrite -(@card_heads E t (fun x => P ((x + x0) *: g))).
apply: subset_leq_card; apply/subsetP => a; rewrite !inE.
case eo: (deal D b node a k) => [sh|e|p] //.
case er: (receive_share D b ag s sh).1 => [[[]|e|p] ag'] //=.
have [nz ew] := @deal_added E D b ag node t a k R s sh ag' et okA regA mbA eo er.
have cw : commits_to t (comms (as_pvss_core (ag_aggregated_tx ag'))) (S0 + (Poly a).[0] *: g).
  rewrite ew; apply: commits_to_add => //; rewrite ?sc ?size_eval_vec ?ec // 1?ltnW //.
  have := @core_of_commits E ag (Poly a) okA; rewrite ec; apply.
  by rewrite (leq_trans (size_Poly _)) ?size_tuple.
rewrite ((lagrange_commits b _ _ _ _).2 cw) //; first by rewrite ex addrC -scalerDl.
  by rewrite ew size_vadd ?size_eval_vec ec ?sc // ltnW.
by move: fn; rewrite /fits /u64_bound; lia.
Qed.
Print Assumptions C72_honest_bound_partial.

(** ** The theorems at the toy engine *)

Lemma tparty i : (i < 4)%N -> party_of TD tag (tnode i).
Proof.
move=> li; exists (tpart i); split=> //; last exact: toy_working.
by case: i li => [|[|[|[|]]]].
Qed.

(** Participant 2 deals after participant 1; participant 0, with key 2, is the one recipient
    the theorem may speak of (degree 1). *)
Example C71_example :
  [/\ config_ok tconfig /\ registered tag, party_of TD tag (tnode 2),
      srs_g1 (cfg_srs tconfig) != 0 /\ srs_g2 (cfg_srs tconfig) != 0,
      bt_get (as_contributions (ag_aggregated_tx (run TD Debug tag [:: tcall (MsgShare sh1)]))) 2 = None
    & (forall i, [/\ (tnth [tuple 0%N] i < 4)%N, tnth [tuple f 2] i != 0
        & key_of tag (tnth [tuple 0%N] i) = tnth [tuple f 2] i *: srs_g1 (cfg_srs tconfig)]) /\
      size (accepted TD Debug tag [:: tcall (MsgShare sh1); tcall (MsgShare sh2)]) = 2%N].
Proof.
have none T (o : option T) : ~~ isSome o -> o = None by case: o.
split; [by split; last exact: tag_registered | exact: tparty | by [] | by apply: none; vm_compute |].
by split=> [i|]; [rewrite !ord1 /tnth /=; split | vm_compute].
Qed.

(** The late dealer 1 makes the logarithm of the secret even, whether dealer 2 shares 7 or 8
    (6 is the inverse of the base, 2). *)
Example C72_example :
  let even_log (P : Com TE) := ~~ odd (val ((P : 'F_11) * f 6)) in
  let play (c : nat) := @last_word TE TD Debug tag (tnode 2) (tnode 1) (f 4) (f 6)
    (seq_rng TE) (seq_rng TE) [:: f 1; f 9; f 3] [:: f 1; f 9; f 3] 1
    (picky 1 (srs_g2 (cfg_srs tconfig)) even_log) even_log [tuple f c; f 5] in
  [/\ play 7%N, play 8%N, party_of TD tag (tnode 1)
    & even_log (0%:R *: srs_g2 (cfg_srs tconfig)) && ~~ even_log (f 3 *: srs_g2 (cfg_srs tconfig))].
Proof. by split; [vm_compute|vm_compute|exact: tparty|vm_compute]. Qed.
