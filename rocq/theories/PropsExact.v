(** * PropsExact: the exact limits of some properties that are false as stated *)

From Coq Require Import NArith Strings.Byte.
From mathcomp Require Import all_ssreflect all_algebra zify.
From Verif Require Import Prelude Errors BTreeMap Engine LibModel PolyModel SigmaModel PvssModel
  Spec PreludeProofs AlgebraProofs PolyProofs PvssProofs AggProofs HistProofs Instance
  PropsPoly PropsSigma PropsShare PropsAgg PropsHist PropsEnd PropsLimits PropsAttack PropsNet.

Set Implicit Arguments.
Unset Strict Implicit.
Unset Printing Implicit Defensive.

Import GRing.Theory.
Local Open Scope ring_scope.

(** ** C25: exactly when a transcript of accepted shares is accepted *)

(** A peer accepts the transcript of a node that received shares if and only if the peer's
    draws pass the degree test on the sums of the accepted commitments, and the encryption
    errors of all accepted shares cancel (or the scalar the peer draws is 0). *)
Theorem C25_exact_partial (E : engine) (D : eddsa) (b b' : build) (config : Config E)
  (ps : btmap (Participant E)) (ag0 : PVSSAggregator E) (h : seq (call E)) (R : rng E)
  (s : rstate R) :
  let n := cfg_num_participants config in
  let acc := shares_of (accepted D b ag0 h) in
  let C k := \sum_(sh <- acc) nth 0 (comms (sh_pvss_core sh)) k in
  let K k := \sum_(sh <- acc) nth 0 (encs (sh_pvss_core sh)) k in
  let deg := ensure_degree b' s [seq C k | k <- iota 0 n] (cfg_degree config) in
  config_ok config -> registered ag0 -> aggregator_new config ps = Ok ag0 ->
  shares_only h -> (N.of_nat (size h) < 2 ^ 64)%num ->
  (aggregation_verify D b' ag0 s (ag_aggregated_tx (run D b ag0 h))).1 = Ok tt <->
  deg.1 = Ok tt /\
  ((rand_fr deg.2).1 = 0 \/
   \prod_(i < n) pairing (key_of ag0 i) (C i)
   = \prod_(i < n) pairing (K i) (srs_g2 (cfg_srs config))).
Proof.
move=> n acc C K deg ok reg ea so small; have [tn nq fn] := ok.
have e0 : ag0 = new_aggregator config ps by case: ea.
have ec0 : ag_config ag0 = config by rewrite e0.
have small0 : (N.of_nat (@size (PVSSShare E) [::]) + N.of_nat (size h) < 2 ^ 64)%num.
  by rewrite /=; lia.
have oka : tx_ok D ag0 by rewrite e0; exact: new_tx_ok.
have lga : logs ag0 [::] by rewrite e0; exact: new_logs.
have [_ _ lc] := @run_logs E D b _ _ h so small0 oka lga; rewrite cat0s -/acc in lc.
have nw := @logs_no_wrap_run E D b _ _ h so small0 oka lga.
have bal : tx_balanced (run D b ag0 h).
  apply: run_balanced; rewrite ?ec0 //; [exact: ltnW | by right | by right |].
  by rewrite e0; exact: new_balanced (ltnW tn) nq.
have [ec ep] := run_static D b ag0 h.
have [_ sz cv _] := run_tx_ok b h oka; have [se sc] := sz.
rewrite /tx_balanced ec ec0 in bal; rewrite ec ec0 in se sc sz.
set x := ag_aggregated_tx _ in lc cv se sc sz bal *.
have eC k : nth 0 (comms (as_pvss_core x)) k = C k by have [_ ->] := lc k.
have eK k : nth 0 (encs (as_pvss_core x)) k = K k by have [-> _] := lc k.
have evec : comms (as_pvss_core x) = [seq C k | k <- iota 0 n].
  apply: (@eq_from_nth _ 0); rewrite ?size_map ?size_iota sc // => k kn.
  by rewrite eC (nth_map 0%N) ?size_iota // nth_iota.
have prods : (\prod_(i < n) pairing (key_of ag0 i) (nth 0 (comms (as_pvss_core x)) i)
              = \prod_(i < n) pairing (nth 0 (encs (as_pvss_core x)) i) (srs_g2 (cfg_srs config)))
  <-> \prod_(i < n) pairing (key_of ag0 i) (C i)
      = \prod_(i < n) pairing (K i) (srs_g2 (cfg_srs config)).
  under eq_bigr do rewrite eC; under [X in _ = X]eq_bigr do rewrite eK.
  by [].
have := @C14_aggregation_verify_exact E D b' R ag0 s x; rewrite ec0 => /(_ nq fn reg) ex.
apply: (iff_trans ex) => {ex}; rewrite evec -/deg -evec.
split=> [[_ hd hp _ _]|[hd hp]]; first by split=> //; case: hp => [|/prods]; [left | right].
split=> //; first by case: hp => [|/prods]; [left | right].
move=> i sp w /cv[p gp [pv ev]]; exists p; rewrite ep in gp; rewrite ec ec0 in pv.
by split.
Qed.
Print Assumptions C25_exact_partial.

(** ** C59: exactly when a network of honest nodes fails *)

Section Exact.
Variables (E : engine) (D : eddsa).
Variables (config : Config E) (ps : btmap (Participant E)).
Variables (dealt_share : nat -> PVSSShare E) (dealers : pred nat).
Let ag0 := new_aggregator config ps.
Local Notation n := (cfg_num_participants config).
Hypothesis ok : config_ok config.
Hypothesis reg : registered ag0.
Hypothesis honest : forall d, dealers d ->
  honest_share D ag0 (dealt_share d) /\ sh_participant_id (dealt_share d) = d.
Local Notation inv := (node_inv D config ps dealt_share dealers).

Lemma dealer_below d : dealers d -> (d < n)%N.
Proof.
move=> hd; have [hs eid] := honest hd; have [p [pa [_ + _ _ _]]] := @honest_dealt E D ag0 _ ok hs.
by rewrite eid.
Qed.

(** A weight that does not fit makes the call fail when overflow is checked. *)
Lemma event_overflow net cnt e i : (forall v, inv (net v) (cnt v)) -> from_dealers dealers e ->
  (forall v j, (cnt v j < 2 ^ 64)%num) ->
  (2 ^ 64 <= tally_step cnt e (ev_dst e) i)%num ->
  (net_step D Debug dealt_share net e).1 <> Ok tt.
Proof.
move=> iv fd small big; rewrite /net_step.
set c := with_coins _ _; have [[nok _]|[z [er _ mg]]] := receive_cases D Debug (net (ev_dst e)) c.
  by case: (receive _ _ _ _) nok => r ag' /=; case: r.
exfalso; have [[ec _] [[ed en] _ _ _ _] cts dl _] := iv (ev_dst e).
have w0 : cnt (ev_dst e) i <> 0%num.
  move=> e0; move: big; rewrite /tally_step eqxx /= e0.
  by case: (e) => [dst d c'|dst src c']; [case: ifP | have := small src i; lia].
have li := dealer_below (dl _ w0).
have /agg_okE[_ _ _ ms _] := mg; move: ms; rewrite /= en => /(_ i li).
rewrite cts msg_tx_contributions /c; move: (small (ev_dst e) i) w0 big.
rewrite /tally_step eqxx /=.
case: e fd {er mg cts dl ec ed en} c => [dst d c'|dst src c'] /= fd _.
- have [_ eid] := honest fd; rewrite bt_get1 eid eq_sym; case: (cnt dst i) => // p sm _.
  case: eqP => [->|_] big /=; last by rewrite N.add_0_r in big; lia.
  rewrite eqxx /= /u64_add /u64_bound.
  by have /N.ltb_ge -> : (2 ^ 64 <= N.pos p + 1)%num by [].
have [_ _ cts _ _] := iv src; rewrite cts; case: (cnt dst i) => // p sm _.
case e2: (cnt src i) => [|p'] big; first by rewrite N.add_0_r in big; lia.
rewrite /= eqxx /= /u64_add /u64_bound.
by have /N.ltb_ge -> : (2 ^ 64 <= N.pos p + N.pos p')%num by [].
Qed.

Lemma run_exact_from es net cnt : (forall v, inv (net v) (cnt v)) ->
  all (from_dealers dealers) es -> (forall v j, (cnt v j < 2 ^ 64)%num) ->
  (net_run D Debug dealt_share net es).1 = nseq (size es) (Ok tt) ->
  forall k v i, (foldl (@tally_step E) cnt (take k es) v i < 2 ^ 64)%num.
Proof.
elim: es net cnt => [|e es IH] net cnt iv; first by move=> _ small _ k v i /=; exact: small.
move=> /= /andP[fd fds] small.
case es1: (net_step _ _ _ net e) => [r net1].
case es2: (net_run _ _ _ net1 es) => [rs net2] /= [er ers].
have fit v i : (tally_step cnt e v i < 2 ^ 64)%num.
  case: (v =P ev_dst e) => [->|/eqP ne]; last by rewrite /tally_step ne; exact: small.
  apply/N.nle_gt => big; have := event_overflow iv fd small big.
  by rewrite es1 er.
have [_ iv'] := event_inv Debug ok reg honest iv fd fit; rewrite es1 in iv'.
case=> [|k] v i /=; first exact: small.
by apply: (IH net1) => //; rewrite es2.
Qed.

End Exact.

(** When overflow is checked, honest nodes never fail if and only if at the end no share has
    reached a node [2^64] times. *)
Theorem C59_exact_partial (E : engine) (D : eddsa) (config : Config E)
  (ps : btmap (Participant E)) (ag0 : PVSSAggregator E) (dealt_share : nat -> PVSSShare E)
  (dealers : pred nat) (es : seq (event E)) :
  honest_setting D config ps ag0 dealt_share dealers -> all (from_dealers dealers) es ->
  (net_run D Debug dealt_share (fun _ => ag0) es).1 = nseq (size es) (Ok tt) <->
  forall v i, (tally es v i < 2 ^ 64)%num.
Proof.
move=> hs fds; have [ok ea reg hon] := hs; have e0 : ag0 = new_aggregator config ps by case: ea.
split=> [all_ok v i|small].
  rewrite {}e0 in reg hon all_ok *.
  have := @run_exact_from E D config ps dealt_share dealers ok reg hon es (fun _ => new_aggregator config ps)
    (fun _ _ => 0%num) (fun _ => node_inv_new D ps dealt_share dealers ok) fds.
  by move=> /(_ (fun _ _ => erefl) all_ok (size es) v i); rewrite take_size.
have ft : tally_fits es.
  move=> k v i; apply: N.le_lt_trans (small v i).
  by rewrite -[X in (_ <= tally X _ _)%num](cat_take_drop k); exact: tally_mono.
by have := C59_network_partial Debug hs fds ft; case: (net_run _ _ _ _ es) => rs net [].
Qed.
Print Assumptions C59_exact_partial.

(** ** C31: the statement of a knowledge proof, as worded *)

(** No rule computes, from any commitment and any response, a statement they prove. *)
Definition C31_full (E : engine) (C : curve (modulus E)) (g : pt C) : Prop :=
  ~ exists stmt : pt C -> Fr E -> Fr E -> pt C,
    forall a z, let c := hash_to_field E DLK_PERSONA (pt_ser g ++ pt_ser a) in
    c != 0 -> dlk_verify g (stmt a c z) (DlkProof a c z) = Ok tt.

Theorem C31_full_refuted (E : engine) (C : curve (modulus E)) (g : pt C) : ~ C31_full g.
Proof.
case; exists (fun a c z => c^-1 *: (a - z *: g)) => a z c c0.
exact: C31_dlk_statement_fixed_first_refuted.
Qed.
Print Assumptions C31_full_refuted.

(** ** C67: what the knowledge proof of an accepted share does say *)

(** For an accepted share whose challenge is not 0: whoever knows the logarithm of the
    commitment point of the proof knows the secret, and conversely; nothing is said of a
    dealer that knows neither.  If the challenge is 0, the proof says nothing of the secret. *)
Theorem C67_commitment_partial (E : engine) (D : eddsa) (b : build) (R : rng E)
  (ag : PVSSAggregator E) (s : rstate R) (sh : PVSSShare E) :
  let g := srs_g2 (cfg_srs (ag_config ag)) in
  let dp := sp_decomp_proof (sh_signed_proof sh) in
  let pf := dp_proof dp in
  let c := dlk_challenge pf in
  config_ok (ag_config ag) -> (share_verify D b ag s sh).1 = Ok tt ->
  (c != 0 -> forall x a, (dp_gs dp = x *: g -> dlk_commit pf = (dlk_response pf + c * x) *: g) /\
     (dlk_commit pf = a *: g -> dp_gs dp = ((a - dlk_response pf) / c) *: g)) /\
  (c = 0 -> dlk_commit pf = dlk_response pf *: g /\
     forall S, dlk_verify g S pf = Ok tt).
Proof.
move=> g dp pf c [tn nq fn] /share_verifyE[] // p [_ _ _ _ [[pc pe] _]].
rewrite -/g -/dp -/pf in pc pe; rewrite -pc -/c in pe.
split=> [c0 x a|c0].
  split=> [ex|ea]; first by rewrite -pe ex scalerA -scalerDl.
  apply: (scalerI c0); rewrite scalerA mulrCA mulfV // mulr1 scalerBl -ea -pe addrAC subrr add0r //.
rewrite c0 scale0r addr0 in pe; split=> // S; apply/dlk_okE; rewrite -pc -/c c0 scale0r addr0 //.
Qed.
Print Assumptions C67_commitment_partial.

(** One accepted share with a bad slot: the peer notices, unless its last scalar is 0; two
    shares whose bad slots cancel are accepted together. *)
Example C25_exact_example :
  let bad := tamper_enc sh2 0 (nth 0 (encs (sh_pvss_core sh2)) 0 + f 1 : Enc TE) in
  let anti := tamper_enc sh1 0 (nth 0 (encs (sh_pvss_core sh1)) 0 - f 1 : Enc TE) in
  let ask h coins := is_ok (@aggregation_verify TE TD Debug (seq_rng TE) tag coins
                              (ag_aggregated_tx (run TD Debug tag h))).1 in
  [/\ size (accepted TD Debug tag [:: tcall (MsgShare bad); tcall (MsgShare anti)]) = 2%N,
      ~~ ask [:: tcall (MsgShare bad)] [:: f 1; f 9; f 3],
      ask [:: tcall (MsgShare bad)] [:: f 1; f 9; f 0]
    & ask [:: tcall (MsgShare bad); tcall (MsgShare anti)] [:: f 1; f 9; f 3]].
Proof. by split; vm_compute. Qed.

Lemma tally_rcons (E : engine) (es : seq (event E)) e :
  tally (rcons es e) = tally_step (tally es) e.
Proof. by rewrite /tally foldl_rcons. Qed.

(** The network of C59 whose weights do not fit: 93 turns, and one more. *)
Example C59_exact_example (c : coins TE) :
  (forall v i, (tally (pingpong 2 c 92) v i < 2 ^ 64)%num) /\
  ~ (forall v i, (tally (rcons (pingpong 2 c 92) (turn c 92)) v i < 2 ^ 64)%num).
Proof.
split=> [v i|/(_ 1%N 2%N)].
  by rewrite tally_pingpong fibs92; case: (i == 2)%N; case: (v == 0%N); case: (v == 1%N).
have t1 := tally_pingpong 2 c 92 1 2; have t0 := tally_pingpong 2 c 92 0 2.
rewrite fibs92 in t0 t1; rewrite -[turn c 92]/(Gossip 1 0 c) tally_rcons.
move: (tally _) t0 t1 => cnt t0 t1; rewrite /tally_step [ev_dst _]/= eqxx t0 t1.
by move/N.ltb_lt; vm_compute.
Qed.
