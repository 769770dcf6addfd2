(** * PropsNet: property C59, honest nodes exchanging shares and transcripts in any order *)

From Coq Require Import NArith Strings.Byte.
From mathcomp Require Import all_ssreflect all_algebra zify.
From Verif Require Import Prelude Errors BTreeMap Engine LibModel PolyModel SigmaModel PvssModel
  Spec PreludeProofs AlgebraProofs PolyProofs PvssProofs AggProofs HistProofs Instance
  PropsPoly PropsSigma PropsShare PropsAgg PropsHist PropsEnd PropsLimits PropsAttack.

Set Implicit Arguments.
Unset Strict Implicit.
Unset Printing Implicit Defensive.

Import GRing.Theory.
Local Open Scope ring_scope.

(** ** The network

    Each node (a number) holds an aggregator.  In one event a node receives the share of a
    dealer, or the transcript another node holds at that moment, with coins of its own. *)

Section Network.
Variables (E : engine) (D : eddsa) (b : build).
Variable dealt_share : nat -> PVSSShare E.

Definition network : Type := nat -> PVSSAggregator E.

Inductive event : Type :=
| Deal (dst dealer : nat) of coins E
| Gossip (dst src : nat) of coins E.

Definition ev_dst (e : event) : nat :=
  match e with Deal dst _ _ => dst | Gossip dst _ _ => dst end.

Definition ev_msg (net : network) (e : event) : message E :=
  match e with
  | Deal _ d _ => MsgShare (dealt_share d)
  | Gossip _ src _ => MsgTranscript (ag_aggregated_tx (net src))
  end.

Definition ev_coins (e : event) : coins E :=
  match e with Deal _ _ c => c | Gossip _ _ c => c end.

Definition update (net : network) (v : nat) (ag : PVSSAggregator E) : network :=
  fun u => if u == v then ag else net u.

Definition net_step (net : network) (e : event) : outcome pvss_error unit * network :=
  let: (r, ag') := receive D b (net (ev_dst e)) (with_coins (ev_msg net e) (ev_coins e)) in
  (r, update net (ev_dst e) ag').

(** All outcomes, and the network at the end. *)
Fixpoint net_run (net : network) (es : seq event) : seq (outcome pvss_error unit) * network :=
  if es is e :: es' then
    let: (r, net') := net_step net e in
    let: (rs, net'') := net_run net' es' in (r :: rs, net'')
  else ([::], net).

End Network.

(** How often the share of dealer [i] has reached node [v], directly or inside a transcript. *)
Definition tally_type : Type := nat -> nat -> N.
Definition tally_step (E : engine) (cnt : tally_type) (e : event E) : tally_type :=
  fun v i =>
    if v != ev_dst e then cnt v i
    else match e with
         | Deal _ d _ => (cnt v i + (if i == d then 1 else 0))%num
         | Gossip _ src _ => (cnt v i + cnt src i)%num
         end.
Definition tally (E : engine) (es : seq (event E)) : tally_type :=
  foldl (@tally_step E) (fun _ _ => 0%num) es.

(** No tally reaches [2^64] after any of the events. *)
Definition tally_fits (E : engine) (es : seq (event E)) : Prop :=
  forall k v i, (tally (take k es) v i < 2 ^ 64)%num.

(** Only shares of the dealers in [dealers] are delivered. *)
Definition from_dealers (E : engine) (dealers : pred nat) (e : event E) : bool :=
  if e is Deal _ d _ then dealers d else true.

Section Honest.
Variables (E : engine) (D : eddsa) (b : build).
Variables (config : Config E) (ps : btmap (Participant E)).
Variables (dealt_share : nat -> PVSSShare E) (dealers : pred nat).
Let ag0 := new_aggregator config ps.
Let n := cfg_num_participants config.
Local Notation tx := (@ag_aggregated_tx E).
Implicit Types (ag : PVSSAggregator E) (net : network E).

Hypothesis ok : config_ok config.
Hypothesis reg : registered ag0.
Hypothesis honest : forall d, dealers d ->
  honest_share D ag0 (dealt_share d) /\ sh_participant_id (dealt_share d) = d.

(** The state of one node: it counted the share of dealer [i] [cnt i] times. *)
Definition node_inv ag (cnt : nat -> N) : Prop :=
  [/\ ag_config ag = config /\ ag_participants ag = ps,
      sound_tx D ag0 (tx ag),
      forall i, bt_get (as_contributions (tx ag)) i
                = if cnt i is 0%num then None else Some (sh_signed_proof (dealt_share i), cnt i),
      forall i, cnt i <> 0%num -> dealers i
    & forall k, nth 0 (encs (as_pvss_core (tx ag))) k
        = \sum_(i < n) (N.to_nat (cnt i))%:R *: nth 0 (encs (sh_pvss_core (dealt_share i))) k /\
      nth 0 (comms (as_pvss_core (tx ag))) k
        = \sum_(i < n) (N.to_nat (cnt i))%:R *: nth 0 (comms (sh_pvss_core (dealt_share i))) k].

Lemma node_inv_new : node_inv ag0 (fun _ => 0%num).
Proof.
split=> //; first exact: (@sound_empty E D ag0 ok).
move=> k; rewrite /= !nth_nseq !if_same.
by split; rewrite big1 // => i _; rewrite scale0r.
Qed.

(** Merging two node states. *)
Lemma merge_inv x y cnt cnt' ag :
  ag_config ag = config -> ag_participants ag = ps ->
  node_inv (set_tx ag x) cnt -> node_inv (set_tx ag y) cnt' ->
  (forall i, (cnt i + cnt' i < 2 ^ 64)%num) ->
  exists2 z, agg_aggregate b x y = Ok z & node_inv (set_tx ag z) (fun i => (cnt i + cnt' i)%num).
Proof.
move=> ec ep [_ sx cx dx kx] [_ sy cy dy ky] small; rewrite /= in sx sy cx cy kx ky.
have entry i sp w sp' w' : bt_get (as_contributions x) i = Some (sp, w) ->
    bt_get (as_contributions y) i = Some (sp', w') -> [/\ sp = sp', w = cnt i & w' = cnt' i].
  by rewrite cx cy; case: (cnt i) => // p [<- <-]; case: (cnt' i) => // p' [<- <-].
have nc i : ~ conflict_at x y i.
  by move=> [a [w [a' [w' [ga ga' ne]]]]]; case: ne; have [-> _ _] := entry _ _ _ _ _ ga ga'.
have no i : ~ overflow_at x y i.
  move=> [a [w [a' [w' [ga ga' _]]]]]; have [_ -> ->] := entry _ _ _ _ _ ga ga'.
  by have := small i; lia.
have [[hx1 hx2] [p [_ px]] _ bx _] := sx; have [[hy1 hy2] [p' [_ py]] _ by0 _] := sy.
have [tn nq fn] := ok; have n0 : (0 < n)%N by exact: leq_trans tn.
have : is_ok (agg_aggregate b x y).
  have [_ _ _ _ h] := C18_transcript_errors b x y; apply/h; split.
  - by rewrite hx1 hx2 hy1 hy2.
  - by rewrite px py !size_enc_vec !size_eval_vec.
  - by move=> i _ [/nc|[_ /no]].
case/is_okP => z mg; exists z => //; have /agg_okE[_ [dz nz] ca ms out] := mg.
have nw i : slot_no_wrap (bt_get (as_contributions x) i) (bt_get (as_contributions y) i).
  by move=> sp w sp' w' gx gy; have [_ -> ->] := entry _ _ _ _ _ gx gy.
split=> //.
- by apply: sound_merge mg => //; right.
- move=> i /=; case: (ltnP i n) => li; last first.
    rewrite out ?hx2 //; have c0 : cnt i = 0%num.
      have := cx i; case: (cnt i) => // q gi; have := bx _ _ gi; by rewrite ltnNge li.
    have c0' : cnt' i = 0%num.
      have := cy i; case: (cnt' i) => // q gi; have := by0 _ _ gi; by rewrite ltnNge li.
    by rewrite c0 c0'.
  have := ms i; rewrite hx2 => /(_ li); rewrite cx cy; have := small i.
  case: (cnt i) => [|q]; case: (cnt' i) => [|q'] lt //=; try by case=> <-.
  rewrite eqxx /= /u64_add /u64_bound.
  have -> : (N.pos q + N.pos q' <? 2 ^ 64)%num by apply/N.ltb_lt.
  by case=> <-.
- by move=> i ne; case: (N.eq_dec (cnt i) 0) => [e|/dx //]; apply: dy; lia.
- have [m [_ l1 l2 ->]] := core_aggregate_inv ca => k /=.
  have [e1 e2] := kx k; have [e1' e2'] := ky k.
  rewrite !nth_vadd ?e1 ?e2 ?e1' ?e2'; try by rewrite px py ?size_enc_vec ?size_eval_vec.
  by split; rewrite -big_split; apply: eq_bigr => i _; rewrite Nnat.N2Nat.inj_add natrD scalerDl.
Qed.

Lemma set_tx_id ag : set_tx ag (tx ag) = ag.
Proof. by case: ag. Qed.

Lemma node_inv_tx_ok ag cnt : node_inv ag cnt -> tx_ok D ag.
Proof.
move=> [[ec ep] [hd [p [_ px]] cv below _] _ _ _]; split; rewrite /contributions_valid ?ec ?ep //.
by rewrite px; exact: (@core_of_sized E ag0).
Qed.

(** A share as a transcript of its own. *)
Lemma share_inv ag cnt d : node_inv ag cnt -> dealers d ->
  node_inv (set_tx ag (msg_tx ag (MsgShare (dealt_share d)))) (fun i => if i == d then 1%num else 0%num).
Proof.
move=> [[ec ep] [[hx1 hx2] _ _ _ _] _ _ _] hd; have [hs eid] := honest hd; have dl := @honest_dealt E D ag0 _ ok hs.
have ld : (d < n)%N by case: dl => p [pa [_ + _ _ _]]; rewrite eid.
split=> //.
- by rewrite /= hx1 hx2; exact: (@dealt_sound E D ag0 _ ok dl).
- by move=> i; rewrite /= bt_get1 eid eq_sym; case: eqP => // <-.
- by move=> i; case: eqP => [->|].
- move=> k /=; split; rewrite (bigD1 (Ordinal ld)) //= eqxx scale1r big1 ?addr0 // => i ne.
  + by have /negbTE-> : (i : nat) != d by []; rewrite scale0r.
  + by have /negbTE-> : (i : nat) != d by []; rewrite scale0r.
Qed.

Lemma node_accepted ag peer cnt R (s : rstate R) : ag_config peer = config -> ag_participants peer = ps ->
  node_inv ag cnt -> (aggregation_verify D b peer s (tx ag)).1 = Ok tt.
Proof.
move=> ec ep [_ sx _ _ _].
case: peer ec ep => c' p' x' /= -> ->.
exact: (@sound_accepted E D b R (MkAggregator config ps x') s (tx ag) ok reg sx).
Qed.

(** One event. *)
Lemma event_inv net cnt e : (forall v, node_inv (net v) (cnt v)) -> from_dealers dealers e ->
  (forall v i, (tally_step cnt e v i < 2 ^ 64)%num) ->
  (net_step D b dealt_share net e).1 = Ok tt /\
  forall v, node_inv ((net_step D b dealt_share net e).2 v) (tally_step cnt e v).
Proof.
move=> inv fd small; rewrite /net_step; set dst := ev_dst e.
have [[ec ep] _ cts _ _] := inv dst.
have done r z :
    (Ok tt, set_tx (net dst) z) = r -> node_inv (set_tx (net dst) z) (tally_step cnt e dst) ->
    r.1 = Ok tt /\ forall v, node_inv (update net dst r.2 v) (tally_step cnt e v).
  move=> <- iz; split=> // v; rewrite /update /=; case: eqP => [-> //|/eqP ne].
  by have := inv v; rewrite /tally_step -/dst ne.
have := small dst; case: e @dst fd small ec ep cts done => [v0 d c|v0 src c] dst fd _ ec ep cts done;
  rewrite /= in fd dst ec ep cts done * => small; rewrite /with_coins.
- have i2 := share_inv (inv dst) fd.
  have i1 := inv dst; rewrite -(set_tx_id (net dst)) in i1.
  have sm i : (cnt dst i + (if i == d then 1 else 0) < 2 ^ 64)%num.
    by have := small i; rewrite /tally_step /= eqxx.
  have [z mg iz] := merge_inv ec ep i1 i2 sm.
  have [hs eid] := honest fd.
  have dl : dealt D (net dst) (dealt_share d).
    by apply: (@dealt_ext E D ag0) => //; exact: (@honest_dealt E D ag0 _ ok hs).
  have sv : (share_verify D b (net dst) (projT2 c) (dealt_share d)).1 = Ok tt.
    by apply: dealt_accepted => //; rewrite ec.
  have [sp w|z' [er mg']] := receive_share_ok (node_inv_tx_ok (inv dst)) sv.
    rewrite cts eid; have := sm d; rewrite eqxx; case: (cnt dst d) => // q lt [<- <-]; split=> //.
  have ez : z' = z by move: mg'; rewrite mg; case.
  rewrite ez in er; case er': (receive _ _ _ _) => [r ag'] /=; rewrite er in er'.
  apply: (done _ (r, ag') z er'); move: iz; rewrite /tally_step /= eqxx //.
- have sm i : (cnt dst i + cnt src i < 2 ^ 64)%num by have := small i; rewrite /tally_step /= eqxx.
  have i1 := inv dst; rewrite -(set_tx_id (net dst)) in i1.
  have i2 : node_inv (set_tx (net dst) (tx (net src))) (cnt src).
    by case: (inv src) => [[? ?] ? ? ? ?]; split.
  have [z mg iz] := merge_inv ec ep i1 i2 sm.
  have av := node_accepted (projT2 c) ec ep (inv src).
  have er := receive_tx_eq av; rewrite mg in er.
  case er': (receive _ _ _ _) => [r ag'] /=; rewrite er in er'.
  apply: (done _ (r, ag') z er'); move: iz; rewrite /tally_step /= eqxx //.
Qed.

Lemma run_inv_from es net cnt : (forall v, node_inv (net v) (cnt v)) ->
  all (from_dealers dealers) es ->
  (forall k v i, (foldl (@tally_step E) cnt (take k es) v i < 2 ^ 64)%num) ->
  let: (rs, net') := net_run D b dealt_share net es in
  rs = nseq (size es) (Ok tt) /\ forall v, node_inv (net' v) (foldl (@tally_step E) cnt es v).
Proof.
elim: es net cnt => [|e es IH] net cnt inv; first by move=> _ _ /=; split=> // v; apply: inv.
move=> /= /andP[fd fds] small.
have [|eo iv] := event_inv inv fd; first by move=> v i; have := small 1%N v i; rewrite /= take0.
case es1: (net_step _ _ _ net e) eo iv => [r net1] /= -> iv.
have := IH net1 _ iv fds; case: (net_run _ _ _ net1 es) => rs net2 /= h.
have [|-> iv2] := h; first by move=> k v i; exact: (small k.+1 v i).
by [].
Qed.

Lemma run_inv es : all (from_dealers dealers) es -> tally_fits es ->
  let: (rs, net) := net_run D b dealt_share (fun _ => ag0) es in
  rs = nseq (size es) (Ok tt) /\ forall v, node_inv (net v) (tally es v).
Proof. by apply: run_inv_from => v; exact: node_inv_new. Qed.

(** The secret in a node's transcript. *)
Lemma node_commits ag cnt : node_inv ag cnt ->
  commits_to (cfg_degree config) (comms (as_pvss_core (tx ag)))
    (\sum_(i < n) (N.to_nat (cnt i))%:R *: gs_of (sh_signed_proof (dealt_share i))).
Proof.
move=> [_ [_ _ _ below cm] ct _ _]; have := cm; rewrite (weighted_gs_below below).
congr commits_to; apply: eq_bigr => i _; rewrite ct.
by case: (cnt i) => [|q] //=; rewrite scale0r.
Qed.

Lemma natN_add (A B : N) : (N.to_nat (A + B))%:R = (N.to_nat A)%:R + (N.to_nat B)%:R :> Fr E.
Proof. by rewrite Nnat.N2Nat.inj_add natrD. Qed.

(** A merge in which the weight of the only dealer [d] does not fit. *)
Lemma overflow_step ag ag' cnt cnt' d (c : coins E) : node_inv ag cnt -> node_inv ag' cnt' ->
  (forall i, i <> d -> cnt i = 0%num /\ cnt' i = 0%num) ->
  (cnt d < 2 ^ 64)%num -> (cnt' d < 2 ^ 64)%num -> (2 ^ 64 <= cnt d + cnt' d)%num ->
  let: (r, ag2) := receive D b ag (with_coins (MsgTranscript (tx ag')) c) in
  match b with
  | Debug => r = Panic ArithOverflow /\ ag2 = ag
  | Release => r = Ok tt /\
      (modulus E <> 2%N -> dp_gs (sp_decomp_proof (sh_signed_proof (dealt_share d))) != 0 ->
       forall b' (R' : rng E) (s' : rstate R'), (aggregation_verify D b' ag0 s' (tx ag2)).1 <> Ok tt)
  end.
Proof.
move=> iv iv' only small small' big; have [[ec ep] sx cx dx kx] := iv; have [_ sy cy dy ky] := iv'.
have [tn nq fn] := ok; have n0 : (0 < n)%N by exact: leq_trans tn.
have wd : cnt d <> 0%num by move: small' big; lia.
have wd' : cnt' d <> 0%num by move: small big; lia.
have ld : (d < n)%N.
  have [hs eid] := honest (dx _ wd); have := @honest_dealt E D ag0 _ ok hs.
  by case=> p [pa [_ + _ _ _]]; rewrite eid.
pose sp := sh_signed_proof (dealt_share d).
have gx : bt_get (as_contributions (tx ag)) d = Some (sp, cnt d) by rewrite cx; case: (cnt d) wd.
have gy : bt_get (as_contributions (tx ag')) d = Some (sp, cnt' d) by rewrite cy; case: (cnt' d) wd'.
have nx i : i <> d -> bt_get (as_contributions (tx ag)) i = None by move=> ne; rewrite cx (only _ ne).1.
have ny i : i <> d -> bt_get (as_contributions (tx ag')) i = None by move=> ne; rewrite cy (only _ ne).2.
have [[hx1 hx2] [p [_ px]] _ bx bal] := sx; have [[hy1 hy2] [p' [_ py]] _ by0 bal'] := sy.
have over : (cnt d + cnt' d <? u64_bound)%num = false by apply/N.ltb_ge.
have av := node_accepted (projT2 c) ec ep iv'.
rewrite /with_coins (receive_tx_eq av); case: b {av}.
- suff -> : agg_aggregate Debug (tx ag) (tx ag') = Panic ArithOverflow by [].
  rewrite /agg_aggregate hx1 hx2 hy1 hy2 !eqxx /=.
  have := @merge_fail E Debug (as_contributions (tx ag)) (as_contributions (tx ag')) n d ld.
  rewrite gx gy /merge_slot eqxx /= /u64_add over /= => -> // j lj.
  have ne : j <> d by move=> e; rewrite e ltnn in lj.
  by rewrite (nx _ ne) (ny _ ne).
- have sl : core_len n (as_pvss_core (tx ag)) by rewrite px; have := @core_of_sized E ag0 p; case.
  have sl' : core_len n (as_pvss_core (tx ag')) by rewrite py; have := @core_of_sized E ag0 p'; case.
  pose w := ((cnt d + cnt' d) mod u64_bound)%num.
  pose z := MkAgg n (cfg_degree config) (core_add (as_pvss_core (tx ag)) (as_pvss_core (tx ag')))
              (bt_insert bt_new d (sp, w)).
  have -> : agg_aggregate Release (tx ag) (tx ag') = Ok z.
    apply/agg_okE; rewrite hx1 hx2 hy1 hy2; split=> //.
    + exact: core_aggregate_ok sl sl'.
    + move=> i li; rewrite bt_get1; case: eqP => [<-|ne].
        by rewrite gx gy /merge_slot eqxx /= /u64_add over.
      have ne' : i <> d by move=> e; apply: ne.
      by rewrite (nx _ ne') (ny _ ne').
    + by move=> i; rewrite bt_get1; case: eqP => // <-; rewrite leqNgt ld.
  split=> // q2 gs0 b' R' s' /aggregation_verifyE[] // _ _ _ _.
  have -> : weighted_gs (as_contributions z) = (N.to_nat w)%:R *: gs_of sp.
    by rewrite /weighted_gs /= big_seq1.
  have tsz : (cfg_degree config < size (comms (as_pvss_core (tx ag))))%N by rewrite sl.2 ltnW.
  have tq : ((cfg_degree config).+1 < modulus E)%N by apply: leq_ltn_trans nq; exact: ltnW.
  have := commits_to_add tsz _ tq bal bal'; rewrite sl.2 sl'.2 => /(_ erefl) c1 c2.
  have := commits_to_fun _ tq c1 c2; rewrite size_vadd ?sl.2 ?sl'.2 // => /(_ (ltnW tn)).
  have one (y : PVSSAggregatedShare E) v : (forall i, i <> d -> bt_get (as_contributions y) i = None) ->
      bt_get (as_contributions y) d = Some (sp, v) ->
      (forall i v', bt_get (as_contributions y) i = Some v' -> (i < n)%N) ->
      weighted_gs (as_contributions y) = (N.to_nat v)%:R *: gs_of sp.
    move=> none gd below; rewrite (weighted_gs_below below) (bigD1 (Ordinal ld)) //= gd /=.
    by rewrite big1 ?addr0 // => i ne; rewrite none // => e; case/eqP: ne; exact: val_inj.
  rewrite (one _ _ nx gx bx) (one _ _ ny gy by0) -scalerDl -natrD -plusE -Nnat.N2Nat.inj_add => /eqP.
  rewrite -subr_eq0 -scalerBl scaler_eq0 (negbTE gs0) orbF.
  have -> : (cnt d + cnt' d = 2 ^ 64 + w)%num.
    rewrite /w /u64_bound; set a := (cnt d + cnt' d)%num in big *.
    have la : (a < 2 * 2 ^ 64)%num by rewrite /a; lia.
    by rewrite -(N.mod_unique a (2 ^ 64) 1 (a - 2 ^ 64)); lia.
  rewrite natN_add; have := two64_neq0 q2; move: (N.to_nat (2 ^ 64)) => B /negbTE nB.
  by rewrite addrK nB.
Qed.

End Honest.

(** [t + 1] recipients decrypt and interpolate what a polynomial shares. *)
Lemma carried_reconstruct (E : engine) (D : eddsa) (b' : build) (ag : PVSSAggregator E)
  (x : PVSSAggregatedShare E) (p : {poly Fr E}) (ids : seq nat) (sk : nat -> Fr E) :
  let t := cfg_degree (ag_config ag) in
  let n := cfg_num_participants (ag_config ag) in
  let g1 := srs_g1 (cfg_srs (ag_config ag)) in
  config_ok (ag_config ag) -> carries ag x p -> size ids = t.+1 -> uniq ids ->
  (forall i, i \in ids -> [/\ (i < n)%N, sk i != 0 & key_of ag i = sk i *: g1]) ->
  exists ds : seq (DecryptedShare E),
    mapM (fun i => decrypted_share_generate (encs (as_pvss_core x)) (sk i) i) ids
      = Ok ds :> outcome pvss_error _ /\
    lagrange_interpolation_g1 b' [seq dec d | d <- ds] [seq (origin d).+1%:R | d <- ds] t
      = Ok (p.[0] *: g1).
Proof.
move=> t n g1 ok [sp ecore] szi ui hids; have [tn nq fn] := ok.
exists [seq MkDec (p.[i.+1%:R] *: g1) i | i <- ids]; split.
- apply: mapM_ok_in => i /hids[li ski ki].
  have [dec _ _ _] := @C27_decryption E pvss_error (encs (as_pvss_core x)) (sk i) i.
  apply: dec => //; first by rewrite ecore size_enc_vec.
  by rewrite ecore nth_enc_vec // ki.
- rewrite -!map_comp.
  have := @C05_interpolation_g1 E b' p g1 [seq i.+1%:R | i <- ids] t sp.
  rewrite /eval_at -map_comp; apply.
  + by rewrite size_map szi.
  + apply: take_uniq; rewrite map_inj_in_uniq // => i j /hids[li _ _] /hids[lj _ _].
    exact: (@pnt_inj E n nq).
  + by move: fn; rewrite /fits /t; lia.
Qed.

(** ** C59: a network of honest nodes; false as stated *)

(** The setting: all nodes start alike; [dealt_share d] is the honest share of dealer [d]. *)
Definition honest_setting (E : engine) (D : eddsa) (config : Config E) (ps : btmap (Participant E))
  (ag0 : PVSSAggregator E) (dealt_share : nat -> PVSSShare E) (dealers : pred nat) : Prop :=
  [/\ config_ok config, aggregator_new config ps = Ok ag0, registered ag0
    & forall d, dealers d ->
        honest_share D ag0 (dealt_share d) /\ sh_participant_id (dealt_share d) = d].

(** The property as worded: whatever honest nodes deliver to each other, in whatever order and
    however often, every call succeeds. *)
Definition C59_full : Prop :=
  forall (E : engine) (D : eddsa) (b : build) (config : Config E) (ps : btmap (Participant E))
    (ag0 : PVSSAggregator E) (dealt_share : nat -> PVSSShare E) (dealers : pred nat)
    (es : seq (event E)),
  honest_setting D config ps ag0 dealt_share dealers -> all (from_dealers dealers) es ->
  (net_run D b dealt_share (fun _ => ag0) es).1 = nseq (size es) (Ok tt).

(** What holds: as long as no share has reached a node [2^64] times, directly or inside
    transcripts, every call succeeds.  Then each node records exactly these numbers, its
    vectors are the sum of the dealt ones counted so often, every peer accepts its transcript,
    and any [t + 1] recipients reconstruct the sum of the secrets counted so often.  Missing:
    the case where a number reaches [2^64] (C59_pingpong_refuted). *)
Theorem C59_network_partial (E : engine) (D : eddsa) (b : build) (config : Config E)
  (ps : btmap (Participant E)) (ag0 : PVSSAggregator E) (dealt_share : nat -> PVSSShare E)
  (dealers : pred nat) (es : seq (event E)) :
  let n := cfg_num_participants config in
  let t := cfg_degree config in
  let g1 := srs_g1 (cfg_srs config) in
  let g2 := srs_g2 (cfg_srs config) in
  honest_setting D config ps ag0 dealt_share dealers -> all (from_dealers dealers) es ->
  tally_fits es ->
  let: (rs, net) := net_run D b dealt_share (fun _ => ag0) es in
  rs = nseq (size es) (Ok tt) /\
  forall v, let x := ag_aggregated_tx (net v) in let cnt := tally es v in
  [/\ forall i, bt_get (as_contributions x) i
        = if cnt i is 0%num then None else Some (sh_signed_proof (dealt_share i), cnt i),
      forall k, nth 0 (encs (as_pvss_core x)) k
          = \sum_(i < n) (N.to_nat (cnt i))%:R *: nth 0 (encs (sh_pvss_core (dealt_share i))) k /\
        nth 0 (comms (as_pvss_core x)) k
          = \sum_(i < n) (N.to_nat (cnt i))%:R *: nth 0 (comms (sh_pvss_core (dealt_share i))) k,
      forall b' u (R : rng E) (s : rstate R), (aggregation_verify D b' (net u) s x).1 = Ok tt
    & forall (secret : nat -> Fr E) (ids : seq nat) (sk : nat -> Fr E) b',
        g2 != 0 ->
        (forall d, dealers d ->
           dp_gs (sp_decomp_proof (sh_signed_proof (dealt_share d))) = secret d *: g2) ->
        size ids = t.+1 -> uniq ids ->
        (forall i, i \in ids -> [/\ (i < n)%N, sk i != 0 & key_of ag0 i = sk i *: g1]) ->
        exists ds : seq (DecryptedShare E),
          mapM (fun i => decrypted_share_generate (encs (as_pvss_core x)) (sk i) i) ids
            = Ok ds :> outcome pvss_error _ /\
          lagrange_interpolation_g1 b' [seq dec d | d <- ds] [seq (origin d).+1%:R | d <- ds] t
            = Ok ((\sum_(i < n) (N.to_nat (cnt i))%:R * secret i) *: g1)].
Proof.
move=> n t g1 g2 [ok ea reg hon] fd fits'; have e0 : ag0 = new_aggregator config ps by case: ea.
rewrite {}e0 in reg hon *.
have := run_inv b ok reg hon fd fits'; case: (net_run _ _ _ _ es) => rs net [-> inv].
split=> // v x cnt; have iv := inv v; have [_ sx ct dl cores] := iv; split=> //.
- by move=> b' u R s; have [[ec ep] _ _ _ _] := inv u; exact: (node_accepted b' ok reg s ec ep iv).
- move=> secret ids sk b' g20 hsec szi ui hids.
  have [_ [p cp] _ _ _] := sx.
  have [tn nq fn] := ok.
  have ep0 : p.[0] = \sum_(i < n) (N.to_nat (cnt i))%:R * secret i.
    have cm := node_commits iv; have [sp ecore] := cp.
    have cm' := @core_of_commits E (new_aggregator config ps) p ok sp; rewrite -ecore in cm'.
    have ts : (t < size (comms (as_pvss_core x)))%N by rewrite ecore size_eval_vec ltnW.
    have tq : (t.+1 < modulus E)%N by apply: leq_ltn_trans nq; exact: ltnW.
    have := commits_to_fun ts tq cm cm'; rewrite /= -/g2 => e1.
    apply/eqP; rewrite -subr_eq0; apply/eqP.
    have : (p.[0] - \sum_(i < n) (N.to_nat (cnt i))%:R * secret i) *: g2 = 0.
      rewrite scalerBl -e1 scaler_suml -sumrB big1 // => i _.
      rewrite -/cnt; case ei: (cnt i) => [|q]; first by rewrite mul0r !scale0r subrr.
      by rewrite -ei /gs_of hsec ?scalerA ?subrr //; apply: dl; rewrite -/cnt ei.
    by move/eqP; rewrite scaler_eq0 (negbTE g20) orbF => /eqP.
  have := @carried_reconstruct E D b' (new_aggregator config ps) x p ids sk ok cp szi ui hids.
  by rewrite ep0.
Qed.
Print Assumptions C59_network_partial.

(** The tallies at least double the number of events needed for them. *)
Lemma tally_small (E : engine) (es : seq (event E)) v i :
  (2 * tally es v i <= 2 ^ N.of_nat (size es))%num.
Proof.
rewrite /tally; elim/last_ind: es v i => [|es e IH] v i; first by [].
rewrite foldl_rcons size_rcons Nnat.Nat2N.inj_succ N.pow_succ_r' /tally_step.
set cnt := foldl _ _ es in IH *; have h := IH v i.
case: ifP => _; first by lia.
case: e => [dst d c|dst src c]; last by have h' := IH src i; lia.
case: es @cnt IH h => [|e' es] cnt IH h; first by rewrite /cnt /=; case: ifP.
have : (2 <= 2 ^ N.of_nat (size (e' :: es)))%num.
  have := N.pow_le_mono_r 2 1 (N.of_nat (size (e' :: es))); rewrite N.pow_1_r; apply=> //.
  by rewrite /=; lia.
by case: ifP => _; lia.
Qed.

(** In particular nothing goes wrong in the first 64 events.  (With 65, one dealing and 64
    loops, something can: C58.) *)
Theorem C59_short_partial (E : engine) (D : eddsa) (b : build) (config : Config E)
  (ps : btmap (Participant E)) (ag0 : PVSSAggregator E) (dealt_share : nat -> PVSSShare E)
  (dealers : pred nat) (es : seq (event E)) :
  honest_setting D config ps ag0 dealt_share dealers -> all (from_dealers dealers) es ->
  (size es <= 64)%N ->
  (net_run D b dealt_share (fun _ => ag0) es).1 = nseq (size es) (Ok tt).
Proof.
move=> hs fd le; have ft : tally_fits es.
  move=> k v i; have h1 := @tally_small E (take k es) v i.
  have h2 : (2 ^ N.of_nat (size (take k es)) <= 2 ^ 64)%num.
    apply: N.pow_le_mono_r => //; have : (size (take k es) <= 64)%N; last by lia.
    by rewrite size_take; case: ifP => // /ltnW h; apply: leq_trans h le.
  by move: h1 h2; lia.
have := C59_network_partial b hs fd ft.
by case: (net_run _ _ _ _ es) => rs net [].
Qed.
Print Assumptions C59_short_partial.

(** Two nodes that keep exchanging what they have: a dealing to node 0, then [k] turns. *)
Definition turn (E : engine) (c : coins E) (j : nat) : event E :=
  if odd j then Gossip 0 1 c else Gossip 1 0 c.
Definition pingpong (E : engine) (d : nat) (c : coins E) (k : nat) : seq (event E) :=
  Deal 0 d c :: [seq turn c j | j <- iota 0 k].

(** The weights at nodes 0 and 1: Fibonacci numbers. *)
Fixpoint fibs (k : nat) : N * N :=
  if k is k'.+1 then
    let: (a, a') := fibs k' in if odd k' then ((a + a')%num, a') else (a, (a + a')%num)
  else (1%num, 0%num).

Lemma tally_pingpong (E : engine) d (c : coins E) k v i :
  tally (pingpong d c k) v i
  = if i == d then (if v == 0%N then (fibs k).1 else if v == 1%N then (fibs k).2 else 0%num) else 0%num.
Proof.
elim: k v i => [|k IH] v i.
  by rewrite /= /tally /= /tally_step /=; case: v => [|v] /=; rewrite ?if_same.
have -> : pingpong d c k.+1 = rcons (pingpong d c k) (turn c k).
  by rewrite /pingpong rcons_cons -addn1 iotaD map_cat /= add0n cats1.
rewrite /tally foldl_rcons -/(tally _) /tally_step /turn /=.
case: (odd k) => /=; rewrite !IH /=; case: (fibs k) => a a' /=; case: v => [|[|v]] //=;
  case: (i == d) => //=.
by rewrite N.add_comm.
Qed.

Lemma pingpong_dealers (E : engine) (dealers : pred nat) d (c : coins E) k :
  dealers d -> all (from_dealers dealers) (pingpong d c k).
Proof.
move=> hd; rewrite /pingpong /= hd /=; elim: (iota 0 k) => [|j l IH] //=; rewrite IH.
by rewrite /turn; case: (odd j).
Qed.

Lemma size_pingpong (E : engine) d (c : coins E) k : size (pingpong d c k) = k.+1.
Proof. by rewrite /= size_map size_iota. Qed.

Lemma tally_mono (E : engine) (es es' : seq (event E)) v i :
  (tally es v i <= tally (es ++ es') v i)%num.
Proof.
rewrite /tally foldl_cat; elim/last_ind: es' => [|es' e IH]; first exact: N.le_refl.
rewrite foldl_rcons; apply: (N.le_trans _ _ _ IH); rewrite /tally_step.
case: ifP => _; first by lia.
by case: e => *; lia.
Qed.

Lemma fibs92 : fibs 92 = (12200160415121876738, 7540113804746346429)%num.
Proof. by vm_compute. Qed.

(** After 93 events the weights are the 93rd and 92nd Fibonacci numbers; the 94th event panics
    when overflow is checked, and otherwise leaves a transcript that nobody accepts. *)
Theorem C59_pingpong_refuted (E : engine) (D : eddsa) (b : build) (config : Config E)
  (ps : btmap (Participant E)) (ag0 : PVSSAggregator E) (dealt_share : nat -> PVSSShare E)
  (dealers : pred nat) (d : nat) (c : coins E) :
  honest_setting D config ps ag0 dealt_share dealers -> dealers d ->
  let: (rs, net) := net_run D b dealt_share (fun _ => ag0) (pingpong d c 92) in
  let: (r, net') := net_step D b dealt_share net (turn c 92) in
  rs = nseq 93 (Ok tt) /\
  match b with
  | Debug => r = Panic ArithOverflow
  | Release => r = Ok tt /\
      (modulus E <> 2%N -> dp_gs (sp_decomp_proof (sh_signed_proof (dealt_share d))) != 0 ->
       forall b' (R : rng E) (s : rstate R),
         (aggregation_verify D b' ag0 s (ag_aggregated_tx (net' 1%N))).1 <> Ok tt)
  end.
Proof.
move=> [ok ea reg hon] hd; have e0 : ag0 = new_aggregator config ps by case: ea.
rewrite {}e0 in reg hon *.
have fd : all (from_dealers dealers) (pingpong d c 92).
  exact: pingpong_dealers.
have ft : tally_fits (pingpong d c 92).
  move=> k v i; apply: (N.le_lt_trans _ (tally (pingpong d c 92) v i)).
    by rewrite -[X in (_ <= tally X _ _)%num](cat_take_drop k); exact: tally_mono.
  by rewrite tally_pingpong fibs92; case: (i == d); case: (v == 0%N); case: (v == 1%N).
have sz : size (pingpong d c 92) = 93%N := size_pingpong d c 92.
have := run_inv b ok reg hon fd ft; rewrite sz.
case: (net_run D b dealt_share _ _) => rs net [-> inv].
have only i : i <> d -> tally (pingpong d c 92) 1%N i = 0%num /\ tally (pingpong d c 92) 0%N i = 0%num.
  by move/eqP/negbTE=> ne; rewrite !tally_pingpong ne.
have t1 : tally (pingpong d c 92) 1%N d = (fibs 92).2 by rewrite tally_pingpong eqxx.
have t0 : tally (pingpong d c 92) 0%N d = (fibs 92).1 by rewrite tally_pingpong eqxx.
have := overflow_step b ok reg hon c (inv 1%N) (inv 0%N) only.
rewrite t0 t1 fibs92 => /(_ erefl erefl) /(_ ltac:(by apply/N.leb_le; vm_compute)).
rewrite -[turn c 92]/(Gossip 1 0 c) /net_step [ev_dst _]/= [ev_msg _ _ _]/= [ev_coins _]/=.
clear -b; move: (with_coins _ c) => m.
case: (receive D b (net 1%N) m) => r ag2; case: b => [[-> _]|[-> h]]; split=> //.
Qed.
Print Assumptions C59_pingpong_refuted.

Lemma net_run_rcons (E : engine) (D : eddsa) (b : build) (dealt_share : nat -> PVSSShare E) net es e :
  net_run D b dealt_share net (rcons es e)
  = let: (rs, net') := net_run D b dealt_share net es in
    let: (r, net'') := net_step D b dealt_share net' e in (rcons rs r, net'').
Proof.
elim: es net => [|e' es IH] net /=; first by case: (net_step _ _ _ net e).
case: (net_step _ _ _ net e') => r net1; rewrite IH; case: (net_run _ _ _ net1 es) => rs net2.
by case: (net_step _ _ _ net2 e).
Qed.

Lemma C59_full_false (E : engine) (D : eddsa) (config : Config E)
  (ps : btmap (Participant E)) (ag0 : PVSSAggregator E) (dealt_share : nat -> PVSSShare E)
  (dealers : pred nat) (d : nat) (c : coins E) :
  honest_setting D config ps ag0 dealt_share dealers -> dealers d -> ~ C59_full.
Proof.
move=> hs hd full; have bad := C59_pingpong_refuted Debug c hs hd.
have fd : all (from_dealers dealers) (rcons (pingpong d c 92) (turn c 92)).
  by rewrite all_rcons pingpong_dealers.
have := full E D Debug config ps ag0 dealt_share dealers _ hs fd.
rewrite net_run_rcons size_rcons size_pingpong; move: bad; move: (pingpong d c 92) => es.
case: (net_run _ _ _ _ es) => rs net; case: (net_step _ _ _ net _) => r net' [-> ->] e.
have : rcons (nseq 93 (Ok tt)) (Panic ArithOverflow) = nseq 94 (Ok tt) :> seq (outcome pvss_error unit) := e.
by move/(congr1 (last (Ok tt))).
Qed.

Lemma toy_setting : honest_setting TD tconfig tparts tag
  (fun d => if d == 2%N then sh2 else sh1) (mem [:: 1; 2]%N).
Proof.
split=> //; first exact: tag_registered.
by move=> d; rewrite !inE => /orP[] /eqP->; split=> //; [exact: sh1_honest | exact: sh2_honest].
Qed.

Theorem C59_full_refuted : ~ C59_full.
Proof.
exact: (@C59_full_false TE TD tconfig tparts tag _ _ 2%N (existT _ (seq_rng TE) [::]) toy_setting isT).
Qed.
Print Assumptions C59_full_refuted.

(** Two dealers and three nodes: node 2 ends with weights 1 and 2, and the secret recovered by
    recipients 3 and 1 is [1 * 3 + 2 * 7]. *)
Definition tcoins : coins TE := existT _ (seq_rng TE) [:: f 1; f 9; f 3; f 5; f 2; f 6].
Definition tevents : seq (event TE) :=
  [:: Deal 0 2 tcoins; Deal 1 1 tcoins; Gossip 2 0 tcoins; Gossip 0 1 tcoins; Gossip 2 0 tcoins].
Example C59_example :
  honest_setting TD tconfig tparts tag (fun d => if d == 2%N then sh2 else sh1) (mem [:: 1; 2]%N) /\
  all (from_dealers (mem [:: 1; 2]%N)) tevents /\ tally_fits tevents /\
  [seq tally tevents 2%N i | i <- iota 0 4] = [:: 0; 1; 2; 0]%num.
Proof.
split; first exact: toy_setting.
split; first by []; split; last by [].
move=> k v i; apply: (N.le_lt_trans _ (tally tevents v i)).
  by rewrite -[X in (_ <= tally X _ _)%num](cat_take_drop k); exact: tally_mono.
have h := @tally_small TE tevents v i; move: h; rewrite -[size tevents]/5%N; move: (tally tevents v i) => w; rewrite -[(2 ^ N.of_nat 5)%num]/32%num; lia.
Qed.
Example C59_reconstructs :
  let x := ag_aggregated_tx ((net_run TD Debug (fun d => if d == 2%N then sh2 else sh1) (fun _ => tag) tevents).2 2%N) in
  let ds := mapM (fun i => @decrypted_share_generate TE pvss_error (encs (as_pvss_core x)) (f (i + 2)) i) [:: 3; 1]%N in
  if ds is Ok ds then
    if @lagrange_interpolation_g1 TE Debug [seq dec d | d <- ds] [seq (origin d).+1%:R | d <- ds] 1 is Ok P
    then P == (f 3 + f 7 + f 7) * f 3 else false
  else false.
Proof. by vm_compute. Qed.
