(** * PropsSplit: property C69, a dealer that tells two nodes different things *)

From Coq Require Import NArith Strings.Byte.
From mathcomp Require Import all_ssreflect all_algebra zify.
From Verif Require Import Prelude Errors BTreeMap Engine LibModel PolyModel SigmaModel PvssModel
  Spec PreludeProofs AlgebraProofs PolyProofs PvssProofs AggProofs HistProofs Instance
  PropsPoly PropsSigma PropsShare PropsAgg PropsHist PropsEnd PropsLimits PropsAttack PropsNet.

Set Implicit Arguments.
Unset Strict Implicit.
Unset Printing Implicit Defensive.

Import GRing.Theory.
Local Open Scope ring_scope.

(** ** C69: nodes can always agree again; false as stated *)

(** The transcript [x] records contributor [i] with secret point [g]. *)
Definition records (E : engine) (x : PVSSAggregatedShare E) (i : nat) (g : Com E) : Prop :=
  exists sp w, bt_get (as_contributions x) i = Some (sp, w) /\ dp_gs (sp_decomp_proof sp) = g.

(** The message brings contributor [i] with secret point [g]. *)
Definition brings (E : engine) (m : message E) (i : nat) (g : Com E) : Prop :=
  exists sp w, bt_get (msg_contributions m) i = Some (sp, w) /\ dp_gs (sp_decomp_proof sp) = g.

Section Split.
Variables (E : engine) (D : eddsa) (b : build).
Local Notation tx := (@ag_aggregated_tx E).
Implicit Types (ag : PVSSAggregator E) (c : call E).

Lemma records_fun (x : PVSSAggregatedShare E) i g g' : records x i g -> records x i g' -> g = g'.
Proof. by move=> [sp [w [e <-]]] [sp' [w' [e' <-]]]; move: e; rewrite e' => -[<-]. Qed.

(** One call keeps what is recorded, and accepts nothing that contradicts it. *)
Lemma receive_sticky ag c i sp w : tx_ok D ag ->
  bt_get (as_contributions (tx ag)) i = Some (sp, w) ->
  (exists w', bt_get (as_contributions (tx (receive D b ag c).2)) i = Some (sp, w')) /\
  (is_ok (receive D b ag c).1 -> forall g, brings (call_msg c) i g ->
     g = dp_gs (sp_decomp_proof sp)).
Proof.
move=> [[_ en] _ _ ids] gi; have li := ids _ _ gi; rewrite -en in li.
have [[/negbTE nok ->]|[z [-> _ mg]]] := receive_cases D b ag c.
  by rewrite nok; split=> //; exists w.
have /agg_okE[_ _ _ /(_ i li) ms _] := mg; move: ms; rewrite gi msg_tx_contributions /= => ms.
split.
  case: (bt_get (msg_contributions _) i) ms => [[sp' w']|]; last by case=> <-; exists w.
  by case: ifP => // _ /obind_ok[w'' _ [<-]]; exists w''.
move=> _ g [sp' [w' [e <-]]]; move: ms; rewrite e.
by case: ifP => // /negbFE/eqP.
Qed.

Lemma run_sticky ag h i sp w : tx_ok D ag ->
  bt_get (as_contributions (tx ag)) i = Some (sp, w) ->
  exists w', bt_get (as_contributions (tx (run D b ag h))) i = Some (sp, w').
Proof.
elim: h ag w => [|c h IH] ag w txok gi /=; first by exists w.
have [[w' gi'] _] := receive_sticky c txok gi.
exact: IH (receive_tx_ok b c txok) gi'.
Qed.

Lemma accepted_sticky ag h i sp w : tx_ok D ag ->
  bt_get (as_contributions (tx ag)) i = Some (sp, w) ->
  forall m g, List.In m (accepted D b ag h) -> brings m i g -> g = dp_gs (sp_decomp_proof sp).
Proof.
elim: h ag w => [|c h IH] ag w txok gi //= m g.
have [[w' gi'] ho] := receive_sticky c txok gi; have txok' := receive_tx_ok b c txok.
case er: (receive D b ag c) gi' ho txok' => [r ag'] /= gi' ho txok'.
have rest := IH _ _ txok' gi' m g.
by case: (is_ok r) ho => //= ho [<-|/rest//]; exact: ho.
Qed.

(** What a call that contradicts the record answers. *)
Lemma contradiction_answer ag c i sp w g : tx_ok D ag ->
  bt_get (as_contributions (tx ag)) i = Some (sp, w) ->
  brings (call_msg c) i g -> g <> dp_gs (sp_decomp_proof sp) ->
  ~~ is_ok (receive D b ag c).1 /\ (receive D b ag c).2 = ag.
Proof.
move=> txok gi br ne; have [_ ho] := receive_sticky c txok gi.
have nok : ~~ is_ok (receive D b ag c).1 by apply/negP => /ho /(_ _ br).
by split=> //; have [[_ ->]|[z [er _ _]]] := receive_cases D b ag c; rewrite // er in nok.
Qed.

End Split.

(** What a node has recorded of a contributor is recorded for good: after any calls whatsoever
    the same signed proof is there, and all messages accepted on the way that bring this
    contributor bring the same secret point. *)
Theorem C69_recorded_for_good (E : engine) (D : eddsa) (b : build) (config : Config E)
  (ps : btmap (Participant E)) (ag0 : PVSSAggregator E) (h h' : seq (call E)) (i : nat)
  (sp : SignedProof E) (w : N) :
  aggregator_new config ps = Ok ag0 ->
  bt_get (as_contributions (ag_aggregated_tx (run D b ag0 h))) i = Some (sp, w) ->
  (exists w', bt_get (as_contributions (ag_aggregated_tx (run D b ag0 (h ++ h')))) i
              = Some (sp, w')) /\
  (forall m g, List.In m (accepted D b (run D b ag0 h) h') -> brings m i g ->
     g = dp_gs (sp_decomp_proof sp)).
Proof.
move=> [<-] gi; have txok := run_tx_ok b h (new_tx_ok D config ps).
by rewrite run_cat; split; [exact: run_sticky gi | exact: accepted_sticky gi].
Qed.
Print Assumptions C69_recorded_for_good.

(** One dealer splits the nodes for good.  It deals two shares with different secrets, each of
    them perfectly honest, one to node 1 and one to node 2.  Whatever the two nodes receive
    afterwards, each refuses the transcript of the other, and the other share. *)
Theorem C69_split_refuted (E : engine) (D : eddsa) (b b' : build) (config : Config E)
  (ps : btmap (Participant E)) (ag0 : PVSSAggregator E) (sh1 sh2 : PVSSShare E)
  (c1 c2 : coins E) :
  let gs sh := dp_gs (sp_decomp_proof (sh_signed_proof sh)) in
  config_ok config -> aggregator_new config ps = Ok ag0 -> registered ag0 ->
  honest_share D ag0 sh1 -> honest_share D ag0 sh2 ->
  sh_participant_id sh1 = sh_participant_id sh2 -> gs sh1 <> gs sh2 ->
  let r1 := receive D b ag0 (with_coins (MsgShare sh1) c1) in
  let r2 := receive D b' ag0 (with_coins (MsgShare sh2) c2) in
  [/\ r1.1 = Ok tt, r2.1 = Ok tt
    & forall h1 h2 (c : coins E),
      let ag1 := run D b r1.2 h1 in
      let ag2 := run D b' r2.2 h2 in
      forall m, m = MsgTranscript (ag_aggregated_tx ag2) \/ m = MsgShare sh2 ->
        ~~ is_ok (receive D b ag1 (with_coins m c)).1 /\
        (receive D b ag1 (with_coins m c)).2 = ag1].
Proof.
move=> gs ok [<-] reg h1 h2 eid ne.
have one bb sh c : honest_share D (new_aggregator config ps) sh ->
    exists z w, [/\ receive D bb (new_aggregator config ps) (with_coins (MsgShare sh) c)
                    = (Ok tt, set_tx (new_aggregator config ps) z),
                  tx_ok D (set_tx (new_aggregator config ps) z)
                & bt_get (as_contributions z) (sh_participant_id sh) = Some (sh_signed_proof sh, w)].
  move=> hs; have dl := @honest_dealt E D (new_aggregator config ps) sh ok hs.
  have sv : (share_verify D bb (new_aggregator config ps) (projT2 c) sh).1 = Ok tt.
    exact: dealt_accepted.
  have txok := new_tx_ok D config ps.
  have [//|z [er mg]] := receive_share_ok txok sv.
  exists z, 1%num; split=> //.
    by have := receive_tx_ok bb (with_coins (MsgShare sh) c) txok; rewrite /with_coins er.
  have [_ lid _] := share_verify_facts sv.
  by have /agg_okE[_ _ _ /(_ _ lid) + _] := mg; rewrite /= bt_get1 eqxx => -[].
have [z1 [w1 [e1 t1 g1]]] := one b sh1 c1 h1.
have [z2 [w2 [e2 t2 g2]]] := one b' sh2 c2 h2.
move=> r1 r2; rewrite /r1 /r2 e1 e2 /=; split=> // k1 k2 c m hm.
set ag1 := run D b _ k1.
have [w1' s1] := run_sticky b k1 t1 g1; have [w2' s2] := run_sticky b' k2 t2 g2.
apply: (@contradiction_answer E D b ag1 (with_coins m c) _ _ _ (gs sh2)
          (run_tx_ok b k1 t1) s1) => [|/esym//].
case: hm => ->; exists (sh_signed_proof sh2).
  by exists w2'; rewrite eid; split.
by exists 1%num; rewrite /= bt_get1 eid eqxx.
Qed.
Print Assumptions C69_split_refuted.

(** The property as worded: whatever happened before, if every message so far was accepted
    and every share came out of [share], one node accepts the transcript of another. *)
Definition C69_full : Prop :=
  forall (E : engine) (D : eddsa) (b : build) (config : Config E) (ps : btmap (Participant E))
    (ag0 : PVSSAggregator E) (h1 h2 : seq (call E)) (c : coins E),
  config_ok config -> aggregator_new config ps = Ok ag0 -> registered ag0 ->
  shares_only h1 -> shares_only h2 ->
  (forall sh, List.In sh (shares_of (map (@call_msg E) (h1 ++ h2))) -> honest_share D ag0 sh) ->
  (N.of_nat (size h1 + size h2) < 2 ^ 64)%num ->
  is_ok (receive D b (run D b ag0 h1)
           (with_coins (MsgTranscript (ag_aggregated_tx (run D b ag0 h2))) c)).1.

(** The other share of participant 2. *)
Definition sh2' : PVSSShare TE := tshare 2 [:: f 6; f 5; f 4].
Lemma sh2'_honest : honest_share TD tag sh2'.
Proof.
exists Debug, (seq_rng TE), (tnode 2), [:: f 6; f 5; f 4], (tpart 2).
by split=> //; apply/working_on; exact: toy_working.
Qed.
Lemma sh2'_differs : dp_gs (sp_decomp_proof (sh_signed_proof sh2))
  <> dp_gs (sp_decomp_proof (sh_signed_proof sh2')).
Proof. by apply/eqP; vm_compute. Qed.

Theorem C69_full_refuted : ~ C69_full.
Proof.
move=> full; have ok : config_ok (ag_config tag) by [].
have ids : sh_participant_id sh2 = sh_participant_id sh2' by vm_compute.
have [_ _ sp] := @C69_split_refuted TE TD Debug Debug tconfig tparts tag sh2 sh2' tcoins tcoins
  ok erefl tag_registered sh2_honest sh2'_honest ids sh2'_differs.
have [/negP nok _] := sp [::] [::] tcoins _ (or_introl erefl); apply: nok.
have := full TE TD Debug tconfig tparts tag [:: with_coins (MsgShare sh2) tcoins]
  [:: with_coins (MsgShare sh2') tcoins] tcoins ok erefl tag_registered isT isT.
apply=> // sh [<-|[<-|[]]]; [exact: sh2_honest | exact: sh2'_honest].
Qed.
Print Assumptions C69_full_refuted.

(** What holds, exactly: among nodes that received honest shares, the transcript of the second
    is accepted by the first if and only if no dealer is recorded by both with different
    secrets. *)
Theorem C69_exact_partial (E : engine) (D : eddsa) (b : build) (config : Config E)
  (ps : btmap (Participant E)) (ag0 : PVSSAggregator E) (h1 h2 : seq (call E)) (c : coins E) :
  config_ok config -> aggregator_new config ps = Ok ag0 -> registered ag0 ->
  shares_only h1 -> shares_only h2 ->
  (forall sh, List.In sh (shares_of (map (@call_msg E) (h1 ++ h2))) -> honest_share D ag0 sh) ->
  (N.of_nat (size h1 + size h2) < 2 ^ 64)%num ->
  let x1 := ag_aggregated_tx (run D b ag0 h1) in
  let x2 := ag_aggregated_tx (run D b ag0 h2) in
  let r := receive D b (run D b ag0 h1) (with_coins (MsgTranscript x2) c) in
  (is_ok r.1 <-> forall i g g', records x1 i g -> records x2 i g' -> g = g') /\
  (~~ is_ok r.1 -> r = (Panic UnwrapErr, run D b ag0 h1)).
Proof.
move=> ok ea reg so1 so2 hon small x1 x2 r.
have sizes : (N.of_nat (size h1) < 2 ^ 64)%num /\ (N.of_nat (size h2) < 2 ^ 64)%num by lia.
have [sz1 sz2] := sizes.
have hx2 : honest_tx D ag0 x2.
  apply: C24_honest_history ea so2 sz2 _ => sh i; apply: hon.
  by rewrite map_cat /shares_of pmap_cat; apply: List.in_or_app; right.
have e0 : ag0 = new_aggregator config ps by case: ea.
have txok h : tx_ok D (run D b ag0 h) by rewrite e0; exact: run_tx_ok (new_tx_ok _ _ _).
have st h := run_static D b ag0 h.
have ec0 : ag_config ag0 = config by rewrite e0.
have av : (aggregation_verify D b (run D b ag0 h1) (projT2 c) x2).1 = Ok tt.
  apply: (C24_honest_transcript_accepted b (projT2 c) _ reg hx2); rewrite ?ec0 //.
    by case: (st h1) => -> _; rewrite ec0.
  by case: (st h1).
have wbound h : shares_only h -> (N.of_nat (size h) < 2 ^ 64)%num -> forall i sp w,
    bt_get (as_contributions (ag_aggregated_tx (run D b ag0 h))) i = Some (sp, w) ->
    (w <= N.of_nat (size h))%num.
  move=> so sz i sp w gi; have [cnt _ _] := C22_weights_count D b ea so sz.
  have [n0 n1] := cnt i; move: n0 n1 gi; set from := filter _ _.
  have : (size from <= size h)%N.
    rewrite size_filter; apply: leq_trans (count_size _ _) _.
    by apply: leq_trans (accepted_size D b ag0 h); rewrite size_pmap count_size.
  case ef: from => [|a l] le n0 n1; first by rewrite n0.
  by rewrite (n1 a l erefl) => -[_ <-]; rewrite /= in le; lia.
have sizes12 : [/\ (0 < size (comms (as_pvss_core x1)))%N,
     size (comms (as_pvss_core x1)) = size (comms (as_pvss_core x2)),
     size (encs (as_pvss_core x1)) = size (encs (as_pvss_core x2))
   & size (encs (as_pvss_core x1)) = size (comms (as_pvss_core x1))].
  have [_ [s1 s2] _ _] := txok h1; have [_ [s3 s4] _ _] := txok h2.
  rewrite !(proj1 (st _)) ec0 in s1 s2 s3 s4; rewrite /x1 /x2 s1 s2 s3 s4; split=> //.
  by have [tn _ _] := ok; exact: leq_trans tn.
have same : as_degree x1 = as_degree x2 /\ as_num_participants x1 = as_num_participants x2.
  have [[d1 n1] _ _ _] := txok h1; have [[d2 n2] _ _ _] := txok h2.
  by rewrite !(proj1 (st _)) in d1 n1 d2 n2; rewrite /x1 /x2 d1 n1 d2 n2.
have nov i : ~ overflow_at x1 x2 i.
  move=> [a [w [a' [w' [g1 g2 _]]]]].
  by have := wbound h1 so1 sz1 _ _ _ g1; have := wbound h2 so2 sz2 _ _ _ g2; lia.
have [_ derr oerr pan oks] := C18_transcript_errors b x1 x2.
have er := receive_tx_eq av; rewrite -/x1 -[receive _ _ _ _]/r in er.
have eok : is_ok r.1 = is_ok (agg_aggregate b x1 x2) by rewrite er; case: (agg_aggregate _ _ _).
split.
  rewrite eok; split.
    move/oks => [_ _ nb] i g g' [sp [w [e1 <-]]] [sp' [w' [e2 <-]]].
    apply/eqP/negPn/negP => /eqP ne; apply: (nb i); last by left; exists sp, w, sp', w'.
    have [[_ en] _ _ ids] := txok h1; rewrite /x1 en; exact: ids e1.
  move=> agree; apply/oks; split=> // i li [[a [w [a' [w' [e1 e2 ne]]]]]|[_ /nov//]].
  by apply: ne; apply: (agree i); [exists a, w | exists a', w'].
rewrite eok er; case em: (agg_aggregate b x1 x2) => [z|e|p] // _.
have : is_panic (agg_aggregate b x1 x2) by rewrite em.
by move/pan => [_ [[i [_ _ /nov//]]|[_ []]]].
Qed.
Print Assumptions C69_exact_partial.

(** Dealer 2 gives [sh2] to one node and [sh2'] to the other; sharing dealer 1 does not help. *)
Example C69_example :
  let node sh := run TD Debug tag [:: tcall (MsgShare sh); tcall (MsgShare sh1)] in
  [/\ size (accepted TD Debug tag [:: tcall (MsgShare sh2); tcall (MsgShare sh1)]) = 2%N,
      size (accepted TD Debug tag [:: tcall (MsgShare sh2'); tcall (MsgShare sh1)]) = 2%N,
      is_panic (receive TD Debug (node sh2) (tcall (MsgTranscript (ag_aggregated_tx (node sh2'))))).1,
      is_err (receive TD Debug (node sh2) (tcall (MsgShare sh2'))).1
    & is_ok (receive TD Debug (node sh2) (tcall (MsgTranscript (ag_aggregated_tx (node sh2))))).1].
Proof. by split; vm_compute. Qed.
