(** * PropsEnd: properties C24 to C26 and C28: honest runs end to end, and how bad input
    is reported *)

From Coq Require Import NArith Strings.Byte Permutation.
From mathcomp Require Import all_ssreflect all_algebra zify.
From Verif Require Import Prelude Errors BTreeMap Engine LibModel PolyModel SigmaModel PvssModel
  Spec PreludeProofs AlgebraProofs PolyProofs PvssProofs AggProofs HistProofs Instance PropsPoly
  PropsShare PropsAgg PropsHist.

Set Implicit Arguments.
Unset Strict Implicit.
Unset Printing Implicit Defensive.

Import GRing.Theory.
Local Open Scope ring_scope.

(** ** C24: honest transcripts are accepted by every peer *)

(** A share some node with the configuration and participants of [ag], registered with a
    key that works on what it signs, dealt with some coins. *)
Definition honest_share (E : engine) (D : eddsa) (ag : PVSSAggregator E) (sh : PVSSShare E) : Prop :=
  exists (b : build) (R : rng E) (node : Node E) (s : rstate R) (pa : Participant E),
    [/\ ag_config (nd_aggregator node) = ag_config ag,
        ag_participants (nd_aggregator node) = ag_participants ag,
        bt_get (ag_participants ag) (pa_id (de_participant (nd_dealer node))) = Some pa,
        works_on D (de_private_key_ed (nd_dealer node)) (pa_public_key_ed pa) (dealt_digest sh)
      & (share D b node s).1 = Ok sh].

Section Honest.
Variables (E : engine) (D : eddsa).
Implicit Types (ag : PVSSAggregator E) (x y z : PVSSAggregatedShare E) (sh : PVSSShare E).

Lemma core_of_ext ag ag' p : ag_config ag = ag_config ag' ->
  ag_participants ag = ag_participants ag' -> core_of ag p = core_of ag' p.
Proof.
move=> ec ep; rewrite /core_of ec /enc_vec; congr MkCore.
by apply: eq_map => i; rewrite /key_of ep.
Qed.

Lemma honest_dealt ag sh : config_ok (ag_config ag) -> honest_share D ag sh -> dealt D ag sh.
Proof.
move=> ok [b [R [node [s [pa [ec ep gid wk sok]]]]]].
have ft : fits (cfg_degree (ag_config (nd_aggregator node))).+1.
  by rewrite ec; exact: config_fits_t.
rewrite -ep in gid; have [_] := share_dealt ft gid wk sok.
case=> p [pa' [[sp ecore] lid gid' egs sv]].
by exists p, pa'; rewrite -ec -ep (core_of_ext p (esym ec) (esym ep)).
Qed.

Lemma dealt_ext ag ag' sh : ag_config ag = ag_config ag' ->
  ag_participants ag = ag_participants ag' -> dealt D ag sh -> dealt D ag' sh.
Proof.
move=> ec ep [p [pa [[sp ecore] lid gid egs sv]]]; exists p, pa.
by rewrite -ec -ep -(core_of_ext p ec ep).
Qed.

(** The transcript carries one polynomial. *)
Definition carries ag x (p : {poly Fr E}) : Prop :=
  (size p <= (cfg_degree (ag_config ag)).+1)%N /\ as_pvss_core x = core_of ag p.

Lemma core_of_add ag p p' : core_add (core_of ag p) (core_of ag p') = core_of ag (p + p').
Proof.
rewrite /core_add /=; congr MkCore; apply: (@eq_from_nth _ 0);
  rewrite ?size_vadd ?size_enc_vec ?size_eval_vec // => i li.
  by rewrite nth_vadd ?size_enc_vec // !nth_enc_vec // hornerD scalerDl.
by rewrite nth_vadd ?size_eval_vec // !nth_eval_vec // hornerD scalerDl.
Qed.

Lemma carries_add b ag x y z p p' : carries ag x p -> carries ag y p' ->
  agg_aggregate b x y = Ok z -> carries ag z (p + p').
Proof.
move=> [sp cx] [sp' cy] /agg_okE[_ _ ca _ _].
split; first by apply: leq_trans (size_add _ _) _; rewrite geq_max sp.
by have [n [_ _ _ ->]] := core_aggregate_inv ca; rewrite cx cy core_of_add.
Qed.

(** Everything an honest transcript satisfies. *)
Definition sound_tx ag x : Prop :=
  [/\ as_degree x = cfg_degree (ag_config ag) /\
      as_num_participants x = cfg_num_participants (ag_config ag),
      exists p, carries ag x p, contributions_valid D ag (as_contributions x),
      forall i v, bt_get (as_contributions x) i = Some v ->
        (i < cfg_num_participants (ag_config ag))%N
    & commits_to (cfg_degree (ag_config ag)) (comms (as_pvss_core x))
        (weighted_gs (as_contributions x))].

Lemma sound_empty ag : config_ok (ag_config ag) ->
  sound_tx ag (agg_empty E (cfg_degree (ag_config ag)) (cfg_num_participants (ag_config ag))).
Proof.
move=> [tn nq fn]; split=> //.
  by exists 0; split; rewrite ?size_poly0 //= core_of0.
exact: (@new_balanced E (ag_config ag) (ag_participants ag)) (ltnW tn) nq.
Qed.

Lemma sound_merge b ag x y z : config_ok (ag_config ag) -> sound_tx ag x -> sound_tx ag y ->
  b = Debug \/ (forall i, slot_no_wrap (bt_get (as_contributions x) i) (bt_get (as_contributions y) i)) ->
  agg_aggregate b x y = Ok z -> sound_tx ag z.
Proof.
move=> [tn nq fn] [[ed en] [p cp] cv ids bal] [[ed' en'] [p' cp'] cv' ids' bal'] nw ok.
have /agg_okE[_ [ed2 en2] ca ms out] := ok.
have [n [n0 l1 l2 ez]] := core_aggregate_inv ca.
have eN : n = cfg_num_participants (ag_config ag).
  by case: l1 => [<- _]; case: cp => _ ->; rewrite size_enc_vec.
split.
- by rewrite ed2 en2.
- by exists (p + p'); apply: carries_add ok.
- move=> i sp w gz.
  case: (ltnP i (as_num_participants x)) => li; last by rewrite out in gz.
  by have [w' [/cv|/cv']] := merge_slot_src (ms i li) gz.
- move=> i v gz; case: (ltnP i (cfg_num_participants (ag_config ag))) => // li.
  by rewrite out ?en in gz.
- rewrite (agg_weighted_gs ids ids' en nw ok) ez.
  case: l1 l2 => [_ k1] [_ k2]; apply: commits_to_add => //.
  + by rewrite k1 eN ltnW.
  + by rewrite k1 k2.
  + by apply: leq_ltn_trans nq; exact: ltnW.
Qed.

Lemma dealt_sound ag sh : config_ok (ag_config ag) -> dealt D ag sh ->
  sound_tx ag (MkAgg (cfg_num_participants (ag_config ag)) (cfg_degree (ag_config ag))
                 (sh_pvss_core sh)
                 (bt_insert bt_new (sh_participant_id sh) (sh_signed_proof sh, 1%num))).
Proof.
move=> ok [p [pa [[sp ecore] lid gid egs sv]]]; split=> //=.
- by exists p; split.
- by move=> i spf w; rewrite bt_get1; case: eqP => // <- [<- _]; exists pa.
- by move=> i v; rewrite bt_get1; case: eqP => // <-.
- by rewrite weighted_gs1 /gs_of egs ecore; exact: core_of_commits.
Qed.

Lemma sound_accepted b R ag (s : rstate R) x : config_ok (ag_config ag) -> registered ag ->
  sound_tx ag x -> (aggregation_verify D b ag s x).1 = Ok tt.
Proof.
move=> ok reg [_ [p [sp ecore]] cv _ bal]; have [tn nq fn] := ok.
apply: (core_of_accepted _ _ ok reg sp ecore cv).
have cm := core_of_commits ok sp; rewrite -ecore in cm.
apply: commits_to_fun bal cm.
- by rewrite ecore size_eval_vec ltnW.
- by apply: leq_ltn_trans nq; exact: ltnW.
Qed.

End Honest.

(** Transcripts built from honest shares in any way: in any order and any tree of merges. *)
Inductive honest_tx (E : engine) (D : eddsa) (ag : PVSSAggregator E) : PVSSAggregatedShare E -> Prop :=
| honest_empty : honest_tx D ag
    (agg_empty E (cfg_degree (ag_config ag)) (cfg_num_participants (ag_config ag)))
| honest_add b x sh z : honest_tx D ag x -> honest_share D ag sh ->
    agg_aggregate_pvss_share b x sh = Ok z ->
    (** the weight of the dealer does not wrap (checked in debug builds) *)
    b = Debug \/ (forall sp w, bt_get (as_contributions x) (sh_participant_id sh) = Some (sp, w) ->
                               (w + 1 < 2 ^ 64)%num) ->
    honest_tx D ag z
| honest_merge b x y z : honest_tx D ag x -> honest_tx D ag y -> agg_aggregate b x y = Ok z ->
    b = Debug \/ (forall i sp w sp' w', bt_get (as_contributions x) i = Some (sp, w) ->
                    bt_get (as_contributions y) i = Some (sp', w') -> (w + w' < 2 ^ 64)%num) ->
    honest_tx D ag z.

Lemma honest_sound (E : engine) (D : eddsa) (ag : PVSSAggregator E) x :
  config_ok (ag_config ag) -> honest_tx D ag x -> sound_tx D ag x.
Proof.
move=> ok; elim=> [|b x' sh z hx IH hs mg nw|b x' y z hx IHx hy IHy mg nw].
- exact: sound_empty.
- have sd := dealt_sound ok (honest_dealt ok hs).
  have [[ed en] _ _ _ _] := IH.
  rewrite /agg_aggregate_pvss_share ed en in mg.
  apply: sound_merge IH sd _ mg => //; case: nw => [->|nw]; [by left | right].
  move=> i sp w sp' w' g1; rewrite /= bt_get1; case: eqP => // ei [_ <-].
  by apply: nw; rewrite ei; exact: g1.
- exact: sound_merge IHx IHy nw mg.
Qed.

Theorem C24_honest_transcript_accepted (E : engine) (D : eddsa) (ag peer : PVSSAggregator E)
  (x : PVSSAggregatedShare E) (b : build) (R : rng E) (s : rstate R) :
  config_ok (ag_config ag) -> registered ag -> honest_tx D ag x ->
  ag_config peer = ag_config ag -> ag_participants peer = ag_participants ag ->
  (aggregation_verify D b peer s x).1 = Ok tt.
Proof.
move=> ok reg hx ec ep.
have reg' : registered peer by move=> i; rewrite ec ep; exact: reg.
have ok' : config_ok (ag_config peer) by rewrite ec.
apply: sound_accepted => //.
have [[ed en] [p [sp ecore]] cv ids bal] := honest_sound ok hx.
split; rewrite ?ec //.
- by exists p; split; rewrite ?ec // ecore; exact: core_of_ext.
- by move=> i spf w /cv; rewrite ec ep.
Qed.
Print Assumptions C24_honest_transcript_accepted.

(** Every history of receive_share calls on honest shares builds such a transcript. *)
Theorem C24_honest_history (E : engine) (D : eddsa) (b : build) (config : Config E)
  (ps : btmap (Participant E)) (ag0 : PVSSAggregator E) (h : seq (call E)) :
  aggregator_new config ps = Ok ag0 ->
  shares_only h -> (N.of_nat (size h) < 2 ^ 64)%num ->
  (forall sh, List.In sh (shares_of (map (@call_msg E) h)) -> honest_share D ag0 sh) ->
  honest_tx D ag0 (ag_aggregated_tx (run D b ag0 h)).
Proof.
case=> <-; rewrite -[MkAggregator _ _ _]/(new_aggregator config ps).
set ag0' := new_aggregator config ps.
elim/last_ind: h => [|h c IH]; first by move=> *; exact: honest_empty.
rewrite /shares_only all_rcons => /andP[]; case em: (call_msg c) => [sh|//] _ so.
rewrite size_rcons => small hon.
have hs : honest_share D ag0' sh.
  by apply: hon; rewrite map_rcons em /shares_of -cats1 pmap_cat /= cats1; apply/In_rcons; right.
have {}IH : honest_tx D ag0' (ag_aggregated_tx (run D b ag0' h)).
  apply: IH => //; first by lia.
  by move=> sh' i'; apply: hon; rewrite map_rcons em /shares_of -cats1 pmap_cat /= cats1; apply/In_rcons; left.
rewrite -cats1 run_cat /=; set ag := run D b ag0' h in IH *.
case: (receive_cases D b ag c) => [[_ ->//]|[z [-> v mg]]] /=.
have [ec ep] := run_static D b ag0' h.
rewrite em in v mg; apply: (honest_add (b := b) IH hs); first exact: mg.
right=> sp w g.
have lg := @run_logs E D b ag0' [::] h so _ (new_tx_ok D config ps) (new_logs config ps).
have {}lg := lg ltac:(rewrite /=; lia).
have sz : (N.of_nat (size (shares_of (accepted D b ag0' h))) + 1 < 2 ^ 64)%num.
  have : (size (shares_of (accepted D b ag0' h)) <= size h)%N.
    by apply: leq_trans (accepted_size D b ag0' h); rewrite size_pmap count_size.
  lia.
have := logs_no_wrap (sh := sh) sz lg; rewrite -/ag => /(_ _ _ _ _ _ g).
by rewrite /= bt_get1 eqxx; exact.
Qed.
Print Assumptions C24_honest_history.

(** The shares [sh1] and [sh2] are honest. *)
Lemma sh2_honest : honest_share TD tag sh2.
Proof.
exists Debug, (seq_rng TE), (tnode 2), [:: f 7; f 5; f 4], (tpart 2).
by split=> //; apply/working_on; exact: toy_working.
Qed.
Lemma sh1_honest : honest_share TD tag sh1.
Proof.
exists Debug, (seq_rng TE), (tnode 1), [:: f 3; f 8; f 2], (tpart 1).
by split=> //; apply/working_on; exact: toy_working.
Qed.
Definition thist4 : seq (call TE) :=
  [:: tcall (MsgShare sh2); tcall (MsgShare sh1); tcall (MsgShare sh2)].
Example C24_example :
  size (accepted TD Debug tag thist4) = 3%N /\
  honest_tx TD tag (ag_aggregated_tx (run TD Debug tag thist4)).
Proof.
split; first by vm_compute.
apply: (@C24_honest_history TE TD Debug tconfig tparts tag thist4) => //.
by move=> sh /= [<-|[<-|[<-|//]]]; first [exact: sh1_honest | exact: sh2_honest].
Qed.

(** ** C25: a transcript of accepted shares may be rejected by peers; false as stated *)

(** The full statement. *)
Definition C25_full : Prop :=
  forall (E : engine) (D : eddsa) (b : build) (config : Config E) (ps : btmap (Participant E))
    (ag0 : PVSSAggregator E) (h : seq (call E)) (R : rng E) (s : rstate R),
  config_ok config -> registered ag0 -> aggregator_new config ps = Ok ag0 ->
  shares_only h -> (N.of_nat (size h) < 2 ^ 64)%num ->
  (aggregation_verify D b ag0 s (ag_aggregated_tx (run D b ag0 h))).1 = Ok tt.

(** The honest share [sh2] with another recipient's slot overwritten is accepted, and the
    transcript containing it is rejected by a peer. *)
Theorem C25_accepted_shares_refuted : ~ C25_full.
Proof.
move=> full.
have tc : config_ok tconfig by [].
have := full TE TD Debug tconfig tparts tag [:: tcall (MsgShare (tamper_enc sh2 0 (f 1 : Enc TE)))]
  (seq_rng TE) [:: f 1; f 9; f 3] tc tag_registered erefl isT erefl.
by vm_compute.
Qed.
Print Assumptions C25_accepted_shares_refuted.

(** What holds: it suffices that the accepted shares really have degree [t] and that their
    slots match (which share_verify does not establish). *)
Theorem C25_good_shares_partial (E : engine) (D : eddsa) (b b' : build) (config : Config E)
  (ps : btmap (Participant E)) (ag0 : PVSSAggregator E) (h : seq (call E)) (R : rng E)
  (s : rstate R) :
  let n := cfg_num_participants config in
  config_ok config -> registered ag0 -> aggregator_new config ps = Ok ag0 ->
  shares_only h -> (N.of_nat (size h) < 2 ^ 64)%num ->
  (forall sh, List.In sh (shares_of (accepted D b ag0 h)) ->
     low_degree (cfg_degree config) (comms (sh_pvss_core sh)) /\
     slots_product_ok ag0 (sh_pvss_core sh)) ->
  (aggregation_verify D b' ag0 s (ag_aggregated_tx (run D b ag0 h))).1 = Ok tt.
Proof.
move=> n ok reg; case=> e0; rewrite -{}e0 -[MkAggregator _ _ _]/(new_aggregator config ps) in reg *.
move=> so small good; set ag0' := new_aggregator config ps in reg good *.
have [tn nq fn] := ok; have small0 : (N.of_nat (@size (PVSSShare E) [::]) + N.of_nat (size h) < 2 ^ 64)%num.
  by rewrite /=; lia.
have oka := new_tx_ok D config ps; have lga := new_logs config ps.
have [_ _ lc] := @run_logs E D b _ _ h so small0 oka lga; rewrite cat0s in lc.
have nw := @logs_no_wrap_run E D b _ _ h so small0 oka lga.
have bal := @run_balanced E D b ag0' h (ltnW tn) nq fn reg (or_intror so) (or_intror nw) oka
              (new_balanced ps (ltnW tn) nq).
have [ec ep] := run_static D b ag0' h.
have [_ sz cv _] := run_tx_ok b h oka; have [se sc] := sz.
rewrite /tx_balanced in bal; rewrite -/ag0' in lc se sc sz cv bal; rewrite ec /= in se sc sz bal.
set x := ag_aggregated_tx _ in lc cv se sc sz bal *; set acc := shares_of _ in lc good.
apply/aggregation_verifyE => //; split=> //.
- have [p sp ep'] : exists2 p : {poly Fr E}, (size p <= (cfg_degree config).+1)%N
      & forall k, (k < n)%N ->
          \sum_(sh <- acc) nth 0 (comms (sh_pvss_core sh)) k = p.[k.+1%:R] *: pt_gen (G2 E).
    have szs sh : List.In sh acc -> size (comms (sh_pvss_core sh)) = n.
      by case/accepted_verified => R' [s' [ag' [ec' _ /share_verify_facts[[_ ->] _ _]]]]; rewrite ec'.
    elim: acc good szs {lc} => [|sh acc IH] good szs.
      exists 0; rewrite ?size_poly0 // => k _; by rewrite big_nil horner0 scale0r.
    have [|p sp hp] := IH _ (fun s i => szs s (or_intror i)).
      by move=> s' i; apply: good; right.
    have [[p' sp' ev] _] := good sh (or_introl erefl).
    exists (p' + p); first by apply: leq_trans (size_add _ _) _; rewrite geq_max sp'.
    move=> k kn; rewrite big_cons hp // ev nth_eval_vec ?szs //; last by left.
    by rewrite hornerD scalerDl.
  have -> : comms (as_pvss_core x) = eval_vec p (pt_gen (G2 E)) n.
    apply: (@eq_from_nth _ 0); rewrite ?size_eval_vec sc // => k kn.
    by have [_ ->] := lc k; rewrite ep' // nth_eval_vec.
  exact: ensure_degree_complete.
- right; rewrite /slots_product_ok -/n.
  have eqL k : nth 0 (comms (as_pvss_core x)) k = \sum_(sh <- acc) nth 0 (comms (sh_pvss_core sh)) k.
    by have [_ ->] := lc k.
  have eqR k : nth 0 (encs (as_pvss_core x)) k = \sum_(sh <- acc) nth 0 (encs (sh_pvss_core sh)) k.
    by have [-> _] := lc k.
  under eq_bigr do rewrite eqL; under [RHS]eq_bigr do rewrite eqR.
  elim: acc good {lc eqL eqR} => [|sh acc IH] good.
    by apply: eq_bigr => i _; rewrite !big_nil pairing0l pairing0r.
  under eq_bigr do rewrite big_cons pairing_addr.
  under [RHS]eq_bigr do rewrite big_cons pairing_addl.
  rewrite !big_split /= IH; last by move=> s' i; apply: good; right.
  by have [_ ->] := good sh (or_introl erefl).
- by move=> i spf w /cv; rewrite ec ep.
Qed.
Print Assumptions C25_good_shares_partial.

Lemma low_degree_eval (E : engine) t (p : {poly Fr E}) (g : Com E) n : (size p <= t.+1)%N ->
  low_degree t (eval_vec p g n).
Proof.
move=> sp; have [a ha] := pt_cyclic g (pt_gen_neq0 (G2 E)).
exists (a *: p); first by apply: leq_trans (size_scale_leq _ _) sp.
by rewrite size_eval_vec /eval_vec; apply: eq_map => i; rewrite ha hornerZ scalerA mulrC.
Qed.

Example C25_example (sh : PVSSShare TE) :
  List.In sh (shares_of (accepted TD Debug tag thist4)) ->
  low_degree 1 (comms (sh_pvss_core sh)) /\ slots_product_ok tag (sh_pvss_core sh).
Proof.
have -> : accepted TD Debug tag thist4 = map (@call_msg TE) thist4 by apply: accepted_all; vm_compute.
have hd : List.In sh [:: sh2; sh1; sh2] -> dealt TD tag sh.
  by move=> [<-|[<-|[<-|//]]]; apply: honest_dealt => //;
     first [exact: sh1_honest | exact: sh2_honest].
move=> /hd[p [pa [[sp ->] _ _ _ _]]]; split; first exact: low_degree_eval.
exact: core_of_product.
Qed.

(** ** C26: any [t + 1] honest recipients reconstruct the aggregated secret *)

Theorem C26_end_to_end (E : engine) (D : eddsa) (b b' : build) (config : Config E)
  (ps : btmap (Participant E)) (ag0 : PVSSAggregator E) (h : seq (call E))
  (secret : PVSSShare E -> Fr E) (ids : seq nat) (sk : nat -> Fr E) :
  let t := cfg_degree config in
  let n := cfg_num_participants config in
  let g1 := srs_g1 (cfg_srs config) in
  let g2 := srs_g2 (cfg_srs config) in
  config_ok config -> g2 != 0 -> aggregator_new config ps = Ok ag0 ->
  (** every share in the history was dealt honestly; [secret] is what its proof commits to *)
  shares_only h -> (N.of_nat (size h) < 2 ^ 64)%num ->
  (forall sh, List.In sh (shares_of (map (@call_msg E) h)) ->
     honest_share D ag0 sh /\
     dp_gs (sp_decomp_proof (sh_signed_proof sh)) = secret sh *: g2) ->
  (** [ids] are [t + 1] distinct recipients whose registered keys belong to [sk] *)
  size ids = t.+1 -> uniq ids ->
  (forall i, i \in ids -> [/\ (i < n)%N, sk i != 0 & key_of ag0 i = sk i *: g1]) ->
  let x := ag_aggregated_tx (run D b ag0 h) in
  let total := \sum_(sh <- shares_of (accepted D b ag0 h)) secret sh in
  exists ds : seq (DecryptedShare E),
    [/\ mapM (fun i => decrypted_share_generate (encs (as_pvss_core x)) (sk i) i) ids
          = Ok ds :> outcome pvss_error _,
        lagrange_interpolation_g1 b' [seq dec d | d <- ds] [seq (origin d).+1%:R | d <- ds] t
          = Ok (total *: g1)
      & commits_to t (comms (as_pvss_core x)) (total *: g2)].
Proof.
move=> t n g1 g2 ok g20; case=> e0; rewrite -{}e0 -[MkAggregator _ _ _]/(new_aggregator config ps).
set ag0' := new_aggregator config ps.
move=> so small hon szi ui hids x total; have [tn nq fn] := ok.
have [p [sp ecore ep0]] : exists p : {poly Fr E},
    [/\ (size p <= t.+1)%N, as_pvss_core x = core_of ag0' p & p.[0] = total].
  rewrite /x /total; move: so small hon; elim/last_ind: h {x total} => [|h c IH].
    move=> _ _ _; exists 0; rewrite size_poly0 horner0 big_nil; split=> //.
    by rewrite core_of0.
  rewrite /shares_only all_rcons => /andP[]; case em: (call_msg c) => [sh|//] _ so.
  rewrite size_rcons => small hon.
  have inn : shares_of (map (@call_msg E) (rcons h c)) = rcons (shares_of (map (@call_msg E) h)) sh.
    by rewrite map_rcons em /shares_of -cats1 pmap_cat /= cats1.
  rewrite inn in hon.
  have [||p [sp ecore ep0]] := IH so.
  - by lia.
  - by move=> sh' i'; apply: hon; apply/In_rcons; left.
  have [hs hsec] : _ := hon sh ltac:(apply/In_rcons; by right).
  rewrite -cats1 run_cat accepted_cat /shares_of pmap_cat big_cat /= -/(shares_of _).
  have [ec ep] := run_static D b ag0' h.
  case: (receive_cases D b (run D b ag0' h) c) => [[nok er]|[z [er v mg]]].
    case: (receive D b _ c) nok er => [r ag'] /= /negbTE-> ->; exists p.
    by rewrite big_nil addr0.
  rewrite er /= em /= big_seq1.
  have [p' [pa [[sp' ecore'] _ _ egs _]]] := @honest_dealt E D ag0' sh ok hs.
  have eq0 : p'.[0] = secret sh.
    move: egs; rewrite hsec -/g2 => /eqP; rewrite -subr_eq0 -scalerBl scaler_eq0 (negbTE g20) orbF.
    by rewrite subr_eq0 => /eqP ->.
  exists (p + p'); split.
  - by apply: leq_trans (size_add _ _) _; rewrite geq_max sp.
  - rewrite em in mg; have /agg_okE[_ _ /core_aggregate_inv[m [_ _ _ ->]] _ _] := mg.
    by rewrite ecore /= ecore' core_of_add.
  - by rewrite hornerD ep0 eq0.
exists [seq MkDec (p.[i.+1%:R] *: g1) i | i <- ids]; split.
- apply: mapM_ok_in => i /hids[li ski ki].
  have [dec _ _ _] := @C27_decryption E pvss_error (encs (as_pvss_core x)) (sk i) i.
  apply: dec => //; first by rewrite ecore size_enc_vec.
  by rewrite ecore nth_enc_vec // ki.
- rewrite -!map_comp -ep0.
  have := @C05_interpolation_g1 E b' p g1 [seq i.+1%:R | i <- ids] t sp.
  rewrite /eval_at -map_comp; apply.
  + by rewrite size_map szi.
  + apply: take_uniq; rewrite map_inj_in_uniq // => i j /hids[li _ _] /hids[lj _ _].
    exact: (@pnt_inj E n nq).
  + by move: fn; rewrite /fits /t; lia.
- by rewrite ecore -ep0; exact: (@core_of_commits E ag0').
Qed.
Print Assumptions C26_end_to_end.

Example C26_example :
  let x := ag_aggregated_tx (run TD Debug tag thist4) in
  let ds := mapM (fun i => @decrypted_share_generate TE pvss_error (encs (as_pvss_core x)) (f (i + 2)) i) [:: 3; 1]%N in
  if ds is Ok ds then
    if @lagrange_interpolation_g1 TE Debug [seq dec d | d <- ds] [seq (origin d).+1%:R | d <- ds] 1 is Ok P
    then P == (f 7 + f 3 + f 7) * f 3 else false
  else false.
Proof. by vm_compute. Qed.

(** The hypotheses hold there: the secrets are 7 and 3, the recipients 3 and 1. *)
Definition tsecret (sh : PVSSShare TE) : Fr TE := if sh_participant_id sh == 2%N then f 7 else f 3.
Example C26_hypotheses :
  (forall sh, List.In sh (shares_of (map (@call_msg TE) thist4)) ->
     honest_share TD tag sh /\
     dp_gs (sp_decomp_proof (sh_signed_proof sh)) = tsecret sh *: srs_g2 tsrs) /\
  (forall i, i \in [:: 3; 1]%N -> [/\ (i < 4)%N, f (i + 2) != 0
                                     & key_of tag i = f (i + 2) *: srs_g1 tsrs]).
Proof.
split.
  have e2 : dp_gs (sp_decomp_proof (sh_signed_proof sh2)) = tsecret sh2 *: srs_g2 tsrs.
    by apply: val_inj; vm_compute.
  have e1 : dp_gs (sp_decomp_proof (sh_signed_proof sh1)) = tsecret sh1 *: srs_g2 tsrs.
    by apply: val_inj; vm_compute.
  by move=> sh /= [<-|[<-|[<-|//]]]; split=> //; first [exact: sh1_honest | exact: sh2_honest].
move=> i; rewrite !inE => /orP[] /eqP ->; split=> //; by apply: val_inj; vm_compute.
Qed.

(** ** C28: bad network input panics; false as stated *)

(** The full statement. *)
Definition C28_full : Prop :=
  forall (E : engine) (D : eddsa) (b : build) (R : rng E) (ag : PVSSAggregator E) (s : rstate R),
  [/\ forall sh, (share_verify D b ag s sh).1 <> Ok tt -> is_err (receive_share D b ag s sh).1.1,
      forall y, (aggregation_verify D b ag s y).1 <> Ok tt ->
        is_err (receive_aggregated_share D b ag s y).1.1
    & forall sp pk, ~ signed_valid D (ag_config ag) sp pk ->
        is_err (signed_verify D sp (ag_config ag) pk)].

(** Not a single failing input is reported as Err: each one panics. *)
Theorem C28_always_panics (E : engine) (D : eddsa) (b : build) (R : rng E)
  (ag : PVSSAggregator E) (s : rstate R) :
  [/\ forall sh, (share_verify D b ag s sh).1 <> Ok tt -> is_panic (receive_share D b ag s sh).1.1,
      forall y, (aggregation_verify D b ag s y).1 <> Ok tt ->
        is_panic (receive_aggregated_share D b ag s y).1.1
    & forall sp pk, ~ signed_valid D (ag_config ag) sp pk ->
        is_panic (signed_verify D sp (ag_config ag) pk)].
Proof.
split.
- by move=> sh; rewrite /receive_share; case: (share_verify _ _ _ _ _) => [[[]|e|p] s'].
- by move=> y; rewrite /receive_aggregated_share; case: (aggregation_verify _ _ _ _ _) => [[[]|e|p] s'].
- move=> sp pk nv; case sv: (signed_verify D sp (ag_config ag) pk) => [[]|e|p] //.
    by case: nv; apply/signed_verifyE.
  by case: (signed_verify_noerr sv).
Qed.
Print Assumptions C28_always_panics.

Theorem C28_errors_reported_refuted : ~ C28_full.
Proof.
move=> /(_ TE TD Debug (seq_rng TE) tag [:: f 1; f 9])[+ _ _].
move=> /(_ (tamper_enc sh2 2 (f 1 : Enc TE))) h.
by have : false by apply: h; vm_compute.
Qed.
Print Assumptions C28_errors_reported_refuted.

(** What is reported as Err: only a verified share that contradicts an earlier one. *)
Theorem C28_only_conflicts_partial (E : engine) (D : eddsa) (b : build) (R : rng E)
  (ag : PVSSAggregator E) (s : rstate R) :
  (forall sh e, (receive_share D b ag s sh).1.1 = Err e ->
     [/\ e = TranscriptDifferentCommitments, (share_verify D b ag s sh).1 = Ok tt
       & exists sp w, bt_get (as_contributions (ag_aggregated_tx ag)) (sh_participant_id sh)
                      = Some (sp, w) /\
                      dp_gs (sp_decomp_proof sp) <> dp_gs (sp_decomp_proof (sh_signed_proof sh))]) /\
  (forall y e, (receive_aggregated_share D b ag s y).1.1 <> Err e).
Proof.
split=> [sh e|y e].
  rewrite /receive_share; case: (share_verify _ _ _ _ _) => [[[]|e'|p] s'] //=.
  rewrite /agg_aggregate_pvss_share; set y := MkAgg _ _ _ _.
  case er: (agg_aggregate b (ag_aggregated_tx ag) y) => [z|e'|p] //= [<-].
  have [_ h2 h3 _ _] := C18_transcript_errors b (ag_aggregated_tx ag) y.
  have [ee|] := h3 _ er; last by case.
  rewrite ee in er *; have [_ [i [_ [a [w [a' [w' [g1 g2 ne]]]]] _]]] := h2.1 er.
  move: g2; rewrite /= bt_get1; case: eqP => // ei [ea _].
  by split=> //; exists a, w; rewrite ei g1 ea.
rewrite /receive_aggregated_share; case: (aggregation_verify _ _ _ _ _) => [[[]|e'|p] s'] //=.
by case: (agg_aggregate _ _ _).
Qed.
Print Assumptions C28_only_conflicts_partial.

(** The Err case occurs: a second, different share of the same dealer. *)
Example C28_example :
  let ag1 := run TD Debug tag [:: tcall (MsgShare sh2)] in
  is_err (@receive_share TE TD Debug (seq_rng TE) ag1 [:: f 1; f 9] (tshare 2 [:: f 8; f 5; f 4])).1.1.
Proof. by vm_compute. Qed.
