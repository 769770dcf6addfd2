(** * HistProofs: what holds along every history of an aggregator *)

From Coq Require Import NArith Strings.Byte.
From mathcomp Require Import all_ssreflect all_algebra zify.
From Verif Require Import Prelude Errors BTreeMap Engine LibModel PolyModel SigmaModel PvssModel
  PreludeProofs AlgebraProofs Spec PolyProofs PvssProofs AggProofs.

Set Implicit Arguments.
Unset Strict Implicit.
Unset Printing Implicit Defensive.

Import GRing.Theory.
Local Open Scope ring_scope.

Section HistProofs.
Variable E : engine.
Variable D : eddsa.
Variable b : build.
Implicit Types (ag : PVSSAggregator E) (x y z : PVSSAggregatedShare E) (sh : PVSSShare E)
  (m : message E) (c : call E) (h : seq (call E)) (cs : btmap (SignedProof E * N)).
Local Notation q := (modulus E).
Local Notation tx := (@ag_aggregated_tx E).

(** ** What verification guarantees, with no condition on the parameters *)

Lemma share_verify_facts R ag (s : rstate R) sh : (share_verify D b ag s sh).1 = Ok tt ->
  [/\ core_sized (ag_config ag) (sh_pvss_core sh),
  (sh_participant_id sh < cfg_num_participants (ag_config ag))%N &
  exists2 p, bt_get (ag_participants ag) (sh_participant_id sh) = Some p
           & signed_valid D (ag_config ag) (sh_signed_proof sh) (pa_public_key_ed p)].
Proof.
rewrite /share_verify; case gp: (bt_get _ _) => [p|] //=.
case ic: (index (comms _) _) => [comm|e|pn] //=.
case: (index (encs _) _) => //= enc.
case: ifP => // _; rewrite /core_verify; case: ifP => [//|/negbT].
rewrite negb_or !negbK => /andP[/eqP e1 /eqP e2].
case: (ensure_degree _ _ _ _) => [[[]|e|pn] s'] //=.
case: (unwrap _) => //= point; case: ifP => //= _.
case sv: (signed_verify _ _ _ _) => [[]|e|pn] //= _; split=> //.
  by rewrite -e2; have /index_okE[] := ic.
by exists p => //; apply/signed_verifyE.
Qed.

Lemma aggregation_verify_facts R ag (s : rstate R) y : (aggregation_verify D b ag s y).1 = Ok tt ->
  core_sized (ag_config ag) (as_pvss_core y) /\
  contributions_valid D ag (as_contributions y).
Proof.
rewrite /aggregation_verify; case: ifP => [//|/negbT].
rewrite negb_or !negbK => /andP[/eqP e1 /eqP e2].
case: (ensure_degree _ _ _ _) => [[[]|e|pn] s'] //=.
case: (rand_fr _) => r s''; rewrite [fst _]/=.
move/obind_ok => [[eps pairs] _]; case: ifP => // _.
move/obind_ok => [point _] /obind_ok[gs /contributions_totalE[cv _]].
by case: ifP.
Qed.

(** The transcript a message is merged as. *)
Definition msg_tx ag m : PVSSAggregatedShare E :=
  match m with
  | MsgShare sh => MkAgg (as_num_participants (tx ag)) (as_degree (tx ag)) (sh_pvss_core sh)
                     (bt_insert bt_new (sh_participant_id sh) (sh_signed_proof sh, 1%num))
  | MsgTranscript y => y
  end.

Lemma msg_tx_contributions ag m : as_contributions (msg_tx ag m) = msg_contributions m.
Proof. by case: m. Qed.

(** A message passed its verification, with some coins. *)
Definition verified ag m : Prop :=
  exists R (s : rstate R),
    match m with
    | MsgShare sh => (share_verify D b ag s sh).1 = Ok tt
    | MsgTranscript y => (aggregation_verify D b ag s y).1 = Ok tt
    end.

Lemma bt_get1 (V : Type) k (v : V) i :
  bt_get (bt_insert bt_new k v) i = if k == i then Some v else None.
Proof. by rewrite bt_get_insert. Qed.

(** One call: either nothing happens or a verified message is merged. *)
Lemma receive_cases ag c :
  (~~ is_ok (receive D b ag c).1 /\ (receive D b ag c).2 = ag) \/
  exists z, [/\ receive D b ag c = (Ok tt, set_tx ag z), verified ag (call_msg c)
              & agg_aggregate b (tx ag) (msg_tx ag (call_msg c)) = Ok z].
Proof.
case: c => m R s; rewrite /receive /verified /=; case: m => [sh|y] /=.
  rewrite /receive_share; case sv: (share_verify D b ag s sh) => [[[]|e|p] s'] /=; try by left.
  rewrite /agg_aggregate_pvss_share; case: (agg_aggregate _ _ _) => [z|e|p] /=; try by left.
  by right; exists z; split=> //; exists R, s; rewrite sv.
rewrite /receive_aggregated_share; case sv: (aggregation_verify D b ag s y) => [[[]|e|p] s'] /=; try by left.
case: (agg_aggregate _ _ _) => [z|e|p] /=; try by left.
by right; exists z; split=> //; exists R, s; rewrite sv.
Qed.

Lemma verified_facts ag m : verified ag m ->
  core_sized (ag_config ag) (as_pvss_core (msg_tx ag m)) /\
  contributions_valid D ag (msg_contributions m).
Proof.
case=> R [s]; case: m => [sh|y].
  move/share_verify_facts => [sz _ [p gp sv]]; split=> // i sp w.
  by rewrite bt_get1; case: eqP => // <- [<- _]; exists p.
by move/aggregation_verify_facts.
Qed.

(** ** The structural invariant *)

Definition tx_ok ag : Prop :=
  [/\ as_degree (tx ag) = cfg_degree (ag_config ag) /\
      as_num_participants (tx ag) = cfg_num_participants (ag_config ag),
      core_sized (ag_config ag) (as_pvss_core (tx ag)),
      contributions_valid D ag (as_contributions (tx ag))
    & forall i v, bt_get (as_contributions (tx ag)) i = Some v ->
        (i < cfg_num_participants (ag_config ag))%N].

Definition new_aggregator (config : Config E) (ps : btmap (Participant E)) : PVSSAggregator E :=
  MkAggregator config ps (agg_empty E (cfg_degree config) (cfg_num_participants config)).

Lemma new_tx_ok config ps : tx_ok (new_aggregator config ps).
Proof. by split=> //; rewrite /core_sized /= !size_nseq. Qed.

Lemma merge_slot_src (o1 o2 o : option (SignedProof E * N)) sp w :
  merge_slot b o1 o2 = Ok o -> o = Some (sp, w) ->
  exists w', o1 = Some (sp, w') \/ o2 = Some (sp, w').
Proof.
case: o1 => [[a1 w1]|]; case: o2 => [[a2 w2]|] /=.
- case: ifP => // _ /obind_ok[w' _ [<-]] [<- _]; by exists w1; left.
- by case=> <- [<- _]; exists w1; left.
- by case=> <- [<- _]; exists w2; right.
- by case=> <-.
Qed.

Lemma merge_tx_ok ag m z : tx_ok ag -> verified ag m ->
  agg_aggregate b (tx ag) (msg_tx ag m) = Ok z -> tx_ok (set_tx ag z).
Proof.
move=> [[ed en] [se sc] cv ids] /verified_facts[[se' sc'] cv'] /agg_okE[[_ _] [ed' en'] ca ms out].
have [n [n0 l1 l2 ez]] := core_aggregate_inv ca.
have lz : core_len n (as_pvss_core z) by rewrite ez; exact: core_len_add.
have eN : n = cfg_num_participants (ag_config ag) by case: l1 => [<- _].
have src i sp w : bt_get (as_contributions z) i = Some (sp, w) ->
  (i < cfg_num_participants (ag_config ag))%N /\
  exists w', bt_get (as_contributions (tx ag)) i = Some (sp, w') \/
             bt_get (msg_contributions m) i = Some (sp, w').
  case: (ltnP i (as_num_participants (tx ag))) => li; last by rewrite out.
  move=> gz; rewrite -en; split=> //; have := merge_slot_src (ms i li) gz.
  by rewrite msg_tx_contributions.
split=> //=.
- by rewrite ed' en'.
- by case: lz; rewrite eN.
- move=> i sp w /src[_ [w' [/cv|/cv']]]; exact.
- by move=> i [sp w] /src[].
Qed.

Lemma receive_tx_ok ag c : tx_ok ag -> tx_ok (receive D b ag c).2.
Proof.
by case: (receive_cases ag c) => [[_ ->//]|[z [-> v ok]]] h; apply: merge_tx_ok h v ok.
Qed.

Lemma receive_static ag c :
  ag_config (receive D b ag c).2 = ag_config ag /\
  ag_participants (receive D b ag c).2 = ag_participants ag.
Proof. by case: (receive_cases ag c) => [[_ ->//]|[z [-> _ _]]]. Qed.

Lemma run_static ag h :
  ag_config (run D b ag h) = ag_config ag /\ ag_participants (run D b ag h) = ag_participants ag.
Proof.
elim: h ag => [|c h IH] ag //=; have [-> ->] := IH (receive D b ag c).2.
exact: receive_static.
Qed.

Lemma run_tx_ok ag h : tx_ok ag -> tx_ok (run D b ag h).
Proof. by elim: h ag => [|c h IH] ag //= /(@receive_tx_ok ag c)/IH. Qed.

(** ** Weighted sums *)

Definition slot_gs (o : option (SignedProof E * N)) : Com E :=
  if o is Some (sp, w) then (N.to_nat w)%:R *: dp_gs (sp_decomp_proof sp) else 0.

Lemma bt_iter_below n cs : (forall i v, bt_get cs i = Some v -> (i < n)%N) ->
  bt_iter cs = pmap id [seq (if bt_get cs j is Some v then Some (j, v) else None) | j <- iota 0 n].
Proof.
move=> below; set l := pmap _ _.
have sl : sorted ltn (keys l).
  apply: (@subseq_sorted _ ltn ltn_trans _ (iota 0 n)); last exact: iota_ltn_sorted.
  rewrite /l; elim: (iota 0 n) => [|j s IH] //=; case: (bt_get cs j) => [v|] /=; first by rewrite eqxx.
  exact: subseq_trans IH (subseq_cons _ _).
have -> : cs = BTMap sl; last by [].
rewrite -bt_collect_sorted; apply: bt_ext => i; rewrite bt_get_merged.
by case: ltnP => // li; case g: (bt_get cs i) => [v|] //; have := below _ _ g; rewrite ltnNge li.
Qed.

Lemma weighted_gs_below n cs : (forall i v, bt_get cs i = Some v -> (i < n)%N) ->
  weighted_gs cs = \sum_(i < n) slot_gs (bt_get cs i).
Proof.
move=> below; rewrite /weighted_gs (bt_iter_below below).
rewrite -(big_mkord xpredT (fun i => slot_gs (bt_get cs i))) /index_iota subn0.
elim: (iota 0 n) => [|j s IH]; first by rewrite !big_nil.
rewrite big_cons -IH /=; case: (bt_get cs j) => [[sp w]|] /=; first by rewrite big_cons.
by rewrite add0r.
Qed.

Definition slot_no_wrap (o1 o2 : option (SignedProof E * N)) : Prop :=
  forall sp w sp' w', o1 = Some (sp, w) -> o2 = Some (sp', w') -> (w + w' < 2 ^ 64)%num.

Lemma merge_slot_gs (o1 o2 o : option (SignedProof E * N)) :
  b = Debug \/ slot_no_wrap o1 o2 -> merge_slot b o1 o2 = Ok o ->
  slot_gs o = slot_gs o1 + slot_gs o2.
Proof.
case: o1 => [[a1 w1]|]; case: o2 => [[a2 w2]|] /=; last first.
- by move=> _ [<-]; rewrite addr0.
- by move=> _ [<-]; rewrite add0r.
- by move=> _ [<-]; rewrite addr0.
move=> nw; case: eqP => //= eg /obind_ok[w hw [<-]] /=.
have -> : w = (w1 + w2)%num.
  move: hw; rewrite /u64_add; case: N.ltb_spec => [_ [<-]//|big].
  case: nw => [->//|nw]; have := nw _ _ _ _ erefl erefl.
  by move/N.lt_nge; case; exact: big.
by rewrite N2Nat.inj_add natrD scalerDl -!/(gs_of _) eg.
Qed.

Lemma agg_weighted_gs n x y z :
  (forall i v, bt_get (as_contributions x) i = Some v -> (i < n)%N) ->
  (forall i v, bt_get (as_contributions y) i = Some v -> (i < n)%N) ->
  as_num_participants x = n ->
  b = Debug \/ (forall i, slot_no_wrap (bt_get (as_contributions x) i) (bt_get (as_contributions y) i)) ->
  agg_aggregate b x y = Ok z ->
  weighted_gs (as_contributions z) = weighted_gs (as_contributions x) + weighted_gs (as_contributions y).
Proof.
move=> bx bys en nw /agg_okE[_ _ _ ms out].
have bz i v : bt_get (as_contributions z) i = Some v -> (i < n)%N.
  by case: (ltnP i n) => // li; rewrite out // en.
rewrite (weighted_gs_below bx) (weighted_gs_below bys) (weighted_gs_below bz) -big_split /=.
apply: eq_bigr => i _; apply: merge_slot_gs; last by rewrite ms // en.
by case: nw => [->|nw]; [left | right; exact: nw].
Qed.

Lemma commits_to_add t (v w : seq (Com E)) P Q : (t < size v)%N -> size v = size w -> (t.+1 < q)%N ->
  commits_to t v P -> commits_to t w Q -> commits_to t (vadd v w) (P + Q).
Proof.
move=> tv sz tq; have tw : (t < size w)%N by rewrite -sz.
have ts : (t < size (vadd v w))%N by rewrite size_vadd.
rewrite !commits_to_lag // => -> ->; rewrite -big_split /=.
by apply: eq_bigr => j _; rewrite nth_vadd // scalerDr.
Qed.

(** ** The transcript's commitments match the weighted contributions *)

Definition tx_balanced ag : Prop :=
  commits_to (cfg_degree (ag_config ag)) (comms (as_pvss_core (tx ag)))
    (weighted_gs (as_contributions (tx ag))).

Lemma weighted_gs1 k (sp : SignedProof E) : weighted_gs (bt_insert bt_new k (sp, 1%num)) = gs_of sp.
Proof. by rewrite /weighted_gs /= big_seq1 scale1r. Qed.

Lemma verified_balanced ag m :
  (cfg_num_participants (ag_config ag) < q)%N -> fits (cfg_num_participants (ag_config ag)) ->
  registered ag -> verified ag m ->
  commits_to (cfg_degree (ag_config ag)) (comms (as_pvss_core (msg_tx ag m)))
    (weighted_gs (msg_contributions m)).
Proof.
move=> nq fn reg [R [s]]; case: m => [sh|y] /=.
  move/share_verifyE => [] // p [_ _ _ [_ _ cm] _]; by rewrite weighted_gs1.
by move/aggregation_verifyE => [].
Qed.

Lemma merge_balanced ag m z :
  (cfg_degree (ag_config ag) < cfg_num_participants (ag_config ag))%N ->
  (cfg_num_participants (ag_config ag) < q)%N -> fits (cfg_num_participants (ag_config ag)) ->
  registered ag ->
  (forall i v, bt_get (msg_contributions m) i = Some v -> (i < cfg_num_participants (ag_config ag))%N) ->
  b = Debug \/ no_wrap ag m ->
  tx_ok ag -> verified ag m -> tx_balanced ag ->
  agg_aggregate b (tx ag) (msg_tx ag m) = Ok z -> tx_balanced (set_tx ag z).
Proof.
move=> tn nq fn reg only nw [[ed en] [se sc] cv ids] v bal ok.
have [[se' sc'] cv'] := verified_facts v.
have := agg_weighted_gs (n := cfg_num_participants (ag_config ag)) ids _ en _ ok.
rewrite /tx_balanced /= msg_tx_contributions => ->; last 2 first.
- exact: only.
- by case: nw => [->|nw]; [left | right=> i sp w sp' w' h1 h2; exact: nw h1 h2].
have /agg_okE[_ _ /core_aggregate_inv[n [n0 l1 l2 ->]] _ _] := ok.
apply: commits_to_add => //.
- by rewrite sc.
- by rewrite sc sc'.
- by apply: leq_ltn_trans nq.
- exact: verified_balanced.
Qed.

Lemma new_balanced config ps :
  (cfg_degree config < cfg_num_participants config)%N -> (cfg_num_participants config < q)%N ->
  tx_balanced (new_aggregator config ps).
Proof.
move=> tn nq; rewrite /tx_balanced /= commits_to_lag ?size_nseq //.
  rewrite /weighted_gs big_nil big1 // => j _; by rewrite nth_nseq if_same scaler0.
by apply: leq_ltn_trans nq.
Qed.

Lemma verified_id ag sh : verified ag (MsgShare sh) ->
  forall i v, bt_get (msg_contributions (MsgShare sh)) i = Some v ->
  (i < cfg_num_participants (ag_config ag))%N.
Proof.
case=> R [s /share_verify_facts[_ lid _]] i v.
by rewrite /= bt_get1; case: eqP => // <-.
Qed.

Lemma run_balanced ag h :
  (cfg_degree (ag_config ag) < cfg_num_participants (ag_config ag))%N ->
  (cfg_num_participants (ag_config ag) < q)%N -> fits (cfg_num_participants (ag_config ag)) ->
  registered ag -> only_registered ag \/ shares_only h -> b = Debug \/ no_wrap_run D b ag h ->
  tx_ok ag -> tx_balanced ag -> tx_balanced (run D b ag h).
Proof.
elim: h ag => [|c h IH] ag //= tn nq fn reg only nw ok bal.
have [ec ep] := receive_static ag c; apply: IH; rewrite ?ec //.
- by move=> i; rewrite ec ep; exact: reg.
- case: only => [only|/andP[_ so]]; [left | by right].
  by move=> i p; rewrite ec ep; exact: only.
- by case: nw => [->|[_ nw]]; [left | right].
- exact: receive_tx_ok.
case: (receive_cases ag c) => [[_ ->//]|[z [-> v mg]]] /=.
apply: merge_balanced mg => //; last by case: nw => [->|[nw _]]; [left | right].
case: only => [only|/andP[sm _]].
  by move=> i [sp w]; have [_ cv] := verified_facts v; case/cv=> p /only.
by case: (call_msg c) v sm => // sh v _; exact: verified_id.
Qed.

(** ** Histories of shares *)

Definition of_id (i : nat) (acc : seq (PVSSShare E)) : seq (PVSSShare E) :=
  [seq sh <- acc | sh_participant_id sh == i].

(** The transcript records exactly the shares of [acc]. *)
Definition logs ag (acc : seq (PVSSShare E)) : Prop :=
  [/\ forall i, bt_get (as_contributions (tx ag)) i =
        if of_id i acc is sh :: l then Some (sh_signed_proof sh, N.of_nat (size l).+1) else None,
      forall sh sh', List.In sh acc -> List.In sh' acc ->
        sh_participant_id sh = sh_participant_id sh' ->
        gs_of (sh_signed_proof sh) = gs_of (sh_signed_proof sh')
    & forall k, nth 0 (encs (as_pvss_core (tx ag))) k
                = \sum_(sh <- acc) nth 0 (encs (sh_pvss_core sh)) k /\
                nth 0 (comms (as_pvss_core (tx ag))) k
                = \sum_(sh <- acc) nth 0 (comms (sh_pvss_core sh)) k].

Lemma new_logs config ps : logs (new_aggregator config ps) [::].
Proof. by split=> // k; rewrite !big_nil /= !nth_nseq !if_same. Qed.

Lemma of_id_rcons i acc sh :
  of_id i (rcons acc sh) = if sh_participant_id sh == i then rcons (of_id i acc) sh else of_id i acc.
Proof. by rewrite /of_id filter_rcons. Qed.

Lemma size_of_id i acc : (size (of_id i acc) <= size acc)%N.
Proof. by rewrite size_filter count_size. Qed.

Lemma In_of_id i acc sh : List.In sh (of_id i acc) <-> List.In sh acc /\ sh_participant_id sh = i.
Proof.
elim: acc => [|a acc IH] /=; first by split=> // -[].
case: eqP => [e|ne] /=; rewrite IH.
  by split=> [[<-|[]]|[[<-|]]]; auto.
by split=> [[]|[[<-|]]]; auto.
Qed.

Lemma In_rcons {T} (a e : T) (s : seq T) : List.In a (rcons s e) <-> List.In a s \/ a = e.
Proof.
elim: s => [|e' s IH] /=; first by split=> [[|//]|[//|]]; [right | left].
rewrite IH; split=> [[|[]]|[[]|]]; auto.
Qed.

Lemma merge_logs ag acc sh z : (N.of_nat (size acc) + 1 < 2 ^ 64)%num ->
  tx_ok ag -> logs ag acc -> verified ag (MsgShare sh) ->
  agg_aggregate b (tx ag) (msg_tx ag (MsgShare sh)) = Ok z ->
  logs (set_tx ag z) (rcons acc sh).
Proof.
move=> small [[ed en] [se sc] cv ids] [lg lgs lc] [R [s /share_verify_facts[[se' sc'] lid _]]].
case/agg_okE => _ _ ca ms out /=.
have [n [n0 l1 l2 ez]] := core_aggregate_inv ca.
set id := sh_participant_id sh in lid ms *.
have ms' := ms id; rewrite /= en bt_get1 eqxx in ms'; have {}ms' := ms' lid.
have same sh' : List.In sh' acc -> sh_participant_id sh' = id ->
    gs_of (sh_signed_proof sh') = gs_of (sh_signed_proof sh).
  move=> isn eid; have := lg id; have : List.In sh' (of_id id acc) by apply/In_of_id.
  case eo: (of_id id acc) => [|a l] // inl g; rewrite g /= in ms'.
  have ina : List.In a acc /\ sh_participant_id a = id.
    by apply/In_of_id; rewrite eo; left.
  case: eqP ms' => //= ga _.
  by rewrite -ga; apply: lgs => //; [case: ina | rewrite eid; case: ina].
split=> /=.
- move=> i; rewrite of_id_rcons -/id.
  case: (ltnP i (as_num_participants (tx ag))) => li; last first.
    rewrite out //; case: eqP => [ei|_]; first by move: li; rewrite en -ei leqNgt lid.
    case eo: (of_id i acc) => [|a l] //; have := lg i; rewrite eo => /ids.
    by rewrite -en ltnNge li.
  case: eqP => [ei|/eqP ne]; last first.
    by have := ms i li; rewrite /= bt_get1 (negbTE ne) merge_slot0r => -[<-]; rewrite lg.
  rewrite -ei; move: ms'; rewrite lg; case eo: (of_id id acc) => [|a l] /=; first by case=> <-.
  case: eqP => //= _; rewrite /u64_add.
  have sl : (size (a :: l) <= size acc)%N by rewrite -eo size_of_id.
  case: N.ltb_spec => [_|]; last first.
    rewrite /= in sl; rewrite /u64_bound; lia.
  rewrite /= => -[<-]; congr (Some (_, _)); rewrite size_rcons; lia.
- move=> sh1 sh2 /In_rcons[i1|->] /In_rcons[i2|->] // e; first exact: lgs.
    exact: same.
  by apply/esym/same.
- move=> k; rewrite ez /= -cats1 !big_cat !big_seq1.
  case: l1 l2 => [e1 k1] [e2 k2]; rewrite !nth_vadd ?e1 ?k1 //=.
  by have [-> ->] := lc k.
Qed.

Lemma run_logs ag acc h : shares_only h ->
  (N.of_nat (size acc) + N.of_nat (size h) < 2 ^ 64)%num ->
  tx_ok ag -> logs ag acc ->
  logs (run D b ag h) (acc ++ shares_of (accepted D b ag h)).
Proof.
elim: h ag acc => [|c h IH] ag acc /=; first by rewrite cats0.
case/andP; case em: (call_msg c) => [sh|//] _ so small ok lg.
case: (receive_cases ag c) => [[nok e]|[z [er v mg]]].
  case er: (receive D b ag c) nok e => [r ag'] /= /negbTE-> ->.
  by apply: IH => //; lia.
rewrite er /= /shares_of /= -cat_rcons.
apply: IH => //; first by rewrite size_rcons; lia.
  by rewrite em in v mg; apply: merge_tx_ok ok v mg.
rewrite em in v mg; apply: merge_logs ok lg v mg; lia.
Qed.

Lemma logs_no_wrap ag acc sh : (N.of_nat (size acc) + 1 < 2 ^ 64)%num -> logs ag acc ->
  no_wrap ag (MsgShare sh).
Proof.
move=> small [lg _ _] i sp w sp' w'; rewrite lg /= bt_get1.
have := size_of_id i acc; case: (of_id i acc) => [//|a l] /= sl [_ <-].
by case: eqP => // _ [_ <-]; lia.
Qed.

Lemma logs_no_wrap_run ag acc h : shares_only h ->
  (N.of_nat (size acc) + N.of_nat (size h) < 2 ^ 64)%num ->
  tx_ok ag -> logs ag acc -> no_wrap_run D b ag h.
Proof.
elim: h ag acc => [|c h IH] ag acc //=.
case/andP; case em: (call_msg c) => [sh|//] _ so small ok lg; split.
  by apply: logs_no_wrap lg; lia.
case: (receive_cases ag c) => [[nok e]|[z [er v mg]]].
  by rewrite e; apply: IH lg => //; lia.
rewrite er /=; rewrite em in v mg; apply: (IH _ (rcons acc sh)) => //.
- by rewrite size_rcons; lia.
- exact: merge_tx_ok ok v mg.
- by apply: merge_logs ok lg v mg; lia.
Qed.

(** Accepted shares passed share_verify of an aggregator with the same parameters. *)
Lemma accepted_verified ag h sh : List.In sh (shares_of (accepted D b ag h)) ->
  exists R (s : rstate R) ag', [/\ ag_config ag' = ag_config ag,
    ag_participants ag' = ag_participants ag & (share_verify D b ag' s sh).1 = Ok tt].
Proof.
elim: h ag => [|c h IH] ag //=.
case: (receive_cases ag c) => [[nok e]|[z [er v mg]]].
  by case er: (receive D b ag c) nok e => [r ag'] /= /negbTE-> -> /IH.
rewrite er /= /shares_of /=; case em: (call_msg c) => [sh'|y] /=; last first.
  by move/IH => [R [s [ag' [ec ep sv]]]]; exists R, s, ag'.
case=> [<-|/IH[R [s [ag' [ec ep sv]]]]]; last by exists R, s, ag'.
by move: v; rewrite em => -[R [s sv]]; exists R, s, ag.
Qed.

Lemma run_cat ag h1 h2 : run D b ag (h1 ++ h2) = run D b (run D b ag h1) h2.
Proof. by elim: h1 ag => [|c h IH] ag //=. Qed.

Lemma accepted_cat ag h1 h2 :
  accepted D b ag (h1 ++ h2) = accepted D b ag h1 ++ accepted D b (run D b ag h1) h2.
Proof.
elim: h1 ag => [|c h IH] ag //=; case: (receive D b ag c) => r ag' /=.
by case: (is_ok r); rewrite IH.
Qed.

End HistProofs.
