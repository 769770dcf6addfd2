(** * PropsReceive: C84, every answer of the receive calls *)

From Coq Require Import NArith Strings.Byte.
From mathcomp Require Import all_ssreflect all_algebra zify.
From Verif Require Import Prelude Errors BTreeMap Engine LibModel PolyModel SigmaModel PvssModel
  Spec PreludeProofs AlgebraProofs PolyProofs PvssProofs AggProofs HistProofs Instance
  PropsPoly PropsSigma PropsShare PropsAgg PropsHist.

Set Implicit Arguments.
Unset Strict Implicit.
Unset Printing Implicit Defensive.

Import GRing.Theory.
Local Open Scope ring_scope.

Section Receive.
Variables (E : engine) (D : eddsa) (b : build).
Implicit Types (ag : PVSSAggregator E) (m : message E).
Local Notation tx := (@ag_aggregated_tx E).
Local Notation n_of ag := (cfg_num_participants (ag_config ag)).

(** What the node has recorded of participant [i], and what the message brings. *)
Definition recorded ag (i : nat) := bt_get (as_contributions (tx ag)) i.
Definition brought m (i : nat) := bt_get (msg_contributions m) i.
Definition msg_core m : PVSSCore E :=
  match m with MsgShare sh => sh_pvss_core sh | MsgTranscript y => as_pvss_core y end.

(** A share has no header of its own. *)
Definition header_ok ag m : Prop :=
  if m is MsgTranscript y then
    as_degree y = cfg_degree (ag_config ag) /\ as_num_participants y = n_of ag
  else True.

(** The two sides know [i] by different commitments; or by the same one, with weights that
    together leave 64 bits. *)
Definition differs ag m (i : nat) : Prop :=
  exists a w a' w', [/\ recorded ag i = Some (a, w), brought m i = Some (a', w')
                      & dp_gs (sp_decomp_proof a) <> dp_gs (sp_decomp_proof a')].
Definition exceeds ag m (i : nat) : Prop :=
  exists a w a' w', [/\ recorded ag i = Some (a, w), brought m i = Some (a', w'),
                        dp_gs (sp_decomp_proof a) = dp_gs (sp_decomp_proof a')
                      & (2 ^ 64 <= w + w')%num].
Definition calm ag m (i : nat) : Prop := ~ differs ag m i /\ ~ (b = Debug /\ exceeds ag m i).

(** The node afterwards: the vectors are added slot by slot; a participant known to both sides
    keeps the recorded proof, and the weights are added modulo [2^64]. *)
Definition joined ag m (ag' : PVSSAggregator E) : Prop :=
  [/\ ag_config ag' = ag_config ag /\ ag_participants ag' = ag_participants ag,
      as_degree (tx ag') = as_degree (tx ag) /\ as_num_participants (tx ag') = as_num_participants (tx ag),
      core_sized (ag_config ag) (as_pvss_core (tx ag')),
      forall k, nth 0 (encs (as_pvss_core (tx ag'))) k
                = nth 0 (encs (as_pvss_core (tx ag))) k + nth 0 (encs (msg_core m)) k /\
              nth 0 (comms (as_pvss_core (tx ag'))) k
                = nth 0 (comms (as_pvss_core (tx ag))) k + nth 0 (comms (msg_core m)) k
    & forall i, recorded ag' i
        = if (n_of ag <= i)%N then None else
          match recorded ag i, brought m i with
          | Some (a, w), Some (_, w') => Some (a, (w + w') mod 2 ^ 64)%num
          | Some v, None => Some v
          | None, o => o
          end].

(** What a call answers and leaves behind, when the verification of its message has answered
    [v]. *)
Inductive answer ag m (v : outcome pvss_error unit)
  : outcome pvss_error unit -> PVSSAggregator E -> Prop :=
| RA_refused e : v = Err e -> answer ag m v (Panic UnwrapErr) ag
| RA_panicked p : v = Panic p -> answer ag m v (Panic p) ag
| RA_header : v = Ok tt -> ~ header_ok ag m -> answer ag m v (Panic UnwrapErr) ag
| RA_differs i : v = Ok tt -> header_ok ag m ->
    (i < n_of ag)%N -> differs ag m i -> (forall j, (j < i)%N -> calm ag m j) ->
    answer ag m v (if m is MsgShare _ then Err TranscriptDifferentCommitments else Panic UnwrapErr) ag
| RA_exceeds i : v = Ok tt -> header_ok ag m ->
    (i < n_of ag)%N -> b = Debug -> exceeds ag m i -> (forall j, (j < i)%N -> calm ag m j) ->
    answer ag m v (Panic ArithOverflow) ag
| RA_joined ag' : v = Ok tt -> header_ok ag m -> (forall i, (i < n_of ag)%N -> calm ag m i) ->
    joined ag m ag' -> answer ag m v (Ok tt) ag'.

(** The verification that the call does first. *)
Definition verification ag (c : call E) : outcome pvss_error unit :=
  match call_msg c with
  | MsgShare sh => (share_verify D b ag (call_state c) sh).1
  | MsgTranscript y => (aggregation_verify D b ag (call_state c) y).1
  end.

Lemma receiveE ag c :
  receive D b ag c =
  match unwrap (verification ag c) with
  | Ok _ => match (if call_msg c is MsgShare _ then agg_aggregate b (tx ag) (msg_tx ag (call_msg c))
                   else unwrap (agg_aggregate b (tx ag) (msg_tx ag (call_msg c)))) with
            | Ok x => (Ok tt, set_tx ag x)
            | Err e => (Err e, ag)
            | Panic p => (Panic p, ag)
            end
  | Err e => (Err e, ag)
  | Panic p => (Panic p, ag)
  end.
Proof.
case: c => m R s; rewrite /receive /verification /=; case: m => [sh|y].
  rewrite /receive_share; case: (share_verify D b ag s sh) => [[[]|e|p] s'] //=.
  by rewrite /agg_aggregate_pvss_share; case: (agg_aggregate _ _ _).
rewrite /receive_aggregated_share; case: (aggregation_verify D b ag s y) => [[[]|e|p] s'] //=.
by case: (agg_aggregate _ _ _).
Qed.

Lemma mod_small w : (w < 2 ^ 64)%num -> (w mod 2 ^ 64 = w)%num.
Proof. exact: N.mod_small. Qed.

Lemma answers ag c :
  (0 < n_of ag)%N -> tx_ok D ag ->
  answer ag (call_msg c) (verification ag c) (receive D b ag c).1 (receive D b ag c).2.
Proof.
move=> n0 [[ed en] sz cv ids]; rewrite receiveE.
case ev: (verification ag c) => [[]|e|p] /=; [|exact: RA_refused|exact: RA_panicked].
have vf : verified D b ag (call_msg c).
  by exists (call_rng c), (call_state c); move: ev; rewrite /verification; case: (call_msg c).
have [sz' _] := verified_facts vf; set m := call_msg c in ev vf sz' *.
set y := msg_tx ag m in sz' *.
have gy i : bt_get (as_contributions y) i = brought m i by rewrite /y msg_tx_contributions.
have cy : as_pvss_core y = msg_core m by rewrite /y; case: (m).
have [hd|nh] : header_ok ag m \/ ~ header_ok ag m.
  case: (m) => [sh|x]; first by left.
  case: (as_degree x =P cfg_degree (ag_config ag)) => h1; last by right=> -[].
  by case: (as_num_participants x =P n_of ag) => h2; [left|right=> -[]].
- have same : as_degree (tx ag) = as_degree y /\ as_num_participants (tx ag) = as_num_participants y.
    by rewrite /y; case: (m) hd => [sh|x] // [-> ->].
  have er : agg_aggregate b (tx ag) y =
      let! merged := mapM (merge_contribution b (as_contributions (tx ag)) (as_contributions y)) (iota 0 (n_of ag)) in
      let! core := unwrap (core_aggregate (as_pvss_core (tx ag)) (as_pvss_core y)) in
      Ok (MkAgg (as_num_participants (tx ag)) (as_degree (tx ag)) core (bt_collect (pmap id merged))).
    by rewrite /agg_aggregate -(proj1 same) -(proj2 same) !eqxx /= en.
  have slot i : [/\ merge_slot b (recorded ag i) (brought m i) = Err TranscriptDifferentCommitments <-> differs ag m i,
        merge_slot b (recorded ag i) (brought m i) = Panic ArithOverflow <-> b = Debug /\ exceeds ag m i,
        is_ok (merge_slot b (recorded ag i) (brought m i)) <-> calm ag m i
      & ~~ is_ok (merge_slot b (recorded ag i) (brought m i)) ->
        merge_slot b (recorded ag i) (brought m i) = Err TranscriptDifferentCommitments \/
        merge_slot b (recorded ag i) (brought m i) = Panic ArithOverflow].
    have := merge_slot_cases b (tx ag) y i; rewrite /conflict_at /overflow_at gy; exact.
  case: (first_bad b (as_contributions (tx ag)) (as_contributions y) (n_of ag)) => [allok|[i [li bi before]]].
    have c0 := core_aggregate_ok n0 sz sz'.
    have : is_ok (agg_aggregate b (tx ag) y) by rewrite er c0; case: (mapM _ _) (merge_all_ok allok).
    case ez : (agg_aggregate b (tx ag) y) => [z|//|//] _.
    have {ez}[_ [dz nz] cz mz oz] := proj1 (agg_okE _ _ _ _) ez.
    have ec : as_pvss_core z = core_add (as_pvss_core (tx ag)) (as_pvss_core y) by move: cz; rewrite c0 => -[].
    have calmi i : (i < n_of ag)%N -> calm ag m i.
      by move=> li; have [_ _ h _] := slot i; apply/h; have := allok i li; rewrite gy.
    have jn : joined ag m (set_tx ag z).
      split=> //; first by rewrite /= ec; exact: core_len_add.
        move=> k; rewrite /= ec -cy; case: sz sz' => [s1 s2] [s1' s2'].
        by split; rewrite nth_vadd // ?s1 ?s2 ?s1' ?s2'.
      move=> i; rewrite /recorded /=; case: leqP => [li|li]; first by rewrite oz // en.
      have := mz i; rewrite en => /(_ li); rewrite gy.
      case: (bt_get _ i) => [[a w]|]; case: (brought m i) => [[a' w']|] /=; try by case.
      case: ifP => // _; rewrite /u64_add; case: N.ltb_spec => [lt|_].
        by rewrite mod_small //= => -[].
      by case: (b) => //= -[].
    by have := RA_joined (erefl (Ok tt)) hd calmi jn; case: (m).
  have := merge_fail li before; rewrite !gy in bi *; have [c1 c2 _ c4] := slot i.
  have bf j : (j < i)%N -> calm ag m j.
    by move=> ji; have [_ _ h _] := slot j; apply/h; have := before j ji; rewrite gy.
  case: (c4 bi) => em; rewrite -/(recorded ag i) em /= er => -> /=.
    have d : differs ag m i by apply/c1.
    by have := RA_differs (erefl (Ok tt)) hd li d bf; case: (m).
  have [bD ex] : b = Debug /\ exceeds ag m i by apply/c2.
  by have := RA_exceeds (erefl (Ok tt)) hd li bD ex bf; case: (m).
have : agg_aggregate b (tx ag) y = Err (TranscriptDifferentConfig (as_degree (tx ag)) (as_degree y)
                 (as_num_participants (tx ag)) (as_num_participants y)).
  have [h _ _ _ _] := C18_transcript_errors b (tx ag) y; apply/h => -[h1 h2]; apply: nh.
  by move: h1 h2; rewrite ed en /y /header_ok; case: (m) => // x -> ->.
rewrite /y in sz' * => ->; move: ev nh; case: (m) => [sh _ []//|x ev nh] /=; exact: RA_header.
Qed.

(** The relation leaves no choice. *)
Lemma joined_unique ag m ag1 ag2 : joined ag m ag1 -> joined ag m ag2 -> ag1 = ag2.
Proof.
move=> [[c1 p1] [d1 n1] [e1 k1] v1 r1] [[c2 p2] [d2 n2] [e2 k2] v2 r2].
case: ag1 ag2 c1 p1 d1 n1 e1 k1 v1 r1 c2 p2 d2 n2 e2 k2 v2 r2 => [cf1 ps1 x1] [cf2 ps2 x2] /=.
move=> -> -> d1 n1 e1 k1 v1 r1 -> -> d2 n2 e2 k2 v2 r2; congr MkAggregator.
apply: agg_ext; rewrite ?d1 ?d2 ?n1 ?n2 //; last by move=> i; have := r1 i; have := r2 i; rewrite /recorded /= => -> ->.
move: (as_pvss_core x1) (as_pvss_core x2) e1 k1 v1 e2 k2 v2 => [es1 cs1] [es2 cs2] /= e1 k1 v1 e2 k2 v2.
congr MkCore; apply: (@eq_from_nth _ 0); rewrite ?e1 ?e2 ?k1 ?k2 // => i _.
  by have [-> _] := v1 i; have [-> _] := v2 i.
by have [_ ->] := v1 i; have [_ ->] := v2 i.
Qed.

Theorem C84_unique ag m v o o' ag1 ag2 :
  answer ag m v o ag1 -> answer ag m v o' ag2 -> o = o' /\ ag1 = ag2.
Proof.
have bad i : differs ag m i \/ (b = Debug /\ exceeds ag m i) -> ~ calm ag m i.
  by move=> [d|x] [nd nx]; [exact: nd | exact: nx].
have first i j : differs ag m i \/ (b = Debug /\ exceeds ag m i) ->
    differs ag m j \/ (b = Debug /\ exceeds ag m j) ->
    (forall k, (k < i)%N -> calm ag m k) -> (forall k, (k < j)%N -> calm ag m k) -> i = j.
  move=> bi bj hi hj; case: (ltngtP i j) => // l; first by case: (bad _ bi); exact: hj.
  by case: (bad _ bj); exact: hi.
have apart i : differs ag m i -> exceeds ag m i -> False.
  move=> [a [w [a' [w' [r r' ne]]]]] [c [u [c' [u' [q q' eq _]]]]].
  by move: q q'; rewrite r r' => -[ec _] [ec' _]; apply: ne; rewrite ec ec'.
case=> [e ->|p ->|-> h|i -> h li d cl|i -> h li bD x cl|ag1' -> h cl j];
  case=> [e' ev|p' ev|ev h'|i' ev h' li' d' cl'|i' ev h' li' bD' x' cl'|ag2' ev h' cl' j'] //.
- exfalso; have e : i = i' by apply: first => //; [left | right].
  by apply: (apart i) => //; rewrite e.
- by case: (bad i); [left | exact: cl'].
- exfalso; have e : i = i' by apply: first => //; [right | left].
  by apply: (apart i) => //; rewrite e.
- by case: (bad i); [right | exact: cl'].
- by case: (bad i'); [left | exact: cl].
- by case: (bad i'); [right | exact: cl].
- by split=> //; exact: (joined_unique j j').
Qed.

(** In every state a node can reach, every call answers and acts as the relation says. *)
Theorem C84_answers (config : Config E) (ps : btmap (Participant E)) (ag0 : PVSSAggregator E)
  (h : seq (call E)) (c : call E) :
  (0 < cfg_num_participants config)%N -> aggregator_new config ps = Ok ag0 ->
  let ag := run D b ag0 h in
  answer ag (call_msg c) (verification ag c) (receive D b ag c).1 (receive D b ag c).2.
Proof.
move=> n0 [<-] ag; rewrite -[MkAggregator _ _ _]/(new_aggregator config ps) in ag *.
apply: answers; first by rewrite /ag (proj1 (run_static _ _ _ _)).
exact/run_tx_ok/new_tx_ok.
Qed.

End Receive.
Print Assumptions C84_answers.
Print Assumptions C84_unique.

(** All the answers occur: a share that joins, one that was tampered with, one of a recorded
    dealer with another secret; a transcript with a foreign header, and one whose weight
    [2^64 - 4] does not fit on top of the recorded 4. *)
Example C84_example :
  let four := run TD Debug tag (nseq 4 (tcall (MsgShare sh2))) in
  let x1 := ag_aggregated_tx (run TD Debug tag [:: tcall (MsgShare sh2)]) in
  let ans m := (receive TD Debug four (tcall m)).1 in
  let big := MkAgg 4 1 (as_pvss_core x1)
               (bt_insert bt_new 2 (sh_signed_proof sh2, (2 ^ 64 - 4)%num)) in
  [/\ ans (MsgShare sh1) = Ok tt,
      ans (MsgShare (tamper_enc sh2 2 (f 9 : Enc TE))) = Panic UnwrapErr,
      ans (MsgShare (tshare 2 [:: f 8; f 5; f 4])) = Err TranscriptDifferentCommitments,
      ans (MsgTranscript (MkAgg 4 3 (as_pvss_core x1) (as_contributions x1))) = Panic UnwrapErr
    & ans (MsgTranscript big) = Panic ArithOverflow].
Proof. by vm_compute. Qed.
