(** * PropsSmall: property C106, sessions with fewer than t + 2 participants

    Nothing in the crate compares the degree with the number of participants when a session is
    set up; the first function to do so is ensure_degree (C03). *)

From Coq Require Import NArith Strings.Byte.
From mathcomp Require Import all_ssreflect all_algebra zify.
From Verif Require Import Prelude Errors BTreeMap Engine LibModel PolyModel SigmaModel PvssModel
  Spec PreludeProofs AlgebraProofs PolyProofs PvssProofs AggProofs HistProofs Instance
  PropsPoly PropsSigma PropsShare PropsAgg PropsHist PropsEnd PropsLimits PropsVerdict.

Set Implicit Arguments.
Unset Strict Implicit.
Unset Printing Implicit Defensive.

Import GRing.Theory.
Local Open Scope ring_scope.

(** ** Specification *)

(** The degree test of a vector of length [n] when [n <= t + 1]: it fails, it panics, or it does
    not look at the vector. *)
Inductive small_step := Fails | Panics of panic | Skipped.
Definition degree_step (b : build) (n t : nat) : small_step :=
  if (n < t)%N then Fails
  else if n == t then Panics (if b is Debug then ArithOverflow else CapacityOverflow)
  else if b is Debug then Panics ArithOverflow else Skipped.

(** Answers [r] that are those of a degree test that always fails, except for how it reports it. *)
Definition reported (step : small_step) (r : outcome pvss_error unit) : outcome pvss_error unit :=
  if (step, r) is (Panics p, Err DualCodeError) then Panic p else r.

Section Small.
Variables (E : engine) (D : eddsa) (b : build).
Local Notation q := (modulus E).
Implicit Types (ag : PVSSAggregator E).

Definition small ag : Prop :=
  [/\ (cfg_num_participants (ag_config ag) <= (cfg_degree (ag_config ag)).+1)%N,
      (cfg_num_participants (ag_config ag) < q)%N & fits (cfg_num_participants (ag_config ag))].

Definition step_of ag : small_step :=
  degree_step b (cfg_num_participants (ag_config ag)) (cfg_degree (ag_config ag)).

Lemma ensure_degree_small R (s : rstate R) (v : seq (Com E)) t :
  (size v <= t.+1)%N -> (size v < q)%N ->
  ensure_degree b s v t =
  (match degree_step b (size v) t with
   | Fails => Err InsufficientEvaluationsError | Panics p => Panic p | Skipped => Ok tt end, s).
Proof.
move=> le nq; rewrite /degree_step; case: ltngtP => h.
- by rewrite ensure_degree_short.
- have e : size v = t.+1 by lia.
  by rewrite ensure_degree_succ //; case: (b).
- by rewrite ensure_degree_eq //; case: (b).
Qed.

(** ** C106 *)

Theorem C106_share (R : rng E) ag (s : rstate R) (sh : PVSSShare E) :
  small ag ->
  let r := (share_verify D b ag s sh).1 in
  (share_verify D b ag s sh).2 = s /\
  match step_of ag with
  | Skipped => share_verdict D ag (fun _ _ => True) sh r 0
  | step => exists2 r', share_verdict D ag (fun _ _ => False) sh r' 0 & r = reported step r'
  end.
Proof.
move=> [le nq fn] r; rewrite {}/r /share_verify; set id := sh_participant_id sh.
set core := sh_pvss_core sh.
have early (o : outcome pvss_error unit) :
    (forall step, reported step o = o) -> (forall test, share_verdict D ag test sh o 0) ->
    (o, s).2 = s /\
    match step_of ag with
    | Skipped => share_verdict D ag (fun _ _ => True) sh (o, s).1 0
    | step => exists2 r', share_verdict D ag (fun _ _ => False) sh r' 0 & (o, s).1 = reported step r'
    end.
  by move=> ro h; split=> //; case: (step_of ag) => [|p|]; [exists o | exists o | exact: h].
case g: (bt_get _ id) => [p|] /=; last by apply: early => [[]//|test]; exact: SV_unknown.
case: (ltnP id (size (comms core))) => l1; last first.
  rewrite index_oob //=; apply: early => [[]//|test]; apply: (SV_index D _ g).
  by apply: leq_trans l1; exact: geq_minl.
rewrite (index_ok 0) //=; case: (ltnP id (size (encs core))) => l2; last first.
  rewrite index_oob //=; apply: early => [[]//|test]; apply: (SV_index D _ g).
  by apply: leq_trans l2; exact: geq_minr.
have lm : (id < minn (size (comms core)) (size (encs core)))%N by rewrite leq_min l1.
rewrite (index_ok 0) //= product2.
have so : slot_ok ag core id <-> pairing (pa_public_key_sig p) (nth 0 (comms core) id)
    = pairing (nth 0 (encs core) id) (srs_g2 (cfg_srs (ag_config ag))).
  by rewrite /slot_ok /key_of g.
case: eqP => /= /so pe; last by apply: early => [[]//|test]; exact: SV_slot g lm pe.
rewrite /core_verify; case: eqP => [se|ne] /=; last first.
  by apply: early => [[]//|test]; apply: SV_sizes g lm pe _ => -[].
case: eqP => [sc|ne] /=; last by apply: early => [[]//|test]; apply: SV_sizes g lm pe _ => -[].
have cs : core_sized (ag_config ag) core by [].
have m0 : (cfg_num_participants (ag_config ag) - (cfg_degree (ag_config ag)).+1 = 0)%N by lia.
have chk test o H := @SV_checks E D ag test sh p o g ltac:(by rewrite -/id -sc) pe cs H.
rewrite /= m0 in chk.
rewrite ensure_degree_small ?sc // /step_of; case st: (degree_step _ _ _) => [|pn|] /=; split=> //.
- by exists (Err DualCodeError) => //; apply: chk; constructor 1; split=> // -[].
- by exists (Err DualCodeError) => //; apply: chk; constructor 1; split=> // -[].
have [P -> hP] := @interpolation_total E b (cfg_degree (ag_config ag)) (comms core)
  ltac:(by move: st; rewrite sc /degree_step; case: ltngtP => //) ltac:(by rewrite sc) ltac:(by rewrite sc).
apply: chk => /=; case: eqP => [/esym/hP hs|ns] /=; last by constructor 2; split=> //; split=> // /hP/esym.
case: (signed_verify_cases D (ag_config ag) (sh_signed_proof sh) (pa_public_key_ed p)) => -[-> sv] /=.
  by constructor 4.
by constructor 3.
Qed.

Theorem C106_transcript (R : rng E) ag (s : rstate R) (x : PVSSAggregatedShare E) :
  small ag ->
  let r := (aggregation_verify D b ag s x).1 in
  match step_of ag with
  | Skipped => exists k, (aggregation_verify D b ag s x).2 = after k s /\
                         tx_verdict D ag (fun _ _ => True) ((rand_fr s).1 = 0) x r k
  | step => (aggregation_verify D b ag s x).2 = s /\
            exists2 r', tx_verdict D ag (fun _ _ => False) True x r' 0 & r = reported step r'
  end.
Proof.
move=> [le nq fn] r; rewrite {}/r /aggregation_verify; set core := as_pvss_core x.
have early (o := Err (MismatchedCommitsEncryptionsParticipantsError (size (encs core))
    (size (comms core)) (cfg_num_participants (ag_config ag))) : outcome pvss_error unit) :
    ~ core_sized (ag_config ag) core ->
    match step_of ag with
    | Skipped => exists k, (o, s).2 = after k s /\ tx_verdict D ag (fun _ _ => True) ((rand_fr s).1 = 0) x (o, s).1 k
    | step => (o, s).2 = s /\ exists2 r', tx_verdict D ag (fun _ _ => False) True x r' 0 & (o, s).1 = reported step r'
    end.
  move=> nz; case: (step_of ag) => [|p|]; [split=> //; exists o => //.. |];
    by [exact: TV_sizes | exists 0%N; split=> //; exact: TV_sizes].
case: eqP => [se|ne] /=; last by apply: early => -[].
case: eqP => [sc|ne] /=; last by apply: early => -[].
have cs : core_sized (ag_config ag) core by [].
have m0 : (cfg_num_participants (ag_config ag) - (cfg_degree (ag_config ag)).+1 = 0)%N by lia.
have dg r0 test H := @TV_degree E D ag test r0 x cs H; rewrite /= m0 in dg.
have chk test r0 o T H := @TV_checks E D ag test r0 x o cs T H; rewrite /= m0 in chk.
rewrite ensure_degree_small ?sc // /step_of; case st: (degree_step _ _ _) => [|pn|] /=.
- by split=> //; exists (Err DualCodeError) => //; exact: dg.
- by split=> //; exists (Err DualCodeError) => //; exact: dg.
have [P -> hP] := @interpolation_total E b (cfg_degree (ag_config ag)) (comms core)
  ltac:(by move: st; rewrite sc /degree_step; case: ltngtP => //) ltac:(by rewrite sc) ltac:(by rewrite sc).
exists 1%N; rewrite /after /=; case: (rand_fr s) => r s'' /=; split=> //.
apply: chk => //; case: (boolP [forall i : 'I_(cfg_num_participants (ag_config ag)),
           isSome (bt_get (ag_participants ag) i)]) => [/forallP reg|nr]; last first.
  have nr' : ~ registered ag.
    by move=> reg; case/forallPn: nr => i; have [p ->] := reg i (ltn_ord i).
  by constructor 1; rewrite encryption_pairs_missing.
have {}reg : registered ag.
  by move=> i li; have := reg (Ordinal li) => /=; case: (bt_get _ i) => // p _; exists p.
rewrite encryption_pairsE //=; have [pp pp'] := pairs_product ag r core.
case: ifP => [/negP h|/negbFE/pp h]; first by constructor 2; split=> //; split=> // /pp'.
case: (contributions_cases D ag (as_contributions x)) => [[-> cv]|[i fb ->]] /=; last first.
  by constructor 3; exists i.
constructor 4; split=> //; case: eqP => [/hP ht|nt]; [by right | left].
by split=> // /hP.
Qed.

(** Unless the test is skipped nothing is ever accepted, and the aggregator stays as it was. *)
Theorem C106_stuck ag (h : seq (call E)) :
  small ag -> (b = Release -> cfg_num_participants (ag_config ag) <> (cfg_degree (ag_config ag)).+1) ->
  run D b ag h = ag /\ accepted D b ag h = [::].
Proof.
move=> sm nf; have ns : step_of ag <> Skipped.
  have [le _ _] := sm; rewrite /step_of /degree_step; case: ltngtP => // lt.
  by case: (b) nf => // /(_ erefl) []; lia.
have nsh R (s : rstate R) sh : (share_verify D b ag s sh).1 <> Ok tt.
  have [_] := @C106_share R ag s sh sm; move: ns; case: (step_of ag) => [|pn|] // _ [r' sv ->];
    by case: sv => // p r _ _ _ _ t m /= [[-> _]|[-> []]|[-> []]|[-> []]].
have nag R (s : rstate R) x : (aggregation_verify D b ag s x).1 <> Ok tt.
  have := @C106_transcript R ag s x sm; move: ns; case: (step_of ag) => [|pn|] // _ [_ [r' sv ->]];
    by case: sv.
elim: h => [//|c h [IHr IHa]] /=; case: c => -[sh|x] R s /=; rewrite /receive /=.
- have [C _] := @C19_failed_receive E D b R ag s.
  have := C sh; case: (receive_share D b ag s sh) => [[o ag'] s'] /=.
  case: ifP => [ok [_ _ /nsh//]|nok ->]; by split.
have [_ C] := @C19_failed_receive E D b R ag s.
have := C x; case: (receive_aggregated_share D b ag s x) => [[o ag'] s'] /=.
case: ifP => [ok [_ _ /nag//]|nok ->]; by split.
Qed.

(** If it is skipped nothing is lost: every vector of [t + 1] points is of degree at most [t], and
    what honest nodes deal is accepted. *)
Theorem C106_exact_fit ag :
  small ag -> b = Release -> cfg_num_participants (ag_config ag) = (cfg_degree (ag_config ag)).+1 ->
  (forall v : seq (Com E), size v = cfg_num_participants (ag_config ag) ->
     low_degree (cfg_degree (ag_config ag)) v) /\
  (forall (b' : build) (R R' : rng E) (node : Node E) (s : rstate R) (s' : rstate R')
      (pa : Participant E) (sh : PVSSShare E),
     ag_config ag = ag_config (nd_aggregator node) ->
     ag_participants ag = ag_participants (nd_aggregator node) ->
     bt_get (ag_participants ag) (pa_id (de_participant (nd_dealer node))) = Some pa ->
     works_on D (de_private_key_ed (nd_dealer node)) (pa_public_key_ed pa) (dealt_digest sh) ->
     (share D b' node s).1 = Ok sh -> (share_verify D b ag s' sh).1 = Ok tt).
Proof.
move=> sm bR en; have [le nq fn] := sm; split=> [v sv|].
  have [P [p [sp ep _]]] : exists P, commits_to (cfg_degree (ag_config ag)) v P.
    by apply: commits_to_exists; rewrite -?en ?sv.
  by exists p => //; rewrite sv en -ep take_oversize // sv en.
move=> b' R R' node s s' pa sh ec ep gid wk sok.
have ft : fits (cfg_degree (ag_config (nd_aggregator node))).+1 by rewrite -ec -en.
rewrite ep in gid; have [_] := share_dealt ft gid wk sok.
case=> p [pa' [[sp ecore] lid gid' egs sv]].
have ek i : key_of ag i = key_of (nd_aggregator node) i by rewrite /key_of ep.
have {}ecore : sh_pvss_core sh = core_of ag p.
  by rewrite ecore /core_of ec /enc_vec (eq_map (fun i => congr1 (fun k => _ *: k) (ek i))).
apply/share_verifyE => //; exists pa'; rewrite ecore ep ec; split=> //.
  by apply: core_of_slot; rewrite ec.
rewrite egs -ec; have se : size (comms (core_of ag p)) = cfg_num_participants (ag_config ag).
  by have [] := core_of_sized ag p.
split; [exact: core_of_sized | |].
  by rewrite bR ensure_degree_succ // se.
apply: commits_to_eval; first by rewrite ec.
by rewrite [comms _]/= take_eval_vec // en.
Qed.
End Small.
Print Assumptions C106_share.
Print Assumptions C106_transcript.
Print Assumptions C106_stuck.
Print Assumptions C106_exact_fit.

(** Four participants and degrees 3, 4 and 5: dealing works, and what the others make of it. *)
Definition small_node (t i : nat) : Node TE :=
  MkNode (MkAggregator (MkConfig tsrs t 4) tparts (agg_empty TE t 4)) (tdealer i).
Example C106_example :
  let ask b t := if (@share TE TD b (seq_rng TE) (small_node t 2) [:: f 7; f 5; f 4; f 2; f 3; f 1; f 9]).1 is Ok sh
    then let: (r, s) := @share_verify TE TD b (seq_rng TE) (nd_aggregator (small_node t 1)) [:: f 1; f 9] sh in
         Some (r, size (s : seq (Fr TE)))
    else None in
  [/\ forall t, t \in [:: 3; 4; 5]%N -> small (nd_aggregator (small_node t 1)),
      [/\ ask Release 3%N = Some (Ok tt, 2%N) & ask Debug 3%N = Some (Panic ArithOverflow, 2%N)],
      [/\ ask Release 4%N = Some (Panic CapacityOverflow, 2%N) & ask Debug 4%N = Some (Panic ArithOverflow, 2%N)]
    & [/\ ask Release 5%N = Some (Err DualCodeError, 2%N) & ask Debug 5%N = Some (Err DualCodeError, 2%N)]].
Proof.
split; try by split; vm_compute.
by move=> t; rewrite !inE => /or3P[] /eqP->.
Qed.
