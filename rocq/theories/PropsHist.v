(** * PropsHist: properties C20 to C25, about histories of an aggregator *)

From Coq Require Import NArith Strings.Byte Permutation.
From mathcomp Require Import all_ssreflect all_algebra zify.
From Verif Require Import Prelude Errors BTreeMap Engine LibModel PolyModel SigmaModel PvssModel
  Spec PreludeProofs AlgebraProofs PolyProofs PvssProofs AggProofs HistProofs Instance PropsShare
  PropsAgg.

Set Implicit Arguments.
Unset Strict Implicit.
Unset Printing Implicit Defensive.

Import GRing.Theory.
Local Open Scope ring_scope.

(** ** C20: the structural invariant *)

Theorem C20_structural_invariant (E : engine) (D : eddsa) (b : build) (config : Config E)
  (ps : btmap (Participant E)) (ag0 : PVSSAggregator E) (h : seq (call E)) :
  aggregator_new config ps = Ok ag0 ->
  let ag := run D b ag0 h in
  let x := ag_aggregated_tx ag in
  let n := cfg_num_participants config in
  [/\ ag_config ag = config /\ ag_participants ag = ps,
      as_degree x = cfg_degree config /\ as_num_participants x = n,
      size (encs (as_pvss_core x)) = n /\ size (comms (as_pvss_core x)) = n
    & forall i sp w, bt_get (as_contributions x) i = Some (sp, w) ->
      (i < n)%N /\
      exists p, [/\ bt_get ps i = Some p,
                    proof_valid (srs_g2 (cfg_srs config)) (sp_decomp_proof sp)
                  & eddsa_valid D (sp_signature_on_decomp sp)
                      (signed_digest (sp_decomp_proof sp)) (pa_public_key_ed p)]].
Proof.
case=> <- ag x n; rewrite -[MkAggregator _ _ _]/(new_aggregator config ps) in ag x *.
have [ec ep] := run_static D b (new_aggregator config ps) h.
have [[ed en] [se sc] cv ids] := run_tx_ok b h (new_tx_ok D config ps).
rewrite -/ag ec ep in ed en se sc ids *; split=> //.
move=> i sp w gi; split; first exact: ids gi.
by have [p] := cv _ _ _ gi; rewrite ep ec => gp [pv ev]; exists p.
Qed.
Print Assumptions C20_structural_invariant.

(** A history with a good share, a garbled one and a foreign transcript, ending with one
    contribution. *)
Definition tshare (i : nat) (coins : seq (Fr TE)) : PVSSShare TE :=
  if (@share TE TD Debug (seq_rng TE) (tnode i) coins).1 is Ok sh then sh
  else MkShare i (core_empty TE 4) (tsp 0).
Definition sh2 := tshare 2 [:: f 7; f 5; f 4].
Definition sh1 := tshare 1 [:: f 3; f 8; f 2].
Definition tcall (m : message TE) : call TE := @Call TE m (seq_rng TE) [:: f 1; f 9; f 3].
Definition thist : seq (call TE) :=
  [:: tcall (MsgShare sh2); tcall (MsgShare (tamper_enc sh1 1 (f 9 : Enc TE)));
      tcall (MsgTranscript ttx1)].
Example C20_example :
  size (accepted TD Debug tag thist) = 1%N /\
  keys (bt_iter (as_contributions (ag_aggregated_tx (run TD Debug tag thist)))) = [:: 2]%N.
Proof. by split; vm_compute. Qed.

(** ** C21: the commitments match the weighted contributions *)

Theorem C21_commitments_balanced (E : engine) (D : eddsa) (b : build) (config : Config E)
  (ps : btmap (Participant E)) (ag0 : PVSSAggregator E) (h : seq (call E)) :
  let t := cfg_degree config in
  let n := cfg_num_participants config in
  aggregator_new config ps = Ok ag0 ->
  (t < n)%N -> (n < modulus E)%N -> fits n ->
  (** the registered ids are exactly those below [n] *)
  (forall i, (i < n)%N <-> exists p, bt_get ps i = Some p) ->
  b = Debug \/ no_wrap_run D b ag0 h ->
  let x := ag_aggregated_tx (run D b ag0 h) in
  commits_to t (comms (as_pvss_core x))
    (\sum_(kv <- bt_iter (as_contributions x))
       (N.to_nat kv.2.2)%:R *: dp_gs (sp_decomp_proof kv.2.1)).
Proof.
move=> t n; case=> <-; rewrite -[MkAggregator _ _ _]/(new_aggregator config ps).
move=> tn nq fn reg nw x; have [ec _] := run_static D b (new_aggregator config ps) h.
have := @run_balanced E D b (new_aggregator config ps) h tn nq fn.
rewrite /tx_balanced ec; apply=> //.
- by move=> i li; apply/reg.
- by left=> i p gi; apply/reg; exists p.
- exact: new_tx_ok.
- exact: new_balanced.
Qed.
Print Assumptions C21_commitments_balanced.

(** A history with two shares and then the transcript of another aggregator. *)
Definition tother : PVSSAggregatedShare TE :=
  ag_aggregated_tx (run TD Debug tag [:: tcall (MsgShare sh2); tcall (MsgShare sh2)]).
Definition thist2 : seq (call TE) :=
  [:: tcall (MsgShare sh2); tcall (MsgShare sh1); tcall (MsgTranscript tother)].

Example C21_example :
  aggregator_new tconfig tparts = Ok tag /\
  (forall i, (i < 4)%N <-> exists p, bt_get tparts i = Some p) /\
  size (accepted TD Debug tag thist2) = 3%N /\
  [seq (kv.1, kv.2.2) | kv <- bt_iter (as_contributions (ag_aggregated_tx (run TD Debug tag thist2)))]
  = [:: (1%N, 1%num); (2%N, 3%num)].
Proof.
split=> //; split; last by split; vm_compute.
move=> i; split; first exact: tag_registered.
by case=> p; exact: tag_only_registered.
Qed.

(** ** C22: weights count accepted shares *)

Theorem C22_weights_count (E : engine) (D : eddsa) (b : build) (config : Config E)
  (ps : btmap (Participant E)) (ag0 : PVSSAggregator E) (h : seq (call E)) :
  aggregator_new config ps = Ok ag0 ->
  shares_only h -> (N.of_nat (size h) < 2 ^ 64)%num ->
  let x := ag_aggregated_tx (run D b ag0 h) in
  let acc := shares_of (accepted D b ag0 h) in
  let from i := [seq sh <- acc | sh_participant_id sh == i] in
  [/\ forall i, (from i = [::] -> bt_get (as_contributions x) i = None) /\
        (forall sh l, from i = sh :: l ->
           bt_get (as_contributions x) i = Some (sh_signed_proof sh, N.of_nat (size (from i)))),
      forall i sh sp w, List.In sh (from i) -> bt_get (as_contributions x) i = Some (sp, w) ->
        dp_gs (sp_decomp_proof (sh_signed_proof sh)) = dp_gs (sp_decomp_proof sp)
    & forall k, nth 0 (encs (as_pvss_core x)) k
                  = \sum_(sh <- acc) nth 0 (encs (sh_pvss_core sh)) k /\
                nth 0 (comms (as_pvss_core x)) k
                  = \sum_(sh <- acc) nth 0 (comms (sh_pvss_core sh)) k].
Proof.
case=> <-; rewrite -[MkAggregator _ _ _]/(new_aggregator config ps) => so small x acc from.
have [||lg lgs lc] := @run_logs E D b (new_aggregator config ps) [::] h so small.
- exact: new_tx_ok.
- exact: new_logs.
rewrite cat0s -/acc in lg lgs lc; split=> //.
  move=> i; have := lg i; rewrite -/x /of_id -/(from i).
  by case: (from i) => [|sh l] g; split=> // sh' l' [<- _].
move=> i sh sp w ini; have := lg i; rewrite -/x => ->.
have : forall a, List.In a (from i) -> List.In a acc /\ sh_participant_id a = i.
  by move=> a /In_of_id.
rewrite /of_id -/(from i); case: (from i) ini => [//|a l] ini h2 [<- _].
have [ia ea] : _ := h2 a (or_introl erefl); have [is1 es] := h2 sh ini.
by apply: lgs => //; rewrite ea.
Qed.
Print Assumptions C22_weights_count.

Definition thist3 : seq (call TE) :=
  [:: tcall (MsgShare sh2); tcall (MsgShare (tamper_enc sh1 1 (f 9 : Enc TE)));
      tcall (MsgShare sh1); tcall (MsgShare sh2)].
Example C22_example :
  shares_only thist3 /\ size (accepted TD Debug tag thist3) = 3%N /\
  [seq (kv.1, kv.2.2) | kv <- bt_iter (as_contributions (ag_aggregated_tx (run TD Debug tag thist3)))]
  = [:: (1%N, 1%num); (2%N, 2%num)].
Proof. by split; [|split]; vm_compute. Qed.

(** ** C23: order independence *)

Lemma Permutation_sum (T : Type) (V : zmodType) (F : T -> V) (s1 s2 : seq T) :
  Permutation s1 s2 -> \sum_(a <- s1) F a = \sum_(a <- s2) F a.
Proof.
elim=> [|a l l' _ IH|a a' l|l l' l'' _ -> _ ->] //; first by rewrite !big_cons IH.
by rewrite !big_cons addrCA.
Qed.

Lemma Permutation_filter (T : Type) (P : pred T) (s1 s2 : seq T) :
  Permutation s1 s2 -> Permutation [seq a <- s1 | P a] [seq a <- s2 | P a].
Proof.
elim=> [|a l l' _ IH|a a' l|l l' l'' _ IH _ IH'] /=; first by [].
- by case: ifP => // _; exact: perm_skip.
- by case: (P a); case: (P a') => //; exact: perm_swap.
- exact: Permutation_trans IH IH'.
Qed.

Lemma Permutation_size (T : Type) (s1 s2 : seq T) : Permutation s1 s2 -> size s1 = size s2.
Proof. exact: Permutation_length. Qed.

Theorem C23_order_independent (E : engine) (D : eddsa) (b b' : build) (config : Config E)
  (ps : btmap (Participant E)) (ag0 : PVSSAggregator E) (h h' : seq (call E)) :
  aggregator_new config ps = Ok ag0 ->
  shares_only h -> (N.of_nat (size h) < 2 ^ 64)%num ->
  shares_only h' -> (N.of_nat (size h') < 2 ^ 64)%num ->
  let acc := shares_of (accepted D b ag0 h) in
  let acc' := shares_of (accepted D b' ag0 h') in
  let x := ag_aggregated_tx (run D b ag0 h) in
  let x' := ag_aggregated_tx (run D b' ag0 h') in
  Permutation acc acc' ->
  same_transcript x x' /\
  ((forall sh sh', List.In sh acc -> List.In sh' acc ->
      sh_participant_id sh = sh_participant_id sh' -> sh_signed_proof sh = sh_signed_proof sh') ->
   x = x').
Proof.
case=> <-; rewrite -[MkAggregator _ _ _]/(new_aggregator config ps) => so small so' small' acc acc' x x' pm.
have [||lg lgs lc] := @run_logs E D b (new_aggregator config ps) [::] h so small.
- exact: new_tx_ok.
- exact: new_logs.
have [||lg' lgs' lc'] := @run_logs E D b' (new_aggregator config ps) [::] h' so' small'.
- exact: new_tx_ok.
- exact: new_logs.
rewrite cat0s -/acc -/x in lg lgs lc; rewrite cat0s -/acc' -/x' in lg' lgs' lc'.
have [ec _] := run_static D b (new_aggregator config ps) h.
have [ec' _] := run_static D b' (new_aggregator config ps) h'.
have [[ed en] [se sc] _ _] := run_tx_ok b h (new_tx_ok D config ps).
have [[ed' en'] [se' sc'] _ _] := run_tx_ok b' h' (new_tx_ok D config ps).
rewrite -/x ec in ed en se sc; rewrite -/x' ec' in ed' en' se' sc'.
have ecore : as_pvss_core x = as_pvss_core x'.
  case: (as_pvss_core x) (as_pvss_core x') lc lc' se sc se' sc' => [e k] [e' k'] /= lc lc' se sc se' sc'.
  congr MkCore; apply: (@eq_from_nth _ 0); rewrite ?se ?sc ?se' ?sc' // => i _.
    by have [-> _] := lc i; have [-> _] := lc' i; exact: Permutation_sum.
  by have [_ ->] := lc i; have [_ ->] := lc' i; exact: Permutation_sum.
have slot i : match of_id i acc, of_id i acc' with
  | a :: l, a' :: l' => [/\ size l = size l', List.In a acc, List.In a' acc
                          & sh_participant_id a = i /\ sh_participant_id a' = i]
  | [::], [::] => True | _, _ => False end.
  have pf : Permutation (of_id i acc) (of_id i acc') by exact: Permutation_filter.
  have in1 a : List.In a (of_id i acc) -> List.In a acc /\ sh_participant_id a = i by move/In_of_id.
  have in2 a : List.In a (of_id i acc') -> List.In a acc /\ sh_participant_id a = i.
    by move=> ia; apply: in1; apply: Permutation_in (Permutation_sym pf) ia.
  have := Permutation_size pf.
  case: (of_id i acc) in1 {pf} => [|a l] in1; case: (of_id i acc') in2 => [|a' l'] in2 //= [sl].
  by have [] := in1 a (or_introl erefl); have [] := in2 a' (or_introl erefl).
split.
  split=> //; rewrite ?ed ?en //= => i; rewrite lg lg'; have := slot i.
  case: (of_id i acc) => [|a l]; case: (of_id i acc') => [|a' l'] // [-> ia ia' [ea ea']].
  by split=> //; apply: lgs => //; rewrite ea.
move=> one; apply: agg_ext; rewrite ?ed ?en // => i; rewrite lg lg'; have := slot i.
case: (of_id i acc) => [|a l]; case: (of_id i acc') => [|a' l'] // [-> ia ia' [ea ea']].
by rewrite (one a a') // ea.
Qed.
Print Assumptions C23_order_independent.

Lemma accepted_size (E : engine) (D : eddsa) b (ag : PVSSAggregator E) h :
  (size (accepted D b ag h) <= size h)%N.
Proof.
elim: h ag => [|c h IH] ag //=; case: (receive D b ag c) => r ag'.
by case: ifP => _ //=; [exact: IH | exact: leqW].
Qed.

Lemma accepted_all (E : engine) (D : eddsa) b (ag : PVSSAggregator E) h :
  size (accepted D b ag h) = size h -> accepted D b ag h = map (@call_msg E) h.
Proof.
elim: h ag => [|c h IH] ag //=; case: (receive D b ag c) => r ag'.
case: ifP => _ /=; first by case=> /IH ->.
by move=> e; have := accepted_size D b ag' h; rewrite e ltnn.
Qed.

Example C23_example :
  let h := [:: tcall (MsgShare sh2); tcall (MsgShare sh1); tcall (MsgShare sh2)] in
  let h' := [:: tcall (MsgShare sh1); tcall (MsgShare sh2); tcall (MsgShare sh2)] in
  Permutation (shares_of (accepted TD Debug tag h)) (shares_of (accepted TD Release tag h')).
Proof.
move=> h h'.
have -> : accepted TD Debug tag h = map (@call_msg TE) h by apply: accepted_all; vm_compute.
have -> : accepted TD Release tag h' = map (@call_msg TE) h' by apply: accepted_all; vm_compute.
exact: perm_swap.
Qed.
