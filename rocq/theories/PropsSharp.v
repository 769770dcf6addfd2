(** * PropsSharp: exact versions of C13, C31, C58 and C76 *)

From Coq Require Import NArith Strings.Byte.
From mathcomp Require Import all_ssreflect all_algebra zify.
From Verif Require Import Prelude Errors BTreeMap Engine LibModel PolyModel SigmaModel PvssModel
  Spec PreludeProofs AlgebraProofs PolyProofs PvssProofs AggProofs HistProofs Instance PropsPoly
  PropsSigma PropsShare PropsAgg PropsHist PropsEnd PropsLimits PropsAttack PropsMix.

Set Implicit Arguments.
Unset Strict Implicit.
Unset Printing Implicit Defensive.

Import GRing.Theory.
Local Open Scope ring_scope.

(** ** C13: exactly which vectors go with a signed proof *)

(** Given one share whose commitments lie on a polynomial, the others that are accepted with
    the same signed proof, and whose commitments lie on a polynomial, are those whose own slot
    fits and whose commitments differ by [x r(x)] for a polynomial [r] with [t] coefficients;
    [r] is unique, so there are as many commitment vectors as such [r]. *)
Theorem C13_exact_partial (E : engine) (D : eddsa) (b : build) (R : rng E)
  (ag : PVSSAggregator E) (s : rstate R) (sh : PVSSShare E) (es : seq (Enc E)) (cs : seq (Com E)) :
  let n := cfg_num_participants (ag_config ag) in
  let t := cfg_degree (ag_config ag) in
  let id := sh_participant_id sh in
  let sh' := MkShare id (MkCore es cs) (sh_signed_proof sh) in
  config_ok (ag_config ag) -> (share_verify D b ag s sh).1 = Ok tt ->
  low_degree t (comms (sh_pvss_core sh)) ->
  (share_verify D b ag s sh').1 = Ok tt /\ low_degree t cs <->
  [/\ size es = n,
      pairing (key_of ag id) (nth 0 cs id) = pairing (nth 0 es id) (srs_g2 (cfg_srs (ag_config ag)))
    & exists! r : {poly Fr E}, (size r <= t)%N /\
        cs = [seq e.1 + e.2 | e <- zip (comms (sh_pvss_core sh))
                                       (eval_vec ('X * r) (pt_gen (G2 E)) n)]].
Proof.
move=> n t id sh' ok acc ld; have [tn nq fn] := ok; rewrite -/n -/t in tn nq fn.
have gen0 := pt_gen_neq0 (G2 E).
have tq : (t.+1 < modulus E)%N by apply: leq_ltn_trans nq; exact: ltnW.
have tn' : (t < n)%N by apply: ltnW.
move: acc => /share_verifyE[] // p [g lid so [[se sc] deg cm] sv].
rewrite -/n in se sc; case: ld => P sP eP; rewrite sc in eP.
have inj_vec (p1 p2 : {poly Fr E}) : (size p1 <= t.+1)%N -> (size p2 <= t.+1)%N ->
    eval_vec p1 (pt_gen (G2 E)) n = eval_vec p2 (pt_gen (G2 E)) n -> p1 = p2.
  move=> s1 s2 e; apply/eqP; rewrite -subr_eq0; apply: contraT => d0.
  have sd : (size (p1 - p2)%R <= t.+1)%N by rewrite (leq_trans (size_add _ _)) // size_opp geq_max s1.
  have u : uniq [seq @pnt E i | i <- iota 0 t.+1].
    rewrite map_inj_in_uniq ?iota_uniq // => i j; rewrite !mem_iota !add0n !ltnS => /= li lj.
    exact: (pnt_inj_le tq).
  have /(max_poly_roots d0) : all (root (p1 - p2)) [seq @pnt E i | i <- iota 0 t.+1]; last first.
    by move/(_ u); rewrite size_map size_iota ltnNge sd.
  apply/allP => x /mapP[i]; rewrite mem_iota add0n => /= li ->.
  have ln : (i < n)%N by apply: leq_trans li _; exact: ltnW.
  rewrite rootE hornerD hornerN subr_eq0; apply/eqP.
  apply: (scale_inj (modulus_prime E) gen0).
  by have := congr1 (fun v => nth 0 v i) e; rewrite /= !nth_eval_vec.
have shiftE (r : {poly Fr E}) :
    [seq e.1 + e.2 | e <- zip (comms (sh_pvss_core sh)) (eval_vec ('X * r) (pt_gen (G2 E)) n)]
    = eval_vec (P + 'X * r) (pt_gen (G2 E)) n.
  apply: (@eq_from_nth _ 0); first by rewrite size_map size_zip sc !size_eval_vec minnn.
  move=> i; rewrite size_map size_zip sc size_eval_vec minnn => li.
  rewrite (nth_map (0, 0)) ?size_zip ?sc ?size_eval_vec ?minnn // nth_zip ?sc ?size_eval_vec //=.
  by rewrite {1}eP !nth_eval_vec // hornerD scalerDl.
have sX (r : {poly Fr E}) : (size r <= t)%N -> (size (P + 'X * r)%R <= t.+1)%N.
  move=> sr; rewrite (leq_trans (size_add _ _)) // geq_max sP /=.
  case: (eqVneq r 0) => [->|r0]; first by rewrite mulr0 size_poly0.
  by rewrite mulrC size_mulX.
split=> [[]|[ses so' [r [[sr ecs] _]]]].
  move=> /share_verifyE[] // p' [_ _ so' [[/= ses scs] _ /= cm'] _] [P' sP' eP'].
  rewrite -/n in ses scs; rewrite scs in eP'.
  have root0 : root (P' - P) 0.
    rewrite rootE hornerD hornerN subr_eq0; apply/eqP.
    apply: (scale_inj (modulus_prime E) gen0).
    have c0 : commits_to t (comms (sh_pvss_core sh)) (P.[0] *: pt_gen (G2 E)).
      by exists P; split=> //; rewrite {1}eP take_eval_vec.
    have c0' : commits_to t cs (P'.[0] *: pt_gen (G2 E)).
      by exists P'; split=> //; rewrite {1}eP' take_eval_vec.
    have tc : (t < size (comms (sh_pvss_core sh)))%N by rewrite sc.
    have tc' : (t < size cs)%N by rewrite scs.
    by rewrite (commits_to_fun tc tq c0 cm) (commits_to_fun tc' tq c0' cm').
  have [r er] := factor_theorem _ _ root0; rewrite subr0 in er.
  have sr : (size r <= t)%N.
    case: (eqVneq r 0) => [->|r0]; first by rewrite size_poly0.
    have := leq_trans (size_add P' (- P)) (_ : (_ <= t.+1)%N).
    by rewrite size_opp geq_max sP' sP er size_mulX // => /(_ isT).
  have eq' : P' = P + 'X * r by rewrite ['X * r]mulrC -er addrC subrK.
  split=> //; exists r; split; first by split; rewrite // shiftE -eq'.
  move=> r' [sr' er']; rewrite shiftE in er'.
  have := inj_vec _ _ (sX _ sr') sP' (etrans (esym er') eP'); rewrite eq'.
  by move/addrI/mulfI => <- //; rewrite polyX_eq0.
rewrite shiftE in ecs.
have scs : size cs = n by rewrite ecs size_eval_vec.
have lcs : low_degree t cs by exists (P + 'X * r); rewrite ?sX // scs.
split=> //; apply/share_verifyE => //; exists p; split=> //=; split=> //.
  by apply: low_degree_ok; rewrite ?scs.
have -> : dp_gs (sp_decomp_proof (sh_signed_proof sh)) = P.[0] *: pt_gen (G2 E).
  have tc : (t < size (comms (sh_pvss_core sh)))%N by rewrite sc.
  apply: (commits_to_fun tc tq cm).
  by exists P; split=> //; rewrite {1}eP take_eval_vec.
exists (P + 'X * r); split; rewrite ?sX //; first by rewrite ecs take_eval_vec.
by rewrite hornerD hornerM hornerX mul0r addr0.
Qed.
Print Assumptions C13_exact_partial.

(** ** C31: exactly which statements a knowledge proof proves *)

(** With a challenge that is not 0, the one statement [c^-1 (a - z g)]; with challenge 0, all
    statements or none. *)
Theorem C31_exact_partial (E : engine) (C : curve (modulus E)) (g x a : pt C) (ch z : Fr E) :
  let c := hash_to_field E DLK_PERSONA (pt_ser g ++ pt_ser a) in
  dlk_verify g x (DlkProof a ch z) = Ok tt <->
  ch = c /\ (if c == 0 then a = z *: g else x = c^-1 *: (a - z *: g)).
Proof.
move=> c; rewrite dlk_okE /= -/c; split=> -[-> h]; split=> //; move: h; case: eqP => c0.
- by rewrite c0 scale0r addr0.
- move=> <-; rewrite [z *: g + _]addrC addrK scalerA mulVf ?scale1r //; exact/eqP.
- by move=> ->; rewrite c0 scale0r addr0.
by move=> ->; rewrite scalerA mulfV ?scale1r 1?addrC ?subrK //; exact/eqP.
Qed.
Print Assumptions C31_exact_partial.

(** ** C58: exactly when the aggregator's own transcript is accepted *)

(** In a debug build it is if and only if every weight is below [2^63]; the call panics
    otherwise, and the state stays.  In a release build it always is. *)
Theorem C58_exact_partial (E : engine) (D : eddsa) (b : build) (ag : PVSSAggregator E)
  (R : rng E) (s : rstate R) :
  let x := ag_aggregated_tx ag in
  let: (r, ag') := receive D b ag (Call (MsgTranscript x) s) in
  config_ok (ag_config ag) -> registered ag -> good_tx D ag x ->
  [/\ r = Ok tt <-> (b = Release \/
        forall i sp w, bt_get (as_contributions x) i = Some (sp, w) -> (w < 2 ^ 63)%num),
      r <> Ok tt -> is_panic r /\ ag' = ag
    & r = Ok tt -> forall i sp w, bt_get (as_contributions x) i = Some (sp, w) ->
        bt_get (as_contributions (ag_aggregated_tx ag')) i = Some (sp, ((2 * w) mod 2 ^ 64)%num)].
Proof.
move=> x; case er: (receive _ _ _ _) => [r ag'] ok reg gt.
have [dx nx bx sx] := gt; have [[se sc] _ _ _ _] := sx.
have n0 : (0 < cfg_num_participants (ag_config ag))%N by have [tn _ _] := ok; apply: leq_trans tn.
have acc : (aggregation_verify D b ag s x).1 = Ok tt by apply: good_accepted gt.
have [h1 _ h3 h4 h5] := C18_transcript_errors b x x.
have nc i : ~ conflict_at x x i by case=> a [w [a' [w' [-> [<- _]]]]].
have sizes : [/\ (0 < size (comms (as_pvss_core x)))%N,
                   size (comms (as_pvss_core x)) = size (comms (as_pvss_core x)),
                   size (encs (as_pvss_core x)) = size (encs (as_pvss_core x))
                 & size (encs (as_pvss_core x)) = size (comms (as_pvss_core x))].
  by rewrite se sc.
have small : is_ok (agg_aggregate b x x) <-> (b = Release \/
    forall i sp w, bt_get (as_contributions x) i = Some (sp, w) -> (w < 2 ^ 63)%num).
  have p64 : (2 ^ 64 = 2 * 2 ^ 63)%num by [].
  rewrite h5; split=> [[_ _ nb]|h].
    case eb: b; [right|by left]; move=> i sp w g.
    have li : (i < as_num_participants x)%N by rewrite nx; apply: bx g.
    case: (N.ltb_spec w (2 ^ 63)) => // ge; case: (nb i li); right; split=> //.
    exists sp, w, sp, w; split=> //; rewrite p64; lia.
  split=> // i li [/nc//|[eb [a [w [a' [w' [ga [ga' ov]]]]]]]].
  case: h => [|h]; first by rewrite eb.
  move: ga'; rewrite ga => -[_ ew]; move: ov; rewrite -ew p64; have := h _ _ _ ga; lia.
move: er; rewrite -[Call _ s]/(with_coins _ (existT _ R s)) receive_tx_eq // -/x.
case mg: (agg_aggregate b x x) small => [z|e|pn] small [<- <-].
- split=> //; first by split=> // _; apply/small.
  move=> _ i sp w g; have /agg_okE[_ _ _ ms _] := mg.
  have li : (i < as_num_participants x)%N by rewrite nx; apply: bx g.
  have := ms i li; rewrite g /merge_slot eqxx /u64_add /u64_bound.
  have -> : (w + w = 2 * w)%num by lia.
  move: (2 * w)%num (2 ^ 64)%num => y m.
  case: N.ltb_spec => lt; first by rewrite obindE N.mod_small // => -[<-].
  by case: (b) => //; rewrite obindE => -[<-].
- by split=> //; split=> // h; have /small := h.
by split=> //; split=> // h; have /small := h.
Qed.
Print Assumptions C58_exact_partial.

(** ** C76: exactly which wrong values go unnoticed *)

(** The weight of point [j] among the first [t + 1]. *)
Definition weight (E : engine) (xs : seq (Fr E)) (t j : nat) : Fr E :=
  \prod_(k < t.+1 | k != j :> nat) (nth 0 xs k / (nth 0 xs k - nth 0 xs j)).

(** Two vectors of values give the same result exactly if the weighted sum of their
    differences, over the first [t + 1], is zero; with a value of one's own choice anything
    may be reached (next theorem). *)
Theorem C76_exact_partial (E : engine) (b : build) (t : nat) (points : seq (Fr E)) :
  (N.of_nat t + 1 < 2 ^ 64)%num -> (t < size points)%N -> uniq (take t.+1 points) ->
  (forall v v' : seq (Enc E), size v = size points -> size v' = size points ->
     lagrange_interpolation_g1 b v points t = lagrange_interpolation_g1 b v' points t <->
     \sum_(j < t.+1) weight points t j *: (nth 0 v j - nth 0 v' j) = 0) /\
  (forall v v' : seq (Com E), size v = size points -> size v' = size points ->
     lagrange_interpolation_g2 b v points t = lagrange_interpolation_g2 b v' points t <->
     \sum_(j < t.+1) weight points t j *: (nth 0 v j - nth 0 v' j) = 0).
Proof.
move=> tb tp u.
have gen (V : lmodType (Fr E)) (v : seq V) : size v = size points ->
    (let! few := too_few b (size v) t in
     if few then Err InsufficientEvaluationsError
     else if size v != size points then Err DifferentPointsEvalsError
     else lagrange_sum (index points) v t : outcome pvss_error V)
    = Ok (\sum_(j < t.+1) weight points t j *: nth 0 v j).
  move=> e; rewrite too_fewE // obindE e leqNgt tp eqxx /=.
  by rewrite (lagrange_sumE (index_pts tp) (pts_uniq tp u)) ?e.
have fin (V : lmodType (Fr E)) (v v' : seq V) :
    (Ok (\sum_(j < t.+1) weight points t j *: nth 0 v j) : outcome pvss_error V)
    = Ok (\sum_(j < t.+1) weight points t j *: nth 0 v' j) <->
    \sum_(j < t.+1) weight points t j *: (nth 0 v j - nth 0 v' j) = 0.
  have -> : \sum_(j < t.+1) weight points t j *: (nth 0 v j - nth 0 v' j)
      = \sum_(j < t.+1) weight points t j *: nth 0 v j - \sum_(j < t.+1) weight points t j *: nth 0 v' j.
    by rewrite -sumrB; apply: eq_bigr => j _; rewrite scalerBr.
  by split=> [[->]|/eqP]; rewrite ?subrr // subr_eq0 => /eqP->.
by split=> v v' e e'; rewrite /lagrange_interpolation_g1 /lagrange_interpolation_g2 !gen.
Qed.
Print Assumptions C76_exact_partial.

(** One wrong value suffices for any result: if the points are not zero, whoever supplies the
    value at [j <= t] decides the result, and there is exactly one value for each. *)
Theorem C76_any_result_refuted (E : engine) (b : build) (t j : nat) (points : seq (Fr E))
  (v : seq (Enc E)) (goal : Enc E) :
  (N.of_nat t + 1 < 2 ^ 64)%num -> (t < size points)%N -> uniq (take t.+1 points) ->
  0 \notin take t.+1 points -> size v = size points -> (j <= t)%N ->
  exists! P, lagrange_interpolation_g1 b (set_nth 0 v j P) points t = Ok goal.
Proof.
move=> tb tp u nz sv lj.
have lj' : (j < t.+1)%N by [].
have ss P : size (set_nth 0 v j P) = size points.
  by rewrite size_set_nth sv; apply/maxn_idPr; apply: leq_ltn_trans tp.
have c0 : weight points t j != 0.
  apply: (@lag_coef_neq0 _ (pts points)) => //; first exact: pts_uniq.
  move=> k lk; apply: contra nz => /eqP <-; rewrite /pts -(nth_take (n0 := t.+1) 0) //.
  by apply: mem_nth; rewrite size_takel.
pose rest := \sum_(i < t.+1 | i != Ordinal lj') weight points t i *: nth 0 v i.
have E1 P : lagrange_interpolation_g1 b (set_nth 0 v j P) points t = Ok (weight points t j *: P + rest).
  rewrite /lagrange_interpolation_g1 too_fewE // obindE ss leqNgt tp eqxx /=.
  rewrite (lagrange_sumE (index_pts tp) (pts_uniq tp u)) ?ss //; congr Ok.
  rewrite (bigD1 (Ordinal lj')) //= nth_set_nth /= eqxx; congr (_ + _).
  apply: eq_bigr => i ni; rewrite nth_set_nth /= ifN //.
exists ((weight points t j)^-1 *: (goal - rest)); split.
  by rewrite E1 scalerA mulfV // scale1r subrK.
by move=> P; rewrite E1 => -[<-]; rewrite addrK scalerA mulVf ?scale1r.
Qed.
Print Assumptions C76_any_result_refuted.

(** The honest share of participant 2 meets the conditions of C13; the aggregator that holds
    it, those of C58; two points and values those of C76 (a third value is not looked at). *)
Example C13_exact_example :
  [/\ config_ok (ag_config tag), (share_verify TD Debug tag ([:: f 1; f 9] : rstate (seq_rng TE)) sh2).1 = Ok tt
    & low_degree (cfg_degree (ag_config tag)) (comms (sh_pvss_core sh2))].
Proof.
have tc : config_ok tconfig by [].
split; [exact: tc | by vm_compute |].
have [p [pa [[sp ->] _ _ _ _]]] := @honest_dealt TE TD tag sh2 tc sh2_honest.
exact: low_degree_eval.
Qed.

Example C58_exact_example :
  [/\ config_ok (ag_config tag2), registered tag2, good_tx TD tag2 (ag_aggregated_tx tag2)
    & forall i sp w, bt_get (as_contributions (ag_aggregated_tx tag2)) i = Some (sp, w) ->
        (w < 2 ^ 63)%num].
Proof.
have tc : config_ok (ag_config tag2) by [].
split; [exact: tc | exact: tag_registered | exact: tag2_good |].
by move=> i sp w; rewrite bt_get1; case: eqP => // _ [_ <-].
Qed.

Example C76_exact_example :
  let ps : seq (Fr TE) := [:: f 1; f 2; f 3] in
  let run v := if @lagrange_interpolation_g1 TE Debug v ps 1 is Ok P then P else 0 in
  [/\ uniq (take 2 ps), 0 \notin take 2 ps, run [:: f 4; f 6; f 8] == (f 2 : Enc TE),
      run [:: f 5; f 8; f 8] == (f 2 : Enc TE) & run [:: f 4; f 7; f 8] != (f 2 : Enc TE)].
Proof. by split; vm_compute. Qed.
