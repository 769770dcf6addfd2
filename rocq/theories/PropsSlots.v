(** * PropsSlots: property C85, the slot checks the comments of aggregator.rs describe *)

From Coq Require Import NArith Strings.Byte.
From mathcomp Require Import all_ssreflect all_algebra zify.
From Verif Require Import Prelude Errors BTreeMap Engine LibModel PolyModel SigmaModel PvssModel
  SetupModel Spec PreludeProofs AlgebraProofs PolyProofs PvssProofs Instance
  PropsPoly PropsSigma PropsShare PropsAgg PropsHist PropsEnd PropsLimits PropsAttack PropsSetup
  PropsQuorum.

Set Implicit Arguments.
Unset Strict Implicit.
Unset Printing Implicit Defensive.

Import GRing.Theory.
Local Open Scope ring_scope.

(** ** The two checks *)

(** The block commented out at aggregator.rs:163-179: [(0..n).all(...)], which stops at the
    first slot whose product of two pairings is not one.  Not executed by /repo. *)
Fixpoint correct_encryptions (E : engine) (ag : PVSSAggregator E) (core : PVSSCore E)
  (ids : seq nat) : outcome pvss_error bool :=
  if ids is i :: ids' then
    let! participant := unwrap_opt (bt_get (ag_participants ag) i) in
    let! comm := index (comms core) i in
    let! enc := index (encs core) i in
    if product_of_pairings [:: (pa_public_key_sig participant, comm);
                               (- enc, srs_g2 (cfg_srs (ag_config ag)))] == 1
    then correct_encryptions ag core ids' else Ok false
  else Ok true.

Definition slot_check (E : engine) (ag : PVSSAggregator E) (core : PVSSCore E)
  : outcome pvss_error unit :=
  let! ok := correct_encryptions ag core (iota 0 (cfg_num_participants (ag_config ag))) in
  if ~~ ok then Err EncryptionCorrectnessError else Ok tt.

(** The check at aggregator.rs:190-203, for a vector [r] of coefficients.  The comment at
    lines 182-183 asks for [r_i] drawn for each [i]; the code passes [n] copies of one draw
    (line 188). *)
Definition batch_check (E : engine) (ag : PVSSAggregator E) (r : seq (Fr E)) (core : PVSSCore E)
  : outcome pvss_error unit :=
  let! acc := foldM (fun acc i =>
     let: (epsilon, pairs) := acc in
     let! enc := index (encs core) i in
     let! ri := index r i in
     let! participant := unwrap_opt (bt_get (ag_participants ag) i) in
     let! comm := index (comms core) i in
     Ok (epsilon + ri *: enc, rcons pairs (ri *: pa_public_key_sig participant, comm)))
    (0, [::]) (iota 0 (cfg_num_participants (ag_config ag))) in
  let: (epsilon, pairs) := acc in
  if product_of_pairings (rcons pairs (- epsilon, srs_g2 (cfg_srs (ag_config ag)))) != 1
  then Err EncryptionCorrectnessError else Ok tt.

Section Slots.
Variables (E : engine) (D : eddsa).
Implicit Types (ag : PVSSAggregator E) (core : PVSSCore E).
Local Notation q := (modulus E).

Lemma pair_check P Q P' Q' : (product_of_pairings [:: (P, Q); (- P', Q')] == 1 :> GT E)
  = (@pairing E P Q == pairing P' Q').
Proof.
rewrite /product_of_pairings /= mul1r pairingNl.
have h := pairing_neq0 P' Q'; apply/eqP/eqP => [e|->]; last by rewrite divff.
by rewrite -[LHS](divfK h) e mul1r.
Qed.

Definition slot_okb ag core (i : nat) : bool :=
  pairing (key_of ag i) (nth 0 (comms core) i)
  == pairing (nth 0 (encs core) i) (srs_g2 (cfg_srs (ag_config ag))).

Lemma correct_encryptionsE ag core ids : core_sized (ag_config ag) core -> registered ag ->
  {in ids, forall i, (i < cfg_num_participants (ag_config ag))%N} ->
  correct_encryptions ag core ids = Ok (all (slot_okb ag core) ids).
Proof.
move=> [se sc] reg; elim: ids => [//|i ids IH] lt /=.
have li := lt i (mem_head _ _); have [p hp] := reg i li.
rewrite hp /= (index_ok 0) ?sc //= (index_ok 0) ?se //= pair_check.
have -> : pairing (pa_public_key_sig p) (nth 0 (comms core) i) = pairing (key_of ag i) (nth 0 (comms core) i).
  by rewrite /key_of hp.
rewrite -/(slot_okb ag core i); case: ifP => //= _; apply: IH => j hj.
by apply: lt; rewrite inE hj orbT.
Qed.

(** The product the batched check compares with one, for any coefficients. *)
Lemma batch_checkE ag (r : seq (Fr E)) core : core_sized (ag_config ag) core -> registered ag ->
  let n := cfg_num_participants (ag_config ag) in
  (n <= size r)%N ->
  batch_check ag r core =
  if (\prod_(i < n) pairing (nth 0 r i *: key_of ag i) (nth 0 (comms core) i)
      == \prod_(i < n) pairing (nth 0 r i *: nth 0 (encs core) i) (srs_g2 (cfg_srs (ag_config ag))))
  then Ok tt else Err EncryptionCorrectnessError.
Proof.
move=> [se sc] reg n sr; rewrite /batch_check -/n.
pose g (acc : Enc E * seq (Enc E * Com E)) (i : nat) :=
  (acc.1 + nth 0 r i *: nth 0 (encs core) i,
   rcons acc.2 (nth 0 r i *: key_of ag i, nth 0 (comms core) i)).
rewrite (@foldM_ok _ _ _ _ g); last first.
  move=> [e ps] i; rewrite mem_iota add0n => /= li.
  rewrite (index_ok 0) ?se //= (index_ok 0) ?(leq_trans li) //=; have [p hp] := reg i li.
  by rewrite hp /= (index_ok 0) ?sc //= /g /key_of hp.
have gen e ps s : foldl g (e, ps) s =
    (e + \sum_(i <- s) nth 0 r i *: nth 0 (encs core) i,
     ps ++ [seq (nth 0 r i *: key_of ag i, nth 0 (comms core) i) | i <- s]).
  elim: s e ps => [|i s IH] e ps /=; first by rewrite big_nil addr0 cats0.
  by rewrite IH big_cons addrA cat_rcons.
rewrite gen add0r big_iota0 /= product_of_pairings_rcons product_of_pairingsE /= big_map big_iota0.
rewrite pairingNl pairing_suml; set A := \prod_(i < n) _; set B := \prod_(i < n) _.
have B0 : B != 0 by apply/prodf_neq0 => i _; exact: pairing_neq0.
have -> : (A / B != 1) = (A != B); last by case: eqP.
by congr (~~ _); apply/eqP/eqP => [e|->]; [rewrite -[A](divfK B0) e mul1r | rewrite divff].
Qed.

(** With the slots written over the two generators, the check is that a linear form of the
    coefficients vanishes. *)
Lemma batch_form ag core : core_sized (ag_config ag) core -> registered ag ->
  let n := cfg_num_participants (ag_config ag) in
  exists w : nat -> Fr E,
    (forall i, slot_ok ag core i <-> w i = 0) /\
    (forall r : seq (Fr E), (n <= size r)%N ->
       (batch_check ag r core = Ok tt <-> \sum_(i < n) nth 0 r i * w i = 0)).
Proof.
move=> sz reg n; pose g := pt_gen (G1 E); pose h := pt_gen (G2 E).
have g0 : g != 0 by exact: pt_gen_neq0. have h0 : h != 0 by exact: pt_gen_neq0.
have lg (C : curve q) (x y : pt C) : x != 0 -> y = odflt 0 [pick a : Fr E | y == a *: x] *: x.
  move=> x0; case: pickP => [a /eqP//|no]; have [a ea] := pt_cyclic y x0.
  by have := no a; rewrite ea eqxx.
pose a i := odflt 0 [pick a : Fr E | key_of ag i == a *: g].
pose b i := odflt 0 [pick a : Fr E | nth 0 (comms core) i == a *: h].
pose e i := odflt 0 [pick a : Fr E | nth 0 (encs core) i == a *: g].
pose c := odflt 0 [pick a : Fr E | srs_g2 (cfg_srs (ag_config ag)) == a *: h].
have ea i : key_of ag i = a i *: g by exact: lg.
have eb i : nth 0 (comms core) i = b i *: h by exact: lg.
have ee i : nth 0 (encs core) i = e i *: g by exact: lg.
have ec : srs_g2 (cfg_srs (ag_config ag)) = c *: h by exact: lg.
have inj (x y : Fr E) : pairing (x *: g) h = pairing (y *: g) h -> x = y.
  by move/(pairing_injl h0)/(scale_inj (modulus_prime E) g0).
exists (fun i => b i * a i - c * e i); split=> [i|r sr].
  rewrite /slot_ok ea eb ee ec -!pairingZ !scalerA.
  split=> [/inj/eqP|/eqP]; first by rewrite -subr_eq0 => /eqP.
  by rewrite subr_eq0 => /eqP->.
rewrite batch_checkE // -/n ec -pairing_suml -pairingZ.
have -> : \prod_(i < n) pairing (nth 0 r i *: key_of ag i) (nth 0 (comms core) i)
  = pairing ((\sum_(i < n) nth 0 r i * (b i * a i)) *: g) h.
  rewrite scaler_suml pairing_suml; apply: eq_bigr => i _.
  by rewrite ea eb -pairingZ !scalerA [b i * nth 0 r i]mulrC -mulrA.
set X := pairing (c *: _) _; have {X} -> : X = pairing ((\sum_(i < n) nth 0 r i * (c * e i)) *: g) h.
  congr pairing; rewrite scaler_suml scaler_sumr; apply: eq_bigr => i _.
  by rewrite ee !scalerA mulrCA mulrA.
have -> : \sum_(i < n) nth 0 r i * (b i * a i - c * e i)
  = \sum_(i < n) nth 0 r i * (b i * a i) - \sum_(i < n) nth 0 r i * (c * e i).
  by rewrite -sumrB; apply: eq_bigr => i _; rewrite mulrBr.
case: eqP => [/inj->|ne]; first by rewrite subrr.
by split=> // /eqP; rewrite subr_eq0 => /eqP eq; case: ne; rewrite eq.
Qed.

(** ** C85 *)

(** The block that is commented out accepts exactly the vectors whose slots are all right. *)
Theorem C85_commented_out ag core :
  core_sized (ag_config ag) core -> registered ag ->
  (slot_check ag core = Ok tt <->
   forall i, (i < cfg_num_participants (ag_config ag))%N -> slot_ok ag core i) /\
  (slot_check ag core <> Ok tt -> slot_check ag core = Err EncryptionCorrectnessError).
Proof.
move=> sz reg; rewrite /slot_check correct_encryptionsE //=; last by move=> i; rewrite mem_iota.
split; last by case: (all _ _).
split=> [|h].
  case e: (all _ _) => //= _ i li; apply/eqP.
  by have /allP := e; apply; rewrite mem_iota.
suff -> : all (slot_okb ag core) (iota 0 (cfg_num_participants (ag_config ag))) by [].
by apply/allP => i; rewrite mem_iota add0n => /= li; apply/eqP/h.
Qed.

(** The verifier in force uses [batch_check] on [n] copies of one draw. *)
Theorem C85_in_force b (R : rng E) ag (s : rstate R) (x : PVSSAggregatedShare E) :
  let n := cfg_num_participants (ag_config ag) in
  let t := cfg_degree (ag_config ag) in
  let core := as_pvss_core x in
  let deg := ensure_degree b s (comms core) t in
  let r := (rand_fr deg.2).1 in
  (n < q)%N -> fits n -> registered ag ->
  (aggregation_verify D b ag s x).1 = Ok tt <->
  [/\ core_sized (ag_config ag) core, deg.1 = Ok tt, batch_check ag (nseq n r) core = Ok tt,
      contributions_valid D ag (as_contributions x)
    & commits_to t (comms core) (weighted_gs (as_contributions x))].
Proof.
move=> n t core deg r nq fn reg; rewrite aggregation_verifyE // -/core -/t -/deg -/r.
have bc : core_sized (ag_config ag) core ->
    (batch_check ag (nseq n r) core = Ok tt <-> (r = 0 \/ slots_product_ok ag core)).
  move=> sz; rewrite batch_checkE ?size_nseq // -/n -pairs_product -/n.
  rewrite product_of_pairings_rcons product_of_pairingsE /= big_map big_iota0 pairingNl pairing_suml.
  rewrite (eq_bigr (fun i : 'I_n => pairing (r *: key_of ag i) (nth 0 (comms core) i))); last first.
    by move=> i _; rewrite nth_nseq ltn_ord.
  rewrite [X in _ == X](eq_bigr (fun i : 'I_n =>
    pairing (r *: nth 0 (encs core) i) (srs_g2 (cfg_srs (ag_config ag))))); last first.
    by move=> i _; rewrite nth_nseq ltn_ord.
  set A := \prod_(i < n) _; set B := \prod_(i < n) _.
  have B0 : B != 0 by apply/prodf_neq0 => i _; exact: pairing_neq0.
  have -> : (A / B == 1) = (A == B).
    by apply/eqP/eqP => [e|->]; [rewrite -[A](divfK B0) e mul1r | rewrite divff].
  by case: eqP.
by split=> -[sz dg pr cv cm]; split=> //; apply/bc.
Qed.

(** With coefficients drawn for each slot, as the comment has it, exactly one vector of
    coefficients in [q] lets a wrong slot pass, whatever the vectors. *)
Theorem C85_own_coefficients ag core :
  let n := cfg_num_participants (ag_config ag) in
  core_sized (ag_config ag) core -> registered ag ->
  #|[set r : n.-tuple (Fr E) | is_ok (batch_check ag r core)]|
  = if [forall i : 'I_n, slot_okb ag core i] then (q ^ n)%N else (q ^ n.-1)%N.
Proof.
move=> n sz reg; have [w [ws wr]] := batch_form sz reg.
have okE r : is_ok (batch_check ag (r : n.-tuple _) core) = (lin_form w r == 0).
  have := wr r; rewrite size_tuple => /(_ (leqnn _)); rewrite -/n.
  have -> : \sum_(i < n) nth 0 r i * w i = lin_form w r.
    by apply: eq_bigr => i _; rewrite (tnth_nth 0).
  move=> [h1 h2]; apply/is_okP/eqP => [[[]] /h1//|/h2 e]; by exists tt.
have -> : [set r : n.-tuple (Fr E) | is_ok (batch_check ag r core)] = [set r | lin_form w r == 0].
  by apply/setP => r; rewrite !inE okE.
case: ifP => [/forallP h|/negbT].
  rewrite (_ : [set _ | _] = setT) ?cardsT ?card_tuple ?card_Fp ?modulus_prime //.
  apply/setP => r; rewrite !inE; apply/eqP; rewrite /lin_form big1 // => i _.
  by have /ws -> : slot_ok ag core i; [apply/eqP/h | rewrite mulr0].
rewrite negb_forall => /existsP[i bad]; rewrite (@kernel_card _ _ w i) ?card_Fp ?modulus_prime //.
by apply: contra bad => /eqP/ws h; apply/eqP.
Qed.

(** With one coefficient for all the slots, as the code has it, the draws that pass are all
    [q] if the wrong slots cancel, and otherwise only zero. *)
Theorem C85_one_coefficient ag core :
  let n := cfg_num_participants (ag_config ag) in
  core_sized (ag_config ag) core -> registered ag ->
  exists w : nat -> Fr E,
    [/\ forall i, slot_ok ag core i <-> w i = 0,
        \sum_(i < n) w i = 0 -> forall r, batch_check ag (nseq n r) core = Ok tt
      & \sum_(i < n) w i != 0 -> forall r, batch_check ag (nseq n r) core = Ok tt <-> r = 0].
Proof.
move=> n sz reg; have [w [ws wr]] := batch_form sz reg; exists w.
have e r : batch_check ag (nseq n r) core = Ok tt <-> r * (\sum_(i < n) w i) = 0.
  rewrite wr ?size_nseq // mulr_sumr -/n.
  by rewrite (eq_bigr (fun i : 'I_n => r * w i)) // => i _; rewrite nth_nseq ltn_ord.
split=> // [h r|h r]; rewrite e; first by rewrite h mulr0.
by split=> [/eqP|->]; rewrite ?mul0r // mulf_eq0 (negbTE h) orbF => /eqP.
Qed.

(** What the block that is commented out would give: if it accepts and the commitments have
    low degree then every quorum, with the keys of the participants, reconstructs the one
    point [P] with [e(P, g2) = e(g1, S)], [S] the secret committed to. *)
Theorem C85_reconstructs b ag core (sk : nat -> Fr E) :
  let n := cfg_num_participants (ag_config ag) in
  let t := cfg_degree (ag_config ag) in
  let g1 := srs_g1 (cfg_srs (ag_config ag)) in
  let g2 := srs_g2 (cfg_srs (ag_config ag)) in
  (t < n)%N -> (n < q)%N -> fits n -> g2 != 0 -> registered ag -> core_sized (ag_config ag) core ->
  (forall i, (i < n)%N -> sk i != 0 /\ key_of ag i = sk i *: g1) ->
  low_degree t (comms core) -> slot_check ag core = Ok tt ->
  exists S, exists P,
    [/\ lagrange_interpolation_simple b (comms core) t = Ok S,
        forall P', pairing P' g2 = pairing g1 S <-> P' = P
      & forall ids, size ids = t.+1 -> uniq ids -> all (fun i => i < n)%N ids ->
          exists2 ds, mapM (fun i => decrypted_share_generate (encs core) (sk i) i
                                     : outcome pvss_error _) ids = Ok ds
                    & reconstruct b t ds = Ok P].
Proof.
move=> n t g1 g2 tn nq fn g20 reg sz keys [p sp ev] chk.
have [se sc] := sz; rewrite sc -/n in ev.
have ok : forall i, (i < n)%N -> slot_ok ag core i by apply/(proj1 (C85_commented_out sz reg)).
have ft : (N.of_nat t + 1 < 2 ^ 64)%num by move: fn; rewrite /fits; lia.
have [c hc] := pt_cyclic (pt_gen (G2 E)) g20.
exists (p.[0] *: pt_gen _), ((p.[0] * c) *: g1); split.
- apply: lagrange_simple_poly => //; last exact: leq_ltn_trans nq.
  by rewrite ev take_eval_vec.
- move=> P'; rewrite hc scalerA -pairingZ; split=> [h|-> //]; exact: (pairing_injl g20).
move=> ids sz' u lt.
exists [seq MkDec ((p.[@pnt E i] * c) *: g1) i | i <- ids].
  apply: mapM_ok_in => i hi; have li : (i < n)%N by have /allP := lt; apply.
  have [sk0 ky] := keys i li.
  rewrite /decrypted_share_generate (index_ok 0) ?se //= /inverse_unwrap (negbTE sk0) /=.
  congr (Ok (MkDec _ i)); have := ok i li.
  rewrite /slot_ok ky ev nth_eval_vec // hc scalerA -pairingZ => /(pairing_injl g20) <-.
  by rewrite !scalerA [(sk i)^-1 * _]mulrC divfK.
rewrite /reconstruct -!map_comp.
have -> : [seq (@dec E \o (fun i => MkDec ((p.[@pnt E i] * c) *: g1) i)) i | i <- ids]
    = eval_at (c *: p) g1 [seq @pnt E i | i <- ids].
  by rewrite /eval_at -map_comp; apply/eq_in_map => i _ /=; rewrite hornerZ mulrC.
rewrite (@C05_interpolation_g1 E) ?hornerZ ?[c * _]mulrC // ?size_map ?sz' //.
  by apply: leq_trans (size_scale_leq _ _) sp.
apply: take_uniq; rewrite map_inj_in_uniq // => i j hi hj.
by apply: (pnt_inj nq); have /allP := lt; apply.
Qed.

End Slots.
Print Assumptions C85_commented_out.
Print Assumptions C85_in_force.
Print Assumptions C85_own_coefficients.
Print Assumptions C85_one_coefficient.
Print Assumptions C85_reconstructs.

(** The transcript of C15, with a point moved from slot 1 to slot 0: the check in force
    passes for every draw, the block commented out refuses, and so does the check with the
    coefficients 1, 2, 3, 4.  The honest vectors pass all three. *)
Example C85_example :
  let core := sh_pvss_core sh2 in
  let es := encs core in
  let bad := @MkCore TE (set_nth 0 (set_nth 0 es 0 (nth 0 es 0 + f 1)) 1 (nth 0 es 1 - f 1)) (comms core) in
  let r := [:: f 1; f 2; f 3; f 4] in
  [/\ [&& is_ok (slot_check tag core), is_ok (batch_check tag r core)
        & is_ok (batch_check tag (nseq 4 (f 3)) core)],
      slot_check tag bad = Err EncryptionCorrectnessError,
      batch_check tag r bad = Err EncryptionCorrectnessError
    & [&& is_ok (batch_check tag (nseq 4 (f 3)) bad) & is_ok (batch_check tag (nseq 4 (f 5)) bad)]].
Proof. by vm_compute. Qed.
