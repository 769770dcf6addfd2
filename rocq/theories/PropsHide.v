(** * PropsHide: property C86, what a dealing gives away to t participants *)

From Coq Require Import NArith Strings.Byte.
From mathcomp Require Import all_ssreflect all_algebra zify.
From Verif Require Import Prelude Errors BTreeMap Engine LibModel PolyModel SigmaModel PvssModel
  Spec PreludeProofs AlgebraProofs PolyProofs PvssProofs Instance PropsPoly PropsShare.

Set Implicit Arguments.
Unset Strict Implicit.
Unset Printing Implicit Defensive.

Import GRing.Theory.
Local Open Scope ring_scope.

(** ** C86: a simulator for everything [share_pvss] publishes *)

Section Simulator.
Variable E : engine.
Local Notation F := (Fr E).

(** The Lagrange coefficient of the [j]-th of the points [xs], at [x]. *)
Definition lagrange_at (xs : seq F) (j : nat) (x : F) : F :=
  \prod_(k < size xs | k != j :> nat) ((x - nth 0 xs k) / (nth 0 xs j - nth 0 xs k)).

(** [p(i + 1) B], for the polynomial [p] with [p(0) B = P0] and [p(j + 1) = a_j] for the
    participants [js]: made from [P0] and [B], without [p(0)]. *)
Definition in_exponent (V : lmodType F) (js : seq nat) (a : seq F) (P0 B : V) (i : nat) : V :=
  let xs := 0 :: [seq j.+1%:R | j <- js] in
  lagrange_at xs 0 i.+1%:R *: P0
  + \sum_(j < size js) (lagrange_at xs j.+1 i.+1%:R * nth 0 a j) *: B.

(** The simulator.  It is given the points [S2] and [Z], the values [a] it wants the
    participants [js] to have, the keys of these, and for each other participant [i] the
    factor [bk i] of its key over [Y]. *)
Definition sim_core (n : nat) (g2 : Com E) (js : seq nat) (key : nat -> Enc E) (bk : nat -> F)
  (S2 : Com E) (Y Z : Enc E) (a : seq F) : PVSSCore E :=
  MkCore [seq if i \in js then nth 0 a (seq.index i js) *: key i
              else bk i *: in_exponent js a Z Y i | i <- iota 0 n]
         [seq in_exponent js a S2 g2 i | i <- iota 0 n].

Lemma in_exponentE (V : lmodType F) (js : seq nat) (a : seq F) (s : F) (B : V) (p : {poly F}) i :
  uniq (0 :: [seq j.+1%:R : F | j <- js]) -> size a = size js -> (size p <= (size js).+1)%N ->
  p.[0] = s -> (forall j, (j < size js)%N -> p.[(nth 0%N js j).+1%:R] = nth 0 a j) ->
  in_exponent js a (s *: B) B i = p.[i.+1%:R] *: B.
Proof.
move=> u sa sp p0 pj; rewrite /in_exponent; set xs := 0 :: _; set z : F := i.+1%:R.
have sxs : size xs = (size js).+1 by rewrite /= size_map.
pose x k := nth 0 xs k.
have xinj k l : (k < (size js).+1)%N -> (l < (size js).+1)%N -> x k = x l -> k = l.
  by rewrite -sxs => lk ll /eqP; rewrite nth_uniq // => /eqP.
have px k : (k < (size js).+1)%N -> p.[x k] = nth 0 (s :: a) k.
  case: k => [|k] lk; first by rewrite p0.
  by rewrite /x /= (nth_map 0%N) // pj.
have lag k : (k < (size js).+1)%N -> lagrange_at xs k z = (node_poly x (size js).+1 k).[z] / node_den x (size js).+1 k.
  move=> lk; rewrite /lagrange_at /node_poly /node_den horner_prod -prodf_div sxs.
  by apply: eq_bigr => l _; rewrite !hornerE.
rewrite scalerA -scaler_suml -scalerDl; congr (_ *: _).
have := interpP xinj sp; rewrite /interp => /(congr1 (fun r : {poly F} => r.[z])) <-.
rewrite horner_sum big_ord_recl; congr (_ + _).
  by rewrite hornerZ px // lag // mulrC mulrA mulrAC.
apply: eq_bigr => j _; rewrite hornerZ px // lag // ?ltnS //=.
by rewrite [RHS]mulrC mulrA mulrAC.
Qed.

(** What the simulator makes is what [p] deals. *)
Lemma sim_coreE (ag : PVSSAggregator E) (js : seq nat) (bk : nat -> F) (Y : Enc E) (p : {poly F}) :
  let n := cfg_num_participants (ag_config ag) in
  let g2 := srs_g2 (cfg_srs (ag_config ag)) in
  (n < modulus E)%N -> uniq js -> all (fun j => j < n)%N js -> (size p <= (size js).+1)%N ->
  (forall i, (i < n)%N -> i \notin js -> key_of ag i = bk i *: Y) ->
  sim_core n g2 js (key_of ag) bk (p.[0] *: g2) Y (p.[0] *: Y) [seq p.[j.+1%:R] | j <- js]
  = core_of ag p.
Proof.
move=> n g2 nq u /allP lt sp keys.
have uxs : uniq (0 :: [seq j.+1%:R : F | j <- js]).
  rewrite /= map_inj_in_uniq ?u ?andbT => [|i j /lt li /lt lj]; last exact: (pnt_inj nq).
  apply/negP => /mapP[j /lt lj /esym/eqP]; apply/negP; exact: (pnt_neq0 nq lj).
have ie V B i : @in_exponent V js [seq p.[j.+1%:R] | j <- js] (p.[0] *: B) B i = p.[i.+1%:R] *: B.
  apply: in_exponentE => //; first by rewrite size_map.
  by move=> j lj; rewrite (nth_map 0%N).
rewrite /sim_core /core_of -/n -/g2; congr MkCore.
  rewrite /enc_vec; apply/eq_in_map => i; rewrite mem_iota add0n => /= li.
  case: ifP => [hi|/negbT hi]; last by rewrite ie keys // !scalerA mulrC.
  by rewrite (nth_map 0%N) ?index_mem // nth_index.
rewrite /eval_vec -[1%N in RHS]addn0 iotaDl -map_comp.
by apply: eq_map => i; rewrite ie.
Qed.

End Simulator.

Section Hiding.
Variables (E : engine) (b : build) (node : Node E).
Local Notation F := (Fr E).
Let ag := nd_aggregator node.
Let config := ag_config ag.
Let t := cfg_degree config.
Let n := cfg_num_participants config.
Let g2 := srs_g2 (cfg_srs config).
Let id := pa_id (de_participant (nd_dealer node)).

(** The secret and the values of the participants [js], for the coefficients [c]. *)
Definition sim_view (js : t.-tuple nat) (c : t.+1.-tuple F) : t.+1.-tuple F :=
  [tuple of (Poly c).[0] :: [tuple of [seq (Poly c).[j.+1%:R] | j <- js]]].

Lemma sim_view_bij (js : t.-tuple nat) : (n < modulus E)%N -> uniq js ->
  all (fun j => j < n)%N js -> bijective (sim_view js).
Proof.
move=> nq u lt.
have sp (c : t.+1.-tuple F) : (size (Poly c) <= t.+1)%N by apply: leq_trans (size_Poly _) _; rewrite size_tuple.
have uxs : uniq (0 :: [seq j.+1%:R : F | j <- js]).
  have /allP lt' := lt; rewrite /= map_inj_in_uniq ?u ?andbT => [|i j /lt' li /lt' lj]; last exact: (pnt_inj nq).
  apply/negP => /mapP[j /lt' lj /esym/eqP]; apply/negP; exact: (pnt_neq0 nq lj).
have xinj k l : (k < t.+1)%N -> (l < t.+1)%N ->
    nth 0 (0 :: [seq j.+1%:R : F | j <- js]) k = nth 0 (0 :: [seq j.+1%:R : F | j <- js]) l -> k = l.
  by move=> lk ll /eqP; rewrite nth_uniq //= ?size_map ?size_tuple // => /eqP.
apply: injF_bij => c d /(congr1 val) /= [e0 ej]; apply: Poly_inj.
apply: (poly_ext xinj (sp c) (sp d)) => -[|k] lk /=; first exact: e0.
have lk' : (k < size js)%N by rewrite size_tuple.
by have := congr1 (fun l => nth 0 l k) ej; rewrite !(nth_map 0%N).
Qed.

Lemma sim_view_zero (js : t.-tuple nat) (c : t.+1.-tuple F) : bijective (sim_view js) ->
  all (fun x => x == 0) (sim_view js c) = all (fun x => x == 0) c.
Proof.
move=> /bij_inj vinj.
have nz (d : t.+1.-tuple F) : reflect (d = [tuple 0 | i < t.+1]) (all (fun x => x == 0) d).
  apply: (iffP allP) => [h|-> x /tnthP[i ->]]; last by rewrite tnth_mktuple.
  by apply: eq_from_tnth => i; rewrite tnth_mktuple; apply/eqP/h/mem_tnth.
have v0 : sim_view js [tuple 0 | i < t.+1] = [tuple 0 | i < t.+1].
  have p0 : Poly [tuple (0 : F) | i < t.+1] = 0.
    apply/polyP => i; rewrite coef_Poly coef0; case: (ltnP i t.+1) => li.
      by rewrite -[i]/(val (Ordinal li)) -tnth_nth tnth_mktuple.
    by rewrite nth_default ?size_tuple.
  apply: eq_from_tnth => i; rewrite tnth_mktuple (tnth_nth 0) /= p0.
  by case: i => [[|i]] li //=; rewrite ?horner0 // (nth_map 0%N) ?size_tuple // horner0.
by apply/nz/nz => [h|->]; [apply: vinj; rewrite h v0 | exact: v0].
Qed.

(** Any [t] participants [js]; the keys of the others are known multiples of a point [Y].
    Whatever one tests of the published vectors and the secret: it holds for as many of the
    sequences of coefficients a dealer may draw as it holds of what the simulator makes,
    from the points [S2 = s g2] and [Z = s Y], for secrets [s] and values [a] of the [js].
    (The one dealing that fails, all coefficients zero, is left out on both sides.)  The
    simulator is not given [s]. *)
Theorem C86_simulated (js : t.-tuple nat) (bk : nat -> F) (Y : Enc E)
  (test : PVSSCore E -> F -> bool) :
  (t < n)%N -> (n < modulus E)%N -> fits n -> registered ag -> (id < n)%N ->
  uniq js -> all (fun j => j < n)%N js ->
  (forall i, (i < n)%N -> i \notin (js : seq nat) -> key_of ag i = bk i *: Y) ->
  #|[set c : t.+1.-tuple F |
      if (share_pvss b node (c : rstate (seq_rng E))).1 is Ok (core, secrets)
      then test core (ss_p_0 secrets) else false]|
  = #|[set v : t.+1.-tuple F |
      let s := thead v in
      let a := behead v in
      ~~ all (fun x => x == 0) v
      && test (sim_core n g2 js (key_of ag) bk (s *: g2) Y (s *: Y) a) s]|.
Proof.
move=> tn nq fn reg lid u lt keys; have bij := sim_view_bij nq u lt.
rewrite -[RHS](on_card_preimset (f := sim_view js)); last exact: onW_bij.
apply: eq_card => c; rewrite !inE sim_view_zero //=.
have ft : fits t.+1 by move: fn; rewrite /fits; lia.
rewrite (@share_pvss_present E b (seq_rng E) node c ft).
- rewrite -/ag -/config -/n -/t -/id lid /=.
  have -> : (draw t.+1 (c : rstate (seq_rng E))).1 = c.
    by rewrite draw_seq ?size_tuple // take_oversize ?size_tuple.
  case: (all _ c) => //=; rewrite theadE.
  rewrite (@sim_coreE E ag js bk Y (Poly c)) ?size_tuple //.
  by apply: leq_trans (size_Poly _) _; rewrite size_tuple.
- exact: leq_ltn_trans tn.
by move=> i li; have [p ->] := reg i li.
Qed.

(** In particular whoever finds [p(0) g1] from the published vectors, for some share of the
    dealings, finds [s g1] from [g1], [g2], [s g2], [Y] and [s Y] for the same number of
    pairs of [s] and values: breaking the secrecy of a dealing with the help of [t]
    participants is at least as hard as this problem on the two groups. *)
Corollary C86_reduction (js : t.-tuple nat) (bk : nat -> F) (Y : Enc E)
  (attack : PVSSCore E -> Enc E) :
  let g1 := srs_g1 (cfg_srs config) in
  let solve S2 Z a := attack (sim_core n g2 js (key_of ag) bk S2 Y Z a) in
  (t < n)%N -> (n < modulus E)%N -> fits n -> registered ag -> (id < n)%N ->
  uniq js -> all (fun j => j < n)%N js ->
  (forall i, (i < n)%N -> i \notin (js : seq nat) -> key_of ag i = bk i *: Y) ->
  (#|[set c : t.+1.-tuple F |
      if (share_pvss b node (c : rstate (seq_rng E))).1 is Ok (core, secrets)
      then attack core == ss_p_0 secrets *: g1 else false]|
   <= #|[set v : t.+1.-tuple F | solve (thead v *: g2) (thead v *: Y) (behead v) == thead v *: g1]|)%N.
Proof.
move=> g1 solve tn nq fn reg lid u lt keys.
rewrite (C86_simulated (fun core s => attack core == s *: g1) tn nq fn reg lid u lt keys).
by apply: subset_leq_card; apply/subsetP => v; rewrite !inE => /andP[].
Qed.

End Hiding.
Print Assumptions C86_simulated.
Print Assumptions C86_reduction.

(** The toy configuration has threshold 1; let participant 1 be the one who is curious.  The
    keys of the others are multiples of [Y = 2 g1], and the simulator makes from [7 g2] and
    [7 Y] exactly what the dealer publishes for the coefficients 7 and 5. *)
Example C86_example :
  let Y : Enc TE := f 6 in
  let bk (i : nat) : Fr TE := f (i + 2) / f 2 in
  let g2 := srs_g2 (cfg_srs tconfig) in
  let p1 : Fr TE := f 7 + f 5 * f 2 in
  [/\ forall i, (i < 4)%N -> i \notin [:: 1%N] -> key_of tag i = bk i *: Y
    & exists core secrets,
      (share_pvss Debug (tnode 2) ([:: f 7; f 5] : rstate (seq_rng TE))).1 = Ok (core, secrets) /\
      sim_core 4 g2 [:: 1%N] (key_of tag) bk (f 7 *: g2) Y (f 7 *: Y) [:: p1] = core].
Proof.
move=> Y bk g2 p1; have keys i : (i < 4)%N -> i \notin [:: 1%N] -> key_of tag i = bk i *: Y.
  by case: i => [|[|[|[|i]]]] // _ _; apply: val_inj; vm_compute.
split; first exact: keys.
have reg i : (i < 4)%N -> bt_get (ag_participants tag) i <> None by case: i => [|[|[|[|i]]]].
have := @share_pvss_present TE Debug (seq_rng TE) (tnode 2) [:: f 7; f 5] erefl isT reg.
have -> : (draw 2 ([:: f 7; f 5] : rstate (seq_rng TE))).1 = [:: f 7; f 5] by [].
move=> e; do 2!eexists; split; first exact: e.
have e0 : (Poly [:: f 7; f 5] : {poly Fr TE}).[0] = f 7 by rewrite horner_Poly; apply: val_inj; vm_compute.
have e1 : (Poly [:: f 7; f 5] : {poly Fr TE}).[2%:R] = p1 by rewrite horner_Poly; apply: val_inj; vm_compute.
have := @sim_coreE TE tag [:: 1%N] bk Y (Poly [:: f 7; f 5]) erefl erefl erefl (size_Poly _) keys.
by rewrite e0 [map _ _]/= e1.
Qed.
