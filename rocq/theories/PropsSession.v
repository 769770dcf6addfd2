(** * PropsSession: property C96, what a session of several dealers gives away *)

From Coq Require Import NArith Strings.Byte.
From mathcomp Require Import all_ssreflect all_algebra zify.
From Verif Require Import Prelude Errors BTreeMap Engine LibModel PolyModel SigmaModel PvssModel
  Spec PreludeProofs AlgebraProofs PolyProofs PvssProofs Instance PropsPoly PropsShare
  PropsAgg PropsHist PropsHide PropsSim.

Set Implicit Arguments.
Unset Strict Implicit.
Unset Printing Implicit Defensive.

Import GRing.Theory.
Local Open Scope ring_scope.

Section Session.
Variables (E : engine) (D : eddsa) (b : build) (ag : PVSSAggregator E).
Local Notation F := (Fr E).
Let config := ag_config ag.
Let t := cfg_degree config.
Let n := cfg_num_participants config.
Let g2 := srs_g2 (cfg_srs config).

(** The honest dealers of the session, [m] of them; they need not be different. *)
Variables (m : nat) (dealers : 'I_m -> Dealer E).
Let node i := MkNode ag (dealers i).

(** The coins of one dealer: [t + 1] coefficients and a nonce.  What it publishes, and its
    secret. *)
Definition dealing i (c : seq F) (r : F) : outcome pvss_error (PVSSShare E * F) :=
  let! p := (share_pvss b (node i) (c : rstate (seq_rng E))).1 in
  let! sh := (share D b (node i) (rcons c r : rstate (seq_rng E))).1 in
  Ok (sh, ss_p_0 p.2).

Variables (js : t.-tuple nat) (bk : nat -> F) (Y : Enc E).

(** What the simulator makes for one dealer, from [s g2] and [s Y] ([s] the first entry of
    [v]), [t] values, a response and a challenge.  All zero stands for the dealing that fails. *)
Definition simulated i (v : t.+1.-tuple F) (z e : F) : outcome pvss_error (PVSSShare E * F) :=
  if all (fun x => x == 0) v then Panic IndexOutOfBounds
  else let! sh := sim_share D (node i) js bk (thead v *: g2) Y (thead v *: Y) (behead v) z e in
       Ok (sh, thead v).

Hypotheses (tn : (t < n)%N) (nq : (n < modulus E)%N) (fn : fits n) (reg : registered ag)
  (ids : forall i, (pa_id (de_participant (dealers i)) < n)%N)
  (u : uniq js) (lt : all (fun j => j < n)%N js)
  (keys : forall i, (i < n)%N -> i \notin (js : seq nat) -> key_of ag i = bk i *: Y).

Local Notation coins := (t.+1.-tuple F * F * F)%type.

Let view i (c : t.+1.-tuple F) : t.+1.-tuple F := @sim_view E (node i) js c.
Let choose i (x : coins) : coins := let v := view i x.1.1 in (v, x.1.2 - thead v * x.2, x.2).

Let choose_inj i : injective (choose i).
Proof.
have bij : bijective (view i) by exact: (@sim_view_bij E (node i) js nq u lt).
move=> [[c r] h] [[c' r'] h'] e.
have ev : view i c = view i c' := congr1 (fun x => x.1.1) e.
have eh : h = h' := congr1 snd e.
have := congr1 (fun x => x.1.2) e; rewrite /= ev eh => /addIr ->.
by rewrite (bij_inj bij ev).
Qed.

Let choose_all (x : {ffun 'I_m -> coins}) : {ffun 'I_m -> coins} := [ffun i => choose i (x i)].

Let choose_all_bij : bijective choose_all.
Proof.
apply: injF_bij => x y e; apply/ffunP => i; apply: (@choose_inj i).
by have := congr1 (fun h : {ffun _} => h i) e; rewrite !ffunE.
Qed.

Lemma session_sim (x : {ffun 'I_m -> coins}) :
  [seq share_if D b (node i) (x i).1.1 (x i).1.2 (x i).2 | i <- enum 'I_m]
  = [seq simulated i (choose_all x i).1.1 (choose_all x i).1.2 (choose_all x i).2 | i <- enum 'I_m].
Proof.
apply: eq_map => i; rewrite ffunE.
exact: (@share_if_sim E D b (node i) tn nq fn reg (ids i) js bk Y u lt keys).
Qed.

(** Whatever one tests of the shares and secrets of a whole session (for instance of the
    transcript some schedule of deliveries leads to): it holds as often, over all coins of all
    dealers and all answers of the hash function, as of what the simulator makes. *)
Theorem C96_session (test : seq (outcome pvss_error (PVSSShare E * F)) -> bool) :
  #|[set x : {ffun 'I_m -> coins} |
      test [seq share_if D b (node i) (x i).1.1 (x i).1.2 (x i).2 | i <- enum 'I_m]]|
  = #|[set x : {ffun 'I_m -> coins} |
      test [seq simulated i (x i).1.1 (x i).1.2 (x i).2 | i <- enum 'I_m]]|.
Proof.
rewrite -[RHS](on_card_preimset (f := choose_all)); last exact: onW_bij.
by apply: eq_card => x; rewrite !inE session_sim.
Qed.

Let hashed (S2 : Com E) (z e : F) : bool :=
  e == hash_to_field E DLK_PERSONA (pt_ser g2 ++ pt_ser (z *: g2 + e *: S2)).

(** With the hash function of the code: of what the simulator makes, the sessions count in
    which every challenge is the hash it ought to be. *)
Theorem C96_session_code (test : seq (outcome pvss_error (PVSSShare E * F)) -> bool) :
  #|[set x : {ffun 'I_m -> t.+1.-tuple F * F} |
      test [seq dealing i (x i).1 (x i).2 | i <- enum 'I_m]]|
  = #|[set x : {ffun 'I_m -> coins} |
      [forall i, hashed (thead (x i).1.1 *: g2) (x i).1.2 (x i).2]
      && test [seq simulated i (x i).1.1 (x i).1.2 (x i).2 | i <- enum 'I_m]]|.
Proof.
rewrite -[RHS](on_card_preimset (f := choose_all)); last exact: onW_bij.
pose H (r : F) := hash_to_field E DLK_PERSONA (pt_ser g2 ++ pt_ser (r *: g2)).
pose ask (x : {ffun 'I_m -> t.+1.-tuple F * F}) : {ffun 'I_m -> coins} :=
  [ffun i => ((x i).1, (x i).2, H (x i).2)].
have ai : injective ask.
  move=> x y e; apply/ffunP => i; have := congr1 (fun h : {ffun _} => h i) e.
  by rewrite !ffunE; case: (x i) (y i) => [c r] [c' r'] /= [-> ->].
have dealingE i (c : t.+1.-tuple F) r : dealing i c r = share_if D b (node i) c r (H r).
  rewrite /dealing (@share_is E D b (node i) tn nq fn reg (ids i) c r) /share_if.
  case: (share_pvss b (node i) (c : rstate (seq_rng E))).1 => [[core sec]|er|pa] //=.
  by case: (signed_share _ _ _ _ _ _).
have hashedE i (x : coins) : hashed (thead (choose i x).1.1 *: g2) (choose i x).1.2 (choose i x).2
    = (x.2 == H x.1.2).
  case: x => [[c r] h]; rewrite /hashed /choose /= /H.
  by rewrite scalerA -scalerDl [h * _]mulrC subrK.
rewrite -(card_imset _ ai); apply: eq_card => y; rewrite !inE -session_sim.
have -> : [forall i, hashed (thead (choose_all y i).1.1 *: g2) (choose_all y i).1.2 (choose_all y i).2]
    = [forall i, (y i).2 == H (y i).1.2].
  by apply: eq_forallb => i; rewrite ffunE hashedE.
apply/imsetP/andP => [[x + ->]|[/forallP hy ty]].
  rewrite inE => tx; split; first by apply/forallP => i; rewrite ffunE.
  by congr (is_true (test _)): tx; apply: eq_map => i; rewrite ffunE dealingE.
exists [ffun i => (y i).1]; last first.
  by apply/ffunP => i; rewrite !ffunE -(eqP (hy i)); case: (y i) => [[]].
rewrite inE; congr (is_true (test _)): ty; apply: eq_map => i.
by rewrite ffunE dealingE -(eqP (hy i)).
Qed.

(** So whoever finds the point of the sum of the secrets from the shares of a session with the
    help of [t] participants finds it, as often, from [s_i g2] and [s_i Y]. *)
Corollary C96_reduction (attack : seq (outcome pvss_error (PVSSShare E)) -> Enc E) :
  let g1 := srs_g1 (cfg_srs config) in
  let solve (pts : 'I_m -> Com E * Enc E) (a : 'I_m -> seq F) (z e : 'I_m -> F) :=
    attack [seq sim_share D (node i) js bk (pts i).1 Y (pts i).2 (a i) (z i) (e i) | i <- enum 'I_m] in
  (#|[set x : {ffun 'I_m -> coins} |
      let os := [seq share_if D b (node i) (x i).1.1 (x i).1.2 (x i).2 | i <- enum 'I_m] in
      all (@is_ok _ _) os &&
      (attack [seq (let! p := o in Ok p.1) | o <- os]
       == (\sum_(o <- os) (if o is Ok p then p.2 else 0)) *: g1)]|
   <= #|[set x : {ffun 'I_m -> coins} |
      solve (fun i => (thead (x i).1.1 *: g2, thead (x i).1.1 *: Y)) (fun i => behead (x i).1.1)
            (fun i => (x i).1.2) (fun i => (x i).2)
      == (\sum_(i < m) thead (x i).1.1) *: g1]|)%N.
Proof.
cbv zeta; set g1 := srs_g1 _.
rewrite (C96_session (fun os => all (@is_ok _ _) os &&
  (attack [seq (let! p := o in Ok p.1) | o <- os]
   == (\sum_(o <- os) (if o is Ok p then p.2 else 0)) *: g1))).
apply: subset_leq_card; apply/subsetP => x; rewrite !inE all_map => /andP[/allP ok].
have ok' i : exists2 sh, simulated i (x i).1.1 (x i).1.2 (x i).2 = Ok (sh, thead (x i).1.1) &
   sim_share D (node i) js bk (thead (x i).1.1 *: g2) Y (thead (x i).1.1 *: Y) (behead (x i).1.1)
     (x i).1.2 (x i).2 = Ok sh.
  have : is_ok (simulated i (x i).1.1 (x i).1.2 (x i).2).
    by apply: (ok i); rewrite mem_enum.
  rewrite /simulated; case: (all _ _) => //.
  by case: (sim_share _ _ _ _ _ _ _ _ _ _) => [sh|//|//] _; exists sh.
rewrite big_map -map_comp big_enum /=.
have -> : \sum_(i < m) (if simulated i (x i).1.1 (x i).1.2 (x i).2 is Ok p then p.2 else 0)
        = \sum_(i < m) thead (x i).1.1.
  by apply: eq_bigr => i _; have [sh -> _] := ok' i.
congr (attack _ == _); apply: eq_map => i /=.
by have [sh -> ->] := ok' i.
Qed.

End Session.
Print Assumptions C96_session.
Print Assumptions C96_session_code.
Print Assumptions C96_reduction.

(** The toy configuration, participant 1 curious, dealers 2 and 3: the hypotheses hold, and
    dealings of the session succeed. *)
Example C96_example :
  let Y : Enc TE := f 6 in
  let bk (i : nat) : Fr TE := f (i + 2) / f 2 in
  let ds (i : 'I_2) := nd_dealer (tnode (i + 2)) in
  [/\ forall i, (i < 4)%N -> i \notin [:: 1%N] -> key_of tag i = bk i *: Y,
      registered tag, forall i, (pa_id (de_participant (ds i)) < 4)%N
    & forall i, is_ok (dealing TD Debug tag ds i [:: f 7; f 5] (f 4))].
Proof.
cbv zeta; split.
- by case=> [|[|[|[|i]]]] // _ _; apply: val_inj; vm_compute.
- exact: tag_registered.
- by case=> [[|[|i]] hi].
by case=> [[|[|i]] hi] //; vm_compute.
Qed.
