(** * PropsSim: property C90, what a whole share gives away to t participants *)

From Coq Require Import NArith Strings.Byte.
From mathcomp Require Import all_ssreflect all_algebra zify.
From Verif Require Import Prelude Errors BTreeMap Engine LibModel PolyModel SigmaModel PvssModel
  Spec PreludeProofs AlgebraProofs PolyProofs PvssProofs Instance PropsPoly PropsShare
  PropsAgg PropsHist PropsHide.

Set Implicit Arguments.
Unset Strict Implicit.
Unset Printing Implicit Defensive.

Import GRing.Theory.
Local Open Scope ring_scope.

(** ** C90: a simulator for everything [share] publishes *)

Section Sim.
Variables (E : engine) (D : eddsa) (b : build) (node : Node E).
Local Notation F := (Fr E).
Let ag := nd_aggregator node.
Let config := ag_config ag.
Let t := cfg_degree config.
Let n := cfg_num_participants config.
Let g2 := srs_g2 (cfg_srs config).
Let id := pa_id (de_participant (nd_dealer node)).

(** Whoever has the signing key of the dealer makes a share of given vectors, commitment
    and knowledge proof. *)
Definition signed_share (core : PVSSCore E) (S2 : Com E) (R2 : Com E) (e z : F)
  : outcome pvss_error (PVSSShare E) :=
  let dp := MkDecomp (DlkProof R2 e z) S2 in
  let! sig := signature_new D (signed_digest dp) (de_private_key_ed (nd_dealer node)) in
  Ok (MkShare id core (MkSigned dp sig)).

(** The simulator: the vectors of [sim_core], and a knowledge proof for [S2] made from a
    challenge [e] and a response [z] chosen beforehand.  It is not given the secret. *)
Definition sim_share (js : seq nat) (bk : nat -> F) (S2 : Com E) (Y Z : Enc E)
  (a : seq F) (z e : F) : outcome pvss_error (PVSSShare E) :=
  signed_share (sim_core n g2 js (key_of ag) bk S2 Y Z a) S2 (z *: g2 + e *: S2) e z.

(** What the dealer hashes for its challenge, with the nonce [r]. *)
Definition query (R2 : Com E) : seq byte := pt_ser g2 ++ pt_ser R2.

(** What the dealer publishes for the coefficients [c] and the nonce [r] if the hash function
    answers its query with [h]; and its secret. *)
Definition share_if (c : seq F) (r h : F) : outcome pvss_error (PVSSShare E * F) :=
  let! p := (share_pvss b node (c : rstate (seq_rng E))).1 in
  let s := ss_p_0 p.2 in
  let! sh := signed_share p.1 (s *: g2) (r *: g2) h (r - s * h) in
  Ok (sh, s).

Hypotheses (tn : (t < n)%N) (nq : (n < modulus E)%N) (fn : fits n) (reg : registered ag)
  (lid : (id < n)%N).

Let ft : fits t.+1. Proof. by move: fn tn; rewrite /fits; lia. Qed.
Let n0 : (0 < n)%N. Proof. exact: leq_ltn_trans tn. Qed.
Let pres i : (i < n)%N -> bt_get (ag_participants ag) i <> None.
Proof. by move=> li; have [p ->] := reg li. Qed.

Lemma pvss_coins (c : t.+1.-tuple F) (l : seq F) :
  share_pvss b node (c ++ l : rstate (seq_rng E))
  = (if all (fun x => x == 0) c then Panic IndexOutOfBounds
     else Ok (core_of ag (Poly c), MkSecrets (Poly c).[0] ((Poly c).[id.+1%:R] *: srs_g1 (cfg_srs config))), l).
Proof.
have := @share_pvss_present E b (seq_rng E) node (c ++ l) ft n0 pres.
rewrite -/ag -/config -/t -/n -/id lid draw_seq ?size_cat ?size_tuple ?leq_addr //.
rewrite take_size_cat ?size_tuple // -if_neg.
have : (share_pvss b node (c ++ l : rstate (seq_rng E))).2 = l.
  by rewrite /share_pvss poly_randE // draw_seq ?size_cat ?size_tuple ?leq_addr // drop_size_cat ?size_tuple.
by case: (share_pvss _ _ _) => o s /= -> ->; case: (all _ _).
Qed.

(** Every share [share] returns is such a share, with the answer of [hash_to_field]. *)
Lemma share_is (c : t.+1.-tuple F) (r : F) :
  (share D b node (rcons c r : rstate (seq_rng E))).1
  = let! p := share_if c r (hash_to_field E DLK_PERSONA (query (r *: g2))) in Ok p.1.
Proof.
rewrite /share /share_if -cats1 pvss_coins -[X in share_pvss b node X]cats0 pvss_coins.
case: (all _ _) => //=; rewrite /signed_share decomp_digestE /query.
by case: (signature_new _ _ _).
Qed.

Section Views.
Variables (js : t.-tuple nat) (bk : nat -> F) (Y : Enc E).
Hypotheses (u : uniq js) (lt : all (fun j => j < n)%N js)
  (keys : forall i, (i < n)%N -> i \notin (js : seq nat) -> key_of ag i = bk i *: Y).

(** What the simulator makes with the secret [s]: it is given [s g2] and [s Y]. *)
Let sim (v : t.+1.-tuple F) (z e : F) := sim_share js bk (thead v *: g2) Y (thead v *: Y) (behead v) z e.

Lemma share_if_sim (c : t.+1.-tuple F) (r h : F) :
  share_if c r h
  = let v := sim_view js c in
    if all (fun x => x == 0) v then Panic IndexOutOfBounds
    else let! sh := sim v (r - thead v * h) h in Ok (sh, thead v).
Proof.
have bij := sim_view_bij nq u lt.
rewrite /share_if -[X in share_pvss b node X]cats0 pvss_coins sim_view_zero //=.
case: (all _ _) => //=; rewrite /sim /sim_share theadE /=.
rewrite (@sim_coreE E ag js bk Y (Poly c)) ?size_tuple //.
  by rewrite scalerBl scalerA mulrC subrK.
by apply: leq_trans (size_Poly _) _; rewrite size_tuple.
Qed.

(** The coins of the dealer and an answer of the hash function, as what the simulator chooses. *)
Let choose (x : t.+1.-tuple F * F * F) : t.+1.-tuple F * F * F :=
  let v := sim_view js x.1.1 in (v, x.1.2 - thead v * x.2, x.2).

Let choose_bij : bijective choose.
Proof.
have bij := sim_view_bij nq u lt.
apply: injF_bij => -[[c r] h] [[c' r'] h'] e.
have ev : sim_view js c = sim_view js c' := congr1 (fun x => x.1.1) e.
have eh : h = h' := congr1 snd e.
have := congr1 (fun x => x.1.2) e; rewrite /= ev eh => /addIr ->.
by rewrite (bij_inj bij ev).
Qed.

(** The hash function as an oracle that answers the one query of the dealer with any of the
    scalars.  Whatever one tests of a share and the secret of its dealer: it holds for as many
    triples of coefficients, nonce and answer as it holds of the shares the simulator makes,
    for secrets [s], values of the participants [js], responses and challenges.  (The one
    dealing that fails, all coefficients zero, is left out on both sides.)  The simulator has
    the points [s g2] and [s Y] instead of [s], and has no nonce. *)
Theorem C90_oracle (test : PVSSShare E -> F -> bool) :
  #|[set x : t.+1.-tuple F * F * F |
      if share_if x.1.1 x.1.2 x.2 is Ok (sh, s) then test sh s else false]|
  = #|[set x : t.+1.-tuple F * F * F |
      let: (v, z, e) := x in let s := thead v in
      ~~ all (fun y => y == 0) v
      && (if sim_share js bk (s *: g2) Y (s *: Y) (behead v) z e is Ok sh then test sh s else false)]|.
Proof.
rewrite -[RHS](on_card_preimset (f := choose)); last exact: onW_bij.
apply: eq_card => -[[c r] h]; rewrite !inE share_if_sim.
rewrite -[choose _]/(sim_view js c, r - thead (sim_view js c) * h, h).
move: (sim_view js c) => v; rewrite /sim; case: (all _ v) => //=.
by case: (sim_share _ _ _ _ _ _ _ _).
Qed.

(** The hash function of the code.  Of the simulated shares those count whose challenge is the
    hash it ought to be; [share] makes exactly these, each as often as the simulator. *)
Theorem C90_simulated (test : PVSSShare E -> F -> bool) :
  #|[set x : t.+1.-tuple F * F |
      if ((share_pvss b node (x.1 : rstate (seq_rng E))).1,
          (share D b node (rcons x.1 x.2 : rstate (seq_rng E))).1) is (Ok (_, secrets), Ok sh)
      then test sh (ss_p_0 secrets) else false]|
  = #|[set x : t.+1.-tuple F * F * F |
      let: (v, z, e) := x in let s := thead v in
      [&& ~~ all (fun y => y == 0) v,
          e == hash_to_field E DLK_PERSONA (query (z *: g2 + e *: (s *: g2)))
        & (if sim_share js bk (s *: g2) Y (s *: Y) (behead v) z e is Ok sh then test sh s else false)]]|.
Proof.
rewrite -[RHS](on_card_preimset (f := choose)); last exact: onW_bij.
pose ask (x : t.+1.-tuple F * F) := (x, hash_to_field E DLK_PERSONA (query (x.2 *: g2))).
have ai : injective ask by move=> x y [].
rewrite -(card_imset _ ai); apply: eq_card => -[[c r] h]; rewrite !inE.
have real : (if ((share_pvss b node (c : rstate (seq_rng E))).1,
                 (share D b node (rcons c r : rstate (seq_rng E))).1) is (Ok (_, secrets), Ok sh)
             then test sh (ss_p_0 secrets) else false)
    = (if share_if c r (hash_to_field E DLK_PERSONA (query (r *: g2))) is Ok (sh, s) then test sh s else false).
  rewrite share_is /share_if; case: (share_pvss b node (c : rstate (seq_rng E))).1 => [[core sec]|er|pa] //=.
  by case: (signed_share _ _ _ _ _).
rewrite -[choose _]/(sim_view js c, r - thead (sim_view js c) * h, h).
have eq2 : (r - thead (sim_view js c) * h) *: g2 + h *: (thead (sim_view js c) *: g2) = r *: g2.
  by rewrite scalerA -scalerDl [h * _]mulrC subrK.
move: real; rewrite share_if_sim => real; cbv beta iota zeta; rewrite eq2.
have -> : ((c, r, h) \in ask @: [set x : t.+1.-tuple F * F |
      if ((share_pvss b node (x.1 : rstate (seq_rng E))).1,
          (share D b node (rcons x.1 x.2 : rstate (seq_rng E))).1) is (Ok (_, secrets), Ok sh)
      then test sh (ss_p_0 secrets) else false])
    = (h == hash_to_field E DLK_PERSONA (query (r *: g2)))
      && (if ((share_pvss b node (c : rstate (seq_rng E))).1,
              (share D b node (rcons c r : rstate (seq_rng E))).1) is (Ok (_, secrets), Ok sh)
          then test sh (ss_p_0 secrets) else false).
  apply/imsetP/andP => [[[c' r'] + [-> -> ->]]|[/eqP-> hs]]; first by rewrite inE.
  by exists (c, r); rewrite ?inE.
rewrite real; case: eqP => [->|_]; last by rewrite andbF.
move: (sim_view js c) => v; case ea: (all _ v) => /=; first by rewrite /= (ea : all _ _ = true).
by rewrite (ea : all _ _ = false); rewrite /sim; case: (sim_share _ _ _ _ _ _ _ _).
Qed.

(** So whoever finds the secret point [s g1] of dealings from their shares with the help of
    [t] participants finds [s g1] from [g1], [g2], [s g2], [Y] and [s Y], as often. *)
Corollary C90_reduction (attack : PVSSShare E -> Enc E) :
  let g1 := srs_g1 (cfg_srs config) in
  let solve S2 Z a z e :=
    if sim_share js bk S2 Y Z a z e is Ok sh then attack sh else 0 in
  (#|[set x : t.+1.-tuple F * F * F |
      if share_if x.1.1 x.1.2 x.2 is Ok (sh, s) then attack sh == s *: g1 else false]|
   <= #|[set x : t.+1.-tuple F * F * F | let: (v, z, e) := x in
          solve (thead v *: g2) (thead v *: Y) (behead v) z e == thead v *: g1]|)%N.
Proof.
cbv zeta; set g1 := srs_g1 _; rewrite (C90_oracle (fun sh s => attack sh == s *: g1)).
apply: subset_leq_card; apply/subsetP => -[[v z] e]; rewrite !inE => /andP[_].
by case: (sim_share _ _ _ _ _ _ _ _).
Qed.

End Views.
End Sim.
Print Assumptions C90_oracle.
Print Assumptions C90_simulated.
Print Assumptions C90_reduction.

(** The toy configuration, participant 1 curious.  From [7 g2], [7 Y], the value 17 of
    participant 1 and a response and challenge that fit each other the simulator makes
    exactly the share of dealer 2 on the coins 7, 5 and 4; the hypotheses hold. *)
Example C90_example :
  let Y : Enc TE := f 6 in
  let bk (i : nat) : Fr TE := f (i + 2) / f 2 in
  let g2 := srs_g2 (cfg_srs tconfig) in
  let h := hash_to_field TE DLK_PERSONA (pt_ser g2 ++ pt_ser (f 4 *: g2)) in
  [/\ forall i, (i < 4)%N -> i \notin [:: 1%N] -> key_of tag i = bk i *: Y,
      registered tag
    & sim_share TD (tnode 2) [:: 1%N] bk (f 7 *: g2) Y (f 7 *: Y) [:: f 7 + f 5 * f 2] (f 4 - f 7 * h) h
      = Ok sh2].
Proof.
move=> Y bk g2 h; have keys i : (i < 4)%N -> i \notin [:: 1%N] -> key_of tag i = bk i *: Y.
  by case: i => [|[|[|[|i]]]] // _ _; apply: val_inj; vm_compute.
have reg := tag_registered; split=> //.
have e : (share TD Debug (tnode 2) ([:: f 7; f 5; f 4] : rstate (seq_rng TE))).1 = Ok sh2 by reflexivity.
pose c : 2.-tuple (Fr TE) := [tuple f 7; f 5].
have := @share_is TE TD Debug (tnode 2) erefl erefl erefl reg erefl c (f 4); rewrite [LHS]e.
have := @share_if_sim TE TD Debug (tnode 2) erefl erefl erefl reg erefl [tuple 1%N] bk Y erefl erefl keys c (f 4) h.
rewrite -[query _ _]/(pt_ser g2 ++ pt_ser (f 4 *: g2)) -/h => ->.
have e0 : (Poly c).[0] = f 7 by rewrite horner_Poly; apply: val_inj; vm_compute.
have e1 : (Poly c).[2%:R] = f 7 + f 5 * f 2 by rewrite horner_Poly; apply: val_inj; vm_compute.
rewrite /sim_view !theadE [behead _]/= e0 e1.
have -> : all (fun x : Fr TE => x == 0) [tuple of f 7 :: [tuple of [seq (Poly c).[j.+1%:R] | j <- [tuple 1%N]]]] = false by [].
by case: (sim_share _ _ _ _ _ _ _ _ _ _) => // sh [->].
Qed.
