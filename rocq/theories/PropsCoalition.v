(** * PropsCoalition: C111, how many parties stand behind an accepted transcript *)

From Coq Require Import NArith Strings.Byte.
From mathcomp Require Import all_ssreflect all_algebra zify.
From Verif Require Import Prelude Errors BTreeMap Engine LibModel PolyModel SigmaModel PvssModel
  Spec PreludeProofs AlgebraProofs PolyProofs PvssProofs AggProofs HistProofs Instance PropsPoly
  PropsShare PropsAgg PropsHist PropsEnd PropsLimits PropsAttack PropsSetup PropsMix PropsReuse.

Set Implicit Arguments.
Unset Strict Implicit.
Unset Printing Implicit Defensive.

Import GRing.Theory.
Local Open Scope ring_scope.

(** The transcript lists exactly the members of [A]. *)
Definition lists (E : engine) (x : PVSSAggregatedShare E) (A : seq nat) : Prop :=
  forall i, isSome (bt_get (as_contributions x) i) = (i \in A).

(** The signing key of [i] works: somebody can prove every secret in its name. *)
Definition can_sign (E : engine) (D : eddsa) (ag : PVSSAggregator E) (i : nat) : Prop :=
  exists2 pa, bt_get (ag_participants ag) i = Some pa
            & exists sk, can_prove D (ag_config ag) sk (pa_public_key_ed pa).

Section Coalition.
Variables (E : engine) (D : eddsa).
Implicit Types (ag : PVSSAggregator E).

(** A signed proof of any secret, made by the holder of the signing key. *)
Lemma sign_any ag i (a : Fr E) : can_sign D ag i ->
  exists sp : SignedProof E, dp_gs (sp_decomp_proof sp) = a *: srs_g2 (cfg_srs (ag_config ag)) /\
    exists2 pa, bt_get (ag_participants ag) i = Some pa
              & signed_valid D (ag_config ag) sp (pa_public_key_ed pa).
Proof.
case=> pa gi [sk cp]; have [dp [pv egs [kp hk vk]]] := cp a.
exists (MkSigned dp (sig_split (ed_sign kp (signed_digest dp)))); split=> //; exists pa => //.
Qed.

(** A book of contributions of weight [w], one for each member of [A]. *)
Lemma book_of ag (w : N) (a : nat -> Fr E) (Q : nat -> SignedProof E -> Prop) (A : seq nat) : uniq A ->
  (forall i, i \in A -> exists sp : SignedProof E, Q i sp /\
    exists2 pa, bt_get (ag_participants ag) i = Some pa
              & signed_valid D (ag_config ag) sp (pa_public_key_ed pa)) ->
  (forall i sp, i \in A -> Q i sp ->
     (N.to_nat w)%:R *: dp_gs (sp_decomp_proof sp) = a i *: srs_g2 (cfg_srs (ag_config ag))) ->
  exists cs : btmap (SignedProof E * N),
    [/\ forall i, isSome (bt_get cs i) = (i \in A), contributions_valid D ag cs,
        forall i sp w', bt_get cs i = Some (sp, w') -> Q i sp /\ w' = w
      & weighted_gs cs = (\sum_(i <- A) a i) *: srs_g2 (cfg_srs (ag_config ag))].
Proof.
elim: A => [|k A IH] /=.
  move=> _ _ _; exists bt_new; split=> //.
  by rewrite /weighted_gs !big_nil scale0r.
case/andP=> kA uA hA hQ.
have [||cs [l cv q ew]] := IH uA.
- by move=> i iA; apply: hA; rewrite inE iA orbT.
- by move=> i sp iA; apply: hQ; rewrite inE iA orbT.
have nk : bt_get cs k = None by move: (l k); rewrite (negbTE kA); case: (bt_get cs k).
have [sp [qs ok]] := hA k (mem_head _ _).
exists (bt_insert cs k (sp, w)); split.
- by move=> i; rewrite bt_get_insert inE eq_sym; case: eqP => //= _; exact: l.
- move=> i sp' w'; rewrite bt_get_insert; case: eqP => [<- [<- _]|_]; [exact: ok | exact: cv].
- move=> i sp' w'; rewrite bt_get_insert; case: eqP => [<- [<- <-] //|_]; exact: q.
- by rewrite weighted_gs_insert // ew big_cons scalerDl (hQ k) // mem_head.
Qed.

Lemma accepted_by_all ag x (p : {poly Fr E}) : config_ok (ag_config ag) -> registered ag ->
  carries ag x p -> contributions_valid D ag (as_contributions x) ->
  weighted_gs (as_contributions x) = p.[0] *: srs_g2 (cfg_srs (ag_config ag)) -> all_accept D ag x.
Proof.
move=> ok reg [sp ec] cv ew peer b R s e1 e2.
apply: (@core_of_accepted E D b R peer s x p); rewrite ?e1 //.
- by move=> i; rewrite e1 e2; exact: reg.
- by rewrite ec; exact: core_of_ext (esym e1) (esym e2).
- by move=> i spf w /cv; rewrite e1 e2.
Qed.

End Coalition.

(** Any set [A] of parties that can sign, however small, makes a transcript that lists just
    them, each of weight one and with the secret of its choice, whose slots hold the values of a
    polynomial of their choice.  Everybody accepts it whatever the coins, and every quorum opens
    it to the sum of the chosen secrets. *)
Theorem C111_few_refuted (E : engine) (D : eddsa) (ag : PVSSAggregator E) (A : seq nat)
  (a : nat -> Fr E) (p : {poly Fr E}) :
  let g1 := srs_g1 (cfg_srs (ag_config ag)) in
  let g2 := srs_g2 (cfg_srs (ag_config ag)) in
  config_ok (ag_config ag) -> registered ag -> uniq A -> (forall i, i \in A -> can_sign D ag i) ->
  (size p <= (cfg_degree (ag_config ag)).+1)%N -> p.[0] = \sum_(i <- A) a i ->
  exists x : PVSSAggregatedShare E,
    [/\ lists x A /\ as_pvss_core x = core_of ag p,
        forall i sp w, bt_get (as_contributions x) i = Some (sp, w) ->
          w = 1%num /\ dp_gs (sp_decomp_proof sp) = a i *: g2,
        all_accept D ag x
      & forall sk ids, quorum ag sk ids -> opens_to ag sk ids x ((\sum_(i <- A) a i) *: g1)].
Proof.
move=> g1 g2 ok reg uA hA sp e0.
have [||cs [l cv q ew]] :=
  @book_of E D ag 1%num a (fun i sp => dp_gs (sp_decomp_proof sp) = a i *: g2) A uA.
- by move=> i /hA h; exact: (@sign_any E D ag i (a i) h).
- by move=> i spf _ ->; rewrite /= scale1r.
exists (MkAgg (cfg_num_participants (ag_config ag)) (cfg_degree (ag_config ag)) (core_of ag p) cs).
split=> //=.
- by move=> i spf w /q[-> ->].
- by apply: (@accepted_by_all E D ag _ p) => //=; rewrite ew e0.
- by move=> sk ids qu; rewrite -e0; exact: carries_opens.
Qed.
Print Assumptions C111_few_refuted.

(** The property as worded: an accepted transcript lists more than [t] contributors. *)
Definition C111_full : Prop :=
  forall (E : engine) (D : eddsa) (ag : PVSSAggregator E) (x : PVSSAggregatedShare E) (A : seq nat),
  config_ok (ag_config ag) -> registered ag -> srs_g1 (cfg_srs (ag_config ag)) != 0 ->
  srs_g2 (cfg_srs (ag_config ag)) != 0 -> all_accept D ag x -> lists x A -> uniq A ->
  (cfg_degree (ag_config ag) < size A)%N.
Theorem C111_full_refuted : ~ C111_full.
Proof.
move=> full; have tc : config_ok (ag_config tag) by [].
have [|||x [[l _] _ acc _]] := @C111_few_refuted TE TD tag [:: 1%N] (fun=> f 7) (f 7)%:P tc
  tag_registered isT.
- move=> i; rewrite inE => /eqP ->; exists (tpart 1); first exact: erefl.
  by exists (tsk 1); exact: (working_can_prove _ (@toy_working 1 isT)).
- by rewrite size_polyC; case: (f 7 != 0).
- by rewrite hornerC big_seq1.
have g1 : srs_g1 (cfg_srs (ag_config tag)) != 0 by vm_compute.
have g2 : srs_g2 (cfg_srs (ag_config tag)) != 0 by vm_compute.
by have := full TE TD tag x [:: 1%N] tc tag_registered g1 g2 acc l isT.
Qed.
Print Assumptions C111_full_refuted.

(** What the verdict does say about the list of contributors, exactly: some accepted transcript
    lists just the members of [A] if and only if each of them is registered and a valid signed
    proof of it, of any secret, exists. *)
Theorem C111_exact_partial (E : engine) (D : eddsa) (ag : PVSSAggregator E) (A : seq nat) :
  config_ok (ag_config ag) -> registered ag -> uniq A ->
  (exists2 x : PVSSAggregatedShare E, lists x A & all_accept D ag x) <->
  (forall i, i \in A -> exists (pa : Participant E) (sp : SignedProof E),
     bt_get (ag_participants ag) i = Some pa /\ signed_valid D (ag_config ag) sp (pa_public_key_ed pa)).
Proof.
move=> ok reg uA; have [tn nq fn] := ok; split=> [[x l acc] i iA|hA].
  have := acc ag Debug (seq_rng E) [::] erefl erefl.
  case/aggregation_verifyE => // _ _ _ cv _.
  move: (l i); rewrite iA; case gi: (bt_get _ i) => [[sp w]|] // _.
  by have [pa gp sv] := cv _ _ _ gi; exists pa, sp.
have [||cs [l cv _ ew]] := @book_of E D ag 0%num (fun=> 0) (fun _ _ => True) A uA.
- by move=> i /hA[pa [sp [gi sv]]]; exists sp; split=> //; exists pa.
- by move=> i sp _ _; rewrite /= !scale0r.
exists (MkAgg (cfg_num_participants (ag_config ag)) (cfg_degree (ag_config ag)) (core_of ag 0) cs) => //.
apply: (@accepted_by_all E D ag _ 0) => //=; first by split; rewrite ?size_poly0.
by rewrite ew big1 ?scale0r ?horner0 // scale0r.
Qed.
Print Assumptions C111_exact_partial.

(** Nobody at all: a transcript without contributors, whose slots are not empty. *)
Example C111_example :
  [/\ exists x : PVSSAggregatedShare TE,
        [/\ lists x [::], all_accept TD tag x & as_pvss_core x = core_of tag (f 5 *: 'X)],
      can_sign TD tag 1, can_sign TD tag 2
    & comms (core_of tag (f 5 *: 'X)) != nseq 4 0].
Proof.
have tc : config_ok (ag_config tag) by [].
split.
- have [||| x [[l ec] _ acc _]] := @C111_few_refuted TE TD tag [::] (fun=> 0) (f 5 *: 'X) tc
    tag_registered isT.
  + by [].
  + by apply: leq_trans (size_scale_leq _ _) _; rewrite size_polyX.
  + by rewrite big_nil hornerZ hornerX mulr0.
  by exists x; split.
- by exists (tpart 1); [exact: erefl | exists (tsk 1); exact: (working_can_prove _ (@toy_working 1 isT))].
- by exists (tpart 2); [exact: erefl | exists (tsk 2); exact: (working_can_prove _ (@toy_working 2 isT))].
apply/eqP => e; have := congr1 (fun v => nth 0 v 0) e.
have -> : nth 0 (comms (core_of tag (f 5 *: 'X))) 0 = (f 5 * pnt TE 0) *: srs_g2 tsrs.
  by rewrite nth_eval_vec // hornerZ hornerX.
by move/eqP; vm_compute.
Qed.
