(** * PropsVerdict: properties C60 to C62, every verdict and what it consumes *)

From Coq Require Import NArith Strings.Byte.
From mathcomp Require Import all_ssreflect all_algebra zify.
From Verif Require Import Prelude Errors BTreeMap Engine LibModel PolyModel SigmaModel PvssModel
  Spec PreludeProofs AlgebraProofs PolyProofs PvssProofs AggProofs HistProofs Instance
  PropsPoly PropsSigma PropsShare PropsAgg PropsHist PropsEnd PropsLimits.

Set Implicit Arguments.
Unset Strict Implicit.
Unset Printing Implicit Defensive.

Import GRing.Theory.
Local Open Scope ring_scope.

(** ** Specification *)

(** The next [k] scalars of the generator, and the generator after them. *)
Fixpoint scalars (E : engine) (R : rng E) (k : nat) (s : rstate R) : seq (Fr E) :=
  if k is k'.+1 then (rand_fr s).1 :: scalars k' (rand_fr s).2 else [::].
Definition after (E : engine) (R : rng E) (k : nat) (s : rstate R) : rstate R :=
  iter k (fun s => (rand_fr s).2) s.

(** The SCRAPE test of [v] with the polynomial [cs]:
    [sum_i cs(i) / prod_(j <> i) (i - j) * v_i = 0] over [i = 1, ..., |v|]. *)
Definition scrape_test (E : engine) (cs : seq (Fr E)) (v : seq (Com E)) : Prop :=
  \sum_(i < size v)
    ((\sum_(k < size cs) nth 0 cs k * i.+1%:R ^+ k)
     / (\prod_(j < size v | j != i :> nat) (i.+1%:R - j.+1%:R))) *: nth 0 v i = 0.

Section Verdicts.
Variables (E : engine) (D : eddsa).

(** What share_verify answers, and how many scalars it has drawn by then. *)
Inductive share_verdict (ag : PVSSAggregator E) (test : nat -> seq (Com E) -> Prop) (sh : PVSSShare E)
  : outcome pvss_error unit -> nat -> Prop :=
| SV_unknown :
    bt_get (ag_participants ag) (sh_participant_id sh) = None ->
    share_verdict ag test sh (Err (InvalidParticipantId (sh_participant_id sh))) 0
| SV_index p :
    bt_get (ag_participants ag) (sh_participant_id sh) = Some p ->
    (minn (size (comms (sh_pvss_core sh))) (size (encs (sh_pvss_core sh))) <= sh_participant_id sh)%N ->
    share_verdict ag test sh (Panic IndexOutOfBounds) 0
| SV_slot p :
    bt_get (ag_participants ag) (sh_participant_id sh) = Some p ->
    (sh_participant_id sh < minn (size (comms (sh_pvss_core sh))) (size (encs (sh_pvss_core sh))))%N ->
    ~ slot_ok ag (sh_pvss_core sh) (sh_participant_id sh) ->
    share_verdict ag test sh (Err EncryptionCorrectnessError) 0
| SV_sizes p :
    bt_get (ag_participants ag) (sh_participant_id sh) = Some p ->
    (sh_participant_id sh < minn (size (comms (sh_pvss_core sh))) (size (encs (sh_pvss_core sh))))%N ->
    slot_ok ag (sh_pvss_core sh) (sh_participant_id sh) ->
    ~ core_sized (ag_config ag) (sh_pvss_core sh) ->
    share_verdict ag test sh
      (Err (MismatchedCommitsEncryptionsParticipantsError
              (size (encs (sh_pvss_core sh))) (size (comms (sh_pvss_core sh)))
              (cfg_num_participants (ag_config ag)))) 0
| SV_checks p r :
    bt_get (ag_participants ag) (sh_participant_id sh) = Some p ->
    (sh_participant_id sh < cfg_num_participants (ag_config ag))%N ->
    slot_ok ag (sh_pvss_core sh) (sh_participant_id sh) ->
    core_sized (ag_config ag) (sh_pvss_core sh) ->
    let t := cfg_degree (ag_config ag) in
    let m := (cfg_num_participants (ag_config ag) - t.+1)%N in
    let degree := test m (comms (sh_pvss_core sh)) in
    let secret := commits_to t (comms (sh_pvss_core sh)) (dp_gs (sp_decomp_proof (sh_signed_proof sh))) in
    let signed := signed_valid D (ag_config ag) (sh_signed_proof sh) (pa_public_key_ed p) in
    [\/ r = Err DualCodeError /\ ~ degree,
        r = Err GSCheckError /\ degree /\ ~ secret,
        r = Panic UnwrapErr /\ [/\ degree, secret & ~ signed]
      | r = Ok tt /\ [/\ degree, secret & signed]] ->
    share_verdict ag test sh r m.

(** The first contribution, in the order of the map, that cannot be checked or is invalid. *)
Definition first_bad (ag : PVSSAggregator E) (cs : btmap (SignedProof E * N)) (i : nat) : Prop :=
  let good j sp := exists2 p, bt_get (ag_participants ag) j = Some p
                            & signed_valid D (ag_config ag) sp (pa_public_key_ed p) in
  (exists sp w, bt_get cs i = Some (sp, w) /\ ~ good i sp) /\
  forall j sp w, bt_get cs j = Some (sp, w) -> (j < i)%N -> good j sp.

(** What aggregation_verify answers, and how many scalars it has drawn by then. *)
Inductive tx_verdict (ag : PVSSAggregator E) (test : nat -> seq (Com E) -> Prop) (r0 : Prop)
  (x : PVSSAggregatedShare E) : outcome pvss_error unit -> nat -> Prop :=
| TV_sizes :
    ~ core_sized (ag_config ag) (as_pvss_core x) ->
    tx_verdict ag test r0 x
      (Err (MismatchedCommitsEncryptionsParticipantsError
              (size (encs (as_pvss_core x))) (size (comms (as_pvss_core x)))
              (cfg_num_participants (ag_config ag)))) 0
| TV_degree :
    core_sized (ag_config ag) (as_pvss_core x) ->
    let m := (cfg_num_participants (ag_config ag) - (cfg_degree (ag_config ag)).+1)%N in
    ~ test m (comms (as_pvss_core x)) ->
    tx_verdict ag test r0 x (Err DualCodeError) m
| TV_checks r :
    core_sized (ag_config ag) (as_pvss_core x) ->
    let t := cfg_degree (ag_config ag) in
    let m := (cfg_num_participants (ag_config ag) - t.+1)%N in
    test m (comms (as_pvss_core x)) ->
    let slots := r0 \/ slots_product_ok ag (as_pvss_core x) in
    let total := commits_to t (comms (as_pvss_core x)) (weighted_gs (as_contributions x)) in
    let proofs := contributions_valid D ag (as_contributions x) in
    [\/ r = Panic UnwrapNone /\ ~ registered ag,
        r = Err EncryptionCorrectnessError /\ registered ag /\ ~ slots,
        exists i, [/\ registered ag, slots, first_bad ag (as_contributions x) i
                    & r = Panic (if bt_get (ag_participants ag) i is Some _ then UnwrapErr else UnwrapNone)]
      | [/\ registered ag, slots, proofs &
         (r = Err AggregationReconstructionMismatchError /\ ~ total) \/ (r = Ok tt /\ total)]] ->
    tx_verdict ag test r0 x r m.+1.

End Verdicts.

(** ** Proofs *)

Section Proofs.
Variables (E : engine) (D : eddsa) (b : build).
Local Notation q := (modulus E).
Implicit Types (R : rng E) (ag : PVSSAggregator E).

Lemma drawE R k (s : rstate R) : draw k s = (scalars k s, after k s).
Proof.
elim: k s => [|k IH] s //; rewrite /after iterSr /=.
by case: (rand_fr s) => x s1 /=; rewrite IH.
Qed.

Lemma size_scalars R k (s : rstate R) : size (scalars k s) = k.
Proof. by elim: k s => [|k IH] s //=; rewrite IH. Qed.

Lemma dual_coef_spec (cs : seq (Fr E)) n i :
  dual_coef cs n i = (\sum_(k < size cs) nth 0 cs k * i.+1%:R ^+ k)
                     / (\prod_(j < n | j != i :> nat) (i.+1%:R - j.+1%:R)).
Proof.
rewrite /dual_coef /node_den; congr (_ / _); rewrite /pnt.
by rewrite (horner_coef_wide _ (size_Poly cs)); apply: eq_bigr => k _; rewrite coef_Poly.
Qed.

Lemma scrape_testE R (s : rstate R) (v : seq (Com E)) t :
  (t.+2 <= size v)%N -> (size v < q)%N -> fits (size v) ->
  let m := (size v - t.+1)%N in
  exists2 d, ensure_degree b s v t = (d, after m s) &
    (d = Ok tt /\ scrape_test (scalars m s) v) \/ (d = Err DualCodeError /\ ~ scrape_test (scalars m s) v).
Proof.
move=> tn nq fn m; rewrite ensure_degreeE // -/m drawE /=; eexists; first by [].
rewrite /scrape_test; under eq_bigr do rewrite dual_coef_spec.
by case: eqP => h; [left | right].
Qed.

Lemma interpolation_total t (v : seq (Com E)) : (t < size v)%N -> (size v < q)%N -> fits (size v) ->
  exists2 P, lagrange_interpolation_simple b v t = Ok P & forall Q, Q = P <-> commits_to t v Q.
Proof.
move=> tv nq fn; have tq : (t.+1 < q)%N by apply: leq_ltn_trans nq.
have tb : (N.of_nat t + 1 < u64_bound)%num by move: fn; rewrite /fits /u64_bound; lia.
have [P cP] := commits_to_exists tv tq; exists P; first exact/lagrange_commits.
by move=> Q; split=> [->//|cQ]; exact: commits_to_fun cQ cP.
Qed.

Lemma signed_verify_cases config (sp : SignedProof E) pk :
  (signed_verify D sp config pk = Ok tt /\ signed_valid D config sp pk) \/
  (signed_verify D sp config pk = Panic UnwrapErr /\ ~ signed_valid D config sp pk).
Proof.
case sv: (signed_verify D sp config pk) => [[]|e|p].
- by left; split=> //; apply/signed_verifyE.
- by have := signed_verify_noerr sv.
right; split; last by move/signed_verifyE; rewrite sv.
move: sv; rewrite /signed_verify /decomp_verify /dlk_verify; case: ifP => _ /=; first by case=> <-.
rewrite /signature_verify; case: (ed_sig_from_bytes _ _) => [y|] /=; last by case=> <-.
case: (ed_pk_from_bytes _ _) => [k|] /=; last by case=> <-.
by case: ifP => //= _ [<-].
Qed.

(** A contribution that passes. *)
Let good ag (j : nat) (sp : SignedProof E) := exists2 p, bt_get (ag_participants ag) j = Some p
  & signed_valid D (ag_config ag) sp (pa_public_key_ed p).

Lemma contributions_cases ag (cs : btmap (SignedProof E * N)) :
  (contributions_total D ag cs = Ok (weighted_gs cs) /\ contributions_valid D ag cs) \/
  exists2 i, first_bad D ag cs i & contributions_total D ag cs
    = Panic (if bt_get (ag_participants ag) i is Some _ then UnwrapErr else UnwrapNone).
Proof.
case ct: (contributions_total D ag cs) => [P|e|pn].
- by left; have [_ <-] := (contributions_totalE D ag cs P).1 ct; split=> //; case/contributions_totalE: ct.
- right; move: ct; rewrite /contributions_total; elim: (bt_iter cs) (0 : Com E) => [|[i [sp w]] l IH] acc //=.
  case: (bt_get _ i) => [p|] //=.
  by case: (signed_verify_cases (ag_config ag) sp (pa_public_key_ed p)) => -[-> _] //= /IH.
right; rewrite /first_bad -/(good ag).
suff [i [[sp [w [h1 h2]]] h3 ->]] : exists i, [/\ exists sp w, List.In (i, (sp, w)) (bt_iter cs) /\ ~ good ag i sp,
    forall j sp w, List.In (j, (sp, w)) (bt_iter cs) -> (j < i)%N -> good ag j sp
  & pn = if bt_get (ag_participants ag) i is Some _ then UnwrapErr else UnwrapNone].
  exists i => //; split; first by exists sp, w; split=> //; apply/bt_get_In.
  by move=> j sp' w' /bt_get_In; apply: h3.
move: ct (bt_sorted cs); rewrite /contributions_total /keys.
elim: (bt_iter cs) (0 : Com E) => [|[i [sp w]] l IH] acc //= ct.
rewrite path_sortedE; last exact: ltn_trans.
case/andP=> /allP hi sl.
have tl j sp' w' : List.In (j, (sp', w')) l -> (i < j)%N.
  by move=> h; apply: hi; elim: (l) h => [|[k v] l' IHl] //= [[-> _]|/IHl h]; rewrite inE ?eqxx ?h ?orbT.
have bad : ~ good ag i sp -> pn = (if bt_get (ag_participants ag) i is Some _ then UnwrapErr else UnwrapNone) ->
  exists i0, [/\ exists sp0 w0, ((i, (sp, w)) = (i0, (sp0, w0)) \/ List.In (i0, (sp0, w0)) l) /\ ~ good ag i0 sp0,
    forall j sp0 w0, (i, (sp, w)) = (j, (sp0, w0)) \/ List.In (j, (sp0, w0)) l -> (j < i0)%N -> good ag j sp0
  & pn = if bt_get (ag_participants ag) i0 is Some _ then UnwrapErr else UnwrapNone].
  move=> nb ->; exists i; split=> //; first by exists sp, w; split=> //; left.
  by move=> j sp' w' [[<- _ _]|/tl]; rewrite ?ltnn // => ij ji; have := ltn_trans ij ji; rewrite ltnn.
case g: (bt_get (ag_participants ag) i) ct => [p|] /=; last first.
  by case=> e; apply: bad => [[p]|]; rewrite g.
case: (signed_verify_cases (ag_config ag) sp (pa_public_key_ed p)) => -[-> sv] /=; last first.
  by case=> e; apply: bad => [[p']|]; rewrite g // => -[<-].
move/IH => /(_ sl)[i0 [[sp0 [w0 [h1 h2]]] h3 h4]]; exists i0; split=> //.
  by exists sp0, w0; split=> //; right.
move=> j sp1 w1 [[<- <- _]|/h3//] _; by exists p.
Qed.

Lemma encryption_pairs_missing ag r core : core_sized (ag_config ag) core -> ~ registered ag ->
  encryption_pairs ag r core = Panic UnwrapNone.
Proof.
move=> [se sc] nr; rewrite /encryption_pairs; apply: foldM_panic => [[e ps] i|].
  rewrite mem_iota add0n => /= li; rewrite (index_ok 0) ?se //=.
  case: (bt_get _ i) => [p|] /=; last by left.
  by rewrite (index_ok 0) ?sc //=; right; eexists.
have [i li ni] : exists2 i, (i < cfg_num_participants (ag_config ag))%N
    & bt_get (ag_participants ag) i = None.
  case: (boolP [exists i : 'I_(cfg_num_participants (ag_config ag)),
           ~~ isSome (bt_get (ag_participants ag) i)]) => [/existsP[i]|/existsPn h].
    by case g: (bt_get _ _) => // _; exists i.
  case: nr => i li; have := h (Ordinal li); rewrite negbK /=.
  by case: (bt_get _ i) => // p _; exists p.
exists i; first by rewrite mem_iota.
by move=> [e ps]; rewrite (index_ok 0) ?se //= ni.
Qed.

End Proofs.

(** ** C60: every answer of share_verify *)

Theorem C60_share_verdicts (E : engine) (D : eddsa) (b : build) (R : rng E)
  (ag : PVSSAggregator E) (s : rstate R) (sh : PVSSShare E) :
  config_ok (ag_config ag) ->
  exists k, (share_verify D b ag s sh).2 = after k s /\
    share_verdict D ag (fun m => scrape_test (scalars m s)) sh (share_verify D b ag s sh).1 k.
Proof.
move=> [tn nq fn]; rewrite /share_verify; set id := sh_participant_id sh.
set core := sh_pvss_core sh.
case g: (bt_get _ id) => [p|] /=; last by exists 0%N; split=> //; exact: SV_unknown.
case: (ltnP id (size (comms core))) => l1; last first.
  rewrite index_oob //=; exists 0%N; split=> //; apply: (SV_index D _ g).
  by apply: leq_trans l1; exact: geq_minl.
rewrite (index_ok 0) //=; case: (ltnP id (size (encs core))) => l2; last first.
  rewrite index_oob //=; exists 0%N; split=> //; apply: (SV_index D _ g).
  by apply: leq_trans l2; exact: geq_minr.
have lm : (id < minn (size (comms core)) (size (encs core)))%N by rewrite leq_min l1.
rewrite (index_ok 0) //= product2.
have so : slot_ok ag core id <-> pairing (pa_public_key_sig p) (nth 0 (comms core) id)
    = pairing (nth 0 (encs core) id) (srs_g2 (cfg_srs (ag_config ag))).
  by rewrite /slot_ok /key_of g.
case: eqP => /= /so pe; last by exists 0%N; split=> //; exact: SV_slot g lm pe.
rewrite /core_verify; case: eqP => [se|ne] /=; last first.
  by exists 0%N; split=> //; apply: SV_sizes g lm pe _ => -[].
case: eqP => [sc|ne] /=; last by exists 0%N; split=> //; apply: SV_sizes g lm pe _ => -[].
have cs : core_sized (ag_config ag) core by [].
have [d ->] := @scrape_testE E b R s (comms core) (cfg_degree (ag_config ag))
  ltac:(by rewrite sc) ltac:(by rewrite sc) ltac:(by rewrite sc).
have [P -> hP] := @interpolation_total E b (cfg_degree (ag_config ag)) (comms core)
  ltac:(by rewrite sc ltnW) ltac:(by rewrite sc) ltac:(by rewrite sc).
rewrite sc => dd; eexists; split; last first.
  apply: (SV_checks g _ pe cs); first by rewrite -sc.
  rewrite -/core; case: dd => -[-> hd] /=; last by constructor 1.
  case: eqP => [/esym/hP hs|ns] /=; last by constructor 2; split=> //; split=> // /hP/esym.
  case: (signed_verify_cases D (ag_config ag) (sh_signed_proof sh) (pa_public_key_ed p)) => -[-> sv] /=.
    by constructor 4.
  by constructor 3.
by case: d dd => [[]|e|pp] /=; try case: ifP.
Qed.
Print Assumptions C60_share_verdicts.

Lemma four_cases T (x1 x2 x3 x4 r r' : T) (A B C : Prop) :
  [\/ r = x1 /\ ~ A, r = x2 /\ A /\ ~ B, r = x3 /\ [/\ A, B & ~ C] | r = x4 /\ [/\ A, B & C]] ->
  [\/ r' = x1 /\ ~ A, r' = x2 /\ A /\ ~ B, r' = x3 /\ [/\ A, B & ~ C] | r' = x4 /\ [/\ A, B & C]] ->
  r = r'.
Proof.
by move=> [[-> a]|[-> [a c]]|[-> [a c d]]|[-> [a c d]]] [[-> a']|[-> [a' c']]|[-> [a' c' d']]|[-> [a' c' d']]].
Qed.

(** The verdict is determined by the aggregator, the share and the test. *)
Theorem C60_unique (E : engine) (D : eddsa) (ag : PVSSAggregator E)
  (test : nat -> seq (Com E) -> Prop) (sh : PVSSShare E) o o' k k' :
  share_verdict D ag test sh o k -> share_verdict D ag test sh o' k' -> o = o' /\ k = k'.
Proof.
move=> h h'; case: h h' => [g|p g l|p g l ns|p g l so nz|p r g l so z t m deg sec sg h];
  case=> [g'|p' g' l'|p' g' l' ns'|p' g' l' so' nz'|p' r' g' l' so' z' t' m' deg' sec' sg' h'] //;
  try by [move: g g' => -> | move: g' g => -> | move: l l'; lia];
  try by move: l l'; case: (z) => -> ->; rewrite minnn; lia.
all: try by move: l l'; case: (z') => -> ->; rewrite minnn; lia.
split=> //; have ep : p = p' by move: g'; rewrite g => -[].
by subst p'; exact: four_cases h h'.
Qed.
Print Assumptions C60_unique.

(** ** C61: every answer of aggregation_verify *)

Theorem C61_transcript_verdicts (E : engine) (D : eddsa) (b : build) (R : rng E)
  (ag : PVSSAggregator E) (s : rstate R) (x : PVSSAggregatedShare E) :
  config_ok (ag_config ag) ->
  let m := (cfg_num_participants (ag_config ag) - (cfg_degree (ag_config ag)).+1)%N in
  exists k, (aggregation_verify D b ag s x).2 = after k s /\
    tx_verdict D ag (fun m => scrape_test (scalars m s)) ((rand_fr (after m s)).1 = 0) x
      (aggregation_verify D b ag s x).1 k.
Proof.
move=> [tn nq fn] m; rewrite /aggregation_verify; set core := as_pvss_core x.
case: eqP => [se|ne] /=; last by exists 0%N; split=> //; apply: TV_sizes => -[].
case: eqP => [sc|ne] /=; last by exists 0%N; split=> //; apply: TV_sizes => -[].
have cs : core_sized (ag_config ag) core by [].
have [d ->] := @scrape_testE E b R s (comms core) (cfg_degree (ag_config ag))
  ltac:(by rewrite sc) ltac:(by rewrite sc) ltac:(by rewrite sc).
have [P -> hP] := @interpolation_total E b (cfg_degree (ag_config ag)) (comms core)
  ltac:(by rewrite sc ltnW) ltac:(by rewrite sc) ltac:(by rewrite sc).
rewrite sc -/m; case=> -[-> hd] /=; last by exists m; split=> //; exact: TV_degree.
exists m.+1; have -> : after m.+1 s = (rand_fr (after m s)).2 by [].
case: (rand_fr (after m s)) => r s'' /=; split=> //.
apply: TV_checks => //; case: (boolP [forall i : 'I_(cfg_num_participants (ag_config ag)),
           isSome (bt_get (ag_participants ag) i)]) => [/forallP reg|nr]; last first.
  have nr' : ~ registered ag.
    by move=> reg; case/forallPn: nr => i; have [p ->] := reg i (ltn_ord i).
  by constructor 1; rewrite encryption_pairs_missing.
have {}reg : registered ag.
  by move=> i li; have := reg (Ordinal li) => /=; case: (bt_get _ i) => // p _; exists p.
rewrite encryption_pairsE //=; have [pp pp'] := pairs_product ag r core.
case: ifP => [/negP h|/negbFE/pp h]; first by constructor 2; split=> //; split=> // /pp'.
case: (contributions_cases D ag (as_contributions x)) => [[-> cv]|[i fb ->]] /=; last first.
  by constructor 3; exists i.
constructor 4; split=> //; case: eqP => [/hP ht|nt]; [by right | left].
by split=> // /hP.
Qed.
Print Assumptions C61_transcript_verdicts.

Theorem C61_unique (E : engine) (D : eddsa) (ag : PVSSAggregator E)
  (test : nat -> seq (Com E) -> Prop) (r0 : Prop) (x : PVSSAggregatedShare E) o o' k k' :
  tx_verdict D ag test r0 x o k -> tx_verdict D ag test r0 x o' k' -> o = o' /\ k = k'.
Proof.
have noth i : first_bad D ag (as_contributions x) i -> ~ contributions_valid D ag (as_contributions x).
  by move=> [[sp [w [g ng]]] _] /(_ _ _ _ g).
have same i j : first_bad D ag (as_contributions x) i -> first_bad D ag (as_contributions x) j -> i = j.
  move=> [[sp [w [g ng]]] h] [[sp' [w' [g' ng']]] h'].
  by case: (ltngtP i j) => // [/(h' _ _ _ g)|/(h _ _ _ g')].
move=> h h'; case: h h' => [nz|z m nd|r z t m d sl tot prf h];
  case=> [nz'|z' m' nd'|r' z' t' m' d' sl' tot' prf' h'] //.
split=> //; case: h => [[-> a]|[-> [a c]]|[i [a c f ->]]|[a c f h]];
  case: h' => [[-> a']|[-> [a' c']]|[j [a' c' f' ->]]|[a' c' f' h']] //; try by exfalso; tauto.
- by rewrite (same _ _ f f').
- by case: (noth _ f).
- by case: (noth _ f').
by case: h => -[-> u]; case: h' => -[-> u'].
Qed.
Print Assumptions C61_unique.

(** Every kind of verdict occurs on the toy configuration: with the generator [coins], the
    answer of share_verify and the number of scalars it drew. *)
Definition with_core (sh : PVSSShare TE) es cs :=
  MkShare (sh_participant_id sh) (MkCore es cs) (sh_signed_proof sh).

Example C60_example :
  let sh := PropsHist.tshare 1 [:: f 7; f 5; f 3] in
  let es := encs (sh_pvss_core sh) in
  let cs := comms (sh_pvss_core sh) in
  let ask sh := let: (o, s) := @share_verify TE TD Debug (seq_rng TE) tag [:: f 2; f 9; f 4] sh in
                (o, size (s : seq 'F_11)) in
  [/\ [/\ ask sh = (Ok tt, 1%N),
          ask (MkShare 7 (sh_pvss_core sh) (sh_signed_proof sh)) = (Err (InvalidParticipantId 7), 3%N),
          ask (with_core sh (take 1 es) cs) = (Panic IndexOutOfBounds, 3%N)
        & ask (with_core sh (nseq 4 (f 1)) cs) = (Err EncryptionCorrectnessError, 3%N)],
      ask (with_core sh es (take 3 cs))
        = (Err (MismatchedCommitsEncryptionsParticipantsError 4 3 4), 3%N),
      ask (with_core sh es (rcons (take 3 cs) (f 0))) = (Err DualCodeError, 1%N),
      ask (MkShare 1 (sh_pvss_core sh) (sh_signed_proof (PropsHist.tshare 1 [:: f 8; f 5; f 3])))
        = (Err GSCheckError, 1%N)
    & ask (MkShare 1 (sh_pvss_core sh) (MkSigned (sp_decomp_proof (sh_signed_proof sh))
             (sig_split (padt 64 [::])))) = (Panic UnwrapErr, 1%N)].
Proof. by do !split; vm_compute. Qed.

(** The same for transcripts. *)
Example C61_example :
  let sh := PropsHist.tshare 1 [:: f 7; f 5; f 3] in
  let sp := sh_signed_proof sh in
  let bad := MkSigned (sp_decomp_proof sp) (sig_split (padt 64 [::])) in
  let core := sh_pvss_core sh in
  let tx core l := MkAgg 4 1 core (bt_collect l) in
  let holes := MkAggregator tconfig (bt_collect [:: (0%N, tpart 0); (1%N, tpart 1); (2%N, tpart 2)])
                 (agg_empty TE 1 4) in
  let ask ag x := let: (o, s) := @aggregation_verify TE TD Debug (seq_rng TE) ag
                                   [:: f 2; f 9; f 4; f 1] x in (o, size (s : seq 'F_11)) in
  [/\ [/\ ask tag (tx core [:: (1%N, (sp, 1%num))]) = (Ok tt, 1%N),
          ask tag (tx (MkCore (encs core) (take 3 (comms core))) [:: (1%N, (sp, 1%num))])
            = (Err (MismatchedCommitsEncryptionsParticipantsError 4 3 4), 4%N)
        & ask tag (tx (MkCore (encs core) (rcons (take 3 (comms core)) (f 0))) [:: (1%N, (sp, 1%num))])
            = (Err DualCodeError, 2%N)],
      ask holes (tx core [:: (1%N, (sp, 1%num))]) = (Panic UnwrapNone, 1%N),
      ask tag (tx (@MkCore TE (nseq 4 (f 1)) (comms core)) [:: (1%N, (sp, 1%num))])
        = (Err EncryptionCorrectnessError, 1%N),
      [/\ ask tag (tx core [:: (1%N, (sp, 1%num)); (2%N, (bad, 1%num)); (7%N, (sp, 1%num))])
            = (Panic UnwrapErr, 1%N)
        & ask tag (tx core [:: (1%N, (sp, 1%num)); (7%N, (bad, 1%num))]) = (Panic UnwrapNone, 1%N)]
    & ask tag (tx core [:: (1%N, (sp, 2%num))]) = (Err AggregationReconstructionMismatchError, 1%N)].
Proof. by do !split; vm_compute. Qed.

(** ** C62: every outcome of dealing, and the share as a function of the scalars drawn *)

Section Deal.
Variables (E : engine) (D : eddsa).

(** The value at [x] of the polynomial with coefficients [a]. *)
Definition value (a : seq (Fr E)) (x : Fr E) : Fr E := \sum_(k < size a) nth 0 a k * x ^+ k.

(** The share of node [node] with the coefficients [a], the nonce [k] and the key [kp]. *)
Definition is_share_of (node : Node E) (a : seq (Fr E)) (k : Fr E) (kp : ed_keypair D)
  (sh : PVSSShare E) : Prop :=
  let ag := nd_aggregator node in
  let g := srs_g2 (cfg_srs (ag_config ag)) in
  let n := cfg_num_participants (ag_config ag) in
  let sp := sh_signed_proof sh in
  let pi := dp_proof (sp_decomp_proof sp) in
  [/\ sh_participant_id sh = pa_id (de_participant (nd_dealer node)),
      comms (sh_pvss_core sh) = [seq value a i.+1%:R *: g | i <- iota 0 n],
      encs (sh_pvss_core sh) = [seq value a i.+1%:R *: key_of ag i | i <- iota 0 n],
      dp_gs (sp_decomp_proof sp) = value a 0 *: g &
      [/\ dlk_commit pi = k *: g,
          dlk_challenge pi = hash_to_field E DLK_PERSONA (pt_ser g ++ pt_ser (k *: g)),
          dlk_response pi = k - value a 0 * dlk_challenge pi
        & part1 (sp_signature_on_decomp sp) ++ part2 (sp_signature_on_decomp sp)
          = ed_sign kp (signed_digest (sp_decomp_proof sp)) :> seq byte]].

Inductive deal_verdict (node : Node E) (a : seq (Fr E)) (k : Fr E)
  : outcome pvss_error (PVSSShare E) -> nat -> Prop :=
| DV_nobody pc :
    cfg_num_participants (ag_config (nd_aggregator node)) = 0%N ->
    deal_verdict node a k (Panic pc) (size a)
| DV_missing j :
    (j < cfg_num_participants (ag_config (nd_aggregator node)))%N ->
    bt_get (ag_participants (nd_aggregator node)) j = None ->
    (forall i, (i < j)%N -> bt_get (ag_participants (nd_aggregator node)) i <> None) ->
    deal_verdict node a k (Err (InvalidParticipantId j)) (size a)
| DV_outsider :
    (0 < cfg_num_participants (ag_config (nd_aggregator node)))%N ->
    registered (nd_aggregator node) ->
    (cfg_num_participants (ag_config (nd_aggregator node)) <= pa_id (de_participant (nd_dealer node)))%N
    \/ a = nseq (size a) 0 ->
    deal_verdict node a k (Panic IndexOutOfBounds) (size a)
| DV_key :
    registered (nd_aggregator node) ->
    (pa_id (de_participant (nd_dealer node)) < cfg_num_participants (ag_config (nd_aggregator node)))%N ->
    a <> nseq (size a) 0 ->
    ed_keypair_from_bytes D (de_private_key_ed (nd_dealer node)) = None ->
    deal_verdict node a k (Panic UnwrapErr) (size a).+1
| DV_share kp sh :
    registered (nd_aggregator node) ->
    (pa_id (de_participant (nd_dealer node)) < cfg_num_participants (ag_config (nd_aggregator node)))%N ->
    a <> nseq (size a) 0 ->
    ed_keypair_from_bytes D (de_private_key_ed (nd_dealer node)) = Some kp ->
    is_share_of node a k kp sh ->
    deal_verdict node a k (Ok sh) (size a).+1.

End Deal.

Lemma valueE (E : engine) (a : seq (Fr E)) x : value a x = (Poly a).[x].
Proof.
by rewrite (horner_coef_wide _ (size_Poly a)); apply: eq_bigr => k _; rewrite coef_Poly.
Qed.

Lemma share_pvss_state (E : engine) (b : build) (R : rng E) (node : Node E) (s : rstate R) :
  fits (cfg_degree (ag_config (nd_aggregator node))).+1 ->
  (share_pvss b node s).2 = after (cfg_degree (ag_config (nd_aggregator node))).+1 s.
Proof. by move=> ft; rewrite /share_pvss poly_randE // drawE. Qed.

Lemma all_zero_nseq (F : fieldType) (a : seq F) : all (fun c => c == 0) a <-> a = nseq (size a) 0.
Proof. by rewrite -[X in X <-> _]/(is_true (all (pred1 0) a)); split=> /all_pred1P. Qed.

Lemma first_missing_or (E : engine) (ag : PVSSAggregator E) :
  registered ag \/ exists j, first_missing ag (cfg_num_participants (ag_config ag)) j.
Proof.
set n := cfg_num_participants (ag_config ag).
case: (boolP [exists i : 'I_n, ~~ isSome (bt_get (ag_participants ag) i)]) => [/existsP[i hi]|/existsPn h].
  right; have ex : exists j, (j < n)%N && ~~ isSome (bt_get (ag_participants ag) j).
    by exists i; rewrite ltn_ord.
  case: (ex_minnP ex) => j /andP[jn nj] jmin; exists j; split=> //; first by case: (bt_get _ j) nj.
  move=> i' ij gi; have := jmin i'; rewrite (ltn_trans ij jn) gi /= => /(_ isT).
  by rewrite leqNgt ij.
left=> i li; have := h (Ordinal li); rewrite negbK /=.
by case: (bt_get _ i) => // p _; exists p.
Qed.

Theorem C62_dealing_verdicts (E : engine) (D : eddsa) (b : build) (R : rng E) (node : Node E)
  (s : rstate R) :
  let t := cfg_degree (ag_config (nd_aggregator node)) in
  fits t.+1 ->
  exists k, (share D b node s).2 = after k s /\
    deal_verdict D node (scalars t.+1 s) (rand_fr (after t.+1 s)).1 (share D b node s).1 k.
Proof.
move=> t ft; set a := scalars t.+1 s; have sa : size a = t.+1 by exact: size_scalars.
rewrite /share; have := share_pvss_state b s ft; have := @share_pvss_zero E b R node s ft.
have := @share_pvss_missing E b R node s; have := @share_pvss_present E b R node s ft; rewrite drawE -[scalars _ s]/a.
case: (share_pvss b node s) => o s1 /= hp hm hz -> {s1}; rewrite -/t.
have [n0|n0] := posnP (cfg_num_participants (ag_config (nd_aggregator node))).
  case: o hz {hp hm} => [c|e|pc] /(_ n0) // _; exists t.+1; split=> //.
  by rewrite -sa; exact: DV_nobody.
case: (first_missing_or (nd_aggregator node)) => [reg|[j fm]]; last first.
  rewrite (hm _ ft fm); exists t.+1; split=> //; rewrite -sa; case: fm => *; exact: DV_missing.
have pres i : (i < cfg_num_participants (ag_config (nd_aggregator node)))%N ->
    bt_get (ag_participants (nd_aggregator node)) i <> None.
  by move=> li; have [p ->] := reg i li.
have := hp n0 pres; case: ifP => [/andP[lid /negP z]|nb] ->; last first.
  exists t.+1; split=> //; rewrite -sa; apply: DV_outsider => //.
  by move: nb; case: ltnP => [lid /negbFE z|lid _]; [right; apply/(all_zero_nseq a) | left].
have nz : a <> nseq (size a) 0 by move/(all_zero_nseq a).2; exact: z.
rewrite /decomp_generate /dlk_prove; exists t.+2.
have -> : after t.+2 s = (rand_fr (after t.+1 s)).2 by [].
case: (rand_fr (after t.+1 s)) => k s2 /=; split=> //.
rewrite -sa /signature_new; case ek: (ed_keypair_from_bytes D _) => [kp|] /=; last exact: DV_key.
apply: (@DV_share E D node a k kp _ reg lid nz ek); split=> //=.
- by rewrite /eval_vec (iotaDl 1 0 _ : iota 1 _ = _) -map_comp; apply: eq_map => i /=; rewrite valueE.
- by rewrite /enc_vec; apply: eq_map => i; rewrite valueE.
- by rewrite valueE.
split=> //=; first by rewrite valueE.
by rewrite cat_take_drop decomp_digestE.
Qed.
Print Assumptions C62_dealing_verdicts.

(** With somebody to deal to, the outcome is determined by the scalars. *)
Theorem C62_unique (E : engine) (D : eddsa) (node : Node E) a k o o' m m' :
  (0 < cfg_num_participants (ag_config (nd_aggregator node)))%N ->
  deal_verdict D node a k o m -> deal_verdict D node a k o' m' -> o = o' /\ m = m'.
Proof.
move=> n0; have out j : (j < cfg_num_participants (ag_config (nd_aggregator node)))%N ->
    bt_get (ag_participants (nd_aggregator node)) j = None -> ~ registered (nd_aggregator node).
  by move=> lj g /(_ j lj)[p]; rewrite g.
case=> [pc e|j lj g bf|_ reg h|reg l z e|kp sh reg l z e h]; first by rewrite e in n0.
all: case=> [pc' e'|j' lj' g' bf'|_ reg' h'|reg' l' z' e'|kp' sh' reg' l' z' e' h'] //; first [by rewrite e' in n0 | idtac].
- by case: (ltngtP j j') => [/bf'|/bf|->].
- by case: (out _ lj g reg').
- by case: (out _ lj g reg').
- by case: (out _ lj g reg').
- by case: (out _ lj' g' reg).
- by case: h => // /(leq_trans l'); rewrite ltnn.
- by case: h => // /(leq_trans l'); rewrite ltnn.
- by case: (out _ lj' g' reg).
- by case: h' => // /(leq_trans l); rewrite ltnn.
- by rewrite e in e'.
- by case: (out _ lj' g' reg).
- by case: h' => // /(leq_trans l); rewrite ltnn.
- by rewrite e in e'.
split=> //; congr Ok; move: e'; rewrite e => -[ekp]; rewrite -{}ekp in h'.
case: sh sh' h h' => id1 [es1 cs1] [[[r1 c1 z1] g1] [p1 q1]] [id2 [es2 cs2] [[[r2 c2 z2] g2] [p2 q2]]].
rewrite /is_share_of /=; case=> -> -> -> -> [-> -> -> s1] [-> -> -> -> [-> -> -> s2]].
have : p1 ++ q1 = p2 ++ q2 by rewrite s1 s2.
by move/eqP; rewrite eqseq_cat ?size_tuple // => /andP[/eqP/val_inj-> /eqP/val_inj->].
Qed.
Print Assumptions C62_unique.

(** Receiving consumes what verifying consumes. *)
Theorem C62_receive_draws (E : engine) (D : eddsa) (b : build) (R : rng E) (ag : PVSSAggregator E)
  (s : rstate R) (sh : PVSSShare E) (x : PVSSAggregatedShare E) :
  let m := (cfg_num_participants (ag_config ag) - (cfg_degree (ag_config ag)).+1)%N in
  config_ok (ag_config ag) ->
  [/\ (receive_share D b ag s sh).2 = s \/ (receive_share D b ag s sh).2 = after m s,
      (receive_share D b ag s sh).1.1 = Ok tt -> (receive_share D b ag s sh).2 = after m s,
      [\/ (receive_aggregated_share D b ag s x).2 = s,
          (receive_aggregated_share D b ag s x).2 = after m s
        | (receive_aggregated_share D b ag s x).2 = after m.+1 s]
    & (receive_aggregated_share D b ag s x).1.1 = Ok tt ->
      (receive_aggregated_share D b ag s x).2 = after m.+1 s].
Proof.
move=> m ok; rewrite /receive_share /receive_aggregated_share.
have [k [ek vk]] := @C60_share_verdicts E D b R ag s sh ok.
have [k' [ek' vk']] := @C61_transcript_verdicts E D b R ag s x ok.
case: (share_verify _ _ _ _ _) ek vk => v s1 /= -> vk; case: (aggregation_verify _ _ _ _ _) ek' vk' => v' s2 /= -> vk'.
have st (A : Type) (o : outcome pvss_error A) (y : A -> PVSSAggregator E) (s' : rstate R) :
  (match o with Ok x => (Ok tt, y x, s') | Err e => (Err e, ag, s') | Panic p => (Panic p, ag, s') end).2 = s'.
  by case: o.
rewrite !st; split.
- by case: vk; [left|left|left|left|move=> *; right].
- by case: vk => //= *.
- by case: vk'; [constructor 1|constructor 2|constructor 3].
- by case: vk' => //= *.
Qed.
Print Assumptions C62_receive_draws.

Example C62_example :
  let deal node coins := let: (o, s) := @share TE TD Debug (seq_rng TE) node coins in
                         (is_ok o, is_panic o, size (s : seq 'F_11)) in
  let holes := MkAggregator tconfig (bt_collect [:: (0%N, tpart 0); (2%N, tpart 2)]) (agg_empty TE 1 4) in
  let keyless := MkDealer (de_private_key_sig (tdealer 2)) (padt 64 [:: x01]) (tpart 2) in
  [/\ deal (tnode 2) [:: f 7; f 5; f 4; f 1] = (true, false, 1%N),
      deal (MkNode holes (tdealer 2)) [:: f 7; f 5; f 4; f 1] = (false, false, 2%N),
      deal (tnode 4) [:: f 7; f 5; f 4; f 1] = (false, true, 2%N),
      deal (tnode 2) [:: f 0; f 0; f 4; f 1] = (false, true, 2%N)
    & deal (MkNode tag keyless) [:: f 7; f 5; f 4; f 1] = (false, true, 1%N)].
Proof. by split; vm_compute. Qed.
