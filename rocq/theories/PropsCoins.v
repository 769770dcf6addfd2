(** * PropsCoins: C110, verification by somebody whose coins are known beforehand *)

From Coq Require Import NArith Strings.Byte.
From mathcomp Require Import all_ssreflect all_algebra zify.
From Verif Require Import Prelude Errors BTreeMap Engine LibModel PolyModel SigmaModel PvssModel
  Spec PreludeProofs AlgebraProofs PolyProofs PvssProofs AggProofs HistProofs Instance PropsPoly
  PropsShare PropsAgg PropsHist PropsEnd PropsLimits.

Set Implicit Arguments.
Unset Strict Implicit.
Unset Printing Implicit Defensive.

Import GRing.Theory.
Local Open Scope ring_scope.

(** Every slot is what it should be. *)
Definition every_slot_ok (E : engine) (ag : PVSSAggregator E) (core : PVSSCore E) : Prop :=
  forall i, (i < cfg_num_participants (ag_config ag))%N -> slot_ok ag core i.

(** The transcript that holds this share alone. *)
Definition alone (E : engine) (ag : PVSSAggregator E) (sh : PVSSShare E) : PVSSAggregatedShare E :=
  MkAgg (cfg_num_participants (ag_config ag)) (cfg_degree (ag_config ag)) (sh_pvss_core sh)
    (bt_insert bt_new (sh_participant_id sh) (sh_signed_proof sh, 1%num)).

Section Coins.
Variables (E : engine) (D : eddsa).
Implicit Types (ag : PVSSAggregator E) (sh : PVSSShare E).

(** The linear form of the degree check on the values of a polynomial. *)
Definition dual_at (cs : seq (Fr E)) (n : nat) (P : {poly Fr E}) : Fr E :=
  \sum_(i < n) dual_coef cs n i * P.[pnt E i].

Lemma dual_at_lin cs n (a c : Fr E) (P Q : {poly Fr E}) :
  dual_at cs n (a *: P + c *: Q) = a * dual_at cs n P + c * dual_at cs n Q.
Proof.
rewrite /dual_at !mulr_sumr -big_split; apply: eq_bigr => i _ /=.
by rewrite hornerD !hornerZ mulrDr; congr (_ + _); exact: mulrCA.
Qed.

Lemma ensure_degree_at b R (s : rstate R) (P : {poly Fr E}) (g : Com E) n t :
  (t.+2 <= n)%N -> (n < modulus E)%N -> fits n -> dual_at (draw (n - t.+1) s).1 n P = 0 ->
  (ensure_degree b s (eval_vec P g n) t).1 = Ok tt.
Proof.
move=> tn nq fn z; rewrite ensure_degreeE ?size_eval_vec //=.
suff -> : \sum_(i < n) dual_coef (draw (n - t.+1) s).1 n i *: nth 0 (eval_vec P g n) i = 0 by rewrite eqxx.
under eq_bigr => i _ do rewrite nth_eval_vec // scalerA.
by rewrite -scaler_suml -/(dual_at _ _ _) z scale0r.
Qed.

(** A polynomial of too high a degree shows in the values, if there are enough of them. *)
Lemma high_degree (P : {poly Fr E}) (g : Com E) n t :
  (n < modulus E)%N -> g != 0 -> (size P <= n)%N -> (t.+1 <= n)%N -> (t.+1 < size P)%N ->
  ~ low_degree t (eval_vec P g n).
Proof.
move=> nq g0 sP tn hP [p sp e]; rewrite size_eval_vec in e.
have [u hu] := pt_cyclic g (pt_gen_neq0 (G2 E)).
have u0 : u != 0 by apply: contraNneq g0 => z; rewrite hu z scale0r.
have zero : u *: P - p = 0.
  apply: (@roots_geq_poly_eq0 _ _ [seq pnt E i | i <- iota 0 n]).
  - apply/allP => x /mapP[i]; rewrite mem_iota add0n => /= li ->.
    rewrite /root hornerD hornerN hornerZ subr_eq0.
    have := congr1 (fun v => nth 0 v i) e; rewrite /= !nth_eval_vec // hu scalerA.
    move=> h; have : (P.[pnt E i] * u - p.[pnt E i]) *: pt_gen (G2 E) == 0.
      by rewrite scalerBl h subrr.
    by rewrite scaler_eq0 (negbTE (pt_gen_neq0 _)) orbF subr_eq0 mulrC.
  - rewrite map_inj_in_uniq ?iota_uniq // => i j.
    by rewrite !mem_iota !add0n => /= li lj; exact: (@pnt_inj E n nq).
  - rewrite size_map size_iota; apply: leq_trans (size_add _ _) _.
    rewrite geq_max size_opp (leq_trans sp tn) andbT.
    exact: leq_trans (size_scale_leq _ _) sP.
have : (size (u *: P)%R <= t.+1)%N by rewrite (subr0_eq zero).
by rewrite size_scale // leqNgt hP.
Qed.

(** A polynomial of too high a degree that the check with coins [cs] lets pass. *)
Lemma passing_poly (cs : seq (Fr E)) n t :
  (t.+2 < n)%N -> exists P : {poly Fr E}, [/\ (size P <= n)%N, (t.+1 < size P)%N & dual_at cs n P = 0].
Proof.
move=> tn; pose A : {poly Fr E} := 'X^t.+1; pose B : {poly Fr E} := 'X^t.+2.
have mk (a c : Fr E) : (a != 0) || (c != 0) ->
    (size (a *: A + c *: B)%R <= n)%N /\ (t.+1 < size (a *: A + c *: B)%R)%N.
  move=> nz; split.
    apply: leq_trans (size_add _ _) _; rewrite geq_max.
    by apply/andP; split; apply: leq_trans (size_scale_leq _ _) _; rewrite size_polyXn // ltnW.
  rewrite ltnNge; apply/negP => le.
  have c1 := nth_default 0 le; have := leq_trans le (leqnSn _) => le2.
  have c2 := nth_default 0 le2; move: c1 c2; rewrite !coefD !coefZ !coefXn.
  rewrite !eqxx eqn_leq ltnn andbF eqn_leq ltnn /= !mulr1 !mulr0 addr0 add0r => a0 b0.
  by rewrite a0 b0 eqxx in nz.
case z: ((dual_at cs n B != 0) || (- dual_at cs n A != 0)).
  exists (dual_at cs n B *: A + (- dual_at cs n A) *: B); have [s1 s2] := mk _ _ z.
  by split=> //; rewrite dual_at_lin mulNr [X in X - _]mulrC subrr.
have [s1 s2] := mk 1 0 ltac:(by rewrite oner_eq0).
exists (1 *: A + 0 *: B); split=> //; rewrite dual_at_lin mul0r addr0 mul1r.
by move: z; rewrite oppr_eq0 => /norP[_ /negPn/eqP].
Qed.

(** A dealer makes the share of any polynomial, whatever its degree; what it commits to is what
    the first [t + 1] values determine. *)
Lemma deal_any b R ag (s : rstate R) (j : nat) pa (sk : SecretKey) (P : {poly Fr E}) :
  config_ok (ag_config ag) -> srs_g2 (cfg_srs (ag_config ag)) != 0 ->
  bt_get (ag_participants ag) j = Some pa -> (j < cfg_num_participants (ag_config ag))%N ->
  can_prove D (ag_config ag) sk (pa_public_key_ed pa) ->
  (ensure_degree b s (eval_vec P (srs_g2 (cfg_srs (ag_config ag))) (cfg_num_participants (ag_config ag)))
     (cfg_degree (ag_config ag))).1 = Ok tt ->
  exists sh, [/\ sh_participant_id sh = j, sh_pvss_core sh = core_of ag P,
    (share_verify D b ag s sh).1 = Ok tt
    & registered ag -> (aggregation_verify D b ag s (alone ag sh)).1 = Ok tt].
Proof.
set config := ag_config ag; set g := srs_g2 _; set n := cfg_num_participants _; set t := cfg_degree _.
move=> [tn nq fn] g0 gj lj cp dg.
have [S cS] : exists S, commits_to t (eval_vec P g n) S.
  apply: commits_to_exists; first by rewrite size_eval_vec; exact: ltnW.
  by apply: leq_ltn_trans nq; exact: ltnW.
have [a eS] := pt_cyclic S g0.
have [dp [pv egs [kp hk vk]]] := cp a.
have sv : signed_valid D config (MkSigned dp (sig_split (ed_sign kp (signed_digest dp)))) (pa_public_key_ed pa).
  by split.
exists (MkShare j (core_of ag P) (MkSigned dp (sig_split (ed_sign kp (signed_digest dp))))).
split=> //.
  apply/share_verifyE => //; exists pa; split=> //; first exact: core_of_slot.
  by split=> //; [exact: core_of_sized | rewrite /= egs -/g -eS].
move=> reg; apply/aggregation_verifyE => //; split=> //.
- exact: core_of_sized.
- by right; exact: core_of_product.
- by move=> i sp w; rewrite /= bt_get1; case: eqP => // <- [<- _]; exists pa.
- by rewrite /= weighted_gs1 /gs_of /= egs -/g -eS.
Qed.

End Coins.

(** The dealer knows the state of the verifier's generator, and that [n >= t + 3].  It makes a
    share of a polynomial of degree above [t], every slot of which is filled correctly.  The
    verifier accepts the share, and the transcript holding it. *)
Theorem C110_known_coins_refuted (E : engine) (D : eddsa) (b : build) (R : rng E)
  (ag : PVSSAggregator E) (s : rstate R) (j : nat) (pa : Participant E) (sk : SecretKey) :
  let n := cfg_num_participants (ag_config ag) in
  let t := cfg_degree (ag_config ag) in
  config_ok (ag_config ag) -> registered ag -> srs_g2 (cfg_srs (ag_config ag)) != 0 -> (t.+2 < n)%N ->
  bt_get (ag_participants ag) j = Some pa -> (j < n)%N -> can_prove D (ag_config ag) sk (pa_public_key_ed pa) ->
  exists sh,
    [/\ sh_participant_id sh = j /\ every_slot_ok ag (sh_pvss_core sh),
        ~ low_degree t (comms (sh_pvss_core sh)),
        (share_verify D b ag s sh).1 = Ok tt
      & (aggregation_verify D b ag s (alone ag sh)).1 = Ok tt].
Proof.
move=> n t ok reg g0 tn gj lj wk; have [tn' nq fn] := ok.
have [P [sP hP zP]] := passing_poly (draw (n - t.+1) s).1 tn.
have dg := @ensure_degree_at E b R s P (srs_g2 (cfg_srs (ag_config ag))) n t tn' nq fn zP.
have [sh [ei ec sv av]] := deal_any ok g0 gj lj wk dg.
exists sh; split=> //; last exact: av.
  by split=> // i li; rewrite ec; exact: core_of_slot.
by rewrite ec; apply: high_degree => //; exact: ltnW.
Qed.
Print Assumptions C110_known_coins_refuted.

(** The property as worded: nothing bad is accepted even if the sender knows the coins. *)
Definition C110_full : Prop :=
  forall (E : engine) (D : eddsa) (b : build) (R : rng E) (ag : PVSSAggregator E) (s : rstate R) (sh : PVSSShare E),
  config_ok (ag_config ag) -> registered ag -> srs_g2 (cfg_srs (ag_config ag)) != 0 ->
  (share_verify D b ag s sh).1 = Ok tt -> low_degree (cfg_degree (ag_config ag)) (comms (sh_pvss_core sh)).
Theorem C110_full_refuted : ~ C110_full.
Proof.
move=> full; have tc : config_ok (ag_config tag) by [].
have g0 : srs_g2 (cfg_srs (ag_config tag)) != 0 by vm_compute.
have [sh [_ nl sv _]] := @C110_known_coins_refuted TE TD Debug (seq_rng TE) tag [:: f 1; f 9; f 3] 1
  (tpart 1) (tsk 1) tc tag_registered g0 isT erefl isT (working_can_prove _ (@toy_working 1 isT)).
exact: nl (full _ _ _ _ _ _ _ tc tag_registered g0 sv).
Qed.
Print Assumptions C110_full_refuted.

(** What holds, for every state of the generator: such a share exists exactly if there are more
    than [t + 2] participants or the one scalar the verifier draws is zero.  In particular, with
    [n = t + 2] the sender may know the coins, as long as they are not zero. *)
Theorem C110_exact_partial (E : engine) (D : eddsa) (b : build) (R : rng E)
  (ag : PVSSAggregator E) (s : rstate R) (j : nat) (pa : Participant E) (sk : SecretKey) :
  let n := cfg_num_participants (ag_config ag) in
  let t := cfg_degree (ag_config ag) in
  config_ok (ag_config ag) -> srs_g2 (cfg_srs (ag_config ag)) != 0 ->
  bt_get (ag_participants ag) j = Some pa -> (j < n)%N -> can_prove D (ag_config ag) sk (pa_public_key_ed pa) ->
  (exists sh, [/\ sh_participant_id sh = j, every_slot_ok ag (sh_pvss_core sh),
                  ~ low_degree t (comms (sh_pvss_core sh))
                & (share_verify D b ag s sh).1 = Ok tt])
  <-> (t.+2 < n)%N \/ (rand_fr s).1 = 0.
Proof.
move=> n t ok g0 gj lj wk; have [tn nq fn] := ok; rewrite -/n -/t in tn nq fn.
pose g := srs_g2 (cfg_srs (ag_config ag)).
split=> [[sh [_ _ nl]]|h].
  case/share_verifyE => // p [_ _ _ [[_ sc] dg _] _]; rewrite -/n -/t in sc dg.
  case: (ltnP t.+2 n) => le; [by left | right].
  have en : n = t.+2 by apply/eqP; rewrite eqn_leq le.
  move: dg; rewrite ensure_degreeE ?sc //= en subSS subSnn /=.
  case er: (rand_fr s) => [r s1] /=; case: eqP => // z _; apply/eqP/negPn/negP => r0.
  have [_] := @C02_degree_check_sound E b (comms (sh_pvss_core sh)) t
    ltac:(by rewrite sc) ltac:(by rewrite sc) ltac:(by rewrite sc) nl.
  rewrite sc en subnn expn0 subSS subSnn => card.
  have in0 : [tuple 0] \in [set c : 1.-tuple (Fr E) |
      is_ok (ensure_degree b (R := seq_rng E) (c : seq (Fr E)) (comms (sh_pvss_core sh)) t).1].
    rewrite inE ensure_degreeE ?sc // en subSS subSnn /= big1 ?eqxx // => i _.
    by rewrite /dual_coef /= cons_poly_def mul0r add0r polyC0 horner0 mul0r scale0r.
  have inr : [tuple r] \in [set c : 1.-tuple (Fr E) |
      is_ok (ensure_degree b (R := seq_rng E) (c : seq (Fr E)) (comms (sh_pvss_core sh)) t).1].
    by rewrite inE ensure_degreeE ?sc // en subSS subSnn /= z eqxx.
  have /cards1P[c ec] : #|[set c : 1.-tuple (Fr E) |
      is_ok (ensure_degree b (R := seq_rng E) (c : seq (Fr E)) (comms (sh_pvss_core sh)) t).1]| == 1%N.
    by rewrite card.
  move: in0 inr; rewrite ec !inE => /eqP e1 /eqP; rewrite -e1 => -[e2].
  by rewrite e2 eqxx in r0.
have [P [sP hP zP]] : exists P : {poly Fr E},
    [/\ (size P <= n)%N, (t.+1 < size P)%N & dual_at (draw (n - t.+1) s).1 n P = 0].
  case: (ltnP t.+2 n) => le; first exact: passing_poly.
  have en : n = t.+2 by apply/eqP; rewrite eqn_leq le.
  exists 'X^t.+1; rewrite size_polyXn en; split=> //; rewrite subSS subSnn /=.
  case: h => [|r0]; first by rewrite en ltnn.
  case: (rand_fr s) r0 => r s1 /= ->; rewrite /dual_at big1 // => i _.
  by rewrite /dual_coef /= cons_poly_def mul0r add0r polyC0 horner0 !mul0r.
have dg := @ensure_degree_at E b R s P g n t tn nq fn zP.
have [sh [ei ec sv _]] := deal_any ok g0 gj lj wk dg.
exists sh; split=> //; first by move=> i li; rewrite ec; exact: core_of_slot.
by rewrite ec; apply: high_degree => //; exact: ltnW.
Qed.
Print Assumptions C110_exact_partial.

(** The toy setting meets the conditions: four participants, degree 1, dealer 1. *)
Example C110_example :
  [/\ config_ok (ag_config tag), srs_g2 (cfg_srs (ag_config tag)) != 0,
      bt_get (ag_participants tag) 1 = Some (tpart 1), can_prove TD tconfig (tsk 1) (pa_public_key_ed (tpart 1))
    & (3 < cfg_num_participants (ag_config tag))%N].
Proof. by split=> //; apply/working_can_prove; exact: toy_working. Qed.
