(** * PropsCurve: the order of BLS12-381 (C101)

    The tests of /repo, and the sizes its comments speak of, are those of the curve
    BLS12-381.  The theorems elsewhere hold for every prime order; here is what they come to
    at this one. *)

From Coq Require Import NArith Strings.Byte.
From mathcomp Require Import all_ssreflect all_fingroup all_algebra all_solvable all_field zify.
From Verif Require Import Prelude Errors BTreeMap Engine LibModel PolyModel SigmaModel PvssModel
  CodecModel Spec PreludeProofs AlgebraProofs PolyProofs PvssProofs AggProofs HistProofs CodecProofs
  Instance PropsPoly PropsShare PropsAgg PropsHist PropsEnd PropsLimits PropsFree Pratt.

Set Implicit Arguments.
Unset Strict Implicit.
Unset Printing Implicit Defensive.

Import GRing.Theory.
Local Open Scope ring_scope.

(** The order of the scalar field [ark_bls12_381::Fr]. *)
Definition bls_order : N :=
  0x73eda753299d7d483339d80809a1d80553bda402fffe5bfeffffffff00000001%num.

(** ** It is prime *)

Definition bls_factors : seq (N * N) :=
  [:: (2, 32); (3, 1); (11, 1); (19, 1); (10177, 1); (125527, 1); (859267, 1); (906349, 2);
      (2508409, 1); (2529403, 1); (52437899, 1); (254760293, 2)]%num.

Lemma bls_factors_prime f : f \in [seq f.1 | f <- bls_factors] -> prime (N.to_nat f).
Proof.
have : all small_prime [seq f.1 | f <- bls_factors] by vm_compute.
by move/allP => h /h/small_primeP.
Qed.

Theorem C101_order_prime : prime (N.to_nat bls_order).
Proof.
apply: (@lucas_checkP bls_order 7 bls_factors); first exact: bls_factors_prime.
by vm_compute.
Qed.
Print Assumptions C101_order_prime.

(** A prime one above a multiple of it, for the target group of the instance below. *)
Definition target_order : N := (96 * bls_order + 1)%num.

Lemma target_prime : prime (N.to_nat target_order).
Proof.
apply: (@lucas_checkP target_order 19 [:: (2, 5); (3, 1); (bls_order, 1)]%num).
  have gen f x : prime (N.to_nat x) -> f \in [:: 2; 3; x]%num -> prime (N.to_nat f).
    by move=> px; rewrite !inE => /or3P[] /eqP->.
  exact: (fun f => gen f _ C101_order_prime).
by vm_compute.
Qed.

(** ** An engine of any prime order

    The groups are the field itself, the pairing is [(a, b) -> h^(ab)] with [h] of order [q]
    in a field of [p] elements, [q | p - 1].  Discrete logarithms are easy in it: it shows
    that the laws of [Engine.v] can be met at this order, nothing else. *)
Section AnyOrder.
Variables (q p : nat) (len1 len2 lenF : nat).
Hypotheses (qp : prime q) (pp : prime p) (dv : (q %| p.-1)%N).
Hypotheses (l1 : (N.of_nat q <= 256 ^ N.of_nat len1)%num) (l2 : (N.of_nat q <= 256 ^ N.of_nat len2)%num)
  (lF : (N.of_nat q <= 256 ^ N.of_nat lenF)%num).

Definition num_ser (k : nat) (x : 'F_q) : seq byte := le_bytes k (N.of_nat (val x)).
Definition num_deser (k : nat) (s : seq byte) : option ('F_q * seq byte) :=
  if (size s < k)%N then None
  else let x := of_le_bytes (take k s) in
       if (x <? N.of_nat q)%num then Some ((N.to_nat x)%:R, drop k s) else None.

Lemma num_ser_size k x : size (num_ser k x) = k. Proof. exact: size_le_bytes. Qed.

Lemma num_deserK k x rest : (N.of_nat q <= 256 ^ N.of_nat k)%num ->
  num_deser k (num_ser k x ++ rest) = Some (x, rest).
Proof.
move=> l; rewrite /num_deser size_cat num_ser_size ltnNge leq_addr /=.
rewrite take_size_cat ?num_ser_size // drop_size_cat ?num_ser_size //.
have lx : (val x < q)%N by rewrite -[X in (_ < X)%N](Fp_cast qp); exact: ltn_ord.
rewrite le_bytesK; last by lia.
have /N.ltb_lt -> : (N.of_nat (val x) < N.of_nat q)%num by lia.
by rewrite Nat2N.id natr_Zp.
Qed.

Let V := [lmodType 'F_q of ('F_q)^o].

Lemma any_gen : (1 : V) != 0. Proof. exact: oner_neq0. Qed.
Lemma any_cyclic (g P : V) : g != 0 -> exists a : 'F_q, P = a *: g.
Proof. by move=> g0; exists ((P : 'F_q) / (g : 'F_q)); rewrite /GRing.scale /= mulfVK. Qed.

Definition any_curve (k : nat) (l : (N.of_nat q <= 256 ^ N.of_nat k)%num) : curve q :=
  @Curve q V (1 : 'F_q) any_gen any_cyclic (num_ser k) k (num_deser k) (num_ser_size k)
    (fun x rest => num_deserK x rest l).

Lemma root_exists : exists h : 'F_p, q.-primitive_root h.
Proof.
have cd : (q %| #|[set: {unit 'F_p}]|)%N by rewrite card_finField_unit card_Fp.
have [x _ ox] := Cauchy qp cd; exists (FinRing.uval x).
have q0 := prime_gt0 qp; have xq : FinRing.uval x ^+ q = 1 by rewrite -FinRing.val_unitX -ox expg_order.
have [m pm dm] := prim_order_exists q0 xq.
have /orP[/eqP m1|/eqP <-//] := (primeP qp).2 m dm.
have x1 : x = 1%g.
  by apply: val_inj; have := prim_expr_order pm; rewrite m1 expr1.
by move: (prime_gt1 qp); rewrite -ox x1 order1.
Qed.

Lemma any_engine : exists E : engine,
  [/\ modulus E = q, pt_len (G1 E) = len1, pt_len (G2 E) = len2 & fr_len E = lenF].
Proof.
have [h ph] := root_exists.
pose e (P Q : 'F_q) : 'F_p := h ^+ val (P * Q).
have hD (x y : 'F_q) : h ^+ val (x + y) = h ^+ val x * h ^+ val y.
  rewrite -exprD; apply/eqP; rewrite (eq_prim_root_expr ph).
  have -> : val (x + y) = ((val x + val y) %% q)%N by rewrite -[RHS](val_Fp_nat qp) natrD !natr_Zp.
  by rewrite modn_mod.
have h0 : h != 0.
  apply/eqP => z; have := prim_expr_order ph; rewrite z expr0n.
  by case: (q) (prime_gt0 qp) => // k _ /esym/eqP; rewrite oner_eq0.
have eDl P P' Q : e (P + P') Q = e P Q * e P' Q by rewrite /e mulrDl hD.
have eDr P Q Q' : e P (Q + Q') = e P Q * e P Q' by rewrite /e mulrDr hD.
have e0 P Q : e P Q != 0 by rewrite /e expf_neq0.
have e1 P Q : e P Q = 1 -> P = 0 \/ Q = 0.
  move=> /eqP; rewrite /e -(prim_order_dvd ph) /dvdn modn_small; last first.
    by rewrite -[X in (_ < X)%N](Fp_cast qp); exact: ltn_ord.
  move=> z; have /eqP : P * Q = 0 by apply: val_inj; exact/eqP.
  by rewrite mulf_eq0 => /orP[/eqP->|/eqP->]; [left|right].
exists (@Engine q qp (any_curve l1) (any_curve l2) [fieldType of 'F_p] e eDl eDr e0 e1
  (fun _ m => (size m)%:R) (fun m => padt 32 m) (num_ser lenF) lenF (num_deser lenF)
  (num_ser_size lenF) (fun x rest => num_deserK x rest lF)).
by split.
Qed.

End AnyOrder.

Lemma engine_at (r : N) (l1 l2 lF : nat) :
  prime (N.to_nat r) -> prime (N.to_nat (96 * r + 1)) ->
  (r <=? 256 ^ N.of_nat l1)%num = true -> (r <=? 256 ^ N.of_nat l2)%num = true ->
  (r <=? 256 ^ N.of_nat lF)%num = true ->
  exists E : engine,
  [/\ N.of_nat (modulus E) = r, pt_len (G1 E) = l1, pt_len (G2 E) = l2 & fr_len E = lF].
Proof.
move=> pr pp /N.leb_le h1 /N.leb_le h2 /N.leb_le hF.
have dv : (N.to_nat r %| (N.to_nat (96 * r + 1)).-1)%N.
  have -> : (N.to_nat (96 * r + 1)).-1 = (96 * N.to_nat r)%N by lia.
  exact: dvdn_mull.
have [|||E [mE e1 e2 eF]] := @any_engine _ _ l1 l2 lF pr pp dv; try by rewrite N2Nat.id.
by exists E; split=> //; rewrite mE N2Nat.id.
Qed.

(** The laws of the model can be met at the order of the curve, with the sizes it has: points
    of 48 and 96 bytes, scalars of 32. *)
Theorem C101_engine : exists E : engine,
  [/\ N.of_nat (modulus E) = bls_order,
      pt_len (G1 E) = 48%N, pt_len (G2 E) = 96%N & fr_len E = 32%N].
Proof.
by apply: (@engine_at bls_order 48 96 32 C101_order_prime target_prime); vm_compute.
Qed.
Print Assumptions C101_engine.

(** ** What the order is good for *)

Lemma pow_below (q k : nat) (r : N) :
  N.of_nat q = r -> (2 ^ N.of_nat k <? r)%num = true -> (2 ^ k < q)%N.
Proof.
move=> <- /N.ltb_lt l.
have e : N.to_nat (2 ^ N.of_nat k) = (2 ^ k)%N by rewrite to_nat_pow Nat2N.id.
by rewrite -e; lia.
Qed.

Lemma below_64 (q : nat) (r : N) :
  N.of_nat q = r -> (2 ^ 64 <? r)%num = true -> forall x, (x < 2 ^ 64)%num -> (N.to_nat x < q)%N.
Proof. by move=> <- /N.ltb_lt l x; move: (2 ^ 64)%num l => m; lia. Qed.

Section Order.
Variable E : engine.
Hypothesis order : N.of_nat (modulus E) = bls_order.

Lemma order_254 : (2 ^ 254 < modulus E)%N.
Proof. by apply: (pow_below order); vm_compute. Qed.

Lemma order_64 x : (x < 2 ^ 64)%num -> (N.to_nat x < modulus E)%N.
Proof. by move: x; apply: (below_64 order); vm_compute. Qed.

(** A configuration is one the scheme is meant for as soon as [t + 2 <= n] and its vectors
    fit in memory: that [n] is below the order is no restriction. *)
Theorem C101_config (config : Config E) :
  config_ok config <->
  ((cfg_degree config).+2 <= cfg_num_participants config)%N /\ fits (cfg_num_participants config).
Proof.
split=> [[]|[tn fn]] //; split=> //.
by rewrite -[X in (X < _)%N]Nat2N.id; apply: order_64; move: fn; rewrite /fits; lia.
Qed.

(** The points at which a polynomial is evaluated for the participants are different from
    each other and from 0, where the secret is, for all ids a machine word can hold. *)
Theorem C101_points (i j : N) : (i < 2 ^ 64)%num -> (j < 2 ^ 64)%num ->
  fr_of_u64 (modulus E) i = fr_of_u64 (modulus E) j -> i = j.
Proof.
move=> li lj; rewrite !fr_of_u64E => /fr_nat_mod.
by rewrite !modn_small ?order_64 //; lia.
Qed.

(** A transcript stays accepted when a contributor is left out only if the weight was zero or
    the contribution the commitment to zero, and under another weight only in the latter
    case. *)
Theorem C101_lists (D : eddsa) (b : build) (R : rng E)
  (ag : PVSSAggregator E) (s : rstate R) (x : PVSSAggregatedShare E) (i : nat)
  (sp : SignedProof E) (w w' : N) :
  let free := dp_gs (sp_decomp_proof sp) = 0 in
  (w < 2 ^ 64)%num -> (w' < 2 ^ 64)%num ->
  config_ok (ag_config ag) -> registered ag ->
  bt_get (as_contributions x) i = None ->
  (aggregation_verify D b ag s (add_contributor x i sp w)).1 = Ok tt ->
  ((aggregation_verify D b ag s x).1 = Ok tt <-> w = 0%num \/ free) /\
  ((aggregation_verify D b ag s (add_contributor x i sp w')).1 = Ok tt <-> w = w' \/ free).
Proof.
move=> free lw lw' ok reg nx acc.
have [-> ->] := C48_exact_partial w' ok reg nx acc.
rewrite /dvdn !modn_small ?order_64 //.
by split; split=> -[h|]; try (by right); left; [move/eqP: h| rewrite h | |rewrite h]; lia.
Qed.

(** The checks that are sound up to one draw in [q] are sound up to one in [2^254]. *)
Theorem C101_soundness (D : eddsa) (b : build) (ag : PVSSAggregator E) :
  let n := cfg_num_participants (ag_config ag) in
  let t := cfg_degree (ag_config ag) in
  config_ok (ag_config ag) ->
  (forall sh, ~ sound_share D ag sh ->
   (#|[set c : (n - t.+1).-tuple (Fr E) |
        is_ok (share_verify D b (R := seq_rng E) ag (c : seq (Fr E)) sh).1]| * 2 ^ 254
    < #|{: (n - t.+1).-tuple (Fr E)}|)%N) /\
  (registered ag -> forall x, ~ sound_transcript D ag x ->
   (#|[set c : (n - t.+1).+1.-tuple (Fr E) |
        is_ok (aggregation_verify D b (R := seq_rng E) ag (c : seq (Fr E)) x).1]| * 2 ^ 254
    < #|{: (n - t.+1).+1.-tuple (Fr E)}|)%N).
Proof.
move=> n t ok; have [tn nq fn] := ok.
have gen M k c : (M < modulus E)%N -> (c <= modulus E ^ k)%N -> (c * M < #|{: k.+1.-tuple (Fr E)}|)%N.
  move=> lM lc; rewrite card_tuple card_Fp ?modulus_prime // expnSr.
  apply: leq_ltn_trans (_ : modulus E ^ k * M < _)%N; first by rewrite leq_mul2r lc orbT.
  by rewrite ltn_pmul2l // expn_gt0 prime_gt0 ?modulus_prime.
split=> [sh bad|reg x bad].
  have [_ _ /(_ bad)] := C51_share_soundness D b sh ok; rewrite -/n -/t.
  have -> : (n - t.+1 = (n - t.+2).+1)%N by rewrite /n /t; lia.
  exact: gen order_254.
have [_ _ /(_ bad)] := C50_transcript_soundness D b x ok reg; rewrite -/n -/t.
exact: gen order_254.
Qed.

End Order.
Print Assumptions C101_lists.
Print Assumptions C101_soundness.

(** ** Why it matters

    With an order of at most [n] the participant with id [q - 1] is given the secret itself:
    its commitment is the commitment to the secret and its slot the secret under its key. *)
Theorem C101_small_order (E : engine) (b : build) (R : rng E) (node : Node E) (s : rstate R)
  core secrets :
  let ag := nd_aggregator node in
  let config := ag_config ag in
  let i := (modulus E).-1 in
  (modulus E <= cfg_num_participants config)%N -> fits (cfg_degree config).+1 -> registered ag ->
  (share_pvss b node s).1 = Ok (core, secrets) ->
  nth 0 (comms core) i = ss_p_0 secrets *: srs_g2 (cfg_srs config) /\
  nth 0 (encs core) i = ss_p_0 secrets *: key_of ag i.
Proof.
move=> ag config i qn ft reg ok.
have [_ _ _] := @C09_dealing E b R node s ft; rewrite -/ag -/config.
have q0 := prime_gt0 (modulus_prime E).
have n0 : (0 < cfg_num_participants config)%N by apply: leq_trans qn.
case/(_ n0) => [j lj|pa go]; first by have [p ->] := reg j lj.
have idn : (pa_id (de_participant (nd_dealer node)) < cfg_num_participants config)%N.
  by rewrite ltnNge; apply/negP => le; move: (pa (or_introl le)); rewrite ok.
have nz : ~~ all (fun c => c == 0) (draw (cfg_degree config).+1 s).1.
  by apply/negP => z; move: (pa (or_intror z)); rewrite ok.
have [core' [sec' [e ec ee e0 _]]] := go idn nz.
move: e; rewrite ok => -[-> ->]; rewrite ec ee e0.
have li : (i < cfg_num_participants config)%N by rewrite /i prednK.
rewrite !(nth_map 0%N) ?size_iota // nth_iota // add0n /i prednK //.
by have -> : (modulus E)%:R = 0 :> Fr E by apply/eqP; rewrite -(Fp_nat_mod (modulus_prime E)) modnn.
Qed.
Print Assumptions C101_small_order.

(** Eleven participants over the toy order 11: the last one is dealt the secret 7. *)
Definition wide_config : Config TE := MkConfig tsrs 1 11.
Definition wide_node : Node TE :=
  MkNode (MkAggregator wide_config (bt_collect [seq (i, tpart i) | i <- iota 0 11])
            (agg_empty TE 1 11)) (tdealer 0).

Example C101_example :
  [/\ (modulus TE <= cfg_num_participants wide_config)%N,
      registered (nd_aggregator wide_node)
    & (if (@share_pvss TE Debug (seq_rng TE) wide_node [:: f 7; f 5]).1 is Ok (core, secrets)
       then [&& ss_p_0 secrets == f 7, nth 0 (comms core) 10 == f 7 * f 2
              & nth 0 (encs core) 10 == f 7 * (f 12 * f 3)]
       else false)].
Proof.
split; [by [] | | by vm_compute].
move=> i; rewrite [cfg_num_participants _]/= => li.
have : all (fun i => isSome (bt_get (ag_participants (nd_aggregator wide_node)) i)) (iota 0 11) by vm_compute.
move/allP => /(_ i); rewrite mem_iota li => /(_ isT).
by case: (bt_get _ i) => // p; exists p.
Qed.
