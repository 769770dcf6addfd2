(** * PropsPoly: properties C01 to C07 and C10, about src/modified_scrape/poly.rs *)

From Coq Require Import NArith.
From mathcomp Require Import all_ssreflect all_algebra zify.
From Verif Require Import Prelude Errors Engine LibModel PolyModel PvssModel Spec
  PreludeProofs AlgebraProofs PolyProofs Instance.

Set Implicit Arguments.
Unset Strict Implicit.
Unset Printing Implicit Defensive.

Import GRing.Theory.
Local Open Scope ring_scope.

(** ** C01: the degree check never rejects an honest commitment vector *)

Theorem C01_degree_check_complete (E : engine) (b : build) (R : rng E) (s : rstate R)
  (p : {poly Fr E}) (g : Com E) (n t : nat) :
  (size p <= t.+1)%N -> (t.+2 <= n)%N -> (n < modulus E)%N -> fits n ->
  (ensure_degree b s (eval_vec p g n) t).1 = Ok tt.
Proof. exact: ensure_degree_complete. Qed.
Print Assumptions C01_degree_check_complete.

(** The hypotheses are met: 5 participants, degree 2, the polynomial [3 + 4 X + X^2]. *)
Definition poly_a : {poly Fr TE} := Poly [:: f 3; f 4; f 1].
Lemma poly_a_size : (size poly_a <= 3)%N.
Proof. exact: (leq_trans (size_Poly _)). Qed.
Example C01_example (s : seq (Fr TE)) :
  (@ensure_degree TE Release (seq_rng TE) s (eval_vec poly_a (f 2 : Com TE) 5) 2).1 = Ok tt.
Proof. by apply: C01_degree_check_complete => //; exact: poly_a_size. Qed.

(** ** C02: a vector of higher degree is accepted for exactly one draw in [q] *)

Theorem C02_degree_check_sound (E : engine) (b : build) (v : seq (Com E)) (t : nat) :
  (t.+2 <= size v)%N -> (size v < modulus E)%N -> fits (size v) -> ~ low_degree t v ->
  (** whatever the generator, the verdict is that on the [n - t - 1] scalars it returns *)
  (forall (R : rng E) (s : rstate R),
     exists c : (size v - t.+1).-tuple (Fr E),
       (ensure_degree b s v t).1 = (ensure_degree b (R := seq_rng E) (c : seq (Fr E)) v t).1) /\
  (** and exactly [q^(n-t-2)] of the [q^(n-t-1)] possible draws let the vector pass *)
  #|[set c : (size v - t.+1).-tuple (Fr E) |
      is_ok (ensure_degree b (R := seq_rng E) (c : seq (Fr E)) v t).1]|
  = (modulus E ^ (size v - t.+2))%N.
Proof.
move=> tn nq fn nlow; split; last exact: ensure_degree_kernel.
move=> R s; have sz : size (draw (size v - t.+1) s).1 == (size v - t.+1)%N by rewrite size_draw.
by exists (Tuple sz); rewrite ensure_degree_draws.
Qed.
Print Assumptions C02_degree_check_sound.

(** A vector that is not of degree 1: (1, 4, 9, 5) are the squares modulo 11. *)
Example C02_example :
  let v := [:: f 1; f 4; f 9; f 5] : seq (Com TE) in
  (3 <= size v)%N /\ (size v < modulus TE)%N /\ fits (size v) /\ ~ low_degree 1 v.
Proof.
split=> //; split=> //; split=> //; case=> p sp e.
have := C01_degree_check_complete Debug ([:: f 1; f 1] : rstate (seq_rng TE))
          (pt_gen (G2 TE)) (n := 4) sp isT isT erefl.
by rewrite -[X in ensure_degree _ _ X _]e; vm_compute.
Qed.

(** ** C03: the exact outcome on every length; false as stated *)

(** Full statement (refuted): for every length the check returns Ok or Err.  At [n = t]
    it panics in both profiles, at [n = t + 1] it panics with overflow checks. *)
Theorem C03_degree_check_answers_refuted (E : engine) (b : build) (R : rng E) (s : rstate R)
  (v : seq (Com E)) :
  is_panic (ensure_degree b s v (size v)).1 /\
  ((0 < size v < modulus E)%N -> is_panic (ensure_degree Debug s v (size v).-1).1).
Proof.
split; first by rewrite ensure_degree_eq.
by case/andP=> h0 hq; rewrite (ensure_degree_succ _ _ (t := (size v).-1)) // prednK.
Qed.
Print Assumptions C03_degree_check_answers_refuted.

(** The property as worded. *)
Definition C03_full : Prop :=
  forall (E : engine) (b : build) (R : rng E) (s : rstate R) (v : seq (Com E)) (t : nat),
    ~~ is_panic (ensure_degree b s v t).1.

Theorem C03_full_refuted : ~ C03_full.
Proof.
move=> /(_ TE Debug (seq_rng TE) [::] [::] 0%N).
by have [-> _] := @C03_degree_check_answers_refuted TE Debug (seq_rng TE) [::] [::].
Qed.

(** What holds: the outcome for every length below the field order. *)
Theorem C03_degree_check_answers_partial (E : engine) (b : build) (R : rng E) (s : rstate R)
  (v : seq (Com E)) (t : nat) :
  (size v < modulus E)%N -> fits (size v) ->
  let r := (ensure_degree b s v t).1 in
  [/\ (size v < t)%N -> r = Err InsufficientEvaluationsError,
      size v = t -> is_panic r,
      size v = t.+1 -> (b = Debug -> r = Panic ArithOverflow) /\ (b = Release -> r = Ok tt)
    & (t.+2 <= size v)%N -> r = Ok tt \/ r = Err DualCodeError ].
Proof.
move=> nq fn r; rewrite /r; split=> h.
- by rewrite ensure_degree_short.
- by rewrite ensure_degree_eq.
- by rewrite ensure_degree_succ //; split=> ->.
- by rewrite ensure_degreeE //=; case: ifP; [left | right].
Qed.
Print Assumptions C03_degree_check_answers_partial.

(** Each of the four cases occurs. *)
Example C03_example :
  let v := [:: f 1; f 4; f 9; f 5] : seq (Com TE) in
  let run b t := (@ensure_degree TE b (seq_rng TE) [:: f 1; f 1; f 1] v t).1 in
  [/\ run Debug 5%N = Err InsufficientEvaluationsError, run Release 4%N = Panic CapacityOverflow,
      run Release 3%N = Ok tt, run Debug 2%N = Ok tt & run Debug 1%N = Err DualCodeError ].
Proof. by split; vm_compute. Qed.

(** ** C04: interpolation at 1, ..., t+1 recovers the committed constant term *)

Theorem C04_interpolation_simple (E : engine) (b : build) (p : {poly Fr E}) (g : Com E)
  (t : nat) (rest : seq (Com E)) :
  (size p <= t.+1)%N -> (t.+1 < modulus E)%N -> (N.of_nat t + 1 < 2 ^ 64)%num ->
  lagrange_interpolation_simple b (eval_vec p g t.+1 ++ rest) t = Ok (p.[0] *: g).
Proof.
move=> sp tq tb; apply: lagrange_simple_poly => //.
by rewrite take_size_cat // size_eval_vec.
Qed.
Print Assumptions C04_interpolation_simple.

Example C04_example (rest : seq (Com TE)) :
  @lagrange_interpolation_simple TE Debug (eval_vec poly_a (f 2 : Com TE) 3 ++ rest) 2
  = Ok (f 6).
Proof.
rewrite C04_interpolation_simple //; last exact: poly_a_size.
by rewrite horner_Poly; congr Ok; vm_compute; apply: val_inj.
Qed.

(** ** C05: reconstruction does not depend on which t+1 points are used *)

Theorem C05_interpolation_g1 (E : engine) (b : build) (p : {poly Fr E}) (g : Enc E)
  (points : seq (Fr E)) (t : nat) :
  (size p <= t.+1)%N -> (t.+1 <= size points)%N -> uniq (take t.+1 points) ->
  (N.of_nat t + 1 < 2 ^ 64)%num ->
  lagrange_interpolation_g1 b (eval_at p g points) points t = Ok (p.[0] *: g).
Proof. by move=> *; exact: lagrange_pts_poly. Qed.
Print Assumptions C05_interpolation_g1.

Theorem C05_interpolation_g2 (E : engine) (b : build) (p : {poly Fr E}) (g : Com E)
  (points : seq (Fr E)) (t : nat) :
  (size p <= t.+1)%N -> (t.+1 <= size points)%N -> uniq (take t.+1 points) ->
  (N.of_nat t + 1 < 2 ^ 64)%num ->
  lagrange_interpolation_g2 b (eval_at p g points) points t = Ok (p.[0] *: g).
Proof. by move=> *; exact: lagrange_pts_poly. Qed.
Print Assumptions C05_interpolation_g2.

(** Any two qualified lists of points, in any order, give the same result. *)
Theorem C05_subset_independent (E : engine) (b b' : build) (p : {poly Fr E}) (g : Enc E)
  (points points' : seq (Fr E)) (t : nat) :
  (size p <= t.+1)%N -> (N.of_nat t + 1 < 2 ^ 64)%num ->
  uniq points -> (t.+1 <= size points)%N -> uniq points' -> (t.+1 <= size points')%N ->
  lagrange_interpolation_g1 b (eval_at p g points) points t =
  lagrange_interpolation_g1 b' (eval_at p g points') points' t.
Proof.
move=> sp tb u sz u' sz'.
by rewrite !C05_interpolation_g1 ?take_uniq.
Qed.
Print Assumptions C05_subset_independent.

Example C05_example :
  @lagrange_interpolation_g1 TE Debug (eval_at poly_a (f 5 : Enc TE) [:: f 7; f 2; f 10])
    [:: f 7; f 2; f 10] 2 =
  @lagrange_interpolation_g1 TE Debug (eval_at poly_a (f 5 : Enc TE) [:: f 3; f 9; f 4; f 1])
    [:: f 3; f 9; f 4; f 1] 2.
Proof. by apply: C05_subset_independent => //; exact: poly_a_size. Qed.

(** ** C06: error contract of the interpolation functions *)

Theorem C06_interpolation_contract (E : engine) (b : build) (t : nat) :
  (N.of_nat t + 1 < 2 ^ 64)%num ->
  [/\ forall (v : seq (Enc E)) (points : seq (Fr E)),
        interpolation_contract (lagrange_interpolation_g1 b v points t)
          (size v) (size points) t (uniq (take t.+1 points)),
      forall (v : seq (Com E)) (points : seq (Fr E)),
        interpolation_contract (lagrange_interpolation_g2 b v points t)
          (size v) (size points) t (uniq (take t.+1 points)),
      forall (v : seq (GT E)) (points : seq N),
        interpolation_contract (lagrange_interpolation_gt b v points t)
          (size v) (size points) t
          (uniq (take t.+1 [seq (N.to_nat x)%:R : Fr E | x <- points]))
    & forall v : seq (Com E), (t.+1 < modulus E)%N ->
        interpolation_contract (lagrange_interpolation_simple b v t)
          (size v) (size v) t true ].
Proof.
move=> tb; split=> [v ps|v ps|v ps|v tq].
- exact/contractP/lagrange_pts_contract.
- exact/contractP/lagrange_pts_contract.
- have := contractP (lagrange_gt_contract b v ps tb).
  by rewrite (eq_map (@fr_of_u64E (modulus E))).
- apply: contractP; rewrite /lagrange_contract eqxx; case: leqP => h; split=> //.
    by rewrite /lagrange_interpolation_simple too_fewE //= h.
  by move=> _ _ _; rewrite lagrange_simpleE.
Qed.
Print Assumptions C06_interpolation_contract.

(** The four outcomes occur. *)
Example C06_example :
  let g1 v ps := @lagrange_interpolation_g1 TE Debug v ps 1 in
  [/\ g1 [:: f 1] [:: f 1; f 2] = Err InsufficientEvaluationsError,
      g1 [:: f 1; f 2] [:: f 1] = Err DifferentPointsEvalsError,
      g1 [:: f 1; f 2] [:: f 5; f 5] = Panic UnwrapNone
    & g1 [:: f 1; f 2] [:: f 5; f 6] = Ok (f 7) ].
Proof. by split; vm_compute. Qed.

(** ** C07: reconstruction in the target group *)

Theorem C07_interpolation_gt (E : engine) (b : build) (p : {poly Fr E}) (g : Enc E) (h : Com E)
  (points : seq N) (t : nat) :
  let x (n : N) : Fr E := (N.to_nat n)%:R in
  (size p <= t.+1)%N -> (t.+1 <= size points)%N -> uniq (take t.+1 (map x points)) ->
  (N.of_nat t + 1 < 2 ^ 64)%num ->
  lagrange_interpolation_gt b [seq pairing (p.[x n] *: g) h | n <- points] points t
  = Ok (pairing (p.[0] *: g) h).
Proof.
move=> x sp sz u tb.
rewrite -(lagrange_gt_poly b (points := points) g h tb sp sz); last first.
  by rewrite (eq_map (@fr_of_u64E (modulus E))).
by congr lagrange_interpolation_gt; apply: eq_map => n; rewrite fr_of_u64E.
Qed.
Print Assumptions C07_interpolation_gt.

Example C07_example :
  @lagrange_interpolation_gt TE Debug
    [seq pairing (poly_a.[(N.to_nat n)%:R] *: (f 5 : Enc TE)) (f 4 : Com TE)
      | n <- [:: 14; 2; 7]%num] [:: 14; 2; 7]%num 2
  = Ok (pairing (poly_a.[0] *: (f 5 : Enc TE)) (f 4 : Com TE)).
Proof. by apply: C07_interpolation_gt => //; exact: poly_a_size. Qed.

(** ** C10: t evaluations say nothing about the secret *)

(** For [t] recipients at distinct non-zero points, any values at these points and any
    secret, exactly one sequence of [t + 1] scalars makes [DensePolynomial::rand] return a
    polynomial with that secret and those values. *)
Theorem C10_shamir_privacy (E : engine) (b : build) (t : nat) (xs ys : t.-tuple (Fr E))
  (secret : Fr E) :
  uniq xs -> 0 \notin (xs : seq (Fr E)) -> fits t.+1 ->
  #|[set c : t.+1.-tuple (Fr E) |
      if (poly_rand b (N.of_nat t) (c : rstate (seq_rng E))).1 is Ok p
      then (evaluate p 0 == secret) && [forall i, evaluate p (tnth xs i) == tnth ys i]
      else false]| = 1%N.
Proof.
move=> u z ft; rewrite -(shamir_count ys secret (xs := xs)) /= ?z //.
apply: eq_card => c; rewrite !inE poly_randE //= -[RHS]/(_ && _).
have -> : (draw t.+1 (c : rstate (seq_rng E))).1 = c.
  by rewrite draw_seq ?size_tuple // take_oversize ?size_tuple.
rewrite evaluateE truncate_Poly; congr (_ && _).
by apply: eq_forallb => i; rewrite evaluateE truncate_Poly.
Qed.
Print Assumptions C10_shamir_privacy.

(** Hence every secret is equally likely given the [t] values. *)
Corollary C10_secrets_equally_likely (E : engine) (b : build) (t : nat)
  (xs ys : t.-tuple (Fr E)) (s s' : Fr E) :
  uniq xs -> 0 \notin (xs : seq (Fr E)) -> fits t.+1 ->
  let draws_for secret := [set c : t.+1.-tuple (Fr E) |
      if (poly_rand b (N.of_nat t) (c : rstate (seq_rng E))).1 is Ok p
      then (evaluate p 0 == secret) && [forall i, evaluate p (tnth xs i) == tnth ys i]
      else false] in
  #|draws_for s| = #|draws_for s'|.
Proof. by move=> u z ft draws_for; rewrite /draws_for !C10_shamir_privacy. Qed.
Print Assumptions C10_secrets_equally_likely.

Example C10_example :
  let xs := [tuple f 1; f 4] in uniq xs && (0 \notin (xs : seq (Fr TE))) /\ fits 3.
Proof. by []. Qed.
