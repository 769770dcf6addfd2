(** * PolyModel: src/modified_scrape/poly.rs *)

From Coq Require Import NArith.
From mathcomp Require Import all_ssreflect all_algebra.
From Verif Require Import Prelude Errors Engine.

Set Implicit Arguments.
Unset Strict Implicit.
Unset Printing Implicit Defensive.

Import GRing.Theory.
Local Open Scope ring_scope.

(** [x.inverse().unwrap()] (ark-ff: [inverse] is None exactly on zero). *)
Definition inverse_unwrap {Er} {q : nat} (x : 'F_q) : outcome Er 'F_q :=
  if x == 0 then Panic UnwrapNone else Ok x^-1.

Section Poly.

Variable E : engine.
Implicit Types (b : build) (R : rng E).

(** ** Polynomials: [Polynomial<E> = DensePolynomial<Scalar<E>>], poly.rs:19.
    A value is its coefficient vector, constant term first. *)

(** [truncate_leading_zeros] (ark-poly 0.2.0, called by [from_coefficients_vec]): drops
    zero coefficients from the high end. *)
Fixpoint truncate (s : seq (Fr E)) : seq (Fr E) :=
  if s is a :: s' then
    if truncate s' is [::] then (if a == 0 then [::] else [:: a])
    else a :: truncate s'
  else [::].

(** [k] successive draws from the generator. *)
Fixpoint draw R (k : nat) (s : rstate R) : seq (Fr E) * rstate R :=
  if k is k'.+1 then
    let: (x, s1) := rand_fr s in
    let: (xs, s2) := draw k' s1 in (x :: xs, s2)
  else ([::], s).

(** [DensePolynomial::rand(d, rng)] (ark-poly 0.2.0): pushes [d + 1] draws, then
    [from_coefficients_vec]. [d + 1] is a usize addition; a scalar takes 32 bytes. *)
Definition poly_rand b R (d : N) (s : rstate R) : outcome pvss_error (seq (Fr E)) * rstate R :=
  match u64_add b d 1%num with
  | Ok k =>
      if vec_fits 32 k then
        let: (cs, s') := draw (N.to_nat k) s in (Ok (truncate cs), s')
      else (Panic CapacityOverflow, s)
  | Err e => (Err e, s)
  | Panic p => (Panic p, s)
  end.

(** [poly.evaluate(&x)] (ark-poly 0.2.0): zero polynomial, zero point, else Horner. *)
Definition evaluate (cs : seq (Fr E)) (x : Fr E) : Fr E :=
  if all (fun c => c == 0) cs then 0
  else if x == 0 then head 0 cs
  else foldr (fun c acc => acc * x + c) 0 cs.

(** ** [ensure_degree], poly.rs:24-60 *)

(** poly.rs:43-50: the dual-code coefficient [cperp] of point [i]. *)
Definition cperp (poly : seq (Fr E)) (num i : nat) : outcome pvss_error (Fr E) :=
  foldM (fun c j => if i != j
                    then let! v := inverse_unwrap (i%:R - j%:R) in Ok (c * v)
                    else Ok c)
        (evaluate poly i%:R) (iota 1 num).

(** poly.rs:40-53: the sum over all points; [evaluations[i-1]] is indexed. *)
Definition dual_sum (poly : seq (Fr E)) (evals : seq (Com E)) : outcome pvss_error (Com E) :=
  foldM (fun sum i =>
           let! c := cperp poly (size evals) i in
           let! v := index evals i.-1 in
           Ok (sum + c *: v))
        0 (iota 1 (size evals)).

(** poly.rs:24-60.  [num - degree - 2] is u64 arithmetic: with overflow checks it panics
    when [num < degree + 2], without them it wraps. *)
Definition ensure_degree b R (s : rstate R) (evals : seq (Com E)) (degree : nat)
  : outcome pvss_error unit * rstate R :=
  let num := size evals in
  if (num < degree)%N then (Err InsufficientEvaluationsError, s)
  else
    match (let! a := u64_sub b (N.of_nat num) (N.of_nat degree) in u64_sub b a 2%num) with
    | Err e => (Err e, s)
    | Panic p => (Panic p, s)
    | Ok d =>
        let: (poly, s') := poly_rand b d s in
        (let! cs := poly in
         let! sum := dual_sum cs evals in
         if sum != 0 then Err DualCodeError else Ok tt,
         s')
    end.

(** ** Lagrange interpolation at zero *)

(** The inner product loop shared by the four functions (poly.rs:80-86, 119-126,
    158-165, 198-204): [prod_{k <= degree, k <> j} x_k * (x_k - x_j)^-1], where [xs k]
    may fail (it is an indexing expression in three of them). *)
Definition lagrange_weight {Er} (xs : nat -> outcome Er (Fr E)) (degree j : nat)
  : outcome Er (Fr E) :=
  let! x_j := xs j in
  foldM (fun prod k => if j != k
                       then let! x_k := xs k in
                            let! v := inverse_unwrap (x_k - x_j) in
                            Ok (prod * (x_k * v))
                       else Ok prod)
        1 (iota 0 degree.+1).

(** The outer loop over a group written additively (poly.rs:76-90, 115-129, 154-168). *)
Definition lagrange_sum {V : lmodType (Fr E)} (xs : nat -> outcome pvss_error (Fr E))
  (evals : seq V) (degree : nat) : outcome pvss_error V :=
  foldM (fun sum j =>
           let! w := lagrange_weight xs degree j in
           let! v := index evals j in
           Ok (sum + w *: v))
        0 (iota 0 degree.+1).

(** [evals.len() < (degree + 1) as usize], poly.rs:72, 107, 146, 185: the addition is
    u64 arithmetic. *)
Definition too_few b (len degree : nat) : outcome pvss_error bool :=
  let! need := u64_add b (N.of_nat degree) 1%num in
  Ok (N.of_nat len <? need)%num.

(** [lagrange_interpolation_simple], poly.rs:64-93: the points are 1, ..., degree+1.
    The u64 additions [j + 1], [k + 1] (lines 79, 83) cannot overflow once line 72 has
    computed [degree + 1] without overflow, and are taken in N. *)
Definition lagrange_interpolation_simple b (evals : seq (Com E)) (degree : nat)
  : outcome pvss_error (Com E) :=
  let! few := too_few b (size evals) degree in
  if few then Err InsufficientEvaluationsError
  else lagrange_sum (fun k => Ok k.+1%:R) evals degree.

(** [lagrange_interpolation_g1], poly.rs:98-132. *)
Definition lagrange_interpolation_g1 b (evals : seq (Enc E)) (points : seq (Fr E))
  (degree : nat) : outcome pvss_error (Enc E) :=
  let! few := too_few b (size evals) degree in
  if few then Err InsufficientEvaluationsError
  else if size evals != size points then Err DifferentPointsEvalsError
  else lagrange_sum (index points) evals degree.

(** [lagrange_interpolation_g2], poly.rs:137-171. *)
Definition lagrange_interpolation_g2 b (evals : seq (Com E)) (points : seq (Fr E))
  (degree : nat) : outcome pvss_error (Com E) :=
  let! few := too_few b (size evals) degree in
  if few then Err InsufficientEvaluationsError
  else if size evals != size points then Err DifferentPointsEvalsError
  else lagrange_sum (index points) evals degree.

(** [lagrange_interpolation_gt], poly.rs:176-211: multiplicative; [points] are u64 and
    [evals[j].pow(prod.into_repr())] raises to the canonical representative of [prod]. *)
Definition lagrange_interpolation_gt b (evals : seq (GT E)) (points : seq N)
  (degree : nat) : outcome pvss_error (GT E) :=
  let! few := too_few b (size evals) degree in
  if few then Err InsufficientEvaluationsError
  else if size evals != size points then Err DifferentPointsEvalsError
  else
    foldM (fun result j =>
             let! w := lagrange_weight
                         (fun k => let! x := index points k in Ok (fr_of_u64 (modulus E) x))
                         degree j in
             let! v := index evals j in
             Ok (result * v ^+ (w : nat)))
          1 (iota 0 degree.+1).

End Poly.
