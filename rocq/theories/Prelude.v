(** * Prelude: the fragment of the Rust runtime that the modelled code uses.

    A Rust call either returns [Ok v], returns [Err e], or panics.  A panic is an
    explicit outcome here, never a default value.  Nothing in this file models a
    line of /repo: it models the language and the standard library. *)

From Coq Require Import NArith Strings.Byte.
From mathcomp Require Import all_ssreflect all_algebra zify.

Set Implicit Arguments.
Unset Strict Implicit.
Unset Printing Implicit Defensive.

(** [u8] values have decidable equality. *)
Lemma byte_eqP : Equality.axiom Byte.eqb.
Proof.
move=> x y; apply: (iffP idP); first exact: Byte.byte_dec_bl.
exact: Byte.byte_dec_lb.
Qed.
Definition byte_eqMixin := EqMixin byte_eqP.
Canonical byte_eqType := EqType byte byte_eqMixin.

(** Why a Rust thread panicked.  Only the cases reachable in /repo are listed. *)
Inductive panic : Type :=
| IndexOutOfBounds      (* v[i] with i >= v.len() *)
| SliceOutOfBounds      (* v[..k] with k > v.len() *)
| UnwrapNone            (* Option::unwrap on None *)
| UnwrapErr             (* Result::unwrap / expect on Err *)
| ArithOverflow         (* + or - out of range, overflow checks on *)
| CapacityOverflow      (* a Vec larger than isize::MAX bytes *)
| AssertFailed.         (* assert! *)

(** The observable result of a call whose Rust type is [Result<A, Er>]. *)
Inductive outcome (Er A : Type) : Type :=
| Ok    of A
| Err   of Er
| Panic of panic.

Arguments Ok {Er A}.
Arguments Err {Er A}.
Arguments Panic {Er A}.

(** [e?] and sequencing. *)
Definition obind {Er A B} (m : outcome Er A) (f : A -> outcome Er B) : outcome Er B :=
  match m with
  | Ok a => f a
  | Err e => Err e
  | Panic p => Panic p
  end.

Notation "'let!' x ':=' m 'in' k" := (obind m (fun x => k))
  (at level 200, x pattern, m at level 100, k at level 200).

Definition is_ok {Er A} (m : outcome Er A) : bool := if m is Ok _ then true else false.
Definition is_err {Er A} (m : outcome Er A) : bool := if m is Err _ then true else false.
Definition is_panic {Er A} (m : outcome Er A) : bool := if m is Panic _ then true else false.

(** [r.unwrap()] on a Result: the error value is lost, the thread panics. The new
    error type is arbitrary because no error comes out. *)
Definition unwrap {Er Er' A} (m : outcome Er A) : outcome Er' A :=
  match m with
  | Ok a => Ok a
  | Err _ => Panic UnwrapErr
  | Panic p => Panic p
  end.

(** [o.unwrap()] on an Option. *)
Definition unwrap_opt {Er A} (o : option A) : outcome Er A :=
  if o is Some a then Ok a else Panic UnwrapNone.

(** [o.ok_or(e)]. *)
Definition ok_or {Er A} (o : option A) (e : Er) : outcome Er A :=
  if o is Some a then Ok a else Err e.

(** [v[i]] on a Vec or slice. *)
Definition index {Er A} (v : seq A) (i : nat) : outcome Er A :=
  if drop i v is x :: _ then Ok x else Panic IndexOutOfBounds.

(** [for x in xs { acc = f(acc, x)? }]. *)
Fixpoint foldM {Er A B} (f : A -> B -> outcome Er A) (acc : A) (xs : seq B) : outcome Er A :=
  if xs is x :: xs' then let! acc' := f acc x in foldM f acc' xs' else Ok acc.

(** [xs.map(f).collect::<Result<Vec<_>, _>>()]: stops at the first failure. *)
Fixpoint mapM {Er A B} (f : A -> outcome Er B) (xs : seq A) : outcome Er (seq B) :=
  if xs is x :: xs' then
    let! y := f x in
    let! ys := mapM f xs' in
    Ok (y :: ys)
  else Ok [::].

(** ** Unsigned 64-bit arithmetic

    [u64] values, and [usize] values on a 64-bit target.  Cargo's dev and test
    profiles check overflow (panic); the release profile of /repo/Cargo.toml:25-26
    sets only opt-level, so overflow wraps there.  Both are modelled. *)
Inductive build : Type := Debug | Release.

Definition u64_bound : N := (2 ^ 64)%num.

Definition u64_add {Er} (b : build) (x y : N) : outcome Er N :=
  if (x + y <? u64_bound)%num then Ok (x + y)%num
  else match b with
       | Debug => Panic ArithOverflow
       | Release => Ok ((x + y) mod u64_bound)%num
       end.

Definition u64_sub {Er} (b : build) (x y : N) : outcome Er N :=
  if (y <=? x)%num then Ok (x - y)%num
  else match b with
       | Debug => Panic ArithOverflow
       | Release => Ok (x + u64_bound - y)%num
       end.

(** A Vec whose elements take [elt] bytes holds at most isize::MAX bytes; growing it
    past that panics with "capacity overflow" (in practice the allocator aborts
    earlier; either way the call does not return). *)
Definition vec_fits (elt n : N) : bool := (elt * n <? 2 ^ 63)%num.
