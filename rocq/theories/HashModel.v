(** * HashModel: src/nizk/utils/hash.rs and src/signature/utils/hash.rs

    The two files are the same up to the error type, which never occurs.  The rest of the
    model uses [hash_to_field] as an arbitrary function (Engine.v); here is the loop that
    computes it. *)

From Coq Require Import NArith Strings.Byte.
From mathcomp Require Import all_ssreflect.
From Verif Require Import Prelude.

Set Implicit Arguments.
Unset Strict Implicit.
Unset Printing Implicit Defensive.

(** blake2s_simd and rand_chacha, on which nothing is assumed: the hash of a message under
    an 8-byte personalisation field, and the bytes that successive [rng.gen::<u8>()] return
    for a seed. *)
Record hash_crates : Type := HashCrates {
  blake2s : 8.-tuple byte -> seq byte -> 32.-tuple byte;
  chacha_u8 : 32.-tuple byte -> nat -> byte
}.

(** The personalisation field of the Blake2s parameter block: zero-padded to 8 bytes. *)
Definition personal_field (p : seq byte) : seq byte := take 8 (p ++ nseq 8 x00%byte).
Lemma personal_field_size p : size (personal_field p) == 8.
Proof. by rewrite size_takel // size_cat size_nseq leq_addl. Qed.
Definition personal_block (p : seq byte) : 8.-tuple byte := Tuple (personal_field_size p).

Section Hash.

Variable H : hash_crates.

(** [rng_from_message], hash.rs:8-18.  [Params::personal] asserts that its argument has at
    most 8 bytes. *)
Definition rng_from_message {Er} (personalization message : seq byte)
  : outcome Er (nat -> byte) :=
  if 8 < size personalization then Panic AssertFailed
  else Ok (chacha_u8 H (blake2s H (personal_block personalization) message)).

(** [(0..len).map(|_| rng.gen()).collect()] when [pos] bytes have been drawn already. *)
Definition draw (stream : nat -> byte) (pos len : nat) : seq byte :=
  [seq stream (pos + i) | i <- iota 0 len].

Section Field.
Variables (F : Type) (zero_size : nat) (from_random_bytes : seq byte -> option F).

(** The loop of [hash_to_field], hash.rs:43-50, for at most [fuel] turns; [None] means that
    it is still running. *)
Fixpoint field_loop (stream : nat -> byte) (fuel pos : nat) : option F :=
  if fuel is fuel'.+1 then
    let bytes := draw stream pos zero_size in
    if from_random_bytes bytes is Some p then Some p
    else field_loop stream fuel' (pos + zero_size)
  else None.

(** [hash_to_field], hash.rs:38-51. *)
Definition hash_to_field_run {Er} (fuel : nat) (personalization message : seq byte)
  : outcome Er (option F) :=
  let! rng := rng_from_message personalization message in
  Ok (field_loop rng fuel 0).

End Field.

Section Group.
Variables (C Proj : Type) (zero_size : nat) (from_random_bytes : seq byte -> option C).
Variables (mul_by_cofactor_to_projective : C -> Proj) (is_zero : Proj -> bool).

(** The loop of [hash_to_group], hash.rs:25-35. *)
Fixpoint group_loop (stream : nat -> byte) (fuel pos : nat) : option Proj :=
  if fuel is fuel'.+1 then
    let bytes := draw stream pos zero_size in
    if from_random_bytes bytes is Some p then
      let scaled := mul_by_cofactor_to_projective p in
      if ~~ is_zero scaled then Some scaled
      else group_loop stream fuel' (pos + zero_size)
    else group_loop stream fuel' (pos + zero_size)
  else None.

(** [hash_to_group], hash.rs:20-36. *)
Definition hash_to_group_run {Er} (fuel : nat) (personalization message : seq byte)
  : outcome Er (option Proj) :=
  let! rng := rng_from_message personalization message in
  Ok (group_loop rng fuel 0).

End Group.

End Hash.
