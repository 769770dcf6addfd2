(** * CodecSpec: what the codec theorems say

    Nothing here mentions how a codec is built; the size conditions hold of every value a
    Rust program on a 64-bit machine can hold. *)

From Coq Require Import NArith Strings.Byte.
From mathcomp Require Import all_ssreflect all_algebra.
From Verif Require Import Prelude Errors BTreeMap Engine LibModel SigmaModel PvssModel CodecModel.

Set Implicit Arguments.
Unset Strict Implicit.
Unset Printing Implicit Defensive.

Section Codec.
Variable A : Type.
Implicit Types (c : codec A) (valid : A -> Prop).

(** Reading what was written gives the value back and leaves the bytes that follow. *)
Definition round_trip c valid : Prop :=
  forall a rest, valid a -> deser c (ser c a ++ rest) = Ok (a, rest).

(** [serialized_size] counts the bytes written. *)
Definition exact_size c : Prop := forall a, size (ser c a) = ser_size c a.

(** Two values with the same bytes are equal, also when other bytes follow. *)
Definition unambiguous c valid : Prop :=
  forall a a' rest rest', valid a -> valid a' ->
  ser c a ++ rest = ser c a' ++ rest' -> a = a' /\ rest = rest'.

(** The only bytes that read as [a] are those that writing [a] gives. *)
Definition canonical c : Prop :=
  forall s a rest, deser c s = Ok (a, rest) -> s = ser c a ++ rest.

(** Bytes that come later do not change what is read. *)
Definition streaming c : Prop :=
  forall s a rest t, deser c s = Ok (a, rest) -> deser c (s ++ t) = Ok (a, rest ++ t).

(** Reading never panics. *)
Definition panic_free c : Prop := forall s, ~~ is_panic (deser c s).

(** A strict prefix of an encoding does not read as a value. *)
Definition prefix_free c valid : Prop :=
  forall a k, valid a -> k < size (ser c a) -> ~~ is_ok (deser c (take k (ser c a))).

End Codec.

(** Values that fit their Rust types. *)
Definition u64_ok (x : N) : Prop := (x < 2 ^ 64)%num.
Definition usize_ok (n : nat) : Prop := u64_ok (N.of_nat n).

(** Every [A] does: it holds no integer and no vector. *)
Definition anyv {A : Type} (_ : A) : Prop := True.

Section Valid.
Variable E : engine.

Definition config_fits (x : Config E) : Prop :=
  usize_ok (cfg_degree x) /\ usize_ok (cfg_num_participants x).

Definition participant_fits (x : Participant E) : Prop := usize_ok (pa_id x).

Definition core_fits (x : PVSSCore E) : Prop :=
  usize_ok (size (encs x)) /\ usize_ok (size (comms x)).

Definition share_fits (x : PVSSShare E) : Prop :=
  usize_ok (sh_participant_id x) /\ core_fits (sh_pvss_core x).

Definition transcript_fits (x : PVSSAggregatedShare E) : Prop :=
  [/\ usize_ok (as_num_participants x), usize_ok (as_degree x), core_fits (as_pvss_core x),
      usize_ok (size (bt_iter (as_contributions x)))
    & forall i sp w, bt_get (as_contributions x) i = Some (sp, w) -> usize_ok i /\ u64_ok w].

End Valid.
