(** * Base64Model: the text forms of src/lib.rs

    [base64::encode] and [base64::decode] of the base64 crate (0.13), standard alphabet, and
    their uses in src/lib.rs.  A [String] is the list of its bytes; all the texts involved
    are ASCII.  Simplification: the crate reports what is wrong and where; here a text that
    it refuses gives the one error [Base64Error]. *)

From Coq Require Import NArith Strings.Byte.
From mathcomp Require Import all_ssreflect.
From Verif Require Import Prelude Errors LibModel.

Set Implicit Arguments.
Unset Strict Implicit.
Unset Printing Implicit Defensive.

Definition bnat (b : byte) : nat := N.to_nat (Byte.to_N b).
Definition natb (n : nat) : byte := if Byte.of_N (N.of_nat n) is Some b then b else x00%byte.

(** [A-Z a-z 0-9 + /]. *)
Definition alphabet : seq byte :=
  map natb (iota 65 26 ++ iota 97 26 ++ iota 48 10 ++ [:: 43; 47]).

Definition PAD_BYTE : byte := x3d%byte.

Definition symbol (n : nat) : byte := nth x00%byte alphabet n.
Definition symbol_value (c : byte) : option nat :=
  if c \in alphabet then Some (seq.index c alphabet) else None.

(** [base64::encode]: three bytes to four symbols, padded at the end. *)
Fixpoint b64_encode (s : seq byte) : seq byte :=
  match s with
  | a :: b :: c :: r =>
      [:: symbol (bnat a %/ 4);
          symbol (bnat a %% 4 * 16 + bnat b %/ 16);
          symbol (bnat b %% 16 * 4 + bnat c %/ 64);
          symbol (bnat c %% 64)] ++ b64_encode r
  | [:: a; b] =>
      [:: symbol (bnat a %/ 4);
          symbol (bnat a %% 4 * 16 + bnat b %/ 16);
          symbol (bnat b %% 16 * 4);
          PAD_BYTE]
  | [:: a] =>
      [:: symbol (bnat a %/ 4); symbol (bnat a %% 4 * 16); PAD_BYTE; PAD_BYTE]
  | [::] => [::]
  end.

Inductive decode_error : Type := Base64Error.

(** The symbols before the padding, decoded: a last group of two or three symbols must leave
    no bit over; a single symbol is too short. *)
Fixpoint b64_groups (ms : seq nat) : outcome decode_error (seq byte) :=
  match ms with
  | a :: b :: c :: d :: r =>
      let! bs := b64_groups r in
      Ok ([:: natb (a * 4 + b %/ 16); natb (b %% 16 * 16 + c %/ 4); natb (c %% 4 * 64 + d)] ++ bs)
  | [:: a; b; c] =>
      if c %% 4 == 0 then Ok [:: natb (a * 4 + b %/ 16); natb (b %% 16 * 16 + c %/ 4)]
      else Err Base64Error
  | [:: a; b] => if b %% 16 == 0 then Ok [:: natb (a * 4 + b %/ 16)] else Err Base64Error
  | [:: _] => Err Base64Error
  | [::] => Ok [::]
  end.

(** Padding may be complete, partial or absent, but a pad character may only stand at
    position 2 or 3 of a group of four. *)
Definition padding_ok (symbols pads : nat) : bool :=
  all (fun i => 2 <= i %% 4) (iota symbols pads).

(** [base64::decode]. *)
Definition b64_decode (s : seq byte) : outcome decode_error (seq byte) :=
  let n := find (fun c => c == PAD_BYTE) s in
  let body := take n s in
  let pads := drop n s in
  if all (fun c => c == PAD_BYTE) pads && padding_ok (size body) (size pads) then
    let! ms := mapM (fun c => ok_or (symbol_value c) Base64Error) body in
    b64_groups ms
  else Err Base64Error.

(** [bytes[..k].try_into()]: panics on a short vector, drops what exceeds [k] bytes; the
    conversion itself cannot fail. *)
Definition slice_to {Er} (k : nat) (s : seq byte) : outcome Er (k.-tuple byte) :=
  if insub (take k s) is Some t then Ok t else Panic SliceOutOfBounds.

(** [PublicKey::to_base64], lib.rs:125-127, and [from_base64], lib.rs:129-136. *)
Definition public_key_to_base64 (k : PublicKey) : seq byte := b64_encode k.
Definition public_key_from_base64 (s : seq byte) : outcome decode_error PublicKey :=
  let! bytes := b64_decode s in slice_to 32 bytes.

(** [SecretKey::to_base64], lib.rs:189-191, and [from_base64], lib.rs:193-200. *)
Definition secret_key_to_base64 (k : SecretKey) : seq byte := b64_encode k.
Definition secret_key_from_base64 (s : seq byte) : outcome decode_error SecretKey :=
  let! bytes := b64_decode s in slice_to 64 bytes.

(** [Signature::to_base64], lib.rs:309-311. *)
Definition signature_to_base64 (x : Signature) : seq byte := b64_encode (sig_flatten x).

(** [text.get(0..16).unwrap()] on an ASCII text. *)
Definition get16 {Er} (s : seq byte) : outcome Er (seq byte) :=
  unwrap_opt (if 16 <= size s then Some (take 16 s) else None).

(** [Display] for Digest, lib.rs:65-69, and for PublicKey, lib.rs:177-181. *)
Definition digest_display {Er} (d : Digest) : outcome Er (seq byte) := get16 (b64_encode d).
Definition public_key_display {Er} (k : PublicKey) : outcome Er (seq byte) :=
  get16 (public_key_to_base64 k).

(** [Debug] for Digest, lib.rs:59-63, for PublicKey, lib.rs:171-175, and for SecretKey,
    lib.rs:208-212: the whole text. *)
Definition digest_debug (d : Digest) : seq byte := b64_encode d.
Definition public_key_debug (k : PublicKey) : seq byte := public_key_to_base64 k.
Definition secret_key_debug (k : SecretKey) : seq byte := secret_key_to_base64 k.
