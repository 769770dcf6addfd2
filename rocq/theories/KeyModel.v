(** * KeyModel: src/lib.rs, accessors of digests and keys, order of keys, wiping of secrets;
    constructors of the proof systems *)

From Coq Require Import NArith Strings.Byte.
From mathcomp Require Import all_ssreflect all_algebra.
From Verif Require Import Prelude Errors Engine LibModel SigmaModel.

Set Implicit Arguments.
Unset Strict Implicit.
Unset Printing Implicit Defensive.

(** [Digest::to_vec], [Digest::size], [Digest::as_ref]: lib.rs:50-56, 71-75. *)
Definition digest_to_vec (d : Digest) : seq byte := d.
Definition digest_len (d : Digest) : nat := size d.
Definition digest_as_ref (d : Digest) : seq byte := d.

(** [#[derive(Default)]], lib.rs:46 and 121: an array of zero bytes. *)
Definition digest_default : Digest := [tuple of nseq 32 x00%byte].
Definition public_key_default : PublicKey := [tuple of nseq 32 x00%byte].
(** The same for [Signature], lib.rs:263: both halves. *)
Definition signature_default : Signature :=
  Sig [tuple of nseq 32 x00%byte] [tuple of nseq 32 x00%byte].

(** [#[derive(Ord, PartialOrd)]] on the array of [PublicKey], lib.rs:121-122: the first two
    bytes that differ decide; on slices the shorter one comes first. *)
Fixpoint slice_cmp (s s' : seq byte) : comparison :=
  match s, s' with
  | [::], [::] => Eq
  | [::], _ :: _ => Lt
  | _ :: _, [::] => Gt
  | b :: s1, b' :: s1' =>
      match N.compare (Byte.to_N b) (Byte.to_N b') with
      | Eq => slice_cmp s1 s1'
      | c => c
      end
  end.
Definition public_key_cmp (k k' : PublicKey) : comparison := slice_cmp k k'.
Definition public_key_partial_cmp (k k' : PublicKey) : option comparison :=
  Some (public_key_cmp k k').

(** [Drop for SecretKey], lib.rs:203-207: every byte is set to zero. *)
Definition secret_key_drop (k : SecretKey) : SecretKey := [tuple of map (fun _ => x00%byte) k].

Section Systems.
Variables (E : engine) (C C1 C2 : curve (modulus E)).

(** [from_srs], nizk/dlk/mod.rs:34-36, signature/schnorr/mod.rs:31-33, nizk/dleq/mod.rs:44-46:
    the system is the parameters, which are kept as their fields. *)
Definition dlk_from_srs (g : pt C) : outcome nizk_error (pt C) := Ok g.
Definition schnorr_from_srs (g : pt C) : outcome signature_error (pt C) := Ok g.
Definition dleq_from_srs (srs : pt C1 * pt C2) : outcome nizk_error (pt C1 * pt C2) := Ok srs.

End Systems.
