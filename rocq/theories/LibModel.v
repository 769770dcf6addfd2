(** * LibModel: src/lib.rs, the byte-array types and the EdDSA wrapper *)

From Coq Require Import NArith Strings.Byte.
From mathcomp Require Import all_ssreflect all_algebra.
From Verif Require Import Prelude Errors Engine.

Set Implicit Arguments.
Unset Strict Implicit.
Unset Printing Implicit Defensive.

(** [Digest], [PublicKey], [SecretKey]: lib.rs:47, 122, 186. *)
Definition Digest := (32.-tuple byte)%type.
Definition PublicKey := (32.-tuple byte)%type.
Definition SecretKey := (64.-tuple byte)%type.

(** [Signature { part1, part2 }], lib.rs:264-267. *)
Record Signature : Type := Sig { part1 : 32.-tuple byte; part2 : 32.-tuple byte }.

(** [flatten], lib.rs:278-283: [part1 ++ part2]; the length check of [try_into] always
    succeeds and is the tuple type here. *)
Definition sig_flatten (s : Signature) : 64.-tuple byte :=
  [tuple of part1 s ++ part2 s].

(** [sig[..32].try_into()], [sig[32..64].try_into()]: lib.rs:273-274, 347-348. *)
Lemma take32_size (t : 64.-tuple byte) : size (take 32 t) == 32.
Proof. by rewrite size_take size_tuple. Qed.
Lemma drop32_size (t : 64.-tuple byte) : size (drop 32 t) == 32.
Proof. by rewrite size_drop size_tuple. Qed.

Definition sig_split (t : 64.-tuple byte) : Signature :=
  Sig (Tuple (take32_size t)) (Tuple (drop32_size t)).

(** [CryptoError = ed25519::Error], lib.rs:43: an opaque error. *)
Inductive crypto_error : Type := Ed25519Error.

Section EdDSA.

Variable D : eddsa.

(** [Signature::new], lib.rs:270-276: [expect] panics on a secret key that does not
    load. *)
Definition signature_new {Er} (digest : Digest) (secret : SecretKey) : outcome Er Signature :=
  match ed_keypair_from_bytes D secret with
  | Some kp => Ok (sig_split (ed_sign kp digest))
  | None => Panic UnwrapErr
  end.

(** [Signature::verify], lib.rs:285-289. *)
Definition signature_verify (s : Signature) (digest : Digest) (pk : PublicKey)
  : outcome crypto_error unit :=
  let! signature := ok_or (ed_sig_from_bytes D (sig_flatten s)) Ed25519Error in
  let! key := ok_or (ed_pk_from_bytes D pk) Ed25519Error in
  if ed_verify_strict key digest signature then Ok tt else Err Ed25519Error.

(** [Signature::verify_batch], lib.rs:291-306. *)
Definition signature_verify_batch (digest : Digest) (votes : seq (PublicKey * Signature))
  : outcome crypto_error unit :=
  let! acc := foldM (fun acc (v : PublicKey * Signature) =>
                let: (messages, signatures, pks) := acc in
                let! s := ok_or (ed_sig_from_bytes D (sig_flatten v.2)) Ed25519Error in
                let! k := ok_or (ed_pk_from_bytes D v.1) Ed25519Error in
                Ok (rcons messages (digest : seq byte), rcons signatures s, rcons pks k))
              ([::], [::], [::]) votes in
  let: (messages, signatures, pks) := acc in
  if ed_verify_batch messages signatures pks then Ok tt else Err Ed25519Error.

End EdDSA.
