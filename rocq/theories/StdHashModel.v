(** * StdHashModel: implementations of [std::hash::Hash] in src *)

From Coq Require Import NArith Strings.Byte.
From mathcomp Require Import all_ssreflect all_algebra.
From Verif Require Import Prelude Errors Engine LibModel SigmaModel CodecModel PvssModel.

Set Implicit Arguments.
Unset Strict Implicit.
Unset Printing Implicit Defensive.

(** [std::hash::Hasher]: a state and [write]. *)
Record hasher : Type := Hasher {
  hstate : Type;
  hwrite : hstate -> seq byte -> hstate
}.

(** Several calls of [write]. *)
Definition feed (H : hasher) (s : hstate H) (pieces : seq (seq byte)) : hstate H :=
  foldl (@hwrite H) s pieces.

(** The [Hash] implementation of [[u8; N]] (std): the length as a usize, then the bytes; usize
    has 64 bits and is written in little endian. *)
Definition array_writes (s : seq byte) : seq (seq byte) :=
  [:: le_bytes 8 (N.of_nat (size s)); s].

(** [#[derive(Hash)]], lib.rs:46 and 121. *)
Definition digest_hash (H : hasher) (s : hstate H) (d : Digest) : hstate H :=
  feed s (array_writes d).
Definition public_key_hash (H : hasher) (s : hstate H) (k : PublicKey) : hstate H :=
  feed s (array_writes k).

(** What the [Hash] implementations of points and scalars (ark-ec, ark-ff) write: a fixed
    number of pieces that determine the value. *)
Record std_hash (E : engine) (C : curve (modulus E)) : Type := StdHash {
  pt_writes : pt C -> seq (seq byte);
  pt_pieces : nat;
  pt_writes_size : forall P, size (pt_writes P) = pt_pieces;
  pt_writes_inj : injective pt_writes;
  fr_writes : Fr E -> seq (seq byte);
  fr_pieces : nat;
  fr_writes_size : forall x, size (fr_writes x) = fr_pieces;
  fr_writes_inj : injective fr_writes
}.

Section StdHash.
Variable E : engine.

(** [#[derive(Hash)]] on [DLKProof] and its [SRS], nizk/dlk/mod.rs:19 and nizk/dlk/srs.rs:8: the
    generator. *)
Definition dlk_system_hash (C : curve (modulus E)) (W : std_hash C) (H : hasher) (s : hstate H)
  (g : pt C) : hstate H := feed s (pt_writes W g).

(** The tuple of a DLK proof (std: its components in order). *)
Definition dlk_proof_hash (C : curve (modulus E)) (W : std_hash C) (H : hasher) (s : hstate H)
  (p : dlk_proof C) : hstate H :=
  let s1 := feed s (pt_writes W (dlk_commit p)) in
  let s2 := feed s1 (fr_writes W (dlk_challenge p)) in
  feed s2 (fr_writes W (dlk_response p)).

(** [Hash for DecompProof], decomp.rs:60-65. *)
Definition decomp_hash (W : std_hash (G2 E)) (H : hasher) (s : hstate H) (d : DecompProof E)
  : hstate H :=
  feed (dlk_proof_hash W s (dp_proof d)) (pt_writes W (dp_gs d)).

End StdHash.
