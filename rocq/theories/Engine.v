(** * Engine: the interface of the external crates that /repo calls.

    /repo is generic in [E: PairingEngine] (ark-ec) and calls arkworks, blake2s_simd,
    rand_chacha, sha3 and ed25519-dalek.  Their code is not in /repo.  What the
    theorems assume about them is exactly the law fields of the records below; every
    theorem quantifies over all such records, and [Instance.v] builds one. *)

From Coq Require Import NArith Strings.Byte.
From mathcomp Require Import all_ssreflect all_algebra.

Set Implicit Arguments.
Unset Strict Implicit.
Unset Printing Implicit Defensive.

Import GRing.Theory.
Local Open Scope ring_scope.

(** A curve group of prime order [q]: [C: AffineCurve] with [C::ScalarField] of order
    [q] (ark-ec).  Simplifications: affine and projective forms of a point are one
    value ([into_affine], [into_projective] are the identity), every point lies in
    the prime-order subgroup (arkworks' checked [deserialize] and its samplers ensure
    it), and [P.mul(a.into_repr())] is the module action [a *: P]. *)
Record curve (q : nat) : Type := Curve {
  pt : lmodType 'F_q;
  pt_gen : pt;                                  (* C::prime_subgroup_generator() *)
  pt_gen_neq0 : pt_gen != 0;
  (* the group is cyclic: any non-zero point generates it *)
  pt_cyclic : forall g P : pt, g != 0 -> exists a : 'F_q, P = a *: g;
  pt_ser : pt -> seq byte;                      (* CanonicalSerialize::serialize *)
  pt_len : nat;                                 (* serialized_size *)
  pt_deser : seq byte -> option (pt * seq byte);(* CanonicalDeserialize::deserialize *)
  pt_ser_size : forall P, size (pt_ser P) = pt_len;
  pt_deserK : forall P rest, pt_deser (pt_ser P ++ rest) = Some (P, rest)
}.

(** [E: PairingEngine] (ark-ec), together with the hash functions and codecs of the
    scalar field.  [G1], [G2] are the two source groups; [GT] is [E::Fqk], a field,
    in which pairing values are written multiplicatively. *)
Record engine : Type := Engine {
  modulus : nat;
  modulus_prime : prime modulus;
  G1 : curve modulus;
  G2 : curve modulus;
  GT : fieldType;
  pairing : pt G1 -> pt G2 -> GT;               (* E::pairing *)
  pairing_addl : forall P P' Q, pairing (P + P') Q = pairing P Q * pairing P' Q;
  pairing_addr : forall P Q Q', pairing P (Q + Q') = pairing P Q * pairing P Q';
  pairing_neq0 : forall P Q, pairing P Q != 0;
  pairing_nondeg : forall P Q, pairing P Q = 1 -> P = 0 \/ Q = 0;
  (* hash_to_field of src/nizk/utils/hash.rs:38-51 and src/signature/utils/hash.rs:38-51
     (two identical copies): personalization, message. The loop itself is modelled in
     HashModel.v; here it is an arbitrary function. *)
  hash_to_field : seq byte -> seq byte -> 'F_modulus;
  (* SHAKE-256 read for 32 bytes (sha3) *)
  shake256 : seq byte -> 32.-tuple byte;
  fr_ser : 'F_modulus -> seq byte;
  fr_len : nat;
  fr_deser : seq byte -> option ('F_modulus * seq byte);
  fr_ser_size : forall x, size (fr_ser x) = fr_len;
  fr_deserK : forall x rest, fr_deser (fr_ser x ++ rest) = Some (x, rest)
}.

(** [Scalar<E>], [EncGroup<E>], [ComGroup<E>] of src/lib.rs:21-38. *)
Notation Fr E := 'F_(modulus E).
Notation Enc E := (pt (G1 E)).
Notation Com E := (pt (G2 E)).

(** [E::product_of_pairings]. *)
Definition product_of_pairings (E : engine) (ps : seq (Enc E * Com E)) : GT E :=
  foldl (fun acc p => acc * pairing p.1 p.2) 1 ps.

(** [Scalar::from(x)] for [x: u64]: double-and-add of 1, so that it runs on large
    [x]; equal to [x%:R] (lemma [fr_of_u64E] in AlgebraProofs.v). *)
Definition fr_of_u64 (q : nat) (x : N) : 'F_q :=
  match x with
  | N0 => 0
  | Npos p => Pos.iter_op +%R p 1
  end.

(** A random generator [R: Rng]: its state and the draws the code makes from it.
    Nothing is assumed about the values drawn. *)
Record rng (E : engine) : Type := Rng {
  rstate : Type;
  rand_fr : rstate -> Fr E * rstate;
  rand_g1 : rstate -> Enc E * rstate;
  rand_g2 : rstate -> Com E * rstate
}.

(** [ed25519-dalek]: key and signature parsing, signing, and the two verifiers. No law
    is assumed; theorems that need a working key pair say so. *)
Record eddsa : Type := EdDSA {
  ed_keypair : Type;                                       (* dalek::Keypair *)
  ed_sig : Type;                                           (* dalek::Signature *)
  ed_pk : Type;                                            (* dalek::PublicKey *)
  ed_keypair_from_bytes : 64.-tuple byte -> option ed_keypair;
  ed_sign : ed_keypair -> seq byte -> 64.-tuple byte;      (* sign + to_bytes *)
  ed_sig_from_bytes : 64.-tuple byte -> option ed_sig;
  ed_pk_from_bytes : 32.-tuple byte -> option ed_pk;
  ed_verify_strict : ed_pk -> seq byte -> ed_sig -> bool;
  ed_verify_batch : seq (seq byte) -> seq ed_sig -> seq ed_pk -> bool
}.
