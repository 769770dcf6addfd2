(** * CodecModel: the binary codecs

    [CanonicalSerialize] / [CanonicalDeserialize] as written by hand in src/lib.rs and as
    derived for the structs of src/modified_scrape, src/nizk and src/signature.  The
    derive (ark-serialize-derive) handles the fields in order of declaration.  Only the
    compressed form ([serialize], [deserialize], [serialized_size]) is modelled; the
    uncompressed and unchecked variants are not used in /repo.  Writing goes to a [Vec]
    and cannot fail.  A reader is the list of the bytes it still holds, as with [&[u8]]
    and [Cursor]. *)

From Coq Require Import NArith Strings.Byte.
From mathcomp Require Import all_ssreflect all_algebra.
From Verif Require Import Prelude Errors BTreeMap Engine LibModel SigmaModel PvssModel.

Set Implicit Arguments.
Unset Strict Implicit.
Unset Printing Implicit Defensive.

(** What a type that implements both traits offers. *)
Record codec (A : Type) : Type := Codec {
  ser : A -> seq byte;                                              (* serialize *)
  ser_size : A -> nat;                                              (* serialized_size *)
  deser : seq byte -> outcome serialization_error (A * seq byte)    (* deserialize *)
}.

(** ** ark-serialize *)

Definition byte_of_N (n : N) : byte := if Byte.of_N n is Some b then b else x00%byte.

(** [x.to_le_bytes()] with [k] bytes, and back. *)
Fixpoint le_bytes (k : nat) (x : N) : seq byte :=
  if k is k'.+1 then byte_of_N (x mod 256)%num :: le_bytes k' (x / 256)%num else [::].
Definition of_le_bytes (s : seq byte) : N :=
  foldr (fun b acc => Byte.to_N b + 256 * acc)%num 0%num s.

(** [read_exact] of [k] bytes. *)
Definition read_exact (k : nat) (s : seq byte)
  : outcome serialization_error (seq byte * seq byte) :=
  if size s < k then Err IoError else Ok (take k s, drop k s).

(** [impl_uint!]: u8 and u64. *)
Definition u8_codec : codec byte := {|
  ser b := [:: b];
  ser_size _ := 1;
  deser s := if s is b :: s' then Ok (b, s') else Err IoError
|}.
Definition u64_codec : codec N := {|
  ser x := le_bytes 8 x;
  ser_size _ := 8;
  deser s := let! (bs, s') := read_exact 8 s in Ok (of_le_bytes bs, s')
|}.
(** usize goes through u64 (64-bit target). *)
Definition usize_codec : codec nat := {|
  ser n := ser u64_codec (N.of_nat n);
  ser_size _ := 8;
  deser s := let! (x, s') := deser u64_codec s in Ok (N.to_nat x, s')
|}.

Section Combinators.
Variables A B : Type.

(** [(A, B)], and two consecutive fields of a derived struct. *)
Definition pair_codec (a : codec A) (b : codec B) : codec (A * B) := {|
  ser x := ser a x.1 ++ ser b x.2;
  ser_size x := ser_size a x.1 + ser_size b x.2;
  deser s := let! (x, s1) := deser a s in
             let! (y, s2) := deser b s1 in
             Ok ((x, y), s2)
|}.

(** A struct whose fields, in order, are those of the nested pair [A]. *)
Definition struct_codec (fields : B -> A) (make : A -> B) (a : codec A) : codec B := {|
  ser x := ser a (fields x);
  ser_size x := ser_size a (fields x);
  deser s := let! (x, s') := deser a s in Ok (make x, s')
|}.

(** [for _ in 0..len { values.push(T::deserialize(reader)?) }]. *)
Fixpoint deser_n (a : codec A) (n : nat) (s : seq byte)
  : outcome serialization_error (seq A * seq byte) :=
  if n is n'.+1 then
    let! (x, s1) := deser a s in
    let! (xs, s2) := deser_n a n' s1 in
    Ok (x :: xs, s2)
  else Ok ([::], s).

(** [Vec<T>]: the length as u64, then the elements. *)
Definition vec_codec (a : codec A) : codec (seq A) := {|
  ser v := ser u64_codec (N.of_nat (size v)) ++ flatten (map (ser a) v);
  ser_size v := 8 + sumn (map (ser_size a) v);
  deser s := let! (len, s1) := deser u64_codec s in deser_n a (N.to_nat len) s1
|}.

End Combinators.

(** [BTreeMap<usize, V>]: the length as u64, then the pairs in key order.  Reading inserts
    the pairs one by one, in whatever order they come. *)
Definition map_codec V (v : codec V) : codec (btmap V) := {|
  ser m := ser u64_codec (N.of_nat (size (bt_iter m)))
           ++ flatten (map (ser (pair_codec usize_codec v)) (bt_iter m));
  ser_size m := 8 + sumn (map (ser_size (pair_codec usize_codec v)) (bt_iter m));
  deser s := let! (len, s1) := deser u64_codec s in
             let! (kvs, s2) := deser_n (pair_codec usize_codec v) (N.to_nat len) s1 in
             Ok (bt_collect kvs, s2)
|}.

(** Points and scalars.  Which error a bad encoding gives depends on the curve; one error
    stands for all. *)
Definition pt_codec q (C : curve q) : codec (pt C) := {|
  ser P := pt_ser P;
  ser_size _ := pt_len C;
  deser s := ok_or (pt_deser C s) InvalidData
|}.
Definition fr_codec (E : engine) : codec (Fr E) := {|
  ser x := fr_ser x;
  ser_size _ := fr_len E;
  deser s := ok_or (fr_deser E s) InvalidData
|}.

(** ** src/lib.rs *)

(** [core::array::from_fn(|_| u8::deserialize(&mut reader).unwrap())]: lib.rs:108-110,
    167-169, 242-244, 343-345. *)
Fixpoint array_from_fn (k : nat) (s : seq byte)
  : outcome serialization_error (k.-tuple byte * seq byte) :=
  match k with
  | 0 => Ok ([tuple], s)
  | k'.+1 =>
      let! (b, s1) := unwrap (deser u8_codec s) in
      let! (bs, s2) := array_from_fn k' s1 in
      Ok ([tuple of b :: bs], s2)
  end.

(** [for item in arr.iter() { item.serialize(&mut writer)? }] and the sum of the item
    sizes: lib.rs:88-92 and 97-101, and the same lines of the other types. *)
Definition array_ser (s : seq byte) : seq byte := flatten (map (ser u8_codec) s).
Definition array_size (s : seq byte) : nat := sumn (map (ser_size u8_codec) s).

(** [Digest], lib.rs:82-115. *)
Definition digest_codec : codec Digest := {|
  ser := fun d : Digest => array_ser d;
  ser_size := fun d : Digest => array_size d;
  deser s := array_from_fn 32 s
|}.

(** [PublicKey], lib.rs:141-174. *)
Definition public_key_codec : codec PublicKey := {|
  ser := fun k : PublicKey => array_ser k;
  ser_size := fun k : PublicKey => array_size k;
  deser s := array_from_fn 32 s
|}.

(** [SecretKey], lib.rs:216-248. *)
Definition secret_key_codec : codec SecretKey := {|
  ser := fun k : SecretKey => array_ser k;
  ser_size := fun k : SecretKey => array_size k;
  deser s := array_from_fn 64 s
|}.

(** [Signature], lib.rs:314-352: two halves are written, 64 bytes are read and split. *)
Definition signature_codec : codec Signature := {|
  ser x := array_ser (part1 x) ++ array_ser (part2 x);
  ser_size x := array_size (part1 x) + array_size (part2 x);
  deser s := let! (r, s') := array_from_fn 64 s in Ok (sig_split r, s')
|}.

(** [TryFrom<&[u8]> for Digest], lib.rs:77-82: [item.try_into()?] fails with
    [TryFromSliceError] unless the slice has 32 bytes. *)
Inductive try_from_slice_error : Type := TryFromSliceError.
Definition digest_try_from (s : seq byte) : outcome try_from_slice_error Digest :=
  ok_or (insub s) TryFromSliceError.

Section Structs.

Variable E : engine.

(** ** src/nizk, src/signature *)

(** The proof tuple [(C, Fr, Fr)], nizk/dlk/mod.rs:31. *)
Definition dlk_proof_codec (C : curve (modulus E)) : codec (dlk_proof C) :=
  struct_codec (fun p => (dlk_commit p, (dlk_challenge p, dlk_response p)))
    (fun '(c, (h, r)) => DlkProof c h r)
    (pair_codec (pt_codec C) (pair_codec (fr_codec E) (fr_codec E))).

(** The proof tuple [((C1, C2), Fr, Fr)], nizk/dleq/mod.rs:40-41. *)
Definition dleq_proof_codec (C1 C2 : curve (modulus E)) : codec (dleq_proof C1 C2) :=
  struct_codec (fun p => (dleq_commit p, (dleq_challenge p, dleq_response p)))
    (fun '(c, (h, r)) => DleqProof c h r)
    (pair_codec (pair_codec (pt_codec C1) (pt_codec C2))
       (pair_codec (fr_codec E) (fr_codec E))).

(** The signature tuple [(C, Fr)], signature/schnorr/mod.rs:28. *)
Definition schnorr_sig_codec (C : curve (modulus E)) : codec (schnorr_sig C) :=
  pair_codec (pt_codec C) (fr_codec E).

(** [SRS { g_public_key }], nizk/dlk/srs.rs:8-11 and signature/schnorr/srs.rs:6-9: the
    generator alone. *)
Definition one_point_srs_codec (C : curve (modulus E)) : codec (pt C) := pt_codec C.

(** [SRS { g_public_key, h_public_key }], nizk/dleq/srs.rs:7-15. *)
Definition dleq_srs_codec (C1 C2 : curve (modulus E)) : codec (pt C1 * pt C2) :=
  pair_codec (pt_codec C1) (pt_codec C2).

(** ** src/modified_scrape *)

(** [SRS { g1, g2, g2_prime }], srs.rs:17-22. *)
Definition srs_codec : codec (SRS E) :=
  struct_codec (fun x => (srs_g1 x, (srs_g2 x, srs_g2_prime x)))
    (fun '(a, (b, c)) => MkSRS a b c)
    (pair_codec (pt_codec (G1 E)) (pair_codec (pt_codec (G2 E)) (pt_codec (G2 E)))).

(** [Config { srs, degree, num_participants }], config.rs:9-14. *)
Definition config_codec : codec (Config E) :=
  struct_codec (fun x => (cfg_srs x, (cfg_degree x, cfg_num_participants x)))
    (fun '(a, (b, c)) => MkConfig a b c)
    (pair_codec srs_codec (pair_codec usize_codec usize_codec)).

(** [Participant { pairing_type, id, public_key_sig, public_key_ed }], participant.rs:25-35; the
    PhantomData takes no bytes. *)
Definition participant_codec : codec (Participant E) :=
  struct_codec (fun x => (pa_id x, (pa_public_key_sig x, pa_public_key_ed x)))
    (fun '(a, (b, c)) => MkParticipant a b c)
    (pair_codec usize_codec (pair_codec (pt_codec (G1 E)) public_key_codec)).

(** [DecompProof { proof, gs }], decomp.rs:34-38. *)
Definition decomp_codec : codec (DecompProof E) :=
  struct_codec (fun x => (dp_proof x, dp_gs x)) (fun '(a, b) => MkDecomp a b)
    (pair_codec (dlk_proof_codec (G2 E)) (pt_codec (G2 E))).

(** [SignedProof { decomp_proof, signature_on_decomp }], share.rs:21-28. *)
Definition signed_codec : codec (SignedProof E) :=
  struct_codec (fun x => (sp_decomp_proof x, sp_signature_on_decomp x))
    (fun '(a, b) => MkSigned a b)
    (pair_codec decomp_codec signature_codec).

(** [PVSSCore { encs, comms }], pvss.rs:10-17. *)
Definition core_codec : codec (PVSSCore E) :=
  struct_codec (fun x => (encs x, comms x)) (fun '(a, b) => MkCore a b)
    (pair_codec (vec_codec (pt_codec (G1 E))) (vec_codec (pt_codec (G2 E)))).

(** [PVSSShare { participant_id, pvss_core, signed_proof }], share.rs:47-55. *)
Definition share_codec : codec (PVSSShare E) :=
  struct_codec (fun x => (sh_participant_id x, (sh_pvss_core x, sh_signed_proof x)))
    (fun '(a, (b, c)) => MkShare a b c)
    (pair_codec usize_codec (pair_codec core_codec signed_codec)).

(** [PVSSAggregatedShare { num_participants, degree, pvss_core, contributions }],
    share.rs:58-67. *)
Definition transcript_codec : codec (PVSSAggregatedShare E) :=
  struct_codec
    (fun x => (as_num_participants x, (as_degree x, (as_pvss_core x, as_contributions x))))
    (fun '(a, (b, (c, d))) => MkAgg a b c d)
    (pair_codec usize_codec (pair_codec usize_codec
       (pair_codec core_codec (map_codec (pair_codec signed_codec u64_codec))))).

(** [message_from_pi_i], share.rs:72-76; decomp.rs:108-112 is a copy of it. *)
Definition message_from_pi_i (dp : DecompProof E) : outcome pvss_error (seq byte) :=
  Ok (ser decomp_codec dp).

End Structs.
