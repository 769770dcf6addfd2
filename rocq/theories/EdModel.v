(** * EdModel: the signature scheme behind lib.rs, down to its equations

    Engine.v takes the functions of ed25519-dalek as given.  This file writes them out over a
    group with the shape of the one they work in, after RFC 8032 and the published behaviour of
    ed25519-dalek 1.0.1 (Cargo.toml:20, feature "batch"); the source of that crate is not in
    /repo.  What is called from /repo: [Keypair::generate] and [to_bytes] (lib.rs:255-257),
    [Keypair::from_bytes] and [sign] (lib.rs:271-272), [Signature::from_bytes] and
    [PublicKey::from_bytes] (lib.rs:286-287, 301-302), [verify_strict] (lib.rs:288) and
    [verify_batch] (lib.rs:305). *)

From Coq Require Import NArith Strings.Byte.
From mathcomp Require Import all_ssreflect all_algebra zify.
From Verif Require Import Prelude Errors Engine LibModel CodecModel BTreeMap PolyModel SigmaModel
  PvssModel SetupModel.

Set Implicit Arguments.
Unset Strict Implicit.
Unset Printing Implicit Defensive.

Import GRing.Theory.
Local Open Scope ring_scope.

(** The group of points, of order [8 * l] with [l] an odd prime, the base point of order [l],
    the compressed form of points and SHA-512.  Several byte strings may decompress to one
    point, and some to none. *)
Record ed_curve : Type := EdCurve {
  ep : zmodType;
  ep_order : nat;
  ep_prime : prime ep_order;
  ep_odd : odd ep_order;
  ep_bound : (N.of_nat ep_order < 2 ^ 253)%num;
  ep_exponent : forall P : ep, P *+ (8 * ep_order) = 0;
  ep_base : ep;
  ep_base_order : ep_base *+ ep_order = 0;
  ep_base_neq0 : ep_base != 0;
  ep_enc : ep -> 32.-tuple byte;
  ep_dec : 32.-tuple byte -> option ep;
  ep_encK : forall P, ep_dec (ep_enc P) = Some P;
  sha512 : seq byte -> 64.-tuple byte
}.

Section Scheme.
Variable X : ed_curve.
Notation l := (ep_order X).
Notation B := (ep_base X).

(** Scalars: the integers modulo [l]. *)
Definition scalar : Type := 'F_l.

(** [Scalar::from_bytes_mod_order_wide] and the like: a number, reduced. *)
Definition sc_of_N (v : N) : scalar := (N.to_nat (v mod N.of_nat l))%:R.
(** [Scalar::from_hash] of the bytes [m]. *)
Definition sc_hash (m : seq byte) : scalar := sc_of_N (of_le_bytes (sha512 X m)).
(** [Scalar::to_bytes]. *)
Lemma sc_bytes_size (x : scalar) : size (le_bytes 32 (N.of_nat (val x))) == 32%N.
Proof. by elim: (32%N) (N.of_nat _) => //= k IH v; exact: IH. Qed.
Definition sc_bytes (x : scalar) : 32.-tuple byte := Tuple (sc_bytes_size x).
(** [check_scalar]: the number must be below [l].  (The code lets numbers below [2^252] pass
    without looking further; they are below the order of the real group.) *)
Definition sc_check (s : 32.-tuple byte) : option scalar :=
  let v := of_le_bytes s in
  if (v <? N.of_nat l)%num then Some (N.to_nat v)%:R else None.

(** Multiplication of a point by a scalar. *)
Definition pmul (x : scalar) (P : ep X) : ep X := P *+ val x.
(** [is_small_order]: [8 P] is the identity. *)
Definition small_order (P : ep X) : bool := P *+ 8 == 0.

(** The two halves of the hashed secret key: [key], with the bits cleared and set as the
    scheme says (the lowest three cleared, the highest cleared, the one below it set), and
    [nonce]. *)
Definition clamp (v : N) : N := (2 ^ 254 + (v mod 2 ^ 254 - v mod 8))%num.
Definition sk_number (sk : 32.-tuple byte) : N := clamp (of_le_bytes (take 32 (sha512 X sk))).
Definition sk_scalar (sk : 32.-tuple byte) : scalar := sc_of_N (sk_number sk).
Definition sk_nonce (sk : 32.-tuple byte) : seq byte := drop 32 (sha512 X sk).

(** [PublicKey]: the bytes and the point.  [Keypair]: the secret bytes and a public key. *)
Definition ed_public : Type := (32.-tuple byte * ep X)%type.
Definition ed_pair : Type := (32.-tuple byte * ed_public)%type.

(** [PublicKey::from_bytes]. *)
Definition pk_from_bytes (b : 32.-tuple byte) : option ed_public :=
  if ep_dec X b is Some P then Some (b, P) else None.
(** [PublicKey::from(&SecretKey)]. *)
Definition pk_of (sk : 32.-tuple byte) : ed_public :=
  let P := pmul (sk_scalar sk) B in (ep_enc P, P).

(** [Keypair::from_bytes]: the halves are taken as they come; the second need not be the public
    key of the first. *)
Definition pair_from_bytes (b : 64.-tuple byte) : option ed_pair :=
  let: Sig sk pk := sig_split b in
  if pk_from_bytes pk is Some p then Some (sk, p) else None.

(** The challenge [H(R || A || M)]. *)
Definition hram (R A : 32.-tuple byte) (m : seq byte) : scalar := sc_hash (R ++ A ++ m).

(** [ExpandedSecretKey::sign]: the nonce, and the signature. *)
Definition sign_nonce (sk : 32.-tuple byte) (m : seq byte) : scalar := sc_hash (sk_nonce sk ++ m).
Definition pair_sign (kp : ed_pair) (m : seq byte) : 64.-tuple byte :=
  let: (sk, (A, _)) := kp in
  let r := sign_nonce sk m in
  let R := ep_enc (pmul r B) in
  [tuple of R ++ sc_bytes (hram R A m * sk_scalar sk + r)].

(** [ed25519::Signature::from_bytes]: the three highest bits must be clear. *)
Definition sig_from_bytes (b : 64.-tuple byte) : option Signature :=
  if (of_le_bytes (part2 (sig_split b)) <? 2 ^ 253)%num then Some (sig_split b) else None.

(** [verify_strict]. *)
Definition verify_strict (pk : ed_public) (m : seq byte) (s : Signature) : bool :=
  if sc_check (part2 s) is Some x then
    if ep_dec X (part1 s) is Some R then
      if small_order R || small_order pk.2 then false
      else pmul x B - pmul (hram (part1 s) pk.1 m) pk.2 == R
    else false
  else false.

(** [verify_batch], with the 128-bit coefficients [zs] that it draws. *)
Definition verify_batch (zs : seq N) (ms : seq (seq byte)) (ss : seq Signature) (pks : seq ed_public) : bool :=
  if (size ms == size ss) && (size ss == size pks) then
    let xs := [seq sc_check (part2 s) | s <- ss] in
    let Rs := [seq ep_dec X (part1 s) | s <- ss] in
    if all isSome xs && all isSome Rs then
      let z i := sc_of_N (nth 0%num zs i) in
      let x i := odflt 0 (nth None xs i) in
      let R i := odflt 0 (nth None Rs i) in
      let A i := nth ([tuple of nseq 32 x00], 0) pks i in
      let k i := hram (part1 (nth (Sig (A i).1 (A i).1) ss i)) (A i).1 (nth [::] ms i) in
      let B_coefficient := \sum_(i < size ss) z i * x i in
      pmul (- B_coefficient) B + \sum_(i < size ss) pmul (z i) (R i)
        + \sum_(i < size ss) pmul (k i * z i) (A i).2 == 0
    else false
  else false.

(** The scheme as the record of Engine.v; [zs] are the coefficients of [verify_batch]. *)
Definition ed25519 (zs : seq N) : eddsa :=
  @EdDSA ed_pair Signature ed_public pair_from_bytes pair_sign sig_from_bytes pk_from_bytes
    verify_strict (verify_batch zs).

(** [Keypair::generate] from the 32 bytes drawn; [to_bytes]. *)
Definition pair_bytes (kp : ed_pair) : 64.-tuple byte := [tuple of kp.1 ++ kp.2.1].
Definition ed25519_keys (zs : seq N) : ed_keygen (ed25519 zs) :=
  @EdKeygen (ed25519 zs) (fun seed => (seed, pk_of seed)) (fun kp => kp.2.1) pair_bytes.

End Scheme.
