(** * SigmaModel: src/nizk/dlk, src/nizk/dleq and src/signature/schnorr

    The two proof systems and the signature scheme.  Each is generic in its curve(s)
    in Rust; here a curve is any [curve (modulus E)].  Writing a point into a [Vec]
    cannot fail, so the [?] after [serialize] disappears. *)

From Coq Require Import NArith Strings.Byte.
From mathcomp Require Import all_ssreflect all_algebra.
From Verif Require Import Prelude Errors Engine.

Set Implicit Arguments.
Unset Strict Implicit.
Unset Printing Implicit Defensive.

Import GRing.Theory.
Local Open Scope ring_scope.

(** [b"DLKNIZK"], src/nizk/dlk/mod.rs:15. *)
Definition DLK_PERSONA : seq byte := [:: x44; x4c; x4b; x4e; x49; x5a; x4b]%byte.
(** [b"DLEQNIZK"], src/nizk/dleq/mod.rs:16. *)
Definition DLEQ_PERSONA : seq byte := [:: x44; x4c; x45; x51; x4e; x49; x5a; x4b]%byte.
(** [b"SCHSIGNA"], src/signature/schnorr/mod.rs:14. *)
Definition SCHNORR_PERSONA : seq byte := [:: x53; x43; x48; x53; x49; x47; x4e; x41]%byte.

Section Sigma.

Variable E : engine.
Implicit Types (R : rng E).

(** ** DLK: proof of knowledge of a discrete logarithm *)

Section DLK.

Variable C : curve (modulus E).

(** [(C, C::ScalarField, C::ScalarField)]: commitment, challenge, response;
    src/nizk/dlk/mod.rs:31. *)
Record dlk_proof : Type := DlkProof {
  dlk_commit : pt C;
  dlk_challenge : Fr E;
  dlk_response : Fr E
}.

(** [generate_pair], dlk/mod.rs:39-45.  The SRS is its generator [g]. *)
Definition dlk_generate_pair R (g : pt C) (s : rstate R) : (Fr E * pt C) * rstate R :=
  let: (w, s') := rand_fr s in ((w, w *: g), s').

(** [from_witness], dlk/mod.rs:48-53. *)
Definition dlk_from_witness (g : pt C) (w : Fr E) : Fr E * pt C := (w, w *: g).

(** The bytes hashed by both sides, dlk/mod.rs:68-79 and 96-107: the generator and the
    nonce commitment.  The statement is not part of them. *)
Definition dlk_preimage (g g_r : pt C) : seq byte := pt_ser g ++ pt_ser g_r.

(** [prove], dlk/mod.rs:56-87. *)
Definition dlk_prove R (g : pt C) (s : rstate R) (w : Fr E) : dlk_proof * rstate R :=
  let: (r, s') := rand_fr s in
  let g_r := r *: g in
  let c := hash_to_field E DLK_PERSONA (dlk_preimage g g_r) in
  (DlkProof g_r c (r - w * c), s').

(** [verify], dlk/mod.rs:90-121. *)
Definition dlk_verify (g stmnt : pt C) (p : dlk_proof) : outcome nizk_error unit :=
  let c := hash_to_field E DLK_PERSONA (dlk_preimage g (dlk_commit p)) in
  let check := dlk_response p *: g + c *: stmnt in
  if (check != dlk_commit p) || (c != dlk_challenge p) then Err DLKVerify else Ok tt.

End DLK.

(** ** DLEQ: equality of two discrete logarithms *)

Section DLEQ.

Variables C1 C2 : curve (modulus E).

(** [((C1, C2), Challenge, C1::ScalarField)], src/nizk/dleq/mod.rs:40-41. *)
Record dleq_proof : Type := DleqProof {
  dleq_commit : pt C1 * pt C2;
  dleq_challenge : Fr E;
  dleq_response : Fr E
}.

(** [generate_pair], dleq/mod.rs:49-55. The SRS is the pair of generators [g], [h]. *)
Definition dleq_generate_pair R (g : pt C1) (h : pt C2) (s : rstate R)
  : (Fr E * (pt C1 * pt C2)) * rstate R :=
  let: (w, s') := rand_fr s in ((w, (w *: g, w *: h)), s').

(** [from_witness], dleq/mod.rs:58-63. *)
Definition dleq_from_witness (g : pt C1) (h : pt C2) (w : Fr E) : Fr E * (pt C1 * pt C2) :=
  (w, (w *: g, w *: h)).

(** The bytes hashed, dleq/mod.rs:87-114 and 134-161, in the order of lines 113, 160. *)
Definition dleq_preimage (g : pt C1) (h : pt C2) (g_w : pt C1) (h_w : pt C2)
  (g_r : pt C1) (h_r : pt C2) : seq byte :=
  flatten [:: pt_ser g; pt_ser g_w; pt_ser h; pt_ser h_w; pt_ser g_r; pt_ser h_r].

(** [prove], dleq/mod.rs:66-122. *)
Definition dleq_prove R (g : pt C1) (h : pt C2) (s : rstate R) (w : Fr E)
  : dleq_proof * rstate R :=
  let g_w := w *: g in
  let h_w := w *: h in
  let: (r, s') := rand_fr s in
  let g_r := r *: g in
  let h_r := r *: h in
  let c := hash_to_field E DLEQ_PERSONA (dleq_preimage g h g_w h_w g_r h_r) in
  (DleqProof (g_r, h_r) c (r - w * c), s').

(** [verify], dleq/mod.rs:125-191. *)
Definition dleq_verify (g : pt C1) (h : pt C2) (stmnt : pt C1 * pt C2) (p : dleq_proof)
  : outcome nizk_error unit :=
  let: (g_r, h_r) := dleq_commit p in
  let c := hash_to_field E DLEQ_PERSONA (dleq_preimage g h stmnt.1 stmnt.2 g_r h_r) in
  let lhs1 := dleq_response p *: g + c *: stmnt.1 in
  let lhs2 := dleq_response p *: h + c *: stmnt.2 in
  if [|| lhs1 != g_r, lhs2 != h_r | c != dleq_challenge p] then Err DLEQVerify else Ok tt.

End DLEQ.

(** ** Schnorr signatures *)

Section Schnorr.

Variable C : curve (modulus E).

(** [(C, C::ScalarField)], src/signature/schnorr/mod.rs:28. *)
Definition schnorr_sig : Type := (pt C * Fr E)%type.

(** [generate_keypair], schnorr/mod.rs:36-42. *)
Definition schnorr_generate_keypair R (g : pt C) (s : rstate R) : (Fr E * pt C) * rstate R :=
  let: (sk, s') := rand_fr s in ((sk, sk *: g), s').

(** [from_sk], schnorr/mod.rs:45-50. *)
Definition schnorr_from_sk (g : pt C) (sk : Fr E) : Fr E * pt C := (sk, sk *: g).

(** The bytes hashed, schnorr/mod.rs:68-81, 100-113, 153-172. *)
Definition schnorr_preimage (message : seq byte) (g v_g : pt C) : seq byte :=
  flatten [:: message; pt_ser g; pt_ser v_g].

Definition schnorr_challenge (message : seq byte) (g v_g : pt C) : Fr E :=
  hash_to_field E SCHNORR_PERSONA (schnorr_preimage message g v_g).

(** [sign], schnorr/mod.rs:55-89. *)
Definition schnorr_sign R (g : pt C) (s : rstate R) (sk : Fr E) (message : seq byte)
  : schnorr_sig * rstate R :=
  let: (v, s') := rand_fr s in
  let v_g := v *: g in
  let c := schnorr_challenge message g v_g in
  ((v_g, v - sk * c), s').

(** [verify], schnorr/mod.rs:93-126. *)
Definition schnorr_verify (g pk : pt C) (message : seq byte) (sig : schnorr_sig)
  : outcome signature_error unit :=
  let c := schnorr_challenge message g sig.1 in
  if sig.2 *: g + c *: pk != sig.1 then Err SchnorrVerify else Ok tt.

(** One turn of the loop at schnorr/mod.rs:162-184: pushes three (base, scalar) pairs
    and steps [current_alpha].  The two vectors [bases] and [scalars] are kept as one
    vector of pairs. *)
Definition batch_step (g : pt C) (alpha : Fr E) (st : seq (pt C * Fr E) * Fr E)
  (item : pt C * seq byte * schnorr_sig) : seq (pt C * Fr E) * Fr E :=
  let: (terms, current_alpha) := st in
  let: (pk, message, sig) := item in
  let c := schnorr_challenge message g sig.1 in
  (terms ++ [:: (g, sig.2 * current_alpha);
                (pk, c * current_alpha);
                (sig.1, - current_alpha)],
   current_alpha * alpha).

(** [VariableBaseMSM::multi_scalar_mul] (ark-ec). *)
Definition multi_scalar_mul (terms : seq (pt C * Fr E)) : pt C :=
  foldl (fun acc t => acc + t.2 *: t.1) 0 terms.

(** [batch_verify], schnorr/mod.rs:134-195.  The [i]-th loop turn reads entry [i] of the
    three slices, whose lengths are equal by then: the loop runs over their zip. *)
Definition schnorr_batch_verify R (g : pt C) (s : rstate R) (public_keys : seq (pt C))
  (messages : seq (seq byte)) (signatures : seq schnorr_sig)
  : outcome signature_error unit * rstate R :=
  if (size public_keys != size messages) || (size public_keys != size signatures) then
    (Err (BatchVerification (size public_keys) (size messages) (size signatures)), s)
  else
    let: (alpha, s') := rand_fr s in
    let: (terms, _) := foldl (batch_step g alpha) ([::], 1)
                             (zip (zip public_keys messages) signatures) in
    (if multi_scalar_mul terms != 0 then Err SchnorrVerify else Ok tt, s').

End Schnorr.

End Sigma.
