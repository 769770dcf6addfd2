(** * PropsKeys: C93, a Schnorr signature does not name its signer *)

From Coq Require Import NArith Strings.Byte.
From mathcomp Require Import all_ssreflect all_algebra zify.
From Verif Require Import Prelude Errors Engine LibModel PolyModel SigmaModel Spec PreludeProofs
  AlgebraProofs PolyProofs Instance PropsPoly PropsSigma.

Set Implicit Arguments.
Unset Strict Implicit.
Unset Printing Implicit Defensive.

Import GRing.Theory.
Local Open Scope ring_scope.

Local Notation crv E := (curve (modulus E)) (only parsing).

(** The key and the signature, both moved by a known scalar [d]. *)
Definition shift_key (E : engine) (C : crv E) (d : Fr E) (g pk : pt C) : pt C := pk + d *: g.
Definition shift_sig (E : engine) (C : crv E) (d : Fr E) (g : pt C) (m : seq byte)
  (sg : schnorr_sig C) : schnorr_sig C :=
  (sg.1, sg.2 - schnorr_challenge m g sg.1 * d).

(** The full statement: nothing that can be computed from a key and a valid signature is
    always a valid signature of the same message under another key. *)
Definition C93_full : Prop :=
  forall (E : engine) (C : crv E)
    (f : pt C -> pt C -> seq byte -> schnorr_sig C -> pt C * schnorr_sig C),
  exists g pk m sg, [/\ g != 0, schnorr_verify g pk m sg = Ok tt
    & let: (pk', sg') := f g pk m sg in
      pk' = pk \/ schnorr_verify g pk' m sg' <> Ok tt].

Section Keys.
Variables (E : engine) (C : crv E).
Implicit Types (g pk a : pt C) (m : seq byte) (sg : schnorr_sig C).

(** The challenge does not depend on the key: every signature becomes one under every key
    at a known distance. *)
Theorem C93_shifted_key_refuted (d : Fr E) g pk m sg :
  schnorr_verify g pk m sg = Ok tt <->
  schnorr_verify g (shift_key d g pk) m (shift_sig d g m sg) = Ok tt.
Proof.
case: sg => a z; rewrite /shift_key /shift_sig /= !schnorr_okE -!/(schnorr_preimage _ _ _).
rewrite -/(schnorr_challenge m g a) scalerBl scalerDr scalerA.
by rewrite addrACA addNr addr0.
Qed.

(** The same bytes sign any other message under a key at a known ratio. *)
Theorem C93_other_message_refuted g pk m m' sg :
  let c := schnorr_challenge m g sg.1 in
  let c' := schnorr_challenge m' g sg.1 in
  c' != 0 -> schnorr_verify g pk m sg = Ok tt -> schnorr_verify g ((c / c') *: pk) m' sg = Ok tt.
Proof.
case: sg => a z c c' c0 /schnorr_okE e; apply/schnorr_okE.
by rewrite scalerA mulrCA divff // mulr1.
Qed.

(** What holds: a signature with the same nonce point belongs to a key at a known distance,
    so who makes one with it knows the difference of the keys; the same bytes on another
    message belong to a key at a known ratio. *)
Theorem C93_same_nonce_partial g pk pk' m a z z' :
  let c := schnorr_challenge m g a in
  c != 0 -> schnorr_verify g pk m (a, z) = Ok tt ->
  schnorr_verify g pk' m (a, z') = Ok tt <-> pk' = shift_key ((z - z') / c) g pk.
Proof.
move=> c c0 /schnorr_okE; rewrite -/(schnorr_preimage m g a) -/(schnorr_challenge m g a) -/c => e.
have -> : (schnorr_verify g pk' m (a, z') = Ok tt) <-> z' *: g + c *: pk' = a by exact: schnorr_okE.
rewrite /shift_key -{1}e; split=> [e'|->].
  apply: (scalerI c0); rewrite scalerDr scalerA mulrCA divff // mulr1 scalerBl.
  by apply: (addrI (z' *: g)); rewrite e' [RHS]addrC -addrA subrK addrC.
rewrite scalerDr scalerA mulrCA divff // mulr1 scalerBl addrCA.
by rewrite [z' *: g + _]addrC subrK addrC.
Qed.

Theorem C93_same_bytes_partial g pk pk' m m' sg :
  let c := schnorr_challenge m g sg.1 in
  let c' := schnorr_challenge m' g sg.1 in
  schnorr_verify g pk m sg = Ok tt ->
  schnorr_verify g pk' m' sg = Ok tt <-> c' *: pk' = c *: pk.
Proof.
case: sg => a z c c' /schnorr_okE; rewrite -/(schnorr_preimage m g a) -/(schnorr_challenge m g a).
rewrite -/c => e.
have -> : (schnorr_verify g pk' m' (a, z) = Ok tt) <-> z *: g + c' *: pk' = a by exact: schnorr_okE.
rewrite -{1}e; split=> [/addrI//|->//].
Qed.

(** In particular batches take them too. *)
Theorem C93_batch_refuted (R : rng E) (s : rstate R) (d : Fr E) g pks ms sgs :
  size pks = size ms -> size pks = size sgs ->
  (schnorr_batch_verify g s pks ms sgs).1
  = (schnorr_batch_verify g s [seq shift_key d g pk | pk <- pks] ms
       [seq shift_sig d g msg.1 msg.2 | msg <- zip ms sgs]).1.
Proof.
move=> e1 e2; rewrite !batch_verifyE ?size_map ?size_zip -?e1 -?e2 ?minnn //.
have -> : [seq defect g i | i <- zip (zip pks ms) sgs]
    = [seq defect g i | i <- zip (zip [seq shift_key d g pk | pk <- pks] ms)
                               [seq shift_sig d g msg.1 msg.2 | msg <- zip ms sgs]]; last by [].
elim: pks ms sgs e1 e2 => [|pk pks IH] [|m ms] [|[a z] sgs] //= [e1] [e2]; rewrite -IH //.
congr (_ :: _); rewrite /defect /=; congr (_ - _).
rewrite /shift_key scalerBl scalerDr scalerA.
by rewrite addrACA addNr addr0.
Qed.

End Keys.

Theorem C93_full_refuted : ~ C93_full.
Proof.
move=> full; have [g [pk [m [sg [g0 ok]]]]] :=
  full TE toy_curve (fun g pk m sg => (shift_key 1 g pk, shift_sig 1 g m sg)).
case=> [|bad]; last exact: bad (iffLR (C93_shifted_key_refuted 1 g pk m sg) ok).
rewrite /shift_key scale1r -[RHS]addr0 => /addrI e.
by rewrite e eqxx in g0.
Qed.
Print Assumptions C93_full_refuted.
Print Assumptions C93_shifted_key_refuted.
Print Assumptions C93_other_message_refuted.
Print Assumptions C93_same_nonce_partial.
Print Assumptions C93_same_bytes_partial.
Print Assumptions C93_batch_refuted.

(** A signature, the shifted one, and the same bytes on another message; the challenges are
    not zero. *)
Example C93_example :
  let m := [:: x41; x42]%byte in let m' := [:: x43]%byte in
  let sg := (@schnorr_sign TE toy_curve (seq_rng TE) (f 4) [:: f 7] (f 5) m).1 in
  let pk := f 9 : pt toy_curve in
  let c := @schnorr_challenge TE toy_curve m (f 4) sg.1 in
  let c' := @schnorr_challenge TE toy_curve m' (f 4) sg.1 in
  let v pk m sg := is_ok (@schnorr_verify TE toy_curve (f 4) pk m sg) in
  [/\ c != 0 /\ c' != 0, v pk m sg, ~~ v (@shift_key TE toy_curve (f 2) (f 4) pk) m sg,
      v (@shift_key TE toy_curve (f 2) (f 4) pk) m (@shift_sig TE toy_curve (f 2) (f 4) m sg)
    & v ((c / c') *: pk) m' sg].
Proof. by vm_compute. Qed.
