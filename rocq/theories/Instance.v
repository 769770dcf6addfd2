(** * Instance: a concrete engine, so that the laws of [Engine.v] are satisfiable

    The groups are the integers modulo 11 under addition, the target group sits in the
    field of 23 elements and the pairing is [2^(ab)].  The hash functions and the
    signature scheme are toys.  This file models no line of /repo: it serves to show that
    the hypotheses of the theorems are met by concrete values, and to run the model. *)

From Coq Require Import NArith Strings.Byte.
From mathcomp Require Import all_ssreflect all_algebra zify.
From Verif Require Import Prelude Errors BTreeMap Engine LibModel PolyModel SigmaModel PvssModel.

Set Implicit Arguments.
Unset Strict Implicit.
Unset Printing Implicit Defensive.

Import GRing.Theory.
Local Open Scope ring_scope.

Definition byte_of_nat (n : nat) : byte :=
  if Byte.of_N (N.of_nat n) is Some b then b else x00%byte.
Definition nat_of_byte (b : byte) : nat := N.to_nat (Byte.to_N b).

Lemma byte_of_natK n : (n < 256)%N -> nat_of_byte (byte_of_nat n) = n.
Proof.
move=> h; have : all (fun n => nat_of_byte (byte_of_nat n) == n) (iota 0 256) by vm_compute.
by move/allP => /(_ n); rewrite mem_iota h => /(_ isT)/eqP.
Qed.

Definition fp_ser (x : 'F_11) : seq byte := [:: byte_of_nat (val x)].
Definition fp_deser (s : seq byte) : option ('F_11 * seq byte) :=
  if s is b :: rest then
    if (nat_of_byte b < 11)%N then Some ((nat_of_byte b)%:R, rest) else None
  else None.

Lemma fp_ser_size x : size (fp_ser x) = 1%N. Proof. by []. Qed.

Lemma fp_deserK x rest : fp_deser (fp_ser x ++ rest) = Some (x, rest).
Proof.
have lx : (val x < 11)%N by exact: (ltn_ord x).
rewrite /fp_deser /= byte_of_natK; last by apply: leq_trans lx _.
by rewrite lx natr_Zp.
Qed.

Lemma toy_gen_neq0 : (1 : [lmodType 'F_11 of ('F_11)^o]) != 0. Proof. by []. Qed.

Lemma toy_cyclic (g P : [lmodType 'F_11 of ('F_11)^o]) :
  g != 0 -> exists a : 'F_11, P = a *: g.
Proof.
move=> g0; exists ((P : 'F_11) / (g : 'F_11)).
by rewrite /GRing.scale /= mulfVK.
Qed.

Definition toy_curve : curve 11 :=
  @Curve 11 ([lmodType 'F_11 of ('F_11)^o]) (1 : 'F_11) toy_gen_neq0 toy_cyclic
    fp_ser 1 fp_deser fp_ser_size fp_deserK.

Definition pw (a : 'F_11) : 'F_23 := 2%:R ^+ val a.

Lemma pwD a b : pw (a + b) = pw a * pw b.
Proof.
rewrite /pw -exprD /=; apply: expr_mod.
by apply/eqP.
Qed.

Definition toy_pairing (P Q : 'F_11) : 'F_23 := pw (P * Q).

Lemma toy_addl P P' Q : toy_pairing (P + P') Q = toy_pairing P Q * toy_pairing P' Q.
Proof. by rewrite /toy_pairing mulrDl pwD. Qed.

Lemma toy_addr P Q Q' : toy_pairing P (Q + Q') = toy_pairing P Q * toy_pairing P Q'.
Proof. by rewrite /toy_pairing mulrDr pwD. Qed.

Lemma toy_neq0 P Q : toy_pairing P Q != 0.
Proof. by rewrite /toy_pairing /pw expf_neq0. Qed.

Lemma pw1 a : pw a = 1 -> a = 0.
Proof.
move=> e; apply/val_inj => /=.
have : all (fun k => (2%:R ^+ k != 1 :> 'F_23) || (k == 0%N)) (iota 0 11) by vm_compute.
move/allP => /(_ (val a)); rewrite mem_iota (ltn_ord a : (val a < 11)%N) => /(_ isT).
by rewrite -/(pw a) e eqxx => /eqP.
Qed.

Lemma toy_nondeg P Q : toy_pairing P Q = 1 -> P = 0 \/ Q = 0.
Proof. by move/pw1/eqP; rewrite mulf_eq0 => /orP[/eqP->|/eqP->]; [left|right]. Qed.

(** A toy hash: a weighted sum of the bytes, never zero. *)
Definition toy_hash (persona m : seq byte) : 'F_11 :=
  (foldl (fun a b => (a * 3 + nat_of_byte b)%N %% 10)%N 0%N (persona ++ m)).+1%:R.

(** Pads with zero bytes or cuts to [k] bytes. *)
Definition pad (k : nat) (s : seq byte) : seq byte := take k (s ++ nseq k x00).
Lemma pad_size k s : size (pad k s) == k.
Proof. by rewrite size_takel // size_cat size_nseq leq_addl. Qed.
Definition padt k s : k.-tuple byte := Tuple (pad_size k s).

Definition toy_shake (m : seq byte) : 32.-tuple byte := padt 32 m.

Definition TE : engine :=
  @Engine 11 isT toy_curve toy_curve [fieldType of 'F_23] toy_pairing
    toy_addl toy_addr toy_neq0 toy_nondeg toy_hash toy_shake
    fp_ser 1 fp_deser fp_ser_size fp_deserK.

(** A toy signature scheme: the secret key is the public key repeated; a signature is
    the public key followed by the first 32 bytes of the message. A key starting with
    0xff does not parse. *)
Definition toy_sign (pk : 32.-tuple byte) (m : seq byte) : 64.-tuple byte :=
  padt 64 (pk ++ pad 32 m).

Definition TD : eddsa :=
  @EdDSA (32.-tuple byte) (64.-tuple byte) (32.-tuple byte)
    (fun sk => if take 32 sk == drop 32 sk then Some (padt 32 sk) else None)
    toy_sign
    Some
    (fun pk => if thead pk == xff%byte then None else Some pk)
    (fun pk m sig => sig == toy_sign pk m)
    (fun ms sigs pks => all2 (fun '(m, sig) pk => sig == toy_sign pk m) (zip ms sigs) pks).

Definition f (n : nat) : 'F_11 := n%:R.

(** ** A configuration: 4 participants, degree 1 *)

Definition tsrs : SRS TE := @MkSRS TE (f 3) (f 2) (f 5).
Definition tconfig : Config TE := MkConfig tsrs 1 4.

Definition tpk (i : nat) : PublicKey := padt 32 [:: byte_of_nat i.+1].
Definition tsk (i : nat) : SecretKey := padt 64 (tpk i ++ tpk i).
Definition tpart (i : nat) : Participant TE := @MkParticipant TE i (f (i + 2) * f 3) (tpk i).
Definition tdealer (i : nat) : Dealer TE := @MkDealer TE (f (i + 2)) (tsk i) (tpart i).
Definition tparts : btmap (Participant TE) := bt_collect [seq (i, tpart i) | i <- iota 0 4].
Definition tag : PVSSAggregator TE := MkAggregator tconfig tparts (agg_empty TE 1 4).
Definition tnode (i : nat) : Node TE := MkNode tag (tdealer i).
