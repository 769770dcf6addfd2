(** * EdInstance: a group of the order of edwards25519, as a case that meets the hypotheses

    The integers modulo [8 l], with [8] as base point: the shape that EdModel.v asks for, with
    the order of the real group.  Discrete logarithms are easy here; no theorem asks that they
    be hard. *)

From Coq Require Import NArith Strings.Byte.
From mathcomp Require Import all_ssreflect all_algebra zify.
From Verif Require Import Prelude Pratt Errors Engine LibModel CodecModel CodecProofs BTreeMap PolyModel
  SigmaModel PvssModel SetupModel EdModel EdProofs.

Set Implicit Arguments.
Unset Strict Implicit.
Unset Printing Implicit Defensive.

Import GRing.Theory.
Local Open Scope ring_scope.

(** The order of the base point of edwards25519, and that it is prime. *)
Definition ed_l : N := (2 ^ 252 + 27742317777372353535851937790883648493)%num.

Lemma check_prime n a fs : all (fun f => small_prime f.1) fs -> lucas_check n a fs -> prime (N.to_nat n).
Proof.
move=> sp; apply: lucas_checkP => f /mapP[g ig ->]; exact/small_primeP/(allP sp).
Qed.
Lemma check_prime2 n a fs gs : (forall g, g \in [seq g.1 | g <- gs] -> prime (N.to_nat g)) ->
  all (fun f => small_prime f.1) fs -> lucas_check n a (fs ++ gs) -> prime (N.to_nat n).
Proof.
move=> pg sp; apply: lucas_checkP => f; rewrite map_cat mem_cat => /orP[|/pg //].
by case/mapP => g ig ->; exact/small_primeP/(allP sp).
Qed.
Lemma one_prime (n : N) (e : N) : prime (N.to_nat n) ->
  forall g, g \in [seq g.1 | g <- [:: (n, e)]] -> prime (N.to_nat g).
Proof. by move=> p g; rewrite inE => /eqP ->. Qed.
Lemma two_primes (n e n' e' : N) : prime (N.to_nat n) -> prime (N.to_nat n') ->
  forall g, g \in [seq g.1 | g <- [:: (n, e); (n', e')]] -> prime (N.to_nat g).
Proof. by move=> p p' g; rewrite !inE => /orP[] /eqP ->. Qed.

Lemma ed_p1 : prime (N.to_nat 58964693).
Proof. by apply: small_primeP; vm_compute. Qed.
Lemma ed_p2 : prime (N.to_nat 3044861653679985063343).
Proof.
by apply: (@check_prime _ 5 [:: (2, 1); (3, 1); (11, 1); (30703, 1); (82163, 1); (132667, 1); (137849, 1)])%num;
  vm_compute.
Qed.
Lemma ed_p3 : prime (N.to_nat 198211423230930754013084525763697).
Proof.
apply: (@check_prime2 _ 5 [:: (2, 4); (3, 1); (23, 1)] [:: (58964693, 1); (3044861653679985063343, 1)])%num.
- exact: two_primes ed_p1 ed_p2.
- by vm_compute.
by vm_compute.
Qed.
Lemma ed_p4 : prime (N.to_nat 292386187).
Proof. by apply: small_primeP; vm_compute. Qed.
Lemma ed_p5 : prime (N.to_nat 213441916511).
Proof.
apply: (@check_prime2 _ 13 [:: (2, 1); (5, 1); (73, 1)] [:: (292386187, 1)])%num.
- exact: one_prime ed_p4.
- by vm_compute.
by vm_compute.
Qed.
Lemma ed_p6 : prime (N.to_nat 1257559732178653).
Proof.
by apply: (@check_prime _ 2 [:: (2, 2); (3, 1); (7, 1); (23, 1); (531581, 1); (1224481, 1)])%num; vm_compute.
Qed.
Lemma ed_p7 : prime (N.to_nat 4434155615661930479).
Proof.
apply: (@check_prime2 _ 17 [:: (2, 1); (41, 1); (43, 1)] [:: (1257559732178653, 1)])%num.
- exact: one_prime ed_p6.
- by vm_compute.
by vm_compute.
Qed.
Lemma ed_p8 : prime (N.to_nat 172054593956031949258510691).
Proof.
apply: (@check_prime2 _ 2 [:: (2, 1); (5, 1); (1361, 1); (2851, 1)] [:: (4434155615661930479, 1)])%num.
- exact: one_prime ed_p7.
- by vm_compute.
by vm_compute.
Qed.
Lemma ed_p9 : prime (N.to_nat 19757330305831588566944191468367130476339).
Proof.
apply: (@check_prime2 _ 2 [:: (2, 1); (269, 1)] [:: (213441916511, 1); (172054593956031949258510691, 1)])%num.
- exact: two_primes ed_p5 ed_p8.
- by vm_compute.
by vm_compute.
Qed.
Lemma ed_p10 : prime (N.to_nat 276602624281642239937218680557139826668747).
Proof.
apply: (@check_prime2 _ 2 [:: (2, 1); (7, 1)] [:: (19757330305831588566944191468367130476339, 1)])%num.
- exact: one_prime ed_p9.
- by vm_compute.
by vm_compute.
Qed.
Lemma ed_l_prime : prime (N.to_nat ed_l).
Proof.
apply: (@check_prime2 _ 2 [:: (2, 2); (3, 1); (11, 1)]
  [:: (198211423230930754013084525763697, 1); (276602624281642239937218680557139826668747, 1)])%num.
- exact: two_primes ed_p3 ed_p10.
- by vm_compute.
by vm_compute.
Qed.

Section Cyclic.
Variables (lN : N) (l_prime : prime (N.to_nat lN)) (l_odd : N.odd lN) (l_small : (lN < 2 ^ 253)%num).
Variable hash : seq byte -> 64.-tuple byte.
Let l := N.to_nat lN.
Let G : zmodType := [zmodType of 'Z_(8 * l)].

Lemma cyc_gt1 : (1 < 8 * l)%N. Proof. by have := prime_gt1 l_prime; rewrite -/l; lia. Qed.
Lemma cyc_trunc : (Zp_trunc (8 * l)).+2 = (8 * l)%N. Proof. exact: Zp_cast cyc_gt1. Qed.
Lemma cyc_val (n : nat) : val (n%:R : G) = (n %% (8 * l))%N.
Proof. exact: (val_Zp_nat cyc_gt1). Qed.
Lemma cyc_lt (P : G) : (val P < 8 * l)%N.
Proof. by have := ltn_ord P; rewrite {2}cyc_trunc. Qed.
Lemma cyc_natr (P : G) : (val P)%:R = P :> G.
Proof. by apply: val_inj; rewrite cyc_val modn_small ?cyc_lt. Qed.
Lemma cyc_odd : odd l.
Proof.
rewrite /l; case/N.odd_spec: l_odd => k ->.
have -> : N.to_nat (2 * k + 1) = ((N.to_nat k).*2.+1)%N by lia.
by rewrite /= odd_double.
Qed.
Lemma cyc_bound : (N.of_nat l < 2 ^ 253)%num. Proof. by rewrite N2Nat.id. Qed.
Lemma cyc_exponent (P : G) : P *+ (8 * l) = 0.
Proof. by rewrite -(cyc_natr P) -mulrnA; apply: val_inj; rewrite cyc_val modnMl. Qed.
Lemma cyc_base_order : (8%:R : G) *+ l = 0.
Proof. by rewrite -mulrnA; apply: val_inj; rewrite cyc_val modnn. Qed.
Lemma cyc_base_neq0 : (8%:R : G) != 0.
Proof.
apply/eqP => /(congr1 val); rewrite cyc_val modn_small //.
by have := prime_gt1 l_prime; rewrite -/l; lia.
Qed.
(** A point of order eight. *)
Definition cyc_T : G := l%:R.
Lemma cyc_torsion (n : nat) : (cyc_T *+ n == 0) = (8 %| n)%N.
Proof.
have -> : (cyc_T *+ n == 0) = (val (cyc_T *+ n) == 0%N) by [].
rewrite /cyc_T -mulrnA cyc_val -[_ == _]/(8 * l %| l * n)%N [(l * n)%N]mulnC dvdn_pmul2r //.
exact: prime_gt0.
Qed.
Lemma cyc_size (P : G) : size (le_bytes 32 (N.of_nat (val P))) == 32%N.
Proof. by elim: (32%N) (N.of_nat _) => //= k IH v; exact: IH. Qed.
Definition cyc_enc (P : G) : 32.-tuple byte := Tuple (cyc_size P).
Definition cyc_dec (b : 32.-tuple byte) : option G :=
  let v := of_le_bytes b in if (v <? 8 * lN)%num then Some (N.to_nat v)%:R else None.
Lemma cyc_enc_val P : of_le_bytes (cyc_enc P) = N.of_nat (val P).
Proof.
rewrite le_bytesK //; have := l_small; have := cyc_lt P; rewrite /l.
have : (8 * 2 ^ 253 <= 256 ^ N.of_nat 32)%num by vm_compute.
by move: (2 ^ 253)%num (256 ^ _)%num => a b; lia.
Qed.
Lemma cyc_encK P : cyc_dec (cyc_enc P) = Some P.
Proof.
rewrite /cyc_dec cyc_enc_val.
have /N.ltb_lt -> : (N.of_nat (val P) < 8 * lN)%num by have := cyc_lt P; rewrite /l; lia.
by rewrite Nat2N.id cyc_natr.
Qed.

Definition cyc_curve : ed_curve :=
  @EdCurve G l l_prime cyc_odd cyc_bound cyc_exponent 8%:R cyc_base_order cyc_base_neq0
    cyc_enc cyc_dec cyc_encK hash.
End Cyclic.

Lemma ed_l_odd : N.odd ed_l. Proof. by vm_compute. Qed.
Lemma ed_l_small : (ed_l < 2 ^ 253)%num. Proof. by vm_compute. Qed.

(** A hash that looks at one byte only. *)
Section Toy.
Variable pos : nat.
Lemma toy_size (m : seq byte) : size (le_bytes 64 (1 + Byte.to_N (nth x00 m pos))) == 64%N.
Proof. by elim: (64%N) (1 + _)%num => //= k IH v; exact: IH. Qed.
Definition toy_hash (m : seq byte) : 64.-tuple byte := Tuple (toy_size m).
Lemma toy_hashE m : of_le_bytes (toy_hash m) = (1 + Byte.to_N (nth x00 m pos))%num.
Proof.
rewrite le_bytesK //; have : (Byte.to_N (nth x00 m pos) <= 255)%num by case: (nth _ _ _); vm_compute.
have : (256 < 256 ^ N.of_nat 64)%num by vm_compute.
by move: (256 ^ _)%num => a; lia.
Qed.

Definition ed_toy_at : ed_curve := cyc_curve ed_l_prime ed_l_odd ed_l_small toy_hash.
Lemma ed_toy_at_order : N.of_nat (ep_order ed_toy_at) = ed_l. Proof. exact: N2Nat.id. Qed.
Lemma toy_sc m : sc_hash ed_toy_at m = (N.to_nat (1 + Byte.to_N (nth x00 m pos)))%:R.
Proof.
rewrite /sc_hash /sc_of_N ed_toy_at_order [of_le_bytes _]toy_hashE N.mod_small //.
have : (Byte.to_N (nth x00 m pos) <= 255)%num by case: (nth _ _ _); vm_compute.
have : (256 < ed_l)%num by vm_compute.
by move: ed_l => a; lia.
Qed.
Lemma toy_sc_val m : val (sc_hash ed_toy_at m) = N.to_nat (1 + Byte.to_N (nth x00 m pos)).
Proof.
rewrite toy_sc sc_val modn_small //.
have : (Byte.to_N (nth x00 m pos) <= 255)%num by case: (nth _ _ _); vm_compute.
have : (256 < ed_l)%num by vm_compute.
by have := ed_toy_at_order; move: ed_l (ep_order _) => a b; lia.
Qed.
Lemma toy_sc_neq0 m : sc_hash ed_toy_at m != 0.
Proof. by apply/eqP => /(congr1 val); rewrite toy_sc_val [RHS]/=; lia. Qed.
Lemma toy_mod_neq0 m : (of_le_bytes (sha512 ed_toy_at m) mod N.of_nat (ep_order ed_toy_at) <> 0)%num.
Proof. by have := toy_sc_neq0 m; rewrite /sc_hash sc_of_N_eq0 => /N.eqb_spec. Qed.
End Toy.

(** The byte is the first one of the public key in a challenge. *)
Notation ed_toy := (ed_toy_at 32).
