(** * EdProofs: the arithmetic behind the equations of EdModel.v *)

From Coq Require Import NArith Strings.Byte.
From mathcomp Require Import all_ssreflect all_algebra zify.
From Verif Require Import Prelude Errors Engine LibModel CodecModel CodecProofs SetupModel EdModel.

Set Implicit Arguments.
Unset Strict Implicit.
Unset Printing Implicit Defensive.

Import GRing.Theory.
Local Open Scope ring_scope.

Section Scheme.
Variable X : ed_curve.
Notation l := (ep_order X).
Notation B := (ep_base X).
Notation scalar := (scalar X).
Implicit Types (x y : scalar) (P Q : ep X).

Let lp : prime l := ep_prime X.

Lemma sc_lt x : (val x < l)%N.
Proof. by rewrite -[X in (_ < X)%N](Fp_cast lp); exact: ltn_ord. Qed.
Lemma sc_natr x : (val x)%:R = x.
Proof. exact: natr_Zp. Qed.
Lemma sc_val m : val (m%:R : scalar) = (m %% l)%N.
Proof. exact: val_Fp_nat. Qed.
Lemma sc_natr_eq0 m : ((m%:R : scalar) == 0) = (l %| m)%N.
Proof. by rewrite -(inj_eq val_inj) /= sc_val. Qed.

(** Points of the subgroup of order [l]. *)
Lemma mulrn_modl P m : P *+ l = 0 -> P *+ (m %% l) = P *+ m.
Proof.
by move=> z; rewrite [in RHS](divn_eq m l) mulrnDr mulnC mulrnA z mul0rn add0r.
Qed.
Lemma pmul_nat P m : P *+ l = 0 -> pmul (m%:R : scalar) P = P *+ m.
Proof. by move=> z; rewrite /pmul sc_val mulrn_modl. Qed.
Lemma pmulD P x y : P *+ l = 0 -> pmul (x + y) P = pmul x P + pmul y P.
Proof. by move=> z; rewrite -{1}[x]sc_natr -{1}[y]sc_natr -natrD pmul_nat // mulrnDr. Qed.
Lemma pmulM P x y : P *+ l = 0 -> pmul (x * y) P = pmul x (pmul y P).
Proof. by move=> z; rewrite -{1}[x]sc_natr -{1}[y]sc_natr -natrM pmul_nat // mulnC mulrnA. Qed.
Lemma pmul0 P : pmul (0 : scalar) P = 0. Proof. by rewrite /pmul mulr0n. Qed.
Lemma pmul1 P : P *+ l = 0 -> pmul (1 : scalar) P = P.
Proof. by move=> z; rewrite -[1]/(1%:R) pmul_nat. Qed.
Lemma pmulN P x : P *+ l = 0 -> pmul (- x) P = - pmul x P.
Proof. by move=> z; apply/eqP; rewrite -subr_eq0 opprK -pmulD // addNr pmul0. Qed.
Lemma pmulB P x y : P *+ l = 0 -> pmul (x - y) P = pmul x P - pmul y P.
Proof. by move=> z; rewrite pmulD // pmulN. Qed.
Lemma pmul_sum P (I : Type) (r : seq I) (F : I -> scalar) :
  P *+ l = 0 -> pmul (\sum_(i <- r) F i) P = \sum_(i <- r) pmul (F i) P.
Proof.
move=> z; elim: r => [|i r IH]; first by rewrite !big_nil pmul0.
by rewrite !big_cons pmulD // IH.
Qed.
Lemma pmulDr x P Q : pmul x (P + Q) = pmul x P + pmul x Q.
Proof. by rewrite /pmul mulrnDl. Qed.
Lemma pmulNr x P : pmul x (- P) = - pmul x P.
Proof. by rewrite /pmul mulNrn. Qed.
Lemma pmulBr x P Q : pmul x (P - Q) = pmul x P - pmul x Q.
Proof. by rewrite pmulDr pmulNr. Qed.
Lemma pmulr0 x : pmul x (0 : ep X) = 0. Proof. by rewrite /pmul mul0rn. Qed.
Lemma pmul_mulrn x P m : pmul x (P *+ m) = pmul x P *+ m.
Proof. by rewrite /pmul -!mulrnA mulnC. Qed.

Lemma pmul_eq0 P x : P *+ l = 0 -> P != 0 -> (pmul x P == 0) = (x == 0).
Proof.
move=> z P0; apply/eqP/eqP => [e|->]; last exact: pmul0.
apply/eqP; apply: contraT => x0.
have := pmul1 z; rewrite -(mulVf x0) pmulM // e pmulr0 => e0.
by rewrite e0 eqxx in P0.
Qed.

Lemma base_l : B *+ l = 0. Proof. exact: ep_base_order. Qed.
Lemma base_eq0 x : (pmul x B == 0) = (x == 0).
Proof. by rewrite pmul_eq0 ?base_l ?ep_base_neq0. Qed.
Lemma base_inj x y : pmul x B = pmul y B -> x = y.
Proof.
move=> e; apply/eqP; rewrite -subr_eq0 -base_eq0 pmulB ?base_l //.
by rewrite e subrr.
Qed.
Lemma pmul_base_l x : pmul x B *+ l = 0.
Proof. by rewrite /pmul -mulrnA mulnC mulrnA base_l mul0rn. Qed.
Lemma eight_l P : (P *+ 8) *+ l = 0. Proof. by rewrite -mulrnA ep_exponent. Qed.

Lemma eight_neq0 : (8%:R : scalar) != 0.
Proof.
rewrite sc_natr_eq0; apply/negP => d8.
have : (l %| 2 ^ 3)%N by [].
rewrite Euclid_dvdX // => /andP[d2 _].
move: (ep_odd X); have /eqP -> : (l == 2)%N by rewrite -dvdn_prime2.
by [].
Qed.

Lemma small_base x : small_order (pmul x B) = (x == 0).
Proof.
rewrite /small_order -(pmul_nat 8) ?pmul_base_l // -pmulM ?base_l // base_eq0.
by rewrite mulf_eq0 (negbTE eight_neq0).
Qed.

(** Scalars and their bytes. *)
Lemma l_bound : (N.of_nat l < 2 ^ 253)%num. Proof. exact: ep_bound. Qed.
Lemma sc_bytes_val x : of_le_bytes (sc_bytes x) = N.of_nat (val x).
Proof.
rewrite le_bytesK //; have := l_bound; have := sc_lt x.
have : (2 ^ 253 < 256 ^ N.of_nat 32)%num by vm_compute.
by lia.
Qed.
Lemma sc_bytesK x : sc_check X (sc_bytes x) = Some x.
Proof.
rewrite /sc_check sc_bytes_val.
have /N.ltb_lt -> : (N.of_nat (val x) < N.of_nat l)%num by have := sc_lt x; lia.
by rewrite Nat2N.id sc_natr.
Qed.
Lemma sc_check_inj s t x : sc_check X s = Some x -> sc_check X t = Some x -> s = t.
Proof.
rewrite /sc_check; case: ifP => // /N.ltb_lt ls h1; case: ifP => // /N.ltb_lt lt h2.
have := congr1 (oapp val 0%N) (etrans h1 (esym h2)); rewrite [LHS]sc_val [RHS]sc_val !modn_small; try lia.
move=> /N2Nat.inj e; apply: val_inj; rewrite -[val s]of_le_bytesK -[val t]of_le_bytesK !size_tuple.
by rewrite -[of_le_bytes (val s)]/(of_le_bytes s) e.
Qed.
Lemma sc_of_N_eq0 v : (sc_of_N X v == 0) = (v mod N.of_nat l =? 0)%num.
Proof.
have l0 : N.of_nat l <> 0%num by have := prime_gt0 lp; lia.
rewrite sc_natr_eq0; have h := N.mod_lt v (N.of_nat l) l0.
apply/idP/idP => [d|/N.eqb_eq ->]; last exact: dvdn0.
apply/N.eqb_eq; case: (posnP (N.to_nat (v mod N.of_nat l))) => [|p]; first by lia.
by have := dvdn_leq p d; lia.
Qed.

(** The secret scalar is never zero, given the size of the real group. *)
Lemma clamp_neq0 v : (2 ^ 255 <= 8 * N.of_nat l)%num -> sc_of_N X (clamp v) != 0.
Proof.
move=> big; rewrite sc_of_N_eq0; apply/negP => /N.eqb_eq.
have l0 : N.of_nat l <> 0%num by have := prime_gt0 lp; lia.
move=> /(N.mod_divide _ _ l0) [k ek].
pose w := (v mod 2 ^ 254)%num.
have w8 : (w mod 8 = v mod 8)%num.
  rewrite /w; have -> : (2 ^ 254 = 8 * 2 ^ 251)%num by vm_compute.
  by rewrite N.mod_mul_r // [(8 * _)%num]N.mul_comm N.mod_add // N.mod_mod.
have wl : (w < 2 ^ 254)%num by apply: N.mod_lt.
have cl : clamp v = (2 ^ 254 + (w - w mod 8))%num by rewrite w8.
move: (N.div_mod w 8 ltac:(done)) => dm; clearbody w.
have p255 : (2 ^ 255 = 2 ^ 254 + 2 ^ 254)%num by vm_compute.
have p254 : (2 ^ 254 = 8 * 2 ^ 251)%num by vm_compute.
have p0 : (0 < 2 ^ 251)%num by vm_compute.
move: (2 ^ 255)%num (2 ^ 254)%num (2 ^ 251)%num p255 p254 p0 big wl cl => a255 a254 a251 p255 p254 p0 big wl cl.
have [m em] : exists m, (clamp v = 8 * m)%num 
  by move: (w / 8)%num (w mod 8)%num dm cl => d r dm ->; exists (a251 + d)%num; rewrite dm p254; lia.
have lo : (a254 <= clamp v)%num by rewrite cl; apply: N.le_add_r.
have hi : (clamp v < a255)%num.
  rewrite cl p255; apply: (proj1 (N.add_lt_mono_l _ _ _)).
  exact: N.le_lt_trans (N.le_sub_l _ _) wl.
have : (8 %| N.to_nat k * l)%N.
  by apply/dvdnP; exists (N.to_nat m); lia.
rewrite Gauss_dvdl; last by rewrite -[8%N]/(2 ^ 3)%N coprimeXl // coprime2n ep_odd.
case/dvdnP => j ej; have e : (clamp v = N.of_nat j * (8 * N.of_nat l))%num by lia.
case: j {ej} e => [|j] e; first by lia.
have : (8 * N.of_nat l <= clamp v)%num by rewrite e; nia.
by lia.
Qed.

Lemma sig_split_cat (a b : 32.-tuple byte) : sig_split [tuple of a ++ b] = Sig a b.
Proof.
rewrite /sig_split; congr Sig; apply: val_inj => /=.
  by rewrite take_size_cat ?size_tuple.
by rewrite drop_size_cat ?size_tuple.
Qed.

Lemma sig_from_bytesE (R s : 32.-tuple byte) x : sc_check X s = Some x ->
  sig_from_bytes [tuple of R ++ s] = Some (Sig R s).
Proof.
rewrite /sig_from_bytes sig_split_cat /sc_check /=; case: ifP => // /N.ltb_lt h _.
by have := l_bound; case: N.ltb_spec => //; lia.
Qed.

End Scheme.
