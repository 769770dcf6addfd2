(** * AlgebraProofs: prime fields, interpolation, pairings *)

From Coq Require Import NArith.
From mathcomp Require Import all_ssreflect all_algebra zify.
From Verif Require Import Prelude Engine PreludeProofs.

Set Implicit Arguments.
Unset Strict Implicit.
Unset Printing Implicit Defensive.

Import GRing.Theory.
Local Open Scope ring_scope.

(** ** Folds as big operators *)

Lemma foldl_add {V : zmodType} {I : Type} (f : I -> V) z s :
  foldl (fun a i => a + f i) z s = z + \sum_(i <- s) f i.
Proof.
elim: s z => [|x s IH] z /=; first by rewrite big_nil addr0.
by rewrite IH big_cons addrA.
Qed.

Lemma foldl_mul {R : ringType} {I : Type} (f : I -> R) z s :
  foldl (fun a i => a * f i) z s = z * \prod_(i <- s) f i.
Proof.
elim: s z => [|x s IH] z /=; first by rewrite big_nil mulr1.
by rewrite IH big_cons mulrA.
Qed.

Lemma foldl_mul_if {R : ringType} {I : Type} (c : pred I) (f : I -> R) z s :
  foldl (fun a i => if c i then a * f i else a) z s = z * \prod_(i <- s | c i) f i.
Proof.
elim: s z => [|x s IH] z /=; first by rewrite big_nil mulr1.
by rewrite IH big_cons; case: (c x) => //; rewrite mulrA.
Qed.

Lemma big_iota0 {T} (idx : T) (op : T -> T -> T) n (P : pred nat) (f : nat -> T) :
  \big[op/idx]_(i <- iota 0 n | P i) f i = \big[op/idx]_(i < n | P i) f i.
Proof. by rewrite -(big_mkord P f) /index_iota subn0. Qed.

Lemma big_iota1 {T} (idx : T) (op : T -> T -> T) n (P : pred nat) (f : nat -> T) :
  \big[op/idx]_(i <- iota 1 n | P i) f i = \big[op/idx]_(i < n | P i.+1) f i.+1.
Proof.
by rewrite -[1%N]addn0 iotaDl big_map (big_iota0 idx op n (fun i => P i.+1) (fun i => f i.+1)).
Qed.

(** ** Prime fields *)

Section PrimeField.
Variables (q : nat) (pq : prime q).
Let F := [fieldType of 'F_q].

Lemma Fp_nat_inj (i j : nat) :
  (i < q)%N -> (j < q)%N -> (i%:R == j%:R :> 'F_q) = (i == j).
Proof.
move=> iq jq; apply/eqP/eqP => [e|-> //].
by have /= := congr1 val e; rewrite !(val_Fp_nat pq) !modn_small.
Qed.

Lemma Fp_nat_neq0 (i : nat) : (0 < i < q)%N -> i%:R != 0 :> 'F_q.
Proof.
case/andP=> i0 iq; rewrite -[0]/(0%:R) Fp_nat_inj ?prime_gt0 //.
by rewrite -lt0n.
Qed.

Lemma Fp_nat_surj (x : 'F_q) : (val x)%:R = x :> 'F_q.
Proof. exact: natr_Zp. Qed.

Lemma Fp_nat_val (i : nat) : val (i%:R : 'F_q) = (i %% q)%N.
Proof. exact: val_Fp_nat. Qed.

Lemma Fp_val_lt (x : 'F_q) : (val x < q)%N.
Proof. by have := ltn_ord x; rewrite [X in (_ < X)%N](Fp_cast pq). Qed.

Lemma card_Fq : #|'F_q| = q.
Proof. by rewrite card_Fp. Qed.

(** [a *: P] is repeated addition. *)
Lemma scaler_nat_val (V : lmodType 'F_q) (a : 'F_q) (P : V) : a *: P = P *+ (val a).
Proof. by rewrite -{1}(Fp_nat_surj a) scaler_nat. Qed.

Lemma mulrn_q (V : lmodType 'F_q) (P : V) : P *+ q = 0.
Proof. by rewrite -scaler_nat (char_Fp_0 pq) scale0r. Qed.

End PrimeField.

Lemma fr_of_u64E (q : nat) (x : N) : fr_of_u64 q x = (N.to_nat x)%:R.
Proof.
case: x => // p /=; rewrite /fr_of_u64.
have iter_opE (k : nat) : forall z : 'F_q, z = k%:R ->
    Pos.iter_op +%R p z = (Pos.to_nat p * k)%N%:R :> 'F_q.
  elim: p k => [p IH|p IH|] k z -> /=.
  - rewrite (IH (k + k)%N); last by rewrite natrD.
    by rewrite -natrD; congr (_%:R); lia.
  - rewrite (IH (k + k)%N); last by rewrite natrD.
    by congr (_%:R); lia.
  - by rewrite mul1n.
by rewrite (iter_opE 1%N) // muln1.
Qed.

Lemma fr_of_u64D (q : nat) x y : fr_of_u64 q (x + y) = fr_of_u64 q x + fr_of_u64 q y.
Proof. by rewrite !fr_of_u64E -natrD; congr (_%:R); lia. Qed.

(** ** Lagrange interpolation *)

Section Interp.
Variable F : fieldType.
Variables (x : nat -> F) (n : nat).
Hypothesis xinj : forall i j, (i < n)%N -> (j < n)%N -> x i = x j -> i = j.

Definition node_poly (i : nat) : {poly F} := \prod_(k < n | k != i :> nat) ('X - (x k)%:P).
Definition node_den (i : nat) : F := \prod_(k < n | k != i :> nat) (x i - x k).

Lemma node_den_neq0 i : (i < n)%N -> node_den i != 0.
Proof.
move=> lti; apply/prodf_neq0 => k ki.
by rewrite subr_eq0; apply: contraNneq ki => e; rewrite (xinj lti (ltn_ord k) e).
Qed.

Lemma node_poly_eval i j : (i < n)%N -> (j < n)%N ->
  (node_poly i).[x j] = if i == j then node_den i else 0.
Proof.
move=> lti ltj; rewrite /node_poly horner_prod; case: eqVneq => [->|ne].
  by apply: eq_bigr => k _; rewrite !hornerE.
rewrite (bigD1 (Ordinal ltj)) /=; last by rewrite eq_sym.
by rewrite !hornerE subrr mul0r.
Qed.

Lemma size_node_poly i : (i < n)%N -> size (node_poly i) = n.
Proof.
move=> lti; rewrite /node_poly (eq_bigl (predC1 (Ordinal lti))); last first.
  by move=> k /=; rewrite -(inj_eq val_inj).
rewrite -big_filter size_prod_XsubC size_filter -sum1_count sum1_card cardC1 card_ord.
by case: n lti.
Qed.

Lemma monic_node_poly i : node_poly i \is monic.
Proof. by apply: monic_prod => k _; exact: monicXsubC. Qed.

Definition interp (y : nat -> F) : {poly F} :=
  \sum_(i < n) (y i / node_den i) *: node_poly i.

Lemma interp_eval y j : (j < n)%N -> (interp y).[x j] = y j.
Proof.
move=> ltj; rewrite /interp horner_sum (bigD1 (Ordinal ltj)) //= big1 ?addr0.
  by rewrite hornerZ node_poly_eval // eqxx divfK // node_den_neq0.
move=> i ij; rewrite hornerZ node_poly_eval //.
by rewrite -(inj_eq val_inj) /= in ij; rewrite (negbTE ij) mulr0.
Qed.

Lemma size_interp y : (size (interp y) <= n)%N.
Proof.
apply: (leq_trans (size_sum _ _ _)); apply/bigmax_leqP => i _.
by apply: (leq_trans (size_scale_leq _ _)); rewrite size_node_poly.
Qed.

Lemma poly_ext (p r : {poly F}) : (size p <= n)%N -> (size r <= n)%N ->
  (forall i, (i < n)%N -> p.[x i] = r.[x i]) -> p = r.
Proof.
move=> sp sr h; apply/eqP; rewrite -subr_eq0; apply/eqP.
pose rs := [seq x i | i <- iota 0 n].
apply: (@roots_geq_poly_eq0 _ _ rs).
- apply/allP => z /mapP[i]; rewrite mem_iota add0n => /= lti ->.
  by rewrite /root !hornerE h // subrr.
- rewrite map_inj_in_uniq ?iota_uniq // => i j; rewrite !mem_iota !add0n /= => li lj.
  exact: xinj.
- rewrite size_map size_iota (leq_trans (size_add _ _)) // geq_max sp size_opp sr //.
Qed.

Lemma interpP (p : {poly F}) : (size p <= n)%N -> interp (fun i => p.[x i]) = p.
Proof.
move=> sp; apply: poly_ext => //; first exact: size_interp.
by move=> i lti; rewrite interp_eval.
Qed.

(** The divided difference of order [n - 1] is the coefficient of that degree. *)
Lemma divided_difference (p : {poly F}) : (size p <= n)%N ->
  \sum_(i < n) p.[x i] / node_den i = p`_(n.-1).
Proof.
move=> sp; rewrite -[in RHS](interpP sp) /interp coef_sum; apply: eq_bigr => i _.
rewrite coefZ; have /monicP := monic_node_poly i.
by rewrite /lead_coef size_node_poly // => ->; rewrite mulr1.
Qed.

(** The value at zero, in the form the code computes it. *)
Lemma interp_at0 (p : {poly F}) : (size p <= n)%N ->
  \sum_(i < n) p.[x i] * \prod_(k < n | k != i :> nat) (x k / (x k - x i)) = p.[0].
Proof.
move=> sp; rewrite -[in RHS](interpP sp) /interp horner_sum; apply: eq_bigr => i _.
rewrite hornerZ -mulrA; congr (_ * _).
rewrite /node_den /node_poly horner_prod mulrC -prodf_div; apply: eq_bigr => k _.
by rewrite !hornerE -[RHS]mulrNN -invrN opprB opprK.
Qed.

End Interp.

(** ** Counting the kernel of a non-zero linear form *)

Section Kernel.
Variables (F : finFieldType) (m : nat) (w : nat -> F).

Definition lin_form (c : m.-tuple F) : F := \sum_(i < m) tnth c i * w i.

Lemma fibre_card (i0 : 'I_m) (a : F) : w i0 != 0 ->
  #|[set c | lin_form c == a]| = #|[set c | lin_form c == 0]|.
Proof.
move=> w0; pose tr (d : F) (c : m.-tuple F) : m.-tuple F :=
  [tuple tnth c i + (if i == i0 then d else 0) | i < m].
have trK d : cancel (tr d) (tr (- d)).
  move=> c; apply: eq_from_tnth => i; rewrite !tnth_mktuple.
  by case: eqP => _; rewrite ?addr0 // addrK.
have trE d c : lin_form (tr d c) = lin_form c + d * w i0.
  rewrite /lin_form (eq_bigr (fun i => tnth c i * w i + (if i == i0 then d * w i0 else 0))).
    rewrite big_split /=; congr (_ + _); rewrite -big_mkcond big_pred1_eq //.
  move=> i _; rewrite tnth_mktuple mulrDl; congr (_ + _).
  by case: eqP => [->|_] //; rewrite mul0r.
rewrite -(card_imset [set c | lin_form c == 0] (can_inj (trK (a / w i0)))).
congr #|pred_of_set _|; apply/setP => c; rewrite inE; apply/eqP/imsetP => [ca|[c0]].
  exists (tr (- (a / w i0)) c).
    by rewrite inE trE ca mulNr divfK // subrr.
  by have := trK (- (a / w i0)) c; rewrite opprK.
by rewrite inE => /eqP c0E ->; rewrite trE c0E add0r divfK.
Qed.

Lemma kernel_card (i0 : 'I_m) : w i0 != 0 ->
  #|[set c | lin_form c == 0]| = (#|F| ^ m.-1)%N.
Proof.
move=> w0.
have tot : (#|F| * #|[set c | lin_form c == 0%R]| = #|F| ^ m)%N.
  rewrite -[in RHS](card_tuple m F) -[RHS]sum1_card.
  rewrite (partition_big lin_form predT) //=.
  rewrite (eq_bigr (fun=> #|[set c | lin_form c == 0]|)).
    by rewrite sum_nat_const.
  move=> a _; rewrite -(fibre_card a w0) -sum1_card.
  by apply: eq_bigl => c; rewrite inE.
have F0 : (0 < #|F|)%N by apply/card_gt0P; exists 0.
have m0 : (0 < m)%N by apply: leq_ltn_trans (ltn_ord i0).
by apply/eqP; rewrite -(eqn_pmul2l F0) tot -expnS prednK.
Qed.

End Kernel.

(** ** Pairings *)

Section Pairing.
Variable E : engine.
Implicit Types (P : Enc E) (Q : Com E) (a : Fr E).

Local Notation e := (@pairing E).

Lemma pairing0l Q : e 0 Q = 1.
Proof.
have := pairing_addl 0 0 Q; rewrite addr0 => h.
by apply: (mulIf (pairing_neq0 0 Q)); rewrite -h mul1r.
Qed.

Lemma pairing0r P : e P 0 = 1.
Proof.
have := pairing_addr P 0 0; rewrite addr0 => h.
by apply: (mulIf (pairing_neq0 P 0)); rewrite -h mul1r.
Qed.

Lemma pairingNl P Q : e (- P) Q = (e P Q)^-1.
Proof.
apply: (mulIf (pairing_neq0 P Q)).
by rewrite mulVf ?pairing_neq0 // -pairing_addl addNr pairing0l.
Qed.

Lemma pairingNr P Q : e P (- Q) = (e P Q)^-1.
Proof.
apply: (mulIf (pairing_neq0 P Q)).
by rewrite mulVf ?pairing_neq0 // -pairing_addr addNr pairing0r.
Qed.

Lemma pairingMnl P Q n : e (P *+ n) Q = e P Q ^+ n.
Proof. by elim: n => [|n IH]; rewrite ?pairing0l // mulrS pairing_addl IH exprS. Qed.

Lemma pairingMnr P Q n : e P (Q *+ n) = e P Q ^+ n.
Proof. by elim: n => [|n IH]; rewrite ?pairing0r // mulrS pairing_addr IH exprS. Qed.

Lemma pairingZl a P Q : e (a *: P) Q = e P Q ^+ (val a).
Proof. by rewrite scaler_nat_val // pairingMnl. Qed.

Lemma pairingZr a P Q : e P (a *: Q) = e P Q ^+ (val a).
Proof. by rewrite scaler_nat_val // pairingMnr. Qed.

Lemma pairingZ a P Q : e (a *: P) Q = e P (a *: Q).
Proof. by rewrite pairingZl pairingZr. Qed.

Lemma pairing_suml I (r : seq I) (f : I -> Enc E) Q :
  e (\sum_(i <- r) f i) Q = \prod_(i <- r) e (f i) Q.
Proof.
elim: r => [|i r IH]; first by rewrite !big_nil pairing0l.
by rewrite !big_cons pairing_addl IH.
Qed.

Lemma pairing_sumr I (r : seq I) P (f : I -> Com E) :
  e P (\sum_(i <- r) f i) = \prod_(i <- r) e P (f i).
Proof.
elim: r => [|i r IH]; first by rewrite !big_nil pairing0r.
by rewrite !big_cons pairing_addr IH.
Qed.

Lemma pairing_injl P P' Q : Q != 0 -> e P Q = e P' Q -> P = P'.
Proof.
move=> Q0 h; apply/eqP; rewrite -subr_eq0; apply/eqP.
have : e (P - P') Q = 1 by rewrite pairing_addl pairingNl h divff ?pairing_neq0.
by case/pairing_nondeg => // Q0'; rewrite Q0' eqxx in Q0.
Qed.

Lemma pairing_injr P Q Q' : P != 0 -> e P Q = e P Q' -> Q = Q'.
Proof.
move=> P0 h; apply/eqP; rewrite -subr_eq0; apply/eqP.
have : e P (Q - Q') = 1 by rewrite pairing_addr pairingNr h divff ?pairing_neq0.
by case/pairing_nondeg => // P0'; rewrite P0' eqxx in P0.
Qed.

Lemma pairing_order P Q : e P Q ^+ modulus E = 1.
Proof. by rewrite -pairingMnl mulrn_q ?modulus_prime // pairing0l. Qed.

Lemma product_of_pairingsE (ps : seq (Enc E * Com E)) :
  product_of_pairings ps = \prod_(p <- ps) e p.1 p.2.
Proof. by rewrite /product_of_pairings foldl_mul mul1r. Qed.

Lemma product_of_pairings_rcons ps p :
  product_of_pairings (rcons ps p) = product_of_pairings ps * e p.1 p.2.
Proof. by rewrite /product_of_pairings foldl_rcons. Qed.

(** [x ^+ (val a)] behaves as an exponent in the field on elements of order q. *)
Lemma exp_val_mod (x : GT E) (k : nat) :
  x ^+ modulus E = 1 -> x ^+ (val (k%:R : Fr E)) = x ^+ k.
Proof.
move=> xq; rewrite (Fp_nat_val (modulus_prime E)).
by rewrite [in RHS](divn_eq k (modulus E)) exprD mulnC exprM xq expr1n mul1r.
Qed.

End Pairing.

(** Points as multiples of a base. *)
Lemma scale_inj q (pq : prime q) (C : curve q) (g : pt C) (a b : 'F_q) :
  g != 0 -> a *: g = b *: g -> a = b.
Proof.
move=> g0 h; apply/eqP; rewrite -subr_eq0; apply/eqP.
have : (a - b) *: g == 0 by rewrite scalerBl h subrr.
by rewrite scaler_eq0 (negbTE g0) orbF => /eqP.
Qed.

Lemma dlog_vec q (C : curve q) (v : seq (pt C)) (g : pt C) : g != 0 ->
  exists a : nat -> 'F_q, v = [seq a i *: g | i <- iota 0 (size v)].
Proof.
move=> g0; elim: v => [|P v [a ha]] /=; first by exists (fun=> 0).
have [c ->] := pt_cyclic P g0.
exists (fun i => if i is j.+1 then a j else c); congr cons.
by rewrite -[1%N]add1n iotaDl -map_comp [LHS]ha; apply: eq_map.
Qed.
