(** * Weights: when small weights make a sum hit a target

    Mathematics for C103; no code of /repo is modelled here.  For [k] random multipliers
    there are weights out of a given set [A] with [w_1 x_1 + ... + w_k x_k = v], for all but
    few of the multipliers. *)

From mathcomp Require Import all_ssreflect all_algebra zify.
From Verif Require Import Forking.

Set Implicit Arguments.
Unset Strict Implicit.
Unset Printing Implicit Defensive.

Import GRing.Theory.
Local Open Scope ring_scope.

Section Weights.
Variables (F : finFieldType) (k : nat).
Implicit Types (w x : {ffun 'I_k -> F}) (v : F).

Definition dot w x : F := \sum_j w j * x j.

(** [x] with the coordinates in [D] set to 0. *)
Definition drop (D : pred 'I_k) x : {ffun 'I_k -> F} := [ffun j => if D j then 0 else x j].

Lemma card_dropped (D : pred 'I_k) :
  #|[set x : {ffun 'I_k -> F} | [forall j, D j ==> (x j == 0)]]| = (#|F| ^ (k - #|D|))%N.
Proof.
transitivity #|pffun_on (0 : F) (predC D) (predT : pred F)|; last first.
  rewrite card_pffun_on; congr (_ ^ _)%N.
  by have := congr1 (subn^~ #|D|) (cardC D); rewrite /= addKn card_ord.
rewrite cardsE; apply: eq_card => x; rewrite !inE; apply/forallP/pffun_onP => [h|[/supportP h _] j].
  split=> //; apply/supportP => j; rewrite inE negbK => dj.
  by have := h j; rewrite dj => /eqP.
by apply/implyP => dj; rewrite h // inE negbK.
Qed.

Lemma card_line w v i : w i != 0 -> #|[set x | dot w x == v]| = (#|F| ^ (k - 1))%N.
Proof.
move=> wi; have := card_dropped (pred1 i); rewrite card1 => <-.
have out x : dot w x = w i * x i + \sum_(j | j != i) w j * x j by rewrite /dot (bigD1 i).
rewrite -(@card_in_imset _ _ (drop (pred1 i)) [set x | dot w x == v]).
  apply: eq_card => y; rewrite [in RHS]inE; apply/imsetP/forallP => [[x _ -> j]|h].
    by apply/implyP => dj; rewrite ffunE dj.
  pose u := (v - \sum_(j | j != i) w j * y j) / w i.
  exists [ffun j => if j == i then u else y j].
    rewrite inE out ffunE eqxx [w i * u]mulrC divfK // -addrA -[X in _ == X]addr0.
    rewrite (inj_eq (addrI v)) addrC subr_eq0; apply/eqP/eq_bigr => j /negbTE nj.
    by rewrite ffunE nj.
  apply/ffunP => j; rewrite !ffunE /=; case: eqP => // ej.
  by have := h j; rewrite /= ej eqxx /= => /eqP->.
move=> x x'; rewrite !inE !out => /eqP h /eqP h' /ffunP e.
have o j : j != i -> x j = x' j by move=> nj; have := e j; rewrite !ffunE /= (negbTE nj).
have xi : x i = x' i.
  apply: (mulfI wi); apply: (addIr (\sum_(j | j != i) w j * x j)); rewrite h -h'.
  by congr (_ + _); apply: eq_bigr => j /o->.
by apply/ffunP => j; have [->|/o] := eqVneq j i.
Qed.

Lemma card_plane w w' v i j : w i * w' j != w j * w' i ->
  (#|[set x | (dot w x == v) && (dot w' x == v)]| <= #|F| ^ (k - 2))%N.
Proof.
move=> mn; have nij : i != j by apply: contraNneq mn => ->.
have D2 : #|pred2 i j| = 2%N by rewrite card2 nij.
have := card_dropped (pred2 i j); rewrite D2 => <-.
have out u x : dot u x = u i * x i + u j * x j + \sum_(l | (l != i) && (l != j)) u l * x l.
  by rewrite /dot (bigD1 i) //= (bigD1 j) ?addrA // eq_sym.
rewrite -(@card_in_imset _ _ (drop (pred2 i j)) [set x | (dot w x == v) && (dot w' x == v)]).
  apply: subset_leq_card; apply/subsetP => _ /imsetP[x _ ->]; rewrite inE.
  by apply/forallP => l; apply/implyP => dl; rewrite ffunE dl.
move=> x x'; rewrite !inE !out => /andP[/eqP h1 /eqP h2] /andP[/eqP h1' /eqP h2'] /ffunP e.
have o l : (l != i) && (l != j) -> x l = x' l.
  by case/andP => ni nj; have := e l; rewrite !ffunE /= (negbTE ni) (negbTE nj).
have s u : \sum_(l | (l != i) && (l != j)) u l * x l = \sum_(l | (l != i) && (l != j)) u l * x' l.
  by apply: eq_bigr => l /o->.
have e1 : w i * (x i - x' i) + w j * (x j - x' j) = 0.
  apply/eqP; rewrite !mulrBr addrACA -opprD subr_eq0; apply/eqP.
  by apply: (addIr (\sum_(l | (l != i) && (l != j)) w l * x l)); rewrite h1 s h1'.
have e2 : w' i * (x i - x' i) + w' j * (x j - x' j) = 0.
  apply/eqP; rewrite !mulrBr addrACA -opprD subr_eq0; apply/eqP.
  by apply: (addIr (\sum_(l | (l != i) && (l != j)) w' l * x l)); rewrite h2 s h2'.
set a := x i - x' i in e1 e2; set c := x j - x' j in e1 e2.
have det : w i * w' j - w j * w' i != 0 by rewrite subr_eq0.
have a0 : a = 0.
  apply: (mulfI det); rewrite mulr0 mulrBl.
  have -> : w i * w' j * a = w' j * (w i * a) by rewrite [RHS]mulrCA mulrA.
  have -> : w j * w' i * a = w j * (w' i * a) by rewrite mulrA.
  move/eqP: e1; rewrite addr_eq0 => /eqP->; move/eqP: e2; rewrite addr_eq0 => /eqP->.
  by rewrite !mulrN opprK addrC; apply/eqP; rewrite subr_eq0 mulrCA.
have c0 : c = 0.
  move: e1 e2; rewrite a0 !mulr0 !add0r => /eqP; rewrite mulf_eq0 => /orP[/eqP wj|/eqP//].
  move=> /eqP; rewrite mulf_eq0 => /orP[/eqP wj'|/eqP//].
  by move: mn; rewrite wj wj' mulr0 mul0r eqxx.
apply/ffunP => l; have [->|ni] := eqVneq l i; first by apply/eqP; rewrite -subr_eq0 -/a a0.
have [->|nj] := eqVneq l j; first by apply/eqP; rewrite -subr_eq0 -/c c0.
by apply: o; rewrite ni.
Qed.

Variables (A : {set F}) (v : F).
Hypotheses (A0 : 0 \notin A) (v0 : v != 0) (k1 : (1 < k)%N).

(** The weight vectors, and those that suit [x]. *)
Definition wvecs : {set {ffun 'I_k -> F}} := [set w : {ffun 'I_k -> F} | [forall i, w i \in A]].
Definition suits x : {set {ffun 'I_k -> F}} := [set w in wvecs | dot w x == v].

Lemma card_wvecs : #|wvecs| = (#|A| ^ k)%N.
Proof.
rewrite -[in RHS](card_ord k) -card_ffun_on cardsE; apply: eq_card => w.
by rewrite !inE; apply/forallP/ffun_onP.
Qed.

Lemma wvec_neq0 w i : w \in wvecs -> w i != 0.
Proof. by rewrite inE => /forallP/(_ i); apply: contraTneq => ->. Qed.

Lemma count_suits : (\sum_x #|suits x| = #|A| ^ k * #|F| ^ (k - 1))%N.
Proof.
have i0 : 'I_k by exact: (Ordinal (ltnW k1)).
have eS x : #|suits x| = (\sum_(w in wvecs) (dot w x == v))%N.
  rewrite -sum1_card big_mkcond [RHS]big_mkcond; apply: eq_bigr => w _; rewrite inE.
  by case: (w \in wvecs) => //=; case: eqP.
under eq_bigr do rewrite eS; rewrite exchange_big /= -card_wvecs -sum_nat_const.
apply: eq_bigr => w hw; rewrite -(card_line v (wvec_neq0 i0 hw)) -sum1_card [RHS]big_mkcond.
by apply: eq_bigr => x _; rewrite inE; case: eqP.
Qed.

Lemma card_both w w' : w \in wvecs -> w' \in wvecs ->
  (#|[set x | (dot w x == v) && (dot w' x == v)]|
   <= (w == w') * #|F| ^ (k - 1) + #|F| ^ (k - 2))%N.
Proof.
have i0 : 'I_k by exact: (Ordinal (ltnW k1)).
move=> hw hw'; have [<-|ne] := eqVneq w w'.
  rewrite mul1n -(card_line v (wvec_neq0 i0 hw)) (leq_trans _ (leq_addr _ _)) //.
  by apply: subset_leq_card; apply/subsetP => x; rewrite !inE => /andP[].
rewrite mul0n add0n.
have [/existsP[i /existsP[j]]|/existsPn par] := boolP [exists i, exists j, w i * w' j != w j * w' i].
  exact: card_plane.
set B := [set x | _]; suff -> : B = set0 by rewrite cards0.
apply/setP => x; rewrite !inE; apply/negbTE/negP => /andP[/eqP h /eqP h'].
have prop i j : w i * w' j = w j * w' i by have /existsPn/(_ j) := par i; rewrite negbK => /eqP.
have e : w' i0 = w i0.
  have := congr1 (fun d => w' i0 * d) h; rewrite /= {1}/dot mulr_sumr.
  under eq_bigr => j _ do rewrite mulrA [w' i0 * w j]mulrC -prop -mulrA.
  by rewrite -mulr_sumr -/(dot w' x) h' => /(mulIf v0).
case/eqP: ne; apply/ffunP => j; have := prop i0 j; rewrite e => eq.
by apply: (mulfI (wvec_neq0 i0 hw)); rewrite eq mulrC.
Qed.

Lemma count_suits2 :
  (\sum_x #|suits x| ^ 2 <= #|A| ^ k * #|F| ^ (k - 1) + (#|A| ^ k) ^ 2 * #|F| ^ (k - 2))%N.
Proof.
have eS x : (#|suits x| ^ 2
           = \sum_(w in wvecs) \sum_(w' in wvecs) ((dot w x == v) && (dot w' x == v)))%N.
  have e1 : #|suits x| = (\sum_(w in wvecs) (dot w x == v))%N.
    rewrite -sum1_card big_mkcond [RHS]big_mkcond; apply: eq_bigr => w _; rewrite inE.
    by case: (w \in wvecs) => //=; case: eqP.
  rewrite expnS expn1 {1}e1 big_distrl /=; apply: eq_bigr => w _.
  by rewrite e1 big_distrr /=; apply: eq_bigr => w' _; rewrite mulnb.
under eq_bigr do rewrite eS; rewrite exchange_big /=.
apply: leq_trans (_ : \sum_(w in wvecs) \sum_(w' in wvecs)
  ((w == w') * #|F| ^ (k - 1) + #|F| ^ (k - 2)) <= _)%N.
  apply: leq_sum => w hw; rewrite exchange_big /=; apply: leq_sum => w' hw'.
  apply: leq_trans (card_both hw hw'); rewrite -sum1_card [X in (_ <= X)%N]big_mkcond /=.
  by apply: leq_sum => x _; rewrite inE; case: (_ && _).
rewrite (eq_bigr (fun=> (#|F| ^ (k - 1) + #|A| ^ k * #|F| ^ (k - 2)))%N) => [|w hw].
  by rewrite sum_nat_const card_wvecs mulnDr mulnA mulnn.
rewrite big_split /= sum_nat_const card_wvecs -big_distrl /= (bigD1 w) //= eqxx.
by rewrite big1 ?addn0 ?mul1n // => w' /andP[_ /negbTE]; rewrite eq_sym => ->.
Qed.

(** The multipliers for which no weights suit. *)
Theorem few_unsuited :
  (#|[set x | suits x == set0]| * (#|A| ^ k + #|F|) <= #|F| ^ k.+1)%N.
Proof.
have q0 : (0 < #|F|)%N by apply/card_gt0P; exists 0.
set N := (#|A| ^ k)%N; set q := #|F|; set B := [set x | _].
have tot : (#|B| + #|~: B| = q ^ k)%N by rewrite cardsC card_ffun card_ord.
have [N0|N0] := posnP N.
  rewrite N0 add0n expnS mulnC leq_mul2l; apply/orP; right.
  by rewrite -tot leq_addr.
suff h : (N * q ^ k <= #|~: B| * (N + q))%N.
  have : (#|B| * (N + q) + #|~: B| * (N + q) = q ^ k * (N + q))%N by rewrite -mulnDl tot.
  by rewrite expnS; move: h; set a := (#|~: B| * _)%N; set c := (#|B| * _)%N; nia.
have cs := @sum_square _ (mem (~: B)) (fun x => #|suits x|).
have e1 : (\sum_(x in ~: B) #|suits x| = N * q ^ (k - 1))%N.
  rewrite -count_suits [RHS](bigID (mem (~: B))) /= [X in (_ + X)%N]big1 ?addn0 //.
  by move=> x; rewrite !inE negbK => /eqP->; rewrite cards0.
have e2 : (\sum_(x in ~: B) #|suits x| ^ 2 <= N * q ^ (k - 1) + N ^ 2 * q ^ (k - 2))%N.
  apply: leq_trans count_suits2; rewrite [X in (_ <= X)%N](bigID (mem (~: B))) /=.
  exact: leq_addr.
rewrite -[X in (X <= _)%N]/(((\sum_(x in ~: B) #|suits x|) ^ 2)%N) e1 in cs.
have {}cs := leq_trans cs (leq_mul (leqnn _) e2).
have ek1 : (q ^ (k - 1) = q ^ (k - 2) * q)%N by rewrite -expnSr; congr (_ ^ _)%N; lia.
have ek : (q ^ k = q ^ (k - 2) * q * q)%N by rewrite -!expnSr; congr (_ ^ _)%N; lia.
move: cs; rewrite ek1 ek; set Q := (q ^ (k - 2))%N.
have Q0 : (0 < Q)%N by rewrite expn_gt0 q0.
have -> : (#|mem (~: B)| = #|~: B|)%N by [].
have -> : ((N * (Q * q)) ^ 2 = (N * Q) * (N * (Q * q * q)))%N by rewrite expnS expn1; lia.
have -> : (#|~: B| * (N * (Q * q) + N ^ 2 * Q) = (N * Q) * (#|~: B| * (N + q)))%N.
  by rewrite expnS expn1; lia.
by rewrite leq_pmul2l // muln_gt0 N0.
Qed.

End Weights.
