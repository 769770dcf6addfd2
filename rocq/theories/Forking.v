(** * Forking: counting pairs of runs that share a prefix of random answers

    No code of /repo: a counting lemma about functions of [n] random answers, used for the
    security of the sigma protocols (PropsForking.v). *)

From mathcomp Require Import all_ssreflect.

Set Implicit Arguments.
Unset Strict Implicit.
Unset Printing Implicit Defensive.

(** The square of a sum is at most the number of terms times the sum of the squares. *)
Lemma sum_square (I : finType) (P : pred I) (x : I -> nat) :
  (\sum_(i | P i) x i) ^ 2 <= #|P| * \sum_(i | P i) x i ^ 2.
Proof.
rewrite -(leq_pmul2l (m := 2)) // mulnA [2 * #|P|]mulSn mul1n.
have -> : (#|P| + #|P|) * (\sum_(i | P i) x i ^ 2)
        = \sum_(i | P i) \sum_(j | P j) (x i ^ 2 + x j ^ 2).
  under [RHS]eq_bigr => i _ do rewrite big_split /=.
  rewrite big_split /= mulnDl; congr (_ + _); last by rewrite sum_nat_const.
  rewrite exchange_big /= sum_nat_const; congr (_ * _); exact: eq_card.
rewrite expnS expn1 big_distrl /= big_distrr; apply: leq_sum => i _.
rewrite big_distrr big_distrr /=; apply: leq_sum => j _.
exact: nat_Cauchy.
Qed.

(** Pairs, counted by their first component. *)
Lemma card_by_fst (T U : finType) (P : T -> pred U) :
  #|[set x : T * U | P x.1 x.2]| = \sum_(t : T) #|[set u | P t u]|.
Proof.
rewrite -sum1_card (partition_big fst xpredT) //=; apply: eq_bigr => t _.
rewrite sum1_card; have inj : injective (fun u : U => (t, u)) by move=> u u' [].
rewrite -(card_imset _ inj); apply: eq_card => -[t' u]; rewrite unfold_in in_set /=.
apply/andP/imsetP => [[pu /eqP <-]|[u' + [-> ->]]]; first by exists u; rewrite ?in_set.
by rewrite in_set eqxx.
Qed.

Section Forking.

(** [n] answers of type [A]; of an answer only [proj] counts; at most [m] answers look alike. *)
Variables (A : finType) (X : eqType) (proj : A -> X) (m n : nat).
Hypothesis fibre : forall a, #|[set a' | proj a' == proj a]| <= m.
Local Notation answers := {ffun 'I_n -> A}.

(** The run with the answers [h] before step [j], and with [h'] from then on. *)
Definition splice (j : nat) (h h' : answers) : answers :=
  [ffun i : 'I_n => if i < j then h i else h' i].

Lemma spliceE j h h' i : splice j h h' i = if i < j then h i else h' i.
Proof. by rewrite ffunE. Qed.

(** The answers that look at step [j] like [h] does. *)
Lemma card_alike (j : 'I_n) (a : A) :
  #|[set h : answers | proj (h j) == proj a]| <= m * #|A| ^ n.-1.
Proof.
pose F (i : 'I_n) : pred A := if i == j then [pred a' | proj a' == proj a] else predT.
have -> : #|[set h : answers | proj (h j) == proj a]| = #|family F|.
  apply: eq_card => h; rewrite inE; apply/idP/familyP => [e i|/(_ j)].
    by rewrite /F; case: ifP => [/eqP ->|_]; rewrite inE.
  by rewrite /F eqxx inE.
rewrite card_family foldrE big_map big_enum /= (bigD1 j) //= {1}/F eqxx.
apply: leq_mul; first by apply: leq_trans (fibre a); rewrite cardsE.
rewrite (eq_bigr (fun=> #|A|)) => [|i /negbTE ne]; last by rewrite /F ne; exact: eq_card.
by rewrite prod_nat_const cardC1 card_ord.
Qed.

Section OneStep.
Variables (j : 'I_n) (good : pred answers).

(** Of the pairs, those in which both runs are good are at least the square of the good runs. *)
Lemma both_good :
  #|[set h | good h]| ^ 2 <= #|[set hh : answers * answers | good hh.1 && good (splice j hh.1 hh.2)]|.
Proof.
have [/existsP[h0 _]|] := boolP [exists h, good h]; last first.
  rewrite negb_exists => /forallP no.
  by rewrite (_ : [set h | good h] = set0) ?cards0 //; apply/setP => h; rewrite !inE (negbTE (no h)).
pose pre h := splice j h h0.
pose U := [set pre h | h : answers].
pose c u := #|[set h | good h && (pre h == u)]|.
have sumE : #|[set h | good h]| = \sum_(u in U) c u.
  rewrite -sum1_card (partition_big pre (mem U)) /=; last by move=> h _; exact: imset_f.
  by apply: eq_bigr => u _; rewrite /c -sum1_card; apply: eq_bigl => h; rewrite !inE.
rewrite sumE; apply: leq_trans (sum_square _ _) _.
pose T := [set ut : answers * (answers * answers) |
  [&& ut.1 \in U, good ut.2.1, good ut.2.2 & pre ut.2.1 == pre ut.2.2]].
have -> : #|U| * (\sum_(u in U) c u ^ 2) = #|T|.
  pose T2 := [set kk : answers * answers | [&& good kk.1, good kk.2 & pre kk.1 == pre kk.2]].
  have -> : T = setX U T2 by apply/setP => -[u [k k']]; rewrite !inE.
  rewrite cardsX; congr (_ * _).
  rewrite -[RHS]sum1_card (partition_big (fun kk => pre kk.1) (mem U)) /=; last by move=> *; exact: imset_f.
  apply: eq_bigr => u _; rewrite expnS expn1 /c -cardsX -sum1_card; apply: eq_bigl => -[k k'].
  rewrite !inE /=; case: (good k) => //=; case: (good k') => //=; rewrite ?andbF //=.
  by case: (pre k =P u) => [->|_]; rewrite ?andbT ?andbF //= eq_sym.
pose phi (ut : answers * (answers * answers)) := (ut.2.1, splice j ut.1 ut.2.2).
have back u k k' : u \in U -> pre k = pre k' ->
    splice j k (splice j u k') = k' /\ pre (splice j u k') = u.
  case/imsetP => h _ -> e; split; apply/ffunP => i; rewrite !ffunE.
    by move/ffunP/(_ i): e; rewrite !ffunE; case: (i < j).
  by case: (i < j).
rewrite -(card_in_imset (f := phi)).
  apply: subset_leq_card; apply/subsetP => y /imsetP[[u [k k']]].
  rewrite [_ \in T]in_set => /and4P[/= iu gk gk' /eqP e] ->; rewrite in_set /=.
  by have [-> _] := back _ _ _ iu e; rewrite gk gk'.
move=> [u [k k']] [u1 [k1 k1']]; rewrite ![_ \in T]in_set => /and4P[/= iu _ _ /eqP e] /and4P[/= iu1 _ _ /eqP e1].
case=> ek es; have [b1 b2] := back _ _ _ iu e; have [b3 b4] := back _ _ _ iu1 e1.
by rewrite ek; congr (_, (_, _)); [rewrite -b2 es b4 | rewrite -b1 ek es b3].
Qed.

(** Of them, those that look different at step [j]. *)
Lemma fork_step :
  #|[set h | good h]| ^ 2 <=
  #|[set hh : answers * answers | [&& good hh.1, good (splice j hh.1 hh.2) & proj (hh.1 j) != proj (hh.2 j)]]|
  + #|[set h | good h]| * (m * #|A| ^ n.-1).
Proof.
apply: leq_trans both_good _.
pose same := [set hh : answers * answers | good hh.1 && (proj (hh.2 j) == proj (hh.1 j))].
have le : #|same| <= #|[set h | good h]| * (m * #|A| ^ n.-1).
  rewrite -sum1_card (partition_big (fun hh => hh.1) (mem [set h | good h])) /=; last first.
    by move=> hh; rewrite !inE => /andP[].
  rewrite -sum_nat_const; apply: leq_sum => h _; apply: leq_trans (card_alike j (h j)).
  have inj : injective (fun h' : answers => (h, h')) by move=> x y [].
  rewrite sum1_card -(card_imset _ inj).
  apply: subset_leq_card; apply/subsetP => -[k k']; rewrite unfold_in => /andP[].
  rewrite [_ \in same]in_set /= => /andP[_ e] /eqP ek.
  by apply/imsetP; exists k'; rewrite ?in_set -ek.
apply: leq_trans _ (leq_add (leqnn _) le); rewrite -cardsUI; apply: leq_trans (leq_addr _ _).
apply: subset_leq_card; apply/subsetP => -[h h']; rewrite !inE /= => /andP[-> ->] /=.
by rewrite eq_sym orNb.
Qed.

End OneStep.

(** [win j h]: the run with the answers [h] wins, and the step that matters is [j]. *)
Variable win : 'I_n -> pred answers.
Hypothesis one : forall h j j', win j h -> win j' h -> j = j'.

Definition wins := [set h : answers | [exists j, win j h]].
Definition forks := [set hh : answers * answers |
  [exists j, [&& win j hh.1, win j (splice j hh.1 hh.2) & proj (hh.1 j) != proj (hh.2 j)]]].

Lemma forking : #|wins| ^ 2 <= n * (#|forks| + #|wins| * (m * #|A| ^ n.-1)).
Proof.
have splitE (T : finType) (P : 'I_n -> pred T) : (forall t j j', P j t -> P j' t -> j = j') ->
    #|[set t | [exists j, P j t]]| = \sum_(j < n) #|[set t | P j t]|.
  move=> u; rewrite -sum1_card.
  transitivity (\sum_(t in [set t | [exists j, P j t]]) \sum_(j < n | P j t) 1).
    apply: eq_bigr => t; rewrite inE => /existsP[j pj]; rewrite (big_pred1 j) // => j'.
    by apply/idP/eqP => [pj'|->//]; exact: u pj' pj.
  rewrite (exchange_big_dep xpredT) //=; apply: eq_bigr => j _; rewrite -sum1_card.
  apply: eq_bigl => t; rewrite !inE andb_idl //.
  by move=> pj; apply/existsP; exists j.
have eW : #|wins| = \sum_(j < n) #|[set h | win j h]| by apply: splitE; exact: one.
have eF : #|forks| = \sum_(j < n) #|[set hh : answers * answers |
    [&& win j hh.1, win j (splice j hh.1 hh.2) & proj (hh.1 j) != proj (hh.2 j)]]|.
  by apply: splitE => t j j' /and3P[w _ _] /and3P[w' _ _]; exact: one w w'.
rewrite {1}eW; apply: leq_trans (sum_square _ _) _.
rewrite -[X in _ <= X * _](card_ord n); apply: leq_mul; first exact: eq_leq (eq_card _).
rewrite eF eW big_distrl -big_split /=; apply: leq_sum => j _.
exact: fork_step.
Qed.

End Forking.
