(** * PreludeProofs: lemmas about the runtime fragment and about maps *)

From Coq Require Import NArith Eqdep_dec.
From mathcomp Require Import all_ssreflect all_algebra zify.
From Verif Require Import Prelude BTreeMap.

Set Implicit Arguments.
Unset Strict Implicit.
Unset Printing Implicit Defensive.

(** ** Outcomes *)

Lemma obindE {Er A B} (a : A) (f : A -> outcome Er B) : obind (Ok a) f = f a.
Proof. by []. Qed.

Lemma obind_ok {Er A B} (m : outcome Er A) (f : A -> outcome Er B) y :
  obind m f = Ok y <-> exists2 x, m = Ok x & f x = Ok y.
Proof.
case: m => [a|e|p] /=; split=> //.
- by move=> h; exists a.
- by case=> x [->].
- by case.
- by case.
Qed.

Lemma obind_err {Er A B} (m : outcome Er A) (f : A -> outcome Er B) e :
  obind m f = Err e <-> m = Err e \/ exists2 x, m = Ok x & f x = Err e.
Proof.
split.
  case: m => [a|e'|p] //= h; first by right; exists a.
  by left; case: h => ->.
by case=> [->|[x ->]].
Qed.

Lemma obind_panic {Er A B} (m : outcome Er A) (f : A -> outcome Er B) p :
  obind m f = Panic p <-> m = Panic p \/ exists2 x, m = Ok x & f x = Panic p.
Proof.
split.
  case: m => [a|e'|p'] //= h; first by right; exists a.
  by left; case: h => ->.
by case=> [->|[x ->]].
Qed.

Lemma is_okP {Er A} (m : outcome Er A) : reflect (exists a, m = Ok a) (is_ok m).
Proof. by case: m => [a|e|p] /=; constructor; [exists a | case | case]. Qed.

Lemma unwrap_ok {Er Er' A} (m : outcome Er A) a :
  unwrap m = Ok a :> outcome Er' A <-> m = Ok a.
Proof. by case: m => [x|e|p] /=; split=> // -[->]. Qed.

Lemma unwrap_noerr {Er Er' A} (m : outcome Er A) (e : Er') : unwrap m <> Err e.
Proof. by case: m. Qed.

(** ** Indexing *)

Lemma index_ok {Er A} (v : seq A) i (d : A) :
  i < size v -> index v i = Ok (nth d v i) :> outcome Er A.
Proof. by move=> h; rewrite /index (drop_nth d h). Qed.

Lemma index_oob {Er A} (v : seq A) i :
  size v <= i -> index v i = Panic IndexOutOfBounds :> outcome Er A.
Proof. by move=> h; rewrite /index drop_oversize. Qed.

Lemma index_okE {Er A} (v : seq A) i x :
  index v i = Ok x :> outcome Er A <-> i < size v /\ nth x v i = x.
Proof.
split; last by case=> h e; rewrite (index_ok x h) e.
case: (ltnP i (size v)) => h; first by rewrite (index_ok x h) => -[].
by rewrite index_oob.
Qed.

Lemma index_noerr {Er A} (v : seq A) i (e : Er) : index v i <> Err e.
Proof. by rewrite /index; case: (drop i v). Qed.

Lemma index_is_ok {Er A} (v : seq A) i :
  is_ok (index v i : outcome Er A) = (i < size v).
Proof.
case: (ltnP i (size v)) => h; last by rewrite index_oob.
by case: v h => // a v h; rewrite (index_ok a h).
Qed.

(** ** Loops *)

Lemma foldM_ok {Er A} {B : eqType} (f : A -> B -> outcome Er A) (g : A -> B -> A) a (s : seq B) :
  (forall a x, x \in s -> f a x = Ok (g a x)) -> foldM f a s = Ok (foldl g a s).
Proof.
elim: s a => [|x s IH] a h //=.
rewrite h ?inE ?eqxx //= IH // => a' y ys; apply: h; by rewrite inE ys orbT.
Qed.

Lemma eq_in_foldM {Er A} {B : eqType} (f g : A -> B -> outcome Er A) a (s : seq B) :
  (forall a x, x \in s -> f a x = g a x) -> foldM f a s = foldM g a s.
Proof.
elim: s a => [|x s IH] a h //=.
rewrite h ?inE ?eqxx //; case: (g a x) => //= a'; apply: IH => c y ys.
by apply: h; rewrite inE ys orbT.
Qed.

Lemma foldM_panic {Er A} {B : eqType} (f : A -> B -> outcome Er A) p a (s : seq B) :
  (forall a x, x \in s -> f a x = Panic p \/ exists a', f a x = Ok a') ->
  (exists2 x, x \in s & forall a, f a x = Panic p) -> foldM f a s = Panic p.
Proof.
elim: s a => [|x s IH] a h [y] //; rewrite inE => ys fy /=.
case: (h a x (mem_head _ _)) => [->//|[a' e]]; rewrite e /=.
apply: IH => [c z zs|]; first by apply: h; rewrite inE zs orbT.
by case/orP: ys => [/eqP yx|ys]; [have := fy a; rewrite yx e | exists y].
Qed.

Lemma foldM_cat {Er A B} (f : A -> B -> outcome Er A) a s1 s2 :
  foldM f a (s1 ++ s2) = obind (foldM f a s1) (fun a' => foldM f a' s2).
Proof. by elim: s1 a => [|x s IH] a //=; case: (f a x) => //=. Qed.

Lemma mapM_ok {Er A B} (f : A -> outcome Er B) (g : A -> B) s :
  (forall x, List.In x s -> f x = Ok (g x)) -> mapM f s = Ok (map g s).
Proof.
elim: s => [|x s IH] h //=; rewrite h; last by left.
by rewrite /= IH // => y ys; apply: h; right.
Qed.

Lemma mapM_ok_in {Er} {A : eqType} {B} (f : A -> outcome Er B) (g : A -> B) s :
  {in s, forall x, f x = Ok (g x)} -> mapM f s = Ok (map g s).
Proof.
elim: s => [|x s IH] h //=; rewrite h ?mem_head //= IH // => y ys.
by apply: h; rewrite inE ys orbT.
Qed.

Lemma mapM_okE {Er A B} (f : A -> outcome Er B) s ys :
  mapM f s = Ok ys <->
  size ys = size s /\ forall i, i < size s -> exists x y,
      [/\ nth x s i = x, nth y ys i = y & f x = Ok y].
Proof.
elim: s ys => [|x s IH] ys /=.
  by split=> [[<-]|[/size0nil -> _]].
split.
  rewrite obind_ok => -[y fx]; rewrite obind_ok => -[ys' /IH[sz h] [<-]] /=.
  split; first by rewrite sz.
  by case=> [|i] lti; [exists x, y | exact: h].
case: ys => [|y ys] [] // [sz] h; have [x0 [y0 [/= e1 e2 e3]]] := h 0 (ltn0Sn _).
rewrite e1 e2 e3 /=; have -> : mapM f s = Ok ys.
  by apply/IH; split=> // i lti; exact: (h i.+1).
by [].
Qed.

Lemma mapM_cons_ok {Er A B} (f : A -> outcome Er B) x s ys :
  mapM f (x :: s) = Ok ys <->
  exists y ys', [/\ f x = Ok y, mapM f s = Ok ys' & ys = y :: ys'].
Proof.
rewrite /=; split.
  by rewrite obind_ok => -[y fx]; rewrite obind_ok => -[ys' fs [<-]]; exists y, ys'.
by case=> y [ys' [-> -> ->]].
Qed.

Lemma eq_in_mapM {Er} {A : eqType} {B} (f g : A -> outcome Er B) (s : seq A) :
  {in s, f =1 g} -> mapM f s = mapM g s.
Proof.
elim: s => [|x s IH] h //=; rewrite h ?mem_head //; case: (g x) => //= y.
by rewrite IH // => z zs; apply: h; rewrite inE zs orbT.
Qed.

(** ** Maps *)

Lemma btmap_eq V (m1 m2 : btmap V) : bt_iter m1 = bt_iter m2 -> m1 = m2.
Proof.
case: m1 m2 => [l1 s1] [l2 s2] /= e; case: l2 / e s2 => s2.
congr BTMap; exact: eq_irrelevance.
Qed.

Section Maps.
Variable V : Type.
Implicit Types (l : seq (nat * V)) (m : btmap V).

Lemma list_get_path_lt l a k : path ltn a (keys l) -> k <= a -> list_get l k = None.
Proof.
elim: l a => [|[k' v'] l IH] a //= /andP[ak' pl] ka.
by case: eqP => [e|_]; [lia | apply: (IH k'); [|lia]].
Qed.

Lemma list_get_mem l k v : list_get l k = Some v -> List.In (k, v) l.
Proof.
elim: l => [|[k' v'] l IH] //=; case: eqP => [-> [->]|_ /IH]; by [left | right].
Qed.

Lemma list_get_someE l k : isSome (list_get l k) = (k \in keys l).
Proof.
elim: l => [|[k' v'] l IH] //=; rewrite inE eq_sym.
by case: eqVneq.
Qed.

Lemma list_get_insert l k v k' :
  list_get (list_insert l k v) k' = if k == k' then Some v else list_get l k'.
Proof.
elim: l => [|[a b] l IH] //=.
case: ltngtP => [ka|ak|->] //=; last by case: eqVneq.
rewrite IH; case: (a =P k') => [ea|//]; case: eqP => // ek; lia.
Qed.

Lemma bt_get_insert m k v k' :
  bt_get (bt_insert m k v) k' = if k == k' then Some v else bt_get m k'.
Proof. exact: list_get_insert. Qed.

Lemma list_ext l1 l2 :
  sorted ltn (keys l1) -> sorted ltn (keys l2) -> list_get l1 =1 list_get l2 -> l1 = l2.
Proof.
elim: l1 l2 => [|[k1 v1] l1 IH] [|[k2 v2] l2] //=.
- by move=> _ _ /(_ k2) /=; rewrite eqxx.
- by move=> _ _ /(_ k1) /=; rewrite eqxx.
move=> p1 p2 h.
have e : k1 = k2.
  case: (ltngtP k1 k2) => [lt|gt|//].
    have := h k1; rewrite /= eqxx; case: eqP => [|_]; first lia.
    by rewrite (list_get_path_lt p2) //; lia.
  have := h k2; rewrite /= eqxx; case: eqP => [|_]; first lia.
  by rewrite (list_get_path_lt p1) //; lia.
case: k2 / e p2 h => p2 h; have := h k1; rewrite /= eqxx => -[->]; congr cons.
apply: IH; [exact: path_sorted p1 | exact: path_sorted p2 | ] => k.
case: (leqP k k1) => lek.
  by rewrite (list_get_path_lt p1) ?(list_get_path_lt p2).
by have := h k; rewrite /=; case: eqP => [|//]; lia.
Qed.

Lemma bt_ext m1 m2 : bt_get m1 =1 bt_get m2 -> m1 = m2.
Proof. by move=> h; apply/btmap_eq/list_ext => //; exact: bt_sorted. Qed.

Lemma list_get_cat l1 l2 k :
  list_get (l1 ++ l2) k = if list_get l1 k is Some v then Some v else list_get l2 k.
Proof. by elim: l1 => [|[a b] l IH] //=; case: eqP. Qed.

Lemma list_get_rev l k : uniq (keys l) -> list_get (rev l) k = list_get l k.
Proof.
elim: l => [|[a b] l IH] //= /andP[na ul].
rewrite rev_cons -cats1 list_get_cat IH //=.
case: eqP => [e|_]; last by case: (list_get l k).
by have := list_get_someE l k; rewrite -e (negbTE na); case: (list_get l a).
Qed.

Lemma bt_get_collect_acc l m k :
  bt_get (foldl (fun m kv => bt_insert m kv.1 kv.2) m l) k =
  if list_get (rev l) k is Some v then Some v else bt_get m k.
Proof.
elim: l m => [|[a b] l IH] m //=.
rewrite IH rev_cons -cats1 list_get_cat /= bt_get_insert.
by case: (list_get (rev l) k) => //; case: eqP.
Qed.

Lemma bt_get_collect l k : bt_get (bt_collect l) k = list_get (rev l) k.
Proof. by rewrite /bt_collect bt_get_collect_acc; case: (list_get _ _). Qed.

Lemma bt_get_collect_uniq l k : uniq (keys l) -> bt_get (bt_collect l) k = list_get l k.
Proof. by move=> u; rewrite bt_get_collect list_get_rev. Qed.

Lemma keys_uniq l : sorted ltn (keys l) -> uniq (keys l).
Proof. by move=> s; exact: (sorted_uniq ltn_trans ltnn). Qed.

Lemma bt_collect_iter m : bt_collect (bt_iter m) = m.
Proof.
by apply: bt_ext => k; rewrite bt_get_collect_uniq //; apply/keys_uniq/bt_sorted.
Qed.

Lemma bt_collect_sorted l (s : sorted ltn (keys l)) : bt_collect l = BTMap s.
Proof. by rewrite -[in RHS](bt_collect_iter (BTMap s)). Qed.

Lemma bt_get_new k : bt_get (@bt_new V) k = None. Proof. by []. Qed.

Lemma list_get_In l k v : uniq (keys l) -> List.In (k, v) l <-> list_get l k = Some v.
Proof.
move=> u; split; last exact: list_get_mem.
elim: l u => [|[a b] l IH] //= /andP[na ul] [[-> ->]|h]; first by rewrite eqxx.
case: eqP => [e|_]; last exact: IH.
exfalso; move/negP: na; apply; rewrite e.
elim: l h {IH ul} => [|[c d] l IH] //= [[-> _]|/IH]; by rewrite inE ?eqxx // => ->; rewrite orbT.
Qed.

Lemma bt_get_In m k v : List.In (k, v) (bt_iter m) <-> bt_get m k = Some v.
Proof. by apply: list_get_In; apply/keys_uniq/bt_sorted. Qed.

End Maps.
