(** * PolyProofs: what the functions of poly.rs compute *)

From Coq Require Import NArith.
From mathcomp Require Import all_ssreflect all_algebra zify.
From Verif Require Import Prelude Errors Engine PreludeProofs AlgebraProofs PolyModel Spec.

Set Implicit Arguments.
Unset Strict Implicit.
Unset Printing Implicit Defensive.

Import GRing.Theory.
Local Open Scope ring_scope.

Section PolyProofs.
Variable E : engine.
Implicit Types (b : build) (R : rng E).
Local Notation F := (Fr E).
Local Notation q := (modulus E).
Let pq : prime q := modulus_prime E.

(** ** Polynomials *)

Lemma truncate_Poly (cs : seq F) : Poly (truncate cs) = Poly cs.
Proof.
elim: cs => [|a cs IH] //=.
case e: (truncate cs) IH => [|c cs'] /= IH; last by rewrite -IH.
rewrite -IH /=; case: eqP => [->|_] /=; last by [].
by rewrite cons_poly_def mul0r add0r polyC0.
Qed.

Lemma truncate_nseq0 (cs : seq F) : (truncate cs == [::]) = all (fun c => c == 0) cs.
Proof.
elim: cs => [|a cs IH] //=; move: IH; case: (truncate cs) => [|c s] /= IH.
  by rewrite -IH andbT; case: (a == 0).
by rewrite -IH andbF.
Qed.

Lemma size_truncate (cs : seq F) : (size (truncate cs) <= size cs)%N.
Proof.
elim: cs => [|a cs] //=; case: (truncate cs) => [|c s] //=.
by case: eqP.
Qed.

Lemma head_truncate (cs : seq F) : head 0 (truncate cs) = head 0 cs.
Proof.
case: cs => [|a cs] //=; case: (truncate cs) => [|c s] //=.
by case: eqP.
Qed.

Lemma evaluateE (cs : seq F) x : evaluate cs x = (Poly cs).[x].
Proof.
rewrite /evaluate horner_Poly; case: ifP => [a0|_].
  elim: cs a0 => [|c cs IH] //= /andP[/eqP-> /IH <-].
  by rewrite mul0r addr0.
case: eqP => [->|_]; first by case: cs => [|c cs] //=; rewrite mulr0 add0r.
by elim: cs => [|c cs IH] //=; rewrite IH.
Qed.

Lemma size_draw R k (s : rstate R) : size (draw k s).1 = k.
Proof.
elim: k s => [|k IH] s //=; case: (rand_fr s) => x s1.
by have := IH s1; case: (draw k s1) => xs s2 /= ->.
Qed.

Lemma draw_seq (k : nat) (l : seq F) : (k <= size l)%N ->
  draw (R := seq_rng E) k l = (take k l, drop k l).
Proof.
elim: k l => [|k IH] [|x l] //=.
by move=> h; rewrite IH.
Qed.

(** [d < isize::MAX / 32] draws. *)
Lemma poly_randE b R d (s : rstate R) : fits d.+1 ->
  poly_rand b (N.of_nat d) s = (Ok (truncate (draw d.+1 s).1), (draw d.+1 s).2).
Proof.
rewrite /fits => h; rewrite /poly_rand /u64_add.
have -> : (N.of_nat d + 1 <? u64_bound)%num.
  by apply/N.ltb_lt; rewrite /u64_bound; lia.
have -> : (N.of_nat d + 1 = N.of_nat d.+1)%num by lia.
have -> : vec_fits 32 (N.of_nat d.+1) by apply/N.ltb_lt.
rewrite Nnat.Nat2N.id.
by case: (draw _ _).
Qed.

(** ** The degree check *)

(** The points 1, 2, ... *)
Definition pnt (i : nat) : F := i.+1%:R.

Lemma pnt_inj n : (n < q)%N ->
  forall i j, (i < n)%N -> (j < n)%N -> pnt i = pnt j -> i = j.
Proof.
move=> nq i j li lj /eqP; rewrite /pnt (Fp_nat_inj pq); [|lia|lia].
by move/eqP => [].
Qed.

Lemma pnt_neq0 n i : (n < q)%N -> (i < n)%N -> pnt i != 0.
Proof. by move=> nq li; apply: (Fp_nat_neq0 pq); lia. Qed.

Definition dual_coef (cs : seq F) (n i : nat) : F := (Poly cs).[pnt i] / node_den pnt n i.

Lemma cperpE cs n i : (n < q)%N -> (i < n)%N -> cperp cs n i.+1 = Ok (dual_coef cs n i).
Proof.
move=> nq li; rewrite /cperp.
pose g (c : F) (j : nat) := if i.+1 != j then c * (i.+1%:R - j%:R)^-1 else c.
rewrite (@foldM_ok _ _ _ _ g); last first.
  move=> c j; rewrite mem_iota /g => /andP[j1 jn].
  case: ifP => // ne; rewrite /inverse_unwrap subr_eq0 (Fp_nat_inj pq); [|lia|lia].
  by rewrite (negbTE ne).
rewrite /g foldl_mul_if evaluateE /dual_coef /node_den; congr (Ok (_ * _)).
rewrite big_iota1 prodfV; congr (_^-1); apply: eq_bigl => k; by rewrite eqSS eq_sym.
Qed.

Lemma dual_sumE cs (v : seq (Com E)) : (size v < q)%N ->
  dual_sum cs v = Ok (\sum_(i < size v) dual_coef cs (size v) i *: nth 0 v i).
Proof.
move=> nq; rewrite /dual_sum.
pose g (a : Com E) (i : nat) := a + dual_coef cs (size v) i.-1 *: nth 0 v i.-1.
rewrite (@foldM_ok _ _ _ _ g); last first.
  move=> a [|i]; rewrite mem_iota //= => li.
  by rewrite cperpE //= (index_ok 0).
by rewrite foldl_add add0r big_iota1.
Qed.

(** The outcome of [ensure_degree] when at least [degree + 2] evaluations are given. *)
Lemma ensure_degreeE b R (s : rstate R) (v : seq (Com E)) t :
  (t.+2 <= size v)%N -> (size v < q)%N -> fits (size v) ->
  let m := (size v - t.+1)%N in
  let cs := (draw m s).1 in
  ensure_degree b s v t =
  (if \sum_(i < size v) dual_coef cs (size v) i *: nth 0 v i == 0
   then Ok tt else Err DualCodeError, (draw m s).2).
Proof.
move=> tn nq fn m cs; rewrite /ensure_degree.
have -> : (size v < t)%N = false by lia.
have -> : (let! a := u64_sub b (N.of_nat (size v)) (N.of_nat t) in
           u64_sub b a 2%num) = Ok (N.of_nat m.-1) :> outcome pvss_error N.
  rewrite /u64_sub; have -> : (N.of_nat t <=? N.of_nat (size v))%num by lia.
  rewrite /=; have -> : (2 <=? N.of_nat (size v) - N.of_nat t)%num by lia.
  by congr Ok; rewrite /m; lia.
have em : m.-1.+1 = m by rewrite /m; lia.
rewrite poly_randE em; last by rewrite /fits /m in fn *; lia.
rewrite /= dual_sumE //= /dual_coef truncate_Poly -/(dual_coef _ _ _).
by congr (_, _); rewrite if_neg.
Qed.

Lemma dual_form_eval cs (p : {poly F}) (g : Com E) n :
  (n < q)%N -> (size cs + size p <= n)%N ->
  \sum_(i < n) dual_coef cs n i *: nth 0 (eval_vec p g n) i = 0.
Proof.
move=> nq sz; pose h := Poly cs * p.
have sh : (size h < n)%N \/ h = 0.
  have [e|p0] := eqVneq p 0; first by right; rewrite /h e mulr0.
  have [c0|c0] := eqVneq (Poly cs) 0; first by right; rewrite /h c0 mul0r.
  left; rewrite /h size_mul // -ltnS prednK ?addn_gt0 ?size_poly_gt0 ?c0 //.
  by rewrite ltnS; apply: leq_trans sz; rewrite leq_add2r size_Poly.
have hc : h`_(n.-1) = 0.
  case: sh => [sh|->]; last by rewrite coef0.
  by rewrite nth_default //; case: (n) sh.
transitivity ((\sum_(i < n) h.[pnt i] / node_den pnt n i) *: g).
  rewrite scaler_suml; apply: eq_bigr => i _.
  rewrite /eval_vec (nth_map 0%N) ?size_iota // nth_iota // add1n scalerA.
  by rewrite /dual_coef /h hornerM mulrAC.
rewrite (divided_difference (pnt_inj nq)) ?hc ?scale0r //.
by case: sh => [/ltnW //|->]; rewrite size_poly0.
Qed.

Lemma size_eval_vec {V : lmodType F} p (g : V) n : size (eval_vec p g n) = n.
Proof. by rewrite size_map size_iota. Qed.

Lemma nth_eval_vec {V : lmodType F} p (g : V) n i : (i < n)%N ->
  nth 0 (eval_vec p g n) i = p.[pnt i] *: g.
Proof. by move=> li; rewrite /eval_vec (nth_map 0%N) ?size_iota // nth_iota // add1n. Qed.

(** Honest vectors pass. *)
Lemma ensure_degree_complete b R (s : rstate R) (p : {poly F}) (g : Com E) n t :
  (size p <= t.+1)%N -> (t.+2 <= n)%N -> (n < q)%N -> fits n ->
  (ensure_degree b s (eval_vec p g n) t).1 = Ok tt.
Proof.
move=> sp tn nq fn; rewrite ensure_degreeE ?size_eval_vec //=.
by rewrite dual_form_eval ?eqxx // size_draw; lia.
Qed.

Lemma Poly_horner (cs : seq F) (m : nat) x : size cs = m ->
  (Poly cs).[x] = \sum_(k < m) cs`_k * x ^+ k.
Proof.
move=> <-; have -> : Poly cs = \poly_(k < size cs) cs`_k.
  apply/polyP => k; rewrite coef_Poly coef_poly; case: ltnP => // h.
  by rewrite nth_default.
by rewrite horner_poly.
Qed.

(** The verdict is a function of the draws only. *)
Lemma ensure_degree_draws b R (s : rstate R) (v : seq (Com E)) t :
  (t.+2 <= size v)%N -> (size v < q)%N -> fits (size v) ->
  (ensure_degree b s v t).1 =
  (ensure_degree b (R := seq_rng E) (draw (size v - t.+1) s).1 v t).1.
Proof.
move=> tn nq fn; rewrite !ensure_degreeE //= draw_seq ?size_draw //.
by rewrite take_oversize ?size_draw.
Qed.

Lemma ensure_degree_kernel b (v : seq (Com E)) t :
  (t.+2 <= size v)%N -> (size v < q)%N -> fits (size v) -> ~ low_degree t v ->
  #|[set c : (size v - t.+1).-tuple F |
      is_ok (ensure_degree b (R := seq_rng E) (c : seq F) v t).1]|
  = (q ^ (size v - t.+2))%N.
Proof.
move=> tn nq fn nlow; set n := size v; set m := (n - t.+1)%N.
have [a ha] := dlog_vec v (pt_gen_neq0 (G2 E)).
have nthv i : (i < n)%N -> nth 0 v i = a i *: pt_gen (G2 E).
  by move=> li; rewrite ha (nth_map 0%N) ?size_iota // nth_iota.
pose w (k : nat) : F := \sum_(i < n) pnt i ^+ k / node_den pnt n i * a i.
have verdict (c : m.-tuple F) :
    is_ok (ensure_degree b (R := seq_rng E) (c : seq F) v t).1 = (lin_form w c == 0).
  rewrite ensure_degreeE //= -/n -/m draw_seq ?size_tuple //= take_oversize ?size_tuple //.
  have -> : \sum_(i < n) dual_coef c n i *: nth 0 v i = lin_form w c *: pt_gen (G2 E).
    rewrite /lin_form scaler_suml /w.
    under [RHS]eq_bigr => k _.
      rewrite mulr_sumr scaler_suml.
      over.
    rewrite exchange_big /=; apply: eq_bigr => i _.
    rewrite nthv // scalerA -scaler_suml; congr (_ *: _).
    rewrite /dual_coef (Poly_horner _ (size_tuple c)) !mulr_suml.
    by apply: eq_bigr => k _; rewrite (tnth_nth 0) !mulrA.
  by rewrite scaler_eq0 (negbTE (pt_gen_neq0 _)) orbF; case: eqP.
rewrite (eq_card (B := [set c | lin_form w c == 0])); last first.
  by move=> c; rewrite !inE verdict.
pose P := interp pnt n a.
have sP : (size P <= n)%N by apply: size_interp.
have PE i : (i < n)%N -> P.[pnt i] = a i by move=> li; rewrite (interp_eval (pnt_inj nq)).
have tP : (t.+1 < size P)%N.
  rewrite ltnNge; apply/negP => tP; apply: nlow; exists P => //.
  rewrite -/n; apply: (@eq_from_nth _ 0); rewrite ?size_eval_vec // => i li.
  by rewrite nth_eval_vec // PE // nthv.
have P0 : P != 0 by rewrite -size_poly_gt0; apply: leq_trans tP.
pose k0 := (n - size P)%N.
have lk0 : (k0 < m)%N by rewrite /k0 /m; lia.
have wk0 : w k0 != 0.
  have -> : w k0 = (P * 'X^k0)`_(n.-1).
    rewrite -(divided_difference (pnt_inj nq)).
      by apply: eq_bigr => i _; rewrite hornerM hornerXn PE // [LHS]mulrC mulrA.
    rewrite size_mul // ?(monic_neq0 (monicXn _ _)) //.
    by rewrite size_polyXn addnS /= /k0 subnKC.
  rewrite coefMXn; have -> : (n.-1 < k0)%N = false by rewrite /k0; lia.
  have -> : (n.-1 - k0 = (size P).-1)%N by rewrite /k0; lia.
  by rewrite -lead_coefE lead_coef_eq0.
rewrite (kernel_card (i0 := Ordinal lk0)) //=.
by rewrite card_Fq //; congr (_ ^ _)%N; rewrite /m; lia.
Qed.

(** ** Lagrange interpolation at zero *)

Definition lag_coef (x : nat -> F) (t j : nat) : F :=
  \prod_(k < t.+1 | k != j :> nat) (x k / (x k - x j)).

Lemma lagrange_weightE {Er} (xs : nat -> outcome Er F) (x : nat -> F) t j :
  (forall i, (i <= t)%N -> xs i = Ok (x i)) ->
  (forall i k, (i <= t)%N -> (k <= t)%N -> x i = x k -> i = k) ->
  (j <= t)%N -> lagrange_weight xs t j = Ok (lag_coef x t j).
Proof.
move=> hx xinj lj; rewrite /lagrange_weight hx // obindE.
pose g (a : F) (k : nat) := if j != k then a * (x k * (x k - x j)^-1) else a.
rewrite (@foldM_ok _ _ _ _ g); last first.
  move=> a k; rewrite mem_iota add0n ltnS /g => /= lk.
  case: eqP => //= ne; rewrite hx //= /inverse_unwrap subr_eq0.
  by case: eqP => // /(xinj _ _ lk lj) e; rewrite e in ne.
rewrite /g foldl_mul_if mul1r big_iota0 /lag_coef; congr Ok.
by apply: eq_bigl => k; rewrite eq_sym.
Qed.

Lemma lagrange_sumE {V : lmodType F} xs (x : nat -> F) (v : seq V) t :
  (forall i, (i <= t)%N -> xs i = Ok (x i)) ->
  (forall i k, (i <= t)%N -> (k <= t)%N -> x i = x k -> i = k) ->
  (t < size v)%N ->
  lagrange_sum xs v t = Ok (\sum_(j < t.+1) lag_coef x t j *: nth 0 v j).
Proof.
move=> hx xinj tv; rewrite /lagrange_sum.
pose g (a : V) (j : nat) := a + lag_coef x t j *: nth 0 v j.
rewrite (@foldM_ok _ _ _ _ g); last first.
  move=> a j; rewrite mem_iota add0n ltnS => /= lj.
  rewrite (lagrange_weightE hx xinj) //=.
  by rewrite (index_ok 0) // (leq_ltn_trans lj tv).
by rewrite foldl_add add0r big_iota0.
Qed.

Lemma lag_interp (x : nat -> F) t (p : {poly F}) :
  (forall i k, (i <= t)%N -> (k <= t)%N -> x i = x k -> i = k) -> (size p <= t.+1)%N ->
  \sum_(j < t.+1) lag_coef x t j * p.[x j] = p.[0].
Proof.
move=> xinj sp; rewrite -(interp_at0 (n := t.+1) xinj sp).
by apply: eq_bigr => j _; rewrite mulrC.
Qed.

Lemma too_fewE b len t : (N.of_nat t + 1 < u64_bound)%num -> too_few b len t = Ok (len <= t)%N.
Proof.
move=> h; rewrite /too_few /u64_add.
have -> : (N.of_nat t + 1 <? u64_bound)%num by apply/N.ltb_lt.
by rewrite /=; congr Ok; lia.
Qed.

Lemma pnt_inj_le t : (t.+1 < q)%N ->
  forall i k, (i <= t)%N -> (k <= t)%N -> pnt i = pnt k -> i = k.
Proof. move=> tq i k li lk; exact: (pnt_inj tq). Qed.

Lemma lagrange_simpleE b (v : seq (Com E)) t :
  (t < size v)%N -> (t.+1 < q)%N -> (N.of_nat t + 1 < u64_bound)%num ->
  lagrange_interpolation_simple b v t = Ok (\sum_(j < t.+1) lag_coef pnt t j *: nth 0 v j).
Proof.
move=> tv tq fb; rewrite /lagrange_interpolation_simple too_fewE //= leqNgt tv /=.
by apply: lagrange_sumE => //; exact: pnt_inj_le.
Qed.

Lemma lagrange_simple_poly b (v : seq (Com E)) (p : {poly F}) (g : Com E) t :
  (size p <= t.+1)%N -> take t.+1 v = eval_vec p g t.+1 ->
  (t.+1 < q)%N -> (N.of_nat t + 1 < u64_bound)%num ->
  lagrange_interpolation_simple b v t = Ok (p.[0] *: g).
Proof.
move=> sp tk tq fb.
have tv : (t < size v)%N.
  have := congr1 size tk; rewrite size_eval_vec size_take.
  by case: ltnP => // h1 h2; lia.
rewrite lagrange_simpleE //; congr Ok.
rewrite -(lag_interp (pnt_inj_le tq) sp) scaler_suml; apply: eq_bigr => j _.
by rewrite -scalerA -(nth_eval_vec _ _ (ltn_ord j)) -tk nth_take.
Qed.

(** Colliding points panic. *)
Lemma lagrange_weight_total {Er} (xs : nat -> outcome Er F) (x : nat -> F) t j :
  (forall i, (i <= t)%N -> xs i = Ok (x i)) -> (j <= t)%N ->
  (exists w, lagrange_weight xs t j = Ok w) \/ lagrange_weight xs t j = Panic UnwrapNone.
Proof.
move=> hx lj; rewrite /lagrange_weight hx // obindE.
have : all (fun k => k <= t)%N (iota 0 t.+1).
  by apply/allP => k; rewrite mem_iota.
elim: (iota _ _) 1 => [|k s IH] a /=; first by left; exists a.
case/andP=> lk ls; case: eqP => _ /=; first exact: IH.
rewrite hx //= /inverse_unwrap; case: eqP => _ /=; first by right.
exact: IH.
Qed.

Lemma lagrange_weight_panic {Er} (xs : nat -> outcome Er F) (x : nat -> F) t j k :
  (forall i, (i <= t)%N -> xs i = Ok (x i)) -> (j <= t)%N -> (k <= t)%N -> j != k ->
  x j = x k -> lagrange_weight xs t j = Panic UnwrapNone.
Proof.
move=> hx lj lk jk e; rewrite /lagrange_weight hx // obindE.
apply: foldM_panic => [a i|].
  rewrite mem_iota add0n ltnS => /= li; rewrite hx //= /inverse_unwrap.
  by case: (j != i); [case: eqP => _ /=; [left | right; eexists] | right; eexists].
exists k; first by rewrite mem_iota.
by move=> a; rewrite jk hx //= /inverse_unwrap e subrr eqxx.
Qed.

Lemma lagrange_sum_panic {V : lmodType F} xs (x : nat -> F) (v : seq V) t j k :
  (forall i, (i <= t)%N -> xs i = Ok (x i)) -> (t < size v)%N ->
  (j <= t)%N -> (k <= t)%N -> j != k -> x j = x k ->
  lagrange_sum xs v t = Panic UnwrapNone.
Proof.
move=> hx tv lj lk jk e; rewrite /lagrange_sum; apply: foldM_panic => [a i|].
  rewrite mem_iota add0n ltnS => /= li.
  have [[w ->]|->] := lagrange_weight_total hx li; last by left.
  by right; rewrite /= (index_ok 0) ?(leq_ltn_trans li tv) //; eexists.
exists j; first by rewrite mem_iota.
by move=> a; rewrite (lagrange_weight_panic hx lj lk jk e).
Qed.

Definition pts (points : seq F) (i : nat) : F := nth 0 points i.

Lemma index_pts (points : seq F) t : (t < size points)%N ->
  forall i, (i <= t)%N -> index points i = Ok (pts points i) :> outcome pvss_error F.
Proof. by move=> tp i li; rewrite (index_ok 0) // (leq_ltn_trans li tp). Qed.

Lemma pts_uniq (points : seq F) t : (t < size points)%N -> uniq (take t.+1 points) ->
  forall i k, (i <= t)%N -> (k <= t)%N -> pts points i = pts points k -> i = k.
Proof.
move=> tp u i k li lk; rewrite /pts.
have sz : size (take t.+1 points) = t.+1 by rewrite size_takel.
rewrite -(nth_take (n0 := t.+1) 0) // -[RHS](nth_take (n0 := t.+1) 0) //.
by move/eqP; rewrite nth_uniq ?sz // => /eqP.
Qed.

Lemma pts_collide (points : seq F) t : (t < size points)%N -> ~~ uniq (take t.+1 points) ->
  exists i k, [/\ (i <= t)%N, (k <= t)%N, i != k & pts points i = pts points k].
Proof.
move=> tp; have sz : size (take t.+1 points) = t.+1 by rewrite size_takel.
case/(uniqPn 0) => i [k [ik]]; rewrite sz => kt e; exists i, k.
split; [lia | lia | by rewrite ltn_eqF | ].
by rewrite /pts -(nth_take (n0 := t.+1) 0) ?(ltn_trans ik) // e nth_take.
Qed.

(** The error contract shared by the three interpolation functions taking points. *)
Definition lagrange_contract {A} (r : outcome pvss_error A) (n_evals n_points t : nat)
  (distinct : bool) : Prop :=
  r = match (n_evals <= t)%N, n_evals == n_points, distinct with
      | true, _, _ => Err InsufficientEvaluationsError
      | false, false, _ => Err DifferentPointsEvalsError
      | false, true, false => Panic UnwrapNone
      | false, true, true => r
      end
  /\ ((t < n_evals)%N -> n_evals = n_points -> distinct -> is_ok r).

Lemma lagrange_pts_contract {V : lmodType F} b (v : seq V) (points : seq F) t :
  (N.of_nat t + 1 < u64_bound)%num ->
  lagrange_contract
    (let! few := too_few b (size v) t in
     if few then Err InsufficientEvaluationsError
     else if size v != size points then Err DifferentPointsEvalsError
     else lagrange_sum (index points) v t)
    (size v) (size points) t (uniq (take t.+1 points)).
Proof.
move=> tb; rewrite too_fewE // obindE; split; last first.
  move=> tv es u; rewrite leqNgt tv -es eqxx /=.
  have tp : (t < size points)%N by rewrite -es.
  by rewrite (lagrange_sumE (index_pts tp) (pts_uniq tp u)).
case: (leqP (size v) t) => // tv; case: eqP => //= es.
case u: (uniq _) => //; have tp : (t < size points)%N by rewrite -es.
have [i [k [li lk ik e]]] := pts_collide tp (negbT u).
exact: (lagrange_sum_panic (index_pts tp) tv li lk ik e).
Qed.

Lemma lagrange_pts_poly {V : lmodType F} b (points : seq F) (p : {poly F}) (g : V) t :
  (N.of_nat t + 1 < u64_bound)%num ->
  (size p <= t.+1)%N -> (t < size points)%N -> uniq (take t.+1 points) ->
  (let! few := too_few b (size (eval_at p g points)) t in
   if few then Err InsufficientEvaluationsError
   else if size (eval_at p g points) != size points then Err DifferentPointsEvalsError
   else lagrange_sum (index points) (eval_at p g points) t) = Ok (p.[0] *: g).
Proof.
move=> tb sp tp u; rewrite too_fewE // obindE size_map leqNgt tp eqxx /=.
rewrite (lagrange_sumE (index_pts tp) (pts_uniq tp u)) ?size_map //; congr Ok.
rewrite -(lag_interp (pts_uniq tp u) sp) scaler_suml; apply: eq_bigr => j _.
by rewrite (nth_map 0) ?scalerA //; apply: leq_trans tp; exact: ltn_ord.
Qed.

(** ** The target group *)

Definition upts (points : seq N) (i : nat) : F := pts (map (fr_of_u64 q) points) i.

Lemma index_upts (points : seq N) t : (t < size points)%N ->
  forall i, (i <= t)%N ->
  (let! x := index points i in Ok (fr_of_u64 q x)) = Ok (upts points i)
  :> outcome pvss_error F.
Proof.
move=> tp i li; rewrite (index_ok 0%num) ?(leq_ltn_trans li tp) //=.
by rewrite /upts /pts (nth_map 0%num) ?(leq_ltn_trans li tp).
Qed.

Lemma lagrange_gtE b (v : seq (GT E)) (points : seq N) t :
  (N.of_nat t + 1 < u64_bound)%num -> (t < size v)%N -> size v = size points ->
  uniq (take t.+1 (map (fr_of_u64 q) points)) ->
  lagrange_interpolation_gt b v points t =
  Ok (\prod_(j < t.+1) nth 0 v j ^+ val (lag_coef (upts points) t j)).
Proof.
move=> tb tv es u; rewrite /lagrange_interpolation_gt too_fewE // obindE leqNgt tv es eqxx.
have tp : (t < size points)%N by rewrite -es.
have xinj := @pts_uniq (map (fr_of_u64 q) points) t.
rewrite size_map in xinj; have {}xinj := xinj tp u.
pose g (a : GT E) (j : nat) := a * nth 0 v j ^+ val (lag_coef (upts points) t j).
rewrite (@foldM_ok _ _ _ _ g); last first.
  move=> a j; rewrite mem_iota add0n ltnS => /= lj.
  rewrite (lagrange_weightE (index_upts tp) xinj) //=.
  by rewrite (index_ok 0) // (leq_ltn_trans lj tv).
by rewrite /g foldl_mul mul1r big_iota0.
Qed.

Lemma lagrange_gt_contract b (v : seq (GT E)) (points : seq N) t :
  (N.of_nat t + 1 < u64_bound)%num ->
  lagrange_contract (lagrange_interpolation_gt b v points t)
    (size v) (size points) t (uniq (take t.+1 (map (fr_of_u64 q) points))).
Proof.
move=> tb; split; last by move=> tv es u; rewrite lagrange_gtE.
case: leqP => tv; first by rewrite /lagrange_interpolation_gt too_fewE // obindE tv.
case: eqP => es; last first.
  by rewrite /lagrange_interpolation_gt too_fewE // obindE leqNgt tv /=; case: eqP.
case u: (uniq _) => //; rewrite /lagrange_interpolation_gt too_fewE // obindE leqNgt tv es eqxx.
have tp : (t < size points)%N by rewrite -es.
have := @pts_collide (map (fr_of_u64 q) points) t; rewrite size_map => hc.
have [i [k [li lk ik e]]] := hc tp (negbT u).
have hx := index_upts tp.
apply: foldM_panic => [a j|].
  rewrite mem_iota add0n ltnS => /= lj.
  have [[w ->]|->] := lagrange_weight_total hx lj; last by left.
  by right; rewrite /= (index_ok 0) ?(leq_ltn_trans lj tv) //; eexists.
exists i; first by rewrite mem_iota.
by move=> a; rewrite (lagrange_weight_panic hx li lk ik e).
Qed.

Lemma lagrange_gt_poly b (points : seq N) (p : {poly F}) (g : Enc E) (h : Com E) t :
  (N.of_nat t + 1 < u64_bound)%num -> (size p <= t.+1)%N -> (t < size points)%N ->
  uniq (take t.+1 (map (fr_of_u64 q) points)) ->
  lagrange_interpolation_gt b
    [seq pairing (p.[fr_of_u64 q x] *: g) h | x <- points] points t
  = Ok (pairing (p.[0] *: g) h).
Proof.
move=> tb sp tp u; rewrite lagrange_gtE ?size_map //; congr Ok.
have xinj := @pts_uniq (map (fr_of_u64 q) points) t.
rewrite size_map in xinj; have {}xinj := xinj tp u.
rewrite -(lag_interp xinj sp) scaler_suml pairing_suml; apply: eq_bigr => j _.
have lj : (j < size points)%N by apply: leq_trans tp; exact: ltn_ord.
rewrite (nth_map 0%num) // -pairingZl scalerA.
by rewrite /upts /pts (nth_map 0%num).
Qed.

(** ** The degree check on every length *)

Lemma ensure_degree_short b R (s : rstate R) (v : seq (Com E)) t :
  (size v < t)%N -> ensure_degree b s v t = (Err InsufficientEvaluationsError, s).
Proof. by move=> h; rewrite /ensure_degree h. Qed.

Lemma ensure_degree_eq b R (s : rstate R) (v : seq (Com E)) t :
  size v = t ->
  ensure_degree b s v t =
  (Panic (match b with Debug => ArithOverflow | Release => CapacityOverflow end), s).
Proof.
move=> <-; rewrite /ensure_degree ltnn /u64_sub N.leb_refl obindE N.sub_diag.
by case: b.
Qed.

Lemma ensure_degree_succ b R (s : rstate R) (v : seq (Com E)) t :
  size v = t.+1 -> (size v < q)%N ->
  ensure_degree b s v t =
  (match b with Debug => Panic ArithOverflow | Release => Ok tt end, s).
Proof.
move=> sv nq; rewrite /ensure_degree sv.
have -> : (t.+1 < t)%N = false by lia.
rewrite /u64_sub; have -> : (N.of_nat t <=? N.of_nat t.+1)%num by lia.
rewrite obindE; have -> : (N.of_nat t.+1 - N.of_nat t = 1)%num by lia.
case: b => //=; rewrite dual_sumE //= big1 ?eqxx // => i _.
by rewrite /dual_coef horner0 mul0r scale0r.
Qed.

(** ** Shamir's scheme *)

Lemma Poly_inj m (c d : m.-tuple F) : Poly c = Poly d -> c = d.
Proof.
move=> e; apply: eq_from_tnth => i; rewrite !(tnth_nth 0).
have := congr1 (fun p : {poly F} => p`_i) e.
by rewrite !coef_Poly.
Qed.

Lemma shamir_count t (xs ys : t.-tuple F) (s : F) : uniq (0 :: xs) ->
  #|[set c : t.+1.-tuple F | ((Poly c).[0] == s)
      && [forall i, (Poly c).[tnth xs i] == tnth ys i]]| = 1%N.
Proof.
move=> u; pose x (i : nat) : F := nth 0 (0 :: xs) i; pose y (i : nat) : F := nth 0 (s :: ys) i.
have xinj i j : (i < t.+1)%N -> (j < t.+1)%N -> x i = x j -> i = j.
  by move=> li lj /eqP; rewrite nth_uniq ?[size _]/= ?size_tuple // => /eqP.
pose P := interp x t.+1 y.
have sP : (size P <= t.+1)%N by exact: size_interp.
have PE i : (i < t.+1)%N -> P.[x i] = y i by move=> li; exact: (interp_eval xinj).
pose c0 : t.+1.-tuple F := [tuple P`_i | i < t.+1].
have Pc0 : Poly c0 = P.
  apply/polyP => i; rewrite coef_Poly; case: (ltnP i t.+1) => li.
    by rewrite -[i]/(val (Ordinal li)) -tnth_nth tnth_mktuple.
  by rewrite !nth_default ?size_tuple // (leq_trans sP).
rewrite -(cards1 c0); apply: eq_card => c; rewrite !inE; apply/idP/eqP; last first.
  move=> ->; rewrite Pc0; apply/andP; split; first by have /= -> := PE 0%N isT.
  apply/forallP => i; have /= := PE i.+1; rewrite /x /y /= ltnS => /(_ (ltn_ord i)).
  by rewrite -!tnth_nth => ->.
case/andP=> /eqP e0 /forallP ei; apply: Poly_inj; rewrite Pc0.
apply: (poly_ext xinj) => //.
  by apply: leq_trans (size_Poly _) _; rewrite size_tuple.
case=> [|i] li; rewrite PE //.
have := ei (Ordinal (li : i < t)%N); rewrite !(tnth_nth 0) /= => /eqP.
by rewrite /x /y.
Qed.

End PolyProofs.

Lemma contractP {A} (r : outcome pvss_error A) ne np t d :
  lagrange_contract r ne np t d -> interpolation_contract r ne np t d.
Proof.
rewrite /lagrange_contract /interpolation_contract => -[].
case: (leqP ne t) => h.
  move=> -> _; split; split => //; try by move=> *; lia.
    by case; lia.
  by case; lia.
case: (ne =P np) => [e|ne'].
  case: d => [_ /(_ isT e isT)|-> _].
    case: r => //= a _; split; split => //; try (by case); lia.
  by split; split => //; try (by case); lia.
by move=> -> _; split; split => //; try (by case); lia.
Qed.
