(** * PropsQuorum: property C65, when all quorums agree *)

From Coq Require Import NArith Strings.Byte.
From mathcomp Require Import all_ssreflect all_algebra zify.
From Verif Require Import Prelude Errors BTreeMap Engine LibModel PolyModel SigmaModel PvssModel
  SetupModel Spec PreludeProofs AlgebraProofs PolyProofs PvssProofs Instance
  PropsPoly PropsSigma PropsShare PropsAgg PropsHist PropsEnd PropsLimits PropsAttack PropsSetup.

Set Implicit Arguments.
Unset Strict Implicit.
Unset Printing Implicit Defensive.

Import GRing.Theory.
Local Open Scope ring_scope.

(** Through any values at the points of [ids] there is a polynomial of low degree. *)
Lemma through (E : engine) (t : nat) (xs : seq (Fr E)) (y : Fr E -> Fr E) :
  size xs = t.+1 -> uniq xs ->
  exists2 p : {poly Fr E}, (size p <= t.+1)%N & {in xs, forall x, p.[x] = y x}.
Proof.
move=> sz u; pose x i := nth 0 xs i.
have xinj i j : (i < t.+1)%N -> (j < t.+1)%N -> x i = x j -> i = j.
  by rewrite -sz => li lj /eqP; rewrite nth_uniq // => /eqP.
exists (interp x t.+1 (fun i => y (x i))); first exact: size_interp.
move=> z /(nthP 0)[i li <-]; rewrite sz in li; exact: (@interp_eval _ _ _ xinj (fun i => y (x i)) i li).
Qed.

(** A polynomial of low degree is given by its values at [t + 1] points. *)
Lemma low_poly_ext (E : engine) (t : nat) (xs : seq (Fr E)) (p r : {poly Fr E}) :
  size xs = t.+1 -> uniq xs -> (size p <= t.+1)%N -> (size r <= t.+1)%N ->
  {in xs, forall x, p.[x] = r.[x]} -> p = r.
Proof.
move=> sz u sp sr h.
have xinj i j : (i < t.+1)%N -> (j < t.+1)%N -> nth 0 xs i = nth 0 xs j -> i = j.
  by rewrite -sz => li lj /eqP; rewrite nth_uniq // => /eqP.
by apply: (poly_ext xinj sp sr) => i li; apply: h; rewrite mem_nth ?sz.
Qed.

Theorem C65_quorums_agree_partial (E : engine) (b : build) (n t : nat) (d : nat -> Enc E) :
  (t < n)%N -> (n < modulus E)%N -> fits n ->
  (exists P, forall ids, size ids = t.+1 -> uniq ids -> all (fun i => i < n)%N ids ->
     reconstruct b t [seq MkDec (d i) i | i <- ids] = Ok P)
  <-> low_degree t [seq d i | i <- iota 0 n].
Proof.
move=> tn nq fn; pose g := pt_gen (G1 E); have g0 : g != 0 by exact: pt_gen_neq0.
have ft : (N.of_nat t + 1 < 2 ^ 64)%num by move: fn; rewrite /fits; lia.
have rec (p : {poly Fr E}) (ids : seq nat) : (size p <= t.+1)%N -> size ids = t.+1 -> uniq ids -> all (fun i => i < n)%N ids ->
    {in ids, forall i, d i = p.[@pnt E i] *: g} ->
    reconstruct b t [seq MkDec (d i) i | i <- ids] = Ok (p.[0] *: g).
  move=> sp sz u /allP lt h; rewrite /reconstruct -!map_comp.
  have -> : [seq (@dec E \o (fun i => MkDec (d i) i)) i | i <- ids] = eval_at p g [seq @pnt E i | i <- ids].
    by rewrite /eval_at -map_comp; apply/eq_in_map => i /h.
  apply: C05_interpolation_g1 => //; first by rewrite size_map sz.
  apply: take_uniq; rewrite map_inj_in_uniq // => i j /lt li /lt lj; exact: (pnt_inj nq).
split=> [[P hP]|[p sp ep]]; last first.
  exists (p.[0] *: g) => ids sz u /allP lt; apply: rec => //; first exact/allP.
  move=> i /lt li; have := congr1 (fun v => nth 0 v i) ep.
  by rewrite (nth_map 0%N) ?size_iota // nth_iota // add0n size_map size_iota nth_eval_vec.
have lg i := pt_cyclic (d i) g0.
have [y hy] : exists y : nat -> Fr E, forall i, (i < n)%N -> d i = y i *: g.
  pose y i := odflt 0 [pick a : Fr E | d i == a *: g]; exists y => i _; rewrite /y.
  by case: pickP => [a /eqP//|h]; have [a ea] := lg i; have := h a; rewrite ea eqxx.
have [c hc] := pt_cyclic P g0.
have p0 i : (i < n)%N -> @pnt E i != 0.
  move=> li; rewrite /pnt -[0]/(0%:R) (Fp_nat_inj (modulus_prime E)) //; lia.
pose base := [seq @pnt E i | i <- iota 0 t].
have ubase : uniq (0 :: base).
  rewrite /= map_inj_in_uniq ?iota_uniq ?andbT.
    apply/negP => /mapP[i]; rewrite mem_iota => /andP[_ li] /esym/eqP.
    by rewrite (negbTE (p0 i (ltn_trans li tn))).
  move=> i j; rewrite !mem_iota !add0n => li lj; apply: (pnt_inj nq); lia.
pose val x := if x == 0 then c else odflt 0 [pick a : Fr E | [exists i : 'I_n, (@pnt E i == x) && (y i == a)]].
have valE i : (i < n)%N -> val (@pnt E i) = y i.
  move=> li; rewrite /val (negbTE (p0 i li)); case: pickP => [a /existsP[j /andP[/eqP e /eqP <-]]|h].
    by rewrite (pnt_inj nq (ltn_ord j) li e).
  by have /existsP[] := h (y i); exists (Ordinal li); rewrite !eqxx.
have [q sq hq] := @through E t (0 :: base) val (ltac:(by rewrite /= size_map size_iota)) ubase.
have q0 : q.[0] = c by rewrite hq ?mem_head // /val eqxx.
have qi i : (i < t)%N -> q.[@pnt E i] = y i.
  move=> li; rewrite hq ?valE //; first by apply: ltn_trans tn.
  by rewrite inE; apply/orP; right; apply/mapP; exists i => //; rewrite mem_iota.
exists q => //; apply: (@eq_from_nth _ 0); rewrite ?size_eval_vec ?size_map ?size_iota // => i li.
rewrite (nth_map 0%N) ?size_iota // nth_iota // add0n nth_eval_vec // hy //; congr (_ *: _).
case: (ltnP i t) => [lit|ti]; first by rewrite qi.
pose ids := rcons (iota 0 t) i.
have uids : uniq ids by rewrite rcons_uniq iota_uniq mem_iota add0n -leqNgt ti.
have sids : size ids = t.+1 by rewrite size_rcons size_iota.
have lids : {in ids, forall j, (j < n)%N}.
  move=> j; rewrite mem_rcons inE mem_iota => /orP[/eqP-> //|/andP[_ lj]]; exact: ltn_trans tn.
have [p sp hp] := @through E t [seq @pnt E j | j <- ids] val
   (ltac:(by rewrite size_map)) (ltac:(rewrite map_inj_in_uniq //; by move=> j k /lids lj /lids lk; exact: (pnt_inj nq))).
have pj j : j \in ids -> p.[@pnt E j] = y j.
  by move=> hj; rewrite hp ?valE ?lids //; apply/mapP; exists j.
have e0 : p.[0] = c.
  have := hP ids sids uids (ltac:(by apply/allP)).
  rewrite (rec p) //; [|by apply/allP|by move=> j hj; rewrite pj // hy ?lids].
  by case; rewrite hc => /(scale_inj (modulus_prime E) g0).
suff -> : q = p by rewrite pj // mem_rcons mem_head.
apply: (@low_poly_ext E t (0 :: base)) => //; first by rewrite /= size_map size_iota.
move=> x; rewrite inE => /orP[/eqP-> |/mapP[j]]; first by rewrite e0 q0.
rewrite mem_iota add0n => /= lj ->; rewrite qi // pj // mem_rcons inE mem_iota add0n lj orbT //.
Qed.
Print Assumptions C65_quorums_agree_partial.

(** The same for what is decrypted from the ciphertexts [es] of a share or a transcript with
    the keys [sk], all of them non-zero: every quorum decrypts and reconstructs, and all the
    quorums get one result, if and only if the decryptions lie on one polynomial of degree at
    most [t].  This is the exact condition under which C65 holds of [es]; nothing that the
    verifiers check implies it (C65_full_refuted). *)
Theorem C65_exact_partial (E : engine) (b : build) (t : nat) (es : seq (Enc E)) (sk : nat -> Fr E) :
  let n := size es in
  let decrypt := mapM (fun i => decrypted_share_generate es (sk i) i : outcome pvss_error _) in
  (t < n)%N -> (n < modulus E)%N -> fits n -> (forall i, (i < n)%N -> sk i != 0) ->
  (exists P, forall ids, size ids = t.+1 -> uniq ids -> all (fun i => i < n)%N ids ->
     exists2 ds, decrypt ids = Ok ds & reconstruct b t ds = Ok P)
  <-> low_degree t [seq (sk i)^-1 *: nth 0 es i | i <- iota 0 n].
Proof.
move=> n decrypt tn nq fn sk0; rewrite -(C65_quorums_agree_partial b (fun i => (sk i)^-1 *: nth 0 es i) tn nq fn).
have dE ids : all (fun i => i < n)%N ids ->
    decrypt ids = Ok [seq MkDec ((sk i)^-1 *: nth 0 es i) i | i <- ids].
  move=> /allP lt; apply: mapM_ok_in => i /lt li.
  by rewrite /decrypted_share_generate (index_ok 0) //= /inverse_unwrap (negbTE (sk0 i li)).
split=> [[P h]|[P h]]; exists P => ids sz u lt.
  by have [ds] := h ids sz u lt; rewrite dE // => -[<-].
by exists [seq MkDec ((sk i)^-1 *: nth 0 es i) i | i <- ids]; rewrite ?dE // h.
Qed.
Print Assumptions C65_exact_partial.

Lemma undo_key (K : fieldType) (V : lmodType K) (a c : K) (g : V) :
  a != 0 -> a^-1 *: (c *: (a *: g)) = c *: g.
Proof. by move=> a0; rewrite !scalerA [c * a]mulrC mulrA mulVf // mul1r. Qed.

(** The honest share [sh2] meets the condition, so that all its quorums agree; with slot 0
    overwritten it does not, since two quorums then differ. *)
Example C65_exact_example :
  let sk (i : nat) : Fr TE := f (i + 2) in
  let decs sh := [seq (sk i)^-1 *: nth 0 (encs (sh_pvss_core sh)) i | i <- iota 0 4] in
  low_degree 1 (decs sh2) /\ ~ low_degree 1 (decs (tamper_enc sh2 0 (f 1 : Enc TE))).
Proof.
move=> sk decs.
have sk0 i : (i < 4)%N -> sk i != 0 by case: i => [|[|[|[|i]]]].
split.
  have [p [pa [[sp ec] _ _ _ _]]] : dealt TD tag sh2 by apply: honest_dealt => //; exact: sh2_honest.
  exists (srs_g1 (cfg_srs tconfig) *: p); first exact: leq_trans (size_scale_leq _ _) sp.
  have key i : (i < 4)%N -> key_of tag i = sk i *: srs_g1 (cfg_srs tconfig).
    by case: i => [|[|[|[|i]]]] // _; exact: val_inj.
  apply: (@eq_from_nth _ 0); rewrite size_map size_iota ?size_eval_vec // => i li.
  rewrite nth_eval_vec // (nth_map 0%N) ?size_iota // nth_iota // add0n ec nth_enc_vec // key //.
  have a0 := sk0 i li; move: (sk i) a0 => a a0; rewrite hornerZ.
  by rewrite undo_key // [RHS]mulr1 mulrC.
move=> /(@C65_exact_partial TE Debug 1 (encs (sh_pvss_core (tamper_enc sh2 0 (f 1 : Enc TE)))) sk erefl erefl erefl sk0).
move=> [P h]; have [d1 e1 r1] := h [:: 0; 1]%N erefl erefl erefl.
have [d2 e2 r2] := h [:: 1; 2]%N erefl erefl erefl.
pose decrypt ids := mapM (fun i => decrypted_share_generate (encs (sh_pvss_core (tamper_enc sh2 0 (f 1 : Enc TE)))) (sk i) i
                                : outcome pvss_error _) ids.
have : if decrypt [:: 0; 1]%N is Ok ds then if decrypt [:: 1; 2]%N is Ok ds' then
    if reconstruct Debug 1 ds is Ok P then if reconstruct Debug 1 ds' is Ok P' then P != P'
    else false else false else false else false by vm_compute.
by rewrite /decrypt e1 e2 r1 r2 eqxx.
Qed.
