(** * PropsLinear: C95, decryption and reconstruction are linear *)

From Coq Require Import NArith Strings.Byte.
From mathcomp Require Import all_ssreflect all_algebra zify.
From Verif Require Import Prelude Errors BTreeMap Engine LibModel PolyModel SigmaModel PvssModel
  Spec PreludeProofs AlgebraProofs PolyProofs PvssProofs AggProofs HistProofs Instance PropsPoly
  PropsShare PropsAgg PropsHist.

Set Implicit Arguments.
Unset Strict Implicit.
Unset Printing Implicit Defensive.

Import GRing.Theory.
Local Open Scope ring_scope.

(** Two computations one after the other, and their results combined. *)
Definition both {Er A B C} (g : A -> B -> C) (x : outcome Er A) (y : outcome Er B) : outcome Er C :=
  let! a := x in let! b := y in Ok (g a b).

(** [(v_0 + w_0, v_1 + w_1, ...)]. *)
Definition sum_vec (V : zmodType) (v w : seq V) : seq V := [seq e.1 + e.2 | e <- zip v w].
Definition prod_vec (F : ringType) (v w : seq F) : seq F := [seq e.1 * e.2 | e <- zip v w].

(** What a quorum does with a transcript or a share: each member decrypts its slot with its
    key, the results are interpolated at the points of the members. *)
Definition reconstruct (E : engine) (b : build) (core : PVSSCore E) (sk : nat -> Fr E)
  (quorum : seq nat) (t : nat) : outcome pvss_error (Enc E) :=
  let! ds := mapM (fun id => let! d := decrypted_share_generate (encs core) (sk id) id in
                             Ok (dec d)) quorum in
  lagrange_interpolation_g1 b ds [seq id.+1%:R | id <- quorum] t.

Section Linear.
Variable E : engine.
Implicit Types (b : build) (t : nat).

Lemma size_sum_vec (V : zmodType) (v w : seq V) : size v = size w -> size (sum_vec v w) = size v.
Proof. by move=> e; rewrite size_map size_zip e minnn. Qed.

Lemma index_sum_vec {Er} (V : zmodType) (v w : seq V) j : size v = size w ->
  index (Er := Er) (sum_vec v w) j = both +%R (index v j) (index w j).
Proof.
move=> e; case: (ltnP j (size v)) => lj; last first.
  by rewrite index_oob ?size_sum_vec // index_oob.
rewrite (index_ok 0) ?size_sum_vec // (index_ok 0) // (index_ok 0) -?e // /both !obindE.
by rewrite (nth_map (0, 0)) ?size_zip -?e ?minnn // nth_zip.
Qed.

Lemma index_prod_vec {Er} (F : ringType) (v w : seq F) j : size v = size w ->
  index (Er := Er) (prod_vec v w) j = both *%R (index v j) (index w j).
Proof.
move=> e; have sz : size (prod_vec v w) = size v by rewrite size_map size_zip e minnn.
case: (ltnP j (size v)) => lj; last by rewrite index_oob ?sz // index_oob.
rewrite (index_ok 0) ?sz // (index_ok 0) // (index_ok 0) -?e // /both !obindE.
by rewrite (nth_map (0, 0)) ?size_zip -?e ?minnn // nth_zip.
Qed.

Lemma index_map_scale {Er} (V : lmodType (Fr E)) (a : Fr E) (v : seq V) j :
  index (Er := Er) [seq a *: P | P <- v] j = let! P := index v j in Ok (a *: P).
Proof.
case: (ltnP j (size v)) => lj; last by rewrite index_oob ?size_map // index_oob.
by rewrite (index_ok 0) ?size_map // (index_ok 0) // !obindE (nth_map 0).
Qed.

Lemma lagrange_sum_add (V : lmodType (Fr E)) xs (v w : seq V) t : size v = size w ->
  lagrange_sum xs (sum_vec v w) t = both +%R (lagrange_sum xs v t) (lagrange_sum xs w t).
Proof.
move=> e; rewrite /lagrange_sum.
have h l x y : foldM (fun sum j => let! wt := lagrange_weight xs t j in
    let! u := index (sum_vec v w) j in Ok (sum + wt *: u)) (x + y) l
  = both +%R
     (foldM (fun sum j => let! wt := lagrange_weight xs t j in
        let! u := index v j in Ok (sum + wt *: u)) x l)
     (foldM (fun sum j => let! wt := lagrange_weight xs t j in
        let! u := index w j in Ok (sum + wt *: u)) y l).
  elim: l x y => [|j l IH] x y //=.
  case: (lagrange_weight xs t j) => [wt|//|//]; rewrite !obindE index_sum_vec //.
  case: (ltnP j (size v)) => lj; last by rewrite !index_oob -?e.
  rewrite (index_ok 0) // (index_ok 0) -?e // /both !obindE -/(both _ _ _).
  by rewrite scalerDr addrACA IH.
by rewrite -[X in foldM _ X]addr0 h.
Qed.

Lemma lagrange_sum_scale (V : lmodType (Fr E)) xs (v : seq V) t a :
  lagrange_sum xs [seq a *: P | P <- v] t = let! P := lagrange_sum xs v t in Ok (a *: P).
Proof.
rewrite /lagrange_sum.
have h l x : foldM (fun sum j => let! wt := lagrange_weight xs t j in
    let! u := index [seq a *: P | P <- v] j in Ok (sum + wt *: u)) (a *: x) l
  = let! P := foldM (fun sum j => let! wt := lagrange_weight xs t j in
        let! u := index v j in Ok (sum + wt *: u)) x l in Ok (a *: P).
  elim: l x => [|j l IH] x //=.
  case: (lagrange_weight xs t j) => [wt|//|//]; rewrite !obindE index_map_scale.
  case: (index v j) => [P|//|//]; rewrite !obindE.
  by rewrite scalerA mulrC -scalerA -scalerDr IH.
by rewrite -[X in foldM _ X](scaler0 _ a) h.
Qed.

End Linear.

(** Interpolating sums gives the sum, and multiples the multiple, over all inputs: also where
    the calls fail, and then alike. *)
Theorem C95_interpolation (E : engine) (b : build) (t : nat) (points : seq (Fr E)) :
  [/\ forall v w, size v = size w ->
        lagrange_interpolation_g1 b (sum_vec v w) points t
        = both +%R (lagrange_interpolation_g1 b v points t) (lagrange_interpolation_g1 b w points t),
      forall v w, size v = size w ->
        lagrange_interpolation_g2 b (sum_vec v w) points t
        = both +%R (lagrange_interpolation_g2 b v points t) (lagrange_interpolation_g2 b w points t),
      forall v w, size v = size w ->
        lagrange_interpolation_simple b (sum_vec v w) t
        = both +%R (lagrange_interpolation_simple b v t) (lagrange_interpolation_simple (E := E) b w t),
      forall v w (upoints : seq N), size v = size w ->
        lagrange_interpolation_gt b (prod_vec v w) upoints t
        = both *%R (lagrange_interpolation_gt b v upoints t)
                   (lagrange_interpolation_gt (E := E) b w upoints t)
    & forall (v : seq (Enc E)) a,
        lagrange_interpolation_g1 b [seq a *: P | P <- v] points t
        = let! P := lagrange_interpolation_g1 b v points t in Ok (a *: P)].
Proof.
split=> [v w e|v w e|v w e|v w ps e|v a].
- rewrite /lagrange_interpolation_g1 size_sum_vec // -e.
  case: (too_few _ _ _) => [few|//|//]; rewrite !obindE; case: few => //; case: ifP => // _.
  exact: lagrange_sum_add.
- rewrite /lagrange_interpolation_g2 size_sum_vec // -e.
  case: (too_few _ _ _) => [few|//|//]; rewrite !obindE; case: few => //; case: ifP => // _.
  exact: lagrange_sum_add.
- rewrite /lagrange_interpolation_simple size_sum_vec // -e.
  case: (too_few _ _ _) => [few|//|//]; rewrite !obindE; case: few => //.
  exact: lagrange_sum_add.
- rewrite /lagrange_interpolation_gt size_map size_zip -e minnn.
  case: (too_few _ _ _) => [few|//|//]; rewrite !obindE; case: few => //; case: ifP => // _.
  pose wt j : outcome pvss_error (Fr E) := lagrange_weight (fun k => let! x := index ps k in Ok (fr_of_u64 (modulus E) x)) t j.
  have h l x y : foldM (fun r j => let! c := wt j in let! u := index (prod_vec v w) j in
      Ok (r * u ^+ (c : nat))) (x * y) l
    = both (Er := pvss_error) *%R
       (foldM (fun r j => let! c := wt j in let! u := index v j in Ok (r * u ^+ (c : nat))) x l)
       (foldM (fun r j => let! c := wt j in let! u := index w j in Ok (r * u ^+ (c : nat))) y l).
    elim: l x y => [|j l IH] x y //=.
    case: (wt j) => [c|//|//]; rewrite !obindE index_prod_vec //.
    case: (ltnP j (size v)) => lj; last by rewrite !index_oob -?e.
    rewrite (index_ok 0) // (index_ok 0) -?e // /both !obindE -/(both _ _ _).
    by rewrite exprMn mulrACA IH.
  by rewrite -{1}[1](mulr1 (1 : GT E)) h.
- rewrite /lagrange_interpolation_g1 size_map.
  case: (too_few _ _ _) => [few|//|//]; rewrite !obindE; case: few => //; case: ifP => // _.
  exact: lagrange_sum_scale.
Qed.

(** Decrypting a slot of an aggregate gives the sum of the decryptions, whatever the vectors
    hold, and fails alike. *)
Theorem C95_decryption (E : engine) {Er} (c1 c2 c : PVSSCore E) (sk : Fr E) (id : nat) :
  core_aggregate c1 c2 = Ok c ->
  decrypted_share_generate (Er := Er) (encs c) sk id
  = both (fun d1 d2 => MkDec (dec d1 + dec d2) id)
      (decrypted_share_generate (encs c1) sk id) (decrypted_share_generate (encs c2) sk id).
Proof.
move=> /core_aggregate_inv[n [_ [e1 _] [e2 _] ->]]; have se : size (encs c1) = size (encs c2) by rewrite e1 e2.
rewrite /decrypted_share_generate /=.
rewrite -[vadd _ _]/(sum_vec (encs c1) (encs c2)) index_sum_vec //.
case: (ltnP id (size (encs c1))) => l; last by rewrite !index_oob -?se.
rewrite (index_ok 0) // (index_ok 0) -?se // /both !obindE.
by case: (inverse_unwrap sk) => [i|//|//]; rewrite !obindE /= scalerDr.
Qed.

(** So every quorum that reconstructs from an aggregate reconstructs the sum of what it would
    reconstruct from the parts: no assumption on vectors, keys, quorum or degree. *)
Theorem C95_reconstruction (E : engine) (b : build) (c1 c2 c : PVSSCore E) (sk : nat -> Fr E)
  (quorum : seq nat) (t : nat) :
  core_aggregate c1 c2 = Ok c ->
  reconstruct b c sk quorum t
  = both +%R (reconstruct b c1 sk quorum t) (reconstruct b c2 sk quorum t).
Proof.
move=> ag; rewrite /reconstruct.
pose ds (c0 : PVSSCore E) := mapM (Er := pvss_error) (fun id =>
  let! d := decrypted_share_generate (encs c0) (sk id) id in Ok (dec d)) quorum.
rewrite -/(ds c) -/(ds c1) -/(ds c2).
suff h : ds c = both (@sum_vec (Enc E)) (ds c1) (ds c2) /\
         (forall v1 v2, ds c1 = Ok v1 -> ds c2 = Ok v2 -> size v1 = size v2) /\
         (forall v1, ds c1 = Ok v1 -> is_ok (ds c2)).
  case: h => -> [hs hok]; rewrite /both.
  case e1: (ds c1) => [v1|//|//]; rewrite !obindE.
  case e2: (ds c2) (hok _ e1) => [v2|//|//] _; rewrite !obindE.
  have [h _ _ _ _] := @C95_interpolation E b t [seq id.+1%:R | id <- quorum].
  exact: (h _ _ (hs _ _ e1 e2)).
have size_mapM A B (g : A -> outcome pvss_error B) l r : mapM g l = Ok r -> size r = size l.
  elim: l r => [|x l IH] r /=; first by case=> <-.
  case: (g x) => [y|//|//]; rewrite obindE; case e: (mapM g l) => [r'|//|//]; rewrite obindE.
  by case=> <-; rewrite /= (IH _ e).
split; last split=> [v1 v2 e1 e2|v1]; last 2 first.
- by rewrite (size_mapM _ _ _ _ _ e1) (size_mapM _ _ _ _ _ e2).
- have [n [_ [s1 _] [s2 _] _]] := core_aggregate_inv ag; have se : size (encs c1) = size (encs c2) by rewrite s1 s2.
  rewrite /ds {ds}; elim: quorum v1 => [|id l IH] v1 //=.
  rewrite /decrypted_share_generate.
  case: (ltnP id (size (encs c1))) => lt; last by rewrite index_oob.
  rewrite (index_ok 0) // (index_ok 0) -?se // !obindE.
  case: (inverse_unwrap (sk id)) => [i|//|//]; rewrite !obindE.
  case e: (mapM _ l) => [r|//|//]; rewrite obindE => _.
  by have := IH _ e; case: (mapM _ l).
rewrite /ds {ds}; elim: quorum => [|id l IH] //=.
rewrite (C95_decryption _ _ ag) IH {IH}.
have [n [_ [s1 _] [s2 _] _]] := core_aggregate_inv ag; have se : size (encs c1) = size (encs c2) by rewrite s1 s2.
rewrite /decrypted_share_generate.
case: (ltnP id (size (encs c1))) => lt; last by rewrite !index_oob -?se.
rewrite (index_ok 0) // (index_ok 0) -?se // /both !obindE.
case: (inverse_unwrap (sk id)) => [i|//|//]; rewrite !obindE /=.
case: (mapM _ l) => [r|//|//]; rewrite !obindE.
by case: (mapM _ l) => [r'|//|//]; rewrite !obindE.
Qed.
Print Assumptions C95_interpolation.
Print Assumptions C95_decryption.
Print Assumptions C95_reconstruction.

(** Two dealings aggregated; nodes 3, 0 decrypt and interpolate; and one that names a slot that
    does not exist. *)
Example C95_example :
  let c1 := sh_pvss_core sh1 in
  let c2 := sh_pvss_core sh2 in
  let sk i : Fr TE := (i.+2 * 3)%:R in
  exists2 c, core_aggregate c1 c2 = Ok c &
    [/\ (if reconstruct Debug c sk [:: 3; 0]%N 1 is Ok P then
           if reconstruct Debug c1 sk [:: 3; 0]%N 1 is Ok P1 then
             if reconstruct Debug c2 sk [:: 3; 0]%N 1 is Ok P2 then
               [&& P == P1 + P2, P1 != 0 & P2 != 0] else false else false else false),
        is_panic (reconstruct Debug c sk [:: 3; 4]%N 1) &
        is_panic (reconstruct Debug c1 sk [:: 3; 4]%N 1)].
Proof.
cbv zeta; case e: (core_aggregate _ _) => [c|//|//]; exists c => //.
by move: e => [<-]; split; vm_compute.
Qed.
