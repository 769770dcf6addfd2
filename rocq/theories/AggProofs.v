(** * AggProofs: merging cores and transcripts (pvss.rs, share.rs) *)

From Coq Require Import NArith Strings.Byte.
From mathcomp Require Import all_ssreflect all_algebra zify.
From Verif Require Import Prelude Errors BTreeMap Engine LibModel PolyModel SigmaModel PvssModel
  PreludeProofs AlgebraProofs Spec PolyProofs PvssProofs.

Set Implicit Arguments.
Unset Strict Implicit.
Unset Printing Implicit Defensive.

Import GRing.Theory.
Local Open Scope ring_scope.

(** ** Slotwise sums *)

Section VAdd.
Variable V : zmodType.
Implicit Types u v w : seq V.

Definition vadd u v : seq V := [seq e.1 + e.2 | e <- zip u v].

Lemma size_vadd u v : size u = size v -> size (vadd u v) = size v.
Proof. by move=> e; rewrite size_map size_zip e minnn. Qed.

Lemma nth_vadd u v i : size u = size v -> nth 0 (vadd u v) i = nth 0 u i + nth 0 v i.
Proof.
move=> e; case: (ltnP i (size v)) => li.
  by rewrite (nth_map (0, 0)) ?size_zip ?e ?minnn // nth_zip.
by rewrite !nth_default ?addr0 ?size_vadd ?e.
Qed.

Lemma vaddC u v : size u = size v -> vadd u v = vadd v u.
Proof.
move=> e; apply: (@eq_from_nth _ 0); first by rewrite !size_vadd // e.
by move=> i _; rewrite !nth_vadd // addrC.
Qed.

Lemma vaddA u v w : size u = size v -> size v = size w ->
  vadd u (vadd v w) = vadd (vadd u v) w.
Proof.
move=> e1 e2; apply: (@eq_from_nth _ 0).
  by rewrite !size_vadd ?size_vadd // e1.
by move=> i _; rewrite !nth_vadd ?size_vadd // ?e1 // addrA.
Qed.

Lemma vadd0 n v : size v = n -> vadd (nseq n 0) v = v.
Proof.
move=> e; apply: (@eq_from_nth _ 0); first by rewrite size_vadd // size_nseq.
by move=> i li; rewrite nth_vadd ?size_nseq // nth_nseq if_same add0r.
Qed.

End VAdd.

Section AggProofs.
Variable E : engine.
Variable D : eddsa.
Implicit Types (b : build) (core : PVSSCore E) (x y z : PVSSAggregatedShare E).
Local Notation q := (modulus E).

(** ** Cores *)

Definition core_add c1 c2 : PVSSCore E :=
  MkCore (vadd (encs c1) (encs c2)) (vadd (comms c1) (comms c2)).

(** Both vectors have [n] entries. *)
Definition core_len (n : nat) core : Prop := size (encs core) = n /\ size (comms core) = n.

Lemma core_len_add n c1 c2 : core_len n c1 -> core_len n c2 -> core_len n (core_add c1 c2).
Proof. by move=> [e1 k1] [e2 k2]; split; rewrite size_vadd // ?e1 ?e2 // k1 k2. Qed.

Lemma core_aggregate_ok n c1 c2 : (0 < n)%N -> core_len n c1 -> core_len n c2 ->
  core_aggregate c1 c2 = Ok (core_add c1 c2).
Proof.
move=> n0 [e1 k1] [e2 k2]; rewrite /core_aggregate /nilp k1 k2 e1 e2 !eqxx.
by rewrite eqn0Ngt n0.
Qed.

Lemma core_aggregate_inv c1 c2 c : core_aggregate c1 c2 = Ok c ->
  exists n, [/\ (0 < n)%N, core_len n c1, core_len n c2 & c = core_add c1 c2].
Proof.
rewrite /core_aggregate /nilp; case: ifP => // n0.
case: eqP => // k12; case: eqP => // e12; case: eqP => // ke [<-].
exists (size (comms c1)); split=> //; first by rewrite lt0n n0.
by split; rewrite -?e12 -?k12.
Qed.

Lemma core_addC n c1 c2 : core_len n c1 -> core_len n c2 -> core_add c1 c2 = core_add c2 c1.
Proof. by move=> [e1 k1] [e2 k2]; rewrite /core_add (vaddC (u := encs c1)) ?(vaddC (u := comms c1)) ?e1 ?k1. Qed.

Lemma core_addA n c1 c2 c3 : core_len n c1 -> core_len n c2 -> core_len n c3 ->
  core_add c1 (core_add c2 c3) = core_add (core_add c1 c2) c3.
Proof.
by move=> [e1 k1] [e2 k2] [e3 k3]; rewrite /core_add /= !vaddA ?e1 ?e2 ?e3 ?k1 ?k2 ?k3.
Qed.

Lemma core_add0 n c : core_len n c -> core_add (core_empty E n) c = c.
Proof. by case: c => e k [/= se sk]; rewrite /core_add /= !vadd0. Qed.

Lemma core_len_empty n : core_len n (core_empty E n).
Proof. by rewrite /core_len /= !size_nseq. Qed.

(** ** One slot of the contributions *)

Local Notation contrib := (option (SignedProof E * N)).
Definition gs_of (a : SignedProof E) : Com E := dp_gs (sp_decomp_proof a).

Definition merge_slot b (o1 o2 : contrib) : outcome pvss_error contrib :=
  match o1, o2 with
  | Some (a, w1), Some (a', w2) =>
      if gs_of a != gs_of a' then Err TranscriptDifferentCommitments
      else let! w := u64_add b w1 w2 in Ok (Some (a, w))
  | Some aw, None => Ok (Some aw)
  | None, o => Ok o
  end.

Lemma merge_contributionE b c1 c2 i :
  merge_contribution b c1 c2 i =
  let! o := merge_slot b (bt_get c1 i) (bt_get c2 i) in
  Ok (if o is Some v then Some (i, v) else None).
Proof.
rewrite /merge_contribution /merge_slot /gs_of.
case: (bt_get c1 i) => [[a w1]|]; case: (bt_get c2 i) => [[a' w2]|] //=.
by case: ifP => // _; case: (u64_add _ _ _).
Qed.

Lemma u64_add_release (x y : N) : u64_add Release x y = Ok ((x + y) mod u64_bound)%num :> outcome pvss_error N.
Proof.
rewrite /u64_add; case: N.ltb_spec => // h.
by rewrite N.mod_small.
Qed.

Lemma u64_add_debug (x y : N) : u64_add Debug x y =
  (if (x + y <? u64_bound)%num then Ok (x + y)%num else Panic ArithOverflow) :> outcome pvss_error N.
Proof. by []. Qed.

Lemma u64_add_assoc b (x y z xy yz : N) :
  u64_add b x y = Ok xy :> outcome pvss_error N -> u64_add b y z = Ok yz :> outcome pvss_error N ->
  u64_add b xy z = u64_add b x yz :> outcome pvss_error N.
Proof.
case: b; last first.
  rewrite !u64_add_release => -[<-] [<-]; rewrite N.add_mod_idemp_l //.
  by rewrite N.add_mod_idemp_r // N.add_assoc.
rewrite !u64_add_debug; case: ifP => // _ [<-]; case: ifP => // _ [<-].
by rewrite N.add_assoc.
Qed.

Lemma u64_addC b (x y : N) : u64_add b x y = u64_add b y x :> outcome pvss_error N.
Proof. by rewrite /u64_add N.add_comm. Qed.

Lemma u64_add_noerr b (x y : N) (e : pvss_error) : u64_add b x y <> Err e.
Proof. by rewrite /u64_add; case: ifP => // _; case: b. Qed.

Lemma merge_slot_assoc b o1 o2 o3 o12 o23 :
  merge_slot b o1 o2 = Ok o12 -> merge_slot b o2 o3 = Ok o23 ->
  merge_slot b o12 o3 = merge_slot b o1 o23.
Proof.
case: o1 => [[a1 w1]|]; case: o2 => [[a2 w2]|] /=; last first.
- by move=> [<-] [<-].
- by move=> [<-] /= ->.
- by move=> [<-] [<-].
case: eqP => //= e12 /obind_ok[w12 h12 [<-]].
case: o3 => [[a3 w3]|] /=; last by move=> [<-]; rewrite /= e12 eqxx /= h12.
case: eqP => //= e23 /obind_ok[w23 h23 [<-]] /=.
by rewrite e12 e23 eqxx /= (u64_add_assoc h12 h23).
Qed.

Lemma merge_slot0 b o : merge_slot b None o = Ok o. Proof. by []. Qed.
Lemma merge_slot0r b o : merge_slot b o None = Ok o. Proof. by case: o => [[]|]. Qed.

(** Equal up to which signed proof of one gs is kept. *)
Definition same_contrib (o1 o2 : contrib) : Prop :=
  match o1, o2 with
  | Some (a, w), Some (a', w') => gs_of a = gs_of a' /\ w = w'
  | None, None => True
  | _, _ => False
  end.

Lemma merge_slotC b o1 o2 o : merge_slot b o1 o2 = Ok o ->
  exists2 o', merge_slot b o2 o1 = Ok o' & same_contrib o o'.
Proof.
case: o1 => [[a1 w1]|]; case: o2 => [[a2 w2]|] /=.
- case: eqP => //= e /obind_ok[w hw [<-]]; rewrite e eqxx /= u64_addC hw /=.
  by eexists; first by []; rewrite /= e.
- by move=> [<-]; eexists.
- by move=> [<-]; eexists.
- by move=> [<-]; eexists.
Qed.

(** ** Transcripts *)

Lemma list_get_pmap (g : nat -> contrib) (l : seq nat) i : uniq l ->
  list_get (pmap id [seq (if g j is Some v then Some (j, v) else None) | j <- l]) i
  = if i \in l then g i else None.
Proof.
elim: l => [|j l IH] //= /andP[jl ul]; rewrite in_cons.
case gj: (g j) => [v|] /=; rewrite IH //.
  by rewrite eq_sym; case: eqP => [->|_].
by case: eqP => [->|_] //=; rewrite gj (negbTE jl).
Qed.

Lemma keys_pmap_uniq (g : nat -> contrib) (l : seq nat) : uniq l ->
  uniq (keys (pmap id [seq (if g j is Some v then Some (j, v) else None) | j <- l])).
Proof.
move=> ul; suff : subseq (keys (pmap id [seq (if g j is Some v then Some (j, v) else None) | j <- l])) l.
  by move/subseq_uniq; apply.
elim: l {ul} => [|j l IH] //=; case: (g j) => [v|] /=; first by rewrite eqxx.
by apply: subseq_trans IH (subseq_cons _ _).
Qed.

Lemma bt_get_merged (g : nat -> contrib) n i :
  bt_get (bt_collect (pmap id [seq (if g j is Some v then Some (j, v) else None) | j <- iota 0 n])) i
  = if (i < n)%N then g i else None.
Proof.
rewrite bt_get_collect_uniq; last by rewrite keys_pmap_uniq // iota_uniq.
by rewrite list_get_pmap ?iota_uniq // mem_iota add0n.
Qed.

(** When a merge succeeds, and with what. *)
Lemma agg_okE b x y z :
  agg_aggregate b x y = Ok z <->
  [/\ as_degree x = as_degree y /\ as_num_participants x = as_num_participants y,
      as_degree z = as_degree x /\ as_num_participants z = as_num_participants x,
      core_aggregate (as_pvss_core x) (as_pvss_core y) = Ok (as_pvss_core z),
      forall i, (i < as_num_participants x)%N ->
        merge_slot b (bt_get (as_contributions x) i) (bt_get (as_contributions y) i)
        = Ok (bt_get (as_contributions z) i)
    & forall i, (as_num_participants x <= i)%N -> bt_get (as_contributions z) i = None].
Proof.
set n := as_num_participants x; rewrite /agg_aggregate.
case: (as_degree x =P as_degree y) => [ed|ned] /=; last by split=> // -[[]].
case: (as_num_participants x =P as_num_participants y) => [en|nen] /=; last by split=> // -[[]].
rewrite -/n; split.
  move/obind_ok => [merged hm] /obind_ok[core /unwrap_ok hc [<-]] /=.
  have hslot i : (i < n)%N -> exists o, merge_slot b (bt_get (as_contributions x) i)
                                         (bt_get (as_contributions y) i) = Ok o.
    move=> li; have [_ /(_ i)] := (mapM_okE _ _ _).1 hm.
    rewrite size_iota => /(_ li)[j [yy [ej _]]]; rewrite nth_iota // add0n in ej.
    rewrite -ej merge_contributionE => /obind_ok[o ho _]; by exists o.
  pose g i := if merge_slot b (bt_get (as_contributions x) i) (bt_get (as_contributions y) i) is Ok o
              then o else None.
  have hg i : (i < n)%N -> merge_slot b (bt_get (as_contributions x) i)
                             (bt_get (as_contributions y) i) = Ok (g i).
    by move=> li; rewrite /g; have [o ->] := hslot i li.
  have em : merged = [seq (if g j is Some v then Some (j, v) else None) | j <- iota 0 n].
    move: hm; rewrite (@mapM_ok_in _ _ _ _ (fun j => if g j is Some v then Some (j, v) else None)).
      by case.
    by move=> j; rewrite mem_iota add0n => /= lj; rewrite merge_contributionE hg.
  split=> // i; rewrite em bt_get_merged; first by move=> li; rewrite li hg.
  by rewrite leqNgt => /negbTE->.
case: z => zn zd zc zm /= [_ [-> ->] -> hs hn] /=.
pose g i := bt_get zm i.
rewrite (@mapM_ok_in _ _ _ _ (fun j => if g j is Some v then Some (j, v) else None)); last first.
  by move=> j; rewrite mem_iota add0n => /= lj; rewrite merge_contributionE hs.
rewrite obindE; congr (Ok (MkAgg _ _ _ _)); apply: bt_ext => i.
by rewrite bt_get_merged; case: ltnP => // li; rewrite hn.
Qed.

Lemma agg_ext x y :
  as_degree x = as_degree y -> as_num_participants x = as_num_participants y ->
  as_pvss_core x = as_pvss_core y ->
  bt_get (as_contributions x) =1 bt_get (as_contributions y) -> x = y.
Proof.
case: x => xn xd xc xm; case: y => yn yd yc ym /= -> -> -> /bt_ext ->.
by [].
Qed.

(** A failing merge: the first slot that does not merge decides. *)
Definition fail_as {A B} (m : outcome pvss_error A) (r : outcome pvss_error B) : Prop :=
  match m with Ok _ => True | Err e => r = Err e | Panic p => r = Panic p end.

Lemma mapM_fail {A B} (d : B) (f : B -> outcome pvss_error A) (s : seq B) i :
  (i < size s)%N -> (forall j, (j < i)%N -> is_ok (f (nth d s j))) ->
  fail_as (f (nth d s i)) (mapM f s).
Proof.
elim: s i => [|a s IH] [|i] //= li before; first by case: (f a).
have := before 0%N isT => /=; case: (f a) => // a' _ /=.
have := IH i li (fun j ji => before j.+1 ji).
by case: (f (nth d s i)) => //= e ->.
Qed.

Lemma merge_fail b c1 c2 n i : (i < n)%N ->
  (forall j, (j < i)%N -> is_ok (merge_slot b (bt_get c1 j) (bt_get c2 j))) ->
  fail_as (merge_slot b (bt_get c1 i) (bt_get c2 i)) (mapM (merge_contribution b c1 c2) (iota 0 n)).
Proof.
move=> li before; have := @mapM_fail _ _ 0%N (merge_contribution b c1 c2) (iota 0 n) i.
rewrite size_iota => /(_ li); rewrite nth_iota // add0n merge_contributionE.
case: (merge_slot b (bt_get c1 i) (bt_get c2 i)) => //= e; apply=> j ji;
  rewrite nth_iota ?(ltn_trans ji) // add0n merge_contributionE;
  by case: (merge_slot _ _ _) (before j ji).
Qed.

Lemma merge_all_ok b c1 c2 n :
  (forall i, (i < n)%N -> is_ok (merge_slot b (bt_get c1 i) (bt_get c2 i))) ->
  is_ok (mapM (merge_contribution b c1 c2) (iota 0 n)).
Proof.
move=> h.
rewrite (@mapM_ok_in _ _ _ _ (fun i => if merge_slot b (bt_get c1 i) (bt_get c2 i) is Ok (Some v)
                                       then Some (i, v) else None)) //.
move=> i; rewrite mem_iota add0n => /= li; have := h i li; rewrite merge_contributionE.
by case: (merge_slot _ _ _) => [[v|]|e|p].
Qed.

(** The first slot that does not merge, if any. *)
Lemma first_bad b c1 c2 n :
  (forall i, (i < n)%N -> is_ok (merge_slot b (bt_get c1 i) (bt_get c2 i))) \/
  exists i, [/\ (i < n)%N, ~~ is_ok (merge_slot b (bt_get c1 i) (bt_get c2 i))
            & forall j, (j < i)%N -> is_ok (merge_slot b (bt_get c1 j) (bt_get c2 j))].
Proof.
have [/allP h|/allPn h] := boolP (all (fun i => is_ok (merge_slot b (bt_get c1 i) (bt_get c2 i))) (iota 0 n)).
  by left=> i li; apply: h; rewrite mem_iota.
right; have ex : exists i, (i < n)%N && ~~ is_ok (merge_slot b (bt_get c1 i) (bt_get c2 i)).
  by case: h => i; rewrite mem_iota => /andP[_ li] bad; exists i; rewrite li bad.
case: (ex_minnP ex) => i /andP[li bad] imin; exists i; split=> // j ji.
apply: contraT => bj; have := imin j; rewrite (ltn_trans ji li) bj => /(_ isT).
by rewrite leqNgt ji.
Qed.

End AggProofs.
