(** * CodecProofs: lemmas about the codec combinators *)

From Coq Require Import NArith Strings.Byte.
From mathcomp Require Import all_ssreflect all_algebra zify.
From Verif Require Import Prelude Errors BTreeMap Engine LibModel SigmaModel PvssModel.
From Verif Require Import PreludeProofs CodecModel CodecSpec.

Set Implicit Arguments.
Unset Strict Implicit.
Unset Printing Implicit Defensive.

(** ** Bytes and integers *)

Lemma byte_of_NK x : (x < 256)%num -> Byte.to_N (byte_of_N x) = x.
Proof.
move=> h; rewrite /byte_of_N; case e: (Byte.of_N x) => [b|].
  by move/Byte.to_of_N: e.
by move/Byte.of_N_None_iff: e; lia.
Qed.

Lemma byte_to_NK b : byte_of_N (Byte.to_N b) = b.
Proof. by rewrite /byte_of_N Byte.of_to_N. Qed.

Lemma to_N_lt b : (Byte.to_N b < 256)%num.
Proof. by have := Byte.to_N_bounded b; lia. Qed.

Lemma size_le_bytes k x : size (le_bytes k x) = k.
Proof. by elim: k x => //= k IH x; rewrite IH. Qed.

Lemma of_le_bytes_cons b s :
  of_le_bytes (b :: s) = (Byte.to_N b + 256 * of_le_bytes s)%num.
Proof. by []. Qed.

Lemma le_bytesS k x :
  le_bytes k.+1 x = byte_of_N (x mod 256)%num :: le_bytes k (x / 256)%num.
Proof. by []. Qed.

Lemma le_bytesK k x : (x < 256 ^ N.of_nat k)%num -> of_le_bytes (le_bytes k x) = x.
Proof.
elim: k x => [|k IH] x; first by rewrite /=; lia.
rewrite Nat2N.inj_succ N.pow_succ_r' => h; rewrite le_bytesS of_le_bytes_cons IH; last first.
  by apply: N.div_lt_upper_bound => //; lia.
rewrite byte_of_NK; last by apply: N.mod_lt.
by rewrite N.add_comm -N.div_mod'.
Qed.

Lemma of_le_bytesK s : le_bytes (size s) (of_le_bytes s) = s.
Proof.
elim: s => // b s IH; have hb := to_N_lt b.
rewrite of_le_bytes_cons [size _]/= le_bytesS N.add_comm N.mul_comm.
rewrite (N.add_comm _ (Byte.to_N b)) N.mod_add // N.mod_small // byte_to_NK.
by rewrite N.div_add // N.div_small // N.add_0_l IH.
Qed.

Lemma of_le_bytes_lt s : (of_le_bytes s < 256 ^ N.of_nat (size s))%num.
Proof.
elim: s => [|b s IH] //.
rewrite [size _]/= Nat2N.inj_succ N.pow_succ_r' of_le_bytes_cons.
by have := to_N_lt b; lia.
Qed.

(** ** Basic codecs *)

Arguments le_bytes : simpl never.
Arguments of_le_bytes : simpl never.
Arguments read_exact : simpl never.

Lemma u64_serE x : ser u64_codec x = le_bytes 8 x. Proof. by []. Qed.
Lemma u64_deserE s :
  deser u64_codec s = let! (bs, s') := read_exact 8 s in Ok (of_le_bytes bs, s').
Proof. by []. Qed.
Lemma usize_serE n : ser usize_codec n = ser u64_codec (N.of_nat n). Proof. by []. Qed.
Lemma usize_deserE s :
  deser usize_codec s = let! (x, s') := deser u64_codec s in Ok (N.to_nat x, s').
Proof. by []. Qed.
Lemma u64_size : exact_size u64_codec. Proof. by move=> x; exact: size_le_bytes. Qed.
Lemma usize_size : exact_size usize_codec. Proof. by move=> x; exact: u64_size. Qed.
Lemma size_u64_ser x : size (ser u64_codec x) = 8. Proof. exact: size_le_bytes. Qed.

(* keeps [simpl] from computing inside *)
Local Opaque u64_codec usize_codec.

Lemma u64_rt : round_trip u64_codec u64_ok.
Proof.
move=> x rest h; rewrite u64_deserE u64_serE /read_exact size_cat size_le_bytes ltnNge leq_addr.
rewrite take_size_cat ?size_le_bytes // drop_size_cat ?size_le_bytes //=.
by rewrite le_bytesK.
Qed.

Lemma read_exact_okE k s r : read_exact k s = Ok r ->
  [/\ size r.1 = k, s = r.1 ++ r.2 & k <= size s].
Proof.
rewrite /read_exact; case: ltnP => // h [<-] /=; split=> //.
  by rewrite size_takel.
by rewrite cat_take_drop.
Qed.

Lemma u64_canon : canonical u64_codec.
Proof.
move=> s x rest; rewrite u64_deserE; case e: (read_exact 8 s) => [[bs s']|?|?] //= [<- <-].
have [/= hs -> _] := read_exact_okE e.
by rewrite u64_serE -[8]hs of_le_bytesK.
Qed.
Lemma u64_bnd s x rest : deser u64_codec s = Ok (x, rest) -> u64_ok x.
Proof.
rewrite u64_deserE; case e: (read_exact 8 s) => [[bs s']|?|?] //= [<- _].
have [/= hs _ _] := read_exact_okE e.
by have := of_le_bytes_lt bs; rewrite hs.
Qed.

Lemma usize_rt : round_trip usize_codec usize_ok.
Proof. by move=> x rest h; rewrite usize_deserE usize_serE u64_rt //= Nat2N.id. Qed.
Lemma usize_canon : canonical usize_codec.
Proof.
move=> s x rest; rewrite usize_deserE.
case e: (deser u64_codec s) => [[y s']|?|?] //= [<- <-].
by rewrite (u64_canon e) usize_serE N2Nat.id.
Qed.
Lemma usize_bnd s x rest : deser usize_codec s = Ok (x, rest) -> usize_ok x.
Proof.
rewrite usize_deserE; case e: (deser u64_codec s) => [[y s']|?|?] //= [<- _].
by rewrite /usize_ok N2Nat.id; apply: u64_bnd e.
Qed.

Section PointScalar.
Variable E : engine.
Lemma pt_rt q (C : curve q) : round_trip (pt_codec C) anyv.
Proof. by move=> P rest _; rewrite /= pt_deserK. Qed.
Lemma pt_size q (C : curve q) : exact_size (pt_codec C).
Proof. by move=> P; exact: pt_ser_size. Qed.
Lemma fr_rt : round_trip (fr_codec E) anyv.
Proof. by move=> P rest _; rewrite /= fr_deserK. Qed.
Lemma fr_size : exact_size (fr_codec E).
Proof. by move=> P; exact: fr_ser_size. Qed.
Lemma pt_nopanic q (C : curve q) : panic_free (pt_codec C).
Proof. by move=> s; rewrite /=; case: pt_deser. Qed.
Lemma fr_nopanic : panic_free (fr_codec E).
Proof. by move=> s; rewrite /=; case: fr_deser. Qed.
End PointScalar.

(** ** Combinators *)

Section Pair.
Variables (A B : Type) (a : codec A) (b : codec B) (va : A -> Prop) (vb : B -> Prop).

Lemma pair_rt : round_trip a va -> round_trip b vb ->
  round_trip (pair_codec a b) (fun x => va x.1 /\ vb x.2).
Proof. by move=> ha hb [x y] rest [/= vx vy]; rewrite -catA ha //= hb. Qed.

Lemma pair_size : exact_size a -> exact_size b -> exact_size (pair_codec a b).
Proof. by move=> ha hb [x y]; rewrite /= size_cat ha hb. Qed.

Lemma pair_okE s x y rest : deser (pair_codec a b) s = Ok ((x, y), rest) ->
  exists2 s1, deser a s = Ok (x, s1) & deser b s1 = Ok (y, rest).
Proof.
rewrite /=; case e: (deser a s) => [[x' s1]|?|?] //=.
by case e': (deser b s1) => [[y' s2]|?|?] //= [<- <- <-]; exists s1.
Qed.

Lemma pair_ok s x y s1 rest : deser a s = Ok (x, s1) -> deser b s1 = Ok (y, rest) ->
  deser (pair_codec a b) s = Ok ((x, y), rest).
Proof. by move=> e1 e2; rewrite /= e1 /= e2. Qed.

Lemma pair_canon : canonical a -> canonical b -> canonical (pair_codec a b).
Proof.
move=> ha hb s [x y] rest /pair_okE[s1 e1 e2].
by rewrite (ha _ _ _ e1) (hb _ _ _ e2) /= catA.
Qed.

Lemma pair_stream : streaming a -> streaming b -> streaming (pair_codec a b).
Proof.
move=> ha hb s [x y] rest t /pair_okE[s1 e1 e2].
by rewrite /= (ha _ _ _ t e1) /= (hb _ _ _ t e2).
Qed.

Lemma pair_nopanic : panic_free a -> panic_free b -> panic_free (pair_codec a b).
Proof.
move=> ha hb s; rewrite /=; case e: (deser a s) => [[x s1]|//|p] /=.
  by case e': (deser b s1) (hb s1) => [[]|//|].
by have := ha s; rewrite e.
Qed.

End Pair.

Section Struct.
Variables (A B : Type) (fields : B -> A) (make : A -> B) (a : codec A).
Variables (va : A -> Prop) (vb : B -> Prop).

Lemma struct_rt : cancel fields make -> (forall x, vb x -> va (fields x)) ->
  round_trip a va -> round_trip (struct_codec fields make a) vb.
Proof. by move=> K hv ha x rest vx; rewrite /= ha /= ?K //; apply: hv. Qed.

Lemma struct_size : exact_size a -> exact_size (struct_codec fields make a).
Proof. by move=> ha x; rewrite /= ha. Qed.

Lemma struct_okE s x rest : deser (struct_codec fields make a) s = Ok (x, rest) ->
  exists2 y, deser a s = Ok (y, rest) & x = make y.
Proof. by rewrite /=; case: (deser a s) => [[y s1]|?|?] //= [<- <-]; exists y. Qed.

Lemma struct_ok s y rest : deser a s = Ok (y, rest) ->
  deser (struct_codec fields make a) s = Ok (make y, rest).
Proof. by move=> e; rewrite /= e. Qed.

Lemma struct_canon : cancel make fields -> canonical a ->
  canonical (struct_codec fields make a).
Proof. by move=> K ha s x rest /struct_okE[y e ->]; rewrite (ha _ _ _ e) /= K. Qed.

Lemma struct_stream : streaming a -> streaming (struct_codec fields make a).
Proof. by move=> ha s x rest t /struct_okE[y e ->]; rewrite /= (ha _ _ _ t e). Qed.

Lemma struct_nopanic : panic_free a -> panic_free (struct_codec fields make a).
Proof. by move=> ha s; rewrite /=; case: (deser a s) (ha s) => [[]|//|//]. Qed.
End Struct.

Section Vec.
Variables (A : Type) (a : codec A) (va : A -> Prop).

Lemma deser_n_rt v rest : round_trip a va -> (forall x, List.In x v -> va x) ->
  deser_n a (size v) (flatten (map (ser a) v) ++ rest) = Ok (v, rest).
Proof.
move=> ha; elim: v => //= x v IH hv.
rewrite -catA ha /=; last by apply: hv; left.
by rewrite IH // => y hy; apply: hv; right.
Qed.

Lemma flatten_size v : exact_size a ->
  size (flatten (map (ser a) v)) = sumn (map (ser_size a) v).
Proof. by move=> ha; elim: v => //= x v IH; rewrite size_cat IH ha. Qed.

Lemma vec_rt : round_trip a va ->
  round_trip (vec_codec a) (fun v => usize_ok (size v) /\ forall x, List.In x v -> va x).
Proof.
move=> ha v rest [hv hx]; rewrite /=.
by rewrite -catA u64_rt //= Nat2N.id deser_n_rt.
Qed.

Lemma vec_size : exact_size a -> exact_size (vec_codec a).
Proof. by move=> ha v; rewrite /= size_cat size_u64_ser flatten_size. Qed.

Lemma deser_n_canon n s v rest : canonical a -> deser_n a n s = Ok (v, rest) ->
  size v = n /\ s = flatten (map (ser a) v) ++ rest.
Proof.
move=> ha; elim: n s v rest => [|n IH] s v rest /=; first by case=> <- <-.
case e: (deser a s) => [[x s1]|?|?] //=.
case e': (deser_n a n s1) => [[xs s2]|?|?] //= [<- <-].
by have [<- hs1] := IH _ _ _ e'; rewrite (ha _ _ _ e) hs1 /= catA.
Qed.

Lemma vec_canon : canonical a -> canonical (vec_codec a).
Proof.
move=> ha s v rest; rewrite /=.
case e: (deser u64_codec s) => [[len s1]|?|?] //= /(deser_n_canon ha)[hv hs1].
by rewrite (u64_canon e) hs1 -catA hv N2Nat.id.
Qed.

Lemma deser_n_stream n s v rest t : streaming a -> deser_n a n s = Ok (v, rest) ->
  deser_n a n (s ++ t) = Ok (v, rest ++ t).
Proof.
move=> ha; elim: n s v rest => [|n IH] s v rest /=; first by case=> <- <-.
case e: (deser a s) => [[x s1]|?|?] //=.
case e': (deser_n a n s1) => [[xs s2]|?|?] //= [<- <-].
by rewrite (ha _ _ _ t e) /= (IH _ _ _ e').
Qed.

Lemma u64_stream : streaming u64_codec.
Proof.
move=> s x rest t; rewrite !u64_deserE /read_exact size_cat.
case: (ltnP (size s) 8) => // h [<- <-]; rewrite ltnNge (leq_trans h) ?leq_addr //=.
rewrite takel_cat // drop_cat; case: (ltngtP 8 (size s)) h => // e _.
by rewrite e subnn drop0 drop_size.
Qed.

Lemma usize_stream : streaming usize_codec.
Proof.
move=> s x rest t; rewrite !usize_deserE.
by case e: (deser u64_codec s) => [[y s1]|?|?] //= [<- <-]; rewrite (u64_stream t e).
Qed.

Lemma vec_stream : streaming a -> streaming (vec_codec a).
Proof.
move=> ha s v rest t; rewrite /=.
case e: (deser u64_codec s) => [[len s1]|?|?] //= h.
by rewrite (u64_stream t e) /= (deser_n_stream t ha h).
Qed.

Lemma deser_n_nopanic n s : panic_free a -> ~~ is_panic (deser_n a n s).
Proof.
move=> ha; elim: n s => //= n IH s; case: (deser a s) (ha s) => [[x s1]|//|//] /= _.
by case: (deser_n a n s1) (IH s1) => [[]|//|//].
Qed.

Lemma u64_nopanic : panic_free u64_codec.
Proof. by move=> s; rewrite u64_deserE /read_exact; case: ifP. Qed.
Lemma usize_nopanic : panic_free usize_codec.
Proof.
by move=> s; rewrite usize_deserE; case: (deser _ s) (u64_nopanic s) => [[]|//|//].
Qed.

Lemma vec_nopanic : panic_free a -> panic_free (vec_codec a).
Proof.
move=> ha s; rewrite /=.
by case: (deser _ s) (u64_nopanic s) => [[len s1]|//|//] _ /=; apply: deser_n_nopanic.
Qed.

End Vec.

Section Map.
Variables (V : Type) (c : codec V) (vv : V -> Prop).

Lemma map_rt : round_trip c vv ->
  round_trip (map_codec c)
    (fun m => usize_ok (size (bt_iter m)) /\
              forall i v, bt_get m i = Some v -> usize_ok i /\ vv v).
Proof.
move=> hc m rest [hs hv]; rewrite /=.
rewrite -catA u64_rt //= Nat2N.id (@deser_n_rt _ _ (fun x => usize_ok x.1 /\ vv x.2)) //=.
- by rewrite bt_collect_iter.
- exact: pair_rt usize_rt hc.
by case=> i v /bt_get_In/hv.
Qed.

Lemma map_size : exact_size c -> exact_size (map_codec c).
Proof.
move=> hc m; rewrite /ser /ser_size /= size_cat size_u64_ser.
rewrite -[X in X + _]/8 -(@flatten_size _ (pair_codec usize_codec c)) //.
exact: pair_size usize_size hc.
Qed.

Lemma map_ok kvs rest : round_trip c vv -> usize_ok (size kvs) ->
  (forall kv, List.In kv kvs -> usize_ok kv.1 /\ vv kv.2) ->
  deser (map_codec c) (ser u64_codec (N.of_nat (size kvs))
    ++ flatten (map (ser (pair_codec usize_codec c)) kvs) ++ rest) = Ok (bt_collect kvs, rest).
Proof.
move=> hc hs hv; rewrite /deser /= u64_rt //= Nat2N.id.
rewrite -/(pair_codec usize_codec c).
by rewrite (@deser_n_rt _ (pair_codec usize_codec c) (fun x => usize_ok x.1 /\ vv x.2)) //=;
   apply: pair_rt usize_rt hc.
Qed.

Lemma map_okE s m rest : canonical c -> deser (map_codec c) s = Ok (m, rest) ->
  exists kvs, [/\ usize_ok (size kvs), m = bt_collect kvs
    & s = ser u64_codec (N.of_nat (size kvs))
          ++ flatten (map (ser (pair_codec usize_codec c)) kvs) ++ rest].
Proof.
move=> hc; rewrite /=.
case e: (deser u64_codec s) => [[len s1]|?|?] //=.
case e': (deser_n _ _ s1) => [[kvs s2]|?|?] //= [<- <-].
have [hv hs1] := deser_n_canon (pair_canon usize_canon hc) e'.
exists kvs; rewrite hv N2Nat.id; split=> //; last by rewrite (u64_canon e) hs1.
by rewrite /usize_ok N2Nat.id; apply: u64_bnd e.
Qed.

Lemma map_stream : streaming c -> streaming (map_codec c).
Proof.
move=> hc s m rest t; rewrite /=.
case e: (deser u64_codec s) => [[len s1]|?|?] //=.
case e': (deser_n _ _ s1) => [[kvs s2]|?|?] //= [<- <-].
by rewrite (u64_stream t e) /= (deser_n_stream t (pair_stream usize_stream hc) e').
Qed.

End Map.

(** ** The byte arrays of lib.rs *)

Lemma array_serE s : array_ser s = s.
Proof. by rewrite /array_ser; elim: s => //= b s ->. Qed.
Lemma array_sizeE s : array_size s = size s.
Proof. by rewrite /array_size; elim: s => //= b s ->. Qed.

Lemma array_from_fn_ok k (t : k.-tuple byte) rest : array_from_fn k (t ++ rest) = Ok (t, rest).
Proof.
elim: k t => [|k IH] t; first by rewrite /= (tuple0 t).
by case/tupleP: t => b t /=; rewrite IH /=; congr (Ok (_, _)); apply: val_inj.
Qed.

Lemma array_from_fn_short k s : size s < k -> array_from_fn k s = Panic UnwrapErr.
Proof. by elim: k s => // k IH [|b s] //= h; rewrite IH. Qed.

Lemma array_from_fn_long k s : k <= size s ->
  exists2 t : k.-tuple byte, array_from_fn k s = Ok (t, drop k s) & tval t = take k s.
Proof.
move=> h; have hs : size (take k s) == k by rewrite size_takel.
exists (Tuple hs) => //; rewrite -{1}(cat_take_drop k s).
by rewrite -[take k s]/(tval (Tuple hs)) array_from_fn_ok.
Qed.

Lemma array_from_fn_okE k s t rest : array_from_fn k s = Ok (t, rest) -> s = t ++ rest.
Proof.
case: (ltnP (size s) k) => [/array_from_fn_short -> //|/array_from_fn_long[t' -> e] [<- <-]].
by rewrite e cat_take_drop.
Qed.

Arguments array_from_fn : simpl never.

Section Arrays.
Lemma digest_rt : round_trip digest_codec anyv.
Proof. by move=> d rest _; rewrite /deser /ser /= array_serE array_from_fn_ok. Qed.
Lemma public_key_rt : round_trip public_key_codec anyv.
Proof. by move=> d rest _; rewrite /deser /ser /= array_serE array_from_fn_ok. Qed.
Lemma secret_key_rt : round_trip secret_key_codec anyv.
Proof. by move=> d rest _; rewrite /deser /ser /= array_serE array_from_fn_ok. Qed.

Lemma sig_splitK : cancel sig_flatten sig_split.
Proof.
case=> [p1 p2]; rewrite /sig_split; congr Sig; apply: val_inj => /=.
  by rewrite take_size_cat ?size_tuple.
by rewrite drop_size_cat ?size_tuple.
Qed.
Lemma sig_flattenK : cancel sig_split sig_flatten.
Proof. by move=> t; apply: val_inj; rewrite /= cat_take_drop. Qed.

Lemma signature_rt : round_trip signature_codec anyv.
Proof.
move=> x rest _; rewrite /deser /ser /= !array_serE.
by rewrite -[part1 x ++ part2 x]/(tval (sig_flatten x)) array_from_fn_ok /= sig_splitK.
Qed.

Lemma digest_size : exact_size digest_codec.
Proof. by move=> d; rewrite /= array_serE array_sizeE. Qed.
Lemma public_key_size : exact_size public_key_codec.
Proof. by move=> d; rewrite /= array_serE array_sizeE. Qed.
Lemma secret_key_size : exact_size secret_key_codec.
Proof. by move=> d; rewrite /= array_serE array_sizeE. Qed.
Lemma signature_size : exact_size signature_codec.
Proof. by move=> d; rewrite /= size_cat !array_serE !array_sizeE. Qed.

Lemma digest_canon : canonical digest_codec.
Proof. by move=> s t rest /= /array_from_fn_okE ->; rewrite array_serE. Qed.
Lemma public_key_canon : canonical public_key_codec.
Proof. by move=> s t rest /= /array_from_fn_okE ->; rewrite array_serE. Qed.
Lemma secret_key_canon : canonical secret_key_codec.
Proof. by move=> s t rest /= /array_from_fn_okE ->; rewrite array_serE. Qed.
Lemma signature_canon : canonical signature_codec.
Proof.
move=> s t rest; rewrite /deser /signature_codec.
case e: (array_from_fn 64 s) => [[r s']|?|?] //= [<- <-].
by rewrite (array_from_fn_okE e) !array_serE -[_ ++ drop 32 r]/(tval (sig_flatten (sig_split r)))
           sig_flattenK.
Qed.

Lemma array_stream k s t rest u : array_from_fn k s = Ok (t, rest) ->
  array_from_fn k (s ++ u) = Ok (t, rest ++ u).
Proof. by move/array_from_fn_okE ->; rewrite -catA array_from_fn_ok. Qed.

Lemma public_key_stream : streaming public_key_codec.
Proof. by move=> s t rest u; apply: array_stream. Qed.
Lemma signature_stream : streaming signature_codec.
Proof.
move=> s t rest u; rewrite /deser /signature_codec.
by case e: (array_from_fn 64 s) => [[r s']|?|?] //= [<- <-]; rewrite (array_stream u e).
Qed.
End Arrays.

(** ** Consequences of the round trip *)

Section Consequences.
Variables (A : Type) (c : codec A) (valid : A -> Prop).

Lemma rt_unambiguous : round_trip c valid -> unambiguous c valid.
Proof.
move=> h a a' rest rest' va va' e; have := h a rest va.
by rewrite e h // => -[<- <-].
Qed.

Lemma rt_prefix_free : round_trip c valid -> streaming c -> prefix_free c valid.
Proof.
move=> h st a k va hk; apply/negP => /is_okP[[a' r] e].
have := st _ _ _ (drop k (ser c a)) e; rewrite cat_take_drop.
have := h a [::] va; rewrite cats0 => -> [_ /(congr1 size)].
by rewrite size_cat size_drop /=; lia.
Qed.

End Consequences.
