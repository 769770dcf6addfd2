(** * PropsSharpText: exact versions of C42, C44 and C53 *)

From Coq Require Import NArith Strings.Byte.
From mathcomp Require Import all_ssreflect all_algebra zify.
From Verif Require Import Prelude Errors BTreeMap Engine LibModel SigmaModel PvssModel Base64Model.
From Verif Require Import PreludeProofs Spec PvssProofs CodecModel CodecSpec CodecProofs Instance
  PropsCodec PropsText.

Set Implicit Arguments.
Unset Strict Implicit.
Unset Printing Implicit Defensive.

(** ** C42: reading a key from text, exactly *)

(** The text is the base64 form of [bs], with complete, partial or no padding. *)
Definition text_of (s bs : seq byte) : Prop :=
  exists2 p, p <= pads_of bs & s ++ nseq p PAD_BYTE = b64_encode bs.

Lemma text_ofE s bs : text_of s bs <-> b64_decode s = Ok bs.
Proof.
split=> [[p hp e]|/b64_decode_okE[p hp ->]]; last first.
  exists (pads_of bs - p); first by lia.
  by rewrite b64_encodeE -catA cat_nseq /ncons -iterD -/(ncons _ _ _) subnKC.
have : s = [seq symbol v | v <- sextets bs] ++ nseq (pads_of bs - p) PAD_BYTE.
  have hn : nseq (pads_of bs) PAD_BYTE = nseq (pads_of bs - p) PAD_BYTE ++ nseq p PAD_BYTE.
    by rewrite cat_nseq /ncons -iterD -/(ncons _ _ _) subnK.
  move: e; rewrite b64_encodeE hn catA => e; have := congr1 size e.
  rewrite [size (s ++ _)]size_cat [RHS]size_cat !size_nseq => /addIn hsz.
  by move/eqP: e; rewrite eqseq_cat // => /andP[/eqP].
by move=> ->; apply: b64_decode_pads; rewrite leq_subr.
Qed.

(** Accepted exactly if the text is base64 and the bytes are at least as many as the key's, of
    which the first are taken; Err exactly if it is not base64; a panic exactly if it is and
    the bytes are too few. *)
Theorem C42_exact_partial s :
  [/\ forall k, public_key_from_base64 s = Ok k <-> exists extra, text_of s (k ++ extra),
      is_err (public_key_from_base64 s) <-> ~ exists bs, text_of s bs,
      public_key_from_base64 s = Panic SliceOutOfBounds <-> exists2 bs, text_of s bs & size bs < 32
    & is_panic (public_key_from_base64 s) <-> exists2 bs, text_of s bs & size bs < 32] /\
  [/\ forall k, secret_key_from_base64 s = Ok k <-> exists extra, text_of s (k ++ extra),
      is_err (secret_key_from_base64 s) <-> ~ exists bs, text_of s bs,
      secret_key_from_base64 s = Panic SliceOutOfBounds <-> exists2 bs, text_of s bs & size bs < 64
    & is_panic (secret_key_from_base64 s) <-> exists2 bs, text_of s bs & size bs < 64].
Proof.
have gen n : let r : outcome decode_error (n.-tuple byte) := (let! bs := b64_decode s in slice_to n bs) in
  [/\ forall k, r = Ok k <-> exists extra, text_of s (k ++ extra),
      is_err r <-> ~ exists bs, text_of s bs,
      r = Panic SliceOutOfBounds <-> exists2 bs, text_of s bs & size bs < n
    & is_panic r <-> exists2 bs, text_of s bs & size bs < n].
  have := b64_decode_nopanic s.
  case e: (b64_decode s) => [bs|er|//] _ r; rewrite /r {r}; last first.
    have no bs : ~ text_of s bs by rewrite text_ofE e.
    split=> //=.
    - by move=> k; split=> // -[x /no].
    - by split=> // _ [bs /no].
    - by split=> // -[bs /no].
    - by split=> // -[bs /no].
  have tb : text_of s bs by apply/text_ofE.
  rewrite obindE.
  have un bs' : text_of s bs' -> bs' = bs by rewrite text_ofE e => -[].
  case: (ltnP (size bs) n) => hs.
    rewrite slice_to_short //; split=> //=.
    + move=> k; split=> // -[x /un ex]; move: hs; rewrite -ex size_cat size_tuple; lia.
    + by split=> // -[]; exists bs.
    + by split=> // _; exists bs.
    + by split=> // _; exists bs.
  have ht : size (take n bs) == n by rewrite size_takel.
  have -> : slice_to n bs = Ok (Tuple ht) :> outcome decode_error _.
    by have := @slice_to_ok decode_error _ (Tuple ht) (drop n bs); rewrite /= cat_take_drop.
  split=> //=.
  + move=> k; split=> [[<-]|[x /un ex]].
      by exists (drop n bs); rewrite /= cat_take_drop.
    by congr Ok; apply: val_inj; rewrite /= -ex take_size_cat // size_tuple.
  + by split=> // -[]; exists bs.
  + by split=> // -[bs' /un-> ]; rewrite ltnNge hs.
  + by split=> // -[bs' /un-> ]; rewrite ltnNge hs.
by split; apply: gen.
Qed.

(** ** C44: exactly which bytes read as a transcript *)

Section Sharp.
Variable E : engine.

Lemma map_yields V (c : codec V) (P : V -> Prop) s m rest : canonical c -> yields c P ->
  deser (map_codec c) s = Ok (m, rest) ->
  exists kvs, [/\ usize_ok (size kvs), m = bt_collect kvs,
    s = ser u64_codec (N.of_nat (size kvs))
        ++ flatten (map (ser (pair_codec usize_codec c)) kvs) ++ rest
    & forall kv, List.In kv kvs -> usize_ok kv.1 /\ P kv.2].
Proof.
move=> hc hy; rewrite /map_codec; cbn [deser].
case e: (deser u64_codec s) => [[len s1]|?|?] //; cbn [obind].
case e': (deser_n _ _ s1) => [[kvs s2]|?|?] //; cbn [obind] => -[<- <-].
have hp : yields (pair_codec usize_codec c) (fun kv => usize_ok kv.1 /\ P kv.2).
  move=> u [k v] r f; have [u1 f1 f2] := pair_okE f.
  by split; [exact: usize_bnd f1|exact: hy f2].
have [hs hin] := deser_n_yields hp e'.
have [_ hs1] := deser_n_canon (pair_canon usize_canon hc) e'.
exists kvs; split=> //; first by rewrite /usize_ok hs N2Nat.id; exact: u64_bnd e.
by rewrite (u64_canon e) hs1 hs N2Nat.id.
Qed.

(** The bytes that read as [x] are its head followed by any list of contributions that
    collects to those of [x], each of them and their number within 64 bits. *)
Theorem C44_exact_partial s (x : PVSSAggregatedShare E) rest :
  base_canonical E ->
  deser (transcript_codec E) s = Ok (x, rest) <->
  transcript_fits x /\
  exists kvs, [/\ s = transcript_head x ++ entries_bytes kvs ++ rest,
                  as_contributions x = bt_collect kvs, usize_ok (size kvs)
                & forall kv, List.In kv kvs -> usize_ok kv.1 /\ u64_ok kv.2.2].
Proof.
move=> bc; split=> [h|[fx [kvs [-> ec hs hk]]]]; last exact: C44_any_order_refuted.
split; first exact: C55_transcript_fits h.
case: (bc) => h1 h2 h3; have hp : canonical (signed_codec E).
  apply/struct_canon; [by case|apply/pair_canon/signature_canon].
  apply/struct_canon; [by case|apply/pair_canon/h2].
  by apply/struct_canon; [case=> a []|apply/pair_canon/pair_canon].
have hc : canonical (core_codec E).
  by apply/struct_canon; [case|apply/pair_canon/vec_canon/h2/vec_canon/h1].
move: h; rewrite transcript_deserE; case e: (deser _ s) => [[[n [t [c m]]] r]|?|?] // [<- <-].
have [s1 e1 h4] := pair_okE e; have [s2 e2 h5] := pair_okE h4.
have [s3 e3 e4] := pair_okE h5.
have hy : yields (pair_codec (signed_codec E) u64_codec) (fun v => u64_ok v.2).
  by move=> u [sp w] v e8; have [u2 f3 f4] := pair_okE e8; exact: u64_bnd f4.
have [kvs [hs em e5 hin]] := map_yields (pair_canon hp u64_canon) hy e4.
exists kvs; split=> //.
rewrite (usize_canon e1) (usize_canon e2) (hc _ _ _ e3) e5 /transcript_head.
by rewrite /entries_bytes -!catA.
Qed.

(** ** C53: exactly which bytes make the reading panic *)

(** [xs] are read one after the other from [s], and [s'] remains. *)
Fixpoint reads_all A (c : codec A) (s : seq byte) (xs : seq A) (s' : seq byte) : Prop :=
  if xs is x :: xs' then exists2 s1, deser c s = Ok (x, s1) & reads_all c s1 xs' s' else s = s'.

Lemma deser_n_panic A (c : codec A) n s :
  is_panic (deser_n c n s) <->
  exists xs s', [/\ size xs < n, reads_all c s xs s' & is_panic (deser c s')].
Proof.
elim: n s => [|n IH] s /=; first by split=> // -[xs [s' []]].
case e: (deser c s) => [[x s1]|er|pn] /=.
- rewrite -[is_panic _]/(is_panic (let! (xs, s2) := deser_n c n s1 in Ok (x :: xs, s2))).
  have -> : is_panic (let! (xs, s2) := deser_n c n s1 in Ok (x :: xs, s2))
            = is_panic (deser_n c n s1) by case: (deser_n c n s1) => [[]|?|?].
  rewrite IH; split=> [[xs [s' [h1 h2 h3]]]|[[|y xs] [s' []]]] /=.
  + by exists (x :: xs), s'; split=> //=; exists s1.
  + by move=> _ <-; rewrite e.
  + by move=> h1 [s1']; rewrite e => -[_ <-] h2 h3; exists xs, s'.
- split=> // -[[|y xs] [s' []]] /=; first by move=> _ <-; rewrite e.
  by move=> _ [s1']; rewrite e.
by split=> // _; exists [::], s; rewrite e.
Qed.

Local Opaque core_codec decomp_codec signature_codec public_key_codec.

Lemma signed_deserE s : deser (signed_codec E) s =
  let! (dp, s3) := deser (decomp_codec E) s in
  let! (sg, s4) := deser signature_codec s3 in Ok (MkSigned dp sg, s4).
Proof.
rewrite /signed_codec /struct_codec /pair_codec; cbn [deser].
case: (deser (decomp_codec E) s) => [[dp s3]|?|?] //; cbn [obind].
by case: (deser signature_codec s3) => [[sg s4]|?|?].
Qed.

Lemma signature_panic s : is_panic (deser signature_codec s) = (size s < 64).
Proof.
have [_ _ _ t] := C40_truncated_refuted s; have [_ _ _] := C40_ok_iff_long_partial s.
case: (ltnP (size s) _) => h; first by rewrite t.
by case: (deser signature_codec s).
Qed.

Lemma public_key_panic s : is_panic (deser public_key_codec s) = (size s < 32).
Proof.
have [_ t _ _] := C40_truncated_refuted s; have [_ + _ _] := C40_ok_iff_long_partial s.
case: (ltnP (size s) _) => h; first by rewrite t.
by case: (deser public_key_codec s).
Qed.

(** A signed proof: it reads up to the signature, of which fewer than 64 bytes are there. *)
Definition cut_signed s : Prop :=
  exists dp s', deser (decomp_codec E) s = Ok (dp, s') /\ size s' < 64.

Lemma signed_panic s : is_panic (deser (signed_codec E) s) <-> cut_signed s.
Proof.
rewrite signed_deserE /cut_signed; case e: (deser (decomp_codec E) s) => [[dp s3]|?|?] /=.
- case: (deser signature_codec s3) (signature_panic s3) => [[sg s4]|?|?] /= h;
    split=> //; try by case=> dp' [s' []] [_ <-]; rewrite -h.
  by move=> _; exists dp, s3; rewrite -h.
- by split=> // -[dp [s' []]].
by have := @decomp_nopanic E s; rewrite e.
Qed.

(** The other two: a participant is cut inside its key, a transcript inside the signature of
    some contribution, everything before which reads well. *)
Theorem C53_exact_partial s :
  [/\ is_panic (deser (signed_codec E) s) <-> cut_signed s,
      is_panic (deser (participant_codec E) s) <->
        (exists id pk s1 s2, [/\ deser usize_codec s = Ok (id, s1),
           deser (pt_codec (G1 E)) s1 = Ok (pk, s2) & size s2 < 32])
    & is_panic (deser (transcript_codec E) s) <->
        (exists n t core len s1 s2 s3 s4,
           [/\ deser usize_codec s = Ok (n, s1), deser usize_codec s1 = Ok (t, s2),
               deser (core_codec E) s2 = Ok (core, s3) & deser u64_codec s3 = Ok (len, s4)] /\
           exists kvs s5 id s6,
             [/\ (N.of_nat (size kvs) < len)%num,
                 reads_all (pair_codec usize_codec (pair_codec (signed_codec E) u64_codec)) s4 kvs s5,
                 deser usize_codec s5 = Ok (id, s6) & cut_signed s6])].
Proof.
split; first exact: signed_panic.
- rewrite /participant_codec /struct_codec /pair_codec; cbn [deser].
  case e1: (deser usize_codec s) => [[id s1]|?|?]; cbn [obind]; last first.
  + by have := usize_nopanic s; rewrite e1.
  + by split=> // -[? [? [? [? []]]]]; rewrite ?e1.
  case e2: (deser (pt_codec (G1 E)) s1) => [[pk s2]|?|?]; cbn [obind]; last first.
  + by have := @pt_nopanic _ (G1 E) s1; rewrite e2.
  + by split=> // -[? [? [? [? [[_ <-]]]]]]; rewrite ?e2.
  have := public_key_panic s2.
  case: (deser public_key_codec s2) => [[ed s3]|?|?]; cbn [obind is_panic] => h; split=> //;
    try by case=> id' [pk' [s1' [s2' [[_ <-]]]]]; rewrite e2 => -[_ <-]; rewrite -h.
  by move=> _; exists id, pk, s1, s2; rewrite -h.
rewrite transcript_deserE.
set cc := pair_codec usize_codec (pair_codec (signed_codec E) u64_codec).
have -> : is_panic (let! (x, s') := deser (pair_codec usize_codec (pair_codec usize_codec (pair_codec
      (core_codec E) (map_codec (pair_codec (signed_codec E) u64_codec))))) s in
    Ok ((let: (a, (b, (c, d))) := x in MkAgg a b c d), s') : outcome serialization_error _)
  = is_panic (let! (n, s1) := deser usize_codec s in let! (t, s2) := deser usize_codec s1 in
      let! (c, s3) := deser (core_codec E) s2 in let! (len, s4) := deser u64_codec s3 in
      deser_n cc (N.to_nat len) s4).
  rewrite /pair_codec /map_codec; cbn [deser].
  case: (deser usize_codec s) => [[n s1]|?|?] //; cbn [obind].
  case: (deser usize_codec s1) => [[t s2]|?|?] //; cbn [obind].
  case: (deser (core_codec E) s2) => [[c s3]|?|?] //; cbn [obind].
  case: (deser u64_codec s3) => [[len s4]|?|?] //; cbn [obind].
  by rewrite -/cc; case: (deser_n cc _ s4) => [[]|?|?].
case e1: (deser usize_codec s) => [[n s1]|?|?]; cbn [obind]; last first.
- by have := usize_nopanic s; rewrite e1.
- by split=> // -[? [? [? [? [? [? [? [? [[]]]]]]]]]].
case e2: (deser usize_codec s1) => [[t s2]|?|?]; cbn [obind]; last first.
- by have := usize_nopanic s1; rewrite e2.
- by split=> // -[? [? [? [? [? [? [? [? [[[_ <-]]]]]]]]]]]; rewrite e2.
case e3: (deser (core_codec E) s2) => [[c s3]|?|?]; cbn [obind]; last first.
- by have := @core_nopanic E s2; rewrite e3.
- by split=> // -[? [? [? [? [? [? [? [? [[[_ <-]]]]]]]]]]]; rewrite e2 => -[_ <-]; rewrite e3.
case e4: (deser u64_codec s3) => [[len s4]|?|?]; cbn [obind]; last first.
- by have := u64_nopanic s3; rewrite e4.
- by split=> // -[? [? [? [? [? [? [? [? [[[_ <-]]]]]]]]]]]; rewrite e2 => -[_ <-]; rewrite e3 => -[_ <-]; rewrite e4.
have ccp s' : is_panic (deser cc s') <-> exists id s6, deser usize_codec s' = Ok (id, s6) /\ cut_signed s6.
  rewrite /cc /pair_codec; cbn [deser].
  case f1: (deser usize_codec s') => [[id s6]|?|?]; cbn [obind]; last first.
  - by have := usize_nopanic s'; rewrite f1.
  - by split=> // -[? [? []]].
  have := signed_panic s6; case: (deser (signed_codec E) s6) => [[sp s7]|?|?]; cbn [obind] => h.
  - case f3: (deser u64_codec s7) => [[w s8]|?|?]; cbn [obind]; last first.
    + by have := u64_nopanic s7; rewrite f3.
    + by split=> // -[? [? [[_ <-]]]] /h.
    by split=> // -[? [? [[_ <-]]]] /h.
  - by split=> // -[? [? [[_ <-]]]] /h.
  by split=> // _; exists id, s6; split=> //; apply/h.
rewrite deser_n_panic; split.
  case=> kvs [s5 [h1 h2 /ccp[id [s6 [h3 h4]]]]].
  exists n, t, c, len, s1, s2, s3, s4; split=> //; exists kvs, s5, id, s6; split=> //; lia.
case=> n' [t' [c' [len' [s1' [s2' [s3' [s4' [[]]]]]]]]].
move=> [_ <-]; rewrite e2 => -[_ <-]; rewrite e3 => -[_ <-]; rewrite e4 => -[<- <-].
case=> kvs [s5 [id [s6 [h1 h2 h3 h4]]]]; exists kvs, s5; split=> //; first by lia.
by apply/ccp; exists id, s6.
Qed.

End Sharp.
Print Assumptions C42_exact_partial.
Print Assumptions C44_exact_partial.
Print Assumptions C53_exact_partial.

(** Cases: a text without padding; one that is too short; the transcript of the toy setting cut
    inside the signature of its last contribution. *)
Example C42_exact_example :
  text_of (take 43 (b64_encode (nseq 32 x41%byte))) (nseq 32 x41%byte) /\
  text_of (b64_encode [:: x41]%byte) [:: x41]%byte.
Proof. by split; [exists 1 | exists 0]. Qed.

Example C44_exact_example : base_canonical TE /\ transcript_fits ttrans.
Proof. exact: (conj TE_base_canonical ttrans_fits). Qed.

Example C53_exact_example :
  let bs := ser (transcript_codec TE) ttrans in
  is_panic (deser (transcript_codec TE) (take (size bs - 9) bs)) /\
  ~~ is_panic (deser (transcript_codec TE) (take (size bs - 8) bs)).
Proof. by split; vm_compute. Qed.
