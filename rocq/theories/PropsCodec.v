(** * PropsCodec: C39, C40, C43, C44 and the byte strings of C45 *)

From Coq Require Import NArith Strings.Byte.
From mathcomp Require Import all_ssreflect all_algebra zify.
From Verif Require Import Prelude Errors BTreeMap Engine LibModel SigmaModel PvssModel.
From Verif Require Import PreludeProofs Spec PvssProofs CodecModel CodecSpec CodecProofs Instance.

Set Implicit Arguments.
Unset Strict Implicit.
Unset Printing Implicit Defensive.

(** ** C39: the byte-array types *)

(** Each value comes back, whatever follows it. *)
Theorem C39_round_trip :
  [/\ round_trip digest_codec anyv, round_trip public_key_codec anyv,
      round_trip secret_key_codec anyv & round_trip signature_codec anyv].
Proof.
by split; [exact: digest_rt|exact: public_key_rt|exact: secret_key_rt|exact: signature_rt].
Qed.

(** What is written is the bytes of the value, 32, 32, 64 and 64 of them, as
    [serialized_size] says. *)
Theorem C39_bytes_and_sizes (d : Digest) (pk : PublicKey) (sk : SecretKey) (x : Signature) :
  [/\ ser digest_codec d = d /\ ser_size digest_codec d = 32,
      ser public_key_codec pk = pk /\ ser_size public_key_codec pk = 32,
      ser secret_key_codec sk = sk /\ ser_size secret_key_codec sk = 64
    & ser signature_codec x = part1 x ++ part2 x /\ ser_size signature_codec x = 64].
Proof.
by split; split; rewrite /= ?array_serE ?array_sizeE ?size_tuple.
Qed.

Theorem C39_injective :
  [/\ injective (ser digest_codec), injective (ser public_key_codec),
      injective (ser secret_key_codec) & injective (ser signature_codec)].
Proof.
have inj A (c : codec A) : round_trip c anyv -> injective (ser c).
  by move=> h a b e; have := h a [::] I; rewrite e h // => -[].
by split; apply: inj;
   [exact: digest_rt|exact: public_key_rt|exact: secret_key_rt|exact: signature_rt].
Qed.

(** Every long enough string decodes: to its first bytes. *)
Theorem C39_total s :
  [/\ 32 <= size s -> exists2 d, deser digest_codec s = Ok (d, drop 32 s) & tval d = take 32 s,
      32 <= size s -> exists2 k, deser public_key_codec s = Ok (k, drop 32 s)
                                 & tval k = take 32 s,
      64 <= size s -> exists2 k, deser secret_key_codec s = Ok (k, drop 64 s)
                                 & tval k = take 64 s
    & 64 <= size s -> exists2 x, deser signature_codec s = Ok (x, drop 64 s)
                                 & part1 x ++ part2 x = take 64 s :> seq byte].
Proof.
split; try exact: array_from_fn_long.
case/array_from_fn_long => t e et; exists (sig_split t).
  by rewrite /deser /= e.
by rewrite -[_ ++ _]/(tval (sig_flatten (sig_split t))) sig_flattenK.
Qed.

(** A case: two different digests, followed by a stray byte. *)
Example C39_example :
  deser digest_codec (ser digest_codec (tpk 3) ++ [:: x07]) = Ok (tpk 3, [:: x07]) /\
  ser digest_codec (tpk 3) != ser digest_codec (tpk 4).
Proof. by split; [apply: digest_rt | vm_compute]. Qed.

(** [Digest::try_from] accepts exactly the slices of 32 bytes and keeps them. *)
Theorem C39_try_from s :
  (size s = 32 -> exists2 d, digest_try_from s = Ok d & tval d = s) /\
  (size s <> 32 -> digest_try_from s = Err TryFromSliceError).
Proof.
rewrite /digest_try_from; split=> [/eqP h|/eqP/negPf h].
  by exists (Tuple h) => //; rewrite insubT.
by rewrite insubF.
Qed.

(** ** C40: truncated input *)

Definition C40_full : Prop := forall s,
  [/\ size s < 32 -> is_err (deser digest_codec s),
      size s < 32 -> is_err (deser public_key_codec s),
      size s < 64 -> is_err (deser secret_key_codec s)
    & size s < 64 -> is_err (deser signature_codec s)].

(** The [unwrap] inside [array::from_fn] turns every short input into a panic. *)
Theorem C40_truncated_refuted s :
  [/\ size s < 32 -> deser digest_codec s = Panic UnwrapErr,
      size s < 32 -> deser public_key_codec s = Panic UnwrapErr,
      size s < 64 -> deser secret_key_codec s = Panic UnwrapErr
    & size s < 64 -> deser signature_codec s = Panic UnwrapErr].
Proof.
split=> h; try exact: array_from_fn_short.
by rewrite /deser /signature_codec array_from_fn_short.
Qed.

Theorem C40_full_refuted : ~ C40_full.
Proof.
by case/(_ [::]) => /(_ isT) h _ _ _; move: h; have [->] := C40_truncated_refuted [::].
Qed.

(** The part that holds: a short input is never taken for a value, and a long enough one is
    never refused. *)
Theorem C40_ok_iff_long_partial s :
  [/\ is_ok (deser digest_codec s) = (32 <= size s),
      is_ok (deser public_key_codec s) = (32 <= size s),
      is_ok (deser secret_key_codec s) = (64 <= size s)
    & is_ok (deser signature_codec s) = (64 <= size s)].
Proof.
have [l1 l2 l3 l4] := C39_total s; have [s1 s2 s3 s4] := C40_truncated_refuted s.
split; rewrite leqNgt.
- by case: ltnP => [/s1|/l1[? ]] ->.
- by case: ltnP => [/s2|/l2[? ]] ->.
- by case: ltnP => [/s3|/l3[? ]] ->.
by case: ltnP => [/s4|/l4[? ]] ->.
Qed.

(** ** C43: composite messages *)

Section Composite.
Variable E : engine.

Lemma dlk_proof_rt (C : curve (modulus E)) : round_trip (dlk_proof_codec C) anyv.
Proof.
by apply: struct_rt (pair_rt (@pt_rt _ _) (pair_rt (@fr_rt E) (@fr_rt E))) => // -[].
Qed.
Lemma dleq_proof_rt (C1 C2 : curve (modulus E)) : round_trip (dleq_proof_codec C1 C2) anyv.
Proof.
by apply: struct_rt (pair_rt (pair_rt (@pt_rt _ _) (@pt_rt _ _))
                       (pair_rt (@fr_rt E) (@fr_rt E))) => // -[].
Qed.
Lemma schnorr_sig_rt (C : curve (modulus E)) : round_trip (schnorr_sig_codec C) anyv.
Proof. by move=> [P x] rest _; apply: (pair_rt (@pt_rt _ _) (@fr_rt E)). Qed.
Lemma dleq_srs_rt (C1 C2 : curve (modulus E)) : round_trip (dleq_srs_codec C1 C2) anyv.
Proof. by move=> [P x] rest _; apply: (pair_rt (@pt_rt _ _) (@pt_rt _ _)). Qed.
Lemma srs_rt : round_trip (srs_codec E) anyv.
Proof.
by apply: struct_rt (pair_rt (@pt_rt _ _) (pair_rt (@pt_rt _ _) (@pt_rt _ _))) => // -[].
Qed.
Lemma config_rt : round_trip (config_codec E) (@config_fits E).
Proof.
apply: struct_rt (pair_rt srs_rt (pair_rt usize_rt usize_rt)); first by case.
by case=> a b c [].
Qed.
Lemma participant_rt : round_trip (participant_codec E) (@participant_fits E).
Proof.
by apply: struct_rt (pair_rt usize_rt (pair_rt (@pt_rt _ _) public_key_rt)); first case.
Qed.
Lemma decomp_rt : round_trip (decomp_codec E) anyv.
Proof. by apply: struct_rt (pair_rt (@dlk_proof_rt _) (@pt_rt _ _)) => // -[]. Qed.
Lemma signed_rt : round_trip (signed_codec E) anyv.
Proof. by apply: struct_rt (pair_rt decomp_rt signature_rt) => // -[]. Qed.
Lemma core_rt : round_trip (core_codec E) (@core_fits E).
Proof.
apply: struct_rt (pair_rt (vec_rt (@pt_rt _ _)) (vec_rt (@pt_rt _ _))); first by case.
by case=> a b [].
Qed.
Lemma share_rt : round_trip (share_codec E) (@share_fits E).
Proof.
apply: struct_rt (pair_rt usize_rt (pair_rt core_rt signed_rt)); first by case.
by case=> a b c [].
Qed.
Lemma transcript_rt : round_trip (transcript_codec E) (@transcript_fits E).
Proof.
apply: struct_rt (pair_rt usize_rt (pair_rt usize_rt (pair_rt core_rt
         (map_rt (pair_rt signed_rt u64_rt))))); first by case.
case=> a b c d [? ? ? ? h]; do 4!split=> //.
by move=> i [sp w] /h[? ?]; do !split.
Qed.

(** Reading back what was written. *)
Theorem C43_round_trip :
  [/\ [/\ round_trip (config_codec E) (@config_fits E),
          round_trip (participant_codec E) (@participant_fits E),
          round_trip (core_codec E) (@core_fits E),
          round_trip (share_codec E) (@share_fits E)
        & round_trip (transcript_codec E) (@transcript_fits E)],
      [/\ round_trip (srs_codec E) anyv, round_trip (decomp_codec E) anyv
        & round_trip (signed_codec E) anyv]
    & forall C1 C2 : curve (modulus E),
      [/\ round_trip (dlk_proof_codec C1) anyv, round_trip (dleq_proof_codec C1 C2) anyv,
          round_trip (schnorr_sig_codec C1) anyv, round_trip (one_point_srs_codec C1) anyv
        & round_trip (dleq_srs_codec C1 C2) anyv]].
Proof.
split=> [||C1 C2]; split.
- exact: config_rt.
- exact: participant_rt.
- exact: core_rt.
- exact: share_rt.
- exact: transcript_rt.
- exact: srs_rt.
- exact: decomp_rt.
- exact: signed_rt.
- exact: dlk_proof_rt.
- exact: dleq_proof_rt.
- exact: schnorr_sig_rt.
- exact: pt_rt.
exact: dleq_srs_rt.
Qed.

Lemma decomp_size : exact_size (decomp_codec E).
Proof.
apply/struct_size/pair_size/pt_size/struct_size/pair_size; first exact: pt_size.
by apply: pair_size; apply: fr_size.
Qed.
Lemma signed_size : exact_size (signed_codec E).
Proof. exact/struct_size/pair_size/signature_size/decomp_size. Qed.
Lemma core_size : exact_size (core_codec E).
Proof. by apply/struct_size/pair_size; apply/vec_size/pt_size. Qed.
Lemma srs_size : exact_size (srs_codec E).
Proof. by apply/struct_size/pair_size; [|apply/pair_size]; apply/pt_size. Qed.

(** [serialized_size] is exact. *)
Theorem C43_exact_size :
  [/\ [/\ exact_size (config_codec E), exact_size (participant_codec E),
          exact_size (core_codec E), exact_size (share_codec E)
        & exact_size (transcript_codec E)],
      [/\ exact_size (srs_codec E), exact_size (decomp_codec E)
        & exact_size (signed_codec E)]
    & forall C1 C2 : curve (modulus E),
      [/\ exact_size (dlk_proof_codec C1), exact_size (dleq_proof_codec C1 C2),
          exact_size (schnorr_sig_codec C1), exact_size (one_point_srs_codec C1)
        & exact_size (dleq_srs_codec C1 C2)]].
Proof.
split=> [||C1 C2]; split; try exact: core_size; try exact: decomp_size; try exact: srs_size;
  try exact: signed_size; try exact: pt_size.
- exact/struct_size/pair_size/pair_size/usize_size/usize_size/srs_size.
- exact/struct_size/pair_size/pair_size/public_key_size/pt_size/usize_size.
- exact/struct_size/pair_size/pair_size/signed_size/core_size/usize_size.
- apply/struct_size/pair_size/pair_size/pair_size/map_size/pair_size/u64_size/signed_size;
    try exact: usize_size; exact: core_size.
- by apply/struct_size/pair_size/pair_size/fr_size/fr_size/pt_size.
- by apply/struct_size/pair_size/pair_size/fr_size/fr_size/pair_size/pt_size/pt_size.
- exact/pair_size/fr_size/pt_size.
exact/pair_size/pt_size/pt_size.
Qed.

(** Different values have different bytes, also inside a longer message. *)
Theorem C43_unambiguous :
  [/\ [/\ unambiguous (config_codec E) (@config_fits E),
          unambiguous (participant_codec E) (@participant_fits E),
          unambiguous (core_codec E) (@core_fits E),
          unambiguous (share_codec E) (@share_fits E)
        & unambiguous (transcript_codec E) (@transcript_fits E)],
      [/\ unambiguous (srs_codec E) anyv, unambiguous (decomp_codec E) anyv
        & unambiguous (signed_codec E) anyv]
    & forall C1 C2 : curve (modulus E),
      [/\ unambiguous (dlk_proof_codec C1) anyv, unambiguous (dleq_proof_codec C1 C2) anyv,
          unambiguous (schnorr_sig_codec C1) anyv, unambiguous (one_point_srs_codec C1) anyv
        & unambiguous (dleq_srs_codec C1 C2) anyv]].
Proof.
have [[? ? ? ? ?] [? ? ?] h] := C43_round_trip.
split=> [||C1 C2]; split; apply: rt_unambiguous => //.
all: by have [] := h C1 C2.
Qed.

End Composite.

(** A share and a transcript of the concrete instance fit their types. *)
Definition tcore : PVSSCore TE :=
  @MkCore TE [:: f 1; f 2; f 3; f 4] [:: f 5; f 6; f 7; f 8].
Definition tsigned (i : nat) : SignedProof TE :=
  @MkSigned TE (@MkDecomp TE (@DlkProof TE (G2 TE) (f i) (f 2) (f 3)) (f 4))
    (Sig (tpk i) (tpk i.+1)).
Definition tshare : PVSSShare TE := @MkShare TE 2 tcore (tsigned 1).
Definition ttrans : PVSSAggregatedShare TE :=
  @MkAgg TE 4 1 tcore (bt_collect [:: (3, (tsigned 3, 1%num)); (0, (tsigned 0, 7%num))]).

Lemma tshare_fits : share_fits tshare. Proof. by []. Qed.
Lemma ttrans_fits : transcript_fits ttrans.
Proof.
split=> // i sp w; rewrite /= bt_get_collect /=.
by case: eqP => [<- [_ <-]//|_]; case: eqP => [<- [_ <-]|].
Qed.

Example C43_example :
  [/\ size (ser (share_codec TE) tshare) = 100,
      deser (share_codec TE) (ser (share_codec TE) tshare ++ [:: x01; x02])
        = Ok (tshare, [:: x01; x02])
    & deser (transcript_codec TE) (ser (transcript_codec TE) ttrans) = Ok (ttrans, [::])].
Proof.
split; first by vm_compute.
  by apply: share_rt tshare_fits.
by rewrite -[X in deser _ X]cats0; apply: transcript_rt ttrans_fits.
Qed.

(** ** C44: canonical encodings *)

(* keeps [simpl] from computing inside *)
Local Opaque u64_codec usize_codec.

Section Canonical.
Variable E : engine.
Implicit Types x : PVSSAggregatedShare E.

(** Point and scalar encodings are themselves canonical (arkworks rejects coordinates that
    are not reduced). *)
Definition base_canonical : Prop :=
  [/\ canonical (pt_codec (G1 E)), canonical (pt_codec (G2 E)) & canonical (fr_codec E)].

Definition C44_full : Prop := base_canonical -> canonical (transcript_codec E).

(** The bytes of a transcript up to its contributions. *)
Definition transcript_head x : seq byte :=
  ser usize_codec (as_num_participants x) ++ ser usize_codec (as_degree x)
  ++ ser (core_codec E) (as_pvss_core x).

(** The bytes of a list of contributions, in the given order. *)
Definition entries_bytes (kvs : seq (nat * (SignedProof E * N))) : seq byte :=
  ser u64_codec (N.of_nat (size kvs)) ++
  flatten [seq ser (pair_codec usize_codec (pair_codec (signed_codec E) u64_codec)) kv
          | kv <- kvs].

Definition entry_bytes (kv : nat * (SignedProof E * N)) : seq byte :=
  ser (pair_codec usize_codec (pair_codec (signed_codec E) u64_codec)) kv.

Lemma entries_size kvs : size (entries_bytes kvs) = 8 + sumn (map (size \o entry_bytes) kvs).
Proof.
rewrite /entries_bytes size_cat size_u64_ser; congr (_ + _).
by rewrite size_flatten /shape -map_comp.
Qed.

Lemma entry_size kv : 0 < size (entry_bytes kv).
Proof. by rewrite /entry_bytes size_cat usize_serE size_u64_ser. Qed.

Lemma transcript_deserE s : deser (transcript_codec E) s
  = let! (x, s') := deser (pair_codec usize_codec (pair_codec usize_codec (pair_codec
      (core_codec E) (map_codec (pair_codec (signed_codec E) u64_codec))))) s in
    Ok ((let: (a, (b, (c, d))) := x in MkAgg a b c d), s').
Proof. by []. Qed.

(** The contributions may be listed in any order and with overwritten duplicates: every
    list that collects to the same map reads as the same transcript. *)
Theorem C44_any_order_refuted x kvs rest :
  transcript_fits x -> usize_ok (size kvs) ->
  (forall kv, List.In kv kvs -> usize_ok kv.1 /\ u64_ok kv.2.2) ->
  bt_collect kvs = as_contributions x ->
  deser (transcript_codec E) (transcript_head x ++ entries_bytes kvs ++ rest) = Ok (x, rest).
Proof.
case: x => n t core cs [hn ht hc hs hv] hk hkv hx; rewrite -[cs]hx.
have hm : forall kv, List.In kv kvs -> usize_ok kv.1 /\ (anyv kv.2.1 /\ u64_ok kv.2.2).
  by move=> kv /hkv[].
have := map_ok rest (pair_rt (@signed_rt E) u64_rt) hk hm.
move=> /(pair_ok (core_rt _ hc))/(pair_ok (usize_rt _ ht))/(pair_ok (usize_rt _ hn)) h.
rewrite transcript_deserE; have cat5 (a b c d e : seq byte) :
  (a ++ b ++ c) ++ (d ++ e) ++ rest = a ++ b ++ c ++ d ++ e ++ rest by rewrite -!catA.
by rewrite /transcript_head /entries_bytes cat5 h.
Qed.

(** So every transcript with a contribution has a second encoding: its first contribution
    listed twice. *)
Theorem C44_second_encoding_refuted x :
  transcript_fits x -> usize_ok (size (bt_iter (as_contributions x))).+1 ->
  0 < size (bt_iter (as_contributions x)) ->
  exists2 s, s <> ser (transcript_codec E) x & deser (transcript_codec E) s = Ok (x, [::]).
Proof.
move=> fx hs; case e: (bt_iter (as_contributions x)) => [|kv l] // _.
exists (transcript_head x ++ entries_bytes (kv :: kv :: l)).
  have -> : ser (transcript_codec E) x = transcript_head x ++ entries_bytes (kv :: l).
    by rewrite /entries_bytes -e /transcript_head /= -!catA.
  move/(congr1 size); rewrite size_cat [RHS]size_cat => /addnI.
  by rewrite !entries_size /=; have := entry_size kv; lia.
rewrite -[X in deser _ (_ ++ X)]cats0; apply: C44_any_order_refuted => //.
- by rewrite e in hs.
- have hin k : List.In k (kv :: l) -> usize_ok k.1 /\ u64_ok k.2.2.
    case: k => i [sp w]; rewrite -e => /bt_get_In.
    by case: fx => _ _ _ _ /[apply].
  by move=> k [<-|/hin//]; apply: hin; left.
rewrite -[RHS]bt_collect_iter e /bt_collect /=; congr foldl.
by apply: btmap_eq => /=; rewrite ltnn eqxx.
Qed.

(** The part that holds: everything but the order and the repetition of the contributions
    is determined, and if the keys come in increasing order the bytes are those [serialize]
    writes. *)
Theorem C44_sorted_partial s x rest :
  base_canonical -> deser (transcript_codec E) s = Ok (x, rest) ->
  exists kvs, [/\ s = transcript_head x ++ entries_bytes kvs ++ rest,
                  as_contributions x = bt_collect kvs
                & sorted ltn (keys kvs) -> s = ser (transcript_codec E) x ++ rest].
Proof.
case=> h1 h2 h3; have hp : canonical (signed_codec E).
  apply/struct_canon; [by case|apply/pair_canon/signature_canon].
  apply/struct_canon; [by case|apply/pair_canon/h2].
  by apply/struct_canon; [case=> a []|apply/pair_canon/pair_canon].
have hc : canonical (core_codec E).
  by apply/struct_canon; [case|apply/pair_canon/vec_canon/h2/vec_canon/h1].
rewrite transcript_deserE; case e: (deser _ s) => [[[n [t [c m]]] r]|?|?] // [<- <-].
have [s1 e1 h4] := pair_okE e.
have [s2 e2 h5] := pair_okE h4.
have [s3 e3 e4] := pair_okE h5.
have [kvs [_ em e5]] := map_okE (pair_canon hp u64_canon) e4.
have es : s = transcript_head (MkAgg n t c m) ++ entries_bytes kvs ++ r.
  rewrite (usize_canon e1) (usize_canon e2) (hc _ _ _ e3) e5 /transcript_head /=.
  by rewrite /entries_bytes -!catA.
exists kvs; split=> // hk; rewrite es.
have ek : kvs = bt_iter m by rewrite em bt_collect_sorted.
by rewrite ek /entries_bytes /transcript_head /= -!catA.
Qed.

(** Every other message is canonical without condition. *)
Theorem C44_other_types_partial : base_canonical ->
  [/\ canonical (core_codec E), canonical (signed_codec E), canonical (share_codec E),
      canonical (config_codec E) & canonical (participant_codec E)].
Proof.
case=> h1 h2 h3; have hp : canonical (signed_codec E).
  apply/struct_canon; [by case|apply/pair_canon/signature_canon].
  apply/struct_canon; [by case|apply/pair_canon/h2].
  by apply/struct_canon; [case=> a []|apply/pair_canon/pair_canon].
have hc : canonical (core_codec E).
  by apply/struct_canon; [case|apply/pair_canon/vec_canon/h2/vec_canon/h1].
split=> //.
- by apply/struct_canon; [case=> a []|apply/pair_canon/pair_canon/hp/hc/usize_canon].
- apply/struct_canon; [by case=> a []|apply/pair_canon/pair_canon/usize_canon/usize_canon].
  by apply/struct_canon; [case=> a []|apply/pair_canon/pair_canon].
by apply/struct_canon; [case=> a []
  |apply/pair_canon/pair_canon/public_key_canon/h1/usize_canon].
Qed.

End Canonical.

(** The concrete instance has canonical points and scalars. *)
Lemma byte_of_nat_of_byte b : byte_of_nat (nat_of_byte b) = b.
Proof. by case: b. Qed.

Lemma fp_deser_canon s x rest : fp_deser s = Some (x, rest) -> s = fp_ser x ++ rest.
Proof.
case: s => //= b s; case: ifP => // h [<- <-]; rewrite /fp_ser /=; congr cons.
rewrite -[LHS]byte_of_nat_of_byte; congr byte_of_nat.
by rewrite /= val_Fp_nat // modn_small.
Qed.

Lemma TE_base_canonical : base_canonical TE.
Proof.
have h (s : seq byte) (x : 'F_11) rest :
  ok_or (fp_deser s) InvalidData = Ok (x, rest) -> s = fp_ser x ++ rest.
  by case e: (fp_deser s) => [[y r]|] //= [<- <-]; apply: fp_deser_canon.
by split=> s x rest; apply: h.
Qed.

Theorem C44_full_refuted : ~ C44_full TE.
Proof.
move=> /(_ TE_base_canonical) h.
have fx := ttrans_fits.
have [||s ne /h] := @C44_second_encoding_refuted TE ttrans fx.
- by [].
- by [].
by rewrite cats0.
Qed.

(** The instance also meets the conditions of the positive part. *)
Example C44_sorted_example :
  exists kvs, [/\ ser (transcript_codec TE) ttrans ++ [:: x05]
                    = transcript_head ttrans ++ entries_bytes kvs ++ [:: x05],
                  as_contributions ttrans = bt_collect kvs
                & sorted ltn (keys kvs)].
Proof.
exists (bt_iter (as_contributions ttrans)); split; last exact: bt_sorted.
  by rewrite /transcript_head /entries_bytes /= -!catA.
by rewrite bt_collect_iter.
Qed.

(** ** C45: what the hash inputs determine *)

Section Preimages.
Variable E : engine.

Lemma pt_ser_inj2 q (C : curve q) (P P' : pt C) s s' :
  pt_ser P ++ s = pt_ser P' ++ s' -> P = P' /\ s = s'.
Proof. by move=> e; have := pt_deserK P s; rewrite e pt_deserK => -[-> ->]. Qed.

Lemma signed_bytesE (d : DecompProof E) : signed_bytes d = ser (decomp_codec E) d.
Proof.
have cat4 (x y z t : seq byte) : (x ++ y ++ z) ++ t = x ++ y ++ z ++ t by rewrite -!catA.
by rewrite /signed_bytes -cat4.
Qed.

(** [DecompProof::digest] hashes the bytes of the proof and of [gs], which determine both;
    [message_from_pi_i] gives the same bytes. *)
Theorem C45_decomp_preimage (dp dp' : DecompProof E) :
  decomp_digest dp = shake256 E (signed_bytes dp) /\
  (signed_bytes dp = signed_bytes dp' -> dp = dp').
Proof.
split; first exact: decomp_digestE.
rewrite !signed_bytesE -[ser _ dp]cats0 -[ser _ dp']cats0.
by case/(rt_unambiguous (@decomp_rt E) I I).
Qed.

Theorem C45_message_bytes (dp : DecompProof E) : message_from_pi_i dp = Ok (signed_bytes dp).
Proof. by rewrite /message_from_pi_i signed_bytesE. Qed.

Theorem C45_dlk_preimage (C : curve (modulus E)) (g g_r g' g_r' : pt C) :
  dlk_preimage g g_r = dlk_preimage g' g_r' -> g = g' /\ g_r = g_r'.
Proof.
case/pt_ser_inj2 => -> e; split=> //.
by move: e; rewrite -[pt_ser g_r]cats0 -[pt_ser g_r']cats0 => /pt_ser_inj2[].
Qed.

Theorem C45_dleq_preimage (C1 C2 : curve (modulus E)) g h g_w h_w g_r h_r g' h' g_w' h_w' g_r' h_r' :
  @dleq_preimage E C1 C2 g h g_w h_w g_r h_r = dleq_preimage g' h' g_w' h_w' g_r' h_r' ->
  [/\ g = g' /\ h = h', g_w = g_w' /\ h_w = h_w' & g_r = g_r' /\ h_r = h_r'].
Proof.
rewrite /dleq_preimage /=; case/pt_ser_inj2=> <- /pt_ser_inj2[<-] /pt_ser_inj2[<-].
by case/pt_ser_inj2=> <- /pt_ser_inj2[<-] /pt_ser_inj2[<- _].
Qed.

(** The message comes first and has no length prefix; the two points behind it have fixed
    sizes, so it is determined all the same. *)
Theorem C45_schnorr_preimage (C : curve (modulus E)) m m' (g v g' v' : pt C) :
  schnorr_preimage m g v = schnorr_preimage m' g' v' -> [/\ m = m', g = g' & v = v'].
Proof.
rewrite /schnorr_preimage /= !cats0 => e.
have hs : size m = size m'.
  by move/(congr1 size): e; rewrite !size_cat !pt_ser_size => /addIn.
move/eqP: e; rewrite eqseq_cat // => /andP[/eqP-> /eqP/pt_ser_inj2[-> e]].
by split=> //; move: e; rewrite -[pt_ser v]cats0 -[pt_ser v']cats0 => /pt_ser_inj2[].
Qed.

End Preimages.

(** The hypotheses are equations between inputs; a case where they fail as they should. *)
Example C45_example :
  @schnorr_preimage TE (G2 TE) [:: x01] (f 2) (f 3)
    != @schnorr_preimage TE (G2 TE) [:: x01; x02] (f 2) (f 3)
  /\ @schnorr_preimage TE (G2 TE) [:: x01] (f 2) (f 3) = [:: x01; x02; x03].
Proof. by split; vm_compute. Qed.

(** ** C53: reading hostile bytes *)

Section Hostile.
Variable E : engine.

Definition C53_full : Prop :=
  [/\ panic_free (share_codec E), panic_free (transcript_codec E),
      panic_free (participant_codec E) & panic_free (signed_codec E)].

Lemma decomp_nopanic : panic_free (decomp_codec E).
Proof.
apply/struct_nopanic/pair_nopanic/pt_nopanic/struct_nopanic/pair_nopanic.
  exact: pt_nopanic.
by apply/pair_nopanic; apply/fr_nopanic.
Qed.
Lemma core_nopanic : panic_free (core_codec E).
Proof. by apply/struct_nopanic/pair_nopanic; apply/vec_nopanic/pt_nopanic. Qed.

Lemma share_deserE s : deser (share_codec E) s =
  let! (id, s1) := deser usize_codec s in
  let! (c, s2) := deser (core_codec E) s1 in
  let! (dp, s3) := deser (decomp_codec E) s2 in
  let! (sg, s4) := deser signature_codec s3 in
  Ok (MkShare id c (MkSigned dp sg), s4).
Proof.
rewrite /share_codec /signed_codec /struct_codec /pair_codec; cbn [deser].
case: (deser usize_codec s) => [[id s1]|?|?] //; cbn [obind].
case: (deser (core_codec E) s1) => [[c s2]|?|?] //; cbn [obind].
case: (deser (decomp_codec E) s2) => [[dp s3]|?|?] //; cbn [obind].
by case: (deser signature_codec s3) => [[sg s4]|?|?].
Qed.

(* keeps [simpl] from computing inside *)
Local Opaque core_codec decomp_codec signature_codec public_key_codec.

(** A share that reads well up to its signature and then holds fewer than 64 bytes panics,
    and nothing else does. *)
Theorem C53_share_panics_refuted s :
  is_panic (deser (share_codec E) s) <->
  exists id core dp s1 s2 s3,
    [/\ deser usize_codec s = Ok (id, s1), deser (core_codec E) s1 = Ok (core, s2),
        deser (decomp_codec E) s2 = Ok (dp, s3) & size s3 < 64].
Proof.
rewrite share_deserE; split.
  case e1: (deser usize_codec s) => [[id s1]|?|?] //=; last first.
    by have := usize_nopanic s; rewrite e1.
  case e2: (deser (core_codec E) s1) => [[c s2]|?|?] //=; last first.
    by have := core_nopanic s1; rewrite e2.
  case e3: (deser (decomp_codec E) s2) => [[dp s3]|?|?] //=; last first.
    by have := decomp_nopanic s2; rewrite e3.
  case e4: (deser signature_codec s3) => [[sg s4]|?|?] //= _.
  exists id, c, dp, s1, s2, s3; split=> //; have [_ _ _] := C40_ok_iff_long_partial s3.
  by rewrite e4 leqNgt; case: (_ < _).
case=> id [c [dp [s1 [s2 [s3 [-> /= -> /= -> /= h]]]]]].
by have [_ _ _ ->] := C40_truncated_refuted s3.
Qed.

(** In particular every share cut inside its signature. *)
Theorem C53_cut_share_refuted sh k : share_fits sh -> k < 64 ->
  deser (share_codec E) (take (size (ser (share_codec E) sh) - 64 + k) (ser (share_codec E) sh))
    = Panic UnwrapErr.
Proof.
case: sh => id c [dp sg] [h1 h2] hk.
have cat4 (a b c' d : seq byte) : (a ++ b ++ c') ++ d = a ++ b ++ c' ++ d.
  by rewrite -!catA.
have -> : ser (share_codec E) (MkShare id c (MkSigned dp sg))
  = (ser usize_codec id ++ ser (core_codec E) c ++ ser (decomp_codec E) dp)
    ++ ser signature_codec sg by rewrite cat4.
have hs : size (ser signature_codec sg) = 64.
  by rewrite signature_size; case: (C39_bytes_and_sizes (tpk 0) (tpk 0) (tsk 0) sg) => _ _ _ [].
rewrite size_cat hs addnK take_cat ifF ?addKn; last by rewrite ltnNge leq_addr.
have sk : size (take k (ser signature_codec sg)) < 64 by rewrite size_takel ?hs // ltnW.
rewrite share_deserE cat4 usize_rt // obindE core_rt // obindE decomp_rt // obindE.
by have [_ _ _ ->] := C40_truncated_refuted (take k (ser signature_codec sg)).
Qed.

(** A participant record cut inside its key, too. *)
Theorem C53_cut_participant_refuted p k : participant_fits p -> k < 32 ->
  deser (participant_codec E)
    (take (size (ser (participant_codec E) p) - 32 + k) (ser (participant_codec E) p))
  = Panic UnwrapErr.
Proof.
case: p => id pk ed h1 hk.
have cat3 (a b d : seq byte) : (a ++ b) ++ d = a ++ b ++ d by rewrite -!catA.
have -> : ser (participant_codec E) (MkParticipant id pk ed)
  = (ser usize_codec id ++ ser (pt_codec (G1 E)) pk) ++ ser public_key_codec ed by rewrite cat3.
have hs : size (ser public_key_codec ed) = 32 
  by rewrite public_key_size; case: (C39_bytes_and_sizes ed ed (tsk 0) (Sig ed ed)) => _ [].
rewrite size_cat hs addnK take_cat ifF ?addKn; last by rewrite ltnNge leq_addr.
have sk : size (take k (ser public_key_codec ed)) < 32 by rewrite size_takel ?hs // ltnW.
rewrite /participant_codec /struct_codec /pair_codec; cbn [deser].
rewrite cat3 usize_rt // !obindE pt_rt // obindE.
by have [_ -> //] := C40_truncated_refuted (take k (ser public_key_codec ed)).
Qed.

Theorem C53_full_refuted : ~ C53_full.
Proof.
case=> h _ _ _.
pose sh : PVSSShare E := MkShare 0 (MkCore [::] [::])
  (MkSigned (MkDecomp (DlkProof 0%R 0%R 0%R) 0%R) (Sig (tpk 0) (tpk 0))).
have /negP[] := h (take (size (ser (share_codec E) sh) - 64 + 0) (ser (share_codec E) sh)).
by rewrite C53_cut_share_refuted.
Qed.

(** The part that holds: types without a byte array never panic. *)
Theorem C53_no_byte_array_partial :
  [/\ [/\ panic_free (core_codec E), panic_free (decomp_codec E), panic_free (srs_codec E)
        & panic_free (config_codec E)]
    & forall C1 C2 : curve (modulus E),
      [/\ panic_free (dlk_proof_codec C1), panic_free (dleq_proof_codec C1 C2),
          panic_free (schnorr_sig_codec C1), panic_free (one_point_srs_codec C1)
        & panic_free (dleq_srs_codec C1 C2)]].
Proof.
have hsrs : panic_free (srs_codec E).
  by apply/struct_nopanic/pair_nopanic; [|apply/pair_nopanic]; apply/pt_nopanic.
split=> [|C1 C2]; split.
- exact: core_nopanic.
- exact: decomp_nopanic.
- exact: hsrs.
- exact/struct_nopanic/pair_nopanic/pair_nopanic/usize_nopanic/usize_nopanic/hsrs.
- exact/struct_nopanic/pair_nopanic/pair_nopanic/fr_nopanic/fr_nopanic/pt_nopanic.
- apply/struct_nopanic/pair_nopanic/pair_nopanic/fr_nopanic/fr_nopanic.
  exact/pair_nopanic/pt_nopanic/pt_nopanic.
- exact/pair_nopanic/fr_nopanic/pt_nopanic.
- exact/pt_nopanic.
exact/pair_nopanic/pt_nopanic/pt_nopanic.
Qed.

(** ** C54: truncated messages *)

(** Reading a point or a scalar looks at no byte beyond it. *)
Definition base_streaming : Prop :=
  [/\ streaming (pt_codec (G1 E)), streaming (pt_codec (G2 E)) & streaming (fr_codec E)].

(** No message with its end cut off reads as a message. *)
Theorem C54_prefix_free : base_streaming ->
  [/\ [/\ prefix_free (config_codec E) (@config_fits E),
          prefix_free (participant_codec E) (@participant_fits E),
          prefix_free (core_codec E) (@core_fits E),
          prefix_free (share_codec E) (@share_fits E)
        & prefix_free (transcript_codec E) (@transcript_fits E)]
    & [/\ prefix_free (srs_codec E) anyv, prefix_free (decomp_codec E) anyv
        & prefix_free (signed_codec E) anyv]].
Proof.
case=> h1 h2 h3.
have hdp : streaming (decomp_codec E).
  by apply/struct_stream/pair_stream/h2/struct_stream/pair_stream/pair_stream.
have hsp : streaming (signed_codec E).
  exact/struct_stream/pair_stream/signature_stream/hdp.
have hc : streaming (core_codec E).
  by apply/struct_stream/pair_stream; apply/vec_stream.
have hsrs : streaming (srs_codec E) by apply/struct_stream/pair_stream/pair_stream.
have [[r1 r2 r3 r4 r5] [r6 r7 r8] _] := C43_round_trip E.
split; split; apply: rt_prefix_free => //.
- exact/struct_stream/pair_stream/pair_stream/usize_stream/usize_stream/hsrs.
- exact/struct_stream/pair_stream/pair_stream/public_key_stream/h1/usize_stream.
- exact/struct_stream/pair_stream/pair_stream/hsp/hc/usize_stream.
apply/struct_stream/pair_stream; first exact: usize_stream.
apply/pair_stream; first exact: usize_stream.
apply/pair_stream/map_stream/pair_stream/u64_stream/hsp/hc.
Qed.

(** ** C55: what is read fits its type, and re-encoding it is stable *)

Definition yields A (c : codec A) (P : A -> Prop) : Prop :=
  forall s a rest, deser c s = Ok (a, rest) -> P a.

Lemma deser_n_yields A (c : codec A) (P : A -> Prop) n s v rest : yields c P ->
  deser_n c n s = Ok (v, rest) -> size v = n /\ forall x, List.In x v -> P x.
Proof.
move=> h; elim: n s v rest => [|n IH] s v rest /=; first by case=> <- _.
case e: (deser c s) => [[x s1]|?|?] //=.
case e': (deser_n c n s1) => [[xs s2]|?|?] //= [<- _].
have [<- hx] := IH _ _ _ e'; split=> // y [<-|/hx//].
exact: h e.
Qed.

Lemma vec_yields A (c : codec A) : yields (vec_codec c) (fun v => usize_ok (size v)).
Proof.
move=> s v rest /=; case e: (deser u64_codec s) => [[len s1]|?|?] //=.
have any : yields c (fun _ => True) by [].
case/(deser_n_yields any)=> -> _; rewrite /usize_ok N2Nat.id; exact: u64_bnd e.
Qed.

Lemma core_yields : yields (core_codec E) (@core_fits E).
Proof.
move=> s [es cs] rest h; have [[es' cs'] h1 [-> ->]] := struct_okE h.
have [s1 e1 e2] := pair_okE h1.
by split; [exact: vec_yields e1|exact: vec_yields e2].
Qed.

Lemma size_list_insert V (l : seq (nat * V)) k v : size (list_insert l k v) <= (size l).+1.
Proof. by elim: l => //= -[k' v'] l IH; case: ifP => // _; case: ifP => /=; rewrite ?ltnS // ltnW. Qed.

Lemma size_bt_collect V (l : seq (nat * V)) : size (bt_iter (bt_collect l)) <= size l.
Proof.
rewrite /bt_collect -[X in _ <= X]add0n -[0]/(size (bt_iter (@bt_new V))).
elim: l (bt_new) => [|[k v] l IH] m /=; first by rewrite addn0.
by apply: leq_trans (IH _) _; rewrite /= addnS -addSn leq_add2r size_list_insert.
Qed.

Lemma In_rev T (x : T) l : List.In x (rev l) -> List.In x l.
Proof.
elim: l => // y l IH; rewrite rev_cons -cats1 => h.
by have [/IH|[->|//]] := List.in_app_or _ _ _ h; [right|left].
Qed.

Theorem C55_share_fits s sh rest :
  deser (share_codec E) s = Ok (sh, rest) -> share_fits sh.
Proof.
rewrite share_deserE; case e1: (deser usize_codec s) => [[id s1]|?|?] //=.
case e2: (deser (core_codec E) s1) => [[c s2]|?|?] //=.
case e3: (deser (decomp_codec E) s2) => [[dp s3]|?|?] //=.
case e4: (deser signature_codec s3) => [[sg s4]|?|?] //= [<- _].
by split; [exact: usize_bnd e1|exact: core_yields e2].
Qed.

Theorem C55_transcript_fits s x rest :
  deser (transcript_codec E) s = Ok (x, rest) -> transcript_fits x.
Proof.
rewrite transcript_deserE; case e: (deser _ s) => [[[n [t [c m]]] r]|?|?] // [<- _].
have [s1 e1 h4] := pair_okE e; have [s2 e2 h5] := pair_okE h4.
have [s3 e3] := pair_okE h5; rewrite /=.
case e6: (deser u64_codec s3) => [[len s4]|?|?] //=.
case e7: (deser_n _ _ s4) => [[kvs s5]|?|?] //= [<- _].
have hy : yields (pair_codec usize_codec (pair_codec (signed_codec E) u64_codec))
            (fun kv => usize_ok kv.1 /\ u64_ok kv.2.2).
  move=> u [k [sp w]] v e8; have [u1 f1 f2] := pair_okE e8; have [u2 f3 f4] := pair_okE f2.
  by split; [exact: usize_bnd f1|exact: u64_bnd f4].
have [hs hin] := deser_n_yields hy e7.
split=> /=.
- exact: usize_bnd e1.
- exact: usize_bnd e2.
- exact: core_yields e3.
- have := size_bt_collect kvs; have := u64_bnd e6; rewrite /usize_ok /u64_ok hs; lia.
move=> i sp w; rewrite bt_get_collect => h; have hi := list_get_mem h.
exact: (hin (i, (sp, w))) (In_rev hi).
Qed.

(** So reading, writing and reading again gives the same value. *)
Corollary C55_reencode s :
  (forall sh rest, deser (share_codec E) s = Ok (sh, rest) ->
     deser (share_codec E) (ser (share_codec E) sh) = Ok (sh, [::])) /\
  (forall x rest, deser (transcript_codec E) s = Ok (x, rest) ->
     deser (transcript_codec E) (ser (transcript_codec E) x) = Ok (x, [::])).
Proof.
split=> x rest h; rewrite -[X in deser _ X]cats0.
  exact: share_rt (C55_share_fits h).
exact: transcript_rt (C55_transcript_fits h).
Qed.

End Hostile.

(** The concrete instance meets the streaming hypothesis, and an honest share of it cut in
    the middle of its signature does panic. *)
Lemma TE_base_streaming : base_streaming TE.
Proof.
have h (s : seq byte) (x : 'F_11) rest t :
  ok_or (fp_deser s) InvalidData = Ok (x, rest) ->
  ok_or (fp_deser (s ++ t)) InvalidData = Ok (x, rest ++ t).
  by case: s => //= b s; case: ifP => // _ [<- <-].
by split=> s x rest t; apply: h.
Qed.

Example C53_example :
  is_panic (deser (share_codec TE) (take 60 (ser (share_codec TE) tshare))) /\
  is_err (deser (share_codec TE) (take 20 (ser (share_codec TE) tshare))).
Proof. by split; vm_compute. Qed.

Example C54_example :
  ~~ is_ok (deser (transcript_codec TE) (take 50 (ser (transcript_codec TE) ttrans))).
Proof. by have [[_ _ _ _ h] _] := C54_prefix_free TE_base_streaming; apply: h ttrans_fits _. Qed.
