(** * PropsLength: property C91, how long the messages are *)

From Coq Require Import NArith Strings.Byte.
From mathcomp Require Import all_ssreflect all_algebra zify.
From Verif Require Import Prelude Errors BTreeMap Engine LibModel PolyModel SigmaModel PvssModel
  CodecModel CodecSpec Spec PreludeProofs AlgebraProofs PolyProofs PvssProofs AggProofs HistProofs
  CodecProofs Instance PropsShare PropsAgg PropsHist PropsVerdict PropsSplit.

Set Implicit Arguments.
Unset Strict Implicit.
Unset Printing Implicit Defensive.

Import GRing.Theory.
Local Open Scope ring_scope.

(** ** C91: the length of messages is linear in the number of participants *)

Section Length.
Variables (E : engine) (D : eddsa).

(** A signed proof is two points, two scalars and 64 bytes; the vectors are [n] points of each
    group after their lengths; a share is an id, the vectors and a signed proof; a transcript
    is two numbers, the vectors, and an id, a signed proof and a weight for each of the [k]
    contributors, after their number. *)
Definition signed_len : nat := (2 * pt_len (G2 E) + 2 * fr_len E + 64)%N.
Definition core_len (n : nat) : nat := (16 + n * (pt_len (G1 E) + pt_len (G2 E)))%N.
Definition share_len (n : nat) : nat := (8 + core_len n + signed_len)%N.
Definition transcript_len (n k : nat) : nat := (24 + core_len n + k * (16 + signed_len))%N.

Lemma size_struct A B (fields : B -> A) make (a : codec A) x :
  size (ser (struct_codec fields make a) x) = size (ser a (fields x)).
Proof. by []. Qed.
Lemma size_pair A B (a : codec A) (b : codec B) x :
  size (ser (pair_codec a b) x) = (size (ser a x.1) + size (ser b x.2))%N.
Proof. by case: x => y z; rewrite -size_cat. Qed.
Lemma size_usize x : size (ser usize_codec x) = 8%N.
Proof. exact: size_u64_ser. Qed.

Lemma size_signed (sp : SignedProof E) : size (ser (signed_codec E) sp) = signed_len.
Proof.
case: sp => [[[c h r] g] [a b]]; rewrite /= !size_cat !pt_ser_size !fr_ser_size /signed_len.
by rewrite !array_serE !size_tuple; lia.
Qed.

Lemma size_flatten_const (A : Type) (c : A -> seq byte) k (l : seq A) :
  (forall x, size (c x) = k) -> size (flatten [seq c x | x <- l]) = (size l * k)%N.
Proof.
by move=> h; elim: l => //= x l IH; rewrite size_cat h IH mulSn.
Qed.

Lemma size_vec A (a : codec A) k (l : seq A) : (forall x, size (ser a x) = k) ->
  size (ser (vec_codec a) l) = (8 + size l * k)%N.
Proof.
move=> h; rewrite -[ser _ _]/(ser u64_codec (N.of_nat (size l)) ++ flatten (map (ser a) l)).
by rewrite size_cat size_u64_ser (size_flatten_const l h).
Qed.

Lemma size_core (core : PVSSCore E) n : size (encs core) = n -> size (comms core) = n ->
  size (ser (core_codec E) core) = core_len n.
Proof.
move=> se sc; rewrite size_struct size_pair (size_vec (a := pt_codec (G1 E)) (k := pt_len (G1 E)) _ (pt_ser_size (c := G1 E))).
rewrite (size_vec (a := pt_codec (G2 E)) (k := pt_len (G2 E)) _ (pt_ser_size (c := G2 E))) se sc /core_len mulnDr; lia.
Qed.

(* keeps [rewrite] from unfolding them *)
Local Opaque core_codec signed_codec usize_codec u64_codec.

Lemma size_share (sh : PVSSShare E) n :
  size (encs (sh_pvss_core sh)) = n -> size (comms (sh_pvss_core sh)) = n ->
  size (ser (share_codec E) sh) = share_len n.
Proof.
move=> se sc; have e := size_core se sc; rewrite size_struct 2!size_pair size_usize size_signed /share_len.
cbn [fst snd]; lia.
Qed.

Lemma size_transcript (x : PVSSAggregatedShare E) n :
  size (encs (as_pvss_core x)) = n -> size (comms (as_pvss_core x)) = n ->
  size (ser (transcript_codec E) x) = transcript_len n (size (bt_iter (as_contributions x))).
Proof.
have mm m : size (ser (map_codec (pair_codec (signed_codec E) u64_codec)) m)
        = (8 + size (bt_iter m) * (16 + signed_len))%N.
  rewrite -(size_vec (bt_iter m) (a := pair_codec usize_codec (pair_codec (signed_codec E) u64_codec))) //.
  by move=> [i [sp w]]; rewrite 2!size_pair size_usize size_signed size_u64_ser; lia.
move=> se sc; have e := size_core se sc; rewrite size_struct 3!size_pair 2!size_usize mm /transcript_len.
cbn [fst snd]; lia.
Qed.

(** A map with keys below [n] has at most [n] entries. *)
Lemma map_size V (m : btmap V) n : (forall i v, bt_get m i = Some v -> (i < n)%N) ->
  (size (bt_iter m) <= n)%N.
Proof.
move=> h; rewrite -(size_map fst) -[X in (_ <= X)%N](size_iota 0).
have u : uniq (keys (bt_iter m)) by apply: (sorted_uniq ltn_trans ltnn); exact: bt_sorted.
apply: uniq_leq_size => // i; rewrite mem_iota /= add0n => ii.
have [v gv] : exists v, List.In (i, v) (bt_iter m).
  elim: (bt_iter m) ii {h u} => //= -[j v] l IH; rewrite in_cons => /orP[/eqP->|/IH[w iw]].
    by exists v; left.
  by exists w; right.
exact: (h _ v (proj1 (bt_get_In _ _ _) gv)).
Qed.

(** Every share that is made, and every share that is accepted, has exactly this length,
    whatever the degree and the build. *)
Theorem C91_share (b : build) (R : rng E) (node : Node E) (s : rstate R) (sh : PVSSShare E) :
  fits (cfg_degree (ag_config (nd_aggregator node))).+1 ->
  (share D b node s).1 = Ok sh ->
  size (ser (share_codec E) sh) = share_len (cfg_num_participants (ag_config (nd_aggregator node))).
Proof.
move=> ft; have [k [_ v]] := @C62_dealing_verdicts E D b R node s ft.
case: v => // kp sh' _ _ _ _ [_ ec ee _ _] [<-].
by apply: size_share; rewrite ?ec ?ee size_map size_iota.
Qed.

Theorem C91_accepted_share (b : build) (R : rng E) (ag : PVSSAggregator E) (s : rstate R)
  (sh : PVSSShare E) :
  let n := cfg_num_participants (ag_config ag) in
  (n < modulus E)%N -> fits n -> (share_verify D b ag s sh).1 = Ok tt ->
  size (ser (share_codec E) sh) = share_len n.
Proof.
by move=> n nq fn /(C11_share_verify_exact D b s sh nq fn)[p [_ [se sc _] _ _ _]]; exact: size_share.
Qed.

(** The transcript of a node, whatever messages it has received, has exactly the length that
    belongs to the number of its contributors; there are at most [n] of these. *)
Theorem C91_transcript (b : build) (config : Config E) (ps : btmap (Participant E))
  (ag0 : PVSSAggregator E) (h : seq (call E)) :
  aggregator_new config ps = Ok ag0 ->
  let n := cfg_num_participants config in
  let x := ag_aggregated_tx (run D b ag0 h) in
  let k := size (bt_iter (as_contributions x)) in
  size (ser (transcript_codec E) x) = transcript_len n k /\ (k <= n)%N.
Proof.
move=> new n x k; have [_ _ [se sc] ids] := C20_structural_invariant D b h new.
split; first exact: size_transcript.
by apply: map_size => i [sp w] /ids[].
Qed.

(** So does every transcript of others that it accepts, if the ids of its participants are
    below [n]. *)
Theorem C91_accepted_transcript (b : build) (R : rng E) (ag : PVSSAggregator E) (s : rstate R)
  (x : PVSSAggregatedShare E) :
  let n := cfg_num_participants (ag_config ag) in
  let k := size (bt_iter (as_contributions x)) in
  (n < modulus E)%N -> fits n -> registered ag -> only_registered ag ->
  (aggregation_verify D b ag s x).1 = Ok tt ->
  size (ser (transcript_codec E) x) = transcript_len n k /\ (k <= n)%N.
Proof.
move=> n k nq fn reg only /(C14_aggregation_verify_exact D b s x nq fn reg)[[se sc] _ _ cv _].
split; first exact: size_transcript.
by apply: map_size => i [sp w] /cv[p [gp _ _]]; exact: only gp.
Qed.

(** Receiving messages never makes a transcript shorter, and [transcript_len n n] is the most
    it ever takes. *)
Theorem C91_growth (b : build) (config : Config E) (ps : btmap (Participant E))
  (ag0 : PVSSAggregator E) (h h' : seq (call E)) :
  aggregator_new config ps = Ok ag0 ->
  let len hh := size (ser (transcript_codec E) (ag_aggregated_tx (run D b ag0 hh))) in
  (len h <= len (h ++ h') <= transcript_len (cfg_num_participants config) (cfg_num_participants config))%N.
Proof.
move=> new; cbv zeta; have [e1 l1] := C91_transcript b h new; have [e2 l2] := C91_transcript b (h ++ h') new.
rewrite e1 e2 /transcript_len !leq_add2l !leq_mul2r l2 !orbT andbT; apply/orP; right.
rewrite -(size_map fst) -[X in (_ <= X)%N](size_map fst); apply: uniq_leq_size.
  by apply: (sorted_uniq ltn_trans ltnn); exact: bt_sorted.
have inkeys V (m : btmap V) i : i \in [seq kv.1 | kv <- bt_iter m] <-> exists v, bt_get m i = Some v.
  rewrite /bt_get; elim: (bt_iter m) => [|[j v] l IH] /=; first by split=> // -[].
  by rewrite in_cons eq_sym; case: (j =P i) => [_|_] //=; split=> // _; exists v.
move=> i /inkeys[[sp w] gi]; apply/inkeys.
by have [[w' gi'] _] := C69_recorded_for_good h' new gi; exists (sp, w').
Qed.

End Length.
Print Assumptions C91_share.
Print Assumptions C91_accepted_share.
Print Assumptions C91_transcript.
Print Assumptions C91_accepted_transcript.
Print Assumptions C91_growth.

(** On the toy curve a point and a scalar take one byte each: a share for four participants
    takes 100 bytes, the transcript of the history [thist2] (two contributors) 216. *)
Example C91_example :
  [/\ size (ser (share_codec TE) sh2) = 100%N,
      size (ser (transcript_codec TE) (ag_aggregated_tx (run TD Debug tag thist2))) = 216%N,
      share_len TE 4 = 100%N & transcript_len TE 4 2 = 216%N].
Proof. by split; vm_compute. Qed.
