(** * PropsFree: what verification leaves free, exactly (C12, C15, C48, C49, C52) *)

From Coq Require Import NArith Strings.Byte.
From mathcomp Require Import all_ssreflect all_algebra zify.
From Verif Require Import Prelude Errors BTreeMap Engine LibModel PolyModel SigmaModel PvssModel
  Spec PreludeProofs AlgebraProofs PolyProofs PvssProofs AggProofs HistProofs Instance PropsPoly
  PropsShare PropsAgg PropsHist PropsEnd PropsLimits.

Set Implicit Arguments.
Unset Strict Implicit.
Unset Printing Implicit Defensive.

Import GRing.Theory.
Local Open Scope ring_scope.

(** ** C12: the other slots of a share are not looked at *)

(** The share with other encryptions. *)
Definition with_encs (E : engine) (sh : PVSSShare E) (es : seq (Enc E)) : PVSSShare E :=
  MkShare (sh_participant_id sh) (MkCore es (comms (sh_pvss_core sh))) (sh_signed_proof sh).

(** Two vectors of encryptions of one length that agree at the sender's slot get the same
    answer, with the same coins, and leave the generator in the same state: whatever the
    share, the configuration and the build. *)
Theorem C12_other_slots_partial (E : engine) (D : eddsa) (b : build) (R : rng E)
  (ag : PVSSAggregator E) (s : rstate R) (sh : PVSSShare E) (es es' : seq (Enc E)) :
  size es = size es' ->
  nth 0 es (sh_participant_id sh) = nth 0 es' (sh_participant_id sh) ->
  share_verify D b ag s (with_encs sh es) = share_verify D b ag s (with_encs sh es').
Proof.
move=> sz en; rewrite /share_verify /core_verify /= sz.
suff -> : index (Er := pvss_error) es (sh_participant_id sh) = index es' (sh_participant_id sh) by [].
case: (ltnP (sh_participant_id sh) (size es)) => l.
  by rewrite (index_ok 0) // (index_ok 0) -?sz // en.
by rewrite !index_oob -?sz.
Qed.
Print Assumptions C12_other_slots_partial.

(** And the sender's slot decides: of two shares that differ in nothing else at most one is
    accepted. *)
Theorem C12_own_slot_unique_partial (E : engine) (D : eddsa) (b b' : build) (R R' : rng E)
  (ag : PVSSAggregator E) (s : rstate R) (s' : rstate R') (sh : PVSSShare E) (es es' : seq (Enc E)) :
  let n := cfg_num_participants (ag_config ag) in
  let id := sh_participant_id sh in
  (n < modulus E)%N -> fits n -> srs_g2 (cfg_srs (ag_config ag)) != 0 ->
  (share_verify D b ag s (with_encs sh es)).1 = Ok tt ->
  (share_verify D b' ag s' (with_encs sh es')).1 = Ok tt -> nth 0 es id = nth 0 es' id.
Proof.
move=> n id nq fn g20 /share_verifyE[] // p [_ _ so _ _] /share_verifyE[] // p' [_ _ so' _ _].
by apply: (pairing_injl g20); rewrite -so -so'.
Qed.
Print Assumptions C12_own_slot_unique_partial.

(** ** C15: only the sum of the encryptions is looked at *)

Definition agg_with_encs (E : engine) (x : PVSSAggregatedShare E) (es : seq (Enc E))
  : PVSSAggregatedShare E :=
  MkAgg (as_num_participants x) (as_degree x) (MkCore es (comms (as_pvss_core x)))
    (as_contributions x).

Lemma encryption_pairs_sum (E : engine) (ag : PVSSAggregator E) (r : Fr E) (core : PVSSCore E) :
  let n := cfg_num_participants (ag_config ag) in
  core_sized (ag_config ag) core ->
  encryption_pairs ag r core
  = foldM (fun acc i =>
             let! participant := unwrap_opt (bt_get (ag_participants ag) i) in
             Ok (acc.1 + r *: nth 0 (encs core) i,
                 rcons acc.2 (r *: pa_public_key_sig participant, nth 0 (comms core) i)))
      (0, [::]) (iota 0 n).
Proof.
move=> n [se sc]; rewrite /encryption_pairs -/n.
have : {subset iota 0 n <= [pred i | (i < n)%N]} by move=> i; rewrite mem_iota.
elim: (iota 0 n) ((0 : Enc E), ([::] : seq (Enc E * Com E))) => [|i l IH] // [e ps] sub /=.
have li : (i < n)%N by apply: sub; rewrite mem_head.
rewrite (index_ok 0) ?se //=.
case: (bt_get _ i) => [p|] //=; rewrite (index_ok 0) ?sc //=.
by apply: IH => j jl; apply: sub; rewrite inE jl orbT.
Qed.

Lemma encryption_pairs_same (E : engine) (ag : PVSSAggregator E) (r : Fr E) (es es' : seq (Enc E)) cs :
  let n := cfg_num_participants (ag_config ag) in
  size es = n -> size es' = n -> size cs = n -> 
  \sum_(P <- es) P = \sum_(P <- es') P ->
  encryption_pairs ag r (MkCore es cs) = encryption_pairs ag r (MkCore es' cs).
Proof.
move=> n se se' sc; rewrite !encryption_pairs_sum //= -/n.
rewrite !(big_nth 0) se se' !big_mkord => sum.
pose g (es0 : seq (Enc E)) (acc : Enc E * seq (Enc E * Com E)) i : outcome pvss_error _ :=
  let! participant := unwrap_opt (bt_get (ag_participants ag) i) in
  Ok (acc.1 + r *: nth 0 es0 i, rcons acc.2 (r *: pa_public_key_sig participant, nth 0 cs i)).
pose h ps i : outcome pvss_error (seq (Enc E * Com E)) :=
  let! participant := unwrap_opt (bt_get (ag_participants ag) i) in
  Ok (rcons ps (r *: pa_public_key_sig participant, nth 0 cs i)).
have gen es0 l e ps : foldM (g es0) (e, ps) l
    = (let! qs := foldM h ps l in Ok (e + r *: (\sum_(i <- l) nth 0 es0 i), qs)).
  elim: l e ps => [|i l IH] e ps /=; first by rewrite big_nil scaler0 addr0.
  rewrite /g /h; case: (bt_get _ i) => [p|] //=.
  by rewrite IH big_cons scalerDr addrA.
rewrite -/(g es) -/(g es') !gen.
by rewrite -[iota 0 n]/(iota 0 n) !big_iota0 sum.
Qed.

(** Same sum, same length: same answer and same state, for every aggregator, registered or
    not, and every coin. *)
Theorem C15_sum_partial (E : engine) (D : eddsa) (b : build) (R : rng E)
  (ag : PVSSAggregator E) (s : rstate R) (x : PVSSAggregatedShare E) (es es' : seq (Enc E)) :
  size es = size es' -> \sum_(P <- es) P = \sum_(P <- es') P ->
  aggregation_verify D b ag s (agg_with_encs x es) = aggregation_verify D b ag s (agg_with_encs x es').
Proof.
move=> sz sum; rewrite /aggregation_verify /= -sz.
case: eqP => //= se; case: eqP => //= sc.
case: (ensure_degree _ _ _ _) => [[[]|e|p] s1] //=; case: (rand_fr s1) => r s2.
by rewrite (encryption_pairs_same r se _ sc sum) // -sz.
Qed.
Print Assumptions C15_sum_partial.

(** And unless the scalar drawn is zero the sum decides. *)
Theorem C15_exact_partial (E : engine) (D : eddsa) (b : build) (R : rng E)
  (ag : PVSSAggregator E) (s : rstate R) (x : PVSSAggregatedShare E) (es : seq (Enc E)) :
  let n := cfg_num_participants (ag_config ag) in
  let r := (rand_fr (ensure_degree b s (comms (as_pvss_core x)) (cfg_degree (ag_config ag))).2).1 in
  (n < modulus E)%N -> fits n -> registered ag ->
  srs_g2 (cfg_srs (ag_config ag)) != 0 -> r != 0 ->
  (aggregation_verify D b ag s x).1 = Ok tt ->
  (aggregation_verify D b ag s (agg_with_encs x es)).1 = Ok tt <->
  size es = n /\ \sum_(P <- es) P = \sum_(P <- encs (as_pvss_core x)) P.
Proof.
move=> n r nq fn reg g20 r0 acc.
have ex : agg_with_encs x (encs (as_pvss_core x)) = x by case: x {r r0 acc} => ? ? [].
have [[se sc] dg pr cv cm] := (aggregation_verifyE D b s x nq fn reg).1 acc.
split=> [/aggregation_verifyE[] // [se' _] _ pr' _ _|[se' sum]]; last first.
  by rewrite (@C15_sum_partial E D b R ag s x _ (encs (as_pvss_core x))) ?ex // se'.
split=> //; case: pr' => [/eqP|pr']; first by rewrite (negbTE r0).
case: pr => [/eqP|pr]; first by rewrite (negbTE r0).
move: pr pr'; rewrite /slots_product_ok /= -/n => -> /esym.
rewrite -!pairing_suml => /(pairing_injl g20).
by rewrite !(big_nth 0) se (se' : size es = n) !big_mkord.
Qed.
Print Assumptions C15_exact_partial.

(** ** C48: what the list of contributors may be *)

Lemma fr_nat_mod (E : engine) (i j : nat) :
  i%:R = j%:R :> Fr E <-> i = j %[mod modulus E].
Proof.
have pq := modulus_prime E; rewrite -!(Fp_nat_val pq).
by split=> [->//|e]; apply: val_inj.
Qed.

Lemma scale_nat_eq0 (E : engine) (k : nat) (P : Com E) :
  (k%:R : Fr E) *: P = 0 <-> (modulus E %| k)%N \/ P = 0.
Proof.
have k0 : k%:R = 0 :> Fr E <-> (modulus E %| k)%N.
  by rewrite -[0]/(0%:R) fr_nat_mod mod0n; split=> /eqP.
split=> [/eqP|[/k0->|->]]; rewrite ?scale0r ?scaler0 //.
by rewrite scaler_eq0 => /orP[/eqP/k0|/eqP]; [left | right].
Qed.

Definition with_contributions (E : engine) (x : PVSSAggregatedShare E)
  (cs : btmap (SignedProof E * N)) : PVSSAggregatedShare E :=
  MkAgg (as_num_participants x) (as_degree x) (as_pvss_core x) cs.

(** An accepted transcript stays accepted, with the same coins, under exactly those lists of
    contributors that are validly signed and have the same weighted sum. *)
Theorem C48_lists_partial (E : engine) (D : eddsa) (b : build) (R : rng E)
  (ag : PVSSAggregator E) (s : rstate R) (x : PVSSAggregatedShare E)
  (cs : btmap (SignedProof E * N)) :
  config_ok (ag_config ag) -> registered ag ->
  (aggregation_verify D b ag s x).1 = Ok tt ->
  (aggregation_verify D b ag s (with_contributions x cs)).1 = Ok tt <->
  contributions_valid D ag cs /\ weighted_gs cs = weighted_gs (as_contributions x).
Proof.
move=> [tn nq fn] reg /aggregation_verifyE[] // [se sc] dg pr cv cm.
rewrite aggregation_verifyE //; split=> [[_ _ _ cv' cm']|[cv' e]].
  split=> //; apply: commits_to_fun cm' cm; first by rewrite sc ltnW.
  by apply: leq_ltn_trans nq; exact: ltnW.
by split=> //=; rewrite e.
Qed.
Print Assumptions C48_lists_partial.

(** So a contributor can be listed with another weight, or not at all, exactly when the
    weights agree modulo [q] or the contribution is the commitment to zero. *)
Theorem C48_exact_partial (E : engine) (D : eddsa) (b : build) (R : rng E)
  (ag : PVSSAggregator E) (s : rstate R) (x : PVSSAggregatedShare E) (i : nat)
  (sp : SignedProof E) (w w' : N) :
  let free := dp_gs (sp_decomp_proof sp) = 0 in
  config_ok (ag_config ag) -> registered ag ->
  bt_get (as_contributions x) i = None ->
  (aggregation_verify D b ag s (add_contributor x i sp w)).1 = Ok tt ->
  ((aggregation_verify D b ag s x).1 = Ok tt <-> (modulus E %| N.to_nat w)%N \/ free) /\
  ((aggregation_verify D b ag s (add_contributor x i sp w')).1 = Ok tt <->
   N.to_nat w = N.to_nat w' %[mod modulus E] \/ free).
Proof.
move=> free ok reg nx acc.
have /aggregation_verifyE[] // := acc; try by case: ok.
move=> _ _ _ cv _.
split.
  have -> : x = with_contributions (add_contributor x i sp w) (as_contributions x) by case: x {nx acc cv}.
  rewrite (C48_lists_partial _ ok reg acc) /= weighted_gs_insert //.
  split=> [[_ /esym]|e].
    by rewrite -[X in _ = X -> _]add0r => /addIr/scale_nat_eq0.
  split; last by rewrite ((scale_nat_eq0 _ _).2 e) add0r.
  move=> j sp' w0 g; apply: (cv j sp' w0) => /=; rewrite bt_get_insert.
  by case: eqP => // ej; rewrite ej g in nx.
have -> : add_contributor x i sp w'
    = with_contributions (add_contributor x i sp w) (bt_insert (as_contributions x) i (sp, w')) by [].
rewrite (C48_lists_partial _ ok reg acc) /= !weighted_gs_insert //.
split=> [[_ /addIr/eqP]|e].
  rewrite -subr_eq0 -scalerBl scaler_eq0 subr_eq0 => /orP[/eqP/fr_nat_mod/esym|/eqP]; by [left | right].
split; last first.
  by case: e => [/fr_nat_mod->//|e]; rewrite /free in e; rewrite e !scaler0.
move=> j sp' w0; rewrite bt_get_insert; case: eqP => [<- [<- _]|ne g].
  by apply: (cv i sp w); rewrite /= bt_get_insert eqxx.
by apply: (cv j sp' w0); rewrite /= bt_get_insert; case: eqP.
Qed.
Print Assumptions C48_exact_partial.

(** ** C49 and C52: when a merged transcript can be accepted *)

(** What contributors outside the range of the participants contribute. *)
Definition outside (E : engine) (n : nat) (cs : btmap (SignedProof E * N)) : Com E :=
  \sum_(kv <- bt_iter cs | (n <= kv.1)%N) (N.to_nat kv.2.2)%:R *: dp_gs (sp_decomp_proof kv.2.1).

(** What is lost when the weights of participant [i] wrap around. *)
Definition wrapped (E : engine) (x y : PVSSAggregatedShare E) (i : nat) : Com E :=
  match bt_get (as_contributions x) i, bt_get (as_contributions y) i with
  | Some (sp, w), Some (_, w') =>
      (N.to_nat (2 ^ 64 * ((w + w') / 2 ^ 64)))%:R *: dp_gs (sp_decomp_proof sp)
  | _, _ => 0
  end.

Section Lost.
Variable E : engine.
Implicit Types cs : btmap (SignedProof E * N).

Lemma list_slots n (l : seq (nat * (SignedProof E * N))) : uniq (keys l) ->
  \sum_(i < n) slot_gs (list_get l i)
  = \sum_(kv <- l | (kv.1 < n)%N) (N.to_nat kv.2.2)%:R *: dp_gs (sp_decomp_proof kv.2.1).
Proof.
elim: l => [|[k [sp w]] l IH] /=; first by rewrite big_nil big1.
case/andP=> nk ul; rewrite big_cons -IH //=; have gk : list_get l k = None.
  by have := list_get_someE l k; rewrite (negbTE nk); case: (list_get l k).
case: (ltnP k n) => lk; last first.
  by apply: eq_bigr => i _; case: eqP => // ek; have := ltn_ord i; rewrite -ek ltnNge lk.
rewrite (bigD1 (Ordinal lk)) //= eqxx [in RHS](bigD1 (Ordinal lk)) //= gk add0r; congr (_ + _).
by apply: eq_bigr => i; rewrite -val_eqE /= eq_sym; case: eqP.
Qed.

Lemma weighted_gs_outside n cs :
  weighted_gs cs = \sum_(i < n) slot_gs (bt_get cs i) + outside n cs.
Proof.
rewrite /weighted_gs (bigID (fun kv => (kv.1 < n)%N)) /= /bt_get list_slots.
  by congr (_ + _); apply: eq_bigl => kv; rewrite -leqNgt.
by apply/keys_uniq/bt_sorted.
Qed.

Lemma merge_slot_lost b (x y z : PVSSAggregatedShare E) i :
  merge_slot b (bt_get (as_contributions x) i) (bt_get (as_contributions y) i)
  = Ok (bt_get (as_contributions z) i) ->
  slot_gs (bt_get (as_contributions x) i) + slot_gs (bt_get (as_contributions y) i)
  = slot_gs (bt_get (as_contributions z) i) + wrapped x y i.
Proof.
rewrite /wrapped; case: (bt_get (as_contributions x) i) => [[a w]|];
  case: (bt_get (as_contributions y) i) => [[a' w']|] /=; last 3 first.
- by case=> <-; rewrite !addr0.
- by case=> <-; rewrite addr0 add0r.
- by case=> <-; rewrite !addr0.
case: eqP => //= eg /obind_ok[u hu [<-]] /=.
have dm : (w + w' = 2 ^ 64 * ((w + w') / 2 ^ 64) + u)%num.
  move: hu; rewrite /u64_add -/u64_bound; case: N.ltb_spec => [small [<-]|_].
    by rewrite N.div_small // N.mul_0_r.
  by case: b => // -[<-]; apply: N.div_mod.
rewrite -!/(gs_of _) -eg -!scalerDl -!natrD.
suff -> : (N.to_nat w + N.to_nat w'
           = N.to_nat u + N.to_nat (2 ^ 64 * ((w + w') / 2 ^ 64)))%N by [].
by move: dm; set k := (_ * _)%num; clear; lia.
Qed.

Lemma merge_lost b n (x y z : PVSSAggregatedShare E) :
  as_num_participants x = n -> agg_aggregate b x y = Ok z ->
  weighted_gs (as_contributions x) + weighted_gs (as_contributions y)
  = weighted_gs (as_contributions z)
    + (outside n (as_contributions x) + outside n (as_contributions y) + \sum_(i < n) wrapped x y i).
Proof.
move=> en /agg_okE[_ _ _ ms out].
have bz i v : bt_get (as_contributions z) i = Some v -> (i < n)%N.
  by case: (ltnP i n) => // li; rewrite out // en.
rewrite (weighted_gs_below bz) !(weighted_gs_outside n) addrACA -big_split /=.
rewrite [X in _ = _ + X]addrC [RHS]addrA -big_split /=; congr (_ + _).
by apply: eq_bigr => i _; rewrite (@merge_slot_lost b x y z) // ms // en.
Qed.

End Lost.

(** The merge of two sound transcripts (C50) is accepted, by anyone and with any coins,
    exactly when what is lost from it sums to zero: the contributions listed outside the
    range and the multiples of [2^64] lost from the weights.  Otherwise nobody accepts it. *)
Theorem C49_exact_partial (E : engine) (D : eddsa) (b : build) (ag : PVSSAggregator E)
  (x y z : PVSSAggregatedShare E) :
  let n := cfg_num_participants (ag_config ag) in
  config_ok (ag_config ag) -> registered ag -> as_num_participants x = n ->
  sound_transcript D ag x -> sound_transcript D ag y -> agg_aggregate b x y = Ok z ->
  forall b' (R : rng E) (s : rstate R),
  (aggregation_verify D b' ag s z).1 = Ok tt <->
  outside n (as_contributions x) + outside n (as_contributions y) + \sum_(i < n) wrapped x y i = 0.
Proof.
move=> n ok reg en sx sy mg b' R s; have [tn nq fn] := ok.
have [[ex kx] lx px cx mx] := sx; have [[ey ky] ly py cy my] := sy.
have /agg_okE[_ _ ca ms out] := mg; have [m [_ l1 l2 ez]] := core_aggregate_inv ca.
have tq : ((cfg_degree (ag_config ag)).+1 < modulus E)%N.
  by apply: leq_ltn_trans nq; exact: ltnW.
have cz : commits_to (cfg_degree (ag_config ag)) (comms (as_pvss_core z))
            (weighted_gs (as_contributions x) + weighted_gs (as_contributions y)).
  by rewrite ez; apply: commits_to_add => //; rewrite ?kx ?ky // ltnW.
have sz : size (comms (as_pvss_core z)) = n by rewrite ez size_vadd ?kx ?ky.
rewrite (merge_lost en mg) in cz; set L := (X in _ + X) in cz *.
split=> [/aggregation_verifyE[] // _ _ _ _ cm|l0].
  have := commits_to_fun _ tq cz cm; rewrite sz => /(_ (ltnW tn)).
  by rewrite -[RHS]addr0 => /addrI.
rewrite (l0 : L = 0) addr0 in cz; have [_ h _] := C50_transcript_soundness D b' z ok reg; apply: h.
split=> //.
- by rewrite ez; split; rewrite size_vadd ?ex ?ey ?kx ?ky.
- by rewrite ez; apply: low_degree_add; rewrite ?kx ?ky.
- by rewrite ez; apply: product_add.
- move=> i sp w gz; case: (ltnP i (as_num_participants x)) => li; last by rewrite out in gz.
  by have [w' [/cx|/cy]] := merge_slot_src (ms i li) gz.
Qed.
Print Assumptions C49_exact_partial.

(** Who is among the contributors after a transcript was received, whoever is registered:
    those before and those of the transcript, below the length of the aggregator's. *)
Theorem C52_exact_partial (E : engine) (D : eddsa) (b : build) (R : rng E)
  (ag : PVSSAggregator E) (s : rstate R) (y : PVSSAggregatedShare E) (i : nat) :
  let has (x : PVSSAggregatedShare E) := isSome (bt_get (as_contributions x) i) in
  let: (r, ag', _) := receive_aggregated_share D b ag s y in
  is_ok r ->
  has (ag_aggregated_tx ag')
  = (i < as_num_participants (ag_aggregated_tx ag))%N && (has (ag_aggregated_tx ag) || has y).
Proof.
move=> has; rewrite /receive_aggregated_share.
case: (aggregation_verify D b ag s y) => [[[]|e|p] s1] //=.
case mg: (agg_aggregate b (ag_aggregated_tx ag) y) => [z|e|p] //= _.
have /agg_okE[_ _ _ ms out] := mg; rewrite /has; case: ltnP => li /=; last by rewrite out.
move: (ms i li); case: (bt_get (as_contributions (ag_aggregated_tx ag)) i) => [[a w]|];
  case: (bt_get (as_contributions y) i) => [[a' w']|] //=.
- by case: ifP => // _ /obind_ok[w'' _ [<-]].
- by case=> <-.
- by case=> <-.
- by case=> <-.
Qed.
Print Assumptions C52_exact_partial.

(** ** Examples *)

(** An honest share with two different vectors outside the sender's slot. *)
Example C12_other_slots_example :
  let es := encs (sh_pvss_core sh2) in
  let es' := set_nth 0 (set_nth 0 es 0 (f 1 : Enc TE)) 3 (f 8 : Enc TE) in
  [/\ size es = size es',
      nth 0 es (sh_participant_id sh2) == nth 0 es' (sh_participant_id sh2), es != es'
    & is_ok (@share_verify TE TD Debug (seq_rng TE) tag [:: f 1; f 9] (with_encs sh2 es')).1].
Proof. by vm_compute. Qed.

(** The transcript of two shares, a vector of the same sum and one of another. *)
Example C15_exact_example :
  let es := encs (as_pvss_core tother) in
  let es' := set_nth 0 (set_nth 0 es 0 (nth 0 es 0 + f 1 : Enc TE)) 3 (nth 0 es 3 - f 1) in
  let r := (rand_fr (r := seq_rng TE) (ensure_degree Debug (R := seq_rng TE) [:: f 1; f 9; f 3]
              (comms (as_pvss_core tother)) 1).2).1 in
  let v x := is_ok (@aggregation_verify TE TD Debug (seq_rng TE) tag [:: f 1; f 9; f 3] x).1 in
  [/\ r != 0, v tother, v (agg_with_encs tother es') & ~~ v (agg_with_encs tother (set_nth 0 es 0 (f 0)))].
Proof. by vm_compute. Qed.

(** A contributor listed with weight zero; with weight [q]; with weight one. *)
Example C48_exact_example :
  let x w := add_contributor (tx_share sh1) 2 (sh_signed_proof sh2) w in
  let v x := is_ok (@aggregation_verify TE TD Debug (seq_rng TE) tag [:: f 1; f 9; f 3] x).1 in
  [/\ ~~ isSome (bt_get (as_contributions (tx_share sh1)) 2), v (x 0%num),
      v (x (N.of_nat (modulus TE))) & ~~ v (x 1%num)].
Proof. by vm_compute. Qed.

(** A sound transcript whose contributor is outside the range: the merge goes through, and
    what is lost is not zero. *)
Lemma tx5_sound : sound_transcript TD tag5 tx5.
Proof.
have tc : config_ok tconfig by [].
have [sz ld pr cv cm] := @dealt_sound_transcript TE TD tag sh2 tc (@honest_dealt TE TD tag sh2 tc sh2_honest).
have id2 : sh_participant_id sh2 = 2%N by vm_compute.
split=> //.
- apply: etrans pr; apply: eq_bigr => i _; congr pairing; rewrite /key_of bt_get_insert.
  by case: eqP => // ei; have := ltn_ord i; rewrite -ei.
- move=> i sp w; rewrite bt_get1; case: eqP => // <- [<- _].
  have := cv 2%N (sh_signed_proof sh2) 1%num; rewrite bt_get1 id2 eqxx => /(_ erefl)[p gp sv].
  exists p => //; rewrite bt_get_insert eqxx; exact: gp.
- by move: cm; rewrite !weighted_gs1.
Qed.

Example C49_exact_example :
  [/\ sound_transcript TD tag5 tx5, is_ok (agg_aggregate Release (agg_empty TE 1 4) tx5),
      outside 4 (as_contributions tx5) != 0
    & exists i, ~~ isSome (bt_get (as_contributions (agg_empty TE 1 4)) i) /\
                isSome (bt_get (as_contributions tx5) i)].
Proof.
split; [exact: tx5_sound | by vm_compute | | by exists 7%N].
rewrite /outside big_cons big_nil -[(4 <= _)%N]/true addr0 -[N.to_nat _]/1%N scale1r.
by have [] := C52_example.
Qed.
