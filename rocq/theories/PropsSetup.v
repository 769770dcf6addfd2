(** * PropsSetup: properties C63 to C65, from set-up to a verified reconstruction *)

From Coq Require Import NArith Strings.Byte.
From mathcomp Require Import all_ssreflect all_algebra zify.
From Verif Require Import Prelude Errors BTreeMap Engine LibModel PolyModel SigmaModel PvssModel
  SetupModel Spec PreludeProofs AlgebraProofs PolyProofs PvssProofs AggProofs HistProofs Instance
  PropsPoly PropsSigma PropsShare PropsAgg PropsHist PropsEnd PropsLimits PropsAttack PropsNet
  PropsVerdict.

Set Implicit Arguments.
Unset Strict Implicit.
Unset Printing Implicit Defensive.

Import GRing.Theory.
Local Open Scope ring_scope.

(** ** C63: a fresh set-up works *)

(** The keys generated from [seed] work: what dalek promises. *)
Definition good_seed (D : eddsa) (K : ed_keygen D) (seed : 32.-tuple byte) : Prop :=
  let kp := ed_generate K seed in
  ed_keypair_from_bytes D (ed_keypair_bytes K kp) = Some kp /\
  forall m : Digest, eddsa_valid D (sig_split (ed_sign kp m)) m (ed_public_bytes K kp).

(** They work on one digest. *)
Definition good_for (D : eddsa) (K : ed_keygen D) (seed : 32.-tuple byte) (m : Digest) : Prop :=
  let kp := ed_generate K seed in works_on D (ed_keypair_bytes K kp) (ed_public_bytes K kp) m.

Lemma good_seed_for (D : eddsa) (K : ed_keygen D) (seed : 32.-tuple byte) (m : Digest) :
  good_seed K seed -> good_for K seed m.
Proof. by case=> k1 k2; exists (ed_generate K seed). Qed.

Section Setup.
Variables (E : engine) (D : eddsa) (K : ed_keygen D).

Lemma make_dealersE (R : rng E) g1 (s : rstate R) id seeds dflt i :
  let: (ds, s') := make_dealers K g1 s id seeds in
  [/\ size ds = size seeds, s' = after (size seeds) s
    & (i < size seeds)%N ->
      let d := nth dflt ds i in
      let sk := nth 0 (scalars (size seeds) s) i in
      let kp := ed_generate K (nth (nseq_tuple 32 x00) seeds i) in
      [/\ de_private_key_sig d = sk, de_private_key_ed d = ed_keypair_bytes K kp
        & de_participant d = MkParticipant (id + i) (sk *: g1) (ed_public_bytes K kp)]].
Proof.
elim: seeds s id i => [|seed seeds IH] s id i /=; first by split.
rewrite /make_dealer /schnorr_generate_keypair /=; case er: (rand_fr s) => [sk s1] /=.
have := IH s1 id.+1 i.-1; case: (make_dealers K g1 s1 id.+1 seeds) => ds s2 [sz -> h] /=.
split; first by rewrite sz.
  by rewrite -[RHS]/(after (size seeds).+1 s) /after iterSr er.
case: i h => [|i] h /=; first by rewrite addn0.
by move/h; rewrite addSnnS.
Qed.

Lemma list_get_zip_iota V (l : seq V) k i d :
  list_get (zip (iota k (size l)) l) i
  = if (k <= i)%N && (i < k + size l)%N then Some (nth d l (i - k)) else None.
Proof.
elim: l k => [|x l IH] k /=; first by rewrite addn0; case: ifP => //; lia.
case: eqP => [<-|ne]; first by rewrite leqnn subnn addnS ltnS leq_addr.
rewrite IH addSnnS; have [le|gt] := ltnP k i.
  by rewrite (ltnW le) -[in RHS](subnSK le).
by case: (leqP k i) => // le; case: ne; apply/eqP; rewrite eqn_leq le.
Qed.

Lemma make_participantsE (ds : seq (Dealer E)) dflt i :
  bt_get (make_participants ds) i
  = if (i < size ds)%N then Some (de_participant (nth dflt ds i)) else None.
Proof.
rewrite -[make_participants ds]/(bt_collect (zip (iota 0 (size ds)) [seq de_participant d | d <- ds])).
rewrite -(size_map (@de_participant E) ds) bt_get_collect_uniq; last first.
  by rewrite -[keys _]/(unzip1 _) unzip1_zip ?iota_uniq // size_iota.
rewrite (list_get_zip_iota _ _ _ (de_participant dflt)) /= add0n subn0 size_map.
by case: ltnP => // li; rewrite (nth_map dflt).
Qed.

End Setup.

Lemma set_upE (E : engine) (D : eddsa) (K : ed_keygen D) (R : rng E) (s : rstate R) t seeds :
  set_up K s t seeds =
  let: (g1, s1) := rand_g1 s in
  let: (g2, s2) := rand_g2 s1 in
  let: (g2', s3) := rand_g2 s2 in
  let: (ds, s') := make_dealers K g1 s3 0 seeds in
  (mapM (fun d => node_new (MkConfig (MkSRS g1 g2 g2') t (size seeds)) d (make_participants ds)) ds, s').
Proof.
by rewrite /set_up /srs_setup; case: (rand_g1 s) => g1 s1; case: (rand_g2 s1) => g2 s2; case: (rand_g2 s2).
Qed.

(** What a set-up yields: the parameters are the first three points drawn, then one scalar is
    drawn per party; every node holds the same configuration and the same map of all the
    parties' public data, and an empty transcript. *)
Theorem C63_set_up (E : engine) (D : eddsa) (K : ed_keygen D) (R : rng E) (s : rstate R) (t : nat)
  (seeds : seq (32.-tuple byte)) :
  let n := size seeds in
  let: (g1, s1) := rand_g1 s in
  let: (g2, s2) := rand_g2 s1 in
  let: (g2', s3) := rand_g2 s2 in
  let party i :=
    MkParticipant i (nth 0 (scalars n s3) i *: g1)
      (ed_public_bytes K (ed_generate K (nth (nseq_tuple 32 x00) seeds i))) in
  let: (o, s') := set_up K s t seeds in
  exists nodes : seq (Node E),
    [/\ o = Ok nodes, s' = after n s3, size nodes = n
      & forall i dflt, (i < n)%N -> let nd := nth dflt nodes i in
        [/\ ag_config (nd_aggregator nd) = MkConfig (MkSRS g1 g2 g2') t n,
            forall j, bt_get (ag_participants (nd_aggregator nd)) j = if (j < n)%N then Some (party j) else None,
            ag_aggregated_tx (nd_aggregator nd) = MkAgg n t (MkCore (nseq n 0) (nseq n 0)) bt_new
          & nd_dealer nd = MkDealer (nth 0 (scalars n s3) i)
              (ed_keypair_bytes K (ed_generate K (nth (nseq_tuple 32 x00) seeds i))) (party i)]].
Proof.
move=> n; rewrite set_upE; case: (rand_g1 s) => g1 s1; case: (rand_g2 s1) => g2 s2.
case: (rand_g2 s2) => g2' s3; cbv beta iota; move=> party.
have h i dflt := make_dealersE K g1 s3 0 seeds dflt i.
case: (make_dealers K g1 s3 0 seeds) h => ds s' h.
have dd : Dealer E by exact: (MkDealer 0 (nseq_tuple 64 x00) (party 0%N)).
have [sz es _] := h 0%N dd; pose config := MkConfig (MkSRS g1 g2 g2') t n.
exists [seq MkNode (new_aggregator config (make_participants ds)) d | d <- ds]; split=> //.
- exact: mapM_ok.
- by rewrite size_map.
move=> i dflt li; rewrite (nth_map dd) ?sz //=; split=> //.
- move=> j; rewrite (make_participantsE _ dd) sz -/n; case: ifP => // lj.
  by have [_ _ /(_ lj)[_ _ ->]] := h j dd; rewrite add0n.
- have [_ _ /(_ li)[]] := h i dd; rewrite add0n.
  by case: (nth dd ds i) => a b c /= -> -> ->.
Qed.
Print Assumptions C63_set_up.

Lemma value0 (E : engine) (R : rng E) k (s : rstate R) : value (scalars k.+1 s) 0 = (rand_fr s).1.
Proof.
rewrite /value /= big_ord_recl /= expr0 mulr1 big1 ?addr0 // => i _.
by rewrite exprS mul0r mulr0.
Qed.

(** The nodes of a fresh set-up, any shares they deal, any schedule of at most 64 deliveries
    between them: every call succeeds, and any [t + 1] of the parties decrypt and interpolate
    the sum of the dealt secrets (the first scalar each dealer drew), each counted as often as
    its share reached the node.  The EdDSA keys must work on the digests
    that are signed; for the secret to be
    reconstructed, [g2] and the decryption keys drawn must not be zero. *)
Theorem C63_fresh_network (E : engine) (D : eddsa) (K : ed_keygen D) (b : build) (R : rng E)
  (s s' : rstate R) (t : nat) (seeds : seq (32.-tuple byte)) (nodes : seq (Node E))
  (cs : nat -> coins E) (sh : nat -> PVSSShare E) (es : seq (event E)) :
  let n := size seeds in
  set_up K s t seeds = (Ok nodes, s') ->
  (t.+2 <= n)%N -> (n < modulus E)%N -> fits n ->
  (forall i, (i < n)%N -> good_for K (nth (nseq_tuple 32 x00) seeds i) (dealt_digest (sh i))) ->
  (forall i dflt, (i < n)%N -> (share D b (nth dflt nodes i) (projT2 (cs i))).1 = Ok (sh i)) ->
  all (from_dealers (fun d => d < n)%N) es -> (size es <= 64)%N ->
  exists ag0 : PVSSAggregator E,
    (forall i dflt, (i < n)%N -> nd_aggregator (nth dflt nodes i) = ag0) /\
    let g1 := srs_g1 (cfg_srs (ag_config ag0)) in
    let: (rs, net) := net_run D b sh (fun _ => ag0) es in
    rs = nseq (size es) (Ok tt) /\
    forall v ids b',
      srs_g2 (cfg_srs (ag_config ag0)) != 0 -> size ids = t.+1 -> uniq ids ->
      let sk i := if nth None (map Some nodes) i is Some nd then de_private_key_sig (nd_dealer nd) else 0 in
      (forall i, i \in ids -> (i < n)%N /\ sk i != 0) ->
      exists ds : seq (DecryptedShare E),
        mapM (fun i => decrypted_share_generate
                         (encs (as_pvss_core (ag_aggregated_tx (net v)))) (sk i) i) ids
          = Ok ds :> outcome pvss_error _ /\
        lagrange_interpolation_g1 b' [seq dec d | d <- ds] [seq (origin d).+1%:R | d <- ds] t
          = Ok ((\sum_(i < n) (N.to_nat (tally es v i))%:R * (rand_fr (projT2 (cs i))).1) *: g1).
Proof.
move=> n eset tn nq fn gs hsh fd le.
have := C63_set_up K s t seeds; rewrite eset.
case: (rand_g1 s) => g1 s1; case: (rand_g2 s1) => g2 s2; case: (rand_g2 s2) => g2' s3; cbv beta iota.
rewrite -/n; pose party i := MkParticipant i (nth 0 (scalars n s3) i *: g1)
  (ed_public_bytes K (ed_generate K (nth (nseq_tuple 32 x00) seeds i))).
move=> [_ [[<-] _ szn h]].
pose config := MkConfig (MkSRS g1 g2 g2') t n.
have n0 : (0 < n)%N by exact: leq_trans tn.
case: nodes szn hsh h {eset} => [|nd0 nodes0] szn hsh h; first by rewrite -szn in n0.
move: (nd0 :: nodes0) szn hsh h => nodes szn hsh h.
pose ps := ag_participants (nd_aggregator (nth nd0 nodes 0)); pose ag0 := new_aggregator config ps.
have psE j : bt_get ps j = if (j < n)%N then Some (party j) else None.
  by rewrite /ps; have [_ -> _ _] := h 0%N nd0 n0.
have agE i dflt : (i < n)%N -> nd_aggregator (nth dflt nodes i) = ag0.
  move=> li; have := h i dflt li; case: (nth dflt nodes i) => [[c p x] dl] /= [-> hp -> _].
  by congr MkAggregator; apply: bt_ext => j; rewrite hp psE.
exists ag0; split=> // gg1.
have ok : config_ok config by [].
have reg : registered ag0 by move=> i li; exists (party i); rewrite /= psE li.
have ft : fits t.+1 by exact: (config_fits_t ok).
have hon d : (d < n)%N -> honest_share D ag0 (sh d) /\ sh_participant_id (sh d) = d /\
    dp_gs (sp_decomp_proof (sh_signed_proof (sh d))) = (rand_fr (projT2 (cs d))).1 *: g2.
  move=> ld; have [ec ep et ed] := h d nd0 ld; have sd := hsh d nd0 ld.
  split.
    exists b, (projT1 (cs d)), (nth nd0 nodes d), (projT2 (cs d)), (party d); rewrite agE //; split=> //.
    - by rewrite ed /= psE ld.
    - by rewrite ed /=; exact: gs.
  have := @C62_dealing_verdicts E D b (projT1 (cs d)) (nth nd0 nodes d) (projT2 (cs d)).
  rewrite ec /= => /(_ ft)[k [_]]; rewrite sd => dv.
  inversion dv as [| | | |kp x r1 r2 r3 r4 [i1 _ _ i4 _]]; subst.
  by split; [rewrite i1 ed | rewrite i4 value0 ec].
have hs : honest_setting D config ps ag0 sh (fun d => d < n)%N.
  by split=> // d /hon[h1 [h2 _]].
have ft64 : tally_fits es.
  move=> k v i; have h1 := @tally_small E (take k es) v i.
  have : (size (take k es) <= 64)%N by apply: leq_trans le; rewrite size_take_min geq_minr.
  move=> le'; have h2 : (2 ^ N.of_nat (size (take k es)) <= 2 ^ 64)%num.
    by apply: N.pow_le_mono_r => //; lia.
  by lia.
have := @C59_network_partial E D b config ps ag0 sh (fun d => d < n)%N es hs fd ft64.
case: (net_run D b sh _ es) => rs net [-> hn]; split=> // v ids b' g20 szi ui sk hids.
have [_ _ _ rec] := hn v.
apply: (rec (fun i => (rand_fr (projT2 (cs i))).1) ids sk b' g20) => // [d /hon[_ [_ ->]]//|].
move=> i /hids[li ski]; split=> //.
have ski' : sk i = nth 0 (scalars n s3) i.
  by rewrite /sk (nth_map nd0) ?szn //; have [_ _ _ ->] := h i nd0 li.
by rewrite ski' /key_of /= psE li.
Qed.
Print Assumptions C63_fresh_network.

(** The example: keys whose seed does not start with 0xff, parameters drawn from lists. *)
Definition TK : ed_keygen TD :=
  @EdKeygen TD id id (fun pk => padt 64 (pk ++ pk)).

Definition list_rng : rng TE :=
  @Rng TE (seq (Fr TE)) (fun s => (head 0 s, behead s))
    (fun s => (head 0 s, behead s)) (fun s => (head 0 s, behead s)).

Lemma toy_good_seed i : (i < 4)%N -> good_seed TK (tpk i).
Proof.
move=> li; split.
  by case: i li => [|[|[|[|i]]]] //= _; vm_compute; congr Some; apply: val_inj.
move=> m; have th : thead (tpk i) == xff%byte = false.
  by case: i li => [|[|[|[|i]]]].
eexists; exists (tpk i); split; first by rewrite /=.
  by rewrite /= th.
by rewrite /= -val_eqE /= cat_take_drop.
Qed.

Example C63_example :
  let seeds := [seq tpk i | i <- iota 0 4] in
  let s : rstate list_rng := [:: f 3; f 2; f 5; f 4; f 6; f 1; f 9] in
  (forall seed, seed \in seeds -> good_seed TK seed) /\
  (if (set_up TK s 1 seeds).1 is Ok nodes then
     (size nodes == 4)%N &&
     all (fun nd => is_ok (@share TE TD Debug (seq_rng TE) nd [:: f 7; f 5; f 4]).1) nodes &&
     ([seq de_private_key_sig (nd_dealer nd) | nd <- nodes] == [:: f 4; f 6; f 1; f 9])
   else false).
Proof.
split; last by vm_compute.
by move=> seed /mapP[i]; rewrite mem_iota => /= li ->; exact: toy_good_seed.
Qed.

(** ** C64: a blinded decryption can be checked by everybody *)

(** [d] is the decryption which the commitment of its slot asks for. *)
Definition matches (E : engine) (config : Config E) (comms : seq (Com E)) (d : DecryptedShare E) : Prop :=
  (origin d < size comms)%N /\
  pairing (dec d) (srs_g2 (cfg_srs config))
  = pairing (srs_g1 (cfg_srs config)) (nth 0 comms (origin d)).

Lemma check_blindedE (E : engine) (Er : Type) (config : Config E) (comms : seq (Com E)) id A B :
  (id < size comms)%N ->
  let g1 := srs_g1 (cfg_srs config) in let g2 := srs_g2 (cfg_srs config) in
  check_blinded config comms id (A, B)
  = Ok (pairing g1 A * pairing B g2 == pairing g1 (nth 0 comms id)) :> outcome Er bool.
Proof.
move=> lid g1 g2; rewrite /check_blinded (index_ok 0) //= product_of_pairingsE !big_cons big_nil mulr1.
rewrite -/g1 -/g2 /= pairingNl; congr Ok; apply/eqP/eqP => h.
  by apply: (mulfI (invr_neq0 (pairing_neq0 g1 (nth 0 comms id)))); rewrite h mulVf ?pairing_neq0.
by rewrite h mulVf ?pairing_neq0.
Qed.

Theorem C64_blinded_check (E : engine) (Er : Type) (config : Config E) (comms : seq (Com E)) :
  let g1 := srs_g1 (cfg_srs config) in
  let g2 := srs_g2 (cfg_srs config) in
  let check id cm := check_blinded config comms id cm : outcome Er bool in
  [/\ (** it panics outside the vector, and never fails *)
      forall id cm, (is_panic (check id cm) <-> (size comms <= id)%N) /\ ~~ is_err (check id cm),
      (** a blinded decryption passes exactly when it is the right one, whatever hides it *)
      forall d r, check (origin d) (blind config d r) = Ok true <-> matches config comms d,
      (** what passes is the right decryption hidden by the scalar of its first half *)
      g2 != 0 -> forall id cm, check id cm = Ok true ->
        exists d r, [/\ origin d = id, cm = blind config d r & matches config comms d],
      (** the first half determines the second *)
      g2 != 0 -> forall id A B B', check id (A, B) = Ok true -> check id (A, B') = Ok true -> B = B'
    & (** the owner of the slot's key passes exactly when the slot is well encrypted *)
      forall es sk id, (id < size comms)%N -> (id < size es)%N -> sk != 0 ->
        exists2 d, decrypted_share_generate es sk id = Ok d :> outcome Er _ &
          origin d = id /\ forall r,
          (check id (blind config d r) = Ok true <->
           pairing (sk *: g1) (nth 0 comms id) = pairing (nth 0 es id) g2) ].
Proof.
move=> g1 g2 check.
have oob id cm : (size comms <= id)%N -> check id cm = Panic IndexOutOfBounds.
  by move=> h; rewrite /check /check_blinded index_oob.
have mt d r : check (origin d) (blind config d r) = Ok true <-> matches config comms d.
  rewrite /matches; case: (ltnP (origin d) (size comms)) => lid; last by rewrite oob //; split=> // -[].
  rewrite /check /blind check_blindedE // -/g1 -/g2 pairing_addl pairingNl -pairingZ.
  have -> : pairing (r *: g1) g2 * (pairing (dec d) g2 / pairing (r *: g1) g2) = pairing (dec d) g2.
    by rewrite mulrCA divff ?mulr1 ?pairing_neq0.
  by split=> [[h]|[_ ->]]; [split=> //; exact/eqP | rewrite eqxx].
split=> //.
- move=> id [A B]; case: (leqP (size comms) id) => lid; first by rewrite oob.
  by rewrite /check check_blindedE.
- move=> g20 id [A B] h; have [r hr] := pt_cyclic A g20.
  have lid : (id < size comms)%N by rewrite ltnNge; apply/negP => l; rewrite oob in h.
  exists (MkDec (B + r *: g1) id), r.
  have e : (A, B) = blind config (MkDec (B + r *: g1) id) r by rewrite /blind /= addrK hr.
  by split=> //; apply: (proj1 (mt (MkDec (B + r *: g1) id) r)); rewrite -e.
- move=> g20 id A B B' h h'.
  have lid : (id < size comms)%N by rewrite ltnNge; apply/negP => l; rewrite oob in h.
  move: h h'; rewrite /check !check_blindedE // => -[/eqP h] [/eqP h'].
  apply: (pairing_injl g20); apply: (mulfI (pairing_neq0 g1 A)).
  by rewrite h h'.
move=> es sk id lid les sk0.
rewrite /decrypted_share_generate (index_ok 0) //= /inverse_unwrap (negbTE sk0) /=.
eexists; first by []; split=> // r.
apply: iff_trans (mt (MkDec _ id) r) _; rewrite /matches /= -/g1 -/g2.
split=> [[_ h]|h]; last first.
  split=> //; rewrite pairingZl -h -pairingZl scalerA mulVf // scale1r //.
have -> : nth 0 es id = sk *: (sk^-1 *: nth 0 es id) by rewrite scalerA mulfV // scale1r.
by rewrite !(pairingZl sk) h.
Qed.
Print Assumptions C64_blinded_check.

(** The decryption by participant 0 of its slot of an honest share passes; the check of the
    same decryption fails once the slot was tampered with. *)
Example C64_example :
  let check sh :=
    if (decrypted_share_generate (encs (sh_pvss_core sh)) (f 2 : Fr TE) 0%N : outcome pvss_error _) is Ok d then
      (check_blinded tconfig (comms (sh_pvss_core sh)) 0 (blind tconfig d (f 6))
        : outcome pvss_error bool)
    else Ok false in
  [/\ srs_g2 (cfg_srs tconfig) != 0, check sh2 = Ok true
    & check (tamper_enc sh2 0 (f 1 : Enc TE)) = Ok false].
Proof. by vm_compute. Qed.

(** ** C65: the quorums that reconstruct the committed secret *)

(** What a quorum does with its decryptions. *)
Definition reconstruct (E : engine) (b : build) (t : nat) (ds : seq (DecryptedShare E))
  : outcome pvss_error (Enc E) :=
  lagrange_interpolation_g1 b [seq dec d | d <- ds] [seq (origin d).+1%:R | d <- ds] t.

(** [ids] is a quorum whose members hold the keys of their slots. *)
Definition quorum (E : engine) (ag : PVSSAggregator E) (sk : nat -> Fr E) (ids : seq nat) : Prop :=
  [/\ size ids = (cfg_degree (ag_config ag)).+1, uniq ids
    & forall i, i \in ids ->
      [/\ (i < cfg_num_participants (ag_config ag))%N, sk i != 0
        & key_of ag i = sk i *: srs_g1 (cfg_srs (ag_config ag))]].

(** The property as worded: two quorums decrypting the same accepted share get the same
    result. *)
Definition C65_full : Prop :=
  forall (E : engine) (D : eddsa) (b : build) (R : rng E) (ag : PVSSAggregator E) (s : rstate R)
    (sh : PVSSShare E) (sk : nat -> Fr E) (ids ids' : seq nat) ds ds',
  config_ok (ag_config ag) -> registered ag -> (share_verify D b ag s sh).1 = Ok tt ->
  quorum ag sk ids -> quorum ag sk ids' ->
  let decrypt := mapM (fun i => decrypted_share_generate (encs (sh_pvss_core sh)) (sk i) i
                                : outcome pvss_error _) in
  decrypt ids = Ok ds -> decrypt ids' = Ok ds' ->
  reconstruct b (cfg_degree (ag_config ag)) ds = reconstruct b (cfg_degree (ag_config ag)) ds'.

(** An accepted share of participant 2 whose slot 0 was overwritten: the quorums [0, 1] and
    [1, 2] disagree. *)
Theorem C65_full_refuted : ~ C65_full.
Proof.
move=> full; pose sh := tamper_enc sh2 0 (f 1 : Enc TE).
pose sk i : Fr TE := f (i + 2).
pose decrypt ids := mapM (fun i => decrypted_share_generate (encs (sh_pvss_core sh)) (sk i) i
                                : outcome pvss_error _) ids.
have ok : config_ok (ag_config tag) by [].
have acc : (@share_verify TE TD Debug (seq_rng TE) tag [:: f 1; f 9] sh).1 = Ok tt by vm_compute.
have qm ids : size ids = 2%N -> uniq ids -> all (fun i => i < 4)%N ids -> quorum tag sk ids.
  move=> s2 u a; split; [exact: s2 | exact: u | move=> i /(allP a) li].
  by split; [exact: li | move: li; case: i => [|[|[|[|i]]]] | move: li; case: i => [|[|[|[|i]]]] // _; exact: val_inj].
have q01 : quorum tag sk [:: 0; 1]%N by exact: qm.
have q12 : quorum tag sk [:: 1; 2]%N by exact: qm.
have : if decrypt [:: 0; 1]%N is Ok ds then if decrypt [:: 1; 2]%N is Ok ds' then
    if reconstruct Debug 1 ds is Ok P then if reconstruct Debug 1 ds' is Ok P' then P != P'
    else false else false else false else false by vm_compute.
case e1: (decrypt [:: 0; 1]%N) => [ds|e|p]; [|by []|by []].
case e2: (decrypt [:: 1; 2]%N) => [ds'|e|p]; [|by []|by []].
have := full TE TD Debug (seq_rng TE) tag _ _ sk _ _ ds ds' ok tag_registered acc q01 q12 e1 e2.
rewrite -[cfg_degree _]/1%N => ->; case: (reconstruct Debug 1 ds') => [P|e|p]; [|by []|by []].
by rewrite eqxx.
Qed.
Print Assumptions C65_full_refuted.

(** What holds: decryptions that pass the check of C64, against a vector of commitments of low
    degree, interpolate to the one point [P] with [e(P, g2) = e(g1, S)], [S] the secret the
    vector commits to.  So all quorums of checked decryptions agree. *)
Theorem C65_checked_partial (E : engine) (b : build) (config : Config E) (comms : seq (Com E))
  (t : nat) :
  let g1 := srs_g1 (cfg_srs config) in
  let g2 := srs_g2 (cfg_srs config) in
  let n := size comms in
  (t < n)%N -> (n < modulus E)%N -> fits n -> g2 != 0 -> low_degree t comms ->
  exists S : Com E, exists P : Enc E,
    [/\ lagrange_interpolation_simple b comms t = Ok S,
        forall P', pairing P' g2 = pairing g1 S <-> P' = P
      & forall ds : seq (DecryptedShare E),
          size ds = t.+1 -> uniq [seq origin d | d <- ds] ->
          (forall d, List.In d ds -> exists r,
             check_blinded config comms (origin d) (blind config d r) = Ok true :> outcome pvss_error _) ->
          reconstruct b t ds = Ok P ].
Proof.
move=> g1 g2 n tn nq fn g20 [p sp ev].
have ft : (N.of_nat t + 1 < 2 ^ 64)%num by move: fn; rewrite /fits /n; lia.
have [c hc] := pt_cyclic (pt_gen (G2 E)) g20.
exists (p.[0] *: pt_gen _), ((p.[0] * c) *: g1); split.
- apply: lagrange_simple_poly => //; first by rewrite [in LHS]ev take_eval_vec.
  exact: leq_ltn_trans nq.
- move=> P'; rewrite hc scalerA -pairingZ; split=> [h|-> //]; exact: (pairing_injl g20).
move=> ds sz u chk.
have hd d : List.In d ds -> (origin d < n)%N /\ dec d = (p.[(origin d).+1%:R] * c) *: g1.
  move=> /chk[r]; have [_ h _ _ _] := @C64_blinded_check E pvss_error config comms.
  move/h => [lo]; rewrite ev nth_eval_vec // hc scalerA -pairingZ => e; split=> //.
  exact: (pairing_injl g20).
rewrite /reconstruct.
have -> : [seq dec d | d <- ds] = eval_at (c *: p) g1 [seq (origin d).+1%:R | d <- ds].
  rewrite /eval_at -map_comp; elim: ds hd {sz u chk} => [//|d ds IH] hd /=.
  rewrite IH => [|d' /or_intror/hd//].
  by have [_ ->] := hd d (or_introl erefl); rewrite hornerZ mulrC.
rewrite (@C05_interpolation_g1 E) ?hornerZ ?[c * _]mulrC // ?size_map ?sz //.
  by apply: leq_trans (size_scale_leq _ _) sp.
rewrite take_oversize ?size_map ?sz //.
have -> : [seq (origin d).+1%:R : Fr E | d <- ds] = [seq i.+1%:R | i <- [seq origin d | d <- ds]].
  by rewrite -map_comp.
rewrite map_inj_in_uniq //.
have lt i : i \in [seq origin d | d <- ds] -> (i < n)%N.
  elim: ds hd {sz u chk} => [//|d ds IH] hd /=; rewrite inE => /orP[/eqP->|].
    by have [] := hd d (or_introl erefl).
  by apply: IH => d' /or_intror/hd.
move=> i j /lt li /lt lj; exact: (pnt_inj nq).
Qed.
Print Assumptions C65_checked_partial.

(** The honest share: its commitments have low degree, and the checked decryptions of the
    quorums [0, 1] and [1, 3] reconstruct the same point. *)
Example C65_example :
  low_degree 1 (comms (sh_pvss_core sh2)) /\
  let ds ids := mapM (fun i => decrypted_share_generate (encs (sh_pvss_core sh2)) (f (i + 2) : Fr TE) i
                      : outcome pvss_error _) ids in
  let passes d := if (check_blinded tconfig (comms (sh_pvss_core sh2)) (origin d) (blind tconfig d (f 6))
                      : outcome pvss_error bool) is Ok b then b else false in
  let gives ds (P : Enc TE) := if reconstruct Debug 1 ds is Ok P' then P' == P else false in
  if ds [:: 0; 1]%N is Ok ds1 then if ds [:: 1; 3]%N is Ok ds2 then
    [&& all passes ds1, all passes ds2, gives ds1 (f 7 * f 3)
      & gives ds2 (f 7 * f 3)]
  else false else false.
Proof.
split; last by vm_compute.
have : dealt TD tag sh2 by apply: honest_dealt => //; exact: sh2_honest.
by move=> [p [pa [[sp ->] _ _ _ _]]]; exact: low_degree_eval.
Qed.
