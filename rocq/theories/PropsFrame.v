(** * PropsFrame: C97, what each operation depends on *)

From Coq Require Import NArith Strings.Byte.
From mathcomp Require Import all_ssreflect all_algebra zify.
From Verif Require Import Prelude Errors BTreeMap Engine LibModel PolyModel SigmaModel PvssModel
  Spec PreludeProofs AlgebraProofs PolyProofs PvssProofs AggProofs HistProofs Instance
  PropsPoly PropsShare PropsAgg PropsHist PropsEnd PropsLimits PropsAttack.

Set Implicit Arguments.
Unset Strict Implicit.
Unset Printing Implicit Defensive.

Import GRing.Theory.
Local Open Scope ring_scope.

Section Frame.
Variables (E : engine) (D : eddsa) (b : build).
Implicit Types (ag : PVSSAggregator E) (node : Node E).

(** What is read of a configuration: not [g1], not [g2_prime]. *)
Definition config_view (c : Config E) : Com E * nat * nat :=
  (srs_g2 (cfg_srs c), cfg_degree c, cfg_num_participants c).

(** What is read of the participant registered under [i]: not the [id] it carries. *)
Definition enc_key_at ag i : option (Enc E) := omap (@pa_public_key_sig E) (bt_get (ag_participants ag) i).
Definition ed_key_at ag i : option PublicKey := omap (@pa_public_key_ed E) (bt_get (ag_participants ag) i).

Lemma decomp_verify_view (c c' : Config E) dp : config_view c = config_view c' ->
  decomp_verify dp c = decomp_verify dp c'.
Proof. by case=> e _ _; rewrite /decomp_verify e. Qed.

Lemma signed_verify_view (c c' : Config E) sp pk : config_view c = config_view c' ->
  signed_verify D sp c pk = signed_verify D sp c' pk.
Proof. by move=> e; rewrite /signed_verify (decomp_verify_view _ e). Qed.

(** Verifying a share reads the second generator, degree and number of participants, and the two
    keys registered under the identity the share names: no other participant, no identity stored
    in a participant, neither [g1] nor [g2_prime], and not the transcript held. *)
Theorem C97_share_verify ag ag' (R : rng E) (s : rstate R) (sh : PVSSShare E) :
  config_view (ag_config ag) = config_view (ag_config ag') ->
  enc_key_at ag (sh_participant_id sh) = enc_key_at ag' (sh_participant_id sh) ->
  ed_key_at ag (sh_participant_id sh) = ed_key_at ag' (sh_participant_id sh) ->
  share_verify D b ag s sh = share_verify D b ag' s sh.
Proof.
move=> ec; have [e2 et en] := ec; rewrite /enc_key_at /ed_key_at /share_verify /core_verify.
case: (bt_get _ _) => [p|]; case: (bt_get _ _) => [p'|] //= [eP] [eD].
rewrite e2 et en eP; case: (index (comms _) _) => [v|e|x] //=; case: (index (encs _) _) => [u|e|x] //=.
case: ifP => //= _; case: ifP => //= _; case: (ensure_degree _ _ _ _) => [o s'] /=.
by rewrite (signed_verify_view _ _ ec) eD.
Qed.

(** Verifying a transcript reads, besides, the encryption keys of all slots and the signing keys
    of the contributors; of the transcript it reads vectors and contributions, not the degree and
    the number of participants it claims. *)
Theorem C97_aggregation_verify ag ag' (R : rng E) (s : rstate R) (x x' : PVSSAggregatedShare E) :
  config_view (ag_config ag) = config_view (ag_config ag') ->
  (forall i, (i < cfg_num_participants (ag_config ag))%N -> enc_key_at ag i = enc_key_at ag' i) ->
  (forall i v, List.In (i, v) (bt_iter (as_contributions x)) -> ed_key_at ag i = ed_key_at ag' i) ->
  as_pvss_core x = as_pvss_core x' -> as_contributions x = as_contributions x' ->
  aggregation_verify D b ag s x = aggregation_verify D b ag' s x'.
Proof.
move=> ec ek dk exc exk; have [e2 et en] := ec; rewrite /aggregation_verify -exc -exk -et -e2 -en.
case: ifP => // _; case: (ensure_degree _ _ _ _) => [[u|e|p] s1] //; case: (rand_fr s1) => r s2.
have -> : encryption_pairs ag r (as_pvss_core x) = encryption_pairs ag' r (as_pvss_core x).
  rewrite /encryption_pairs -en; apply: eq_in_foldM => -[eps ps] i; rewrite mem_iota add0n => /= li.
  case: (index (encs _) _) => [v|e|p] //=; have := ek i li; rewrite /enc_key_at.
  by case: (bt_get _ _) => [p|]; case: (bt_get _ _) => [p'|] //= [->].
have -> : contributions_total D ag (as_contributions x) = contributions_total D ag' (as_contributions x).
  rewrite /contributions_total; elim: (bt_iter _) 0 dk => [|[i [sp w]] l IH] acc dk //=.
  have := dk i _ (or_introl erefl); rewrite /ed_key_at.
  have {}IH a := IH a (fun j v h => dk j v (or_intror h)).
  case: (bt_get _ _) => [p|]; case: (bt_get _ _) => [p'|] //= [->].
  rewrite (signed_verify_view _ _ ec).
  by case: (signed_verify _ _ _ _) => [u0|e|y] //=.
by [].
Qed.

(** Dealing reads the second generator, degree and number of participants, the encryption keys of
    the slots, and of the dealer its identity and its signing key.  It reads nothing that was
    received, no signing key of others, and not the dealer's own decryption key. *)
Theorem C97_share node node' (R : rng E) (s : rstate R) :
  let ag := nd_aggregator node in
  let ag' := nd_aggregator node' in
  config_view (ag_config ag) = config_view (ag_config ag') ->
  (forall i, (i < cfg_num_participants (ag_config ag))%N -> enc_key_at ag i = enc_key_at ag' i) ->
  pa_id (de_participant (nd_dealer node)) = pa_id (de_participant (nd_dealer node')) ->
  de_private_key_ed (nd_dealer node) = de_private_key_ed (nd_dealer node') ->
  share D b node s = share D b node' s.
Proof.
move=> ag ag' ec ek ei ed; have [e2 et en] := ec.
rewrite /share /share_pvss -/ag -/ag' -et -en -ei -ed.
case: (poly_rand b _ s) => [[cs|e|p] s1] //; rewrite !obindE.
have [n0|n0] := posnP (cfg_num_participants (ag_config ag)).
  by rewrite n0; case: (u64_sub _ _ _).
have -> : u64_sub b (N.of_nat (cfg_num_participants (ag_config ag))) 1
          = Ok (N.of_nat (cfg_num_participants (ag_config ag)).-1) :> outcome pvss_error _.
  by rewrite /u64_sub; case: N.leb_spec => h; [congr Ok | ]; lia.
rewrite !obindE Nnat.Nat2N.id prednK // -e2.
set evals := [seq evaluate cs _ | _ <- _].
have -> : mapM (fun j => let! p := ok_or (bt_get (ag_participants ag) j) (InvalidParticipantId j) in
                 let! e := index evals j in Ok (e *: pa_public_key_sig p))
            (iota 0 (cfg_num_participants (ag_config ag)))
          = mapM (fun j => let! p := ok_or (bt_get (ag_participants ag') j) (InvalidParticipantId j) in
                 let! e := index evals j in Ok (e *: pa_public_key_sig p))
            (iota 0 (cfg_num_participants (ag_config ag))) :> outcome pvss_error _.
  apply: eq_in_mapM => i; rewrite mem_iota add0n => /= li; have := ek i li; rewrite /enc_key_at.
  by case: (bt_get _ _) => [p|]; case: (bt_get _ _) => [p'|] //= [->].
case: (mapM _ _) => [cm|e|p] //; rewrite !obindE; case: (mapM _ _) => [en'|e|p] //; rewrite !obindE.
case: (index _ _) => [mine|e|p] //; rewrite !obindE; case: (index _ _) => [p0|e|p] //; rewrite !obindE /=.
by rewrite /decomp_generate -e2; case: (dlk_prove _ _ _) => [pr s2].
Qed.

(** In particular a dealer's share says nothing about its decryption key. *)
Theorem C97_decryption_key_unused ag (sk sk' : Fr E) ed (p : Participant E) (R : rng E) (s : rstate R) :
  share D b (MkNode ag (MkDealer sk ed p)) s = share D b (MkNode ag (MkDealer sk' ed p)) s.
Proof. exact: C97_share. Qed.

(** Decrypting reads one slot. *)
Theorem C97_decrypt (es es' : seq (Enc E)) (sk : Fr E) (i : nat) :
  (i < size es)%N -> (i < size es')%N -> nth 0 es i = nth 0 es' i ->
  decrypted_share_generate es sk i = decrypted_share_generate es' sk i :> outcome pvss_error _.
Proof. by move=> l l' e; rewrite /decrypted_share_generate !(index_ok 0) // e. Qed.

(** Receiving depends on nothing but what verification reads and on the transcript held; the new
    transcripts are the same. *)
Theorem C97_receive ag ag' (c : call E) :
  config_view (ag_config ag) = config_view (ag_config ag') ->
  (forall i, enc_key_at ag i = enc_key_at ag' i) -> (forall i, ed_key_at ag i = ed_key_at ag' i) ->
  ag_aggregated_tx ag = ag_aggregated_tx ag' ->
  (receive D b ag c).1 = (receive D b ag' c).1 /\
  ag_aggregated_tx (receive D b ag c).2 = ag_aggregated_tx (receive D b ag' c).2.
Proof.
move=> ec ek dk ex; case: c => [[sh|y] R s]; rewrite /receive /=.
  rewrite /receive_share (C97_share_verify s ec (ek _) (dk _)) ex.
  by case: (share_verify _ _ _ _ _) => [o s']; case: (let! _ := _ in _).
rewrite /receive_aggregated_share (@C97_aggregation_verify ag ag' R s y y) // ex.
by case: (aggregation_verify _ _ _ _ _) => [o s']; case: (let! _ := _ in _).
Qed.

End Frame.
Print Assumptions C97_share_verify.
Print Assumptions C97_aggregation_verify.
Print Assumptions C97_share.
Print Assumptions C97_decryption_key_unused.
Print Assumptions C97_decrypt.
Print Assumptions C97_receive.

(** An aggregator that differs from [tag] in [g1], in [g2_prime], in the stored identities, in the
    keys of participant 3 (for shares of others), and in the transcript held answers alike; it
    answers otherwise if [g2], the degree, or a key of the sender is changed. *)
Example C97_example :
  let other i := @MkParticipant TE 7 (pa_public_key_sig (tpart i)) (pa_public_key_ed (tpart i)) in
  let srs := @MkSRS TE (f 8) (f 2) (f 1) in
  let ps := bt_insert (bt_collect [seq (i, other i) | i <- iota 0 3]) 3 (@MkParticipant TE 7 (f 1) (tpk 0)) in
  let ag := MkAggregator (MkConfig srs 1 4) ps tother in
  let wrong_key := bt_insert ps 1 (@MkParticipant TE 1 (f 1) (tpk 1)) in
  let wrong_pk := bt_insert ps 1 (@MkParticipant TE 1 (pa_public_key_sig (tpart 1)) (tpk 0)) in
  let answer ag := is_ok (@share_verify TE TD Debug (seq_rng TE) ag [:: f 1; f 9; f 3] sh1).1 in
  [/\ [/\ config_view (ag_config tag) = config_view (ag_config ag),
          enc_key_at tag 1 = enc_key_at ag 1 & ed_key_at tag 1 = ed_key_at ag 1],
      answer tag, answer ag
    & [/\ ~~ answer (MkAggregator (MkConfig srs 1 4) wrong_key tother),
          ~~ answer (MkAggregator (MkConfig srs 1 4) wrong_pk tother),
          ~~ answer (MkAggregator (MkConfig srs 0 4) ps tother)
        & ~~ answer (MkAggregator (MkConfig (@MkSRS TE (f 8) (f 4) (f 1)) 1 4) ps tother)]].
Proof.
split; [split; reflexivity | by vm_compute | by vm_compute | split].
- by vm_compute.
- by vm_compute.
- by vm_compute.
by vm_compute.
Qed.
