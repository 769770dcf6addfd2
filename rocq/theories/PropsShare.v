(** * PropsShare: properties C08, C09, C11 to C13, C27, about dealing, verifying and
    decrypting one share *)

From Coq Require Import NArith Strings.Byte.
From mathcomp Require Import all_ssreflect all_algebra zify.
From Verif Require Import Prelude Errors BTreeMap Engine LibModel PolyModel SigmaModel PvssModel
  Spec PreludeProofs AlgebraProofs PolyProofs PvssProofs Instance.

Set Implicit Arguments.
Unset Strict Implicit.
Unset Printing Implicit Defensive.

Import GRing.Theory.
Local Open Scope ring_scope.

(** ** C09: what a dealt share contains, and when dealing fails *)

Theorem C09_dealing (E : engine) (b : build) (R : rng E) (node : Node E) (s : rstate R) :
  let ag := nd_aggregator node in
  let config := ag_config ag in
  let t := cfg_degree config in
  let n := cfg_num_participants config in
  let id := pa_id (de_participant (nd_dealer node)) in
  let coefs := (draw t.+1 s).1 in
  let p := Poly coefs in
  let r := (share_pvss b node s).1 in
  fits t.+1 ->
  [/\ (size p <= t.+1)%N,
      n = 0%N -> is_panic r,
      forall j, (j < n)%N -> bt_get (ag_participants ag) j = None ->
        (forall i, (i < j)%N -> bt_get (ag_participants ag) i <> None) ->
        r = Err (InvalidParticipantId j)
    & (0 < n)%N -> (forall i, (i < n)%N -> bt_get (ag_participants ag) i <> None) ->
      ((n <= id)%N \/ all (fun c => c == 0) coefs -> is_panic r) /\
      ((id < n)%N -> ~~ all (fun c => c == 0) coefs ->
       exists core secrets,
         [/\ r = Ok (core, secrets),
             comms core = [seq p.[i.+1%:R] *: srs_g2 (cfg_srs config) | i <- iota 0 n],
             encs core = [seq p.[i.+1%:R] *: key_of ag i | i <- iota 0 n],
             ss_p_0 secrets = p.[0]
           & ss_my_secret secrets = p.[id.+1%:R] *: srs_g1 (cfg_srs config)]) ].
Proof.
move=> ag config t n id coefs p r ft; split.
- exact: size_dealt_poly.
- exact: share_pvss_zero.
- by move=> j jn gj before; apply: share_pvss_missing.
- move=> n0 pres; rewrite /r share_pvss_present // -/ag -/config -/n -/id -/t -/coefs -/p.
  split.
    by case=> [|->]; rewrite ?andbF // leqNgt => /negbTE ->.
  move=> lid nz; rewrite lid nz /=; eexists; eexists; split; first by [].
  + by rewrite /= /eval_vec (iotaDl 1 0 n : iota 1 n = _) -map_comp.
  + by [].
  + by [].
  + by [].
Qed.
Print Assumptions C09_dealing.

(** All four outcomes on the toy configuration. *)
Example C09_example :
  let deal node coins := (@share_pvss TE Debug (seq_rng TE) node coins).1 in
  let holes := MkAggregator tconfig (bt_collect [:: (0%N, tpart 0); (2%N, tpart 2)]) (agg_empty TE 1 4) in
  [/\ is_ok (deal (tnode 2) [:: f 7; f 5]),
      (if deal (MkNode holes (tdealer 0)) [:: f 7; f 5] is Err (InvalidParticipantId j)
       then j == 1%N else false),
      is_panic (deal (tnode 4) [:: f 7; f 5]) & is_panic (deal (tnode 2) [:: f 0; f 0])].
Proof. by split; vm_compute. Qed.

(** ** C08: an honest share is accepted *)

(** The key pair works: the secret key loads and everything it signs verifies. *)
Definition working_key (D : eddsa) (sk : SecretKey) (pk : PublicKey) : Prop :=
  exists2 kp, ed_keypair_from_bytes D sk = Some kp
            & forall m : Digest, eddsa_valid D (sig_split (ed_sign kp m)) m pk.

(** It works on one digest.  (Of the real scheme no more can be asked: there are more digests
    than nonces, and a digest with nonce zero is signed in vain, C112.) *)
Definition works_on (D : eddsa) (sk : SecretKey) (pk : PublicKey) (m : Digest) : Prop :=
  exists2 kp, ed_keypair_from_bytes D sk = Some kp
            & eddsa_valid D (sig_split (ed_sign kp m)) m pk.

Lemma working_on (D : eddsa) (sk : SecretKey) (pk : PublicKey) (m : Digest) :
  working_key D sk pk -> works_on D sk pk m.
Proof. by case=> kp h v; exists kp. Qed.

(** The holder of [sk] can prove every secret with a proof on which the key works: some nonce
    will do. *)
Definition can_prove (E : engine) (D : eddsa) (config : Config E) (sk : SecretKey) (pk : PublicKey)
  : Prop :=
  let g := srs_g2 (cfg_srs config) in
  forall a : Fr E, exists dp : DecompProof E,
    [/\ proof_valid g dp, dp_gs dp = a *: g & works_on D sk pk (signed_digest dp)].

Lemma working_can_prove (E : engine) (D : eddsa) (config : Config E) (sk : SecretKey) (pk : PublicKey) :
  working_key D sk pk -> can_prove D config sk pk.
Proof.
move=> wk g a; pose c := hash_to_field E DLK_PERSONA (pt_ser g ++ pt_ser (0 : Com E)).
exists (MkDecomp (DlkProof 0 c (- (c * a))) (a *: g)); split=> //; last exact: working_on.
by split=> //=; rewrite -/c scaleNr scalerA addNr.
Qed.

(** The digest a dealer signs in its share. *)
Definition dealt_digest (E : engine) (sh : PVSSShare E) : Digest :=
  signed_digest (sp_decomp_proof (sh_signed_proof sh)).

(** What dealing yields, as the aggregator sees it. *)
Definition dealt (E : engine) (D : eddsa) (ag : PVSSAggregator E) (sh : PVSSShare E) : Prop :=
  exists (p : {poly Fr E}) (pa : Participant E),
    [/\ (size p <= (cfg_degree (ag_config ag)).+1)%N /\ sh_pvss_core sh = core_of ag p,
        (sh_participant_id sh < cfg_num_participants (ag_config ag))%N,
        bt_get (ag_participants ag) (sh_participant_id sh) = Some pa,
        dp_gs (sp_decomp_proof (sh_signed_proof sh)) = p.[0] *: srs_g2 (cfg_srs (ag_config ag))
      & signed_valid D (ag_config ag) (sh_signed_proof sh) (pa_public_key_ed pa)].

Lemma share_dealt (E : engine) (D : eddsa) (b : build) (R : rng E) (node : Node E) (s : rstate R)
  (sh : PVSSShare E) (pa : Participant E) :
  let ag := nd_aggregator node in
  let id := pa_id (de_participant (nd_dealer node)) in
  fits (cfg_degree (ag_config ag)).+1 ->
  bt_get (ag_participants ag) id = Some pa ->
  works_on D (de_private_key_ed (nd_dealer node)) (pa_public_key_ed pa) (dealt_digest sh) ->
  (share D b node s).1 = Ok sh ->
  sh_participant_id sh = id /\ dealt D ag sh.
Proof.
move=> ag id ft gid [kp hkp vkp]; rewrite /share.
set t := cfg_degree (ag_config ag) in ft; set n := cfg_num_participants (ag_config ag).
have [n0|n0] := posnP n.
  have := share_pvss_zero b s ft n0.
  by case: (share_pvss b node s) => [[[c sec]|e|pp] s1].
have [/allP pres|/allPn] := boolP (all (fun i => bt_get (ag_participants ag) i) (iota 0 n)); last first.
  move=> h.
  have ex : exists j, (fun j => (j < n)%N && ~~ isSome (bt_get (ag_participants ag) j)) j.
    by case: h => j; rewrite mem_iota => /andP[_ jn] nj; exists j; rewrite /= jn.
  case: (ex_minnP ex) => j /andP[jn nj] jmin.
  have fm : first_missing ag n j.
    split=> //; first by case: (bt_get _ j) nj.
    move=> i ij gi; have := jmin i; rewrite (ltn_trans ij jn) gi /= => /(_ isT).
    by rewrite leqNgt ij.
  have := share_pvss_missing b s ft fm.
  by case: (share_pvss b node s) => [[[c sec]|e|pp] s1].
have {}pres i : (i < n)%N -> bt_get (ag_participants ag) i <> None.
  by move=> li; have := pres i; rewrite mem_iota li => /(_ isT); case: (bt_get _ i).
have := share_pvss_present b s ft n0 pres.
case: (share_pvss b node s) => [o s1] /= ->; case: ifP => // /andP[lid nz] /=.
set p := Poly _; rewrite /decomp_generate /dlk_prove.
case: (rand_fr s1) => r s2 /=; rewrite /signature_new hkp /= => -[esh].
rewrite -{}esh in vkp *.
split=> //; exists p, pa; split=> //=.
  by split; first exact: size_dealt_poly.
split=> /=; last by rewrite -decomp_digestE; move: vkp; rewrite /dealt_digest /= -decomp_digestE.
split=> //=; rewrite scalerBl scalerA /dlk_preimage.
by rewrite mulrC subrK.
Qed.

Lemma dealt_accepted (E : engine) (D : eddsa) (b : build) (R : rng E) (ag : PVSSAggregator E)
  (s : rstate R) (sh : PVSSShare E) :
  config_ok (ag_config ag) -> dealt D ag sh -> (share_verify D b ag s sh).1 = Ok tt.
Proof.
move=> ok [p [pa [[sp ecore] lid gid egs sv]]]; have [_ nq fn] := ok.
apply/share_verifyE => //; exists pa; rewrite ecore; split=> //.
  exact: core_of_slot.
rewrite egs; split; [exact: core_of_sized | exact: core_of_degree | exact: core_of_commits].
Qed.

Lemma config_fits_t (E : engine) (config : Config E) :
  config_ok config -> fits (cfg_degree config).+1.
Proof. by case; rewrite /fits; lia. Qed.

Theorem C08_honest_share_accepted (E : engine) (D : eddsa) (b b' : build) (R R' : rng E)
  (node : Node E) (s : rstate R) (ag : PVSSAggregator E) (s' : rstate R')
  (pa : Participant E) (sh : PVSSShare E) :
  config_ok (ag_config ag) ->
  (** the verifier has the dealer's configuration and participants *)
  ag_config ag = ag_config (nd_aggregator node) ->
  ag_participants ag = ag_participants (nd_aggregator node) ->
  (** the dealer is registered under its id, with a key that works on what it signs *)
  bt_get (ag_participants ag) (pa_id (de_participant (nd_dealer node))) = Some pa ->
  works_on D (de_private_key_ed (nd_dealer node)) (pa_public_key_ed pa) (dealt_digest sh) ->
  (share D b node s).1 = Ok sh ->
  (share_verify D b' ag s' sh).1 = Ok tt.
Proof.
move=> ok ec ep gid wk sok; apply: dealt_accepted => //.
have ft : fits (cfg_degree (ag_config (nd_aggregator node))).+1.
  by rewrite -ec; exact: config_fits_t.
rewrite ep in gid; have [_] := share_dealt ft gid wk sok.
case=> p [pa' [[sp ecore] lid gid' egs sv]].
have ek i : key_of ag i = key_of (nd_aggregator node) i by rewrite /key_of ep.
exists p, pa'; rewrite ec ep; split=> //; split=> //.
by rewrite ecore /core_of ec /enc_vec (eq_map (fun i => congr1 (fun k => _ *: k) (ek i))).
Qed.
Print Assumptions C08_honest_share_accepted.

(** The toy key pairs work, and dealing succeeds. *)
Lemma toy_working i : (i < 4)%N -> working_key TD (tsk i) (tpk i).
Proof.
move=> li; exists (tpk i).
  by case: i li => [|[|[|[|i]]]] //= _; vm_compute; congr Some; apply: val_inj.
move=> m; have th : thead (tpk i) == xff%byte = false.
  by case: i li => [|[|[|[|i]]]].
eexists; exists (tpk i); split; first by rewrite /=.
  by rewrite /= th.
by rewrite /= -val_eqE /= cat_take_drop.
Qed.

Example C08_example :
  [/\ config_ok tconfig, bt_get tparts 2 = Some (tpart 2), working_key TD (tsk 2) (tpk 2)
    & is_ok (@share TE TD Debug (seq_rng TE) (tnode 2) [:: f 7; f 5; f 4]).1].
Proof. by split; [split | reflexivity | exact: toy_working | vm_compute]. Qed.

(** ** C11: share_verify accepts exactly the shares satisfying its conditions *)

Theorem C11_share_verify_exact (E : engine) (D : eddsa) (b : build) (R : rng E)
  (ag : PVSSAggregator E) (s : rstate R) (sh : PVSSShare E) :
  let config := ag_config ag in
  let n := cfg_num_participants config in
  let t := cfg_degree config in
  let core := sh_pvss_core sh in
  let id := sh_participant_id sh in
  let sp := sh_signed_proof sh in
  (n < modulus E)%N -> fits n ->
  (share_verify D b ag s sh).1 = Ok tt <->
  exists p,
    [/\ bt_get (ag_participants ag) id = Some p,
        [/\ size (encs core) = n, size (comms core) = n & (id < n)%N],
        (ensure_degree b s (comms core) t).1 = Ok tt,
        commits_to t (comms core) (dp_gs (sp_decomp_proof sp))
      & [/\ pairing (pa_public_key_sig p) (nth 0 (comms core) id)
            = pairing (nth 0 (encs core) id) (srs_g2 (cfg_srs config)),
            proof_valid (srs_g2 (cfg_srs config)) (sp_decomp_proof sp)
          & eddsa_valid D (sp_signature_on_decomp sp) (signed_digest (sp_decomp_proof sp))
              (pa_public_key_ed p)] ].
Proof.
move=> config n t core id sp nq fn; rewrite share_verifyE //.
rewrite /slot_ok /key_of -/id -/core -/config.
split=> [[p [g lid so [[se sc] deg cm] [pv ev]]]|[p [g [se sc lid] deg cm [so pv ev]]]];
  by exists p; rewrite g in so *; split.
Qed.
Print Assumptions C11_share_verify_exact.

Example C11_example :
  let sh := (@share TE TD Debug (seq_rng TE) (tnode 2) [:: f 7; f 5; f 4]).1 in
  (cfg_num_participants tconfig < modulus TE)%N /\ fits (cfg_num_participants tconfig) /\
  if sh is Ok sh then
    (@share_verify TE TD Debug (seq_rng TE) tag [:: f 1; f 9] sh).1 = Ok tt /\
    is_panic (@share_verify TE TD Debug (seq_rng TE) tag [:: f 1; f 9]
       (MkShare 2 (sh_pvss_core sh)
          (MkSigned (sp_decomp_proof (sh_signed_proof sh)) (Sig (tpk 0) (tpk 0))))).1
  else False.
Proof. by split=> //; split=> //; vm_compute. Qed.

(** ** C12: an accepted share may be undecryptable by others; false as stated *)

(** The share with the encryption of recipient [j] replaced by [X]. *)
Definition tamper_enc (E : engine) (sh : PVSSShare E) (j : nat) (X : Enc E) : PVSSShare E :=
  MkShare (sh_participant_id sh)
    (MkCore (set_nth 0 (encs (sh_pvss_core sh)) j X) (comms (sh_pvss_core sh)))
    (sh_signed_proof sh).

(** Full statement (refuted): every slot of an accepted share holds the encryption of the
    committed evaluation.  Only the sender's slot is checked: any other one can be replaced
    by any point whatsoever and the share is accepted with the same coins. *)
Theorem C12_every_slot_decryptable_refuted (E : engine) (D : eddsa) (b : build) (R : rng E)
  (ag : PVSSAggregator E) (s : rstate R) (sh : PVSSShare E) (j : nat) (X : Enc E) :
  let n := cfg_num_participants (ag_config ag) in
  (n < modulus E)%N -> fits n -> (j < n)%N -> j <> sh_participant_id sh ->
  (share_verify D b ag s sh).1 = Ok tt ->
  (share_verify D b ag s (tamper_enc sh j X)).1 = Ok tt.
Proof.
move=> n nq fn jn jid /share_verifyE[] // p [g lid so [[se sc] deg cm] sv].
apply/share_verifyE => //=; exists p; split=> //.
- by move: so; rewrite /slot_ok /= nth_set_nth /=; case: eqP => // e; case: jid.
- split=> //; split=> //=; rewrite size_set_nth se; apply/maxn_idPr; exact: jn.
Qed.
Print Assumptions C12_every_slot_decryptable_refuted.

(** What holds: the sender's own slot is the encryption of what it committed to. *)
Theorem C12_own_slot_partial (E : engine) (D : eddsa) (b : build) (R : rng E)
  (ag : PVSSAggregator E) (s : rstate R) (sh : PVSSShare E) :
  let n := cfg_num_participants (ag_config ag) in
  let g2 := srs_g2 (cfg_srs (ag_config ag)) in
  let id := sh_participant_id sh in
  (n < modulus E)%N -> fits n -> g2 != 0 ->
  (share_verify D b ag s sh).1 = Ok tt ->
  exists a : Fr E, nth 0 (comms (sh_pvss_core sh)) id = a *: g2 /\
                   nth 0 (encs (sh_pvss_core sh)) id = a *: key_of ag id.
Proof.
move=> n g2 id nq fn g20 /share_verifyE[] // p [g lid so _ _].
have [a ha] := pt_cyclic (nth 0 (comms (sh_pvss_core sh)) id) g20.
exists a; split=> //; move: so; rewrite /slot_ok -/id ha -pairingZ => e.
by apply: (pairing_injl g20); rewrite -e.
Qed.
Print Assumptions C12_own_slot_partial.

(** An honest share of participant 2 with the slot of participant 0 overwritten by 1: the
    slot no longer matches, and the share is accepted. *)
Example C12_example :
  if (@share TE TD Debug (seq_rng TE) (tnode 2) [:: f 7; f 5; f 4]).1 is Ok sh then
    let bad := @tamper_enc TE sh 0 (f 1) in
    [/\ (@share_verify TE TD Debug (seq_rng TE) tag [:: f 1; f 9] sh).1 = Ok tt,
        (@share_verify TE TD Debug (seq_rng TE) tag [:: f 1; f 9] bad).1 = Ok tt
      & ~~ (@pairing TE (key_of tag 0) (nth 0 (comms (sh_pvss_core bad)) 0)
            == @pairing TE (nth 0 (encs (sh_pvss_core bad)) 0) (srs_g2 tsrs))]
  else False.
Proof. by vm_compute. Qed.

(** The property as worded, for a proper configuration with everybody registered. *)
Definition C12_full : Prop :=
  forall (E : engine) (D : eddsa) (b : build) (R : rng E) (ag : PVSSAggregator E) (s : rstate R)
    (sh : PVSSShare E),
  config_ok (ag_config ag) -> registered ag -> (share_verify D b ag s sh).1 = Ok tt ->
  forall i, (i < cfg_num_participants (ag_config ag))%N -> slot_ok ag (sh_pvss_core sh) i.

Lemma tag_registered : registered tag.
Proof.
case=> [|[|[|[|i]]]] h; [exists (tpart 0)|exists (tpart 1)|exists (tpart 2)|exists (tpart 3)|by []];
  reflexivity.
Qed.

Theorem C12_full_refuted : ~ C12_full.
Proof.
move=> h; move: C12_example.
case e: (@share TE TD Debug (seq_rng TE) (tnode 2) [:: f 7; f 5; f 4]).1 => [sh|?|?] //= [_ acc].
move/eqP; apply; have ok : config_ok (ag_config tag) by split.
exact: (h TE TD Debug (seq_rng TE) tag _ _ ok tag_registered acc 0%N isT).
Qed.

(** ** C13: the signed proof does not bind the dealer to the vector; false as stated *)

(** The share shifted by a polynomial [d]. *)
Definition shift_share (E : engine) (ag : PVSSAggregator E) (sh : PVSSShare E) (d : {poly Fr E})
  : PVSSShare E :=
  let n := cfg_num_participants (ag_config ag) in
  let core := sh_pvss_core sh in
  MkShare (sh_participant_id sh)
    (MkCore [seq e.1 + e.2 | e <- zip (encs core) [seq d.[i.+1%:R] *: key_of ag i | i <- iota 0 n]]
            [seq e.1 + e.2 | e <- zip (comms core) (eval_vec d (srs_g2 (cfg_srs (ag_config ag))) n)])
    (sh_signed_proof sh).

(** Full statement (refuted): accepted shares with the same signed proof carry the same
    vectors.  Whoever adds to an accepted share any polynomial of degree at most t vanishing
    at 0 obtains another accepted share with the same signed proof. *)
Theorem C13_proof_binds_vector_refuted (E : engine) (D : eddsa) (b : build) (R : rng E)
  (ag : PVSSAggregator E) (s : rstate R) (sh : PVSSShare E) (d : {poly Fr E}) :
  let t := cfg_degree (ag_config ag) in
  config_ok (ag_config ag) -> (size d <= t.+1)%N -> d.[0] = 0 ->
  (share_verify D b ag s sh).1 = Ok tt ->
  (share_verify D b ag s (shift_share ag sh d)).1 = Ok tt /\
  sh_signed_proof (shift_share ag sh d) = sh_signed_proof sh /\
  (d.[1] != 0 -> srs_g2 (cfg_srs (ag_config ag)) != 0 ->
   comms (sh_pvss_core (shift_share ag sh d)) <> comms (sh_pvss_core sh)).
Proof.
move=> t ok sd d0 acc; have [tn nq fn] := ok.
move: acc => /share_verifyE[] // p [g lid so [[se sc] deg cm] sv].
set n := cfg_num_participants (ag_config ag) in se sc lid tn nq fn *.
split; [apply/share_verifyE => //=; exists p; split=> //|split=> //].
- move: so; rewrite /slot_ok /= -/n => so.
  rewrite (nth_map (0, 0)) ?size_zip ?sc ?size_eval_vec ?minnn //.
  rewrite nth_zip ?size_eval_vec //= pairing_addr so nth_eval_vec //.
  rewrite (nth_map (0, 0)) ?size_zip ?se ?size_map ?size_iota ?minnn //.
  rewrite nth_zip ?size_map ?size_iota //= pairing_addl.
  by rewrite (nth_map 0%N) ?size_iota // nth_iota //= -pairingZ.
- split.
  + split=> /=; first by rewrite size_map size_zip size_map size_iota se minnn.
    by rewrite size_map size_zip size_eval_vec sc minnn.
  + by rewrite /= -/n -sc ensure_degree_shift // sc.
  + rewrite /= -/n -sc -[dp_gs _]addr0 -(scale0r (srs_g2 (cfg_srs (ag_config ag)))) -d0.
    apply: commits_to_shift => //; first by rewrite sc; apply: leq_trans tn; rewrite ltnW.
    by apply: leq_trans nq; rewrite ltnS ltnW.
move=> d1 g20 /= /(congr1 (fun v => nth 0 v 0)).
have n0 : (0 < n)%N by apply: leq_trans tn.
rewrite (nth_map (0, 0)) ?size_zip ?sc ?size_eval_vec ?minnn // nth_zip ?size_eval_vec //=.
rewrite -/n nth_eval_vec // => /eqP; rewrite -subr_eq0 addrAC subrr add0r scaler_eq0.
by rewrite (negbTE g20) orbF /pnt (negbTE d1).
Qed.
Print Assumptions C13_proof_binds_vector_refuted.

(** What holds: the signed proof binds the dealer to the shared secret. *)
Theorem C13_proof_binds_secret_partial (E : engine) (D : eddsa) (b b' : build) (R R' : rng E)
  (ag : PVSSAggregator E) (s : rstate R) (s' : rstate R') (sh sh' : PVSSShare E) :
  let n := cfg_num_participants (ag_config ag) in
  let t := cfg_degree (ag_config ag) in
  (n < modulus E)%N -> fits n ->
  (share_verify D b ag s sh).1 = Ok tt -> (share_verify D b' ag s' sh').1 = Ok tt ->
  sh_signed_proof sh = sh_signed_proof sh' ->
  exists secret, commits_to t (comms (sh_pvss_core sh)) secret /\
                 commits_to t (comms (sh_pvss_core sh')) secret.
Proof.
move=> n t nq fn /share_verifyE[] // p [_ _ _ [_ _ cm] _] /share_verifyE[] // p' [_ _ _ [_ _ cm'] _] e.
by exists (dp_gs (sp_decomp_proof (sh_signed_proof sh))); split=> //; rewrite e.
Qed.
Print Assumptions C13_proof_binds_secret_partial.

(** The polynomial X is such a shift for the toy configuration (degree 1). *)
Example C13_example :
  [/\ config_ok tconfig, (size ('X : {poly Fr TE}) <= (cfg_degree tconfig).+1)%N,
      ('X : {poly Fr TE}).[0] = 0, ('X : {poly Fr TE}).[1] != 0 & srs_g2 tsrs != 0].
Proof. by split; rewrite ?size_polyX ?hornerX. Qed.

(** The property as worded. *)
Definition C13_full : Prop :=
  forall (E : engine) (D : eddsa) (b : build) (R : rng E) (ag : PVSSAggregator E)
    (s s' : rstate R) (sh sh' : PVSSShare E),
  config_ok (ag_config ag) -> registered ag ->
  (share_verify D b ag s sh).1 = Ok tt -> (share_verify D b ag s' sh').1 = Ok tt ->
  sh_signed_proof sh = sh_signed_proof sh' -> sh_pvss_core sh = sh_pvss_core sh'.

Theorem C13_full_refuted : ~ C13_full.
Proof.
move=> h; move: C12_example.
case e: (@share TE TD Debug (seq_rng TE) (tnode 2) [:: f 7; f 5; f 4]).1 => [sh|?|?] //= [acc _ _].
have [ok sd d0 d1 g20] := C13_example.
have [acc' [esp ne]] := @C13_proof_binds_vector_refuted _ _ _ _ tag _ _ 'X ok sd d0 acc.
apply: (ne d1 g20); congr comms; apply: esym.
exact: (h TE TD Debug (seq_rng TE) tag _ _ _ _ ok tag_registered acc acc' (esym esp)).
Qed.

(** ** C27: decryption *)

Theorem C27_decryption (E : engine) (Er : Type) (es : seq (Enc E)) (sk : Fr E) (id : nat) :
  let r := decrypted_share_generate es sk id : outcome Er (DecryptedShare E) in
  [/\ forall a g1, (id < size es)%N -> sk != 0 -> nth 0 es id = a *: (sk *: g1) ->
        r = Ok (MkDec (a *: g1) id),
      is_panic r <-> (size es <= id)%N \/ sk = 0,
      ~~ is_err r
    & forall dec g1 g2 comm, r = Ok dec ->
        (** the slot passes the check of share_verify under the key [sk *: g1] *)
        pairing (sk *: g1) comm = pairing (nth 0 es id) g2 ->
        @pairing E (PvssModel.dec dec) g2 = pairing g1 comm ].
Proof.
move=> r; rewrite /r /decrypted_share_generate {r}.
case: (ltnP id (size es)) => lid; last first.
  rewrite index_oob //=; split=> //; split=> //; by left.
rewrite (index_ok 0) //= /inverse_unwrap.
have [->|sk0] := eqVneq sk 0 => /=.
  by split=> //; split=> // _; right.
split=> //.
- by move=> a g1 _ _ ->; rewrite !scalerA mulrAC mulVf // mul1r.
- by split=> // -[//|e]; rewrite e eqxx in sk0.
- move=> d g1 g2 comm [<-] /= e.
  by rewrite pairingZl -e -pairingZl scalerA mulVf // scale1r.
Qed.
Print Assumptions C27_decryption.

Example C27_example :
  let es := [:: f 1; f 4 * (f 5 * f 3)] : seq (Enc TE) in
  [/\ if @decrypted_share_generate TE unit es (f 5) 1 is Ok d
      then (dec d == f 4 * f 3) && (origin d == 1%N) else false,
      (if @decrypted_share_generate TE unit es (f 5) 2 is Panic IndexOutOfBounds then true else false)
    & (if @decrypted_share_generate TE unit es (f 0) 1 is Panic UnwrapNone then true else false)].
Proof. by split; vm_compute. Qed.
