(** * PropsForge: properties C66 and C67, what a signed proof is worth outside its share *)

From Coq Require Import NArith Strings.Byte.
From mathcomp Require Import all_ssreflect all_algebra zify.
From Verif Require Import Prelude Errors BTreeMap Engine LibModel PolyModel SigmaModel PvssModel
  Spec PreludeProofs AlgebraProofs PolyProofs PvssProofs AggProofs HistProofs Instance
  PropsPoly PropsSigma PropsShare PropsAgg PropsHist PropsEnd PropsLimits PropsAttack.

Set Implicit Arguments.
Unset Strict Implicit.
Unset Printing Implicit Defensive.

Import GRing.Theory.
Local Open Scope ring_scope.

(** ** C66: a signed proof can be moved to any other share; false as stated *)

(** Anybody can make this share from the signed proof [sp] of participant [id].  The committed
    polynomial takes the unknown secret at 0 and the known value [k] at [id + 1]; the other
    encryptions are arbitrary. *)
Definition forged_share (E : engine) (ag : PVSSAggregator E) (id : nat) (sp : SignedProof E)
  (k : Fr E) (X : nat -> Enc E) : PVSSShare E :=
  let n := cfg_num_participants (ag_config ag) in
  let w i : Fr E := i.+1%:R / id.+1%:R in
  MkShare id
    (MkCore [seq if i == id then k *: key_of ag id else X i | i <- iota 0 n]
            [seq (1 - w i) *: dp_gs (sp_decomp_proof sp)
                 + (k * w i) *: srs_g2 (cfg_srs (ag_config ag)) | i <- iota 0 n])
    sp.

Section Forge.
Variables (E : engine) (D : eddsa).

Lemma forged_comms (gs g : Com E) (x0 k : Fr E) n :
  exists p : {poly Fr E}, [/\ (size p <= 2)%N,
    [seq (1 - i.+1%:R / x0) *: gs + (k * (i.+1%:R / x0)) *: g | i <- iota 0 n]
    = eval_vec p (pt_gen (G2 E)) n
    & p.[0] *: pt_gen (G2 E) = gs].
Proof.
have [a ha] := pt_cyclic gs (pt_gen_neq0 (G2 E)); have [b hb] := pt_cyclic g (pt_gen_neq0 (G2 E)).
exists (((k * b - a) / x0) *: 'X + a%:P); split.
- rewrite (leq_trans (size_add _ _)) // geq_max (leq_trans (size_scale_leq _ _)) ?size_polyX //=.
  by rewrite (leq_trans (size_polyC_leq1 _)).
- rewrite /eval_vec -[1%N]addn0 iotaDl -map_comp; apply: eq_map => i /=.
  rewrite hornerD hornerZ hornerX hornerC ha hb !scalerA -scalerDl; congr (_ *: _).
  have -> : (k * b - a) / x0 * i.+1%:R = (k * b - a) * (i.+1%:R / x0) by rewrite mulrAC mulrA.
  set y := _ / x0; rewrite !mulrBl mul1r addrAC [RHS]addrAC [_ + a]addrC [a * y]mulrC.
  by rewrite [k * y * b]mulrAC.
by rewrite hornerD hornerZ hornerX hornerC mulr0 add0r.
Qed.

Lemma forged_accepted b (R : rng E) (ag : PVSSAggregator E) (s : rstate R) id pa sp k X :
  config_ok (ag_config ag) -> (0 < cfg_degree (ag_config ag))%N ->
  bt_get (ag_participants ag) id = Some pa -> (id < cfg_num_participants (ag_config ag))%N ->
  signed_valid D (ag_config ag) sp (pa_public_key_ed pa) ->
  (share_verify D b ag s (forged_share ag id sp k X)).1 = Ok tt.
Proof.
move=> ok t0 gid lid sv; have [tn nq fn] := ok.
apply/share_verifyE => //; exists pa; rewrite /forged_share /=; split=> //.
- rewrite /slot_ok /= !(nth_map 0%N) ?size_iota // !nth_iota // add0n eqxx.
  have x0 : (id.+1%:R : Fr E) != 0.
    by apply: (Fp_nat_neq0 (modulus_prime E)); rewrite ltnS leq0n (leq_ltn_trans lid).
  by rewrite divff // subrr scale0r add0r mulr1 pairingZ.
have [p [sp2 -> e0]] :=
  @forged_comms (dp_gs (sp_decomp_proof sp)) (srs_g2 (cfg_srs (ag_config ag))) id.+1%:R k
    (cfg_num_participants (ag_config ag)).
have spt : (size p <= (cfg_degree (ag_config ag)).+1)%N by exact: leq_trans sp2 _.
split; first by split; rewrite ?size_eval_vec // size_map size_iota.
- by apply: low_degree_ok; rewrite ?size_eval_vec //; exists p; rewrite ?size_eval_vec.
by exists p; split=> //; rewrite take_eval_vec //; exact: ltnW.
Qed.

End Forge.

(** The signed proof of a dealer gets a share accepted in every session of degree at least 1
    that uses the same [g2] and knows the dealer under the same EdDSA key and id, whatever the
    degree, the number of participants and their keys: with commitments nobody dealt and with
    arbitrary encryptions in all slots but the dealer's. *)
Theorem C66_forged_share_refuted (E : engine) (D : eddsa) (b b' : build) (R R' : rng E)
  (ag ag' : PVSSAggregator E) (s : rstate R) (s' : rstate R') (sh : PVSSShare E)
  (pa pa' : Participant E) (k : Fr E) (X : nat -> Enc E) :
  let id := sh_participant_id sh in
  let sh' := forged_share ag' id (sh_signed_proof sh) k X in
  config_ok (ag_config ag) -> config_ok (ag_config ag') ->
  (share_verify D b ag s sh).1 = Ok tt ->
  (0 < cfg_degree (ag_config ag'))%N -> (id < cfg_num_participants (ag_config ag'))%N ->
  srs_g2 (cfg_srs (ag_config ag')) = srs_g2 (cfg_srs (ag_config ag)) ->
  bt_get (ag_participants ag) id = Some pa -> bt_get (ag_participants ag') id = Some pa' ->
  pa_public_key_ed pa' = pa_public_key_ed pa ->
  [/\ (share_verify D b' ag' s' sh').1 = Ok tt, sh_signed_proof sh' = sh_signed_proof sh,
      nth 0 (comms (sh_pvss_core sh')) id = k *: srs_g2 (cfg_srs (ag_config ag'))
    & forall i, (i < cfg_num_participants (ag_config ag'))%N -> i <> id ->
        nth 0 (encs (sh_pvss_core sh')) i = X i].
Proof.
move=> id sh' [tn nq fn] ok' acc t0 lid eg gp gp' ek; have [tn' nq' fn'] := ok'.
move: acc => /share_verifyE[] // p; rewrite gp => -[[<-] _ _ _ [pv ev]].
split=> //.
- by apply: forged_accepted gp' _ _ => //; split; rewrite ?eg ?ek.
- rewrite /= (nth_map 0%N) ?size_iota // nth_iota // add0n divff ?subrr ?scale0r ?add0r ?mulr1 //.
  by apply: (Fp_nat_neq0 (modulus_prime E)); rewrite ltnS leq0n (leq_ltn_trans lid).
by move=> i li ne; rewrite /= (nth_map 0%N) ?size_iota // nth_iota // add0n; case: eqP.
Qed.
Print Assumptions C66_forged_share_refuted.

(** The property as worded: shares accepted with one signed proof were dealt for the same
    degree and number of participants, with the same commitments. *)
Definition C66_full : Prop :=
  forall (E : engine) (D : eddsa) (b : build) (R : rng E) (ag ag' : PVSSAggregator E)
    (s : rstate R) (sh sh' : PVSSShare E),
  config_ok (ag_config ag) -> config_ok (ag_config ag') ->
  honest_share D ag sh -> (share_verify D b ag' s sh').1 = Ok tt ->
  sh_signed_proof sh' = sh_signed_proof sh -> sh_participant_id sh' = sh_participant_id sh ->
  cfg_degree (ag_config ag') = cfg_degree (ag_config ag) /\
  comms (sh_pvss_core sh') = comms (sh_pvss_core sh).

(** The signed proof of participant 2, from degree 1 among 4 to degree 2 among 5. *)
Definition tag5 : PVSSAggregator TE :=
  MkAggregator (MkConfig tsrs 2 5) tparts (agg_empty TE 2 5).

Theorem C66_full_refuted : ~ C66_full.
Proof.
move=> full; have ok : config_ok (ag_config tag) by [].
have ok5 : config_ok (ag_config tag5) by [].
pose sh' := forged_share tag5 2 (sh_signed_proof sh2) (f 4) (fun _ => 0).
have acc : (@share_verify TE TD Debug (seq_rng TE) tag5 [:: f 1; f 9] sh').1 = Ok tt.
  have v2 : (@share_verify TE TD Debug (seq_rng TE) tag [:: f 1; f 9] sh2).1 = Ok tt by vm_compute.
  have id2 : sh_participant_id sh2 = 2%N by vm_compute.
  have := @C66_forged_share_refuted TE TD Debug Debug (seq_rng TE) (seq_rng TE) tag tag5
    [:: f 1; f 9] [:: f 1; f 9] sh2 (tpart 2) (tpart 2) (f 4) (fun _ => 0) ok ok5 v2 isT.
  rewrite id2 => /(_ isT erefl) h.
  have g : bt_get tparts 2 = Some (tpart 2) by reflexivity.
  by have [] := h g g erefl.
have eid : sh_participant_id sh' = sh_participant_id sh2 by vm_compute.
by have [] := full TE TD Debug (seq_rng TE) tag tag5 [:: f 1; f 9] sh2 sh' ok ok5 sh2_honest acc erefl eid.
Qed.
Print Assumptions C66_full_refuted.

(** What holds.  For degrees from 1: a signed proof gets some share of [id] accepted exactly
    when it is valid under the key of [id].  And shares accepted in two sessions with the same
    signed proof commit, each over its own polynomial, to the same secret point; if the
    response is not zero, the sessions use the same [g2]. *)
Theorem C66_what_is_bound_partial (E : engine) (D : eddsa) (b b' : build) (R R' : rng E) :
  (forall (ag : PVSSAggregator E) (s : rstate R) id pa (sp : SignedProof E),
     config_ok (ag_config ag) -> (0 < cfg_degree (ag_config ag))%N ->
     bt_get (ag_participants ag) id = Some pa -> (id < cfg_num_participants (ag_config ag))%N ->
     signed_valid D (ag_config ag) sp (pa_public_key_ed pa) <->
     exists core, (share_verify D b ag s (MkShare id core sp)).1 = Ok tt) /\
  (forall (ag ag' : PVSSAggregator E) (s : rstate R) (s' : rstate R') (sh sh' : PVSSShare E),
     let S x := dp_gs (sp_decomp_proof (sh_signed_proof x)) in
     let pf := dp_proof (sp_decomp_proof (sh_signed_proof sh)) in
     let g := srs_g2 (cfg_srs (ag_config ag)) in
     let g' := srs_g2 (cfg_srs (ag_config ag')) in
     config_ok (ag_config ag) -> config_ok (ag_config ag') ->
     (share_verify D b ag s sh).1 = Ok tt -> (share_verify D b' ag' s' sh').1 = Ok tt ->
     sh_signed_proof sh' = sh_signed_proof sh ->
     [/\ commits_to (cfg_degree (ag_config ag)) (comms (sh_pvss_core sh)) (S sh),
         commits_to (cfg_degree (ag_config ag')) (comms (sh_pvss_core sh')) (S sh)
       & dlk_response pf = 0 \/ g' = g ]).
Proof.
split.
  move=> ag s id pa sp ok t0 gid lid; split=> [sv|[core acc]].
    by eexists; apply: (@forged_accepted E D b R ag s id pa sp 0 (fun _ => 0)).
  by have [tn nq fn] := ok; move: acc => /share_verifyE[] // p [/= ]; rewrite gid => -[<-].
move=> ag ag' s s' sh sh' S pf g g' [tn nq fn] [tn' nq' fn'].
move=> /share_verifyE[] // p [_ _ _ [_ _ cm] [[pc pe] _]].
move=> /share_verifyE[] // p' [_ _ _ [_ _ cm'] [[pc' pe'] _]] es; rewrite es in cm' pc' pe'.
split=> //; rewrite -pc in pe; rewrite -pc' in pe'.
have [/eqP|z0] := boolP (dlk_response pf == 0); first by left.
right; have : dlk_response pf *: (g' - g) = 0.
  by rewrite scalerBr; apply/eqP; rewrite subr_eq0; apply/eqP; apply: (addIr _ (etrans pe' (esym pe))).
by move/eqP; rewrite scaler_eq0 (negbTE z0) subr_eq0 => /eqP.
Qed.
Print Assumptions C66_what_is_bound_partial.

(** ** C67: a dealer may deal a secret it does not know; false as stated *)

(** A share made from a point [A] whose logarithm nobody needs to know.  The challenge does
    not depend on the statement, so the statement is chosen after it. *)
Definition blind_share (E : engine) (D : eddsa) (ag : PVSSAggregator E) (id : nat) (sk : SecretKey)
  (A : Com E) (r k : Fr E) (X : nat -> Enc E) (dflt : Signature) : PVSSShare E :=
  let dp := derived_proof (srs_g2 (cfg_srs (ag_config ag))) A 1 r 0 in
  forged_share ag id
    (MkSigned dp (if signature_new (Er := pvss_error) D (signed_digest dp) sk is Ok sig then sig
                  else dflt)) k X.

Lemma blind_proof (E : engine) (D : eddsa) (ag : PVSSAggregator E) (id : nat) (sk : SecretKey)
  (A : Com E) (r k : Fr E) (X : nat -> Enc E) (dflt : Signature) :
  let g := srs_g2 (cfg_srs (ag_config ag)) in
  let c := hash_to_field E DLK_PERSONA (pt_ser g ++ pt_ser (A + r *: g)) in
  sp_decomp_proof (sh_signed_proof (blind_share D ag id sk A r k X dflt))
  = MkDecomp (DlkProof (A + r *: g) c r) (c^-1 *: A).
Proof.
by move=> g c; rewrite /= /derived_proof -/g !scale1r -/c mulr0 subr0 div1r scale0r addr0.
Qed.

(** Every part of it is written down: with [c] the challenge, the secret point is [A / c], the
    commitments are combinations of [A / c] and [g2] with coefficients that do not depend on
    [A], the encryptions do not depend on [A] at all, and the share is always accepted. *)
Theorem C67_unknown_secret_refuted (E : engine) (D : eddsa) (b : build) (R : rng E)
  (ag : PVSSAggregator E) (s : rstate R) (id : nat) (pa : Participant E) (sk : SecretKey)
  (A : Com E) (r k : Fr E) (X : nat -> Enc E) (dflt : Signature) :
  let g := srs_g2 (cfg_srs (ag_config ag)) in
  let c := hash_to_field E DLK_PERSONA (pt_ser g ++ pt_ser (A + r *: g)) in
  let sh := blind_share D ag id sk A r k X dflt in
  let n := cfg_num_participants (ag_config ag) in
  config_ok (ag_config ag) -> (0 < cfg_degree (ag_config ag))%N ->
  bt_get (ag_participants ag) id = Some pa -> (id < n)%N ->
  works_on D sk (pa_public_key_ed pa) (dealt_digest sh) -> c != 0 ->
  [/\ (share_verify D b ag s sh).1 = Ok tt,
      sp_decomp_proof (sh_signed_proof sh) = MkDecomp (DlkProof (A + r *: g) c r) (c^-1 *: A),
      forall i, (i < n)%N ->
        nth 0 (comms (sh_pvss_core sh)) i
        = (1 - i.+1%:R / id.+1%:R) *: (c^-1 *: A) + (k * (i.+1%:R / id.+1%:R)) *: g
    & forall i, (i < n)%N ->
        nth 0 (encs (sh_pvss_core sh)) i = if i == id then k *: key_of ag id else X i].
Proof.
move=> g c sh n ok t0 gid lid [kp hk vk] c0.
have edp : sp_decomp_proof (sh_signed_proof sh) = MkDecomp (DlkProof (A + r *: g) c r) (c^-1 *: A).
  exact: blind_proof.
split=> //.
- apply: forged_accepted gid lid _ => //; split=> /=.
    by apply: derived_proof_valid; rewrite /= scale1r.
  by rewrite /signature_new hk; exact: vk.
- move=> i li; rewrite -[c^-1 *: A]/(dp_gs (MkDecomp (DlkProof (A + r *: g) c r) (c^-1 *: A))) -edp.
  by rewrite /= (nth_map 0%N) ?size_iota // nth_iota.
by move=> i li; rewrite /= (nth_map 0%N) ?size_iota // nth_iota.
Qed.
Print Assumptions C67_unknown_secret_refuted.

(** The property as worded, for dealers that compute with points only by adding and scaling,
    with scalars [u], [v], [u0], [v0] read off the challenge [c]: from a point [A] of unknown
    logarithm such a dealer makes no accepted share whose secret involves [A], though its key
    works on the proof it signs. *)
Definition C67_full (E : engine) (D : eddsa) (ag : PVSSAggregator E) (id : nat)
  (pa : Participant E) (sk : SecretKey) : Prop :=
  let g := srs_g2 (cfg_srs (ag_config ag)) in
  let n := cfg_num_participants (ag_config ag) in
  ~ exists (u v : Fr E -> nat -> Fr E) (u0 v0 z : Fr E -> Fr E) (encs : seq (Enc E)) (r : Fr E)
      (sign : DecompProof E -> Signature),
    forall A, let c := hash_to_field E DLK_PERSONA (pt_ser g ++ pt_ser (A + r *: g)) in
    c != 0 -> u0 c != 0 /\
    let dp := MkDecomp (DlkProof (A + r *: g) c (z c)) (u0 c *: A + v0 c *: g) in
    works_on D sk (pa_public_key_ed pa) (signed_digest dp) -> forall b (R : rng E) (s : rstate R),
      (share_verify D b ag s
         (MkShare id (MkCore encs [seq u c i *: A + v c i *: g | i <- iota 0 n])
            (MkSigned dp (sign dp)))).1 = Ok tt.

Theorem C67_full_refuted (E : engine) (D : eddsa) (ag : PVSSAggregator E) (id : nat)
  (pa : Participant E) (sk : SecretKey) :
  config_ok (ag_config ag) -> (0 < cfg_degree (ag_config ag))%N ->
  bt_get (ag_participants ag) id = Some pa -> (id < cfg_num_participants (ag_config ag))%N ->
  ed_keypair_from_bytes D sk <> None ->
  ~ C67_full D ag id pa sk.
Proof.
move=> ok t0 gid lid; case hk: (ed_keypair_from_bytes D sk) => [kp|] // _; case.
set g := srs_g2 _; set n := cfg_num_participants _.
pose w i : Fr E := i.+1%:R / id.+1%:R; pose dflt := sig_split (ed_sign kp (nseq_tuple 32 x00)).
exists (fun c i => (1 - w i) / c), (fun _ i => w i), (fun c => c^-1), (fun _ => 0), (fun _ => 0).
exists [seq if i == id then 1 *: key_of ag id else 0 | i <- iota 0 n], 0.
exists (fun dp => sig_split (ed_sign kp (signed_digest dp))) => A c c0.
split; first by rewrite invr_neq0.
move=> dp wk b R s.
have e2 : dp = sp_decomp_proof (sh_signed_proof (blind_share D ag id sk A 0 1 (fun _ => 0) dflt)).
  rewrite blind_proof -/g -/c /dp; cbv beta; congr MkDecomp; rewrite [X in _ + X]scale0r addr0 //.
have wk' : works_on D sk (pa_public_key_ed pa) (dealt_digest (blind_share D ag id sk A 0 1 (fun _ => 0) dflt)).
  by rewrite /dealt_digest -e2.
have [acc _ _ _] := @C67_unknown_secret_refuted E D b R ag s id pa sk A 0 1 (fun _ => 0) dflt
  ok t0 gid lid wk' c0.
suff -> : MkShare id (MkCore [seq if i == id then 1 *: key_of ag id else 0 | i <- iota 0 n]
                 [seq ((1 - w i) / c) *: A + w i *: g | i <- iota 0 n])
            (MkSigned dp (sig_split (ed_sign kp (signed_digest dp))))
          = blind_share D ag id sk A 0 1 (fun _ => 0) dflt by [].
rewrite e2 /blind_share /forged_share /= /signature_new hk; congr MkShare; congr MkCore.
apply: eq_map => i /=; rewrite mul1r /derived_proof /= -/g -/(w i) scale1r.
by rewrite -/c scale0r addr0 scalerA mul1r.
Qed.
Print Assumptions C67_full_refuted.

(** The hypotheses of C66 and C67 hold in the toy setting, and there the challenge is not 0. *)
Example C67_example :
  let sh := blind_share TD tag 1 (tsk 1) (f 4 : Com TE) (f 7) (f 9) (fun _ => 0)
              (sp_signature_on_decomp (sh_signed_proof sh2)) in
  [/\ (0 < cfg_degree (ag_config tag))%N, bt_get (ag_participants tag) 1 = Some (tpart 1),
      working_key TD (tsk 1) (pa_public_key_ed (tpart 1)),
      dlk_challenge (dp_proof (sp_decomp_proof (sh_signed_proof sh))) != 0
    & is_ok (@share_verify TE TD Debug (seq_rng TE) tag [:: f 1; f 9; f 3] sh).1].
Proof. by split; [|reflexivity|exact: toy_working|vm_compute|vm_compute]. Qed.
