(** * PvssModel: src/modified_scrape, the PVSS scheme itself

    srs.rs, config.rs, participant.rs, dealer.rs, decomp.rs, pvss.rs, share.rs,
    aggregator.rs, node.rs, decryption.rs. *)

From Coq Require Import NArith Strings.Byte.
From mathcomp Require Import all_ssreflect all_algebra.
From Verif Require Import Prelude Errors BTreeMap Engine LibModel PolyModel SigmaModel.

Set Implicit Arguments.
Unset Strict Implicit.
Unset Printing Implicit Defensive.

Import GRing.Theory.
Local Open Scope ring_scope.

Section Pvss.

Variable E : engine.
Variable D : eddsa.
Implicit Types (b : build) (R : rng E).

(** ** Data types *)

(** [SRS], srs.rs:18-22. *)
Record SRS : Type := MkSRS { srs_g1 : Enc E; srs_g2 : Com E; srs_g2_prime : Com E }.

(** [SRS::setup], srs.rs:27-33. *)
Definition srs_setup R (s : rstate R) : outcome pvss_error SRS * rstate R :=
  let: (g1, s1) := rand_g1 s in
  let: (g2, s2) := rand_g2 s1 in
  let: (g2', s3) := rand_g2 s2 in
  (Ok (MkSRS g1 g2 g2'), s3).

(** [Config], config.rs:10-14. *)
Record Config : Type := MkConfig {
  cfg_srs : SRS;
  cfg_degree : nat;
  cfg_num_participants : nat
}.

(** [Participant], participant.rs:26-35 (without the PhantomData). *)
Record Participant : Type := MkParticipant {
  pa_id : nat;
  pa_public_key_sig : Enc E;
  pa_public_key_ed : PublicKey
}.

(** [Dealer], dealer.rs:14-21. *)
Record Dealer : Type := MkDealer {
  de_private_key_sig : Fr E;
  de_private_key_ed : SecretKey;
  de_participant : Participant
}.

(** [DecompProof], decomp.rs:35-38. *)
Record DecompProof : Type := MkDecomp { dp_proof : dlk_proof (G2 E); dp_gs : Com E }.

(** [SignedProof], share.rs:22-28. *)
Record SignedProof : Type := MkSigned {
  sp_decomp_proof : DecompProof;
  sp_signature_on_decomp : Signature
}.

(** [PVSSCore], pvss.rs:11-17. *)
Record PVSSCore : Type := MkCore { encs : seq (Enc E); comms : seq (Com E) }.

(** [PVSSShareSecrets], pvss.rs:83-86. *)
Record PVSSShareSecrets : Type := MkSecrets { ss_p_0 : Fr E; ss_my_secret : Enc E }.

(** [PVSSShare], share.rs:48-55. *)
Record PVSSShare : Type := MkShare {
  sh_participant_id : nat;
  sh_pvss_core : PVSSCore;
  sh_signed_proof : SignedProof
}.

(** [PVSSAggregatedShare], share.rs:59-67.  A weight is a u64. *)
Record PVSSAggregatedShare : Type := MkAgg {
  as_num_participants : nat;
  as_degree : nat;
  as_pvss_core : PVSSCore;
  as_contributions : btmap (SignedProof * N)
}.

(** [PVSSAggregator], aggregator.rs:29-38.  [scheme_sig] is never read by the code and
    is left out. *)
Record PVSSAggregator : Type := MkAggregator {
  ag_config : Config;
  ag_participants : btmap Participant;
  ag_aggregated_tx : PVSSAggregatedShare
}.

(** [Node], node.rs:32-39. *)
Record Node : Type := MkNode { nd_aggregator : PVSSAggregator; nd_dealer : Dealer }.

(** [DecryptedShare], decryption.rs:11-14. *)
Record DecryptedShare : Type := MkDec { dec : Enc E; origin : nat }.

(** ** decomp.rs *)

(** [Decomp::generate], decomp.rs:43-56: [prove] never fails. *)
Definition decomp_generate R (s : rstate R) (config : Config) (p_0 : Fr E)
  : outcome pvss_error DecompProof * rstate R :=
  let g := srs_g2 (cfg_srs config) in
  let: (proof, s') := dlk_prove (R := R) g s p_0 in
  (Ok (MkDecomp proof (p_0 *: g)), s').

(** [DecompProof::verify], decomp.rs:71-82. *)
Definition decomp_verify (dp : DecompProof) (config : Config) : outcome pvss_error unit :=
  match dlk_verify (srs_g2 (cfg_srs config)) (dp_gs dp) (dp_proof dp) with
  | Err _ => Err NIZKProofDoesNotVerifyError
  | Panic p => Panic p
  | Ok _ => Ok tt
  end.

(** [self.proof.serialize]: the derive for tuples writes the components in turn. *)
Definition dlk_proof_bytes (p : dlk_proof (G2 E)) : seq byte :=
  flatten [:: pt_ser (dlk_commit p); fr_ser (dlk_challenge p); fr_ser (dlk_response p)].

(** [DecompProof::digest], decomp.rs:84-102. *)
Definition decomp_digest (dp : DecompProof) : Digest :=
  shake256 E (dlk_proof_bytes (dp_proof dp) ++ pt_ser (dp_gs dp)).

(** ** pvss.rs *)

(** [PVSSCore::empty], pvss.rs:24-29. *)
Definition core_empty (n : nat) : PVSSCore := MkCore (nseq n 0) (nseq n 0).

(** [PVSSCore::aggregate], pvss.rs:32-77. *)
Definition core_aggregate (c1 c2 : PVSSCore) : outcome pvss_error PVSSCore :=
  if nilp (comms c1) then Err EmptyEncryptionsVectorError
  else if size (comms c1) != size (comms c2) then
    Err (MismatchedCommitmentsError (size (comms c1)) (size (comms c2)))
  else if size (encs c1) != size (encs c2) then
    Err (MismatchedEncryptionsError (size (encs c1)) (size (encs c2)))
  else if size (comms c1) != size (encs c1) then
    Err (MismatchedCommitmentsEncryptionsError (size (comms c1)) (size (encs c2)))
  else
    Ok (MkCore [seq e.1 + e.2 | e <- zip (encs c1) (encs c2)]
               [seq e.1 + e.2 | e <- zip (comms c1) (comms c2)]).

(** ** share.rs *)

(** [SignedProof::verify], share.rs:33-41: both checks are unwrapped, so a bad proof or
    a bad signature panics. *)
Definition signed_verify (sp : SignedProof) (config : Config) (pk : PublicKey)
  : outcome pvss_error unit :=
  let! _ := unwrap (decomp_verify (sp_decomp_proof sp) config) in
  let! _ := unwrap (signature_verify D (sp_signature_on_decomp sp)
                      (decomp_digest (sp_decomp_proof sp)) pk) in
  Ok tt.

(** [PVSSAggregatedShare::empty], share.rs:82-89. *)
Definition agg_empty (degree n : nat) : PVSSAggregatedShare :=
  MkAgg n degree (core_empty n) bt_new.

(** The closure at share.rs:106-122: merges the two entries of participant [i]. *)
Definition merge_contribution b (c1 c2 : btmap (SignedProof * N)) (i : nat)
  : outcome pvss_error (option (nat * (SignedProof * N))) :=
  match bt_get c1 i, bt_get c2 i with
  | Some (a, w1), Some (a', w2) =>
      if dp_gs (sp_decomp_proof a) != dp_gs (sp_decomp_proof a')
      then Err TranscriptDifferentCommitments
      else let! w := u64_add b w1 w2 in Ok (Some (i, (a, w)))
  | Some (a, w), None => Ok (Some (i, (a, w)))
  | None, Some (a, w) => Ok (Some (i, (a, w)))
  | None, None => Ok None
  end.

(** [PVSSAggregatedShare::aggregate], share.rs:93-138. *)
Definition agg_aggregate b (x y : PVSSAggregatedShare) : outcome pvss_error PVSSAggregatedShare :=
  if (as_degree x != as_degree y) || (as_num_participants x != as_num_participants y) then
    Err (TranscriptDifferentConfig (as_degree x) (as_degree y)
           (as_num_participants x) (as_num_participants y))
  else
    let! merged := mapM (merge_contribution b (as_contributions x) (as_contributions y))
                        (iota 0 (as_num_participants x)) in
    let! core := unwrap (core_aggregate (as_pvss_core x) (as_pvss_core y)) in
    Ok (MkAgg (as_num_participants x) (as_degree x) core (bt_collect (pmap id merged))).

(** [PVSSAggregatedShare::aggregate_pvss_share], share.rs:142-157. *)
Definition agg_aggregate_pvss_share b (x : PVSSAggregatedShare) (sh : PVSSShare)
  : outcome pvss_error PVSSAggregatedShare :=
  agg_aggregate b x
    (MkAgg (as_num_participants x) (as_degree x) (sh_pvss_core sh)
       (bt_insert bt_new (sh_participant_id sh) (sh_signed_proof sh, 1%num))).

(** ** aggregator.rs *)

(** [PVSSAggregator::new], aggregator.rs:47-61. *)
Definition aggregator_new (config : Config) (participants : btmap Participant)
  : outcome pvss_error PVSSAggregator :=
  Ok (MkAggregator config participants
        (agg_empty (cfg_degree config) (cfg_num_participants config))).

(** [core_verify], aggregator.rs:64-97. *)
Definition core_verify b R (ag : PVSSAggregator) (s : rstate R) (dp : DecompProof)
  (core : PVSSCore) : outcome pvss_error unit * rstate R :=
  let n := cfg_num_participants (ag_config ag) in
  let t := cfg_degree (ag_config ag) in
  if (size (encs core) != n) || (size (comms core) != n) then
    (Err (MismatchedCommitsEncryptionsParticipantsError
            (size (encs core)) (size (comms core)) n), s)
  else
    let: (deg, s') := ensure_degree b s (comms core) t in
    (match deg with
     | Err _ => Err DualCodeError
     | Panic p => Panic p
     | Ok _ =>
         let! point := unwrap (lagrange_interpolation_simple b (comms core) t) in
         if point != dp_gs dp then Err GSCheckError else Ok tt
     end, s').

(** [share_verify], aggregator.rs:102-135.  Lines 118-119 index [comms] and [encs] before
    any length check.  Line 130 maps an Err of [SignedProof::verify] to
    InvalidSignedProofError, but that function panics instead of returning Err. *)
Definition share_verify b R (ag : PVSSAggregator) (s : rstate R) (sh : PVSSShare)
  : outcome pvss_error unit * rstate R :=
  let id := sh_participant_id sh in
  let config := ag_config ag in
  let core := sh_pvss_core sh in
  match (let! participant := ok_or (bt_get (ag_participants ag) id) (InvalidParticipantId id) in
         let! comm := index (comms core) id in
         let! enc := index (encs core) id in
         if product_of_pairings [:: (pa_public_key_sig participant, comm);
                                    (- enc, srs_g2 (cfg_srs config))] != 1
         then Err EncryptionCorrectnessError else Ok participant) with
  | Err e => (Err e, s)
  | Panic p => (Panic p, s)
  | Ok participant =>
      let: (cv, s') := core_verify b ag s (sp_decomp_proof (sh_signed_proof sh)) core in
      (let! _ := cv in
       match signed_verify (sh_signed_proof sh) config (pa_public_key_ed participant) with
       | Err _ => Err InvalidSignedProofError
       | Panic p => Panic p
       | Ok _ => Ok tt
       end, s')
  end.

(** The loop at aggregator.rs:191-197: accumulates [epsilon] and the pairs.  All [r[i]] are
    clones of one sample: line 188 is [vec![E::Fr::rand(rng); n]]. *)
Definition encryption_pairs (ag : PVSSAggregator) (r : Fr E) (core : PVSSCore)
  : outcome pvss_error (Enc E * seq (Enc E * Com E)) :=
  foldM (fun acc i =>
           let: (epsilon, pairs) := acc in
           let! enc := index (encs core) i in
           let! participant := unwrap_opt (bt_get (ag_participants ag) i) in
           let! comm := index (comms core) i in
           Ok (epsilon + r *: enc, rcons pairs (r *: pa_public_key_sig participant, comm)))
        (0, [::]) (iota 0 (cfg_num_participants (ag_config ag))).

(** The loop at aggregator.rs:215-223. *)
Definition contributions_total (ag : PVSSAggregator) (cs : btmap (SignedProof * N))
  : outcome pvss_error (Com E) :=
  foldM (fun gs_total (kv : nat * (SignedProof * N)) =>
           let: (id, (contribution, weight)) := kv in
           let! party := unwrap_opt (bt_get (ag_participants ag) id) in
           let! _ := match signed_verify contribution (ag_config ag) (pa_public_key_ed party) with
                     | Err _ => Err InvalidSignedProofError
                     | Panic p => Panic p
                     | Ok _ => Ok tt
                     end in
           Ok (gs_total + fr_of_u64 (modulus E) weight *: dp_gs (sp_decomp_proof contribution)))
        0 (bt_iter cs).

(** [aggregation_verify], aggregator.rs:140-233.  The agg_share's own [degree] and
    [num_participants] fields are not looked at. *)
Definition aggregation_verify b R (ag : PVSSAggregator) (s : rstate R) (x : PVSSAggregatedShare)
  : outcome pvss_error unit * rstate R :=
  let config := ag_config ag in
  let n := cfg_num_participants config in
  let core := as_pvss_core x in
  if (size (encs core) != n) || (size (comms core) != n) then
    (Err (MismatchedCommitsEncryptionsParticipantsError
            (size (encs core)) (size (comms core)) n), s)
  else
    let: (deg, s') := ensure_degree b s (comms core) (cfg_degree config) in
    match deg with
    | Err _ => (Err DualCodeError, s')
    | Panic p => (Panic p, s')
    | Ok _ =>
        let: (r, s'') := rand_fr s' in
        (let! acc := encryption_pairs ag r core in
         let: (epsilon, pairs) := acc in
         if product_of_pairings (rcons pairs (- epsilon, srs_g2 (cfg_srs config))) != 1
         then Err EncryptionCorrectnessError
         else
           let! point := unwrap (lagrange_interpolation_simple b (comms core)
                                   (cfg_degree config)) in
           let! gs_total := contributions_total ag (as_contributions x) in
           if gs_total != point then Err AggregationReconstructionMismatchError else Ok tt,
         s'')
    end.

Definition set_tx (ag : PVSSAggregator) (x : PVSSAggregatedShare) : PVSSAggregator :=
  MkAggregator (ag_config ag) (ag_participants ag) x.

(** [receive_share], aggregator.rs:237-250: the outcome, the aggregator afterwards and the
    generator afterwards.  [self.aggregated_tx] is assigned only when both calls return
    Ok; line 244 unwraps the verification, line 247 propagates with [?]. *)
Definition receive_share b R (ag : PVSSAggregator) (s : rstate R) (sh : PVSSShare)
  : outcome pvss_error unit * PVSSAggregator * rstate R :=
  let: (v, s') := share_verify b ag s sh in
  match (let! _ := unwrap v in agg_aggregate_pvss_share b (ag_aggregated_tx ag) sh) with
  | Ok x => (Ok tt, set_tx ag x, s')
  | Err e => (Err e, ag, s')
  | Panic p => (Panic p, ag, s')
  end.

(** [receive_aggregated_share], aggregator.rs:254-267: both calls are unwrapped. *)
Definition receive_aggregated_share b R (ag : PVSSAggregator) (s : rstate R)
  (y : PVSSAggregatedShare) : outcome pvss_error unit * PVSSAggregator * rstate R :=
  let: (v, s') := aggregation_verify b ag s y in
  match (let! _ := unwrap v in unwrap (agg_aggregate b (ag_aggregated_tx ag) y)) with
  | Ok x => (Ok tt, set_tx ag x, s')
  | Err e => (Err e, ag, s')
  | Panic p => (Panic p, ag, s')
  end.

(** ** node.rs *)

(** [Node::new], node.rs:47-62. *)
Definition node_new (config : Config) (dealer : Dealer) (participants : btmap Participant)
  : outcome pvss_error Node :=
  let! ag := unwrap (aggregator_new config participants) in
  Ok (MkNode ag dealer).

(** [share_pvss], node.rs:65-125.  [0..=(n-1)] (lines 84, 89) subtracts in usize. With
    [n = 0] the subtraction panics when overflow is checked; otherwise the range is
    [0..=usize::MAX] and its first turn indexes the empty [evals] and panics. *)
Definition share_pvss b R (node : Node) (s : rstate R)
  : outcome pvss_error (PVSSCore * PVSSShareSecrets) * rstate R :=
  let config := ag_config (nd_aggregator node) in
  let t := cfg_degree config in
  let n := cfg_num_participants config in
  let: (poly_o, s') := poly_rand b (N.of_nat t) s in
  (let! poly := poly_o in
   let evals := [seq evaluate poly j%:R | j <- iota 1 n] in
   let! last := u64_sub b (N.of_nat n) 1%num in
   let! comms := mapM (fun j => let! e := index evals j in
                                Ok (e *: srs_g2 (cfg_srs config)))
                      (iota 0 (N.to_nat last).+1) in
   let! encs := mapM (fun j => let! p := ok_or (bt_get (ag_participants (nd_aggregator node)) j)
                                               (InvalidParticipantId j) in
                               let! e := index evals j in
                               Ok (e *: pa_public_key_sig p))
                     (iota 0 (N.to_nat last).+1) in
   let! mine := index evals (pa_id (de_participant (nd_dealer node))) in
   let! p_0 := index poly 0 in
   Ok (MkCore encs comms, MkSecrets p_0 (mine *: srs_g1 (cfg_srs config))),
   s').

(** [share], node.rs:129-161. *)
Definition share b R (node : Node) (s : rstate R) : outcome pvss_error PVSSShare * rstate R :=
  let: (core_o, s1) := share_pvss b node s in
  match core_o with
  | Err e => (Err e, s1)
  | Panic p => (Panic p, s1)
  | Ok (core, secrets) =>
      let: (dp_o, s2) := decomp_generate s1 (ag_config (nd_aggregator node)) (ss_p_0 secrets) in
      (let! dp := unwrap dp_o in
       let! sig := signature_new D (decomp_digest dp) (de_private_key_ed (nd_dealer node)) in
       Ok (MkShare (pa_id (de_participant (nd_dealer node))) core (MkSigned dp sig)), s2)
  end.

(** ** decryption.rs *)

(** [DecryptedShare::generate], decryption.rs:19-24. *)
Definition decrypted_share_generate {Er} (es : seq (Enc E)) (sk : Fr E) (my_id : nat)
  : outcome Er DecryptedShare :=
  let! enc := index es my_id in
  let! inv := inverse_unwrap sk in
  Ok (MkDec (inv *: enc) my_id).

End Pvss.
