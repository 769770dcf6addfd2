(** * Spec: the vocabulary the property theorems are stated in

    Polynomials are mathcomp's [{poly F}], sums are big operators; nothing here refers to
    the loops of the model. *)

From Coq Require Import NArith Strings.Byte.
From mathcomp Require Import all_ssreflect all_algebra.
From Verif Require Import Prelude Errors Engine BTreeMap LibModel PvssModel SigmaModel.

Set Implicit Arguments.
Unset Strict Implicit.
Unset Printing Implicit Defensive.

Import GRing.Theory.
Local Open Scope ring_scope.

(** ** Vectors of evaluations *)

Section Vectors.
Variable q : nat.

(** [(p(1) g, ..., p(n) g)]. *)
Definition eval_vec {V : lmodType 'F_q} (p : {poly 'F_q}) (g : V) (n : nat) : seq V :=
  [seq p.[i%:R] *: g | i <- iota 1 n].

(** The vector commits, over the group's generator, to a polynomial of degree at most t. *)
Definition low_degree (C : curve q) (t : nat) (v : seq (pt C)) : Prop :=
  exists2 p : {poly 'F_q}, (size p <= t.+1)%N & v = eval_vec p (pt_gen C) (size v).

(** [(p(x_1) g, ..., p(x_k) g)]. *)
Definition eval_at {V : lmodType 'F_q} (p : {poly 'F_q}) (g : V) (xs : seq 'F_q) : seq V :=
  [seq p.[x] *: g | x <- xs].

End Vectors.

(** A vector of [n] scalars (32 bytes each) fits in memory; true of every vector of curve
    points a Rust program can hold. *)
Definition fits (n : nat) : Prop := (32 * N.of_nat n < 2 ^ 63)%num.

(** ** Draws

    A generator whose state is the sequence of field elements it will return: used to count
    the draws that lead to an outcome.  Group samples are not drawn from it. *)
Definition seq_rng (E : engine) : rng E :=
  @Rng E (seq (Fr E)) (fun s => (head 0 s, behead s)) (fun s => (0, s)) (fun s => (0, s)).

(** ** Contracts *)

(** Which result an interpolation call gives, in terms of the number of evaluations, the
    number of points, the degree, and whether the first [t + 1] points are distinct. *)
Definition interpolation_contract {A} (r : outcome pvss_error A) (n_evals n_points t : nat)
  (distinct : bool) : Prop :=
  [/\ r = Err InsufficientEvaluationsError <-> (n_evals < t.+1)%N,
      r = Err DifferentPointsEvalsError <-> (t.+1 <= n_evals)%N /\ n_evals <> n_points,
      is_panic r <-> [/\ (t.+1 <= n_evals)%N, n_evals = n_points & ~~ distinct]
    & is_ok r <-> [/\ (t.+1 <= n_evals)%N, n_evals = n_points & distinct] ].

(** ** The secret-sharing scheme *)

Section Scheme.
Variable E : engine.
Variable D : eddsa.
Implicit Types (config : Config E) (ag : PVSSAggregator E) (core : PVSSCore E).

(** The parameters the scheme is meant for: [t + 2 <= n < q], vectors of length [n] fit in
    memory. *)
Definition config_ok config : Prop :=
  [/\ ((cfg_degree config).+2 <= cfg_num_participants config)%N,
      (cfg_num_participants config < modulus E)%N
    & fits (cfg_num_participants config)].

(** Every id below [n] is registered. *)
Definition registered ag : Prop :=
  forall i, (i < cfg_num_participants (ag_config ag))%N ->
            exists p, bt_get (ag_participants ag) i = Some p.

(** No other id is. *)
Definition only_registered ag : Prop :=
  forall i p, bt_get (ag_participants ag) i = Some p ->
              (i < cfg_num_participants (ag_config ag))%N.

(** The encryption key of participant [i] (zero if there is none). *)
Definition key_of ag (i : nat) : Enc E :=
  if bt_get (ag_participants ag) i is Some p then pa_public_key_sig p else 0.

(** The first [t + 1] entries of [v] commit to a polynomial of degree at most [t] whose
    constant term is committed to by [P]. *)
Definition commits_to (C : curve (modulus E)) (t : nat) (v : seq (pt C)) (P : pt C) : Prop :=
  exists p : {poly Fr E},
    [/\ (size p <= t.+1)%N, take t.+1 v = eval_vec p (pt_gen C) t.+1
      & P = p.[0] *: pt_gen C].

(** The Schnorr equation of a knowledge proof for [gs] over base [g]. *)
Definition proof_valid (g : Com E) (dp : DecompProof E) : Prop :=
  let c := hash_to_field E DLK_PERSONA (pt_ser g ++ pt_ser (dlk_commit (dp_proof dp))) in
  dlk_challenge (dp_proof dp) = c /\
  dlk_response (dp_proof dp) *: g + c *: dp_gs dp = dlk_commit (dp_proof dp).

(** The bytes a dealer signs: the three components of the proof, then [gs]. *)
Definition signed_bytes (dp : DecompProof E) : seq byte :=
  pt_ser (dlk_commit (dp_proof dp)) ++ fr_ser (dlk_challenge (dp_proof dp))
  ++ fr_ser (dlk_response (dp_proof dp)) ++ pt_ser (dp_gs dp).

Definition signed_digest (dp : DecompProof E) : Digest := shake256 E (signed_bytes dp).

(** The EdDSA verifier accepts these bytes. *)
Definition eddsa_valid (s : Signature) (digest : Digest) (pk : PublicKey) : Prop :=
  exists sg key, [/\ ed_sig_from_bytes D [tuple of part1 s ++ part2 s] = Some sg,
                     ed_pk_from_bytes D pk = Some key & ed_verify_strict key digest sg].

(** A signed proof is valid under a key. *)
Definition signed_valid config (sp : SignedProof E) (pk : PublicKey) : Prop :=
  proof_valid (srs_g2 (cfg_srs config)) (sp_decomp_proof sp) /\
  eddsa_valid (sp_signature_on_decomp sp) (signed_digest (sp_decomp_proof sp)) pk.

(** Slot [i] holds the encryption of what slot [i] of the commitments commits to. *)
Definition slot_ok ag core (i : nat) : Prop :=
  pairing (key_of ag i) (nth 0 (comms core) i)
  = pairing (nth 0 (encs core) i) (srs_g2 (cfg_srs (ag_config ag))).

(** All slots at once. *)
Definition slots_product_ok ag core : Prop :=
  \prod_(i < cfg_num_participants (ag_config ag)) pairing (key_of ag i) (nth 0 (comms core) i)
  = \prod_(i < cfg_num_participants (ag_config ag))
      pairing (nth 0 (encs core) i) (srs_g2 (cfg_srs (ag_config ag))).

(** Every contribution comes from a registered participant and its proof is valid. *)
Definition contributions_valid ag (cs : btmap (SignedProof E * N)) : Prop :=
  forall i sp w, bt_get cs i = Some (sp, w) ->
  exists2 p, bt_get (ag_participants ag) i = Some p
           & signed_valid (ag_config ag) sp (pa_public_key_ed p).

(** The sum of the contributed commitments, counted with their weights. *)
Definition weighted_gs (cs : btmap (SignedProof E * N)) : Com E :=
  \sum_(kv <- bt_iter cs) (N.to_nat kv.2.2)%:R *: dp_gs (sp_decomp_proof kv.2.1).

(** Both vectors have length [n]. *)
Definition core_sized config core : Prop :=
  size (encs core) = cfg_num_participants config /\
  size (comms core) = cfg_num_participants config.

End Scheme.

(** ** Histories of an aggregator

    A call delivers one message, of arbitrary content, together with a random generator in
    an arbitrary state.  A panicking call is taken to have been caught by the caller. *)

Section Histories.
Variable E : engine.
Variable D : eddsa.
Variable b : build.
Implicit Types ag : PVSSAggregator E.

Inductive message : Type :=
| MsgShare of PVSSShare E
| MsgTranscript of PVSSAggregatedShare E.

Record call : Type := Call {
  call_msg : message;
  call_rng : rng E;
  call_state : rstate call_rng
}.

(** The outcome of the call and the aggregator afterwards. *)
Definition receive ag (c : call) : outcome pvss_error unit * PVSSAggregator E :=
  match call_msg c with
  | MsgShare sh => (receive_share D b ag (call_state c) sh).1
  | MsgTranscript y => (receive_aggregated_share D b ag (call_state c) y).1
  end.

(** The aggregator after all the calls. *)
Fixpoint run ag (h : seq call) : PVSSAggregator E :=
  if h is c :: h' then run (receive ag c).2 h' else ag.

(** The messages of the calls that returned Ok, in order. *)
Fixpoint accepted ag (h : seq call) : seq message :=
  if h is c :: h' then
    let: (r, ag') := receive ag c in
    if is_ok r then call_msg c :: accepted ag' h' else accepted ag' h'
  else [::].

(** The contributions a message brings. *)
Definition msg_contributions (m : message) : btmap (SignedProof E * N) :=
  match m with
  | MsgShare sh => bt_insert bt_new (sh_participant_id sh) (sh_signed_proof sh, 1%num)
  | MsgTranscript y => as_contributions y
  end.

(** Adding the weights of a message to those of the transcript stays below [2^64]. *)
Definition no_wrap ag (m : message) : Prop :=
  forall i sp w sp' w', bt_get (as_contributions (ag_aggregated_tx ag)) i = Some (sp, w) ->
    bt_get (msg_contributions m) i = Some (sp', w') -> (w + w' < 2 ^ 64)%num.

(** At every call. *)
Fixpoint no_wrap_run ag (h : seq call) : Prop :=
  if h is c :: h' then no_wrap ag (call_msg c) /\ no_wrap_run (receive ag c).2 h' else True.

End Histories.

(** The shares among messages. *)
Definition shares_of (E : engine) (ms : seq (message E)) : seq (PVSSShare E) :=
  pmap (fun m => if m is MsgShare sh then Some sh else None) ms.

(** A history of shares only. *)
Definition shares_only (E : engine) (h : seq (call E)) : bool :=
  all (fun c => if call_msg c is MsgShare _ then true else false) h.
