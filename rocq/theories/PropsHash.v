(** * PropsHash: the personalisation strings of C45, C46 and C47 *)

From Coq Require Import NArith Strings.Byte.
From mathcomp Require Import all_ssreflect all_algebra zify.
From Verif Require Import Prelude Errors Engine LibModel SigmaModel HashModel.
From Verif Require Import BTreeMap PvssModel PreludeProofs Spec PropsShare Instance.

Set Implicit Arguments.
Unset Strict Implicit.
Unset Printing Implicit Defensive.

(** ** C45: domain separation *)

(** The three personalisation strings have at most 8 bytes and three different blocks: two
    challenges of different protocols are hashes of different Blake2s inputs. *)
Theorem C45_personas :
  [/\ all (fun p => size p <= 8) [:: DLK_PERSONA; DLEQ_PERSONA; SCHNORR_PERSONA],
      personal_block DLK_PERSONA <> personal_block DLEQ_PERSONA,
      personal_block DLK_PERSONA <> personal_block SCHNORR_PERSONA
    & personal_block DLEQ_PERSONA <> personal_block SCHNORR_PERSONA].
Proof. by split=> //; move/(congr1 val). Qed.

(** So none of the three protocols hits the length assertion. *)
Theorem C45_personas_no_panic H {Er} m :
  [/\ is_ok (rng_from_message (Er := Er) H DLK_PERSONA m),
      is_ok (rng_from_message (Er := Er) H DLEQ_PERSONA m)
    & is_ok (rng_from_message (Er := Er) H SCHNORR_PERSONA m)].
Proof. by []. Qed.

(** ** C46: rejection sampling *)

(** The first block [k] that [good] maps to a value, all blocks having [len] bytes. *)
Definition first_good (F : Type) (stream : nat -> byte) (len : nat)
  (good : seq byte -> option F) (v : F) : Prop :=
  exists2 k, good (mkseq (fun i => stream (k * len + i)) len) = Some v
           & forall j, j < k -> good (mkseq (fun i => stream (j * len + i)) len) = None.

Section HashToField.
Variables (H : hash_crates) (Er F : Type) (len : nat) (frb : seq byte -> option F).

Definition field_returns p m v : Prop :=
  exists fuel, hash_to_field_run (Er := Er) H len frb fuel p m = Ok (Some v).

Lemma field_loopP stream v k0 :
  (exists fuel, field_loop len frb stream fuel (k0 * len) = Some v) <->
  (exists2 k, frb (mkseq (fun i => stream ((k0 + k) * len + i)) len) = Some v
    & forall j, j < k -> frb (mkseq (fun i => stream ((k0 + j) * len + i)) len) = None).
Proof.
split.
  case=> fuel; elim: fuel k0 => // fuel IH k0 /=.
  case e: (frb _) => [p|]; first by case=> <-; exists 0; rewrite ?addn0.
  rewrite addnC -mulSn => /IH[k hk hj]; exists k.+1; first by rewrite addnS -addSn.
  by case=> [_|j lj]; rewrite ?addn0 // addnS -addSn hj.
case=> k; elim: k k0 => [|k IH] k0 hk hj.
  by exists 1; rewrite /= /draw; move: hk; rewrite addn0 => ->.
have [|j lj|fuel hf] := IH k0.+1; first by rewrite addSnnS.
  by rewrite addSnnS hj.
exists fuel.+1; rewrite /= addnC -mulSn hf.
by have := hj 0 isT; rewrite addn0 /draw => ->.
Qed.

(** It returns the first acceptable block of the stream seeded by the hash, if there is one,
    and nothing else. *)
Theorem C46_field_first_block p m v : size p <= 8 ->
  field_returns p m v <-> first_good (chacha_u8 H (blake2s H (personal_block p) m)) len frb v.
Proof.
move=> sp; rewrite /field_returns /hash_to_field_run /rng_from_message ltnNge sp /=.
have /= h := field_loopP (chacha_u8 H (blake2s H (personal_block p) m)) v 0.
rewrite mul0n in h; split; first by case=> fuel [e]; apply/h; exists fuel.
by case/h=> fuel e; exists fuel; rewrite e.
Qed.

(** More turns do not change the answer, and the answer is unique. *)
Theorem C46_field_deterministic p m v v' :
  field_returns p m v -> field_returns p m v' -> v = v'.
Proof.
case: (leqP (size p) 8) => [sp|sp]; last first.
  by case=> fuel; rewrite /hash_to_field_run /rng_from_message sp.
move=> /(C46_field_first_block _ _ sp)[k h1 h2] /(C46_field_first_block _ _ sp)[k' h1' h2'].
case: (ltngtP k k') => [lt|lt|e].
- by move: h1; rewrite h2'.
- by move: h1'; rewrite h2.
by move: h1; rewrite e h1' => -[].
Qed.

(** If no block is acceptable the loop runs for ever. *)
Theorem C46_field_diverges p m : size p <= 8 ->
  (forall k, frb (mkseq (fun i => chacha_u8 H (blake2s H (personal_block p) m) (k * len + i)) len)
             = None) <->
  (forall fuel, hash_to_field_run (Er := Er) H len frb fuel p m = Ok None).
Proof.
move=> sp; split=> h.
  move=> fuel; case e: (hash_to_field_run _ _ _ _ _ _) => [[v|]|?|?] //.
  - have /C46_field_first_block : field_returns p m v by exists fuel.
    by case/(_ sp) => k; rewrite h.
  - by move: e; rewrite /hash_to_field_run /rng_from_message ltnNge sp.
  by move: e; rewrite /hash_to_field_run /rng_from_message ltnNge sp.
move=> k; case e: (frb _) => [v|] //.
pose P k := isSome (frb (mkseq (fun i => chacha_u8 H (blake2s H (personal_block p) m)
  (k * len + i)) len)).
have exP : exists k, P k by exists k; rewrite /P e.
case: (ex_minnP exP) => k0; rewrite /P; case e0: (frb _) => [w|] // _ mn.
have : field_returns p m w.
  apply/C46_field_first_block => //; exists k0 => // j lj.
  case ej: (frb _) => [u|] //; have := mn j; rewrite /P ej => /(_ isT); lia.
by case=> fuel; rewrite h.
Qed.

(** A longer personalisation panics before the loop starts. *)
Theorem C46_long_persona_panics fuel p m : 8 < size p ->
  hash_to_field_run (Er := Er) H len frb fuel p m = Panic AssertFailed.
Proof. by move=> sp; rewrite /hash_to_field_run /rng_from_message sp. Qed.

End HashToField.

Section HashToGroup.
Variables (H : hash_crates) (Er C Proj : Type) (len : nat) (frb : seq byte -> option C).
Variables (cof : C -> Proj) (is_zero : Proj -> bool).

(** A block is acceptable when it decodes to a point whose cofactor multiple is not zero. *)
Definition group_block (s : seq byte) : option Proj :=
  if frb s is Some p then if is_zero (cof p) then None else Some (cof p) else None.

Definition group_returns p m v : Prop :=
  exists fuel, hash_to_group_run (Er := Er) H len frb cof is_zero fuel p m = Ok (Some v).

Lemma group_loopE stream fuel pos :
  group_loop len frb cof is_zero stream fuel pos = field_loop len group_block stream fuel pos.
Proof.
elim: fuel pos => //= fuel IH pos; rewrite /group_block.
by case: (frb _) => [p|]; first case: (is_zero _); rewrite /= ?IH.
Qed.

Lemma hash_to_groupE fuel p m :
  hash_to_group_run (Er := Er) H len frb cof is_zero fuel p m
  = hash_to_field_run H len group_block fuel p m.
Proof.
rewrite /hash_to_group_run /hash_to_field_run.
by case: rng_from_message => //= r; rewrite group_loopE.
Qed.

Theorem C46_group_first_block p m v : size p <= 8 ->
  group_returns p m v <->
  first_good (chacha_u8 H (blake2s H (personal_block p) m)) len group_block v.
Proof.
move=> sp; have [h1 h2] := @C46_field_first_block H Er Proj len group_block p m v sp; split.
  by case=> fuel; rewrite hash_to_groupE => e; apply: h1; exists fuel.
by move/h2=> [fuel e]; exists fuel; rewrite hash_to_groupE.
Qed.

(** The result is never the zero point, and is a cofactor multiple. *)
Theorem C46_group_not_zero p m v : group_returns p m v ->
  ~~ is_zero v /\ exists P, v = cof P.
Proof.
case: (leqP (size p) 8) => [sp|sp]; last first.
  by case=> fuel; rewrite hash_to_groupE C46_long_persona_panics.
case/(C46_group_first_block _ _ sp) => k; rewrite /group_block.
by case: (frb _) => [P|] //; case e: (is_zero _) => // -[<-] _; rewrite e; split=> //; exists P.
Qed.

Theorem C46_group_deterministic p m v v' :
  group_returns p m v -> group_returns p m v' -> v = v'.
Proof.
case=> f1 e1 [f2 e2]; apply: (@C46_field_deterministic H Er Proj len group_block p m).
  by exists f1; rewrite -hash_to_groupE.
by exists f2; rewrite -hash_to_groupE.
Qed.

Theorem C46_group_long_persona_panics fuel p m : 8 < size p ->
  hash_to_group_run (Er := Er) H len frb cof is_zero fuel p m = Panic AssertFailed.
Proof. by move=> sp; rewrite hash_to_groupE C46_long_persona_panics. Qed.

End HashToGroup.

(** A stream that counts up, one-byte blocks, values below 250 rejected: block 250 wins. *)
Definition count_crates : hash_crates :=
  HashCrates (fun _ _ => padt 32 [::]) (fun _ i => byte_of_nat i).
Definition count_frb (s : seq byte) : option nat :=
  if s is [:: b] then if 250 <= nat_of_byte b then Some (nat_of_byte b) else None else None.

Example C46_example :
  field_returns count_crates unit 1 count_frb DLK_PERSONA [::] 250 /\
  (forall fuel, hash_to_field_run (Er := unit) count_crates 1 (fun _ => @None nat) fuel
                  DLEQ_PERSONA [:: x01] = Ok None).
Proof.
split; first by exists 251.
by apply/C46_field_diverges.
Qed.

(** ** C47: the EdDSA wrapper *)

Section EdDSA.
Variable D : eddsa.

(** Signing with a working key pair gives a signature that verifies. *)
Theorem C47_sign_verify {Er} (sk : SecretKey) (pk : PublicKey) (d : Digest) :
  working_key D sk pk ->
  exists2 x, signature_new (Er := Er) D d sk = Ok x & signature_verify D x d pk = Ok tt.
Proof.
case=> kp hkp hv; exists (sig_split (ed_sign kp d)); first by rewrite /signature_new hkp.
have [sg [key [e1 e2 e3]]] := hv d.
by rewrite /signature_verify /sig_flatten e1 /= e2 /= e3.
Qed.

(** Signing panics exactly when the secret key does not load, and never returns Err. *)
Theorem C47_new_contract {Er} (sk : SecretKey) (d : Digest) :
  (is_panic (signature_new (Er := Er) D d sk) <-> ed_keypair_from_bytes D sk = None) /\
  ~~ is_err (signature_new (Er := Er) D d sk).
Proof. by rewrite /signature_new; case: ed_keypair_from_bytes. Qed.

(** [verify] accepts exactly what the strict verifier accepts on the given digest, and
    reports everything else as Err. *)
Theorem C47_verify_exact (x : Signature) (d : Digest) (pk : PublicKey) :
  (signature_verify D x d pk = Ok tt <-> eddsa_valid D x d pk) /\
  (~ eddsa_valid D x d pk -> signature_verify D x d pk = Err Ed25519Error).
Proof.
have acc : signature_verify D x d pk = Ok tt <-> eddsa_valid D x d pk.
  rewrite /signature_verify /eddsa_valid -/(sig_flatten x); split.
    case e1: (ed_sig_from_bytes D _) => [sg|] //=.
    by case e2: (ed_pk_from_bytes D pk) => [key|] //=; case: ifP => // e3 _; exists sg, key.
  by case=> sg [key [-> /= -> /= ->]].
split=> // nv; case e: (signature_verify D x d pk) => [[]|[]|p] //.
  by case: nv; apply/acc.
move: e; rewrite /signature_verify; case: ed_sig_from_bytes => //= sg.
by case: ed_pk_from_bytes => //= key; case: ifP.
Qed.

(** The votes of a batch, parsed; [None] if one does not parse. *)
Definition parse_votes (votes : seq (PublicKey * Signature))
  : option (seq (ed_sig D) * seq (ed_pk D)) :=
  let sigs := [seq ed_sig_from_bytes D [tuple of part1 v.2 ++ part2 v.2] | v <- votes] in
  let pks := [seq ed_pk_from_bytes D v.1 | v <- votes] in
  if all isSome sigs && all isSome pks then Some (pmap id sigs, pmap id pks) else None.

(** [verify_batch] gives the underlying verifier the digest once per vote and the parsed
    votes in order; a vote that does not parse makes the batch fail. *)
Theorem C47_batch_exact (d : Digest) votes :
  signature_verify_batch D d votes =
  if parse_votes votes is Some (sigs, pks) then
    if ed_verify_batch (nseq (size votes) (d : seq byte)) sigs pks then Ok tt else Err Ed25519Error
  else Err Ed25519Error.
Proof.
rewrite /signature_verify_batch /parse_votes.
set step := fun acc v => _.
have gen ms ss ks : foldM step (ms, ss, ks) votes =
  let sigs := [seq ed_sig_from_bytes D [tuple of part1 v.2 ++ part2 v.2] | v <- votes] in
  let pks := [seq ed_pk_from_bytes D v.1 | v <- votes] in
  if all isSome sigs && all isSome pks then
    Ok (ms ++ nseq (size votes) (d : seq byte), ss ++ pmap id sigs, ks ++ pmap id pks)
  else Err Ed25519Error.
  elim: votes ms ss ks => [|[k x] votes IH] ms ss ks /=; first by rewrite !cats0.
  rewrite -/(sig_flatten x); case: (ed_sig_from_bytes D _) => [sg|] //=.
  case: (ed_pk_from_bytes D k) => [key|] /=; last by rewrite andbF.
  by rewrite IH /= -!cats1 -!catA.
by rewrite gen /=; case: ifP.
Qed.

(** In particular it never panics. *)
Corollary C47_batch_no_panic (d : Digest) votes : ~~ is_panic (signature_verify_batch D d votes).
Proof. by rewrite C47_batch_exact; case: parse_votes => [[ss ks]|] //; case: ifP. Qed.

End EdDSA.

Example C47_example :
  working_key TD (tsk 1) (tpk 1) /\
  signature_verify_batch TD (tpk 5)
    [:: (tpk 1, sig_split (toy_sign (tpk 1) (tpk 5))); (tpk 2, sig_split (toy_sign (tpk 2) (tpk 5)))]
  = Ok tt /\
  signature_verify_batch TD (tpk 5)
    [:: (tpk 1, sig_split (toy_sign (tpk 1) (tpk 5))); (padt 32 [:: xff], Sig (tpk 0) (tpk 0))]
  = Err Ed25519Error.
Proof. by split; [exact: toy_working | split; vm_compute]. Qed.
