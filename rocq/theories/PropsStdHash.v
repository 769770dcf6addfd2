(** * PropsStdHash: C100, what goes into a hash table's hash *)

From Coq Require Import NArith Strings.Byte.
From mathcomp Require Import all_ssreflect all_algebra zify.
From Verif Require Import Prelude Errors Engine LibModel SigmaModel CodecModel PvssModel StdHashModel
  Instance PropsShare.

Set Implicit Arguments.
Unset Strict Implicit.
Unset Printing Implicit Defensive.

Import GRing.Theory.
Local Open Scope ring_scope.

(** The hasher that forgets nothing. *)
Definition recorder : hasher := @Hasher (seq (seq byte)) (fun s p => rcons s p).

Lemma feed_recorder (s : hstate recorder) ps : feed s ps = s ++ ps.
Proof.
rewrite /feed; elim: ps s => [|p ps IH] s /=; first by rewrite cats0.
by rewrite IH cat_rcons.
Qed.

(** A hasher only sees what is written: values with the same record have the same hash in every
    hasher. *)
Lemma feed_comp (H : hasher) (s : hstate H) ps ps' : feed (feed s ps) ps' = feed s (ps ++ ps').
Proof. by rewrite /feed foldl_cat. Qed.

Lemma cat_inj (T : eqType) (a a' b b' : seq T) : size a = size a' ->
  a ++ b = a' ++ b' -> a = a' /\ b = b'.
Proof. by move=> sz /eqP; rewrite eqseq_cat // => /andP[/eqP-> /eqP->]. Qed.

Section Keys.

(** Digests and keys: the record determines the value, whatever was written before. *)
Theorem C100_digest (d d' : Digest) s :
  digest_hash (H := recorder) s d = digest_hash (H := recorder) s d' <-> d = d'.
Proof.
split=> [|-> //]; rewrite /digest_hash !feed_recorder => /(cat_inj (erefl _))[_ e].
exact: val_inj (congr1 (fun l => nth [::] l 1) e).
Qed.

Theorem C100_public_key (k k' : PublicKey) s :
  public_key_hash (H := recorder) s k = public_key_hash (H := recorder) s k' <-> k = k'.
Proof. exact: C100_digest. Qed.

End Keys.

Section Proofs.
Variables (E : engine) (W : std_hash (G2 E)).

(** A decomposition proof: every component is written. *)
Theorem C100_decomp (d d' : DecompProof E) s :
  decomp_hash W (H := recorder) s d = decomp_hash W (H := recorder) s d' <-> d = d'.
Proof.
split=> [|-> //]; rewrite /decomp_hash /dlk_proof_hash !feed_recorder -!catA.
case/(cat_inj (erefl _)) => _ /cat_inj[|/pt_writes_inj ea]; first by rewrite !pt_writes_size.
case/cat_inj => [|/fr_writes_inj ec]; first by rewrite !fr_writes_size.
case/cat_inj => [|/fr_writes_inj ez /pt_writes_inj eg]; first by rewrite !fr_writes_size.
by case: d d' ea ec ez eg => [[a c z] g] [[a' c' z'] g'] /= -> -> -> ->.
Qed.

(** No hasher can tell more than the record. *)
Theorem C100_any_hasher (H : hasher) (s : hstate H) (d : DecompProof E) :
  decomp_hash W s d = feed s (decomp_hash W (H := recorder) [::] d).
Proof. by rewrite /decomp_hash /dlk_proof_hash !feed_recorder !feed_comp -!catA. Qed.

End Proofs.

(** The DLK system and its parameters: the generator is written. *)
Theorem C100_system (E : engine) (C : curve (modulus E)) (W : std_hash C) (g g' : pt C) :
  (forall s, dlk_system_hash W (H := recorder) s g = dlk_system_hash W (H := recorder) s g' <-> g = g') /\
  forall (H : hasher) (s : hstate H),
    dlk_system_hash W s g = feed s (dlk_system_hash W (H := recorder) [::] g).
Proof.
split=> [s|H s]; last by rewrite /dlk_system_hash feed_recorder.
split=> [|-> //]; rewrite /dlk_system_hash !feed_recorder.
by case/(cat_inj (erefl _)) => _ /pt_writes_inj.
Qed.
Print Assumptions C100_system.
Print Assumptions C100_digest.
Print Assumptions C100_public_key.
Print Assumptions C100_decomp.
Print Assumptions C100_any_hasher.

(** Such implementations exist for the toy engine: the bytes of the codec, one piece each. *)
Lemma toy_pt_inj : injective (fun P : Com TE => [:: pt_ser P]).
Proof.
move=> P P' /(congr1 (head [::])) e; have := pt_deserK P [::].
by rewrite (e : pt_ser P = pt_ser P') pt_deserK => -[].
Qed.
Lemma toy_fr_inj : injective (fun x : Fr TE => [:: fr_ser x]).
Proof.
move=> x x' /(congr1 (head [::])) e; have := fr_deserK x [::].
by rewrite (e : fr_ser x = fr_ser x') fr_deserK => -[].
Qed.
Definition toy_writes : std_hash (G2 TE) :=
  @StdHash TE (G2 TE) (fun P => [:: pt_ser P]) 1 (fun _ => erefl) toy_pt_inj (fun x => [:: fr_ser x]) 1 (fun _ => erefl) toy_fr_inj.

Example C100_example :
  decomp_hash toy_writes (H := recorder) [::] (MkDecomp (@DlkProof TE (G2 TE) (f 3) (f 4) (f 5)) (f 6))
  = [:: [:: x03]; [:: x04]; [:: x05]; [:: x06]]%byte.
Proof. by vm_compute. Qed.
