(** * SetupModel: setting up parameters, keys and nodes, and publishing a decryption

    The set-up functions of the crate, and the recipe by which the crate's own tests put
    them together (src/modified_scrape/node.rs:258-380) and check a published decryption
    (node.rs:432-461).  The crate itself contains no driver beyond these tests. *)

From Coq Require Import NArith Strings.Byte.
From mathcomp Require Import all_ssreflect all_algebra.
From Verif Require Import Prelude Errors BTreeMap Engine LibModel PolyModel SigmaModel PvssModel.

Set Implicit Arguments.
Unset Strict Implicit.
Unset Printing Implicit Defensive.

Import GRing.Theory.
Local Open Scope ring_scope.

(** Key generation of ed25519-dalek: [Keypair::generate] fills 32 bytes from the generator
    and derives the key pair from them; [to_bytes] of the key pair and of its public half.
    No law is assumed. *)
Record ed_keygen (D : eddsa) : Type := EdKeygen {
  ed_generate : 32.-tuple byte -> ed_keypair D;
  ed_public_bytes : ed_keypair D -> 32.-tuple byte;
  ed_keypair_bytes : ed_keypair D -> 64.-tuple byte
}.

(** [generate_keypair], lib.rs:251-259; [generate_production_keypair], lib.rs:247-249, is the
    same with the generator of the operating system.  [seed] are the bytes drawn. *)
Definition generate_keypair (D : eddsa) (K : ed_keygen D) (seed : 32.-tuple byte)
  : PublicKey * SecretKey :=
  let keypair := ed_generate K seed in
  let public := ed_public_bytes K keypair in
  let secret := ed_keypair_bytes K keypair in
  (public, secret).

(** [SRS::setup], nizk/dlk/srs.rs:16-21 and signature/schnorr/srs.rs:14-19: the generator is
    the fixed one of the group; nothing is drawn. *)
Definition dlk_srs_setup (E : engine) (C : curve (modulus E)) (R : rng E) (s : rstate R)
  : outcome nizk_error (pt C) * rstate R := (Ok (pt_gen C), s).
Definition schnorr_srs_setup (E : engine) (C : curve (modulus E)) (R : rng E) (s : rstate R)
  : outcome signature_error (pt C) * rstate R := (Ok (pt_gen C), s).

(** [SRS::from_generator], signature/schnorr/srs.rs:22-27. *)
Definition schnorr_srs_from_generator (E : engine) (C : curve (modulus E)) (g : pt C)
  : outcome signature_error (pt C) := Ok g.

(** [SRS::setup], nizk/dleq/srs.rs:24-30. *)
Definition dleq_srs_setup (E : engine) (C1 C2 : curve (modulus E)) (R : rng E) (s : rstate R)
  : outcome nizk_error (pt C1 * pt C2) * rstate R := (Ok (pt_gen C1, pt_gen C2), s).

Section Recipe.
Variables (E : engine) (D : eddsa) (K : ed_keygen D).
Implicit Types (R : rng E).

(** One party, node.rs:270-285: a Schnorr key pair over the generator [g1] and an EdDSA key
    pair. *)
Definition make_dealer R (g1 : Enc E) (s : rstate R) (id : nat) (seed : 32.-tuple byte)
  : Dealer E * rstate R :=
  let: ((sk, pk), s') := schnorr_generate_keypair g1 s in
  let: (pk_ed, sk_ed) := generate_keypair K seed in
  (MkDealer sk sk_ed (MkParticipant id pk pk_ed), s').

(** Parties [id], [id + 1], ..., one per seed, in turn. *)
Fixpoint make_dealers R (g1 : Enc E) (s : rstate R) (id : nat) (seeds : seq (32.-tuple byte))
  : seq (Dealer E) * rstate R :=
  if seeds is seed :: seeds' then
    let: (d, s1) := make_dealer g1 s id seed in
    let: (ds, s2) := make_dealers g1 s1 id.+1 seeds' in (d :: ds, s2)
  else ([::], s).

(** The map of participants, node.rs:345-348. *)
Definition make_participants (ds : seq (Dealer E)) : btmap (Participant E) :=
  foldl (fun m d => bt_insert m d.1 d.2) bt_new
    (zip (iota 0 (size ds)) [seq de_participant d | d <- ds]).

(** The whole set-up, node.rs:258-380: parameters, parties, one node per party. *)
Definition set_up R (s : rstate R) (t : nat) (seeds : seq (32.-tuple byte))
  : outcome pvss_error (seq (Node E)) * rstate R :=
  let: (srs_o, s1) := srs_setup s in
  match srs_o with
  | Err e => (Err e, s1)
  | Panic p => (Panic p, s1)
  | Ok srs =>
      let config := MkConfig srs t (size seeds) in
      let: (ds, s2) := make_dealers (srs_g1 srs) s1 0 seeds in
      (mapM (fun d => node_new config d (make_participants ds)) ds, s2)
  end.

(** A decrypted share [d] hidden by [r], node.rs:441-444. *)
Definition blind (config : Config E) (d : DecryptedShare E) (r : Fr E) : Com E * Enc E :=
  (r *: srs_g2 (cfg_srs config), dec d + - (r *: srs_g1 (cfg_srs config))).

(** What the receiver of it checks, node.rs:446-461: [comms[origin]] indexes. *)
Definition check_blinded {Er} (config : Config E) (comms : seq (Com E)) (id : nat)
  (cm : Com E * Enc E) : outcome Er bool :=
  let! comm := index comms id in
  Ok (product_of_pairings
        [:: (- srs_g1 (cfg_srs config), comm);
            (srs_g1 (cfg_srs config), cm.1);
            (cm.2, srs_g2 (cfg_srs config))] == 1).

End Recipe.
