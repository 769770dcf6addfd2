(** * TestModel: the unit tests of the crate

    Each Definition is the body of the test function (or functions) named in its comment; a
    test that is instantiated at several curves is one Definition over an arbitrary curve.
    A test ends normally ([Ok]) or panics.  [rand::thread_rng()] is the generator of the
    model.  [rng.gen_range(3, 100)] and the seeds that [generate_production_keypair] draws
    from the operating system are arguments.  Left out: [println!], clocks, and the
    assertions [2 + 2 == 4]. *)

From Coq Require Import NArith Strings.Byte.
From mathcomp Require Import all_ssreflect all_algebra.
From Verif Require Import Prelude Errors BTreeMap Engine LibModel PolyModel SigmaModel PvssModel
  CodecModel SetupModel.

Set Implicit Arguments.
Unset Strict Implicit.
Unset Printing Implicit Defensive.

Import GRing.Theory.
Local Open Scope ring_scope.

(** ** [==] on the structs

    [#[derive(PartialEq)]] compares the fields: nizk/dlk/mod.rs:31, nizk/dleq/mod.rs:40 (tuples),
    decomp.rs:34, share.rs:21, 47, 58, pvss.rs:10, lib.rs:263.  [BTreeMap] compares its pairs in
    key order. *)
Section Eq.
Variable E : engine.

Lemma dlk_proofK (C : curve (modulus E)) :
  cancel (fun p : dlk_proof C => (dlk_commit p, dlk_challenge p, dlk_response p))
         (fun x => DlkProof x.1.1 x.1.2 x.2).
Proof. by case. Qed.
Definition dlk_proof_eqMixin C := CanEqMixin (@dlk_proofK C).
Canonical dlk_proof_eqType C := EqType (dlk_proof C) (dlk_proof_eqMixin C).

Lemma dleq_proofK (C1 C2 : curve (modulus E)) :
  cancel (fun p : dleq_proof C1 C2 => (dleq_commit p, dleq_challenge p, dleq_response p))
         (fun x => DleqProof x.1.1 x.1.2 x.2).
Proof. by case. Qed.
Definition dleq_proof_eqMixin C1 C2 := CanEqMixin (@dleq_proofK C1 C2).
Canonical dleq_proof_eqType C1 C2 := EqType (dleq_proof C1 C2) (dleq_proof_eqMixin C1 C2).

Lemma decompK : cancel (fun x : DecompProof E => (dp_proof x, dp_gs x)) (fun y => MkDecomp y.1 y.2).
Proof. by case. Qed.
Definition decomp_eqMixin := CanEqMixin decompK.
Canonical decomp_eqType := EqType (DecompProof E) decomp_eqMixin.

Lemma signatureK : cancel (fun x => (part1 x, part2 x)) (fun y => Sig y.1 y.2).
Proof. by case. Qed.
Definition signature_eqMixin := CanEqMixin signatureK.
Canonical signature_eqType := EqType Signature signature_eqMixin.

Lemma signedK : cancel (fun x : SignedProof E => (sp_decomp_proof x, sp_signature_on_decomp x))
  (fun y => MkSigned y.1 y.2).
Proof. by case. Qed.
Definition signed_eqMixin := CanEqMixin signedK.
Canonical signed_eqType := EqType (SignedProof E) signed_eqMixin.

Lemma coreK : cancel (fun x : PVSSCore E => (encs x, comms x)) (fun y => MkCore y.1 y.2).
Proof. by case. Qed.
Definition core_eqMixin := CanEqMixin coreK.
Canonical core_eqType := EqType (PVSSCore E) core_eqMixin.

Lemma shareK : cancel (fun x : PVSSShare E => (sh_participant_id x, sh_pvss_core x, sh_signed_proof x))
  (fun y => MkShare y.1.1 y.1.2 y.2).
Proof. by case. Qed.
Definition share_eqMixin := CanEqMixin shareK.
Canonical share_eqType := EqType (PVSSShare E) share_eqMixin.

Lemma bt_iter_inj (V : Type) (x y : btmap V) : bt_iter x = bt_iter y -> x = y.
Proof. by case: x y => l h [l' h'] /= e; move: h; rewrite e => h; congr BTMap; exact: bool_irrelevance. Qed.
Definition btmap_eqMixin (V : eqType) := InjEqMixin (@bt_iter_inj V).
Canonical btmap_eqType (V : eqType) := EqType (btmap V) (btmap_eqMixin V).

Lemma N_eqP : Equality.axiom N.eqb.
Proof. by move=> x y; apply: (iffP idP) => /N.eqb_eq. Qed.

(** A weight is a u64. *)
Definition contribution_eqb (x y : SignedProof E * N) : bool := (x.1 == y.1) && (x.2 =? y.2)%num.
Lemma contribution_eqP : Equality.axiom contribution_eqb.
Proof.
move=> [a w] [a' w']; apply: (iffP andP) => /= [[/eqP-> /N_eqP->] //|[-> ->]].
by split=> //; apply/N_eqP.
Qed.

Definition transcript_eqb (x y : PVSSAggregatedShare E) : bool :=
  [&& as_num_participants x == as_num_participants y, as_degree x == as_degree y,
      as_pvss_core x == as_pvss_core y
    & @eq_op (btmap_eqType (EqType _ (EqMixin contribution_eqP))) (as_contributions x) (as_contributions y)].
Lemma transcript_eqP : Equality.axiom transcript_eqb.
Proof.
move=> [n d c m] [n' d' c' m']; apply: (iffP and4P) => /= [[/eqP-> /eqP-> /eqP-> /eqP->] //|].
by case=> -> -> -> ->; rewrite !eqxx.
Qed.
Definition transcript_eqMixin := EqMixin transcript_eqP.
Canonical transcript_eqType := EqType (PVSSAggregatedShare E) transcript_eqMixin.

End Eq.

(** ** Running a test *)
Section Run.
Variables (E : engine) (R : rng E).

(** A piece of a test: it may draw from the generator, and it may panic. *)
Definition test (A : Type) : Type := rstate R -> outcome pvss_error A * rstate R.

Definition tbind {A B} (m : test A) (f : A -> test B) : test B := fun s =>
  let: (o, s') := m s in
  match o with
  | Ok a => f a s'
  | Err e => (Err e, s')
  | Panic p => (Panic p, s')
  end.

(** [f(rng, ...).unwrap()]. *)
Definition called {Er A} (f : rstate R -> outcome Er A * rstate R) : test A := fun s =>
  let: (o, s') := f s in (unwrap o, s').

(** A draw that cannot fail. *)
Definition drawn {A} (f : rstate R -> A * rstate R) : test A := fun s =>
  let: (a, s') := f s in (Ok a, s').

(** Code that does not touch the generator. *)
Definition plain {A} (o : outcome pvss_error A) : test A := fun s => (o, s).

(** [assert!(c)], [assert_eq!(x, y)]. *)
Definition assert (c : bool) : outcome pvss_error unit := if c then Ok tt else Panic AssertFailed.

(** The two ways in which a test passes: without and with [#[should_panic]]. *)
Definition passes (m : test unit) (s : rstate R) : Prop := (m s).1 = Ok tt.
Definition passes_panicking (m : test unit) (s : rstate R) : Prop := exists p, (m s).1 = Panic p.

(** [check_serialization], signature/utils/tests.rs:4-13. *)
Definition check_serialization {T : eqType} (c : codec T) (obj : T) : outcome pvss_error unit :=
  let! x := unwrap (deser c (ser c obj)) in assert (obj == x.1).

End Run.

Notation "'run!' x ':=' m 'in' k" := (tbind m (fun x => k))
  (at level 200, x pattern, m at level 100, k at level 200).

(** The byte strings [b"hello"], [b"goodbye"], [b"hello2"]: schnorr/mod.rs:232, 286, 314. *)
Definition hello : seq byte := [:: x68; x65; x6c; x6c; x6f]%byte.
Definition goodbye : seq byte := [:: x67; x6f; x6f; x64; x62; x79; x65]%byte.
Definition hello2 : seq byte := rcons hello x32%byte.

Section Sigma.
Variables (E : engine) (R : rng E).
Local Notation test := (test R).

(** ** src/nizk/dlk/mod.rs *)
Section Dlk.
Variable C : curve (modulus E).

(** [test_simple_nizk], lines 149-159. *)
Definition test_dlk_simple : test unit :=
  run! srs := called (dlk_srs_setup C (R := R)) in
  run! wx := drawn (dlk_generate_pair srs) in
  run! proof := drawn (fun s => dlk_prove srs s wx.1) in
  plain (unwrap (dlk_verify srs wx.2 proof)).

(** [test_simple_nizk_wrong_statement], lines 174-186, should panic. *)
Definition test_dlk_wrong_statement : test unit :=
  run! srs := called (dlk_srs_setup C (R := R)) in
  run! wx := drawn (dlk_generate_pair srs) in
  run! proof := drawn (fun s => dlk_prove srs s wx.1) in
  run! wx2 := drawn (dlk_generate_pair srs) in
  plain (unwrap (dlk_verify srs wx2.2 proof)).

(** [test_simple_nizk_malformed_commitment], lines 204-218, should panic. *)
Definition test_dlk_malformed_commitment : test unit :=
  run! srs := called (dlk_srs_setup C (R := R)) in
  run! wx := drawn (dlk_generate_pair srs) in
  run! proof := drawn (fun s => dlk_prove srs s wx.1) in
  run! r := drawn (@rand_fr E R) in
  plain (unwrap (dlk_verify srs wx.2
                   (DlkProof (r *: srs) (dlk_challenge proof) (dlk_response proof)))).

(** [test_simple_nizk_malformed_challenge], lines 233-247, should panic. *)
Definition test_dlk_malformed_challenge : test unit :=
  run! srs := called (dlk_srs_setup C (R := R)) in
  run! wx := drawn (dlk_generate_pair srs) in
  run! proof := drawn (fun s => dlk_prove srs s wx.1) in
  run! c := drawn (@rand_fr E R) in
  plain (unwrap (dlk_verify srs wx.2 (DlkProof (dlk_commit proof) c (dlk_response proof)))).

(** [test_simple_nizk_malformed_response], lines 262-276, should panic. *)
Definition test_dlk_malformed_response : test unit :=
  run! srs := called (dlk_srs_setup C (R := R)) in
  run! wx := drawn (dlk_generate_pair srs) in
  run! proof := drawn (fun s => dlk_prove srs s wx.1) in
  run! z := drawn (@rand_fr E R) in
  plain (unwrap (dlk_verify srs wx.2 (DlkProof (dlk_commit proof) (dlk_challenge proof) z))).

(** [test_serialization], lines 289-300. *)
Definition test_dlk_serialization : test unit :=
  run! srs := called (dlk_srs_setup C (R := R)) in
  run! wx := drawn (dlk_generate_pair srs) in
  run! proof := drawn (fun s => dlk_prove srs s wx.1) in
  run! _ := plain (check_serialization (one_point_srs_codec C) srs) in
  run! _ := plain (check_serialization (pair_codec (fr_codec E) (pt_codec C)) wx) in
  plain (check_serialization (dlk_proof_codec C) proof).

End Dlk.

(** ** src/nizk/dleq/mod.rs *)
Section Dleq.
Variables C1 C2 : curve (modulus E).

(** [test_simple_nizk], lines 229-241, and [test_benchmark], lines 502-514. *)
Definition test_dleq_simple : test unit :=
  run! srs := called (dleq_srs_setup C1 C2 (R := R)) in
  run! wx := drawn (dleq_generate_pair srs.1 srs.2) in
  run! proof := drawn (fun s => dleq_prove srs.1 srs.2 s wx.1) in
  plain (unwrap (dleq_verify srs.1 srs.2 wx.2 proof)).

(** [test_benchmark_g1_g2_64], [test_benchmark_g2_g1_64], lines 472-500: [k] runs in turn, each
    with the thread's generator. *)
Fixpoint test_dleq_benchmark (k : nat) : test unit :=
  if k is k'.+1 then run! _ := test_dleq_simple in test_dleq_benchmark k' else plain (Ok tt).

(** [test_simple_nizk_wrong_statement], lines 268-280, should panic. *)
Definition test_dleq_wrong_statement : test unit :=
  run! srs := called (dleq_srs_setup C1 C2 (R := R)) in
  run! wx := drawn (dleq_generate_pair srs.1 srs.2) in
  run! proof := drawn (fun s => dleq_prove srs.1 srs.2 s wx.1) in
  run! wx2 := drawn (dleq_generate_pair srs.1 srs.2) in
  plain (unwrap (dleq_verify srs.1 srs.2 wx2.2 proof)).

(** [test_simple_nizk_malformed_commitment], lines 310-325, should panic. *)
Definition test_dleq_malformed_commitment : test unit :=
  run! srs := called (dleq_srs_setup C1 C2 (R := R)) in
  run! wx := drawn (dleq_generate_pair srs.1 srs.2) in
  run! proof := drawn (fun s => dleq_prove srs.1 srs.2 s wx.1) in
  run! r1 := drawn (@rand_fr E R) in
  run! r2 := drawn (@rand_fr E R) in
  plain (unwrap (dleq_verify srs.1 srs.2 wx.2
                   (DleqProof (r1 *: srs.1, r2 *: srs.2) (dleq_challenge proof) (dleq_response proof)))).

(** [test_simple_nizk_malformed_challenge], lines 352-366, should panic. *)
Definition test_dleq_malformed_challenge : test unit :=
  run! srs := called (dleq_srs_setup C1 C2 (R := R)) in
  run! wx := drawn (dleq_generate_pair srs.1 srs.2) in
  run! proof := drawn (fun s => dleq_prove srs.1 srs.2 s wx.1) in
  run! c := drawn (@rand_fr E R) in
  plain (unwrap (dleq_verify srs.1 srs.2 wx.2
                   (DleqProof (dleq_commit proof) c (dleq_response proof)))).

(** [test_simple_nizk_malformed_response], lines 392-406, should panic. *)
Definition test_dleq_malformed_response : test unit :=
  run! srs := called (dleq_srs_setup C1 C2 (R := R)) in
  run! wx := drawn (dleq_generate_pair srs.1 srs.2) in
  run! proof := drawn (fun s => dleq_prove srs.1 srs.2 s wx.1) in
  run! z := drawn (@rand_fr E R) in
  plain (unwrap (dleq_verify srs.1 srs.2 wx.2
                   (DleqProof (dleq_commit proof) (dleq_challenge proof) z))).

(** [test_serialization], lines 429-440. *)
Definition test_dleq_serialization : test unit :=
  run! srs := called (dleq_srs_setup C1 C2 (R := R)) in
  run! wx := drawn (dleq_generate_pair srs.1 srs.2) in
  run! proof := drawn (fun s => dleq_prove srs.1 srs.2 s wx.1) in
  run! _ := plain (check_serialization (dleq_srs_codec C1 C2) srs) in
  run! _ := plain (check_serialization (pair_codec (fr_codec E) (pair_codec (pt_codec C1) (pt_codec C2)))
                     wx) in
  plain (check_serialization (dleq_proof_codec C1 C2) proof).

End Dleq.

(** ** src/signature/schnorr/mod.rs *)
Section Schnorr.
Variable C : curve (modulus E).

(** [test_simple_sig], lines 224-238. *)
Definition test_schnorr_simple : test unit :=
  run! srs := called (schnorr_srs_setup C (R := R)) in
  run! keypair := drawn (schnorr_generate_keypair srs) in
  run! sig := drawn (fun s => schnorr_sign srs s keypair.1 hello) in
  plain (unwrap (schnorr_verify srs keypair.2 hello sig)).

(** [test_simple_sig_wrong_pk], lines 252-265, should panic. *)
Definition test_schnorr_wrong_pk : test unit :=
  run! srs := called (schnorr_srs_setup C (R := R)) in
  run! keypair := drawn (schnorr_generate_keypair srs) in
  run! sig := drawn (fun s => schnorr_sign srs s keypair.1 hello) in
  run! keypair2 := drawn (schnorr_generate_keypair srs) in
  plain (unwrap (schnorr_verify srs keypair2.2 hello sig)).

(** [test_simple_sig_wrong_message], lines 279-292, should panic. *)
Definition test_schnorr_wrong_message : test unit :=
  run! srs := called (schnorr_srs_setup C (R := R)) in
  run! keypair := drawn (schnorr_generate_keypair srs) in
  run! sig := drawn (fun s => schnorr_sign srs s keypair.1 hello) in
  plain (unwrap (schnorr_verify srs keypair.2 goodbye sig)).

(** [test_simple_sig_batch], lines 304-325. *)
Definition test_schnorr_batch : test unit :=
  run! srs := called (schnorr_srs_setup C (R := R)) in
  run! keypair := drawn (schnorr_generate_keypair srs) in
  run! sig := drawn (fun s => schnorr_sign srs s keypair.1 hello) in
  run! keypair2 := drawn (schnorr_generate_keypair srs) in
  run! sig2 := drawn (fun s => schnorr_sign srs s keypair2.1 hello2) in
  called (fun s => schnorr_batch_verify srs s [:: keypair.2; keypair2.2] [:: hello; hello2]
                     [:: sig; sig2]).

(** [test_serialization], lines 337-348. *)
Definition test_schnorr_serialization : test unit :=
  run! srs := called (schnorr_srs_setup C (R := R)) in
  run! keypair := drawn (schnorr_generate_keypair srs) in
  run! sig := drawn (fun s => schnorr_sign srs s keypair.1 hello) in
  run! _ := plain (check_serialization (one_point_srs_codec C) srs) in
  run! _ := plain (check_serialization (pair_codec (fr_codec E) (pt_codec C)) keypair) in
  plain (@check_serialization (prod_eqType (pt C) _) (schnorr_sig_codec C) sig).

End Schnorr.
End Sigma.

Section Scrape.
Variables (E : engine) (D : eddsa) (K : ed_keygen D) (b : build) (R : rng E).
Local Notation test := (test R).

(** ** src/modified_scrape/decomp.rs *)

(** The parameters [t = 3], [n = 10] and a proof for the constant term of a random polynomial:
    lines 139-147, 155-163, 176-184. *)
Definition test_decomp_setup : test (Config E * DecompProof E) :=
  run! srs := called (@srs_setup E R) in
  let conf := MkConfig srs 3 10 in
  run! poly := called (poly_rand b 3%num (R := R)) in
  run! p_0 := plain (index poly 0) in
  run! dproof := called (fun s => decomp_generate s conf p_0) in
  plain (Ok (conf, dproof)).

(** [test_simple_decomp_proof], lines 138-150. *)
Definition test_decomp_simple : test unit :=
  run! x := test_decomp_setup in
  plain (unwrap (decomp_verify x.2 x.1)).

(** [test_invalid_decomp_proof], lines 154-172, should panic: [proof.1] is the challenge. *)
Definition test_decomp_invalid : test unit :=
  run! x := test_decomp_setup in
  run! c := drawn (@rand_fr E R) in
  let pi := dp_proof x.2 in
  plain (unwrap (decomp_verify (MkDecomp (DlkProof (dlk_commit pi) c (dlk_response pi)) (dp_gs x.2)) x.1)).

(** [test_serialization_decomp_proof], lines 175-187. *)
Definition test_decomp_serialization : test unit :=
  run! x := test_decomp_setup in
  plain (check_serialization (decomp_codec E) x.2).

(** ** src/modified_scrape/poly.rs: [deg] is the draw of [rng.gen_range(3, 100)] *)

(** [test_sample_poly], lines 267-283. *)
Definition test_sample_poly (deg : nat) : test unit :=
  run! _ := called (poly_rand b (N.of_nat deg) (R := R)) in plain (Ok tt).

(** [test_ensure_degree], lines 287-294: [vec![x; k]] clones one point. *)
Definition test_ensure_degree (deg : nat) : test unit :=
  run! x := drawn (@rand_g2 E R) in
  called (fun s => ensure_degree b s (nseq (deg + 4) x) deg).

(** [test_ensure_degree_insufficient_evals], lines 299-306, should panic. *)
Definition test_ensure_degree_insufficient (deg : nat) : test unit :=
  run! x := drawn (@rand_g2 E R) in
  called (fun s => ensure_degree b s (nseq (deg - 1) x) deg).

(** [test_lagrange_interpolation_simple_insufficient_evals], lines 311-319, should panic. *)
Definition test_lagrange_simple_insufficient (deg : nat) : test unit :=
  run! x := drawn (@rand_g2 E R) in
  run! _ := plain (unwrap (lagrange_interpolation_simple b (nseq (deg - 1) x) deg)) in
  plain (Ok tt).

(** [test_lagrange_interpolation_simple], lines 323-341. *)
Definition test_lagrange_simple (deg : nat) : test unit :=
  run! srs := called (@srs_setup E R) in
  let generator := srs_g2 srs in
  run! p := called (poly_rand b (N.of_nat deg) (R := R)) in
  run! secret := plain (index p 0) in
  let shared_secret := secret *: generator in
  let evals := [seq evaluate p (fr_of_u64 _ (N.of_nat x)) *: generator | x <- iota 1 deg.+1] in
  run! reconstructed := plain (unwrap (lagrange_interpolation_simple b evals deg)) in
  plain (assert (reconstructed == shared_secret)).

(** [test_lagrange_interpolation_insufficient_evals], lines 346-355, should panic. *)
Definition test_lagrange_insufficient (deg : nat) : test unit :=
  run! x := drawn (@rand_g2 E R) in
  run! p := drawn (@rand_fr E R) in
  run! _ := plain (unwrap (lagrange_interpolation_g2 b (nseq (deg - 1) x) (nseq (deg - 1) p) deg)) in
  plain (Ok tt).

(** [test_lagrange_interpolation_different_points_evals], lines 360-369, should panic. *)
Definition test_lagrange_different (deg : nat) : test unit :=
  run! x := drawn (@rand_g2 E R) in
  run! p := drawn (@rand_fr E R) in
  run! _ := plain (unwrap (lagrange_interpolation_g2 b (nseq (deg + 1) x) (nseq (deg + 2) p) deg)) in
  plain (Ok tt).

(** [test_lagrange_interpolation], lines 373-394. *)
Definition test_lagrange (deg : nat) : test unit :=
  run! srs := called (@srs_setup E R) in
  let generator := srs_g2 srs in
  run! p := called (poly_rand b (N.of_nat deg) (R := R)) in
  run! secret := plain (index p 0) in
  let shared_secret := secret *: generator in
  let points := [seq fr_of_u64 (modulus E) (N.of_nat j) | j <- iota 1 deg.+1] in
  run! evals := plain (mapM (fun j => let! x := index points j.-1 in Ok (evaluate p x *: generator))
                            (iota 1 deg.+1)) in
  run! reconstructed := plain (unwrap (lagrange_interpolation_g2 b evals points deg)) in
  plain (assert (reconstructed == shared_secret)).

(** [k] scalars in turn. *)
Definition draws (k : nat) : test (seq (Fr E)) := drawn (PolyModel.draw (R := R) k).

(** [test_reconstruction_over_target_group], lines 398-428. *)
Definition test_reconstruction_gt (deg : nat) : test unit :=
  run! srs := called (@srs_setup E R) in
  run! xs := draws deg.+1 in
  let sks := [seq x *: srs_g1 srs | x <- xs] in
  let evals := [seq pairing sk (srs_g2 srs) | sk <- sks] in
  let points := [seq N.of_nat j.+1 | j <- iota 0 deg.+1] in
  run! _ := plain (unwrap (lagrange_interpolation_gt b evals points deg)) in
  plain (Ok tt).

(** The evaluations of one point set, lines 545-547 and 557-559, 567-569, 580-582. *)
Definition gt_evals (sks : seq (Enc E)) (epoch_generator : Com E) (points : seq N)
  : outcome pvss_error (seq (GT E)) :=
  mapM (fun p => let! i := u64_sub b p 1%num in
                 let! sk := index sks (N.to_nat i) in Ok (pairing sk epoch_generator)) points.

(** [test_lagrange_interpolation_target_group_different_sets], lines 432-591: 8 nodes, degree 3.
    [epoch_generator] is the point that [hash_to_group] finds for epoch 2 (lines 534-539, see
    HashModel.v). *)
Definition test_lagrange_gt_different_sets (seeds : 8.-tuple (32.-tuple byte)) (epoch_generator : Com E)
  : test unit :=
  run! nodes := called (fun s => set_up K (R := R) s 3 seeds) in
  run! f := called (poly_rand b 3%num (R := R)) in
  let s := [seq evaluate f (fr_of_u64 _ (N.of_nat i)) | i <- iota 1 8] in
  run! encs := plain (mapM (fun i =>
      let! node := index nodes i in
      let! party := unwrap_opt (bt_get (ag_participants (nd_aggregator node)) i) in
      let! x := index s i in Ok (x *: pa_public_key_sig party)) (iota 0 8)) in
  run! sks := plain (mapM (fun i =>
      let! node := index nodes i in
      let! d := decrypted_share_generate encs (de_private_key_sig (nd_dealer node))
                  (pa_id (de_participant (nd_dealer node))) in
      Ok (dec d)) (iota 0 8)) in
  let reconstruct points :=
    plain (let! evals := gt_evals sks epoch_generator points in
           unwrap (lagrange_interpolation_gt b evals points 3)) in
  run! rec1 := reconstruct [:: 1; 2; 3; 4]%num in
  run! rec2 := reconstruct [:: 5; 6; 7; 8]%num in
  run! rec3 := reconstruct [:: 3; 5; 1; 7]%num in
  run! rec4 := reconstruct [:: 1; 2; 3; 4; 5; 6; 7; 8]%num in
  run! _ := plain (assert (rec1 == rec2)) in
  run! _ := plain (assert (rec2 == rec3)) in
  plain (assert (rec3 == rec4)).

(** ** src/modified_scrape/pvss.rs *)

(** [test_empty], lines 112-119. *)
Definition test_core_empty : test unit :=
  let core := core_empty E 10 in
  run! _ := plain (assert (all (fun x => x == 0) (encs core))) in
  plain (assert (all (fun x => x == 0) (comms core))).

(** [test_eq], lines 122-129. *)
Definition test_core_eq : test unit := plain (assert (core_empty E 10 == core_empty E 10)).

(** [test_neq], lines 132-146. *)
Definition test_core_neq : test unit :=
  run! e1 := drawn (@rand_g1 E R) in
  run! e2 := drawn (@rand_g1 E R) in
  run! c1 := drawn (@rand_g2 E R) in
  run! c2 := drawn (@rand_g2 E R) in
  plain (assert (MkCore (nseq 10 e1) (nseq 10 c1) != MkCore (nseq 10 e2) (nseq 10 c2))).

(** [test_eq_different_lengths], lines 149-156. *)
Definition test_core_eq_lengths : test unit := plain (assert (core_empty E 10 != core_empty E 11)).

(** [test_core_aggregation], lines 159-180. *)
Definition test_core_aggregation : test unit :=
  run! e := drawn (@rand_g1 E R) in
  run! c := drawn (@rand_g2 E R) in
  let core1 := MkCore (nseq 10 e) (nseq 10 c) in
  let core2 := MkCore [seq - x | x <- nseq 10 e] [seq - x | x <- nseq 10 c] in
  run! result := plain (unwrap (core_aggregate core1 core2)) in
  run! _ := plain (assert (all (fun x => x == 0) (encs result))) in
  plain (assert (all (fun x => x == 0) (comms result))).

(** Aggregating zero vectors of the given lengths: the four tests at lines 184-197, 202-215,
    220-234, 239-252, all of which should panic. *)
Definition test_core_lengths (e1 c1 e2 c2 : nat) : test unit :=
  run! _ := plain (unwrap (core_aggregate (@MkCore E (nseq e1 0) (nseq c1 0)) (MkCore (nseq e2 0) (nseq c2 0)))) in
  plain (Ok tt).
Definition test_core_empty_encs : test unit := test_core_lengths 0 10 10 10.
Definition test_core_empty_comms : test unit := test_core_lengths 10 0 10 10.
Definition test_core_mismatching_encs : test unit := test_core_lengths 10 10 20 20.
Definition test_core_mismatching_encs_comms : test unit := test_core_lengths 10 11 10 10.

(** [test_serialization], lines 256-266. *)
Definition test_core_serialization : test unit :=
  run! e := drawn (@rand_g1 E R) in
  run! c := drawn (@rand_g2 E R) in
  plain (check_serialization (core_codec E) (MkCore (nseq 10 e) (nseq 10 c))).

(** ** src/modified_scrape/share.rs *)

(** [test_generate_valid_signed_proof], lines 200-224. *)
Definition test_signed_proof (seed : 32.-tuple byte) : test unit :=
  let p_0 := fr_of_u64 (modulus E) 10 in
  run! srs := called (@srs_setup E R) in
  let conf := MkConfig srs 3 10 in
  let: (pk_sig, sk_sig) := generate_keypair K seed in
  run! dproof := called (fun s => decomp_generate s conf p_0) in
  run! sig := plain (signature_new D (decomp_digest dproof) sk_sig) in
  plain (unwrap (signed_verify D (MkSigned dproof sig) conf pk_sig)).

(** [test_create_empty_aggregated_pvss_share], lines 228-247. *)
Definition test_empty_transcript : test unit :=
  plain (assert (agg_empty E 3 10 == MkAgg 10 3 (MkCore (nseq 10 0) (nseq 10 0)) bt_new)).

(** The vectors of a share: the recipe of lines 285-307 and its copies.  No index is out of
    range there. *)
Definition test_core_of (conf : Config E) (poly : seq (Fr E)) (pks : seq (Enc E)) : PVSSCore E :=
  let n := cfg_num_participants conf in
  let evals := [seq evaluate poly (fr_of_u64 _ (N.of_nat j)) | j <- iota 1 n] in
  MkCore [seq nth 0 evals j *: nth 0 pks j | j <- iota 0 n]
         [seq nth 0 evals j *: srs_g2 (cfg_srs conf) | j <- iota 0 n].

(** [let sig = Signature::new(&mut dproof.digest(), &sk)] and the [SignedProof], line 281-283. *)
Definition test_sign (dproof : DecompProof E) (seed : 32.-tuple byte) : outcome pvss_error (SignedProof E) :=
  let! sig := signature_new D (decomp_digest dproof) (generate_keypair K seed).2 in
  Ok (MkSigned dproof sig).

(** One share of party 5, of 10, with degree 3: the bodies of lines 251-318, 322-387 and
    566-633 up to the creation of the share. *)
Definition test_one_share (seed : 32.-tuple byte) : test (PVSSShare E) :=
  run! poly := called (poly_rand b 3%num (R := R)) in
  run! p_0 := plain (index poly 0) in
  run! srs := called (@srs_setup E R) in
  let conf := MkConfig srs 3 10 in
  run! g := called (schnorr_srs_setup (G1 E) (R := R)) in
  run! keys := drawn (schnorr_generate_keypair g) in
  run! dproof := called (fun s => decomp_generate s conf p_0) in
  run! sproof := plain (test_sign dproof seed) in
  run! pk := drawn (@rand_g1 E R) in
  let pks := set_nth 0 (nseq 10 pk) 5 keys.2 in
  plain (Ok (MkShare 5 (test_core_of conf poly pks) sproof)).

(** [test_create_pvss_share], lines 251-318. *)
Definition test_create_share (seed : 32.-tuple byte) : test unit :=
  run! _ := test_one_share seed in plain (Ok tt).

(** [test_aggregation_of_pvss_share], lines 322-409. *)
Definition test_aggregate_share (seed : 32.-tuple byte) : test unit :=
  run! sh := test_one_share seed in
  run! aggr := plain (unwrap (agg_aggregate_pvss_share b (agg_empty E 3 10) sh)) in
  let contribs := bt_insert bt_new 5%N (sh_signed_proof sh, 1%num) in
  plain (assert (aggr == MkAgg 10 3 (sh_pvss_core sh) contribs)).

(** [test_serialization_pvss_share], lines 566-636. *)
Definition test_share_serialization (seed : 32.-tuple byte) : test unit :=
  run! sh := test_one_share seed in
  plain (check_serialization (share_codec E) sh).

(** Two shares, of parties 2 and 3, merged: lines 413-537 and 640-764. *)
Definition test_two_shares (seed_a seed_b : 32.-tuple byte)
  : test (PVSSShare E * PVSSShare E * PVSSAggregatedShare E) :=
  run! srs := called (@srs_setup E R) in
  let conf := MkConfig srs 3 10 in
  run! g := called (schnorr_srs_setup (G1 E) (R := R)) in
  run! poly_a := called (poly_rand b 3%num (R := R)) in
  run! p_0_a := plain (index poly_a 0) in
  run! poly_b := called (poly_rand b 3%num (R := R)) in
  run! p_0_b := plain (index poly_b 0) in
  run! keys_a := drawn (schnorr_generate_keypair g) in
  run! keys_b := drawn (schnorr_generate_keypair g) in
  run! dproof_a := called (fun s => decomp_generate s conf p_0_a) in
  run! dproof_b := called (fun s => decomp_generate s conf p_0_b) in
  run! sproof_a := plain (test_sign dproof_a seed_a) in
  run! sproof_b := plain (test_sign dproof_b seed_b) in
  run! pk := drawn (@rand_g1 E R) in
  let pks := set_nth 0 (set_nth 0 (nseq 10 pk) 2 keys_a.2) 3 keys_b.2 in
  let share_a := MkShare 2 (test_core_of conf poly_a pks) sproof_a in
  let share_b := MkShare 3 (test_core_of conf poly_b pks) sproof_b in
  run! aggr := plain (unwrap (agg_aggregate_pvss_share b (agg_empty E 3 10) share_a)) in
  run! aggr' := plain (unwrap (agg_aggregate_pvss_share b aggr share_b)) in
  plain (Ok (share_a, share_b, aggr')).

(** [test_aggregation_of_two_pvss_shares], lines 413-562. *)
Definition test_aggregate_two_shares (seed_a seed_b : 32.-tuple byte) : test unit :=
  run! x := test_two_shares seed_a seed_b in
  let: (share_a, share_b, aggr) := x in
  run! core := plain (unwrap (core_aggregate (core_empty E 10) (sh_pvss_core share_a))) in
  run! core' := plain (unwrap (core_aggregate core (sh_pvss_core share_b))) in
  let contribs := bt_insert (bt_insert bt_new 2%N (sh_signed_proof share_a, 1%num))
                            3%N (sh_signed_proof share_b, 1%num) in
  plain (assert (aggr == MkAgg 10 3 core' contribs)).

(** [test_serialization_deserialization_aggregated_share], lines 640-774. *)
Definition test_transcript_serialization (seed_a seed_b : 32.-tuple byte) : test unit :=
  run! x := test_two_shares seed_a seed_b in
  plain (check_serialization (transcript_codec E) x.2).

(** ** src/modified_scrape/node.rs *)

(** [node.aggregator.receive_share(rng, &mut share).unwrap()]: the aggregator afterwards. *)
Definition test_receive (ag : PVSSAggregator E) (sh : PVSSShare E) : test (PVSSAggregator E) := fun s =>
  let: (o, ag', s') := receive_share D b ag s sh in (let! _ := unwrap o in Ok ag', s').
Definition test_receive_tx (ag : PVSSAggregator E) (x : PVSSAggregatedShare E)
  : test (PVSSAggregator E) := fun s =>
  let: (o, ag', s') := receive_aggregated_share D b ag s x in (let! _ := unwrap o in Ok ag', s').

(** [test_one], lines 202-252: one party, degree 1.  The fields of the aggregator are those
    which [Node::new] sets. *)
Definition test_one (seed : 32.-tuple byte) : test unit :=
  run! nodes := called (fun s => set_up K (R := R) s 1 [:: seed]) in
  run! node := plain (index nodes 0) in
  run! _ := called (share D b (R := R) node) in
  plain (Ok tt).

(** [test_aggregation_with_4_nodes], lines 255-462. *)
Definition test_four_nodes (seeds : 4.-tuple (32.-tuple byte)) : test unit :=
  run! nodes := called (fun s => set_up K (R := R) s 2 seeds) in
  run! a := plain (index nodes 0) in
  run! b' := plain (index nodes 1) in
  run! c := plain (index nodes 2) in
  run! d := plain (index nodes 3) in
  run! pvss_a := called (share D b (R := R) a) in
  run! pvss_b := called (share D b (R := R) b') in
  run! pvss_c := called (share D b (R := R) c) in
  run! pvss_d := called (share D b (R := R) d) in
  run! ag_a := test_receive (nd_aggregator a) pvss_a in
  run! ag_a := test_receive ag_a pvss_b in
  run! ag_b := test_receive (nd_aggregator b') pvss_b in
  run! ag_b := test_receive ag_b pvss_a in
  run! ag_c := test_receive (nd_aggregator c) pvss_c in
  run! ag_c := test_receive ag_c pvss_d in
  run! ag_d := test_receive (nd_aggregator d) pvss_d in
  run! ag_d := test_receive ag_d pvss_c in
  run! _ := plain (assert (ag_aggregated_tx ag_a == ag_aggregated_tx ag_b)) in
  run! _ := plain (assert (ag_aggregated_tx ag_c == ag_aggregated_tx ag_d)) in
  let share_ab := ag_aggregated_tx ag_a in
  let share_cd := ag_aggregated_tx ag_c in
  run! ag_c := test_receive_tx ag_c share_ab in
  run! ag_d := test_receive_tx ag_d share_ab in
  run! ag_a := test_receive_tx ag_a share_cd in
  run! ag_b := test_receive_tx ag_b share_cd in
  run! _ := plain (assert (ag_aggregated_tx ag_a == ag_aggregated_tx ag_b)) in
  run! _ := plain (assert (ag_aggregated_tx ag_b == ag_aggregated_tx ag_c)) in
  run! _ := plain (assert (ag_aggregated_tx ag_c == ag_aggregated_tx ag_d)) in
  let core := as_pvss_core (ag_aggregated_tx ag_a) in
  run! dec_a := plain (decrypted_share_generate (encs core) (de_private_key_sig (nd_dealer a))
                         (pa_id (de_participant (nd_dealer a)))) in
  run! r_a := drawn (@rand_fr E R) in
  let cm_a := blind (ag_config ag_a) dec_a r_a in
  run! one := plain (check_blinded (ag_config ag_a) (comms core) (origin dec_a) cm_a) in
  plain (assert one).

(** [test_double_aggregation], lines 466-624. *)
Definition test_double_aggregation (seeds : 4.-tuple (32.-tuple byte)) : test unit :=
  run! nodes := called (fun s => set_up K (R := R) s 2 seeds) in
  run! a := plain (index nodes 0) in
  run! b' := plain (index nodes 1) in
  run! pvss_a := called (share D b (R := R) a) in
  run! ag_a := test_receive (nd_aggregator a) pvss_a in
  let res1 := ag_aggregated_tx ag_a in
  run! ag_a := test_receive ag_a pvss_a in
  let res2 := ag_aggregated_tx ag_a in
  run! _ := plain (assert (as_num_participants res1 == as_num_participants res2)) in
  run! _ := plain (assert (as_degree res1 == as_degree res2)) in
  run! _ := plain (assert (as_pvss_core res1 != as_pvss_core res2)) in
  run! c1 := plain (unwrap_opt (bt_get (as_contributions res1) 0)) in
  run! c2 := plain (unwrap_opt (bt_get (as_contributions res2) 0)) in
  run! _ := plain (assert (c1.1 == c2.1)) in
  run! _ := plain (assert (c1.2 =? 1)%num) in
  run! _ := plain (assert (c2.2 =? 2)%num) in
  run! _ := test_receive_tx (nd_aggregator b') (ag_aggregated_tx ag_a) in
  plain (Ok tt).

End Scrape.
