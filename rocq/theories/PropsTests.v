(** * PropsTests: properties C79 and C80, about the crate's own unit tests of src/nizk,
    src/signature/schnorr, decomp.rs and poly.rs *)

From Coq Require Import NArith Strings.Byte.
From mathcomp Require Import all_ssreflect all_algebra zify.
From Verif Require Import Prelude Errors BTreeMap Engine LibModel PolyModel SigmaModel PvssModel
  CodecModel SetupModel TestModel Spec PreludeProofs AlgebraProofs Instance CodecSpec CodecProofs PolyProofs HistProofs PropsPoly PropsSigma
  PropsCodec PropsVerdict PropsSetup.

Set Implicit Arguments.
Unset Strict Implicit.
Unset Printing Implicit Defensive.

Import GRing.Theory.
Local Open Scope ring_scope.

(** The [k]-th scalar that a generator yields, counted from 0. *)
Definition scalar (E : engine) (R : rng E) (s : rstate R) (k : nat) : Fr E := (rand_fr (after k s)).1.

(** A test that panics exactly when [c] holds, by an [unwrap], and ends normally otherwise. *)
Definition panics_when (E : engine) (R : rng E) (m : test R unit) (s : rstate R) (c : bool) : Prop :=
  (m s).1 = if c then Panic UnwrapErr else Ok tt.

Lemma panics_whenP (E : engine) (R : rng E) (m : test R unit) s c :
  panics_when m s c -> (passes m s <-> ~~ c) /\ (passes_panicking m s <-> c).
Proof.
rewrite /panics_when /passes /passes_panicking => ->.
by case: c; split; split=> //; [move=> _; exists UnwrapErr | case].
Qed.

Lemma scale_eq q (pq : prime q) (C : curve q) (g : pt C) (a b : 'F_q) :
  g != 0 -> (a *: g == b *: g) = (a == b).
Proof. by move=> g0; apply/eqP/eqP => [/(scale_inj pq g0)|->]. Qed.

Lemma rt_check (T : eqType) (c : codec T) (valid : T -> Prop) (x : T) :
  round_trip c valid -> valid x -> check_serialization c x = Ok tt.
Proof.
by move=> h vx; have := h x [::] vx; rewrite cats0 /check_serialization => -> /=; rewrite /assert eqxx.
Qed.

Lemma tbind_ok (E : engine) (R : rng E) A B (m : test R A) (f : A -> test R B) s a s' :
  m s = (Ok a, s') -> tbind m f s = f a s'.
Proof. by rewrite /tbind => ->. Qed.

Lemma called_ok (E : engine) (R : rng E) Er A B (m : rstate R -> outcome Er A * rstate R)
  (f : A -> test R B) s a s' :
  m s = (Ok a, s') -> tbind (called m) f s = f a s'.
Proof. by move=> e; apply: tbind_ok; rewrite /called e. Qed.

Lemma plain_ok (E : engine) (R : rng E) A B (o : outcome pvss_error A) (f : A -> test R B) s a :
  o = Ok a -> tbind (plain o) f s = f a s.
Proof. by move=> ->. Qed.

(** ** C79: the tests of the proof systems and of the Schnorr signature *)

Section SigmaTests.
Variables (E : engine) (R : rng E) (s : rstate R).
Let pq := modulus_prime E.

(** The response [r - w * c] fits the commitment [a *: g] and the statement [x *: g], with
    challenge [c'], iff this equation of scalars holds. *)
Lemma resp_eq (C : curve (modulus E)) (r w c c' x a : Fr E) :
  ((r - w * c) *: pt_gen C + c' *: (x *: pt_gen C) == a *: pt_gen C) = (r - w * c + c' * x == a).
Proof. by rewrite scalerA -scalerDl (scale_eq pq) ?pt_gen_neq0. Qed.

Lemma resp_rw (r w c c' x : Fr E) : (r - w * c + c' * x == r) = (c' * x == w * c).
Proof. by rewrite addrAC subr_eq (inj_eq (addrI r)). Qed.

Lemma resp_z (C : curve (modulus E)) (z r w c : Fr E) :
  (z *: pt_gen C + c *: (w *: pt_gen C) == r *: pt_gen C) = (z == r - w * c).
Proof.
by rewrite scalerA -scalerDl (scale_eq pq) ?pt_gen_neq0 // mulrC eq_sym [RHS]eq_sym subr_eq.
Qed.

Section Dlk.
Variable C : curve (modulus E).

(** [w] is the witness, [r] the nonce, [c] the challenge; [new] is the scalar drawn after them. *)
Theorem C79_dlk :
  let g := pt_gen C in
  let w := scalar s 0 in let r := scalar s 1 in let new := scalar s 2 in
  let c := hash_to_field E DLK_PERSONA (pt_ser g ++ pt_ser (r *: g)) in
  [/\ passes (test_dlk_simple C) s /\ passes (test_dlk_serialization C) s,
      panics_when (test_dlk_wrong_statement C) s ((new != w) && (c != 0)),
      panics_when (test_dlk_malformed_commitment C) s (new != r),
      panics_when (test_dlk_malformed_challenge C) s (new != c)
    & panics_when (test_dlk_malformed_response C) s (new != r - w * c)].
Proof.
rewrite /scalar /after /= /panics_when /passes.
rewrite /test_dlk_simple /test_dlk_serialization /test_dlk_wrong_statement.
rewrite /test_dlk_malformed_commitment /test_dlk_malformed_challenge /test_dlk_malformed_response.
rewrite /tbind /called /dlk_srs_setup /drawn /dlk_generate_pair /dlk_prove /plain /dlk_verify /=.
case: (rand_fr s) => w s1 /=; case: (rand_fr s1) => r s2 /=; case: (rand_fr s2) => new s3 /=.
rewrite /dlk_preimage; set c := hash_to_field _ _ (_ ++ pt_ser (r *: _)).
rewrite !resp_eq !resp_rw ![_ * w]mulrC !eqxx /=.
have -> : check_serialization (one_point_srs_codec C) (pt_gen C) = Ok tt by exact: rt_check (@pt_rt _ C) I.
have -> : check_serialization (pair_codec (fr_codec E) (pt_codec C)) (w, w *: pt_gen C) = Ok tt.
  exact: rt_check (pair_rt (@fr_rt E) (@pt_rt _ C)) (conj I I).
rewrite (rt_check (@dlk_proof_rt E C)) //; split=> //.
- rewrite orbF mulrC; have [->|c0] := eqVneq c 0; first by rewrite !(mul0r, mulr0) eqxx andbF.
  by rewrite (inj_eq (mulIf c0)) andbT; case: eqP.
- have [->|nr] := eqVneq new r; first by rewrite -/c eqxx subrK eqxx.
  by have [->|] := eqVneq (hash_to_field _ _ _) c; rewrite ?orbT // subrK eq_sym nr.
- by rewrite eq_sym; case: eqP.
by rewrite orbF resp_z; case: eqP.
Qed.

(** With the toy group of order 11 the tests do what they should for these draws, and the
    wrong-statement test fails when the same witness comes up again. *)
End Dlk.

Section Dleq.
Variables C1 C2 : curve (modulus E).

(** [c2] is the challenge of the second statement; [new], [new'] are the scalars drawn after the
    witness and the nonce. *)
Theorem C79_dleq :
  let g := pt_gen C1 in let h := pt_gen C2 in
  let w := scalar s 0 in let r := scalar s 1 in let new := scalar s 2 in let new' := scalar s 3 in
  let challenge x := hash_to_field E DLEQ_PERSONA (flatten
    [:: pt_ser g; pt_ser (x *: g); pt_ser h; pt_ser (x *: h); pt_ser (r *: g); pt_ser (r *: h)]) in
  let c := challenge w in
  [/\ passes (test_dleq_simple C1 C2) s /\ passes (test_dleq_serialization C1 C2) s,
      panics_when (test_dleq_wrong_statement C1 C2) s
        ((new != w) && ((challenge new != c) || (c != 0))),
      panics_when (test_dleq_malformed_commitment C1 C2) s ((new != r) || (new' != r)),
      panics_when (test_dleq_malformed_challenge C1 C2) s (new != c)
    & panics_when (test_dleq_malformed_response C1 C2) s (new != r - w * c)].
Proof.
rewrite /scalar /after /= /panics_when /passes.
rewrite /test_dleq_simple /test_dleq_serialization /test_dleq_wrong_statement.
rewrite /test_dleq_malformed_commitment /test_dleq_malformed_challenge /test_dleq_malformed_response.
rewrite /tbind /called /dleq_srs_setup /drawn /dleq_generate_pair /dleq_prove /plain /dleq_verify /=.
case: (rand_fr s) => w s1 /=; case: (rand_fr s1) => r s2 /=; case: (rand_fr s2) => new s3 /=.
case: (rand_fr s3) => new' s4 /=.
rewrite /dleq_preimage /= !cats0.
set c := hash_to_field _ _ (_ ++ pt_ser (w *: _) ++ _ ++ pt_ser (w *: _) ++ pt_ser (r *: _) ++ _).
set c2 := hash_to_field _ _ (_ ++ pt_ser (new *: _) ++ _).
set c3 := hash_to_field _ _ (_ ++ pt_ser (w *: _) ++ _ ++ pt_ser (w *: _) ++ pt_ser (new *: _) ++ _).
rewrite !resp_eq !resp_rw !resp_z ![_ * w]mulrC !eqxx /=.
have -> : check_serialization (dleq_srs_codec C1 C2) (pt_gen C1, pt_gen C2) = Ok tt
  by exact: rt_check (@dleq_srs_rt E C1 C2) I.
rewrite (rt_check (pair_rt (@fr_rt E) (pair_rt (@pt_rt _ C1) (@pt_rt _ C2))) (conj I (conj I I))) /=.
rewrite (rt_check (@dleq_proof_rt E C1 C2)) //; split=> //.
- have [e|nw] := eqVneq new w; first by rewrite /c2 e -/c [c * w]mulrC !eqxx.
  have [->|] := eqVneq c2 c; last by rewrite !orbT.
  have [->|c0] := eqVneq c 0; first by rewrite !(mul0r, mulr0) eqxx.
  by rewrite mulrC (inj_eq (mulIf c0)) (negPf nw).
- have [e|nr] := eqVneq new r => /=.
    have [e'|nr'] := eqVneq new' r; first by rewrite /c3 e e' -/c subrK !eqxx.
    have [->|] := eqVneq c3 c; last by rewrite !orbT.
    by rewrite subrK ![r == _]eq_sym (negPf nr') !orbT.
  have [->|] := eqVneq c3 c; last by rewrite !orbT.
  by rewrite subrK ![r == _]eq_sym (negPf nr).
- by rewrite eq_sym; case: eqP.
by case: eqP.
Qed.

(** The loops of 64 runs, and loops of any other length, pass. *)
Theorem C79_dleq_benchmark (k : nat) (s0 : rstate R) : passes (test_dleq_benchmark C1 C2 k) s0.
Proof.
elim: k s0 => [//|k IH] s0; rewrite /passes /= /tbind.
case e: (test_dleq_simple C1 C2 s0) => [o s1].
suff -> : o = Ok tt by exact: IH.
have <- : (test_dleq_simple C1 C2 s0).1 = o by rewrite e.
rewrite /test_dleq_simple /tbind /called /dleq_srs_setup /drawn /dleq_generate_pair /dleq_prove /plain /=.
case: (rand_fr s0) => w s2 /=; case: (rand_fr s2) => r s3 /=.
by rewrite /dleq_verify /= !resp_check !eqxx.
Qed.
End Dleq.

Section Schnorr.
Variable C : curve (modulus E).

(** [sk] is the secret key, [r] the nonce; [new] is the scalar drawn after them. *)
Theorem C79_schnorr :
  let g := pt_gen C in
  let sk := scalar s 0 in let r := scalar s 1 in let new := scalar s 2 in
  let challenge m := hash_to_field E SCHNORR_PERSONA (flatten [:: m; pt_ser g; pt_ser (r *: g)]) in
  [/\ passes (test_schnorr_simple C) s, passes (test_schnorr_batch C) s,
      passes (test_schnorr_serialization C) s,
      panics_when (test_schnorr_wrong_pk C) s ((new != sk) && (challenge hello != 0))
    & panics_when (test_schnorr_wrong_message C) s ((sk != 0) && (challenge hello != challenge goodbye))].
Proof.
move=> g sk r new challenge; have chE m : challenge m = schnorr_challenge m g (r *: g) by [].
rewrite !{}chE /g {challenge g} /new /r /sk {new r sk} /scalar /after /= /panics_when /passes.
rewrite /test_schnorr_simple /test_schnorr_batch /test_schnorr_serialization.
rewrite /test_schnorr_wrong_pk /test_schnorr_wrong_message.
rewrite /tbind /called /schnorr_srs_setup /drawn /schnorr_generate_keypair /plain.
case: (rand_fr s) => sk s1 /=; rewrite /schnorr_sign.
case: (rand_fr s1) => r s2 /=; case: (rand_fr s2) => new s3 /=; case: (rand_fr s3) => r' s4 /=.
rewrite (rt_check (@pt_rt _ C)) // (rt_check (pair_rt (@fr_rt E) (@pt_rt _ C)) (conj I I)) /=.
rewrite (@rt_check _ _ _ _ (@schnorr_sig_rt E C)) //.
set c := schnorr_challenge hello _ _; set c' := schnorr_challenge goodbye _ _.
rewrite /schnorr_verify /= -/c -/c' !resp_eq !resp_rw ![_ * sk]mulrC !eqxx /=; split=> //.
- case eb: (schnorr_batch_verify _ _ _ _ _) => [o s5] /=.
  have <- : (schnorr_batch_verify (pt_gen C) s4 [:: sk *: pt_gen C; new *: pt_gen C] [:: hello; hello2]
    [:: (r *: pt_gen C, r - sk * c);
        (r' *: pt_gen C, r' - new * schnorr_challenge hello2 (pt_gen C) (r' *: pt_gen C))]).1 = o.
    by rewrite eb.
  rewrite C37_batch_complete // => -[|[|//]] _ /=.
    by rewrite /schnorr_verify /= -/c resp_eq resp_rw mulrC eqxx.
  by rewrite /schnorr_verify /= resp_eq resp_rw mulrC eqxx.
- have [->|c0] := eqVneq c 0; first by rewrite !(mul0r, mulr0) eqxx andbF.
  by rewrite mulrC (inj_eq (mulIf c0)) andbT; case: eqP.
have [->|k0] := eqVneq sk 0; first by rewrite !mul0r eqxx.
by rewrite (inj_eq (mulfI k0)) eq_sym; case: eqP.
Qed.

End Schnorr.
End SigmaTests.
Print Assumptions C79_dlk.
Print Assumptions C79_dleq.
Print Assumptions C79_schnorr.
Print Assumptions C79_dleq_benchmark.

(** Each of these tests fails for exactly one value of the last scalar drawn: its chance of
    failing, with a uniform generator, is one in the order of the group. *)
Corollary C79_one_failing_draw (E : engine) (C : curve (modulus E)) (w r : Fr E) :
  let g := pt_gen C in
  let failing (m : test (seq_rng E) unit) := [set new : Fr E | is_ok (m [:: w; r; new]).1] in
  [/\ #|failing (test_dlk_malformed_commitment C)| = 1%N,
      #|failing (test_dlk_malformed_challenge C)| = 1%N,
      #|failing (test_dlk_malformed_response C)| = 1%N
    & hash_to_field E DLK_PERSONA (pt_ser g ++ pt_ser (r *: g)) != 0 ->
      #|failing (test_dlk_wrong_statement C)| = 1%N].
Proof.
have one (P : {pred Fr E}) x : (forall y, P y = (y == x)) -> #|[set y | P y]| = 1%N.
  by move=> h; rewrite -(cards1 x); apply: eq_card => y; rewrite !inE h.
have st new := @C79_dlk E (seq_rng E) [:: w; r; new] C.
pose c := hash_to_field E DLK_PERSONA (pt_ser (pt_gen C) ++ pt_ser (r *: pt_gen C)).
split=> [|||c0].
- apply: (one _ r) => new; case: (st new) => _ _ e _ _.
  by rewrite (e : _ = if new != r then _ else _); case: eqP.
- apply: (one _ c) => new; case: (st new) => _ _ _ e _.
  by rewrite (e : _ = if new != c then _ else _); case: eqP.
- apply: (one _ (r - w * c)) => new; case: (st new) => _ _ _ _ e.
  by rewrite (e : _ = if new != r - w * c then _ else _); case: eqP.
apply: (one _ w) => new; case: (st new) => _ e _ _ _.
by rewrite (e : _ = if (new != w) && (c != 0) then _ else _) [c != 0]c0 andbT; case: eqP.
Qed.
Print Assumptions C79_one_failing_draw.

(** In the toy group of order 11: with these draws every should-panic test panics; the one with
    the wrong statement does not if the same witness comes up twice. *)
Example C79_example :
  let C : curve (modulus TE) := toy_curve in
  let s := [:: f 5; f 7; f 6; f 2] in let s' := [:: f 5; f 7; f 5; f 2] in
  let panics (m : test (seq_rng TE) unit) s := is_panic (m s).1 in
  [/\ panics (test_dlk_wrong_statement C) s, ~~ panics (test_dlk_wrong_statement C) s',
      panics (test_dlk_malformed_commitment C) s, panics (test_dleq_wrong_statement C C) s
    & panics (test_schnorr_wrong_message C) s /\ panics (test_schnorr_wrong_pk C) s].
Proof. by move=> C; repeat split; vm_compute. Qed.

(** ** C80: the tests of polynomials, interpolation and knowledge proofs *)

Section PolyTests.
Variables (E : engine) (b : build) (R : rng E) (s : rstate R).
Let pq := modulus_prime E.

(** [MkSRS g1 g2 g2'] are the parameters drawn first, [s1] is the generator after them. *)
Lemma called_srs (A : Type) (k : SRS E -> test R A) :
  let g1 := (rand_g1 s).1 in let g2 := (rand_g2 (rand_g1 s).2).1 in
  let g2' := (rand_g2 (rand_g2 (rand_g1 s).2).2).1 in
  (tbind (called (@srs_setup E R)) k) s = k (MkSRS g1 g2 g2') (srs_setup s).2.
Proof.
rewrite /= /tbind /called /srs_setup; case: (rand_g1 s) => g1 s1 /=.
by case: (rand_g2 s1) => g2 s2 /=; case: (rand_g2 s2).
Qed.

Lemma called_poly (A : Type) d (k : seq (Fr E) -> test R A) (s0 : rstate R) : fits d.+1 ->
  (tbind (called (poly_rand b (N.of_nat d) (R := R))) k) s0
  = k (truncate (scalars d.+1 s0)) (after d.+1 s0).
Proof. by move=> fd; rewrite /tbind /called (poly_randE b s0 fd) drawE. Qed.

Lemma index_truncate Er (cs : seq (Fr E)) :
  index (truncate cs) 0 = if all (fun c => c == 0) cs then Panic IndexOutOfBounds
                          else Ok (Poly cs).[0] :> outcome Er (Fr E).
Proof.
rewrite -truncate_nseq0 -[in RHS]truncate_Poly horner_coef0 coef_Poly.
by case: (truncate cs).
Qed.

Lemma eval_vec1 (V : lmodType (Fr E)) (x : V) n : eval_vec 1 x n = nseq n x.
Proof. by rewrite /eval_vec; elim: n 1%N => [//|n IH] k /=; rewrite IH hornerC scale1r. Qed.

(** [zero]: the [deg + 1] scalars of the random polynomial are all zero. *)
Theorem C80_poly (deg : nat) :
  (0 < deg)%N -> (deg + 4 < modulus E)%N -> fits (deg + 4) ->
  let zero := all (fun c => c == 0) (scalars deg.+1 (srs_setup s).2) in
  [/\ passes (test_sample_poly b deg) s, passes (test_ensure_degree b deg) s,
      passes (test_reconstruction_gt b deg) s,
      [/\ (test_ensure_degree_insufficient b deg s).1 = Panic UnwrapErr,
          (test_lagrange_simple_insufficient b deg s).1 = Panic UnwrapErr,
          (test_lagrange_insufficient b deg s).1 = Panic UnwrapErr
        & (test_lagrange_different b deg s).1 = Panic UnwrapErr]
    & let verdict := if zero then Panic IndexOutOfBounds else Ok tt in
      (test_lagrange_simple b deg s).1 = verdict /\ (test_lagrange b deg s).1 = verdict].
Proof.
move=> d0 dq fd zero.
have fd1 : fits deg.+1 by move: fd; rewrite /fits; lia.
have bd : (N.of_nat deg + 1 < 2 ^ 64)%num by move: fd; rewrite /fits; lia.
have dq1 : (deg.+1 < modulus E)%N by lia.
have [c1 c2 c3 c4] := @C06_interpolation_contract E b deg bd.
split.
- by rewrite /passes /test_sample_poly called_poly.
- rewrite /passes /test_ensure_degree /tbind /drawn /called; case: (rand_g2 s) => x s1.
  have := @C01_degree_check_complete E b R s1 1 x (deg + 4) deg.
  rewrite eval_vec1; case: (ensure_degree b s1 _ _) => o s2 /= -> //; last by lia.
  by rewrite size_poly1.
- rewrite /passes /test_reconstruction_gt called_srs /draws /tbind /drawn /plain.
  rewrite drawE; cbv beta iota zeta.
  set evals := map _ _; set points := map _ _.
  have [_ _ _ cok] := c3 evals points.
  have : is_ok (lagrange_interpolation_gt b evals points deg).
    apply/cok; rewrite !size_map size_iota size_scalars; split=> //.
    have -> : [seq (N.to_nat x)%:R | x <- points] = [seq (i.+1)%:R : Fr E | i <- iota 0 deg.+1].
      by rewrite -map_comp; apply: eq_map => i; rewrite /comp Nat2N.id.
    rewrite take_oversize ?size_map ?size_iota // map_inj_in_uniq ?iota_uniq //.
    move=> i j; rewrite !mem_iota !add0n /= => li lj; exact: (@pnt_inj_le E deg dq1).
  by case: (lagrange_interpolation_gt b evals points deg).
- split.
  + rewrite /test_ensure_degree_insufficient /tbind /drawn /called; case: (rand_g2 s) => x s1.
    rewrite /ensure_degree size_nseq; have -> : (deg - 1 < deg)%N by lia.
    by [].
  + rewrite /test_lagrange_simple_insufficient /tbind /drawn /plain; case: (rand_g2 s) => x s1.
    by have [[_ e] _ _ _] := c4 (nseq (deg - 1) x) dq1; rewrite e // size_nseq; lia.
  + rewrite /test_lagrange_insufficient /tbind /drawn /plain; case: (rand_g2 s) => x s1.
    case: (rand_fr s1) => y s2.
    by have [[_ e] _ _ _] := c2 (nseq (deg - 1) x) (nseq (deg - 1) y); rewrite e // size_nseq; lia.
  + rewrite /test_lagrange_different /tbind /drawn /plain; case: (rand_g2 s) => x s1.
    case: (rand_fr s1) => y s2.
    by have [_ [_ e] _ _] := c2 (nseq (deg + 1) x) (nseq (deg + 2) y); rewrite e // !size_nseq; lia.
move=> verdict; pose p := Poly (scalars deg.+1 (srs_setup s).2).
have sp : (size p <= deg.+1)%N.
  by apply: leq_trans (size_Poly _) _; rewrite size_scalars.
split.
- rewrite /test_lagrange_simple called_srs called_poly // /tbind /plain index_truncate.
  rewrite /verdict -/zero -/p; case: (zero) => //.
  have -> : [seq evaluate (truncate (scalars deg.+1 (srs_setup s).2)) (fr_of_u64 (modulus E) (N.of_nat x))
               *: (rand_g2 (rand_g1 s).2).1 | x <- iota 1 deg.+1]
            = eval_vec p (rand_g2 (rand_g1 s).2).1 deg.+1 ++ [::].
    rewrite cats0; apply: eq_map => i; by rewrite evaluateE truncate_Poly fr_of_u64E Nat2N.id.
  by rewrite C04_interpolation_simple //= /assert eqxx.
rewrite /test_lagrange called_srs called_poly // /tbind /plain index_truncate.
rewrite /verdict -/zero -/p; case: (zero) => //.
set g := (rand_g2 (rand_g1 s).2).1; set points := map _ (iota 1 deg.+1).
rewrite (@mapM_ok_in _ _ _ _ (fun j => p.[nth 0 points j.-1] *: g)); last first.
  move=> j; rewrite mem_iota => lj; rewrite (index_ok 0); last first.
    by rewrite size_map size_iota; lia.
  have eE x : evaluate (truncate (scalars deg.+1 (srs_setup s).2)) x = p.[x].
    by rewrite evaluateE truncate_Poly.
  by rewrite -eE.
have -> : [seq p.[nth 0 points j.-1] *: g | j <- iota 1 deg.+1] = eval_at p g points.
  rewrite /eval_at -map_comp; apply/eq_in_map => j; rewrite mem_iota => lj /=.
  by rewrite (nth_map 0%N) ?size_iota ?nth_iota; [|lia|lia]; congr (p.[_] *: _); congr fr_of_u64; lia.
have u : uniq (take deg.+1 points); last first.
  have sz : size points = deg.+1 by rewrite size_map size_iota.
  by rewrite (C05_interpolation_g2 b g sp _ u bd) ?sz //= /assert eqxx.
rewrite take_oversize ?size_map ?size_iota // map_inj_in_uniq ?iota_uniq //.
move=> i j; rewrite !mem_iota => li lj; rewrite !fr_of_u64E !Nat2N.id => e.
have : i.-1.+1%:R = j.-1.+1%:R :> Fr E by rewrite !prednK; [|lia|lia].
by move/(@pnt_inj_le E deg dq1); lia.
Qed.


(** [t = 3] and [n = 10], four scalars for the polynomial, one for the nonce of the proof, and
    one that replaces the challenge. *)
Theorem C80_decomp :
  let s1 := (srs_setup s).2 in
  let zero := all (fun c => c == 0) (scalars 4 s1) in
  let g2 := (rand_g2 (rand_g1 s).2).1 in
  let c := hash_to_field E DLK_PERSONA (pt_ser g2 ++ pt_ser (scalar s1 4 *: g2)) in
  let verdict := if zero then Panic IndexOutOfBounds else Ok tt in
  [/\ (test_decomp_simple b s).1 = verdict, (test_decomp_serialization b s).1 = verdict
    & (test_decomp_invalid b s).1 = if zero then Panic IndexOutOfBounds
                                    else if scalar s1 5 != c then Panic UnwrapErr else Ok tt].
Proof.
move=> s1 zero g2 c verdict.
have f4 : fits 4 by [].
pose w := (Poly (scalars 4 s1)).[0].
have setup (k : Config E * DecompProof E -> test R unit) :
  (tbind (test_decomp_setup b (R := R)) k) s =
    if zero then (Panic IndexOutOfBounds, after 4 s1)
    else k (MkConfig (MkSRS (rand_g1 s).1 g2 (rand_g2 (rand_g2 (rand_g1 s).2).2).1) 3 10,
            MkDecomp (DlkProof (scalar s1 4 *: g2) c (scalar s1 4 - w * c)) (w *: g2)) (after 5 s1).
  rewrite {1}/tbind /test_decomp_setup called_srs (@called_poly _ 3) // {1}/tbind /plain.
  rewrite index_truncate -/zero; case: (zero) => //; rewrite /tbind /called /decomp_generate.
  rewrite /dlk_prove -/w; case er: (rand_fr (after 4 s1)) => [r s2].
  have e1 : scalar s1 4 = r by rewrite /scalar er.
  have e2 : after 5 s1 = s2 by rewrite -[after 5 s1]/(rand_fr (after 4 s1)).2 er.
  by rewrite e2 /c e1.
have ok z : dlk_verify g2 (w *: g2) (DlkProof (scalar s1 4 *: g2) z (scalar s1 4 - w * c))
            = if z != c then Err DLKVerify else Ok tt.
  by rewrite /dlk_verify /= /dlk_preimage -/c resp_check eqxx /= eq_sym.
split.
- rewrite /test_decomp_simple setup /verdict; case: (zero) => //.
  by rewrite /plain /decomp_verify [in LHS]/= ok eqxx.
- rewrite /test_decomp_serialization setup /verdict; case: (zero) => //.
  by rewrite /plain (rt_check (@decomp_rt E)).
rewrite /test_decomp_invalid setup; case: (zero) => //.
rewrite /tbind /drawn /scalar; case: (rand_fr (after 5 s1)) => z s2.
rewrite /plain /decomp_verify [in LHS]/= ok /=; by case: (z != c).
Qed.

End PolyTests.
Print Assumptions C80_poly.
Print Assumptions C80_decomp.

Lemma mapM_panic Er (A : eqType) B (f : A -> outcome Er B) (g : A -> B) (bad : pred A) p xs :
  {in xs, forall x, f x = if bad x then Panic p else Ok (g x)} ->
  mapM f xs = if has bad xs then Panic p else Ok (map g xs).
Proof.
elim: xs => [//|x xs IH] h /=; rewrite h ?mem_head //; case: (bad x) => //=.
rewrite IH; first by case: ifP.
by move=> y ys; apply: h; rewrite inE ys orbT.
Qed.

(** What C63 says of a set-up, in the form used below. *)
Definition set_up_party (E : engine) (D : eddsa) (K : ed_keygen D) (R : rng E) (srs : SRS E)
  (s1 : rstate R) (seeds : seq (32.-tuple byte)) (i : nat) : Participant E :=
  MkParticipant i (nth 0 (scalars (size seeds) s1) i *: srs_g1 srs)
    (ed_public_bytes K (ed_generate K (nth (nseq_tuple 32 x00) seeds i))).

Lemma set_upP (E : engine) (D : eddsa) (K : ed_keygen D) (R : rng E) (s s1 : rstate R) srs t seeds :
  let n := size seeds in let party := set_up_party K srs s1 seeds in
  srs_setup s = (Ok srs, s1) ->
  exists ps nodes, let ag0 := new_aggregator (MkConfig srs t n) ps in
    [/\ set_up K s t seeds = (Ok nodes, after n s1),
        forall j, bt_get ps j = if (j < n)%N then Some (party j) else None
      & forall i, (i < n)%N -> index nodes i = Ok (MkNode ag0 (MkDealer (nth 0 (scalars n s1) i)
          (ed_keypair_bytes K (ed_generate K (nth (nseq_tuple 32 x00) seeds i))) (party i)))
          :> outcome pvss_error _].
Proof.
move=> n party; rewrite set_upE /srs_setup; case: (rand_g1 s) => g1 s2; case: (rand_g2 s2) => g2 s3.
case: (rand_g2 s3) => g2' s4 [esrs es1]; rewrite {}es1 in party *; rewrite -{}esrs in party *.
cbv beta iota.
have h i dflt := make_dealersE K g1 s1 0 seeds dflt i.
case: (make_dealers K g1 s1 0 seeds) h => ds s' h.
have dd : Dealer E by exact: (MkDealer 0 (nseq_tuple 64 x00) (party 0%N)).
have [sz es _] := h 0%N dd; pose config := MkConfig (MkSRS g1 g2 g2') t n.
exists (make_participants ds), [seq MkNode (new_aggregator config (make_participants ds)) d | d <- ds].
split.
- by rewrite es; congr pair; exact: mapM_ok.
- move=> j; rewrite (make_participantsE _ dd) sz -/n; case: ifP => // lj.
  by have [_ _ /(_ lj)[_ _ ->]] := h j dd; rewrite add0n.
move=> i li; rewrite (index_ok (MkNode (new_aggregator config (make_participants ds)) dd)); last first.
  by rewrite size_map sz.
rewrite (nth_map dd) ?sz //; congr (Ok (MkNode _ _)).
have [_ _ /(_ li)[]] := h i dd; rewrite add0n.
by case: (nth dd ds i) => a b c /= -> -> ->.
Qed.

Lemma srs_setupE (E : engine) (R : rng E) (s : rstate R) : exists srs, srs_setup s = (Ok srs, (srs_setup s).2).
Proof.
rewrite /srs_setup; case: (rand_g1 s) => g1 s1; case: (rand_g2 s1) => g2 s2; case: (rand_g2 s2) => g2' s3.
by exists (MkSRS g1 g2 g2').
Qed.

(** The eight decryption keys are the scalars drawn after the parameters.  The test passes
    whatever the polynomial and the epoch generator are, unless one of the keys is zero. *)
Theorem C80_different_sets (E : engine) (D : eddsa) (K : ed_keygen D) (b : build) (R : rng E)
  (s : rstate R) (seeds : 8.-tuple (32.-tuple byte)) (epoch_generator : Com E) :
  (8 < modulus E)%N ->
  let keys := scalars 8 (srs_setup s).2 in
  (test_lagrange_gt_different_sets K b seeds epoch_generator s).1
  = if has (fun k => k == 0) keys then Panic UnwrapNone else Ok tt.
Proof.
move=> q8 keys; rewrite /test_lagrange_gt_different_sets.
have [srs esrs] := srs_setupE s; have := set_upP K 3 seeds esrs; rewrite size_tuple.
set s1 := (srs_setup s).2 in keys *; case=> ps [nodes [eset hps hn]].
rewrite (called_ok _ eset) (@called_poly E b R _ 3) //; set cs := truncate _; set s4 := after _ _.
pose p := Poly cs; pose g1 := srs_g1 srs.
have keyE : scalars (size seeds) s1 = keys by rewrite size_tuple.
rewrite (plain_ok _ _ (a := [seq (p.[i.+1%:R] * nth 0 keys i) *: g1 | i <- iota 0 8])); last first.
  apply: mapM_ok_in => i; rewrite mem_iota => /andP[_ li].
  rewrite (hn i li) [LHS]/(let! party := unwrap_opt (bt_get ps i) in _) hps li.
  rewrite [LHS]/(let! x := index _ i in _) (index_ok 0) ?size_map ?size_iota //.
  rewrite (nth_map 0%N) ?size_iota // nth_iota // add1n.
  by rewrite evaluateE fr_of_u64E Nat2N.id /set_up_party keyE /obind /= scalerA.
set decs := mapM _ _.
have -> : decs = if has (fun i => nth 0 keys i == 0) (iota 0 8) then Panic UnwrapNone
                 else Ok [seq p.[i.+1%:R] *: g1 | i <- iota 0 8].
  apply: mapM_panic => i; rewrite mem_iota => /andP[_ li].
  rewrite (hn i li) [LHS]/(let! d := decrypted_share_generate _ (nth 0 keys i) i in Ok (dec d)).
  rewrite /decrypted_share_generate (index_ok 0) ?size_map ?size_iota // (nth_map 0%N) ?size_iota //.
  rewrite nth_iota // add0n /inverse_unwrap; case: eqP => // /eqP k0.
  by congr Ok; rewrite [dec _]/= scalerA mulrC mulfK.
have -> : has (fun i => nth 0 keys i == 0) (iota 0 8) = has (fun k => k == 0) keys.
  by rewrite -[in RHS](mkseq_nth 0 keys) size_scalars /mkseq has_map.
case: ifP => // _; set sks := map _ _.
rewrite (plain_ok _ _ (a := sks)) //.
pose r := pairing (p.[0] *: g1) epoch_generator.
have sp : (size p <= 4)%N.
  rewrite /p truncate_Poly; apply: leq_trans (size_Poly _) _; by rewrite size_scalars.
have rec points : all (fun n => 0 < N.to_nat n <= 8)%N points -> uniq (map N.to_nat points) ->
   (3 < size points)%N ->
   (let! evals := gt_evals b sks epoch_generator points in
    unwrap (lagrange_interpolation_gt b evals points 3)) = Ok r.
  move=> /allP ins un sz4.
  have -> : gt_evals b sks epoch_generator points
            = Ok [seq pairing (p.[(N.to_nat n)%:R] *: g1) epoch_generator | n <- points].
    apply: mapM_ok_in => n /ins/andP[n0 n8]; rewrite /u64_sub.
    have -> : (1 <=? n)%num by apply/N.leb_le; lia.
    rewrite [obind _ _]/(let! sk := index sks (N.to_nat (n - 1)) in _).
    have e : N.to_nat (n - 1) = (N.to_nat n).-1 by lia.
    rewrite e (index_ok 0) ?size_map ?size_iota; last by lia.
    rewrite (nth_map 0%N) ?size_iota ?nth_iota ?add0n; [|lia|lia].
    by rewrite /obind prednK.
  rewrite [LHS]/(unwrap _) C07_interpolation_gt //.
  apply: take_uniq; rewrite (map_comp (fun n => n%:R) N.to_nat) map_inj_in_uniq //.
  move=> i j /mapP[n /ins/andP[_ n8] ->] /mapP[n' /ins/andP[_ n8'] ->] /eqP.
  by rewrite (Fp_nat_inj (modulus_prime E)); [move/eqP|lia|lia].
rewrite (plain_ok _ _ (@rec [:: 1; 2; 3; 4]%num isT isT isT)).
rewrite (plain_ok _ _ (@rec [:: 5; 6; 7; 8]%num isT isT isT)).
rewrite (plain_ok _ _ (@rec [:: 3; 5; 1; 7]%num isT isT isT)).
rewrite (plain_ok _ _ (@rec [:: 1; 2; 3; 4; 5; 6; 7; 8]%num isT isT isT)).
by rewrite /assert eqxx.
Qed.
Print Assumptions C80_different_sets.

(** Degree 3 in the toy group: the parameters 2, 3, 5, then the polynomial [7 + X^2]; and the
    polynomial zero, on which the tests of interpolation fail. *)
Example C80_example :
  let s := [:: f 2; f 3; f 5; f 7; f 0; f 1; f 0; f 4; f 6] in
  let s' := [:: f 2; f 3; f 5; f 0; f 0; f 0; f 0; f 4; f 6] in
  let fine (m : test list_rng unit) s := is_ok (m s).1 in
  [/\ fine (test_lagrange_simple Debug 3) s, ~~ fine (test_lagrange_simple Debug 3) s',
      fine (test_lagrange Debug 3) s, fine (test_ensure_degree Debug 3) s
    & fine (@test_decomp_simple TE Debug list_rng) s /\ ~~ fine (@test_decomp_invalid TE Debug list_rng) s].
Proof. by repeat split; vm_compute. Qed.

(** Keys 1, ..., 8 and the polynomial [7 + X^2] in the last test; key 3 replaced by zero. *)
Example C80_example_sets :
  let seeds := nseq_tuple 8 (nseq_tuple 32 x01) in
  let s := map f [:: 2; 3; 5; 1; 2; 3; 4; 5; 6; 7; 8; 7; 0; 1; 0]%N in
  let s' := map f [:: 2; 3; 5; 1; 2; 0; 4; 5; 6; 7; 8; 7; 0; 1; 0]%N in
  let fine s := is_ok (@test_lagrange_gt_different_sets TE TD TK Debug list_rng seeds (f 9) s).1 in
  fine s /\ ~~ fine s'.
Proof. by split; vm_compute. Qed.
