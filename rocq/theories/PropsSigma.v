(** * PropsSigma: properties C29 to C38, about src/nizk and src/signature *)

From Coq Require Import NArith Strings.Byte.
From mathcomp Require Import all_ssreflect all_algebra zify.
From Verif Require Import Prelude Errors Engine LibModel SigmaModel Spec
  PreludeProofs AlgebraProofs Instance.

Set Implicit Arguments.
Unset Strict Implicit.
Unset Printing Implicit Defensive.

Import GRing.Theory.
Local Open Scope ring_scope.

(** Points of a curve modulo [q], with the engine's scalar field. *)
Local Notation crv E := (curve (modulus E)).

Lemma resp_check (E : engine) (V : lmodType (Fr E)) (r w c : Fr E) (g : V) :
  (r - w * c) *: g + c *: (w *: g) = r *: g.
Proof. by rewrite scalerBl scalerA [c * w]mulrC subrK. Qed.

Lemma zmod_swap (V : zmodType) (a b c d : V) : a + b = c + d -> b - d = c - a.
Proof. by move=> e; rewrite -{1}[b](addKr a) e addrA addrK addrC. Qed.

(** ** C29: knowledge proofs verify *)

Theorem C29_dlk_complete (E : engine) (C : crv E) (R : rng E) (s s' : rstate R)
  (g : pt C) (w : Fr E) :
  [/\ dlk_verify g (w *: g) (dlk_prove g s w).1 = Ok tt,
      dlk_from_witness g w = (w, w *: g)
    & let: (w', x) := (dlk_generate_pair g s').1 in
      x = w' *: g /\ dlk_verify g x (dlk_prove g s w').1 = Ok tt ].
Proof.
have complete w' : dlk_verify g (w' *: g) (dlk_prove g s w').1 = Ok tt.
  rewrite /dlk_prove /dlk_verify; case: (rand_fr s) => r s1 /=.
  by rewrite resp_check !eqxx.
split=> //; rewrite /dlk_generate_pair; case: (rand_fr s') => w' s1 /=; split=> //.
Qed.
Print Assumptions C29_dlk_complete.

Example C29_example :
  let p := (@dlk_prove TE toy_curve (seq_rng TE) (f 4) [:: f 7] (f 5)).1 in
  @dlk_verify TE toy_curve (f 4) (f 9) p = Ok tt /\
  @dlk_verify TE toy_curve (f 4) (f 8) p = Err DLKVerify.
Proof. by split; vm_compute. Qed.

(** ** C30: DLK verification is exact; responses are unique and extractable *)

Lemma dlk_okE (E : engine) (C : crv E) (g x : pt C) (p : dlk_proof C) :
  let c := hash_to_field E DLK_PERSONA (pt_ser g ++ pt_ser (dlk_commit p)) in
  dlk_verify g x p = Ok tt <->
  dlk_challenge p = c /\ dlk_response p *: g + c *: x = dlk_commit p.
Proof.
move=> c; rewrite /dlk_verify /dlk_preimage -/c; case: eqP => h1 /=; last by split=> // -[_ /h1].
by case: eqP => h2 /=; [split | split=> // -[e _]; rewrite e in h2].
Qed.

Theorem C30_dlk_exact (E : engine) (C : crv E) (g x : pt C) (p : dlk_proof C) :
  let c := hash_to_field E DLK_PERSONA (pt_ser g ++ pt_ser (dlk_commit p)) in
  (dlk_verify g x p = Ok tt <->
   dlk_challenge p = c /\ dlk_response p *: g + c *: x = dlk_commit p) /\
  (dlk_verify g x p = Ok tt \/ dlk_verify g x p = Err DLKVerify).
Proof.
move=> c; split; first exact: dlk_okE.
by rewrite /dlk_verify; case: ifP; [right | left].
Qed.
Print Assumptions C30_dlk_exact.

Theorem C30_dlk_unique (E : engine) (C : crv E) (g x a : pt C) (c c' z z' : Fr E) :
  g != 0 -> dlk_verify g x (DlkProof a c z) = Ok tt ->
  dlk_verify g x (DlkProof a c' z') = Ok tt -> c = c' /\ z = z'.
Proof.
move=> g0 /dlk_okE/= [-> e] /dlk_okE/= [-> e']; split=> //.
by apply: (scale_inj (modulus_prime E) g0); exact: addIr (etrans e (esym e')).
Qed.
Print Assumptions C30_dlk_unique.

(** Special soundness, for the verification equation with the challenge left free. *)
Theorem C30_dlk_extract (E : engine) (C : crv E) (g x a : pt C) (c c' z z' : Fr E) :
  c != c' -> z *: g + c *: x = a -> z' *: g + c' *: x = a ->
  x = ((z' - z) / (c - c')) *: g.
Proof.
move=> cc e e'; have nz : c - c' != 0 by rewrite subr_eq0.
apply: (scalerI nz); rewrite scalerA mulrC mulfVK // !scalerBl.
by apply: zmod_swap; rewrite e e'.
Qed.
Print Assumptions C30_dlk_extract.

(** Two accepting conversations with one commitment and different challenges exist (they
    are what a rewound prover yields), and give the witness 5 of the statement 9 = 5 * 4. *)
Example C30_example :
  let g : pt toy_curve := f 4 in let x : pt toy_curve := f 9 in
  let a : pt toy_curve := f 6 in
  [/\ f 1 *: g + f 10 *: x = a, f 3 *: g + f 3 *: x = a & (f 3 - f 1) / (f 10 - f 3) = f 5].
Proof. by split; apply: val_inj; vm_compute. Qed.

(** ** C31: a DLK proof may be made before its statement; false as stated *)

(** Full statement (refuted): a proof cannot be produced without fixing the statement first.
    The statement is not hashed, so for every commitment point and every response there is
    a statement for which they form a verifying proof. *)
Theorem C31_dlk_statement_fixed_first_refuted (E : engine) (C : crv E) (g a : pt C) (z : Fr E) :
  let c := hash_to_field E DLK_PERSONA (pt_ser g ++ pt_ser a) in
  c != 0 -> dlk_verify g (c^-1 *: (a - z *: g)) (DlkProof a c z) = Ok tt.
Proof.
move=> c c0; apply/dlk_okE; rewrite /= -/c; split=> //.
by rewrite scalerA mulfV // scale1r addrC subrK.
Qed.
Print Assumptions C31_dlk_statement_fixed_first_refuted.

(** What holds: a proof verifies for at most one statement (exactly the one above). *)
Theorem C31_dlk_statement_unique_partial (E : engine) (C : crv E) (g x x' : pt C)
  (p : dlk_proof C) :
  dlk_challenge p != 0 ->
  dlk_verify g x p = Ok tt -> dlk_verify g x' p = Ok tt -> x = x'.
Proof.
move=> c0 /dlk_okE[ec e] /dlk_okE[_ e']; rewrite ec in c0.
by apply: (scalerI c0); exact: addrI (etrans e (esym e')).
Qed.
Print Assumptions C31_dlk_statement_unique_partial.

(** With base 4, commitment 6 and response 2 the statement comes out as 1. *)
Example C31_example :
  let c := hash_to_field TE DLK_PERSONA (fp_ser (f 4) ++ fp_ser (f 6)) in
  c != 0 /\ @dlk_verify TE toy_curve (f 4) (c^-1 * (f 6 - f 2 * f 4)) (@DlkProof TE toy_curve (f 6) c (f 2)) = Ok tt.
Proof. by split; vm_compute. Qed.

(** ** C32: DLEQ completeness *)

Theorem C32_dleq_complete (E : engine) (C1 C2 : crv E) (R : rng E) (s s' : rstate R)
  (g : pt C1) (h : pt C2) (w : Fr E) :
  [/\ dleq_verify g h (w *: g, w *: h) (dleq_prove g h s w).1 = Ok tt,
      dleq_from_witness g h w = (w, (w *: g, w *: h))
    & let: (w', x) := (dleq_generate_pair g h s').1 in
      x = (w' *: g, w' *: h) /\ dleq_verify g h x (dleq_prove g h s w').1 = Ok tt ].
Proof.
have complete w' : dleq_verify g h (w' *: g, w' *: h) (dleq_prove g h s w').1 = Ok tt.
  rewrite /dleq_prove /dleq_verify; case: (rand_fr s) => r s1 /=.
  by rewrite !resp_check !eqxx.
split=> //; rewrite /dleq_generate_pair; case: (rand_fr s') => w' s1 /=; split=> //.
Qed.
Print Assumptions C32_dleq_complete.

Example C32_example :
  let p := (@dleq_prove TE toy_curve toy_curve (seq_rng TE) (f 4) (f 7) [:: f 3] (f 5)).1 in
  @dleq_verify TE toy_curve toy_curve (f 4) (f 7) (f 9, f 2) p = Ok tt /\
  @dleq_verify TE toy_curve toy_curve (f 4) (f 7) (f 9, f 3) p = Err DLEQVerify.
Proof. by split; vm_compute. Qed.

(** ** C33: DLEQ soundness *)

Lemma dleq_okE (E : engine) (C1 C2 : crv E) (g : pt C1) (h : pt C2)
  (x : pt C1) (y : pt C2) (a : pt C1) (b : pt C2) (ch z : Fr E) :
  let c := hash_to_field E DLEQ_PERSONA
             (flatten [:: pt_ser g; pt_ser x; pt_ser h; pt_ser y; pt_ser a; pt_ser b]) in
  dleq_verify g h (x, y) (DleqProof (a, b) ch z) = Ok tt <->
  [/\ ch = c, z *: g + c *: x = a & z *: h + c *: y = b].
Proof.
move=> c; rewrite /dleq_verify /= /dleq_preimage -/c.
case: eqP => h1 /=; last by split=> // -[_ /h1].
case: eqP => h2 /=; last by split=> // -[_ _ /h2].
by case: eqP => h3 /=; [split | split=> // -[e _ _]; rewrite e in h3].
Qed.

Theorem C33_dleq_exact (E : engine) (C1 C2 : crv E) (g : pt C1) (h : pt C2)
  (x : pt C1) (y : pt C2) (a : pt C1) (b : pt C2) (ch z : Fr E) :
  let c := hash_to_field E DLEQ_PERSONA
             (flatten [:: pt_ser g; pt_ser x; pt_ser h; pt_ser y; pt_ser a; pt_ser b]) in
  let r := dleq_verify g h (x, y) (DleqProof (a, b) ch z) in
  (r = Ok tt <-> [/\ ch = c, z *: g + c *: x = a & z *: h + c *: y = b]) /\
  (r = Ok tt \/ r = Err DLEQVerify).
Proof.
move=> c r; split; first exact: dleq_okE.
by rewrite /r /dleq_verify /=; case: ifP; [right | left].
Qed.
Print Assumptions C33_dleq_exact.

(** Two accepting conversations with equal commitments give a common witness. *)
Theorem C33_dleq_extract (E : engine) (C1 C2 : crv E) (g : pt C1) (h : pt C2)
  (x : pt C1) (y : pt C2) (a : pt C1) (b : pt C2) (c c' z z' : Fr E) :
  c != c' -> z *: g + c *: x = a -> z *: h + c *: y = b ->
  z' *: g + c' *: x = a -> z' *: h + c' *: y = b ->
  let w := (z' - z) / (c - c') in x = w *: g /\ y = w *: h.
Proof. by move=> cc e1 e2 e1' e2'; split; apply: C30_dlk_extract; eauto. Qed.
Print Assumptions C33_dleq_extract.

(** If the two discrete logarithms differ, a commitment pair can be answered for at most
    one of the [q] challenges. *)
Theorem C33_dleq_one_challenge (E : engine) (C1 C2 : crv E) (g : pt C1) (h : pt C2)
  (w1 w2 : Fr E) (a : pt C1) (b : pt C2) :
  g != 0 -> h != 0 -> w1 != w2 ->
  (#|[set c : Fr E | [exists z : Fr E, (z *: g + c *: (w1 *: g) == a)%R
                                    && (z *: h + c *: (w2 *: h) == b)%R]]| <= 1)%N.
Proof.
move=> g0 h0 ww; apply/card_le1_eqP => c c'; rewrite !inE.
case/existsP=> z /andP[/eqP e1 /eqP e2]; case/existsP=> z' /andP[/eqP e1' /eqP e2'].
apply/eqP; case: eqP => // /eqP cc; case/negP: ww; apply/eqP.
have [d1 d2] := C33_dleq_extract cc e1' e2' e1 e2.
by rewrite (scale_inj (modulus_prime E) g0 d1) (scale_inj (modulus_prime E) h0 d2).
Qed.
Print Assumptions C33_dleq_one_challenge.

(** Different logarithms 5 and 6: challenge 3 with response 1 is the answerable one. *)
Example C33_example :
  let g : pt toy_curve := f 4 in let h : pt toy_curve := f 7 in
  [/\ g != 0, h != 0, f 5 != f 6
    & f 1 *: g + f 3 *: (f 5 *: g) = f 9 /\ f 1 *: h + f 3 *: (f 6 *: h) = f 1 ].
Proof. by split=> //; split; apply: val_inj; vm_compute. Qed.

(** ** C34: honest-verifier zero knowledge *)

(** In an engine whose hash returns [c] (the challenge is programmed), the prover that
    draws nonce [r] and the simulator that draws the response [z] and does not know the
    witness produce the same proofs: each proof comes from exactly one coin on both sides. *)
Theorem C34_dlk_hvzk (E : engine) (C : crv E) (g : pt C) (w c : Fr E) :
  (forall m, hash_to_field E DLK_PERSONA m = c) ->
  let real (r : Fr E) := (dlk_prove (R := seq_rng E) g [:: r] w).1 in
  let simulated (x : pt C) (z : Fr E) := DlkProof (z *: g + c *: x) c z in
  [/\ injective real, injective (simulated (w *: g)),
      forall r, exists z, real r = simulated (w *: g) z
    & forall z, exists r, simulated (w *: g) z = real r ].
Proof.
move=> hc real simulated.
have realE r : real r = simulated (w *: g) (r - w * c).
  by rewrite /real /simulated /dlk_prove /= hc resp_check.
split=> [r r'|z z'|r|z].
- by rewrite !realE => /(congr1 (@dlk_response E C))/= e; exact: addIr e.
- by case.
- by exists (r - w * c).
- by exists (z + w * c); rewrite realE addrK.
Qed.
Print Assumptions C34_dlk_hvzk.

Theorem C34_dleq_hvzk (E : engine) (C1 C2 : crv E) (g : pt C1) (h : pt C2) (w c : Fr E) :
  (forall m, hash_to_field E DLEQ_PERSONA m = c) ->
  let real (r : Fr E) := (dleq_prove (R := seq_rng E) g h [:: r] w).1 in
  let simulated (x : pt C1) (y : pt C2) (z : Fr E) :=
    DleqProof (z *: g + c *: x, z *: h + c *: y) c z in
  [/\ injective real, injective (simulated (w *: g) (w *: h)),
      forall r, exists z, real r = simulated (w *: g) (w *: h) z
    & forall z, exists r, simulated (w *: g) (w *: h) z = real r ].
Proof.
move=> hc real simulated.
have realE r : real r = simulated (w *: g) (w *: h) (r - w * c).
  by rewrite /real /simulated /dleq_prove /= hc !resp_check.
split=> [r r'|z z'|r|z].
- by rewrite !realE => /(congr1 (@dleq_response E C1 C2))/= e; exact: addIr e.
- by case.
- by exists (r - w * c).
- by exists (z + w * c); rewrite realE addrK.
Qed.
Print Assumptions C34_dleq_hvzk.

(** The same engine with another hash function. *)
Definition with_hash (E : engine) (H : seq byte -> seq byte -> Fr E) : engine :=
  @Engine (modulus E) (modulus_prime E) (G1 E) (G2 E) (GT E) (@pairing E) (@pairing_addl E)
    (@pairing_addr E) (@pairing_neq0 E) (@pairing_nondeg E) H (shake256 E) (@fr_ser E) (fr_len E)
    (@fr_deser E) (@fr_ser_size E) (@fr_deserK E).
Example C34_example : let E := with_hash (E := TE) (fun _ _ => f 3) in
  (forall m, hash_to_field E DLK_PERSONA m = f 3) /\
  (forall m, hash_to_field E DLEQ_PERSONA m = f 3).
Proof. by []. Qed.

(** ** C35: Schnorr signatures verify *)

Theorem C35_schnorr_complete (E : engine) (C : crv E) (R : rng E) (s s' : rstate R)
  (g : pt C) (sk : Fr E) (m : seq byte) :
  [/\ schnorr_verify g (sk *: g) m (schnorr_sign g s sk m).1 = Ok tt,
      schnorr_from_sk g sk = (sk, sk *: g)
    & let: (sk', pk) := (schnorr_generate_keypair g s').1 in
      pk = sk' *: g /\ schnorr_verify g pk m (schnorr_sign g s sk' m).1 = Ok tt ].
Proof.
have complete k : schnorr_verify g (k *: g) m (schnorr_sign g s k m).1 = Ok tt.
  rewrite /schnorr_sign /schnorr_verify; case: (rand_fr s) => r s1 /=.
  by rewrite resp_check !eqxx.
split=> //; rewrite /schnorr_generate_keypair; case: (rand_fr s') => k s1 /=; split=> //.
Qed.
Print Assumptions C35_schnorr_complete.

Example C35_example :
  let m := [:: x41; x42]%byte in
  let sg := (@schnorr_sign TE toy_curve (seq_rng TE) (f 4) [:: f 7] (f 5) m).1 in
  [/\ @schnorr_verify TE toy_curve (f 4) (f 9) m sg = Ok tt,
      @schnorr_verify TE toy_curve (f 4) (f 9) [:: x43]%byte sg = Err SchnorrVerify
    & @schnorr_verify TE toy_curve (f 4) (f 8) m sg = Err SchnorrVerify ].
Proof. by split; vm_compute. Qed.

(** ** C36: Schnorr verification is exact and binding *)

Lemma schnorr_okE (E : engine) (C : crv E) (g pk a : pt C) (m : seq byte) (z : Fr E) :
  let c := hash_to_field E SCHNORR_PERSONA (flatten [:: m; pt_ser g; pt_ser a]) in
  schnorr_verify g pk m (a, z) = Ok tt <-> z *: g + c *: pk = a.
Proof.
move=> c; rewrite /schnorr_verify /schnorr_challenge /schnorr_preimage -/c.
by case: eqP.
Qed.

Theorem C36_schnorr_exact (E : engine) (C : crv E) (g pk a : pt C) (m : seq byte) (z : Fr E) :
  let c := hash_to_field E SCHNORR_PERSONA (flatten [:: m; pt_ser g; pt_ser a]) in
  let r := schnorr_verify g pk m (a, z) in
  (r = Ok tt <-> z *: g + c *: pk = a) /\ (r = Ok tt \/ r = Err SchnorrVerify).
Proof.
move=> c r; split; first exact: schnorr_okE.
by rewrite /r /schnorr_verify; case: ifP; [right | left].
Qed.
Print Assumptions C36_schnorr_exact.

Theorem C36_schnorr_binding (E : engine) (C : crv E) (g a : pt C) (m : seq byte) :
  g != 0 ->
  (** exactly one response per key, message and nonce commitment *)
  (forall pk, exists z, schnorr_verify g pk m (a, z) = Ok tt /\
     forall z', schnorr_verify g pk m (a, z') = Ok tt -> z' = z) /\
  (** a signature fits at most one key *)
  (hash_to_field E SCHNORR_PERSONA (flatten [:: m; pt_ser g; pt_ser a]) != 0 ->
   forall pk pk' z, schnorr_verify g pk m (a, z) = Ok tt ->
     schnorr_verify g pk' m (a, z) = Ok tt -> pk = pk').
Proof.
move=> g0; set c := hash_to_field _ _ _; split=> [pk|c0 pk pk' z /schnorr_okE e /schnorr_okE e'].
  have [z hz] := pt_cyclic (a - c *: pk) g0.
  have ok : z *: g + c *: pk = a by rewrite -hz subrK.
  exists z; split; first exact/schnorr_okE.
  move=> z' /schnorr_okE e; apply: (scale_inj (modulus_prime E) g0).
  exact: addIr (etrans e (esym ok)).
by apply: (scalerI c0); exact: addrI (etrans e (esym e')).
Qed.
Print Assumptions C36_schnorr_binding.

(** Reusing a nonce reveals the secret key. *)
Theorem C36_nonce_reuse (E : engine) (C : crv E) (g pk a : pt C) (m m' : seq byte)
  (z z' sk : Fr E) :
  let c := hash_to_field E SCHNORR_PERSONA (flatten [:: m; pt_ser g; pt_ser a]) in
  let c' := hash_to_field E SCHNORR_PERSONA (flatten [:: m'; pt_ser g; pt_ser a]) in
  g != 0 -> pk = sk *: g -> c != c' ->
  schnorr_verify g pk m (a, z) = Ok tt -> schnorr_verify g pk m' (a, z') = Ok tt ->
  sk = (z' - z) / (c - c').
Proof.
move=> c c' g0 epk cc /schnorr_okE e /schnorr_okE e'.
apply: (scale_inj (modulus_prime E) g0); rewrite -epk.
exact: (C30_dlk_extract cc e e').
Qed.
Print Assumptions C36_nonce_reuse.

Example C36_example :
  let m := [:: x41; x42]%byte in let m' := [:: x43]%byte in
  let sg := (@schnorr_sign TE toy_curve (seq_rng TE) (f 4) [:: f 7] (f 5) m).1 in
  let sg' := (@schnorr_sign TE toy_curve (seq_rng TE) (f 4) [:: f 7] (f 5) m').1 in
  let c := @schnorr_challenge TE toy_curve m (f 4) (f 6) in
  let c' := @schnorr_challenge TE toy_curve m' (f 4) (f 6) in
  [/\ sg.1 = f 6, sg'.1 = f 6, c != c', c != 0 & (sg'.2 - sg.2) / (c - c') = f 5].
Proof. by split; try (by apply: val_inj; vm_compute); vm_compute. Qed.

(** ** C37, C38: batch verification *)

(** One item of a batch: key, message, signature. *)
Definition item_ok (E : engine) (C : crv E) (g : pt C) (i : pt C * seq byte * schnorr_sig C) : bool :=
  is_ok (schnorr_verify g i.1.1 i.1.2 i.2).

Definition defect (E : engine) (C : crv E) (g : pt C) (i : pt C * seq byte * schnorr_sig C) : pt C :=
  i.2.2 *: g + schnorr_challenge i.1.2 g i.2.1 *: i.1.1 - i.2.1.

Lemma defect0 (E : engine) (C : crv E) (g : pt C) i : (defect g i == 0) = item_ok g i.
Proof. by rewrite /defect subr_eq0 /item_ok /schnorr_verify; case: (_ == _). Qed.

Lemma batch_sum (E : engine) (C : crv E) (g : pt C) alpha terms cur items :
  multi_scalar_mul (foldl (batch_step g alpha) (terms, cur) items).1
  = multi_scalar_mul terms
    + \sum_(i < size items) (cur * alpha ^+ i) *: nth 0 (map (defect g) items) i.
Proof.
elim: items terms cur => [|[[pk m] sg] items IH] terms cur /=; first by rewrite big_ord0 addr0.
rewrite IH big_ord_recl /= expr0 mulr1 addrA; congr (_ + _).
  rewrite /multi_scalar_mul foldl_cat /= -!addrA; congr (_ + _).
  rewrite /defect /= !scalerDr scalerN !scalerA scaleNr -!addrA.
  by rewrite [sg.2 * cur]mulrC [_ * cur]mulrC.
by apply: eq_bigr => i _; rewrite exprS mulrA.
Qed.

Lemma batch_verifyE (E : engine) (C : crv E) (R : rng E) (g : pt C) (s : rstate R) pks ms sgs :
  size pks = size ms -> size pks = size sgs ->
  (schnorr_batch_verify g s pks ms sgs).1 =
  if \sum_(i < size pks) ((rand_fr s).1 ^+ i) *: nth 0 (map (defect g) (zip (zip pks ms) sgs)) i == 0
  then Ok tt else Err SchnorrVerify.
Proof.
move=> e1 e2; rewrite /schnorr_batch_verify -e1 -e2 eqxx /=.
case: (rand_fr s) => alpha s' /=.
have sz : size (zip (zip pks ms) sgs) = size pks.
  by rewrite size_zip size_zip -e1 minnn -e2 minnn.
have := batch_sum g alpha [::] 1 (zip (zip pks ms) sgs); rewrite sz.
case: (foldl _ _ _) => terms cur /= ->; rewrite add0r if_neg.
by under eq_bigr do rewrite mul1r.
Qed.

Theorem C37_batch_complete (E : engine) (C : crv E) (R : rng E) (g : pt C) (s : rstate R)
  (pks : seq (pt C)) (ms : seq (seq byte)) (sgs : seq (schnorr_sig C)) :
  size pks = size ms -> size pks = size sgs ->
  (forall i, (i < size pks)%N ->
     schnorr_verify g (nth 0 pks i) (nth [::] ms i) (nth (0, 0) sgs i) = Ok tt) ->
  (schnorr_batch_verify g s pks ms sgs).1 = Ok tt.
Proof.
move=> e1 e2 ok; rewrite batch_verifyE // big1 ?eqxx // => i _.
have lz : (i < size (zip (zip pks ms) sgs))%N.
  by rewrite !size_zip -e1 minnn -e2 minnn.
rewrite (nth_map (0, [::], (0, 0))) // !nth_zip ?size_zip -?e1 ?minnn //.
by rewrite (eqP (_ : defect g _ == 0)) ?scaler0 // defect0 /item_ok /= ok.
Qed.
Print Assumptions C37_batch_complete.

Theorem C37_batch_lengths (E : engine) (C : crv E) (R : rng E) (g : pt C) (s : rstate R)
  (pks : seq (pt C)) (ms : seq (seq byte)) (sgs : seq (schnorr_sig C)) :
  size pks <> size ms \/ size pks <> size sgs ->
  (schnorr_batch_verify g s pks ms sgs).1
  = Err (BatchVerification (size pks) (size ms) (size sgs)).
Proof.
rewrite /schnorr_batch_verify => h.
suff -> : (size pks != size ms) || (size pks != size sgs) by [].
by case: h => /eqP ->; rewrite ?orbT.
Qed.
Print Assumptions C37_batch_lengths.

Example C37_example :
  let m := [:: x41; x42]%byte in let m' := [:: x43]%byte in
  let sg := (@schnorr_sign TE toy_curve (seq_rng TE) (f 4) [:: f 7] (f 5) m).1 in
  let sg' := (@schnorr_sign TE toy_curve (seq_rng TE) (f 4) [:: f 8] (f 6) m').1 in
  let batch sgs alpha := (@schnorr_batch_verify TE toy_curve (seq_rng TE) (f 4) [:: alpha]
                            [:: f 9; f 2] [:: m; m'] sgs).1 in
  [/\ batch [:: sg; sg'] (f 3) = Ok tt, batch [:: sg'; sg] (f 3) = Err SchnorrVerify
    & batch [:: sg] (f 3) = Err (BatchVerification 2 2 1) ].
Proof. by split; vm_compute. Qed.

Theorem C38_batch_sound (E : engine) (C : crv E) (g : pt C)
  (pks : seq (pt C)) (ms : seq (seq byte)) (sgs : seq (schnorr_sig C)) (i : nat) :
  size pks = size ms -> size pks = size sgs -> (i < size pks)%N ->
  schnorr_verify g (nth 0 pks i) (nth [::] ms i) (nth (0, 0) sgs i) <> Ok tt ->
  (** the verdict depends on the one scalar drawn *)
  (forall (R : rng E) (s : rstate R),
     (schnorr_batch_verify g s pks ms sgs).1 =
     (schnorr_batch_verify (R := seq_rng E) g [:: (rand_fr s).1] pks ms sgs).1) /\
  (** and at most [k - 1] of the [q] scalars accept *)
  (#|[set alpha : Fr E |
       is_ok (schnorr_batch_verify (R := seq_rng E) g [:: alpha] pks ms sgs).1]|
   <= (size pks).-1)%N.
Proof.
move=> e1 e2 li bad; split=> [R s|]; first by rewrite !batch_verifyE.
set k := size pks; pose ds := map (defect g) (zip (zip pks ms) sgs).
have sz : size ds = k by rewrite size_map !size_zip -e1 minnn -e2 minnn.
have [a ha] := dlog_vec ds (pt_gen_neq0 C).
have nthd j : (j < k)%N -> nth 0 ds j = a j *: pt_gen C.
  by move=> lj; rewrite ha (nth_map 0%N) ?size_iota ?sz // nth_iota.
pose P := \poly_(j < k) a j.
have ai : a i != 0.
  apply/eqP => a0; apply: bad; have := nthd i li; rewrite a0 scale0r.
  have lz : (i < size (zip (zip pks ms) sgs))%N by rewrite !size_zip -e1 minnn -e2 minnn.
  rewrite (nth_map (0, [::], (0, 0))) // !nth_zip ?size_zip -?e1 ?minnn //.
  move/eqP; rewrite defect0 /item_ok /=.
  by rewrite /schnorr_verify; case: ifP.
have P0 : P != 0.
  by apply: contraNneq ai => P0; have := coef_poly k a i; rewrite -/P P0 coef0 li => <-.
have := max_poly_roots P0 (rs := enum [set alpha : Fr E |
  is_ok (schnorr_batch_verify (R := seq_rng E) g [:: alpha] pks ms sgs).1]).
rewrite -cardE enum_uniq => h; rewrite -ltnS prednK; last by apply: leq_trans li.
apply: leq_trans (h _ isT) (size_poly _ _); apply/allP => alpha.
rewrite mem_enum inE batch_verifyE //= => acc.
rewrite rootE horner_poly; move: acc.
have -> : \sum_(j < k) alpha ^+ j *: nth 0 ds j = (\sum_(j < k) a j * alpha ^+ j) *: pt_gen C.
  by rewrite scaler_suml; apply: eq_bigr => j _; rewrite nthd // scalerA mulrC.
by rewrite scaler_eq0 (negbTE (pt_gen_neq0 C)) orbF; case: (_ == 0).
Qed.
Print Assumptions C38_batch_sound.

Example C38_example :
  let m := [:: x41; x42]%byte in let m' := [:: x43]%byte in
  let sg := (@schnorr_sign TE toy_curve (seq_rng TE) (f 4) [:: f 7] (f 5) m).1 in
  let sg' := (@schnorr_sign TE toy_curve (seq_rng TE) (f 4) [:: f 8] (f 6) m').1 in
  let pks := [:: f 9; f 2] : seq (pt toy_curve) in let sgs := [:: sg'; sg] in
  [/\ size pks = 2%N, size sgs = 2%N
    & @schnorr_verify TE toy_curve (f 4) (nth 0 pks 0) m (nth (0, 0) sgs 0) <> Ok tt].
Proof. by split=> //; vm_compute. Qed.
