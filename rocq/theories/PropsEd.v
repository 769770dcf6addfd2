(** * PropsEd: C112 and C113, EdDSA signatures down to the equations of Ed25519 *)

From Coq Require Import NArith Strings.Byte.
From mathcomp Require Import all_ssreflect all_algebra zify.
From Verif Require Import Prelude Errors Engine LibModel CodecModel CodecProofs BTreeMap PolyModel
  SigmaModel PvssModel SetupModel Spec Instance PropsShare PropsHash PropsSetup EdModel EdProofs EdInstance.

Set Implicit Arguments.
Unset Strict Implicit.
Unset Printing Implicit Defensive.

Import GRing.Theory.
Local Open Scope ring_scope.

(** The group is as large as the real one. *)
Definition full_size (X : ed_curve) : Prop := (2 ^ 255 <= 8 * N.of_nat (ep_order X))%num.

(** ** C112: what verifies, and that what was signed verifies *)

(** The verification equation of RFC 8032, with the two points not of small order: numbers and
    multiples, no scalars. *)
Definition ed_valid (X : ed_curve) (s : Signature) (m : Digest) (pk : PublicKey) : Prop :=
  let l := N.of_nat (ep_order X) in
  let S0 := of_le_bytes (part2 s) in
  let k := (of_le_bytes (sha512 X (part1 s ++ pk ++ m)) mod l)%num in
  exists R P : ep X,
    [/\ ep_dec X (part1 s) = Some R, ep_dec X pk = Some P, (S0 < l)%num, R *+ 8 <> 0 /\ P *+ 8 <> 0
      & ep_base X *+ N.to_nat S0 = R + P *+ N.to_nat k].

(** The same in terms of scalars. *)
Definition sc_valid (X : ed_curve) (s : Signature) (m : Digest) (pk : PublicKey) : Prop :=
  exists (R P : ep X) (x : scalar X),
    [/\ ep_dec X (part1 s) = Some R, ep_dec X pk = Some P, sc_check X (part2 s) = Some x,
        R *+ 8 <> 0 /\ P *+ 8 <> 0
      & pmul x (ep_base X) = R + pmul (sc_hash X (part1 s ++ pk ++ m)) P].

Lemma verify_scP (X : ed_curve) (zs : seq N) (s : Signature) (m : Digest) (pk : PublicKey) :
  (signature_verify (ed25519 X zs) s m pk = Ok tt <-> sc_valid X s m pk) /\
  ~~ is_panic (signature_verify (ed25519 X zs) s m pk).
Proof.
case: s => R0 s0; rewrite /signature_verify /sig_flatten /=; split; last first.
  by case: sig_from_bytes => //= s1; case: pk_from_bytes => //= p; case: ifP.
split=> [|[R [P [x [/= eR eP ex [nR nP] eq]]]]].
  rewrite /sig_from_bytes sig_split_cat /=; case: ifP => //= _.
  rewrite /pk_from_bytes; case eP: (ep_dec X pk) => [P|] //=.
  rewrite /verify_strict /=; case ex: (sc_check X s0) => [x|] //.
  case eR: (ep_dec X R0) => [R|] //.
  case sm: (_ || _) => //; move/negbT: sm; rewrite negb_or => /andP[/eqP nR /eqP nP]; case: eqP => // e _.
  by exists R, P, x; split=> //=; rewrite -e subrK.
rewrite (sig_from_bytesE R0 ex) /= /pk_from_bytes eP /= /verify_strict /= ex eR /small_order.
by case: eqP => // _; case: eqP => // _ /=; rewrite /hram eq addrK eqxx.
Qed.

Lemma val_small (X : ed_curve) (v : N) : (v < N.of_nat (ep_order X))%num ->
  val ((N.to_nat v)%:R : scalar X) = N.to_nat v.
Proof. by move=> h; rewrite sc_val modn_small; lia. Qed.
Lemma sc_validP (X : ed_curve) (s : Signature) (m : Digest) (pk : PublicKey) :
  sc_valid X s m pk <-> ed_valid X s m pk.
Proof.
have l0 : N.of_nat (ep_order X) <> 0%num by have := prime_gt0 (ep_prime X); lia.
have hk P : pmul (sc_hash X (part1 s ++ pk ++ m)) P
    = P *+ N.to_nat (of_le_bytes (sha512 X (part1 s ++ pk ++ m)) mod N.of_nat (ep_order X)).
  by rewrite /pmul val_small //; exact: N.mod_lt.
split=> [[R [P [x [eR eP ex nz]]]]|[R [P [eR eP lS nz]]]].
  rewrite hk => e; move: ex; rewrite /sc_check; case: ifP => // /N.ltb_lt lS ex.
  exists R, P; split=> //; rewrite -e /pmul.
  have ex' : val ((N.to_nat (of_le_bytes (part2 s)))%:R : scalar X) = val x := congr1 (oapp val 0%N) ex.
  by rewrite -ex' val_small.
rewrite -hk => e; exists R, P, (N.to_nat (of_le_bytes (part2 s)))%:R; split=> //.
  by rewrite /sc_check; move/N.ltb_lt: lS => ->.
by rewrite -e /pmul val_small.
Qed.

Theorem C112_verify_exact (X : ed_curve) (zs : seq N) (s : Signature) (m : Digest) (pk : PublicKey) :
  (signature_verify (ed25519 X zs) s m pk = Ok tt <-> ed_valid X s m pk) /\
  ~~ is_panic (signature_verify (ed25519 X zs) s m pk).
Proof. by have [h np] := @verify_scP X zs s m pk; split=> //; rewrite h; exact: sc_validP. Qed.
Print Assumptions C112_verify_exact.

Lemma verifyE (X : ed_curve) zs (R0 s0 : 32.-tuple byte) (m : Digest) (pk : PublicKey)
    (R P : ep X) (x : scalar X) :
  ep_dec X R0 = Some R -> ep_dec X pk = Some P -> sc_check X s0 = Some x ->
  signature_verify (ed25519 X zs) (Sig R0 s0) m pk
  = if small_order R || small_order P || (pmul x (ep_base X) - pmul (hram X R0 pk m) P != R)
    then Err Ed25519Error else Ok tt.
Proof.
move=> eR eP ex; rewrite /signature_verify /sig_flatten /= (sig_from_bytesE R0 ex) /=.
rewrite /pk_from_bytes eP /= /verify_strict /= ex eR.
by case: (_ || _) => //=; case: (_ == R).
Qed.

(** A key pair generated from any seed loads and signs every digest.  The signature verifies
    unless the hash that gives the nonce is zero modulo the order, in which case it is refused:
    the point [R] is then of small order. *)
Theorem C112_generated (X : ed_curve) (zs : seq N) (seed : 32.-tuple byte) (m : Digest) (Er : Type) :
  full_size X ->
  let: (pk, sk) := generate_keypair (ed25519_keys X zs) seed in
  exists2 s, signature_new (Er := Er) (ed25519 X zs) m sk = Ok s &
    signature_verify (ed25519 X zs) s m pk
    = if (of_le_bytes (sha512 X (drop 32 (sha512 X seed) ++ m)) mod N.of_nat (ep_order X) =? 0)%num
      then Err Ed25519Error else Ok tt.
Proof.
move=> big; rewrite /generate_keypair /= -sc_of_N_eq0 -/(sc_hash X _).
set A := ep_enc _; set R := ep_enc (pmul (sign_nonce X seed m) (ep_base X)).
have ld : pair_from_bytes X (pair_bytes (seed, pk_of X seed)) = Some (seed, pk_of X seed).
  by rewrite /pair_from_bytes /pair_bytes sig_split_cat /= /pk_from_bytes ep_encK.
exists (Sig R (sc_bytes (hram X R A m * sk_scalar X seed + sign_nonce X seed m))).
  by rewrite /signature_new /= ld sig_split_cat.
rewrite (verifyE _ _ (ep_encK _) (ep_encK _) (sc_bytesK _)) !small_base.
rewrite (negbTE (clamp_neq0 _ big)) orbF -/(sign_nonce X seed m); case: (_ == 0) => //=.
by rewrite pmulD ?base_l // pmulM ?base_l // addrAC subrr add0r eqxx.
Qed.
Print Assumptions C112_generated.

(** So what the theorems about whole sessions ask of a seed and a digest ([good_for], C63) holds
    exactly if the nonce is not zero; and of all digests ([good_seed]) for exactly those seeds
    that give no digest a nonce of zero.  (A digest has 256 bits and the order 253, so for a real
    hash one should not expect such seeds.) *)
Theorem C112_good_for (X : ed_curve) (zs : seq N) (seed : 32.-tuple byte) (m : Digest) : full_size X ->
  good_for (ed25519_keys X zs) seed m <->
  (of_le_bytes (sha512 X (drop 32 (sha512 X seed) ++ m)) mod N.of_nat (ep_order X) <> 0)%num.
Proof.
move=> big; have ld : pair_from_bytes X (pair_bytes (seed, pk_of X seed)) = Some (seed, pk_of X seed).
  by rewrite /pair_from_bytes /pair_bytes sig_split_cat /= /pk_from_bytes ep_encK.
have key : eddsa_valid (ed25519 X zs) (sig_split (pair_sign (seed, pk_of X seed) m)) m
    (ep_enc (pmul (sk_scalar X seed) (ep_base X))) <-> sc_hash X (drop 32 (sha512 X seed) ++ m) != 0.
  have := @C112_generated X zs seed m unit big; rewrite /generate_keypair /= /signature_new /= ld -sc_of_N_eq0 -/(sc_hash X _).
  case=> s [<-] e; have [acc _] := @C47_verify_exact (ed25519 X zs)
    (sig_split (pair_sign (seed, pk_of X seed) m)) m (ep_enc (pmul (sk_scalar X seed) (ep_base X))).
  by rewrite -acc e; case: eqP.
have nz : sc_hash X (drop 32 (sha512 X seed) ++ m) != 0 <->
    (of_le_bytes (sha512 X (drop 32 (sha512 X seed) ++ m)) mod N.of_nat (ep_order X) <> 0)%num.
  by rewrite /sc_hash sc_of_N_eq0; split=> [/N.eqb_spec|/N.eqb_spec].
split=> [[kp]|h]; last by exists (seed, pk_of X seed); [exact: ld | apply/key/nz].
by rewrite [ed_keypair_from_bytes _ _]ld => -[<-] v; apply/nz/key.
Qed.
Print Assumptions C112_good_for.

Theorem C112_good_seed (X : ed_curve) (zs : seq N) (seed : 32.-tuple byte) : full_size X ->
  good_seed (ed25519_keys X zs) seed <->
  forall m : Digest, (of_le_bytes (sha512 X (drop 32 (sha512 X seed) ++ m)) mod N.of_nat (ep_order X) <> 0)%num.
Proof.
move=> big; have ld : pair_from_bytes X (pair_bytes (seed, pk_of X seed)) = Some (seed, pk_of X seed).
  by rewrite /pair_from_bytes /pair_bytes sig_split_cat /= /pk_from_bytes ep_encK.
split=> [gs m|h]; first exact/(C112_good_for zs seed m big)/good_seed_for.
split=> // m; have [kp] := proj2 (C112_good_for zs seed m big) (h m).
by rewrite [ed_keypair_from_bytes _ _]ld => -[<-].
Qed.
Print Assumptions C112_good_seed.

(** The instance at the real order meets the hypothesis; there every seed gives signatures that
    verify.  With a hash that is zero everywhere none does. *)
Lemma ed_toy_full pos : full_size (ed_toy_at pos).
Proof. by rewrite /full_size ed_toy_at_order; vm_compute. Qed.
Lemma zero_size : size (nseq 64 x00) == 64%N. Proof. by []. Qed.
Definition ed_zero : ed_curve := cyc_curve ed_l_prime ed_l_odd ed_l_small (fun=> Tuple zero_size).
Lemma ed_zero_full : full_size ed_zero.
Proof. by rewrite /full_size [N.of_nat _]N2Nat.id; vm_compute. Qed.
Lemma zero_sc m : sc_hash ed_zero m = 0.
Proof. by apply/eqP; rewrite /sc_hash sc_of_N_eq0 [of_le_bytes _]/= N.mod_0_l //; have := prime_gt0 ed_l_prime; lia. Qed.

Example C112_example (zs : seq N) (seed : 32.-tuple byte) (m : Digest) :
  good_seed (ed25519_keys ed_toy zs) seed /\ ~ good_seed (ed25519_keys ed_zero zs) seed.
Proof.
split.
  refine (proj2 (@C112_good_seed ed_toy zs seed (@ed_toy_full 32)) _) => m'; exact: toy_mod_neq0.
move/(proj1 (@C112_good_seed ed_zero zs seed ed_zero_full))/(_ m).
by apply.
Qed.

(** ** C113: a stored key with another public half *)

(** The signing scalar from two signatures on one message: what is used are the signatures, the
    message and the two public halves. *)
Definition recover (X : ed_curve) (A A' : PublicKey) (m : Digest) (s s' : Signature) : scalar X :=
  (odflt 0 (sc_check X (part2 s)) - odflt 0 (sc_check X (part2 s')))
  / (hram X (part1 s) A m - hram X (part1 s') A' m).
(** Signing with the scalar [a] and the nonce [r]. *)
Definition forge (X : ed_curve) (a r : scalar X) (A : PublicKey) (m : Digest) : Signature :=
  let R := ep_enc (pmul r (ep_base X)) in Sig R (sc_bytes (hram X R A m * a + r)).

Lemma forge_valid (X : ed_curve) (zs : seq N) (seed : 32.-tuple byte) (r : scalar X) (m : Digest) :
  full_size X -> r != 0 ->
  let A := (generate_keypair (ed25519_keys X zs) seed).1 in
  signature_verify (ed25519 X zs) (forge (sk_scalar X seed) r A m) m A = Ok tt.
Proof.
move=> big r0 A; apply: (proj2 (proj1 (@verify_scP X zs _ _ _))).
exists (pmul r (ep_base X)), (pmul (sk_scalar X seed) (ep_base X)), (hram X (ep_enc (pmul r (ep_base X))) A m * sk_scalar X seed + r).
split; rewrite /= ?ep_encK ?sc_bytesK //.
  by split; apply/eqP; rewrite -/(small_order _) small_base // clamp_neq0.
by rewrite pmulD ?base_l // pmulM ?base_l // addrC.
Qed.

Lemma recoverE (X : ed_curve) (A A' R : 32.-tuple byte) (m : Digest) (a r : scalar X) :
  hram X R A m != hram X R A' m ->
  recover X A A' m (Sig R (sc_bytes (hram X R A m * a + r))) (Sig R (sc_bytes (hram X R A' m * a + r))) = a.
Proof.
move=> ne; rewrite /recover ![part2 _]/= ![part1 _]/= !sc_bytesK ![odflt _ _]/=.
by rewrite opprD addrACA subrr addr0 -mulrBl mulrAC divff ?mul1r // subr_eq0.
Qed.

(** The secret bytes of a generated key are stored twice, once with their own public half [A]
    and once with [A'], any 32 bytes that decompress.  Both load, and both sign.  If the two
    challenges differ, the two signatures on one message give away the signing scalar, and with
    it valid signatures on all messages. *)
Theorem C113_two_halves_refuted (X : ed_curve) (zs : seq N) (seed : 32.-tuple byte) (A' : PublicKey)
  (P' : ep X) (m : Digest) (Er : Type) :
  let A := (generate_keypair (ed25519_keys X zs) seed).1 in
  let R := ep_enc (pmul (sign_nonce X seed m) (ep_base X)) in
  full_size X -> ep_dec X A' = Some P' -> hram X R A m != hram X R A' m ->
  exists s s', [/\ signature_new (Er := Er) (ed25519 X zs) m [tuple of seed ++ A] = Ok s,
    signature_new (Er := Er) (ed25519 X zs) m [tuple of seed ++ A'] = Ok s'
    & forall (m' : Digest) (r : scalar X), r != 0 ->
        signature_verify (ed25519 X zs) (forge (recover X A A' m s s') r A m') m' A = Ok tt].
Proof.
move=> A R big eP ne.
exists (Sig R (sc_bytes (hram X R A m * sk_scalar X seed + sign_nonce X seed m))).
exists (Sig R (sc_bytes (hram X R A' m * sk_scalar X seed + sign_nonce X seed m))); split.
- rewrite /signature_new /= /pair_from_bytes sig_split_cat /pk_from_bytes /A /= ep_encK /=.
  by rewrite sig_split_cat.
- by rewrite /signature_new /= /pair_from_bytes sig_split_cat /pk_from_bytes eP /= sig_split_cat.
move=> m' r r0; rewrite recoverE //; exact: forge_valid.
Qed.
Print Assumptions C113_two_halves_refuted.

(** The property as worded: nobody can make, from signatures of a stored key, a signature on
    another message, even if somebody else wrote the public half. *)
Definition C113_full (X : ed_curve) (zs : seq N) : Prop :=
  ~ exists F : PublicKey -> PublicKey -> Digest -> Signature -> Signature -> Digest -> Signature,
    forall (seed : 32.-tuple byte) (A' : PublicKey) (m m' : Digest) (s s' : Signature),
    let A := (generate_keypair (ed25519_keys X zs) seed).1 in
    signature_new (Er := unit) (ed25519 X zs) m [tuple of seed ++ A] = Ok s ->
    signature_new (Er := unit) (ed25519 X zs) m [tuple of seed ++ A'] = Ok s' ->
    hram X (part1 s) A m != hram X (part1 s') A' m ->
    signature_verify (ed25519 X zs) (F A A' m s s' m') m' A = Ok tt.
Theorem C113_full_refuted (X : ed_curve) (zs : seq N) : full_size X -> ~ C113_full X zs.
Proof.
move=> big full; apply: full; exists (fun A A' m s s' => forge (recover X A A' m s s') 1 A).
move=> seed A' m m' s s' A e e' ne.
have [P' eP] : exists P', ep_dec X A' = Some P'.
  move: e'; rewrite /signature_new /= /pair_from_bytes sig_split_cat /pk_from_bytes.
  by case eP: (ep_dec X A') => [P'|] //; exists P'.
have e1 : part1 s = ep_enc (pmul (sign_nonce X seed m) (ep_base X)).
  move: e; rewrite /signature_new /= /pair_from_bytes sig_split_cat /pk_from_bytes /A /= ep_encK /=.
  by rewrite sig_split_cat => -[<-].
have e1' : part1 s' = ep_enc (pmul (sign_nonce X seed m) (ep_base X)).
  by move: e'; rewrite /signature_new /= /pair_from_bytes sig_split_cat /pk_from_bytes eP /= sig_split_cat => -[<-].
rewrite e1 e1' in ne.
have [t [t' [h h' v]]] := @C113_two_halves_refuted X zs seed A' P' m unit big eP ne.
have et : s = t by move: e h => -> [].
have et' : s' = t' by move: e' h' => -> [].
by rewrite et et'; apply: v; exact: oner_neq0.
Qed.
Print Assumptions C113_full_refuted.

(** What holds: the signature made with the public half [A'] is valid under [A'] exactly if the
    nonce is not zero, [A'] is not of small order, and the challenge kills the difference between
    [A'] and the true public key.  In particular, for [A'] in the subgroup of the base point:
    exactly if the challenge is zero or [A'] is the true key. *)
Theorem C113_exact_partial (X : ed_curve) (zs : seq N) (seed : 32.-tuple byte) (A' : PublicKey)
  (P' : ep X) (m : Digest) (Er : Type) :
  let r := sign_nonce X seed m in
  let k := hram X (ep_enc (pmul r (ep_base X))) A' m in
  let P := pmul (sk_scalar X seed) (ep_base X) in
  ep_dec X A' = Some P' ->
  exists2 s, signature_new (Er := Er) (ed25519 X zs) m [tuple of seed ++ A'] = Ok s &
    (signature_verify (ed25519 X zs) s m A' = Ok tt <->
     [/\ r != 0, P' *+ 8 <> 0 & pmul k P = pmul k P']) /\
    (P' *+ ep_order X = 0 -> signature_verify (ed25519 X zs) s m A' = Ok tt <->
     [/\ r != 0, P' != 0 & k = 0 \/ P' = P]).
Proof.
move=> r k P eP; set R := ep_enc (pmul r (ep_base X)).
exists (Sig R (sc_bytes (k * sk_scalar X seed + r))).
  by rewrite /signature_new /= /pair_from_bytes sig_split_cat /pk_from_bytes eP /= sig_split_cat.
have main : signature_verify (ed25519 X zs) (Sig R (sc_bytes (k * sk_scalar X seed + r))) m A' = Ok tt <->
     [/\ r != 0, P' *+ 8 <> 0 & pmul k P = pmul k P'].
  rewrite (proj1 (@verify_scP X zs _ _ _)); split.
    case=> [R1 [P1 [x [/= eR eP1 ex [nR nP] eq]]]].
    move: eR ex eP1; rewrite ep_encK sc_bytesK eP => -[eR] [ex] [eP1].
    rewrite -{}eR -{}ex -{}eP1 in nR nP eq; split=> //.
      by rewrite -small_base; apply/eqP.
    move: eq; rewrite pmulD ?base_l // pmulM ?base_l // addrC => /addrI; exact.
  case=> r0 nP e; exists (pmul r (ep_base X)), P', (k * sk_scalar X seed + r).
  split; rewrite /= ?ep_encK ?sc_bytesK //.
    by split=> //; apply/eqP; rewrite -/(small_order _) small_base.
  by rewrite pmulD ?base_l // pmulM ?base_l // -/P e addrC.
split=> // ol; rewrite main.
have n8 : P' *+ 8 <> 0 <-> P' != 0.
  have -> : P' *+ 8 = pmul (8%:R : scalar X) P' by rewrite pmul_nat.
  split=> [n|n0]; first by apply/eqP => z; apply: n; rewrite z pmulr0.
  by apply/eqP; rewrite pmul_eq0 // eight_neq0.
have ek : pmul k P = pmul k P' <-> k = 0 \/ P' = P.
  split=> [e|[e|e]]; [|by rewrite e !pmul0|by rewrite e].
  case: (k =P 0) => [|/eqP k0]; [by left | right].
  have z : P *+ ep_order X = 0 by exact: pmul_base_l.
  by rewrite -(pmul1 z) -(pmul1 ol) -(mulVf k0) [RHS]pmulM // pmulM // e.
by split=> [[r0 /n8 h /ek h']|[r0 /n8 h /ek h']]; split.
Qed.
Print Assumptions C113_exact_partial.

Lemma key_byte (R A m : 32.-tuple byte) : nth x00 (R ++ A ++ m) 32 = nth x00 A 0.
Proof. by rewrite nth_cat size_tuple ltnn subnn nth_cat size_tuple. Qed.

(** For every seed there is such a second half in the instance. *)
Example C113_example (zs : seq N) (seed : 32.-tuple byte) (m : Digest) :
  let A := (generate_keypair (ed25519_keys ed_toy zs) seed).1 in
  let R := ep_enc (pmul (sign_nonce ed_toy seed m) (ep_base ed_toy)) in
  exists A' P', ep_dec ed_toy A' = Some P' /\ hram ed_toy R A m != hram ed_toy R A' m.
Proof.
move=> A R; pose b (A : 32.-tuple byte) := nth x00 A 0.
have hr (A1 A2 : 32.-tuple byte) : b A1 <> b A2 -> hram ed_toy R A1 m != hram ed_toy R A2 m.
  move=> ne; apply/eqP => /(congr1 val); rewrite !toy_sc_val !key_byte.
  have inj (x y : byte) : Byte.to_N x = Byte.to_N y -> x = y.
    by move=> e; have := Byte.of_to_N x; rewrite e Byte.of_to_N => -[].
  by move=> e; apply: ne; apply: inj; rewrite /b; lia.
have bE (P : ep ed_toy) : b (ep_enc P) = nth x00 (le_bytes 32 (N.of_nat (val P))) 0 by exact: erefl.
have [P eP] : exists P : ep ed_toy, b A <> b (ep_enc P).
  case: (b A =P x00) => [->|bA]; last by exists 0; rewrite bE [val _]/=.
  exists (1%N%:R : 'Z_(8 * N.to_nat ed_l)); rewrite bE.
  have -> : val (1%N%:R : 'Z_(8 * N.to_nat ed_l)) = 1%N.
    by apply: etrans (cyc_val ed_l_prime ed_l_odd ed_l_small 1%N) _; apply: modn_small; exact: (cyc_gt1 ed_l_prime ed_l_odd ed_l_small).
  by [].
by exists (ep_enc P), P; rewrite ep_encK; split=> //; exact: hr.
Qed.
