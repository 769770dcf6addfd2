(** * PropsEdUnique: C115, all the signatures that are valid under a generated key; and how many
    coefficients let a bad batch through (C114) *)

From Coq Require Import NArith Strings.Byte.
From mathcomp Require Import all_ssreflect all_algebra zify.
From Verif Require Import Prelude Pratt Errors Engine LibModel CodecModel CodecProofs BTreeMap PolyModel
  SigmaModel PvssModel SetupModel Spec Instance PropsShare PropsHash PropsSetup EdModel EdProofs EdInstance PropsEd PropsEdBatch.

Set Implicit Arguments.
Unset Strict Implicit.
Unset Printing Implicit Defensive.

Import GRing.Theory.
Local Open Scope ring_scope.

Arguments sc_check : simpl never.
Arguments sc_of_N : simpl never.
Arguments sc_hash : simpl never.
Arguments sig_from_bytes : simpl never.
Arguments pk_from_bytes : simpl never.
Arguments pmul : simpl never.

(** ** C115 *)

(** Under any key, honest or not, a digest and a first part leave at most one second part: a
    valid signature cannot be changed into another one without a new first part. *)
Theorem C115_second_part (X : ed_curve) (zs : seq N) (s s' : Signature) (m : Digest) (pk : PublicKey) :
  signature_verify (ed25519 X zs) s m pk = Ok tt -> signature_verify (ed25519 X zs) s' m pk = Ok tt ->
  part1 s = part1 s' -> s = s'.
Proof.
move/(proj1 (proj1 (@verify_scP X zs _ _ _))) => [R [P [x [eR eP ex _ e]]]].
move/(proj1 (proj1 (@verify_scP X zs _ _ _))) => [R' [P' [x' [eR' eP' ex' _ e']]]].
case: s s' eR ex e eR' ex' e' => R0 s0 [R0' s0'] /= eR ex e eR' ex' e' e1.
congr Sig => //; apply: (sc_check_inj ex); rewrite ex'; congr Some.
apply: base_inj; rewrite e e'; move: eR' eP'; rewrite -e1 eR eP => -[->] [->].
by [].
Qed.
Print Assumptions C115_second_part.

(** The number in a generated key, as RFC 8032 takes it from the seed: the lower half of the
    hash, with the three lowest bits and the highest bit cleared and the second highest set. *)
Definition seed_number (X : ed_curve) (seed : 32.-tuple byte) : N :=
  let h := of_le_bytes (take 32 (sha512 X seed)) in
  (8 * ((h / 8) mod 2 ^ 251) + 2 ^ 254)%num.

Lemma clampE v : clamp v = (8 * ((v / 8) mod 2 ^ 251) + 2 ^ 254)%num.
Proof.
rewrite /clamp N.add_comm; congr N.add.
have -> : (2 ^ 254 = 8 * 2 ^ 251)%num by vm_compute.
by rewrite N.mod_mul_r // N.add_comm N.add_sub.
Qed.

(** What is valid under a generated key: the point [r B], for a number [r] between zero and the
    order, and the number [k a + r], where [a] is the number in the key and [k] the challenge. *)
Theorem C115_valid_exact (X : ed_curve) (zs : seq N) (seed : 32.-tuple byte) (s : Signature) (m : Digest) :
  let A := (generate_keypair (ed25519_keys X zs) seed).1 in
  let l := N.of_nat (ep_order X) in
  let k := of_le_bytes (sha512 X (part1 s ++ A ++ m)) in
  full_size X ->
  signature_verify (ed25519 X zs) s m A = Ok tt <->
  exists r : N, [/\ (0 < r < l)%num, ep_dec X (part1 s) = Some (ep_base X *+ N.to_nat r)
    & of_le_bytes (part2 s) = ((k * seed_number X seed + r) mod l)%num].
Proof.
move=> A l k big; rewrite (proj1 (@verify_scP X zs _ _ _)).
set B := ep_base X; set a := sk_scalar X seed.
have lp := ep_prime X; have l0 : l <> 0%num by rewrite /l; have := prime_gt0 lp; lia.
have eA : ep_dec X A = Some (pmul a B) by rewrite /A /= ep_encK.
have a0 : a != 0 by exact: clamp_neq0.
have sN (v : N) : sc_of_N X v = (N.to_nat v)%:R.
  apply: val_inj; rewrite /sc_of_N !sc_val; have h := N.mod_lt v l l0.
  rewrite modn_small; last by rewrite -[ep_order X]Nat2N.id -/l; lia.
  by rewrite Pratt.to_nat_mod // /l Nat2N.id.
have num r : sc_hash X (part1 s ++ A ++ m) * a + (N.to_nat r)%:R = sc_of_N X (k * seed_number X seed + r).
  rewrite sN Pratt.to_natD Pratt.to_natM natrD natrM; congr (_ * _ + _); first by rewrite -sN.
  by rewrite -sN /a /sk_scalar /sk_number clampE.
split.
  case=> [R [P [x [eR eP ex [nR nP] e]]]].
  move: eP; rewrite eA => -[eP]; rewrite -{}eP in nP e.
  set kk := sc_hash _ _ in e; pose r := x - kk * a.
  have ekP : pmul kk (pmul a B) = pmul (kk * a) B by rewrite pmulM ?base_l.
  have eRr : R = pmul r B by rewrite /r pmulB ?base_l // e ekP addrK.
  have lr : (val r < ep_order X)%N := sc_lt r.
  have er : (N.to_nat (N.of_nat (val r)))%:R = r by rewrite Nat2N.id sc_natr.
  exists (N.of_nat (val r)); split.
  - split; last by rewrite /l; lia.
    have : r != 0 by apply/eqP => z; apply: nR; rewrite eRr z pmul0 mul0rn.
    case: (posnP (val r)) => [z|]; last by lia.
    by rewrite -[r]sc_natr z eqxx.
  - by rewrite eR eRr Nat2N.id.
  have ev : x = sc_of_N X (k * seed_number X seed + N.of_nat (val r)).
    by rewrite -num er /r addrC subrK.
  move: ex; rewrite /sc_check; case: ifP => // /N.ltb_lt lS /(congr1 (oapp val 0%N)).
  rewrite [LHS]val_small // ev => h; apply: N2Nat.inj; rewrite h.
  by apply: val_small; exact: N.mod_lt.
case=> r [[r0 rl] eR eS].
have rr : pmul ((N.to_nat r)%:R : scalar X) B = B *+ N.to_nat r by rewrite pmul_nat ?base_l.
have rn0 : ((N.to_nat r)%:R : scalar X) != 0.
  by rewrite sc_natr_eq0; apply/negP => /dvdn_leq; rewrite /l in rl; lia.
exists (B *+ N.to_nat r), (pmul a B), (sc_of_N X (k * seed_number X seed + r)); split=> //.
- by rewrite /sc_check eS -/l; have /N.ltb_lt -> := N.mod_lt (k * seed_number X seed + r) l l0.
- by rewrite -rr; split; apply/eqP; rewrite -/(small_order _) small_base.
- by rewrite -num pmulD ?base_l // rr addrC pmulM ?base_l.
Qed.
Print Assumptions C115_valid_exact.

(** Two valid signatures with one first part on digests with different challenges: together they
    are as good as the key. *)
Definition solve (X : ed_curve) (A : PublicKey) (m m' : Digest) (s s' : Signature) : scalar X :=
  (odflt 0 (sc_check X (part2 s)) - odflt 0 (sc_check X (part2 s')))
  / (hram X (part1 s) A m - hram X (part1 s') A m').
Theorem C115_nonce_reuse (X : ed_curve) (zs : seq N) (seed : 32.-tuple byte) (s s' : Signature) (m m' : Digest) :
  let A := (generate_keypair (ed25519_keys X zs) seed).1 in
  full_size X ->
  signature_verify (ed25519 X zs) s m A = Ok tt -> signature_verify (ed25519 X zs) s' m' A = Ok tt ->
  part1 s = part1 s' -> hram X (part1 s) A m != hram X (part1 s) A m' ->
  forall (m'' : Digest) (r : scalar X), r != 0 ->
    signature_verify (ed25519 X zs) (forge (solve X A m m' s s') r A m'') m'' A = Ok tt.
Proof.
move=> A big v v' e1 ne m'' r r0.
have eA : ep_dec X A = Some (pmul (sk_scalar X seed) (ep_base X)) by rewrite /A /= ep_encK.
have -> : solve X A m m' s s' = sk_scalar X seed; last exact: forge_valid.
move: v v' => /(proj1 (proj1 (@verify_scP X zs _ _ _))) [R [P [x [eR eP ex _ e]]]].
move=> /(proj1 (proj1 (@verify_scP X zs _ _ _))) [R' [P' [x' [eR' eP' ex' _ e']]]].
move: eP eP' eR'; rewrite eA -e1 eR => -[eP] [eP'] [eRR']; rewrite -{}eP in e; rewrite -{}eP' -{}eRR' -e1 in e'.
rewrite /solve ex ex' [odflt _ _]/= [odflt _ _]/= -e1.
rewrite -/(hram X (part1 s) A m) -pmulM ?base_l // in e; rewrite -/(hram X (part1 s) A m') -pmulM ?base_l // in e'.
have -> : x - x' = (hram X (part1 s) A m - hram X (part1 s) A m') * sk_scalar X seed.
  apply: base_inj; rewrite mulrBl !pmulB ?base_l // e e'.
  by rewrite opprD addrACA subrr add0r.
by rewrite mulrAC divff ?mul1r // subr_eq0.
Qed.
Print Assumptions C115_nonce_reuse.

(** ** C114: how many coefficients *)

(** The coefficients as the batch verifier draws them: one of [K] values for each vote, [K] being
    [2^128], below the order. *)
Definition drawn (K n : nat) (z : {ffun 'I_n -> 'I_K}) : seq N := [seq N.of_nat (val (z i)) | i <- enum 'I_n].
Lemma nth_drawn K n (z : {ffun 'I_n -> 'I_K}) (i : 'I_n) : nth 0%num (drawn z) i = N.of_nat (val (z i)).
Proof. by rewrite /drawn (nth_map i) ?size_enum_ord // nth_ord_enum. Qed.

Theorem C114_count_partial (X : ed_curve) (K n : nat) (m : Digest) (votes : seq (PublicKey * Signature)) (j : 'I_n.+1) :
  (K <= ep_order X)%N -> size votes = n.+1 -> defect X m (nth (m, Sig m m) votes j) *+ 8 <> 0 ->
  (#|[set z : {ffun 'I_n.+1 -> 'I_K} |
      is_ok (signature_verify_batch (ed25519 X (drawn z)) m votes)]| <= K ^ n)%N.
Proof.
move=> leK sz bad; set A := [set z | _].
pose f (z : {ffun 'I_n.+1 -> 'I_K}) : {ffun 'I_n -> 'I_K} := [ffun i => z (lift j i)].
suff inj : {in A &, injective f}.
  by rewrite -(card_in_imset inj); apply: leq_trans (max_card _) _; rewrite card_ffun !card_ord.
have lt (z : {ffun 'I_n.+1 -> 'I_K}) i : (N.of_nat (val (z i)) < N.of_nat (ep_order X))%num.
  by have := ltn_ord (z i); rewrite -[nat_of_ord _]/(val _); lia.
move=> z z'; rewrite !inE => az az' ef.
have off i : i != j -> z i = z' i.
  by case: (unliftP j i) => [k ->|->]; [move=> _; move/ffunP/(_ k): ef; rewrite !ffunE | rewrite eqxx].
have okT (U : outcome crypto_error unit) : is_ok U -> U = Ok tt by case: U => [[]|e|p].
have ej : N.of_nat (val (z j)) = N.of_nat (val (z' j)).
  rewrite -!nth_drawn; apply: (@C114_sound_partial X (drawn z) (drawn z') m votes j).
  - by rewrite sz.
  - exact: bad.
  - rewrite sz => i li ne; rewrite -[i]/(val (Ordinal li)) !nth_drawn off //.
    by apply/eqP => h; apply: ne; rewrite -h.
  - by rewrite nth_drawn.
  - by rewrite nth_drawn.
  - exact: okT.
  - exact: okT.
apply/ffunP => i; case: (i =P j) => [->|/eqP/off //]; apply: val_inj; exact: Nat2N.inj ej.
Qed.
Print Assumptions C114_count_partial.

(** A group of the real order and a hash that sees, of a challenge, only the first byte of the
    digest, and of what gives the nonce nothing: two digests that differ there are signed with
    the same first part. *)
Notation ed_reuse := (ed_toy_at 64).
Lemma digest_byte (R A m : 32.-tuple byte) : nth x00 (R ++ A ++ m) 64 = nth x00 m 0.
Proof. by rewrite nth_cat size_tuple nth_cat size_tuple. Qed.
Lemma reuse_nonce (seed m : 32.-tuple byte) : val (sign_nonce ed_reuse seed m) = 1%N.
Proof.
rewrite /sign_nonce toy_sc_val nth_default //.
by rewrite size_cat size_drop !size_tuple.
Qed.
Lemma signed_with (X : ed_curve) (zs : seq N) (seed : 32.-tuple byte) (m : Digest) :
  full_size X -> sign_nonce X seed m != 0 ->
  let A := (generate_keypair (ed25519_keys X zs) seed).1 in
  let s := forge (sk_scalar X seed) (sign_nonce X seed m) A m in
  signature_verify (ed25519 X zs) s m A = Ok tt /\ part1 s = ep_enc (pmul (sign_nonce X seed m) (ep_base X)).
Proof. by move=> big n0; split=> //; exact: forge_valid. Qed.

Example C115_example (zs : seq N) (seed : 32.-tuple byte) (m m' : Digest) : nth x00 m 0 <> nth x00 m' 0 ->
  let A := (generate_keypair (ed25519_keys ed_reuse zs) seed).1 in
  full_size ed_reuse /\
  exists s s' : Signature,
  [/\ signature_verify (ed25519 ed_reuse zs) s m A = Ok tt, signature_verify (ed25519 ed_reuse zs) s' m' A = Ok tt,
      part1 s = part1 s' & hram ed_reuse (part1 s) A m != hram ed_reuse (part1 s) A m'].
Proof.
move=> ne A; split; first exact: ed_toy_full.
have n0 m1 : sign_nonce ed_reuse seed m1 != 0.
  exact: toy_sc_neq0.
have [v e] := @signed_with ed_reuse zs seed m (@ed_toy_full 64) (n0 m).
have [v' e'] := @signed_with ed_reuse zs seed m' (@ed_toy_full 64) (n0 m').
eexists; eexists; split; [exact: v | exact: v' | |].
  rewrite e e'; congr (ep_enc (pmul _ _)); apply: val_inj; exact: etrans (reuse_nonce _ _) (esym (reuse_nonce _ _)).
apply/eqP => /(congr1 val); rewrite /hram !toy_sc_val !digest_byte => h; apply: ne.
have inj (x y : byte) : Byte.to_N x = Byte.to_N y -> x = y.
  by move=> h'; have := Byte.of_to_N x; rewrite h' Byte.of_to_N => -[].
by apply: inj; lia.
Qed.

(** Both signatures off, two votes, coefficients of 128 bits: at most [2^128] of the [2^256] pairs. *)
Example C114_count_example (m : Digest) :
  (N.to_nat (2 ^ 128) <= ep_order ed_toy)%N /\
  defect ed_toy m (nth (m, Sig m m) [:: @off_by ed_toy m 1 1 1; @off_by ed_toy m 1 1 (- 1)] 0) *+ 8 <> 0.
Proof.
split; last exact: off_defect8.
have := @ed_toy_at_order 32; have : (2 ^ 128 <= ed_l)%num by vm_compute.
by move: ed_l (2 ^ 128)%num (ep_order _) => a c d; lia.
Qed.
