(** * PropsOrd: C94, order, accessors and wiping of keys *)

From Coq Require Import NArith Strings.Byte.
From mathcomp Require Import all_ssreflect all_algebra zify.
From Verif Require Import Prelude Errors Engine LibModel SigmaModel CodecModel KeyModel Spec
  PreludeProofs AlgebraProofs PolyProofs CodecProofs Instance PropsPoly PropsSigma.

Set Implicit Arguments.
Unset Strict Implicit.
Unset Printing Implicit Defensive.

Import GRing.Theory.
Local Open Scope ring_scope.

Local Notation crv E := (curve (modulus E)) (only parsing).

(** ** Independent notion: a key read as a number, most significant byte first *)

Definition big_endian (s : seq byte) : N := foldl (fun v b => 256 * v + Byte.to_N b)%num 0%num s.

Lemma big_endian_acc s v :
  foldl (fun v b => 256 * v + Byte.to_N b)%num v s
  = (v * 256 ^ N.of_nat (size s) + big_endian s)%num.
Proof.
rewrite /big_endian; elim: s v => [|b s IH] v; first by rewrite /=; lia.
rewrite [foldl _ v _]/= [foldl _ 0%num (b :: s)]/= (IH (_ + _)%num) (IH (Byte.to_N b)).
rewrite [size _]/= Nat2N.inj_succ N.pow_succ_r'.
by rewrite N.mul_add_distr_r N.mul_assoc (N.mul_comm v) -N.add_assoc.
Qed.

Lemma big_endian_cons b s :
  big_endian (b :: s) = (Byte.to_N b * 256 ^ N.of_nat (size s) + big_endian s)%num.
Proof. by rewrite {1}/big_endian [foldl _ _ _]/= big_endian_acc. Qed.

Lemma big_endian_lt s : (big_endian s < 256 ^ N.of_nat (size s))%num.
Proof.
elim: s => [|b s IH] //; rewrite big_endian_cons [size _]/= Nat2N.inj_succ N.pow_succ_r'.
by have := to_N_lt b; move: (256 ^ _)%num IH => w; nia.
Qed.

Lemma slice_cmpE s s' : size s = size s' ->
  slice_cmp s s' = N.compare (big_endian s) (big_endian s').
Proof.
elim: s s' => [|b s IH] [|b' s'] // [e]; rewrite !big_endian_cons [slice_cmp _ _]/= (IH _ e) e.
have := big_endian_lt s; have := big_endian_lt s'; rewrite e.
move: (256 ^ _)%num (big_endian s) (big_endian s') => w x x' lx' lx.
case: (N.compare_spec (Byte.to_N b) (Byte.to_N b')) => [->|l|l].
- by case: (N.compare_spec x x') => h; symmetry;
    [apply/N.compare_eq_iff; lia | apply/N.compare_lt_iff; lia | apply/N.compare_gt_iff; lia].
- by symmetry; apply/N.compare_lt_iff; nia.
- by symmetry; apply/N.compare_gt_iff; nia.
Qed.

Lemma big_endian_inj s s' : size s = size s' -> big_endian s = big_endian s' -> s = s'.
Proof.
elim: s s' => [|b s IH] [|b' s'] // [e]; rewrite !big_endian_cons e.
have := big_endian_lt s; have := big_endian_lt s'; rewrite e => lx' lx h.
have eb : Byte.to_N b = Byte.to_N b'.
  by move: (256 ^ _)%num (big_endian s) (big_endian s') lx' lx h => w x x'; nia.
have -> : b = b' by rewrite -(byte_to_NK b) eb byte_to_NK.
by rewrite (IH s') //; move: h; rewrite eb; lia.
Qed.

(** ** The theorems *)

(** The derived order is the order of the keys as numbers. *)
Theorem C94_order (k k' : PublicKey) :
  public_key_cmp k k' = N.compare (big_endian k) (big_endian k') /\
  public_key_partial_cmp k k' = Some (N.compare (big_endian k) (big_endian k')).
Proof.
rewrite /public_key_partial_cmp; suff -> : public_key_cmp k k' = N.compare (big_endian k) (big_endian k').
  by split.
by apply: slice_cmpE; rewrite !size_tuple.
Qed.

(** It is total, agrees with equality, and the default key comes first. *)
Theorem C94_total_order (k k' k2 : PublicKey) :
  [/\ public_key_cmp k k' = Eq <-> k = k',
      public_key_cmp k' k = CompOpp (public_key_cmp k k'),
      public_key_cmp k k' = Lt -> public_key_cmp k' k2 = Lt -> public_key_cmp k k2 = Lt
    & public_key_cmp public_key_default k <> Gt].
Proof.
rewrite !(proj1 (C94_order _ _)); split.
- split=> [/N.compare_eq_iff e|->]; last exact: N.compare_refl.
  by apply: val_inj; apply: big_endian_inj e; rewrite !size_tuple.
- by rewrite N.compare_antisym.
- by move=> /N.compare_lt_iff l /N.compare_lt_iff l'; apply/N.compare_lt_iff; lia.
- by apply/N.compare_ngt_iff => l; have : (big_endian public_key_default = 0)%num by []; lia.
Qed.

(** The views of a digest agree with what is sent, and can be read back. *)
Theorem C94_digest (d : Digest) :
  [/\ digest_to_vec d = ser digest_codec d, digest_as_ref d = digest_to_vec d,
      digest_len d = ser_size digest_codec d, digest_len d = 32%N
    & digest_try_from (digest_to_vec d) = Ok d].
Proof.
have es s : array_ser s = s.
  by rewrite /array_ser; elim: s => // b s IH; rewrite /= IH.
have ez s : array_size s = size s.
  by rewrite /array_size; elim: s => // b s IH; rewrite /= IH.
split; first by rewrite /= es.
- by [].
- by rewrite /= ez.
- exact: size_tuple.
- by rewrite /digest_try_from /digest_to_vec valK.
Qed.

(** The derived defaults are sent as zero bytes. *)
Theorem C94_defaults :
  [/\ ser digest_codec digest_default = nseq 32 x00%byte,
      ser public_key_codec public_key_default = nseq 32 x00%byte
    & ser signature_codec signature_default = nseq 64 x00%byte].
Proof. by []. Qed.

(** A dropped secret keeps its length and loses all the rest. *)
Theorem C94_wiped (k k' : SecretKey) :
  [/\ secret_key_drop k = nseq 64 x00%byte :> seq byte, secret_key_drop k = secret_key_drop k'
    & secret_key_drop (secret_key_drop k) = secret_key_drop k].
Proof.
have e (x : SecretKey) : secret_key_drop x = nseq 64 x00%byte :> seq byte.
  have eq (s : seq byte) : map (fun _ => x00%byte) s = nseq (size s) x00%byte.
    by elim: s => //= b s ->.
  by rewrite [LHS]/= eq size_tuple.
by split; [exact: e | apply: val_inj; exact: etrans (e k) (esym (e k'))
          | apply: val_inj; exact: etrans (e _) (esym (e k))].
Qed.

(** What a system built from parameters proves or signs is accepted by everybody who holds
    these parameters, and the other way round. *)
Theorem C94_systems (E : engine) (C C1 C2 : crv E) (R : rng E) (s s' : rstate R) (m : seq byte) :
  [/\ forall g : pt C, exists2 sys, dlk_from_srs g = Ok sys &
        let: (w, x) := (dlk_generate_pair sys s').1 in let: (w', x') := (dlk_generate_pair g s').1 in
        [/\ x = w *: g, dlk_verify g x (dlk_prove sys s w).1 = Ok tt
          & dlk_verify sys x' (dlk_prove g s w').1 = Ok tt],
      forall gh : pt C1 * pt C2, exists2 sys, dleq_from_srs gh = Ok sys &
        let: (w, x) := (dleq_generate_pair sys.1 sys.2 s').1 in
        let: (w', x') := (dleq_generate_pair gh.1 gh.2 s').1 in
        [/\ x = (w *: gh.1, w *: gh.2), dleq_verify gh.1 gh.2 x (dleq_prove sys.1 sys.2 s w).1 = Ok tt
          & dleq_verify sys.1 sys.2 x' (dleq_prove gh.1 gh.2 s w').1 = Ok tt]
    & forall g : pt C, exists2 sys, schnorr_from_srs g = Ok sys &
        let: (sk, pk) := (schnorr_generate_keypair sys s').1 in
        let: (sk', pk') := (schnorr_generate_keypair g s').1 in
        [/\ pk = sk *: g, schnorr_verify g pk m (schnorr_sign sys s sk m).1 = Ok tt
          & schnorr_verify sys pk' m (schnorr_sign g s sk' m).1 = Ok tt]].
Proof.
split=> g; exists g => //.
- have [_ _] := C29_dlk_complete s s' g 0.
  by case: (dlk_generate_pair _ _).1 => w x [-> ok].
- have [_ _] := C32_dleq_complete s s' g.1 g.2 0.
  by case: (dleq_generate_pair _ _ _).1 => w x [-> ok].
- have [_ _] := C35_schnorr_complete s s' g 0 m.
  by case: (schnorr_generate_keypair _ _).1 => w x [-> ok].
Qed.
Print Assumptions C94_order.
Print Assumptions C94_total_order.
Print Assumptions C94_digest.
Print Assumptions C94_defaults.
Print Assumptions C94_wiped.
Print Assumptions C94_systems.

(** The first byte that differs decides. *)
Example C94_example :
  let k1 : PublicKey := [tuple of x02 :: nseq 31 x00]%byte in
  let k2 : PublicKey := [tuple of x01 :: nseq 31 xff]%byte in
  [/\ public_key_cmp k1 k2 = Gt, public_key_cmp k2 k1 = Lt, public_key_cmp k1 k1 = Eq,
      public_key_cmp public_key_default k2 = Lt
    & (big_endian [:: x01; x02]%byte = 258)%num].
Proof. by []. Qed.
