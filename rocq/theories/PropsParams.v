(** * PropsParams: property C77, the parameters of the sigma protocols and of Schnorr *)

From Coq Require Import NArith Strings.Byte.
From mathcomp Require Import all_ssreflect all_algebra zify.
From Verif Require Import Prelude Errors Engine SigmaModel PvssModel SetupModel
  Spec AlgebraProofs Instance PropsSigma.

Set Implicit Arguments.
Unset Strict Implicit.
Unset Printing Implicit Defensive.

Import GRing.Theory.
Local Open Scope ring_scope.

(** ** C77 *)

(** A base point is usable if every point has exactly one logarithm to it. *)
Definition usable (E : engine) (C : curve (modulus E)) (g : pt C) : Prop :=
  forall P : pt C, exists w : Fr E, P = w *: g /\ forall w', P = w' *: g -> w' = w.

(** The property as worded: whatever parameters the crate hands out are usable. *)
Definition C77_full : Prop :=
  forall (E : engine) (C C' : curve (modulus E)) (R : rng E) (s : rstate R),
  [/\ forall g, (@dlk_srs_setup E C R s).1 = Ok g -> usable g,
      forall g h, (@dleq_srs_setup E C C' R s).1 = Ok (g, h) -> usable g /\ usable h,
      forall g, (@schnorr_srs_setup E C R s).1 = Ok g -> usable g
    & forall p g, @schnorr_srs_from_generator E C p = Ok g -> usable g].

Lemma usableE (E : engine) (C : curve (modulus E)) (g : pt C) : usable g <-> g != 0.
Proof.
split=> [u|g0 P].
  apply/eqP => g0; have [w [_ uw]] := u 0.
  have e0 := uw 0; have e1 := uw 1; rewrite g0 !scaler0 in e0 e1.
  by have /eqP := etrans (e1 erefl) (esym (e0 erefl)); rewrite oner_eq0.
have [w e] := pt_cyclic P g0; exists w; split=> // w' e'.
by apply: (scale_inj (modulus_prime E) g0); rewrite -e -e'.
Qed.

(** [from_generator] takes the identity too.  Then all key pairs have the same public key,
    and everybody makes signatures that verify for it, on every message. *)
Theorem C77_identity_refuted (E : engine) (C : curve (modulus E)) :
  schnorr_srs_from_generator (0 : pt C) = Ok 0 /\
  (forall (R : rng E) (s : rstate R), (schnorr_generate_keypair (0 : pt C) s).1.2 = 0) /\
  (forall (m : seq byte) (z : Fr E), schnorr_verify (0 : pt C) 0 m (0, z) = Ok tt).
Proof.
split=> //; split=> [R s|m z].
  by rewrite /schnorr_generate_keypair; case: (rand_fr s) => sk s' /=; rewrite scaler0.
by rewrite /schnorr_verify /= !scaler0 addr0 eqxx.
Qed.
Print Assumptions C77_identity_refuted.

Theorem C77_full_refuted : ~ C77_full.
Proof.
move=> /(_ TE toy_curve toy_curve (seq_rng TE) [::])[_ _ _ /(_ 0 0 erefl)].
by move/usableE; rewrite eqxx.
Qed.
Print Assumptions C77_full_refuted.

(** What holds: set-up never fails, draws nothing, gives every party the same parameters
    whatever its generator, and they are usable; so are those made from a point that is not
    the identity, and then they are over that point. *)
Theorem C77_set_up_partial (E : engine) (C C' : curve (modulus E)) :
  [/\ exists g : pt C, usable g /\ forall (R : rng E) (s : rstate R),
        dlk_srs_setup C s = (Ok g, s) /\
        (forall w, dlk_verify g (w *: g) (dlk_prove g s w).1 = Ok tt),
      exists g h, [/\ usable (g : pt C), usable (h : pt C') & forall (R : rng E) (s : rstate R),
        dleq_srs_setup C C' s = (Ok (g, h), s) /\
        (forall w, dleq_verify g h (w *: g, w *: h) (dleq_prove g h s w).1 = Ok tt)],
      exists g : pt C, usable g /\ forall (R : rng E) (s : rstate R),
        schnorr_srs_setup C s = (Ok g, s) /\
        (forall sk m, schnorr_verify g (sk *: g) m (schnorr_sign g s sk m).1 = Ok tt)
    & forall p : pt C, p != 0 -> exists g, [/\ schnorr_srs_from_generator p = Ok g, usable g
      & forall (R : rng E) (s : rstate R), exists sk,
          (schnorr_generate_keypair g s).1 = (sk, sk *: p) /\
          forall m, schnorr_verify p (sk *: p) m (schnorr_sign g s sk m).1 = Ok tt]].
Proof.
have u (D : curve (modulus E)) : usable (pt_gen D) by apply/usableE; exact: pt_gen_neq0.
split.
- exists (pt_gen C); split=> // R s; split=> // w.
  by have [] := C29_dlk_complete s s (pt_gen C) w.
- exists (pt_gen C), (pt_gen C'); split=> // R s; split=> // w.
  by have [] := C32_dleq_complete s s (pt_gen C) (pt_gen C') w.
- exists (pt_gen C); split=> // R s; split=> // sk m.
  by have [] := C35_schnorr_complete s s (pt_gen C) sk m.
move=> p p0; exists p; split=> //; first exact/usableE.
move=> R s; exists (rand_fr s).1; rewrite /schnorr_generate_keypair.
case er: (rand_fr s) => [sk s'] /=; split=> // m.
by have [] := C35_schnorr_complete s s p sk m.
Qed.
Print Assumptions C77_set_up_partial.

(** The point 4 of the toy curve is usable; two key pairs over it differ. *)
Example C77_example :
  @usable TE toy_curve (f 4) /\
  (@schnorr_generate_keypair TE toy_curve (seq_rng TE) (f 4) [:: f 5]).1.2
  != (@schnorr_generate_keypair TE toy_curve (seq_rng TE) (f 4) [:: f 6]).1.2.
Proof. by split; [apply/usableE; vm_compute | vm_compute]. Qed.
