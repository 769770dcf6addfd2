(** * PropsPrint: what the printed forms of digests and keys tell (C73, C74) *)

From Coq Require Import NArith Strings.Byte.
From mathcomp Require Import all_ssreflect zify.
From Verif Require Import Prelude LibModel Base64Model PropsText.

Set Implicit Arguments.
Unset Strict Implicit.
Unset Printing Implicit Defensive.

(** ** C73 *)

Section C73.
Variable Er : Type.

(** The full statement: digests and public keys that print alike are equal. *)
Definition C73_full : Prop :=
  (forall d d' : 32.-tuple byte, @digest_display Er d = digest_display d' -> d = d') /\
  (forall k k' : 32.-tuple byte, @public_key_display Er k = public_key_display k' -> k = k').

Lemma b64_encode_cat s r : 3 %| size s -> b64_encode (s ++ r) = b64_encode s ++ b64_encode r.
Proof.
by elim/ind3: s => //= a b c s IH h; rewrite IH.
Qed.

Lemma take16_b64 s : 12 <= size s -> take 16 (b64_encode s) = b64_encode (take 12 s).
Proof.
move=> h; have e : size (take 12 s) = 12 by rewrite size_takel.
rewrite -{1}(cat_take_drop 12 s) b64_encode_cat ?e // take_size_cat //.
by rewrite size_b64_encode e.
Qed.

Lemma b64_encode_inj : injective b64_encode.
Proof. by move=> s r /(congr1 b64_decode); rewrite !b64_decodeK => -[]. Qed.

(** What holds: [Display] shows exactly the first 12 bytes. *)
Theorem C73_display_partial (d d' : 32.-tuple byte) :
  (@digest_display Er d = digest_display d' <-> take 12 d = take 12 d') /\
  (@public_key_display Er d = public_key_display d' <-> take 12 d = take 12 d').
Proof.
have [-> ->] := C41_display d d (Er := Er); have [-> ->] := C41_display d' d' (Er := Er).
rewrite /public_key_to_base64 !take16_b64 ?size_tuple //.
by split; split=> [[/b64_encode_inj]|->].
Qed.

(** [Debug] shows all of them. *)
Theorem C73_debug : injective digest_debug /\ injective public_key_debug.
Proof. by split=> k k' /b64_encode_inj /val_inj. Qed.

(** Whatever the key, another one prints alike: [tweak] changes the last byte. *)
Definition tweak (k : 32.-tuple byte) : seq byte :=
  rcons (take 31 k) (if nth x00 k 31 == x00 then x01 else x00)%byte.
Lemma tweak_size k : size (tweak k) == 32.
Proof. by rewrite size_rcons size_takel ?size_tuple. Qed.
Definition tweaked (k : 32.-tuple byte) : 32.-tuple byte := Tuple (tweak_size k).

Theorem C73_same_display_refuted (k : 32.-tuple byte) :
  tweaked k <> k /\
  @digest_display Er (tweaked k) = digest_display k /\
  @public_key_display Er (tweaked k) = public_key_display k.
Proof.
split.
  move=> /(congr1 (fun x => nth x00%byte (tval x) 31)) /=.
  rewrite /tweak nth_rcons size_takel ?size_tuple // ltnn eqxx.
  by case: ifP => [/eqP->|/eqP h e] //; apply: h.
have e : take 12 (tweaked k) = take 12 k.
  by rewrite /= /tweak -cats1 takel_cat ?size_takel ?size_tuple // take_take.
by have [h1 h2] := C73_display_partial (tweaked k) k; split; [apply/h1|apply/h2].
Qed.

Theorem C73_full_refuted : ~ C73_full.
Proof.
case=> _ h; have [ne [_ /h e]] := C73_same_display_refuted [tuple of nseq 32 x00%byte].
exact: ne.
Qed.

End C73.

(** Cases: two keys that differ in the last byte, and two that differ in the twelfth. *)
Example C73_example :
  let k := [tuple of nseq 32 x41%byte] in
  let k' := [tuple of nseq 11 x41%byte ++ nseq 21 x42%byte] in
  tval (tweaked k) <> k /\ take 12 (tweaked k) = take 12 k /\
  (public_key_display (Er := unit) k' : outcome unit _) <> public_key_display k.
Proof.
split; [by vm_compute|split; first by vm_compute].
have [_ h] := C73_display_partial unit [tuple of nseq 11 x41%byte ++ nseq 21 x42%byte]
                [tuple of nseq 32 x41%byte].
by move/h; vm_compute.
Qed.

(** ** C74 *)

(** The full statement: the printed form of a secret key does not determine the key; no
    function of it gives the key back. *)
Definition C74_full : Prop :=
  forall f : seq byte -> SecretKey, exists k : SecretKey, f (secret_key_debug k) <> k.

(** It does: the crate's own [from_base64] reads the printed form back. *)
Theorem C74_read_back_refuted (k : SecretKey) :
  secret_key_from_base64 (secret_key_debug k) = Ok k.
Proof. exact: C41_secret_key_text. Qed.

Theorem C74_full_refuted : ~ C74_full.
Proof.
pose f s := if secret_key_from_base64 s is Ok k then k else [tuple of nseq 64 x00%byte].
by move=> /(_ f)[k]; rewrite /f C74_read_back_refuted.
Qed.

(** What holds: it is 88 symbols of the alphabet or pad characters; nothing else of the key
    shows, and it never panics.  A public key's printed form is shorter, so neither is ever
    taken for the other. *)
Theorem C74_shape_partial (k : SecretKey) (p : PublicKey) :
  size (secret_key_debug k) = 88 /\
  all (fun c => (c \in alphabet) || (c == PAD_BYTE)) (secret_key_debug k) /\
  secret_key_debug k <> public_key_debug p.
Proof.
have e : size (secret_key_debug k) = 88 by rewrite size_b64_encode size_tuple.
split=> //; split; last first.
  by move=> /(congr1 size); rewrite e size_b64_encode size_tuple.
have sy n : n < 64 -> symbol n \in alphabet by move=> h; apply: mem_nth; rewrite size_map.
have bl := bnat_lt.
rewrite /secret_key_debug /secret_key_to_base64; elim/ind3: (tval k) => //=.
- by move=> a; have := bl a => ha; rewrite !sy //; lia.
- by move=> a b; have := bl a; have := bl b => ha hb; rewrite !sy //; lia.
by move=> a b c s ->; have := bl a; have := bl b; have := bl c => ha hb hc; rewrite !sy //; lia.
Qed.

Example C74_example : secret_key_debug [tuple of nseq 64 x00%byte] = nseq 86 x41%byte ++ nseq 2 x3d%byte.
Proof. by vm_compute. Qed.
