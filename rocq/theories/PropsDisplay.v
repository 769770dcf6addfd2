(** * PropsDisplay: C83, what the error texts tell *)

From Coq Require Import NArith Strings.Byte Strings.String.
From mathcomp Require Import all_ssreflect zify.
From Verif Require Import Prelude Errors Base64Model DisplayModel PreludeProofs.

Set Implicit Arguments.
Unset Strict Implicit.
Unset Printing Implicit Defensive.

(** ** Decimal numbers

    The value of a text of digits, read from the left. *)
Definition value (s : text) : nat := foldl (fun v b => 10 * v + (bnat b - 48)) 0 s.
Definition is_digit (b : byte) : bool := 48 <= bnat b <= 57.

Lemma digitE d : d < 10 -> bnat (digit d) = 48 + d.
Proof. by case: d => [|[|[|[|[|[|[|[|[|[|d]]]]]]]]]]. Qed.

Lemma value_rcons s b : value (rcons s b) = 10 * value s + (bnat b - 48).
Proof. by rewrite /value foldl_rcons. Qed.

Lemma digitsP k n : n < k ->
  [/\ value (digits k n) = n, all is_digit (digits k n)
    & exists d s, digits k n = digit d :: s /\ (d < 10) && ((0 < d) || (n == 0) && (s == [::]))].
Proof.
elim: k n => [//|k IH] n lt; rewrite [digits _ _]/=; case: ltnP => [n10|n10].
  split; first by rewrite /value /= digitE // addKn.
    by rewrite /= /is_digit digitE // andbT; lia.
  by exists n, [::]; split=> //; rewrite n10 lt0n eqxx andbT orNb.
have lt' : n %/ 10 < k by move: lt n10; lia.
have [v a [d [s [e h]]]] := IH _ lt'; have m10 : n %% 10 < 10 by rewrite ltn_mod.
split.
- by rewrite value_rcons v digitE // addKn mulnC -divn_eq.
- by rewrite all_rcons a /is_digit digitE // andbT; lia.
exists d, (rcons s (digit (n %% 10))); rewrite e; split=> //.
move: h => /andP[-> /orP[-> //|/andP[/eqP e0 _]]]; move: (divn_eq n 10); lia.
Qed.

(** The decimal text of [n]: digits only, of value [n], no leading zero. *)
Theorem C83_decimal (n : nat) :
  [/\ value (decimal n) = n, all is_digit (decimal n), decimal n != [::]
    & (head x30 (decimal n) == x30) = (n == 0)].
Proof.
have [v a [d [s [e /andP[d10 h]]]]] := @digitsP n.+1 n (ltnSn n).
rewrite /decimal v; split=> //; first by rewrite e.
rewrite e /=; have -> : (digit d == x30) = (d == 0).
  by move: d10 {e h}; case: d => [|[|[|[|[|[|[|[|[|[|d]]]]]]]]]].
move: h => /orP[d0|/andP[/eqP n0 _]]; last first.
  by rewrite n0 eqxx; move: e; rewrite n0 => -[]; case: (d) d10 => [|[|[|[|[|[|[|[|[|[|?]]]]]]]]]].
rewrite eqn0Ngt d0; case: n e {v a} => [|n] //.
by case; case: (d) d0 d10 => [|[|[|[|[|[|[|[|[|[|?]]]]]]]]]].
Qed.
Print Assumptions C83_decimal.

Lemma decimal_inj : injective decimal.
Proof.
by move=> m n e; have [v _ _ _] := C83_decimal m; have [v' _ _ _] := C83_decimal n; rewrite -v -v' e.
Qed.

(** ** Reading the fields back *)

(** [r] does not start with a digit. *)
Definition stops (r : text) : bool := if r is b :: _ then ~~ is_digit b else true.

Lemma decimal_sep m n r r' : stops r -> stops r' -> decimal m ++ r = decimal n ++ r' -> m = n /\ r = r'.
Proof.
move=> sr sr'; have [_ dm _ _] := C83_decimal m; have [_ dn _ _] := C83_decimal n.
suff h a a' : all is_digit a -> all is_digit a' -> a ++ r = a' ++ r' -> a = a' /\ r = r'.
  by move=> /(h _ _ dm dn)[/decimal_inj].
elim: a a' => [|b a IH] [|b' a'] //=.
- by move=> _ /andP[d' _] e; move: sr; rewrite e /= d'.
- by move=> /andP[d _] _ e; move: sr'; rewrite -e /= d.
by move=> /andP[_ da] /andP[_ da'] [-> /(IH _ da da')[-> ->]].
Qed.

(** Two texts that differ at a position both have. *)
Definition clash (l l' : text) : bool := has (fun bb => bb.1 != bb.2) (zip l l').

Lemma clash_cat l l' r r' : clash l l' -> l ++ r <> l' ++ r'.
Proof.
rewrite /clash; elim: l l' => [|b l IH] [|b' l'] //= /orP[/eqP h|h] [// e].
exact: IH h.
Qed.

(** ** The texts tell the errors apart *)

Lemma cat_injr (l r r' : text) : l ++ r = l ++ r' -> r = r'.
Proof. by elim: l => [//|b l IH] [/IH]. Qed.

(** The fields after a literal: each number ends where the next literal starts. *)
Lemma field1 l m m' : l ++ decimal m = l ++ decimal m' -> m = m'.
Proof. by move/cat_injr/decimal_inj. Qed.

Lemma field l m m' r r' :
  stops r -> stops r' -> l ++ decimal m ++ r = l ++ decimal m' ++ r' -> m = m' /\ r = r'.
Proof. by move=> sr sr' /cat_injr/(decimal_sep sr sr'). Qed.

Theorem C83_equation (e e' : verify_proof_equation) :
  display_equation e = display_equation e' -> e = e'.
Proof. by case: e; case: e'. Qed.

Theorem C83_nizk (ser : serialization_error -> text) :
  injective ser -> injective (display_nizk ser).
Proof. by move=> inj [||||s] [||||s'] // /cat_injr/inj ->. Qed.
Print Assumptions C83_nizk.

Theorem C83_signature (ser : serialization_error -> text) :
  injective ser -> injective (display_signature ser).
Proof.
move=> inj [|q||||| s|a b c] [|q'||||| s'|a' b' c'] //.
- by case: q; case: q'.
- by move/cat_injr/inj ->.
- by move/(@field (lit "Different lengths in batch verification: ")) => []// -> /field[]// -> /field1 ->.
Qed.
Print Assumptions C83_signature.

Theorem C83_pvss (ser : serialization_error -> text) (point : text) :
  injective ser -> injective (display_pvss ser point).
Proof.
move=> inj e e'; case: e => [|||i|a b c|||||a b|a b||a b|a b|a b|a b c d|||a b||||||||||||sg|s];
  case: e' => [|||i'|a' b' c'|||||a' b'|a' b'||a' b'|a' b'|a' b'|a' b' c' d'|||a' b'||||||||||||sg'|s'] //;
  try by [move/field1 -> | move/field => []// -> /field1 ->].
- by move/field => []// -> /field[]// -> /field[]// -> _.
- by move/field => []// -> /field[]// -> /field[]// -> /field1 ->.
- by move/cat_injr/(C83_signature inj) ->.
- by move/cat_injr/inj ->.
Qed.
Print Assumptions C83_pvss.

(** Any distinct texts for the serialization errors meet the hypothesis (these are written after
    those of ark-serialize, which is not in /repo).  The
    numbers of an error can be read off its text; two enumerations share a text, which never
    matters because [PVSSError] has no case that wraps a [NIZKError]. *)
Definition ark_text (e : serialization_error) : text :=
  match e with
  | NotEnoughSpace => lit "the last byte does not have enough space to encode the extra info bits"
  | InvalidData => lit "the input buffer contained invalid data"
  | UnexpectedFlags => lit "the call expects empty flags"
  | IoError => lit "I/O error"
  end.

Example C83_example :
  injective ark_text /\
  [&& display_pvss ark_text [::] (MismatchedCommitmentsError 10 907)
      == lit "Mismatched commitment vector lengths. First has: 10, Second has: 907",
      display_pvss ark_text [::] (PvssSignatureError (BatchVerification 1 0 23))
      == lit "Signature error: Different lengths in batch verification: 1, 0, 23",
      display_signature ark_text (AlgebraicVerifyProof Eq2) == lit "Failed verifying equation `Eq2`"
    & display_nizk ark_text NizkSRSSetupError == display_signature ark_text SigSRSSetupError].
Proof. by split; [case; case | vm_compute]. Qed.
