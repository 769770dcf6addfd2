(** * PropsText: C41 and C42, the base64 text forms *)

From Coq Require Import NArith Strings.Byte Strings.String.
From mathcomp Require Import all_ssreflect zify.
From Verif Require Import Prelude Errors LibModel Base64Model PreludeProofs CodecProofs.

Set Implicit Arguments.
Unset Strict Implicit.
Unset Printing Implicit Defensive.

(** ** What base64 is (RFC 4648)

    The symbols of the text, six bits each, spell the bits of the data, followed by fewer
    than six zero bits; pad characters fill the text to a multiple of four. *)

Definition bits (w n : nat) : seq bool := [seq odd (n %/ 2 ^ (w - i.+1)) | i <- iota 0 w].
Definition data_bits (s : seq byte) : seq bool := flatten [seq bits 8 (bnat b) | b <- s].
(** Table 1 of the RFC, and the pad character. *)
Definition rfc_table : seq byte := list_byte_of_string
  "ABCDEFGHIJKLMNOPQRSTUVWXYZabcdefghijklmnopqrstuvwxyz0123456789+/".
Definition rfc_pad : seq byte := list_byte_of_string "=".
Definition rfc4648 (text data : seq byte) : Prop :=
  exists vs pads zeros,
    [/\ text = [seq nth x00%byte rfc_table v | v <- vs] ++ flatten (nseq pads rfc_pad),
        all (fun v => v < 64) vs,
        flatten [seq bits 6 v | v <- vs] = data_bits data ++ nseq zeros false,
        zeros < 6 /\ pads < 3
      & size text %% 4 = 0].

(** ** Symbols *)

Lemma bnat_lt b : bnat b < 256. Proof. by case: b. Qed.
Lemma bnatK b : natb (bnat b) = b. Proof. by case: b. Qed.
Lemma natbK n : n < 256 -> bnat (natb n) = n.
Proof.
move=> h; have : all (fun n => bnat (natb n) == n) (iota 0 256) by vm_compute.
by move/allP/(_ n); rewrite mem_iota h => /(_ isT)/eqP.
Qed.

Lemma symbol_valueK n : n < 64 -> symbol_value (symbol n) = Some n.
Proof.
move=> h; have : all (fun n => symbol_value (symbol n) == Some n) (iota 0 64) by vm_compute.
by move/allP/(_ n); rewrite mem_iota h => /(_ isT)/eqP.
Qed.
Lemma symbol_pad n : n < 64 -> (symbol n == PAD_BYTE) = false.
Proof.
move=> h; have : all (fun n => symbol n != PAD_BYTE) (iota 0 64) by vm_compute.
by move/allP/(_ n); rewrite mem_iota h => /(_ isT)/negPf.
Qed.
Lemma symbol_of_value c n : symbol_value c = Some n -> n < 64 /\ c = symbol n.
Proof.
rewrite /symbol_value; case: ifP => // h [<-]; split; last by rewrite /symbol nth_index.
by move: h; rewrite -index_mem.
Qed.

(** ** The sextets of an encoding *)

Fixpoint sextets (s : seq byte) : seq nat :=
  match s with
  | a :: b :: c :: r =>
      [:: bnat a %/ 4; bnat a %% 4 * 16 + bnat b %/ 16; bnat b %% 16 * 4 + bnat c %/ 64;
          bnat c %% 64] ++ sextets r
  | [:: a; b] => [:: bnat a %/ 4; bnat a %% 4 * 16 + bnat b %/ 16; bnat b %% 16 * 4]
  | [:: a] => [:: bnat a %/ 4; bnat a %% 4 * 16]
  | [::] => [::]
  end.
Definition pads_of (s : seq byte) : nat := (3 - size s %% 3) %% 3.

Lemma ind3 (P : seq byte -> Prop) :
  P [::] -> (forall a, P [:: a]) -> (forall a b, P [:: a; b]) ->
  (forall a b c r, P r -> P [:: a, b, c & r]) -> forall s, P s.
Proof.
move=> h0 h1 h2 h3 s; have [n] := ubnP (size s); elim: n s => // n IH.
case=> [|a [|b [|c r]]] //= h; apply: h3; apply: IH; lia.
Qed.

Lemma pads_of3 a b c r : pads_of [:: a, b, c & r] = pads_of r.
Proof. by rewrite /pads_of /=; congr ((3 - _) %% 3); lia. Qed.

Lemma b64_encodeE s :
  b64_encode s = [seq symbol v | v <- sextets s] ++ nseq (pads_of s) PAD_BYTE.
Proof.
by elim/ind3: s => // a b c r IH; rewrite pads_of3 /= IH.
Qed.

Lemma sextets_lt s : all (fun v => v < 64) (sextets s).
Proof.
have l := bnat_lt; elim/ind3: s => //= [a|a b|a b c r ->].
- by have := l a; lia.
- by have := l a; have := l b; lia.
by have := l a; have := l b; have := l c; lia.
Qed.

Lemma size_sextets s : size (sextets s) %% 4 = (size s %% 3 + (size s %% 3 != 0))%N.
Proof.
by elim/ind3: s => // a b c r /= IH; lia.
Qed.

Lemma b64_groups_sextets s : b64_groups (sextets s) = Ok s.
Proof.
have l := bnat_lt; elim/ind3: s => //= [a|a b|a b c r ->] /=.
- have la := l a; have -> : (bnat a %% 4 * 16) %% 16 == 0 by lia.
  by congr (Ok [:: _]); rewrite -[RHS]bnatK; congr natb; lia.
- have la := l a; have lb := l b; have -> : (bnat b %% 16 * 4) %% 4 == 0 by lia.
  by congr (Ok [:: _; _]); rewrite -[RHS]bnatK; congr natb; lia.
have la := l a; have lb := l b; have lc := l c.
by congr (Ok [:: _, _, _ & r]); rewrite -[RHS]bnatK; congr natb; lia.
Qed.

Lemma b64_groups_okE ms bs : all (fun v => v < 64) ms -> b64_groups ms = Ok bs ->
  ms = sextets bs.
Proof.
have [n] := ubnP (size ms); elim: n ms bs => // n IH.
case=> [|a [|b [|c [|d r]]]] bs //=; first by move=> _ _ [<-].
- move=> _ /and3P[la lb _]; case: eqP => // h [<-] /=.
  by rewrite natbK; [congr [:: _; _]; lia|lia].
- move=> _ /and4P[la lb lc _]; case: eqP => // h [<-] /=.
  by rewrite !natbK; [congr [:: _; _; _]; lia|lia|lia].
move=> hn /and5P[la lb lc ld lr]; case e: (b64_groups r) => [bs'|?|?] //= [<-] /=.
rewrite !natbK; [|lia|lia|lia]; rewrite -(IH r bs') //; last by lia.
by congr [:: _, _, _, _ & _]; lia.
Qed.

(** ** Decoding *)

Lemma find_pad vs p : all (fun v => v < 64) vs ->
  find (fun c => c == PAD_BYTE) ([seq symbol v | v <- vs] ++ nseq p PAD_BYTE) = size vs.
Proof.
elim: vs => [_|v vs IH] /=; first by case: p.
by case/andP=> lv /IH ->; rewrite symbol_pad.
Qed.

Lemma mapM_symbols vs : all (fun v => v < 64) vs ->
  mapM (fun c => ok_or (symbol_value c) Base64Error) [seq symbol v | v <- vs] = Ok vs.
Proof. by elim: vs => //= v vs IH /andP[lv /IH ->]; rewrite symbol_valueK. Qed.

Lemma b64_decodeE vs p : all (fun v => v < 64) vs -> padding_ok (size vs) p ->
  b64_decode ([seq symbol v | v <- vs] ++ nseq p PAD_BYTE) = b64_groups vs.
Proof.
move=> lv hp; rewrite /b64_decode find_pad //.
rewrite take_size_cat ?size_map // drop_size_cat ?size_map //.
by rewrite all_nseq eqxx orbT size_nseq hp mapM_symbols.
Qed.

Lemma padding_okE k p : padding_ok k p =
  (p == 0) || (k %% 4 == 2) && (p <= 2) || (k %% 4 == 3) && (p <= 1).
Proof.
rewrite /padding_ok; case: p => [|[|[|p]]] /=; rewrite ?andbT //=; lia.
Qed.

Lemma b64_decode_pads s p : p <= pads_of s ->
  b64_decode ([seq symbol v | v <- sextets s] ++ nseq p PAD_BYTE) = Ok s.
Proof.
move=> hp; rewrite b64_decodeE ?sextets_lt ?b64_groups_sextets // padding_okE.
by move: hp; rewrite /pads_of size_sextets; case: (size s %% 3) (ltn_pmod (size s) (isT : 0 < 3))
  => [|[|[|]]] //= _; lia.
Qed.

Lemma b64_decodeK s : b64_decode (b64_encode s) = Ok s.
Proof. by rewrite b64_encodeE b64_decode_pads. Qed.

Lemma b64_decode_okE s bs : b64_decode s = Ok bs ->
  exists2 p, p <= pads_of bs & s = [seq symbol v | v <- sextets bs] ++ nseq p PAD_BYTE.
Proof.
rewrite /b64_decode; set n := find _ s; case: ifP => // /andP[hpad hok].
case e: (mapM _ _) => [ms|?|?] //= hg.
have [lms eb] : all (fun v => v < 64) ms /\ take n s = [seq symbol v | v <- ms].
  elim: (take n s) ms e {hg hok hpad} => [|c r IH] ms /=; first by case=> <-.
  case ec: (symbol_value c) => [v|] //=; case er: (mapM _ r) => [vs|?|?] //= [<-] /=.
  by have [-> ->] := IH _ er; have [-> ->] := symbol_of_value ec.
have es := b64_groups_okE lms hg; exists (size (drop n s)).
  move: hok; rewrite eb size_map es padding_okE size_sextets /pads_of.
  by case: (size bs %% 3) (ltn_pmod (size bs) (isT : 0 < 3)) => [|[|[|]]] //= _; lia.
rewrite -es -eb -[LHS](cat_take_drop n s); congr (_ ++ _).
by apply/all_pred1P.
Qed.

(** ** C41 *)

(* the bit functions are abstract here so that nothing computes *)
Lemma sextets_bits (b8 b6 b4 b2 : nat -> seq bool) s :
  (forall a, b8 (bnat a) = b6 (bnat a %/ 4) ++ b2 (bnat a %% 4)) ->
  (forall a, b8 (bnat a) = b4 (bnat a %/ 16) ++ b4 (bnat a %% 16)) ->
  (forall a, b8 (bnat a) = b2 (bnat a %/ 64) ++ b6 (bnat a %% 64)) ->
  (forall x y, x < 4 -> y < 16 -> b6 (x * 16 + y) = b2 x ++ b4 y) ->
  (forall x y, x < 16 -> y < 4 -> b6 (x * 4 + y) = b4 x ++ b2 y) ->
  b2 0 = nseq 2 false -> b4 0 = nseq 4 false ->
  flatten (map b6 (sextets s))
    = flatten [seq b8 (bnat b) | b <- s] ++ nseq (2 * pads_of s) false.
Proof.
move=> l1 l3 l5 l2 l4 z2 z4; elim/ind3: s => [//|a|a b|a b c r IH].
- by rewrite /= l1 -[_ * 16]addn0 l2 ?ltn_pmod // z4 !cats0 -!catA.
- rewrite /= (l1 a) (l3 b) l2 ?ltn_pmod //; last by have := bnat_lt b; lia.
  by rewrite -[_ * 4]addn0 l4 ?ltn_pmod // z2 !cats0 -!catA.
rewrite /= IH pads_of3 (l1 a) (l3 b) (l5 c) l2 ?ltn_pmod //; last by have := bnat_lt b; lia.
by rewrite l4 ?ltn_pmod ?catA //; have := bnat_lt c; lia.
Qed.

(** [base64::encode] writes what the RFC asks. *)
Theorem C41_encode_rfc4648 s : rfc4648 (b64_encode s) s.
Proof.
have chk m n (P : nat -> nat -> bool) : all (fun x => all (P x) (iota 0 n)) (iota 0 m) ->
    forall x y, x < m -> y < n -> P x y.
  move=> h x y hx hy; move/allP/(_ x): h; rewrite mem_iota hx => /(_ isT)/allP/(_ y).
  by rewrite mem_iota hy => /(_ isT).
exists (sextets s), (pads_of s), (2 * pads_of s)%N; split.
- have -> : rfc_table = alphabet by vm_compute.
  have -> : rfc_pad = [:: PAD_BYTE] by vm_compute.
  by rewrite b64_encodeE; congr cat; elim: (pads_of s) => //= k {1}->.
- exact: sextets_lt.
- apply: (@sextets_bits (bits 8) (bits 6) (bits 4) (bits 2)) => //; try by case.
  + by move=> x y hx hy; apply/eqP; move: x y hx hy; apply: chk; vm_compute.
  by move=> x y hx hy; apply/eqP; move: x y hx hy; apply: chk; vm_compute.
- by rewrite /pads_of; split; lia.
rewrite b64_encodeE size_cat size_map size_nseq -modnDml size_sextets /pads_of.
by case: (size s %% 3) (ltn_pmod (size s) (isT : 0 < 3)) => [|[|[|]]].
Qed.

Lemma slice_to_ok {Er} k (t : k.-tuple byte) rest : slice_to (Er := Er) k (t ++ rest) = Ok t.
Proof.
rewrite /slice_to take_size_cat ?size_tuple //.
by rewrite valK.
Qed.

Lemma slice_to_short {Er} k s : size s < k ->
  slice_to (Er := Er) k s = Panic SliceOutOfBounds.
Proof.
move=> h; have e : take k s = s by apply: take_oversize; apply: ltnW.
by rewrite /slice_to e insubF // ltn_eqF.
Qed.

(** Keys survive the trip through text. *)
Theorem C41_public_key_text (k : PublicKey) :
  public_key_from_base64 (public_key_to_base64 k) = Ok k.
Proof.
by rewrite /public_key_from_base64 b64_decodeK obindE -[tval k]cats0 slice_to_ok.
Qed.

Theorem C41_secret_key_text (k : SecretKey) :
  secret_key_from_base64 (secret_key_to_base64 k) = Ok k.
Proof.
by rewrite /secret_key_from_base64 b64_decodeK obindE -[tval k]cats0 slice_to_ok.
Qed.

Theorem C41_signature_text_injective : injective signature_to_base64.
Proof.
move=> x y /(congr1 b64_decode); rewrite !b64_decodeK => -[e].
by apply: (can_inj sig_splitK); apply: val_inj.
Qed.

Lemma size_b64_encode s : size (b64_encode s) = (4 * ((size s + 2) %/ 3))%N.
Proof. by elim/ind3: s => //= a b c r ->; lia. Qed.

(** Display shows the first 16 characters and never panics. *)
Theorem C41_display (d : Digest) (k : PublicKey) {Er} :
  digest_display (Er := Er) d = Ok (take 16 (b64_encode d)) /\
  public_key_display (Er := Er) k = Ok (take 16 (public_key_to_base64 k)).
Proof.
by rewrite /digest_display /public_key_display /public_key_to_base64 /get16 !size_b64_encode
           !size_tuple.
Qed.

Example C41_example : b64_encode [:: x66; x6f; x6f; x62] = [:: x5a; x6d; x39; x76; x59; x67; x3d; x3d].
Proof. by vm_compute. Qed.

(** ** C42 *)

Definition C42_full : Prop :=
  (forall s, (forall k : 32.-tuple byte, s <> b64_encode k) -> is_err (public_key_from_base64 s)) /\
  (forall s, (forall k : 64.-tuple byte, s <> b64_encode k) -> is_err (secret_key_from_base64 s)).

(** Text that encodes fewer bytes makes the slice panic. *)
Theorem C42_short_refuted bytes :
  (size bytes < 32 -> public_key_from_base64 (b64_encode bytes) = Panic SliceOutOfBounds) /\
  (size bytes < 64 -> secret_key_from_base64 (b64_encode bytes) = Panic SliceOutOfBounds).
Proof.
split=> h; rewrite /public_key_from_base64 /secret_key_from_base64 b64_decodeK obindE;
  exact: slice_to_short.
Qed.

(** Text that encodes more bytes is accepted and cut. *)
Theorem C42_long_refuted (k : 32.-tuple byte) (k' : 64.-tuple byte) extra :
  public_key_from_base64 (b64_encode (k ++ extra)) = Ok k /\
  secret_key_from_base64 (b64_encode (k' ++ extra)) = Ok k'.
Proof.
by rewrite /public_key_from_base64 /secret_key_from_base64 !b64_decodeK !obindE !slice_to_ok.
Qed.

Theorem C42_full_refuted : ~ C42_full.
Proof.
case=> h _; have [e _] := C42_short_refuted [::].
have : is_err (public_key_from_base64 (b64_encode [::])).
  by apply: h => k /(congr1 size); rewrite !size_b64_encode size_tuple.
by rewrite e.
Qed.

(** The part that holds: an accepted text is the base64 form, with complete, partial or no
    padding, of a byte string that starts with the key; a text that is not base64 gives
    Err. *)
Theorem C42_accepted_partial s :
  (forall k, public_key_from_base64 s = Ok k ->
     exists extra p, p <= pads_of (k ++ extra) /\
       s ++ nseq p PAD_BYTE = b64_encode (k ++ extra)) /\
  (forall k, secret_key_from_base64 s = Ok k ->
     exists extra p, p <= pads_of (k ++ extra) /\
       s ++ nseq p PAD_BYTE = b64_encode (k ++ extra)).
Proof.
have gen n (k : n.-tuple byte) bs : b64_decode s = Ok bs -> slice_to (Er := decode_error) n bs = Ok k ->
  exists extra p, p <= pads_of (k ++ extra) /\ s ++ nseq p PAD_BYTE = b64_encode (k ++ extra).
  move=> /b64_decode_okE[p hp es]; rewrite /slice_to; case: insubP => // u _ eu [ek].
  exists (drop n bs); rewrite -ek eu cat_take_drop; exists (pads_of bs - p); split; first by lia.
  by rewrite b64_encodeE es -catA cat_nseq /ncons -iterD -/(ncons _ _ _) subnKC.
split=> k; rewrite /public_key_from_base64 /secret_key_from_base64;
  by case e: (b64_decode s) => [bs|?|?] //=; apply: gen.
Qed.

Lemma b64_decode_nopanic s : ~~ is_panic (b64_decode s).
Proof.
rewrite /b64_decode; case: ifP => // _; set g := fun c => _.
have : ~~ is_panic (mapM g (take (find (fun c => c == PAD_BYTE) s) s)).
  elim: (take _ _) => //= c r IH; rewrite /g; case: symbol_value => //= v.
  by move: IH; rewrite -/g; case: (mapM g r).
case: (mapM g _) => //= ms _; have [n] := ubnP (size ms); elim: n ms => // n IH.
case=> [|a [|b [|c [|d r]]]] //=; try by case: ifP.
move=> hn; have := IH r; case: (b64_groups r) => //= p; apply; lia.
Qed.

Theorem C42_malformed_partial s :
  (forall bs p, p <= pads_of bs -> s ++ nseq p PAD_BYTE <> b64_encode bs) ->
  is_err (public_key_from_base64 s) /\ is_err (secret_key_from_base64 s).
Proof.
move=> h; rewrite /public_key_from_base64 /secret_key_from_base64.
case e: (b64_decode s) => [bs|?|?] //=.
  have [p hp es] := b64_decode_okE e; case: (h bs (pads_of bs - p)); first by lia.
  by rewrite b64_encodeE es -catA cat_nseq /ncons -iterD -/(ncons _ _ _) subnKC.
by have := b64_decode_nopanic s; rewrite e.
Qed.

(** Cases: a key without its pad character is accepted, one with a stray character is not. *)
Example C42_example :
  public_key_from_base64 (take 43 (b64_encode (nseq 32 x41%byte)))
    = Ok [tuple of nseq 32 x41%byte] /\
  is_err (public_key_from_base64 (x20%byte :: b64_encode (nseq 32 x41%byte))).
Proof.
split; last by vm_compute.
have -> : take 43 (b64_encode (nseq 32 x41%byte))
  = [seq symbol v | v <- sextets (nseq 32 x41%byte)] ++ nseq 0 PAD_BYTE by vm_compute.
rewrite /public_key_from_base64 b64_decode_pads // obindE.
by have := @slice_to_ok decode_error 32 [tuple of nseq 32 x41%byte] [::]; rewrite cats0.
Qed.
