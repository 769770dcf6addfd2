(** * PropsEdOdds: C119, the odds that a session over Ed25519 fails *)

From Coq Require Import NArith Strings.Byte.
From mathcomp Require Import all_ssreflect all_algebra zify.
From Verif Require Import Prelude Errors Engine LibModel CodecModel CodecProofs BTreeMap PolyModel
  SigmaModel PvssModel SetupModel Spec PreludeProofs PvssProofs Instance PropsShare PropsAgg PropsHash
  PropsHist PropsEnd PropsVerdict PropsAttack PropsNet PropsSetup Pratt PropsCurve PropsUnbiased
  EdModel EdProofs EdInstance PropsEd PropsEdSession.

Set Implicit Arguments.
Unset Strict Implicit.
Unset Printing Implicit Defensive.

(** ** Counting *)

(** Tuples with an entry in a set that is [c] times smaller than the type: at most [n] in [c]. *)
Lemma card_has (T : finType) (bad : pred T) (c n : nat) : #|[set x | bad x]| * c <= #|T| ->
  #|[set xs : n.-tuple T | has bad xs]| * c <= n * #|{: n.-tuple T}|.
Proof.
move=> small; rewrite card_tuple; elim: n => [|n IH].
  by rewrite (_ : [set xs | _] = set0) ?cards0 //; apply/setP => xs; rewrite !inE (tuple0 xs).
pose join (p : T * n.-tuple T) : n.+1.-tuple T := [tuple of p.1 :: p.2].
have sub : [set xs : n.+1.-tuple T | has bad xs] \subset
    (join @: setX [set x | bad x] setT) :|: (join @: setX setT [set xs : n.-tuple T | has bad xs]).
  apply/subsetP => xs; rewrite !inE; case/tupleP: xs => x xs /= /orP[bx|bxs]; apply/orP; [left|right].
    by apply/imsetP; exists (x, xs); rewrite ?inE ?bx //; apply: val_inj.
  by apply/imsetP; exists (x, xs); rewrite ?inE ?bxs //; apply: val_inj.
have := leq_trans (subset_leq_card sub) (leq_card_setU _ _).
have := leq_imset_card join (mem (setX [set x | bad x] [set: n.-tuple T])).
have := leq_imset_card join (mem (setX [set: T] [set xs : n.-tuple T | has bad xs])).
rewrite !cardsX !cardsT card_tuple => h1 h2 /leq_trans/(_ (leq_add h2 h1)) h.
apply: leq_trans (_ : _ <= (#|[set x | bad x]| * #|T| ^ n + #|T| * #|[set xs : n.-tuple T | has bad xs]|) * c) _.
  by rewrite leq_mul2r h orbT.
rewrite mulnDl mulSn expnS leq_add //; first by rewrite mulnAC leq_mul2r small orbT.
by rewrite [X in _ <= X]mulnCA -[X in X <= _]mulnA leq_mul2l IH orbT.
Qed.

(** A block as a number. *)
Definition value (len : nat) (x : block len) : nat := N.to_nat (of_le_bytes (block_bytes x)).

Lemma value_inj len : injective (@value len).
Proof.
move=> x y /N2Nat.inj e; apply: val_inj.
have : block_bytes x = block_bytes y.
  by rewrite -[LHS]of_le_bytesK -[RHS]of_le_bytesK !size_block_bytes; congr le_bytes.
apply: inj_map => i j /(congr1 nat_of_byte); rewrite !byte_of_natK ?ltn_ord //.
exact: val_inj.
Qed.

Lemma value_lt len (x : block len) : value x < #|{: block len}|.
Proof.
rewrite card_tuple card_ord /value -[X in _ < 256 ^ X](size_block_bytes x).
elim: (block_bytes x) => [|b s IH] //; rewrite of_le_bytes_cons [size _]/= expnS.
by have := to_N_lt b; move: (256 ^ size s) (of_le_bytes s) IH => M y; lia.
Qed.

(** Blocks whose number is a multiple of [l]. *)
Lemma card_multiples len l : 0 < l ->
  #|[set x : block len | l %| value x]| <= (#|{: block len}| %/ l).+1.
Proof.
move=> l0; set A := [set x | _].
pose f (x : block len) : 'I_(#|{: block len}| %/ l).+1 := inord (value x %/ l).
rewrite -[X in _ <= X]card_ord -(card_in_imset (f := f) (D := mem A)) ?max_card // => x y; rewrite !inE => dx dy.
have lt (u : block len) : value u %/ l < (#|{: block len}| %/ l).+1 by rewrite ltnS; apply: leq_div2r; apply: ltnW; exact: value_lt.
move/(congr1 val); rewrite /f /= !inordK // => e; apply: value_inj.
by rewrite -(divnK dx) -(divnK dy) e.
Qed.

(** ** C119: the odds of a nonce zero *)

Section Odds.
Local Open Scope ring_scope.
Variable X : ed_curve.

(** The bytes of an answer. *)
Lemma answer_size (x : block 64) : size (block_bytes x) == 64%N.
Proof. by rewrite size_block_bytes. Qed.
Definition answer (x : block 64) : 64.-tuple byte := Tuple (answer_size x).

(** SHA-512 with the answers [xs] to the questions [qs]; nothing else of the scheme changes. *)
Definition reprogram (qs : seq (seq byte)) (xs : seq (block 64)) : ed_curve :=
  @EdCurve (ep X) (ep_order X) (ep_prime X) (ep_odd X) (ep_bound X) (ep_exponent (e := X)) (ep_base X)
    (ep_base_order X) (ep_base_neq0 X) (@ep_enc X) (ep_dec X) (@ep_encK X)
    (fun q => if (seq.index q qs < size xs)%N then nth (sha512 X q) [seq answer x | x <- xs] (seq.index q qs)
              else sha512 X q).

(** What the parties hash for their nonces: the second half of the hash of the seed, and the
    digest. *)
Definition questions n (seeds : n.-tuple (32.-tuple byte)) (ms : n.-tuple Digest) : seq (seq byte) :=
  [seq drop 32 (sha512 X (tnth seeds i)) ++ (tnth ms i : seq byte) | i <- enum 'I_n].

Definition zero_answer (x : block 64) : bool := (of_le_bytes (block_bytes x) mod N.of_nat (ep_order X) =? 0)%num.

Lemma nonce_reprogram n (seeds : n.-tuple (32.-tuple byte)) (ms : n.-tuple Digest) (xs : n.-tuple (block 64))
  (i : 'I_n) :
  exists2 j : 'I_n, nonce (reprogram (questions seeds ms) xs) (tnth seeds i) (tnth ms i)
    = (of_le_bytes (block_bytes (tnth xs j)) mod N.of_nat (ep_order X))%num
    & nth [::] (questions seeds ms) j = nth [::] (questions seeds ms) i.
Proof.
have szq q : q \in questions seeds ms -> size q = 64%N.
  by case/mapP=> j _ ->; rewrite size_cat size_drop !size_tuple.
have szs : size (questions seeds ms) = n by rewrite size_map size_enum_ord.
pose q := drop 32 (sha512 X (tnth seeds i)) ++ (tnth ms i : seq byte).
have eq_ : nth [::] (questions seeds ms) i = q.
  by rewrite (nth_map i) ?size_enum_ord // nth_ord_enum.
have inq : q \in questions seeds ms by rewrite -eq_ mem_nth ?szs.
have lj : (seq.index q (questions seeds ms) < n)%N by rewrite -[X in (_ < X)%N]szs index_mem.
exists (Ordinal lj); last by rewrite /= nth_index // eq_.
rewrite /nonce /=; have -> : (seq.index (tval (tnth seeds i)) (questions seeds ms) < size xs)%N = false.
  rewrite size_tuple -[X in (_ < X)%N]szs index_mem; apply/negP => /szq.
  by rewrite size_tuple.
by rewrite -/q size_tuple lj (nth_map (tnth xs i)) ?size_tuple // [tnth xs (Ordinal lj)](tnth_nth (tnth xs i)).
Qed.

(** Of the answers to one question, at most one in [2^251] makes the nonce zero. *)
Lemma card_zero_answer : full_size X -> (#|[set x | zero_answer x]| * 2 ^ 251 <= #|{: block 64}|)%N.
Proof.
rewrite /full_size => big.
have l2 : (2 ^ 251 * 2 <= ep_order X)%N.
  rewrite -expnSr; have <- : N.to_nat (2 ^ N.of_nat 252) = (2 ^ 252)%N by rewrite to_nat_pow Nat2N.id.
  have e : (2 ^ 255 = 8 * 2 ^ N.of_nat 252)%num by vm_compute.
  by move: big; rewrite e; move: (2 ^ N.of_nat 252)%num (ep_order X) => a c; lia.
have m2 : (2 ^ 251 * 2 <= #|{: block 64}|)%N.
  rewrite -expnSr -[X in (_ <= X)%N]/(blocks 64) card_blocks; apply: leq_pexp2l; exact: erefl.
have l0 : (0 < ep_order X)%N by exact: prime_gt0 (ep_prime X).
have sub : [set x | zero_answer x] \subset [set x : block 64 | (ep_order X %| value x)%N].
  apply/subsetP => x; rewrite !inE /zero_answer => /N.eqb_spec e; rewrite /value.
  have ne : N.of_nat (ep_order X) <> 0%num by move: l0; clear; lia.
  rewrite (N.div_mod' (of_le_bytes _) (N.of_nat (ep_order X))) e N.add_0_r N2Nat.inj_mul Nat2N.id.
  exact: dvdn_mulr.
have := leq_trans (subset_leq_card sub) (card_multiples 64 l0).
have := leq_trunc_div #|{: block 64}| (ep_order X).
move: (#|{: block 64}| %/ ep_order X)%N #|[set x | zero_answer x]| l2 m2.
move: (2 ^ 251)%N #|{: block 64}| (ep_order X) => L M l d z lL mL dM zd.
have : (d * (L * 2) <= M)%N by apply: leq_trans dM; rewrite leq_mul2l lL orbT.
have : (z * L <= d.+1 * L)%N by rewrite leq_mul2r zd orbT.
by rewrite mulSn mulnA; lia.
Qed.

(** Whatever the seeds and digests, equal or not: of the answers of SHA-512 to the [n] questions
    of a session, at most [n] in [2^251] make a nonce zero. *)
Theorem C119_odds n (seeds : n.-tuple (32.-tuple byte)) (ms : n.-tuple Digest) : full_size X ->
  (#|[set xs : n.-tuple (block 64) |
      [exists i, nonce (reprogram (questions seeds ms) xs) (tnth seeds i) (tnth ms i) =? 0]%num]| * 2 ^ 251
   <= n * #|{: n.-tuple (block 64)}|)%N.
Proof.
move=> big; apply: leq_trans (card_has n (card_zero_answer big)).
rewrite leq_mul2r; apply/orP; right; apply: subset_leq_card; apply/subsetP => xs; rewrite !inE.
case/existsP=> i; have [j -> _] := nonce_reprogram seeds ms xs i => z.
by apply/hasP; exists (tnth xs j); rewrite ?mem_tnth.
Qed.
End Odds.
Print Assumptions C119_odds.

(** ** Whole sessions *)

Section Sessions.
Local Open Scope ring_scope.

(** Set-ups with key pairs of the same bytes are the same. *)
Lemma set_up_ext (E : engine) (D D' : eddsa) (K : ed_keygen D) (K' : ed_keygen D') (R : rng E)
  (s : rstate R) t (seeds : seq (32.-tuple byte)) :
  {in seeds, generate_keypair K =1 generate_keypair K'} -> set_up K s t seeds = set_up K' s t seeds.
Proof.
move=> e; rewrite !set_upE; case: (rand_g1 s) => g1 s1; case: (rand_g2 s1) => g2 s2; case: (rand_g2 s2) => g2' s3.
suff h id : make_dealers K g1 s3 id seeds = make_dealers K' g1 s3 id seeds by rewrite h.
elim: seeds s3 id e => [|seed seeds IH] s3 id e //=; rewrite /make_dealer.
case: (schnorr_generate_keypair g1 s3) => [[sk pk] s4]; rewrite e ?mem_head //.
case: (generate_keypair K' seed) => pk_ed sk_ed; rewrite IH // => x inx; apply: e.
by rewrite inE inx orbT.
Qed.

(** The digest that is signed does not depend on the signature scheme. *)
Lemma dealt_digest_ext (E : engine) (D D' : eddsa) (b : build) (R : rng E) (node : Node E) (s : rstate R) sh sh' :
  (share D b node s).1 = Ok sh -> (share D' b node s).1 = Ok sh' -> dealt_digest sh = dealt_digest sh'.
Proof.
rewrite /share; case: (share_pvss b node s) => [[[c sec]|e|p] s1] //=.
case: (decomp_generate _ _ _) => [[dp|e|p] s2] //=.
by case: (signature_new D _ _) => [x|e|p] //= [<-]; case: (signature_new D' _ _) => [y|e|p] //= [<-].
Qed.

(** The key pairs, and so the set-up and whether a party deals, do not depend on the answers. *)
Lemma keys_reprogram (X : ed_curve) (zs : seq N) n (seeds : n.-tuple (32.-tuple byte)) (ms : n.-tuple Digest)
  (xs : n.-tuple (block 64)) seed :
  generate_keypair (ed25519_keys X zs) seed
  = generate_keypair (ed25519_keys (reprogram X (questions X seeds ms) xs) zs) seed.
Proof.
suff e : sha512 (reprogram X (questions X seeds ms) xs) seed = sha512 X seed.
  by rewrite /generate_keypair /= /pair_bytes /pk_of /= /sk_scalar /sk_number e.
rewrite /=; case: ifP => //; rewrite size_tuple => li; exfalso.
have : tval seed \in questions X seeds ms by rewrite -index_mem size_map size_enum_ord.
by case/mapP=> j _ /(congr1 size); rewrite size_cat size_drop !size_tuple.
Qed.

Lemma deals_reprogram (E : engine) (X : ed_curve) (zs : seq N) (b : build) (R : rng E)
  (s s' : rstate R) (t n : nat) (seeds : n.-tuple (32.-tuple byte)) (nodes : seq (Node E)) (dflt : Node E)
  (cs : coins E) (sh : PVSSShare E) qs xs i :
  set_up (ed25519_keys (reprogram X qs xs) zs) s t seeds = (Ok nodes, s') -> (i < n)%N ->
  (share (ed25519 X zs) b (nth dflt nodes i) (projT2 cs)).1 = Ok sh ->
  exists x, (share (ed25519 (reprogram X qs xs) zs) b (nth dflt nodes i) (projT2 cs)).1 = Ok x.
Proof.
move=> eset li; have := C63_set_up (ed25519_keys (reprogram X qs xs) zs) s t seeds; rewrite eset size_tuple.
case: (rand_g1 s) => g1 s1; case: (rand_g2 s1) => g2 s2; case: (rand_g2 s2) => g2' s3; cbv beta iota.
case=> _ [[<-] _ _ h]; have [_ _ _ ed] := h i dflt li; rewrite /share.
case: (share_pvss _ _ _) => [[[c sec]|e|p] s4] //=; case: (decomp_generate _ _ _) => [[dp|e|p] s5] //= _.
rewrite /signature_new ed /= /pair_from_bytes /pair_bytes sig_split_cat /= /pk_from_bytes ep_encK /=.
by eexists.
Qed.

(** A session of [n] parties, whatever their seeds and coins (the coefficients of a party not
    all zero): of the answers of SHA-512 to the [n] questions for nonces, at most [n] in [2^251]
    leave a party without a share that the aggregator of party [v] accepts. *)
Theorem C119_session (E : engine) (X : ed_curve) (zs : seq N) (b b' : build) (R R' : rng E)
  (s s' : rstate R) (t n : nat) (seeds : n.-tuple (32.-tuple byte)) (nodes : seq (Node E)) (dflt : Node E)
  (cs : nat -> coins E) (sh : nat -> PVSSShare E) (v : nat) (s0 : rstate R') :
  full_size X ->
  set_up (ed25519_keys X zs) s t seeds = (Ok nodes, s') ->
  (t.+2 <= n)%N -> (n < modulus E)%N -> fits n -> (v < n)%N ->
  (forall i, (i < n)%N -> (share (ed25519 X zs) b (nth dflt nodes i) (projT2 (cs i))).1 = Ok (sh i)) ->
  let qs := questions X seeds [tuple dealt_digest (sh i) | i < n] in
  let accepted xs i := let D := ed25519 (reprogram X qs xs) zs in
    if (share D b (nth dflt nodes i) (projT2 (cs i))).1 is Ok x
    then is_ok (share_verify D b' (nd_aggregator (nth dflt nodes v)) s0 x).1 else false in
  is_true (#|[set xs : n.-tuple (block 64) | ~~ [forall i : 'I_n, accepted xs i]]| * 2 ^ 251
   <= n * #|{: n.-tuple (block 64)}|)%N.
Proof.
move=> big eset tn nq fn lv hsh qs accepted; apply: leq_trans (C119_odds seeds [tuple dealt_digest (sh i) | i < n] big).
rewrite leq_mul2r; apply/orP; right; apply: subset_leq_card; apply/subsetP => xs; rewrite !inE.
apply: contraR => /existsPn nz; apply/forallP => i; rewrite /accepted.
set X' := reprogram X qs xs; rewrite -/qs -/X' in nz.
have eK : {in tval seeds, generate_keypair (ed25519_keys X zs) =1 generate_keypair (ed25519_keys X' zs)}.
  by move=> seed _; exact: keys_reprogram.
have eset' := eset; rewrite (set_up_ext s t eK) in eset'.
have := C63_set_up (ed25519_keys X' zs) s t seeds; rewrite eset'.
case: (rand_g1 s) => g1 s1; case: (rand_g2 s1) => g2 s2; case: (rand_g2 s2) => g2' s3; cbv beta iota.
rewrite size_tuple => -[_ [[<-] _ sz h]].
have [ec ep _ ed] := h i dflt (ltn_ord i); have [ecv epv _ _] := h v dflt lv.
have [x ex] := deals_reprogram eset' (ltn_ord i) (hsh i (ltn_ord i)).
rewrite ex; suff -> : (share_verify (ed25519 X' zs) b' (nd_aggregator (nth dflt nodes v)) s0 x).1 = Ok tt by [].
have eds : dealt_digest x = tnth [tuple dealt_digest (sh i) | i < n] i.
  by rewrite tnth_mktuple; exact: dealt_digest_ext ex (hsh i (ltn_ord i)).
apply/(@C118_accepted_exact E X' zs big b b' _ R' (nth dflt nodes i) (projT2 (cs i)) _ s0 _ (tnth seeds i) x).
- by rewrite ecv.
- by rewrite ecv ec.
- by apply: bt_ext => j; rewrite epv ep.
- by rewrite ed /= epv ltn_ord.
- by rewrite ed /= (tnth_nth (nseq_tuple 32 x00)).
- exact: ex.
by rewrite eds => e; have := nz i; rewrite e.
Qed.

(** Outside a set of at most [n] in [2^251] of the answers, everything that C63 promises of a
    session holds: every delivery of every short schedule succeeds and every quorum
    reconstructs. *)
Theorem C119_network (E : engine) (X : ed_curve) (zs : seq N) (b : build) (R : rng E)
  (s s' : rstate R) (t n : nat) (seeds : n.-tuple (32.-tuple byte)) (nodes : seq (Node E)) (dflt : Node E)
  (cs : nat -> coins E) (sh : nat -> PVSSShare E) :
  full_size X ->
  set_up (ed25519_keys X zs) s t seeds = (Ok nodes, s') ->
  (t.+2 <= n)%N -> (n < modulus E)%N -> fits n ->
  (forall i dflt, (i < n)%N -> (share (ed25519 X zs) b (nth dflt nodes i) (projT2 (cs i))).1 = Ok (sh i)) ->
  let qs := questions X seeds [tuple dealt_digest (sh i) | i < n] in
  exists bad : {set n.-tuple (block 64)},
  (#|bad| * 2 ^ 251 <= n * #|{: n.-tuple (block 64)}|)%N /\
  forall xs, xs \notin bad -> let D := ed25519 (reprogram X qs xs) zs in
  exists sh' : nat -> PVSSShare E,
  (forall i dflt, (i < n)%N -> (share D b (nth dflt nodes i) (projT2 (cs i))).1 = Ok (sh' i)) /\
  forall es : seq (event E), all (from_dealers (fun d => d < n)%N) es -> (size es <= 64)%N ->
  exists ag0 : PVSSAggregator E,
    (forall i dflt, (i < n)%N -> nd_aggregator (nth dflt nodes i) = ag0) /\
    let g1 := srs_g1 (cfg_srs (ag_config ag0)) in
    let: (rs, net) := net_run D b sh' (fun _ => ag0) es in
    rs = nseq (size es) (Ok tt) /\
    forall v ids b',
      srs_g2 (cfg_srs (ag_config ag0)) != 0 -> size ids = t.+1 -> uniq ids ->
      let sk i := if nth None (map Some nodes) i is Some nd then de_private_key_sig (nd_dealer nd) else 0 in
      (forall i, i \in ids -> (i < n)%N /\ sk i != 0) ->
      exists ds : seq (DecryptedShare E),
        mapM (fun i => decrypted_share_generate
                         (encs (as_pvss_core (ag_aggregated_tx (net v)))) (sk i) i) ids
          = Ok ds :> outcome pvss_error _ /\
        lagrange_interpolation_g1 b' [seq dec d | d <- ds] [seq (origin d).+1%:R | d <- ds] t
          = Ok ((\sum_(i < n) (N.to_nat (tally es v i))%:R * (rand_fr (projT2 (cs i))).1) *: g1).
Proof.
move=> big eset tn nq fn hsh qs.
exists [set xs : n.-tuple (block 64) | [exists i, nonce (reprogram X qs xs) (tnth seeds i)
  (tnth [tuple dealt_digest (sh i) | i < n] i) =? 0]%num].
split=> [|xs]; first exact: C119_odds.
rewrite inE => /existsPn nz D; pose X' := reprogram X qs xs.
have eset' : set_up (ed25519_keys X' zs) s t seeds = (Ok nodes, s').
  by rewrite -eset; apply/esym/set_up_ext => seed _; exact: keys_reprogram.
have sz : size nodes = n.
  have := C63_set_up (ed25519_keys X' zs) s t seeds; rewrite eset' size_tuple.
  case: (rand_g1 s) => g1 s1; case: (rand_g2 s1) => g2 s2; case: (rand_g2 s2) => g2' s3; cbv beta iota.
  by case=> _ [[<-]].
have dl i dflt' (li : (i < n)%N) := @deals_reprogram E X zs b R s s' t n seeds nodes dflt' (cs i) (sh i) qs xs i eset' li (hsh i dflt' li).
pose sh' i := if (share D b (nth dflt nodes i) (projT2 (cs i))).1 is Ok x then x else sh i.
have hsh' i dflt' : (i < n)%N -> (share D b (nth dflt' nodes i) (projT2 (cs i))).1 = Ok (sh' i).
  move=> li; rewrite (set_nth_default dflt) ?sz // /sh'.
  by have [x ->] := dl i dflt li.
exists sh'; split=> // es fd le.
have := @C118_session E X' zs big b R s s' t seeds nodes cs sh' es eset'.
rewrite size_tuple => /(_ tn nq fn hsh'); apply=> // i li.
rewrite -(dealt_digest_ext (hsh i dflt li) (hsh' i dflt li)) => e.
have := nz (Ordinal li); rewrite tnth_mktuple (tnth_nth (nseq_tuple 32 x00)) /= -/X'.
by rewrite e.
Qed.
End Sessions.
Print Assumptions C119_session.
Print Assumptions C119_network.

(** The hypotheses are met by the session of C118_example over the toy curve, with two parties
    that share a seed: their questions differ in the digest or are one question. *)
Example C119_example (zs : seq N) :
  let seeds : 4.-tuple (32.-tuple byte) := [tuple tpk 0; tpk 1; tpk 2; tpk 2] in
  let s : rstate list_rng := [:: f 3; f 2; f 5; f 4; f 6; f 1; f 9] in
  let s0 : rstate (seq_rng TE) := [:: f 7; f 5; f 4] in
  full_size ed_toy /\
  exists nodes s' sh, set_up (ed25519_keys ed_toy zs) s 1 seeds = (Ok nodes, s') /\
    forall i dflt, (i < 4)%N -> (share (ed25519 ed_toy zs) Debug (nth dflt nodes i) s0).1 = Ok (sh i).
Proof.
move=> seeds s s0; split; first exact: (@ed_toy_full 32).
have nz : scalars 2 s0 <> nseq 2 0%R by case=> /eqP; vm_compute.
have ft : fits 2 by vm_compute.
have [nodes [s' [sh [e h]]]] := @session_exists TE ed_toy zs Debug _ _ s 1 seeds s0 (@ed_toy_full 32) ft (erefl _) nz.
by exists nodes, s', sh; split; [exact: e|exact: h].
Qed.
