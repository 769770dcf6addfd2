(** * PropsUnbiased: rejection sampling favours no value (C102)

    [hash_to_field] and [hash_to_group] draw blocks of bytes from a generator until one of
    them is a value (src/nizk/utils/hash.rs and src/signature/utils/hash.rs, 20-51).  Here
    the bytes of the generator are counted: the random-oracle theorems (C98, C99) take the
    answers of the hash function to be uniform, and this is where uniform answers come from. *)

From Coq Require Import NArith Strings.Byte.
From mathcomp Require Import all_ssreflect all_algebra zify.
From Verif Require Import Prelude Errors BTreeMap Engine LibModel SigmaModel PvssModel HashModel
  CodecModel PreludeProofs AlgebraProofs CodecProofs Spec Instance PropsHash Forking Pratt PropsCurve.

Set Implicit Arguments.
Unset Strict Implicit.
Unset Printing Implicit Defensive.

(** A block of [len] bytes, as numbers below 256. *)
Notation block len := (len.-tuple 'I_256).
Definition block_bytes (len : nat) (x : block len) : seq byte := [seq byte_of_nat (val i) | i <- x].

(** The byte stream that consists of the given blocks (and of zeros afterwards). *)
Definition stream_of (len : nat) (bs : seq (block len)) (i : nat) : byte :=
  nth x00%byte (flatten [seq block_bytes x | x <- bs]) i.

(** blake2s_simd and rand_chacha such that the generator returns these blocks. *)
Definition crates_of (H : hash_crates) (len : nat) (bs : seq (block len)) : hash_crates :=
  HashCrates (blake2s H) (fun _ => stream_of bs).

(** What [hash_to_field] has come to after as many turns as there are blocks. *)
Definition sampled (F : Type) (H : hash_crates) (len : nat) (frb : seq byte -> option F)
  (p m : seq byte) (bs : seq (block len)) : outcome unit (option F) :=
  hash_to_field_run (crates_of H bs) len frb (size bs) p m.

(** It has come to [r]: a value, or none so far. *)
Definition gives (F : eqType) (o : outcome unit (option F)) (r : option F) : bool :=
  if o is Ok r' then r' == r else false.

Lemma size_block_bytes len (x : block len) : size (block_bytes x) = len.
Proof. by rewrite size_map size_tuple. Qed.

Section Sampling.
Variables (F : eqType) (H : hash_crates) (len : nat) (frb : seq byte -> option F).
Variables (p m : seq byte).
Hypothesis short : size p <= 8.

(** The number of blocks, of blocks that give [v], and of blocks that give nothing. *)
Definition blocks : nat := #|{: block len}|.
Definition hits (v : F) : nat := #|[set x : block len | frb (block_bytes x) == Some v]|.
Definition misses : nat := #|[set x : block len | frb (block_bytes x) == None]|.

Lemma sampled_loop (bs : seq (block len)) :
  sampled H frb p m bs = Ok (field_loop len frb (stream_of bs) (size bs) 0).
Proof. by rewrite /sampled /hash_to_field_run /rng_from_message ltnNge short. Qed.

(** The loop looks at one block after the other. *)
Lemma loop_blocks (pre bs : seq (block len)) :
  field_loop len frb (stream_of (pre ++ bs)) (size bs) (size pre * len)
  = foldr (fun x later => if frb (block_bytes x) is Some v then Some v else later) None bs.
Proof.
elim: bs pre => [|x bs IH] pre //=.
have -> : draw (stream_of (pre ++ x :: bs)) (size pre * len) len = block_bytes x.
  apply: (@eq_from_nth _ x00%byte); first by rewrite size_map size_iota size_block_bytes.
  move=> i; rewrite size_map size_iota => li; rewrite (nth_map 0) ?size_iota // nth_iota // add0n.
  rewrite /stream_of map_cat flatten_cat nth_cat size_flatten /shape -map_comp.
  have -> : sumn [seq (size \o @block_bytes len) i | i <- pre] = size pre * len.
    elim: pre {IH} => //= y pre ->; rewrite size_block_bytes mulSn //.
  by rewrite ltnNge leq_addr /= addKn nth_cat size_block_bytes li.
case: (frb (block_bytes x)) => //.
by have := IH (rcons pre x); rewrite size_rcons mulSn addnC cat_rcons => ->.
Qed.

Lemma sampledE (bs : seq (block len)) :
  sampled H frb p m bs
  = Ok (foldr (fun x later => if frb (block_bytes x) is Some v then Some v else later) None bs).
Proof. by rewrite sampled_loop -(loop_blocks [::]). Qed.

(** The first block decides or leaves it to the rest. *)
Lemma card_first (k : nat) (r : option F) :
  #|[set bs : k.+1.-tuple (block len) | gives (sampled H frb p m bs) r]|
  = (if r is Some v then hits v * blocks ^ k else 0)
    + misses * #|[set bs : k.-tuple (block len) | gives (sampled H frb p m bs) r]|.
Proof.
pose join (y : block len * k.-tuple (block len)) : k.+1.-tuple (block len) := [tuple of y.1 :: y.2].
have ji : bijective join.
  exists (fun bs => (thead bs, [tuple of behead bs])) => [[x bs]|bs] /=.
    by congr pair; apply: val_inj.
  by rewrite [RHS]tuple_eta; apply: val_inj.
rewrite -[LHS](on_card_preimset (f := join)); last exact: onW_bij.
rewrite -[LHS](_ : #|[set y : block len * k.-tuple (block len) |
    gives (sampled H frb p m (y.1 :: y.2)) r]| = _); last by apply: eq_card => y; rewrite !inE.
rewrite (card_by_fst (fun x (bs : k.-tuple (block len)) => gives (sampled H frb p m (x :: bs)) r)).
set rest := #|[set bs : k.-tuple (block len) | _]|.
have one x : #|[set bs : k.-tuple (block len) | gives (sampled H frb p m (x :: bs)) r]|
    = (if r is Some v then (frb (block_bytes x) == Some v) * blocks ^ k else 0)
      + (frb (block_bytes x) == None) * rest.
  case e: (frb (block_bytes x)) => [u|]; last first.
    rewrite eqxx mul1n (_ : (if r is Some v then _ else _) = 0) ?add0n; last by case: (r).
    by apply: eq_card => bs; rewrite !inE !sampledE /= e.
  rewrite mul0n addn0; case: (r) => [v|]; last first.
    by apply/eqP; rewrite cards_eq0; apply/eqP/setP => bs; rewrite !inE sampledE /= e.
  case: eqP => [euv|ne]; last first.
    apply/eqP; rewrite cards_eq0; apply/eqP/setP => bs; rewrite !inE sampledE /= e.
    exact/negbTE/eqP.
  rewrite mul1n /blocks -card_tuple -cardsT; apply: eq_card => bs; rewrite !inE sampledE /= e.
  by rewrite euv eqxx.
rewrite (eq_bigr _ (fun x _ => one x)) big_split /= -!big_distrl /=; congr (_ + _ * _).
  case: (r) => [v|]; last by rewrite big1.
  by rewrite -big_distrl /= /hits -sum1_card [in RHS]big_mkcond; congr (_ * _); apply: eq_bigr => x _; rewrite inE; case: eqP.
by rewrite /misses -sum1_card [RHS]big_mkcond; apply: eq_bigr => x _; rewrite inE; case: eqP.
Qed.

(** In [k] turns a value is returned as often as it can be the first: hit after [j] misses,
    the other blocks being free. *)
Theorem C102_value (k : nat) (v : F) :
  #|[set bs : k.-tuple (block len) | gives (sampled H frb p m bs) (Some v)]|
  = hits v * \sum_(j < k) misses ^ j * blocks ^ (k - j.+1).
Proof.
elim: k => [|k IH].
  rewrite big_ord0 muln0; apply/eqP; rewrite cards_eq0; apply/eqP/setP => bs; rewrite !inE.
  by rewrite (tuple0 bs) sampledE.
rewrite card_first IH big_ord_recl expn0 mul1n subn1 mulnDr mulnCA; congr (_ + _ * _).
rewrite big_distrr /=; apply: eq_bigr => j _.
by rewrite /bump /= add1n expnS -mulnA subSS.
Qed.

(** It is still looking. *)
Theorem C102_running (k : nat) :
  #|[set bs : k.-tuple (block len) | gives (sampled H frb p m bs) None]| = misses ^ k.
Proof.
elim: k => [|k IH]; last by rewrite card_first IH add0n expnS.
rewrite expn0; apply: etrans (cards1 ([tuple] : 0.-tuple (block len))); apply: eq_card => bs.
by rewrite !inE (tuple0 bs) sampledE; apply/esym/eqP.
Qed.

(** So values that as many blocks stand for are returned equally often, after any number of
    turns. *)
Theorem C102_unbiased (k : nat) (v w : F) : hits v = hits w ->
  #|[set bs : k.-tuple (block len) | gives (sampled H frb p m bs) (Some v)]|
  = #|[set bs : k.-tuple (block len) | gives (sampled H frb p m bs) (Some w)]|.
Proof. by rewrite !C102_value => ->. Qed.

End Sampling.
Print Assumptions C102_value.
Print Assumptions C102_running.

(** [hash_to_group] likewise, a block standing for the cofactor multiple of the point it
    encodes unless that is zero. *)
Theorem C102_group (C : Type) (Proj : eqType) (H : hash_crates) (len : nat)
  (frb : seq byte -> option C) (cof : C -> Proj) (is_zero : Proj -> bool) (p m : seq byte)
  (k : nat) (v w : Proj) :
  let run (bs : k.-tuple (block len)) : outcome unit (option Proj) :=
    hash_to_group_run (crates_of H bs) len frb cof is_zero k p m in
  let from (v : Proj) := [set x : block len |
    if frb (block_bytes x) is Some P then (cof P == v) && ~~ is_zero (cof P) else false] in
  size p <= 8 -> #|from v| = #|from w| ->
  #|[set bs | gives (run bs) (Some v)]| = #|[set bs | gives (run bs) (Some w)]|.
Proof.
move=> run from short same.
have runE bs : run bs = sampled H (group_block frb cof is_zero) p m bs.
  by rewrite /run /sampled size_tuple /hash_to_group_run /hash_to_field_run; case: (rng_from_message _ _ _)
     => [st|//|//]; rewrite /= group_loopE.
have fromE u : #|from u| = @hits _ len (group_block frb cof is_zero) u.
  apply: eq_card => x; rewrite !inE /group_block; case: (frb _) => // P.
  by case: (is_zero _); rewrite ?andbF ?andbT.
have := @C102_unbiased _ H len (group_block frb cof is_zero) p m short k v w.
rewrite -!fromE => /(_ same) e.
have setE u : [set bs | gives (run bs) (Some u)]
    = [set bs : k.-tuple (block len) | gives (sampled H (group_block frb cof is_zero) p m bs) (Some u)].
  by apply/setP => bs; rewrite !inE runE.
by rewrite !setE.
Qed.
Print Assumptions C102_group.

(** ** The scalar field of BLS12-381

    [Fr::from_random_bytes] (ark-ff) takes 32 bytes, drops the top bit and accepts what is
    below the order. *)
Lemma card_blocks len : blocks len = (2 ^ (8 * len))%N.
Proof. by rewrite /blocks card_tuple card_ord (_ : 256 = 2 ^ 8)%N // -expnM. Qed.

Lemma pow_plus2 n : (2 ^ (n + 2) = 2 ^ n * 4)%N.
Proof. by rewrite expnD. Qed.

Section Bls.
Local Open Scope ring_scope.
Variable E : engine.
Hypothesis order : N.of_nat (modulus E) = bls_order.

Definition masked_frb (s : seq byte) : option (Fr E) :=
  let x := (of_le_bytes s mod 2 ^ 255)%num in
  if (x <? N.of_nat (modulus E))%num then Some (N.to_nat x)%:R else None.

(** Blocks are numbers below [2^256]. *)
Definition number (x : block 32) : N := of_le_bytes (block_bytes x).
Lemma at_size (x : N) : size [seq (inord (nat_of_byte b) : 'I_256) | b <- le_bytes 32 x] == 32%N.
Proof. by rewrite size_map size_le_bytes. Qed.
Definition block_at (x : N) : block 32 := Tuple (at_size x).

Lemma byte_inord (b : byte) : byte_of_nat (val (inord (nat_of_byte b) : 'I_256)) = b.
Proof.
have lb : (nat_of_byte b < 256)%N by case: b.
by rewrite /= inordK //; case: b lb.
Qed.

Lemma number_at x : (x < 2 ^ 256)%num -> number (block_at x) = x.
Proof.
move=> lx; rewrite /number; have -> : block_bytes (block_at x) = le_bytes 32 x.
  rewrite /block_bytes /block_at; move: (at_size x); move: (le_bytes 32 x) => s sz.
  by rewrite [tval _]/= -map_comp (eq_map (f2 := id)) ?map_id // => b; exact: byte_inord.
exact: le_bytesK.
Qed.

Lemma number_inj : injective number.
Proof.
move=> x y e; apply: val_inj.
have : block_bytes x = block_bytes y.
  by rewrite -[LHS]of_le_bytesK -[RHS]of_le_bytesK !size_block_bytes; congr le_bytes.
apply: inj_map => i j /(congr1 nat_of_byte); rewrite !byte_of_natK ?ltn_ord //.
exact: val_inj.
Qed.

Lemma number_lt x : (number x < 2 ^ 256)%num.
Proof.
have := of_le_bytes_lt (block_bytes x); rewrite size_block_bytes.
by have -> : (256 ^ N.of_nat 32 = 2 ^ 256)%num by vm_compute.
Qed.

Lemma order_lt : (N.of_nat (modulus E) < 2 ^ 255)%num.
Proof. by rewrite order; apply/N.ltb_lt; vm_compute. Qed.

(** Every scalar has two blocks. *)
Theorem C102_bls_hits (v : Fr E) : @hits _ 32 masked_frb v = 2%N.
Proof.
have qp := modulus_prime E.
have lv : (N.of_nat (val v) < N.of_nat (modulus E))%num.
  have : (val v < modulus E)%N by rewrite -[X in (_ < X)%N](Fp_cast qp); exact: ltn_ord.
  lia.
have oq := order_lt; have numat := number_at; have numlt := number_lt.
have [M [M0 M2 oM frbE]] : exists M, [/\ M <> 0%num, (2 ^ 256 = 2 * M)%num,
    (N.of_nat (modulus E) < M)%num & forall x, masked_frb (block_bytes x)
    = if (number x mod M <? N.of_nat (modulus E))%num then Some (N.to_nat (number x mod M))%:R else None].
  by exists (2 ^ 255)%num.
pose a := block_at (N.of_nat (val v)); pose c := block_at (N.of_nat (val v) + M).
have na : number a = N.of_nat (val v) by rewrite numat // M2; lia.
have nc : number c = (N.of_nat (val v) + M)%num by rewrite numat // M2; lia.
have ac : a != c by apply/eqP => e; move: na; rewrite e nc; clear -M0; lia.
transitivity #|[set a; c]|; last by rewrite cards2 ac.
apply: eq_card => x; rewrite in_set in_set2 frbE.
have lx := numlt x; rewrite M2 in lx.
have dm := N.div_mod (number x) M M0; have lm := N.mod_lt (number x) M M0.
have d1 : (number x / M < 2)%num by apply: N.div_lt_upper_bound => //; lia.
set y := (number x mod M)%num in dm lm *.
apply/eqP/orP.
  case: N.ltb_spec => // ly [e].
  have ey : y = N.of_nat (val v).
    have := congr1 val e; rewrite /= val_Fp_nat // modn_small; last by lia.
    by move=> <-; rewrite N2Nat.id.
  have [z|o] : (number x / M = 0 \/ number x / M = 1)%num by lia.
    by left; apply/eqP/number_inj; rewrite na dm z N.mul_0_r N.add_0_l ey.
  by right; apply/eqP/number_inj; rewrite nc dm o N.mul_1_r ey N.add_comm.
have done_ : y = N.of_nat (val v) ->
    (if (y <? N.of_nat (modulus E))%num then Some (N.to_nat y)%:R else None) = Some v.
  by move=> ->; case: N.ltb_spec => [_|]; [rewrite Nat2N.id natr_Zp | lia].
case=> /eqP ex; apply: done_; rewrite /y ex ?na ?nc; first by apply: N.mod_small; lia.
by rewrite -{1}[M]N.mul_1_l N.mod_add // N.mod_small //; lia.
Qed.

(** More than half of the blocks are accepted. *)
Theorem C102_bls_misses : (misses 32 masked_frb * 2 < blocks 32)%N.
Proof.
have qp := modulus_prime E.
have split_ : blocks 32 = (misses 32 masked_frb + 2 * modulus E)%N.
  have sum : (\sum_(v : Fr E) @hits _ 32 masked_frb v)%N = (2 * modulus E)%N.
    by rewrite (eq_bigr (fun=> 2%N)) => [|v _]; rewrite ?C102_bls_hits // sum_nat_const card_Fp // mulnC.
  have all_ : blocks 32 = (\sum_(x : block 32) 1)%N by rewrite sum1_card.
  rewrite -sum all_ /misses (bigID (fun x => masked_frb (block_bytes x) == None)) /=.
  congr (_ + _)%N; first by rewrite -sum1_card; apply: eq_bigl => x; rewrite inE.
  rewrite (partition_big (fun x => odflt 0 (masked_frb (block_bytes x))) xpredT) //=.
  apply: eq_bigr => v _; rewrite /hits -sum1_card; apply: eq_bigl => x; rewrite inE.
  by case: (masked_frb _).
have big := order_254 order.
have : blocks 32 = (2 ^ 254 * 4)%N.
  by rewrite card_blocks (erefl : 8 * 32 = 254 + 2)%N pow_plus2.
move: split_ big; move: (blocks _) (misses _ _) => B ms.
by move: (2 ^ 254)%N (modulus E) => M q; lia.
Qed.

(** Hence [hash_to_field] returns every scalar equally often, in any number of turns, and
    fewer than one in [2^k] byte streams keep it running for [k] turns. *)
Theorem C102_bls (H : hash_crates) (p m : seq byte) (k : nat) : (size p <= 8)%N ->
  (forall v w : Fr E,
   #|[set bs : k.-tuple (block 32) | gives (sampled H masked_frb p m bs) (Some v)]|
   = #|[set bs : k.-tuple (block 32) | gives (sampled H masked_frb p m bs) (Some w)]|) /\
  (0 < k ->
   #|[set bs : k.-tuple (block 32) | gives (sampled H masked_frb p m bs) None]| * 2 ^ k
   < #|{: k.-tuple (block 32)}|)%N.
Proof.
move=> short; split=> [v w|k0].
  by apply: C102_unbiased => //; rewrite !C102_bls_hits.
by rewrite C102_running // card_tuple -expnMn ltn_exp2r // C102_bls_misses.
Qed.

End Bls.
Print Assumptions C102_bls.

(** There is such an engine, and in one turn exactly two streams lead to a given scalar. *)
Example C102_example : exists E : engine,
  N.of_nat (modulus E) = bls_order /\
  forall v : Fr E, #|[set bs : 1.-tuple (block 32) |
    gives (sampled count_crates (@masked_frb E) DLK_PERSONA [::] bs) (Some v)]| = 2.
Proof.
have [E [order _ _ _]] := C101_engine; exists E; split=> // v.
by rewrite C102_value // C102_bls_hits // big_ord1 !expn0.
Qed.
