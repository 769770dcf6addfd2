(** * PropsWork: property C104, the work a reader can be made to do *)

From Coq Require Import NArith Strings.Byte.
From mathcomp Require Import all_ssreflect all_algebra zify.
From Verif Require Import Prelude Errors BTreeMap Engine LibModel PolyModel SigmaModel PvssModel
  CodecModel Spec CodecSpec PreludeProofs AlgebraProofs PolyProofs PvssProofs AggProofs HistProofs
  CodecProofs Instance PropsPoly PropsSigma PropsShare PropsAgg PropsHist PropsEnd PropsLimits
  PropsAttack PropsNet PropsCodec PropsWire.

Set Implicit Arguments.
Unset Strict Implicit.
Unset Printing Implicit Defensive.

(** ** Readers that count

    The same readers as in CodecModel.v, with a counter that goes up by one each time a
    primitive value (a byte, an integer, a point, a scalar) is read, successfully or not.
    [C104_counting] says that they are the same. *)

Definition counter (A : Type) : Type :=
  seq byte -> nat * outcome serialization_error (A * seq byte).

(** One primitive read. *)
Definition once A (a : codec A) : counter A := fun s => (1, deser a s).

(** First one reader, then, if it came through, another. *)
Definition next A B (r : counter A) (k : A -> counter B) : counter B := fun s =>
  match r s with
  | (n, Ok (x, s1)) => let: (n', o) := k x s1 in (n + n', o)
  | (n, Err e) => (n, Err e)
  | (n, Panic p) => (n, Panic p)
  end.

Definition done A (x : A) : counter A := fun s => (0, Ok (x, s)).

Definition c_pair A B (r : counter A) (r' : counter B) : counter (A * B) :=
  next r (fun x => next r' (fun y => done (x, y))).
Definition c_struct A B (make : A -> B) (r : counter A) : counter B :=
  next r (fun x => done (make x)).
Fixpoint c_n A (r : counter A) (n : nat) : counter (seq A) :=
  if n is n'.+1 then next r (fun x => next (c_n r n') (fun xs => done (x :: xs)))
  else done [::].
Definition c_vec A (r : counter A) : counter (seq A) :=
  next (once u64_codec) (fun len => c_n r (N.to_nat len)).
Definition c_map V (r : counter V) : counter (btmap V) :=
  next (once u64_codec) (fun len =>
    next (c_n (c_pair (once usize_codec) r) (N.to_nat len)) (fun kvs => done (bt_collect kvs))).

(** A byte read inside [unwrap]. *)
Definition c_byte : counter byte := fun s => (1, unwrap (deser u8_codec s)).
Fixpoint c_array (k : nat) : counter (k.-tuple byte) :=
  match k with
  | 0 => done [tuple]
  | k'.+1 => next c_byte (fun b => next (c_array k') (fun bs => done [tuple of b :: bs]))
  end.

Definition c_signature : counter Signature := c_struct (@sig_split) (c_array 64).

(** The counter reads what the codec reads. *)
Definition reads A (r : counter A) (a : codec A) : Prop := forall s, (r s).2 = deser a s.

(** The price of a reader: it never reads more primitive values than there are bytes, but for the
    one at which it fails. *)
Definition frugal A (r : counter A) : Prop := forall s,
  match r s with
  | (n, Ok (_, s')) => n + size s' <= size s
  | (n, _) => n <= (size s).+1
  end.

Section Generic.
Variables A B V : Type.

Lemma next_snd (r : counter A) (k : A -> counter B) s :
  (next r k s).2 = let! (x, s1) := (r s).2 in (k x s1).2.
Proof. by rewrite /next; case: (r s) => n [[x s1]|e|p] //=; case: (k x s1). Qed.

Lemma next_frugal (r : counter A) (k : A -> counter B) :
  frugal r -> (forall x, frugal (k x)) -> frugal (next r k).
Proof.
move=> hr hk s; rewrite /next; move: (hr s); case: (r s) => n [[x s1]|e|p] //= h1.
move: (hk x s1); case: (k x s1) => n' [[y s2]|e|p] /=; lia.
Qed.

Lemma done_frugal (x : A) : frugal (done x). Proof. by move=> s /=. Qed.

(** A primitive that takes at least one byte. *)
Lemma once_frugal (a : codec A) :
  (forall s x s', deser a s = Ok (x, s') -> size s' < size s) -> frugal (once a).
Proof. by move=> h s; rewrite /once; case e: (deser a s) => [[x s']|?|?] //=; move/h: e. Qed.

Lemma once_reads (a : codec A) : reads (once a) a. Proof. by []. Qed.

End Generic.

Section Combine.
Variables A B : Type.

Lemma pair_reads (r : counter A) (r' : counter B) a b : reads r a -> reads r' b ->
  reads (c_pair r r') (pair_codec a b).
Proof.
move=> h h' s; rewrite /c_pair next_snd h /=; case: (deser a s) => [[x s1]|?|?] //=.
by rewrite next_snd h'; case: (deser b s1) => [[y s2]|?|?].
Qed.

Lemma struct_reads (r : counter A) (a : codec A) (f : B -> A) (g : A -> B) : reads r a ->
  reads (c_struct g r) (struct_codec f g a).
Proof. by move=> h s; rewrite /c_struct next_snd h /=; case: (deser a s) => [[x s1]|?|?]. Qed.

Lemma n_reads (r : counter A) a : reads r a -> forall n s, (c_n r n s).2 = deser_n a n s.
Proof.
move=> h; elim=> [//|n IH] s; rewrite [c_n _ _]/= next_snd h /=.
case: (deser a s) => [[x s1]|?|?] //=; rewrite next_snd IH.
by case: (deser_n a n s1) => [[y s2]|?|?].
Qed.

Lemma vec_reads (r : counter A) a : reads r a -> reads (c_vec r) (vec_codec a).
Proof.
move=> h s; rewrite /c_vec next_snd once_reads.
rewrite -[deser (vec_codec a) s]/(let! (len, s1) := deser u64_codec s in deser_n a (N.to_nat len) s1).
by case: (deser u64_codec s) => [[len s1]|?|?] //; exact: (n_reads h).
Qed.

Lemma pair_frugal (r : counter A) (r' : counter B) : frugal r -> frugal r' -> frugal (c_pair r r').
Proof.
by move=> h h'; apply: next_frugal => // x; apply: next_frugal => // y; exact: done_frugal.
Qed.

Lemma struct_frugal (r : counter A) (g : A -> B) : frugal r -> frugal (c_struct g r).
Proof. by move=> h; apply: next_frugal => // x; exact: done_frugal. Qed.

Lemma n_frugal (r : counter A) n : frugal r -> frugal (c_n r n).
Proof.
move=> h; elim: n => [|n IH]; first exact: done_frugal.
by apply: next_frugal => // x; apply: next_frugal => // y; exact: done_frugal.
Qed.

End Combine.

Lemma map_reads A (r : counter A) a : reads r a -> reads (c_map r) (map_codec a).
Proof.
move=> h s; rewrite /c_map next_snd once_reads.
rewrite -[deser (map_codec a) s]/(let! (len, s1) := deser u64_codec s in
  let! (kvs, s2) := deser_n (pair_codec usize_codec a) (N.to_nat len) s1 in Ok (bt_collect kvs, s2)).
case: (deser u64_codec s) => [[len s1]|?|?] //; rewrite /obind next_snd.
rewrite (n_reads (pair_reads (once_reads usize_codec) h)).
by case: (deser_n _ _ s1) => [[kvs s2]|?|?].
Qed.

Lemma u64_frugal : frugal (once u64_codec).
Proof.
apply: once_frugal => s x s' /=; rewrite /read_exact; case: ltnP => //= h [_ <-].
by rewrite size_drop; lia.
Qed.

Lemma usize_frugal : frugal (once usize_codec).
Proof.
apply: once_frugal => s x s'; rewrite -[deser usize_codec s]/(let! (x, s') := deser u64_codec s in
  Ok (N.to_nat x, s')); move: (u64_frugal s); rewrite /once.
by case: (deser u64_codec s) => [[y s1]|?|?] h // [_ <-].
Qed.

Lemma vec_frugal A (r : counter A) : frugal r -> frugal (c_vec r).
Proof. by move=> h; apply: next_frugal u64_frugal _ => len; exact: n_frugal. Qed.

Lemma map_frugal V (r : counter V) : frugal r -> frugal (c_map r).
Proof.
move=> h; apply: next_frugal u64_frugal _ => len.
apply: next_frugal => [|kvs]; last exact: done_frugal.
exact/n_frugal/pair_frugal/h/usize_frugal.
Qed.

Lemma array_reads k s : (c_array k s).2 = array_from_fn k s.
Proof.
elim: k s => [//|k IH] s; rewrite [c_array _]/= next_snd /=; case: s => [//|b s] /=.
rewrite -[array_from_fn _ _]/(let! (bs, s2) := array_from_fn k s in Ok ([tuple of b :: bs], s2)).
by rewrite next_snd IH; case: (array_from_fn k s) => [[bs s2]|?|?].
Qed.

Lemma array_frugal k : frugal (c_array k).
Proof.
elim: k => [|k IH]; first exact: done_frugal.
apply: next_frugal => [|x]; first by case=> [|b s] //=; rewrite add1n.
by apply: next_frugal => // y; exact: done_frugal.
Qed.

Lemma signature_reads : reads c_signature signature_codec.
Proof. by move=> s; rewrite /c_signature /c_struct next_snd array_reads. Qed.

Lemma signature_frugal : frugal c_signature.
Proof. exact/struct_frugal/array_frugal. Qed.

Section Messages.
Variable E : engine.

Definition c_fr : counter (Fr E) := once (fr_codec E).
Definition c_pt (C : curve (modulus E)) : counter (pt C) := once (pt_codec C).
Definition c_dlk (C : curve (modulus E)) : counter (dlk_proof C) :=
  c_struct (fun '(c, (h, r)) => DlkProof c h r) (c_pair (c_pt C) (c_pair c_fr c_fr)).
Definition c_decomp : counter (DecompProof E) :=
  c_struct (fun '(a, b) => MkDecomp a b) (c_pair (c_dlk (G2 E)) (c_pt (G2 E))).
Definition c_signed : counter (SignedProof E) :=
  c_struct (fun '(a, b) => MkSigned a b) (c_pair c_decomp c_signature).
Definition c_core : counter (PVSSCore E) :=
  c_struct (fun '(a, b) => MkCore a b) (c_pair (c_vec (c_pt (G1 E))) (c_vec (c_pt (G2 E)))).
Definition c_share : counter (PVSSShare E) :=
  c_struct (fun '(a, (b, c)) => MkShare a b c)
    (c_pair (once usize_codec) (c_pair c_core c_signed)).
Definition c_transcript : counter (PVSSAggregatedShare E) :=
  c_struct (fun '(a, (b, (c, d))) => MkAgg a b c d)
    (c_pair (once usize_codec) (c_pair (once usize_codec)
       (c_pair c_core (c_map (c_pair c_signed (once u64_codec)))))).

Definition c_message (k : kind) : counter (message E) :=
  match k with
  | KShare => c_struct (@MsgShare E) c_share
  | KTranscript => c_struct (@MsgTranscript E) c_transcript
  end.

Lemma core_reads : reads c_core (core_codec E).
Proof. by apply/struct_reads/pair_reads; apply/vec_reads. Qed.

Lemma signed_reads : reads c_signed (signed_codec E).
Proof.
apply/struct_reads/pair_reads/signature_reads/struct_reads/pair_reads => //.
by apply/struct_reads/pair_reads/pair_reads.
Qed.

(** The counting readers are the readers of the model. *)
Theorem C104_counting k s :
  read E k s = let! r := (c_message k s).2 in Ok r.1.
Proof.
case: k; rewrite /read /c_message /c_struct next_snd.
  rewrite (_ : (c_share s).2 = deser (share_codec E) s); first by case: (deser _ s) => [[]|?|?].
  exact/struct_reads/pair_reads/pair_reads/signed_reads/core_reads.
rewrite (_ : (c_transcript s).2 = deser (transcript_codec E) s); first by case: (deser _ s) => [[]|?|?].
apply/struct_reads/pair_reads/pair_reads/pair_reads/map_reads/pair_reads => //.
  exact: core_reads.
exact: signed_reads.
Qed.

(** A point or a scalar that is read takes its full width ([read_exact] in the curve's code). *)
Definition full_width : Prop :=
  [/\ forall s P s', pt_deser (G1 E) s = Some (P, s') -> size s = pt_len (G1 E) + size s',
      forall s P s', pt_deser (G2 E) s = Some (P, s') -> size s = pt_len (G2 E) + size s'
    & forall s x s', fr_deser E s = Some (x, s') -> size s = fr_len E + size s'].

(** Widths are not 0: there are two points and two scalars to tell apart. *)
Lemma pt_len_gt0 (C : curve (modulus E)) : 0 < pt_len C.
Proof.
rewrite lt0n; apply/eqP => h.
have nil (P : pt C) : pt_ser P = [::] by apply: size0nil; rewrite pt_ser_size.
have := pt_deserK (0%R : pt C) [::]; rewrite nil -(nil (pt_gen C)) pt_deserK => -[e].
by have := pt_gen_neq0 C; rewrite e eqxx.
Qed.

Lemma fr_len_gt0 : 0 < fr_len E.
Proof.
rewrite lt0n; apply/eqP => h.
have nil (x : Fr E) : fr_ser x = [::] by apply: size0nil; rewrite fr_ser_size.
have := fr_deserK (0%R : Fr E) [::]; rewrite nil -(nil (1%R : Fr E)) fr_deserK.
move/(congr1 (fun o => if o is Some p then p.1 else 0%R)) => /= e.
by have := GRing.oner_neq0 [fieldType of Fr E]; rewrite -[1%R]/(1%R : Fr E) e eqxx.
Qed.

Lemma message_frugal : full_width -> forall k, frugal (c_message k).
Proof.
move=> [w1 w2 w3].
have f1 : frugal (c_pt (G1 E)).
  apply: once_frugal => s x s' /=; case e: (pt_deser _ s) => [[P r]|] //= [_ <-].
  by have := w1 _ _ _ e; have := pt_len_gt0 (G1 E); lia.
have f2 : frugal (c_pt (G2 E)).
  apply: once_frugal => s x s' /=; case e: (pt_deser _ s) => [[P r]|] //= [_ <-].
  by have := w2 _ _ _ e; have := pt_len_gt0 (G2 E); lia.
have f3 : frugal c_fr.
  apply: once_frugal => s x s' /=; case e: (fr_deser _ s) => [[P r]|] //= [_ <-].
  by have := w3 _ _ _ e; have := fr_len_gt0; lia.
have fc : frugal c_core by apply/struct_frugal/pair_frugal; apply/vec_frugal.
have fs : frugal c_signed.
  apply/struct_frugal/pair_frugal/signature_frugal/struct_frugal/pair_frugal => //.
  exact/struct_frugal/pair_frugal/pair_frugal.
case; apply/struct_frugal/struct_frugal.
  exact/pair_frugal/pair_frugal/fs/fc/usize_frugal.
apply/pair_frugal/pair_frugal/pair_frugal/map_frugal/pair_frugal/u64_frugal/fs/fc/usize_frugal.
exact: usize_frugal.
Qed.

(** Whatever the bytes say about lengths, reading a message costs at most one primitive read for
    each byte that is there, and one more: a length prefix buys no work. *)
Theorem C104_work k s : full_width -> (c_message k s).1 <= (size s).+1.
Proof.
move=> /message_frugal/(_ k s); case: (c_message k s) => n [[x s']|?|?] //=.
by have := leq0n (size s'); lia.
Qed.

(** ** What a message that is read may hold *)

(** A codec whose values take [k] bytes at least. *)
Definition takes A (a : codec A) (k : nat) : Prop :=
  forall s x s', deser a s = Ok (x, s') -> k + size s' <= size s.

Lemma deser_n_takes A (a : codec A) k n s v s' : takes a k -> deser_n a n s = Ok (v, s') ->
  n * k + size s' <= size s.
Proof.
move=> h; elim: n s v s' => [|n IH] s v s' /=; first by case=> _ <-.
case e: (deser a s) => [[x s1]|?|?] //=; case e': (deser_n a n s1) => [[xs s2]|?|?] //= [_ <-].
by have := h _ _ _ e; have := IH _ _ _ e'; rewrite mulSn; lia.
Qed.

(** A length prefix that promises more elements than the bytes can hold is not read as a
    vector: the reader stops at the element it cannot find. *)
Theorem C104_prefix A (a : codec A) k (len : N) (s : seq byte) : takes a k ->
  (len < 2 ^ 64)%num -> size s < N.to_nat len * k ->
  ~~ is_ok (deser (vec_codec a) (ser u64_codec len ++ s)) /\
  forall len' : N, (len' < 2 ^ 64)%num -> size s < N.to_nat len' * k ->
    deser (vec_codec a) (ser u64_codec len' ++ s) = deser (vec_codec a) (ser u64_codec len ++ s).
Proof.
move=> ht hl hs.
have E0 l : (l < 2 ^ 64)%num ->
    deser (vec_codec a) (ser u64_codec l ++ s) = deser_n a (N.to_nat l) s.
  by move=> hl'; rewrite -[LHS]/(let! (len, s1) := deser u64_codec (ser u64_codec l ++ s) in
       deser_n a (N.to_nat len) s1) (u64_rt s hl').
have bad n : size s < n * k -> ~~ is_ok (deser_n a n s).
  by move=> h; case e: (deser_n a n s) => [[v s']|?|?] //; have := deser_n_takes ht e; lia.
have more n m u : ~~ is_ok (deser_n a n u) -> deser_n a (n + m) u = deser_n a n u.
  elim: n u => [//|n IH] u /=; case: (deser a u) => [[x u1]|?|?] //= hb.
  by rewrite IH //; case: (deser_n a n u1) hb => [[]|?|?].
split=> [|l' hl' hs']; rewrite !E0 //; first exact: bad.
case: (leqP (N.to_nat len) (N.to_nat l')) => c; first by rewrite -(subnKC c) more // bad.
by rewrite -(subnKC (ltnW c)) more // bad.
Qed.

Lemma vec_takes A (a : codec A) k s v s' : takes a k -> deser (vec_codec a) s = Ok (v, s') ->
  8 + size v * k + size s' <= size s.
Proof.
move=> h; rewrite -[deser (vec_codec a) s]/(let! (len, s1) := deser u64_codec s in
  deser_n a (N.to_nat len) s1); case e: (deser u64_codec s) => [[len s1]|?|?] //= e'.
have -> : size v = N.to_nat len.
  by have [] := @deser_n_yields _ a (fun _ => True) _ _ _ _ (fun _ _ _ _ => I) e'.
have := deser_n_takes h e'; move: e => /=; rewrite /read_exact; case: ltnP => //= l [_ <-].
by rewrite size_drop; lia.
Qed.

Lemma usize_takes : takes usize_codec 8.
Proof.
move=> s x s' /=; rewrite /read_exact; case: ltnP => //= h [_ <-].
by rewrite size_drop; lia.
Qed.

Lemma u64_takes : takes u64_codec 8.
Proof.
move=> s x s' /=; rewrite /read_exact; case: ltnP => //= h [_ <-].
by rewrite size_drop; lia.
Qed.

Lemma signature_takes : takes signature_codec 64.
Proof.
have h k u (t : k.-tuple byte) u' : array_from_fn k u = Ok (t, u') -> k + size u' <= size u.
  elim: k u t u' => [|k IH] u t u'; first by case=> _ <-.
  case: u => [//|b u]; rewrite -[array_from_fn _ _]/(let! (bs, s2) := array_from_fn k u in
    Ok ([tuple of b :: bs], s2)); case e: (array_from_fn k u) => [[bs s2]|?|?] //= [_ <-].
  by have := IH _ _ _ e; rewrite addSn ltnS.
move=> s x s'; rewrite -[deser _ _]/(let! (r, s') := array_from_fn 64 s in Ok (sig_split r, s')).
by case e: (array_from_fn 64 s) => [[r s1]|?|?] // [_ <-]; exact: h e.
Qed.

Lemma pair_takes A B (a : codec A) (b : codec B) k l : takes a k -> takes b l ->
  takes (pair_codec a b) (k + l).
Proof.
move=> ha hb s [x y] s' e; have [s1 e1 e2] := pair_okE e.
by have := ha _ _ _ e1; have := hb _ _ _ e2; lia.
Qed.

Lemma struct_takes A B (f : B -> A) g (a : codec A) k : takes a k -> takes (struct_codec f g a) k.
Proof. by move=> h s y s' e; have [x e1 _] := struct_okE e; exact: h e1. Qed.

(** Bytes of a signed proof. *)
Definition signed_bytes : nat := pt_len (G2 E) + (fr_len E + fr_len E) + pt_len (G2 E) + 64.

Lemma signed_takes : full_width -> takes (signed_codec E) signed_bytes.
Proof.
move=> [_ w2 w3].
have t2 : takes (pt_codec (G2 E)) (pt_len (G2 E)).
  by move=> s x s' /=; case e: (pt_deser _ s) => [[P r]|] //= [_ <-]; rewrite (w2 _ _ _ e).
have t3 : takes (fr_codec E) (fr_len E).
  by move=> s x s' /=; case e: (fr_deser _ s) => [[P r]|] //= [_ <-]; rewrite (w3 _ _ _ e).
apply/struct_takes/pair_takes/signature_takes/struct_takes/pair_takes/t2.
exact/struct_takes/pair_takes/pair_takes/t3/t3/t2.
Qed.

(** The vectors and the map of what is read hold no more than the bytes paid for. *)
Theorem C104_holds k s m : full_width -> read E k s = Ok m ->
  match m with
  | MsgShare sh =>
      8 + (8 + size (encs (sh_pvss_core sh)) * pt_len (G1 E)) +
      (8 + size (comms (sh_pvss_core sh)) * pt_len (G2 E)) + signed_bytes <= size s
  | MsgTranscript x =>
      16 + (8 + size (encs (as_pvss_core x)) * pt_len (G1 E)) +
      (8 + size (comms (as_pvss_core x)) * pt_len (G2 E)) +
      (8 + size (bt_iter (as_contributions x)) * (16 + signed_bytes)) <= size s
  end.
Proof.
move=> fw; have ts := signed_takes fw; move: fw => [w1 w2 _].
have t1 : takes (pt_codec (G1 E)) (pt_len (G1 E)).
  by move=> u x s' /=; case e: (pt_deser _ u) => [[P r]|] //= [_ <-]; rewrite (w1 _ _ _ e).
have t2 : takes (pt_codec (G2 E)) (pt_len (G2 E)).
  by move=> u x s' /=; case e: (pt_deser _ u) => [[P r]|] //= [_ <-]; rewrite (w2 _ _ _ e).
have core u c u' : deser (core_codec E) u = Ok (c, u') ->
    (8 + size (encs c) * pt_len (G1 E)) + (8 + size (comms c) * pt_len (G2 E)) + size u' <= size u.
  move=> h; have [[es cs] h1 ->] := struct_okE h; have [s1 e1 e2] := pair_okE h1.
  by have := vec_takes t1 e1; have := vec_takes t2 e2 => /=; lia.
case: k; rewrite /read.
  case e: (deser (share_codec E) s) => [[sh r]|?|?] //= [<-].
  have [[a [b c]] h1 ->] := struct_okE e; have [s1 e1 h2] := pair_okE h1.
  have [s2 e2 e3] := pair_okE h2 => /=.
  by have := usize_takes e1; have := core _ _ _ e2; have := ts _ _ _ e3; lia.
case e: (deser (transcript_codec E) s) => [[x r]|?|?] //= [<-].
have [[a [b [c d]]] h1 ->] := struct_okE e; have [s1 e1 h2] := pair_okE h1.
have [s2 e2 h3] := pair_okE h2; have [s3 e3 h4] := pair_okE h3 => /=.
have : 8 + size (bt_iter d) * (16 + signed_bytes) <= size s3; last first.
  by have := usize_takes e1; have := usize_takes e2; have := core _ _ _ e3; lia.
move: h4; rewrite -[deser (map_codec _) s3]/(let! (len, s1) := deser u64_codec s3 in
  let! (kvs, s2) := deser_n (pair_codec usize_codec (pair_codec (signed_codec E) u64_codec))
    (N.to_nat len) s1 in Ok (bt_collect kvs, s2)).
case e4: (deser u64_codec s3) => [[len s4]|?|?] //=.
case e5: (deser_n _ _ s4) => [[kvs s5]|?|?] //= [<- _].
have tk := pair_takes usize_takes (pair_takes ts u64_takes).
have [sz _] := @deser_n_yields _ _ (fun _ => True) _ _ _ _ (fun _ _ _ _ => I) e5.
have := size_bt_collect kvs; have := deser_n_takes tk e5; have := u64_takes e4; rewrite -sz.
move: (size (bt_iter _)) (size kvs) (signed_bytes) => p q w h1' h2' h3'.
have : p * (16 + w) <= q * (8 + (w + 8)) by apply: leq_mul => //; lia.
by lia.
Qed.

End Messages.

(** The concrete curve; a prefix of 2^64 - 1 points in a message of 24 bytes. *)
Lemma TE_full_width : full_width TE.
Proof.
have h (s : seq byte) (x : 'F_11) s' : fp_deser s = Some (x, s') -> size s = 1 + size s'.
  by case: s => //= b s; case: ifP => // _ [_ <-].
by split; exact: h.
Qed.

Example C104_example :
  let huge := ser usize_codec 1 ++ ser u64_codec (2 ^ 64 - 1)%num ++ nseq 4 x00%byte in
  [/\ (c_message TE KShare (ser (share_codec TE) tshare)).1 = 79,
      size (ser (share_codec TE) tshare) = 100,
      (c_message TE KTranscript (ser (transcript_codec TE) ttrans)).1 = 153,
      (c_message TE KShare huge).1 <= 21
    & ~~ is_ok (read TE KShare huge)].
Proof.
move=> huge; have sz : size huge = 20 by rewrite /huge !size_cat.
split; [by vm_compute|by vm_compute|by vm_compute| |].
  by have := C104_work KShare huge TE_full_width; rewrite sz.
move: huge sz => huge sz.
case e: (read TE KShare _) => [m|?|?] //; have [_ km] := read_fits e.
have := C104_holds TE_full_width e.
by case: m km {e} => [sh|?] // _; rewrite sz /signed_bytes; lia.
Qed.
