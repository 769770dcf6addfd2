(** * PropsCma: C99, Schnorr signatures under chosen messages

    As C98, with an attacker that may also have messages of its choice signed by the code. *)

From Coq Require Import NArith Strings.Byte.
From mathcomp Require Import all_ssreflect all_algebra zify.
From Verif Require Import Prelude Errors Engine LibModel PolyModel SigmaModel Spec PreludeProofs
  AlgebraProofs PolyProofs Instance PropsPoly PropsSigma PropsCodec PropsKeys Forking PropsForking.

Set Implicit Arguments.
Unset Strict Implicit.
Unset Printing Implicit Defensive.

Import GRing.Theory.
Local Open Scope ring_scope.

Local Notation crv E := (curve (modulus E)) (only parsing).

(** A generator whose next scalar is [v]. *)
Definition coin_rng (E : engine) (v : Fr E) : rng E :=
  @Rng E unit (fun=> (v, tt)) (fun=> (0, tt)) (fun=> (0, tt)).

(** What an attacker asks for: the hash of a string or the signature of a message. *)
Inductive request : Type := HashOf of seq byte | SignOf of seq byte.

Section Game.
Variables (E : engine) (C : crv E) (g : pt C).

Definition signed_message : eqType := [eqType of seq byte * (pt C * Fr E)].
Definition pre_of (o : signed_message) : seq byte := schnorr_preimage o.1 g o.2.1.

(** An answer is a hash or a signature. *)
Definition reply : Type := (Fr E + schnorr_sig C)%type.

Record forger : Type := Forger {
  next_request : seq reply -> request;
  last_word : seq reply -> signed_message
}.

(** The hashes given out, the replies, the signed messages, and whether a signature has used a
    nonce for which the hash was given out before. *)
Record table : Type := Table {
  hashes_of : hash_log E;
  replies_of : seq reply;
  signed_of : seq signed_message;
  reused : bool
}.
Definition fresh_table : table := Table [::] [::] [::] false.

(** One request against the owner of [sk]; [x] is the coin of the signer and the hash of a new
    string. *)
Definition real_step (sk : Fr E) (A : forger) (t : table) (x : Fr E * Fr E) : table :=
  match next_request A (replies_of t) with
  | HashOf m =>
      let l := answer (hashes_of t) m x.2 in
      Table l (rcons (replies_of t) (inl (recall l m))) (signed_of t) (reused t)
  | SignOf m =>
      let pre := schnorr_preimage m g (x.1 *: g) in
      let l := answer (hashes_of t) pre x.2 in
      let E' := with_log SCHNORR_PERSONA l in
      let sg := (@schnorr_sign E' C (@coin_rng E' x.1) g tt sk m).1 in
      Table l (rcons (replies_of t) (inr sg)) (rcons (signed_of t) (m, sg))
        (reused t || (pre \in map fst (hashes_of t)))
  end.

(** The same without the secret key: the signature comes first, the hash is made to fit it. *)
Definition sim_step (pk : pt C) (A : forger) (t : table) (x : Fr E * Fr E) : table :=
  match next_request A (replies_of t) with
  | HashOf m =>
      let l := answer (hashes_of t) m x.2 in
      Table l (rcons (replies_of t) (inl (recall l m))) (signed_of t) (reused t)
  | SignOf m =>
      let sg := (x.1 *: g + x.2 *: pk, x.1) in
      let pre := schnorr_preimage m g sg.1 in
      Table (rcons (hashes_of t) (pre, x.2)) (rcons (replies_of t) (inr sg))
        (rcons (signed_of t) (m, sg)) (reused t || (pre \in map fst (hashes_of t)))
  end.

Variable n : nat.
Local Notation N := n.+1.
Local Notation tape := {ffun 'I_N -> Fr E * Fr E}.
Implicit Types (A : forger) (h : tape) (t : table).

Definition play (step : forger -> table -> Fr E * Fr E -> table) A (hs : seq (Fr E * Fr E)) : table :=
  foldl (step A) fresh_table hs.

(** The forger makes [n] requests; the verifier asks for one hash more. *)
Definition after step A h : table := play step A (take n (codom h)).
Definition said step A h : signed_message := last_word A (replies_of (after step A h)).
Definition final_log step A h : hash_log E :=
  answer (hashes_of (after step A h)) (pre_of (said step A h)) (h ord_max).2.

(** The forger wins: the code accepts a signature that the signer has not made. *)
Definition breaks step (pk : pt C) A h : bool :=
  let o := said step A h in
  is_ok (@schnorr_verify (with_log SCHNORR_PERSONA (final_log step A h)) C g pk o.1 o.2)
  && (o \notin signed_of (after step A h)).

(** The key from two simulated runs. *)
Definition turning (pk : pt C) A h : nat :=
  seq.index (pre_of (said (sim_step pk) A h)) (map fst (final_log (sim_step pk) A h)).
Definition cma_key (pk : pt C) A h h' : Fr E :=
  let h2 := splice (turning pk A h) h h' in
  let run k := ((said (sim_step pk) A k).2.2,
                recall (final_log (sim_step pk) A k) (pre_of (said (sim_step pk) A k))) in
  ((run h).1 - (run h2).1) / ((run h2).2 - (run h).2).

(** ** The simulation *)

Section Simulated.
Variables (pk : pt C) (A : forger).
Let sim hs := play (sim_step pk) A hs.
Let req hs := next_request A (replies_of (sim hs)).

Lemma sim_rcons hs x : sim (rcons hs x) = sim_step pk A (sim hs) x.
Proof. by rewrite /sim /play -cats1 foldl_cat. Qed.

Lemma size_sim hs : size (hashes_of (sim hs)) = size hs.
Proof.
elim/last_ind: hs => // hs x IH; rewrite sim_rcons size_rcons /sim_step -IH.
by case: next_request => m; rewrite /= /answer size_rcons.
Qed.

Lemma take_sim hs j : take j (hashes_of (sim hs)) = hashes_of (sim (take j hs)).
Proof.
elim/last_ind: hs j => [|hs x IH] j; first by rewrite !take_oversize.
case: (leqP j (size hs)) => lj; last first.
  by rewrite [in RHS]take_oversize ?size_rcons // take_oversize // size_sim size_rcons.
rewrite sim_rcons /sim_step; case: next_request => m; rewrite /= /answer -!cats1;
  rewrite !takel_cat ?size_sim //; exact: IH.
Qed.

Lemma nth_sim hs j : (j < size hs)%N ->
  nth ([::], 0) (hashes_of (sim hs)) j
  = nth ([::], 0) (hashes_of (sim_step pk A (sim (take j hs)) (nth (0, 0) hs j))) j.
Proof.
move=> lj; rewrite -(nth_take _ (leqnn j.+1)) take_sim.
by rewrite (take_nth (0, 0) lj) sim_rcons.
Qed.

(** A signature made stays on the list. *)
Lemma signed_sim hs j m : (j < size hs)%N -> req (take j hs) = SignOf m ->
  let x := nth (0, 0) hs j in
  (m, (x.1 *: g + x.2 *: pk, x.1)) \in signed_of (sim hs).
Proof.
move=> lj e; cbv zeta; set x := nth _ _ _; rewrite -(cat_take_drop j.+1 hs) (take_nth (0, 0) lj) -/x.
elim/last_ind: (drop _ _) => [|s y IH].
  by rewrite cats0 sim_rcons /sim_step -/(req (take j hs)) e /= mem_rcons inE eqxx.
rewrite -rcons_cat sim_rcons /sim_step; case: next_request => m' //=.
by rewrite mem_rcons inE IH orbT.
Qed.

(** The string that decides the game when its hash is given out at step [size hs]. *)
Definition wanted (hs : seq (Fr E * Fr E)) : seq byte :=
  if (size hs < n)%N then (if req hs is HashOf m then m else [::])
  else pre_of (last_word A (replies_of (sim hs))).

Lemma first_entry (l : hash_log E) m j : seq.index m (map fst l) = j -> (j < size l)%N ->
  [/\ m = (nth ([::], 0) l j).1, recall l m = (nth ([::], 0) l j).2
    & m \notin map fst (take j l)].
Proof.
move=> e lj; have mI : m \in map fst l by rewrite -index_mem size_map e.
split; first by rewrite -(nth_map _ [::]) // -e nth_index.
  by rewrite /recall e (nth_map ([::], 0)).
apply/negP => mt; have := mt; rewrite -index_mem size_map size_take lj => lt.
have : seq.index m (map fst l) = seq.index m (map fst (take j l)).
  by rewrite -{1}(cat_take_drop j l) map_cat index_cat mt.
by rewrite e => ej; rewrite -ej ltnn in lt.
Qed.

Lemma size_codomN h : size (codom h) = N.
Proof. by rewrite size_codom card_ord. Qed.

Lemma nth_codomN h (j : 'I_N) : nth (0, 0) (codom h) j = h j.
Proof. by rewrite codomE (nth_map j) ?size_enum_ord // nth_ord_enum. Qed.

Lemma size_final h : size (final_log (sim_step pk) A h) = N.
Proof. by rewrite /final_log /answer size_rcons size_sim size_take size_codomN ltnSn. Qed.

Lemma turning_lt h : (turning pk A h < N)%N.
Proof.
rewrite -[X in (_ < X)%N](size_final h) -(size_map fst) index_mem.
by rewrite /final_log /answer map_rcons mem_rcons inE eqxx.
Qed.

(** The equation that the verifier checks. *)
Lemma breaksE step h : breaks step pk A h =
  ((said step A h).2.2 *: g + recall (final_log step A h) (pre_of (said step A h)) *: pk
     == (said step A h).2.1)
  && (said step A h \notin signed_of (after step A h)).
Proof. by rewrite /breaks /schnorr_verify /schnorr_challenge /=; case: eqP. Qed.

Lemma turningE h (j : 'I_N) : g != 0 -> turning pk A h = j -> breaks (sim_step pk) pk A h ->
  pre_of (said (sim_step pk) A h) = wanted (take j (codom h)) /\
  recall (final_log (sim_step pk) A h) (pre_of (said (sim_step pk) A h)) = (h j).2.
Proof.
move=> g0 tj; rewrite breaksE; set o := said _ _ _; set l := final_log _ _ _.
case/andP => /eqP ver fresh.
have lj : (j < size l)%N by rewrite size_final.
have [e1 e2 e3] := first_entry tj lj.
have st : size (take n (codom h)) = n by rewrite size_take size_codomN ltnSn.
have tE : take j l = hashes_of (sim (take j (codom h))).
  have jn : (j <= n)%N by rewrite -ltnS.
  rewrite /l /final_log /answer -cats1 takel_cat ?size_sim ?st // take_sim.
  by rewrite take_take.
rewrite tE in e3; rewrite /wanted size_take size_codomN ltn_ord.
have [jn|nj] := ltnP j n; last first.
  have ej : nat_of_ord j = n by apply/eqP; rewrite eqn_leq nj -ltnS ltn_ord.
  split; first by rewrite ej /o /said /after.
  have jm : j = ord_max by apply: val_inj.
  rewrite e2 /l /final_log /answer nth_rcons size_sim st ej ltnn eqxx /=.
  by move: e3; rewrite ej => /negbTE ->; rewrite -jm.
have lE : nth ([::], 0) l j = nth ([::], 0) (hashes_of (sim_step pk A (sim (take j (codom h))) (h j))) j.
  rewrite /l /final_log /answer nth_rcons size_sim st jn -/(sim _) nth_sim ?st //.
  by rewrite take_take ?(ltnW jn) // nth_take // nth_codomN.
have sj : size (hashes_of (sim (take j (codom h)))) = j by rewrite size_sim size_take size_codomN ltn_ord.
move: lE; rewrite /sim_step -/(req _); case er: (req _) => [m|m] /=.
  rewrite /answer nth_rcons sj ltnn eqxx => lE; rewrite lE /= in e1 e2.
  by split=> //; rewrite e2 -e1 (negbTE e3).
rewrite nth_rcons sj ltnn eqxx => lE; rewrite lE /= in e1 e2.
have [em _ ea] := C45_schnorr_preimage e1.
have := @signed_sim (take n (codom h)) j m; rewrite st take_take ?(ltnW jn) // => /(_ jn er).
rewrite nth_take // nth_codomN => sg; case/negP: fresh; move: ver; rewrite e2 ea => /addIr /eqP.
rewrite -subr_eq0 -scalerBl scaler_eq0 (negbTE g0) orbF subr_eq0 => /eqP ez.
suff -> : o = (m, ((h j).1 *: g + (h j).2 *: pk, (h j).1)) by [].
by rewrite -ea -em -ez -/o -!surjective_pairing.
Qed.

Lemma take_spliceN (j : 'I_N) h h' : take j (codom (splice j h h')) = take j (codom h).
Proof.
apply: (@eq_from_nth _ (0, 0)); rewrite ?size_take ?size_codom // => i.
rewrite card_ord ltn_ord => li; rewrite !nth_take //.
have li' : (i < N)%N := ltn_trans li (ltn_ord j).
by rewrite -[i]/(val (Ordinal li')) !nth_codomN spliceE /= li.
Qed.

(** The wins that count: no nonce was used twice. *)
Definition clean_win h : bool := breaks (sim_step pk) pk A h && ~~ reused (after (sim_step pk) A h).

Lemma cma_fork : g != 0 ->
  let S := #|[set h | clean_win h]| in
  (S ^ 2 <= N * (#|[set hh : tape * tape | pk == cma_key pk A hh.1 hh.2 *: g]|
                 + S * modulus E ^ (n + N)))%N.
Proof.
move=> g0; cbv zeta.
pose win (j : 'I_N) h := (turning pk A h == j) && clean_win h.
have one h j j' : win j h -> win j' h -> j = j'.
  by move=> /andP[/eqP e _] /andP[/eqP e' _]; apply: val_inj; rewrite /= -e -e'.
have cF := card_Fp (modulus_prime E).
have fib (a : [finType of Fr E * Fr E]) : (#|[set a' : [finType of Fr E * Fr E] | snd a' == snd a]| <= modulus E)%N.
  have -> : [set a' : [finType of Fr E * Fr E] | snd a' == snd a] = [set (z, a.2) | z : Fr E].
    apply/setP => -[z c]; rewrite in_set; apply/eqP/imsetP => [/= ->|[z' _ [_ ->]] //]; by exists z.
  by rewrite card_imset ?cF // => z z' [].
have := @forking [finType of Fr E * Fr E] [eqType of Fr E] snd (modulus E) N fib win one.
have -> : wins win = [set h | clean_win h].
  apply/setP => h; rewrite !in_set; apply/existsP/idP => [[j /andP[]] //|fo].
  by exists (Ordinal (turning_lt h)); rewrite /win fo andbT.
rewrite /= card_prod cF mulnn -expnM -expnS => /leq_trans; apply.
rewrite leq_mul2l; apply/orP; right; apply: leq_add; last first.
  by rewrite (_ : (2 * n).+1 = n + N)%N //; lia.
apply: subset_leq_card; apply/subsetP => -[h h']; rewrite !in_set => /existsP[j /= /and3P[w w' ne]].
move: w w' => /andP[/eqP dj /andP[br _]] /andP[/eqP dj' /andP[br' _]].
have [m1 c1] := turningE g0 dj br; have [m2 c2] := turningE g0 dj' br'.
rewrite /cma_key dj; set h2 := splice j h h' in dj' br' m2 c2 *; cbv zeta; cbn [fst snd].
move: br br'; rewrite !breaksE c1 c2 => /andP[/eqP v1 _] /andP[/eqP v2 _].
have ea : (said (sim_step pk) A h).2.1 = (said (sim_step pk) A h2).2.1.
  have : pre_of (said (sim_step pk) A h) = pre_of (said (sim_step pk) A h2).
    by rewrite m1 m2 take_spliceN.
  by case/C45_schnorr_preimage.
have ne2 : (h j).2 != (h2 j).2 by rewrite /h2 spliceE ltnn.
by rewrite -(extracted v1 v2 ea ne2).
Qed.

End Simulated.

(** ** The real game and the simulated one *)

Section Real.
Variables (sk : Fr E) (A : forger).
Hypothesis g0 : g != 0.
Let pk := sk *: g.
Let real hs := play (real_step sk) A hs.
Let sim hs := play (sim_step pk) A hs.

Lemma play_rcons step hs x : play step A (rcons hs x) = step A (play step A hs) x.
Proof. by rewrite /play -cats1 foldl_cat. Qed.

(** The coins of the simulation that give the same run. *)
Definition convert (hs : seq (Fr E * Fr E)) (x : Fr E * Fr E) : Fr E * Fr E :=
  if next_request A (replies_of (real hs)) is SignOf _ then (x.1 - sk * x.2, x.2) else x.
Definition convert_tape h : tape :=
  [ffun i : 'I_N => if (i < n)%N then convert (take i (codom h)) (h i) else h i].

Lemma take_codomS h (i : 'I_N) : take i.+1 (codom h) = rcons (take i (codom h)) (h i).
Proof. by rewrite (take_nth (0, 0)) ?size_codomN // nth_codomN. Qed.

Lemma reused_mono step hs x : (forall t x, reused t -> reused (step A t x)) ->
  reused (play step A hs) -> reused (play step A (rcons hs x)).
Proof. by move=> mono r; rewrite play_rcons mono. Qed.

Lemma reused_real t x : reused t -> reused (real_step sk A t x).
Proof. by rewrite /real_step; case: next_request => m //= ->. Qed.
Lemma reused_sim t x : reused t -> reused (sim_step pk A t x).
Proof. by rewrite /sim_step; case: next_request => m //= ->. Qed.

Lemma real_sim_step t x m : next_request A (replies_of t) = SignOf m ->
  let y := (x.1 - sk * x.2, x.2) in
  reused (real_step sk A t x) = reused (sim_step pk A t y) /\
  (~~ reused (real_step sk A t x) -> real_step sk A t x = sim_step pk A t y).
Proof.
move=> e; cbv zeta; rewrite /real_step /sim_step e /=.
have eg : (x.1 - sk * x.2) *: g + x.2 *: pk = x.1 *: g.
  by rewrite scalerBl /pk scalerA [sk * _]mulrC subrK.
rewrite eg; split=> //; rewrite negb_or => /andP[_ /negbTE new].
set pre := schnorr_preimage _ _ _ in new *.
have rec : recall (answer (hashes_of t) pre x.2) pre = x.2.
  rewrite /recall /answer new !map_rcons -!cats1 index_cat new /= eqxx addn0.
  by rewrite nth_cat !size_map ltnn subnn.
rewrite /schnorr_sign /schnorr_challenge /= -/pre rec /answer new.
by [].
Qed.

Lemma real_sim h k : (k <= n)%N ->
  reused (real (take k (codom h))) = reused (sim (take k (codom (convert_tape h)))) /\
  (~~ reused (real (take k (codom h))) ->
   real (take k (codom h)) = sim (take k (codom (convert_tape h)))).
Proof.
elim: k => [|k IH] lk; first by rewrite !take0.
have [e1 e2] := IH (ltnW lk); pose i : 'I_N := Ordinal (leqW lk).
rewrite -[k]/(val i) !take_codomS /real /sim !play_rcons -/(real _) -/(sim _) /=.
have [r|nr] := boolP (reused (real (take k (codom h)))).
  have r' := r; rewrite e1 in r'; rewrite (reused_real _ r) (reused_sim _ r').
  by [].
rewrite -(e2 nr) ffunE /= lk /convert; case er: next_request => [m|m]; last exact: real_sim_step er.
by rewrite /real_step /sim_step er.
Qed.

Lemma convert_inj : injective convert_tape.
Proof.
move=> h h' e; suff : forall k, (k <= N)%N -> take k (codom h) = take k (codom h').
  move=> /(_ N (leqnn _)); rewrite !take_oversize ?size_codomN // => ec.
  by apply/ffunP => i; rewrite -!nth_codomN ec.
elim=> [|k IH] lk; first by rewrite !take0.
pose i : 'I_N := Ordinal lk; rewrite -[k.+1]/(val i).+1 !take_codomS /= (IH (ltnW lk)).
congr rcons; move/ffunP/(_ i): e; rewrite !ffunE /= (IH (ltnW lk)); case: ifP => // _.
rewrite /convert; case: next_request => // _ ep; have := congr1 fst ep; have := congr1 snd ep => /= ec.
by rewrite ec => /addIr ev; rewrite [LHS]surjective_pairing ec ev -surjective_pairing.
Qed.

Lemma convert_win h :
  clean_win pk A (convert_tape h)
  = breaks (real_step sk) pk A h && ~~ reused (after (real_step sk) A h).
Proof.
have [e1 e2] := real_sim h (leqnn n); rewrite /clean_win [reused (after (sim_step _) _ _)](_ : _ = reused (after (real_step sk) A h)); last by rewrite /after -/(sim _) -e1.
case r: (reused _) => /=; first by rewrite !andbF.
rewrite !andbT; have e3 : after (real_step sk) A h = after (sim_step pk) A (convert_tape h).
  by apply: e2; rewrite -/(after (real_step sk) A h) r.
by rewrite /breaks /final_log /said e3 ffunE /= ltnn.
Qed.

(** Changing the coin of one step. *)
Definition recoin h (i : 'I_N) (v : Fr E) : tape :=
  [ffun i' => if i' == i then (v, (h i).2) else h i'].

Lemma card_recoin (B : {set tape}) (i : 'I_N) (k : nat) :
  (forall h, #|[set v | recoin h i v \in B]| <= k)%N -> (#|B| <= k * modulus E ^ (n + N))%N.
Proof.
move=> le; have cF := card_Fp (modulus_prime E).
have q0 : (0 < modulus E)%N := prime_gt0 (modulus_prime E).
rewrite -(leq_pmul2r q0) -mulnA -expnSr.
have -> : (#|B| * modulus E = #|setX B [set: Fr E]|)%N by rewrite cardsX cardsT cF.
pose phi (x : tape * Fr E) := (recoin x.1 i x.2, (x.1 i).1).
have back b y : recoin (recoin b i y) i (b i).1 = b.
  apply/ffunP => i'; rewrite !ffunE eqxx /=; case: eqP => [->|_] //.
  by rewrite -surjective_pairing.
have inj : injective phi.
  move=> [b y] [b' y'] [e1 e2]; have eb : b = b' by rewrite -(back b y) e1 e2 back.
  by rewrite eb; move/ffunP/(_ i): e1; rewrite !ffunE eqxx => -[->].
apply: (@leq_trans #|[set x : tape * Fr E | recoin x.1 i x.2 \in B]|).
  rewrite -(card_imset _ inj); apply: subset_leq_card; apply/subsetP => y /imsetP[[b v]].
  by rewrite in_setX => /andP[/= bB _] ->; rewrite in_set /= back.
rewrite (card_by_fst (fun h v => recoin h i v \in B)).
apply: (@leq_trans (\sum_(h : tape) k)%N); first by apply: leq_sum => h _; exact: le.
rewrite sum_nat_const mulnC card_ffun card_prod cF card_ord mulnn -expnM.
by rewrite leq_mul2l (_ : (n + N).+1 = 2 * N)%N ?leqnn ?orbT //; lia.
Qed.

(** A nonce is used whose hash is known at step [i]. *)
Definition hit (i : nat) (h : tape) : bool :=
  let t := real (take i (codom h)) in
  if next_request A (replies_of t) is SignOf m
  then schnorr_preimage m g ((nth (0, 0) (codom h) i).1 *: g) \in map fst (hashes_of t) else false.

Lemma size_real hs : size (hashes_of (real hs)) = size hs.
Proof.
elim/last_ind: hs => // hs x IH; rewrite /real play_rcons -/(real _) size_rcons /real_step -IH.
by case: next_request => m; rewrite /= /answer size_rcons.
Qed.

Lemma card_hit (i : 'I_N) : (#|[set h | hit i h]| <= i * modulus E ^ (n + N))%N.
Proof.
apply: (@card_recoin _ i) => h.
have tE v : take i (codom (recoin h i v)) = take i (codom h).
  apply: (@eq_from_nth _ (0, 0)); rewrite ?size_take ?size_codom // => i'.
  rewrite card_ord ltn_ord => li; rewrite !nth_take //.
  have li' : (i' < N)%N := ltn_trans li (ltn_ord i).
  by rewrite -[i']/(val (Ordinal li')) !nth_codomN ffunE -val_eqE /= ltn_eqF.
set t := real (take i (codom h)).
have st : size (hashes_of t) = i by rewrite size_real size_take size_codomN ltn_ord.
case er: (next_request A (replies_of t)) => [m|m].
  rewrite (_ : [set v | _] = set0) ?cards0 //; apply/setP => v; rewrite !in_set /hit tE -/t er.
  by [].
pose F v := schnorr_preimage m g (v *: g).
have Finj : injective F.
  move=> v v' /C45_schnorr_preimage[_ _ /eqP]; rewrite -subr_eq0 -scalerBl scaler_eq0 (negbTE g0) orbF.
  by rewrite subr_eq0 => /eqP.
rewrite -[X in (_ <= X)%N]st -(size_map fst) cardE -(size_map F).
apply: uniq_leq_size; first by rewrite map_inj_uniq ?enum_uniq.
move=> y /mapP[v]; rewrite mem_enum !in_set /hit tE -/t er nth_codomN ffunE eqxx /= => + ->.
by [].
Qed.

Lemma reused_hit h : reused (after (real_step sk) A h) = [exists i : 'I_n, hit i h].
Proof.
have gen k : (k <= n)%N -> reused (real (take k (codom h))) = has (fun i => hit i h) (iota 0 k).
  elim: k => [|k IH] lk; first by rewrite take0.
  have -> : iota 0 k.+1 = iota 0 k ++ [:: k] by rewrite -addn1 iotaD.
  rewrite has_cat -IH ?(ltnW lk) // has_seq1.
  pose i : 'I_N := Ordinal (leqW lk); rewrite -[k.+1]/(val i).+1 take_codomS /real play_rcons -/(real _) /=.
  rewrite /real_step /hit -[k in nth _ _ k]/(val i) nth_codomN /=.
  by case: next_request => m; rewrite //= orbF.
rewrite /after -/(real _) gen //; apply/hasP/existsP => [[i]|[i hi]].
  by rewrite mem_iota add0n => lt hi; exists (Ordinal lt).
by exists (val i) => //; rewrite mem_iota add0n ltn_ord.
Qed.

Lemma card_reused :
  (#|[set h | reused (after (real_step sk) A h)]| <= 'C(n, 2) * modulus E ^ (n + N))%N.
Proof.
have -> : [set h | reused (after (real_step sk) A h)] = \bigcup_(i < n) [set h | hit i h].
  apply/setP => h; rewrite in_set reused_hit; apply/existsP/bigcupP => [[i hi]|[i _]].
    by exists i; rewrite ?in_set.
  by rewrite in_set => hi; exists i.
apply: leq_trans (_ : \sum_(i < n) #|[set h | hit i h]| <= _)%N.
  elim/big_rec2: _ => [|i B m _ le]; first by rewrite cards0.
  by apply: leq_trans (leq_card_setU _ _) _; rewrite leq_add2l.
rewrite -triangular_sum big_mkord big_distrl /=; apply: leq_sum => i _.
exact: card_hit (widen_ord (leqnSn n) i).
Qed.

Lemma real_bounds :
  let S := #|[set h | clean_win pk A h]| in
  let R := #|[set h | breaks (real_step sk) pk A h]| in
  (S <= R <= S + 'C(n, 2) * modulus E ^ (n + N))%N.
Proof.
cbv zeta; have -> : #|[set h | clean_win pk A h]|
    = #|[set h | breaks (real_step sk) pk A h && ~~ reused (after (real_step sk) A h)]|.
  rewrite -[RHS](card_imset _ convert_inj); apply/eqP; rewrite eqn_leq; apply/andP; split.
    apply: subset_leq_card; apply/subsetP => h; rewrite in_set => w.
    have [k _ ek] : exists2 k, k \in setT & h = convert_tape k.
      have := injF_bij convert_inj; case=> inv _ can2; exists (inv h) => //.
    by apply/imsetP; exists k; rewrite // in_set -convert_win -ek.
  apply: subset_leq_card; apply/subsetP => h /imsetP[k]; rewrite !in_set => w ->.
  by rewrite convert_win.
apply/andP; split.
  by apply: subset_leq_card; apply/subsetP => h; rewrite !in_set => /andP[].
apply: leq_trans (_ : #|[set h | breaks (real_step sk) pk A h && ~~ reused (after (real_step sk) A h)]
                      :|: [set h | reused (after (real_step sk) A h)]| <= _)%N.
  apply: subset_leq_card; apply/subsetP => h; rewrite !in_set => ->.
  by case: reused.
apply: leq_trans (leq_card_setU _ _) _; rewrite leq_add2l; exact: card_reused.
Qed.

End Real.

(** ** C99 *)

(** The simulation loses no more than the runs in which a nonce comes up again. *)
Theorem C99_simulation (sk : Fr E) (A : forger) : g != 0 ->
  let pk := (schnorr_from_sk g sk).2 in
  let S := #|[set h | clean_win pk A h]| in
  let R := #|[set h | breaks (real_step sk) pk A h]| in
  (S <= R <= S + 'C(n, 2) * modulus E ^ (n + N))%N.
Proof. by move=> g0; exact: real_bounds. Qed.

Theorem C99_schnorr (T : finType) (A : T -> pt C -> forger) : g != 0 ->
  let pk sk := (schnorr_from_sk g sk).2 in
  let R := #|[set x : (T * Fr E) * tape
             | breaks (real_step x.1.2) (pk x.1.2) (A x.1.1 (pk x.1.2)) x.2]| in
  let F := #|[set x : (T * Fr E) * (tape * tape)
             | pk x.1.2 == cma_key (pk x.1.2) (A x.1.1 (pk x.1.2)) x.2.1 x.2.2 *: g]| in
  let M := (#|T| * modulus E)%N in
  ((R - M * ('C(n, 2) * modulus E ^ (n + N))) ^ 2
   <= M * N * (F + R * modulus E ^ (n + N)))%N.
Proof.
move=> g0; cbv zeta; cbn [schnorr_from_sk snd].
pose X := [finType of T * Fr E].
pose Rx (x : X) := #|[set h | breaks (real_step x.2) (x.2 *: g) (A x.1 (x.2 *: g)) h]|.
pose Sx (x : X) := #|[set h | clean_win (x.2 *: g) (A x.1 (x.2 *: g)) h]|.
pose Fx (x : X) := #|[set hh : tape * tape
  | x.2 *: g == cma_key (x.2 *: g) (A x.1 (x.2 *: g)) hh.1 hh.2 *: g]|.
rewrite (card_by_fst (fun (x : X) h => breaks (real_step x.2) (x.2 *: g) (A x.1 (x.2 *: g)) h)).
rewrite (card_by_fst (fun (x : X) (hh : tape * tape) =>
  x.2 *: g == cma_key (x.2 *: g) (A x.1 (x.2 *: g)) hh.1 hh.2 *: g)).
rewrite -/(Rx _) -/(Fx _).
have cX : #|X| = (#|T| * modulus E)%N by rewrite card_prod (card_Fp (modulus_prime E)).
set e := (modulus E ^ (n + N))%N.
have sb x : (Sx x <= Rx x <= Sx x + 'C(n, 2) * e)%N by exact: real_bounds.
have le1 : (\sum_x Rx x - #|T| * modulus E * ('C(n, 2) * e) <= \sum_x Sx x)%N.
  rewrite leq_subLR addnC -cX -sum_nat_const -big_split /=.
  by apply: leq_sum => x _; case/andP: (sb x).
have le2 : (\sum_x Sx x <= \sum_x Rx x)%N by apply: leq_sum => x _; case/andP: (sb x).
apply: leq_trans (_ : (\sum_x Sx x) ^ 2 <= _)%N; first by rewrite leq_exp2r.
apply: leq_trans (sum_square _ _) _.
rewrite -mulnA; apply: leq_mul; first by rewrite -cX; exact: eq_leq (eq_card _).
apply: leq_trans (_ : \sum_x N * (Fx x + Sx x * e) <= _)%N.
  by apply: leq_sum => x _; exact: cma_fork.
rewrite -big_distrr /= leq_mul2l; apply/orP; right.
by rewrite big_split /= leq_add2l -big_distrl /= leq_mul2r le2 orbT.
Qed.

End Game.
Print Assumptions C99_simulation.
Print Assumptions C99_schnorr.

(** An insider has one message signed, asks for one hash and signs another message itself: it
    wins whatever the coins, here for 11^6 tapes of the toy curve. One that hands in the
    signature it was given never wins. *)
Definition insider (E : engine) (C : crv E) (g : pt C) (sk v : Fr E) (m m' : seq byte) : forger C :=
  Forger (fun rs => if rs is [::] then SignOf m else HashOf (schnorr_preimage m' g (v *: g)))
         (fun rs => (m', (v *: g, v - sk * (if rs is [:: _; inl c] then c else 0)))).
Definition replayer (E : engine) (C : crv E) (m : seq byte) : forger C :=
  Forger (fun=> SignOf m) (fun rs => (m, if rs is [:: inr sg] then sg else (0, 0))).

Lemma insider_breaks (E : engine) (C : crv E) (g : pt C) (sk v : Fr E) m m'
  (h : {ffun 'I_3 -> Fr E * Fr E}) : m != m' ->
  breaks g (real_step g sk) (sk *: g) (insider g sk v m m') h.
Proof.
move=> ne; rewrite breaksE /said /final_log /after.
have -> : take 2 (codom h) = [:: h ord0; h (lift ord0 ord0)] by rewrite codomE !enum_ordS /= ?take0.
rewrite /play /= /real_step /= /schnorr_sign /=.
set p1 := schnorr_preimage m g _; set p2 := schnorr_preimage m' g _.
have n12 : (p1 == p2) = false.
  by apply/negbTE/eqP => /C45_schnorr_preimage[em _ _]; rewrite em eqxx in ne.
have n21 : (p2 == p1) = false by rewrite eq_sym.
rewrite /answer /= !inE n21 /recall /= n12 eqxx /=.
rewrite scalerBl scalerA [sk * _]mulrC subrK eqxx /= xpair_eqE [m' == m]eq_sym (negbTE ne).
by [].
Qed.

Lemma replayer_breaks_not (E : engine) (C : crv E) (g : pt C) (sk : Fr E) m
  (h : {ffun 'I_2 -> Fr E * Fr E}) :
  breaks g (real_step g sk) (sk *: g) (replayer C m) h = false.
Proof.
rewrite breaksE /said /after; have -> : take 1 (codom h) = [:: h ord0].
  by rewrite codomE !enum_ordS /= ?take0.
by rewrite /play /= /real_step /= inE eqxx andbF.
Qed.

Example C99_example :
  let g : Com TE := f 2 in
  let A := insider (C := G2 TE) g (f 5) (f 7) [::] [:: x01] in
  #|[set h : {ffun 'I_3 -> Fr TE * Fr TE} | breaks g (real_step g (f 5)) (f 5 *: g) A h]| = (11 ^ 6)%N.
Proof.
move=> g A; rewrite (_ : [set h | _] = setT); last first.
  by apply/setP => h; rewrite !in_set; exact: insider_breaks.
rewrite cardsT card_ffun card_prod (card_Fp (modulus_prime TE)) card_ord mulnn.
exact: esym (expnM 11 2 3).
Qed.
