(** * PropsForking: C98, what a forger of the proofs and signatures knows

    The hash function that makes the challenges is replaced by answers drawn at random: the
    attacker asks for the hash of byte strings of its choice, the same string has the same
    hash, and the verifier of the code asks for one more. *)

From Coq Require Import NArith Strings.Byte.
From mathcomp Require Import all_ssreflect all_algebra zify.
From Verif Require Import Prelude Errors Engine LibModel PolyModel SigmaModel Spec PreludeProofs
  AlgebraProofs PolyProofs Instance PropsPoly PropsSigma PropsCodec PropsKeys Forking.

Set Implicit Arguments.
Unset Strict Implicit.
Unset Printing Implicit Defensive.

Import GRing.Theory.
Local Open Scope ring_scope.

Local Notation crv E := (curve (modulus E)) (only parsing).

Section Oracle.
Variable E : engine.

(** The strings asked for so far and their hashes. *)
Definition hash_log : Type := seq (seq byte * Fr E).

Definition recall (l : hash_log) (m : seq byte) : Fr E :=
  nth 0 (map snd l) (seq.index m (map fst l)).

(** One more question: a string that is new has the fresh hash [a]. *)
Definition answer (l : hash_log) (m : seq byte) (a : Fr E) : hash_log :=
  rcons l (m, if m \in map fst l then recall l m else a).

(** An attacker: from the answers it has, the next string it asks for; and what it puts out. *)
Record attacker (O : Type) : Type := Attacker {
  ask : seq (Fr E) -> seq byte;
  finish : seq (Fr E) -> O
}.

Definition interview (q : seq (Fr E) -> seq byte) (hs : seq (Fr E)) : hash_log :=
  foldl (fun l a => answer l (q (map snd l)) a) [::] hs.

(** The engine whose hash function for one purpose is the log; all else is as it was. *)
Definition with_log (persona : seq byte) (l : hash_log) : engine :=
  with_hash (E := E) (fun p m => if p == persona then recall l m else hash_to_field E p m).

Section Attack.
Variables (O : Type) (pre : O -> seq byte) (n : nat).
Implicit Types (A : attacker O) (h : {ffun 'I_n.+1 -> Fr E}).

(** What an attacker of [n] questions puts out, and the log after the verifier has asked for
    the hash it needs. *)
Definition output A h : O := finish A (map snd (interview (ask A) (take n (codom h)))).
Definition full_log A h : hash_log :=
  answer (interview (ask A) (take n (codom h))) (pre (output A h)) (h ord_max).

(** The question that decides. *)
Definition deciding A h : nat := seq.index (pre (output A h)) (map fst (full_log A h)).

(** Two runs: the second one has the same answers before the question that decided the first. *)
Definition second_run A h h' : {ffun 'I_n.+1 -> Fr E} := splice (deciding A h) h h'.
Definition two_runs A h h' : (O * Fr E) * (O * Fr E) :=
  let run k := (output A k, recall (full_log A k) (pre (output A k))) in
  (run h, run (second_run A h h')).

(** ** The lemma behind C98 *)

Lemma interview_rcons q hs a :
  interview q (rcons hs a) = answer (interview q hs) (q (map snd (interview q hs))) a.
Proof. by rewrite /interview -cats1 foldl_cat. Qed.

Lemma size_interview q hs : size (interview q hs) = size hs.
Proof. by elim/last_ind: hs => // hs a IH; rewrite interview_rcons /answer !size_rcons IH. Qed.

Lemma take_interview q hs j : take j (interview q hs) = interview q (take j hs).
Proof.
elim/last_ind: hs j => [|hs a IH] j; first by rewrite !take_oversize.
case: (leqP j (size hs)) => lj; last first.
  by rewrite !take_oversize // ?size_interview size_rcons.
rewrite interview_rcons /answer -!cats1 !takel_cat ?size_interview //; exact: IH.
Qed.

(** The question at step [j] comes from the answers before; if it is new, so is its hash. *)
Lemma nth_interview q hs j : (j < size hs)%N ->
  let m := q (map snd (interview q (take j hs))) in
  nth ([::], 0) (interview q hs) j
    = (m, if m \in map fst (interview q (take j hs)) then recall (interview q (take j hs)) m
          else nth 0 hs j).
Proof.
move=> lj m; rewrite -(nth_take _ (leqnn j.+1)) take_interview (take_nth 0 lj) interview_rcons.
by rewrite /answer nth_rcons size_interview size_take lj ltnn eqxx.
Qed.

Definition ask_all A (ans : seq (Fr E)) : seq byte :=
  if (size ans < n)%N then ask A ans else pre (finish A ans).

Lemma nth_codom_ffun h (j : 'I_n.+1) : nth 0 (codom h) j = h j.
Proof. by rewrite codomE (nth_map j) ?size_enum_ord // nth_ord_enum. Qed.

Lemma full_logE A h : full_log A h = interview (ask_all A) (codom h).
Proof.
have sc : size (codom h) = n.+1 by rewrite size_codom card_ord.
have hE : codom h = rcons (take n (codom h)) (h ord_max).
  rewrite -{1}(take_oversize (n := n.+1) (s := codom h)) ?sc //.
  rewrite (take_nth 0) ?sc //; congr (rcons _ _).
  by rewrite -[n in nth _ _ n]/(val (@ord_max n)) nth_codom_ffun.
have tE hs : (size hs <= n)%N -> interview (ask_all A) hs = interview (ask A) hs.
  elim/last_ind: hs => // hs a IH; rewrite size_rcons => lt.
  by rewrite !interview_rcons IH ?(ltnW lt) // /ask_all size_map size_interview lt.
rewrite [in RHS]hE interview_rcons tE; last by rewrite size_take sc ltnSn.
by rewrite /ask_all size_map size_interview size_take sc ltnSn ltnn.
Qed.

Lemma deciding_lt A h : (deciding A h < n.+1)%N.
Proof.
have -> : n.+1 = size (map fst (full_log A h)).
  by rewrite size_map full_logE size_interview size_codom card_ord.
by rewrite index_mem /full_log /answer map_rcons mem_rcons inE eqxx.
Qed.

(** What the deciding question is, and its hash. *)
Lemma decidingE A h (j : 'I_n.+1) : deciding A h = j ->
  pre (output A h) = ask_all A (map snd (interview (ask_all A) (take j (codom h)))) /\
  recall (full_log A h) (pre (output A h)) = h j.
Proof.
move=> dj; set m := pre _.
have lj : (j < size (codom h))%N by rewrite size_codom card_ord.
have lj' : (j < size (full_log A h))%N by rewrite full_logE size_interview.
have mI : m \in map fst (full_log A h) by rewrite -index_mem size_map -/(deciding A h) dj.
have e1 : nth [::] (map fst (full_log A h)) j = m by rewrite -dj nth_index.
have /= e2 := nth_interview (ask_all A) lj; rewrite -full_logE in e2.
have em : m = ask_all A (map snd (interview (ask_all A) (take j (codom h)))).
  by rewrite -e1 (nth_map ([::], 0)) // e2.
split=> //; rewrite /recall -/(deciding A h) dj (nth_map ([::], 0)) // e2 /= -em ifF ?nth_codom_ffun //.
apply/negbTE; rewrite -take_interview -full_logE map_take.
apply/negP => mt; have := index_mem m (take j (map fst (full_log A h))); rewrite mt.
rewrite size_take size_map lj' => lt.
have : seq.index m (map fst (full_log A h)) = seq.index m (take j (map fst (full_log A h))).
  by rewrite -{1}(cat_take_drop j (map fst (full_log A h))) index_cat mt.
by rewrite -/(deciding A h) dj => ej; rewrite -ej ltnn in lt.
Qed.

Variable acc : Fr E -> O -> bool.

(** The attacker wins: the verifier accepts. *)
Definition fooled A h : bool := acc (recall (full_log A h) (pre (output A h))) (output A h).

(** Two runs that fork: both outputs are accepted, on the same string, with two hashes. *)
Definition forked A h h' : bool :=
  let: ((o, c), (o', c')) := two_runs A h h' in
  [&& acc c o, acc c' o', pre o == pre o' & c != c'].

Lemma take_splice (j : 'I_n.+1) h h' : take j (codom (splice j h h')) = take j (codom h).
Proof.
apply: (@eq_from_nth _ 0); rewrite ?size_take ?size_codom // => i.
rewrite card_ord ltn_ord => li; rewrite !nth_take //.
have li' : (i < n.+1)%N := ltn_trans li (ltn_ord j).
by rewrite -[i]/(val (Ordinal li')) !nth_codom_ffun spliceE /= li.
Qed.

Lemma fork_counts A :
  (#|[set h | fooled A h]| ^ 2 <=
   n.+1 * (#|[set hh | forked A hh.1 hh.2]| + #|[set h | fooled A h]| * modulus E ^ n))%N.
Proof.
pose win (j : 'I_n.+1) h := (deciding A h == j) && fooled A h.
have one h j j' : win j h -> win j' h -> j = j'.
  by move=> /andP[/eqP e _] /andP[/eqP e' _]; apply: val_inj; rewrite /= -e -e'.
have fib (a : Fr E) : (#|[set a' | a' == a]| <= 1)%N.
  by rewrite (_ : [set a' | a' == a] = [set a]) ?cards1 //; apply/setP => x; rewrite !inE.
have := @forking [finType of Fr E] [eqType of Fr E] id 1 n.+1 fib win one.
have -> : wins win = [set h | fooled A h].
  apply/setP => h; rewrite !inE; apply/existsP/idP => [[j /andP[]] //|fo].
  by exists (Ordinal (deciding_lt A h)); rewrite /win fo andbT.
rewrite mul1n /= (card_Fp (modulus_prime E)) => /leq_trans; apply.
rewrite leq_mul2l leq_add2r; apply/orP; right.
apply: subset_leq_card; apply/subsetP => -[h h']; rewrite !in_set => /existsP[j /= /and3P[w w' ne]].
move: w w' => /andP[/eqP dj fo] /andP[/eqP dj' fo'].
rewrite /forked /two_runs /second_run dj.
have [m1 c1] := decidingE dj; have [m2 c2] := decidingE dj'.
rewrite -/(fooled A h) fo -/(fooled A (splice j h h')) fo' /= c1 c2 spliceE ltnn ne andbT.
by rewrite m1 m2 take_splice.
Qed.

End Attack.

(** The same with attackers that depend on what else is drawn. *)
Lemma fork_counts_all (O : Type) (pre : O -> seq byte) (n : nat) (T : finType)
  (acc : T -> Fr E -> O -> bool) (A : T -> attacker O) :
  let S := #|[set x : T * {ffun 'I_n.+1 -> Fr E} | fooled pre (acc x.1) (A x.1) x.2]| in
  let F := #|[set x : T * ({ffun 'I_n.+1 -> Fr E} * {ffun 'I_n.+1 -> Fr E})
             | forked pre (acc x.1) (A x.1) x.2.1 x.2.2]| in
  (S ^ 2 <= #|T| * n.+1 * (F + S * modulus E ^ n))%N.
Proof.
cbv zeta; rewrite (card_by_fst (fun t h => fooled pre (acc t) (A t) h)).
rewrite (card_by_fst (fun t hh => forked pre (acc t) (A t) hh.1 hh.2)).
apply: leq_trans (sum_square _ _) _.
rewrite -mulnA; apply: leq_mul; first exact: eq_leq (eq_card _).
rewrite big_distrl -big_split big_distrr /=; apply: leq_sum => t _.
exact: fork_counts.
Qed.

End Oracle.

(** ** C98 *)

Section Knowledge.
Variables (E : engine) (n : nat).
Local Notation N := n.+1.
Local Notation hashes := {ffun 'I_N -> Fr E}.

(** *** Schnorr signatures *)

(** Two accepting transcripts with one commitment and two challenges. *)
Lemma extracted (C : crv E) (g X a a' : pt C) (z z' c c' : Fr E) :
  z *: g + c *: X = a -> z' *: g + c' *: X = a' -> a = a' -> c != c' ->
  X = ((z - z') / (c' - c)) *: g.
Proof.
move=> e e' ea ne; have ne' : c' - c != 0 by rewrite subr_eq0 eq_sym.
apply: (scalerI ne'); rewrite scalerA mulrC divfK //.
move: e; rewrite ea -e' => e; rewrite !scalerBl.
by apply/eqP; rewrite subr_eq addrAC eq_sym subr_eq e addrC.
Qed.

Section SchnorrForge.
Variables (C : crv E) (g : pt C).

(** What a forger puts out: a message and a signature. *)
Definition forgery : Type := (seq byte * schnorr_sig C)%type.
Definition forgery_pre (o : forgery) : seq byte := schnorr_preimage o.1 g o.2.1.

Definition forges (pk : pt C) (A : attacker E forgery) (h : hashes) : bool :=
  let o := output A h in
  is_ok (@schnorr_verify (with_log SCHNORR_PERSONA (full_log forgery_pre A h)) C g pk o.1 o.2).

(** The key, computed from two runs of the forger. *)
Definition forger_key (A : attacker E forgery) (h h' : hashes) : Fr E :=
  let: ((o, c), (o', c')) := two_runs forgery_pre A h h' in
  (o.2.2 - o'.2.2) / (c' - c).

Let acc (pk : pt C) (c : Fr E) (o : forgery) : bool := o.2.2 *: g + c *: pk == o.2.1.

(** When the answers are the hashes of the code, winning is being accepted by the code. *)
Theorem C98_schnorr_same (pk : pt C) (A : attacker E forgery) (h : hashes) :
  (forall x, x \in full_log forgery_pre A h -> x.2 = hash_to_field E SCHNORR_PERSONA x.1) ->
  forges pk A h = is_ok (schnorr_verify g pk (output A h).1 (output A h).2).
Proof.
move=> real; rewrite /forges /schnorr_verify /schnorr_challenge /=.
set m := schnorr_preimage _ _ _; set l := full_log _ _ _.
have ml : (seq.index m (map fst l) < size l)%N.
  by rewrite -(size_map fst) index_mem /l /full_log /answer map_rcons mem_rcons inE eqxx.
suff -> : recall l m = hash_to_field E SCHNORR_PERSONA m by [].
rewrite /recall (nth_map ([::], 0)) // real ?mem_nth //; congr (hash_to_field _ _ _).
by rewrite -(nth_map _ [::]) // nth_index // -index_mem size_map.
Qed.

Lemma forgesE pk A h : forges pk A h = fooled forgery_pre (acc pk) A h.
Proof. by rewrite /forges /schnorr_verify /schnorr_challenge /= /fooled /acc; case: eqP. Qed.

Lemma forked_key pk A h h' : forked forgery_pre (acc pk) A h h' -> pk = forger_key A h h' *: g.
Proof.
rewrite /forked /forger_key /acc; case: two_runs => -[[m [a z]] c] [[m' [a' z']] c'] /=.
case/and4P => /eqP e /eqP e' /eqP /C45_schnorr_preimage[_ _ /= ea] ne.
exact: extracted e e' ea ne.
Qed.

(** A forger that wins for [S] of the answers, against one key. *)
Theorem C98_schnorr_key (sk : Fr E) (A : attacker E forgery) :
  let pk := (schnorr_from_sk g sk).2 in
  let S := #|[set h | forges pk A h]| in
  let F := #|[set hh : hashes * hashes | pk == forger_key A hh.1 hh.2 *: g]| in
  (S ^ 2 <= N * (F + S * modulus E ^ n))%N.
Proof.
cbv zeta; set pk := _.2; have := fork_counts forgery_pre n (acc pk) A.
have -> : [set h | fooled forgery_pre (acc pk) A h] = [set h : hashes | forges pk A h].
  by apply/setP => h; rewrite !in_set forgesE.
move/leq_trans; apply; rewrite leq_mul2l leq_add2r /=; apply: subset_leq_card; apply/subsetP => -[h h'].
by rewrite !in_set => /forked_key <-.
Qed.

(** The same when the key and the coins of the forger are drawn too. The computation of the key
    is given the public key only. *)
Theorem C98_schnorr (T : finType) (A : T -> pt C -> attacker E forgery) :
  let pk sk := (schnorr_from_sk g sk).2 in
  let S := #|[set x : (T * Fr E) * hashes | forges (pk x.1.2) (A x.1.1 (pk x.1.2)) x.2]| in
  let F := #|[set x : (T * Fr E) * (hashes * hashes)
             | pk x.1.2 == forger_key (A x.1.1 (pk x.1.2)) x.2.1 x.2.2 *: g]| in
  (S ^ 2 <= #|T| * modulus E * N * (F + S * modulus E ^ n))%N.
Proof.
have := fork_counts_all forgery_pre n (fun (x : T * Fr E) => acc (x.2 *: g)) (fun x => A x.1 (x.2 *: g)).
cbv zeta; set S := #|_|; set S' := #|[set x | forges _ _ _]|.
have -> : S = S' by apply: eq_card => -[x h]; rewrite !in_set forgesE.
rewrite card_prod (card_Fp (modulus_prime E)) => /leq_trans; apply.
rewrite leq_mul2l leq_add2r; apply/orP; right; apply: subset_leq_card; apply/subsetP => -[x [h h']].
by rewrite !in_set => /= /forked_key <-.
Qed.
End SchnorrForge.

(** *** Proofs of knowledge, for a statement fixed before the attack *)

Section DlkForge.
Variables (C : crv E) (g : pt C).

Definition dlk_pre (p : dlk_proof C) : seq byte := dlk_preimage g (dlk_commit p).

(** The verifier, with the log as hash function. *)
Definition dlk_forges (X : pt C) (A : attacker E (dlk_proof C)) (h : hashes) : bool :=
  let E' := with_log DLK_PERSONA (full_log dlk_pre A h) in
  let p := output A h in
  is_ok (@dlk_verify E' C g X (@DlkProof E' C (dlk_commit p) (dlk_challenge p) (dlk_response p))).

Definition dlk_witness (A : attacker E (dlk_proof C)) (h h' : hashes) : Fr E :=
  let: ((p, c), (p', c')) := two_runs dlk_pre A h h' in
  (dlk_response p - dlk_response p') / (c' - c).

Let acc (X : pt C) (c : Fr E) (p : dlk_proof C) : bool :=
  (dlk_response p *: g + c *: X == dlk_commit p) && (c == dlk_challenge p).

Lemma dlk_forgesE X A h : dlk_forges X A h = fooled dlk_pre (acc X) A h.
Proof. by rewrite /dlk_forges /dlk_verify /= /fooled /acc -negb_and; case: (_ && _). Qed.

Lemma dlk_forked X A h h' : forked dlk_pre (acc X) A h h' -> X = dlk_witness A h h' *: g.
Proof.
rewrite /forked /dlk_witness /acc; case: two_runs => -[[a d z] c] [[a' d' z'] c'] /=.
case/and4P => /andP[/eqP e _] /andP[/eqP e' _] /eqP /C45_dlk_preimage[_ /= ea] ne.
exact: extracted e e' ea ne.
Qed.

Theorem C98_dlk (X : pt C) (A : attacker E (dlk_proof C)) :
  let S := #|[set h | dlk_forges X A h]| in
  let F := #|[set hh : hashes * hashes | X == dlk_witness A hh.1 hh.2 *: g]| in
  (S ^ 2 <= N * (F + S * modulus E ^ n))%N.
Proof.
cbv zeta; have := fork_counts dlk_pre n (acc X) A.
have -> : [set h | fooled dlk_pre (acc X) A h] = [set h : hashes | dlk_forges X A h].
  by apply/setP => h; rewrite !in_set dlk_forgesE.
move/leq_trans; apply; rewrite leq_mul2l leq_add2r /=; apply: subset_leq_card; apply/subsetP => -[h h'].
by rewrite !in_set => /dlk_forked <-.
Qed.

End DlkForge.

(** *** Proofs of equality, for a statement that the attacker chooses as it goes *)

Section DleqForge.
Variables (C1 C2 : crv E) (g : pt C1) (g' : pt C2).

(** A statement and a proof. *)
Definition claim : Type := ((pt C1 * pt C2) * dleq_proof C1 C2)%type.
Definition dleq_pre (o : claim) : seq byte :=
  dleq_preimage g g' o.1.1 o.1.2 (dleq_commit o.2).1 (dleq_commit o.2).2.

Definition dleq_forges (A : attacker E claim) (h : hashes) : bool :=
  let E' := with_log DLEQ_PERSONA (full_log dleq_pre A h) in
  let: (X, p) := output A h in
  is_ok (@dleq_verify E' C1 C2 g g' X
           (@DleqProof E' C1 C2 (dleq_commit p) (dleq_challenge p) (dleq_response p))).

Definition dleq_witness (A : attacker E claim) (h h' : hashes) : Fr E :=
  let: ((o, c), (o', c')) := two_runs dleq_pre A h h' in
  (dleq_response o.2 - dleq_response o'.2) / (c' - c).

Let acc (c : Fr E) (o : claim) : bool :=
  [&& dleq_response o.2 *: g + c *: o.1.1 == (dleq_commit o.2).1,
      dleq_response o.2 *: g' + c *: o.1.2 == (dleq_commit o.2).2 & c == dleq_challenge o.2].

Lemma dleq_forgesE A h : dleq_forges A h = fooled dleq_pre acc A h.
Proof.
rewrite /dleq_forges /fooled /acc; case eo: (output A h) => [X [[a a'] d z]].
by rewrite /dleq_verify /= -!negb_and; case: (_ && _).
Qed.

Lemma dleq_forked A h h' : forked dleq_pre acc A h h' ->
  let w := dleq_witness A h h' in (output A h).1 = (w *: g, w *: g').
Proof.
rewrite /forked /dleq_witness /acc /two_runs; set h2 := second_run _ _ _ _.
case: (output A h) => -[X Y] [[a a'] d z]; case: (output A h2) => -[X2 Y2] [[a2 a2'] d2 z2].
set c := recall _ _; set c2 := recall _ _; rewrite /=.
case/and4P => /and3P[/eqP e1 /eqP e2 _] /and3P[/eqP e3 /eqP e4 _] /eqP /C45_dleq_preimage.
case=> _ [/= eX eY] [ea ea'] ne; rewrite -eX in e3; rewrite -eY in e4.
by rewrite -(extracted e1 e3 ea ne) -(extracted e2 e4 ea' ne).
Qed.

Theorem C98_dleq (A : attacker E claim) :
  let S := #|[set h | dleq_forges A h]| in
  let F := #|[set hh : hashes * hashes
             | let w := dleq_witness A hh.1 hh.2 in (output A hh.1).1 == (w *: g, w *: g')]| in
  (S ^ 2 <= N * (F + S * modulus E ^ n))%N.
Proof.
cbv zeta; have := fork_counts dleq_pre n acc A.
have -> : [set h | fooled dleq_pre acc A h] = [set h : hashes | dleq_forges A h].
  by apply/setP => h; rewrite !in_set dleq_forgesE.
move/leq_trans; apply; rewrite leq_mul2l leq_add2r /=; apply: subset_leq_card; apply/subsetP => -[h h'].
by rewrite !in_set => /dleq_forked /= <-.
Qed.

(** No attacker has a false statement accepted for more than [N] in [modulus E] of the answers. *)
Theorem C98_dleq_sound (A : attacker E claim) :
  (#|[set h | dleq_forges A h
              && ~~ [exists w : Fr E, (output A h).1 == (w *: g, w *: g')]]|
   <= N * modulus E ^ n)%N.
Proof.
pose acc' c (o : claim) := acc c o && ~~ [exists w : Fr E, o.1 == (w *: g, w *: g')].
have := fork_counts dleq_pre n acc' A.
have -> : [set h | fooled dleq_pre acc' A h] = [set h : hashes | dleq_forges A h
              && ~~ [exists w : Fr E, (output A h).1 == (w *: g, w *: g')]].
  by apply/setP => h; rewrite !in_set dleq_forgesE.
set S := #|_|; have -> : #|[set hh : hashes * hashes | forked dleq_pre acc' A hh.1 hh.2]| = 0%N.
  apply/eqP; rewrite cards_eq0; apply/eqP/setP => -[h h']; rewrite !in_set; apply/negbTE/negP => fk.
  have : forked dleq_pre acc A h h'.
    move: fk; rewrite /forked; case: two_runs => -[o c] [o' c'].
    by case/and4P => /andP[-> _] /andP[-> _] -> ->.
  move/dleq_forked => /= e; move: fk; rewrite /forked /two_runs /acc'.
  case/and4P => /andP[_ /negP no] _ _ _; apply: no; apply/existsP.
  by exists (dleq_witness A h h'); apply/eqP.
rewrite add0n expnS expn1 mulnCA.
by case: S => // S; rewrite leq_pmul2l.
Qed.

End DleqForge.
End Knowledge.
Print Assumptions C98_schnorr_same.
Print Assumptions C98_schnorr_key.
Print Assumptions C98_schnorr.
Print Assumptions C98_dlk.
Print Assumptions C98_dleq.
Print Assumptions C98_dleq_sound.

(** The owner of a key, as an attacker with one question: it wins whatever the answers. *)
Definition owner (E : engine) (C : crv E) (g : pt C) (sk v : Fr E) (m : seq byte)
  : attacker E (forgery C) :=
  Attacker (fun _ => schnorr_preimage m g (v *: g))
           (fun ans => (m, (v *: g, v - sk * head 0 ans))).

Lemma owner_forges (E : engine) (C : crv E) (g : pt C) (sk v : Fr E) (m : seq byte)
  (h : {ffun 'I_2 -> Fr E}) : forges g (sk *: g) (owner g sk v m) h.
Proof.
rewrite /forges /schnorr_verify /schnorr_challenge /full_log /output.
have -> : take 1 (codom h) = [:: h ord0] by rewrite codomE enum_ordS /= take0.
rewrite /= /interview /= /answer /= /recall /= inE eqxx /=.
by rewrite scalerBl scalerA [sk * _]mulrC subrK eqxx.
Qed.

Example C98_example :
  let g : Com TE := f 2 in
  let A := owner (C := G2 TE) g (f 5) (f 7) [:: x01] in
  #|[set h : {ffun 'I_2 -> Fr TE} | forges g (f 5 *: g) A h]| = 121%N /\
  (0 < #|[set hh : {ffun 'I_2 -> Fr TE} * {ffun 'I_2 -> Fr TE}
         | f 5 *: g == forger_key g A hh.1 hh.2 *: g]|)%N.
Proof.
move=> g A; have e : #|[set h : {ffun 'I_2 -> Fr TE} | forges g (f 5 *: g) A h]| = 121%N.
  rewrite (_ : [set h | _] = setT) ?cardsT ?card_ffun ?card_ord ?card_Fp //.
  by apply/setP => h; rewrite !in_set; exact: owner_forges.
split=> //; have := @C98_schnorr_key TE 1 (G2 TE) g (f 5) A; cbv zeta; rewrite e /=.
by case: (#|_|).
Qed.
