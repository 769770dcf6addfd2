(** * PropsOrder: C92, what an aggregator holds after any history, and the order of delivery *)

From Coq Require Import NArith Permutation Strings.Byte.
From mathcomp Require Import all_ssreflect all_algebra zify.
From Verif Require Import Prelude Errors BTreeMap Engine LibModel PolyModel SigmaModel PvssModel
  Spec PreludeProofs AlgebraProofs PolyProofs PvssProofs AggProofs HistProofs Instance
  PropsPoly PropsSigma PropsShare PropsAgg PropsHist PropsReceive.

Set Implicit Arguments.
Unset Strict Implicit.
Unset Printing Implicit Defensive.

Import GRing.Theory.
Local Open Scope ring_scope.

Section Order.
Variables (E : engine) (D : eddsa).
Implicit Types (ag : PVSSAggregator E) (m : message E) (ms : seq (message E)) (h : seq (call E)).
Local Notation tx := (@ag_aggregated_tx E).
Local Notation n_of ag := (cfg_num_participants (ag_config ag)).
Local Notation gs sp := (dp_gs (sp_decomp_proof sp)).

(** The first signed proof that the messages give for participant [i]. *)
Fixpoint first_proof ms (i : nat) : option (SignedProof E) :=
  if ms is m :: ms' then
    if brought m i is Some (sp, _) then Some sp else first_proof ms' i
  else None.

(** The weight of [i] in a message, and in all of them together. *)
Definition weight m (i : nat) : N := if brought m i is Some (_, w) then w else 0%num.
Definition total ms (i : nat) : N := foldr (fun m acc => (weight m i + acc)%num) 0%num ms.

(** The transcript is the sum of the messages. *)
Definition sum_of n (x : PVSSAggregatedShare E) ms : Prop :=
  (forall i, bt_get (as_contributions x) i
     = if (i < n)%N then omap (fun sp => (sp, (total ms i mod 2 ^ 64)%num)) (first_proof ms i) else None) /\
  (forall k, nth 0 (encs (as_pvss_core x)) k = \sum_(m <- ms) nth 0 (encs (msg_core m)) k /\
             nth 0 (comms (as_pvss_core x)) k = \sum_(m <- ms) nth 0 (comms (msg_core m)) k).

(** The messages agree on the commitment of every participant. *)
Definition agree n ms : Prop :=
  forall m m' i a w a' w', List.In m ms -> List.In m' ms -> (i < n)%N ->
  brought m i = Some (a, w) -> brought m' i = Some (a', w') -> gs a = gs a'.

(** Weights are of type u64. *)
Definition u64_weights m : Prop := forall i a w, brought m i = Some (a, w) -> (w < 2 ^ 64)%num.

Lemma first_proof_rcons ms m i :
  first_proof (rcons ms m) i
  = if first_proof ms i is Some sp then Some sp else omap (@fst _ _) (brought m i).
Proof.
elim: ms => [|m0 ms IH] /=; first by case: (brought m i) => [[]|].
by case: (brought m0 i) => [[]|].
Qed.

Lemma total_rcons ms m i : total (rcons ms m) i = (total ms i + weight m i)%num.
Proof.
elim: ms => [|m0 ms IH] /=; first by rewrite N.add_0_r.
by rewrite IH N.add_assoc.
Qed.

Lemma first_proof_In ms i sp : first_proof ms i = Some sp ->
  exists m w, List.In m ms /\ brought m i = Some (sp, w).
Proof.
elim: ms => [|m ms IH] //=; case e: (brought m i) => [[a w]|].
  by case=> <-; exists m, w; split; [left|].
by move/IH => [m' [w [im em]]]; exists m', w; split; [right|].
Qed.

Lemma In_first_proof ms m i a w : List.In m ms -> brought m i = Some (a, w) ->
  exists sp, first_proof ms i = Some sp.
Proof.
elim: ms => [|m0 ms IH] //= [->|im] e; first by rewrite e; exists a.
by case: (brought m0 i) => [[sp0 w0]|]; [exists sp0 | exact: IH].
Qed.

Lemma first_proof_none ms i : first_proof ms i = None -> total ms i = 0%num.
Proof.
elim: ms => [|m ms IH] //=; rewrite /weight; case: (brought m i) => [[//]|].
by move/IH => ->.
Qed.

Lemma Permutation_total ms ms' i : Permutation ms ms' -> total ms i = total ms' i.
Proof.
elim=> [|m l l' _ IH|m m' l|l l' l'' _ -> _ ->] //=; first by rewrite IH.
by rewrite !N.add_assoc [(weight m' i + _)%num]N.add_comm.
Qed.

Section OneBuild.
Variable b : build.

(** What holds after the messages [ms] were taken. *)
Definition held ag ms : Prop :=
  [/\ sum_of (n_of ag) (tx ag) ms, agree (n_of ag) ms
    & b = Debug -> forall i, (i < n_of ag)%N -> (total ms i < 2 ^ 64)%num].

Lemma held_step ag ag' ms m : u64_weights m ->
  (forall i, (i < n_of ag)%N -> calm b ag m i) -> joined ag m ag' ->
  held ag ms -> held ag' (rcons ms m).
Proof.
move=> uw cl [[ec ep] _ _ cs rc] [[ct co] agr tot]; rewrite /held ec.
have rec i : (i < n_of ag)%N -> recorded ag i
    = omap (fun sp => (sp, (total ms i mod 2 ^ 64)%num)) (first_proof ms i).
  by move=> li; rewrite /recorded ct li.
have new m0 i a w a' w' : List.In m0 ms -> (i < n_of ag)%N -> brought m0 i = Some (a, w) ->
    brought m i = Some (a', w') -> gs a = gs a'.
  move=> im li e0 e1; have [sp fp] := In_first_proof im e0.
  have [m1 [w1 [im1 e1']]] := first_proof_In fp.
  rewrite (agr _ _ _ _ _ _ _ im im1 li e0 e1').
  have [nd _] := cl i li; case: (gs sp =P gs a') => // ne; case: nd.
  by exists sp, (total ms i mod 2 ^ 64)%num, a', w'; rewrite rec // fp.
split.
- split=> [i|k]; last first.
    have [e1 e2] := cs k; have [c1 c2] := co k.
    by rewrite -cats1 !big_cat !big_seq1 e1 e2 c1 c2.
  rewrite -/(recorded ag' i) rc; case: ltnP => // li; rewrite first_proof_rcons total_rcons rec //.
  case fp: (first_proof ms i) => [sp|] /=.
    rewrite /weight; case: (brought m i) => [[a w]|]; last by rewrite N.add_0_r.
    by rewrite N.add_mod_idemp_l.
  rewrite (first_proof_none fp) N.add_0_l /weight; case e: (brought m i) => [[a w]|] //=.
  by rewrite N.mod_small //; exact: uw e.
- move=> m1 m2 i a w a' w' /In_rcons[i1|->] /In_rcons[i2|->] li e1 e2.
  + exact: (agr m1 m2 i a w a' w').
  + exact: (new m1 i a w a' w').
  + by apply/esym/(new m2 i a' w' a w).
  + by move: e2; rewrite e1 => -[<-].
- move=> bd i li; rewrite total_rcons /weight.
  case e: (brought m i) => [[a w]|]; last by rewrite N.add_0_r; exact: tot.
  case fp: (first_proof ms i) => [sp|]; last by rewrite (first_proof_none fp) N.add_0_l; exact: uw e.
  apply/N.lt_nge => big; have [_] := cl i li; apply; split=> //.
  have [m1 [w1 [im1 e1]]] := first_proof_In fp.
  exists sp, (total ms i mod 2 ^ 64)%num, a, w; rewrite rec // fp; split=> //.
    exact: (new m1 i sp w1 a w).
  by rewrite N.mod_small //; exact: tot.
Qed.

Lemma held_new config ps : held (new_aggregator config ps) [::].
Proof.
split=> //.
by split=> [i|k]; [rewrite /= if_same | rewrite !big_nil /= !nth_nseq !if_same].
Qed.

Lemma held_run ag ms h : (0 < n_of ag)%N -> tx_ok D ag -> held ag ms ->
  (forall m, List.In m (accepted D b ag h) -> u64_weights m) ->
  held (run D b ag h) (ms ++ accepted D b ag h).
Proof.
elim: h ag ms => [|c h IH] ag ms n0 ok hd uw /=; first by rewrite cats0.
have ans := answers b c n0 ok; have ok' := receive_tx_ok b c ok.
have [ec _] := receive_static D b ag c.
move: uw; rewrite /=; case er: (receive D b ag c) ans ok' ec => [r ag'] /= ans ok' ec uw.
case: ans uw ok' ec {er} => [e _|p _|_ _|i _ _ _ _ _|i _ _ _ _ _ _|ag1 _ _ cl jn] /= uw ok' ec;
  try exact: IH.
  by move: uw; case: (call_msg c) => [sh|y] uw; exact: IH.
rewrite -cat_rcons; apply: IH => //; rewrite ?ec //; last by move=> m im; apply: uw; right.
by apply: held_step cl jn hd; apply: uw; left.
Qed.

(** Verification does not look at the transcript held. *)
Lemma verification_static ag ag' c : ag_config ag = ag_config ag' ->
  ag_participants ag = ag_participants ag' ->
  verification D b ag c = verification D b ag' c.
Proof. by case: ag ag' => [cf ps x] [cf' ps' x'] /= -> ->. Qed.

Lemma accepted_each ag h c : (0 < n_of ag)%N -> tx_ok D ag ->
  accepted D b ag h = map (@call_msg E) h -> List.In c h ->
  verification D b ag c = Ok tt /\ header_ok ag (call_msg c).
Proof.
elim: h ag => [|c0 h IH] ag //= n0 ok.
have ans := answers b c0 n0 ok; have ok' := receive_tx_ok b c0 ok.
have [ec ep] := receive_static D b ag c0.
case er: (receive D b ag c0) ans ok' ec ep => [r ag'] /= ans ok' ec ep.
case or: (is_ok r) => acc; last first.
  by have := accepted_size D b ag' h; rewrite acc /= size_map ltnn.
case: acc => acc [<-|ic]; first by case: ans or.
have [] := IH ag' _ ok' acc ic; first by rewrite ec.
rewrite /header_ok ec => <- hd; split=> //.
exact: verification_static.
Qed.

Lemma step_ok ag ms c : (0 < n_of ag)%N -> tx_ok D ag -> held ag ms ->
  verification D b ag c = Ok tt -> header_ok ag (call_msg c) ->
  agree (n_of ag) (rcons ms (call_msg c)) ->
  (b = Debug -> forall i, (i < n_of ag)%N -> (total (rcons ms (call_msg c)) i < 2 ^ 64)%num) ->
  is_ok (receive D b ag c).1.
Proof.
move=> n0 ok [[ct _] _ _] v hd agr tot; have ans := answers b c n0 ok.
have cl i : (i < n_of ag)%N -> calm b ag (call_msg c) i.
  move=> li; split=> [[a [w [a' [w' [+ e' ne]]]]]|[bd [a [w [a' [w' [+ e' _ big]]]]]]];
    rewrite /recorded ct li; case fp: (first_proof ms i) => [sp|] //= -[ea ew].
    have [m1 [w1 [im1 e1]]] := first_proof_In fp; apply: ne; rewrite -ea.
    by apply: (agr m1 (call_msg c) i sp w1 a' w') => //; apply/In_rcons; [left | right].
  have := tot bd i li; rewrite total_rcons /weight e' => small.
  apply: (N.lt_irrefl (2 ^ 64)); apply: N.le_lt_trans small; apply: N.le_trans big _.
  by apply: N.add_le_mono; [rewrite -ew; exact: N.mod_le | exact: N.le_refl].
case: ans v hd => [e ->|p ->|_ nh|i _ _ li d _|i _ _ li bd x _|ag1 _ _ _ _] // _ hd.
- by have [] := cl i li.
- by have [_ nx] := cl i li; case: nx.
Qed.

End OneBuild.

(** After any history of calls, in either build, the transcript is the sum of the messages
    that were taken: the vectors slot by slot; of every participant below [n] the first proof
    given, and the sum of its weights (modulo [2^64]).  The messages taken agree on the
    commitments; and in debug builds no sum reached [2^64]. *)
Theorem C92_sum (b : build) (config : Config E) (ps : btmap (Participant E))
  (ag0 : PVSSAggregator E) h :
  (0 < cfg_num_participants config)%N -> aggregator_new config ps = Ok ag0 ->
  let n := cfg_num_participants config in
  let acc := accepted D b ag0 h in
  (forall m, List.In m acc -> u64_weights m) ->
  [/\ sum_of n (tx (run D b ag0 h)) acc, agree n acc
    & b = Debug -> forall i, (i < n)%N -> (total acc i < 2 ^ 64)%num].
Proof.
move=> n0 [<-] n acc uw; rewrite -[MkAggregator _ _ _]/(new_aggregator config ps) in acc uw *.
have := @held_run b (new_aggregator config ps) [::] h n0 (new_tx_ok D config ps) (held_new b config ps) uw.
by rewrite /held cat0s (proj1 (run_static _ _ _ _)).
Qed.

(** So two nodes of one configuration that have taken the same messages, in whatever order,
    with whatever coins and builds, hold the same transcript, up to which of the proofs that
    a participant signed for one commitment is kept. *)
Theorem C92_order (b b' : build) (config : Config E) (ps : btmap (Participant E))
  (ag0 : PVSSAggregator E) h h' :
  (0 < cfg_num_participants config)%N -> aggregator_new config ps = Ok ag0 ->
  let acc := accepted D b ag0 h in
  let acc' := accepted D b' ag0 h' in
  let x := tx (run D b ag0 h) in
  let x' := tx (run D b' ag0 h') in
  (forall m, List.In m acc -> u64_weights m) -> Permutation acc acc' ->
  same_transcript x x' /\
  ((forall m m' i a w a' w', List.In m acc -> List.In m' acc ->
      brought m i = Some (a, w) -> brought m' i = Some (a', w') -> a = a') -> x = x').
Proof.
move=> n0 e0 acc acc' x x' uw pm; have uw' m : List.In m acc' -> u64_weights m.
  by move=> im; apply: uw; exact: Permutation_in (Permutation_sym pm) im.
have [[ct co] agr _] := C92_sum n0 e0 uw; have [[ct' co'] _ _] := C92_sum n0 e0 uw'.
case: e0 => e0; have e1 : ag0 = new_aggregator config ps by rewrite -e0.
have ec : ag_config ag0 = config by rewrite e1.
have [[ed en] [se sc] _ _] : tx_ok D (run D b ag0 h) by rewrite e1; exact/run_tx_ok/new_tx_ok.
have [[ed' en'] [se' sc'] _ _] : tx_ok D (run D b' ag0 h') by rewrite e1; exact/run_tx_ok/new_tx_ok.
rewrite -/x (proj1 (run_static _ _ _ _)) ec in ed en se sc ct co.
rewrite -/x' (proj1 (run_static _ _ _ _)) ec in ed' en' se' sc' ct' co'.
have ecore : as_pvss_core x = as_pvss_core x'.
  case: (as_pvss_core x) (as_pvss_core x') co co' se sc se' sc' => [e k] [e' k'] /= lc lc' se sc se' sc'.
  congr MkCore; apply: (@eq_from_nth _ 0); rewrite ?se ?sc ?se' ?sc' // => i _.
    by have [-> _] := lc i; have [-> _] := lc' i; exact: Permutation_sum.
  by have [_ ->] := lc i; have [_ ->] := lc' i; exact: Permutation_sum.
have et i : total acc' i = total acc i by apply/esym/Permutation_total.
have slot i : match first_proof acc i, first_proof acc' i with
  | Some sp, Some sp' => exists m m' w w', [/\ List.In m acc, List.In m' acc,
                           brought m i = Some (sp, w) & brought m' i = Some (sp', w')]
  | None, None => True | _, _ => False end.
  case fp: (first_proof acc i) => [sp|]; case fp': (first_proof acc' i) => [sp'|] //.
  - have [m [w [im e]]] := first_proof_In fp; have [m' [w' [im' e']]] := first_proof_In fp'.
    exists m, m', w, w'; split=> //; exact: Permutation_in (Permutation_sym pm) im'.
  - have [m [w [im e]]] := first_proof_In fp.
    by have [sp0] := In_first_proof (Permutation_in _ pm im) e; rewrite fp'.
  - have [m [w [im e]]] := first_proof_In fp'.
    by have [sp0] := In_first_proof (Permutation_in _ (Permutation_sym pm) im) e; rewrite fp.
split.
  split=> //; rewrite ?ed ?en //= => i; rewrite ct ct'; case: ltnP => // li; have := slot i.
  case: (first_proof acc i) => [sp|]; case: (first_proof acc' i) => [sp'|] //=.
  case=> m [m' [w [w' [im im' e e']]]]; rewrite et; split=> //.
  exact: (agr m m' i sp w sp' w').
move=> one; apply: agg_ext; rewrite ?ed ?en // => i; rewrite ct ct' et; case: ltnP => // li.
have := slot i; case: (first_proof acc i) => [sp|]; case: (first_proof acc' i) => [sp'|] //=.
by case=> m [m' [w [w' [im im' e e']]]]; rewrite (one m m' i sp w sp' w').
Qed.

(** And if a sequence of calls all succeed, they all succeed in every other order. *)
Theorem C92_any_order (b : build) (config : Config E) (ps : btmap (Participant E))
  (ag0 : PVSSAggregator E) h h' :
  (0 < cfg_num_participants config)%N -> aggregator_new config ps = Ok ag0 ->
  (forall c, List.In c h -> u64_weights (call_msg c)) -> Permutation h h' ->
  accepted D b ag0 h = map (@call_msg E) h ->
  accepted D b ag0 h' = map (@call_msg E) h' /\
  same_transcript (tx (run D b ag0 h)) (tx (run D b ag0 h')).
Proof.
move=> n0 e0 uw pm acc.
have uwm m : List.In m (map (@call_msg E) h) -> u64_weights m.
  by case/(List.in_map_iff _ _ _) => c [<- ic]; exact: uw.
have uwa m : List.In m (accepted D b ag0 h) -> u64_weights m by rewrite acc; exact: uwm.
have [_ agr tot] := C92_sum n0 e0 uwa.
suff acc' : accepted D b ag0 h' = map (@call_msg E) h'.
  split=> //; have pa : Permutation (accepted D b ag0 h) (accepted D b ag0 h').
    by rewrite acc acc'; exact: Permutation_map.
  by have [] := C92_order n0 e0 uwa pa.
have [e1] := e0; have eg : ag0 = new_aggregator config ps by rewrite -e1.
have ok0 : tx_ok D ag0 by rewrite eg; exact: new_tx_ok.
have ec : ag_config ag0 = config by rewrite eg.
have n0' : (0 < n_of ag0)%N by rewrite ec.
suff pre l l2 : h' = l ++ l2 -> accepted D b ag0 l = map (@call_msg E) l.
  by apply: (pre h' [::]); rewrite cats0.
elim/last_ind: l l2 => [|l c IH] l2 eh //.
have al := IH (c :: l2); rewrite -cat_rcons in al; have {IH}al := al eh.
have sub c' : List.In c' (rcons l c) -> List.In c' h.
  move=> ic; apply: Permutation_in (Permutation_sym pm) _; rewrite eh.
  by apply/List.in_app_iff; left.
have pall : Permutation (map (@call_msg E) h) (map (@call_msg E) (rcons l c) ++ map (@call_msg E) l2).
  by rewrite -map_cat -eh; exact: Permutation_map.
have uwl m : List.In m (accepted D b ag0 l) -> u64_weights m.
  rewrite al => /(List.in_map_iff _ _ _)[c' [<- ic]]; apply/uw/sub.
  by apply/In_rcons; left.
have [hs ha ht] := @C92_sum b config ps ag0 l n0 e0 uwl.
have [ecr epr] := run_static D b ag0 l.
have okr : tx_ok D (run D b ag0 l) by exact: run_tx_ok.
have ic : List.In c h by apply: sub; apply/In_rcons; right.
have [v hd] := accepted_each n0' ok0 acc ic.
rewrite -cats1 accepted_cat map_cat al; congr (_ ++ _) => /=.
have : is_ok (receive D b (run D b ag0 l) c).1.
  apply: (@step_ok b (run D b ag0 l) (map (@call_msg E) l) c); rewrite ?ecr ?ec //.
  - by rewrite /held ecr ec -al.
  - by rewrite -v; apply: verification_static.
  - by move: hd; rewrite /header_ok ecr.
  - move=> m m' i a w a' w' im im' li e e'.
    apply: (agr m m' i a w a' w') => //; rewrite acc; apply: Permutation_in (Permutation_sym pall) _;
      by apply/List.in_app_iff; left; rewrite map_rcons.
  - move=> bd i li; apply: N.le_lt_trans (tot bd i li).
    rewrite acc (Permutation_total i pall) -map_rcons; move: (map _ (rcons l c)) => s1.
    elim: s1 => [|m s1 IH1] /=; first exact: N.le_0_l.
    by apply: N.add_le_mono; [exact: N.le_refl | exact: IH1].
by case: (receive D b _ c) => r ag1 /= ->.
Qed.

End Order.
Print Assumptions C92_sum.
Print Assumptions C92_order.
Print Assumptions C92_any_order.

(** Two shares and a transcript, all taken: participant 2 ends with weight 3, whatever the
    order; in both orders the hypotheses hold. *)
Example C92_example :
  let h' := [:: tcall (MsgTranscript tother); tcall (MsgShare sh2); tcall (MsgShare sh1)] in
  [/\ aggregator_new tconfig tparts = Ok tag,
      accepted TD Release tag thist2 = map (@call_msg TE) thist2, Permutation thist2 h',
      forall c, List.In c thist2 -> u64_weights (call_msg c)
    & total (accepted TD Release tag thist2) 2 = 3%num].
Proof.
have acc : accepted TD Release tag thist2 = map (@call_msg TE) thist2.
  by apply: accepted_all; vm_compute.
split; [exact: erefl | exact: acc | | | by rewrite acc; vm_compute].
- exact: Permutation_sym (Permutation_cons_append [:: _; _] _).
have e : all (fun m => all (fun kv : nat * (SignedProof TE * N) => (kv.2.2 <? 2 ^ 64)%num)
                         (bt_iter (msg_contributions m))) (map (@call_msg TE) thist2) by vm_compute.
move=> c ic; have : List.In (call_msg c) (map (@call_msg TE) thist2).
  exact: (List.in_map (@call_msg TE) thist2 c ic).
move: (call_msg c) => m {c ic}; elim: (map _ thist2) e => [|m0 ms IH]; first by move=> _ [].
rewrite [all _ _]/= => /andP[e1 e2] [em|im]; last exact: (IH e2 im).
rewrite -em => i a w /bt_get_In; clear -e1.
elim: (bt_iter _) e1 => [|kv l IHl]; first by move=> _ [].
rewrite [all _ _]/= => /andP[h1 h2] [ekv|]; last exact: IHl.
by move: h1; rewrite ekv => /N.ltb_lt.
Qed.
