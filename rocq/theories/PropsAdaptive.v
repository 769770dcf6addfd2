(** * PropsAdaptive: property C105, soundness of a whole session against an adaptive sender *)

From Coq Require Import NArith Strings.Byte.
From mathcomp Require Import all_ssreflect all_algebra zify.
From Verif Require Import Prelude Errors BTreeMap Engine LibModel PolyModel SigmaModel PvssModel
  CodecModel Spec CodecSpec PreludeProofs AlgebraProofs PolyProofs PvssProofs AggProofs HistProofs
  CodecProofs Instance PropsPoly PropsSigma PropsShare PropsAgg PropsHist PropsEnd PropsLimits
  PropsVerdict PropsFree Pratt PropsCurve.

Set Implicit Arguments.
Unset Strict Implicit.
Unset Printing Implicit Defensive.

Import GRing.Theory.
Local Open Scope ring_scope.

(** ** Counting: reading a random tape from left to right *)

Section Tapes.
Variable T : finType.

(** The tapes that start with the first [k] entries of [x]. *)
Lemma card_cylinder K k (x : K.-tuple T) (P : pred (seq T)) : (k <= K)%N ->
  #|[set y : K.-tuple T | (take k y == take k x) && P (drop k y)]|
  = #|[set r : (K - k).-tuple T | P r]|.
Proof.
move=> kK.
have sz (r : (K - k).-tuple T) : size (take k x ++ r) == K.
  by rewrite size_cat size_takel ?size_tuple // subnKC.
pose f r := Tuple (sz r).
have injf : injective f.
  move=> r r' /(congr1 val) /= /(congr1 (drop k)); rewrite !drop_size_cat ?size_takel ?size_tuple //.
  exact: val_inj.
rewrite -(card_imset _ injf); apply: eq_card => y; rewrite !inE; apply/idP/imsetP.
  case/andP=> /eqP ty Py.
  have sd : size (drop k y) == (K - k)%N by rewrite size_drop size_tuple.
  exists (Tuple sd); first by rewrite inE.
  by apply: val_inj; rewrite /= -ty cat_take_drop.
case=> r; rewrite inE => Pr -> /=.
by rewrite take_size_cat ?drop_size_cat ?size_takel ?size_tuple // eqxx.
Qed.

(** A program reads [k x] entries of the tape [x], a number that those entries determine.  If
    what is bad afterwards is rare among the continuations of whatever it reads, it is rare
    altogether. *)
Lemma rare_after K (k : K.-tuple T -> nat) (bad : pred (K.-tuple T)) (a b : nat) :
  (forall x, k x <= K)%N -> (forall x y : K.-tuple T, take (k x) x = take (k x) y -> k y = k x) ->
  (forall x, #|[set y : K.-tuple T | (take (k x) y == take (k x) x) && bad y]| * a
             <= b * #|T| ^ (K - k x))%N ->
  (#|[set y | bad y]| * a <= b * #|T| ^ K)%N.
Proof.
move=> kK pre rare.
have szphi (x : K.-tuple T) : size ([seq Some z | z <- take (k x) x] ++ nseq (K - k x) None) == K.
  by rewrite size_cat size_map size_nseq size_takel ?size_tuple // subnKC.
pose phi (x : K.-tuple T) : K.-tuple (option T) := Tuple (szphi x).
have phiK x : pmap id (phi x) = take (k x) x.
  rewrite /= pmap_cat; have -> : pmap id (nseq (K - k x) (@None T)) = [::] by elim: (K - k x)%N.
  by rewrite cats0; elim: (take (k x) x) => //= z l ->.
have phiE (x y : K.-tuple T) : (phi y == phi x) = (take (k x) y == take (k x) x).
  apply/eqP/eqP => e.
    have {}e : take (k y) y = take (k x) x by rewrite -!phiK e.
    have := congr1 size e; rewrite !size_takel ?size_tuple // => ek.
    by rewrite -{1}ek.
  by apply: val_inj; rewrite /= (pre x y) // e.
rewrite -sum1dep_card (partition_big phi xpredT) //= big_distrl /=.
rewrite -card_tuple -sum1_card (partition_big phi xpredT) //= big_distrr /=.
apply: leq_sum => u _.
case: (pickP (fun x => phi x == u)) => [x /eqP ux|none]; last first.
  by rewrite !big_pred0 ?muln0 // => y; rewrite none ?andbF.
rewrite -{u}ux.
have -> : (\sum_(y | bad y && (phi y == phi x)) 1 = #|[set y : K.-tuple T | (take (k x) y == take (k x) x) && bad y]|)%N.
  by rewrite -sum1dep_card; apply: eq_bigl => y; rewrite phiE andbC.
apply: leq_trans (rare x) _; rewrite leq_mul2l; apply/orP; right.
rewrite -card_tuple -cardsT -(@card_cylinder _ _ x xpredT) // -sum1dep_card.
by rewrite eq_leq //; apply: eq_bigl => y; rewrite phiE andbT.
Qed.

(** What depends on the first [k] entries. *)
Lemma card_head K k (A : {set k.-tuple T}) : (k <= K)%N ->
  #|[set y : K.-tuple T | [exists c in A, take k y == c]]| = (#|A| * #|T| ^ (K - k))%N.
Proof.
move=> kK.
have sz (p : k.-tuple T * (K - k).-tuple T) : size (p.1 ++ p.2) == K.
  by rewrite size_cat !size_tuple subnKC.
pose f p := Tuple (sz p).
have injf : injective f.
  move=> [c r] [c' r'] /(congr1 val) /= /eqP; rewrite eqseq_cat ?size_tuple // => /andP[/eqP e /eqP e'].
  by congr pair; exact: val_inj.
rewrite -card_tuple -cardsT -cardsX -(card_imset _ injf); apply: eq_card => y; rewrite inE.
apply/exists_inP/imsetP => [[c cA /eqP e]|[[c r]]].
  have sd : size (drop k y) == (K - k)%N by rewrite size_drop size_tuple.
  exists (c, Tuple sd); first by rewrite !inE cA.
  by apply: val_inj; rewrite /= -e cat_take_drop.
rewrite !inE /= => /andP[cA _] ->; exists c => //=.
by rewrite take_size_cat ?size_tuple.
Qed.

End Tapes.

(** ** A session *)

Section Session.
Variables (E : engine) (D : eddsa) (b : build).
Implicit Types (ag : PVSSAggregator E) (m : message E) (tape used : seq (Fr E)).

(** What a message must be; nothing here depends on what the aggregator holds or draws. *)
Definition sound_message ag m : Prop :=
  match m with MsgShare sh => sound_share D ag sh | MsgTranscript x => sound_transcript D ag x end.

(** One call, with the scalars of [tape] as the generator; what is left of the tape comes back. *)
Definition receive_on ag tape m : outcome pvss_error unit * PVSSAggregator E * seq (Fr E) :=
  match m with
  | MsgShare sh => receive_share D b (R := seq_rng E) ag tape sh
  | MsgTranscript x => receive_aggregated_share D b (R := seq_rng E) ag tape x
  end.

(** The sender chooses each message knowing all the scalars drawn so far, hence the state of the
    aggregator and all its answers. *)
Variable sender : seq (Fr E) -> message E.

(** [N] calls that share one generator: the accepted messages, and the aggregator at the end. *)
Fixpoint session (N : nat) ag used tape : seq (message E) * PVSSAggregator E :=
  if N is N'.+1 then
    let m := sender used in
    let: (o, ag', tape') := receive_on ag tape m in
    let: (ms, ag'') := session N' ag' (used ++ take (size tape - size tape') tape) tape' in
    (if is_ok o then m :: ms else ms, ag'')
  else ([::], ag).

(** The scalars one call draws at most. *)
Definition per_call ag : nat :=
  (cfg_num_participants (ag_config ag) - (cfg_degree (ag_config ag)).+1).+1.

Definition verdict ag tape m : outcome pvss_error unit * seq (Fr E) :=
  match m with
  | MsgShare sh => share_verify D b (R := seq_rng E) ag tape sh
  | MsgTranscript x => aggregation_verify D b (R := seq_rng E) ag tape x
  end.

Lemma receive_onE ag tape m :
  receive_on ag tape m =
  match (let! _ := unwrap (verdict ag tape m).1 in
         match m with
         | MsgShare sh => agg_aggregate_pvss_share b (ag_aggregated_tx ag) sh
         | MsgTranscript y => unwrap (agg_aggregate b (ag_aggregated_tx ag) y)
         end) with
  | Ok x => (Ok tt, set_tx ag x, (verdict ag tape m).2)
  | Err e => (Err e, ag, (verdict ag tape m).2)
  | Panic p => (Panic p, ag, (verdict ag tape m).2)
  end.
Proof.
rewrite /receive_on /verdict; case: m => [sh|x].
  by rewrite /receive_share; case: (share_verify _ _ _ _ _).
by rewrite /receive_aggregated_share; case: (aggregation_verify _ _ _ _ _).
Qed.

Lemma after_seq k tape : (k <= size tape)%N -> after (R := seq_rng E) k tape = drop k tape.
Proof.
elim: k tape => [|k IH] tape; first by rewrite drop0.
by case: tape => // x tape; rewrite /after iterSr => /IH.
Qed.

Lemma scalars_seq k tape : (k <= size tape)%N -> scalars (R := seq_rng E) k tape = take k tape.
Proof. by elim: k tape => [|k IH] [|x tape] //= /IH ->. Qed.

Lemma take_le k k' tape tape' : (k' <= k)%N -> take k tape = take k tape' -> take k' tape = take k' tape'.
Proof. by move=> l e; rewrite -(take_take l tape) e take_take. Qed.

Lemma head_take k tape tape' : (k < size tape)%N -> take k.+1 tape = take k.+1 tape' ->
  (rand_fr (r := seq_rng E) (drop k tape)).1 = (rand_fr (r := seq_rng E) (drop k tape')).1.
Proof.
by elim: k tape tape' => [|k IH] [|x u] [|y v] //= l; [case|case=> _ /IH; apply].
Qed.

(** The verdict is a function of the scalars drawn. *)
Lemma verdict_prefix ag m tape : config_ok (ag_config ag) -> (per_call ag <= size tape)%N ->
  exists2 k, (k <= per_call ag)%N & (verdict ag tape m).2 = drop k tape /\
    forall tape', (per_call ag <= size tape')%N -> take k tape = take k tape' ->
      verdict ag tape' m = ((verdict ag tape m).1, drop k tape').
Proof.
rewrite /per_call => ok l; case: m => [sh|x] /=.
  have [k [ek vk]] := @C60_share_verdicts E D b (seq_rng E) ag tape sh ok.
  have kM : (k <= (cfg_num_participants (ag_config ag) - (cfg_degree (ag_config ag)).+1).+1)%N.
    by case: vk => // *; exact: leqnSn.
  exists k => //; split=> [|tape' l' e]; first by rewrite ek after_seq // (leq_trans kM).
  have [k' [ek' vk']] := @C60_share_verdicts E D b (seq_rng E) ag tape' sh ok.
  suff vk2 : share_verdict D ag (fun mm => scrape_test (scalars (R := seq_rng E) mm tape')) sh
                (share_verify D b (R := seq_rng E) ag tape sh).1 k.
    have [e1 e2] := C60_unique vk2 vk'; rewrite [LHS]surjective_pairing ek' -e1 -e2.
    by rewrite after_seq // (leq_trans kM).
  case: vk kM e => [g|p g h|p g h ns|p g h so nz|p r g h so z t m' degree secret signed h4] kM e.
  - exact: SV_unknown.
  - exact: SV_index g h.
  - exact: SV_slot g h ns.
  - exact: SV_sizes g h so nz.
  apply: SV_checks g h so z _; rewrite -/t -/m' in h4 *.
  by rewrite (scalars_seq (leq_trans kM l')) -e -(scalars_seq (leq_trans kM l)).
have [k [ek vk]] := @C61_transcript_verdicts E D b (seq_rng E) ag tape x ok.
have kM : (k <= (cfg_num_participants (ag_config ag) - (cfg_degree (ag_config ag)).+1).+1)%N.
  by case: vk => // *; exact: leqnSn.
exists k => //; split=> [|tape' l' e]; first by rewrite ek after_seq // (leq_trans kM).
have [k' [ek' vk']] := @C61_transcript_verdicts E D b (seq_rng E) ag tape' x ok.
set mm := (_ - _)%N in ek vk ek' vk' kM l l' *.
suff vk2 : tx_verdict D ag (fun mm => scrape_test (scalars (R := seq_rng E) mm tape'))
              ((rand_fr (after (R := seq_rng E) mm tape')).1 = 0) x
              (aggregation_verify D b (R := seq_rng E) ag tape x).1 k.
  have [e1 e2] := C61_unique vk2 vk'; rewrite [LHS]surjective_pairing ek' -e1 -e2.
  by rewrite after_seq // (leq_trans kM).
case: vk kM e => [nz|z m' nd|r z t m' d slots total proofs h] kM e.
- exact: TV_sizes.
- apply: TV_degree => //; rewrite -/m'.
  by rewrite (scalars_seq (leq_trans kM l')) -e -(scalars_seq (leq_trans kM l)).
have em : take m' tape = take m' tape' by apply: take_le e.
have l1 : (m' <= size tape)%N by exact: ltnW l.
have l2 : (m' <= size tape')%N by exact: ltnW l'.
apply: TV_checks => //; rewrite -/t -/m'.
  by rewrite (scalars_seq l2) -em -(scalars_seq l1).
by rewrite after_seq // -(head_take l e) -after_seq.
Qed.

(** The tapes on which a message is accepted, and whether they are too many for a message that
    is not what it must be. *)
Definition accepting ag m : {set (per_call ag).-tuple (Fr E)} :=
  [set c : (per_call ag).-tuple (Fr E) | is_ok (verdict ag c m).1].
Definition lenient ag m : bool := (modulus E ^ (per_call ag).-1 < #|accepting ag m|)%N.

Lemma many_some (T : finType) (A : {set T}) k : (k < #|A|)%N -> exists x, x \in A.
Proof. by move=> l; apply/set0Pn; rewrite -card_gt0; exact: leq_ltn_trans l. Qed.

Lemma lenient_sound ag m : config_ok (ag_config ag) -> registered ag -> lenient ag m ->
  sound_message ag m.
Proof.
move=> ok reg; have [tn nq fn] := ok; rewrite /lenient /accepting /per_call.
set n := cfg_num_participants (ag_config ag) in tn nq fn *.
set t := cfg_degree (ag_config ag) in tn *; rewrite -[_.+1.-1]/(n - t.+1)%N.
case: m => [sh|x] many; rewrite /sound_message; have [c] := many_some many.
  rewrite inE /verdict => /is_okP[[]] /share_verifyE[] // p [gp li so [cs _ cm] sv].
  exists p; split=> //; split=> //.
  apply/low_degreeP; apply: contraLR many => /low_degreeP nlow; rewrite -leqNgt.
  have sc : size (comms (sh_pvss_core sh)) = n by case: cs.
  pose K := [set c : (n - t.+1).-tuple (Fr E) |
     is_ok (ensure_degree b (R := seq_rng E) (c : seq (Fr E)) (comms (sh_pvss_core sh)) t).1].
  have cK : #|K| = (modulus E ^ (n - t.+2))%N.
    by have := ensure_degree_kernel b (v := comms (sh_pvss_core sh)) (t := t); rewrite sc => ->.
  apply: leq_trans (_ : #|[set y : (n - t.+1).+1.-tuple (Fr E) | [exists c in K, take (n - t.+1) y == c]]| <= _)%N.
    apply: subset_leq_card; apply/subsetP => d; rewrite !inE /verdict.
    case/is_okP => -[] /share_verifyE[] // ? [_ _ _ [_ dg _] _].
    have sz : size (take (n - t.+1) d) == (n - t.+1)%N by rewrite size_takel ?size_tuple.
    apply/exists_inP; exists (Tuple sz) => //; rewrite inE /=; move: dg.
    have l1 : (n - t.+1 <= size d)%N by rewrite size_tuple.
    have l2 : (n - t.+1 <= size (take (n - t.+1) d))%N by rewrite size_takel.
    rewrite -/t !ensure_degreeE ?sc // -/n /= (draw_seq l1) (draw_seq l2) /= take_take //.
    by case: ifP.
  rewrite card_head // cK card_Fp ?modulus_prime // -expnD.
  by rewrite leq_exp2l ?prime_gt1 ?modulus_prime //; lia.
rewrite inE /verdict => /is_okP[[]] /aggregation_verifyE[] // sz _ _ cv cm; split=> //.
- apply/low_degreeP; apply: contraLR many => /low_degreeP nlow; rewrite -leqNgt.
  by apply: bad_degree_count => //; case: sz.
- apply/eqP; apply: contraLR many => npr; rewrite -leqNgt.
  exact: C15_product_partial.
Qed.

(** Something was accepted that few draws let pass. *)
Fixpoint unlucky (N : nat) ag used tape : bool :=
  if N is N'.+1 then
    let m := sender used in
    let: (o, ag', tape') := receive_on ag tape m in
    (is_ok o && ~~ lenient ag m) ||
    unlucky N' ag' (used ++ take (size tape - size tape') tape) tape'
  else false.

Lemma receive_on_static ag tape m :
  let ag' := (receive_on ag tape m).1.2 in
  ag_config ag' = ag_config ag /\ ag_participants ag' = ag_participants ag.
Proof. by rewrite /= receive_onE; case: (obind _ _). Qed.

Lemma receive_on_ok ag tape m : is_ok (receive_on ag tape m).1.1 -> is_ok (verdict ag tape m).1.
Proof. by rewrite receive_onE; case: (verdict ag tape m).1. Qed.

Lemma receive_on_prefix ag m tape : config_ok (ag_config ag) -> (per_call ag <= size tape)%N ->
  exists2 k, (k <= per_call ag)%N & (receive_on ag tape m).2 = drop k tape /\
    forall tape', (per_call ag <= size tape')%N -> take k tape = take k tape' ->
      receive_on ag tape' m = ((receive_on ag tape m).1, drop k tape').
Proof.
move=> ok l; have [k kM [ek h]] := verdict_prefix m ok l; exists k => //.
rewrite [receive_on ag tape m]receive_onE; split=> [|tape' l' e]; first by case: (obind _ _).
by rewrite receive_onE (h _ l' e); case: (obind _ _).
Qed.

Lemma unlucky_sound N ag used tape : config_ok (ag_config ag) -> registered ag ->
  ~~ unlucky N ag used tape ->
  forall m, List.In m (session N ag used tape).1 -> sound_message ag m.
Proof.
elim: N ag used tape => [//|N IH] ag used tape ok reg /=.
have := receive_on_static ag tape (sender used).
case er: (receive_on ag tape (sender used)) => [[o ag'] tape'] /= [ec ep].
rewrite negb_or negb_and negbK => /andP[h nu] m.
have ok' : config_ok (ag_config ag') by rewrite ec.
have reg' : registered ag' by move=> i; rewrite ec ep; exact: reg.
have {IH} := IH ag' _ _ ok' reg' nu.
case: (session N ag' _ tape') => ms ag'' /= IH.
have same m' : sound_message ag' m' -> sound_message ag m'.
  case: m' => [sh|x]; rewrite /sound_message /sound_share /sound_transcript /slot_ok /slots_product_ok
    /contributions_valid /key_of ec ep //.
case: ifP h => [_ /= len|_ _]; last by move/IH/same.
by case=> [<-|/IH/same//]; exact: lenient_sound.
Qed.

Lemma unlucky_count N ag used K : config_ok (ag_config ag) -> (N * per_call ag <= K)%N ->
  (#|[set tape : K.-tuple (Fr E) | unlucky N ag used tape]| * modulus E <= N * modulus E ^ K)%N.
Proof.
have cF : #|Fr E| = modulus E by rewrite card_Fp ?modulus_prime.
elim: N ag used K => [|N IH] ag used K ok lK.
  by rewrite (_ : [set _ | _] = set0) ?cards0 //; apply/setP => y; rewrite !inE.
have lM : (per_call ag <= K)%N by apply: leq_trans lK; rewrite mulSn leq_addr.
pose m := sender used.
pose first (tape : K.-tuple (Fr E)) := is_ok (receive_on ag tape m).1.1 && ~~ lenient ag m.
pose later (tape : K.-tuple (Fr E)) :=
  let: (o, ag', tape') := receive_on ag tape m in
  unlucky N ag' (used ++ take (size tape - size tape') tape) tape'.
have -> : [set tape : K.-tuple (Fr E) | unlucky N.+1 ag used tape] = [set y | first y] :|: [set y | later y].
  apply/setP => y; rewrite !inE /first /later /= -/m.
  by case: (receive_on ag y m) => [[o ag'] tape'].
apply: leq_trans (_ : (#|[set y | first y]| + #|[set y | later y]|) * modulus E <= _)%N.
  by rewrite leq_mul2r leq_card_setU orbT.
rewrite mulnDl mulSn; apply: leq_add.
  rewrite /first; case: (boolP (lenient ag m)) => [len|few].
    by rewrite (_ : [set _ | _] = set0) ?cards0 //; apply/setP => y; rewrite !inE andbF.
  apply: leq_trans (_ : #|[set y : K.-tuple (Fr E) |
      [exists c in accepting ag m, take (per_call ag) y == c]]| * modulus E <= _)%N.
    rewrite leq_mul2r; apply/orP; right; apply: subset_leq_card; apply/subsetP => y.
    rewrite !inE andbT => /receive_on_ok acc.
    have sz : size (take (per_call ag) y) == per_call ag by rewrite size_takel ?size_tuple.
    have l : (per_call ag <= size y)%N by rewrite size_tuple.
    have l' : (per_call ag <= size (take (per_call ag) y))%N by rewrite size_takel.
    apply/exists_inP; exists (Tuple sz) => //; rewrite inE.
    have [k kM [_ /(_ _ l')]] := verdict_prefix m ok l.
    by rewrite take_take // => /(_ erefl) ->.
  rewrite card_head // cF; rewrite /lenient -leqNgt in few.
  apply: leq_trans (_ : modulus E ^ (per_call ag).-1 * modulus E ^ (K - per_call ag) * modulus E <= _)%N.
    by rewrite !leq_mul2r few !orbT.
  by rewrite -expnD -expnSr leq_exp2l ?prime_gt1 ?modulus_prime //; rewrite /per_call in lM *; lia.
pose k (tape : K.-tuple (Fr E)) := (size tape - size (receive_on ag tape m).2)%N.
have ksz (y : K.-tuple (Fr E)) : (per_call ag <= size y)%N by rewrite size_tuple.
have kP (y : K.-tuple (Fr E)) : [/\ (k y <= per_call ag)%N, (receive_on ag y m).2 = drop (k y) y
    & forall y' : K.-tuple (Fr E), take (k y) y = take (k y) y' ->
      receive_on ag y' m = ((receive_on ag y m).1, drop (k y) y')].
  have [j jM [ej h]] := receive_on_prefix m ok (ksz y).
  have ky : k y = j.
    by rewrite /k ej size_drop size_tuple subKn //; exact: leq_trans lM.
  by rewrite ky; split=> // y' e; apply: h.
have := @rare_after _ K k later (modulus E) N; rewrite cF; apply.
- by move=> x; have [h _ _] := kP x; exact: leq_trans lM.
- move=> x y e; have [h ex hx] := kP x; rewrite {1}/k (hx _ e) /= size_drop !size_tuple.
  by rewrite subKn //; exact: leq_trans lM.
move=> x; have [h ex hx] := kP x.
set ag' := (receive_on ag x m).1.2; pose used' := used ++ take (k x) x.
have [ec ep] := receive_on_static ag x m; rewrite -/ag' in ec ep.
have -> : [set y : K.-tuple (Fr E) | (take (k x) y == take (k x) x) && later y]
  = [set y : K.-tuple (Fr E) | (take (k x) y == take (k x) x) && unlucky N ag' used' (drop (k x) y)].
  apply/setP => y; rewrite !inE; case: eqP => //= e; rewrite /later (hx _ (esym e)).
  rewrite /ag'; case: (receive_on ag x m).1 => o ag1 /=.
  by rewrite size_drop !size_tuple subKn ?e //; exact: leq_trans lM.
rewrite card_cylinder; last exact: leq_trans lM.
apply: IH; first by rewrite ec.
by rewrite /per_call ec -/(per_call ag); move: lK; rewrite mulSn; lia.
Qed.

(** ** C105 *)

(** Whatever the sender does, the draws for which the aggregator ever accepts a message that is not
    what it must be are at most [N] in [q]. *)
Theorem C105_session (N K : nat) ag : config_ok (ag_config ag) -> registered ag ->
  (N * per_call ag <= K)%N ->
  exists2 B : {set K.-tuple (Fr E)}, (#|B| * modulus E <= N * #|{: K.-tuple (Fr E)}|)%N
    & forall tape : K.-tuple (Fr E), tape \notin B ->
      forall m, List.In m (session N ag [::] tape).1 -> sound_message ag m.
Proof.
move=> ok reg lK; exists [set tape : K.-tuple (Fr E) | unlucky N ag [::] tape].
  by rewrite card_tuple card_Fp ?modulus_prime //; exact: unlucky_count.
by move=> tape; rewrite inE; exact: unlucky_sound.
Qed.

(** The aggregator at the end has been through a history of calls. *)
Lemma session_run N ag used tape : exists h, (session N ag used tape).2 = run D b ag h.
Proof.
elim: N ag used tape => [|N IH] ag used tape; first by exists [::].
rewrite /=; set m := sender used.
have er : (receive_on ag tape m).1 = receive D b ag (@Call E m (seq_rng E) tape).
  rewrite /receive /receive_on; case: m => [sh|x] /=.
    by case: (receive_share _ _ _ _ _) => [[]].
  by case: (receive_aggregated_share _ _ _ _ _) => [[]].
case: (receive_on ag tape m) er => [[o ag'] tape'] /= er.
have [h] := IH ag' (used ++ take (size tape - size tape') tape) tape'.
case: (session N ag' _ tape') => ms ag'' /= ->.
by exists (@Call E m (seq_rng E) tape :: h); rewrite /= -er.
Qed.

Lemma session_low_degree N ag used tape :
  let t := cfg_degree (ag_config ag) in
  low_degree t (comms (as_pvss_core (ag_aggregated_tx ag))) ->
  (forall m, List.In m (session N ag used tape).1 -> sound_message ag m) ->
  low_degree t (comms (as_pvss_core (ag_aggregated_tx (session N ag used tape).2))).
Proof.
move=> t; rewrite /t {t}.
elim: N ag used tape => [//|N IH] ag used tape ld /=; set m := sender used.
have [ec ep] := receive_on_static ag tape m.
have er : (receive_on ag tape m).1 = receive D b ag (@Call E m (seq_rng E) tape).
  rewrite /receive /receive_on; case: m {ec ep} => [sh|x] /=.
    by case: (receive_share _ _ _ _ _) => [[]].
  by case: (receive_aggregated_share _ _ _ _ _) => [[]].
case: (receive_on ag tape m) er ec ep => [[o ag'] tape'] /= er ec ep.
have := IH ag' (used ++ take (size tape - size tape') tape) tape'.
case: (session N ag' _ tape') => ms ag'' /= IH' snd; rewrite -ec; apply: IH'; last first.
  move=> m' mi; have : sound_message ag m'.
    by apply: snd; case: ifP => // _; right.
  by case: m' {mi} => [sh|x]; rewrite /sound_message /sound_share /sound_transcript /slot_ok
    /slots_product_ok /contributions_valid /key_of ec ep.
rewrite ec; have [[_ e2]|[z [e _ mg]]] := receive_cases D b ag (@Call E m (seq_rng E) tape).
  by move: er e2; case: (receive _ _ _ _) => o1 ag1 [_ ->] /= ->.
have [eo ez] : o = Ok tt /\ ag' = set_tx ag z by move: er; rewrite e => -[].
have sm : sound_message ag m by apply: snd; rewrite eo; left.
have /agg_okE[_ _ ca _ _] := mg; have [n0 [_ [_ l1] [_ l2] ezc]] := core_aggregate_inv ca.
rewrite ez /= ezc; apply: low_degree_add => //; first by rewrite l1 l2.
by case: m sm {er snd e mg ca l2 ezc} => [sh|x] /= => [[p [_ _ [_ ?] _ _]]|[]].
Qed.

(** So whatever arrives at a fresh aggregator, outside those draws it holds the commitments of one
    polynomial of the right degree, whose value at 0 the listed contributions add up to. *)
Theorem C105_held (N K : nat) (config : Config E) (ps : btmap (Participant E)) :
  let ag := new_aggregator config ps in
  let t := cfg_degree config in
  config_ok config -> registered ag -> only_registered ag -> b = Debug ->
  (N * per_call ag <= K)%N ->
  exists2 B : {set K.-tuple (Fr E)}, (#|B| * modulus E <= N * #|{: K.-tuple (Fr E)}|)%N
    & forall tape : K.-tuple (Fr E), tape \notin B ->
      let x := ag_aggregated_tx (session N ag [::] tape).2 in
      exists2 p : {poly Fr E}, (size p <= t.+1)%N
        & comms (as_pvss_core x) = eval_vec p (pt_gen (G2 E)) (cfg_num_participants config) /\
          \sum_(kv <- bt_iter (as_contributions x))
             (N.to_nat kv.2.2)%:R *: dp_gs (sp_decomp_proof kv.2.1) = p.[0] *: pt_gen (G2 E).
Proof.
move=> ag t ok reg oreg bD lK; have [B cB hB] := @C105_session N K ag ok reg lK.
exists B => // tape /hB snd x.
have [h eh] := session_run N ag [::] tape; have [tn nq fn] := ok.
have ld0 : low_degree t (comms (as_pvss_core (ag_aggregated_tx ag))).
  exists 0; rewrite ?size_poly0 //; apply: (@eq_from_nth _ 0); rewrite ?size_eval_vec // => i li.
  by rewrite nth_eval_vec // horner0 scale0r nth_nseq if_same.
have [p sp ec] := @session_low_degree N ag [::] tape ld0 snd.
have reg2 i : (i < cfg_num_participants config)%N <-> exists p, bt_get ps i = Some p.
  by split; [exact: reg | case=> q0; exact: oreg].
have [_ _ [_ sz] _] := @C20_structural_invariant E D b config ps ag h erefl.
rewrite -eh -/x in sz.
exists p; first exact: sp.
have ec' : comms (as_pvss_core x) = eval_vec p (pt_gen (G2 E)) (cfg_num_participants config).
  by rewrite -sz.
split=> //.
have bal := @C21_commitments_balanced E D b config ps ag h erefl (ltnW tn) nq fn reg2 (or_introl bD).
rewrite -eh -/x in bal.
apply: commits_to_fun bal _; first by rewrite sz; exact: ltnW.
  by apply: leq_ltn_trans nq; exact: ltnW.
exists p; split=> //; rewrite ec' take_eval_vec //; exact: ltnW.
Qed.
End Session.
Print Assumptions C105_session.
Print Assumptions C105_held.

Lemma few_of_many (a w q n c k : nat) : (a * w < q -> k <= w -> c * q <= k * n -> 0 < n -> c * a < n)%N.
Proof.
move=> lq lk le n0; case: c le => [//|c] le; rewrite ltnNge; apply/negP => h.
have : (k * n <= w * (c.+1 * a))%N by apply: leq_mul.
move=> /(leq_trans le); rewrite mulnCA leq_pmul2l // leqNgt => /negP; apply.
by rewrite mulnC.
Qed.

(** At the order of BLS12-381, 2^64 messages get something past the checks for fewer than one in
    2^190 of the draws. *)
Theorem C105_bls (E : engine) (D : eddsa) (b : build) (sender : seq (Fr E) -> message E)
  (ag : PVSSAggregator E) (N K : nat) :
  N.of_nat (modulus E) = bls_order -> (N <= 2 ^ 64)%N ->
  config_ok (ag_config ag) -> registered ag -> (N * per_call ag <= K)%N ->
  exists2 B : {set K.-tuple (Fr E)}, (#|B| * 2 ^ 190 < #|{: K.-tuple (Fr E)}|)%N
    & forall tape : K.-tuple (Fr E), tape \notin B ->
      forall m, List.In m (session D b sender N ag [::] tape).1 -> sound_message D ag m.
Proof.
move=> order lN ok reg lK; have [B cB hB] := C105_session D b sender ok reg lK; exists B => //.
apply: few_of_many lN cB _; first by rewrite -expnD; exact: order_254.
by apply/card_gt0P; exists [tuple of nseq K 0].
Qed.
Print Assumptions C105_bls.

(** A share whose last commitment is off the line through the others, with an encryption to match,
    and a sender that sends it first and then, according to what has been drawn, the share of one
    participant or another.  One pair of draws in eleven lets the bad share in. *)
Definition bent : PVSSShare TE :=
  let core := sh_pvss_core sh2 in
  with_core sh2 (rcons (take 3 (encs core)) (f 1 * (f 5 * f 3))) (rcons (take 3 (comms core)) (f 1 * f 2)).
Definition watchful (used : seq (Fr TE)) : message TE :=
  if used is x :: _ then if x == f 1 then MsgShare sh2 else MsgShare sh1 else MsgShare bent.
Example C105_example :
  let run i j := let: (ms, ag) := session TD Debug watchful 2 tag [::] [:: f i; f j; f 3; f 4; f 5; f 6] in
                 (size ms, map fst (bt_iter (as_contributions (ag_aggregated_tx ag)))) in
  [/\ config_ok (ag_config tag), registered tag, only_registered tag, per_call tag = 3%N
    & [/\ run 1 2 = (1, [:: 2]), run 2 3 = (1, [:: 1]), run 1 8 = (2, [:: 2]), run 2 5 = (2, [:: 1; 2])
        & count (fun ij => (run ij.1 ij.2).1 == 2) [seq (i, j) | i <- iota 0 11, j <- iota 0 11] = 11]%N].
Proof.
by split; [by [] | exact: tag_registered | exact: tag_only_registered | by [] | split; vm_compute].
Qed.
