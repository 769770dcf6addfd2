(** * PropsOverride: dealers that come last choose the secret (C103)

    A knowledge proof hashes its base and its commitment, not its statement (C57, C67), so a
    dealer can contribute a multiple of a secret it does not know; which multiple, the hash
    decides.  The weights of a transcript are free (C48, C49), so a few such dealers reach
    the multiple -1 and take out all that was there before. *)

From Coq Require Import NArith Strings.Byte.
From mathcomp Require Import all_ssreflect all_algebra zify.
From Verif Require Import Prelude Errors BTreeMap Engine LibModel PolyModel SigmaModel PvssModel
  Spec PreludeProofs AlgebraProofs PolyProofs PvssProofs AggProofs HistProofs Instance
  PropsPoly PropsShare PropsAgg PropsHist PropsEnd PropsLimits PropsAttack Pratt PropsCurve Weights.

Set Implicit Arguments.
Unset Strict Implicit.
Unset Printing Implicit Defensive.

Import GRing.Theory.
Local Open Scope ring_scope.

(** ** The transcript that overrides *)

(** What one late dealer puts in: its id and signing key, a nonce, a scalar it knows, and the
    weight of its contribution. *)
Record late (E : engine) : Type := Late {
  lt_id : nat; lt_key : SecretKey; lt_nonce : Fr E; lt_known : Fr E; lt_weight : N
}.

(** The point a transcript commits to, by its contributions: everybody can compute it. *)
Definition current (E : engine) (ag : PVSSAggregator E) : Com E :=
  weighted_gs (as_contributions (ag_aggregated_tx ag)).

(** The hash a late dealer meets. *)
Definition late_answer (E : engine) (ag : PVSSAggregator E) (r : Fr E) : Fr E :=
  let g := srs_g2 (cfg_srs (ag_config ag)) in
  hash_to_field E DLK_PERSONA (pt_ser g ++ pt_ser (current ag + r *: g)).

(** Its contribution: a proof made from the current secret point, signed. *)
Definition late_proof (E : engine) (ag : PVSSAggregator E) (l : late E) : DecompProof E :=
  derived_proof (srs_g2 (cfg_srs (ag_config ag))) (current ag) 1 (lt_nonce l) (lt_known l).
Definition late_entry (E : engine) (D : eddsa) (ag : PVSSAggregator E) (dflt : Signature)
  (l : late E) : nat * (SignedProof E * N) :=
  let dp := late_proof ag l in
  (lt_id l,
   (MkSigned dp (if signature_new (Er := pvss_error) D (signed_digest dp) (lt_key l) is Ok sig
                 then sig else dflt), lt_weight l)).

(** The transcript: the vectors of a chosen polynomial less the current ones. *)
Definition override (E : engine) (D : eddsa) (ag : PVSSAggregator E) (dflt : Signature)
  (ls : seq (late E)) (p : {poly Fr E}) : PVSSAggregatedShare E :=
  MkAgg (cfg_num_participants (ag_config ag)) (cfg_degree (ag_config ag))
    (core_add (core_of ag p) (scale_core (-1) (as_pvss_core (ag_aggregated_tx ag))))
    (bt_collect [seq late_entry D ag dflt l | l <- ls]).

(** A registered dealer not yet in the transcript, with its own signing key, which works on the
    digest [m]. *)
Definition may_deal (E : engine) (D : eddsa) (ag : PVSSAggregator E) (i : nat) (sk : SecretKey)
  (m : Digest) : Prop :=
  [/\ (i < cfg_num_participants (ag_config ag))%N,
      bt_get (as_contributions (ag_aggregated_tx ag)) i = None
    & exists2 pa, bt_get (ag_participants ag) i = Some pa & works_on D sk (pa_public_key_ed pa) m].

(** What an aggregator holds that has merged sound transcripts (C49, C50): header, ids and a
    sound transcript. *)
Definition in_order (E : engine) (D : eddsa) (ag : PVSSAggregator E) : Prop :=
  let x := ag_aggregated_tx ag in
  let n := cfg_num_participants (ag_config ag) in
  [/\ as_degree x = cfg_degree (ag_config ag) /\ as_num_participants x = n,
      forall i v, bt_get (as_contributions x) i = Some v -> (i < n)%N
    & sound_transcript D ag x].

Section Override.
Variables (E : engine) (D : eddsa).
Implicit Types (ag : PVSSAggregator E) (l : late E) (ls : seq (late E)).

Lemma weighted_gs_collect n (kvs : seq (nat * (SignedProof E * N))) :
  uniq (keys kvs) -> (forall i, i \in keys kvs -> (i < n)%N) ->
  weighted_gs (bt_collect kvs)
  = \sum_(kv <- kvs) (N.to_nat kv.2.2)%:R *: dp_gs (sp_decomp_proof kv.2.1).
Proof.
move=> u lt; rewrite (@weighted_gs_below E n); last first.
  move=> i v; rewrite bt_get_collect_uniq // => h; apply: lt.
  by rewrite -list_get_someE h.
rewrite (eq_bigr (fun i : 'I_n => slot_gs (list_get kvs i))); last first.
  by move=> i _; rewrite bt_get_collect_uniq.
elim: kvs u lt => [|[i [sp w]] kvs IH] /= u lt; first by rewrite big_nil big1.
case/andP: u => ni u; have li : (i < n)%N by apply: lt; exact: mem_head.
rewrite big_cons -IH //; last by move=> j hj; apply: lt; rewrite inE hj orbT.
rewrite (bigD1 (Ordinal li)) //= eqxx /= [in RHS](bigD1 (Ordinal li)) //=.
have -> : list_get kvs i = None.
  by case e: (list_get kvs i) => [v|] //; move: ni; rewrite -list_get_someE e.
rewrite add0r; congr (_ + _); apply: eq_bigr => j nj; case: eqP => // e.
by case/eqP: nj; apply: val_inj.
Qed.

Lemma low_degree_scale t (v : seq (Com E)) (k : Fr E) :
  low_degree t v -> low_degree t [seq k *: P | P <- v].
Proof.
move=> [p sp ev]; exists (k *: p); first exact: leq_trans (size_scale_leq _ _) sp.
rewrite size_map {1}ev /eval_vec -map_comp; apply: eq_map => i /=.
by rewrite hornerZ scalerA.
Qed.

Lemma core_add_back ag (core : PVSSCore E) (p : {poly Fr E}) : core_sized (ag_config ag) core ->
  core_add core (core_add (core_of ag p) (scale_core (-1) core)) = core_of ag p.
Proof.
move=> [se sc]; have [pe pc] := core_of_sized ag p.
have back (V : lmodType (Fr E)) (u v : seq V) : size u = size v ->
    vadd u (vadd v [seq -1 *: P | P <- u]) = v.
  move=> suv; have sv : size v = size [seq -1 *: P | P <- u] by rewrite size_map.
  apply: (@eq_from_nth _ 0); first by rewrite !size_vadd ?size_map.
  move=> i; rewrite !size_vadd ?size_map // => li; rewrite !nth_vadd ?size_vadd ?size_map //.
  by rewrite (nth_map 0) // scaleN1r addrCA subrr addr0.
have: core_add core (core_add (core_of ag p) (scale_core (-1) core))
      = MkCore (encs (core_of ag p)) (comms (core_of ag p)).
  by rewrite {1}/core_add; congr MkCore; apply: back; rewrite ?se ?sc ?pe ?pc.
by [].
Qed.

Lemma override_sound ag dflt ls (p : {poly Fr E}) :
  let n := cfg_num_participants (ag_config ag) in
  config_ok (ag_config ag) -> in_order D ag -> (size p <= (cfg_degree (ag_config ag)).+1)%N ->
  uniq [seq lt_id l | l <- ls] ->
  (forall l, List.In l ls -> may_deal D ag (lt_id l) (lt_key l) (signed_digest (late_proof ag l)) /\ late_answer ag (lt_nonce l) != 0) ->
  \sum_(l <- ls) (N.to_nat (lt_weight l))%:R / late_answer ag (lt_nonce l) = -1 ->
  \sum_(l <- ls) (N.to_nat (lt_weight l))%:R * lt_known l = p.[0] ->
  sound_transcript D ag (override D ag dflt ls p).
Proof.
move=> n ok [_ _ [[se sc] ld pr cv cm]] sp u hl w1 wd; have [tn nq fn] := ok.
set g := srs_g2 (cfg_srs (ag_config ag)).
have ek : keys [seq late_entry D ag dflt l | l <- ls] = [seq lt_id l | l <- ls].
  by rewrite /keys -map_comp.
split=> /=.
- by split; rewrite /= size_vadd ?size_map ?size_iota ?se ?sc.
- apply: low_degree_add; [by rewrite size_eval_vec size_map sc | | exact: low_degree_scale].
  exact: low_degree_eval.
- apply: product_add; [exact: core_of_sized | by split; rewrite size_map | exact: core_of_product |].
  exact: product_scale.
- move=> i e w; rewrite bt_get_collect_uniq ?ek // => h.
  case/List.in_map_iff: (list_get_mem h) => l [eq /hl[[_ _ [pa gp [kp hk vk]]] c0]].
  have -> : i = lt_id l by exact: esym (congr1 fst eq).
  have -> : e = (late_entry D ag dflt l).2.1 by exact: esym (congr1 (fun kv => kv.2.1) eq).
  exists pa => //; split=> /=; last by rewrite /signature_new hk; exact: vk.
  by apply: derived_proof_valid; rewrite /= scale1r.
rewrite (@weighted_gs_collect n); [|by rewrite ek|]; last first.
  rewrite ek => i; have := hl; clear; elim: ls => [//|l ls IH h] /=.
  rewrite inE => /orP[/eqP->|]; first by have [[]] := h l (or_introl erefl).
  by apply: IH => l' h'; exact: (h _ (or_intror h')).
rewrite big_map /=.
have -> : \sum_(l <- ls) (N.to_nat (lt_weight l))%:R
      *: ((1 / hash_to_field E DLK_PERSONA (pt_ser g ++ pt_ser (1 *: current ag + lt_nonce l *: g)))
            *: current ag + lt_known l *: g)
    = p.[0] *: g + (-1) *: current ag.
  rewrite addrC -w1 -wd !scaler_suml -big_split /=; apply: eq_bigr => l _.
  by rewrite scalerDr !scalerA scale1r mul1r.
apply: commits_to_add.
- by rewrite size_eval_vec; exact: ltnW.
- by rewrite size_eval_vec size_map sc.
- by apply: leq_ltn_trans nq; exact: ltnW.
- exact: core_of_commits.
- exact: commits_to_scale.
Qed.

(** Whatever an aggregator holds, late dealers whose answers and weights satisfy one equation
    make it hold the vectors of a polynomial of their choice, with all the earlier
    contributions still listed. *)
Theorem C103_override_refuted b (R : rng E) (s : rstate R) ag dflt ls (p : {poly Fr E}) :
  let y := override D ag dflt ls p in
  config_ok (ag_config ag) -> registered ag -> in_order D ag ->
  (size p <= (cfg_degree (ag_config ag)).+1)%N ->
  uniq [seq lt_id l | l <- ls] ->
  (forall l, List.In l ls -> may_deal D ag (lt_id l) (lt_key l) (signed_digest (late_proof ag l)) /\ late_answer ag (lt_nonce l) != 0) ->
  \sum_(l <- ls) (N.to_nat (lt_weight l))%:R / late_answer ag (lt_nonce l) = -1 ->
  \sum_(l <- ls) (N.to_nat (lt_weight l))%:R * lt_known l = p.[0] ->
  exists s' z,
    [/\ receive_aggregated_share D b ag s y = (Ok tt, set_tx ag z, s'),
        as_pvss_core z = core_of ag p, sound_transcript D ag z,
        forall i, i \notin [seq lt_id l | l <- ls] ->
          bt_get (as_contributions z) i = bt_get (as_contributions (ag_aggregated_tx ag)) i
      & forall l, List.In l ls ->
          bt_get (as_contributions z) (lt_id l) = Some (late_entry D ag dflt l).2].
Proof.
move=> y ok reg io sp u hl w1 wd; have [hd bl snd] := io; have [tn nq fn] := ok.
have sy : sound_transcript D ag y by exact: override_sound.
have ek : keys [seq late_entry D ag dflt l | l <- ls] = [seq lt_id l | l <- ls].
  by rewrite /keys -map_comp.
have gy i : bt_get (as_contributions y) i = list_get [seq late_entry D ag dflt l | l <- ls] i.
  by rewrite bt_get_collect_uniq ?ek.
have fresh i v : bt_get (as_contributions y) i = Some v ->
    bt_get (as_contributions (ag_aggregated_tx ag)) i = None.
  rewrite gy => h0; case/List.in_map_iff: (list_get_mem h0) => [l [eq /hl[[_ h _] _]]].
  by rewrite -h; congr bt_get; exact: esym (congr1 fst eq).
have by0 i v : bt_get (as_contributions y) i = Some v -> (i < cfg_num_participants (ag_config ag))%N.
  rewrite gy => h0; case/List.in_map_iff: (list_get_mem h0) => [l [eq /hl[[h _ _] _]]].
  by have -> : i = lt_id l by exact: esym (congr1 fst eq).
have nc i : ~ conflict_at (ag_aggregated_tx ag) y i.
  by case=> [a [w [a' [w' [gx /fresh]]]]]; rewrite gx.
have no i : ~ overflow_at (ag_aggregated_tx ag) y i.
  by case=> [a [w [a' [w' [gx /fresh]]]]]; rewrite gx.
have [z [mg hz bz sz _]] := @C49_merge_sound_partial E D b ag (ag_aggregated_tx ag) y ok reg hd
  (conj erefl erefl) bl by0 nc no snd sy.
have [_ acc _] := @C50_transcript_soundness E D b ag y ok reg.
have := acc sy R s; case ev: (aggregation_verify D b ag s y) => [v s'] /= hv.
exists s', z; split=> //.
- by rewrite /receive_aggregated_share ev hv /= mg.
- have /agg_okE[_ _ ca _ _] := mg; have [m [_ _ _ ->]] := core_aggregate_inv ca.
  by apply: core_add_back; have [] := snd.
- move=> i ni; have /agg_okE[[dx nx] [_ nz] _ ms out] := mg.
  have ny : bt_get (as_contributions y) i = None.
    rewrite gy; case e: (list_get _ i) => [w|] //.
    by move: ni; rewrite -ek -list_get_someE e.
  case: (ltnP i (as_num_participants (ag_aggregated_tx ag))) => li.
    by have := ms i li; rewrite ny merge_slot0r => -[<-].
  rewrite out //; case e: (bt_get _ i) => [w|] //.
  by have := bl _ _ e; have [_ <-] := hd; rewrite ltnNge li.
move=> l hin; have [[li nx _] _] := hl l hin.
have /agg_okE[_ _ _ ms _] := mg.
have gl : bt_get (as_contributions y) (lt_id l) = Some (late_entry D ag dflt l).2.
  rewrite gy; apply/list_get_In; first by rewrite ek.
  by apply/List.in_map_iff; exists l.
by have := ms (lt_id l); rewrite (proj2 hd) nx gl merge_slot0 => /(_ li)[<-].
Qed.

End Override.
Print Assumptions C103_override_refuted.

(** ** How often there are such weights *)

(** The answers of the hash to [k] dealers for which no weights from 1 to [W] satisfy the
    equation, or one of which is 0. *)
Definition unlucky (E : engine) (k W : nat) : {set {ffun 'I_k -> Fr E}} :=
  [set c : {ffun 'I_k -> Fr E} | [exists i, c i == 0] ||
     ~~ [exists w : {ffun 'I_k -> 'I_W}, \sum_i (w i).+1%:R / c i == -1]].

Section Count.
Variables (E : engine) (k W : nat).
Hypotheses (k1 : (1 < k)%N) (Wq : (W < modulus E)%N).

Let A : {set Fr E} := [set (i.+1)%:R | i : 'I_W].

Lemma A_size : #|A| = W.
Proof.
have lt (i : 'I_W) : (i.+1 < modulus E)%N by apply: leq_ltn_trans Wq.
rewrite card_imset ?card_ord // => i j /eqP.
by rewrite Fp_nat_inj ?modulus_prime // eqSS => /eqP/val_inj.
Qed.

Lemma A_neq0 : 0 \notin A.
Proof.
apply/imsetP => -[i _ e]; have := @Fp_nat_neq0 _ (modulus_prime E) i.+1; rewrite -e eqxx.
by rewrite (leq_ltn_trans (ltn_ord i)) // => /(_ isT).
Qed.

Theorem C103_unlucky_count :
  (#|unlucky E k W| * (W ^ k + modulus E)
   <= modulus E ^ k.+1 + k * modulus E ^ (k - 1) * (W ^ k + modulus E))%N.
Proof.
have v0 : -1 != 0 :> Fr E by rewrite oppr_eq0 oner_eq0.
have := @few_unsuited _ k A (-1) A_neq0 v0 k1; rewrite A_size card_Fq ?modulus_prime //.
set q := modulus E; set B := [set x | _] => few.
pose Z := \bigcup_(i < k) [set c : {ffun 'I_k -> Fr E} | [forall j, pred1 i j ==> (c j == 0)]].
pose inv (c : {ffun 'I_k -> Fr E}) : {ffun 'I_k -> Fr E} := [ffun i => (c i)^-1].
have invK : involutive inv by move=> c; apply/ffunP => i; rewrite !ffunE invrK.
have sub : unlucky E k W \subset Z :|: inv @^-1: B.
  apply/subsetP => c; rewrite !inE => /orP[/existsP[i ci]|no]; apply/orP; [left|right].
    by apply/bigcupP; exists i => //; rewrite inE; apply/forallP => j; apply/implyP => /= /eqP->.
  apply: contraR no => /set0Pn[w]; rewrite !inE => /andP[/forallP wA /eqP e].
  have pick i : {j : 'I_W | w i = (j.+1)%:R}.
    have := wA i; rewrite -[_ \in A]/(w i \in A) => /imsetP/sig2_eqW[j _ h]; by exists j.
  apply/existsP; exists [ffun i => sval (pick i)]; rewrite -e; apply/eqP/eq_bigr => i _.
  by rewrite !ffunE -(svalP (pick i)).
have cZ : (#|Z| <= k * q ^ (k - 1))%N.
  rewrite -[k in X in (_ <= X)%N](card_ord k) -sum_nat_const /Z.
  elim/big_ind2: _ => [|C m C' m' h h'|i _]; first by rewrite cards0.
    by apply: leq_trans (leq_card_setU _ _) _; exact: leq_add.
  by rewrite card_dropped card1 card_ord card_Fq ?modulus_prime.
have cB : #|inv @^-1: B| = #|B| by apply: on_card_preimset; exists inv => c _; exact: invK.
have := leq_trans (subset_leq_card sub) (leq_card_setU _ _); rewrite cB.
by move: few cZ; set u := #|unlucky _ _ _|; set M := (W ^ k + q)%N; nia.
Qed.

End Count.
Print Assumptions C103_unlucky_count.

(** [k] dealers, each with a nonce, whose answers are lucky: whatever polynomial they choose,
    there are weights with which, whatever scalars they know with the right weighted sum, if
    their keys work on what they sign the aggregator takes their transcript and then holds the
    vectors of that polynomial. *)
Theorem C103_lucky_refuted (E : engine) (D : eddsa) (ag : PVSSAggregator E) (dflt : Signature)
  (k W : nat) (id : 'I_k -> nat) (sk : 'I_k -> SecretKey) (r : 'I_k -> Fr E) (p : {poly Fr E}) :
  config_ok (ag_config ag) -> registered ag -> in_order D ag ->
  (size p <= (cfg_degree (ag_config ag)).+1)%N ->
  (0 < k)%N -> (W < modulus E)%N -> injective id -> 
  [ffun i => late_answer ag (r i)] \notin unlucky E k W ->
  exists w : 'I_k -> N,
    [/\ forall i, (0 < w i <= N.of_nat W)%num,
        exists d : 'I_k -> Fr E, \sum_i (N.to_nat (w i))%:R * d i = p.[0]
      & forall d : 'I_k -> Fr E, \sum_i (N.to_nat (w i))%:R * d i = p.[0] ->
    let ls := [seq Late (id i) (sk i) (r i) (d i) (w i) | i <- enum 'I_k] in
    (forall l, List.In l ls -> may_deal D ag (lt_id l) (lt_key l) (signed_digest (late_proof ag l))) ->
    let y := override D ag dflt ls p in
    forall b (R : rng E) (s : rstate R), exists s' z,
    [/\ receive_aggregated_share D b ag s y = (Ok tt, set_tx ag z, s'),
        as_pvss_core z = core_of ag p, sound_transcript D ag z
      & forall i, (forall j, id j <> i) ->
          bt_get (as_contributions z) i = bt_get (as_contributions (ag_aggregated_tx ag)) i]].
Proof.
move=> ok reg io sp k0 Wq ij; rewrite inE negb_or negb_exists negbK => /andP[/forallP c0 /existsP[w /eqP ew]].
pose i0 := Ordinal k0; pose u i : N := N.of_nat (w i).+1.
have wn i : (N.to_nat (u i))%:R = (w i).+1%:R :> Fr E by rewrite /u Nnat.Nat2N.id.
have w0 i : (w i).+1%:R != 0 :> Fr E.
  by apply: Fp_nat_neq0; [exact: modulus_prime | rewrite /=; apply: leq_ltn_trans Wq].
exists u; split=> [i| |d wd ls md y b R s]; first by rewrite /u; have := ltn_ord (w i); lia.
  exists (fun i => if i == i0 then p.[0] / (w i0).+1%:R else 0).
  rewrite (bigD1 i0) //= big1 => [|i /negbTE ni]; last by rewrite ni mulr0.
  by rewrite wn addr0 mulrC divfK.
rewrite /y {y}.
have eid : [seq lt_id l | l <- ls] = [seq id i | i <- enum 'I_k] by rewrite -map_comp.
have sumE (f : late E -> Fr E) :
    \sum_(l <- ls) f l = \sum_i f (Late (id i) (sk i) (r i) (d i) (u i)).
  by rewrite big_map big_enum.
have [||||s' [z [h1 h2 h3 h4 h5]]] := @C103_override_refuted E D b R s ag dflt ls p ok reg io sp.
- by rewrite eid map_inj_uniq // enum_uniq.
- move=> l hl; split; first exact: md.
  case/List.in_map_iff: hl => i [<- _].
  by have := c0 i; rewrite ffunE.
- rewrite sumE -ew; apply: eq_bigr => i _; by rewrite wn ffunE.
- by rewrite sumE.
exists s', z; split=> // i hi; apply: h4; rewrite eid; apply/mapP => -[j _ e].
by apply: (hi j).
Qed.
Print Assumptions C103_lucky_refuted.

(** At the order of BLS12-381 and with the weights a u64 can hold, five late dealers fail to
    find weights for at most one in [2^63] of the answers a hash may give them. *)
Lemma few_arith (u M q T : nat) : (u * M <= q ^ 6 + 5 * q ^ (5 - 1) * M)%N ->
  (q * (2 * T) <= M)%N -> (5 * (2 * T) <= q)%N -> (0 < M)%N -> (u * T <= q ^ 5)%N.
Proof.
move=> h1 h2 h3 m0; rewrite -(leq_pmul2l (m := 2 * M)) ?muln_gt0 //.
have e4 : (q ^ (5 - 1) * q = q ^ 5)%N by rewrite -expnSr.
have e6 : (q ^ 6 = q ^ 5 * q)%N by rewrite -expnSr.
rewrite e6 in h1; set a := (q ^ (5 - 1))%N in h1 e4; set c := (q ^ 5)%N in h1 e4 *.
have i1 : (u * M * (2 * T) <= (c * q + 5 * a * M) * (2 * T))%N by rewrite leq_mul2r h1 orbT.
have i2 : (c * (q * (2 * T)) <= c * M)%N by rewrite leq_mul2l h2 orbT.
have i3 : (a * M * (5 * (2 * T)) <= a * M * q)%N by rewrite leq_mul2l h3 orbT.
have -> : (2 * M * (u * T) = u * M * (2 * T))%N by lia.
apply: leq_trans i1 _; rewrite mulnDl.
have -> : (c * q * (2 * T) = c * (q * (2 * T)))%N by lia.
have -> : (5 * a * M * (2 * T) = a * M * (5 * (2 * T)))%N by lia.
have -> : (2 * M * c = c * M + a * M * q)%N by rewrite -e4; lia.
exact: leq_add.
Qed.

Lemma N_pow (a k : nat) : N.to_nat (N.of_nat a ^ N.of_nat k) = (a ^ k)%N.
Proof. by rewrite to_nat_pow !Nnat.Nat2N.id. Qed.

Lemma two_pow (k : nat) : N.to_nat (2 ^ N.of_nat k) = (2 ^ k)%N.
Proof. exact: (N_pow 2 k). Qed.

Theorem C103_bls (E : engine) (W : nat) :
  N.of_nat (modulus E) = bls_order -> N.of_nat W = (2 ^ 64 - 1)%num ->
  (W < modulus E)%N /\ (#|unlucky E 5 W| * 2 ^ 63 <= modulus E ^ 5)%N.
Proof.
move=> eq eW.
have bnd : (N.of_nat W < N.of_nat (modulus E))%num by rewrite eq eW; vm_compute.
have Wq : (W < modulus E)%N by lia.
split=> //; have cnt := @C103_unlucky_count E 5 W isT Wq.
apply: few_arith cnt _ _ _; last first.
  by apply: leq_trans (leq_addl _ _); exact: prime_gt0 (modulus_prime E).
- have h : (5 * (2 * 2 ^ N.of_nat 63) <= N.of_nat (modulus E))%num by rewrite eq; vm_compute.
  by rewrite -two_pow; move: h; set a := (2 ^ _)%num; nia.
have h : (N.of_nat (modulus E) * (2 * 2 ^ N.of_nat 63) <= N.of_nat W ^ N.of_nat 5)%num.
  by rewrite eq eW; vm_compute.
apply: leq_trans (leq_addr _ _); rewrite -two_pow -(N_pow W 5).
by move: h; set a := (2 ^ _)%num; set c := (_ ^ _)%num; nia.
Qed.
Print Assumptions C103_bls.

(** ** States an aggregator is in *)

Lemma in_order_new (E : engine) (D : eddsa) (config : Config E) (ps : btmap (Participant E))
  (ag : PVSSAggregator E) :
  config_ok config -> aggregator_new config ps = Ok ag -> in_order D ag.
Proof.
move=> [tn nq fn] [<-]; split=> //; split=> //=; first by rewrite /core_sized /= !size_nseq.
- exists 0; first by rewrite size_poly0.
  apply: (@eq_from_nth _ 0); rewrite ?size_eval_vec //= size_nseq => i li.
  by rewrite nth_nseq li nth_eval_vec // horner0 scale0r.
- rewrite /slots_product_ok /=; apply: eq_bigr => i _; rewrite !nth_nseq ltn_ord.
  by rewrite -[X in pairing _ X](scale0r (0 : Com E)) pairingZr -[X in _ = pairing X _](scale0r (0 : Enc E)) pairingZl.
exists 0; split; first by rewrite size_poly0.
  apply: (@eq_from_nth _ 0); first by rewrite size_eval_vec size_takel ?size_nseq // ltnW.
  move=> i; rewrite size_takel ?size_nseq; last exact: ltnW.
  move=> li; rewrite nth_take // nth_nseq nth_eval_vec // horner0 scale0r.
  by case: ifP.
by rewrite /weighted_gs /= big_nil horner0 scale0r.
Qed.

(** Honest shares keep it in order. *)
Theorem C103_in_order (E : engine) (D : eddsa) (b : build) (R : rng E) (s : rstate R)
  (ag : PVSSAggregator E) (sh : PVSSShare E) :
  config_ok (ag_config ag) -> registered ag -> in_order D ag -> dealt D ag sh ->
  bt_get (as_contributions (ag_aggregated_tx ag)) (sh_participant_id sh) = None ->
  exists s' z, receive_share D b ag s sh = (Ok tt, set_tx ag z, s') /\ in_order D (set_tx ag z).
Proof.
move=> ok reg [hd bl snd] dl fr; have sx := dealt_sound_transcript ok dl.
set x := MkAgg _ _ _ _ in sx; have [dx nx] := hd.
have gx i v : bt_get (as_contributions x) i = Some v -> i = sh_participant_id sh.
  by rewrite bt_get_insert; case: eqP.
have bx i v : bt_get (as_contributions x) i = Some v -> (i < cfg_num_participants (ag_config ag))%N.
  by move/gx ->; have [p [pa []]] := dl.
have nc i : ~ conflict_at (ag_aggregated_tx ag) x i.
  by case=> [a [w [a' [w' [g1 /gx e]]]]]; move: g1; rewrite e fr.
have no i : ~ overflow_at (ag_aggregated_tx ag) x i.
  by case=> [a [w [a' [w' [g1 /gx e]]]]]; move: g1; rewrite e fr.
have [z [mg hz bz sz _]] := @C49_merge_sound_partial E D b ag (ag_aggregated_tx ag) x ok reg hd
  (conj erefl erefl) bl bx nc no snd sx.
have := dealt_accepted b s ok dl; case ev: (share_verify D b ag s sh) => [v s'] /= hv.
exists s', z; split=> //.
by rewrite /receive_share ev hv /= /agg_aggregate_pvss_share dx nx -/x mg.
Qed.
Print Assumptions C103_in_order.

(** ** The property as worded *)

(** No function of what is public and of the signing key of one dealer, not yet in the
    transcript, makes every aggregator in order hold the vectors of a given polynomial, with
    weights that fit in a u64. *)
Definition C103_full (E : engine) (D : eddsa) : Prop :=
  ~ exists F : PVSSAggregator E -> nat -> SecretKey -> {poly Fr E} -> PVSSAggregatedShare E,
    forall ag i sk (p : {poly Fr E}), config_ok (ag_config ag) -> registered ag -> in_order D ag ->
    (size p <= (cfg_degree (ag_config ag)).+1)%N ->
    (forall j sp w, bt_get (as_contributions (F ag i sk p)) j = Some (sp, w) ->
       may_deal D ag i sk (signed_digest (sp_decomp_proof sp))) ->
    (forall j sp w, bt_get (as_contributions (F ag i sk p)) j = Some (sp, w) -> (w < 2 ^ 64)%num) /\
    forall b (R : rng E) (s : rstate R), exists s' z,
      receive_aggregated_share D b ag s (F ag i sk p) = (Ok tt, set_tx ag z, s') /\
      as_pvss_core z = core_of ag p.

(** With an order up to [2^64] one dealer is enough, for every hash that is not 0 throughout. *)
Theorem C103_full_refuted (E : engine) (D : eddsa) (dflt : Signature) :
  (N.of_nat (modulus E) <= 2 ^ 64)%num ->
  (forall ag : PVSSAggregator E, exists r, late_answer ag r != 0) -> ~ C103_full E D.
Proof.
move=> q64 hn; case.
pose nonce ag : Fr E := if [pick r : Fr E | late_answer ag r != 0] is Some r then r else 0.
have nz ag : late_answer ag (nonce ag) != 0.
  rewrite /nonce; case: pickP => // no; have [r] := hn ag; by rewrite no.
pose c ag := late_answer ag (nonce ag).
pose wt ag : N := N.of_nat (val (- c ag)).
have ew ag : (N.to_nat (wt ag))%:R = - c ag by rewrite /wt Nnat.Nat2N.id Fp_nat_surj.
pose one ag i sk (p : {poly Fr E}) := Late i sk (nonce ag) (- (p.[0] / c ag)) (wt ag).
exists (fun ag i sk p => override D ag dflt [:: one ag i sk p] p) => ag i sk p ok reg io sp md.
split=> [j sp' w|b R s].
  rewrite /override /= bt_get_insert; case: eqP => // _ h.
  have <- : wt ag = w by exact: (congr1 (fun o => if o is Some e then e.2 else w) h).
  have := @Fp_val_lt _ (modulus_prime E) (- c ag); move: q64.
  by rewrite /wt; set m := val _; set B := (2 ^ 64)%num; lia.
have [||||s' [z [h1 h2 _ _ _]]] := @C103_override_refuted E D b R s ag dflt [:: one ag i sk p] p ok reg io sp.
- by [].
- move=> l /= [<-|//]; split; last exact: nz.
  by apply: (md i (late_entry D ag dflt (one ag i sk p)).2.1 (wt ag)); rewrite /override /= bt_get_insert eqxx.
- by rewrite big_seq1 /= ew mulNr divff; [|exact: nz].
- rewrite big_seq1 /= ew mulrNN mulrC divfK //; exact: nz.
by exists s', z.
Qed.
Print Assumptions C103_full_refuted.

(** ** What would hold with the statement hashed as well

    A dealer that must fix its statement [u S + v g] together with its commitment
    [a g + k S], [S] a point of unknown logarithm, and whose response does not depend on that
    logarithm, can answer exactly one challenge. *)
Theorem C103_statement_hashed_partial (E : engine) (g : Com E) (a k u v : Fr E) :
  g != 0 -> u != 0 ->
  #|[set c : Fr E | [exists z : Fr E, [forall x : Fr E,
      z *: g + c *: (u *: (x *: g) + v *: g) == a *: g + k *: (x *: g)]]]| = 1%N.
Proof.
move=> g0 u0; apply/eqP/cards1P; exists (k / u); apply/setP => c; rewrite !inE.
apply/existsP/eqP => [[z /forallP h]|->].
  have inj (m m' : Fr E) : m *: g = m' *: g -> m = m'.
    by move/eqP; rewrite -subr_eq0 -scalerBl scaler_eq0 (negbTE g0) orbF subr_eq0 => /eqP.
  have form x : z + c * (u * x + v) = a + k * x.
    by apply: inj; rewrite !scalerDl -!scalerA scalerDl -!scalerA; exact/eqP.
  have := form 1; have := form 0; rewrite !mulr0 !add0r addr0 !mulr1 => <- /eqP.
  rewrite mulrDr addrA [z + _]addrC -addrA -[X in _ == X]addrC (inj_eq (addIr _)) => /eqP <-.
  by rewrite mulfK.
exists (a - k / u * v); apply/forallP => x.
apply/eqP; rewrite scalerDr !scalerA -!scalerDl; congr (_ *: _).
by rewrite divfK // [k * x + _]addrC addrA subrK.
Qed.
Print Assumptions C103_statement_hashed_partial.

Lemma toy_hash_neq0 (persona m : seq byte) : toy_hash persona m != 0.
Proof.
rewrite /toy_hash; apply: Fp_nat_neq0 => //; move: (persona ++ m) => l.
elim/last_ind: l => [//|l x _]; rewrite -cats1 foldl_cat ltnS /=.
by rewrite ltnS ltn_pmod.
Qed.

(** There is an engine of the order of BLS12-381 where lucky answers exist. *)
Lemma lucky_bls : exists (E : engine) (W : nat) (c : {ffun 'I_5 -> Fr E}),
  [/\ N.of_nat (modulus E) = bls_order, N.of_nat W = (2 ^ 64 - 1)%num & c \notin unlucky E 5 W].
Proof.
have [E [eq _ _ _]] := C101_engine.
have [W eW] : exists W, N.of_nat W = (2 ^ 64 - 1)%num.
  have gen x : exists W, N.of_nat W = x by exists (N.to_nat x); rewrite Nnat.N2Nat.id.
  exact: gen.
have [_ few] := C103_bls eq eW.
have lt : (#|unlucky E 5 W| < #|{: {ffun 'I_5 -> Fr E}}|)%N.
  rewrite card_ffun (card_ord 5) card_Fp ?modulus_prime //.
  have q5 : (0 < modulus E ^ 5)%N by rewrite expn_gt0 prime_gt0 ?modulus_prime.
  have gen u T Q : (0 < Q)%N -> (u * T <= Q)%N -> (1 < T)%N -> (u < Q)%N by nia.
  by apply: gen q5 few _; rewrite -{1}(expn0 2) ltn_exp2l.
case: (boolP [exists c, c \notin unlucky E 5 W]) => [/existsP[c nc]|/existsPn no].
  by exists E, W, c.
have sub : [set: {ffun 'I_5 -> Fr E}] \subset unlucky E 5 W.
  by apply/subsetP => c _; have := no c; rewrite negbK.
by have := subset_leq_card sub; rewrite cardsT leqNgt lt.
Qed.

(** In the toy setting: after the honest share of dealer 2, dealers 1 and 3 may still deal, the
    state is in order, and the property fails; and there is an engine of the order of
    BLS12-381, where lucky answers exist. *)
Example C103_example :
  [/\ exists s' z, receive_share (R := seq_rng TE) TD Debug tag [:: f 1; f 9; f 3] sh2
                   = (Ok tt, set_tx tag z, s') /\
        [/\ in_order TD (set_tx tag z), forall m, may_deal TD (set_tx tag z) 1 (tsk 1) m
          & forall m, may_deal TD (set_tx tag z) 3 (tsk 3) m],
      ~ C103_full TE TD
    & exists (E : engine) (W : nat) (c : {ffun 'I_5 -> Fr E}),
        [/\ N.of_nat (modulus E) = bls_order, N.of_nat W = (2 ^ 64 - 1)%num
          & c \notin unlucky E 5 W]].
Proof.
have tc : config_ok tconfig by [].
have tr : registered tag by exact: tag_registered.
split.
- have io : in_order TD tag by exact: (@in_order_new TE TD tconfig tparts).
  have d2 := @honest_dealt TE TD tag sh2 tc sh2_honest.
  have [|s' [z [e iz]]] := @C103_in_order TE TD Debug (seq_rng TE) [:: f 1; f 9; f 3] tag sh2 tc tr io d2.
    by [].
  exists s', z; split; first exact: e.
  have ez : z = ag_aggregated_tx
      (receive_share (R := seq_rng TE) TD Debug tag [:: f 1; f 9; f 3] sh2).1.2 by rewrite e.
  split; [exact: iz | |].
  + move=> m; split; [by [] | by rewrite ez; vm_compute |].
    by exists (tpart 1); [vm_compute | apply: working_on; exact: toy_working].
  + move=> m; split; [by [] | by rewrite ez; vm_compute |].
    by exists (tpart 3); [vm_compute | apply: working_on; exact: toy_working].
- apply: (@C103_full_refuted TE TD (sp_signature_on_decomp (sh_signed_proof sh2))); first by vm_compute.
  move=> ag; exists 0; rewrite /late_answer.
  exact: toy_hash_neq0.
exact: lucky_bls.
Qed.
