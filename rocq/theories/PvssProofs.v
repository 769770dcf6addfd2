(** * PvssProofs: what the verification functions of aggregator.rs decide *)

From Coq Require Import NArith Strings.Byte.
From mathcomp Require Import all_ssreflect all_algebra zify.
From Verif Require Import Prelude Errors BTreeMap Engine LibModel PolyModel SigmaModel PvssModel
  PreludeProofs AlgebraProofs Spec PolyProofs.

Set Implicit Arguments.
Unset Strict Implicit.
Unset Printing Implicit Defensive.

Import GRing.Theory.
Local Open Scope ring_scope.

Section PvssProofs.
Variable E : engine.
Variable D : eddsa.
Implicit Types (b : build) (R : rng E) (config : Config E) (ag : PVSSAggregator E)
  (core : PVSSCore E).
Local Notation F := (Fr E).
Local Notation q := (modulus E).
Let pq : prime q := modulus_prime E.

(** ** Interpolation as a relation *)

Lemma commits_to_lag t (v : seq (Com E)) P : (t < size v)%N -> (t.+1 < q)%N ->
  commits_to t v P <-> P = \sum_(j < t.+1) lag_coef (@pnt E) t j *: nth 0 v j.
Proof.
move=> tv tq; split=> [[p [sp tk ->]]|->].
  rewrite -(lag_interp (pnt_inj_le tq) sp) scaler_suml; apply: eq_bigr => j _.
  by rewrite -scalerA -(nth_eval_vec _ _ (ltn_ord j)) -tk nth_take.
have [a ha] := dlog_vec v (pt_gen_neq0 (G2 E)).
have nthv i : (i < size v)%N -> nth 0 v i = a i *: pt_gen (G2 E).
  by move=> li; rewrite {1}ha (nth_map 0%N) ?size_iota // nth_iota.
have xinj := pnt_inj_le tq; pose PP := interp (@pnt E) t.+1 a.
have sP : (size PP <= t.+1)%N by exact: size_interp.
have PE j : (j <= t)%N -> PP.[@pnt E j] = a j by move=> lj; exact: (interp_eval (n := t.+1) xinj).
exists PP; split=> //.
  apply: (@eq_from_nth _ 0); first by rewrite size_takel // size_eval_vec.
  move=> i; rewrite size_takel // => li.
  by rewrite nth_eval_vec // nth_take // PE // nthv // (leq_trans li).
rewrite -(lag_interp xinj sP) scaler_suml; apply: eq_bigr => j _.
rewrite PE ?nthv ?scalerA //; first by apply: leq_trans tv; exact: ltn_ord.
by rewrite -ltnS.
Qed.

Lemma lagrange_commits b t (v : seq (Com E)) P :
  (t < size v)%N -> (t.+1 < q)%N -> (N.of_nat t + 1 < u64_bound)%num ->
  lagrange_interpolation_simple b v t = Ok P <-> commits_to t v P.
Proof.
move=> tv tq tb; rewrite lagrange_simpleE // (commits_to_lag P tv tq).
by split=> [[->]|->].
Qed.

Lemma commits_to_fun t (v : seq (Com E)) P P' : (t < size v)%N -> (t.+1 < q)%N ->
  commits_to t v P -> commits_to t v P' -> P = P'.
Proof. by move=> tv tq /(commits_to_lag _ tv tq)-> /(commits_to_lag _ tv tq)->. Qed.

Lemma commits_to_exists t (v : seq (Com E)) : (t < size v)%N -> (t.+1 < q)%N ->
  exists P, commits_to t v P.
Proof. by move=> tv tq; eexists; apply/(commits_to_lag _ tv tq). Qed.

(** ** The degree check *)

Lemma ensure_degree_ok_size b R (s : rstate R) (v : seq (Com E)) t :
  (ensure_degree b s v t).1 = Ok tt -> (t < size v)%N.
Proof.
case: (ltngtP t (size v)) => // [lt|e]; first by rewrite ensure_degree_short.
by rewrite (ensure_degree_eq _ _ (esym e)).
Qed.

(** ** Signed proofs *)

Lemma signature_verifyE (sg : Signature) digest pk :
  signature_verify D sg digest pk = Ok tt <-> eddsa_valid D sg digest pk.
Proof.
rewrite /signature_verify /eddsa_valid /sig_flatten; split.
  move/obind_ok => [x]; case e1: (ed_sig_from_bytes _ _) => [y|] //= [<-] /obind_ok[k].
  case e2: (ed_pk_from_bytes _ _) => [k'|] //= [<-]; case: ifP => // v _.
  by exists y, k'.
by case=> x [k [-> -> /= ->]].
Qed.

Lemma decomp_verifyE config (dp : DecompProof E) :
  decomp_verify dp config = Ok tt <-> proof_valid (srs_g2 (cfg_srs config)) dp.
Proof.
rewrite /decomp_verify /proof_valid /dlk_verify /dlk_preimage.
set c := hash_to_field _ _ _; case: eqP => h1 /=; last by split=> // -[_ /h1].
by case: eqP => h2 /=; [split | split=> // -[e _]; rewrite e in h2].
Qed.

Lemma decomp_digestE (dp : DecompProof E) : decomp_digest dp = signed_digest dp.
Proof.
have cat4 (x y z t : seq byte) : (x ++ y ++ z ++ [::]) ++ t = x ++ y ++ z ++ t.
  by rewrite cats0 -!catA.
by rewrite /decomp_digest /signed_digest /signed_bytes -cat4.
Qed.

Lemma signed_verifyE config (sp : SignedProof E) pk :
  signed_verify D sp config pk = Ok tt <-> signed_valid D config sp pk.
Proof.
rewrite /signed_verify /signed_valid decomp_digestE; split.
  move/obind_ok => [[] /unwrap_ok/decomp_verifyE h1] /obind_ok[[] /unwrap_ok/signature_verifyE h2 _].
  by split.
by case=> /decomp_verifyE-> /signature_verifyE->.
Qed.

Lemma signed_verify_noerr config (sp : SignedProof E) pk e :
  signed_verify D sp config pk <> Err e.
Proof.
rewrite /signed_verify => /obind_err[h|[[] _ /obind_err[h|[]//]]].
- exact: (unwrap_noerr h).
- exact: (unwrap_noerr h).
Qed.

(** ** share_verify *)

Lemma core_verifyE b R ag (s : rstate R) dp core :
  (cfg_num_participants (ag_config ag) < q)%N -> fits (cfg_num_participants (ag_config ag)) ->
  (core_verify b ag s dp core).1 = Ok tt <->
  [/\ core_sized (ag_config ag) core,
      (ensure_degree b s (comms core) (cfg_degree (ag_config ag))).1 = Ok tt
    & commits_to (cfg_degree (ag_config ag)) (comms core) (dp_gs dp)].
Proof.
move=> nq fn; rewrite /core_verify /core_sized.
case: eqP => [e1|ne] /=; last by split=> // -[[]].
case: eqP => [e2|ne] /=; last by split=> // -[[]].
have := @ensure_degree_ok_size b R s (comms core) (cfg_degree (ag_config ag)).
case: (ensure_degree _ _ _ _) => [[[]|e|p] s'] /= sz; [|by split=> // -[]..].
have {}sz := sz erefl; have tq : ((cfg_degree (ag_config ag)).+1 < q)%N.
  by apply: leq_ltn_trans nq; rewrite -e2.
have tb : (N.of_nat (cfg_degree (ag_config ag)) + 1 < u64_bound)%num.
  by move: fn; rewrite /fits /u64_bound; rewrite e2 in sz; lia.
split.
  move/obind_ok => [P /unwrap_ok/(lagrange_commits b _ sz tq tb) h]; case: eqP => // e _.
  by rewrite -e.
by case=> _ _ /(lagrange_commits b _ sz tq tb) -> /=; rewrite eqxx.
Qed.

Lemma product2 (P P' : Enc E) (Q Q' : Com E) :
  (product_of_pairings [:: (P, Q); (- P', Q')] == 1) = (pairing P Q == pairing P' Q').
Proof.
rewrite product_of_pairingsE !big_cons big_nil mulr1 /= pairingNl.
by rewrite -(inj_eq (mulIf (pairing_neq0 P' Q'))) mulfVK ?pairing_neq0 // mul1r.
Qed.

Lemma share_verifyE b R ag (s : rstate R) (sh : PVSSShare E) :
  (cfg_num_participants (ag_config ag) < q)%N -> fits (cfg_num_participants (ag_config ag)) ->
  let config := ag_config ag in
  let core := sh_pvss_core sh in
  let id := sh_participant_id sh in
  (share_verify D b ag s sh).1 = Ok tt <->
  exists p, [/\ bt_get (ag_participants ag) id = Some p,
                (id < cfg_num_participants config)%N, slot_ok ag core id,
                [/\ core_sized config core,
                    (ensure_degree b s (comms core) (cfg_degree config)).1 = Ok tt
                  & commits_to (cfg_degree config) (comms core)
                      (dp_gs (sp_decomp_proof (sh_signed_proof sh)))]
              & signed_valid D config (sh_signed_proof sh) (pa_public_key_ed p)].
Proof.
move=> nq fn config core id; rewrite /share_verify -/config -/core -/id.
rewrite /slot_ok /key_of; case g: (bt_get _ id) => [p|] /=; last by split=> // -[p []].
case: (ltnP id (size (comms core))) => l1; last first.
  rewrite index_oob //=; split=> // -[? [? ln ? [[? e] ? ?] ?]]; exfalso; move: l1 ln.
  by rewrite e leqNgt => /negbTE->.
rewrite (index_ok 0) //=; case: (ltnP id (size (encs core))) => l2; last first.
  rewrite index_oob //=; split=> // -[? [? ln ? [[e ?] ? ?] ?]]; exfalso; move: l2 ln.
  by rewrite e leqNgt => /negbTE->.
rewrite (index_ok 0) //= product2; case: eqP => /= pe; last by split=> // -[? [? ? /pe]].
have := core_verifyE b s (sp_decomp_proof (sh_signed_proof sh)) core nq fn.
case: (core_verify _ _ _ _ _) => cv s' /=; case: cv => [[]|e|pp] /= [cv cv'].
- have {cv}cv := cv erefl; split.
    case sv: (signed_verify _ _ _ _) => [[]|e|pp] //= _; exists p; split=> //.
      by case: cv => -[_ <-].
    exact/signed_verifyE.
  by case=> p' [[<-] _ _ _ /signed_verifyE ->].
- by split=> // -[? [? ? ? /cv']].
- by split=> // -[? [? ? ? /cv']].
Qed.

(** ** aggregation_verify *)

Lemma encryption_pairsE ag r core :
  core_sized (ag_config ag) core -> registered ag ->
  let n := cfg_num_participants (ag_config ag) in
  encryption_pairs ag r core =
  Ok (\sum_(i < n) r *: nth 0 (encs core) i,
      [seq (r *: key_of ag i, nth 0 (comms core) i) | i <- iota 0 n]).
Proof.
move=> [se sc] reg n; rewrite /encryption_pairs -/n.
pose g (acc : Enc E * seq (Enc E * Com E)) (i : nat) :=
  (acc.1 + r *: nth 0 (encs core) i, rcons acc.2 (r *: key_of ag i, nth 0 (comms core) i)).
rewrite (@foldM_ok _ _ _ _ g); last first.
  move=> [e ps] i; rewrite mem_iota add0n => /= li.
  rewrite (index_ok 0) ?se //=; have [p hp] := reg i li.
  by rewrite hp /= (index_ok 0) ?sc //= /g /key_of hp.
congr Ok; have gen e ps s : foldl g (e, ps) s =
    (e + \sum_(i <- s) r *: nth 0 (encs core) i,
     ps ++ [seq (r *: key_of ag i, nth 0 (comms core) i) | i <- s]).
  elim: s e ps => [|i s IH] e ps /=; first by rewrite big_nil addr0 cats0.
  by rewrite IH big_cons addrA cat_rcons.
by rewrite gen add0r big_iota0.
Qed.

Lemma pairs_product ag r core : 
  let n := cfg_num_participants (ag_config ag) in
  (product_of_pairings
     (rcons [seq (r *: key_of ag i, nth 0 (comms core) i) | i <- iota 0 n]
            (- (\sum_(i < n) r *: nth 0 (encs core) i), srs_g2 (cfg_srs (ag_config ag)))) == 1)
  <-> (r = 0 \/ slots_product_ok ag core).
Proof.
move=> n; rewrite product_of_pairings_rcons product_of_pairingsE /= big_map big_iota0.
rewrite -scaler_sumr pairingNl pairingZl.
under [\prod_(i < n) _]eq_bigr do rewrite /= pairingZl.
rewrite prodrXl /slots_product_ok -/n.
set A := \prod_(i < n) pairing _ _; set B := pairing _ _.
have -> : \prod_(i < n) pairing (nth 0 (encs core) i) (srs_g2 (cfg_srs (ag_config ag))) = B.
  by rewrite /B pairing_suml.
have B0 : B != 0 by exact: pairing_neq0.
have ordA : A ^+ q = 1.
  by rewrite /A -prodrXl big1 // => i _; rewrite pairing_order.
have ordB : B ^+ q = 1 by exact: pairing_order.
have -> : (A ^+ val r / B ^+ val r == 1) = ((A / B) ^+ val r == 1) by rewrite expr_div_n.
have [->|r0] := eqVneq r 0; first by rewrite expr0 eqxx; split=> // _; left.
split=> [/eqP e|[/eqP|e]]; last 2 first.
- by rewrite (negbTE r0).
- by rewrite e divff // expr1n.
right; have ab : (A / B) ^+ q = 1 by rewrite expr_div_n ordA ordB divr1.
have cop : coprime (val r) q.
  rewrite coprime_sym prime_coprime //; apply/negP => dv.
  have := Fp_val_lt pq r; case/negP: r0; apply/eqP/val_inj => /=.
  have : (val r %% q = 0)%N by exact/eqP.
  by rewrite modn_small // (Fp_val_lt pq).
have e1 : A / B = 1.
  have v0 : (0 < val r)%N by rewrite lt0n; apply: contra r0 => /eqP v0; apply/eqP/val_inj.
  case: (egcdnP q v0) => u uv; rewrite (eqP cop) => km _.
  have : (A / B) ^+ (u * val r) = (A / B) ^+ (uv * q + 1) by rewrite km.
  by rewrite exprD mulnC exprM e expr1n mulnC exprM ab expr1n mul1r expr1 => <-.
by rewrite -[A](mulfVK B0) e1 mul1r.
Qed.

Lemma contributions_totalE ag (cs : btmap (SignedProof E * N)) P :
  contributions_total D ag cs = Ok P <->
  contributions_valid D ag cs /\ P = weighted_gs cs.
Proof.
rewrite /contributions_total /contributions_valid /weighted_gs.
have -> : (forall i sp w, bt_get cs i = Some (sp, w) ->
  exists2 p, bt_get (ag_participants ag) i = Some p
           & signed_valid D (ag_config ag) sp (pa_public_key_ed p)) <->
  (forall i sp w, List.In (i, (sp, w)) (bt_iter cs) ->
  exists2 p, bt_get (ag_participants ag) i = Some p
           & signed_valid D (ag_config ag) sp (pa_public_key_ed p)).
  by split=> h i sp w /bt_get_In; apply: h.
set step := fun _ _ => _.
suff gen acc l : foldM step acc l = Ok P <->
  (forall i sp w, List.In (i, (sp, w)) l ->
   exists2 p, bt_get (ag_participants ag) i = Some p
            & signed_valid D (ag_config ag) sp (pa_public_key_ed p)) /\
  P = acc + \sum_(kv <- l) (N.to_nat kv.2.2)%:R *: dp_gs (sp_decomp_proof kv.2.1).
  by rewrite gen add0r.
elim: l acc => [|[i [sp w]] l IH] acc /=.
  by rewrite big_nil addr0; split=> [[->]|[_ ->]].
rewrite {1}/step big_cons /= addrA -fr_of_u64E.
case g: (bt_get _ i) => [p|] /=; last first.
  by split=> // -[/(_ i sp w (or_introl erefl))[p]]; rewrite g.
case sv: (signed_verify _ _ _ _) => [[]|e|pp] /=; last 2 first.
- by have := signed_verify_noerr sv.
- split=> // -[/(_ i sp w (or_introl erefl))[p']]; rewrite g => -[<-].
  by move/signed_verifyE; rewrite sv.
rewrite IH; split=> [[h ->]|[h ->]]; split=> // i' sp' w'.
  case=> [[<- <- _]|]; last exact: h.
  by exists p => //; apply/signed_verifyE.
by move=> li; apply: (h _ _ w'); right.
Qed.

Lemma aggregation_verifyE b R ag (s : rstate R) (x : PVSSAggregatedShare E) :
  (cfg_num_participants (ag_config ag) < q)%N -> fits (cfg_num_participants (ag_config ag)) ->
  registered ag ->
  let config := ag_config ag in
  let core := as_pvss_core x in
  let deg := ensure_degree b s (comms core) (cfg_degree config) in
  let r := (rand_fr deg.2).1 in
  (aggregation_verify D b ag s x).1 = Ok tt <->
  [/\ core_sized config core, deg.1 = Ok tt, r = 0 \/ slots_product_ok ag core,
      contributions_valid D ag (as_contributions x)
    & commits_to (cfg_degree config) (comms core) (weighted_gs (as_contributions x))].
Proof.
move=> nq fn reg config core deg r; rewrite /aggregation_verify -/config -/core.
rewrite /core_sized; case: eqP => [e1|ne] /=; last by split=> // -[[]].
case: eqP => [e2|ne] /=; last by split=> // -[[]].
have := @ensure_degree_ok_size b R s (comms core) (cfg_degree config).
rewrite {}/r -/deg; case: deg => [[[]|e|p] s'] /= sz; [|by split=> // -[]..].
have {}sz := sz erefl; have tq : ((cfg_degree config).+1 < q)%N.
  by apply: leq_ltn_trans nq; rewrite -e2.
have tb : (N.of_nat (cfg_degree config) + 1 < u64_bound)%num.
  have : (cfg_degree config < cfg_num_participants (ag_config ag))%N by rewrite -e2.
  by move: fn; rewrite /fits /u64_bound; lia.
case: (rand_fr s') => rr s'' /=; rewrite encryption_pairsE //=.
have [pp pp'] := pairs_product ag rr core.
case: ifP => [/negP h|/negbFE/pp h]; first by split=> // -[_ _ /pp'].
split.
  move/obind_ok => [P /unwrap_ok/(lagrange_commits b _ sz tq tb) hP].
  move/obind_ok => [T /contributions_totalE[cv ->]]; case: eqP => // e _.
  by split=> //; rewrite e.
case=> _ _ _ cv /(lagrange_commits b _ sz tq tb) -> /=.
have -> : contributions_total D ag (as_contributions x) = Ok (weighted_gs (as_contributions x)).
  exact/contributions_totalE.
by rewrite /= eqxx.
Qed.

(** ** Dealing *)

(** The encryptions of [p(1), ..., p(n)] under the registered keys. *)
Definition enc_vec ag (p : {poly F}) (n : nat) : seq (Enc E) :=
  [seq p.[@pnt E i] *: key_of ag i | i <- iota 0 n].

Lemma size_enc_vec ag p n : size (enc_vec ag p n) = n.
Proof. by rewrite size_map size_iota. Qed.

Lemma nth_enc_vec ag p n i : (i < n)%N -> nth 0 (enc_vec ag p n) i = p.[@pnt E i] *: key_of ag i.
Proof. by move=> li; rewrite (nth_map 0%N) ?size_iota // nth_iota. Qed.

Definition first_missing ag (n j : nat) : Prop :=
  [/\ (j < n)%N, bt_get (ag_participants ag) j = None
    & forall i, (i < j)%N -> bt_get (ag_participants ag) i <> None].

Section Dealing.
Variables (b : build) (R : rng E) (node : Node E) (s : rstate R).
Let ag := nd_aggregator node.
Let config := ag_config ag.
Let t := cfg_degree config.
Let n := cfg_num_participants config.
Let cs := (draw t.+1 s).1.
Let p := Poly cs.
Let id := pa_id (de_participant (nd_dealer node)).

Lemma size_dealt_poly : (size p <= t.+1)%N.
Proof. by apply: leq_trans (size_Poly _) _; rewrite size_draw. Qed.

Lemma share_pvss_unfold : fits t.+1 -> (0 < n)%N ->
  share_pvss b node s =
  (let evals := [seq p.[j%:R] | j <- iota 1 n] in
   let! encs := mapM (fun j => let! pa := ok_or (bt_get (ag_participants ag) j)
                                                (InvalidParticipantId j) in
                               let! e := index evals j in
                               Ok (e *: pa_public_key_sig pa)) (iota 0 n) in
   let! mine := index evals id in
   let! p_0 := index (truncate cs) 0 in
   Ok (MkCore encs (eval_vec p (srs_g2 (cfg_srs config)) n),
       MkSecrets p_0 (mine *: srs_g1 (cfg_srs config))),
   (draw t.+1 s).2).
Proof.
move=> ft n0; rewrite /share_pvss -/ag -/config -/t -/n -/id poly_randE // -/cs obindE.
have -> : u64_sub b (N.of_nat n) 1 = Ok (N.of_nat n.-1) :> outcome pvss_error N.
  rewrite /u64_sub; have -> : (1 <=? N.of_nat n)%num by lia.
  by congr Ok; lia.
rewrite obindE Nnat.Nat2N.id prednK //.
have ev : [seq evaluate (truncate cs) j%:R | j <- iota 1 n] = [seq p.[j%:R] | j <- iota 1 n].
  by apply: eq_map => j; rewrite evaluateE truncate_Poly.
rewrite ev (@mapM_ok_in _ _ _ _ (fun j => p.[j.+1%:R] *: srs_g2 (cfg_srs config))); last first.
  move=> j; rewrite mem_iota add0n => /= lj.
  by rewrite (index_ok 0) ?size_map ?size_iota //= (nth_map 0%N) ?size_iota // nth_iota.
rewrite obindE; congr (_, _).
suff -> : [seq p.[j.+1%:R] *: srs_g2 (cfg_srs config) | j <- iota 0 n]
          = eval_vec p (srs_g2 (cfg_srs config)) n by [].
by rewrite /eval_vec (iotaDl 1 0 n : iota 1 n = _) -map_comp.
Qed.

Lemma share_pvss_zero : fits t.+1 -> n = 0%N -> is_panic (share_pvss b node s).1.
Proof.
move=> ft n0; rewrite /share_pvss -/ag -/config -/t -/n poly_randE // n0 obindE.
by rewrite /u64_sub /=; case: b.
Qed.

Lemma share_pvss_missing j : fits t.+1 -> first_missing ag n j ->
  (share_pvss b node s).1 = Err (InvalidParticipantId j).
Proof.
move=> ft [jn gj before]; rewrite share_pvss_unfold //; last by apply: leq_trans jn.
set evals := map _ _; rewrite /fst.
have -> : mapM (fun j0 => let! pa := ok_or (bt_get (ag_participants ag) j0)
                                       (InvalidParticipantId j0) in
                          let! e := index evals j0 in
                          Ok (e *: pa_public_key_sig pa)) (iota 0 n)
          = Err (InvalidParticipantId j).
  have gen k m : (k + m = n)%N -> (k <= j)%N ->
    mapM (fun j0 => let! pa := ok_or (bt_get (ag_participants ag) j0)
                                 (InvalidParticipantId j0) in
                    let! e := index evals j0 in
                    Ok (e *: pa_public_key_sig pa)) (iota k m) = Err (InvalidParticipantId j).
    elim: m k => [|m IH] k e kj; first by lia.
    rewrite [iota _ _]/=; move: kj; rewrite leq_eqVlt => /orP[/eqP->|kj]; first by rewrite /= gj.
    rewrite /mapM -/(mapM _); case gk: (bt_get _ k) (before k kj) => [pa|] // _.
    rewrite [ok_or _ _]/= obindE (index_ok 0) ?size_map ?size_iota; last by lia.
    by rewrite !obindE IH //; lia.
  exact: (gen 0%N n).
by [].
Qed.

Lemma share_pvss_present : fits t.+1 -> (0 < n)%N ->
  (forall i, (i < n)%N -> bt_get (ag_participants ag) i <> None) ->
  (share_pvss b node s).1 =
  if (id < n)%N && ~~ all (fun c => c == 0) cs then
    Ok (MkCore (enc_vec ag p n) (eval_vec p (srs_g2 (cfg_srs config)) n),
        MkSecrets p.[0] (p.[@pnt E id] *: srs_g1 (cfg_srs config)))
  else Panic IndexOutOfBounds.
Proof.
move=> ft n0 pres; rewrite share_pvss_unfold // /fst.
rewrite (@mapM_ok_in _ _ _ _ (fun i => p.[@pnt E i] *: key_of ag i)); last first.
  move=> i; rewrite mem_iota add0n => /= li; rewrite /key_of.
  case: (bt_get _ i) (pres i li) => [pa|] // _ /=.
  by rewrite (index_ok 0) ?size_map ?size_iota //= (nth_map 0%N) ?size_iota // nth_iota.
rewrite obindE; case: ltnP => lid; last by rewrite index_oob // size_map size_iota.
rewrite (index_ok 0) ?size_map ?size_iota // obindE (nth_map 0%N) ?size_iota // nth_iota //.
rewrite -truncate_nseq0 /=.
have h0 : p.[0] = head 0 (truncate cs) by rewrite head_truncate /p horner_coef0 coef_Poly nth0.
by case e: (truncate cs) h0 => [|c l] //= ->.
Qed.

End Dealing.

(** ** Shares that are as a dealer makes them *)

Lemma commits_to_eval t (p : {poly F}) (g : Com E) (v : seq (Com E)) :
  (size p <= t.+1)%N -> take t.+1 v = eval_vec p g t.+1 -> commits_to t v (p.[0] *: g).
Proof.
move=> sp tk; have [a ha] := pt_cyclic g (pt_gen_neq0 (G2 E)).
exists (a *: p); split.
- by apply: leq_trans (size_scale_leq _ _) sp.
- rewrite tk /eval_vec; apply: eq_map => i; by rewrite ha hornerZ scalerA mulrC.
- by rewrite ha hornerZ scalerA mulrC.
Qed.

Lemma take_eval_vec {V : lmodType F} (p : {poly F}) (g : V) k n : (k <= n)%N ->
  take k (eval_vec p g n) = eval_vec p g k.
Proof. by move=> kn; rewrite /eval_vec -map_take take_iota (minn_idPl kn). Qed.

(** A core carrying one polynomial, encrypted under the registered keys. *)
Definition core_of ag (p : {poly F}) : PVSSCore E :=
  let n := cfg_num_participants (ag_config ag) in
  MkCore (enc_vec ag p n) (eval_vec p (srs_g2 (cfg_srs (ag_config ag))) n).

Lemma core_of_sized ag p : core_sized (ag_config ag) (core_of ag p).
Proof. by rewrite /core_sized /= size_enc_vec size_eval_vec. Qed.

Lemma core_of_slot ag p i : (i < cfg_num_participants (ag_config ag))%N ->
  slot_ok ag (core_of ag p) i.
Proof. by move=> li; rewrite /slot_ok /= nth_enc_vec // nth_eval_vec // -pairingZ. Qed.

Lemma core_of_degree b R (s : rstate R) ag (p : {poly F}) : config_ok (ag_config ag) ->
  (size p <= (cfg_degree (ag_config ag)).+1)%N ->
  (ensure_degree b s (comms (core_of ag p)) (cfg_degree (ag_config ag))).1 = Ok tt.
Proof. by move=> [tn nq fn] sp; apply: ensure_degree_complete. Qed.

Lemma core_of_commits ag (p : {poly F}) : config_ok (ag_config ag) ->
  (size p <= (cfg_degree (ag_config ag)).+1)%N ->
  commits_to (cfg_degree (ag_config ag)) (comms (core_of ag p))
    (p.[0] *: srs_g2 (cfg_srs (ag_config ag))).
Proof.
move=> [tn nq fn] sp; apply: commits_to_eval => //.
by rewrite take_eval_vec // ltnW.
Qed.

Lemma core_of_product ag p : slots_product_ok ag (core_of ag p).
Proof. by apply: eq_bigr => i _; exact: core_of_slot. Qed.

(** ** Shifting a share by a polynomial *)

Lemma ensure_degree_shift b R (s : rstate R) (v : seq (Com E)) t (d : {poly F}) g :
  (t.+2 <= size v)%N -> (size v < q)%N -> fits (size v) -> (size d <= t.+1)%N ->
  ensure_degree b s [seq e.1 + e.2 | e <- zip v (eval_vec d g (size v))] t
  = ensure_degree b s v t.
Proof.
move=> tn nq fn sd.
have sz : size [seq e.1 + e.2 | e <- zip v (eval_vec d g (size v))] = size v.
  by rewrite size_map size_zip size_eval_vec minnn.
rewrite !ensure_degreeE ?sz //; set c := (draw _ _).1.
suff -> : \sum_(i < size v) dual_coef c (size v) i *:
            nth 0 [seq e.1 + e.2 | e <- zip v (eval_vec d g (size v))] i
          = \sum_(i < size v) dual_coef c (size v) i *: nth 0 v i by [].
have z : \sum_(i < size v) dual_coef c (size v) i *: nth 0 (eval_vec d g (size v)) i = 0.
  by apply: dual_form_eval; rewrite // /c size_draw; lia.
rewrite -[RHS]addr0 -[X in _ = _ + X]z -big_split; apply: eq_bigr => i _ /=.
rewrite (nth_map (0, 0)) ?size_zip ?size_eval_vec ?minnn // nth_zip ?size_eval_vec //=.
by rewrite scalerDr.
Qed.

Lemma commits_to_shift t (v : seq (Com E)) (d : {poly F}) g P :
  (t < size v)%N -> (t.+1 < q)%N -> (size d <= t.+1)%N ->
  commits_to t v P ->
  commits_to t [seq e.1 + e.2 | e <- zip v (eval_vec d g (size v))] (P + d.[0] *: g).
Proof.
move=> tv tq sd; have sz : size [seq e.1 + e.2 | e <- zip v (eval_vec d g (size v))] = size v.
  by rewrite size_map size_zip size_eval_vec minnn.
move/(commits_to_lag _ tv tq) => ->; apply/commits_to_lag; rewrite ?sz //.
rewrite -(lag_interp (pnt_inj_le tq) sd) scaler_suml -big_split; apply: eq_bigr => j _ /=.
have lj : (j < size v)%N by apply: leq_trans tv; exact: ltn_ord.
rewrite (nth_map (0, 0)) ?size_zip ?size_eval_vec ?minnn // nth_zip ?size_eval_vec //=.
by rewrite nth_eval_vec // scalerDr scalerA.
Qed.

End PvssProofs.
