(** * PropsPublic: properties C87 (everybody reaches the same verdict) and C88 (nonces) *)

From Coq Require Import NArith Strings.Byte.
From mathcomp Require Import all_ssreflect all_algebra zify.
From Verif Require Import Prelude Errors BTreeMap Engine LibModel PolyModel SigmaModel PvssModel
  Spec PreludeProofs AlgebraProofs PolyProofs PvssProofs HistProofs Instance PropsPoly PropsSigma
  PropsShare PropsAgg PropsHist.

Set Implicit Arguments.
Unset Strict Implicit.
Unset Printing Implicit Defensive.

Import GRing.Theory.
Local Open Scope ring_scope.

(** ** C87: everybody reaches the same verdict *)

(** Two aggregators for the same configuration and participants, whatever either received
    before: with the same coins they give the same answers to every message, and draw the
    same. *)
Theorem C87_same_coins (E : engine) (D : eddsa) (b : build) (config : Config E)
  (ps : btmap (Participant E)) (ag ag' : PVSSAggregator E) (h h' : seq (call E)) (R : rng E)
  (s : rstate R) :
  aggregator_new config ps = Ok ag -> aggregator_new config ps = Ok ag' ->
  (forall sh, share_verify D b (run D b ag h) s sh = share_verify D b (run D b ag' h') s sh) /\
  (forall x, aggregation_verify D b (run D b ag h) s x = aggregation_verify D b (run D b ag' h') s x).
Proof.
move=> e e'; have [c1 p1] := run_static D b ag h; have [c2 p2] := run_static D b ag' h'.
have ec : ag_config (run D b ag h) = ag_config (run D b ag' h').
  by rewrite c1 c2; case: e e' => <- [<-].
have ep : ag_participants (run D b ag h) = ag_participants (run D b ag' h').
  by rewrite p1 p2; case: e e' => <- [<-].
move: (run D b ag h) (run D b ag' h') ec ep => [c p tx] [c' p' tx'] /= -> ->.
by split.
Qed.
Print Assumptions C87_same_coins.

(** With coins of their own: the answers to a share agree, whatever the share, as soon as its
    commitments have low degree. *)
Theorem C87_shares (E : engine) (D : eddsa) (b b' : build) (ag : PVSSAggregator E)
  (R R' : rng E) (s : rstate R) (s' : rstate R') (sh : PVSSShare E) :
  config_ok (ag_config ag) ->
  low_degree (cfg_degree (ag_config ag)) (comms (sh_pvss_core sh)) ->
  (share_verify D b ag s sh).1 = (share_verify D b' ag s' sh).1.
Proof.
move=> [tn nq fn] [p sp ev]; rewrite /share_verify.
case: (let! _ := ok_or _ _ in _) => [pa|e|pc] //; rewrite /core_verify.
case: ifP => //= /negbT; rewrite negb_or !negbK => /andP[_ /eqP sc].
have dg bb Q (u : rstate Q) : (ensure_degree bb u (comms (sh_pvss_core sh)) (cfg_degree (ag_config ag))).1 = Ok tt.
  by rewrite ev; apply: ensure_degree_complete => //; rewrite sc.
move: (dg b R s) (dg b' R' s').
case: (ensure_degree b s _ _) => [o u] /= ->; case: (ensure_degree b' s' _ _) => [o' u'] /= ->.
have tb : (N.of_nat (cfg_degree (ag_config ag)) + 1 < 2 ^ 64)%num by move: fn; rewrite /fits; lia.
have tq : ((cfg_degree (ag_config ag)).+1 < modulus E)%N by apply: leq_ltn_trans nq; apply: ltnW.
have l bb : lagrange_interpolation_simple bb (comms (sh_pvss_core sh)) (cfg_degree (ag_config ag))
    = Ok (p.[0] *: pt_gen (G2 E)).
  by apply: lagrange_simple_poly => //; rewrite [in LHS]ev take_eval_vec // sc ltnW.
by rewrite !l.
Qed.
Print Assumptions C87_shares.

(** The answers to a transcript, too, unless one of the verifiers draws zero after the degree
    check. *)
Theorem C87_transcripts (E : engine) (D : eddsa) (b b' : build) (ag : PVSSAggregator E)
  (R R' : rng E) (s : rstate R) (s' : rstate R') (x : PVSSAggregatedShare E) :
  let t := cfg_degree (ag_config ag) in
  let cs := comms (as_pvss_core x) in
  config_ok (ag_config ag) -> registered ag -> low_degree t cs ->
  (rand_fr (ensure_degree b s cs t).2).1 != 0 -> (rand_fr (ensure_degree b' s' cs t).2).1 != 0 ->
  (aggregation_verify D b ag s x).1 = (aggregation_verify D b' ag s' x).1.
Proof.
move=> t cs [tn nq fn] reg [p sp ev]; rewrite /aggregation_verify -/cs -/t.
case: ifP => //= /negbT; rewrite negb_or !negbK => /andP[/eqP se /eqP sc].
have dg bb Q (u : rstate Q) : (ensure_degree bb u cs t).1 = Ok tt.
  by rewrite ev; apply: ensure_degree_complete => //; rewrite sc.
move: (dg b R s) (dg b' R' s').
case: (ensure_degree b s _ _) => [o u] /= ->; case: (ensure_degree b' s' _ _) => [o' u'] /= ->.
case: (rand_fr u) => r v /=; case: (rand_fr u') => r' v' /= r0 r0'.
rewrite !encryption_pairsE //=.
have [pp1 pp2] := pairs_product ag r (as_pvss_core x); have [pp1' pp2'] := pairs_product ag r' (as_pvss_core x).
have tb : (N.of_nat t + 1 < 2 ^ 64)%num by move: fn; rewrite /fits /t; lia.
have tq : (t.+1 < modulus E)%N by apply: leq_ltn_trans nq; apply: ltnW.
have l bb : lagrange_interpolation_simple bb cs t = Ok (p.[0] *: pt_gen (G2 E)).
  by apply: lagrange_simple_poly => //; rewrite [in LHS]ev take_eval_vec // sc ltnW.
rewrite !l /=; set A := (product_of_pairings _ == 1) in pp1 pp2 *.
set A' := (product_of_pairings _ == 1) in pp1' pp2' *.
suff -> : A = A' by [].
apply/idP/idP => [/pp1[e|h]|/pp1'[e|h]]; first by rewrite e eqxx in r0.
- by apply: pp2'; right.
- by rewrite e eqxx in r0'.
by apply: pp2; right.
Qed.
Print Assumptions C87_transcripts.

(** Participants 0 and 3 with different histories, and the share of dealer 2 with a wrong
    slot 0: both accept it, with different coins.  A share with commitments of higher degree
    is accepted with some coins and refused with others. *)
Example C87_example :
  let h := [:: tcall (MsgShare sh2)] in
  let bad := tamper_enc sh2 0 (f 1 : Enc TE) in
  let high := @MkShare TE (sh_participant_id sh2)
    (MkCore (encs (sh_pvss_core sh2)) (set_nth 0 (comms (sh_pvss_core sh2)) 3 (f 1 : Com TE)))
    (sh_signed_proof sh2) in
  let ok ag (c : seq (Fr TE)) sh := is_ok (@share_verify TE TD Debug (seq_rng TE) ag c sh).1 in
  [/\ ok (run TD Debug tag h) [:: f 1; f 9; f 3] bad, ok tag [:: f 4; f 2; f 6] bad,
      ok tag [:: f 0; f 0; f 0] high & ~~ ok tag [:: f 1; f 9; f 3] high].
Proof. by vm_compute. Qed.

(** ** C88: a nonce used twice *)

Lemma solve_key (K : fieldType) (v w c c' : K) : c != c' ->
  ((v - w * c') - (v - w * c)) / (c - c') = w.
Proof.
move=> ne; have d0 : c - c' != 0 by rewrite subr_eq0.
by rewrite opprB addrC addrA subrK -mulrBr mulfK.
Qed.

Lemma solve_difference (K : fieldType) (v w w' c : K) : c != 0 ->
  ((v - w * c) - (v - w' * c)) / c = w' - w.
Proof. by move=> c0; rewrite opprB addrC addrA subrK -mulrBl mulfK. Qed.

(** Two Schnorr signatures made with the generator in the same state give the signing key
    away to everybody, unless their challenges are equal. *)
Theorem C88_schnorr (E : engine) (C : curve (modulus E)) (R : rng E) (g : pt C) (s : rstate R)
  (sk : Fr E) (m m' : seq byte) :
  let sig := (schnorr_sign g s sk m).1 in
  let sig' := (schnorr_sign g s sk m').1 in
  let c := schnorr_challenge m g sig.1 in
  let c' := schnorr_challenge m' g sig'.1 in
  sig.1 = sig'.1 /\ (c != c' -> sk = (sig'.2 - sig.2) / (c - c')).
Proof.
rewrite /schnorr_sign; case: (rand_fr s) => v s' /=; split=> // ne.
by rewrite solve_key.
Qed.
Print Assumptions C88_schnorr.

(** The challenge of a knowledge proof does not depend on the statement (C31).  So two proofs
    made with the same nonce for two secrets have the same challenge and give away the
    difference of the secrets, and nothing else: the second proof is a function of the first
    and of the difference. *)
Theorem C88_dlk (E : engine) (C : curve (modulus E)) (R : rng E) (g : pt C) (s : rstate R)
  (w w' : Fr E) :
  let p := (dlk_prove g s w).1 in
  let p' := (dlk_prove g s w').1 in
  [/\ dlk_commit p' = dlk_commit p, dlk_challenge p' = dlk_challenge p,
      dlk_response p' = dlk_response p - (w' - w) * dlk_challenge p
    & dlk_challenge p != 0 -> w' - w = (dlk_response p - dlk_response p') / dlk_challenge p].
Proof.
rewrite /dlk_prove; case: (rand_fr s) => r s' /=; split=> //.
  by rewrite mulrBl opprB addrA subrK.
by move=> c0; rewrite solve_difference.
Qed.
Print Assumptions C88_dlk.

(** For an equality proof the challenge depends on the statement: a nonce used twice for one
    witness with two bases gives the witness away unless the challenges are equal. *)
Theorem C88_dleq (E : engine) (C1 C2 : curve (modulus E)) (R : rng E) (g : pt C1) (h h' : pt C2)
  (s : rstate R) (w : Fr E) :
  let p := (dleq_prove g h s w).1 in
  let p' := (dleq_prove g h' s w).1 in
  dleq_challenge p != dleq_challenge p' ->
  w = (dleq_response p' - dleq_response p) / (dleq_challenge p - dleq_challenge p').
Proof. by rewrite /dleq_prove; case: (rand_fr s) => r s' /= ne; rewrite solve_key. Qed.
Print Assumptions C88_dleq.

(** So do two shares dealt by one party, if the nonces of their proofs are equal: the
    difference of the two secrets can be computed from the shares. *)
Theorem C88_shares (E : engine) (D : eddsa) (b b' : build) (node : Node E) (R R' : rng E)
  (s : rstate R) (s' : rstate R') (sh sh' : PVSSShare E) (core core' : PVSSCore E)
  (sec sec' : PVSSShareSecrets E) :
  (share_pvss b node s).1 = Ok (core, sec) -> (share_pvss b' node s').1 = Ok (core', sec') ->
  (share D b node s).1 = Ok sh -> (share D b' node s').1 = Ok sh' ->
  (rand_fr (share_pvss b node s).2).1 = (rand_fr (share_pvss b' node s').2).1 ->
  let p := dp_proof (sp_decomp_proof (sh_signed_proof sh)) in
  let p' := dp_proof (sp_decomp_proof (sh_signed_proof sh')) in
  dlk_challenge p != 0 ->
  ss_p_0 sec' - ss_p_0 sec = (dlk_response p - dlk_response p') / dlk_challenge p.
Proof.
rewrite /share; case: (share_pvss b node s) => o u /= ->; case: (share_pvss b' node s') => o' u' /= ->.
rewrite /decomp_generate /dlk_prove /=; case: (rand_fr u) => r v /=; case: (rand_fr u') => r' v' /=.
case/obind_ok => sg _ [<-] /obind_ok[sg' _ [<-]] /= <- c0.
by rewrite solve_difference.
Qed.
Print Assumptions C88_shares.

(** One key, one state of the generator, two messages: the challenges differ and the key
    comes out. *)
Example C88_example :
  let C : curve (modulus TE) := toy_curve in
  let m := [:: x01%byte] in
  let m' := [:: x02%byte] in
  let g : pt C := pt_gen C in
  let sig := (@schnorr_sign TE C (seq_rng TE) g [:: f 8] (f 5) m).1 in
  let sig' := (@schnorr_sign TE C (seq_rng TE) g [:: f 8] (f 5) m').1 in
  let c := @schnorr_challenge TE C m g sig.1 in
  let c' := @schnorr_challenge TE C m' g sig'.1 in
  (c != c') && ((sig'.2 - sig.2) / (c - c') == f 5).
Proof. by vm_compute. Qed.
