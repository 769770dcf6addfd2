(** * PropsEdSession: C118, a whole session with the signature scheme written out *)

From Coq Require Import NArith Strings.Byte.
From mathcomp Require Import all_ssreflect all_algebra zify.
From Verif Require Import Prelude Errors Engine LibModel CodecModel CodecProofs BTreeMap PolyModel
  SigmaModel PvssModel SetupModel Spec PreludeProofs PvssProofs Instance PropsShare PropsAgg PropsHash
  PropsHist PropsEnd PropsVerdict PropsAttack PropsNet PropsSetup EdModel EdProofs EdInstance PropsEd.

Set Implicit Arguments.
Unset Strict Implicit.
Unset Printing Implicit Defensive.

Import GRing.Theory.
Local Open Scope ring_scope.

(** The nonce with which the key of [seed] signs [m], as a number below the order. *)
Definition nonce (X : ed_curve) (seed : 32.-tuple byte) (m : Digest) : N :=
  (of_le_bytes (sha512 X (drop 32 (sha512 X seed) ++ m)) mod N.of_nat (ep_order X))%num.

(** The signature in a share is the dealer's on the digest of the proof. *)
Lemma share_signature (E : engine) (D : eddsa) (b : build) (R : rng E) (node : Node E)
  (s : rstate R) (sh : PVSSShare E) :
  (share D b node s).1 = Ok sh ->
  signature_new (Er := pvss_error) D (dealt_digest sh) (de_private_key_ed (nd_dealer node))
  = Ok (sp_signature_on_decomp (sh_signed_proof sh)).
Proof.
rewrite /share; case: (share_pvss b node s) => [[[c sec]|e|p] s1] //=.
case: (decomp_generate _ _ _) => [[dp|e|p] s2] //=; rewrite /signature_new.
case ek: (ed_keypair_from_bytes D _) => [kp|] //= [<-] /=.
by rewrite /dealt_digest /= -decomp_digestE.
Qed.

Section Session.
Variables (E : engine) (X : ed_curve) (zs : seq N).
Hypothesis big : full_size X.
Let D := ed25519 X zs.
Let K := ed25519_keys X zs.

(** A dealer registered with the key of [seed]: every aggregator of the group accepts its share,
    whatever the coins, if and only if the nonce of its signature is not zero. *)
Theorem C118_accepted_exact (b b' : build) (R R' : rng E) (node : Node E) (s : rstate R)
  (ag : PVSSAggregator E) (s' : rstate R') (pa : Participant E) (seed : 32.-tuple byte) (sh : PVSSShare E) :
  let id := pa_id (de_participant (nd_dealer node)) in
  config_ok (ag_config ag) ->
  ag_config ag = ag_config (nd_aggregator node) ->
  ag_participants ag = ag_participants (nd_aggregator node) ->
  bt_get (ag_participants ag) id = Some pa ->
  (pa_public_key_ed pa, de_private_key_ed (nd_dealer node)) = generate_keypair K seed ->
  (share D b node s).1 = Ok sh ->
  (share_verify D b' ag s' sh).1 = Ok tt <-> (nonce X seed (dealt_digest sh) <> 0)%num.
Proof.
move=> id ok ec ep gid [epk esk] sok; have [_ nq fn] := ok.
rewrite -(C112_good_for zs seed (dealt_digest sh) big) 
  (_ : good_for K seed _ = works_on D (de_private_key_ed (nd_dealer node)) (pa_public_key_ed pa) (dealt_digest sh));
  last by rewrite epk esk.
split=> [acc|wk]; last first.
  exact: C08_honest_share_accepted ok ec ep gid wk sok.
have sg := share_signature sok.
have eid : sh_participant_id sh = id.
  move: sok; rewrite /share; case: (share_pvss b node s) => [[[c sec]|e|p] s1] //=.
  by case: (decomp_generate _ _ _) => [[dp|e|p] s2] //=; case: (signature_new _ _ _) => [x|e|p] //= [<-].
case/share_verifyE: acc => // pa' [gid' _ _ _ [_ v]].
move: gid'; rewrite eid gid => -[e]; rewrite -e in v.
move: sg; rewrite /signature_new; case ek: (ed_keypair_from_bytes _ _) => [kp|] //= [es].
by exists kp; rewrite // es.
Qed.

(** In a fresh set-up every party deals, unless its coefficients are all zero. *)
Theorem C118_deals (b : build) (R R' : rng E) (s s' : rstate R) (t : nat) (seeds : seq (32.-tuple byte))
  (nodes : seq (Node E)) (dflt : Node E) (i : nat) (s0 : rstate R') :
  fits t.+1 -> set_up K s t seeds = (Ok nodes, s') -> (i < size seeds)%N ->
  scalars t.+1 s0 <> nseq t.+1 0 ->
  exists sh, (share D b (nth dflt nodes i) s0).1 = Ok sh.
Proof.
move=> ft eset li nz; have := C63_set_up K s t seeds; rewrite eset.
case: (rand_g1 s) => g1 s1; case: (rand_g2 s1) => g2 s2; case: (rand_g2 s2) => g2' s3; cbv beta iota.
move=> [_ [[<-] _ _ h]]; have [ec ep _ ed] := h i dflt li.
have := @C62_dealing_verdicts E D b R' (nth dflt nodes i) s0; rewrite ec [cfg_degree _]/= => /(_ ft)[k [_]].
have li' : (0 < size seeds)%N by exact: leq_trans li.
move: (share D b _ s0).1 => o dv; inversion dv as [pc n0|j lj gj|_ _ [le|z]|_ _ _ nk|kp sh]; subst.
- by move: n0 li'; rewrite ec /= => ->.
- by move: lj gj; rewrite ec ep /= => ->.
- by move: le; rewrite ec ed /= leqNgt li.
- by case: nz; rewrite size_scalars in z.
- by move: nk; rewrite ed /= /pair_from_bytes /pair_bytes sig_split_cat /= /pk_from_bytes ep_encK.
by exists sh.
Qed.

(** The nodes of a fresh set-up with keys of the real scheme, whose [n] signatures have nonces
    that are not zero: every delivery succeeds and every quorum reconstructs. *)
Theorem C118_session (b : build) (R : rng E) (s s' : rstate R) (t : nat)
  (seeds : seq (32.-tuple byte)) (nodes : seq (Node E)) (cs : nat -> coins E)
  (sh : nat -> PVSSShare E) (es : seq (event E)) :
  let n := size seeds in
  set_up K s t seeds = (Ok nodes, s') ->
  (t.+2 <= n)%N -> (n < modulus E)%N -> fits n ->
  (forall i dflt, (i < n)%N -> (share D b (nth dflt nodes i) (projT2 (cs i))).1 = Ok (sh i)) ->
  (forall i, (i < n)%N -> (nonce X (nth (nseq_tuple 32 x00) seeds i) (dealt_digest (sh i)) <> 0)%num) ->
  all (from_dealers (fun d => d < n)%N) es -> (size es <= 64)%N ->
  exists ag0 : PVSSAggregator E,
    (forall i dflt, (i < n)%N -> nd_aggregator (nth dflt nodes i) = ag0) /\
    let g1 := srs_g1 (cfg_srs (ag_config ag0)) in
    let: (rs, net) := net_run D b sh (fun _ => ag0) es in
    rs = nseq (size es) (Ok tt) /\
    forall v ids b',
      srs_g2 (cfg_srs (ag_config ag0)) != 0 -> size ids = t.+1 -> uniq ids ->
      let sk i := if nth None (map Some nodes) i is Some nd then de_private_key_sig (nd_dealer nd) else 0 in
      (forall i, i \in ids -> (i < n)%N /\ sk i != 0) ->
      exists ds : seq (DecryptedShare E),
        mapM (fun i => decrypted_share_generate
                         (encs (as_pvss_core (ag_aggregated_tx (net v)))) (sk i) i) ids
          = Ok ds :> outcome pvss_error _ /\
        lagrange_interpolation_g1 b' [seq dec d | d <- ds] [seq (origin d).+1%:R | d <- ds] t
          = Ok ((\sum_(i < n) (N.to_nat (tally es v i))%:R * (rand_fr (projT2 (cs i))).1) *: g1).
Proof.
move=> n eset tn nq fn hsh nz fd le.
have gs i : (i < n)%N -> good_for K (nth (nseq_tuple 32 x00) seeds i) (dealt_digest (sh i)).
  by move=> li; apply/(C112_good_for zs _ _ big); exact: nz.
exact: (@C63_fresh_network E D K b R s s' t seeds nodes cs sh es eset tn nq fn gs hsh fd le).
Qed.
End Session.
Print Assumptions C118_accepted_exact.
Print Assumptions C118_deals.
Print Assumptions C118_session.

(** The hypotheses are met: such a session exists for every list of seeds. *)
Lemma session_exists (E : engine) (X : ed_curve) (zs : seq N) (b : build) (R R' : rng E) (s : rstate R)
  (t : nat) (seeds : seq (32.-tuple byte)) (s0 : rstate R') :
  full_size X -> fits t.+1 -> (0 < size seeds)%N -> scalars t.+1 s0 <> nseq t.+1 0 ->
  exists nodes s' sh, set_up (ed25519_keys X zs) s t seeds = (Ok nodes, s') /\
    forall i dflt, (i < size seeds)%N -> (share (ed25519 X zs) b (nth dflt nodes i) s0).1 = Ok (sh i).
Proof.
move=> big ft n0 nz; have := C63_set_up (ed25519_keys X zs) s t seeds.
case: (rand_g1 s) => g1 s1; case: (rand_g2 s1) => g2 s2; case: (rand_g2 s2) => g2' s3; cbv beta iota.
case eset: (set_up _ _ _ _) => [o s'] [nodes [eo _ sz _]]; rewrite {o}eo in eset *.
case: nodes sz eset => [|nd nodes] sz eset; first by rewrite -sz in n0.
have dl i dflt (li : (i < size seeds)%N) := @C118_deals E X zs b R R' s s' t seeds _ dflt i s0 ft eset li nz.
have [x0 _] := dl 0%N nd n0.
exists (nd :: nodes), s', (fun i => if (share (ed25519 X zs) b (nth nd (nd :: nodes) i) s0).1 is Ok x then x else x0).
split=> // i dflt li; rewrite (set_nth_default nd) ?sz //.
by have [x ->] := dl i nd li.
Qed.

(** Over the toy engine, four parties and polynomials of degree one: the toy curve of the order of
    Ed25519 never has a nonce zero, so the session goes through; over the curve whose hash is zero
    every nonce is zero, so the same dealers deal but nobody accepts them. *)
Example C118_example (zs : seq N) :
  let seeds := [seq tpk i | i <- iota 0 4] in
  let s : rstate list_rng := [:: f 3; f 2; f 5; f 4; f 6; f 1; f 9] in
  let s0 : rstate (seq_rng TE) := [:: f 7; f 5; f 4] in
  [/\ (3 <= size seeds)%N, (size seeds < modulus TE)%N & fits (size seeds)] /\
  forall X, X = ed_toy \/ X = ed_zero ->
  full_size X /\
  exists nodes s' sh, [/\ set_up (ed25519_keys X zs) s 1 seeds = (Ok nodes, s'),
    forall i dflt, (i < size seeds)%N -> (share (ed25519 X zs) Debug (nth dflt nodes i) s0).1 = Ok (sh i)
    & forall i, (i < size seeds)%N ->
      (nonce X (nth (nseq_tuple 32 x00) seeds i) (dealt_digest (sh i)) <> 0)%num <-> X = ed_toy].
Proof.
move=> seeds s s0; split; first by split; rewrite ?modulusE //; vm_compute.
have nz : scalars 2 s0 <> nseq 2 0 by case=> /eqP; vm_compute.
have n0 : (0 < size seeds)%N by [].
have dif : ed_zero <> ed_toy.
  move=> e; have := @toy_mod_neq0 32 [::]; rewrite -e; apply.
  by have /eqP := zero_sc [::]; rewrite /sc_hash sc_of_N_eq0 => /N.eqb_spec.
have ft : fits 2 by vm_compute.
move=> X [] ->.
- split; first exact: (@ed_toy_full 32).
  have [nodes [s' [sh [e h]]]] := @session_exists TE ed_toy zs Debug _ _ s 1 seeds s0 (@ed_toy_full 32) ft n0 nz.
  exists nodes, s', sh; split; [exact: e|exact: h|move=> i _; split=> _; [reflexivity|exact: toy_mod_neq0]].
split; first exact: ed_zero_full.
have [nodes [s' [sh [e h]]]] := @session_exists TE ed_zero zs Debug _ _ s 1 seeds s0 ed_zero_full ft n0 nz.
exists nodes, s', sh; split; [exact: e|exact: h|move=> i _; split=> [ne|/dif[]]; case: ne].
by have /eqP := zero_sc (drop 32 (sha512 ed_zero (nth (nseq_tuple 32 x00) seeds i)) ++ dealt_digest (sh i));
  rewrite /sc_hash sc_of_N_eq0 => /N.eqb_spec.
Qed.
