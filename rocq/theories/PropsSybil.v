(** * PropsSybil: C117, what one decryption key opens *)

From Coq Require Import NArith Strings.Byte.
From mathcomp Require Import all_ssreflect all_algebra zify.
From Verif Require Import Prelude Errors BTreeMap Engine LibModel PolyModel SigmaModel PvssModel
  SetupModel Spec PreludeProofs AlgebraProofs PolyProofs PvssProofs Instance
  PropsPoly PropsSigma PropsShare PropsAgg PropsHist PropsEnd PropsLimits PropsAttack PropsSetup
  PropsQuorum.

Set Implicit Arguments.
Unset Strict Implicit.
Unset Printing Implicit Defensive.

Import GRing.Theory.
Local Open Scope ring_scope.

Section Sybil.
Variable E : engine.
Notation q := (modulus E).
Implicit Types (ag : PVSSAggregator E) (core : PVSSCore E).

(** A core whose commitments have low degree and whose slots are all right. *)
Definition good_core ag core : Prop :=
  [/\ core_sized (ag_config ag) core, low_degree (cfg_degree (ag_config ag)) (comms core)
    & forall i, (i < cfg_num_participants (ag_config ag))%N -> slot_ok ag core i].

(** The ids below [n] that are registered with the encryption key of [a]. *)
Definition slots_of ag (a : Fr E) : seq nat :=
  [seq i <- iota 0 (cfg_num_participants (ag_config ag))
     | key_of ag i == a *: srs_g1 (cfg_srs (ag_config ag))].

(** What the holder of [a] decrypts in them. *)
Definition view ag (a : Fr E) core : seq (Enc E) :=
  [seq a^-1 *: nth 0 (encs core) i | i <- slots_of ag a].

(** [P] is the point that belongs to the secret the commitments are of. *)
Definition opens b ag core (P : Enc E) : Prop :=
  exists2 S, lagrange_interpolation_simple b (comms core) (cfg_degree (ag_config ag)) = Ok S
    & pairing P (srs_g2 (cfg_srs (ag_config ag))) = pairing (srs_g1 (cfg_srs (ag_config ag))) S.

(** Anybody with [t + 1] slots under one key opens every good core with that key and the functions
    of the code. *)
Lemma one_key b ag (a : Fr E) (ids : seq nat) core :
  let t := cfg_degree (ag_config ag) in
  config_ok (ag_config ag) -> srs_g2 (cfg_srs (ag_config ag)) != 0 -> a != 0 ->
  size ids = t.+1 -> uniq ids -> {subset ids <= slots_of ag a} -> good_core ag core ->
  exists P, let ds := [seq MkDec (a^-1 *: nth 0 (encs core) i) i | i <- ids] in
  [/\ mapM (fun i => decrypted_share_generate (encs core) a i : outcome pvss_error _) ids = Ok ds,
    reconstruct b t ds = Ok P & opens b ag core P].
Proof.
move=> t [tn nq fn] g20 a0 sz u sub [[se sc] [p sp ev] ok].
set n := cfg_num_participants _ in tn nq fn se sc ok; set g1 := srs_g1 (cfg_srs (ag_config ag)).
rewrite sc in ev; have ft : (N.of_nat t + 1 < 2 ^ 64)%num by move: fn tn; rewrite /fits; lia.
have [c hc] := pt_cyclic (pt_gen (G2 E)) g20.
have mem i : i \in ids -> (i < n)%N /\ key_of ag i = a *: g1.
  by move/sub; rewrite mem_filter mem_iota => /andP[/eqP -> /andP[_ li]].
have dE i : i \in ids -> a^-1 *: nth 0 (encs core) i = (p.[@pnt E i] * c) *: g1.
  move=> /mem[li ky]; have := ok i li.
  rewrite /slot_ok ky ev nth_eval_vec // hc scalerA -pairingZ => /(pairing_injl g20) <-.
  by rewrite !scalerA [_ * a]mulrC mulrA mulVf // mul1r.
exists ((p.[0] * c) *: g1); split.
- apply: mapM_ok_in => i /mem[li ky].
  by rewrite /decrypted_share_generate (index_ok 0) ?se //= /inverse_unwrap (negbTE a0).
- rewrite /reconstruct -!map_comp.
  have -> : [seq (@dec E \o (fun i => MkDec (a^-1 *: nth 0 (encs core) i) i)) i | i <- ids]
      = eval_at (c *: p) g1 [seq @pnt E i | i <- ids].
    by rewrite /eval_at -map_comp; apply/eq_in_map => i /dE /= ->; rewrite hornerZ mulrC.
  rewrite (@C05_interpolation_g1 E) ?hornerZ ?[c * _]mulrC // ?size_map ?sz //.
    by apply: leq_trans (size_scale_leq _ _) sp.
  apply: take_uniq; rewrite map_inj_in_uniq // => i j /mem[li _] /mem[lj _].
  exact: (pnt_inj nq).
exists (p.[0] *: pt_gen _); last by rewrite hc scalerA -pairingZ.
apply: lagrange_simple_poly => //; last by apply: leq_ltn_trans nq; lia.
by rewrite ev take_eval_vec //; lia.
Qed.

(** Nothing is checked when parties are registered, so one key may stand under any ids: with the
    key of [a] registered under [ids], whatever else is registered, the aggregator and the node
    are created, and [a] alone opens every good core. *)
Definition under_one_key (config : Config E) (a : Fr E) (ed : nat -> PublicKey) (ids : seq nat)
  (ps : btmap (Participant E)) : btmap (Participant E) :=
  foldr (fun i m => bt_insert m i (MkParticipant i (a *: srs_g1 (cfg_srs config)) (ed i))) ps ids.

Definition ag_of (config : Config E) (ps : btmap (Participant E)) : PVSSAggregator E :=
  MkAggregator config ps (agg_empty E (cfg_degree config) (cfg_num_participants config)).

Theorem C117_one_key_refuted b (config : Config E) (a : Fr E) (ed : nat -> PublicKey) (ids : seq nat)
  (ps : btmap (Participant E)) (dealer : Dealer E) :
  let t := cfg_degree config in
  let ps' := under_one_key config a ed ids ps in
  config_ok config -> srs_g2 (cfg_srs config) != 0 -> a != 0 ->
  size ids = t.+1 -> uniq ids -> all (fun i => i < cfg_num_participants config)%N ids ->
  exists ag, [/\ aggregator_new config ps' = Ok ag, node_new config dealer ps' = Ok (MkNode ag dealer)
    & forall core, good_core ag core ->
        exists P ds, [/\ mapM (fun i => decrypted_share_generate (encs core) a i : outcome pvss_error _) ids = Ok ds,
          reconstruct b t ds = Ok P & opens b ag core P]].
Proof.
move=> t ps' ok g20 a0 sz u lt; exists (ag_of config ps'); split=> // core good.
have sub : {subset ids <= slots_of (ag_of config ps') a}.
  move=> i hi; rewrite mem_filter mem_iota /= add0n (allP lt) // andbT /key_of /=.
  suff -> : bt_get ps' i = Some (MkParticipant i (a *: srs_g1 (cfg_srs config)) (ed i)) by [].
  rewrite /ps'; move: hi; clear; elim: ids => //= j ids IH; rewrite inE bt_get_insert eq_sym.
  by case: eqP => [->|_] //=; exact: IH.
have [P [h1 h2 h3]] := @one_key b (ag_of config ps') a ids core ok g20 a0 sz u sub good.
by exists P, [seq MkDec (a^-1 *: nth 0 (encs core) i) i | i <- ids].
Qed.

(** Exactly: what the holder of a key decrypts determines the secret of every good core if and
    only if the key is registered under more than [t] ids. *)
Theorem C117_exact_partial b ag (a : Fr E) :
  let t := cfg_degree (ag_config ag) in
  config_ok (ag_config ag) -> srs_g1 (cfg_srs (ag_config ag)) != 0 ->
  srs_g2 (cfg_srs (ag_config ag)) != 0 -> a != 0 ->
  (exists F : seq (Enc E) -> Enc E, forall core, good_core ag core -> opens b ag core (F (view ag a core)))
  <-> (t < size (slots_of ag a))%N.
Proof.
move=> t ok g10 g20 a0; have [tn nq fn] := ok; set n := cfg_num_participants _ in tn nq fn.
have us : uniq (slots_of ag a) by rewrite filter_uniq // iota_uniq.
split=> [[F hF]|lt]; last first.
  pose ids := take t.+1 (slots_of ag a).
  have sz : size ids = t.+1 by rewrite size_takel.
  exists (fun vs => if lagrange_interpolation_g1 b (take t.+1 vs) [seq i.+1%:R | i <- ids] t is Ok P then P else 0).
  move=> core good.
  have [P [_ hP op]] := @one_key b ag a ids core ok g20 a0 sz (take_uniq _ us) (@mem_take _ _ _) good.
  by move: hP; rewrite /view -map_take -/ids /reconstruct -!map_comp => ->.
rewrite ltnNge; apply/negP => le.
have good (p : {poly Fr E}) : (size p <= t.+1)%N -> good_core ag (core_of ag p).
  move=> sp; split; [exact: core_of_sized | | exact: core_of_slot].
  have [c hc] := pt_cyclic (srs_g2 (cfg_srs (ag_config ag))) (pt_gen_neq0 (G2 E)).
  exists (c *: p); first exact: leq_trans (size_scale_leq _ _) sp.
  rewrite /= size_eval_vec /eval_vec; apply: eq_map => i.
  by rewrite hornerZ hc scalerA mulrC.
have out (p : {poly Fr E}) : (size p <= t.+1)%N -> F (view ag a (core_of ag p)) = p.[0] *: srs_g1 (cfg_srs (ag_config ag)).
  move=> sp; have [S] := hF _ (good p sp).
  rewrite (@lagrange_simple_poly E b _ p (srs_g2 (cfg_srs (ag_config ag)))) //.
  - by case=> <-; rewrite -pairingZ => /(pairing_injl g20).
  - by rewrite take_eval_vec //; lia.
  - by apply: leq_ltn_trans nq; lia.
  by move: fn tn; rewrite /fits /u64_bound -/t; lia.
pose Z : {poly Fr E} := \prod_(i <- slots_of ag a) ('X - (@pnt E i)%:P).
have sZ : (size Z <= t.+1)%N by rewrite /Z size_prod_XsubC ltnS.
have Z0 : Z.[0] != 0.
  rewrite /Z horner_prod prodf_seq_neq0; apply/allP => i.
  rewrite mem_filter mem_iota => /andP[_ /andP[_ li]] /=.
  by rewrite hornerXsubC sub0r oppr_eq0 (pnt_neq0 nq).
have eV : view ag a (core_of ag Z) = view ag a (core_of ag 0).
  apply/eq_in_map => i hi; move: (hi); rewrite mem_filter mem_iota => /andP[_ /andP[_ li]].
  rewrite !nth_enc_vec //; congr (_ *: (_ *: _)); rewrite horner0; apply/eqP.
  by rewrite /Z horner_prod (bigD1_seq i) //= hornerXsubC subrr mul0r.
have := out Z sZ; rewrite eV out ?size_poly0 // horner0 scale0r => /esym/eqP.
by rewrite scaler_eq0 (negbTE Z0) (negbTE g10).
Qed.

(** No single key opens every good core, as the property is worded. *)
Definition C117_full : Prop :=
  forall b (config : Config E) (ps : btmap (Participant E)) ag (a : Fr E),
  aggregator_new config ps = Ok ag -> config_ok config -> (0 < cfg_degree config)%N ->
  srs_g1 (cfg_srs config) != 0 -> srs_g2 (cfg_srs config) != 0 -> a != 0 ->
  ~ exists F : seq (Enc E) -> Enc E,
      forall core, good_core ag core -> opens b ag core (F (view ag a core)).

Theorem C117_full_refuted : (3 < q)%N -> ~ C117_full.
Proof.
move=> q3 full.
pose config := MkConfig (MkSRS (pt_gen (G1 E) : Enc E) (pt_gen (G2 E)) (pt_gen (G2 E))) 1 3.
pose ps := under_one_key config 1 tpk [:: 0; 1]%N bt_new.
have ok : config_ok config by split=> //; rewrite /fits.
have := full Debug config ps (ag_of config ps) 1 erefl ok isT (pt_gen_neq0 _) (pt_gen_neq0 _) (oner_neq0 _).
apply; apply/(@C117_exact_partial Debug (ag_of config ps) 1 ok (pt_gen_neq0 _) (pt_gen_neq0 _) (oner_neq0 _)).
by rewrite /slots_of /= /key_of /= eqxx.
Qed.

(** A party registered with the zero point is worse off than one that is not there: whoever
    deals, its slot is zero, and it decrypts to zero under every key. *)
Theorem C117_zero_key ag core i (a : Fr E) : good_core ag core ->
  srs_g2 (cfg_srs (ag_config ag)) != 0 -> (i < cfg_num_participants (ag_config ag))%N ->
  key_of ag i = 0 -> a != 0 ->
  decrypted_share_generate (encs core) a i = Ok (MkDec 0 i) :> outcome pvss_error _.
Proof.
move=> [[se sc] _ ok] g20 li k0 a0; have := ok i li.
rewrite /slot_ok k0 pairing0l => h.
have e0 : nth 0 (encs core) i = 0 by apply: (pairing_injl g20); rewrite -h pairing0l.
by rewrite /decrypted_share_generate (index_ok 0) ?se //= /inverse_unwrap (negbTE a0) /= e0 scaler0.
Qed.
End Sybil.

(** Four ids, degree 1: the party of id 2 registers its key under id 3 as well and decrypts a
    core of [3 + X] to [3 g1] with it, from the slots 2 and 3. *)
Definition sybil_parts : btmap (Participant TE) := @under_one_key TE tconfig (f 4) tpk [:: 2; 3]%N tparts.
Definition sybil_core : PVSSCore TE :=
  @MkCore TE [:: f 2; f 1; f 6; f 7] [:: f 8; f 10; f 1; f 3].
Definition sybil_ag : PVSSAggregator TE := ag_of tconfig sybil_parts.

Example sybil_good : good_core sybil_ag sybil_core.
Proof.
split=> //; last by case=> [|[|[|[|i]]]] // _; apply/eqP; vm_compute.
exists ((f 2) *: ('X + (f 3)%:P)).
  apply: leq_trans (size_scale_leq _ _) _.
  by rewrite size_XaddC.
apply: (@eq_from_nth _ 0) => // i; case: i => [|[|[|[|i]]]] // _.
all: by rewrite /eval_vec [RHS]/= hornerZ hornerD hornerX hornerC; apply/eqP; vm_compute.
Qed.

Example C117_example :
  [/\ slots_of sybil_ag (f 4) = [:: 2; 3]%N, slots_of tag (f 4) = [:: 2]%N
    & if mapM (fun i => decrypted_share_generate (encs sybil_core) (f 4) i : outcome pvss_error _) [:: 2; 3]%N
      is Ok ds then if reconstruct Debug 1 ds is Ok P then P == f 9 else false else false].
Proof. by split; vm_compute. Qed.
