(** * PropsBuild: property C78, debug and release builds *)

From Coq Require Import NArith Strings.Byte.
From mathcomp Require Import all_ssreflect all_algebra zify.
From Verif Require Import Prelude Errors BTreeMap Engine LibModel PolyModel SigmaModel PvssModel
  Spec PreludeProofs AlgebraProofs PolyProofs PvssProofs AggProofs HistProofs Instance
  PropsPoly PropsSigma PropsShare PropsAgg PropsHist PropsEnd PropsLimits PropsVerdict.

Set Implicit Arguments.
Unset Strict Implicit.
Unset Printing Implicit Defensive.

Import GRing.Theory.
Local Open Scope ring_scope.

(** ** Specification *)

(** The release outcome [y] is no overflow panic, and the debug outcome [x] is either the
    same or an overflow panic. *)
Definition agree {Er A} (x y : outcome Er A) : Prop :=
  y <> Panic ArithOverflow /\ (x <> y <-> x = Panic ArithOverflow).

(** The same for a call that also returns a state: nothing at all differs. *)
Definition agree_st {Er A S} (x y : outcome Er A * S) : Prop :=
  y.1 <> Panic ArithOverflow /\ (x <> y <-> x.1 = Panic ArithOverflow).

(** ** Proof rules *)

Section Rules.
Context {Er : Type}.

Definition sim {A} (x y : outcome Er A) : Prop :=
  y <> Panic ArithOverflow /\ (x = Panic ArithOverflow \/ x = y).

Definition sim_st {A S} (x y : outcome Er A * S) : Prop :=
  y.1 <> Panic ArithOverflow /\ (x.1 = Panic ArithOverflow \/ x = y).

Lemma sim_agree {A} (x y : outcome Er A) : sim x y -> agree x y.
Proof.
move=> [n h]; split=> //; split=> [ne|->]; last by move=> e; apply: n.
by case: h.
Qed.

Lemma sim_agree_st {A S} (x y : outcome Er A * S) : sim_st x y -> agree_st x y.
Proof.
move=> [n h]; split=> //; split=> [ne|e exy]; first by case: h.
by apply: n; rewrite -exy.
Qed.

Lemma sim_st1 {A S} (x y : outcome Er A * S) : sim_st x y -> sim x.1 y.1.
Proof. by move=> [n [h|->]]; split=> //; [left|right]. Qed.

Lemma sim_pair {A S} (x y : outcome Er A) (s : S) : sim x y -> sim_st (x, s) (y, s).
Proof. by move=> [n [->|->]]; split=> //; [left|right]. Qed.

Lemma sim_Ok {A} (a : A) : sim (Ok a) (Ok a).
Proof. by split=> //; right. Qed.

Lemma sim_Err {A} (e : Er) : sim (Err e : outcome Er A) (Err e).
Proof. by split=> //; right. Qed.

Lemma sim_Panic {A} p : p <> ArithOverflow -> sim (Panic p : outcome Er A) (Panic p).
Proof. by move=> h; split; [case|right]. Qed.

Lemma sim_bind {A B} (x y : outcome Er A) (f g : A -> outcome Er B) :
  sim x y -> (forall a, y = Ok a -> sim (f a) (g a)) -> sim (obind x f) (obind y g).
Proof.
move=> [n h] fg; split.
  by case: y n fg {h} => [a _ fg|//|p n _ /= [e]]; [exact: (fg a erefl).1|apply: n; rewrite e].
case: h => [->|->]; first by left.
by case: y n fg => [a _ fg|e|p] /=; [exact: (fg a erefl).2|right|right].
Qed.

Lemma nov_bind {A B} (y : outcome Er A) (g : A -> outcome Er B) :
  y <> Panic ArithOverflow -> (forall a, g a <> Panic ArithOverflow) ->
  obind y g <> Panic ArithOverflow.
Proof. by case: y => [a|e|p] //= n _ [e]; apply: n; rewrite e. Qed.

Lemma sim_foldM {A B} (f g : A -> B -> outcome Er A) a s :
  (forall a x, sim (f a x) (g a x)) -> sim (foldM f a s) (foldM g a s).
Proof.
move=> fg; elim: s a => [|x s IH] a /=; first exact: sim_Ok.
by apply: sim_bind => // a' _; exact: IH.
Qed.

Lemma sim_mapM {A B} (f g : A -> outcome Er B) s :
  (forall x, sim (f x) (g x)) -> sim (mapM f s) (mapM g s).
Proof.
move=> fg; elim: s => [|x s IH] /=; first exact: sim_Ok.
apply: sim_bind => // y _; apply: sim_bind => // ys _; exact: sim_Ok.
Qed.

Lemma sim_index {A} (v : seq A) i : sim (index v i : outcome Er A) (index v i).
Proof. by rewrite /index; case: drop => [|x _]; [exact: sim_Panic|exact: sim_Ok]. Qed.

Lemma sim_inverse q (x : 'F_q) : sim (inverse_unwrap x : outcome Er _) (inverse_unwrap x).
Proof. by rewrite /inverse_unwrap; case: ifP => _; [exact: sim_Panic|exact: sim_Ok]. Qed.

Lemma sim_unwrap_opt {A} (o : option A) : sim (unwrap_opt o : outcome Er A) (unwrap_opt o).
Proof. by case: o => [a|]; [exact: sim_Ok|exact: sim_Panic]. Qed.

Lemma sim_ok_or {A} (o : option A) (e : Er) : sim (ok_or o e) (ok_or o e).
Proof. by case: o => [a|]; [exact: sim_Ok|exact: sim_Err]. Qed.

Lemma sim_add x y : sim (u64_add Debug x y : outcome Er N) (u64_add Release x y).
Proof. by rewrite /u64_add; case: ifP => _; split=> //; [right|left]. Qed.

Lemma sim_sub x y : sim (u64_sub Debug x y : outcome Er N) (u64_sub Release x y).
Proof. by rewrite /u64_sub; case: ifP => _; split=> //; [right|left]. Qed.

End Rules.

Lemma sim_unwrap {Er Er' A} (x y : outcome Er A) : sim x y -> sim (unwrap x : outcome Er' A) (unwrap y).
Proof.
move=> [n h]; split; first by case: y n {h} => //= p n [e]; apply: n; rewrite e.
by case: h => ->; [left|right].
Qed.

(** The pieces that do no checked arithmetic. *)
Section Pieces.
Variables (E : engine) (D : eddsa).

Lemma sim_cperp poly num i : sim (@cperp E poly num i) (cperp poly num i).
Proof.
apply: sim_foldM => c j; case: ifP => _; last exact: sim_Ok.
by apply: sim_bind => [|v _]; [exact: sim_inverse|exact: sim_Ok].
Qed.

Lemma sim_dual poly v : sim (@dual_sum E poly v) (dual_sum poly v).
Proof.
apply: sim_foldM => a i; apply: sim_bind => [|c _]; first exact: sim_cperp.
by apply: sim_bind => [|w _]; [exact: sim_index|exact: sim_Ok].
Qed.

Lemma sim_weight {Er} (xs : nat -> outcome Er (Fr E)) t j : (forall k, sim (xs k) (xs k)) ->
  sim (lagrange_weight xs t j) (lagrange_weight xs t j).
Proof.
move=> hx; apply: sim_bind => // xj _; apply: sim_foldM => a k; case: ifP => _; last exact: sim_Ok.
apply: sim_bind => // xk _; apply: sim_bind => [|v _]; [exact: sim_inverse|exact: sim_Ok].
Qed.

Lemma sim_lagrange {V : lmodType (Fr E)} xs (v : seq V) t : (forall k, sim (xs k) (xs k)) ->
  sim (lagrange_sum xs v t) (lagrange_sum xs v t).
Proof.
move=> hx; apply: sim_foldM => a j; apply: sim_bind => [|w _]; first exact: sim_weight.
by apply: sim_bind => [|u _]; [exact: sim_index|exact: sim_Ok].
Qed.

Lemma sim_few len t : sim (too_few Debug len t) (too_few Release len t).
Proof. by apply: sim_bind => [|k _]; [exact: sim_add|exact: sim_Ok]. Qed.

Lemma sim_signed config sp pk : sim (@signed_verify E D sp config pk) (signed_verify D sp config pk).
Proof.
rewrite /signed_verify; apply: sim_bind => [|_ _].
  apply: sim_unwrap; rewrite /decomp_verify /dlk_verify.
  by case: ifP => _; [exact: sim_Err|exact: sim_Ok].
apply: sim_bind => [|_ _]; last exact: sim_Ok.
apply: sim_unwrap; rewrite /signature_verify; apply: sim_bind => [|sg _]; first exact: sim_ok_or.
apply: sim_bind => [|k _]; first exact: sim_ok_or.
by case: ifP => _; [exact: sim_Ok|exact: sim_Err].
Qed.

Lemma sim_core_aggregate c1 c2 : sim (@core_aggregate E c1 c2) (core_aggregate c1 c2).
Proof. by rewrite /core_aggregate; do 4 (case: ifP => _; first exact: sim_Err); exact: sim_Ok. Qed.

(** The functions that do. *)

Lemma sim_poly_rand (R : rng E) d (s : rstate R) :
  sim_st (poly_rand Debug d s) (poly_rand Release d s).
Proof.
rewrite /poly_rand; have := sim_add (Er := pvss_error) d 1.
case: (u64_add Release d 1) => [k|e|p] [n [->|->]].
- by split; [case: ifP => //; case: draw|left].
- by split; [case: ifP => //; case: draw|right].
- by split; [|left].
- by apply: sim_pair; exact: sim_Err.
- by split; [move=> [e]; apply: n; rewrite e|left].
by apply: sim_pair; apply: sim_Panic => e; apply: n; rewrite e.
Qed.

Lemma sim_ensure_degree (R : rng E) (s : rstate R) v t :
  sim_st (ensure_degree Debug s v t) (ensure_degree Release s v t).
Proof.
rewrite /ensure_degree; case: ifP => _; first by apply: sim_pair; exact: sim_Err.
set xD := obind _ _; set xR := obind _ _.
have tail cs : let x := (let! sum := dual_sum cs v in
    if sum != 0 then Err DualCodeError else Ok tt) in sim x x.
  by apply: sim_bind => [|a' _]; [exact: sim_dual|case: ifP => _; [exact: sim_Err|exact: sim_Ok]].
have : sim xD xR by apply: sim_bind => [|a _]; exact: sim_sub.
case: xR => [d|e|p] [n [->|->]] //=.
- split; last by left.
  have [] := sim_poly_rand d s; case: (poly_rand Release d s) => x s' /= np _.
  by apply: nov_bind => // cs; exact: (tail cs).1.
- have [] := sim_poly_rand d s; case: (poly_rand Release d s) => cs s' np.
  case: (poly_rand Debug d s) => cs' s'' /= [->|[-> ->]].
    by split; [apply: nov_bind => // c; exact: (tail c).1|left].
  by apply: sim_pair; apply: sim_bind => [|a _]; [split=> //; right|exact: tail].
- by split; [|left].
- by apply: sim_pair; exact: sim_Err.
- by split; [move=> [e]; apply: n; rewrite e|left].
by apply: sim_pair; apply: sim_Panic => e; apply: n; rewrite e.
Qed.

Lemma sim_simple v t :
  sim (@lagrange_interpolation_simple E Debug v t) (lagrange_interpolation_simple Release v t).
Proof.
apply: sim_bind => [|few _]; first exact: sim_few.
case: ifP => _; first exact: sim_Err.
by apply: sim_lagrange => k; exact: sim_Ok.
Qed.

Lemma sim_g1 v pts t :
  sim (@lagrange_interpolation_g1 E Debug v pts t) (lagrange_interpolation_g1 Release v pts t).
Proof.
apply: sim_bind => [|few _]; first exact: sim_few.
case: ifP => _; first exact: sim_Err.
case: ifP => _; first exact: sim_Err.
by apply: sim_lagrange => k; exact: sim_index.
Qed.

Lemma sim_g2 v pts t :
  sim (@lagrange_interpolation_g2 E Debug v pts t) (lagrange_interpolation_g2 Release v pts t).
Proof.
apply: sim_bind => [|few _]; first exact: sim_few.
case: ifP => _; first exact: sim_Err.
case: ifP => _; first exact: sim_Err.
by apply: sim_lagrange => k; exact: sim_index.
Qed.

Lemma sim_gt v pts t :
  sim (@lagrange_interpolation_gt E Debug v pts t) (lagrange_interpolation_gt Release v pts t).
Proof.
apply: sim_bind => [|few _]; first exact: sim_few.
case: ifP => _; first exact: sim_Err.
case: ifP => _; first exact: sim_Err.
apply: sim_foldM => a j; apply: sim_bind => [|w _].
  apply: sim_weight => k; apply: sim_bind => [|x _]; [exact: sim_index|exact: sim_Ok].
by apply: sim_bind => [|u _]; [exact: sim_index|exact: sim_Ok].
Qed.

Lemma sim_agg x y : sim (@agg_aggregate E Debug x y) (agg_aggregate Release x y).
Proof.
rewrite /agg_aggregate; case: ifP => _; first exact: sim_Err.
apply: sim_bind => [|m _].
  apply: sim_mapM => i; rewrite /merge_contribution.
  case: (bt_get _ i) => [[a w]|]; case: (bt_get _ i) => [[a' w']|]; try exact: sim_Ok.
  case: ifP => _; first exact: sim_Err.
  by apply: sim_bind => [|k _]; [exact: sim_add|exact: sim_Ok].
apply: sim_bind => [|c _]; last exact: sim_Ok.
by apply: sim_unwrap; exact: sim_core_aggregate.
Qed.

Lemma sim_core_verify (R : rng E) ag (s : rstate R) dp core :
  sim_st (core_verify Debug ag s dp core) (core_verify Release ag s dp core).
Proof.
rewrite /core_verify; case: ifP => _; first by apply: sim_pair; exact: sim_Err.
set t := cfg_degree _.
have tail : sim (obind (unwrap (lagrange_interpolation_simple Debug (comms core) t))
                   (fun point => if point != dp_gs dp then Err GSCheckError else Ok tt))
                (obind (unwrap (lagrange_interpolation_simple Release (comms core) t))
                   (fun point => if point != dp_gs dp then Err GSCheckError else Ok tt)).
  apply: sim_bind => [|a _]; first by apply: sim_unwrap; exact: sim_simple.
  by case: ifP => _; [exact: sim_Err|exact: sim_Ok].
have [] := sim_ensure_degree s (comms core) t.
case: (ensure_degree Release _ _ _) => dR sR; case: (ensure_degree Debug _ _ _) => dD sD /= n [->|[-> ->]].
  split; last by left.
  by case: dR n => [u _|e _|p n] //=; exact: tail.1.
by apply: sim_pair; case: dR n => [u _|e _|p n] //; [exact: sim_Err|split=> //; right].
Qed.

Lemma sim_share_verify (R : rng E) ag (s : rstate R) sh :
  sim_st (share_verify D Debug ag s sh) (share_verify D Release ag s sh).
Proof.
rewrite /share_verify; set x := obind _ _.
have : sim x x.
  apply: sim_bind => [|p _]; first exact: sim_ok_or.
  apply: sim_bind => [|c _]; first exact: sim_index.
  apply: sim_bind => [|e _]; first exact: sim_index.
  by case: ifP => _; [exact: sim_Err|exact: sim_Ok].
case: x => [p|e|p] [n _]; last by apply: sim_pair; apply: sim_Panic => e; apply: n; rewrite e.
  2: by apply: sim_pair; exact: sim_Err.
have tail : let f (_ : unit) := match @signed_verify E D (sh_signed_proof sh) (ag_config ag) (pa_public_key_ed p) with
       | Err _ => Err InvalidSignedProofError
       | Panic p => Panic p
       | Ok _ => Ok tt
       end in forall a, sim (f a : outcome pvss_error unit) (f a).
  move=> f a; rewrite /f {f a}; have [] := sim_signed (ag_config ag) (sh_signed_proof sh) (pa_public_key_ed p).
  case: signed_verify => [a|e|p'] n' _; [exact: sim_Ok|exact: sim_Err|].
  by apply: sim_Panic => e; apply: n'; rewrite e.
have [] := sim_core_verify ag s (sp_decomp_proof (sh_signed_proof sh)) (sh_pvss_core sh).
case: (core_verify Release _ _ _ _) => dR sR.
case: (core_verify Debug _ _ _ _) => dD sD /= n' [->|[-> ->]].
  by split; [apply: nov_bind => // a; exact: (tail a).1|left].
by apply: sim_pair; apply: sim_bind => [|a _]; [split=> //; right|exact: tail].
Qed.

Lemma sim_aggregation_verify (R : rng E) ag (s : rstate R) x :
  sim_st (aggregation_verify D Debug ag s x) (aggregation_verify D Release ag s x).
Proof.
rewrite /aggregation_verify; case: ifP => _; first by apply: sim_pair; exact: sim_Err.
set t := cfg_degree _.
have [] := sim_ensure_degree s (comms (as_pvss_core x)) t.
have tail r : sim
   (let! acc := encryption_pairs ag r (as_pvss_core x) in
         let: (epsilon, pairs) := acc in
         if product_of_pairings (rcons pairs (- epsilon, srs_g2 (cfg_srs (ag_config ag)))) != 1
         then Err EncryptionCorrectnessError
         else
           let! point := unwrap (lagrange_interpolation_simple Debug (comms (as_pvss_core x)) t) in
           let! gs_total := contributions_total D ag (as_contributions x) in
           if gs_total != point then Err AggregationReconstructionMismatchError else Ok tt)
   (let! acc := encryption_pairs ag r (as_pvss_core x) in
         let: (epsilon, pairs) := acc in
         if product_of_pairings (rcons pairs (- epsilon, srs_g2 (cfg_srs (ag_config ag)))) != 1
         then Err EncryptionCorrectnessError
         else
           let! point := unwrap (lagrange_interpolation_simple Release (comms (as_pvss_core x)) t) in
           let! gs_total := contributions_total D ag (as_contributions x) in
           if gs_total != point then Err AggregationReconstructionMismatchError else Ok tt).
  apply: sim_bind => [|[eps prs] _].
    apply: sim_foldM => -[eps prs] i; apply: sim_bind => [|e _]; first exact: sim_index.
    apply: sim_bind => [|p _]; first exact: sim_unwrap_opt.
    by apply: sim_bind => [|c _]; [exact: sim_index|exact: sim_Ok].
  case: ifP => _; first exact: sim_Err.
  apply: sim_bind => [|P _]; first by apply: sim_unwrap; exact: sim_simple.
  apply: sim_bind => [|Q _]; last by case: ifP => _; [exact: sim_Err|exact: sim_Ok].
  apply: sim_foldM => a [i [c w]]; apply: sim_bind => [|p _]; first exact: sim_unwrap_opt.
  apply: sim_bind => [|_ _]; last exact: sim_Ok.
  have [] := sim_signed (ag_config ag) c (pa_public_key_ed p).
  case: signed_verify => [u|e|p'] n' _; [exact: sim_Ok|exact: sim_Err|].
  by apply: sim_Panic => e; apply: n'; rewrite e.
case: (ensure_degree Release _ _ _) => dR sR; case: (ensure_degree Debug _ _ _) => dD sD /= n [->|[-> ->]].
  split; last by left.
  by case: dR n => [u _|e _|p n] //=; case: (rand_fr sR) => r s'; exact: (tail r).1.
case: dR n => [u _|e _|p n] //; first by case: (rand_fr sR) => r s'; apply: sim_pair; exact: tail.
  by apply: sim_pair; exact: sim_Err.
by apply: sim_pair; split=> //; right.
Qed.

Lemma sim_share_pvss (R : rng E) node (s : rstate R) :
  sim_st (share_pvss Debug node s) (share_pvss Release node s).
Proof.
rewrite /share_pvss; set t := N.of_nat (cfg_degree _).
set n := cfg_num_participants _.
pose body b poly : outcome pvss_error (PVSSCore E * PVSSShareSecrets E) :=
  (let! last := u64_sub b (N.of_nat n) 1%num in
   let! comms := mapM (fun j => let! e := index [seq evaluate poly j%:R | j <- iota 1 n] j in
                                Ok (e *: srs_g2 (cfg_srs (ag_config (nd_aggregator node)))))
                      (iota 0 (N.to_nat last).+1) in
   let! encs := mapM (fun j => let! p := ok_or (bt_get (ag_participants (nd_aggregator node)) j)
                                               (InvalidParticipantId j) in
                               let! e := index [seq evaluate poly j%:R | j <- iota 1 n] j in
                               Ok (e *: pa_public_key_sig p))
                     (iota 0 (N.to_nat last).+1) in
   let! mine := index [seq evaluate poly j%:R | j <- iota 1 n] (pa_id (de_participant (nd_dealer node))) in
   let! p_0 := index poly 0 in
   Ok (MkCore encs comms, MkSecrets p_0 (mine *: srs_g1 (cfg_srs (ag_config (nd_aggregator node)))))).
have tail poly : sim (body Debug poly) (body Release poly).
  apply: sim_bind => [|l _]; first exact: sim_sub.
  apply: sim_bind => [|c _].
    by apply: sim_mapM => j; apply: sim_bind => [|e _]; [exact: sim_index|exact: sim_Ok].
  apply: sim_bind => [|c' _].
    apply: sim_mapM => j; apply: sim_bind => [|p _]; first exact: sim_ok_or.
    by apply: sim_bind => [|e _]; [exact: sim_index|exact: sim_Ok].
  apply: sim_bind => [|m _]; first exact: sim_index.
  by apply: sim_bind => [|p0 _]; [exact: sim_index|exact: sim_Ok].
have [] := sim_poly_rand t s.
case: (poly_rand Release t s) => dR sR; case: (poly_rand Debug t s) => dD sD /= n' [->|[-> ->]].
  by split; [apply: nov_bind => // a; exact: (tail a).1|left].
by apply: sim_pair; apply: sim_bind => [|a _]; [split=> //; right|exact: tail].
Qed.

Lemma sim_share (R : rng E) node (s : rstate R) :
  sim_st (share D Debug node s) (share D Release node s).
Proof.
rewrite /share.
have tail dp core : sim
  (let! sig := signature_new D (@decomp_digest E dp) (de_private_key_ed (nd_dealer node)) in
       Ok (MkShare (pa_id (de_participant (nd_dealer node))) core (MkSigned dp sig)))
  (let! sig := signature_new (Er := pvss_error) D (decomp_digest dp) (de_private_key_ed (nd_dealer node)) in
       Ok (MkShare (pa_id (de_participant (nd_dealer node))) core (MkSigned dp sig))).
  apply: sim_bind => [|sg _]; last exact: sim_Ok.
  by rewrite /signature_new; case: ed_keypair_from_bytes => [kp|]; [exact: sim_Ok|exact: sim_Panic].
have [] := sim_share_pvss node s.
case: (share_pvss Release node s) => dR sR; case: (share_pvss Debug node s) => dD sD /= n [->|[-> ->]].
  split; last by left.
  case: dR n => [[c ss] _|e _|p n] //=; last by case=> e; apply: n; rewrite e.
  by rewrite /decomp_generate; case: dlk_prove => pr s' /=; exact: (tail _ _).1.
case: dR n => [[c ss] _|e _|p n] //.
- by rewrite /decomp_generate; case: dlk_prove => pr s' /=; apply: sim_pair; exact: tail.
- by apply: sim_pair; exact: sim_Err.
by apply: sim_pair; apply: sim_Panic => e; apply: n; rewrite e.
Qed.

End Pieces.

(** ** C78 *)

Section Statements.
Variables (E : engine) (D : eddsa).

(** The outcomes of the calls of a history, in order. *)
Fixpoint results b (ag : PVSSAggregator E) (h : seq (call E)) : seq (outcome pvss_error unit) :=
  if h is c :: h' then (receive D b ag c).1 :: results b (receive D b ag c).2 h' else [::].

(** Merging [y] into [x] meets a sum of weights of [2^64] or more, and no conflict before. *)
Definition overflows (x y : PVSSAggregatedShare E) : Prop :=
  [/\ as_degree x = as_degree y, as_num_participants x = as_num_participants y
    & exists i sp w sp' w',
        [/\ (i < as_num_participants x)%N, bt_get (as_contributions x) i = Some (sp, w),
            bt_get (as_contributions y) i = Some (sp', w'), (2 ^ 64 <= w + w')%num
          & forall j tp u tp' u', (j <= i)%N -> bt_get (as_contributions x) j = Some (tp, u) ->
              bt_get (as_contributions y) j = Some (tp', u') ->
              dp_gs (sp_decomp_proof tp) = dp_gs (sp_decomp_proof tp')]].

(** The message as the transcript that is merged. *)
Definition as_transcript (ag : PVSSAggregator E) (m : message E) : PVSSAggregatedShare E :=
  match m with
  | MsgShare sh => MkAgg (as_num_participants (ag_aggregated_tx ag))
                     (as_degree (ag_aggregated_tx ag)) (sh_pvss_core sh)
                     (bt_insert bt_new (sh_participant_id sh) (sh_signed_proof sh, 1%num))
  | MsgTranscript y => y
  end.

(** The release build verifies the message of the call. *)
Definition verifies (ag : PVSSAggregator E) (c : call E) : Prop :=
  match call_msg c with
  | MsgShare sh => (share_verify D Release ag (call_state c) sh).1 = Ok tt
  | MsgTranscript y => (aggregation_verify D Release ag (call_state c) y).1 = Ok tt
  end.

(** Every function of the crate that adds or subtracts integers: the release build never
    reports an overflow, and it answers as the debug build does, and leaves the same state,
    unless that one panics with an overflow. *)
Theorem C78_functions (R : rng E) (s : rstate R) (t : nat) :
  [/\ forall v, agree_st (ensure_degree Debug s v t) (ensure_degree Release s v t),
      [/\ forall v, agree (@lagrange_interpolation_simple E Debug v t)
                      (lagrange_interpolation_simple Release v t),
          forall v pts, agree (@lagrange_interpolation_g1 E Debug v pts t)
                          (lagrange_interpolation_g1 Release v pts t),
          forall v pts, agree (@lagrange_interpolation_g2 E Debug v pts t)
                          (lagrange_interpolation_g2 Release v pts t)
        & forall v pts, agree (@lagrange_interpolation_gt E Debug v pts t)
                          (lagrange_interpolation_gt Release v pts t)],
      forall x y, agree (@agg_aggregate E Debug x y) (agg_aggregate Release x y),
      forall node, agree_st (share D Debug node s) (share D Release node s)
    & forall ag, (forall sh, agree_st (share_verify D Debug ag s sh) (share_verify D Release ag s sh)) /\
        (forall y, agree_st (aggregation_verify D Debug ag s y) (aggregation_verify D Release ag s y)) ].
Proof.
split.
- by move=> v; apply/sim_agree_st/sim_ensure_degree.
- by split=> v *; apply: sim_agree; [exact: sim_simple|exact: sim_g1|exact: sim_g2|exact: sim_gt].
- by move=> x y; apply/sim_agree/sim_agg.
- by move=> node; apply/sim_agree_st/sim_share.
by move=> ag; split=> x; apply: sim_agree_st; [exact: sim_share_verify|exact: sim_aggregation_verify].
Qed.

Lemma sim_receive (ag : PVSSAggregator E) (c : call E) : sim_st (receive D Debug ag c) (receive D Release ag c).
Proof.
case: c => m R s; rewrite /receive /=; case: m => [sh|y] /=.
  rewrite /receive_share; have [] := sim_share_verify D ag s sh.
  case: (share_verify D Release _ _ _) => vR sR.
  case: (share_verify D Debug _ _ _) => vD sD /= n h.
  set xD := obind _ _; set xR := obind _ _.
  have sim_x : sim xD xR.
    apply: sim_bind => [|_ _]; last exact: sim_agg.
    by apply: sim_unwrap; split=> //; case: h => [->|[-> _]]; [left|right].
  by case: xR sim_x => [x|e|p] [nR [->|->]] /=; split; try (by left); try (by right); move=> // -[e]; apply: nR; rewrite e.
rewrite /receive_aggregated_share; have [] := sim_aggregation_verify D ag s y.
case: (aggregation_verify D Release _ _ _) => vR sR.
case: (aggregation_verify D Debug _ _ _) => vD sD /= n h.
set xD := obind _ _; set xR := obind _ _.
have sim_x : sim xD xR.
  apply: sim_bind => [|_ _]; last by apply: sim_unwrap; exact: sim_agg.
  by apply: sim_unwrap; split=> //; case: h => [->|[-> _]]; [left|right].
by case: xR sim_x => [x|e|p] [nR [->|->]] /=; split; try (by left); try (by right); move=> // -[e]; apply: nR; rewrite e.
Qed.

(** So do whole histories, over any messages and generators. *)
Theorem C78_histories (ag : PVSSAggregator E) (h : seq (call E)) :
  ~ List.In (Panic ArithOverflow) (results Release ag h) /\
  (~ List.In (Panic ArithOverflow) (results Debug ag h) ->
   results Debug ag h = results Release ag h /\ run D Debug ag h = run D Release ag h).
Proof.
elim: h ag => [|c h IH] ag /=; first by split=> //; case.
have [n e] := sim_receive ag c; have [IH1 _] := IH (receive D Release ag c).2; split; first by case.
move=> nin; case: e => [e|e]; first by case: nin; left.
rewrite e in nin *.
by have [-> ->] := (IH (receive D Release ag c).2).2 (fun i => nin (or_intror i)).
Qed.

Lemma agg_overflow x y : @agg_aggregate E Debug x y = Panic ArithOverflow <-> overflows x y.
Proof.
rewrite /agg_aggregate; case: ifP => [/orP ne|/negbT]; last rewrite negb_or !negbK.
  by split=> // -[ed en _]; case: ne => /eqP.
move=> /andP[/eqP ed /eqP en]; set cx := as_contributions x; set cy := as_contributions y.
set n := as_num_participants x.
have core m : (let! c := unwrap (core_aggregate (as_pvss_core x) (as_pvss_core y)) in
   Ok (MkAgg n (as_degree x) c (bt_collect (pmap id m)))) <> Panic ArithOverflow :> outcome pvss_error _.
  have [] := sim_core_aggregate (as_pvss_core x) (as_pvss_core y).
  by case: core_aggregate => //= p np _ [e]; apply: np; rewrite e.
have [ok|[i [li bad before]]] := AggProofs.first_bad Debug cx cy n.
  have := merge_all_ok ok; case: mapM => // m _; rewrite obindE; split=> [/core //|].
  case=> _ _ [i [sp [w [sp' [w' [li gx gy ov eqs]]]]]].
  have := ok i li; rewrite gx gy /= /gs_of (eqs i sp w sp' w') // eqxx /= u64_add_debug /u64_bound.
  by case: N.ltb_spec => // ?; lia.
have H := merge_fail li before; split.
  move=> e; split=> //; move: bad H e.
  case gx: (bt_get cx i) => [[sp w]|]; case gy: (bt_get cy i) => [[sp' w']|] //=.
  case: ifP => [_ _ /= -> //|/negbFE/eqP egs]; rewrite u64_add_debug /u64_bound.
  case: N.ltb_spec => // ov _ _ _; exists i, sp, w, sp', w'; split=> // j tp u tp' u'.
  rewrite leq_eqVlt => /predU1P[-> | ji]; first by rewrite gx gy => -[<- _] [<- _].
  by move=> gx' gy'; have := before j ji; rewrite gx' gy' /=; case: ifP => // /negbFE/eqP.
case=> _ _ [k [sp [w [sp' [w' [lk gx gy ov eqs]]]]]].
have ik : (i <= k)%N.
  rewrite leqNgt; apply/negP => ki; have := before k ki; rewrite gx gy /= /gs_of (eqs k sp w sp' w') //.
  by rewrite eqxx /= u64_add_debug /u64_bound; case: N.ltb_spec => // ?; lia.
move: bad H; case gx': (bt_get cx i) => [[tp u]|]; case gy': (bt_get cy i) => [[tp' u']|] //=.
rewrite /gs_of (eqs i tp u tp' u') // eqxx /= u64_add_debug /u64_bound.
by case: N.ltb_spec => //= _ _ ->.
Qed.

Lemma same_sub x y : (y <= x)%num -> u64_sub Debug x y = u64_sub Release x y :> outcome pvss_error N.
Proof. by rewrite /u64_sub; case: N.leb_spec => // ? ?; lia. Qed.

Lemma same_add x y : (x + y < 2 ^ 64)%num -> u64_add Debug x y = u64_add Release x y :> outcome pvss_error N.
Proof. by rewrite /u64_add /u64_bound; case: N.ltb_spec => // ? ?; lia. Qed.

Lemma same_ensure (R : rng E) (s : rstate R) v t : (t.+2 <= size v)%N -> fits (size v) ->
  ensure_degree Debug s v t = ensure_degree Release s v t.
Proof.
move=> lt ft; rewrite /ensure_degree; case: ifP => // _.
rewrite same_sub; last by lia.
have -> : u64_sub Release (N.of_nat (size v)) (N.of_nat t) = Ok (N.of_nat (size v - t)) :> outcome pvss_error N.
  by rewrite /u64_sub; case: N.leb_spec => ?; [congr Ok|]; lia.
rewrite !obindE same_sub; last by lia.
have -> : u64_sub Release (N.of_nat (size v - t)) 2 = Ok (N.of_nat (size v - t - 2)) :> outcome pvss_error N.
  by rewrite /u64_sub; case: N.leb_spec => ?; [congr Ok|]; lia.
by rewrite /poly_rand same_add //; move: ft; rewrite /fits; lia.
Qed.

Lemma same_simple v t : (N.of_nat t + 1 < 2 ^ 64)%num ->
  @lagrange_interpolation_simple E Debug v t = lagrange_interpolation_simple Release v t.
Proof. by move=> ft; rewrite /lagrange_interpolation_simple /too_few same_add. Qed.

Lemma config_u64 (config : Config E) : config_ok config -> (N.of_nat (cfg_degree config) + 1 < 2 ^ 64)%num.
Proof. by case; rewrite /fits; lia. Qed.

Lemma same_share_verify (R : rng E) ag (s : rstate R) sh : config_ok (ag_config ag) ->
  share_verify D Debug ag s sh = share_verify D Release ag s sh.
Proof.
move=> cok; rewrite /share_verify /core_verify; case: (obind _ _) => // p.
case: ifP => // /negbT; rewrite negb_or !negbK => /andP[_ /eqP sz].
by case: (cok) => ? ? ?; rewrite same_ensure ?sz // same_simple //; exact: config_u64.
Qed.

Lemma same_aggregation_verify (R : rng E) ag (s : rstate R) x : config_ok (ag_config ag) ->
  aggregation_verify D Debug ag s x = aggregation_verify D Release ag s x.
Proof.
move=> cok; rewrite /aggregation_verify.
case: ifP => // /negbT; rewrite negb_or !negbK => /andP[_ /eqP sz].
by case: (cok) => ? ? ?; rewrite same_ensure ?sz // same_simple //; exact: config_u64.
Qed.

(** In a proper configuration, where exactly the two builds part: the message verifies and
    a weight reaches [2^64]. *)
Theorem C78_exact (ag : PVSSAggregator E) (c : call E) : config_ok (ag_config ag) ->
  receive D Debug ag c <> receive D Release ag c <->
  verifies ag c /\ overflows (ag_aggregated_tx ag) (as_transcript ag (call_msg c)).
Proof.
move=> cok; have [nR hR] := sim_receive ag c.
have -> : receive D Debug ag c <> receive D Release ag c <-> (receive D Debug ag c).1 = Panic ArithOverflow.
  by split=> [ne|e e']; [case: hR|apply: nR; rewrite -e'].
rewrite -agg_overflow /verifies; case: c {nR hR} => m R s; rewrite /receive /=; case: m => [sh|y] /=.
  rewrite /receive_share same_share_verify //.
  have [] := sim_share_verify D ag s sh; case: (share_verify D Release _ _ _) => -[[]|e|p] s' /= n _.
  - rewrite /agg_aggregate_pvss_share; case: agg_aggregate => [z|e|p] /=; by [split=> // -[]|split=> [[->]|[_ [->]]]].
  - by split=> // -[].
  by split=> [[e]|[]] //; case: n; rewrite e.
rewrite /receive_aggregated_share same_aggregation_verify //.
have [] := sim_aggregation_verify D ag s y; case: (aggregation_verify D Release _ _ _) => -[[]|e|p] s' /= n _.
- case: agg_aggregate => [z|e|p] /=; by [split=> // -[]|split=> [[->]|[_ [->]]]].
- by split=> // -[].
by split=> [[e]|[]] //; case: n; rewrite e.
Qed.

End Statements.
Print Assumptions C78_functions.
Print Assumptions C78_histories.
Print Assumptions C78_exact.

(** A share of a dealer whose weight is at the limit: the builds part.  On the transcript of a
    new aggregator they do not. *)
Definition tfull : PVSSAggregator TE :=
  set_tx tag (MkAgg 4 1 (core_empty TE 4) (bt_insert bt_new 2%N (sh_signed_proof sh2, (2 ^ 64 - 1)%num))).
Definition tcall : call TE := @Call TE (MsgShare sh2) (seq_rng TE) [:: f 1; f 9; f 3].
Example C78_example :
  [/\ config_ok (ag_config tfull), verifies TD tfull tcall,
      overflows (ag_aggregated_tx tfull) (as_transcript tfull (call_msg tcall)),
      verifies TD tag tcall
    & ~ overflows (ag_aggregated_tx tag) (as_transcript tag (call_msg tcall))].
Proof.
have ok : config_ok (ag_config tfull) by [].
have e2 : sh_participant_id sh2 = 2%N by vm_compute.
have v : (@share_verify TE TD Release (seq_rng TE) tag [:: f 1; f 9; f 3] sh2).1 = Ok tt by vm_compute.
have v' : (@share_verify TE TD Release (seq_rng TE) tfull [:: f 1; f 9; f 3] sh2).1 = Ok tt by vm_compute.
split; [exact: ok|exact: v'| |exact: v|].
- split; [reflexivity|reflexivity|].
  exists 2%N, (sh_signed_proof sh2), (2 ^ 64 - 1)%num, (sh_signed_proof sh2), 1%num.
  split; [reflexivity|by rewrite bt_get1 eqxx|by rewrite bt_get1 e2 eqxx|lia|].
  move=> j tp u tp' u' _; rewrite !bt_get1 e2; case: eqP => [_|_]; last by [].
  by move=> [<- _] [<- _].
by case=> _ _ [i [sp [w [sp' [w' [_ + _ _ _]]]]]]; rewrite bt_get_new.
Qed.
