(** * PropsCost: property C107, the work a message can cause at the aggregator *)

From Coq Require Import NArith.
From mathcomp Require Import all_ssreflect all_algebra zify.
From Verif Require Import Prelude Errors BTreeMap Engine LibModel PolyModel SigmaModel PvssModel
  Spec PreludeProofs AlgebraProofs PolyProofs PvssProofs AggProofs HistProofs CodecModel CodecSpec
  CodecProofs Instance PropsAgg PropsHist PropsAttack PropsNet PropsCodec PropsWire
  PropsWork.

Set Implicit Arguments.
Unset Strict Implicit.
Unset Printing Implicit Defensive.

Import GRing.Theory.
Local Open Scope ring_scope.

(** ** Computations that count

    An outcome together with the number of steps taken.  A step is one operation of the
    field, of a group or of the target group, one pairing, hash or signature operation, one
    draw, one comparison, one access to a vector or a map.  Code without a loop is paid for in
    full, also when it leaves early. *)
Section Cost.

Definition cost (A : Type) : Type := (nat * outcome pvss_error A)%type.

Definition pay A (k : nat) (o : outcome pvss_error A) : cost A := (k, o).

(** First one computation, then, if it came through, another. *)
Definition andthen A B (m : cost A) (k : A -> cost B) : cost B :=
  match m.2 with
  | Ok a => ((m.1 + (k a).1)%N, (k a).2)
  | Err e => (m.1, Err e)
  | Panic p => (m.1, Panic p)
  end.

(** [foldM] and [mapM] of Prelude.v. *)
Fixpoint loop A B (f : A -> B -> cost A) (acc : A) (xs : seq B) : cost A :=
  if xs is x :: xs' then andthen (f acc x) (fun acc' => loop f acc' xs') else pay 0 (Ok acc).
Fixpoint maploop A B (f : A -> cost B) (xs : seq A) : cost (seq B) :=
  if xs is x :: xs' then
    andthen (f x) (fun y => andthen (maploop f xs') (fun ys => pay 0 (Ok (y :: ys))))
  else pay 0 (Ok [::]).

(** The same steps, with another error. *)
Definition retag A (f : outcome pvss_error A -> outcome pvss_error A) (m : cost A) : cost A :=
  (m.1, f m.2).

Lemma andthen_snd A B (m : cost A) (k : A -> cost B) :
  (andthen m k).2 = let! a := m.2 in (k a).2.
Proof. by rewrite /andthen; case: (m.2). Qed.

Lemma andthen_le A B (m : cost A) (k : A -> cost B) x y :
  (m.1 <= x)%N -> (forall a, m.2 = Ok a -> (k a).1 <= y)%N -> ((andthen m k).1 <= x + y)%N.
Proof.
move=> mx ky; rewrite /andthen; case e: (m.2) => [a|er|p] /=.
- by apply: leq_add => //; exact: ky.
- exact: leq_trans mx (leq_addr _ _).
exact: leq_trans mx (leq_addr _ _).
Qed.

Lemma obind_ext A B (m : outcome pvss_error A) (f g : A -> outcome pvss_error B) :
  (forall a, f a = g a) -> obind m f = obind m g.
Proof. by move=> e; case: m => //= a; rewrite e. Qed.

Lemma loop_snd A B (f : A -> B -> cost A) g acc xs :
  (forall acc x, (f acc x).2 = g acc x) -> (loop f acc xs).2 = foldM g acc xs.
Proof.
move=> e; elim: xs acc => [//|x xs IH] acc /=; rewrite andthen_snd e.
by apply: obind_ext => a.
Qed.

Lemma maploop_snd A B (f : A -> cost B) g xs :
  (forall x, (f x).2 = g x) -> (maploop f xs).2 = mapM g xs.
Proof.
move=> e; elim: xs => [//|x xs IH] /=; rewrite andthen_snd e.
by apply: obind_ext => a; rewrite andthen_snd IH.
Qed.

Lemma loop_le A B (f : A -> B -> cost A) acc xs k :
  (forall acc x, (f acc x).1 <= k)%N -> ((loop f acc xs).1 <= size xs * k)%N.
Proof.
move=> le; elim: xs acc => [//|x xs IH] acc /=; rewrite mulSn.
by apply: andthen_le => // a _; exact: IH.
Qed.

Lemma maploop_le A B (f : A -> cost B) xs k :
  (forall x, (f x).1 <= k)%N -> ((maploop f xs).1 <= size xs * k)%N.
Proof.
move=> le; elim: xs => [//|x xs IH] /=; rewrite mulSn.
apply: andthen_le => // a _; rewrite -[(size xs * k)%N]addn0.
by apply: andthen_le => // b _.
Qed.

(** A loop that fails on the first element outside [P] gets no further. *)
Lemma loop_stop A B (P : pred B) (f : A -> B -> cost A) acc xs k :
  (forall acc x, (f acc x).1 <= k)%N -> (forall acc x, ~~ P x -> ~~ is_ok (f acc x).2) ->
  ((loop f acc xs).1 <= (find (predC P) xs).+1 * k)%N.
Proof.
move=> le st; elim: xs acc => [//|x xs IH] acc /=; case: ifP => /= [/(st acc)|_].
  rewrite mul1n /andthen; move: (le acc x); by case: (f acc x) => c [].
by rewrite mulSn; apply: andthen_le => // a _; exact: IH.
Qed.

End Cost.

Section Counted.

Variable E : engine.
Variable D : eddsa.
Variable b : build.

Implicit Types (ag : PVSSAggregator E) (core : PVSSCore E).

(** ** poly.rs *)

(** [poly_rand]: the draws, and the scan for leading zeros. *)
Definition c_poly_rand (R : rng E) (d : N) (s : rstate R) : cost (seq (Fr E)) * rstate R :=
  match u64_add b d 1%num with
  | Ok k =>
      if vec_fits 32 k then
        let: (cs, s') := draw (N.to_nat k) s in (pay (2 + 2 * N.to_nat k) (Ok (truncate cs)), s')
      else (pay 2 (Panic CapacityOverflow), s)
  | Err e => (pay 2 (Err e), s)
  | Panic p => (pay 2 (Panic p), s)
  end.

(** [cperp]: [evaluate] scans for zero coefficients, then multiplies and adds. *)
Definition c_cperp (poly : seq (Fr E)) (num i : nat) : cost (Fr E) :=
  andthen (pay (1 + 3 * size poly) (Ok (evaluate poly i%:R))) (fun c0 =>
  loop (fun c j => pay 4 (if i != j
                          then let! v := inverse_unwrap (i%:R - j%:R) in Ok (c * v)
                          else Ok c)) c0 (iota 1 num)).

Definition c_dual_sum (poly : seq (Fr E)) (evals : seq (Com E)) : cost (Com E) :=
  loop (fun sum i => andthen (c_cperp poly (size evals) i) (fun c =>
                     pay 3 (let! v := index evals i.-1 in Ok (sum + c *: v))))
       0 (iota 1 (size evals)).

Definition c_ensure_degree (R : rng E) (s : rstate R) (evals : seq (Com E)) (degree : nat)
  : cost unit * rstate R :=
  let num := size evals in
  if (num < degree)%N then (pay 1 (Err InsufficientEvaluationsError), s)
  else
    match (let! a := u64_sub b (N.of_nat num) (N.of_nat degree) in u64_sub b a 2%num) with
    | Err e => (pay 3 (Err e), s)
    | Panic p => (pay 3 (Panic p), s)
    | Ok d =>
        let: (poly, s') := c_poly_rand d s in
        (andthen (pay 3 (Ok tt)) (fun _ =>
         andthen poly (fun cs =>
         andthen (c_dual_sum cs evals) (fun sum =>
         pay 1 (if sum != 0 then Err DualCodeError else Ok tt)))), s')
    end.

(** [lagrange_interpolation_simple]. *)
Definition c_interpolation (evals : seq (Com E)) (degree : nat) : cost (Com E) :=
  andthen (pay 2 (too_few b (size evals) degree)) (fun few =>
  if few then pay 0 (Err InsufficientEvaluationsError)
  else loop (fun sum j =>
         andthen (loop (fun prod k =>
                    pay 5 (if j != k
                           then let! v := inverse_unwrap (k.+1%:R - j.+1%:R) in
                                Ok (prod * (k.+1%:R * v))
                           else Ok prod)) 1 (iota 0 degree.+1)) (fun w =>
         pay 3 (let! v := index evals j in Ok (sum + w *: v)))) 0 (iota 0 degree.+1)).

(** ** aggregator.rs *)

Definition c_core_verify (R : rng E) ag (s : rstate R) (dp : DecompProof E) core
  : cost unit * rstate R :=
  let n := cfg_num_participants (ag_config ag) in
  let t := cfg_degree (ag_config ag) in
  if (size (encs core) != n) || (size (comms core) != n) then
    (pay 2 (Err (MismatchedCommitsEncryptionsParticipantsError
                   (size (encs core)) (size (comms core)) n)), s)
  else
    let: (deg, s') := c_ensure_degree s (comms core) t in
    (andthen (pay 2 (Ok tt)) (fun _ =>
     andthen (retag (fun o => if o is Err _ then Err DualCodeError else o) deg) (fun _ =>
     andthen (retag unwrap (c_interpolation (comms core) t)) (fun point =>
     pay 1 (if point != dp_gs dp then Err GSCheckError else Ok tt)))), s').

(** [SignedProof::verify] has no loop: a hash, two multiplications, an addition and two
    comparisons for the proof, a digest, two parsings and a check for the signature. *)
Definition c_signed_verify (sp : SignedProof E) (config : Config E) (pk : PublicKey) : cost unit :=
  pay 10 (match signed_verify D sp config pk with
          | Err _ => Err InvalidSignedProofError
          | Panic p => Panic p
          | Ok _ => Ok tt
          end).

Definition c_share_verify (R : rng E) ag (s : rstate R) (sh : PVSSShare E)
  : cost unit * rstate R :=
  let id := sh_participant_id sh in
  let config := ag_config ag in
  let core := sh_pvss_core sh in
  let front := andthen (pay 1 (ok_or (bt_get (ag_participants ag) id) (InvalidParticipantId id)))
    (fun participant =>
     pay 7 (let! comm := index (comms core) id in
            let! enc := index (encs core) id in
            if product_of_pairings [:: (pa_public_key_sig participant, comm);
                                       (- enc, srs_g2 (cfg_srs config))] != 1
            then Err EncryptionCorrectnessError else Ok participant)) in
  match front.2 with
  | Err e => ((front.1, Err e), s)
  | Panic p => ((front.1, Panic p), s)
  | Ok participant =>
      let: (cv, s') := c_core_verify ag s (sp_decomp_proof (sh_signed_proof sh)) core in
      (andthen front (fun _ => andthen cv (fun _ =>
       c_signed_verify (sh_signed_proof sh) config (pa_public_key_ed participant))), s')
  end.

Definition c_encryption_pairs ag (r : Fr E) core : cost (Enc E * seq (Enc E * Com E)) :=
  loop (fun acc i => pay 8 (
           let: (epsilon, pairs) := acc in
           let! enc := index (encs core) i in
           let! participant := unwrap_opt (bt_get (ag_participants ag) i) in
           let! comm := index (comms core) i in
           Ok (epsilon + r *: enc, rcons pairs (r *: pa_public_key_sig participant, comm))))
        (0, [::]) (iota 0 (cfg_num_participants (ag_config ag))).

Definition c_contributions ag (cs : btmap (SignedProof E * N)) : cost (Com E) :=
  loop (fun gs_total (kv : nat * (SignedProof E * N)) =>
          andthen (pay 1 (unwrap_opt (bt_get (ag_participants ag) kv.1))) (fun party =>
          andthen (c_signed_verify kv.2.1 (ag_config ag) (pa_public_key_ed party)) (fun _ =>
          pay 3 (Ok (gs_total + fr_of_u64 (modulus E) kv.2.2 *: dp_gs (sp_decomp_proof kv.2.1))))))
       0 (bt_iter cs).

(** One draw makes the vector of [n] equal scalars; the product takes a pairing and a
    multiplication for each pair. *)
Definition c_aggregation_verify (R : rng E) ag (s : rstate R) (x : PVSSAggregatedShare E)
  : cost unit * rstate R :=
  let config := ag_config ag in
  let n := cfg_num_participants config in
  let core := as_pvss_core x in
  if (size (encs core) != n) || (size (comms core) != n) then
    (pay 2 (Err (MismatchedCommitsEncryptionsParticipantsError
                   (size (encs core)) (size (comms core)) n)), s)
  else
    let: (deg, s') := c_ensure_degree s (comms core) (cfg_degree config) in
    match deg.2 with
    | Err _ => ((2 + deg.1, Err DualCodeError)%N, s')
    | Panic p => ((2 + deg.1, Panic p)%N, s')
    | Ok _ =>
        let: (r, s'') := rand_fr s' in
        (andthen (pay 2 (Ok tt)) (fun _ =>
         andthen deg (fun _ =>
         andthen (pay (1 + n) (Ok tt)) (fun _ =>
         andthen (c_encryption_pairs ag r core) (fun acc =>
         let: (epsilon, pairs) := acc in
         andthen (pay (4 + 2 * size pairs)
           (if product_of_pairings (rcons pairs (- epsilon, srs_g2 (cfg_srs config))) != 1
            then Err EncryptionCorrectnessError else Ok tt)) (fun _ =>
         andthen (retag unwrap (c_interpolation (comms core) (cfg_degree config))) (fun point =>
         andthen (c_contributions ag (as_contributions x)) (fun gs_total =>
         pay 1 (if gs_total != point then Err AggregationReconstructionMismatchError
                else Ok tt)))))))), s'')
    end.

(** ** share.rs: the merge *)

Definition c_aggregate (x y : PVSSAggregatedShare E) : cost (PVSSAggregatedShare E) :=
  if (as_degree x != as_degree y) || (as_num_participants x != as_num_participants y) then
    pay 2 (Err (TranscriptDifferentConfig (as_degree x) (as_degree y)
                  (as_num_participants x) (as_num_participants y)))
  else
    andthen (pay 2 (Ok tt)) (fun _ =>
    andthen (maploop (fun i => pay 5 (merge_contribution b (as_contributions x)
                                        (as_contributions y) i))
               (iota 0 (as_num_participants x))) (fun merged =>
    andthen (pay (4 + size (comms (as_pvss_core y)) + size (encs (as_pvss_core y)))
               (unwrap (core_aggregate (as_pvss_core x) (as_pvss_core y)))) (fun core =>
    pay (size merged)
        (Ok (MkAgg (as_num_participants x) (as_degree x) core (bt_collect (pmap id merged))))))).

Definition c_receive_share (R : rng E) ag (s : rstate R) (sh : PVSSShare E)
  : cost (PVSSAggregatedShare E) * rstate R :=
  let: (v, s') := c_share_verify ag s sh in
  let x := ag_aggregated_tx ag in
  (andthen (retag unwrap v) (fun _ =>
   c_aggregate x (MkAgg (as_num_participants x) (as_degree x) (sh_pvss_core sh)
     (bt_insert bt_new (sh_participant_id sh) (sh_signed_proof sh, 1%num)))), s').

Definition c_receive_aggregated_share (R : rng E) ag (s : rstate R) (y : PVSSAggregatedShare E)
  : cost (PVSSAggregatedShare E) * rstate R :=
  let: (v, s') := c_aggregation_verify ag s y in
  (andthen (retag unwrap v) (fun _ => retag unwrap (c_aggregate (ag_aggregated_tx ag) y)), s').

(** ** They are the functions of the model *)

Lemma poly_rand_count (R : rng E) d (s : rstate R) :
  ((c_poly_rand d s).1.2, (c_poly_rand d s).2) = poly_rand b d s.
Proof.
rewrite /c_poly_rand /poly_rand; case: (u64_add _ _ _) => // k; case: ifP => // _.
by case: (draw _ _).
Qed.

Lemma cperp_count poly num i : (c_cperp poly num i).2 = cperp poly num i.
Proof. by rewrite /c_cperp andthen_snd /=; apply: loop_snd. Qed.

Lemma dual_sum_count poly evals : (c_dual_sum poly evals).2 = dual_sum poly evals.
Proof. by apply: loop_snd => sum i; rewrite andthen_snd cperp_count. Qed.

Lemma ensure_degree_count (R : rng E) (s : rstate R) evals t :
  ((c_ensure_degree s evals t).1.2, (c_ensure_degree s evals t).2) = ensure_degree b s evals t.
Proof.
rewrite /c_ensure_degree /ensure_degree; case: ifP => // _.
case: (let! a := _ in _) => // d; rewrite -poly_rand_count.
case: (c_poly_rand d s) => c s' /=; congr (_, _); rewrite !andthen_snd /=.
by apply: obind_ext => cs; rewrite andthen_snd dual_sum_count.
Qed.

Lemma interpolation_count evals t :
  (c_interpolation evals t).2 = lagrange_interpolation_simple b evals t.
Proof.
rewrite /c_interpolation andthen_snd; apply: obind_ext => -[//|].
apply: loop_snd => sum j; rewrite andthen_snd.
rewrite /lagrange_weight [in RHS]/=; congr obind; exact: loop_snd.
Qed.

Lemma core_verify_count (R : rng E) ag (s : rstate R) dp core :
  ((c_core_verify ag s dp core).1.2, (c_core_verify ag s dp core).2)
  = core_verify b ag s dp core.
Proof.
rewrite /c_core_verify /core_verify; case: ifP => // _; rewrite -ensure_degree_count.
case: (c_ensure_degree _ _ _) => c s' /=; congr (_, _).
rewrite andthen_snd [LHS]/= andthen_snd /=; case: (c.2) => //= _.
by rewrite -interpolation_count andthen_snd.
Qed.

Lemma share_verify_count (R : rng E) ag (s : rstate R) sh :
  ((c_share_verify ag s sh).1.2, (c_share_verify ag s sh).2) = share_verify D b ag s sh.
Proof.
rewrite /c_share_verify /share_verify andthen_snd [(pay _ _).2]/=.
case e: (ok_or _ _) => [pa|//|//]; rewrite [LHS]/= [RHS]/=.
case e': (let! comm := _ in _) => [pa'|//|//]; rewrite -core_verify_count.
case: (c_core_verify _ _ _ _) => c s' /=; congr (_, _).
by rewrite !andthen_snd /= e' /=.
Qed.

Lemma encryption_pairs_count ag r core :
  (c_encryption_pairs ag r core).2 = encryption_pairs ag r core.
Proof. by apply: loop_snd => -[]. Qed.

Lemma contributions_count ag cs : (c_contributions ag cs).2 = contributions_total D ag cs.
Proof.
by apply: loop_snd => gs [i [sp w]]; rewrite andthen_snd; apply: obind_ext => pa; rewrite andthen_snd.
Qed.

Lemma aggregation_verify_count (R : rng E) ag (s : rstate R) x :
  ((c_aggregation_verify ag s x).1.2, (c_aggregation_verify ag s x).2)
  = aggregation_verify D b ag s x.
Proof.
rewrite /c_aggregation_verify /aggregation_verify; case: ifP => // _; rewrite -ensure_degree_count.
case: (c_ensure_degree _ _ _) => -[k o] s' /=; case: o => // u; case: (rand_fr s') => r s'' /=.
congr (_, _); rewrite andthen_snd encryption_pairs_count.
apply: obind_ext => -[eps pairs]; rewrite andthen_snd [LHS]/=; case: ifP => //= _.
rewrite andthen_snd -interpolation_count; apply: obind_ext => pt.
by rewrite andthen_snd contributions_count.
Qed.

Lemma aggregate_count x y : (c_aggregate x y).2 = agg_aggregate b x y.
Proof.
rewrite /c_aggregate /agg_aggregate; case: ifP => // _.
rewrite !andthen_snd /= (@maploop_snd _ _ _ (merge_contribution b (as_contributions x) (as_contributions y))) //.
by apply: obind_ext => m; rewrite andthen_snd.
Qed.

(** The steps of a call, and what comes of it. *)
Definition steps ag (c : call E) : nat :=
  match call_msg c with
  | MsgShare sh => (c_receive_share ag (call_state c) sh).1.1
  | MsgTranscript y => (c_receive_aggregated_share ag (call_state c) y).1.1
  end.
Definition counted_receive ag (c : call E) : outcome pvss_error unit * PVSSAggregator E :=
  let o := match call_msg c with
           | MsgShare sh => (c_receive_share ag (call_state c) sh).1.2
           | MsgTranscript y => (c_receive_aggregated_share ag (call_state c) y).1.2
           end in
  match o with
  | Ok x => (Ok tt, set_tx ag x)
  | Err e => (Err e, ag)
  | Panic p => (Panic p, ag)
  end.

Theorem C107_counting ag (c : call E) : counted_receive ag c = receive D b ag c.
Proof.
case: c => -[sh|y] R s; rewrite /counted_receive /receive /=.
  rewrite /c_receive_share /receive_share -share_verify_count.
  case: (c_share_verify _ _ _) => v s' /=; rewrite andthen_snd /= .
  rewrite (@obind_ext _ _ _ _ (fun _ => agg_aggregate_pvss_share b (ag_aggregated_tx ag) sh)).
    by case: (obind _ _).
  by move=> _; rewrite aggregate_count.
rewrite /c_receive_aggregated_share /receive_aggregated_share -aggregation_verify_count.
case: (c_aggregation_verify _ _ _) => v s' /=; rewrite andthen_snd /= .
rewrite (@obind_ext _ _ _ _ (fun _ => unwrap (agg_aggregate b (ag_aggregated_tx ag) y))).
  by case: (obind _ _).
by move=> _; rewrite aggregate_count.
Qed.

(** ** Bounds *)

Lemma draws_le (n t : nat) d k : (t <= n)%N ->
  (let! a := u64_sub b (N.of_nat n) (N.of_nat t) in u64_sub b a 2%num)
    = Ok d :> outcome pvss_error N ->
  u64_add b d 1%num = Ok k :> outcome pvss_error N -> vec_fits 32 k -> (N.to_nat k <= n)%N.
Proof.
move=> tn; rewrite /u64_sub /u64_add /vec_fits /u64_bound.
case: N.leb_spec => /= [_|]; last by lia.
case: N.leb_spec => /= [h2 [<-]|h2].
  case: N.ltb_spec => /= [_ [<-] _|]; first by lia.
  case: (b) => // hb [<-] _.
  have := N.mod_le (N.of_nat n - N.of_nat t - 2 + 1) (2 ^ 64); lia.
case: (b) => // -[<-].
have [e|e] : (N.of_nat n - N.of_nat t = 0 \/ N.of_nat n - N.of_nat t = 1)%num by lia.
  by rewrite e /= => -[<-].
by rewrite e /= => -[<-] _.
Qed.

Lemma ensure_le (R : rng E) (s : rstate R) (evals : seq (Com E)) t :
  let n := size evals in
  ((c_ensure_degree s evals t).1.1 <= 6 + 2 * n + n * (7 * n + 4))%N /\
  ((c_ensure_degree s evals t).1.2 = Ok tt -> (t <= n)%N).
Proof.
move=> n; rewrite /c_ensure_degree -/n; case: ltnP => tn /=; first by split; [lia|].
case e: (let! a := _ in _) => [d|er|p]; rewrite ?[(pay _ _).1]/=; try by split; [lia|].
have [cs [s' [lc lk ->]]] : exists cs s', [/\ (cs.1 <= 2 + 2 * n)%N,
    (forall v, cs.2 = Ok v -> (size v <= n)%N) & c_poly_rand d s = (cs, s')].
  rewrite /c_poly_rand; case e': (u64_add _ _ _) => [k|er|p].
  - case: ifP => f; last by exists (pay 2 (Panic CapacityOverflow)), s; split=> //=; lia.
    have kn := draws_le tn e e' f; have sd := size_draw (N.to_nat k) s.
    case: (draw _ _) sd => v s' /= sv.
    exists (pay (2 + 2 * N.to_nat k) (Ok (truncate v))), s'; split=> //=; first by lia.
    by move=> w [<-]; apply: leq_trans (size_truncate _) _; rewrite sv.
  - by exists (pay 2 (Err er)), s; split=> //=; lia.
  by exists (pay 2 (Panic p)), s; split=> //=; lia.
split=> //; rewrite [(_, _).1]/=.
have -> : (6 + 2 * n + n * (7 * n + 4) = 3 + ((2 + 2 * n) + (n * (7 * n + 4) + 1)))%N by lia.
apply: andthen_le => // _ _; apply: andthen_le => // v ev; apply: andthen_le => // .
rewrite /c_dual_sum -/n -[X in (_ <= X * _)%N](size_iota 1 n); apply: loop_le => sum i.
have -> : (7 * n + 4 = (1 + 3 * n + 4 * n) + 3)%N by lia.
apply: andthen_le => //; apply: andthen_le => /=; first by have := lk _ ev; lia.
move=> c _; rewrite mulnC -[X in (_ <= X * _)%N](size_iota 1 n); exact: loop_le.
Qed.

Lemma interpolation_le (evals : seq (Com E)) t :
  ((c_interpolation evals t).1 <= 2 + t.+1 * (t.+1 * 5 + 3))%N.
Proof.
rewrite /c_interpolation; apply: andthen_le => // -[] _ //.
rewrite -[X in (_ <= X * _)%N](size_iota 0 t.+1); apply: loop_le => sum j.
apply: andthen_le => //; rewrite -[X in (_ <= X * _)%N](size_iota 0 t.+1); exact: loop_le.
Qed.

Lemma interpolation_le' (evals : seq (Com E)) t n : (t <= n)%N ->
  ((c_interpolation evals t).1 <= 10 + 13 * n + 5 * n ^ 2)%N.
Proof. by move=> tn; apply: leq_trans (interpolation_le _ _) _; nia. Qed.

Lemma core_le (R : rng E) ag (s : rstate R) dp core :
  let n := cfg_num_participants (ag_config ag) in
  ((c_core_verify ag s dp core).1.1 <= 19 + 19 * n + 12 * n ^ 2)%N /\
  ((c_core_verify ag s dp core).1.2 = Ok tt -> size (comms core) = n /\ size (encs core) = n).
Proof.
move=> n; rewrite /c_core_verify -/n; case: ifP => sz /=; first by split; [lia|].
have [e1 e2] : size (encs core) = n /\ size (comms core) = n.
  by move/negbT: sz; rewrite negb_or !negbK => /andP[/eqP-> /eqP->].
have [] := @ensure_le R s (comms core) (cfg_degree (ag_config ag)).
case: (c_ensure_degree _ _ _) => deg s'; rewrite [(deg, s').1]/= => le okt.
split=> //; rewrite e2 in le okt; rewrite [(_, _).1]/=.
apply: (@leq_trans (2 + ((6 + 2 * n + n * (7 * n + 4)) + ((10 + 13 * n + 5 * n ^ 2) + 1)))); last by nia.
apply: andthen_le => // _ _; apply: andthen_le => // -[] od; apply: andthen_le => //.
by apply: interpolation_le'; apply: okt; move: od => /=; case: (deg.2).
Qed.

Lemma share_le (R : rng E) ag (s : rstate R) sh :
  let n := cfg_num_participants (ag_config ag) in
  ((c_share_verify ag s sh).1.1 <= 37 + 19 * n + 12 * n ^ 2)%N /\
  ((c_share_verify ag s sh).1.2 = Ok tt ->
   size (comms (sh_pvss_core sh)) = n /\ size (encs (sh_pvss_core sh)) = n).
Proof.
move=> n; rewrite /c_share_verify; set front := andthen _ _.
have fl : (front.1 <= 1 + 7)%N by apply: andthen_le.
case e: front.2 => [pa|//|//]; try by split=> //=; lia.
have [] := @core_le R ag s (sp_decomp_proof (sh_signed_proof sh)) (sh_pvss_core sh).
case: (c_core_verify _ _ _ _) => cv s' /=; rewrite -/n => le okz; split.
  apply: (@leq_trans ((1 + 7) + ((19 + 19 * n + 12 * n ^ 2) + 10))); last by lia.
  by apply: andthen_le => // _ _; apply: andthen_le.
rewrite andthen_snd e /= andthen_snd; case ec: (cv.2) => [[]|//|//] _; exact: okz.
Qed.

(** Contributions are looked at up to the first one that is not of a participant. *)
Lemma contributions_le ag cs :
  ((c_contributions ag cs).1 <= (size (bt_iter (ag_participants ag))).+1 * 14)%N.
Proof.
pose P (kv : nat * (SignedProof E * N)) := kv.1 \in keys (bt_iter (ag_participants ag)).
apply: leq_trans (loop_stop (P := P) (k := 14) _ _ _ _) _.
- move=> gs kv; apply: (@andthen_le _ _ _ _ 1 13) => // pa _.
  by apply: (@andthen_le _ _ _ _ 10 3).
- move=> gs kv nP; rewrite andthen_snd /=.
  have -> : bt_get (ag_participants ag) kv.1 = None; last by [].
  move: nP; rewrite /P /bt_get; elim: (bt_iter _) => [//|[k v] l IH] /=.
  by rewrite inE negb_or eq_sym => /andP[/negbTE-> /IH].
rewrite leq_mul2r ltnS; apply/orP; right.
set m := find _ _; set l := bt_iter cs.
have ml : (m <= size l)%N by exact: find_size.
rewrite -(size_takel ml) -(size_map fst (take m l)) -(size_map fst (bt_iter (ag_participants ag))).
apply: uniq_leq_size.
  rewrite map_take; apply: take_uniq; exact: (keys_uniq (bt_sorted cs)).
have al : all P (take m l) by rewrite /m /l; elim: (bt_iter cs) => [//|x r IH] /=; case: ifP => //= /negbFE->.
by move: al; rewrite -(all_map fst (mem (keys _))) => /allP.
Qed.

Lemma pairs_size ag r core eps pairs :
  encryption_pairs ag r core = Ok (eps, pairs) ->
  size pairs = cfg_num_participants (ag_config ag).
Proof.
rewrite /encryption_pairs; set g := fun _ _ => _.
have H xs acc e p : foldM g acc xs = Ok (e, p) -> size p = (size acc.2 + size xs)%N.
  elim: xs acc => [|x xs IH] acc /=; first by case=> ->; rewrite addn0.
  case: acc => e0 p0 /=; case: (index _ _) => //= enc.
  case: (bt_get _ _) => //= pa; case: (index _ _) => //= cm /IH ->.
  by rewrite /= size_rcons addSnnS.
by move/H; rewrite size_iota.
Qed.

Lemma aggregation_le (R : rng E) ag (s : rstate R) x :
  let n := cfg_num_participants (ag_config ag) in
  let p := size (bt_iter (ag_participants ag)) in
  ((c_aggregation_verify ag s x).1.1 <= 38 + 30 * n + 12 * n ^ 2 + 14 * p)%N /\
  ((c_aggregation_verify ag s x).1.2 = Ok tt ->
   size (comms (as_pvss_core x)) = n /\ size (encs (as_pvss_core x)) = n).
Proof.
move=> n p; rewrite /c_aggregation_verify -/n; case: ifP => sz /=; first by split; [lia|].
have [e1 e2] : size (encs (as_pvss_core x)) = n /\ size (comms (as_pvss_core x)) = n.
  by move/negbT: sz; rewrite negb_or !negbK => /andP[/eqP-> /eqP->].
have [] := @ensure_le R s (comms (as_pvss_core x)) (cfg_degree (ag_config ag)).
case: (c_ensure_degree _ _ _) => deg s' /= le okt; rewrite e2 in le okt.
case ed: deg.2 => [[]|er|pn]; try by split=> //=; nia.
case: (rand_fr s') => r s''; split=> //; rewrite [(_, _).1]/=.
apply: (@leq_trans (2 + ((6 + 2 * n + n * (7 * n + 4)) + ((1 + n) + (n * 8 + ((4 + 2 * n)
   + ((10 + 13 * n + 5 * n ^ 2) + (p.+1 * 14 + 1)))))))); last by nia.
apply: andthen_le => // _ _; apply: andthen_le => // _ _; apply: andthen_le => // _ _.
apply: andthen_le => [|[eps pairs] ep].
  by rewrite -[X in (_ <= X * _)%N](size_iota 0 n); apply: loop_le.
rewrite encryption_pairs_count in ep; have sp := pairs_size ep.
apply: andthen_le => [|_ _] /=; first by rewrite sp.
apply: andthen_le => [|pt _]; first by apply: interpolation_le'; exact: okt.
apply: andthen_le => [|gs _ //]; exact: contributions_le.
Qed.

Lemma aggregate_le x y :
  ((c_aggregate x y).1 <= 6 + 6 * as_num_participants x
     + size (comms (as_pvss_core y)) + size (encs (as_pvss_core y)))%N.
Proof.
set m := as_num_participants x; set c := size _; set e := size _.
rewrite /c_aggregate -/m -/c -/e; case: ifP => _; first by rewrite /=; lia.
apply: (@leq_trans (2 + (m * 5 + ((4 + c + e) + m)))); last by lia.
apply: andthen_le => // _ _; apply: andthen_le => [|mg em].
  by rewrite -[X in (_ <= X * _)%N](size_iota 0 m); apply: maploop_le.
apply: andthen_le => // core _ /=.
have -> : size mg = size (iota 0 m); last by rewrite size_iota.
move: em; elim: (iota 0 m) mg => [|i l IH] mg /=; first by case=> <-.
rewrite andthen_snd /=; case: (merge_contribution _ _ _ _) => //= v.
rewrite andthen_snd; case el: (_.2) => [vs|//|//] /= [<-] /=; by rewrite (IH _ el).
Qed.

(** A message causes a number of steps bounded by the session alone: quadratic in the number of
    participants, however long the message and whatever is in it. *)
Definition share_bound (n m : nat) : nat := 43 + 21 * n + 12 * n ^ 2 + 6 * m.
Definition transcript_bound (n p m : nat) : nat := 44 + 32 * n + 12 * n ^ 2 + 14 * p + 6 * m.

Theorem C107_bound ag (c : call E) (n p m : nat) :
  cfg_num_participants (ag_config ag) = n -> size (bt_iter (ag_participants ag)) = p ->
  as_num_participants (ag_aggregated_tx ag) = m ->
  (steps ag c <= match call_msg c with
                 | MsgShare _ => share_bound n m
                 | MsgTranscript _ => transcript_bound n p m
                 end)%N.
Proof.
move=> en ep em; case: c => -[sh|y] R s; rewrite /steps /=.
  rewrite /c_receive_share; have [] := @share_le R ag s sh; rewrite en.
  case: (c_share_verify _ _ _) => v s' /= le okz.
  apply: (@leq_trans ((37 + 19 * n + 12 * n ^ 2) + (6 + 6 * m + n + n))); last by rewrite /share_bound; lia.
  apply: andthen_le => // -[] ov; apply: leq_trans (aggregate_le _ _) _; rewrite /= em.
  by have /okz[-> ->] : v.2 = Ok tt by move: ov => /=; case: (v.2) => // -[].
rewrite /c_receive_aggregated_share; have [] := @aggregation_le R ag s y; rewrite en ep.
case: (c_aggregation_verify _ _ _) => v s' /= le okz.
apply: (@leq_trans ((38 + 30 * n + 12 * n ^ 2 + 14 * p) + (6 + 6 * m + n + n))); last by rewrite /transcript_bound; lia.
apply: andthen_le => // -[] ov; apply: leq_trans (aggregate_le _ _) _; rewrite /= em.
by have /okz[-> ->] : v.2 = Ok tt by move: ov => /=; case: (v.2) => // -[].
Qed.

(** ** What an outsider can cause

    A share under an identity that is not registered costs one lookup; a transcript of the wrong
    length two comparisons. *)
Theorem C107_outsider ag (c : call E) :
  match call_msg c with
  | MsgShare sh => bt_get (ag_participants ag) (sh_participant_id sh) = None -> steps ag c = 1%N
  | MsgTranscript y =>
      (size (encs (as_pvss_core y)) != cfg_num_participants (ag_config ag)) ||
      (size (comms (as_pvss_core y)) != cfg_num_participants (ag_config ag)) -> steps ag c = 2%N
  end.
Proof.
case: c => -[sh|y] R s; rewrite /steps /=.
  by move=> e; rewrite /c_receive_share /c_share_verify e.
by move=> e; rewrite /c_receive_aggregated_share /c_aggregation_verify e.
Qed.

(** ** Sessions *)

(** The steps of all calls in turn. *)
Fixpoint total ag (h : seq (call E)) : nat :=
  if h is c :: h' then (steps ag c + total (receive D b ag c).2 h')%N else 0%N.

Lemma receive_shape ag (c : call E) :
  let ag' := (receive D b ag c).2 in
  [/\ ag_config ag' = ag_config ag, ag_participants ag' = ag_participants ag
    & as_num_participants (ag_aggregated_tx ag') = as_num_participants (ag_aggregated_tx ag)].
Proof.
have agg x y z : agg_aggregate b x y = Ok z -> as_num_participants z = as_num_participants x.
  rewrite /agg_aggregate; case: ifP => // _; case: (mapM _ _) => //= mg.
  by case: (unwrap _) => //= core [<-].
case: c => -[sh|y] R s; rewrite /receive /=.
  have [H _] := @C19_failed_receive E D b R ag s; have := H sh.
  case: (receive_share D b ag s sh) => [[o ag'] s'] /=.
  by case: ifP => [_ [-> -> _ /agg->]|_ ->].
have [_ H] := @C19_failed_receive E D b R ag s; have := H y.
case: (receive_aggregated_share D b ag s y) => [[o ag'] s'] /=.
by case: ifP => [_ [-> -> _ /agg->]|_ ->].
Qed.

Theorem C107_session ag (h : seq (call E)) :
  (total ag h <= size h * transcript_bound (cfg_num_participants (ag_config ag))
     (size (bt_iter (ag_participants ag))) (as_num_participants (ag_aggregated_tx ag)))%N.
Proof.
elim: h ag => [//|c h IH] ag; rewrite [total _ _]/= [size _]/= mulSn; apply: leq_add.
  apply: leq_trans (C107_bound c erefl erefl erefl) _; rewrite /share_bound /transcript_bound.
  by case: (call_msg c) => _; lia.
by apply: leq_trans (IH _) _; have [-> -> ->] := receive_shape ag c.
Qed.

(** From the bytes on: the reads of C104 and the steps of the call, if there is one. *)
Fixpoint wire_total ag (h : seq (packet E)) : nat :=
  if h is (k, bytes, c) :: h' then
    ((c_message E k bytes).1
     + (if read E k bytes is Ok m then steps ag (with_coins m c) else 0)
     + wire_total (deliver D b ag k bytes c).2 h')%N
  else 0%N.

Lemma deliver_shape ag k bytes c :
  let ag' := (deliver D b ag k bytes c).2 in
  [/\ ag_config ag' = ag_config ag, ag_participants ag' = ag_participants ag
    & as_num_participants (ag_aggregated_tx ag') = as_num_participants (ag_aggregated_tx ag)].
Proof.
rewrite /deliver; case: (read E k bytes) => [m|e|p] //; exact: receive_shape.
Qed.

(** The whole work of a node is linear in the bytes that arrive and in the number of messages. *)
Theorem C107_wire ag (h : seq (packet E)) : full_width E ->
  (wire_total ag h <= \sum_(p <- h) (size p.1.2).+1
     + size h * transcript_bound (cfg_num_participants (ag_config ag))
         (size (bt_iter (ag_participants ag))) (as_num_participants (ag_aggregated_tx ag)))%N.
Proof.
move=> fw; elim: h ag => [|[[k bytes] c] h IH] ag; first by rewrite big_nil.
rewrite big_cons [wire_total _ _]/= [size (_ :: _)]/= mulSn [(_, _).1.2]/=.
have w := C104_work k bytes fw; have := IH (deliver D b ag k bytes c).2.
have [-> -> ->] := deliver_shape ag k bytes c.
set B := transcript_bound _ _ _; set S := (\sum_(p <- h) _)%N; set T := wire_total _ _ => IHb.
have st : ((if read E k bytes is Ok m then steps ag (with_coins m c) else 0) <= B)%N.
  case: (read E k bytes) => // m; apply: leq_trans (C107_bound _ erefl erefl erefl) _.
  by rewrite /B /share_bound /transcript_bound; case: (call_msg _) => _; lia.
by have := leq_add (leq_add w st) IHb; lia.
Qed.

End Counted.
Print Assumptions C107_counting.
Print Assumptions C107_bound.
Print Assumptions C107_outsider.
Print Assumptions C107_session.
Print Assumptions C107_wire.

(** Four participants: an honest share, a transcript, and three messages of a hundred points. *)
Definition big_core : PVSSCore TE := @MkCore TE (nseq 100 (f 1)) (nseq 100 (f 1)).
Example C107_example :
  let share_of i := tcall (MsgShare (MkShare i big_core (sh_signed_proof sh1))) in
  let ag1 := (receive TD Debug tag (tcall (MsgShare sh1))).2 in
  [/\ (is_ok (receive TD Debug tag (tcall (MsgShare sh1))).1,
       steps TD Debug tag (tcall (MsgShare sh1)), share_bound 4 4) = (true, 201, 343)%N,
      (steps TD Debug tag (tcall (MsgTranscript (ag_aggregated_tx ag1))), transcript_bound 4 4 4)
        = (246, 444)%N,
      (steps TD Debug tag (share_of 7%N), steps TD Debug tag (share_of 1%N)) = (1, 8)%N
    & steps TD Debug tag (tcall (MsgTranscript (@MkAgg TE 4 1 big_core bt_new))) = 2%N].
Proof. by split; vm_compute. Qed.
