(** * PropsAuth: property C89, what signatures guarantee about transcripts *)

From Coq Require Import NArith Strings.Byte.
From mathcomp Require Import all_ssreflect all_algebra zify.
From Verif Require Import Prelude Errors BTreeMap Engine LibModel PolyModel SigmaModel PvssModel
  Spec PreludeProofs AlgebraProofs PolyProofs PvssProofs AggProofs HistProofs Instance PropsShare
  PropsAgg PropsHist PropsEnd PropsAttack PropsReceive.

Set Implicit Arguments.
Unset Strict Implicit.
Unset Printing Implicit Defensive.

Import GRing.Theory.
Local Open Scope ring_scope.

(** ** C89: without forged signatures, a transcript lists what its contributors signed *)

Section Authentic.
Variables (E : engine) (D : eddsa).
Implicit Types (ps : btmap (Participant E)) (h : seq (call E)) (dp : DecompProof E).

(** [made i] are the proofs that participant [i] has signed, in this session or another.
    Nothing is assumed about the signature scheme or the hash function; instead these two say
    of a history that the adversary has not broken them: a delivered contribution whose
    signature verifies has the digest of a proof its participant signed ... *)
Definition no_forgery (made : nat -> DecompProof E -> Prop) ps h : Prop :=
  forall c i p sp w, List.In c h ->
    bt_get (msg_contributions (call_msg c)) i = Some (sp, w) -> bt_get ps i = Some p ->
    eddsa_valid D (sp_signature_on_decomp sp) (signed_digest (sp_decomp_proof sp))
      (pa_public_key_ed p) ->
    exists2 dp, made i dp & signed_digest dp = signed_digest (sp_decomp_proof sp).

(** ... and is then the hash of the same bytes. *)
Definition no_collision (made : nat -> DecompProof E -> Prop) h : Prop :=
  forall c i sp w dp, List.In c h ->
    bt_get (msg_contributions (call_msg c)) i = Some (sp, w) -> made i dp ->
    signed_digest dp = signed_digest (sp_decomp_proof sp) ->
    signed_bytes dp = signed_bytes (sp_decomp_proof sp).

(** A dealing of participant [i]: [share] returned a share with the proof [dp], and the secret
    of [share_pvss] on the same coins is [s]. *)
Definition dealing (config : Config E) ps (i : nat) dp (s : Fr E) : Prop :=
  exists b R (st : rstate R) (node : Node E) core sec sh,
    [/\ ag_config (nd_aggregator node) = config /\ ag_participants (nd_aggregator node) = ps,
        pa_id (de_participant (nd_dealer node)) = i,
        (share_pvss b node st).1 = Ok (core, sec) /\ ss_p_0 sec = s
      & (share D b node st).1 = Ok sh /\ sp_decomp_proof (sh_signed_proof sh) = dp].

Lemma dealing_gs config ps i dp s : dealing config ps i dp s ->
  dp_gs dp = s *: srs_g2 (cfg_srs config).
Proof.
case=> b [R [st [node [core [sec [sh [[<- _] _ [e1 <-] [e2 <-]]]]]]]].
move: e1 e2; rewrite /share; case: (share_pvss b node st) => o st1 /= -> /=.
rewrite /decomp_generate /dlk_prove; case: (rand_fr st1) => r st2 /=.
by case/obind_ok => sg _ [<-].
Qed.

(** Whatever is recorded was in a delivered message, in the name of the same participant. *)
Lemma recorded_source b ag h i sp w :
  bt_get (as_contributions (ag_aggregated_tx (run D b ag h))) i = Some (sp, w) ->
  (exists w', bt_get (as_contributions (ag_aggregated_tx ag)) i = Some (sp, w')) \/
  exists c w', List.In c h /\ bt_get (msg_contributions (call_msg c)) i = Some (sp, w').
Proof.
elim: h ag w => [|c h IH] ag w /=; first by left; exists w.
case/IH => [[w1]|[c' [w' [ic gc]]]]; last by right; exists c', w'; split=> //; right.
case: (receive_cases D b ag c) => [[_ ->] gi|[z [-> _ /agg_okE[_ _ _ ms out]]]]; first by left; exists w1.
move=> /= gz; case: (ltnP i (as_num_participants (ag_aggregated_tx ag))) => li; last by rewrite out in gz.
have [w2] := merge_slot_src (ms i li) gz; rewrite msg_tx_contributions => -[g|g].
  by left; exists w2.
by right; exists c, w2; split=> //; left.
Qed.

Section World.
Variables (config : Config E) (ps : btmap (Participant E)) (ag0 : PVSSAggregator E).
Variable made : nat -> DecompProof E -> Prop.
Hypothesis new : aggregator_new config ps = Ok ag0.

Lemma genuine h c i sp w : no_forgery made ps h -> no_collision made h -> List.In c h ->
  bt_get (msg_contributions (call_msg c)) i = Some (sp, w) ->
  (exists2 p, bt_get ps i = Some p & signed_valid D config sp (pa_public_key_ed p)) ->
  made i (sp_decomp_proof sp).
Proof.
move=> nf nc ic gc [p gp [_ ev]]; have [dp md ed] := nf _ _ _ _ _ ic gc gp ev.
by rewrite -(signed_bytes_inj (nc _ _ _ _ _ ic gc md ed)).
Qed.

(** Whatever messages a node receives: every participant its transcript lists has signed
    exactly the knowledge proof that is listed. *)
Theorem C89_signed (b : build) h (i : nat) (sp : SignedProof E) (w : N) :
  no_forgery made ps h -> no_collision made h ->
  bt_get (as_contributions (ag_aggregated_tx (run D b ag0 h))) i = Some (sp, w) ->
  made i (sp_decomp_proof sp).
Proof.
case: new => <-; rewrite -[MkAggregator _ _ _]/(new_aggregator config ps) => nf nc gi.
have [_ _ cv _] := run_tx_ok b h (new_tx_ok D config ps).
have [ec ep] := run_static D b (new_aggregator config ps) h.
case: (recorded_source gi) => [[w' //]|[c [w' [ic gc]]]].
by apply: (genuine nf nc ic gc); have := cv _ _ _ gi; rewrite ec ep.
Qed.

(** So the honest participants enter the secret of a transcript only through secrets they
    dealt: the transcript commits to the weighted sum of these and of the commitments of the
    others. *)
Theorem C89_honest_part (b : build) h (honest : pred nat) :
  let t := cfg_degree config in
  let n := cfg_num_participants config in
  let g2 := srs_g2 (cfg_srs config) in
  let x := ag_aggregated_tx (run D b ag0 h) in
  (t < n)%N -> (n < modulus E)%N -> fits n ->
  (forall i, (i < n)%N <-> exists p, bt_get ps i = Some p) ->
  b = Debug \/ no_wrap_run D b ag0 h ->
  no_forgery made ps h -> no_collision made h ->
  (forall i dp, honest i -> made i dp -> exists s, dealing config ps i dp s) ->
  exists sec : nat -> Fr E,
    (forall i sp w, honest i -> bt_get (as_contributions x) i = Some (sp, w) ->
       dealing config ps i (sp_decomp_proof sp) (sec i)) /\
    commits_to t (comms (as_pvss_core x))
      (\sum_(kv <- bt_iter (as_contributions x) | honest kv.1)
         ((N.to_nat kv.2.2)%:R * sec kv.1) *: g2
       + \sum_(kv <- bt_iter (as_contributions x) | ~~ honest kv.1)
           (N.to_nat kv.2.2)%:R *: dp_gs (sp_decomp_proof kv.2.1)).
Proof.
move=> t n g2 x tn nq fn reg nw nf nc hon.
have bal := C21_commitments_balanced new tn nq fn reg nw.
have one i : exists s, forall sp w, honest i -> bt_get (as_contributions x) i = Some (sp, w) ->
    dealing config ps i (sp_decomp_proof sp) s.
  have [hi|] := boolP (honest i); last by exists 0.
  case gi: (bt_get (as_contributions x) i) => [[sp w]|]; last by exists 0.
  have [s d] := hon _ _ hi (C89_signed nf nc gi).
  by exists s => _ _ _ [<- _].
have [sec secP] : exists sec : nat -> Fr E, forall i, (i < n)%N -> forall sp w, honest i ->
    bt_get (as_contributions x) i = Some (sp, w) -> dealing config ps i (sp_decomp_proof sp) (sec i).
  elim: (n) => [|k [sec IH]]; first by exists (fun _ => 0).
  have [s sP] := one k; exists (fun i => if i == k then s else sec i) => i.
  by rewrite ltnS leq_eqVlt; case: eqP => [->|_] //= /IH.
have {secP}secP i sp w : honest i -> bt_get (as_contributions x) i = Some (sp, w) ->
    dealing config ps i (sp_decomp_proof sp) (sec i).
  move=> hi gi; apply: (secP _ _ _ w) => //; have [_ _ _ h4] := C20_structural_invariant D b h new.
  by case: (h4 _ _ _ gi).
exists sec; split=> //.
suff <- : \sum_(kv <- bt_iter (as_contributions x) | honest kv.1)
      (N.to_nat kv.2.2)%:R *: dp_gs (sp_decomp_proof kv.2.1)
    = \sum_(kv <- bt_iter (as_contributions x) | honest kv.1)
        ((N.to_nat kv.2.2)%:R * sec kv.1) *: g2 by have := bal; rewrite /= [X in commits_to _ _ X](bigID (fun kv => honest kv.1)).
have {}secP i sp w : honest i -> List.In (i, (sp, w)) (bt_iter (as_contributions x)) ->
    dp_gs (sp_decomp_proof sp) = sec i *: g2.
  by move=> hi /bt_get_In/(secP _ _ _ hi)/dealing_gs.
elim: (bt_iter (as_contributions x)) secP => [|[i [sp w]] l IH] secP; first by rewrite !big_nil.
rewrite !big_cons /= IH => [|j sp' w' hj ij]; last by apply: (secP _ _ w' hj); right.
case: ifP => // hi; congr (_ + _).
by rewrite (secP _ _ w hi) ?scalerA //; left.
Qed.

(** A participant all of whose signed proofs are for one commitment (one dealing, say) cannot
    be the cause of a conflict: nobody can make a node refuse a message by playing on what that
    participant signed. *)
Theorem C89_no_conflict (b : build) h (c : call E) (i : nat) :
  let ag := run D b ag0 h in
  no_forgery made ps (rcons h c) -> no_collision made (rcons h c) ->
  (forall dp dp', made i dp -> made i dp' -> dp_gs dp = dp_gs dp') ->
  verification D b ag c = Ok tt -> ~ differs ag (call_msg c) i.
Proof.
move=> ag nf nc one vf [a [w [a' [w' [ra ba ne]]]]].
have sub c' : List.In c' h -> List.In c' (rcons h c) by move=> ic; apply/In_rcons; left.
have m1 : made i (sp_decomp_proof a).
  apply: (@C89_signed b h i a w) => // [c1 j p sp u /sub|c1 j sp u dp /sub]; [exact: nf | exact: nc].
have ic : List.In c (rcons h c) by apply/In_rcons; right.
apply: ne; apply: one => //; apply: (genuine nf nc ic ba).
have vf' : verified D b ag (call_msg c).
  by exists (call_rng c), (call_state c); move: vf; rewrite /verification; case: (call_msg c).
have [_ cv] := verified_facts vf'; have [ec ep] := run_static D b ag0 h.
have := cv _ _ _ ba; rewrite /ag ec ep; case: new => <-; exact.
Qed.

(** If no participant ever signs proofs for two commitments, then nothing else than a failed
    verification, a foreign header or (in a debug build) a weight of [2^64] makes a node refuse
    a message, whatever it has received before. *)
Theorem C89_one_commitment (b : build) h (c : call E) :
  let n := cfg_num_participants config in
  let ag := run D b ag0 h in
  (0 < n)%N ->
  no_forgery made ps (rcons h c) -> no_collision made (rcons h c) ->
  (forall i dp dp', made i dp -> made i dp' -> dp_gs dp = dp_gs dp') ->
  is_ok (receive D b ag c).1 <->
  [/\ verification D b ag c = Ok tt, header_ok ag (call_msg c)
    & ~ (b = Debug /\ exists2 i, (i < n)%N & exceeds ag (call_msg c) i)].
Proof.
move=> n ag n0 nf nc one; have nd i := @C89_no_conflict b h c i nf nc (one i).
have en : cfg_num_participants (ag_config ag) = n.
  by rewrite /ag (proj1 (run_static _ _ _ _)); case: new => <-.
have bad i : calm b ag (call_msg c) i -> ~ (b = Debug /\ exceeds ag (call_msg c) i) by case.
case: (C84_answers D b h c n0 new) => [e ->|p ->|-> nh|i ev hd li d _|i ev hd li bD x _|ag' ev hd cl _].
- by split=> [|[]].
- by split=> [|[]].
- by split=> [|[]].
- by have := nd i ev d.
- split=> //; case=> _ _ []; split=> //; exists i => //; by rewrite -en.
- split=> // _; split=> // -[bD [i li x]]; apply: (bad i) => //; apply: cl.
  by rewrite en.
Qed.

End World.
End Authentic.
Print Assumptions C89_signed.
Print Assumptions C89_honest_part.
Print Assumptions C89_no_conflict.
Print Assumptions C89_one_commitment.

(** Dealers 1 and 2 sign one proof each.  A node receives their shares and the transcript of
    another node that heard dealer 2 twice: nothing in these messages is forged, each dealer
    signed for one commitment, and the node lists both. *)
Definition tmade (i : nat) (dp : DecompProof TE) : Prop :=
  (i = 1%N /\ dp = sp_decomp_proof (sh_signed_proof sh1)) \/
  (i = 2%N /\ dp = sp_decomp_proof (sh_signed_proof sh2)).

Lemma tmade_brought (c : call TE) i sp w : List.In c thist2 ->
  bt_get (msg_contributions (call_msg c)) i = Some (sp, w) -> tmade i (sp_decomp_proof sp).
Proof.
have id1 : sh_participant_id sh1 = 1%N by vm_compute.
have id2 : sh_participant_id sh2 = 2%N by vm_compute.
have s1 : bt_get (msg_contributions (MsgShare sh1)) i = Some (sp, w) -> tmade i (sp_decomp_proof sp).
  by rewrite bt_get1 id1; case: eqP => // <- [<- _]; left.
have s2 w' : bt_get (msg_contributions (MsgShare sh2)) i = Some (sp, w') -> tmade i (sp_decomp_proof sp).
  by rewrite bt_get1 id2; case: eqP => // <- [<- _]; right.
rewrite /thist2 => -[<-|[<-|[<-|[]]]]; [exact: s2 | exact: s1 |].
by case/recorded_source => [[w' //]|[c' [w' [[<-|[<-|[]]] /s2]]]].
Qed.

Example C89_example :
  [/\ no_forgery TD tmade tparts thist2, no_collision tmade thist2,
      forall i dp dp', tmade i dp -> tmade i dp' -> dp_gs dp = dp_gs dp',
      forall i dp, (i == 1%N) || (i == 2%N) -> tmade i dp -> exists s, dealing TD tconfig tparts i dp s
    & keys (bt_iter (as_contributions (ag_aggregated_tx (run TD Debug tag thist2)))) = [:: 1; 2]%N].
Proof.
split.
- by move=> c i p sp w ic gc _ _; exists (sp_decomp_proof sp) => //; exact: tmade_brought gc.
- move=> c i sp w dp ic gc md _; move: (tmade_brought ic gc) md => [[-> ->]|[-> ->]] [[e ->]|[e ->]] //.
- by move=> i dp dp' [[-> ->]|[-> ->]] [[e ->]|[e ->]].
- have dl (sh : PVSSShare TE) j coins : (share TD Debug (tnode j) (coins : rstate (seq_rng TE))).1 = Ok sh ->
      exists s, dealing TD tconfig tparts j (sp_decomp_proof (sh_signed_proof sh)) s.
    move=> e; case e': (share_pvss Debug (tnode j) (coins : rstate (seq_rng TE))).1 => [[core sec]|er|pa]; last 2 first.
    + by move: e; rewrite /share; case: (share_pvss _ _ _) e' => o s1 /= ->.
    + by move: e; rewrite /share; case: (share_pvss _ _ _) e' => o s1 /= ->.
    by exists (ss_p_0 sec), Debug, (seq_rng TE), coins, (tnode j), core, sec, sh.
  move=> i dp _ [[-> ->]|[-> ->]].
    by apply: (dl sh1 1%N [:: f 3; f 8; f 2]); reflexivity.
  by apply: (dl sh2 2%N [:: f 7; f 5; f 4]); reflexivity.
- by vm_compute.
Qed.
