(** * PropsTests2: properties C81 and C82, about the crate's own unit tests of pvss.rs, share.rs
    and node.rs *)

From Coq Require Import NArith Strings.Byte.
From mathcomp Require Import all_ssreflect all_algebra zify.
From Verif Require Import Prelude Errors BTreeMap Engine LibModel PolyModel SigmaModel PvssModel
  CodecModel SetupModel TestModel Spec PreludeProofs AlgebraProofs Instance CodecSpec CodecProofs PolyProofs PvssProofs
  AggProofs HistProofs PropsAgg PropsPoly PropsSigma PropsShare PropsEnd PropsAttack PropsNet PropsCodec
  PropsVerdict PropsSetup PropsTests.

Set Implicit Arguments.
Unset Strict Implicit.
Unset Printing Implicit Defensive.

Import GRing.Theory.
Local Open Scope ring_scope.

(** ** C81: the tests of vectors and shares *)

Section CoreTests.
Variables (E : engine) (R : rng E) (s : rstate R).

Lemma all_zero (V : zmodType) n : all (fun x : V => x == 0) (nseq n 0).
Proof. by apply/allP => x /nseqP[-> _]; rewrite eqxx. Qed.

Lemma vadd_opp (V : zmodType) (v : V) n : vadd (nseq n v) [seq - x | x <- nseq n v] = nseq n 0.
Proof. by elim: n => //= n; rewrite /vadd /= => ->; rewrite subrr. Qed.

(** Four points are drawn: two of G1, then two of G2. *)
Theorem C81_core :
  let e1 := (rand_g1 s).1 in let s1 := (rand_g1 s).2 in
  let e2 := (rand_g1 s1).1 in let s2 := (rand_g1 s1).2 in
  let c1 := (rand_g2 s2).1 in let c2 := (rand_g2 (rand_g2 s2).2).1 in
  [/\ [/\ passes (@test_core_empty E R) s, passes (@test_core_eq E R) s
        & passes (@test_core_eq_lengths E R) s],
      passes (@test_core_aggregation E R) s /\ passes (@test_core_serialization E R) s,
      (@test_core_neq E R s).1 = (if (e1 == e2) && (c1 == c2) then Panic AssertFailed else Ok tt),
      [/\ (@test_core_empty_encs E R s).1 = Panic UnwrapErr, (@test_core_empty_comms E R s).1 = Panic UnwrapErr,
          (@test_core_mismatching_encs E R s).1 = Panic UnwrapErr
        & (@test_core_mismatching_encs_comms E R s).1 = Panic UnwrapErr]
    & forall a b' c d, is_ok (@test_core_lengths E R a b' c d s).1 <->
        [/\ (0 < a)%N, a = b', a = c & a = d]].
Proof.
move=> e1 s1 e2 s2 c1 c2.
have lengths a b' c d : is_ok (@test_core_lengths E R a b' c d s).1 <->
    [/\ (0 < a)%N, a = b', a = c & a = d].
  have [_ _ _ _ ok] := C18_core_errors (@MkCore E (nseq a 0) (nseq b' 0)) (MkCore (nseq c 0) (nseq d 0)).
  rewrite /= !size_nseq in ok; rewrite /test_core_lengths /tbind /plain.
  case: (core_aggregate _ _) ok => [x|e|p] /= ok.
  - by split=> // _; have [h1 h2 h3 h4] := ok.1 isT; split; lia.
  - by split=> // -[h1 h2 h3 h4]; case: ok => _; apply; split; lia.
  - by split=> // -[h1 h2 h3 h4]; case: ok => _; apply; split; lia.
split=> //.
- rewrite /passes; split.
  + by rewrite /test_core_empty /tbind /plain /core_empty !all_zero.
  + by rewrite /test_core_eq /plain /assert eqxx.
  + rewrite /test_core_eq_lengths /plain /assert; by case: eqP.
- rewrite /passes; split.
    rewrite /test_core_aggregation /tbind /drawn; case: (rand_g1 s) => e t1; case: (rand_g2 t1) => c t2.
    rewrite /plain (@core_aggregate_ok E 10) // /core_add.
    rewrite -[MkCore _ _]/(MkCore (vadd (nseq 10 e) _) (vadd (nseq 10 c) _)) !vadd_opp.
    by rewrite /unwrap !all_zero.
  rewrite /test_core_serialization /tbind /drawn; case: (rand_g1 s) => e t1; case: (rand_g2 t1) => c t2.
  by rewrite /plain (rt_check (@core_rt E)).
- rewrite /test_core_neq /tbind /drawn /e1 /e2 /c1 /c2 /s2 /s1.
  case: (rand_g1 s) => x1 t1; case: (rand_g1 t1) => x2 t2 /=; case: (rand_g2 t2) => y1 t3 /=.
  case: (rand_g2 t3) => y2 t4; rewrite /plain /assert /=.
  rewrite -[_ == _]/((nseq 10 x1 == nseq 10 x2) && (nseq 10 y1 == nseq 10 y2)).
  have nseqE (T : eqType) (x y : T) : (nseq 10 x == nseq 10 y) = (x == y).
    by rewrite /= !eqseq_cons; case: (x == y).
by rewrite !nseqE; case: (_ && _).
Qed.

End CoreTests.
Print Assumptions C81_core.

Section ShareTests.
Variables (E : engine) (D : eddsa) (K : ed_keygen D) (b : build) (R : rng E).
Implicit Types (s : rstate R) (seed : 32.-tuple byte).

(** The key made from [seed] can be loaded again from its bytes. *)
Definition loads seed : bool := isSome (ed_keypair_from_bytes D (ed_keypair_bytes K (ed_generate K seed))).

(** What one of these tests does: [zero] a random polynomial is zero, [loaded] the keys load. *)
Definition share_verdict (zero loaded : bool) : outcome pvss_error unit :=
  if zero then Panic IndexOutOfBounds else if loaded then Ok tt else Panic UnwrapErr.

Definition zeros (k : nat) s : bool := all (fun c => c == 0) (scalars k s).

Lemma drawn_bind (A B : Type) (m : rstate R -> A * rstate R) (f : A -> test R B) s :
  tbind (drawn m) f s = f (m s).1 (m s).2.
Proof. by rewrite /tbind /drawn; case: (m s). Qed.

Lemma schnorr_bind (A : Type) (C : curve (modulus E)) (f : pt C -> test R A) s :
  tbind (called (schnorr_srs_setup C (R := R))) f s = f (pt_gen C) s.
Proof. by []. Qed.

Lemma decomp_bind (A : Type) conf p_0 (f : DecompProof E -> test R A) s :
  exists pf s', tbind (called (fun s => decomp_generate s conf p_0)) f s
                = f (MkDecomp pf (p_0 *: srs_g2 (cfg_srs conf))) s'.
Proof.
by rewrite /tbind /called /decomp_generate; case: (dlk_prove _ s _) => pf s'; exists pf, s'.
Qed.

Lemma test_signE dproof seed :
  (exists sig, test_sign K dproof seed = Ok (MkSigned dproof sig) /\ loads seed) \/
  (test_sign (E := E) K dproof seed = Panic UnwrapErr /\ ~~ loads seed).
Proof.
rewrite /test_sign /signature_new /loads /generate_keypair /=.
case: (ed_keypair_from_bytes _ _) => [kp|]; last by right.
by left; exists (sig_split (ed_sign kp (decomp_digest dproof))).
Qed.

Lemma test_core_of_len (conf : Config E) poly pks :
  core_len (cfg_num_participants conf) (test_core_of conf poly pks).
Proof. by rewrite /core_len /= !size_map size_iota. Qed.

Lemma one_share seed (k : PVSSShare E -> test R unit) s :
  (forall sh s', sh_participant_id sh = 5%N -> core_len 10 (sh_pvss_core sh) -> (k sh s').1 = Ok tt) ->
  (tbind (test_one_share K b seed (R := R)) k s).1 = share_verdict (zeros 4 s) (loads seed).
Proof.
move=> hk; rewrite /share_verdict {1}/tbind /test_one_share (@called_poly _ _ _ _ 3) //.
rewrite {1}/tbind {1}/plain index_truncate -/(zeros 4 s); case: (zeros 4 s) => //.
rewrite called_srs schnorr_bind drawn_bind.
match goal with |- context[tbind (called (fun s => decomp_generate s ?c ?p)) ?f ?s] =>
  have [pf [s3 ->]] := decomp_bind c p f s end.
rewrite {1}/tbind {1}/plain; set dp := MkDecomp _ _.
case: (test_signE dp seed) => [[sig [-> ->]]|[-> /negbTE->]] //.
rewrite drawn_bind; apply: hk => //; exact: test_core_of_len.
Qed.

Lemma agg_one_share (sh : PVSSShare E) :
  (sh_participant_id sh < 10)%N -> core_len 10 (sh_pvss_core sh) ->
  agg_aggregate_pvss_share b (agg_empty E 3 10) sh
  = Ok (MkAgg 10 3 (sh_pvss_core sh) (bt_insert bt_new (sh_participant_id sh) (sh_signed_proof sh, 1%num))).
Proof.
move=> li [le lc]; rewrite /agg_aggregate_pvss_share.
have [] // := @C17_identity E b (MkAgg 10 3 (sh_pvss_core sh)
  (bt_insert bt_new (sh_participant_id sh) (sh_signed_proof sh, 1%num))).
by move=> i /= l10; rewrite bt_get1; case: eqP => // e; lia.
Qed.

Theorem C81_one_share seed s :
  let verdict := share_verdict (zeros 4 s) (loads seed) in
  [/\ (test_create_share K b seed s).1 = verdict, (test_aggregate_share K b seed s).1 = verdict
    & (test_share_serialization K b seed s).1 = verdict].
Proof.
move=> verdict; split.
- by rewrite /test_create_share one_share.
- rewrite /test_aggregate_share one_share // => sh s' id5 len.
  by rewrite (plain_ok _ _ (a := MkAgg 10 3 (sh_pvss_core sh)
    (bt_insert bt_new 5%N (sh_signed_proof sh, 1%num)))) /plain ?agg_one_share ?id5 // /assert eqxx.
rewrite /test_share_serialization one_share // => sh s' id5 [le lc].
by rewrite /plain (rt_check (@share_rt E)) // /share_fits /core_fits id5 le lc.
Qed.

Theorem C81_transcript_of_two seed_a seed_b s :
  let s1 := (srs_setup s).2 in
  let verdict := share_verdict (zeros 4 s1 || zeros 4 (after 4 s1)) (loads seed_a && loads seed_b) in
  (test_aggregate_two_shares K b seed_a seed_b s).1 = verdict /\
  (test_transcript_serialization K b seed_a seed_b s).1 = verdict.
Proof.
move=> s1 verdict.
pose merged a c := MkAgg 10 3 (core_add (sh_pvss_core a) (sh_pvss_core c) : PVSSCore E)
  (bt_insert (bt_insert bt_new 2%N (sh_signed_proof a, 1%num)) 3%N (sh_signed_proof c, 1%num)).
have two (k : PVSSShare E * PVSSShare E * PVSSAggregatedShare E -> test R unit) :
  (forall a c s', core_len 10 (sh_pvss_core a) -> core_len 10 (sh_pvss_core c) ->
     (k (a, c, merged a c) s').1 = Ok tt) ->
  (tbind (test_two_shares K b seed_a seed_b (R := R)) k s).1 = verdict.
  move=> hk; rewrite {1}/tbind /test_two_shares called_srs -/s1 schnorr_bind.
  rewrite (@called_poly _ _ _ _ 3) // {1}/tbind {1}/plain index_truncate.
  rewrite -/(zeros 4 s1) /verdict /share_verdict; case: (zeros 4 s1) => //.
  rewrite (@called_poly _ _ _ _ 3) // {1}/tbind {1}/plain index_truncate.
  rewrite -/(zeros 4 (after 4 s1)); case: (zeros 4 (after 4 s1)) => //.
  rewrite 2!drawn_bind.
  match goal with |- context[tbind (called (fun s => decomp_generate s ?c ?p)) ?f ?s] =>
    have [pf [s4 ->]] := decomp_bind c p f s end.
  match goal with |- context[tbind (called (fun s => decomp_generate s ?c ?p)) ?f ?s] =>
    have [pf' [s5 ->]] := decomp_bind c p f s end.
  rewrite {1}/tbind {1}/plain; set dp := MkDecomp pf _; set dp' := MkDecomp pf' _.
  case: (test_signE dp seed_a) => [[sig [-> ->]]|[-> /negbTE->]] //.
  rewrite {1}/tbind {1}/plain.
  case: (test_signE dp' seed_b) => [[sig' [-> ->]]|[-> /negbTE->]] //.
  rewrite drawn_bind.
  set a := MkShare 2 _ _; set c := MkShare 3 _ _.
  have la : core_len 10 (sh_pvss_core a) by exact: test_core_of_len.
  have lc : core_len 10 (sh_pvss_core c) by exact: test_core_of_len.
  rewrite {1}/tbind {1}/plain agg_one_share // {1}/unwrap {1}/tbind {1}/plain.
  suff -> : agg_aggregate_pvss_share b (MkAgg 10 3 (sh_pvss_core a)
      (bt_insert bt_new (sh_participant_id a) (sh_signed_proof a, 1%num))) c = Ok (merged a c).
    exact: hk.
  apply/agg_okE; split=> //.
  - move=> i _; rewrite /= !bt_get_insert bt_get_new.
    by case: eqP => [<-|_] //=; case: eqP.
  move=> i; rewrite -[as_num_participants _]/10%N => l10; rewrite !bt_get_insert.
  by do !(case: eqP => [e|_]; first by lia).
split.
  rewrite /test_aggregate_two_shares two // => a c s' la lc.
  rewrite {1}/tbind {1}/plain (@core_aggregate_ok E 10 _ _ isT (core_len_empty E 10) la).
  rewrite core_add0 // {1}/unwrap {1}/tbind {1}/plain (@core_aggregate_ok E 10 _ _ isT la lc).
  by rewrite /unwrap /plain /assert eqxx.
rewrite /test_transcript_serialization two // => a c s' la lc.
rewrite /plain (rt_check (@transcript_rt E)) //.
have [la1 la2] := core_len_add la lc.
split=> //; first by rewrite /core_fits la1 la2.
move=> i sp w; rewrite !bt_get_insert.
case: eqP => [<- [_ <-] //|_]; case: eqP => [<- [_ <-] //|_].
by rewrite bt_get_new.
Qed.

(** [dp] is the proof of the secret 10 made with the first scalar drawn after the parameters. *)
Theorem C81_signed_proof seed s :
  let s1 := (srs_setup s).2 in
  let g2 := (rand_g2 (rand_g1 s).2).1 in let r := scalar s1 0 in
  let c := hash_to_field E DLK_PERSONA (pt_ser g2 ++ pt_ser (r *: g2)) in
  let dp := MkDecomp (DlkProof (r *: g2) c (r - 10%:R * c)) (10%:R *: g2) in
  let d := signed_digest dp in let kp := ed_generate K seed in
  [/\ passes (test_signed_proof K seed (R := R)) s <->
        (exists2 kp', ed_keypair_from_bytes D (ed_keypair_bytes K kp) = Some kp' &
           eddsa_valid D (sig_split (ed_sign kp' d)) d (ed_public_bytes K kp)),
      passes (test_signed_proof K seed (R := R)) s \/ (test_signed_proof K seed s).1 = Panic UnwrapErr,
      good_seed K seed -> passes (test_signed_proof K seed (R := R)) s
    & passes (@test_empty_transcript E R) s].
Proof.
move=> s1 g2 r c dp d kp.
have ten : fr_of_u64 (modulus E) 10 = 10%:R by rewrite fr_of_u64E.
have run : (test_signed_proof K seed s).1 =
  if ed_keypair_from_bytes D (ed_keypair_bytes K kp) is Some kp'
  then unwrap (signature_verify D (sig_split (ed_sign kp' d)) d (ed_public_bytes K kp))
  else Panic UnwrapErr.
  rewrite /test_signed_proof called_srs -/s1 -/g2 ten /generate_keypair -/kp.
  rewrite {1}/tbind {1}/called /decomp_generate /dlk_prove -/g2.
  have -> : rand_fr s1 = (r, (rand_fr s1).2) by rewrite /r /scalar; case: (rand_fr s1).
  rewrite {1}/unwrap {1}/tbind {1}/plain /signature_new decomp_digestE.
  rewrite -[MkDecomp _ _]/dp -/d; case: (ed_keypair_from_bytes _ _) => // kp'.
  rewrite /plain /signed_verify [in LHS]/= decomp_digestE -/d.
  have -> : decomp_verify dp (MkConfig (MkSRS (rand_g1 s).1 g2 (rand_g2 (rand_g2 (rand_g1 s).2).2).1) 3 10) = Ok tt.
    rewrite /decomp_verify /dlk_verify [in LHS]/= /dlk_preimage -/c eqxx resp_check eqxx.
    by [].
  by rewrite /=; case: (signature_verify _ _ _ _) => // -[].
have ver kp' := signature_verifyE D (sig_split (ed_sign kp' d)) d (ed_public_bytes K kp).
have iffP : passes (test_signed_proof K seed (R := R)) s <->
        (exists2 kp', ed_keypair_from_bytes D (ed_keypair_bytes K kp) = Some kp' &
           eddsa_valid D (sig_split (ed_sign kp' d)) d (ed_public_bytes K kp)).
  rewrite /passes run; case: (ed_keypair_from_bytes _ _) => [kp'|]; last by split=> // -[].
  split=> [h|[_ [<-] /ver->] //]; exists kp' => //; apply/ver; move: h.
  by case: (signature_verify _ _ _ _) => // -[].
split=> //.
- rewrite /passes run; case: (ed_keypair_from_bytes _ _) => [kp'|]; last by right.
  rewrite /signature_verify; case: (ed_sig_from_bytes _ _) => [sg|]; last by right.
  case: (ed_pk_from_bytes _ _) => [key|]; last by right.
  by rewrite /=; case: ifP => _; [left|right].
- by move=> [h1 h2]; apply/iffP; exists kp.
by rewrite /passes /test_empty_transcript /plain /assert eqxx.
Qed.

End ShareTests.
Print Assumptions C81_one_share.
Print Assumptions C81_transcript_of_two.
Print Assumptions C81_signed_proof.

(** In the toy group: the polynomial [7 + X^2] is fine, the polynomial zero is not. *)
Example C81_example :
  let seed := nseq_tuple 32 x01 in
  let s := map f [:: 7; 0; 1; 0; 2; 3; 5; 4; 6; 1; 9]%N in
  let s' := map f [:: 0; 0; 0; 0; 2; 3; 5; 4; 6; 1; 9]%N in
  let s2 := map f [:: 2; 3; 5; 7; 0; 1; 0; 0; 4; 0; 0; 6; 1; 9; 8; 3]%N in
  let fine (m : test list_rng unit) s := is_ok (m s).1 in
  [/\ fine (@test_aggregate_share TE TD TK Debug list_rng seed) s,
      ~~ fine (@test_aggregate_share TE TD TK Debug list_rng seed) s',
      fine (@test_aggregate_two_shares TE TD TK Debug list_rng seed seed) s2
    & fine (@test_signed_proof TE TD TK list_rng seed) s].
Proof. by repeat split; vm_compute. Qed.

(** ** C82: the tests of nodes *)

Section NodeTests.
Variables (E : engine) (D : eddsa) (K : ed_keygen D) (b : build) (R : rng E).
Implicit Types (s : rstate R) (ag peer : PVSSAggregator E).

(** What [share] does for a registered party of a registered group. *)
Lemma deal_ok (node : Node E) s :
  let ag := nd_aggregator node in let t := cfg_degree (ag_config ag) in
  fits t.+1 -> registered ag ->
  (pa_id (de_participant (nd_dealer node)) < cfg_num_participants (ag_config ag))%N ->
  if zeros t.+1 s then share D b node s = (Panic IndexOutOfBounds, after t.+1 s)
  else if ed_keypair_from_bytes D (de_private_key_ed (nd_dealer node)) is Some kp then
    exists2 sh, share D b node s = (Ok sh, after t.+2 s)
      & is_share_of node (scalars t.+1 s) (rand_fr (after t.+1 s)).1 kp sh
  else share D b node s = (Panic UnwrapErr, after t.+2 s).
Proof.
move=> ag t ft reg lid; have [k [e2 dv]] := @C62_dealing_verdicts E D b R node s ft.
have sz : size (scalars t.+1 s) = t.+1 by exact: size_scalars.
have zE : zeros t.+1 s <-> scalars t.+1 s = nseq t.+1 0 by rewrite -[X in nseq X]sz; exact: all_zero_nseq.
move: dv e2; rewrite -/t; case: (share D b node s) => o s' /= dv ->.
move: dv; case: {o}_ / => [pc n0|j lj none _|_ _ h|_ _ nz ek|kp sh _ _ nz ek h]; rewrite ?sz.
- by rewrite -/ag in n0; rewrite n0 in lid.
- by have [p] := reg j lj; rewrite none.
- case: h => [|h]; first by rewrite -/ag leqNgt lid.
  by rewrite sz -zE in h; rewrite h.
- by rewrite sz -zE in nz; move/negP/negbTE: nz => ->; rewrite ek.
- by rewrite sz -zE in nz; move/negP/negbTE: nz => ->; rewrite ek; exists sh.
Qed.

(** [test_one]: one party, degree 1.  Its key is the scalar after the parameters. *)
Theorem C82_one seed s :
  (test_one K b seed s).1 = share_verdict (zeros 2 (after 1 (srs_setup s).2)) (loads K seed).
Proof.
rewrite /test_one; have [srs esrs] := srs_setupE s; have := set_upP K 1 [:: seed] esrs.
set s1 := (srs_setup s).2; case=> ps [nodes [eset hps hn]].
rewrite (called_ok _ eset) (plain_ok _ _ (hn 0%N isT)); set node := MkNode _ _.
have reg : registered (nd_aggregator node).
  by move=> i li; exists (set_up_party K srs s1 [:: seed] i); rewrite /= hps li.
have f2 : fits 2 by [].
have := @deal_ok node (after 1 s1) f2 reg isT; rewrite /share_verdict.
rewrite -[cfg_degree _]/1%N; case: (zeros 2 _) => [e|]; first by rewrite /tbind /called e.
rewrite /loads -[de_private_key_ed _]/(ed_keypair_bytes K (ed_generate K seed)).
case: (ed_keypair_from_bytes _ _) => [kp|]; last by move=> e; rewrite /tbind /called e.
by case=> sh e _; rewrite (called_ok _ e).
Qed.

Section Setting.
Variables (config : Config E) (ps : btmap (Participant E)) (sh : nat -> PVSSShare E) (dealers : pred nat).
Let ag0 := new_aggregator config ps.
Let inv ag cnt := node_inv D config ps sh dealers ag cnt.
Hypothesis hs : honest_setting D config ps ag0 sh dealers.

Lemma inv_new : inv ag0 (fun _ => 0%num).
Proof. by case: hs => ok _ _ _; exact: node_inv_new. Qed.

Lemma bind_receive (A : Type) ag cnt d (k : PVSSAggregator E -> test R A) s :
  inv ag cnt -> dealers d -> (forall i, cnt i < 2 ^ 32)%num ->
  exists ag' s', tbind (test_receive D b ag (sh d) (R := R)) k s = k ag' s' /\
    inv ag' (fun i => cnt i + (if i == d then 1 else 0))%num.
Proof.
move=> iv hd small; case: hs => ok _ reg hon.
have [//|//||] := @event_inv E D b config ps sh dealers ok reg hon (fun _ => ag) (fun _ => cnt)
  (Deal 0 d (existT _ R s)).
  by move=> v i; have := small i; rewrite /tally_step; case: (v != _) => /=; [lia | case: (i == d); lia].
rewrite /net_step /with_coins /receive /= /tbind /test_receive.
case: (receive_share D b ag s (sh d)) => [[o ag'] s'] /= -> /(_ 0%N).
by rewrite /update /tally_step /= => iv'; exists ag', s'.
Qed.

Lemma bind_receive_tx (A : Type) ag cnt peer cnt' (k : PVSSAggregator E -> test R A) s :
  inv ag cnt -> inv peer cnt' -> (forall i, cnt i < 2 ^ 32)%num -> (forall i, cnt' i < 2 ^ 32)%num ->
  exists ag' s', tbind (test_receive_tx D b ag (ag_aggregated_tx peer) (R := R)) k s = k ag' s' /\
    inv ag' (fun i => cnt i + cnt' i)%num.
Proof.
move=> iv iv' small small'; case: hs => ok _ reg hon.
have [v|//||] := @event_inv E D b config ps sh dealers ok reg hon (fun v => if v == 1%N then peer else ag)
  (fun v => if v == 1%N then cnt' else cnt) (Gossip 0 1 (existT _ R s)).
- by case: (v == 1%N).
- by move=> v i; have := small i; have := small' i; rewrite /tally_step; case: ifP => _; case: (v == 1%N) => /=; lia.
rewrite /net_step /with_coins /receive /= /tbind /test_receive_tx.
case: (receive_aggregated_share D b ag s _) => [[o ag'] s'] /= -> /(_ 0%N).
by rewrite /update /tally_step /= => iv2; exists ag', s'.
Qed.

Lemma inv_ext ag cnt cnt' : cnt =1 cnt' -> inv ag cnt -> inv ag cnt'.
Proof.
move=> e [h1 h2 h3 h4 h5]; split=> // [i|i|k]; first by rewrite -e.
  by rewrite -e; exact: h4.
have [-> ->] := h5 k; by split; apply: eq_bigr => i _; rewrite e.
Qed.

(** The state of a node is determined by what it counted. *)
Lemma inv_eq ag ag' cnt : inv ag cnt -> inv ag' cnt -> ag_aggregated_tx ag = ag_aggregated_tx ag'.
Proof.
move=> [_ [[d1 n1] [p [_ e1]] _ _ _] c1 _ k1] [_ [[d2 n2] [p' [_ e2]] _ _ _] c2 _ k2].
apply: agg_ext; rewrite ?d1 ?d2 ?n1 ?n2 //; last by move=> i; rewrite c1 c2.
have [s1 s1'] := @core_of_sized E ag0 p; have [s2 s2'] := @core_of_sized E ag0 p'.
rewrite -e1 in s1 s1'; rewrite -e2 in s2 s2'.
case: (as_pvss_core (ag_aggregated_tx ag)) s1 s1' k1 => es cs /= s1 s1' k1.
case: (as_pvss_core (ag_aggregated_tx ag')) s2 s2' k2 => es' cs' /= s2 s2' k2.
congr MkCore; apply: (@eq_from_nth _ 0); rewrite ?s1 ?s2 ?s1' ?s2' // => i _.
  by have [-> _] := k1 i; have [-> _] := k2 i.
by have [_ ->] := k1 i; have [_ ->] := k2 i.
Qed.

(** The same, with the counts as lists. *)
Definition counts (l : seq N) : nat -> N := fun i => nth 0%num l i.

Lemma counts_small l : all (fun c => c <? 2 ^ 32)%num l -> forall i, (counts l i < 2 ^ 32)%num.
Proof.
move=> /(all_nthP 0%num) h i; rewrite /counts; case: (ltnP i (size l)) => li; last by rewrite nth_default.
by apply/N.ltb_lt; exact: h.
Qed.

Lemma bind_share (A : Type) ag l d x l' (k : PVSSAggregator E -> test R A) s :
  inv ag (counts l) -> dealers d -> x = sh d -> all (fun c => c <? 2 ^ 32)%num l ->
  (forall i, counts l i + (if i == d then 1 else 0) = counts l' i)%num ->
  exists ag' s', tbind (test_receive D b ag x (R := R)) k s = k ag' s' /\ inv ag' (counts l').
Proof.
move=> iv hd -> /counts_small sm e; have [ag' [s' [-> iv']]] := bind_receive k s iv hd sm.
by exists ag', s'; split=> //; exact: inv_ext e iv'.
Qed.

Lemma bind_transcript (A : Type) ag l peer l' l2 (k : PVSSAggregator E -> test R A) s :
  inv ag (counts l) -> inv peer (counts l') ->
  all (fun c => c <? 2 ^ 32)%num l -> all (fun c => c <? 2 ^ 32)%num l' ->
  (forall i, counts l i + counts l' i = counts l2 i)%num ->
  exists ag' s', tbind (test_receive_tx D b ag (ag_aggregated_tx peer) (R := R)) k s = k ag' s' /\
    inv ag' (counts l2).
Proof.
move=> iv iv' /counts_small sm /counts_small sm' e.
have [ag' [s' [-> iv2]]] := bind_receive_tx k s iv iv' sm sm'.
by exists ag', s'; split=> //; exact: inv_ext e iv2.
Qed.

End Setting.

(** The EdDSA key of node [i] loads, and works on what the node signs if it deals in state [s0]. *)
Definition deals_well (seeds : 4.-tuple (32.-tuple byte)) s i (s0 : rstate R) : Prop :=
  let seed := nth (nseq_tuple 32 x00) seeds i in
  ed_keypair_from_bytes D (ed_keypair_bytes K (ed_generate K seed)) <> None /\
  forall nodes s' node sh, set_up K s 2 seeds = (Ok nodes, s') ->
    index nodes i = Ok node :> outcome pvss_error _ -> (share D b node s0).1 = Ok sh ->
    good_for K seed (dealt_digest sh).

(** The four nodes of the other two tests. *)
Lemma four_nodes (seeds : 4.-tuple (32.-tuple byte)) s :
  let s1 := (srs_setup s).2 in let keys := scalars 4 s1 in
  (4 < modulus E)%N ->
  exists srs ps nodes, let config := MkConfig srs 2 4 in let ag0 := new_aggregator config ps in
  [/\ srs_setup s = (Ok srs, s1), set_up K s 2 seeds = (Ok nodes, after 4 s1), config_ok config,
      registered ag0
    & forall i, (i < 4)%N -> key_of ag0 i = nth 0 keys i *: srs_g1 srs /\
      exists node, [/\ index nodes i = Ok node :> outcome pvss_error _, nd_aggregator node = ag0,
        de_private_key_sig (nd_dealer node) = nth 0 keys i, pa_id (de_participant (nd_dealer node)) = i
      & forall s0 : rstate R, deals_well seeds s i s0 -> if zeros 3 s0 then share D b node s0 = (Panic IndexOutOfBounds, after 3 s0)
        else exists sh, [/\ share D b node s0 = (Ok sh, after 4 s0), honest_share D ag0 sh,
          sh_participant_id sh = i
        & sh_pvss_core sh = core_of ag0 (Poly (scalars 3 s0))]]].
Proof.
move=> s1 keys q4; have [srs esrs] := srs_setupE s; have := set_upP K 2 seeds esrs.
rewrite size_tuple; case=> ps [nodes [eset hps hn]]; exists srs, ps, nodes; move=> config ag0.
have reg : registered ag0 by move=> i li; exists (set_up_party K srs s1 seeds i); rewrite /= hps li.
split=> // i li; split; first by rewrite /key_of /= hps li /set_up_party size_tuple.
eexists; split; [exact: hn | by [] | by [] | by [] |] => s0 [ld good].
set node := MkNode _ _; have {}good sh := good _ _ node sh eset (hn i li).
have f3 : fits 3 by [].
have := @deal_ok node s0 f3 reg li; rewrite -[cfg_degree _]/2%N; case: (zeros 3 s0) => //.
rewrite -[de_private_key_ed _]/(ed_keypair_bytes K (ed_generate K (nth (nseq_tuple 32 x00) seeds i))).
case hk: (ed_keypair_from_bytes _ _) ld => [kp|] // _.
case=> sh esh [i1 i2 i3 i4 _]; exists sh; split=> //.
  exists b, R, node, s0, (set_up_party K srs s1 seeds i); split=> //; last by rewrite esh.
    by rewrite /= hps li.
  by apply: good; rewrite esh.
have -> : sh_pvss_core sh = MkCore (encs (sh_pvss_core sh)) (comms (sh_pvss_core sh)).
  by case: (sh_pvss_core sh).
rewrite i2 i3 /core_of; congr MkCore.
  by rewrite /enc_vec; apply: eq_map => j; rewrite valueE.
by rewrite /eval_vec (iotaDl 1 0 _ : iota 1 _ = _) -map_comp; apply: eq_map => j; rewrite valueE.
Qed.

Local Ltac recv hs iv d l' ag' iv' :=
  match goal with |- context [tbind (test_receive ?D ?b ?a ?x) ?k ?s] =>
    let s' := fresh "s" in let e := fresh "e" in
    destruct (@bind_share _ _ _ _ hs _ a _ d x l' k s iv) as (ag' & s' & e & iv');
    [by [] | by [] | by [] | by case=> [|[|[|[|?]]]] //; rewrite /counts /= nth_nil
    | rewrite e; clear e] end.

Local Ltac recv_tx hs iv ivp l' ag' iv' :=
  match goal with |- context [tbind (test_receive_tx ?D ?b ?a (ag_aggregated_tx ?peer)) ?k ?s] =>
    let s' := fresh "s" in let e := fresh "e" in
    destruct (@bind_transcript _ _ _ _ hs _ a _ peer _ l' k s iv ivp) as (ag' & s' & e & iv');
    [by [] | by [] | by case=> [|[|[|[|?]]]] //; rewrite /counts /= nth_nil
    | rewrite e; clear e] end.

(** [s2] is the generator after the parameters and the four keys.  The nodes deal in turn, each
    drawing three coefficients and a nonce.  The decryption key of node A is [keys] 0. *)
Theorem C82_four_nodes (seeds : 4.-tuple (32.-tuple byte)) s :
  let s1 := (srs_setup s).2 in let keys := scalars 4 s1 in let s2 := after 4 s1 in
  (4 < modulus E)%N -> (forall i, (i < 4)%N -> deals_well seeds s i (after (4 * i) s2)) ->
  (test_four_nodes K b seeds s).1
  = if has (fun i => zeros 3 (after (4 * i) s2)) (iota 0 4) then Panic IndexOutOfBounds
    else if nth 0 keys 0 == 0 then Panic UnwrapNone else Ok tt.
Proof.
move=> s1 keys s2 q4 good; have := four_nodes seeds s q4; rewrite -/s1 -/keys.
case=> srs [ps [nodes]]; set config := MkConfig srs 2 4; set ag0 := new_aggregator config ps.
cbv zeta; case=> esrs eset ok reg hn.
rewrite /test_four_nodes (called_ok _ eset) -/s2.
have [key0 [na [ea aa ska ida da]]] := hn 0%N isT; have [_ [nb [eb ab _ idb db]]] := hn 1%N isT.
have [_ [nc [ec ac _ idc dc]]] := hn 2%N isT; have [_ [nd [ed ad _ idd dd]]] := hn 3%N isT.
rewrite (plain_ok _ _ ea) (plain_ok _ _ eb) (plain_ok _ _ ec) (plain_ok _ _ ed).
have -> : has (fun i => zeros 3 (after (4 * i) s2)) (iota 0 4)
    = [|| zeros 3 s2, zeros 3 (after 4 s2), zeros 3 (after 4 (after 4 s2))
        | zeros 3 (after 4 (after 4 (after 4 s2)))].
  by rewrite /after -!iterD /= orbF.
have := da s2 (good 0%N isT); case: (zeros 3 s2) => [e|[sha [e ha ia _]]]; first by rewrite {1}/tbind /called e.
rewrite (called_ok _ e) {e}; set s3 := after 4 s2.
have := db s3 (good 1%N isT); case: (zeros 3 s3) => [e|[shb [e hb ib _]]]; first by rewrite {1}/tbind /called e.
rewrite (called_ok _ e) {e}; set s4 := after 4 s3.
have := dc s4 (good 2%N isT); case: (zeros 3 s4) => [e|[shc [e hc ic _]]]; first by rewrite {1}/tbind /called e.
rewrite (called_ok _ e) {e}; set s5 := after 4 s4.
have := dd s5 (good 3%N isT); case: (zeros 3 s5) => [e|[shd [e hd id _]]]; first by rewrite {1}/tbind /called e.
rewrite (called_ok _ e) {e}; set s6 := after 4 s5.
pose sh i := nth sha [:: sha; shb; shc; shd] i.
have hs : honest_setting D config ps ag0 sh (fun i => i < 4)%N.
  by split=> // -[|[|[|[|i]]]].
have i0 : node_inv D config ps sh (fun i => i < 4)%N ag0 (counts [:: 0; 0; 0; 0]%num).
  by apply: inv_ext (inv_new hs) => -[|[|[|[|i]]]] //; rewrite /counts /= nth_nil.
rewrite aa ab ac ad.
recv hs i0 0%N [:: 1; 0; 0; 0]%num aga1 ia1.
recv hs ia1 1%N [:: 1; 1; 0; 0]%num aga2 ia2.
recv hs i0 1%N [:: 0; 1; 0; 0]%num agb1 ib1.
recv hs ib1 0%N [:: 1; 1; 0; 0]%num agb2 ib2.
recv hs i0 2%N [:: 0; 0; 1; 0]%num agc1 ic1.
recv hs ic1 3%N [:: 0; 0; 1; 1]%num agc2 ic2.
recv hs i0 3%N [:: 0; 0; 0; 1]%num agd1 id1.
recv hs id1 2%N [:: 0; 0; 1; 1]%num agd2 id2.
rewrite (plain_ok _ _ (a := tt)); last by rewrite (inv_eq ia2 ib2) /assert eqxx.
rewrite (plain_ok _ _ (a := tt)); last by rewrite (inv_eq ic2 id2) /assert eqxx.
recv_tx hs ic2 ia2 [:: 1; 1; 1; 1]%num agc3 ic3.
recv_tx hs id2 ia2 [:: 1; 1; 1; 1]%num agd3 id3.
recv_tx hs ia2 ic2 [:: 1; 1; 1; 1]%num aga3 ia3.
recv_tx hs ib2 ic2 [:: 1; 1; 1; 1]%num agb3 ib3.
rewrite (plain_ok _ _ (a := tt)); last by rewrite (inv_eq ia3 ib3) /assert eqxx.
rewrite (plain_ok _ _ (a := tt)); last by rewrite (inv_eq ib3 ic3) /assert eqxx.
rewrite (plain_ok _ _ (a := tt)); last by rewrite (inv_eq ic3 id3) /assert eqxx.
have [[eca _] [_ [p [sp ecore]] _ _ _] _ _ _] := ia3; rewrite eca ska ida ecore.
set core := core_of _ p; have [se sc] := @core_of_sized E ag0 p.
have [k0|k0] := eqVneq (nth 0 keys 0) 0.
  by rewrite {1}/tbind {1}/plain /decrypted_share_generate (index_ok 0) ?se // k0 /inverse_unwrap eqxx.
have [_ _ _ _ last] := @C64_blinded_check E pvss_error config (comms core).
have [d ed' [od hd']] := last (encs core) _ 0%N (ltac:(by rewrite sc)) (ltac:(by rewrite se)) k0.
rewrite (plain_ok _ _ ed') drawn_bind od (plain_ok _ _ (a := true)) //.
apply/hd'; rewrite nth_eval_vec // nth_enc_vec // key0 -pairingZ !scalerA.
by rewrite mulrC.
Qed.

(** The second aggregation is noticed unless the share has only zero entries: the random
    generator of G2 is zero, and so is every encryption. *)
Theorem C82_double_aggregation (seeds : 4.-tuple (32.-tuple byte)) s :
  let s1 := (srs_setup s).2 in let keys := scalars 4 s1 in let s2 := after 4 s1 in
  (4 < modulus E)%N -> deals_well seeds s 0 s2 ->
  let g1 := (rand_g1 s).1 in let g2 := (rand_g2 (rand_g1 s).2).1 in
  (test_double_aggregation K b seeds s).1
  = if zeros 3 s2 then Panic IndexOutOfBounds
    else if (g2 == 0) && all (fun j => value (scalars 3 s2) j.+1%:R *: (nth 0 keys j *: g1) == 0) (iota 0 4)
    then Panic AssertFailed else Ok tt.
Proof.
move=> s1 keys s2 q4 good g1 g2; have := four_nodes seeds s q4; rewrite -/s1 -/keys.
case=> srs [ps [nodes]]; set config := MkConfig srs 2 4; set ag0 := new_aggregator config ps.
cbv zeta; case=> esrs eset ok reg hn.
have [eg1 eg2] : srs_g1 srs = g1 /\ srs_g2 srs = g2.
  move: esrs; rewrite /srs_setup /g1 /g2; case: (rand_g1 s) => x1 t1 /=; case: (rand_g2 t1) => x2 t2 /=.
  by case: (rand_g2 t2) => x3 t3 [<-].
rewrite /test_double_aggregation (called_ok _ eset) -/s2.
have [_ [na [ea aa _ _ da]]] := hn 0%N isT; have [_ [nb [eb ab _ _ _]]] := hn 1%N isT.
rewrite (plain_ok _ _ ea) (plain_ok _ _ eb).
have := da s2 good; case: (boolP (zeros 3 s2)) => z; first by move=> e; rewrite {1}/tbind /called e.
case=> sha [e ha ia ecore].
rewrite (called_ok _ e) {e} aa ab.
pose sh (_ : nat) := sha.
have hs : honest_setting D config ps ag0 sh (fun i => i == 0)%N by split=> // d /eqP->.
have i0 : node_inv D config ps sh (fun i => i == 0)%N ag0 (counts [:: 0; 0; 0; 0]%num).
  by apply: inv_ext (inv_new hs) => -[|[|[|[|i]]]] //; rewrite /counts /= nth_nil.
recv hs i0 0%N [:: 1; 0; 0; 0]%num ag1 iv1.
recv hs iv1 0%N [:: 2; 0; 0; 0]%num ag2 iv2.
have [_ [[d1 n1] [p1 [_ c1]] _ _ _] ct1 _ k1] := iv1.
have [_ [[d2 n2] [p2 [_ c2]] _ _ _] ct2 _ k2] := iv2.
rewrite (plain_ok _ _ (a := tt)); last by rewrite n1 n2 /assert eqxx.
rewrite (plain_ok _ _ (a := tt)); last by rewrite d1 d2 /assert eqxx.
set flat := _ && _.
have -> : (as_pvss_core (ag_aggregated_tx ag1) != as_pvss_core (ag_aggregated_tx ag2)) = ~~ flat.
  congr negb; pose p := Poly (scalars 3 s2).
  have one (V : lmodType (Fr E)) (F : nat -> V) (w : N) :
      \sum_(i < 4) (N.to_nat (counts [:: w; 0; 0; 0]%num i))%:R *: F i = (N.to_nat w)%:R *: F 0%N.
    by rewrite !big_ord_recl big_ord0 /= !scale0r !addr0.
  have z1 : size (encs (as_pvss_core (ag_aggregated_tx ag1))) = 4%N by rewrite c1 size_enc_vec.
  have z1' : size (comms (as_pvss_core (ag_aggregated_tx ag1))) = 4%N by rewrite c1 size_eval_vec.
  have z2 : size (encs (as_pvss_core (ag_aggregated_tx ag2))) = 4%N by rewrite c2 size_enc_vec.
  have z2' : size (comms (as_pvss_core (ag_aggregated_tx ag2))) = 4%N by rewrite c2 size_eval_vec.
  have dbl (V : lmodType (Fr E)) (v : V) : ((N.to_nat 1)%:R *: v == (N.to_nat 2)%:R *: v) = (v == 0).
    by rewrite scale1r -[N.to_nat 2]/2%N scaler_nat mulr2n -subr_eq0 opprD addrA subrr add0r oppr_eq0.
  have ve j : value (scalars 3 s2) j.+1%:R = p.[j.+1%:R] by rewrite valueE.
  have pz : (forall j, (j < 4)%N -> p.[@pnt E j] *: g2 = 0) -> g2 = 0.
    move=> h; apply/eqP; apply: contraNT z => g20; rewrite /zeros.
    have p0 : p = 0.
      apply/eqP; apply: contraTT isT => pn0.
      have := @max_poly_roots _ p [seq @pnt E j | j <- iota 0 4] pn0; rewrite size_map size_iota.
      have -> : all (root p) [seq pnt E j | j <- iota 0 4].
        apply/allP => x /mapP[j]; rewrite mem_iota => /andP[_ lj] ->; apply/rootP/eqP.
        by have /eqP := h j lj; rewrite scaler_eq0 (negbTE g20) orbF.
      have -> : uniq [seq pnt E j | j <- iota 0 4].
        rewrite map_inj_in_uniq ?iota_uniq // => i j; rewrite !mem_iota => /andP[_ li] /andP[_ lj].
        exact: (@pnt_inj E 4 q4).
      by move=> /(_ isT isT) sz4; have := leq_trans sz4 (size_Poly _); rewrite size_scalars.
    apply/(all_nthP 0) => i; rewrite size_scalars => li.
    by have := congr1 (fun r : {poly _} => r`_i) p0; rewrite /p coef_Poly coef0 => ->.
  have e1 j : nth 0 (encs (as_pvss_core (ag_aggregated_tx ag1))) j
      = (N.to_nat 1)%:R *: nth 0 (enc_vec ag0 p 4) j by have [e _] := k1 j; have := etrans e (one _ (fun _ => nth 0 (encs (sh_pvss_core sha)) j) 1%num);
      rewrite ecore.
  have e1' j : nth 0 (comms (as_pvss_core (ag_aggregated_tx ag1))) j
      = (N.to_nat 1)%:R *: nth 0 (eval_vec p g2 4) j by have [_ e] := k1 j; have := etrans e (one _ (fun _ => nth 0 (comms (sh_pvss_core sha)) j) 1%num);
      rewrite ecore -eg2.
  have e2 j : nth 0 (encs (as_pvss_core (ag_aggregated_tx ag2))) j
      = (N.to_nat 2)%:R *: nth 0 (enc_vec ag0 p 4) j by have [e _] := k2 j; have := etrans e (one _ (fun _ => nth 0 (encs (sh_pvss_core sha)) j) 2%num);
      rewrite ecore.
  have e2' j : nth 0 (comms (as_pvss_core (ag_aggregated_tx ag2))) j
      = (N.to_nat 2)%:R *: nth 0 (eval_vec p g2 4) j by have [_ e] := k2 j; have := etrans e (one _ (fun _ => nth 0 (comms (sh_pvss_core sha)) j) 2%num);
      rewrite ecore -eg2.
  have encE j : (j < 4)%N -> nth 0 (enc_vec ag0 p 4) j = value (scalars 3 s2) j.+1%:R *: (nth 0 keys j *: g1).
    by move=> lj; rewrite nth_enc_vec // ve (hn j lj).1 eg1.
  apply/eqP/andP => [e|[/eqP g20 /allP fl]].
    split.
      apply/eqP/pz => j lj; apply/eqP; rewrite -dbl -(@nth_eval_vec E _ p g2 4 j lj).
      by rewrite -e1' -e2' e.
    apply/allP => j; rewrite mem_iota => /andP[_ lj]; rewrite -encE // -dbl.
    by rewrite -e1 -e2 e.
  case: (as_pvss_core (ag_aggregated_tx ag1)) z1 z1' e1 e1' => es cs /= z1 z1' e1 e1'.
  case: (as_pvss_core (ag_aggregated_tx ag2)) z2 z2' e2 e2' => es' cs' /= z2 z2' e2 e2'.
  congr MkCore; apply: (@eq_from_nth _ 0); rewrite ?z1 ?z2 ?z1' ?z2' // => j lj.
    rewrite e1 e2; apply/eqP; rewrite dbl encE //; apply: fl.
    by rewrite mem_iota.
  by rewrite e1' e2'; apply/eqP; rewrite dbl nth_eval_vec // g20 scaler0.
case: flat => //; rewrite (plain_ok _ _ (a := tt)) //.
rewrite (ct1 0%N) (ct2 0%N) -[counts [:: 1; 0; 0; 0]%num 0%N]/1%num -[counts [:: 2; 0; 0; 0]%num 0%N]/2%num.
rewrite (plain_ok _ _ (a := (sh_signed_proof sha, 1%num))) //.
rewrite (plain_ok _ _ (a := (sh_signed_proof sha, 2%num))) //.
rewrite (plain_ok _ _ (a := tt)); last by rewrite /assert eqxx.
rewrite (plain_ok _ _ (a := tt)) // (plain_ok _ _ (a := tt)) //.
by recv_tx hs i0 iv2 [:: 2; 0; 0; 0]%num agb ivb.
Qed.

End NodeTests.
Print Assumptions C82_one.
Print Assumptions C82_four_nodes.
Print Assumptions C82_double_aggregation.

(** Four parties with keys 1, ..., 4 in the toy group; the dealings [7 + X^2], [4], [5 X], [1 + X].
    The first test fails when the key of the first node is zero, the second when the generator of
    G2 and all keys are. *)
Example C82_example :
  let seeds := [tuple tpk 0; tpk 1; tpk 2; tpk 3] in
  let deals := [:: 7; 0; 1; 9; 4; 0; 0; 9; 0; 5; 0; 9; 1; 1; 0; 9]%N in
  let s k g2 keys : seq (Fr TE) := map f ([:: k; g2; 5] ++ keys ++ deals)%N in
  let fine (m : test list_rng unit) s := is_ok (m s).1 in
  let four := @test_four_nodes TE TD TK Debug list_rng seeds in
  let double := @test_double_aggregation TE TD TK Debug list_rng seeds in
  [/\ [/\ fine four (s 2 3 [:: 1; 2; 3; 4])%N, ~~ fine four (s 2 3 [:: 0; 2; 3; 4])%N
        & fine double (s 2 3 [:: 1; 2; 3; 4])%N],
      ~~ fine double (s 2 0 [:: 0; 0; 0; 0])%N,
      fine double (s 2 0 [:: 1; 0; 0; 0])%N
    & forall st i (st' : rstate list_rng), (i < 4)%N -> @deals_well TE TD TK Debug list_rng seeds st i st'].
Proof.
split; first (split; vm_compute; reflexivity); first (vm_compute; reflexivity); first (vm_compute; reflexivity).
move=> st i st' li; have gs : good_seed TK (nth (nseq_tuple 32 x00) [:: tpk 0; tpk 1; tpk 2; tpk 3] i).
  by case: i li => [|[|[|[|i]]]] // _; exact: toy_good_seed.
by split=> [|nodes s' node sh _ _ _]; [case: gs => -> | exact: good_seed_for].
Qed.
