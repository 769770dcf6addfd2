(** * PropsWire: property C68, the protocol over byte strings *)

From Coq Require Import NArith Strings.Byte.
From mathcomp Require Import all_ssreflect all_algebra zify.
From Verif Require Import Prelude Errors BTreeMap Engine LibModel PolyModel SigmaModel PvssModel
  CodecModel Spec CodecSpec PreludeProofs AlgebraProofs PolyProofs PvssProofs AggProofs HistProofs
  CodecProofs Instance PropsPoly PropsSigma PropsShare PropsAgg PropsHist PropsEnd PropsLimits
  PropsAttack PropsNet PropsCodec.

Set Implicit Arguments.
Unset Strict Implicit.
Unset Printing Implicit Defensive.

Import GRing.Theory.
Local Open Scope ring_scope.

(** ** Messages as bytes *)

Section Wire.
Variables (E : engine) (D : eddsa) (b : build).
Implicit Types (ag : PVSSAggregator E) (m : message E).

(** The receiver knows which kind of message it reads. *)
Inductive kind : Type := KShare | KTranscript.

Definition kind_of m : kind := if m is MsgShare _ then KShare else KTranscript.

Definition write m : seq byte :=
  match m with
  | MsgShare sh => ser (share_codec E) sh
  | MsgTranscript x => ser (transcript_codec E) x
  end.

Definition read (k : kind) (bytes : seq byte) : outcome serialization_error (message E) :=
  match k with
  | KShare => let! r := deser (share_codec E) bytes in Ok (MsgShare r.1)
  | KTranscript => let! r := deser (transcript_codec E) bytes in Ok (MsgTranscript r.1)
  end.

Definition msg_fits m : Prop :=
  match m with MsgShare sh => share_fits sh | MsgTranscript x => transcript_fits x end.

(** [deserialize] followed by [receive_share] or [receive_aggregated_share]; the aggregator is
    untouched when reading fails. *)
Definition deliver ag (k : kind) (bytes : seq byte) (c : coins E)
  : outcome pvss_error unit * PVSSAggregator E :=
  match read k bytes with
  | Ok m => receive D b ag (with_coins m c)
  | Err e => (Err (PvssSerializationError e), ag)
  | Panic p => (Panic p, ag)
  end.

(** What arrives at an aggregator: byte strings from anybody. *)
Definition packet : Type := (kind * seq byte * coins E)%type.
Fixpoint wire_run ag (h : seq packet) : PVSSAggregator E :=
  if h is (k, bytes, c) :: h' then wire_run (deliver ag k bytes c).2 h' else ag.

Lemma read_write m rest : msg_fits m -> read (kind_of m) (write m ++ rest) = Ok m.
Proof.
by case: m => [sh|x] h; rewrite /read /write /kind_of ?(share_rt rest h) ?(transcript_rt rest h).
Qed.

Lemma read_fits k bytes m : read k bytes = Ok m -> msg_fits m /\ kind_of m = k.
Proof.
case: k; rewrite /read.
  by case e: (deser (share_codec E) bytes) => [[sh r]|?|?] // [<-]; split=> //; exact: C55_share_fits e.
by case e: (deser (transcript_codec E) bytes) => [[x r]|?|?] // [<-]; split=> //; exact: C55_transcript_fits e.
Qed.

(** Weights stay machine integers. *)
Definition weights_fit (x : PVSSAggregatedShare E) : Prop :=
  forall i sp w, bt_get (as_contributions x) i = Some (sp, w) -> u64_ok w.

Lemma merge_slot_fits o1 o2 o :
  (forall sp w, o1 = Some (sp, w) -> u64_ok w) -> (forall sp w, o2 = Some (sp, w) -> u64_ok w) ->
  @merge_slot E b o1 o2 = Ok o -> forall sp w, o = Some (sp, w) -> u64_ok w.
Proof.
case: o1 => [[a w1]|] h1; case: o2 => [[a' w2]|] h2 /=; try by case=> <-.
case: ifP => // _; rewrite /u64_add; case: N.ltb_spec0 => [lt|_] /=.
  by move=> [<-] sp w [_ <-].
by case: b => //= -[<-] sp w [_ <-]; apply: N.mod_lt.
Qed.

Lemma receive_weights ag m c : tx_ok D ag -> weights_fit (ag_aggregated_tx ag) -> msg_fits m ->
  weights_fit (ag_aggregated_tx (receive D b ag (with_coins m c)).2).
Proof.
move=> txok wf mf; have [[_ ->]//|[z [-> v mg]]] := receive_cases D b ag (with_coins m c).
have [[ed en] _ _ _] := txok; have /agg_okE[_ _ _ ms out] := mg => i sp w /= gi.
case: (ltnP i (as_num_participants (ag_aggregated_tx ag))) => li; last by rewrite out in gi.
have := ms i li; move/merge_slot_fits; apply; last exact: gi.
  by move=> sp' w'; exact: wf.
move=> sp' w'; case: m mf {v mg ms} => [sh|x] /= mf.
  by rewrite bt_get1; case: eqP => // _ [_ <-].
by case: mf => _ _ _ _ h /h[].
Qed.

Lemma contributors_few n (cs : btmap (SignedProof E * N)) :
  (forall i v, bt_get cs i = Some v -> (i < n)%N) -> (size (bt_iter cs) <= n)%N.
Proof.
move=> h; rewrite -(size_map fst) -[X in (_ <= X)%N](size_iota 0 n); apply: uniq_leq_size.
  exact: sorted_uniq ltn_trans ltnn _ (bt_sorted cs).
move=> i ii; rewrite mem_iota /=.
have : exists v, bt_get cs i = Some v.
  rewrite /bt_get; elim: (bt_iter cs) ii => [//|[k v] l IH] /=; rewrite inE.
  by case: eqP => [->|/nesym ne /= /IH]; [exists v; rewrite eqxx|case: eqP => // e; case: ne].
by case=> v /h.
Qed.

Lemma tx_fits ag : usize_ok (cfg_degree (ag_config ag)) ->
  usize_ok (cfg_num_participants (ag_config ag)) ->
  tx_ok D ag -> weights_fit (ag_aggregated_tx ag) -> transcript_fits (ag_aggregated_tx ag).
Proof.
move=> ft fn [[ed en] [se sc] _ ids] wf; split; rewrite ?ed ?en //.
- by split; rewrite ?se ?sc.
- have := contributors_few (fun i v => ids i v); move: fn; rewrite /usize_ok /u64_ok; lia.
move=> i sp w gi; split; last exact: wf gi.
by have := ids _ _ gi; move: fn; rewrite /usize_ok /u64_ok; lia.
Qed.

(** The state of an aggregator that only ever reads bytes. *)
Definition wire_inv ag : Prop :=
  [/\ usize_ok (cfg_degree (ag_config ag)), usize_ok (cfg_num_participants (ag_config ag)),
      tx_ok D ag & weights_fit (ag_aggregated_tx ag)].

Lemma wire_inv_new config ps : usize_ok (cfg_degree config) ->
  usize_ok (cfg_num_participants config) -> wire_inv (new_aggregator config ps).
Proof. by split=> //; exact: new_tx_ok. Qed.

Lemma wire_inv_receive ag m c : wire_inv ag -> msg_fits m ->
  wire_inv (receive D b ag (with_coins m c)).2.
Proof.
move=> [fd fn txok wf] mf; have [ec _] := receive_static D b ag (with_coins m c).
by split; rewrite ?ec //; [exact: receive_tx_ok | exact: receive_weights].
Qed.

(** ** C68 *)

(** One delivery.  What a sender wrote counts like the message itself, whatever follows it;
    what cannot be read, and what is read and rejected, changes nothing; and a message cut short
    is never accepted. *)
Theorem C68_deliver ag (c : coins E) :
  [/\ forall m rest, msg_fits m ->
        deliver ag (kind_of m) (write m ++ rest) c = receive D b ag (with_coins m c),
      forall k bytes, ~~ is_ok (deliver ag k bytes c).1 -> (deliver ag k bytes c).2 = ag,
      forall k bytes, is_ok (deliver ag k bytes c).1 ->
        exists m, [/\ kind_of m = k, msg_fits m,
          deliver ag k bytes c = receive D b ag (with_coins m c)
          & forall bytes', read k bytes' = Ok m ->
              deliver ag k bytes' c = deliver ag k bytes c]
    & base_streaming E -> forall m j, msg_fits m -> (j < size (write m))%N ->
        ~~ is_ok (deliver ag (kind_of m) (take j (write m)) c).1 /\
        (deliver ag (kind_of m) (take j (write m)) c).2 = ag].
Proof.
have same k bytes : ~~ is_ok (deliver ag k bytes c).1 -> (deliver ag k bytes c).2 = ag.
  rewrite /deliver; case: (read k bytes) => [m|e|p] //=.
  by case: (receive_cases D b ag (with_coins m c)) => [[_ ->//]|[z [-> _ _]]].
split; last move=> str m j mf lj.
- by move=> m rest mf; rewrite /deliver read_write.
- exact: same.
- move=> k bytes; rewrite {1 2 3}/deliver; case er: (read k bytes) => [m|e|p] // _.
  exists m; have [mf ek] := read_fits er; split=> // bytes' er'.
  by rewrite /deliver er' ?er.
set bs := take _ _.
suff nok : ~~ is_ok (read (kind_of m) bs).
  have no : ~~ is_ok (deliver ag (kind_of m) bs c).1 by rewrite /deliver; case: (read _ _) nok.
  by split=> //; exact: same.
have [[_ _ _ h1 h2] _] := C54_prefix_free str; rewrite /bs.
case: m mf lj {bs} => [sh|x] mf lj; rewrite /read /kind_of.
  by have := h1 _ _ mf lj; rewrite -[write _]/(ser (share_codec E) sh); case: (deser _ _).
by have := h2 _ _ mf lj; rewrite -[write _]/(ser (transcript_codec E) x); case: (deser _ _).
Qed.

(** Everything an aggregator can be made to do with bytes, it can be made to do with messages
    that fit their types; so what is proved of all histories (C19 to C23, C48, C56) holds here. *)
Lemma wire_inv_run ag h : wire_inv ag ->
  wire_inv (wire_run ag h) /\
  exists2 h' : seq (call E), wire_run ag h = run D b ag h'
    & (size h' <= size h)%N /\ forall c, List.In c h' -> msg_fits (call_msg c).
Proof.
elim: h ag => [|[[k bytes] c] h IH] ag inv /=; first by split=> //; exists [::].
rewrite /deliver; case er: (read k bytes) => [m|e|p] /=; last 2 first.
- have [i [h' eh [sz hf]]] := IH _ inv; split=> //.
  by exists h' => //; split=> //; apply: leq_trans sz (leqnSn _).
- have [i [h' eh [sz hf]]] := IH _ inv; split=> //.
  by exists h' => //; split=> //; apply: leq_trans sz (leqnSn _).
have [mf _] := read_fits er.
have [i [h' eh [sz hf]]] := IH _ (wire_inv_receive c inv mf); split=> //.
by exists (with_coins m c :: h') => //; split=> // c' [<-|/hf].
Qed.

(** The transcript held after any bytes whatsoever can be written, and every peer reads back
    exactly this transcript. *)
Theorem C68_history (config : Config E) (ps : btmap (Participant E)) (h : seq packet) :
  usize_ok (cfg_degree config) -> usize_ok (cfg_num_participants config) ->
  let ag := wire_run (new_aggregator config ps) h in
  let x := ag_aggregated_tx ag in
  [/\ ag_config ag = config /\ ag_participants ag = ps,
      exists2 h' : seq (call E), ag = run D b (new_aggregator config ps) h'
        & (size h' <= size h)%N /\ forall c, List.In c h' -> msg_fits (call_msg c),
      transcript_fits x
    & forall rest, read KTranscript (write (MsgTranscript x) ++ rest) = Ok (MsgTranscript x)].
Proof.
move=> fd fn ag x; have [[fd' fn' txok wf] [h' e hf]] := wire_inv_run h (wire_inv_new ps fd fn).
have fx : transcript_fits x by exact: tx_fits.
split=> //; last by move=> rest; exact: (@read_write (MsgTranscript x)).
- by rewrite /ag e; exact: run_static.
by exists h'.
Qed.

(** ** A network over the wire *)

(** The sender writes, the network may append bytes, the receiver reads. *)
Definition wire_step (dealt_share : nat -> PVSSShare E) (net : network E)
  (ej : event E * seq byte) : outcome pvss_error unit * network E :=
  let m := ev_msg dealt_share net ej.1 in
  let: (r, ag') := deliver (net (ev_dst ej.1)) (kind_of m) (write m ++ ej.2) (ev_coins ej.1) in
  (r, update net (ev_dst ej.1) ag').

Fixpoint wire_net_run (dealt_share : nat -> PVSSShare E) (net : network E)
  (es : seq (event E * seq byte)) : seq (outcome pvss_error unit) * network E :=
  if es is e :: es' then
    let: (r, net') := wire_step dealt_share net e in
    let: (rs, net'') := wire_net_run dealt_share net' es' in (r :: rs, net'')
  else ([::], net).

(** Nodes that exchange bytes behave exactly like nodes that exchange values (C59, C63), for
    whatever shares are dealt, honest or not, and in every schedule. *)
Theorem C68_network (config : Config E) (ps : btmap (Participant E))
  (dealt_share : nat -> PVSSShare E) (dealers : pred nat) (es : seq (event E * seq byte)) :
  usize_ok (cfg_degree config) -> usize_ok (cfg_num_participants config) ->
  (forall d, dealers d -> share_fits (dealt_share d)) ->
  all (from_dealers dealers) [seq e.1 | e <- es] ->
  wire_net_run dealt_share (fun _ => new_aggregator config ps) es
  = net_run D b dealt_share (fun _ => new_aggregator config ps) [seq e.1 | e <- es].
Proof.
move=> fd fn fs.
suff gen net : all (from_dealers dealers) [seq e.1 | e <- es] -> (forall v, wire_inv (net v)) ->
    wire_net_run dealt_share net es = net_run D b dealt_share net [seq e.1 | e <- es].
  by move=> fds; apply: gen => // v; exact: wire_inv_new.
elim: es net => [//|[e junk] es IH] net /= /andP[fde fds] inv.
have mf : msg_fits (ev_msg dealt_share net e).
  case: e fde => [dst d c|dst src c] /= h; first exact: fs.
  by have [? ? ? ?] := inv src; exact: tx_fits.
have -> : wire_step dealt_share net (e, junk) = net_step D b dealt_share net e.
  by rewrite /wire_step /deliver read_write.
have inv' v : wire_inv ((net_step D b dealt_share net e).2 v).
  rewrite /net_step; have := wire_inv_receive (ev_coins e) (inv (ev_dst e)) mf.
  by case: (receive _ _ _ _) => r ag' /= i; rewrite /update; case: ifP.
by case: (net_step _ _ _ _ _) inv' => r net' /= inv'; rewrite IH.
Qed.

(** Honest nodes exchanging bytes: everything is accepted, as in C59. *)
Lemma usize_le k n : fits n -> (k <= n)%N -> usize_ok k.
Proof. by rewrite /fits /usize_ok /u64_ok; lia. Qed.

Lemma honest_share_fits (config : Config E) (ps : btmap (Participant E)) (sh : PVSSShare E) :
  config_ok config -> honest_share D (new_aggregator config ps) sh -> share_fits sh.
Proof.
move=> ok hs; have [_ _ fn] := ok.
have [p [pa [[_ ecore] lid _ _ _]]] := @honest_dealt E D (new_aggregator config ps) sh ok hs.
split; first exact: usize_le fn (ltnW lid).
by split; rewrite ecore ?size_enc_vec ?size_eval_vec; exact: usize_le fn (leqnn _).
Qed.

Theorem C68_honest_network (config : Config E) (ps : btmap (Participant E))
  (ag0 : PVSSAggregator E) (dealt_share : nat -> PVSSShare E) (dealers : pred nat)
  (es : seq (event E * seq byte)) :
  let es' := [seq e.1 | e <- es] in
  honest_setting D config ps ag0 dealt_share dealers -> all (from_dealers dealers) es' ->
  wire_net_run dealt_share (fun _ => ag0) es = net_run D b dealt_share (fun _ => ag0) es' /\
  (tally_fits es' ->
   (wire_net_run dealt_share (fun _ => ag0) es).1 = nseq (size es) (Ok tt)).
Proof.
move=> es' hs fds; have [ok ea reg hon] := hs; have [tn _ fn] := ok.
have e0 : ag0 = new_aggregator config ps by case: ea.
have ew : wire_net_run dealt_share (fun _ => ag0) es = net_run D b dealt_share (fun _ => ag0) es'.
  rewrite {}e0 in hon *; apply: C68_network fds => //.
  - by apply: usize_le fn _; exact: ltnW (ltnW tn).
  - exact: usize_le fn (leqnn _).
  by move=> d /hon[h _]; exact: honest_share_fits h.
split=> // ft; rewrite ew; have := C59_network_partial b hs fds ft.
by rewrite /es' size_map; case: (net_run _ _ _ _ _) => rs net [].
Qed.

End Wire.
Print Assumptions C68_deliver.
Print Assumptions C68_history.
Print Assumptions C68_network.
Print Assumptions C68_honest_network.

(** In the toy setting: node 0 gets the share of dealer 2 followed by a stray byte, node 1 gets
    the share of dealer 1, node 0 then gets the transcript of node 1; a cut message is refused,
    one cut inside its signature panics, and neither changes the node. *)
Definition twire : seq (event TE * seq byte) :=
  [:: (Deal 0 2 tcoins, [:: x07]); (Deal 1 1 tcoins, [::]); (Gossip 0 1 tcoins, [:: x00; x01])].

Example C68_example :
  let net := (wire_net_run TD Debug (fun d => if d == 2%N then sh2 else sh1) (fun _ => tag) twire).2 in
  let w i := if bt_get (as_contributions (ag_aggregated_tx (net 0%N))) i is Some (_, w) then w else 0%num in
  [/\ honest_setting TD tconfig tparts tag (fun d => if d == 2%N then sh2 else sh1) (mem [:: 1; 2]%N),
      all (from_dealers (mem [:: 1; 2]%N)) [seq e.1 | e <- twire],
      [seq w i | i <- iota 0 4] = [:: 0; 1; 1; 0]%num,
      is_err (deliver TD Debug tag KShare (take 20 (write (MsgShare sh2))) tcoins).1
    & is_panic (deliver TD Debug tag KShare (take 60 (write (MsgShare sh2))) tcoins).1].
Proof. by split; [exact: toy_setting|by []|vm_compute|vm_compute|vm_compute]. Qed.
