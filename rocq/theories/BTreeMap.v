(** * BTreeMap: model of [std::collections::BTreeMap<usize, V>]

    A finite map is the list of its (key, value) pairs in strictly increasing key
    order; the order proof is part of the type, so two maps are equal exactly when
    Rust's [==] says so (same keys, equal values).  Used by
    /repo/src/modified_scrape/{share.rs,aggregator.rs,node.rs}. *)

From mathcomp Require Import all_ssreflect zify.

Set Implicit Arguments.
Unset Strict Implicit.
Unset Printing Implicit Defensive.

Section BTreeMap.

Variable V : Type.

Definition keys (l : seq (nat * V)) : seq nat := [seq kv.1 | kv <- l].

(** The type of maps; [bt_iter] is [map.iter()]. *)
Record btmap : Type := BTMap {
  bt_iter : seq (nat * V);
  bt_sorted : sorted ltn (keys bt_iter)
}.

(** [BTreeMap::new()]. *)
Definition bt_new : btmap := @BTMap [::] isT.

Fixpoint list_get (l : seq (nat * V)) (k : nat) : option V :=
  if l is (k', v) :: l' then if k' == k then Some v else list_get l' k else None.

(** [map.get(&k)]. *)
Definition bt_get (m : btmap) (k : nat) : option V := list_get (bt_iter m) k.

Fixpoint list_insert (l : seq (nat * V)) (k : nat) (v : V) : seq (nat * V) :=
  if l is (k', v') :: l' then
    if k < k' then (k, v) :: l
    else if k == k' then (k, v) :: l'
    else (k', v') :: list_insert l' k v
  else [:: (k, v)].

Lemma list_insert_path a l k v :
  a < k -> path ltn a (keys l) -> path ltn a (keys (list_insert l k v)).
Proof.
elim: l a => [|[k' v'] l IH] a /= ak; first by rewrite ak.
case/andP=> ak' pl; case: ltnP => [kk'|k'k]; first by rewrite /= ak kk' pl.
case: eqP => [->|/eqP ne]; first by rewrite /= ak' pl.
by rewrite /= ak' IH //; lia.
Qed.

Lemma list_insert_sorted l k v :
  sorted ltn (keys l) -> sorted ltn (keys (list_insert l k v)).
Proof.
case: l => [|[k' v'] l] //= pl; case: ltnP => [kk'|k'k]; first by rewrite /= kk' pl.
case: eqP => [->|/eqP ne]; first by rewrite /= pl.
by rewrite /= list_insert_path //; lia.
Qed.

(** [map.insert(k, v)]: replaces the value of an existing key. *)
Definition bt_insert (m : btmap) (k : nat) (v : V) : btmap :=
  BTMap (list_insert_sorted k v (bt_sorted m)).

(** [iter.collect::<BTreeMap<_, _>>()]: inserts in turn, so the last value of a
    repeated key wins. *)
Definition bt_collect (l : seq (nat * V)) : btmap :=
  foldl (fun m kv => bt_insert m kv.1 kv.2) bt_new l.

End BTreeMap.

Arguments bt_new {V}.
