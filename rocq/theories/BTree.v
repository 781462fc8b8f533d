(** Specification of std's [BTreeMap] (not part of plotline): a list of
    key/value pairs kept strictly sorted by key.  Used for [Graph::nodes]
    (plotline/src/graph/mod.rs 17), [TriggerSet::triggers]
    (plotline/src/schema/trigger.rs 77) and [ResourceSet::resources]
    (plotline/src/schema/resource.rs 20). *)
From Coq Require Import List.
From Verif Require Import Ord.
Import ListNotations.

Section BTree.
  Context {K V : Type} `{OrdT K}.

  Definition btree := list (K * V).

  (** [BTreeMap::get]. *)
  Fixpoint bt_get (k : K) (m : btree) : option V :=
    match m with
    | [] => None
    | (k', v) :: m' =>
        match cmp k k' with
        | Lt => None
        | Eq => Some v
        | Gt => bt_get k m'
        end
    end.

  (** [BTreeMap::contains_key]. *)
  Definition bt_contains_key (k : K) (m : btree) : bool :=
    match bt_get k m with Some _ => true | None => false end.

  (** [BTreeMap::insert]: the map afterwards; the returned previous value is
      [bt_get] before. *)
  Fixpoint bt_insert (k : K) (v : V) (m : btree) : btree :=
    match m with
    | [] => [(k, v)]
    | (k', v') :: m' =>
        match cmp k k' with
        | Lt => (k, v) :: (k', v') :: m'
        | Eq => (k', v) :: m'
        | Gt => (k', v') :: bt_insert k v m'
        end
    end.

  (** [BTreeMap::remove]. *)
  Fixpoint bt_remove (k : K) (m : btree) : btree :=
    match m with
    | [] => []
    | (k', v') :: m' =>
        match cmp k k' with
        | Lt => (k', v') :: m'
        | Eq => m'
        | Gt => (k', v') :: bt_remove k m'
        end
    end.

  (** [BTreeMap::from_iter]: later entries win (std sorts stably and keeps the
      last of each run of equal keys). *)
  Definition bt_from_iter (l : list (K * V)) : btree :=
    fold_left (fun m kv => bt_insert (fst kv) (snd kv) m) l [].

  (** [BTreeMap::values]: ascending key order. *)
  Definition bt_values (m : btree) : list V := map snd m.
End BTree.
Arguments btree : clear implicits.
