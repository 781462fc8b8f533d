(** Model of the interval plugin: plugins/interval/src/plugin.rs.

    The plugin crate is not a member of the workspace (/repo/Cargo.toml 2, 7) and imports
    [plotline::property::Extractor], which does not exist in the pinned commit.  It is modelled as it
    reads, with [Extractor<T>] taken to be [trait { type Target; fn all(&self, &T) -> Vec<Target> }]. *)
From Coq Require Import List Bool Arith.
From Verif Require Import Ord OrdFacts BTree Graph Tx Interval Prog.
Import ListNotations.

(** plugin.rs 10-14: [NodeInterval]. *)
Record node_interval (Id I : Type) := NI { ni_id : Id; ni_iv : I }.
Arguments NI {Id I}. Arguments ni_id {Id I}. Arguments ni_iv {Id I}.

(** plugin.rs 26-39: [Interval for NodeInterval]. *)
#[global] Instance ni_interval {Id I B : Type} `{Interval I B} : Interval (node_interval Id I) B :=
  { lo := fun x => lo (ni_iv x); hi := fun x => hi (ni_iv x) }.

(** plugin.rs 21-23: [NodeInterval::eq].  Simplification: [PartialEq] of ids agrees with their [Ord]. *)
Definition ni_eqb {Id I : Type} `{OrdT Id} `{PartialEq I} (x y : node_interval Id I) : bool :=
  eqb (ni_id x) (ni_id y) && eqv (ni_iv x) (ni_iv y).

Lemma ni_eqb_eq {Id I : Type} `{OrdT Id} `{PartialEq I} (x y : node_interval Id I) : ni_eqb x y = true <-> x = y.
Proof.
  destruct x as [i x], y as [j y]. unfold ni_eqb; cbn. rewrite andb_true_iff, eqb_eq, eqv_eq.
  split; [intros [-> ->]|intros [= -> ->]]; auto.
Qed.

#[global] Instance ni_partial_eq {Id I : Type} `{OrdT Id} `{PartialEq I} : PartialEq (node_interval Id I) :=
  { eqv := ni_eqb; eqv_eq := ni_eqb_eq }.

(** Panics of the code of users that is run while the search tree is written: the bounds of intervals, comparisons of bounds and
    of intervals, clones of ids.  [insert_panics t x]: inserting [x] into [t] panics; [delete_panics]
    likewise. *)
Class Panics (A B : Type) := { insert_panics : tree A B -> A -> bool; delete_panics : tree A B -> A -> bool }.

(** No such panics, unless others are given. *)
#[global] Instance no_panics {A B : Type} : Panics A B | 100 :=
  { insert_panics := fun _ _ => false; delete_panics := fun _ _ => false }.

Section Plugin.
  (** [I]: [Extr::Target]; [B]: its bounds; [O]: values of the other resources; [W]: values returned by
      other closures. *)
  Context {Id Node I B O W : Type} `{OrdT Id} `{Identify Node Id} `{OrdT B} `{Interval I B} `{PartialEq I} {FP : Panics (node_interval Id I) B}.
  Notation ni := (node_interval Id I).
  Notation stree := (tree ni B).

  (** Resources: the extractor, a search tree (plugin.rs 49), or any other.  Simplification:
      [Extractor::all] is a function of the node; [None]: it panics, or the clone of the id does.  The empty search trees of every type are
      all [RTree Leaf]; they are told apart by their type ids. *)
  Inductive resource := RExtr (all : Node -> option (list I)) | RTree (t : stree) | ROther (o : O).
  Inductive value := VIntervals (l : list ni) | VOther (w : W).
  Notation prog := (prog Id Node value resource).

  (** The [TypeId]s of [Extr], of [SearchTree<T::Id, Extr::Target>] (plugin.rs 67, 102) and of
      [SearchTree<T, Extr::Target>] (plugin.rs 140).  The last two are equal iff [T::Id] is [T]. *)
  Variables ty_extr ty_tree_id ty_tree_node : type_id.

  (** plugin.rs 71-77, 106-112: the intervals of a node, for an extractor that does not panic. *)
  Definition intervals_of (all : Node -> list I) (n : Node) : list ni := map (NI (id_of n)) (all n).

  (** plugin.rs 118-120: insertion of all; whether it panics. *)
  Definition insert_all (t : stree) (l : list ni) : stree := fold_left insert l t.
  Fixpoint insert_all_panics (t : stree) (l : list ni) : bool :=
    match l with
    | [] => false
    | x :: l => insert_panics t x || insert_all_panics (insert t x) l
    end.

  (** [IntervalSearchTree::delete]; [None]: the call never returns. The fuel is enough for any call that
      returns ([t_delete_iff] in PluginFacts.v). *)
  Definition t_delete (t : stree) (x : ni) : option stree := delete (2 + count t) t x.

  (** plugin.rs 83-85: deletion of all; whether it panics. *)
  Fixpoint delete_all (t : stree) (l : list ni) : option stree :=
    match l with
    | [] => Some t
    | x :: l => match t_delete t x with Some t => delete_all t l | None => None end
    end.
  Fixpoint delete_all_panics (t : stree) (l : list ni) : bool :=
    match l with
    | [] => false
    | x :: l => delete_panics t x || match t_delete t x with Some t => delete_all_panics t l | None => false end
    end.

  (** plugin.rs 70-80, 105-115: reads the intervals of the target, and goes on with them. *)
  Definition with_intervals (c : ctx) (extractor : handle) (k : list ni -> prog) : prog :=
    PAccess Shared [target_of c; extractor] (fun vs =>
        match vs with
        | [(_, DNode n); (_, DRes _ (RExtr all))] =>
            match all n with
            | Some l => PRet (RVal (VIntervals (map (NI (id_of n)) l)))
            | None => PPanic
            end
        | _ => PPanic                              (* not reached: values are of the types asked for *)
        end)
      (fun r => match r with
        | Some (RVal (VIntervals l)) => k l
        | _ => PRet RUnit
        end).

  (** plugin.rs 99-124: [on_save].  A tree whose writing panics is lost anyway, being poisoned (tree.rs 48-53: its root
      has been taken). *)
  Definition on_save : trigger Id Node value resource := fun c =>
    PRes ty_tree_id (fun search_tree =>
    PRes ty_extr (fun extractor =>
    with_intervals c extractor (fun l =>
      PAccess Excl [search_tree] (fun vs =>
          match vs with
          | [(a, DRes ty (RTree t))] =>
              if insert_all_panics t l then PPanic
              else PPoke a (DRes ty (RTree (insert_all t l))) (PRet RUnit)
          | _ => PPanic                            (* not reached *)
          end)
        (fun _ => PRet RUnit)))).

  (** plugin.rs 64-89: [on_delete]. *)
  Definition on_delete : trigger Id Node value resource := fun c =>
    PRes ty_tree_id (fun search_tree =>
    PRes ty_extr (fun extractor =>
    with_intervals c extractor (fun l =>
      PAccess Excl [search_tree] (fun vs =>
          match vs with
          | [(a, DRes ty (RTree t))] =>
              if delete_all_panics t l then PPanic
              else match delete_all t l with
              | Some t => PPoke a (DRes ty (RTree t)) (PRet RUnit)
              | None => PLoop
              end
          | _ => PPanic                            (* not reached *)
          end)
        (fun _ => PRet RUnit)))).

  (** plugin.rs 134-143 and schema/mod.rs 53-58: [install]. *)
  Definition install (all : Node -> option (list I)) (sw : schema Id Node value resource * world Id Node value resource) :
    schema Id Node value resource * world Id Node value resource :=
    sc_with_trigger AfterDelete on_delete
      (sc_with_trigger AfterSave on_save
        (sc_with_resource ty_tree_node (RTree t_default)
          (sc_with_resource ty_extr (RExtr all) sw))).
End Plugin.
Arguments resource : clear implicits.
Arguments value : clear implicits.
