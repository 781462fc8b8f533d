(** Model of plotline/src/graph/mod.rs and plotline/src/id.rs. *)
From Coq Require Import List.
From Verif Require Import Ord BTree.
Import ListNotations.

(** plotline/src/id.rs 4-8: [trait Identify].  Simplification: [id] is a pure
    function of the node (no interior mutability in the id). *)
Class Identify (T Id : Type) := { id_of : T -> Id }.

Section Graph.
  Context {Id Node : Type} `{OrdT Id} `{Identify Node Id}.

  (** plotline/src/graph/mod.rs 12-18: [struct Graph]. *)
  Definition graph := btree Id Node.

  (** graph/mod.rs 20-26: [Default for Graph]. *)
  Definition g_default : graph := [].

  (** graph/mod.rs 28-42: [FromIterator for Graph]. *)
  Definition g_from_iter (nodes : list Node) : graph :=
    bt_from_iter (map (fun n => (id_of n, n)) nodes).

  (** graph/mod.rs 44-55: [IntoIterator for &Graph]. *)
  Definition g_iter (g : graph) : list Node := bt_values g.

  (** graph/mod.rs 64-66: [Source::get for Graph] ([clone] of a node is the node). *)
  Definition g_get (g : graph) (i : Id) : option Node := bt_get i g.

  (** graph/mod.rs 68-70: [Source::contains for Graph]. *)
  Definition g_contains (g : graph) (i : Id) : bool := bt_contains_key i g.

  (** graph/mod.rs 79-82: [Graph::with_node]. *)
  Definition g_with_node (g : graph) (n : Node) : graph := bt_insert (id_of n) n g.

  (** graph/mod.rs 85-87: [Graph::insert]; new graph and previous node. *)
  Definition g_insert (g : graph) (n : Node) : graph * option Node :=
    (bt_insert (id_of n) n g, bt_get (id_of n) g).

  (** graph/mod.rs 107-109: [Graph::remove]; new graph and removed node. *)
  Definition g_remove (g : graph) (i : Id) : graph * option Node :=
    (bt_remove i g, bt_get i g).

  (** A call on a graph, for histories of calls. *)
  Inductive gcall :=
  | GWithNode (n : Node)
  | GInsert (n : Node)
  | GRemove (i : Id).

  Definition g_step (g : graph) (c : gcall) : graph * option Node :=
    match c with
    | GWithNode n => (g_with_node g n, None)
    | GInsert n => g_insert g n
    | GRemove i => g_remove g i
    end.

  (** The graph after a history of calls. *)
  Definition g_run (g : graph) (cs : list gcall) : graph :=
    fold_left (fun g c => fst (g_step g c)) cs g.

  (** The graphs obtainable through the API: a default graph or one collected
      from an iterator, then any calls. *)
  Inductive g_reachable : graph -> Prop :=
  | gr_default : g_reachable g_default
  | gr_from_iter : forall nodes, g_reachable (g_from_iter nodes)
  | gr_step : forall g c, g_reachable g -> g_reachable (fst (g_step g c)).
End Graph.
Arguments graph : clear implicits.
