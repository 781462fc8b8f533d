(** Specification vocabulary for what becomes of the nodes of a program, in terms of the calls it makes. *)
From Coq Require Import List Bool Arith.
From Verif Require Import Cells Ord BTree Graph Tx TxMachine Guards Unwind Prog SpecProg SpecCalls Drops SpecDrops.
Import ListNotations.

Section Spec.
  Context {Id Node V U : Type} `{OrdT Id} `{Identify Node Id}.
  Notation made := (@made Id Node U).
  Notation gevent := (gevent Id Node).
  Notation gout := (gout Id Node).

  (** The calls on the graph, its guards, transactions and contexts, and what they answered. *)
  Definition on_graph (es : list made) : list (gevent * gout) :=
    flat_map (fun x => match x with OnGraph (UEvent e) (a, _) => [(e, a)] | _ => [] end) es.

  (** The nodes given to contexts ([save]) and to write guards ([insert], [with_node]). *)
  Definition handed (es : list made) : list Node := given (map fst (on_graph es)) (map snd (on_graph es)).

  (** The nodes that write guards gave back: those that [insert] replaced and that [remove] removed. *)
  Definition handed_back (es : list made) : list Node := given_back (map fst (on_graph es)) (map snd (on_graph es)).

  (** The nodes dropped by the schema in the course of these calls, on a schema with graph [g] that nobody uses; for each, whether the graph is
      locked at that moment. *)
  Definition dropped (g : graph Id Node) (es : list made) : list (Node * bool) := all_drops (g_init g) (map fst (on_graph es)).

  (** A context was leaked. *)
  Definition leaks (es : list made) : Prop := exists c a, In (GEvent (ELeakCtx c), a) (on_graph es).
End Spec.
