(** Specification vocabulary for guards of the graph with any lifetime: histories of events with what they answered. *)
From Coq Require Import List Bool Arith.
From Verif Require Import Ord BTree Graph Tx TxMachine Guards.
Import ListNotations.

Section Spec.
  Context {Id Node : Type} `{OrdT Id} `{Identify Node Id}.
  Notation event := (@event Id Node).
  Notation output := (@output Node).
  Notation gevent := (gevent Id Node).
  Notation gout := (gout Id Node).

  Definition g_after (g0 : graph Id Node) (es : list gevent) : gstate Id Node := fst (g_run (g_init g0) es).
  Definition g_answers (g0 : graph Id Node) (es : list gevent) : list gout := snd (g_run (g_init g0) es).
  Definition g_says (g0 : graph Id Node) (es : list gevent) (e : gevent) : gout := snd (g_step (g_after g0 es) e).

  (** The graph as it can be seen after the history. *)
  Definition g_nodes (g0 : graph Id Node) (es : list gevent) : list Node := g_iter (s_graph (m_store (gs_m (g_after g0 es)))).

  (** Every call so far has returned. *)
  Definition returns (g0 : graph Id Node) (es : list gevent) : Prop := ~ In (GX XHang) (g_answers g0 es).

  (** ** The same history with guards that are dropped at once *)

  (** The events that were carried out; an access through a guard becomes one through a guard of its own, opening and dropping guards disappear.  A
      transaction whose commit panics becomes one that is dropped, followed by the calls that the commit made. *)
  Fixpoint erase (es : list gevent) (os : list gout) : list event :=
    match es, os with
    | GEvent e :: es, GX o :: os =>
        match o with XInvalid | XHang => erase es os | _ => e :: erase es os end
    | GGet _ i :: es, GX (XNode _) :: os => ERead i :: erase es os
    | GCall _ c :: es, GX (XNode _) :: os => EWrite c :: erase es os
    | GCrash t _ :: es, GCrashed l :: os => (EEnd t false :: map (fun x => EWrite (fst x)) l) ++ erase es os
    | _ :: es, _ :: os => erase es os
    | _, _ => []
    end.

  (** What those events answered. *)
  Fixpoint kept (es : list gevent) (os : list gout) : list output :=
    match es, os with
    | GEvent e :: es, GX o :: os =>
        match o with XInvalid | XHang => kept es os | _ => o :: kept es os end
    | GGet _ i :: es, GX (XNode r) :: os => XNode r :: kept es os
    | GCall _ c :: es, GX (XNode r) :: os => XNode r :: kept es os
    | GCrash t _ :: es, GCrashed l :: os => (XUnit :: map (fun x => XNode (snd x)) l) ++ kept es os
    | _ :: es, _ :: os => kept es os
    | _, _ => []
    end.

  (** ** Who holds the graph *)

  (** Event [e] happened in [es] and answered [o], and [e2] is what came after. *)
  Definition happened (g0 : graph Id Node) (es : list gevent) (e : gevent) (o : gout) (e2 : list gevent) : Prop :=
    exists e1, es = e1 ++ e :: e2 /\ g_says g0 e1 e = o.

  (** Guard [g] was opened and has not been dropped (it may have been leaked). *)
  Definition outstanding (g0 : graph Id Node) (es : list gevent) (write : bool) (g : nat) : Prop :=
    (exists e2, happened g0 es (GOpen write) (GX (XHandle g)) e2) /\
    ~ exists e2, happened g0 es (GDrop g) (GX XUnit) e2.

  (** Top-level transaction [t] has had a context and has not ended (it may have been leaked). *)
  Definition background (g0 : graph Id Node) (es : list gevent) (t : nat) : Prop :=
    exists e2, happened g0 es (GEvent EBackground) (GX (XHandle t)) e2.
  Definition had_context (g0 : graph Id Node) (es : list gevent) (t : nat) : Prop :=
    exists c e2, happened g0 es (GEvent (EContext t)) (GX (XHandle c)) e2.
  Definition ended (g0 : graph Id Node) (es : list gevent) (t : nat) : Prop :=
    (exists b e2, happened g0 es (GEvent (EEnd t b)) (GX XUnit) e2) \/ (exists k l e2, happened g0 es (GCrash t k) (GCrashed l) e2).
  Definition active (g0 : graph Id Node) (es : list gevent) (t : nat) : Prop :=
    background g0 es t /\ had_context g0 es t /\ ~ ended g0 es t.

  (** Event [e] asks for the graph, to read or to write. *)
  Inductive wants (g0 : graph Id Node) (es : list gevent) : gevent -> bool -> Prop :=
  | wants_open w : wants g0 es (GOpen w) w
  | wants_read i : wants g0 es (GEvent (ERead i)) false
  | wants_write c : wants g0 es (GEvent (EWrite c)) true
  | wants_context t : background g0 es t -> ~ had_context g0 es t -> ~ ended g0 es t -> wants g0 es (GEvent (EContext t)) true.

  (** Someone holds the graph in a way that excludes that. *)
  Definition excluded (g0 : graph Id Node) (es : list gevent) (write : bool) : Prop :=
    (exists t, active g0 es t) \/ (exists g, outstanding g0 es true g) \/ (write = true /\ exists g, outstanding g0 es false g).

  (** Something that holds the graph was leaked: a guard, or a transaction that had a context. *)
  Definition leaked (g0 : graph Id Node) (es : list gevent) (write : bool) : Prop :=
    (exists g e2 e3, happened g0 es (GOpen write) (GX (XHandle g)) e2 /\ happened g0 es (GLeak g) (GX XUnit) e3) \/
    (write = true /\ exists t e2, happened g0 es (GForget t) (GX XUnit) e2).
End Spec.
