(** Specification vocabulary for commits in which user code panics, among guards and transactions of any lifetime. *)
From Coq Require Import List Bool Arith.
From Verif Require Import Ord BTree Graph Tx TxMachine SpecTx Guards SpecGuards.
Import ListNotations.

Section Spec.
  Context {Id Node : Type} `{OrdT Id} `{Identify Node Id}.
  Notation graph := (graph Id Node).
  Notation gevent := (gevent Id Node).

  (** What transaction [t] has gathered in the history: what was saved and deleted in it, and what committed sub-transactions brought. *)
  Definition gathered (g0 : graph) (es : list gevent) (t : nat) : list entry :=
    j_tx (j_run (m_init g0) (erase es (g_answers g0 es)) (Journal (fun _ => []) [])) t.

  (** What a call puts where. *)
  Definition call_entry (c : @gcall Id Node) : entry :=
    match c with
    | GWithNode n | GInsert n => (id_of n, Some n)
    | GRemove i => (i, None)
    end.

  (** Every context of [t] was dropped. *)
  Definition contexts_gone (g0 : graph) (es : list gevent) (t : nat) : Prop :=
    forall c e2, happened g0 es (GEvent (EContext t)) (GX (XHandle c)) e2 -> exists e3, happened g0 es (GEvent (EDropCtx c)) (GX XUnit) e3.

  Definition forgotten (g0 : graph) (es : list gevent) (t : nat) : Prop := exists e2, happened g0 es (GForget t) (GX XUnit) e2.

  Definition node_at (g0 : graph) (es : list gevent) : Id -> option Node := g_get (s_graph (m_store (gs_m (g_after g0 es)))).

  (** The transaction is dropped and the calls are made through guards of their own. *)
  Definition dropped_then (t : nat) (l : list (@gcall Id Node)) : list gevent := GEvent (EEnd t false) :: map (fun c => GEvent (EWrite c)) l.
End Spec.
