(** Model of what becomes of the nodes a schema is given, as far as Rust's drop glue and the standard containers decide it:
    plotline/src/schema/transaction.rs 25-32, 47-97, 99-107, 117-167; graph/mod.rs 79-109.  The machine is that of Guards.v.

    A buffer of operations is behind an [Arc] (lines 31, 105, 359) shared by a transaction and its contexts: it is freed, and the nodes waiting in it
    are dropped, with the last of them.  A leaked context ([mem::forget]) keeps it for ever, and so does a leaked transaction. *)
From Coq Require Import List Bool Arith.
From Verif Require Import Ord BTree Graph Tx TxMachine Guards.
Import ListNotations.

Section Drops.
  Context {Id Node : Type} `{OrdT Id} `{Identify Node Id}.
  Notation event := (@event Id Node).
  Notation gcall := (@gcall Id Node).

  (** transaction.rs 170-176: the nodes owned by operations. *)
  Definition saves (ops : list (op Id Node)) : list Node :=
    flat_map (fun o => match o with OSave n => [n] | ODelete _ => [] end) ops.

  (** The nodes that calls took out of the graph. *)
  Definition taken (l : list (gcall * option Node)) : list Node :=
    flat_map (fun x => match snd x with Some n => [n] | None => [] end) l.

  (** graph/mod.rs 79-82: [Graph::with_node] ignores the node that [BTreeMap::insert] returns. *)
  Definition overwritten (g : graph Id Node) (c : gcall) : list Node :=
    match c with
    | GWithNode n => match g_get g (id_of n) with Some old => [old] | None => [] end
    | _ => []
    end.

  (** The nodes an event drops, in order, and for each whether the graph is locked for writing at that moment ([locked false]: a call of
      [Schema::read] or [Schema::write] in the node's destructor would block).

      - [tx.with(f)] with [f] failing or panicking drops the transaction: its fields are dropped in the order they are declared, the guard (line 30) before
        the operations (line 31).  So are those of a [Background] without guard that is committed (70-73).
      - [Background::commit] owns the guard (70) until it returns, and ignores what [insert] and [remove] return (88-95).
      - [Foreground::commit] moves the operations into its parent's buffer (165).
      - a [Background::commit] that panics drops the operations it has not got to before the guard, which was declared earlier (70, 75, 88). *)
  Definition drops (st : gstate Id Node) (e : gevent Id Node) : list (Node * bool) :=
    let p := m_proto (gs_m st) in
    let s := m_store (gs_m st) in
    if gs_hung st then [] else
    match e with
    | GEvent (EEnd t commit) =>
        if lost t st then [] else
        match nth_error (p_txs p) t with
        | Some (TxRec parent guard true) =>
            if has_ctx p t Live || has_ctx p t Leaked then [] else
            match commit, parent, guard with
            | true, Some _, _ => []
            | true, None, true => map (fun n => (n, locked false st)) (taken (snd (apply_told (s_graph s) (buf_ops (s_heap s) t))))
            | _, _, _ =>
                let closed := GState (Machine (close_tx t p) s) (gs_guards st) (gs_lost st) (gs_hung st) in
                map (fun n => (n, locked false closed)) (saves (buf_ops (s_heap s) t))
            end
        | _ => []
        end
    | GEvent (EWrite c) =>                   (* the guard is a temporary, dropped at the end of the statement *)
        if locked true st then [] else map (fun n => (n, true)) (overwritten (s_graph s) c)
    | GCall g c =>
        match usable g st with
        | Some true => map (fun n => (n, locked false st)) (overwritten (s_graph s) c)
        | _ => []
        end
    | GCrash t k =>
        match snd (g_step st e) with
        | GCrashed l => map (fun n => (n, locked false st)) (taken l ++ saves (skipn k (buf_ops (s_heap s) t)))
        | _ => []
        end
    | _ => []
    end.

  Fixpoint all_drops (st : gstate Id Node) (es : list (gevent Id Node)) : list (Node * bool) :=
    match es with
    | [] => []
    | e :: es => drops st e ++ all_drops (fst (g_step st e)) es
    end.

  (** Is the buffer of transaction [t] still allocated? *)
  Definition allocated (st : gstate Id Node) (t : nat) : bool :=
    match nth_error (p_txs (m_proto (gs_m st))) t with
    | Some r => tx_open r || has_ctx (m_proto (gs_m st)) t Leaked
    | None => false
    end.

  (** The nodes waiting in buffers. *)
  Definition waiting (st : gstate Id Node) (t : nat) : list Node :=
    if allocated st t then saves (buf_ops (s_heap (m_store (gs_m st))) t) else [].
  Definition all_waiting (st : gstate Id Node) : list Node :=
    flat_map (waiting st) (seq 0 (length (p_txs (m_proto (gs_m st))))).
End Drops.
