(** Histories of API events over any number of transactions and contexts of
    one schema (plotline/src/schema/transaction.rs, schema/mod.rs, guard.rs).

    The machine is split in two:
    - [p_step]: the handle and lock protocol -- which calls rustc's borrow checker
      admits ([AInvalid] otherwise), and which calls block forever because the
      graph's [RwLock] is held by the same thread ([AHang]; a schema is neither [Send]
      nor [Sync], so no other thread can release it);
    - [m_exec]: what an admitted call does to the stored data.

    This covers histories [with] alone cannot produce: contexts created by
    [Context::from(&tx)], several sibling sub-transactions open at the same time,
    operations on an outer context while an inner one is open. *)
From Coq Require Import List Bool Arith.
From Verif Require Import Ord BTree Graph Tx.
Import ListNotations.

Section Machine.
  Context {Id Node : Type} `{OrdT Id} `{Identify Node Id}.

  (** Ownership status of a [Context] value: alive, dropped, or leaked
      ([mem::forget]), in which case its clone of the operations' [Arc] is never
      released. *)
  Inductive status := Live | Dropped | Leaked.

  (** A transaction: [tx_parent] is the parent context's handle for a
      [Foreground] (transaction.rs 100-106) and [None] for a [Background] (25-32);
      [tx_guard] tells whether the [OnceLock] holds the graph's write guard;
      [tx_open] is false once the transaction has been consumed or dropped.  Its
      operation buffer is the heap address equal to its handle. *)
  Record txrec := TxRec { tx_parent : option nat; tx_guard : bool; tx_open : bool }.

  (** A context: the transaction it was built from, and its status. *)
  Record ctxrec := CtxRec { cr_tx : nat; cr_status : status }.

  Record proto := Proto { p_txs : list txrec; p_ctxs : list ctxrec; p_hung : bool }.

  (** API events. *)
  Inductive event :=
  | EBackground                       (* schema.transaction()            mod.rs 98-100 *)
  | EForeground (c : nat)             (* ctx.transaction()       transaction.rs 491-493 *)
  | EContext (t : nat)                (* Context::from(&tx)      transaction.rs 403-431 *)
  | ESave (c : nat) (n : Node)        (* ctx.save(node)          transaction.rs 455-462 *)
  | EDelete (c : nat) (i : Id)        (* ctx.delete(id)          transaction.rs 465-472 *)
  | EGet (c : nat) (i : Id)           (* ctx.get(&id)            transaction.rs 370-384 *)
  | EContains (c : nat) (i : Id)      (* ctx.contains(&id)       transaction.rs 386-400 *)
  | EDropCtx (c : nat)                (* drop(ctx) *)
  | ELeakCtx (c : nat)                (* mem::forget(ctx) *)
  | EEnd (t : nat) (commit : bool)    (* end of tx.with(f): commit if f returned Ok;
                                         [commit = false]: f returned Err, or drop(tx) *)
  | ERead (i : Id)                    (* schema.read().get(&id)           guard.rs 31-46 *)
  | EWrite (c : @gcall Id Node).      (* a call on schema.write()         guard.rs 76-91 *)

  (** What an event does to the stored data. *)
  Inductive action :=
  | AInvalid                          (* rejected by the borrow checker *)
  | AHang                             (* never returns *)
  | ANewTx
  | ANewCtx (t : nat) (parent : option nat)
  | ASave (c : nat) (n : Node)
  | ADelete (c : nat) (i : Id)
  | AGet (c : nat) (i : Id)
  | AContains (c : nat) (i : Id)
  | AMerge (t : nat) (c : nat)        (* extend the operations of parent context [c] *)
  | APublish (t : nat)                (* apply to the graph *)
  | ANone
  | ARead (i : Id)
  | AWrite (c : @gcall Id Node).

  Definition ctx_live (p : proto) (c : nat) : bool :=
    match nth_error (p_ctxs p) c with
    | Some (CtxRec _ Live) => true
    | _ => false
    end.

  Definition tx_live (p : proto) (t : nat) : bool :=
    match nth_error (p_txs p) t with
    | Some r => tx_open r
    | None => false
    end.

  (** Some context of transaction [t] has the given status. *)
  Definition has_ctx (p : proto) (t : nat) (s : status) : bool :=
    existsb (fun r => Nat.eqb (cr_tx r) t &&
      match cr_status r, s with
      | Live, Live | Dropped, Dropped | Leaked, Leaked => true
      | _, _ => false
      end) (p_ctxs p).

  (** Some open [Foreground] borrows context [c]. *)
  Definition ctx_borrowed (p : proto) (c : nat) : bool :=
    existsb (fun r => tx_open r &&
      match tx_parent r with Some c' => Nat.eqb c c' | None => false end) (p_txs p).

  (** The graph's write guard is held by some transaction. *)
  Definition guard_held (p : proto) : bool := existsb tx_guard (p_txs p).

  Definition set_status (s : status) (c : nat) (p : proto) : proto :=
    Proto (p_txs p) (alter (fun r => CtxRec (cr_tx r) s) c (p_ctxs p)) (p_hung p).

  Definition close_tx (t : nat) (p : proto) : proto :=
    Proto (alter (fun r => TxRec (tx_parent r) false false) t (p_txs p)) (p_ctxs p) (p_hung p).

  Definition hang (p : proto) : proto := Proto (p_txs p) (p_ctxs p) true.

  Definition p_step (p : proto) (e : event) : proto * action :=
    if p_hung p then (p, AHang) else
    match e with
    | EBackground =>
        (Proto (p_txs p ++ [TxRec None false true]) (p_ctxs p) false, ANewTx)
    | EForeground c =>
        if ctx_live p c
        then (Proto (p_txs p ++ [TxRec (Some c) false true]) (p_ctxs p) false, ANewTx)
        else (p, AInvalid)
    | EContext t =>
        match nth_error (p_txs p) t with
        | Some (TxRec (Some c) _ true) =>
            (Proto (p_txs p) (p_ctxs p ++ [CtxRec t Live]) false, ANewCtx t (Some c))
        | Some (TxRec None true true) =>
            (* get_or_init: already initialised *)
            (Proto (p_txs p) (p_ctxs p ++ [CtxRec t Live]) false, ANewCtx t None)
        | Some (TxRec None false true) =>
            (* get_or_init: schema.write() *)
            if guard_held p then (hang p, AHang)
            else (Proto (alter (fun r => TxRec (tx_parent r) true (tx_open r)) t (p_txs p))
                        (p_ctxs p ++ [CtxRec t Live]) false, ANewCtx t None)
        | _ => (p, AInvalid)
        end
    | ESave c n => if ctx_live p c then (p, ASave c n) else (p, AInvalid)
    | EDelete c i => if ctx_live p c then (p, ADelete c i) else (p, AInvalid)
    | EGet c i => if ctx_live p c then (p, AGet c i) else (p, AInvalid)
    | EContains c i => if ctx_live p c then (p, AContains c i) else (p, AInvalid)
    | EDropCtx c =>
        if ctx_live p c && negb (ctx_borrowed p c)
        then (set_status Dropped c p, ANone) else (p, AInvalid)
    | ELeakCtx c =>
        if ctx_live p c && negb (ctx_borrowed p c)
        then (set_status Leaked c p, ANone) else (p, AInvalid)
    | EEnd t commit =>
        match nth_error (p_txs p) t with
        | Some (TxRec parent guard true) =>
            if has_ctx p t Live then (p, AInvalid)    (* still borrowed *)
            else if negb commit then (close_tx t p, ANone)
            else
              (* Arc::into_inner: fails while a leaked context holds a clone
                 (transaction.rs 75-78, 141-144) *)
              if has_ctx p t Leaked then (close_tx t p, ANone)
              else match parent with
              | Some c => (close_tx t p, AMerge t c)
              | None =>
                  (* guard.take(): transaction.rs 70-73 *)
                  if guard then (close_tx t p, APublish t) else (close_tx t p, ANone)
              end
        | _ => (p, AInvalid)
        end
    | ERead i => if guard_held p then (hang p, AHang) else (p, ARead i)
    | EWrite c => if guard_held p then (hang p, AHang) else (p, AWrite c)
    end.

  (** Stored data: the graph, one operation buffer per transaction, and the
      value of every context ever created. *)
  Record store := Store { s_graph : graph Id Node; s_heap : heap Id Node; s_ctxs : list ctx }.

  Inductive output :=
  | XInvalid
  | XHang
  | XHandle (h : nat)
  | XNode (r : option Node)
  | XBool (b : bool)
  | XUnit.

  Definition ctx_value (s : store) (c : nat) : ctx := nth c (s_ctxs s) (CRoot 0 None).

  Definition m_exec (s : store) (a : action) : store * output :=
    match a with
    | AInvalid => (s, XInvalid)
    | AHang => (s, XHang)
    | ANewTx =>                           (* operations: Default::default() (42, 115) *)
        (Store (s_graph s) (s_heap s ++ [[]]) (s_ctxs s), XHandle (length (s_heap s)))
    | ANewCtx t parent =>
        let c := match parent with
                 | None => CRoot t None
                 | Some p => CSub (ctx_value s p) t None
                 end in
        (Store (s_graph s) (s_heap s) (s_ctxs s ++ [c]), XHandle (length (s_ctxs s)))
    | ASave c n => (Store (s_graph s) (ctx_save (s_heap s) (ctx_value s c) n) (s_ctxs s), XUnit)
    | ADelete c i => (Store (s_graph s) (ctx_delete (s_heap s) (ctx_value s c) i) (s_ctxs s), XUnit)
    | AGet c i => (s, XNode (ctx_get (s_heap s) (s_graph s) (ctx_value s c) i))
    | AContains c i => (s, XBool (ctx_contains (s_heap s) (s_graph s) (ctx_value s c) i))
    | AMerge t c =>
        (Store (s_graph s) (fg_extend (s_heap s) (ctx_value s c) t) (s_ctxs s), XUnit)
    | APublish t =>
        (Store (apply_ops (s_graph s) (buf_ops (s_heap s) t)) (s_heap s) (s_ctxs s), XUnit)
    | ANone => (s, XUnit)
    | ARead i => (s, XNode (g_get (s_graph s) i))
    | AWrite c => let r := g_step (s_graph s) c in
        (Store (fst r) (s_heap s) (s_ctxs s), XNode (snd r))
    end.

  Record machine := Machine { m_proto : proto; m_store : store }.

  Definition m_init (g : graph Id Node) : machine :=
    Machine (Proto [] [] false) (Store g [] []).

  Definition m_step (m : machine) (e : event) : machine * output :=
    let (p, a) := p_step (m_proto m) e in
    let (s, o) := m_exec (m_store m) a in
    (Machine p s, o).

  Fixpoint m_run (m : machine) (es : list event) : machine * list output :=
    match es with
    | [] => (m, [])
    | e :: es =>
        let (m1, o) := m_step m e in
        let (m2, os) := m_run m1 es in
        (m2, o :: os)
    end.
End Machine.
