(** Model of guards of the graph with any lifetime: plotline/src/schema/guard.rs, schema/mod.rs 96-110.
    [SchemaReadGuard] and [SchemaWriteGuard] are values: a program may keep several of them, drop them in any order, leak them
    ([mem::forget]), and use transactions meanwhile.  The machine extends that of TxMachine.v, whose [ERead] and [EWrite] are
    guards dropped at once. *)
From Coq Require Import List Bool Arith.
From Verif Require Import Ord BTree Graph Tx TxMachine.
Import ListNotations.

Section Guards.
  Context {Id Node : Type} `{OrdT Id} `{Identify Node Id}.
  Notation event := (@event Id Node).
  Notation machine := (@machine Id Node).
  Notation output := (@output Node).

  (** guard.rs 13-18 and 49-54: [sg_write] tells a [SchemaWriteGuard]. *)
  Record sguard := SGuard { sg_write : bool; sg_status : status }.

  (** [gs_lost]: the transactions leaked with the graph's write guard in them.  [gs_hung]: the thread waits for ever. *)
  Record gstate := GState { gs_m : machine; gs_guards : list sguard; gs_lost : list nat; gs_hung : bool }.

  Inductive gevent :=
  | GEvent (e : event)
  | GForget (t : nat)              (* mem::forget(tx), tx holding the graph; of other transactions it is like dropping them *)
  | GCrash (t : nat) (k : nat)     (* end of tx.with(f), f having returned Ok: user code ([Clone], [Ord] or [Drop] of ids and nodes) panics in the
                                      commit once [k] operations are applied     transaction.rs 88-95; the panic itself is in Unwind.v *)
  | GOpen (write : bool)           (* schema.read(), schema.write()          mod.rs 102-110 *)
  | GGet (g : nat) (i : Id)        (* guard.get(&id)                         guard.rs 20-29, 56-65 *)
  | GIter (g : nat)                (* (&*guard).into_iter()                  graph/mod.rs 44-55 *)
  | GCall (g : nat) (c : @gcall Id Node)   (* a call through DerefMut        guard.rs 67-74 *)
  | GDrop (g : nat)
  | GLeak (g : nat).               (* mem::forget(guard) *)

  (** [GCrashed]: the calls the commit made on the graph before it panicked, with the nodes they took out of it, which are dropped. *)
  Inductive gout := GX (o : output) | GNodes (l : list Node) | GCrashed (l : list (@gcall Id Node * option Node)).

  Definition g_init (g : graph Id Node) : gstate := GState (m_init g) [] [] false.

  (** A guard that has not been dropped holds the lock, leaked or not. *)
  Definition holds (write : bool) (g : sguard) : bool :=
    Bool.eqb (sg_write g) write && match sg_status g with Dropped => false | _ => true end.
  Definition held (write : bool) (st : gstate) : bool := existsb (holds write) (gs_guards st).

  (** Is the graph's lock held in a way that blocks [read] or [write] (guard.rs 37, 82)? *)
  Definition locked (write : bool) (st : gstate) : bool :=
    guard_held (m_proto (gs_m st)) || held true st || (write && held false st).

  Definition lost (t : nat) (st : gstate) : bool := existsb (Nat.eqb t) (gs_lost st).

  Definition usable (g : nat) (st : gstate) : option bool :=
    match nth_error (gs_guards st) g with
    | Some (SGuard w Live) => Some w
    | _ => None
    end.

  Definition set_guard (s : status) (g : nat) (st : gstate) : gstate :=
    GState (gs_m st) (alter (fun x => SGuard (sg_write x) s) g (gs_guards st)) (gs_lost st) (gs_hung st).

  Definition g_hang (st : gstate) : gstate * gout := (GState (gs_m st) (gs_guards st) (gs_lost st) true, GX XHang).

  Definition g_pass (st : gstate) (e : event) : gstate * gout :=
    let (m, o) := m_step (gs_m st) e in (GState m (gs_guards st) (gs_lost st) (gs_hung st), GX o).

  (** Does the event ask for the graph's lock, and how?  [EContext]: the first context of a [Background] (transaction.rs 410). *)
  Definition asks (st : gstate) (e : event) : option bool :=
    match e with
    | EContext t =>
        match nth_error (p_txs (m_proto (gs_m st))) t with
        | Some (TxRec None false true) => Some true
        | _ => None
        end
    | ERead _ => Some false
    | EWrite _ => Some true
    | _ => None
    end.

  (** Events on a transaction that was leaked are rejected by rustc: it was moved. *)
  Definition of_lost (st : gstate) (e : event) : bool :=
    match e with EContext t | EEnd t _ => lost t st | _ => false end.

  (** transaction.rs 88-95: what is called for an operation. *)
  Definition op_call (o : op Id Node) : @gcall Id Node := match o with OSave n => GInsert n | ODelete i => GRemove i end.

  (** The loop of [Background::commit] over these operations: the graph afterwards, the calls and what they returned. *)
  Fixpoint apply_told (g : graph Id Node) (ops : list (op Id Node)) : graph Id Node * list (@gcall Id Node * option Node) :=
    match ops with
    | [] => (g, [])
    | o :: ops =>
        let (g1, r) := Graph.g_step g (op_call o) in
        let (g2, l) := apply_told g1 ops in
        (g2, (op_call o, r) :: l)
    end.

  (** Can user code panic once [k] operations are applied?  It runs for every operation: before it is applied ([Clone], [Ord]), and after it
      ([Drop] of the node that it takes out of the graph). *)
  Definition can_crash (k : nat) (ops : list (op Id Node)) : bool := (0 <? length ops) && (k <=? length ops).

  Definition g_step (st : gstate) (e : gevent) : gstate * gout :=
    if gs_hung st then (st, GX XHang) else
    match e with
    | GEvent e =>
        if of_lost st e then (st, GX XInvalid) else
        match asks st e with
        | Some w => if locked w st then g_hang st else g_pass st e
        | None => g_pass st e
        end
    | GForget t =>
        if lost t st then (st, GX XInvalid) else
        match nth_error (p_txs (m_proto (gs_m st))) t with
        | Some (TxRec None true true) =>
            if has_ctx (m_proto (gs_m st)) t Live then (st, GX XInvalid)         (* still borrowed *)
            else (GState (gs_m st) (gs_guards st) (t :: gs_lost st) (gs_hung st), GX XUnit)
        | _ => (st, GX XInvalid)
        end
    | GCrash t k =>
        if lost t st then (st, GX XInvalid) else
        match nth_error (p_txs (m_proto (gs_m st))) t with
        | Some (TxRec None true true) =>
            let s := m_store (gs_m st) in
            (* contexts still in use: rejected by rustc, or nothing is applied (transaction.rs 75-78) *)
            if has_ctx (m_proto (gs_m st)) t Live || has_ctx (m_proto (gs_m st)) t Leaked || negb (can_crash k (buf_ops (s_heap s) t)) then (st, GX XInvalid)
            else
              let (g', l) := apply_told (s_graph s) (firstn k (buf_ops (s_heap s) t)) in
              (GState (Machine (close_tx t (m_proto (gs_m st))) (Store g' (s_heap s) (s_ctxs s))) (gs_guards st) (gs_lost st) (gs_hung st), GCrashed l)
        | _ => (st, GX XInvalid)
        end
    | GOpen w =>
        if locked w st then g_hang st
        else (GState (gs_m st) (gs_guards st ++ [SGuard w Live]) (gs_lost st) (gs_hung st), GX (XHandle (length (gs_guards st))))
    | GGet g i =>
        match usable g st with
        | Some _ => (st, GX (XNode (g_get (s_graph (m_store (gs_m st))) i)))
        | None => (st, GX XInvalid)
        end
    | GIter g =>
        match usable g st with
        | Some _ => (st, GNodes (g_iter (s_graph (m_store (gs_m st)))))
        | None => (st, GX XInvalid)
        end
    | GCall g c =>
        match usable g st with
        | Some true =>
            let s := m_store (gs_m st) in
            let (g', r) := Graph.g_step (s_graph s) c in
            (GState (Machine (m_proto (gs_m st)) (Store g' (s_heap s) (s_ctxs s))) (gs_guards st) (gs_lost st) (gs_hung st), GX (XNode r))
        | _ => (st, GX XInvalid)
        end
    | GDrop g =>
        match usable g st with
        | Some _ => (set_guard Dropped g st, GX XUnit)
        | None => (st, GX XInvalid)
        end
    | GLeak g =>
        match usable g st with
        | Some _ => (set_guard Leaked g st, GX XUnit)
        | None => (st, GX XInvalid)
        end
    end.

  Fixpoint g_run (st : gstate) (es : list gevent) : gstate * list gout :=
    match es with
    | [] => (st, [])
    | e :: es =>
        let (st1, o) := g_step st e in
        let (st2, os) := g_run st1 es in
        (st2, o :: os)
    end.
End Guards.
Arguments gstate : clear implicits.
Arguments gevent : clear implicits.
Arguments gout : clear implicits.
