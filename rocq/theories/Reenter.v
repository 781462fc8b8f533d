(** Model of user code that uses the schema in the middle of a call of the API: plotline/src/schema/transaction.rs 62-96, 136-166,
    363-401, 455-472; graph/mod.rs 57-71, 79-109; schema/guard.rs 20-29, 56-74.  The machine extends that of Guards.v, where every call happens at once.

    Reads compare and clone, calls on the graph and commits compare, clone and drop: that is code of users ([PartialEq], [Ord], [Clone] and [Drop] of
    ids and nodes, [Identify::id]), and it may call the API itself, to any depth.  Here such a call is a frame on a stack; between any two of its steps
    user code may do whatever rustc admits, and at any point it may panic.

    Simplifications: [ERead] and [EWrite], accesses through temporary guards, are one step here too; with the guard written out they are not.  The end
    of a transaction that is not published is one step: its nodes are dropped last, when it is closed and holds no guard, so that what their
    destructors call comes after it. *)
From Coq Require Import List Bool Arith.
From Verif Require Import Ord BTree Graph Tx TxMachine Guards.
Import ListNotations.

Section Reenter.
  Context {Id Node : Type} `{OrdT Id} `{Identify Node Id}.
  Notation gstate := (gstate Id Node).
  Notation gevent := (gevent Id Node).
  Notation gout := (gout Id Node).
  Notation op := (op Id Node).

  (** A call that has begun and has not returned.  [held]: the buffers of operations it has locked for reading. *)
  Inductive frame :=
  | FLook (get : bool) (c : nat) (i : Id) (held : list nat) (at_ : ctx) (rest : list op)
      (* ctx.get(&id), ctx.contains(&id): comparing with the operations of [at_], [c] or one of its ancestors; [rest] is to come
         transaction.rs 376, 392 *)
  | FBase (get : bool) (c : nat) (i : Id) (held : list nat)       (* in Graph::get, Graph::contains     transaction.rs 382, 398 *)
  | FFound (c : nat) (i : Id) (held : list nat) (n : Node)        (* cloning the node found             transaction.rs 377 *)
  | FGet (g : nat) (i : Id)                                       (* guard.get(&id)                     guard.rs 20-29, 56-65 *)
  | FCall (g : nat) (c : @gcall Id Node) (r : option (option Node))    (* a call through DerefMut, carried out or not yet    guard.rs 67-74 *)
  | FCommit (t : nat) (l : list (@gcall Id Node * option Node)) (rest : list op)
      (* Background::commit: the calls on the graph so far, the operations left     transaction.rs 88-95 *)
  | FCrash (t : nat) (l : list (@gcall Id Node * option Node)).   (* unwinding from it, the guard still held: the operations left are dropped *)

  Record rstate := RState { rs_g : gstate; rs_frames : list frame }.

  Inductive revent :=
  | RCall (e : gevent)                 (* a call begins *)
  | RStep                              (* the innermost unfinished call goes on *)
  | RPanic.                            (* user code panics in the innermost unfinished call *)

  Inductive rout :=
  | RRunning                           (* not finished *)
  | RAnswer (o : gout)
  | RPanicked (r : option (option Node)).   (* it panicked; [Some r]: after having changed the graph, where it would have returned [r] *)

  Definition r_init (g : graph Id Node) : rstate := RState (g_init g) [].

  (** [ctx_live], no context left: what transaction.rs 70-83 asks for before operations are applied. *)
  Definition publishes (st : gstate) (t : nat) : bool :=
    match nth_error (p_txs (m_proto (gs_m st))) t with
    | Some (TxRec None true true) =>
        negb (lost t st || has_ctx (m_proto (gs_m st)) t Live || has_ctx (m_proto (gs_m st)) t Leaked)
    | _ => false
    end.

  (** The first frame of a call of which user code is a part; [None]: it runs none, or is rejected. *)
  Definition begins (st : gstate) (e : gevent) : option frame :=
    let s := m_store (gs_m st) in
    let look get c i :=
      if ctx_live (m_proto (gs_m st)) c then
        let b := ctx_buf (ctx_value s c) in Some (FLook get c i [b] (ctx_value s c) (rev (buf_ops (s_heap s) b)))
      else None in
    match e with
    | GEvent (EGet c i) => look true c i
    | GEvent (EContains c i) => look false c i
    | GEvent (EEnd t true) => if publishes st t then Some (FCommit t [] (buf_ops (s_heap s) t)) else None
    | GGet g i => match usable g st with Some _ => Some (FGet g i) | None => None end
    | GCall g c => match usable g st with Some true => Some (FCall g c None) | _ => None end
    | _ => None
    end.

  (** rustc's borrow checker: an unfinished call borrows its context or guard, and has consumed its transaction. *)
  Definition borrows (f : frame) (e : gevent) : bool :=
    match f, e with
    | (FLook _ c _ _ _ _ | FBase _ c _ _ | FFound c _ _ _), (GEvent (EDropCtx c') | GEvent (ELeakCtx c')) => Nat.eqb c c'
    | FGet g _, (GDrop g' | GLeak g' | GCall g' _) => Nat.eqb g g'
    | FCall g _ _, (GDrop g' | GLeak g' | GCall g' _ | GGet g' _ | GIter g') => Nat.eqb g g'
    | (FCommit t _ _ | FCrash t _), (GEvent (EContext t') | GEvent (EEnd t' _) | GForget t') => Nat.eqb t t'
    | _, _ => false
    end.

  Definition rejected (fs : list frame) (e : gevent) : bool :=
    match e with GCrash _ _ => true | _ => existsb (fun f => borrows f e) fs end.        (* [RPanic] instead of [GCrash] *)

  (** The buffers locked for reading: guards live until the read returns (transaction.rs 371, 387). *)
  Definition reading (f : frame) : list nat :=
    match f with FLook _ _ _ held _ _ | FBase _ _ _ held | FFound _ _ held _ => held | _ => [] end.

  (** The buffer a call locks for writing (transaction.rs 456, 466, 154). *)
  Definition writes (st : gstate) (e : gevent) : option nat :=
    let p := m_proto (gs_m st) in
    let s := m_store (gs_m st) in
    match e with
    | GEvent (ESave c _) | GEvent (EDelete c _) => if ctx_live p c then Some (ctx_buf (ctx_value s c)) else None
    | GEvent (EEnd t true) =>
        match nth_error (p_txs p) t with
        | Some (TxRec (Some c) _ true) => if has_ctx p t Live || has_ctx p t Leaked then None else Some (ctx_buf (ctx_value s c))
        | _ => None
        end
    | _ => None
    end.

  Definition waits (fs : list frame) (st : gstate) (e : gevent) : bool :=
    match writes st e with
    | Some b => existsb (fun f => existsb (Nat.eqb b) (reading f)) fs
    | None => false
    end.

  Definition with_graph (g : graph Id Node) (st : gstate) : gstate :=
    let s := m_store (gs_m st) in
    GState (Machine (m_proto (gs_m st)) (Store g (s_heap s) (s_ctxs s))) (gs_guards st) (gs_lost st) (gs_hung st).

  Definition closed (t : nat) (st : gstate) : gstate :=
    GState (Machine (close_tx t (m_proto (gs_m st))) (m_store (gs_m st))) (gs_guards st) (gs_lost st) (gs_hung st).

  Definition look_answer (get : bool) (r : option Node) : gout :=
    if get then GX (XNode r) else GX (XBool (match r with Some _ => true | None => false end)).

  (** The innermost call goes on, up to the next call of user code or to its end. *)
  Definition f_step (st : gstate) (f : frame) : gstate * (frame + gout) :=
    let s := m_store (gs_m st) in
    match f with
    | FLook get c i held at_ (o :: rest) =>
        if eqb (op_id o) i then
          match o with
          | OSave n => if get then (st, inl (FFound c i held n)) else (st, inr (GX (XBool true)))
          | ODelete _ => (st, inr (look_answer get None))
          end
        else (st, inl (FLook get c i held at_ rest))
    | FLook get c i held at_ [] =>
        match at_ with
        | CRoot _ _ => (st, inl (FBase get c i held))
        | CSub q _ _ => (st, inl (FLook get c i (held ++ [ctx_buf q]) q (rev (buf_ops (s_heap s) (ctx_buf q)))))
        end
    | FBase get c i _ => (st, inr (if get then GX (XNode (g_get (s_graph s) i)) else GX (XBool (g_contains (s_graph s) i))))
    | FFound c i _ n => (st, inr (GX (XNode (Some n))))
    | FGet g i => (st, inr (GX (XNode (g_get (s_graph s) i))))
    | FCall g c None => let (g', r) := Graph.g_step (s_graph s) c in (with_graph g' st, inl (FCall g c (Some r)))
    | FCall g c (Some r) => (st, inr (GX (XNode r)))
    | FCommit t l (o :: rest) =>
        let (g', r) := Graph.g_step (s_graph s) (op_call o) in (with_graph g' st, inl (FCommit t (l ++ [(op_call o, r)]) rest))
    | FCommit t l [] => (closed t st, inr (GX XUnit))
    | FCrash t l => (closed t st, inr (GCrashed l))
    end.

  Definition r_step (st : rstate) (e : revent) : rstate * rout :=
    let g := rs_g st in
    let fs := rs_frames st in
    if gs_hung g then (st, RAnswer (GX XHang)) else
    match e with
    | RCall e =>
        if rejected fs e then (st, RAnswer (GX XInvalid)) else
        match begins g e with
        | Some f => (RState g (f :: fs), RRunning)
        | None =>
            let (g', o) := if waits fs g e then g_hang g else g_step g e in
            (RState g' fs, RAnswer o)
        end
    | RStep =>
        match fs with
        | [] => (st, RAnswer (GX XInvalid))
        | f :: fs =>
            match f_step g f with
            | (g', inl f') => (RState g' (f' :: fs), RRunning)
            | (g', inr o) => (RState g' fs, RAnswer o)
            end
        end
    | RPanic =>
        match fs with
        | [] => (st, RAnswer (GX XInvalid))
        | FCommit _ [] [] :: _ | FCrash _ _ :: _ => (st, RAnswer (GX XInvalid))     (* no user code runs; a second panic aborts *)
        | FCommit t l _ :: fs => (RState g (FCrash t l :: fs), RRunning)
        | FCall _ _ r :: fs => (RState g fs, RPanicked r)
        | _ :: fs => (RState g fs, RPanicked None)
        end
    end.

  Fixpoint r_run (st : rstate) (es : list revent) : rstate * list rout :=
    match es with
    | [] => (st, [])
    | e :: es =>
        let (st1, o) := r_step st e in
        let (st2, os) := r_run st1 es in
        (st2, o :: os)
    end.
End Reenter.
Arguments rstate : clear implicits.
Arguments revent : clear implicits.
Arguments rout : clear implicits.
Arguments frame : clear implicits.
