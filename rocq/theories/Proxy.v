(** Model of plotline/src/graph/proxy.rs: node proxies over a graph or over the contexts of
    a transaction, in histories that interleave them with any other API event. *)
From Coq Require Import List Bool Arith.
From Verif Require Import Ord BTree Graph Tx TxMachine.
Import ListNotations.

Section Proxy.
  Context {Id Node : Type} `{OrdT Id} `{Identify Node Id}.

  (** [Edge::all(node)] mapped to [edge.id()] (proxy.rs 95-99, property.rs 4-7): the edge type
      is a parameter, it is any function from nodes to lists of ids. *)
  Variable edges : Node -> list Id.

  (** proxy.rs 10-22: [trait Source], implemented by [Graph] (mod.rs 57-71; borrowed, so it does not
      change under a proxy) and [Context] (transaction.rs 363-401; named by its handle). *)
  Inductive source :=
  | SGraph (g : graph Id Node)
  | SCtx (c : nat).

  (** proxy.rs 25-36: [NodeProxy]; [px_value] is the [OnceLock<Option<S::Node>>]. *)
  Record proxy := Proxy { px_source : source; px_id : Id; px_value : option (option Node) }.

  (** proxy.rs 112-118: [NodeProxy::new]; also mod.rs 96-98 and transaction.rs 439-441. *)
  Definition px_new (s : source) (i : Id) : proxy := Proxy s i None.

  (** [Source::get], as a call in state [m]. [None]: not admitted (the context is gone). *)
  Definition src_get (m : @machine Id Node) (s : source) (i : Id) : option (option Node) :=
    match s with
    | SGraph g => Some (g_get g i)
    | SCtx c => match snd (m_step m (EGet c i)) with XNode r => Some r | _ => None end
    end.

  (** [Source::contains], likewise. *)
  Definition src_contains (m : @machine Id Node) (s : source) (i : Id) : option bool :=
    match s with
    | SGraph g => Some (g_contains g i)
    | SCtx c => match snd (m_step m (EContains c i)) with XBool b => Some b | _ => None end
    end.

  (** proxy.rs 73-77: [try_deref]; [get_or_init]. *)
  Definition px_deref (m : @machine Id Node) (p : proxy) : option (proxy * option Node) :=
    match px_value p with
    | Some v => Some (p, v)
    | None =>
        match src_get m (px_source p) (px_id p) with
        | Some v => Some (Proxy (px_source p) (px_id p) (Some v), v)
        | None => None
        end
    end.

  (** proxy.rs 44-50: [clone]; [OnceLock::clone] copies the value if there is one. *)
  Definition px_clone (p : proxy) : proxy := Proxy (px_source p) (px_id p) (px_value p).

  (** proxy.rs 121-123: [is_virtual]. *)
  Definition px_virtual (m : @machine Id Node) (p : proxy) : option bool :=
    option_map negb (src_contains m (px_source p) (px_id p)).

  (** proxy.rs 87-103: [successors]; returns the proxy after dereferencing too. *)
  Definition px_successors (m : @machine Id Node) (p : proxy) : option (proxy * list proxy) :=
    match px_deref m p with
    | None => None
    | Some (p', None) => Some (p', [])
    | Some (p', Some n) => Some (p', map (fun i => Proxy (px_source p) i None) (edges n))
    end.

  (** Histories: events on proxies, named by handles, interleaved with API events. A proxy borrows
      its context; instead of forbidding to drop the context first, calls on an orphan proxy
      that would reach the source are rejected. *)
  Inductive pxevent :=
  | PxEvent (e : @event Id Node)
  | PxNode (s : source) (i : Id)
  | PxDeref (k : nat)
  | PxClone (k : nat)
  | PxVirtual (k : nat)
  | PxSuccessors (k : nat).

  Inductive pxout :=
  | PxOut (o : @output Node)
  | PxHandles (first len : nat).     (* handles [first, first + len) *)

  Record pxstate := PxState { xs_machine : @machine Id Node; xs_proxies : list proxy }.

  Definition px_init (g : graph Id Node) : pxstate := PxState (m_init g) [].

  (** The source of a new proxy must exist. *)
  Definition src_ok (m : @machine Id Node) (s : source) : bool :=
    match s with SGraph _ => true | SCtx c => negb (p_hung (m_proto m)) && ctx_live (m_proto m) c end.

  Definition px_step (st : pxstate) (e : pxevent) : pxstate * pxout :=
    let m := xs_machine st in
    let ps := xs_proxies st in
    match e with
    | PxEvent e => let (m', o) := m_step m e in (PxState m' ps, PxOut o)
    | PxNode s i =>
        if src_ok m s then (PxState m (ps ++ [px_new s i]), PxHandles (length ps) 1)
        else (st, PxOut XInvalid)
    | PxDeref k =>
        match nth_error ps k with
        | None => (st, PxOut XInvalid)
        | Some p =>
            match px_deref m p with
            | None => (st, PxOut XInvalid)
            | Some (p', v) => (PxState m (alter (fun _ => p') k ps), PxOut (XNode v))
            end
        end
    | PxClone k =>
        match nth_error ps k with
        | None => (st, PxOut XInvalid)
        | Some p => (PxState m (ps ++ [px_clone p]), PxHandles (length ps) 1)
        end
    | PxVirtual k =>
        match nth_error ps k with
        | None => (st, PxOut XInvalid)
        | Some p =>
            match px_virtual m p with
            | None => (st, PxOut XInvalid)
            | Some b => (st, PxOut (XBool b))
            end
        end
    | PxSuccessors k =>
        match nth_error ps k with
        | None => (st, PxOut XInvalid)
        | Some p =>
            match px_successors m p with
            | None => (st, PxOut XInvalid)
            | Some (p', qs) =>
                (PxState m (alter (fun _ => p') k ps ++ qs), PxHandles (length ps) (length qs))
            end
        end
    end.

  Definition px_run (st : pxstate) (es : list pxevent) : pxstate :=
    fold_left (fun st e => fst (px_step st e)) es st.
End Proxy.
