(** Specification vocabulary for proxies. *)
From Coq Require Import List Bool Arith.
From Verif Require Import Ord BTree Graph Tx TxMachine Proxy.
Import ListNotations.

Section Spec.
  Context {Id Node : Type} `{OrdT Id} `{Identify Node Id}.
  Variable edges : Node -> list Id.
  Notation pxevent := (@pxevent Id Node).
  Notation pxstate := (@pxstate Id Node).
  Notation source := (@source Id Node).

  (** State reached by a history. *)
  Definition px_after (g : graph Id Node) (es : list pxevent) : pxstate := px_run edges (px_init g) es.

  (** Output of an event in the state reached by a history. *)
  Definition px_says (g : graph Id Node) (es : list pxevent) (e : pxevent) : @pxout Node :=
    snd (px_step edges (px_after g es) e).

  (** What the source answers after a history: the answer of a direct call to [get]. *)
  Definition source_says (g : graph Id Node) (es : list pxevent) (s : source) (i : Id) (r : option Node) : Prop :=
    match s with
    | SGraph gr => g_get gr i = r
    | SCtx c => px_says g es (PxEvent (EGet c i)) = PxOut (XNode r)
    end.

  (** Handle [k] was returned by a call asking for node [i] of source [s], or is a successor with
      that id, or a clone of such a proxy. *)
  Inductive stands_for (g : graph Id Node) : list pxevent -> nat -> source -> Id -> Prop :=
  | sf_node : forall es s i k, px_says g es (PxNode s i) = PxHandles k 1 ->
      stands_for g (es ++ [PxNode s i]) k s i
  | sf_clone : forall es s i j k, stands_for g es j s i -> px_says g es (PxClone j) = PxHandles k 1 ->
      stands_for g (es ++ [PxClone j]) k s i
  | sf_succ : forall es s i j n first len d i', stands_for g es j s i ->
      px_says g es (PxDeref j) = PxOut (XNode (Some n)) ->
      px_says g es (PxSuccessors j) = PxHandles first len ->
      nth_error (edges n) d = Some i' ->
      stands_for g (es ++ [PxSuccessors j]) (first + d) s i'
  | sf_later : forall es e s i k, stands_for g es k s i -> stands_for g (es ++ [e]) k s i.

  (** Proxy [k] exists and neither it, nor a proxy it was cloned from before the cloning, was
      ever dereferenced. *)
  Inductive pristine (g : graph Id Node) : list pxevent -> nat -> Prop :=
  | pr_node : forall es s i k, px_says g es (PxNode s i) = PxHandles k 1 -> pristine g (es ++ [PxNode s i]) k
  | pr_clone : forall es j k, pristine g es j -> px_says g es (PxClone j) = PxHandles k 1 ->
      pristine g (es ++ [PxClone j]) k
  | pr_succ : forall es j first len d, px_says g es (PxSuccessors j) = PxHandles first len ->
      d < len -> pristine g (es ++ [PxSuccessors j]) (first + d)
  | pr_later : forall es e k, pristine g es k -> e <> PxDeref k -> e <> PxSuccessors k ->
      pristine g (es ++ [e]) k.

  (** After [es], [es'] happened and [k'] is [k] or was cloned from it, directly or not,
      during [es']. *)
  Inductive copy_of (g : graph Id Node) (es : list pxevent) (k : nat) : list pxevent -> nat -> Prop :=
  | cp_self : copy_of g es k [] k
  | cp_clone : forall es' j k', copy_of g es k es' j -> px_says g (es ++ es') (PxClone j) = PxHandles k' 1 ->
      copy_of g es k (es' ++ [PxClone j]) k'
  | cp_later : forall es' e k', copy_of g es k es' k' -> copy_of g es k (es' ++ [e]) k'.

  (** The API events of a history, without those on proxies. *)
  Fixpoint api_events (es : list pxevent) : list (@event Id Node) :=
    match es with
    | [] => []
    | PxEvent e :: es => e :: api_events es
    | _ :: es => api_events es
    end.

  (** Paths along the edges of the nodes of a map, as the list of ids visited. *)
  Inductive edge_path (get : Id -> option Node) : Id -> list Id -> Prop :=
  | ep_here : forall i, edge_path get i [i]
  | ep_step : forall i n j l, get i = Some n -> In j (edges n) -> edge_path get j l ->
      edge_path get i (i :: l).

  (** Paths obtained by iterating successors from a proxy, in a state that stays the same. *)
  Inductive proxy_path (m : @machine Id Node) : @proxy Id Node -> list Id -> Prop :=
  | pp_here : forall p, proxy_path m p [px_id p]
  | pp_step : forall p p' qs q l, px_successors edges m p = Some (p', qs) -> In q qs ->
      proxy_path m q l -> proxy_path m p (px_id p :: l).
End Spec.
