(** Specification of the calls of user code that calls on a schema make: which ones in which order, and what comes of it when one of them panics. *)
From Coq Require Import List.
From Verif Require Import Ord BTree Graph Tx UserCalls.
Import ListNotations.

Section Spec.
  Context {Id Node : Type} `{OrdT Id} `{Identify Node Id}.
  Notation graph := (graph Id Node).
  Notation op := (op Id Node).
  Notation ucall := (ucall Id Node).
  Variable probes : graph -> Id -> list Id.
  Variable panics : list ucall -> ucall -> bool.

  (** After the calls [before], of the planned calls exactly [made] are made: all of them, or those up to the first that panics; [p]: whether one did. *)
  Inductive performed : list ucall -> list ucall -> list ucall -> bool -> Prop :=
  | pf_none : forall before, performed before [] [] false
  | pf_panic : forall before u us, panics before u = true -> performed before (u :: us) [u] true
  | pf_next : forall before u us made p, panics before u = false -> performed (before ++ [u]) us made p ->
      performed before (u :: us) (u :: made) p.

  (** The pending operations a context looks at, newest first: its own, then those of the context it was opened in, and so on. *)
  Fixpoint newest_first (h : list (list op)) (c : ctx) : list op :=
    rev (nth (ctx_buf c) h []) ++ match c with CRoot _ _ => [] | CSub p _ _ => newest_first h p end.

  (** Going through the operations up to the first on id [i]: those looked at, and the one found. *)
  Inductive until (i : Id) : list op -> list op -> option op -> Prop :=
  | until_end : until i [] [] None
  | until_found : forall o l, op_id o = i -> until i (o :: l) [o] (Some o)
  | until_next : forall o l seen r, op_id o <> i -> until i l seen r -> until i (o :: l) (o :: seen) r.

  (** Looking at one operation: its id, which is the user's code for a node, then the comparison. *)
  Definition looks_at (i : Id) (o : op) : list ucall :=
    match o with
    | OSave n => [UId n; UEq (id_of n) i]
    | ODelete j => [UEq j i]
    end.

  (** A read of id [i] through a context, given all lists of operations and the graph: the calls it makes, and its answer.  [copy]: whether it answers the node
      or only whether there is one. *)
  Inductive reads (copy : bool) (h : list (list op)) (g : graph) (c : ctx) (i : Id) : list ucall -> option Node -> Prop :=
  | reads_saved : forall seen n, until i (newest_first h c) seen (Some (OSave n)) ->
      reads copy h g c i (concat (map (looks_at i) seen) ++ if copy then [UClone n] else []) (Some n)
  | reads_deleted : forall seen j, until i (newest_first h c) seen (Some (ODelete j)) ->
      reads copy h g c i (concat (map (looks_at i) seen)) None
  | reads_stored : forall seen n, until i (newest_first h c) seen None -> g_get g i = Some n ->
      reads copy h g c i (concat (map (looks_at i) seen) ++ map (UCmp i) (probes g i) ++ if copy then [UClone n] else []) (Some n)
  | reads_absent : forall seen, until i (newest_first h c) seen None -> g_get g i = None ->
      reads copy h g c i (concat (map (looks_at i) seen) ++ map (UCmp i) (probes g i)) None.

  (** A commit, step by step: calls of user code, and changes of the graph. *)
  Inductive cstep :=
  | Runs (u : ucall)
  | Does (o : op).

  Definition lookup_steps (g : graph) (i : Id) : list cstep := map (fun k => Runs (UCmp i k)) (probes g i).

  Inductive publishes : graph -> list op -> list cstep -> Prop :=
  | pb_none : forall g, publishes g [] []
  | pb_new : forall g n ops l, g_get g (id_of n) = None -> publishes (fst (g_insert g n)) ops l ->
      publishes g (OSave n :: ops)
        ([Runs (UId n); Runs (UCloneId (id_of n))] ++ lookup_steps g (id_of n) ++ [Does (OSave n)] ++ l)
  | pb_replace : forall g n old ops l, g_get g (id_of n) = Some old -> publishes (fst (g_insert g n)) ops l ->
      publishes g (OSave n :: ops)
        ([Runs (UId n); Runs (UCloneId (id_of n))] ++ lookup_steps g (id_of n) ++
         [Does (OSave n); Runs (UDropId (id_of n)); Runs (UDrop old)] ++ l)
  | pb_remove : forall g i old ops l, g_get g i = Some old -> publishes (fst (g_remove g i)) ops l ->
      publishes g (ODelete i :: ops)
        (lookup_steps g i ++ [Does (ODelete i); Runs (UDropId i); Runs (UDrop old); Runs (UDropId i)] ++ l)
  | pb_missing : forall g i ops l, g_get g i = None -> publishes (fst (g_remove g i)) ops l ->
      publishes g (ODelete i :: ops) (lookup_steps g i ++ [Does (ODelete i); Runs (UDropId i)] ++ l).

  (** The calls, and the changes, among the steps. *)
  Definition runs_of (l : list cstep) : list ucall := flat_map (fun s => match s with Runs u => [u] | Does _ => [] end) l.
  Definition does_of (l : list cstep) : list op := flat_map (fun s => match s with Does o => [o] | Runs _ => [] end) l.

  (** The lists of operations in a state. *)
  Definition lists (st : ustate Id Node) : list (list op) := map b_ops (u_bufs st).

  (** The calls of user code that a call plans in a state. *)
  Inductive planned (st : ustate Id Node) : scall Id Node -> list ucall -> Prop :=
  | pl_open : planned st SOpen []
  | pl_get : forall c i us r, reads true (lists st) (u_graph st) c i us r -> planned st (SGet c i) us
  | pl_contains : forall c i us r, reads false (lists st) (u_graph st) c i us r -> planned st (SContains c i) us
  | pl_save : forall c n, planned st (SSave c n) []
  | pl_delete : forall c i, planned st (SDelete c i) []
  | pl_save_clone : forall c n, planned st (SSaveClone c n) [UClone n]
  | pl_found : forall c i us n, reads true (lists st) (u_graph st) c i us (Some n) ->
      planned st (SLookup c i) (UCloneId i :: us ++ [UClone n; UDropId i; UDrop n])
  | pl_missing : forall c i us, reads true (lists st) (u_graph st) c i us None ->
      planned st (SLookup c i) (UCloneId i :: us ++ [UDropId i])
  | pl_sub : forall p b alone, planned st (SSub p b alone) []
  | pl_top : forall b l, publishes (u_graph st) (nth b (lists st) []) l -> planned st (STop b true) (runs_of l)
  | pl_leaked : forall b, planned st (STop b false) [].

  (** What a call that does not panic answers. *)
  Inductive answers (st : ustate Id Node) : scall Id Node -> answer Node -> Prop :=
  | an_get : forall c i us r, reads true (lists st) (u_graph st) c i us r -> answers st (SGet c i) (ANode r)
  | an_lookup : forall c i us r, reads true (lists st) (u_graph st) c i us r -> answers st (SLookup c i) (ANode r)
  | an_contains : forall c i us r, reads false (lists st) (u_graph st) c i us r ->
      answers st (SContains c i) (ABool match r with Some _ => true | None => false end)
  | an_other : forall s, match s with SGet _ _ | SLookup _ _ | SContains _ _ => False | _ => True end -> answers st s AUnit.

  (** The lists of operations after a call that does not panic. *)
  Definition next_lists (h : list (list op)) (s : scall Id Node) : list (list op) :=
    match s with
    | SOpen => h ++ [[]]
    | SSave c n | SSaveClone c n => alter (fun l => l ++ [OSave n]) (ctx_buf c) h
    | SDelete c i => alter (fun l => l ++ [ODelete i]) (ctx_buf c) h
    | SSub p b true => alter (fun l => l ++ nth b h []) (ctx_buf p) h
    | _ => h
    end.

  (** A commit: of its steps the first ones are done: all, or those up to the first call that panics. *)
  Definition published (g : graph) (ops : list op) (made : list ucall) (p : bool) (g' : graph) : Prop :=
    exists l before after,
      publishes g ops (l : list cstep) /\ l = before ++ after /\ runs_of before = made /\ g' = apply_ops g (does_of before) /\
      if p then exists rest u, before = rest ++ [Runs u] else after = [].

  (** The messages of a lock found poisoned. *)
  Definition about_poison (x : message) : Prop :=
    match x with ContextsInUse _ => False | PoisonedTransaction _ | PoisonedContext _ => True end.
End Spec.
