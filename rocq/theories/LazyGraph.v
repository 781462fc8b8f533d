(** Model of a graph of lazy documents: plotline/src/graph/mod.rs and plotline/src/graph/proxy.rs with
    plotline/src/document/lazy.rs as the node type, which is what the command line has
    (plotline-cli/src/document.rs 69).  Lazy documents have interior mutability, so documents are named
    by handles and the graph and its proxies hold handles; the documents themselves are in the state of Lazy.v. *)
From Coq Require Import List Bool Arith.
From Verif Require Import Ord BTree Graph Tx Lazy.
Import ListNotations.

Section LazyGraph.
  Context {Id Doc : Type} `{OrdT Id} `{Identify Doc Id}.

  (** proxy.rs 25-36: a proxy's id and [OnceLock<Option<S::Node>>].  [y_graph]: mod.rs 12-18, a document's handle
      by its id. *)
  Record ystate := YState {
    y_docs : lstate Id Doc;
    y_graph : btree Id nat;
    y_proxies : list (Id * option (option nat))
  }.

  (** [YDocs]: anything done to a document by reference, or to one that is not in the graph; iterating the graph and
      dereferencing a proxy are what gives references to those that are.  Steps of calls of [try_deref] on documents interleave
      in any way; operations on the graph and on proxies are one step each (ProxyThreads.v is about their concurrent use). *)
  Inductive ylabel :=
  | YDocs (l : label Id Doc)
  | YInsert (d : nat)
  | YRemove (i : Id)
  | YGet (i : Id)
  | YContains (i : Id)
  | YIter
  | YNode (i : Id)
  | YDeref (p : nat)
  | YCopy (p : nat).

  Inductive yout :=
  | YInvalid
  | YLazy (o : lout Id Doc)
  | YDoc (d : option nat)
  | YBool (b : bool)
  | YAll (ds : list nat)
  | YProxy (p : nat).

  Definition y_init : ystate := YState l_init [] [].

  (** The documents owned by the graph or by a proxy. *)
  Definition y_held (st : ystate) : list nat :=
    map snd (y_graph st) ++ flat_map (fun p => match snd p with Some (Some d) => [d] | _ => [] end) (y_proxies st).

  (** [clone] of a document (lazy.rs 31-37), giving the handle of the new one. *)
  Definition y_clone (d : nat) (ds : lstate Id Doc) : lstate Id Doc * option nat :=
    match l_step ds (LClone d) with
    | (ds', LHandle h) => (ds', Some h)
    | (ds', _) => (ds', None)
    end.

  (** mod.rs 64-66: [self.nodes.get(id).cloned()]. *)
  Definition y_get (st : ystate) (i : Id) : lstate Id Doc * option nat :=
    match bt_get i (y_graph st) with
    | Some d => y_clone d (y_docs st)
    | None => (y_docs st, None)
    end.

  Definition y_step (st : ystate) (l : ylabel) : ystate * yout :=
    match l with
    | YDocs l => let (ds, o) := l_step (y_docs st) l in (YState ds (y_graph st) (y_proxies st), YLazy o)
    | YInsert d =>                                 (* mod.rs 85-87: takes ownership of the document *)
        if existsb (Nat.eqb d) (y_held st) then (st, YInvalid) else
        match nth_error (l_docs (y_docs st)) d with
        | None => (st, YInvalid)
        | Some x =>
            (YState (y_docs st) (bt_insert (ld_id x) d (y_graph st)) (y_proxies st), YDoc (bt_get (ld_id x) (y_graph st)))
        end
    | YRemove i =>                                 (* mod.rs 107-109 *)
        (YState (y_docs st) (bt_remove i (y_graph st)) (y_proxies st), YDoc (bt_get i (y_graph st)))
    | YGet i =>
        let (ds, h) := y_get st i in (YState ds (y_graph st) (y_proxies st), YDoc h)
    | YContains i => (st, YBool (bt_contains_key i (y_graph st)))       (* mod.rs 68-70 *)
    | YIter => (st, YAll (bt_values (y_graph st)))                      (* mod.rs 44-55 *)
    | YNode i =>                                   (* mod.rs 96-98 *)
        (YState (y_docs st) (y_graph st) (y_proxies st ++ [(i, None)]), YProxy (length (y_proxies st)))
    | YDeref p =>                                  (* proxy.rs 73-77 *)
        match nth_error (y_proxies st) p with
        | None => (st, YInvalid)
        | Some (i, Some h) => (st, YDoc h)
        | Some (i, None) =>
            let (ds, h) := y_get st i in
            (YState ds (y_graph st) (alter (fun _ => (i, Some h)) p (y_proxies st)), YDoc h)
        end
    | YCopy p =>                                   (* proxy.rs 44-50: the document in the [OnceLock] is cloned too *)
        match nth_error (y_proxies st) p with
        | None => (st, YInvalid)
        | Some (i, Some (Some d)) =>
            let (ds, h) := y_clone d (y_docs st) in
            (YState ds (y_graph st) (y_proxies st ++ [(i, Some h)]), YProxy (length (y_proxies st)))
        | Some (i, v) => (YState (y_docs st) (y_graph st) (y_proxies st ++ [(i, v)]), YProxy (length (y_proxies st)))
        end
    end.

  Definition y_run (st : ystate) (ls : list ylabel) : ystate := fold_left (fun st l => fst (y_step st l)) ls st.
End LazyGraph.
Arguments ystate : clear implicits.
Arguments ylabel : clear implicits.
Arguments yout : clear implicits.
