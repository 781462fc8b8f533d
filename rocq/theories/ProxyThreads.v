(** Model of plotline/src/graph/proxy.rs 25-77 for proxies shared between threads.  [OnceLock] makes a
    proxy over a shareable source dereferenceable by many threads, so [try_deref] is split in the atomic
    steps of [OnceLock::get_or_init], and a history is any interleaving of the steps of any number of calls.
    [successors] (87-103) is a dereference followed by the creation of proxies. *)
From Coq Require Import List Bool Arith.
From Verif Require Import Ord BTree Graph Tx.
Import ListNotations.

Section ProxyThreads.
  Context {Id Node : Type} `{OrdT Id} `{Identify Node Id}.

  (** proxy.rs 10-22: [trait Source]: a borrowed graph (mod.rs 57-71), or any other implementation, whose answers are
      part of each history.  Contexts of transactions (transaction.rs 363-401) refer to the schema, whose triggers
      and resources are [Box<dyn ..>] without [Sync] (trigger.rs 77, resource.rs 20): they cannot be shared between
      threads. *)
  Inductive tsource :=
  | TSGraph (g : graph Id Node)
  | TSOther.

  (** The [OnceLock] of proxy.rs 35: empty, being initialised by call [c], or full. *)
  Inductive tcell :=
  | TEmpty
  | TRunning (c : nat)
  | TFull (v : option Node).

  Record tproxy := TProxy { tp_source : tsource; tp_id : Id; tp_cell : tcell }.

  (** proxy.rs 73-77: where a call of [try_deref] stands. *)
  Inductive tpc :=
  | TAtGet                         (* about to look into the cell *)
  | TInit                          (* in the closure: [source.get(id)] *)
  | TDone (r : option Node)
  | TPanicked.

  Record tcallr := TCallr { tc_proxy : nat; tc_pc : tpc }.
  Record tstate := TState { t_proxies : list tproxy; t_calls : list tcallr }.

  (** [TStep c ans]: call [c] makes its next step; should it be the end of the closure, [ans] is how it ended: [None], it
      panicked; [Some r], [source.get] returned [r], which a graph does not leave open. *)
  Inductive tlabel :=
  | TNew (s : tsource) (i : Id)
  | TClone (k : nat)
  | TCall (k : nat)
  | TStep (c : nat) (ans : option (option Node)).

  Inductive tout :=
  | TInvalid
  | THandle (h : nat)              (* a new proxy, or a new call *)
  | TBlocked                       (* waits for the call that runs the closure *)
  | TAsking (k : nat)              (* starts the closure of proxy [k] *)
  | TAnswered (k : nat) (r : option Node)  (* the closure of proxy [k] ended, the call returns its result *)
  | TAborted (k : nat)             (* the closure of proxy [k] panicked, so does the call *)
  | TReturned (r : option Node).

  (** What the source answers, when it answers. *)
  Definition ts_answer (s : tsource) (i : Id) (r : option Node) : option Node :=
    match s with TSGraph g => g_get g i | TSOther => r end.

  (** proxy.rs 44-50: [clone]; [OnceLock::clone] gets the value, and there is none while it is being initialised. *)
  Definition tp_clone (p : tproxy) : tproxy :=
    TProxy (tp_source p) (tp_id p) (match tp_cell p with TFull v => TFull v | _ => TEmpty end).

  Definition set_tcell (x : tcell) (k : nat) (ps : list tproxy) : list tproxy :=
    alter (fun p => TProxy (tp_source p) (tp_id p) x) k ps.
  Definition set_tpc (x : tpc) (c : nat) (cs : list tcallr) : list tcallr :=
    alter (fun r => TCallr (tc_proxy r) x) c cs.

  (** [OnceLock::get_or_init]: a full cell is read; on an empty one the closure is run, and meanwhile other calls
      wait; if it panics the cell is empty again. *)
  Definition t_step (st : tstate) (l : tlabel) : tstate * tout :=
    let ps := t_proxies st in
    let cs := t_calls st in
    match l with
    | TNew s i => (TState (ps ++ [TProxy s i TEmpty]) cs, THandle (length ps))      (* 112-118 *)
    | TClone k =>
        match nth_error ps k with
        | Some p => (TState (ps ++ [tp_clone p]) cs, THandle (length ps))
        | None => (st, TInvalid)
        end
    | TCall k =>
        match nth_error ps k with
        | Some _ => (TState ps (cs ++ [TCallr k TAtGet]), THandle (length cs))
        | None => (st, TInvalid)
        end
    | TStep c ans =>
        match nth_error cs c with
        | None => (st, TInvalid)
        | Some (TCallr k pc) =>
            match nth_error ps k with
            | None => (st, TInvalid)
            | Some p =>
                match pc with
                | TAtGet =>
                    match tp_cell p with
                    | TFull v => (TState ps (set_tpc (TDone v) c cs), TReturned v)
                    | TRunning _ => (st, TBlocked)
                    | TEmpty => (TState (set_tcell (TRunning c) k ps) (set_tpc TInit c cs), TAsking k)
                    end
                | TInit =>
                    match ans with
                    | Some r =>
                        let v := ts_answer (tp_source p) (tp_id p) r in
                        (TState (set_tcell (TFull v) k ps) (set_tpc (TDone v) c cs), TAnswered k v)
                    | None => (TState (set_tcell TEmpty k ps) (set_tpc TPanicked c cs), TAborted k)
                    end
                | TDone _ | TPanicked => (st, TInvalid)
                end
            end
        end
    end.

  Definition tt_init : tstate := TState [] [].

  Fixpoint tt_run (st : tstate) (ls : list tlabel) : tstate * list tout :=
    match ls with
    | [] => (st, [])
    | l :: ls =>
        let (st1, o) := t_step st l in
        let (st2, os) := tt_run st1 ls in
        (st2, o :: os)
    end.
End ProxyThreads.
Arguments tsource : clear implicits.
Arguments tstate : clear implicits.
Arguments tlabel : clear implicits.
Arguments tproxy : clear implicits.
Arguments tout : clear implicits.
