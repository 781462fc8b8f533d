(** Model of plotline/src/schema/transaction.rs, with the locks of the lists of operations and the code of
    the user that each call runs: the list of its single calls of [Identify], [PartialEq], [Ord],
    [Clone] and [Drop], any of which may panic.

    In [Tx.v] the locks of the lists are left out.  Here a list has the flag its [RwLock] sets when a thread
    unwinds while it holds a write guard of it, and the code that looks at the flag is there.
    Simplifications: the user's code does not call the schema itself ([Reenter.v] has that), hence no
    call waits for a lock; which keys a lookup of std's [BTreeMap] compares is any function of the map
    and of the key; what is run while unwinding is not listed. *)
From Coq Require Import List.
From Verif Require Import Ord BTree Graph Tx.
Import ListNotations.

Section UserCalls.
  Context {Id Node : Type} `{OrdT Id} `{Identify Node Id}.
  Notation graph := (graph Id Node).
  Notation op := (op Id Node).

  (** A call of the user's code: [Identify::id] (plotline/src/id.rs 4-8), [PartialEq::eq] and [Ord::cmp] of ids, [Clone::clone] and
      [Drop::drop] of nodes and of ids. *)
  Inductive ucall :=
  | UId (n : Node)
  | UEq (x y : Id)
  | UCmp (x y : Id)
  | UClone (n : Node)
  | UCloneId (i : Id)
  | UDrop (n : Node)
  | UDropId (i : Id).

  (** transaction.rs 31, 105, 359: [RwLock<Vec<Operation<T>>>], the list and the lock's poison flag (std). *)
  Record buf := Buf { b_ops : list op; b_poison : bool }.

  (** The errors a commit logs (transaction.rs 76, 83, 142, 149, 157-160). *)
  Inductive message :=
  | ContextsInUse (b : nat)
  | PoisonedTransaction (b : nat)
  | PoisonedContext (b : nat).

  (** All lists, the graph and its lock's poison flag, the calls of user code made so far, the errors logged so far. *)
  Record ustate := UState {
    u_bufs : list buf;
    u_graph : graph;
    u_gpoison : bool;
    u_made : list ucall;
    u_log : list message
  }.

  (** The keys of the graph that std's [BTreeMap] compares a key with when it looks it up, in order, with the
      key in question on the left. *)
  Variable probes : graph -> Id -> list Id.
  (** Which calls of user code panic; this may depend on all calls before. *)
  Variable panics : list ucall -> ucall -> bool.

  (** What comes of a piece of code: a value, or a panic. *)
  Inductive outcome (A : Type) := Done (a : A) | Panic.
  Arguments Done {A}. Arguments Panic {A}.

  Definition code (A : Type) := ustate -> ustate * outcome A.

  Definition ret {A} (a : A) : code A := fun st => (st, Done a).
  Definition bind {A B} (m : code A) (k : A -> code B) : code B :=
    fun st => let (st', r) := m st in match r with Done a => k a st' | Panic => (st', Panic) end.
  Notation "'do' x <- m ; k" := (bind m (fun x => k)) (at level 200, x name, m at level 100, k at level 200).
  Notation "m ;; k" := (bind m (fun _ => k)) (at level 199, right associativity).

  (** A call of user code. *)
  Definition call (u : ucall) : code unit :=
    fun st => (UState (u_bufs st) (u_graph st) (u_gpoison st) (u_made st ++ [u]) (u_log st),
               if panics (u_made st) u then Panic else Done tt).

  Fixpoint calls (us : list ucall) : code unit :=
    match us with
    | [] => ret tt
    | u :: us' => call u;; calls us'
    end.

  Definition log (x : message) : code unit :=
    fun st => (UState (u_bufs st) (u_graph st) (u_gpoison st) (u_made st) (u_log st ++ [x]), Done tt).

  Definition no_buf : buf := Buf [] false.
  Definition on_buf (f : buf -> buf) (b : nat) (st : ustate) : ustate :=
    UState (alter f b (u_bufs st)) (u_graph st) (u_gpoison st) (u_made st) (u_log st).
  Definition poison_buf (b : nat) : ustate -> ustate := on_buf (fun x => Buf (b_ops x) true) b.

  (** [lock.read()] of list [b] (std), the code that runs while the guard is held, the drop of the guard.  The code is given the
      [LockResult]: the list and whether the lock is poisoned.  A read guard poisons nothing. *)
  Definition reading {A} (b : nat) (f : buf -> code A) : code A :=
    fun st => f (nth b (u_bufs st) no_buf) st.

  (** [lock.write()] of list [b] (std), the code that runs while the guard is held, the drop of the guard, which poisons the lock
      if the thread is unwinding. *)
  Definition writing {A} (b : nat) (f : buf -> code A) : code A :=
    fun st =>
      let (st', r) := f (nth b (u_bufs st) no_buf) st in
      match r with Panic => (poison_buf b st', Panic) | Done _ => (st', r) end.

  (** [Vec::push] and [Vec::extend] through the guard of list [b]. *)
  Definition extend (b : nat) (ops : list op) : code unit :=
    fun st => (on_buf (fun x => Buf (b_ops x ++ ops) (b_poison x)) b st, Done tt).

  (** transaction.rs 184-189: [Operation::id]. *)
  Definition op_id_call (o : op) : code Id :=
    match o with
    | OSave n => call (UId n);; ret (id_of n)
    | ODelete i => ret i
    end.

  (** [find(|&op| op.id() == id)] (transaction.rs 376, 392) on the operations in this order. *)
  Fixpoint find_call (l : list op) (i : Id) : code (option op) :=
    match l with
    | [] => ret None
    | o :: l' => do x <- op_id_call o; call (UEq x i);; if eqb x i then ret (Some o) else find_call l' i
    end.

  (** The lookup of a key in the graph's map. *)
  Definition search (i : Id) : code unit :=
    fun st => calls (map (UCmp i) (probes (u_graph st) i)) st.

  (** plotline/src/graph/mod.rs 64-66: [Source::get for Graph]. *)
  Definition graph_get_call (i : Id) : code (option Node) :=
    search i;; fun st => match g_get (u_graph st) i with
                         | Some n => (call (UClone n);; ret (Some n)) st
                         | None => ret None st
                         end.

  (** plotline/src/graph/mod.rs 68-70: [Source::contains for Graph]. *)
  Definition graph_contains_call (i : Id) : code bool :=
    search i;; fun st => ret (g_contains (u_graph st) i) st.

  (** transaction.rs 370-384: [Source::get for Context]; the guard is held until the end, also while the parent is asked. *)
  Fixpoint get_call (c : ctx) (i : Id) : code (option Node) :=
    reading (ctx_buf c) (fun x =>
      do r <- find_call (rev (b_ops x)) i;
      match r with
      | Some (OSave n) => call (UClone n);; ret (Some n)
      | Some (ODelete _) => ret None
      | None => match c with CRoot _ _ => graph_get_call i | CSub p _ _ => get_call p i end
      end).

  (** transaction.rs 386-400: [Source::contains for Context]. *)
  Fixpoint contains_call (c : ctx) (i : Id) : code bool :=
    reading (ctx_buf c) (fun x =>
      do r <- find_call (rev (b_ops x)) i;
      match r with
      | Some (OSave _) => ret true
      | Some (ODelete _) => ret false
      | None => match c with CRoot _ _ => graph_contains_call i | CSub p _ _ => contains_call p i end
      end).

  (** transaction.rs 455-462: [Context::save]; a poisoned lock is used all the same. *)
  Definition save_call (c : ctx) (n : Node) : code unit :=
    writing (ctx_buf c) (fun _ => extend (ctx_buf c) [OSave n]).

  (** transaction.rs 465-472: [Context::delete]. *)
  Definition delete_call (c : ctx) (i : Id) : code unit :=
    writing (ctx_buf c) (fun _ => extend (ctx_buf c) [ODelete i]).

  (** plotline/src/schema/ops/save.rs 31: [ctx.save(node.clone())], on the target. *)
  Definition save_clone_call (c : ctx) (n : Node) : code unit :=
    call (UClone n);; save_call c n.

  (** plotline/src/schema/ops/delete.rs 34-37: the node to delete, copied out of the proxy, which is then dropped: its id, and its copy of the node
      (plotline/src/graph/proxy.rs 25-36, 72-76). *)
  Definition lookup_call (c : ctx) (i : Id) : code (option Node) :=
    call (UCloneId i);;
    do r <- get_call c i;
    match r with
    | Some n => call (UClone n);; call (UDropId i);; call (UDrop n);; ret (Some n)
    | None => call (UDropId i);; ret None
    end.

  (** transaction.rs 140-166: [Foreground::commit] of the transaction with list [b] into context [p]; [alone] is whether no context of the transaction
      is left, which is when [Arc::into_inner] gives the list.  The list is moved, not copied. *)
  Definition sub_commit (p : ctx) (b : nat) (alone : bool) : code unit :=
    if alone then
      fun st =>
        let x := nth b (u_bufs st) no_buf in
        (if b_poison x then log (PoisonedTransaction b) else
           writing (ctx_buf p) (fun y => if b_poison y then log (PoisonedContext b) else extend (ctx_buf p) (b_ops x))) st
    else log (ContextsInUse b).

  Definition set_graph (g : graph) : code unit :=
    fun st => (UState (u_bufs st) g (u_gpoison st) (u_made st) (u_log st), Done tt).

  (** [x;] in Rust: the value is dropped. *)
  Definition drop_node (x : option Node) : code unit :=
    match x with Some n => call (UDrop n) | None => ret tt end.

  (** transaction.rs 88-95: one step of the loop of [Background::commit]: [Graph::insert] (plotline/src/graph/mod.rs 85-87) or [Graph::remove]
      (107-109), and the drop of what they return.  An insertion that finds the key keeps the key in the map and drops the new one; a removal drops the key of the
      map and then, at the end, the operation's id. *)
  Definition apply_call (o : op) : code unit :=
    match o with
    | OSave n =>
        call (UId n);; call (UCloneId (id_of n));; search (id_of n);;
        fun st =>
          let (g, old) := g_insert (u_graph st) n in
          (set_graph g;;
           match old with
           | Some n' => call (UDropId (id_of n));; call (UDrop n')
           | None => ret tt
           end) st
    | ODelete i =>
        search i;;
        fun st =>
          let (g, old) := g_remove (u_graph st) i in
          (set_graph g;;
           match old with
           | Some n' => call (UDropId i);; call (UDrop n')
           | None => ret tt
           end;;
           call (UDropId i)) st
    end.

  Fixpoint apply_calls (ops : list op) : code unit :=
    match ops with
    | [] => ret tt
    | o :: ops' => apply_call o;; apply_calls ops'
    end.

  (** transaction.rs 69-96: [Background::commit] of the transaction with list [b], whose context has been made (by [with], 58), so that it holds the guard
      of the graph: a write guard, dropped at the end. *)
  Definition top_commit (b : nat) (alone : bool) : code unit :=
    if alone then
      fun st =>
        let x := nth b (u_bufs st) no_buf in
        (if b_poison x then log (PoisonedTransaction b) else
           fun st =>
             let (st', r) := apply_calls (b_ops x) st in
             match r with
             | Panic => (UState (u_bufs st') (u_graph st') true (u_made st') (u_log st'), Panic)
             | Done _ => (st', r)
             end) st
    else log (ContextsInUse b).

  (** A call on the schema, on a context, or the end of a transaction whose closure returned [Ok]. *)
  Inductive scall :=
  | SOpen
  | SGet (c : ctx) (i : Id)
  | SContains (c : ctx) (i : Id)
  | SSave (c : ctx) (n : Node)
  | SDelete (c : ctx) (i : Id)
  | SSaveClone (c : ctx) (n : Node)
  | SLookup (c : ctx) (i : Id)
  | SSub (p : ctx) (b : nat) (alone : bool)
  | STop (b : nat) (alone : bool).

  Inductive answer :=
  | AUnit
  | ANode (r : option Node)
  | ABool (r : bool)
  | APanic.

  (** A transaction starts with an empty list and a new lock (transaction.rs 34-46, 108-118). *)
  Definition open_call : code unit :=
    fun st => (UState (u_bufs st ++ [no_buf]) (u_graph st) (u_gpoison st) (u_made st) (u_log st), Done tt).

  Definition answered {A} (f : A -> answer) (x : ustate * outcome A) : ustate * answer :=
    let (st, r) := x in (st, match r with Done a => f a | Panic => APanic end).

  (** One call and what the caller gets. *)
  Definition s_call (st : ustate) (s : scall) : ustate * answer :=
    match s with
    | SOpen => answered (fun _ => AUnit) (open_call st)
    | SGet c i => answered ANode (get_call c i st)
    | SContains c i => answered ABool (contains_call c i st)
    | SSave c n => answered (fun _ => AUnit) (save_call c n st)
    | SDelete c i => answered (fun _ => AUnit) (delete_call c i st)
    | SSaveClone c n => answered (fun _ => AUnit) (save_clone_call c n st)
    | SLookup c i => answered ANode (lookup_call c i st)
    | SSub p b alone => answered (fun _ => AUnit) (sub_commit p b alone st)
    | STop b alone => answered (fun _ => AUnit) (top_commit b alone st)
    end.

  (** A schema that holds graph [g], and no transaction. *)
  Definition u_init (g : graph) : ustate := UState [] g false [] [].

  (** Calls one after the other; panics are caught by the caller. *)
  Definition s_run (st : ustate) (l : list scall) : ustate :=
    fold_left (fun st s => fst (s_call st s)) l st.
End UserCalls.
Arguments ucall : clear implicits.
Arguments buf : clear implicits.
Arguments ustate : clear implicits.
Arguments scall : clear implicits.
Arguments answer : clear implicits.
Arguments Done {A}. Arguments Panic {A}.
