(** Programs over one schema: closures given to transactions, triggers, guards, resources, panics.
    Sources: plotline/src/schema/{mod,transaction,guard,trigger,resource}.rs, ops/{save,delete}.rs,
    plotline/src/deref.rs.

    A closure is a [prog]: any tree of API calls whose continuations are arbitrary functions of what
    the calls answer.  User code between calls is pure, emits observable values ([PEmit]), returns,
    panics or runs for ever ([PLoop]).

    A schema is neither [Send] nor [Sync] (its resources are [Box<dyn Any>], its triggers boxed
    closures), so programs are single-threaded and a call blocked on a lock never returns ([OHang];
    std allows the call to panic instead). *)
From Coq Require Import List Bool Arith.
From Coq Require String.
From Verif Require Import Ord OrdFacts BTree Graph Tx.
Import ListNotations.

(** schema/error.rs 8-14: [Error]. *)
Inductive error := Noop | Msg (s : String.string).

(** [TypeId]s are natural numbers; std orders them in some total order (resource.rs 20,
    trigger.rs 77). *)
Notation type_id := nat.

Section Prog.
  (** [V]: values returned by closures or emitted; [U]: values of resources. *)
  Context {Id Node V U : Type} `{OrdT Id} `{Identify Node Id}.

  (** [Result<T>] (error.rs 5) for any [T]; [RUnit] is [Ok(())]. *)
  Inductive res := RUnit | RVal (v : V) | RErr (e : error).
  Definition is_ok (r : res) : bool := match r with RErr _ => false | _ => true end.

  (** ** Lockable values: targets (transaction.rs 193-195) and resources (resource.rs 20) *)

  (** What a cell holds: a [T] for targets, a [Box<dyn Any>] for resources, with its type. *)
  Inductive dyn := DNode (n : Node) | DRes (t : type_id) (u : U).
  Inductive ty := TyNode | TyRes (t : type_id).
  Definition ty_of (d : dyn) : ty := match d with DNode _ => TyNode | DRes t _ => TyRes t end.
  Definition ty_eqb (s t : ty) : bool :=
    match s, t with TyNode, TyNode => true | TyRes a, TyRes b => Nat.eqb a b | _, _ => false end.

  (** A [RwLock]: free, read-locked [n + 1] times, or write-locked. *)
  Inductive rw := Free | Readers (n : nat) | Writer.
  Record cell := Cell { c_val : dyn; c_poison : bool; c_lock : rw }.

  (** [Target<T>] (transaction.rs 193-195) or [Res<R>] (resource.rs 40-43): the address of the
      lock, if any, and the type asked for. *)
  Record handle := Handle { h_addr : option nat; h_ty : ty }.

  (** Kind of access: [with] or [with_mut] (deref.rs 40-57). *)
  Inductive mode := Shared | Excl.

  (** How to run a transaction: [schema.transaction().with(..)] or [ctx.transaction().with(..)].
      [crash]: number of operations applied when user code ([Clone], [Ord] or [Drop] of ids and
      nodes) panics during the commit, should it get that far. *)
  Inductive tx := TxBg (crash : option nat) | TxFg (c : ctx).

  Inductive prog :=
  | PRet (r : res)
  | PPanic
  | PLoop                                                  (* never returns *)
  | PEmit (v : V) (k : prog)
  | PCall (body : prog) (k : res -> prog)                  (* call of a function *)
  | PTry (body : prog) (k : option res -> prog)            (* std::panic::catch_unwind *)
  (* transactions and contexts *)
  | PWith (t : tx) (body : ctx -> prog) (k : res -> prog)
  | PSave (c : ctx) (n : Node) (k : prog)
  | PDelete (c : ctx) (i : Id) (k : prog)
  | PGet (c : ctx) (i : Id) (k : option Node -> prog)
  | PContains (c : ctx) (i : Id) (k : bool -> prog)
  | PTarget (c : ctx) (n : Node) (k : ctx -> prog)         (* ctx.with_target(n) *)
  | PLeak (c : ctx) (k : prog)                             (* mem::forget(ctx) *)
  | PTriggers (s : type_id) (c : ctx) (k : res -> prog)    (* ctx.triggers().select(S).execute(&ctx) *)
  (* schema.read() and schema.write() *)
  | PRead (body : prog) (k : res -> prog)
  | PWrite (body : prog) (k : res -> prog)
  | PGraphGet (i : Id) (k : option Node -> prog)
  | PGraphIter (k : list Node -> prog)
  | PGraphCall (c : @gcall Id Node) (k : option Node -> prog)
  (* resources and targets *)
  | PRes (t : type_id) (k : handle -> prog)                (* Res::from(..) *)
  | PAccess (m : mode) (hs : list handle) (body : list (nat * dyn) -> prog) (k : option res -> prog)
  | PPoke (a : nat) (d : dyn) (k : prog).                  (* assignment through a [&mut] *)

  (** trigger.rs 13-19: [Trigger::execute].  The arguments of the closure (trigger.rs 31) are
      built from the context by any [From<&Context>], so a trigger is any program over it. *)
  Definition trigger := ctx -> prog.

  (** ** The trigger set: trigger.rs 76-127 *)
  Definition trigger_set := btree type_id (list trigger).

  (** trigger.rs 81-88: [Default]. *)
  Definition ts_default : trigger_set := [].

  (** trigger.rs 95-112: [with_trigger]. *)
  Definition ts_with_trigger (ts : trigger_set) (s : type_id) (t : trigger) : trigger_set :=
    match bt_get s ts with
    | Some l => bt_insert s (l ++ [t]) ts
    | None => bt_insert s [t] ts
    end.

  (** trigger.rs 115-126: [select]; [None] is [TriggerSelect::default()]. *)
  Definition ts_select (ts : trigger_set) (s : type_id) : option (list trigger) := bt_get s ts.

  (** trigger.rs 71: [try_for_each]. *)
  Fixpoint try_for_each (ts : list trigger) (c : ctx) : prog :=
    match ts with
    | [] => PRet RUnit
    | t :: ts => PCall (t c) (fun r => match r with
        | RErr e => PRet (RErr e)
        | _ => try_for_each ts c
        end)
    end.

  (** trigger.rs 62-73: [TriggerSelect::execute]. *)
  Definition select_execute (sel : option (list trigger)) (c : ctx) : prog :=
    match sel with
    | None => PRet RUnit
    | Some ts => try_for_each ts c
    end.

  (** ** The resource set: resource.rs 19-37 *)
  Definition resource_set := btree type_id nat.

  (** A schema, apart from its graph, which is in the [world]: schema/mod.rs 23-33. *)
  Record schema := Schema { sc_resources : resource_set; sc_triggers : trigger_set }.

  (** ** The state programs act upon *)

  (** State of the graph's [RwLock]: as [rw], telling apart the write guard of a transaction
      (transaction.rs 30) from one obtained by [schema.write()]. *)
  Inductive glock := GFree | GReaders (n : nat) | GTx | GWrite.

  (** [w_heap]: the operations of the transactions being run, by address.  [w_leaked]: addresses of
      which a context has been leaked.  [w_out]: values emitted so far, oldest first. *)
  Record world := World {
    w_graph : graph Id Node;
    w_lock : glock;
    w_poison : bool;
    w_heap : heap Id Node;
    w_leaked : list nat;
    w_cells : list cell;
    w_out : list V
  }.

  Definition set_graph g w := World g (w_lock w) (w_poison w) (w_heap w) (w_leaked w) (w_cells w) (w_out w).
  Definition set_lock l w := World (w_graph w) l (w_poison w) (w_heap w) (w_leaked w) (w_cells w) (w_out w).
  Definition set_poison w := World (w_graph w) (w_lock w) true (w_heap w) (w_leaked w) (w_cells w) (w_out w).
  Definition set_heap h w := World (w_graph w) (w_lock w) (w_poison w) h (w_leaked w) (w_cells w) (w_out w).
  Definition set_leaked l w := World (w_graph w) (w_lock w) (w_poison w) (w_heap w) l (w_cells w) (w_out w).
  Definition set_cells cs w := World (w_graph w) (w_lock w) (w_poison w) (w_heap w) (w_leaked w) cs (w_out w).
  Definition emit v w := World (w_graph w) (w_lock w) (w_poison w) (w_heap w) (w_leaked w) (w_cells w) (w_out w ++ [v]).

  (** ** Building a schema *)

  (** schema/mod.rs 35-46: [From<Graph>]. *)
  Definition sc_from (g : graph Id Node) : schema * world :=
    (Schema [] ts_default, World g GFree false [] [] [] []).

  (** schema/mod.rs 63-69 and resource.rs 28-36: [with_resource]; allocates a fresh lock. *)
  Definition sc_with_resource (t : type_id) (u : U) (sw : schema * world) : schema * world :=
    let (s, w) := sw in
    (Schema (bt_insert t (length (w_cells w)) (sc_resources s)) (sc_triggers s),
     set_cells (w_cells w ++ [Cell (DRes t u) false Free]) w).

  (** schema/mod.rs 72-84: [with_trigger]. *)
  Definition sc_with_trigger (t : type_id) (f : trigger) (sw : schema * world) : schema * world :=
    let (s, w) := sw in
    (Schema (sc_resources s) (ts_with_trigger (sc_triggers s) t f), w).

  (** resource.rs 166-176 and 178-186: [Res::from]. *)
  Definition res_from (s : schema) (t : type_id) : handle := Handle (bt_get t (sc_resources s)) (TyRes t).

  (** transaction.rs 342-349 and 485-487: [Target::from] and [Context::target]. *)
  Definition target_of (c : ctx) : handle := Handle (ctx_target c) TyNode.

  (** ** Accesses: deref.rs 59-139 *)

  (** Would the thread block on this lock? *)
  Definition blocked (m : mode) (l : rw) : bool :=
    match m, l with
    | _, Free => false
    | Shared, Readers _ => false
    | _, _ => true
    end.

  Definition lock_rw (m : mode) (l : rw) : rw :=
    match m, l with
    | Shared, Readers n => Readers (S n)
    | Shared, _ => Readers 0
    | Excl, _ => Writer
    end.

  Definition unlock_rw (l : rw) : rw :=
    match l with
    | Readers (S n) => Readers n
    | _ => Free
    end.

  Definition lock_cell (m : mode) (x : cell) : cell := Cell (c_val x) (c_poison x) (lock_rw m (c_lock x)).
  Definition unlock_cell (poison : bool) (x : cell) : cell :=
    Cell (c_val x) (c_poison x || poison) (unlock_rw (c_lock x)).

  (** [read]/[write] of one handle: transaction.rs 242-254, 292-304; resource.rs 78-93, 138-153.
      The guard holds the address of the lock, or nothing. *)
  Inductive acquired (A : Type) := AcqOk (cs : list cell) (a : A) | AcqHang | AcqStuck.
  Arguments AcqOk {A}. Arguments AcqHang {A}. Arguments AcqStuck {A}.

  Definition acquire1 (m : mode) (h : handle) (cs : list cell) : acquired (option nat) :=
    match h_addr h with
    | None => AcqOk cs None
    | Some a =>
        match nth_error cs a with
        | None => AcqStuck
        | Some x =>
            if blocked m (c_lock x) then AcqHang
            else if c_poison x then AcqOk cs None          (* the guard in the error is dropped *)
            else AcqOk (alter (lock_cell m) a cs) (Some a)
        end
    end.

  (** deref.rs 102 and 123: all the guards, in order. *)
  Fixpoint acquire (m : mode) (hs : list handle) (cs : list cell) : acquired (list (option nat)) :=
    match hs with
    | [] => AcqOk cs []
    | h :: hs =>
        match acquire1 m h cs with
        | AcqOk cs1 a =>
            match acquire m hs cs1 with
            | AcqOk cs2 l => AcqOk cs2 (a :: l)
            | AcqHang => AcqHang
            | AcqStuck => AcqStuck
            end
        | AcqHang => AcqHang
        | AcqStuck => AcqStuck
        end
    end.

  (** [try_deref]: transaction.rs 229-231, 273-281; resource.rs 66-68, 117-128 (downcast). *)
  Definition deref1 (cs : list cell) (h : handle) (a : option nat) : option (nat * dyn) :=
    match a with
    | None => None
    | Some a =>
        match nth_error cs a with
        | Some x => if ty_eqb (ty_of (c_val x)) (h_ty h) then Some (a, c_val x) else None
        | None => None
        end
    end.

  (** deref.rs 104-106 and 125-127: all the values, or [None]. *)
  Fixpoint deref_all (cs : list cell) (hs : list handle) (l : list (option nat)) : option (list (nat * dyn)) :=
    match hs, l with
    | [], [] => Some []
    | h :: hs, a :: l =>
        match deref1 cs h a, deref_all cs hs l with
        | Some v, Some vs => Some (v :: vs)
        | _, _ => None
        end
    | _, _ => None
    end.

  (** Dropping the guards; [poison]: while panicking, write guards only. *)
  Fixpoint release (poison : bool) (l : list (option nat)) (cs : list cell) : list cell :=
    match l with
    | [] => cs
    | None :: l => release poison l cs
    | Some a :: l => alter (unlock_cell poison) a (release poison l cs)
    end.

  (** ** Commits *)

  (** Is some context of the transaction with this buffer leaked?  Then [Arc::into_inner] fails
      (transaction.rs 75-78, 141-144). *)
  Definition leaked (w : world) (b : nat) : bool := existsb (Nat.eqb b) (w_leaked w).

  (** The buffers of a transaction that has ended, and of those nested in it, are gone. *)
  Definition close (b : nat) (w : world) : world :=
    set_leaked (filter (fun b' => b' <? b) (w_leaked w)) (set_heap (firstn b (w_heap w)) w).

  (** Does the commit of [ops] panic once [k] of them are applied?  User code is run for every operation: before it is
      applied ([Clone], [Ord]), and after it ([Drop] of the node that it takes out of the graph). *)
  Definition crashes (k : nat) (ops : list (op Id Node)) : bool := (0 <? length ops) && (k <=? length ops).

  (** transaction.rs 69-96: [Background::commit], [guard] being initialised; also whether it
      panicked. *)
  Definition bg_commit (crash : option nat) (b : nat) (w : world) : world * bool :=
    if leaked w b then (w, false)
    else
      let ops := buf_ops (w_heap w) b in
      match crash with
      | Some k => if crashes k ops
                  then (set_graph (apply_ops (w_graph w) (firstn k ops)) w, true)
                  else (set_graph (apply_ops (w_graph w) ops) w, false)
      | None => (set_graph (apply_ops (w_graph w) ops) w, false)
      end.

  (** transaction.rs 140-166: [Foreground::commit]. *)
  Definition fg_commit (c : ctx) (b : nat) (w : world) : world :=
    if leaked w b then w
    else set_heap (fg_extend (w_heap w) c b) w.

  (** ** Running programs *)
  Inductive outcome := ORet (r : res) | OPanic | OHang | OStuck.

  Definition glock_read (l : glock) : option glock :=
    match l with
    | GFree => Some (GReaders 0)
    | GReaders n => Some (GReaders (S n))
    | _ => None
    end.
  Definition glock_unread (l : glock) : glock :=
    match l with GReaders (S n) => GReaders n | _ => GFree end.

  Variable sc : schema.

  (** [None]: not finished within that many nested steps.  [OStuck]: the program is one rustc rejects
      (calls on guards that are not there). *)
  Fixpoint run (fuel : nat) (w : world) (p : prog) : option (world * outcome) :=
    match fuel with
    | O => None
    | S fuel =>
        match p with
        | PRet r => Some (w, ORet r)
        | PPanic => Some (w, OPanic)
        | PLoop => None
        | PEmit v k => run fuel (emit v w) k
        | PCall body k =>
            match run fuel w body with
            | Some (w1, ORet r) => run fuel w1 (k r)
            | o => o
            end
        | PTry body k =>
            match run fuel w body with
            | Some (w1, ORet r) => run fuel w1 (k (Some r))
            | Some (w1, OPanic) => run fuel w1 (k None)
            | o => o
            end
        | PWith (TxBg crash) body k =>             (* transaction.rs 54-61 *)
            match w_lock w with
            | GFree =>                             (* get_or_init: schema.write() (410) *)
                let b := length (w_heap w) in
                match run fuel (set_lock GTx (set_heap (w_heap w ++ [[]]) w)) (body (CRoot b None)) with
                | Some (w1, ORet r) =>
                    if is_ok r then
                      let (w2, panicked) := bg_commit crash b w1 in
                      let w3 := close b (set_lock GFree w2) in
                      if panicked then Some (set_poison w3, OPanic) else run fuel w3 (k r)
                    else run fuel (close b (set_lock GFree w1)) (k r)
                | Some (w1, OPanic) => Some (close b (set_lock GFree (set_poison w1)), OPanic)
                | o => o
                end
            | _ => Some (w, OHang)
            end
        | PWith (TxFg c) body k =>                 (* transaction.rs 126-133 *)
            let b := length (w_heap w) in
            match run fuel (set_heap (w_heap w ++ [[]]) w) (body (CSub c b None)) with
            | Some (w1, ORet r) =>
                if is_ok r then run fuel (close b (fg_commit c b w1)) (k r)
                else run fuel (close b w1) (k r)
            | Some (w1, OPanic) => Some (close b w1, OPanic)
            | o => o
            end
        | PSave c n k => run fuel (set_heap (ctx_save (w_heap w) c n) w) k
        | PDelete c i k => run fuel (set_heap (ctx_delete (w_heap w) c i) w) k
        | PGet c i k => run fuel w (k (ctx_get (w_heap w) (w_graph w) c i))
        | PContains c i k => run fuel w (k (ctx_contains (w_heap w) (w_graph w) c i))
        | PTarget c n k =>                         (* transaction.rs 449-452, 309-311 *)
            run fuel (set_cells (w_cells w ++ [Cell (DNode n) false Free]) w)
                (k (ctx_with_target c (length (w_cells w))))
        | PLeak c k => run fuel (set_leaked (ctx_buf c :: w_leaked w) w) k
        | PTriggers s c k =>
            match run fuel w (select_execute (ts_select (sc_triggers sc) s) c) with
            | Some (w1, ORet r) => run fuel w1 (k r)
            | o => o
            end
        | PRead body k =>                          (* guard.rs 35-45 *)
            match glock_read (w_lock w) with
            | Some l =>
                match run fuel (set_lock l w) body with
                | Some (w1, ORet r) => run fuel (set_lock (glock_unread (w_lock w1)) w1) (k r)
                | Some (w1, OPanic) => Some (set_lock (glock_unread (w_lock w1)) w1, OPanic)
                | o => o
                end
            | None => Some (w, OHang)
            end
        | PWrite body k =>                         (* guard.rs 80-90 *)
            match w_lock w with
            | GFree =>
                match run fuel (set_lock GWrite w) body with
                | Some (w1, ORet r) => run fuel (set_lock GFree w1) (k r)
                | Some (w1, OPanic) => Some (set_lock GFree (set_poison w1), OPanic)
                | o => o
                end
            | _ => Some (w, OHang)
            end
        | PGraphGet i k =>
            match w_lock w with
            | GReaders _ | GWrite => run fuel w (k (g_get (w_graph w) i))
            | _ => Some (w, OStuck)
            end
        | PGraphIter k =>
            match w_lock w with
            | GReaders _ | GWrite => run fuel w (k (g_iter (w_graph w)))
            | _ => Some (w, OStuck)
            end
        | PGraphCall c k =>
            match w_lock w with
            | GWrite => let (g, r) := g_step (w_graph w) c in run fuel (set_graph g w) (k r)
            | _ => Some (w, OStuck)
            end
        | PRes t k => run fuel w (k (res_from sc t))
        | PAccess m hs body k =>
            match acquire m hs (w_cells w) with
            | AcqHang => Some (w, OHang)
            | AcqStuck => Some (w, OStuck)
            | AcqOk cs held =>
                match deref_all cs hs held with
                | None => run fuel (set_cells (release false held cs) w) (k None)
                | Some vs =>
                    match run fuel (set_cells cs w) (body vs) with
                    | Some (w1, ORet r) =>
                        run fuel (set_cells (release false held (w_cells w1)) w1) (k (Some r))
                    | Some (w1, OPanic) =>
                        Some (set_cells (release (match m with Excl => true | Shared => false end)
                                                 held (w_cells w1)) w1, OPanic)
                    | o => o
                    end
                end
            end
        | PPoke a d k =>
            match nth_error (w_cells w) a with
            | Some x =>
                match c_lock x with
                | Writer =>
                    if ty_eqb (ty_of d) (ty_of (c_val x))
                    then run fuel (set_cells (alter (fun x => Cell d (c_poison x) (c_lock x)) a (w_cells w)) w) k
                    else Some (w, OStuck)
                | _ => Some (w, OStuck)
                end
            | None => Some (w, OStuck)
            end
        end
    end.

  (** ** Operations *)

  (** save.rs 10-14 and delete.rs 11-15: the schedules. *)
  Definition BeforeSave : type_id := 0.
  Definition AfterSave : type_id := 1.
  Definition BeforeDelete : type_id := 2.
  Definition AfterDelete : type_id := 3.

  (** The [?] operator on a [Result<()>]. *)
  Definition try_ (r : res) (k : prog) : prog :=
    match r with RErr e => PRet (RErr e) | _ => k end.

  (** save.rs 28-35: the closure of [Save::execute]. *)
  Definition save_body (n : Node) (c0 : ctx) : prog :=
    PTarget c0 n (fun c =>
      PTriggers BeforeSave c (fun r => try_ r (
        PAccess Shared [target_of c] (fun vs =>
            match vs with
            | [(_, DNode m)] => PSave c m (PRet RUnit)
            | _ => PPanic                          (* not reached: a target holds a node *)
            end)
          (fun _ => PTriggers AfterSave c (fun r => try_ r (PRet RUnit)))))).

  (** save.rs 24-36: [Save::execute], then [k]. *)
  Definition p_save (n : Node) (t : tx) (k : res -> prog) : prog := PWith t (save_body n) k.

  (** delete.rs 33-45: the closure of [Delete::execute].  [ctx.node(id).try_deref()] is the first
      dereference of a fresh proxy: [Source::get] (proxy.rs 73-77). *)
  Definition delete_body (i : Id) (c0 : ctx) : prog :=
    PGet c0 i (fun o =>
      match o with
      | None => PRet (RErr Noop)
      | Some n =>
          PTarget c0 n (fun c =>
            PTriggers BeforeDelete c (fun r => try_ r (
              PDelete c i (
                PTriggers AfterDelete c (fun r => try_ r (PRet RUnit))))))
      end).

  (** delete.rs 32-46: [Delete::execute], then [k]. *)
  Definition p_delete (i : Id) (t : tx) (k : res -> prog) : prog := PWith t (delete_body i) k.

  (** resource.rs 161-163: [Res::exists]; continues with the answer. *)
  Definition p_exists (h : handle) (k : bool -> prog) : prog :=
    PAccess Shared [h] (fun _ => PRet RUnit)
      (fun r => k (match r with Some _ => true | None => false end)).
End Prog.
Arguments res : clear implicits.
Arguments dyn : clear implicits.
Arguments cell : clear implicits.
Arguments prog : clear implicits.
Arguments world : clear implicits.
Arguments schema : clear implicits.
Arguments outcome : clear implicits.
Arguments trigger : clear implicits.
Arguments trigger_set : clear implicits.
