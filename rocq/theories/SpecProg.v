(** Specification vocabulary for programs. *)
From Coq Require Import List Bool Arith.
From Verif Require Import Ord OrdFacts BTree Graph Tx TxMachine SpecTx Prog.
Import ListNotations.

Section Spec.
  Context {Id Node V U : Type} `{OrdT Id} `{Identify Node Id}.
  Notation prog := (prog Id Node V U).
  Notation world := (world Id Node V U).
  Notation schema := (schema Id Node V U).
  Notation outcome := (outcome V).
  Notation res := (res V).
  Notation trigger := (trigger Id Node V U).
  Notation dyn := (dyn Node U).

  (** Run from [w], program [p] ends with outcome [o], leaving [w']. *)
  Definition ends (sc : schema) (w : world) (p : prog) (w' : world) (o : outcome) : Prop :=
    exists fuel, run sc fuel w p = Some (w', o).

  (** The program runs for ever. *)
  Definition diverges (sc : schema) (w : world) (p : prog) : Prop :=
    forall fuel, run sc fuel w p = None.

  (** It comes back to its caller, by returning or by panicking. *)
  Definition comes_back (o : outcome) : Prop :=
    match o with ORet _ | OPanic => True | OHang | OStuck => False end.

  (** What context [c] shows for id [i]. *)
  Definition view (w : world) (c : ctx) (i : Id) : option Node := ctx_get (w_heap w) (w_graph w) c i.

  (** The state in which a transaction's closure starts: [b] is its buffer. *)
  Definition bg_open (w : world) : world := set_lock GTx (set_heap (w_heap w ++ [[]]) w).
  Definition fg_open (w : world) : world := set_heap (w_heap w ++ [[]]) w.

  (** The context given to the closure of a transaction started in [w]. *)
  Definition bg_ctx (w : world) : ctx := CRoot (length (w_heap w)) None.
  Definition fg_ctx (w : world) (c : ctx) : ctx := CSub c (length (w_heap w)) None.

  (** Operations registered so far in a context, oldest first. *)
  Definition registered (w : world) (c : ctx) : list (op Id Node) := buf_ops (w_heap w) (ctx_buf c).

  (** What an operation does to a map, for [replay]. *)
  Definition op_entry (o : op Id Node) : @entry Id Node :=
    match o with OSave n => (id_of n, Some n) | ODelete i => (i, None) end.

  (** Between top-level transactions and guards: the graph's lock is free, nothing is pending. *)
  Definition at_rest (w : world) : Prop := w_lock w = GFree /\ w_heap w = [] /\ w_leaked w = [].

  (** No context of a transaction yet to be started is leaked. *)
  Definition fresh (w : world) : Prop := leaked w (length (w_heap w)) = false.

  (** Inside a transaction, no cell being accessed. *)
  Definition idle_in_tx (w : world) : Prop :=
    w_lock w = GTx /\ forall a x, nth_error (w_cells w) a = Some x -> c_lock x = Free.

  (** Whatever is run from [w1] can be run from [w2] with the same outcome, the same effects and
      emitting the same values, and conversely. *)
  Definition same_runs (sc : schema) (w1 w2 : world) : Prop :=
    forall q w1' o, ends sc w1 q w1' o ->
      exists w2', ends sc w2 q w2' o /\ w_graph w2' = w_graph w1' /\ w_lock w2' = w_lock w1' /\
        w_cells w2' = w_cells w1' /\
        exists l, w_out w1' = w_out w1 ++ l /\ w_out w2' = w_out w2 ++ l.
  Definition indistinguishable (sc : schema) (w1 w2 : world) : Prop :=
    same_runs sc w1 w2 /\ same_runs sc w2 w1.

  (** ** Triggers *)

  (** All the triggers run on context [c], one after the other, all successfully. *)
  Inductive all_succeed (sc : schema) (c : ctx) : list trigger -> world -> world -> Prop :=
  | as_nil : forall w, all_succeed sc c [] w w
  | as_cons : forall t ts w w1 w2 r, ends sc w (t c) w1 (ORet r) -> (forall e, r <> RErr e) ->
      all_succeed sc c ts w1 w2 -> all_succeed sc c (t :: ts) w w2.

  (** The triggers run one after the other until one fails with [e]; the rest do not run. *)
  Inductive first_failure (sc : schema) (c : ctx) (e : error) : list trigger -> world -> world -> Prop :=
  | ff_here : forall t ts w w1, ends sc w (t c) w1 (ORet (RErr e)) -> first_failure sc c e (t :: ts) w w1
  | ff_later : forall t ts w w1 w2 r, ends sc w (t c) w1 (ORet r) -> (forall e', r <> RErr e') ->
      first_failure sc c e ts w1 w2 -> first_failure sc c e (t :: ts) w w2.

  (** ** Building schemas *)
  Inductive build :=
  | BResource (t : type_id) (u : U)
  | BTrigger (s : type_id) (t : trigger).

  Definition build_step (sw : schema * world) (b : build) : schema * world :=
    match b with
    | BResource t u => sc_with_resource t u sw
    | BTrigger s t => sc_with_trigger s t sw
    end.

  (** [Schema::from(g)] followed by these calls. *)
  Definition built (g : graph Id Node) (bs : list build) : schema * world :=
    fold_left build_step bs (sc_from g).

  (** A schema and its state at some point of its life: built by these calls, between which any programs were run. *)
  Inductive lives : schema -> world -> Prop :=
  | lv_from : forall g, lives (fst (sc_from g)) (snd (sc_from g))
  | lv_build : forall sc w b sc' w', lives sc w -> build_step (sc, w) b = (sc', w') -> lives sc' w'
  | lv_run : forall sc w p w' o, lives sc w -> ends sc w p w' o -> comes_back o -> lives sc w'.

  (** The triggers registered for a schedule, in registration order. *)
  Fixpoint triggers_for (s : type_id) (bs : list build) : list trigger :=
    match bs with
    | [] => []
    | BTrigger s' t :: bs => if Nat.eqb s' s then t :: triggers_for s bs else triggers_for s bs
    | _ :: bs => triggers_for s bs
    end.

  (** The last resource registered for a type. *)
  Fixpoint last_resource (t : type_id) (bs : list build) : option U :=
    match bs with
    | [] => None
    | BResource t' u :: bs =>
        match last_resource t bs with
        | Some u' => Some u'
        | None => if Nat.eqb t' t then Some u else None
        end
    | _ :: bs => last_resource t bs
    end.

  (** The triggers of a schema for a schedule. *)
  Definition scheduled (sc : schema) (s : type_id) : list trigger :=
    match ts_select (sc_triggers sc) s with Some l => l | None => [] end.

  (** ** Confinement: which contexts a program registers operations on *)

  (** Every operation of [p] is registered on a buffer satisfying [own], or on the context of a
      transaction [p] itself starts. *)
  Fixpoint confined (own : nat -> Prop) (p : prog) : Prop :=
    match p with
    | PRet _ | PPanic | PLoop => True
    | PEmit _ k => confined own k
    | PCall body k => confined own body /\ forall r, confined own (k r)
    | PTry body k => confined own body /\ forall r, confined own (k r)
    | PWith (TxBg _) body k =>
        (forall b, confined (fun b' => own b' \/ b' = b) (body (CRoot b None))) /\ forall r, confined own (k r)
    | PWith (TxFg c) body k =>
        own (ctx_buf c) /\
        (forall b, confined (fun b' => own b' \/ b' = b) (body (CSub c b None))) /\ forall r, confined own (k r)
    | PSave c _ k => own (ctx_buf c) /\ confined own k
    | PDelete c _ k => own (ctx_buf c) /\ confined own k
    | PGet _ _ k => forall r, confined own (k r)
    | PContains _ _ k => forall r, confined own (k r)
    | PTarget c _ k => forall a, confined own (k (ctx_with_target c a))
    | PLeak c k => own (ctx_buf c) /\ confined own k
    | PTriggers _ c k => own (ctx_buf c) /\ forall r, confined own (k r)
    | PRead body k => confined own body /\ forall r, confined own (k r)
    | PWrite body k => confined own body /\ forall r, confined own (k r)
    | PGraphGet _ k => forall r, confined own (k r)
    | PGraphIter k => forall r, confined own (k r)
    | PGraphCall _ k => forall r, confined own (k r)
    | PRes _ k => forall h, confined own (k h)
    | PAccess _ _ body k => (forall vs, confined own (body vs)) /\ forall r, confined own (k r)
    | PPoke _ _ k => confined own k
    end.

  (** A closure over a context that registers operations on that context, and on those of
      transactions it starts, only. *)
  Definition minds_its_own (body : ctx -> prog) : Prop :=
    forall c, confined (fun b => b = ctx_buf c) (body c).

  (** Triggers are ['static] closures that are given a reference to one context whose parent is
      private, so they cannot reach any other. *)
  Definition triggers_mind_their_own (sc : schema) : Prop :=
    forall s t, In t (scheduled sc s) -> minds_its_own t.

  (** The contexts a program leaks are those of transactions satisfying [own], or started by itself. *)
  Fixpoint leaks_only (own : nat -> Prop) (p : prog) : Prop :=
    match p with
    | PRet _ | PPanic | PLoop => True
    | PEmit _ k => leaks_only own k
    | PCall body k => leaks_only own body /\ forall r, leaks_only own (k r)
    | PTry body k => leaks_only own body /\ forall r, leaks_only own (k r)
    | PWith (TxBg _) body k =>
        (forall b, leaks_only (fun b' => own b' \/ b' = b) (body (CRoot b None))) /\ forall r, leaks_only own (k r)
    | PWith (TxFg c) body k =>
        (forall b, leaks_only (fun b' => own b' \/ b' = b) (body (CSub c b None))) /\ forall r, leaks_only own (k r)
    | PSave _ _ k => leaks_only own k
    | PDelete _ _ k => leaks_only own k
    | PGet _ _ k => forall r, leaks_only own (k r)
    | PContains _ _ k => forall r, leaks_only own (k r)
    | PTarget c _ k => forall a, leaks_only own (k (ctx_with_target c a))
    | PLeak c k => own (ctx_buf c) /\ leaks_only own k
    | PTriggers _ _ k => forall r, leaks_only own (k r)
    | PRead body k => leaks_only own body /\ forall r, leaks_only own (k r)
    | PWrite body k => leaks_only own body /\ forall r, leaks_only own (k r)
    | PGraphGet _ k => forall r, leaks_only own (k r)
    | PGraphIter k => forall r, leaks_only own (k r)
    | PGraphCall _ k => forall r, leaks_only own (k r)
    | PRes _ k => forall h, leaks_only own (k h)
    | PAccess _ _ body k => (forall vs, leaks_only own (body vs)) /\ forall r, leaks_only own (k r)
    | PPoke _ _ k => leaks_only own k
    end.

  (** Triggers are given a reference to a context (trigger.rs 18), so they cannot leak it: only those
      of transactions they start themselves. *)
  Definition triggers_borrow (sc : schema) : Prop :=
    forall s t c, In t (scheduled sc s) -> leaks_only (fun _ => False) (t c).

  (** ** Cells *)

  (** What a handle reads in [w]: its current value, unless there is none or it is poisoned. *)
  Definition reads (w : world) (h : handle) : option dyn :=
    match h_addr h with
    | None => None
    | Some a =>
        match nth_error (w_cells w) a with
        | Some (Cell d false _) => if ty_eqb (ty_of d) (h_ty h) then Some d else None
        | _ => None
        end
    end.

  (** Its cell is there but a panic disabled it. *)
  Definition poisoned (w : world) (h : handle) : Prop :=
    exists a x, h_addr h = Some a /\ nth_error (w_cells w) a = Some x /\ c_poison x = true.

  (** The handle is not one of a later state. *)
  Definition held (w : world) (h : handle) : Prop := forall a, h_addr h = Some a -> a < length (w_cells w).

  (** The addresses a tuple of handles holds locked during an access, in order: those of the cells that
      are there and not poisoned. *)
  Definition live (w : world) (hs : list handle) : list nat :=
    flat_map (fun h => match h_addr h with
      | Some a => match nth_error (w_cells w) a with Some (Cell _ false _) => [a] | _ => [] end
      | None => []
      end) hs.

  (** No access of that kind to these handles blocks on a cell already being accessed; and the handles
      are not dangling. *)
  Definition available (m : mode) (w : world) (hs : list handle) : Prop :=
    forall h a, In h hs -> h_addr h = Some a -> exists x, nth_error (w_cells w) a = Some x /\
      match m with Excl => c_lock x = Free | Shared => c_lock x <> Writer end.

  (** The same cells, apart from their locks. *)
  Definition same_but_locks (w w' : world) : Prop :=
    map (fun x => (c_val x, c_poison x)) (w_cells w') = map (fun x => (c_val x, c_poison x)) (w_cells w) /\
    w_graph w' = w_graph w /\ w_lock w' = w_lock w /\ w_poison w' = w_poison w /\ w_heap w' = w_heap w /\
    w_leaked w' = w_leaked w /\ w_out w' = w_out w.

  (** [h.with_mut(|x| *x = f(x))] *)
  Definition modify (h : handle) (f : dyn -> dyn) : prog :=
    PAccess Excl [h] (fun vs => match vs with
      | [(a, d)] => PPoke a (f d) (PRet RUnit)
      | _ => PPanic
      end) (fun _ => PRet RUnit).

  (** The program never accesses the cell [a] with [with_mut]. *)
  Fixpoint leaves_alone (sc : schema) (a : nat) (p : prog) : Prop :=
    match p with
    | PRet _ | PPanic | PLoop => True
    | PEmit _ k => leaves_alone sc a k
    | PCall body k => leaves_alone sc a body /\ forall r, leaves_alone sc a (k r)
    | PTry body k => leaves_alone sc a body /\ forall r, leaves_alone sc a (k r)
    | PWith (TxBg _) body k => (forall b, leaves_alone sc a (body (CRoot b None))) /\ forall r, leaves_alone sc a (k r)
    | PWith (TxFg c) body k => (forall b, leaves_alone sc a (body (CSub c b None))) /\ forall r, leaves_alone sc a (k r)
    | PSave _ _ k => leaves_alone sc a k
    | PDelete _ _ k => leaves_alone sc a k
    | PGet _ _ k => forall r, leaves_alone sc a (k r)
    | PContains _ _ k => forall r, leaves_alone sc a (k r)
    | PTarget c _ k => forall a', a' <> a -> leaves_alone sc a (k (ctx_with_target c a'))
    | PLeak _ k => leaves_alone sc a k
    | PTriggers _ c k => ctx_target c <> Some a /\ forall r, leaves_alone sc a (k r)
    | PRead body k => leaves_alone sc a body /\ forall r, leaves_alone sc a (k r)
    | PWrite body k => leaves_alone sc a body /\ forall r, leaves_alone sc a (k r)
    | PGraphGet _ k => forall r, leaves_alone sc a (k r)
    | PGraphIter k => forall r, leaves_alone sc a (k r)
    | PGraphCall _ k => forall r, leaves_alone sc a (k r)
    | PRes t k => leaves_alone sc a (k (res_from sc t))
    | PAccess m hs body k =>
        (m = Excl -> forall h, In h hs -> h_addr h <> Some a) /\
        (forall vs, map (fun v => Some (fst v)) vs = map h_addr hs -> leaves_alone sc a (body vs)) /\
        forall r, leaves_alone sc a (k r)
    | PPoke a' _ k => a' <> a /\ leaves_alone sc a k
    end.

  Definition triggers_leave_alone (sc : schema) (a : nat) : Prop :=
    forall s t c, In t (scheduled sc s) -> ctx_target c <> Some a -> leaves_alone sc a (t c).

  (** ** Save and Delete *)

  (** The context on which [Save] or [Delete], executed on a transaction started in [w], runs the
      triggers: the one of the transaction with a fresh target. *)
  Definition bg_target_ctx (w : world) : ctx := CRoot (length (w_heap w)) (Some (length (w_cells w))).
  Definition fg_target_ctx (w : world) (c : ctx) : ctx := CSub c (length (w_heap w)) (Some (length (w_cells w))).

  (** The state in which they are run: the transaction is open and its target is [n]. *)
  Definition with_target (n : Node) (w : world) : world := set_cells (w_cells w ++ [Cell (DNode n) false Free]) w.

  (** [w2] is [w1] with one more operation registered on [c]. *)
  Definition registers (c : ctx) (o : op Id Node) (w1 w2 : world) : Prop :=
    w2 = set_heap (alter (fun ops => ops ++ [o]) (ctx_buf c) (w_heap w1)) w1.

  (** ** Termination *)

  (** The program never loops, and the schedules it may execute the triggers of all satisfy [ok]. *)
  Fixpoint schedules (ok : type_id -> Prop) (p : prog) : Prop :=
    match p with
    | PRet _ | PPanic => True
    | PLoop => False
    | PEmit _ k => schedules ok k
    | PCall body k => schedules ok body /\ forall r, schedules ok (k r)
    | PTry body k => schedules ok body /\ forall r, schedules ok (k r)
    | PWith _ body k => (forall c, schedules ok (body c)) /\ forall r, schedules ok (k r)
    | PSave _ _ k => schedules ok k
    | PDelete _ _ k => schedules ok k
    | PGet _ _ k => forall r, schedules ok (k r)
    | PContains _ _ k => forall r, schedules ok (k r)
    | PTarget _ _ k => forall c, schedules ok (k c)
    | PLeak _ k => schedules ok k
    | PTriggers s _ k => ok s /\ forall r, schedules ok (k r)
    | PRead body k => schedules ok body /\ forall r, schedules ok (k r)
    | PWrite body k => schedules ok body /\ forall r, schedules ok (k r)
    | PGraphGet _ k => forall r, schedules ok (k r)
    | PGraphIter k => forall r, schedules ok (k r)
    | PGraphCall _ k => forall r, schedules ok (k r)
    | PRes _ k => forall h, schedules ok (k h)
    | PAccess _ _ body k => (forall vs, schedules ok (body vs)) /\ forall r, schedules ok (k r)
    | PPoke _ _ k => schedules ok k
    end.

  (** No closure of the program runs for ever by itself. *)
  Definition loop_free (p : prog) : Prop := schedules (fun _ => True) p.

  (** Triggers are loop-free and only execute schedules of a lower rank than their own. *)
  Definition stratified (rank : type_id -> nat) (sc : schema) : Prop :=
    forall s t c, In t (scheduled sc s) -> schedules (fun s' => rank s' < rank s) (t c).

  (** The same schema without triggers. *)
  Definition no_triggers (sc : schema) : schema := Schema (sc_resources sc) [].

  (** Run on its own from any idle state inside a transaction, on any context whose target exists, the
      trigger returns or panics. *)
  Definition always_comes_back (sc : schema) (t : trigger) : Prop :=
    forall w c, idle_in_tx w -> (forall a, ctx_target c = Some a -> a < length (w_cells w)) ->
      exists w' o, ends sc w (t c) w' o /\ comes_back o.

  (** A program that returns, panics or hangs: it does not run for ever. *)
  Definition terminates (sc : schema) (w : world) (p : prog) : Prop := exists w' o, ends sc w p w' o.
End Spec.
