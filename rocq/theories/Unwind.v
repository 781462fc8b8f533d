(** Model of panics among guards, transactions and contexts of any lifetime: plotline/src/schema/guard.rs 31-46 and 76-91,
    schema/transaction.rs 49-96 and 126-170.  While a thread unwinds, destructors run, and they may use the schema: any event may come between a panic
    and the end of its unwinding.  A schema is used by one thread ([Schema] is neither [Send] nor [Sync]).  The machine extends that of Guards.v by the poison of
    the graph's lock and by what is logged. *)
From Coq Require Import List Bool Arith.
From Verif Require Import Ord BTree Graph Tx TxMachine Guards.
Import ListNotations.

Section Unwind.
  Context {Id Node : Type} `{OrdT Id} `{Identify Node Id}.
  Notation gstate := (gstate Id Node).
  Notation gevent := (gevent Id Node).
  Notation gout := (gout Id Node).

  (** [us_panics]: how many panics the thread is unwinding from; a destructor may panic and catch that.  [us_poisoned]: the lock of the graph is
      poisoned.  [us_calm], [us_calm_txs]: the guards of [gs_guards], by their place, and the transactions that took the lock when the thread was not
      panicking ([std::sync::poison::Guard]). *)
  Record ustate := UState { us_g : gstate; us_panics : nat; us_poisoned : bool; us_calm : list bool; us_calm_txs : list nat }.

  Inductive uevent :=
  | UEvent (e : gevent)
  | UPanic                        (* a panic: unwinding begins *)
  | UCatch.                       (* catch_unwind returns: unwinding ends *)

  Inductive ulog :=
  | LPoisoned                     (* "posioned graph"                                    guard.rs 40, 85 *)
  | LUninitialized                (* "committing uninitialized transaction"              transaction.rs 71 *)
  | LInUse.                       (* "commiting transaction with contexts yet in use"    transaction.rs 76, 142 *)

  Definition u_init (g : graph Id Node) : ustate := UState (g_init g) 0 false [] [].

  Definition returned (o : gout) : bool := match o with GX XHang | GX XInvalid => false | _ => true end.

  (** Does the event take the lock of the graph? *)
  Definition takes (st : gstate) (e : gevent) : bool :=
    match e with
    | GOpen _ => true
    | GEvent e => match asks st e with Some _ => true | None => false end
    | _ => false
    end.

  (** transaction.rs 70-78 and 141-144.  What comes later cannot fail: the locks of operations are never poisoned. *)
  Definition end_log (st : gstate) (e : gevent) : list ulog :=
    match e with
    | GEvent (EEnd t true) =>
        match nth_error (p_txs (m_proto (gs_m st))) t with
        | Some (TxRec None false _) => [LUninitialized]
        | _ => if has_ctx (m_proto (gs_m st)) t Leaked then [LInUse] else []
        end
    | _ => []
    end.

  (** [Drop for RwLockWriteGuard]: the lock is poisoned if the thread panics now and did not when the guard was made.  A transaction drops its guard when it
      ends, committed or not; when user code panics in the commit, that is during the unwinding. *)
  Definition poisons (st : ustate) (e : gevent) : bool :=
    match e with
    | GCrash t _ => existsb (Nat.eqb t) (us_calm_txs st)
    | GDrop g => negb (Nat.eqb (us_panics st) 0) && match usable g (us_g st) with Some true => nth g (us_calm st) false | _ => false end
    | GEvent (EEnd t _) => negb (Nat.eqb (us_panics st) 0) && existsb (Nat.eqb t) (us_calm_txs st)
    | _ => false
    end.

  Definition u_call (st : ustate) (e : gevent) : ustate * (gout * list ulog) :=
    let g := us_g st in
    let (g', o) := g_step g e in
    if returned o then
      let calm := Nat.eqb (us_panics st) 0 in
      (UState g' (match o with GCrashed _ => S (us_panics st) | _ => us_panics st end) (us_poisoned st || poisons st e)
         (match e with GOpen _ => us_calm st ++ [calm] | _ => us_calm st end)
         (match e with GEvent (EContext t) => if takes g e && calm then t :: us_calm_txs st else us_calm_txs st | _ => us_calm_txs st end),
       (o, (if takes g e && us_poisoned st then [LPoisoned] else []) ++ end_log g e))
    else (UState g' (us_panics st) (us_poisoned st) (us_calm st) (us_calm_txs st), (o, [])).

  Definition u_step (st : ustate) (e : uevent) : ustate * (gout * list ulog) :=
    match e with
    | UEvent e => u_call st e
    | UPanic =>
        if gs_hung (us_g st) then (st, (GX XHang, [])) else
        (UState (us_g st) (S (us_panics st)) (us_poisoned st) (us_calm st) (us_calm_txs st), (GX XUnit, []))
    | UCatch =>
        if gs_hung (us_g st) then (st, (GX XHang, [])) else
        match us_panics st with
        | 0 => (st, (GX XInvalid, []))
        | S n => (UState (us_g st) n (us_poisoned st) (us_calm st) (us_calm_txs st), (GX XUnit, []))
        end
    end.

  Fixpoint u_run (st : ustate) (es : list uevent) : ustate * list (gout * list ulog) :=
    match es with
    | [] => (st, [])
    | e :: es =>
        let (st1, o) := u_step st e in
        let (st2, os) := u_run st1 es in
        (st2, o :: os)
    end.
End Unwind.
Arguments ustate : clear implicits.
Arguments uevent : clear implicits.
