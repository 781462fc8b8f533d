(** Model of guards of cells with any lifetime: plotline/src/schema/resource.rs 39-167, schema/transaction.rs 193-311, deref.rs 18-37.
    [Res::read], [Res::write], [Target::read] and [Target::write] return guards that are values: a program may keep several of them, drop
    them in any order and leak them.  [Target]s are [Send] and [Sync] if the node is, so several threads may use clones of one. *)
From Coq Require Import List Bool Arith.
From Verif Require Import TxMachine Tx.
Import ListNotations.

Section Cells.
  Context {V : Type}.

  (** [Arc<RwLock<T>>] of transaction.rs 195 and [Arc<RwLock<Box<dyn Any>>>] of resource.rs 41.  The [downcast_ref] of resource.rs 68 never
      fails: resources are kept by their type (resource.rs 32-34, 161). *)
  Record kcell := KCell { kc_value : V; kc_poisoned : bool }.

  (** [ResReadGuard], [ResWriteGuard], [TargetReadGuard], [TargetWriteGuard]: [kg_cell] is [None] for an empty guard.  [kg_panicking]: the thread
      was panicking when the lock was taken ([std::sync::poison::Guard]). *)
  Record kguard := KGuard { kg_handle : nat; kg_cell : option nat; kg_write : bool; kg_thread : nat; kg_panicking : bool; kg_status : status }.

  (** [ks_handles]: what each [Res] or [Target] refers to.  [ks_panicking]: the threads that are unwinding, once
      for each panic: a destructor may panic and catch that. *)
  Record kstate := KState { ks_cells : list kcell; ks_handles : list (option nat); ks_guards : list kguard; ks_panicking : list nat }.

  Inductive kact :=
  | KHandle                      (* Target::default(), or a Res of a type without resource *)
  | KSet (h : nat) (v : V)       (* target.set(v)           transaction.rs 308-311; with_resource *)
  | KClone (h : nat)             (* target.clone(), Res::from again         transaction.rs 206-212, resource.rs 156-166 *)
  | KOpen (write : bool) (h : nat)         (* read(), write() *)
  | KDeref (g : nat)             (* try_deref() *)
  | KMut (g : nat) (v : V)       (* mem::replace(try_deref_mut()?, v) *)
  | KDrop (g : nat)
  | KLeak (g : nat)              (* mem::forget(guard) *)
  | KPanic                       (* a panic: unwinding begins *)
  | KCatch.                      (* catch_unwind returns: unwinding ends *)

  (** [KOpened g logged]: [logged] if an error was logged (resource.rs 88, transaction.rs 247).  [KWait]: the thread has to wait. *)
  Inductive kout := KInvalid | KUnit | KHandleNo (h : nat) | KOpened (g : nat) (logged : bool) | KWait | KVal (v : option V).

  Definition kevent : Type := nat * kact.

  Fixpoint remove_one (t : nat) (l : list nat) : list nat :=
    match l with
    | [] => []
    | u :: l => if Nat.eqb u t then l else u :: remove_one t l
    end.

  Definition k_init : kstate := KState [] [] [] [].

  Definition panics (t : nat) (st : kstate) : bool := existsb (Nat.eqb t) (ks_panicking st).

  Definition k_holds (c : nat) (write : bool) (g : kguard) : bool :=
    match kg_cell g with
    | Some c' => Nat.eqb c' c && Bool.eqb (kg_write g) write && match kg_status g with Dropped => false | _ => true end
    | None => false
    end.

  (** Is the cell's lock held in a way that blocks [read] or [write]?  The standard lock may make a reader wait for a waiting writer too; that
      only delays it. *)
  Definition busy (c : nat) (write : bool) (st : kstate) : bool :=
    existsb (k_holds c true) (ks_guards st) || (write && existsb (k_holds c false) (ks_guards st)).

  (** A guard borrows its handle until it is dropped or leaked. *)
  Definition borrowed (h : nat) (st : kstate) : bool :=
    existsb (fun g => Nat.eqb (kg_handle g) h && match kg_status g with Live => true | _ => false end) (ks_guards st).

  Definition with_guard (st : kstate) (g : kguard) : kstate :=
    KState (ks_cells st) (ks_handles st) (ks_guards st ++ [g]) (ks_panicking st).

  (** resource.rs 79-94 and 128-143, transaction.rs 239-252 and 288-301. *)
  Definition k_open (st : kstate) (t : nat) (write : bool) (h : nat) : kstate * kout :=
    let n := length (ks_guards st) in
    match nth_error (ks_handles st) h with
    | None => (st, KInvalid)
    | Some None => (with_guard st (KGuard h None write t (panics t st) Live), KOpened n false)
    | Some (Some c) =>
        if busy c write st then (st, KWait) else
        match nth_error (ks_cells st) c with
        | Some (KCell v false) => (with_guard st (KGuard h (Some c) write t (panics t st) Live), KOpened n false)
        | _ => (with_guard st (KGuard h None write t (panics t st) Live), KOpened n true)     (* the guard inside the error is dropped *)
        end
    end.

  (** Guards are not [Send]: only the thread that took one has it. *)
  Definition own (st : kstate) (t : nat) (g : nat) : option kguard :=
    match nth_error (ks_guards st) g with
    | Some k => if Nat.eqb (kg_thread k) t && match kg_status k with Live => true | _ => false end then Some k else None
    | None => None
    end.

  Definition cell_value (st : kstate) (c : nat) : option V :=
    match nth_error (ks_cells st) c with Some k => Some (kc_value k) | None => None end.

  Definition set_status (s : status) (g : nat) (st : kstate) : list kguard :=
    alter (fun k => KGuard (kg_handle k) (kg_cell k) (kg_write k) (kg_thread k) (kg_panicking k) s) g (ks_guards st).

  (** [Drop for RwLockWriteGuard]: the lock is poisoned if the thread panics now and did not when the guard was made. *)
  Definition k_drop (st : kstate) (t : nat) (g : nat) (k : kguard) : kstate :=
    let cells :=
      match kg_cell k with
      | Some c => if kg_write k && panics t st && negb (kg_panicking k)
                  then alter (fun x => KCell (kc_value x) true) c (ks_cells st) else ks_cells st
      | None => ks_cells st
      end in
    KState cells (ks_handles st) (set_status Dropped g st) (ks_panicking st).

  Definition k_step (st : kstate) (ev : kevent) : kstate * kout :=
    let (t, e) := ev in
    match e with
    | KHandle => (KState (ks_cells st) (ks_handles st ++ [None]) (ks_guards st) (ks_panicking st), KHandleNo (length (ks_handles st)))
    | KSet h v =>
        match nth_error (ks_handles st) h with
        | Some _ =>
            if borrowed h st then (st, KInvalid) else
            (KState (ks_cells st ++ [KCell v false]) (alter (fun _ => Some (length (ks_cells st))) h (ks_handles st)) (ks_guards st) (ks_panicking st), KUnit)
        | None => (st, KInvalid)
        end
    | KClone h =>
        match nth_error (ks_handles st) h with
        | Some x => (KState (ks_cells st) (ks_handles st ++ [x]) (ks_guards st) (ks_panicking st), KHandleNo (length (ks_handles st)))
        | None => (st, KInvalid)
        end
    | KOpen w h => k_open st t w h
    | KDeref g =>
        match own st t g with
        | Some k => (st, KVal (match kg_cell k with Some c => cell_value st c | None => None end))
        | None => (st, KInvalid)
        end
    | KMut g v =>
        match own st t g with
        | Some k =>
            if kg_write k then
              match kg_cell k with
              | Some c => (KState (alter (fun x => KCell v (kc_poisoned x)) c (ks_cells st)) (ks_handles st) (ks_guards st) (ks_panicking st),
                           KVal (cell_value st c))
              | None => (st, KVal None)
              end
            else (st, KInvalid)
        | None => (st, KInvalid)
        end
    | KDrop g =>
        match own st t g with
        | Some k => (k_drop st t g k, KUnit)
        | None => (st, KInvalid)
        end
    | KLeak g =>
        match own st t g with
        | Some _ => (KState (ks_cells st) (ks_handles st) (set_status Leaked g st) (ks_panicking st), KUnit)
        | None => (st, KInvalid)
        end
    | KPanic =>
        (KState (ks_cells st) (ks_handles st) (ks_guards st) (t :: ks_panicking st), KUnit)
    | KCatch =>
        if panics t st then (KState (ks_cells st) (ks_handles st) (ks_guards st) (remove_one t (ks_panicking st)), KUnit)
        else (st, KInvalid)
    end.

  Fixpoint k_run (st : kstate) (es : list kevent) : kstate * list kout :=
    match es with
    | [] => (st, [])
    | e :: es =>
        let (st1, o) := k_step st e in
        let (st2, os) := k_run st1 es in
        (st2, o :: os)
    end.
End Cells.
Arguments kcell : clear implicits.
Arguments kstate : clear implicits.
Arguments kact : clear implicits.
Arguments kout : clear implicits.
Arguments kevent : clear implicits.
