(** Model of plotline/src/document/lazy.rs: lazy documents, accessed by any number of
    threads.  [OnceLock] makes a lazy document shareable between threads, so [try_deref] is split in
    its atomic steps and a history is any interleaving of the steps of any number of calls. *)
From Coq Require Import List Bool Arith.
From Verif Require Import Graph Tx.
Import ListNotations.

Section Lazy.
  Context {Id Doc : Type} `{Identify Doc Id}.

  (** lazy.rs 13-23: [LazyDocument]; [ld_cell] is the [OnceLock].  The repository (lazy.rs 18) is not
      stored: what it answers is part of each history. *)
  Record ldoc := LDoc { ld_id : Id; ld_cell : option Doc }.

  (** lazy.rs 82-93: [builder]'s closure. *)
  Definition ld_build (i : Id) : ldoc := LDoc i None.

  (** lazy.rs 102-115: [new]; the [set] cannot fail on a fresh [OnceLock]. *)
  Definition ld_new (v : Doc) : ldoc := LDoc (id_of v) (Some v).

  (** lazy.rs 31-37: [clone]. *)
  Definition ld_clone (d : ldoc) : ldoc := LDoc (ld_id d) (ld_cell d).

  (** lazy.rs 58-73: where a call of [try_deref] stands. *)
  Inductive pc :=
  | AtGet                          (* line 59: about to look into the cell *)
  | AtFind                         (* line 65: about to call [find_by_id] *)
  | AtSet (v : Doc)                (* line 65: about to [set] what was found *)
  | AtReread                       (* line 72: about to read the cell again *)
  | Done (r : option Doc).

  Definition is_done (p : pc) : bool := match p with Done _ => true | _ => false end.

  Record call := Call { c_doc : nat; c_pc : pc }.
  Record lstate := LState { l_docs : list ldoc; l_calls : list call }.

  (** [LStep c ans]: call [c] makes its next step; should it be the consultation of the
      repository, [ans] is what [find_by_id] returns. *)
  Inductive label :=
  | LBuild (i : Id)
  | LNew (v : Doc)
  | LClone (d : nat)
  | LCall (d : nat)
  | LStep (c : nat) (ans : option Doc).

  Inductive lout :=
  | LInvalid
  | LHandle (h : nat)              (* a new document, or a new call *)
  | LRunning
  | LConsulted (i : Id) (ans : option Doc)
  | LReturned (r : option Doc).

  Definition set_cell (v : Doc) (d : nat) (docs : list ldoc) : list ldoc :=
    alter (fun x => LDoc (ld_id x) (Some v)) d docs.
  Definition set_pc (p : pc) (c : nat) (calls : list call) : list call :=
    alter (fun x => Call (c_doc x) p) c calls.

  (** One step of a call on a document holding [x]: the new content of the cell if it is set, the
      next program point. *)
  Definition deref_step (x : ldoc) (p : pc) (ans : option Doc) : option Doc * pc :=
    match p with
    | AtGet =>                                     (* 59-61 *)
        match ld_cell x with
        | Some v => (None, Done (Some v))
        | None => (None, AtFind)
        end
    | AtFind =>                                    (* 65: [find_by_id(..)?] *)
        match ans with
        | Some v => (None, AtSet v)
        | None => (None, Done None)
        end
    | AtSet v =>                                   (* 63-70 *)
        match ld_cell x with
        | None => (Some v, AtReread)
        | Some _ => (None, Done None)
        end
    | AtReread => (None, Done (ld_cell x))         (* 72 *)
    | Done r => (None, Done r)
    end.

  Definition l_step (st : lstate) (l : label) : lstate * lout :=
    match l with
    | LBuild i => (LState (l_docs st ++ [ld_build i]) (l_calls st), LHandle (length (l_docs st)))
    | LNew v => (LState (l_docs st ++ [ld_new v]) (l_calls st), LHandle (length (l_docs st)))
    | LClone d =>
        match nth_error (l_docs st) d with
        | Some x => (LState (l_docs st ++ [ld_clone x]) (l_calls st), LHandle (length (l_docs st)))
        | None => (st, LInvalid)
        end
    | LCall d =>
        match nth_error (l_docs st) d with
        | Some _ => (LState (l_docs st) (l_calls st ++ [Call d AtGet]), LHandle (length (l_calls st)))
        | None => (st, LInvalid)
        end
    | LStep c ans =>
        match nth_error (l_calls st) c with
        | None => (st, LInvalid)
        | Some (Call d p) =>
            if is_done p then (st, LInvalid) else
            match nth_error (l_docs st) d with
            | None => (st, LInvalid)
            | Some x =>
                let (w, p') := deref_step x p ans in
                (LState (match w with Some v => set_cell v d (l_docs st) | None => l_docs st end)
                        (set_pc p' c (l_calls st)),
                 match p, p' with
                 | AtFind, _ => LConsulted (ld_id x) ans
                 | _, Done r => LReturned r
                 | _, _ => LRunning
                 end)
            end
        end
    end.

  (** When the consultation fails the call returns in the same step; [LConsulted _ None] stands for
      both. *)

  Definition l_init : lstate := LState [] [].

  Fixpoint l_run (st : lstate) (ls : list label) : lstate * list lout :=
    match ls with
    | [] => (st, [])
    | l :: ls =>
        let (st1, o) := l_step st l in
        let (st2, os) := l_run st1 ls in
        (st2, o :: os)
    end.
End Lazy.
Arguments ldoc : clear implicits.
Arguments lstate : clear implicits.
Arguments label : clear implicits.
Arguments lout : clear implicits.
Arguments pc : clear implicits.
