(** Specification vocabulary for proxies shared between threads. *)
From Coq Require Import List Bool Arith.
From Verif Require Import Ord BTree Graph Tx ProxyThreads.
Import ListNotations.

Section Spec.
  Context {Id Node : Type} `{OrdT Id} `{Identify Node Id}.
  Notation label := (tlabel Id Node).
  Notation state := (tstate Id Node).

  (** State reached by a schedule, and what its steps said. *)
  Definition tt_after (ls : list label) : state := fst (tt_run tt_init ls).
  Definition tt_outs (ls : list label) : list (tout Node) := snd (tt_run tt_init ls).
  Definition tt_says (ls : list label) (l : label) : tout Node := snd (t_step (tt_after ls) l).

  (** Proxy [k] was made for id [i] of source [s], or cloned from such a proxy. *)
  Inductive made_for : list label -> nat -> tsource Id Node -> Id -> Prop :=
  | mf_new : forall ls s i k, tt_says ls (TNew s i) = THandle k -> made_for (ls ++ [TNew s i]) k s i
  | mf_clone : forall ls j k s i, made_for ls j s i -> tt_says ls (TClone j) = THandle k ->
      made_for (ls ++ [TClone j]) k s i
  | mf_later : forall ls l k s i, made_for ls k s i -> made_for (ls ++ [l]) k s i.

  (** Call [c] is a dereference of proxy [k]. *)
  Inductive call_on : list label -> nat -> nat -> Prop :=
  | co_call : forall ls k c, tt_says ls (TCall k) = THandle c -> call_on (ls ++ [TCall k]) c k
  | co_later : forall ls l k c, call_on ls c k -> call_on (ls ++ [l]) c k.

  (** Call [c] has returned [r]. *)
  Inductive gave : list label -> nat -> option Node -> Prop :=
  | gv_read : forall ls c ans r, tt_says ls (TStep c ans) = TReturned r -> gave (ls ++ [TStep c ans]) c r
  | gv_asked : forall ls c ans k r, tt_says ls (TStep c ans) = TAnswered k r -> gave (ls ++ [TStep c ans]) c r
  | gv_later : forall ls l c r, gave ls c r -> gave (ls ++ [l]) c r.

  (** Call [c] has panicked. *)
  Inductive crashed : list label -> nat -> Prop :=
  | cr_now : forall ls c ans k, tt_says ls (TStep c ans) = TAborted k -> crashed (ls ++ [TStep c ans]) c
  | cr_later : forall ls l c, crashed ls c -> crashed (ls ++ [l]) c.

  (** Call [c] is consulting the source for proxy [k]. *)
  Inductive consulting : list label -> nat -> nat -> Prop :=
  | cs_starts : forall ls c ans k, tt_says ls (TStep c ans) = TAsking k -> consulting (ls ++ [TStep c ans]) c k
  | cs_goes_on : forall ls l c k, consulting ls c k -> (forall ans, l <> TStep c ans) -> consulting (ls ++ [l]) c k.

  (** How often the source has answered for proxy [k]. *)
  Fixpoint answers (k : nat) (os : list (tout Node)) : nat :=
    match os with
    | [] => 0
    | TAnswered k' _ :: os => (if Nat.eqb k k' then 1 else 0) + answers k os
    | _ :: os => answers k os
    end.
End Spec.
