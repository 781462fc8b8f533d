(** Specification vocabulary for lazy documents. *)
From Coq Require Import List Bool Arith.
From Verif Require Import Graph Tx Lazy.
Import ListNotations.

Section Spec.
  Context {Id Doc : Type} `{Identify Doc Id}.
  Notation label := (label Id Doc).
  Notation lstate := (lstate Id Doc).

  (** ** Accesses one at a time *)

  (** [AAccess d ans]: one complete call of [try_deref] on document [d], while the repository
      would answer [ans]. *)
  Inductive act :=
  | ABuild (i : Id)
  | ANew (v : Doc)
  | AClone (d : nat)
  | AAccess (d : nat) (ans : option Doc).

  (** [consulted]: ids the repository was asked for, in order. *)
  Inductive aout :=
  | ABad
  | AHandle (d : nat)
  | AAnswer (r : option Doc) (consulted : list Id).

  Fixpoint consultations (os : list (lout Id Doc)) : list Id :=
    match os with
    | [] => []
    | LConsulted i _ :: os => i :: consultations os
    | _ :: os => consultations os
    end.

  Definition handle_of (o : lout Id Doc) : aout :=
    match o with LHandle h => AHandle h | _ => ABad end.

  (** A call is made and steps, alone, until it returns: four steps are enough. *)
  Definition a_step (st : lstate) (a : act) : lstate * aout :=
    match a with
    | ABuild i => let (st', o) := l_step st (LBuild i) in (st', handle_of o)
    | ANew v => let (st', o) := l_step st (LNew v) in (st', handle_of o)
    | AClone d => let (st', o) := l_step st (LClone d) in (st', handle_of o)
    | AAccess d ans =>
        let c := length (l_calls st) in
        let (st', os) := l_run st (LCall d :: repeat (LStep c ans) 4) in
        match nth_error (l_calls st') c with
        | Some (Call _ (Done r)) => (st', AAnswer r (consultations os))
        | _ => (st', ABad)
        end
    end.

  Definition a_after (hs : list act) : lstate := fold_left (fun st a => fst (a_step st a)) hs l_init.
  Definition a_says (hs : list act) (a : act) : aout := snd (a_step (a_after hs) a).

  (** Document [d] was built for, or with the content of, id [i]. *)
  Inductive has_id : list act -> nat -> Id -> Prop :=
  | hi_build : forall hs i d, a_says hs (ABuild i) = AHandle d -> has_id (hs ++ [ABuild i]) d i
  | hi_new : forall hs v d, a_says hs (ANew v) = AHandle d -> has_id (hs ++ [ANew v]) d (id_of v)
  | hi_clone : forall hs j d i, has_id hs j i -> a_says hs (AClone j) = AHandle d -> has_id (hs ++ [AClone j]) d i
  | hi_later : forall hs a d i, has_id hs d i -> has_id (hs ++ [a]) d i.

  (** Document [d], or the one it was cloned from at that time, has content [v]: given at
      construction, or answered by an access. *)
  Inductive loaded : list act -> nat -> Doc -> Prop :=
  | lo_new : forall hs v d, a_says hs (ANew v) = AHandle d -> loaded (hs ++ [ANew v]) d v
  | lo_access : forall hs d ans v cs, a_says hs (AAccess d ans) = AAnswer (Some v) cs ->
      loaded (hs ++ [AAccess d ans]) d v
  | lo_clone : forall hs j d v, loaded hs j v -> a_says hs (AClone j) = AHandle d -> loaded (hs ++ [AClone j]) d v
  | lo_later : forall hs a d v, loaded hs d v -> loaded (hs ++ [a]) d v.

  (** Document [d] was built without content, or cloned from such a document, and no access to it
      has succeeded. *)
  Inductive unloaded : list act -> nat -> Prop :=
  | un_build : forall hs i d, a_says hs (ABuild i) = AHandle d -> unloaded (hs ++ [ABuild i]) d
  | un_clone : forall hs j d, unloaded hs j -> a_says hs (AClone j) = AHandle d -> unloaded (hs ++ [AClone j]) d
  | un_failed : forall hs d ans cs, unloaded hs d -> a_says hs (AAccess d ans) = AAnswer None cs ->
      unloaded (hs ++ [AAccess d ans]) d
  | un_later : forall hs a d, unloaded hs d -> (forall ans, a <> AAccess d ans) -> unloaded (hs ++ [a]) d.

  (** ** Any schedule *)

  Definition l_after (ls : list label) : lstate := fst (l_run l_init ls).

  (** Call [c], on document [d], has returned [r]. *)
  Definition returned (ls : list label) (c d : nat) (r : option Doc) : Prop :=
    nth_error (l_calls (l_after ls)) c = Some (Call d (Done r)).

  (** Number of calls made so far; calls are numbered in the order they start. *)
  Definition calls_made (ls : list label) : nat := length (l_calls (l_after ls)).

  (** Whenever the repository is consulted, it finds the document. *)
  Definition always_found (ls : list label) : Prop :=
    forall c ans, In (LStep c ans) ls -> ans <> None.

  (** During [ls2], run after [ls1], no call on document [d] other than [c] makes a step. *)
  Definition alone (ls1 ls2 : list label) (c d : nat) : Prop :=
    forall l1 c' ans l2, ls2 = l1 ++ LStep c' ans :: l2 ->
      forall p, nth_error (l_calls (l_after (ls1 ++ l1))) c' = Some (Call d p) -> c' = c.

  (** Number of steps call [c] makes in a schedule. *)
  Fixpoint steps_of (c : nat) (ls : list label) : nat :=
    match ls with
    | [] => 0
    | LStep c' _ :: ls => (if Nat.eqb c c' then 1 else 0) + steps_of c ls
    | _ :: ls => steps_of c ls
    end.
End Spec.
