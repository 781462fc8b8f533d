(** Specification vocabulary for guards of cells with any lifetime: histories of events with what they answered.  A value given to a target
    (or a resource) is identified by how many were given before it. *)
From Coq Require Import List Bool Arith.
From Verif Require Import TxMachine Cells.
Import ListNotations.

Section Spec.
  Context {V : Type}.
  Notation kevent := (kevent V).
  Notation kout := (kout V).

  Definition k_after (es : list kevent) : kstate V := fst (k_run k_init es).
  Definition k_answers (es : list kevent) : list kout := snd (k_run k_init es).
  Definition k_says (es : list kevent) (e : kevent) : kout := snd (k_step (k_after es) e).

  (** In [es], after [e1] and before [e2], thread [t] did [e] and was answered [o]. *)
  Definition did (es : list kevent) (t : nat) (e : kact V) (o : kout) (e1 e2 : list kevent) : Prop :=
    es = e1 ++ (t, e) :: e2 /\ k_says e1 (t, e) = o.
  Definition done (es : list kevent) (t : nat) (e : kact V) (o : kout) : Prop := exists e1 e2, did es t e o e1 e2.

  (** How many panics thread [t] is unwinding from. *)
  Definition depth (t : nat) (es : list kevent) : nat :=
    fold_left (fun d e => match e with
                          | (u, KPanic) => if Nat.eqb u t then S d else d
                          | (u, KCatch) => if Nat.eqb u t then pred d else d
                          | _ => d
                          end) es 0.

  (** How many values were given so far. *)
  Fixpoint given (es : list kevent) (os : list kout) : nat :=
    match es, os with
    | (_, KSet _ _) :: es, KUnit :: os => S (given es os)
    | _ :: es, _ :: os => given es os
    | _, _ => 0
    end.
  Definition values (es : list kevent) : nat := given es (k_answers es).

  (** After [es], handle [h] refers to value number [x], or to none. *)
  Inductive refers : list kevent -> nat -> option nat -> Prop :=
  | ref_new es t h : k_says es (t, KHandle) = KHandleNo h -> refers (es ++ [(t, KHandle)]) h None
  | ref_set es t h v : k_says es (t, KSet h v) = KUnit -> refers (es ++ [(t, KSet h v)]) h (Some (values es))
  | ref_clone es t h0 h x : k_says es (t, KClone h0) = KHandleNo h -> refers es h0 x -> refers (es ++ [(t, KClone h0)]) h x
  | ref_keep es e h x : refers es h x ->
      (forall t v, e = (t, KSet h v) -> k_says es e <> KUnit) -> refers (es ++ [e]) h x.

  (** Guard [g] was taken by thread [t] after [e1], through a handle that referred to [x]. *)
  Definition taken (es : list kevent) (t : nat) (write : bool) (g : nat) (x : option nat) (e1 : list kevent) : Prop :=
    exists h l e2, did es t (KOpen write h) (KOpened g l) e1 e2 /\ refers e1 h x.

  Definition dropped (es : list kevent) (g : nat) : Prop := exists t, done es t (KDrop g) KUnit.
  Definition leaked_guard (es : list kevent) (g : nat) : Prop := exists t, done es t (KLeak g) KUnit.

  (** Value [x] is spoilt: a write guard of it, taken by a thread that was not panicking, was dropped by it while panicking. *)
  Definition spoilt (es : list kevent) (x : nat) : Prop :=
    exists t g e1 e2 e3, did es t (KDrop g) KUnit e2 e3 /\ taken e2 t true g (Some x) e1 /\ depth t e1 = 0 /\ depth t e2 <> 0.

  (** Guard [g] is empty; or it gives access to [x]. *)
  Definition empty_guard (es : list kevent) (g : nat) : Prop :=
    exists t w x e1, taken es t w g x e1 /\ (x = None \/ exists k, x = Some k /\ spoilt e1 k).
  Definition gives (es : list kevent) (t : nat) (w : bool) (g x : nat) : Prop :=
    exists e1, taken es t w g (Some x) e1 /\ ~ spoilt e1 x.

  (** ... and has not been dropped (it may have been leaked). *)
  Definition holding (es : list kevent) (w : bool) (g x : nat) : Prop := (exists t, gives es t w g x) /\ ~ dropped es g.

  Definition excluded_from (es : list kevent) (w : bool) (x : nat) : Prop :=
    (exists g, holding es true g x) \/ (w = true /\ exists g, holding es false g x).

  (** What is in value [x]: what was last put through a guard, or else what it was given as. *)
  Definition put (es : list kevent) (x : nat) (v : V) (e1 e2 : list kevent) : Prop :=
    exists t g old, did es t (KMut g v) (KVal (Some old)) e1 e2 /\ gives e1 t true g x.
  Definition contains_value (es : list kevent) (x : nat) (v : V) : Prop :=
    (exists e1 e2, put es x v e1 e2 /\ forall v' e3 e4, put es x v' e3 e4 -> length e3 <= length e1) \/
    ((forall v' e3 e4, ~ put es x v' e3 e4) /\ exists t h e1 e2, did es t (KSet h v) KUnit e1 e2 /\ values e1 = x).
End Spec.
