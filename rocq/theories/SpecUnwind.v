(** Specification vocabulary for panics among guards and transactions of any lifetime. *)
From Coq Require Import List Bool Arith.
From Verif Require Import Ord BTree Graph Tx TxMachine Guards SpecGuards Unwind.
Import ListNotations.

Section Spec.
  Context {Id Node : Type} `{OrdT Id} `{Identify Node Id}.
  Notation graph := (graph Id Node).
  Notation gevent := (gevent Id Node).
  Notation gout := (gout Id Node).
  Notation uevent := (uevent Id Node).

  Definition u_after (g0 : graph) (es : list uevent) : ustate Id Node := fst (u_run (u_init g0) es).
  Definition u_answers (g0 : graph) (es : list uevent) : list (gout * list ulog) := snd (u_run (u_init g0) es).
  (** What event [e] answers after the history, and what it logs. *)
  Definition u_says (g0 : graph) (es : list uevent) (e : uevent) : gout := fst (snd (u_step (u_after g0 es) e)).
  Definition u_logs (g0 : graph) (es : list uevent) (e : uevent) : list ulog := snd (snd (u_step (u_after g0 es) e)).

  (** The history without its panics. *)
  Fixpoint calls (es : list uevent) : list gevent :=
    match es with
    | [] => []
    | UEvent e :: es => e :: calls es
    | _ :: es => calls es
    end.

  (** How many panics the thread is unwinding from. *)
  Definition depth (g0 : graph) (es : list uevent) : nat :=
    fold_left (fun d x => match x with
      | (UPanic, _) | (UEvent (GCrash _ _), GCrashed _) => S d
      | (UCatch, _) => pred d
      | (UEvent _, _) => d
      end) (combine es (map fst (u_answers g0 es))) 0.

  Definition u_did (g0 : graph) (es : list uevent) (e : gevent) (o : gout) (e1 e2 : list uevent) : Prop :=
    es = e1 ++ UEvent e :: e2 /\ u_says g0 e1 (UEvent e) = o.

  (** A write guard, taken after [e1] by [schema.write()] or by the first context of a top-level transaction, was dropped while the thread was panicking:
      after a panic began, or because user code panicked in the commit. *)
  Definition dropped_panicking (g0 : graph) (es e1 : list uevent) : Prop :=
    (exists g e1' e2 e2', u_did g0 e2 (GOpen true) (GX (XHandle g)) e1 e1' /\ u_did g0 es (GDrop g) (GX XUnit) e2 e2' /\ depth g0 e2 <> 0) \/
    (exists t c e1' e2 e2', background g0 (calls e1) t /\ ~ had_context g0 (calls e1) t /\ u_did g0 e2 (GEvent (EContext t)) (GX (XHandle c)) e1 e1' /\
       ((exists b, u_did g0 es (GEvent (EEnd t b)) (GX XUnit) e2 e2' /\ depth g0 e2 <> 0) \/ (exists k l, u_did g0 es (GCrash t k) (GCrashed l) e2 e2'))).

  (** A write guard taken when the thread was not panicking was dropped while it was. *)
  Definition spoilt (g0 : graph) (es : list uevent) : Prop := exists e1, dropped_panicking g0 es e1 /\ depth g0 e1 = 0.

  (** Some context of transaction [t] was leaked. *)
  Definition context_leaked (g0 : graph) (es : list uevent) (t : nat) : Prop :=
    exists c e1 e1' e2 e2', u_did g0 es (GEvent (EContext t)) (GX (XHandle c)) e1 e1' /\ u_did g0 es (GEvent (ELeakCtx c)) (GX XUnit) e2 e2'.
End Spec.
