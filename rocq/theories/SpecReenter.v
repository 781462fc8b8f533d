(** Specification vocabulary for user code that uses the schema in the middle of calls: which calls a history finished, and in which order. *)
From Coq Require Import List Bool Arith.
From Verif Require Import Ord BTree Graph Tx TxMachine SpecTx Guards SpecGuards SpecCrash Reenter.
Import ListNotations.

Section Spec.
  Context {Id Node : Type} `{OrdT Id} `{Identify Node Id}.
  Notation gevent := (gevent Id Node).
  Notation gout := (gout Id Node).
  Notation revent := (revent Id Node).
  Notation rout := (rout Id Node).

  Definition r_after (g0 : graph Id Node) (es : list revent) : rstate Id Node := fst (r_run (r_init g0) es).
  Definition r_answers (g0 : graph Id Node) (es : list revent) : list rout := snd (r_run (r_init g0) es).
  Definition r_says (g0 : graph Id Node) (es : list revent) (e : revent) : rout := snd (r_step (r_after g0 es) e).

  (** Given the calls that have not finished, innermost first: the same after an event that was answered so, and the call that it finished with
      what that answered.  A read that panics has not happened; a call on the graph has if it came to change the graph; a commit that panics is
      [GCrash]. *)
  Definition settle (open : list gevent) (e : revent) (o : rout) : list gevent * list (gevent * gout) :=
    match e, o, open with
    | _, RAnswer (GX XInvalid), _ | _, RAnswer (GX XHang), _ => (open, [])
    | RCall e, RAnswer o, _ => (open, [(e, o)])
    | RCall e, RRunning, _ => (e :: open, [])
    | RStep, RAnswer (GCrashed l), GEvent (EEnd t _) :: open => (open, [(GCrash t (length l), GCrashed l)])
    | RStep, RAnswer o, e :: open => (open, [(e, o)])
    | RPanic, RPanicked (Some r), e :: open => (open, [(e, GX (XNode r))])
    | RPanic, RPanicked None, _ :: open => (open, [])
    | _, _, _ => (open, [])
    end.

  Fixpoint settled (open : list gevent) (es : list revent) (os : list rout) : list gevent * list (gevent * gout) :=
    match es, os with
    | e :: es, o :: os =>
        let (open1, l1) := settle open e o in
        let (open2, l2) := settled open1 es os in
        (open2, l1 ++ l2)
    | _, _ => (open, [])
    end.

  (** The calls that have begun and not finished, and those that finished, in the order they did. *)
  Definition unfinished (g0 : graph Id Node) (es : list revent) : list gevent := fst (settled [] es (r_answers g0 es)).
  Definition finished (g0 : graph Id Node) (es : list revent) : list (gevent * gout) := snd (settled [] es (r_answers g0 es)).

  (** Every call so far has returned, panicked or is unfinished: none waits for ever. *)
  Definition r_returns (g0 : graph Id Node) (es : list revent) : Prop := ~ In (RAnswer (GX XHang)) (r_answers g0 es).

  (** The calls that finished, in the order they did. *)
  Definition calls (g0 : graph Id Node) (es : list revent) : list gevent := map fst (finished g0 es).

  (** Calls that read a context, and calls that change the graph. *)
  Definition reads_context (c : nat) (e : gevent) : Prop :=
    match e with GEvent (EGet c' _) | GEvent (EContains c' _) => c' = c | _ => False end.
  Definition changes_graph (e : gevent) : Prop :=
    match e with GEvent (EEnd _ true) | GCall _ _ => True | _ => False end.

  (** rustc rejects [e] while [e0] is unfinished: it needs what [e0] borrows or has consumed. *)
  Definition conflicts (e0 e : gevent) : Prop :=
    match e0, e with
    | (GEvent (EGet c _) | GEvent (EContains c _)), (GEvent (EDropCtx c') | GEvent (ELeakCtx c')) => c' = c
    | GGet g _, (GDrop g' | GLeak g' | GCall g' _) => g' = g
    | GCall g _, (GDrop g' | GLeak g' | GCall g' _ | GGet g' _ | GIter g') => g' = g
    | GEvent (EEnd t _), (GEvent (EContext t') | GEvent (EEnd t' _) | GForget t') => t' = t
    | _, _ => False
    end.

  (** After [es], [e] would be carried out, putting operations into what transaction [t] has gathered. *)
  Definition stores (g0 : graph Id Node) (es : list gevent) (e : gevent) (t : nat) : Prop :=
    exists e0, e = GEvent e0 /\ registers_in (m_proto (gs_m (g_after g0 es))) t e0 /\ g_says g0 es e = GX XUnit /\
      forall u b, e0 = EEnd u b -> contexts_gone g0 es u.

  (** ** How far reads have come *)

  (** How often each unfinished call has gone on, in the order of [unfinished]. *)
  Definition go_on (ks : list nat) (e : revent) (o : rout) : list nat :=
    match e, o, ks with
    | RCall _, RRunning, _ => 0 :: ks
    | RStep, RRunning, k :: ks => S k :: ks
    | RStep, RAnswer (GX XInvalid), _ | RStep, RAnswer (GX XHang), _ => ks
    | RStep, RAnswer _, _ :: ks | RPanic, RPanicked _, _ :: ks => ks
    | _, _, _ => ks
    end.
  Fixpoint went_on (ks : list nat) (es : list revent) (os : list rout) : list nat :=
    match es, os with
    | e :: es, o :: os => went_on (go_on ks e o) es os
    | _, _ => ks
    end.
  Definition steps (g0 : graph Id Node) (es : list revent) : list nat := went_on [] es (r_answers g0 es).

  (** The transactions around context [c], from its own outwards. *)
  Inductive outward (p : proto) : nat -> list nat -> Prop :=
  | outward_top c t : made_from p c t -> top_level p t -> outward p c [t]
  | outward_sub c t q ts : made_from p c t -> opened_on p t q -> outward p q ts -> outward p c (t :: ts).

  (** A read goes on once for every operation of a transaction, and once more to the next one. *)
  Definition steps_past (g0 : graph Id Node) (es : list gevent) (ts : list nat) : nat :=
    list_sum (map (fun t => S (length (gathered g0 es t))) ts).

  (** An unfinished read has come to the operations of transaction [t]. *)
  Definition has_come_to (g0 : graph Id Node) (es : list revent) (t : nat) : Prop :=
    exists n e0 c k ts1 ts2, nth_error (unfinished g0 es) n = Some e0 /\ reads_context c e0 /\ nth_error (steps g0 es) n = Some k /\
      outward (m_proto (gs_m (g_after g0 (calls g0 es)))) c (ts1 ++ t :: ts2) /\ steps_past g0 (calls g0 es) ts1 <= k.
End Spec.
