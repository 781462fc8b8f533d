(** Model of the storage side of plotline/src/schema/transaction.rs: pending
    operations, contexts, reads through contexts, commits.

    [Arc<RwLock<Vec<Operation<T>>>>] (lines 31, 105, 359) is an address into a
    heap of operation lists.  The [RwLock] inside is only ever held for a
    [push], an [extend] or a lookup, none of which runs code that can panic while
    it is write-locked, so it is never poisoned and never contended (a schema is
    neither [Send] nor [Sync]); its poisoned branches are not modelled. *)
From Coq Require Import List.
From Verif Require Import Ord BTree Graph.
Import ListNotations.

(** Replace the element at position [n]. *)
Fixpoint alter {A} (f : A -> A) (n : nat) (l : list A) : list A :=
  match l, n with
  | [], _ => []
  | x :: l', O => f x :: l'
  | x :: l', S n' => x :: alter f n' l'
  end.

Section Tx.
  Context {Id Node : Type} `{OrdT Id} `{Identify Node Id}.

  (** transaction.rs 170-176: [enum Operation]. *)
  Inductive op :=
  | OSave (n : Node)
  | ODelete (i : Id).

  (** transaction.rs 184-189: [Operation::id]. *)
  Definition op_id (o : op) : Id :=
    match o with
    | OSave n => id_of n
    | ODelete i => i
    end.

  (** All the operation buffers allocated so far; an address is a position. *)
  Definition heap := list (list op).

  (** transaction.rs 352-361: [struct Context].  [CRoot] is a context without
      parent (built from a [Background], 403-416), [CSub] one with a parent
      (built from a [Foreground], 418-431).  [buf] is the address of
      [operations]; [target] is the address of the target's lock (193-195), if
      set.  [graph] and [schema] are the ones of the enclosing transaction. *)
  Inductive ctx :=
  | CRoot (buf : nat) (target : option nat)
  | CSub (parent : ctx) (buf : nat) (target : option nat).

  Definition ctx_buf (c : ctx) : nat :=
    match c with CRoot b _ => b | CSub _ b _ => b end.

  (** transaction.rs 485-487: [Context::target]. *)
  Definition ctx_target (c : ctx) : option nat :=
    match c with CRoot _ t => t | CSub _ _ t => t end.

  (** transaction.rs 449-452: [Context::with_target]; [cell] is the address of the
      freshly allocated [Arc<RwLock<T>>] (309-311). *)
  Definition ctx_with_target (c : ctx) (cell : nat) : ctx :=
    match c with CRoot b _ => CRoot b (Some cell) | CSub p b _ => CSub p b (Some cell) end.

  (** Content of a buffer. *)
  Definition buf_ops (h : heap) (b : nat) : list op := nth b h [].

  (** [guard.iter().rev().find(|&op| op.id() == id)] (transaction.rs 376, 392). *)
  Definition find_op (ops : list op) (i : Id) : option op :=
    find (fun o => eqb (op_id o) i) (rev ops).

  (** transaction.rs 370-384: [Source::get for Context]. *)
  Fixpoint ctx_get (h : heap) (g : graph Id Node) (c : ctx) (i : Id) : option Node :=
    match find_op (buf_ops h (ctx_buf c)) i with
    | Some (OSave n) => Some n
    | Some (ODelete _) => None
    | None =>
        match c with
        | CRoot _ _ => g_get g i
        | CSub p _ _ => ctx_get h g p i
        end
    end.

  (** transaction.rs 386-400: [Source::contains for Context]. *)
  Fixpoint ctx_contains (h : heap) (g : graph Id Node) (c : ctx) (i : Id) : bool :=
    match find_op (buf_ops h (ctx_buf c)) i with
    | Some (OSave _) => true
    | Some (ODelete _) => false
    | None =>
        match c with
        | CRoot _ _ => g_contains g i
        | CSub p _ _ => ctx_contains h g p i
        end
    end.

  (** [Vec::push] under the buffer's lock. *)
  Definition buf_push (h : heap) (b : nat) (o : op) : heap :=
    alter (fun ops => ops ++ [o]) b h.

  (** transaction.rs 455-462: [Context::save]. *)
  Definition ctx_save (h : heap) (c : ctx) (n : Node) : heap :=
    buf_push h (ctx_buf c) (OSave n).

  (** transaction.rs 465-472: [Context::delete]. *)
  Definition ctx_delete (h : heap) (c : ctx) (i : Id) : heap :=
    buf_push h (ctx_buf c) (ODelete i).

  (** transaction.rs 154-165: end of [Foreground::commit], extending the
      parent context's operations with those of buffer [b]. *)
  Definition fg_extend (h : heap) (parent : ctx) (b : nat) : heap :=
    alter (fun ops => ops ++ buf_ops h b) (ctx_buf parent) h.

  (** transaction.rs 88-95: one step of the loop of [Background::commit]. *)
  Definition apply_op (g : graph Id Node) (o : op) : graph Id Node :=
    match o with
    | OSave n => fst (g_insert g n)
    | ODelete i => fst (g_remove g i)
    end.

  (** transaction.rs 88-95: the loop of [Background::commit]. *)
  Definition apply_ops (g : graph Id Node) (ops : list op) : graph Id Node :=
    fold_left apply_op ops g.
End Tx.
Arguments op : clear implicits.
Arguments heap : clear implicits.
