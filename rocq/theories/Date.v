(** Model of dates: plugins/interval/src/date.rs. *)
From Coq Require Import List Arith Eqdep_dec.
From Verif Require Import Ord OrdFacts Interval.
Import ListNotations.

(** date.rs 9-21: the markers [LittleEndian] and [BigEndian]. *)
Inductive endian := LittleEndian | BigEndian.

(** date.rs 24-28: [Date<N, T, Endian>], an array of N components. *)
Record date (e : endian) (N : nat) (T : Type) := Date {
  components : list T;
  components_len : length components = N
}.
Arguments Date {e N T}.
Arguments components {e N T}.
Arguments components_len {e N T}.

Section Date.
  Context {T : Type} `{OrdT T}.

  (** date.rs 70-77 and 86-93: the loop over pairs of components. *)
  Fixpoint cmp_pairs (ps : list (T * T)) : comparison :=
    match ps with
    | [] => Eq
    | (this, other) :: ps =>
        match cmp this other with
        | Eq => cmp_pairs ps
        | order => order
        end
    end.

  (** date.rs 65-79: [Ord for Date<N, T, LittleEndian>]; 81-95: [.. BigEndian]. *)
  Definition date_cmp {e N} (x y : date e N T) : comparison :=
    match e with
    | LittleEndian => cmp_pairs (rev (combine (components x) (components y)))
    | BigEndian => cmp_pairs (combine (components x) (components y))
    end.

  (** date.rs 32-39: [PartialEq]; arrays are equal when all components are. *)
  Fixpoint comps_eq (l m : list T) : bool :=
    match l, m with
    | [], [] => true
    | x :: l, y :: m => if eqb x y then comps_eq l m else false
    | _, _ => false
    end.
  Definition date_eq {e N} (x y : date e N T) : bool := comps_eq (components x) (components y).
End Date.

(** date.rs 50-63: [Interval for Date]: both bounds are the date itself. *)
#[global] Instance date_interval e N T : Interval (date e N T) (date e N T) :=
  { lo := fun d => d; hi := fun d => d }.
