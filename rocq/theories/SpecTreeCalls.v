(** Specification vocabulary for the code of users that the interval search tree runs. *)
From Coq Require Import List Arith Bool.
From Verif Require Import Ord Interval SpecInterval TreeCalls.
Import ListNotations.

Section Spec.
  Context {I B : Type} `{OrdT B} `{Interval I B} `{PartialEq I}.
  Notation tree := (tree I B).
  Notation ucall := (ucall I B).
  Notation tree_call := (tree_call I).

  (** The arguments the closure was called with. *)
  Definition visited (l : list ucall) : list I := flat_map (fun u => match u with UVisit i => [i] | _ => [] end) l.

  (** A call with the calls of user code that were made, the last of which panicked if it ended in a panic. *)
  Record event := Event { ev_call : tree_call; ev_made : list ucall; ev_end : tree_end }.

  (** The events, one after the other, any of them broken off by a panic of user code, lead from [t] to [t']. *)
  Inductive story (t : tree) : list event -> tree -> Prop :=
  | story_start : story t [] t
  | story_more : forall es t1 fuel crash x l e t2,
      story t es t1 -> tree_step fuel crash t1 x = (l, Some t2, e) -> story t (es ++ [Event x l e]) t2.

  (** The insertions and deletions since the last that was broken off. *)
  Definition changed (l : list (@tcall I)) (v : event) : list tcall :=
    match ev_call v, ev_end v with
    | (XInsert _ | XDelete _), XPanic => []
    | XInsert i, _ => l ++ [TInsert i]
    | XDelete i, _ => l ++ [TDelete i]
    | (XIntersects _ | XForEach _), _ => l
    end.
  Definition standing (es : list event) : list tcall := fold_left changed es [].

  (** The intervals inserted, if nothing was deleted. *)
  Definition inserted (cs : list (@tcall I)) : list I := flat_map (fun c => match c with TInsert i => [i] | TDelete _ => [] end) cs.
  Definition no_deletions (cs : list (@tcall I)) : Prop := forall i, ~ In (TDelete i) cs.

  (** Subtrees that [for_each_intersection] goes through: all but those on the left whose stored maximum is below
      the query, and what is in them. *)
  Inductive uncut (q : I) : tree -> tree -> Prop :=
  | uncut_self : forall t, uncut q t t
  | uncut_right : forall l v m r s, uncut q r s -> uncut q (Node l v m r) s
  | uncut_left : forall l v m r lm s, t_max l = Some lm -> le (lo q) lm -> uncut q l s -> uncut q (Node l v m r) s.
End Spec.
Arguments event : clear implicits.
