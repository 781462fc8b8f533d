(** Specification vocabulary for intervals and interval trees. *)
From Coq Require Import List Arith Bool Sorted.
From Verif Require Import Ord Interval.
Import ListNotations.

Section Spec.
  Context {I B : Type} `{OrdT B} `{Interval I B} `{PartialEq I}.
  Notation tree := (tree I B).

  (** A bound between the two ends of an interval. *)
  Definition within (i : I) (x : B) : Prop := le (lo i) x /\ le x (hi i).

  (** Two intervals share a bound. *)
  Definition overlap (a b : I) : Prop := exists x, within a x /\ within b x.

  (** Well-formed interval. *)
  Definition iwf (i : I) : Prop := le (lo i) (hi i).

  (** Stored intervals, by increasing position. *)
  Fixpoint contents (t : tree) : list I :=
    match t with
    | Leaf => []
    | Node l v _ r => contents l ++ v :: contents r
    end.

  Definition all_wf (t : tree) : Prop := forall i, In i (contents t) -> iwf i.

  (** Sorted by lower bound. *)
  Definition sorted_lo (l : list I) : Prop := StronglySorted (fun a b => le (lo a) (lo b)) l.

  (** [m] is the greatest upper bound among [l]. *)
  Definition greatest_hi (l : list I) (m : B) : Prop :=
    (forall i, In i l -> le (hi i) m) /\ (exists i, In i l /\ hi i = m).

  (** Every node's [max] is the greatest upper bound of its subtree. *)
  Fixpoint exact_max (t : tree) : Prop :=
    match t with
    | Leaf => True
    | Node l v m r => greatest_hi (contents t) m /\ exact_max l /\ exact_max r
    end.

  (** Nested calls of a search that goes all the way down. *)
  Fixpoint height (t : tree) : nat :=
    match t with
    | Leaf => 0
    | Node l _ _ r => S (Nat.max (height l) (height r))
    end.

  Inductive subtree (s : tree) : tree -> Prop :=
  | sub_self : subtree s s
  | sub_left : forall l v m r, subtree s l -> subtree s (Node l v m r)
  | sub_right : forall l v m r, subtree s r -> subtree s (Node l v m r).

  (** Subtree at which the search for the lower bound of [i] ends: the first node on the search
      path with that lower bound, or no node. *)
  Inductive found_at (i : I) : tree -> tree -> Prop :=
  | found_none : found_at i Leaf Leaf
  | found_here : forall l v m r, lo v = lo i -> found_at i (Node l v m r) (Node l v m r)
  | found_left : forall l v m r s, lt (lo i) (lo v) -> found_at i l s -> found_at i (Node l v m r) s
  | found_right : forall l v m r s, lt (lo v) (lo i) -> found_at i r s -> found_at i (Node l v m r) s.

  (** The search for [i] ends at a node holding [i] itself, with children on both sides. *)
  Definition between_children (i : I) (t : tree) : Prop :=
    exists l m r, found_at i t (Node l i m r) /\ l <> Leaf /\ r <> Leaf.

  (** Subtrees a search for an overlap with [q] goes through: left if the maximum stored there is not below
      [q], right otherwise. *)
  Inductive visits (q : I) : tree -> tree -> Prop :=
  | visits_self : forall t, visits q t t
  | visits_left : forall l v m r lm s, ~ overlap v q -> t_max l = Some lm -> le (lo q) lm ->
      visits q l s -> visits q (Node l v m r) s
  | visits_right : forall l v m r s, ~ overlap v q -> (forall lm, t_max l = Some lm -> lt lm (lo q)) ->
      visits q r s -> visits q (Node l v m r) s.

  (** A left subtree whose stored maximum promises an overlap with [q] though all it holds ends before [q], beside
      a right subtree with an overlap. *)
  Definition misled (q : I) (s : tree) : Prop :=
    match s with
    | Leaf => False
    | Node l v _ r =>
        ~ overlap v q /\ (exists lm, t_max l = Some lm /\ le (lo q) lm) /\
        (forall i, In i (contents l) -> lt (hi i) (lo q)) /\
        (exists i, In i (contents r) /\ overlap i q)
    end.

  (** The call returns. *)
  Definition delete_terminates (t : tree) (i : I) : Prop := exists fuel t', delete fuel t i = Some t'.

  (** [l'] is [l] without one occurrence of [i]. *)
  Definition without_one (i : I) (l l' : list I) : Prop :=
    exists pre post, l = pre ++ i :: post /\ l' = pre ++ post.

  (** A history of insertions and deletions. *)
  Inductive tcall := TInsert (i : I) | TDelete (i : I).

  (** Outcome of a history: [Some t] if every call returns, given enough fuel. *)
  Fixpoint t_run (fuel : nat) (t : tree) (cs : list tcall) : option tree :=
    match cs with
    | [] => Some t
    | TInsert i :: cs => t_run fuel (insert t i) cs
    | TDelete i :: cs =>
        match delete fuel t i with Some t' => t_run fuel t' cs | None => None end
    end.
End Spec.
