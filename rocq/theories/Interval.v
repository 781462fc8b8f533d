(** Model of the interval search tree: plugins/interval/src/lib.rs, node.rs, tree.rs. *)
From Coq Require Import List Arith Bool.
From Verif Require Import Ord.
Import ListNotations.

(** lib.rs 16-24: [trait Interval]; [Bound: Copy + Ord] (lib.rs 12).  The plugin also needs
    [PartialEq] for deletions (node.rs 77); simplification: [==] is lawful, it decides equality. *)
Class Interval (I B : Type) := { lo : I -> B; hi : I -> B }.
Class PartialEq (I : Type) := {
  eqv : I -> I -> bool;
  eqv_eq : forall x y, eqv x y = true <-> x = y
}.

Section Interval.
  Context {I B : Type} `{OrdT B} `{Interval I B} `{PartialEq I}.

  (** lib.rs 28-30: [IntervalExt::contains]. *)
  Definition iv_contains (s : I) (b : B) : bool := leb (lo s) b && leb b (hi s).

  (** lib.rs 33-38: [IntervalExt::intersects]. *)
  Definition iv_intersects (s o : I) : bool :=
    iv_contains s (lo o) || iv_contains s (hi o) || iv_contains o (lo s) || iv_contains o (hi s).

  (** node.rs 8-16: [IntervalSearchTreeNode]; [Leaf] is the [None] of
      [Option<Box<IntervalSearchTreeNode>>]. Also tree.rs 6-11: a tree is its [root]. *)
  Inductive tree :=
  | Leaf
  | Node (left : tree) (value : I) (max : B) (right : tree).

  (** tree.rs 13-22: [Default]. *)
  Definition t_default : tree := Leaf.

  (** node.rs 105-112: [new]. *)
  Definition node_new (i : I) : tree := Node Leaf i (hi i) Leaf.

  (** [x.as_ref().map(|x| x.max)] (node.rs 40-41, 46-47, 61-62, 67-68). *)
  Definition t_max (t : tree) : option B :=
    match t with Leaf => None | Node _ _ m _ => Some m end.

  (** [Some(a).max(o).expect(..)]: [None < Some(_)] in std's [Ord for Option]. *)
  Definition max_opt (a : B) (o : option B) : B :=
    match o with None => a | Some b => ord_max a b end.

  (** node.rs 39-42 (and 45-48, 60-63, 66-69): recomputation of [max]. *)
  Definition recompute (l : tree) (v : I) (r : tree) : B :=
    max_opt (max_opt (hi v) (t_max l)) (t_max r).

  (** node.rs 33-51: [rotate_right]. *)
  Definition rotate_right (t : tree) : tree :=
    match t with
    | Node (Node ll lv lm lr) v m r =>
        let self := Node lr v (recompute lr v r) r in
        Node ll lv (recompute ll lv self) self
    | _ => t
    end.

  (** node.rs 54-72: [rotate_left]. *)
  Definition rotate_left (t : tree) : tree :=
    match t with
    | Node l v m (Node rl rv rm rr) =>
        let self := Node l v (recompute l v rl) rl in
        Node self rv (recompute self rv rr) rr
    | _ => t
    end.

  (** node.rs 190-208 and tree.rs 47-54: [insert]. *)
  Fixpoint insert (t : tree) (i : I) : tree :=
    match t with
    | Leaf => node_new i
    | Node l v m r =>
        let m' := if ltb m (hi i) then hi i else m in
        if ltb (lo i) (lo v)
        then Node (insert l i) v m' r
        else Node l v m' (insert r i)
    end.

  (** tree.rs 41-44: [with_interval]. *)
  Definition with_interval (t : tree) (i : I) : tree := insert t i.

  (** node.rs 171-187: [count]. Simplification: [usize] does not overflow. *)
  Fixpoint count (t : tree) : nat :=
    match t with
    | Leaf => 0
    | Node l _ _ r => 1 + count l + count r
    end.

  (** node.rs 238-252: [into_inorder], pushing onto a vector. *)
  Fixpoint inorder_push (t : tree) (acc : list I) : list I :=
    match t with
    | Leaf => acc
    | Node l v _ r => inorder_push r (inorder_push l acc ++ [v])
    end.
  Definition into_inorder (t : tree) : list I := inorder_push t [].

  (** node.rs 212-226: [join]'s [immersion]. [None] is running out of fuel: the
      recursion has not returned after that many nested calls. *)
  Fixpoint join_immersion (fuel : nat) (root : tree) (intervals : list I) : option tree :=
    match fuel with
    | O => None
    | S fuel =>
        match intervals with
        | [] => Some root
        | _ =>
            let center := length intervals / 2 in
            let left := firstn center intervals in
            let intervals := skipn center intervals in
            match join_immersion fuel root left with
            | None => None
            | Some root => join_immersion fuel root intervals
            end
        end
    end.

  (** node.rs 211-235: [join]. [intervals.remove(center)] panics out of bounds, which
      cannot happen on two nodes; the model's [[]] case is that panic. *)
  Definition join (fuel : nat) (l r : tree) : option tree :=
    let intervals := into_inorder l ++ into_inorder r in
    let center := length intervals / 2 in
    match nth_error intervals center with
    | None => None
    | Some c =>
        join_immersion fuel (node_new c) (firstn center intervals ++ skipn (S center) intervals)
    end.

  (** node.rs 80-97 and tree.rs 29-33: [delete]. Note that [max] is never updated. *)
  Fixpoint delete (fuel : nat) (t : tree) (i : I) : option tree :=
    match t with
    | Leaf => Some Leaf
    | Node l v m r =>
        if eqv v i then
          match l, r with
          | Node _ _ _ _, Node _ _ _ _ => join fuel l r
          | Node _ _ _ _, Leaf => Some l
          | Leaf, Node _ _ _ _ => Some r
          | Leaf, Leaf => Some Leaf
          end
        else if ltb (lo i) (lo v) then
          match delete fuel l i with Some l' => Some (Node l' v m r) | None => None end
        else if ltb (lo v) (lo i) then
          match delete fuel r i with Some r' => Some (Node l v m r') | None => None end
        else Some t
    end.

  (** node.rs 116-136 and tree.rs 58-63: [intersects]. *)
  Fixpoint t_intersects (t : tree) (q : I) : bool :=
    match t with
    | Leaf => false
    | Node l v _ r =>
        if iv_intersects v q then true
        else match t_max l with
             | None => t_intersects r q
             | Some lm => if ltb lm (lo q) then t_intersects r q else t_intersects l q
             end
    end.

  (** node.rs 139-168 and tree.rs 66-73: [for_each_intersection]; the result is the list of
      arguments the closure is called with, in order. *)
  Fixpoint for_each (t : tree) (q : I) : list I :=
    match t with
    | Leaf => []
    | Node l v _ r =>
        for_each r q ++
        (if iv_intersects v q then [v] else []) ++
        match t_max l with
        | None => []
        | Some lm => if ltb lm (lo q) then [] else for_each l q
        end
    end.

  (** Trees obtainable through the public API of [IntervalSearchTree]. *)
  Inductive t_reachable : tree -> Prop :=
  | tr_default : t_reachable t_default
  | tr_insert : forall t i, t_reachable t -> t_reachable (insert t i)
  | tr_delete : forall t i fuel t', t_reachable t -> delete fuel t i = Some t' -> t_reachable t'.
End Interval.
Arguments tree : clear implicits.
