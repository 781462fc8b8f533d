(** The code of users that the interval search tree runs: [lo] and [hi] of intervals, comparisons of bounds and of
    intervals, the closure of [for_each_intersection]; and panics of that code.
    Sources: plugins/interval/src/lib.rs, node.rs, tree.rs.

    Every function of Interval.v is written again with the list of these calls, in the order they are made. *)
From Coq Require Import List Arith Bool.
From Verif Require Import Ord Interval.
Import ListNotations.

Section Calls.
  Context {I B : Type} `{OrdT B} `{Interval I B} `{PartialEq I}.
  Notation tree := (tree I B).

  (** Calls of user code.  [UCmp a b] is any of [a < b], [a <= b] and [a > b]. *)
  Inductive ucall :=
  | ULo (i : I)
  | UHi (i : I)
  | UCmp (a b : B)
  | UEq (a b : I)
  | UVisit (i : I).                                (* the closure of [for_each_intersection] *)

  (** A result, after some calls. *)
  Definition called (A : Type) : Type := list ucall * A.
  Definition ret {A} (a : A) : called A := ([], a).
  Definition bind {A C} (x : called A) (f : A -> called C) : called C :=
    let (l, a) := x in let (l', c) := f a in (l ++ l', c).
  Definition call (u : ucall) : called unit := ([u], tt).
  Notation "'do' x <- e ;; f" := (bind e (fun x => f)) (at level 200, x name, e at level 100, f at level 200).

  Definition c_lo (i : I) : called B := ([ULo i], lo i).
  Definition c_hi (i : I) : called B := ([UHi i], hi i).
  Definition c_lt (a b : B) : called bool := ([UCmp a b], ltb a b).
  Definition c_gt (a b : B) : called bool := ([UCmp a b], ltb b a).
  Definition c_le (a b : B) : called bool := ([UCmp a b], leb a b).
  Definition c_eq (a b : I) : called bool := ([UEq a b], eqv a b).

  (** [a && b], [a || b]. *)
  Definition c_and (a b : called bool) : called bool := do x <- a ;; if x then b else ret false.
  Definition c_or (a b : called bool) : called bool := do x <- a ;; if x then ret true else b.

  (** lib.rs 28-30: [contains]. *)
  Definition c_contains (s : I) (b : B) : called bool :=
    c_and (do l <- c_lo s ;; c_le l b) (do h <- c_hi s ;; c_le b h).

  (** lib.rs 33-38: [intersects]. *)
  Definition c_iv_intersects (s o : I) : called bool :=
    c_or (c_or (c_or
      (do b <- c_lo o ;; c_contains s b)
      (do b <- c_hi o ;; c_contains s b))
      (do b <- c_lo s ;; c_contains o b))
      (do b <- c_hi s ;; c_contains o b).

  (** node.rs 105-112: [new]. *)
  Definition c_new (i : I) : called tree := do m <- c_hi i ;; ret (Node Leaf i m Leaf).

  (** node.rs 190-208 and tree.rs 47-54: [insert]. *)
  Fixpoint c_insert (t : tree) (i : I) : called tree :=
    match t with
    | Leaf => c_new i
    | Node l v m r =>
        do h <- c_hi i ;; do less <- c_lt m h ;;
        do m' <- (if less then c_hi i else ret m) ;;
        do a <- c_lo i ;; do b <- c_lo v ;; do less <- c_lt a b ;;
        if less
        then do l' <- c_insert l i ;; ret (Node l' v m' r)
        else do r' <- c_insert r i ;; ret (Node l v m' r')
    end.

  (** node.rs 211-235: [join]; [immersion] runs no code of users. *)
  Definition c_join (fuel : nat) (l r : tree) : called (option tree) :=
    let intervals := into_inorder l ++ into_inorder r in
    let center := length intervals / 2 in
    match nth_error intervals center with
    | None => ret None
    | Some c => do root <- c_new c ;; ret (join_immersion fuel root (firstn center intervals ++ skipn (S center) intervals))
    end.

  (** node.rs 80-97 and tree.rs 29-33: [delete]. *)
  Fixpoint c_delete (fuel : nat) (t : tree) (i : I) : called (option tree) :=
    match t with
    | Leaf => ret (Some Leaf)
    | Node l v m r =>
        do same <- c_eq v i ;;
        if same then
          match l, r with
          | Node _ _ _ _, Node _ _ _ _ => c_join fuel l r
          | Node _ _ _ _, Leaf => ret (Some l)
          | Leaf, Node _ _ _ _ => ret (Some r)
          | Leaf, Leaf => ret (Some Leaf)
          end
        else
          do a <- c_lo i ;; do b <- c_lo v ;; do less <- c_lt a b ;;
          if less then do l' <- c_delete fuel l i ;; ret (option_map (fun l' => Node l' v m r) l')
          else
            do a <- c_lo i ;; do b <- c_lo v ;; do more <- c_gt a b ;;
            if more then do r' <- c_delete fuel r i ;; ret (option_map (fun r' => Node l v m r') r')
            else ret (Some t)
    end.

  (** node.rs 116-136 and tree.rs 58-63: [intersects]. *)
  Fixpoint c_intersects (t : tree) (q : I) : called bool :=
    match t with
    | Leaf => ret false
    | Node l v _ r =>
        do found <- c_iv_intersects v q ;;
        if found then ret true
        else match t_max l with
             | None => c_intersects r q
             | Some lm =>
                 do b <- c_lo q ;; do less <- c_lt lm b ;;
                 if less then c_intersects r q else c_intersects l q
             end
    end.

  (** node.rs 139-168 and tree.rs 66-73: [for_each_intersection]. *)
  Fixpoint c_for_each (t : tree) (q : I) : called unit :=
    match t with
    | Leaf => ret tt
    | Node l v _ r =>
        do _ <- c_for_each r q ;;
        do found <- c_iv_intersects v q ;;
        do _ <- (if found then call (UVisit v) else ret tt) ;;
        match t_max l with
        | None => ret tt
        | Some lm =>
            do b <- c_lo q ;; do less <- c_lt lm b ;;
            if less then ret tt else c_for_each l q
        end
    end.

  (** ** Calls on a tree, as a value of [IntervalSearchTree] *)

  Inductive tree_call :=
  | XInsert (i : I)
  | XDelete (i : I)
  | XIntersects (q : I)
  | XForEach (q : I).

  (** How a call ends, should it: its answer, or a panic. *)
  Inductive tree_end := XDone | XAnswer (b : bool) | XPanic.

  (** The call with fuel for [join]: the calls of user code it makes when none panics, what is at the
      root at the end ([None]: it does not end), how it ends. *)
  Definition tree_calls (fuel : nat) (t : tree) (x : tree_call) : called (option tree * tree_end) :=
    match x with
    | XInsert i => do t' <- c_insert t i ;; ret (Some t', XDone)
    | XDelete i => do o <- c_delete fuel t i ;; ret (o, XDone)
    | XIntersects q => do b <- c_intersects t q ;; ret (Some t, XAnswer b)
    | XForEach q => do _ <- c_for_each t q ;; ret (Some t, XDone)
    end.

  (** The root while user code runs: taken by [insert] and [delete] (tree.rs 30, 48), for [&self] not. *)
  Definition root_meanwhile (t : tree) (x : tree_call) : tree :=
    match x with
    | XInsert _ | XDelete _ => Leaf
    | XIntersects _ | XForEach _ => t
    end.

  (** The call, with the calls of user code that were made: it panics in its [k]th call of user code (counting from
      0), if it makes so many, when [crash] is [Some k].  What [insert] and [delete] have taken is dropped while
      unwinding. *)
  Definition tree_step (fuel : nat) (crash : option nat) (t : tree) (x : tree_call) : list ucall * option tree * tree_end :=
    let '(l, (t', e)) := tree_calls fuel t x in
    match crash with
    | Some k => if k <? length l then (firstn (S k) l, Some (root_meanwhile t x), XPanic) else (l, t', e)
    | None => (l, t', e)
    end.
End Calls.
Arguments ucall : clear implicits.
Arguments tree_call : clear implicits.
