(** Specification vocabulary for panics of single calls of user code while a search tree is written. *)
From Coq Require Import List Arith Bool.
From Verif Require Import Ord Interval SpecInterval TreeCalls SpecPlugins.
Import ListNotations.

Section Spec.
  Context {A B : Type} `{OrdT B} `{Interval A B} `{PartialEq A}.
  Notation tree := (tree A B).
  Notation ucall := (ucall A B).

  Definition harmless (bad : ucall -> bool) (l : list ucall) : Prop := forall u, In u l -> bad u = false.

  (** One interval after the other is written by the call [f] of it, until a call of user code panics: the tree is lost then. *)
  Inductive writes (bad : ucall -> bool) (f : A -> tree_call A) : tree -> list A -> stage (option tree) -> Prop :=
  | wr_nothing : forall t, writes bad f t [] (Done (Some t))
  | wr_one : forall t x xs fuel l t' s,
      tree_step fuel None t (f x) = (l, Some t', XDone) -> harmless bad l -> writes bad f t' xs s -> writes bad f t (x :: xs) s
  | wr_panic : forall t x xs fuel crash l u o,
      tree_step fuel crash t (f x) = (l ++ [u], o, XPanic) -> harmless bad l -> bad u = true -> writes bad f t (x :: xs) (Broken None)
  | wr_endless : forall t x xs,
      (forall fuel, exists l, tree_step fuel None t (f x) = (l, None, XDone) /\ harmless bad l) -> writes bad f t (x :: xs) Endless.

  (** None of the calls that involve only intervals of [good], their bounds being of [goodb], panics. *)
  Definition sound_for (bad : ucall -> bool) (good : A -> Prop) (goodb : B -> Prop) : Prop :=
    (forall i, good i -> bad (ULo i) = false /\ bad (UHi i) = false /\ goodb (lo i) /\ goodb (hi i)) /\
    (forall a b, goodb a -> goodb b -> bad (UCmp a b) = false) /\
    (forall i j, good i -> good j -> bad (UEq i j) = false).
End Spec.
