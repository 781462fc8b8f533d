(** Concrete intervals used by the examples: pairs of numbers. *)
From Coq Require Import List Arith Bool.
From Verif Require Import Ord OrdFacts Interval SpecInterval.
Import ListNotations.

#[global] Instance pair_interval : Interval (nat * nat) nat := { lo := fst; hi := snd }.

Lemma pair_eqb_eq (x y : nat * nat) :
  (fst x =? fst y) && (snd x =? snd y) = true <-> x = y.
Proof.
  destruct x, y; cbn. rewrite andb_true_iff, !Nat.eqb_eq. split; [intros [-> ->]|intros [= -> ->]]; auto.
Qed.
#[global] Instance pair_partial_eq : PartialEq (nat * nat) :=
  { eqv := fun x y => (fst x =? fst y) && (snd x =? snd y); eqv_eq := pair_eqb_eq }.

Notation dtree := (tree (nat * nat) nat).
Definition d_tree (l : list (nat * nat)) : dtree := fold_left insert l t_default.
