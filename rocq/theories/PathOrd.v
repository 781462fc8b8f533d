(** The order of path components is lawful. *)
From Coq Require Import List Bool Arith Ascii.
From Verif Require Import Ord OrdFacts Path.
Import ListNotations.

#[global] Instance comp_ord : OrdT comp.
Proof.
  refine {| cmp := comp_cmp |}; unfold comp_cmp.
  - intros x y. destruct (cmp (comp_rank x) (comp_rank y)) eqn:E.
    + apply cmp_eq in E. rewrite cmp_eq. split; [|intros ->; reflexivity].
      destruct x, y; cbn in *; try discriminate; congruence.
    + split; [discriminate|]. intros ->. rewrite cmp_refl in E. discriminate.
    + split; [discriminate|]. intros ->. rewrite cmp_refl in E. discriminate.
  - intros x y. rewrite (cmp_sym (comp_rank x)), (cmp_sym (comp_name x)). destruct (cmp (comp_rank x) (comp_rank y)); reflexivity.
  - intros x y z. destruct (cmp (comp_rank x) (comp_rank y)) eqn:E1; [|intros _|discriminate].
    + apply cmp_eq in E1. rewrite E1. destruct (cmp (comp_rank y) (comp_rank z)); auto; try discriminate. apply cmp_lt_trans.
    + destruct (cmp (comp_rank y) (comp_rank z)) eqn:E2; [intros _|intros _|discriminate].
      * apply cmp_eq in E2. now rewrite <- E2, E1.
      * now rewrite (cmp_lt_trans _ _ _ E1 E2).
Defined.
