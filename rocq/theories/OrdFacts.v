(** Facts about [OrdT] and its instances for nat, Z, ascii and lists. *)
From Coq Require Import List Arith ZArith Lia Ascii NArith.
From Verif Require Import Ord.
Import ListNotations.

Section Facts.
  Context {A : Type} `{OrdT A}.
  Implicit Types x y z : A.

  Lemma cmp_refl x : cmp x x = Eq.
  Proof. apply cmp_eq; reflexivity. Qed.

  Lemma eqb_eq x y : eqb x y = true <-> x = y.
  Proof.
    unfold eqb. rewrite <- (cmp_eq x y). destruct (cmp x y); split; congruence.
  Qed.
  Lemma eqb_refl x : eqb x x = true.
  Proof. apply eqb_eq; reflexivity. Qed.
  Lemma eqb_neq x y : eqb x y = false <-> x <> y.
  Proof. rewrite <- eqb_eq. destruct (eqb x y); split; congruence. Qed.
  Lemma eqb_sym x y : eqb x y = eqb y x.
  Proof.
    destruct (eqb x y) eqn:E; symmetry.
    - apply eqb_eq in E; subst; apply eqb_refl.
    - apply eqb_neq in E. apply eqb_neq. congruence.
  Qed.

  Lemma ord_eq_dec x y : {x = y} + {x <> y}.
  Proof.
    destruct (eqb x y) eqn:E; [left; now apply eqb_eq|right; now apply eqb_neq].
  Qed.

  Lemma ltb_lt x y : ltb x y = true <-> lt x y.
  Proof. unfold ltb, lt. destruct (cmp x y); split; congruence. Qed.
  Lemma leb_le x y : leb x y = true <-> le x y.
  Proof. unfold leb, le. destruct (cmp x y); split; congruence. Qed.

  Lemma lt_irrefl x : ~ lt x x.
  Proof. unfold lt. rewrite cmp_refl. discriminate. Qed.
  Lemma lt_trans x y z : lt x y -> lt y z -> lt x z.
  Proof. apply cmp_lt_trans. Qed.
  Lemma gt_lt x y : cmp x y = Gt <-> lt y x.
  Proof. unfold lt. rewrite (cmp_sym x y). destruct (cmp x y); cbn; split; congruence. Qed.
  Lemma le_lteq x y : le x y <-> lt x y \/ x = y.
  Proof.
    unfold le, lt. rewrite <- (cmp_eq x y).
    destruct (cmp x y) eqn:E; split; intros; try (left; reflexivity);
      try (right; reflexivity); try discriminate; try congruence.
    destruct H0; congruence.
  Qed.
  Lemma le_not_lt x y : le x y <-> ~ lt y x.
  Proof. unfold le. rewrite <- gt_lt. tauto. Qed.
  Lemma lt_not_le x y : lt x y <-> ~ le y x.
  Proof.
    unfold le. rewrite gt_lt. split; intros L; [intros N; auto|].
    destruct (cmp x y) eqn:E.
    - exfalso; apply L. intros N. apply cmp_eq in E; subst. exact (lt_irrefl _ N).
    - exact E.
    - exfalso; apply L. intros N. apply gt_lt in E.
      exact (lt_irrefl _ (lt_trans _ _ _ N E)).
  Qed.
  Lemma le_refl x : le x x.
  Proof. apply le_lteq; auto. Qed.
  Lemma lt_le x y : lt x y -> le x y.
  Proof. rewrite le_lteq; auto. Qed.
  Lemma le_trans x y z : le x y -> le y z -> le x z.
  Proof.
    rewrite !le_lteq. intros [L|L] [M|M]; subst; auto. left; eapply lt_trans; eauto.
  Qed.
  Lemma le_lt_trans x y z : le x y -> lt y z -> lt x z.
  Proof. rewrite le_lteq. intros [L|L] M; subst; auto. eapply lt_trans; eauto. Qed.
  Lemma lt_le_trans x y z : lt x y -> le y z -> lt x z.
  Proof. rewrite le_lteq. intros L [M|M]; subst; auto. eapply lt_trans; eauto. Qed.
  Lemma le_antisym x y : le x y -> le y x -> x = y.
  Proof.
    rewrite !le_lteq. intros [L|L] [M|M]; auto.
    exfalso; eapply lt_irrefl, lt_trans; eauto.
  Qed.
  Lemma le_total x y : le x y \/ le y x.
  Proof.
    destruct (cmp x y) eqn:E.
    - left; unfold le; congruence.
    - left; unfold le; congruence.
    - right. apply lt_le, gt_lt, E.
  Qed.
  Lemma lt_trichotomy x y : lt x y \/ x = y \/ lt y x.
  Proof.
    destruct (cmp x y) eqn:E; [right; left; now apply cmp_eq|left; exact E|].
    right; right; now apply gt_lt.
  Qed.

  Lemma ltb_false x y : ltb x y = false <-> le y x.
  Proof. rewrite le_not_lt, <- ltb_lt. destruct (ltb x y); split; congruence. Qed.
  Lemma leb_false x y : leb x y = false <-> lt y x.
  Proof. rewrite lt_not_le, <- leb_le. destruct (leb x y); split; congruence. Qed.

  Lemma max_l_le x y : le x (ord_max x y).
  Proof. unfold ord_max. destruct (leb x y) eqn:E; [now apply leb_le|apply le_refl]. Qed.
  Lemma max_r_le x y : le y (ord_max x y).
  Proof.
    unfold ord_max. destruct (leb x y) eqn:E; [apply le_refl|].
    apply lt_le, leb_false, E.
  Qed.
  Lemma max_cases x y : ord_max x y = x \/ ord_max x y = y.
  Proof. unfold ord_max. destruct (leb x y); auto. Qed.
End Facts.

(** Decide order goals over [OrdT]: saturate with transitivity. *)
Ltac ord_norm :=
  repeat match goal with
  | H : ltb _ _ = true |- _ => apply ltb_lt in H
  | H : ltb _ _ = false |- _ => apply ltb_false in H
  | H : leb _ _ = true |- _ => apply leb_le in H
  | H : leb _ _ = false |- _ => apply leb_false in H
  | H : eqb _ _ = true |- _ => apply eqb_eq in H
  | H : eqb _ _ = false |- _ => apply eqb_neq in H
  | H : cmp _ _ = Lt |- _ => change (lt _ _) in H
  | H : cmp _ _ = Gt |- _ => apply gt_lt in H
  | H : cmp _ _ = Eq |- _ => apply cmp_eq in H
  | H : ~ lt _ _ |- _ => apply le_not_lt in H
  | H : ~ le _ _ |- _ => apply lt_not_le in H
  | |- ltb _ _ = true => apply ltb_lt
  | |- ltb _ _ = false => apply ltb_false
  | |- leb _ _ = true => apply leb_le
  | |- leb _ _ = false => apply leb_false
  | |- ~ lt _ _ => apply le_not_lt
  | |- ~ le _ _ => apply lt_not_le
  end.

Ltac ord_step :=
  match goal with
  | H1 : lt ?x ?y, H2 : lt ?y ?z |- _ =>
      lazymatch goal with
      | _ : lt x z |- _ => fail
      | _ => pose proof (lt_trans x y z H1 H2)
      end
  | H1 : lt ?x ?y, H2 : le ?y ?z |- _ =>
      lazymatch goal with
      | _ : lt x z |- _ => fail
      | _ => pose proof (lt_le_trans x y z H1 H2)
      end
  | H1 : le ?x ?y, H2 : lt ?y ?z |- _ =>
      lazymatch goal with
      | _ : lt x z |- _ => fail
      | _ => pose proof (le_lt_trans x y z H1 H2)
      end
  | H1 : le ?x ?y, H2 : le ?y ?z |- _ =>
      lazymatch goal with
      | _ : le x z |- _ => fail
      | _ => pose proof (le_trans x y z H1 H2)
      end
  end.

Ltac ord_close :=
  match goal with
  | H : lt ?x ?x |- _ => exfalso; exact (lt_irrefl x H)
  | H : lt ?x ?y |- le ?x ?y => exact (lt_le x y H)
  | |- le ?x ?x => apply le_refl
  | H1 : lt ?x ?y, H2 : le ?y ?x |- _ => exfalso; exact (lt_irrefl _ (lt_le_trans _ _ _ H1 H2))
  | _ => assumption
  end.

(** Prove an order goal: negate the goal, saturate, find a contradiction. *)
Ltac order :=
  subst; ord_norm; subst;
  try assumption;
  match goal with
  | |- lt ?x ?y => apply lt_not_le; intro
  | |- le ?x ?y => apply le_not_lt; intro
  | |- _ => exfalso
  end;
  repeat (try ord_close; ord_step); ord_close.

(** ** Instances *)

#[global] Instance nat_ord : OrdT nat.
Proof.
  refine {| cmp := Nat.compare |}.
  - apply Nat.compare_eq_iff.
  - intros x y. apply Nat.compare_antisym.
  - intros x y z. rewrite !Nat.compare_lt_iff. lia.
Defined.

#[global] Instance Z_ord : OrdT Z.
Proof.
  refine {| cmp := Z.compare |}.
  - apply Z.compare_eq_iff.
  - intros x y. apply Z.compare_antisym.
  - intros x y z. rewrite !Z.compare_lt_iff. lia.
Defined.

Definition ascii_cmp (a b : ascii) : comparison := N.compare (N_of_ascii a) (N_of_ascii b).

#[global] Instance ascii_ord : OrdT ascii.
Proof.
  refine {| cmp := ascii_cmp |}; unfold ascii_cmp.
  - intros x y. rewrite N.compare_eq_iff. split; intros E; [|now subst].
    rewrite <- (ascii_N_embedding x), <- (ascii_N_embedding y). now rewrite E.
  - intros x y. apply N.compare_antisym.
  - intros x y z. rewrite !N.compare_lt_iff. lia.
Defined.

(** Lexicographic comparison of sequences (std: [Ord for Vec/slices]). *)
Fixpoint list_cmp {A} `{OrdT A} (l m : list A) : comparison :=
  match l, m with
  | [], [] => Eq
  | [], _ :: _ => Lt
  | _ :: _, [] => Gt
  | x :: l, y :: m => match cmp x y with Eq => list_cmp l m | c => c end
  end.

#[global] Instance list_ord {A} `{OrdT A} : OrdT (list A).
Proof.
  refine {| cmp := list_cmp |}.
  - induction x as [|a x IH]; destruct y as [|b y]; cbn; try (split; congruence).
    destruct (cmp a b) eqn:E.
    + apply cmp_eq in E; subst. rewrite IH. split; congruence.
    + split; [congruence|]. intros [= -> _]. rewrite cmp_refl in E; discriminate.
    + split; [congruence|]. intros [= -> _]. rewrite cmp_refl in E; discriminate.
  - induction x as [|a x IH]; destruct y as [|b y]; cbn; try reflexivity.
    rewrite (cmp_sym a b). destruct (cmp a b); cbn; auto.
  - induction x as [|a x IH]; destruct y as [|b y]; destruct z as [|c z]; cbn; try congruence.
    destruct (cmp a b) eqn:E1; destruct (cmp b c) eqn:E2; intros L1 L2; try discriminate.
    + apply cmp_eq in E1, E2; subst. rewrite cmp_refl. eauto.
    + apply cmp_eq in E1; subst. now rewrite E2.
    + apply cmp_eq in E2; subst. now rewrite E1.
    + now rewrite (cmp_lt_trans _ _ _ E1 E2).
Defined.
