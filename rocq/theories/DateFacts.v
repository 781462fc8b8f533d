(** Facts about dates: the comparison is a lawful [Ord], the equality a lawful [Eq]. *)
From Coq Require Import List Arith Eqdep_dec Lia.
From Verif Require Import Ord OrdFacts Interval Date.
Import ListNotations.

Section Facts.
  Context {T : Type} `{HT : OrdT T}.
  Implicit Types (l m n : list T).

  Lemma date_ext e N (x y : date e N T) : components x = components y -> x = y.
  Proof.
    destruct x as [l Hl], y as [m Hm]; cbn. intros E. subst m. f_equal.
    apply UIP_dec, Nat.eq_dec.
  Qed.

  Lemma combine_rev {A B} (l : list A) (m : list B) : length l = length m ->
    rev (combine l m) = combine (rev l) (rev m).
  Proof.
    revert m. induction l as [|x l IH]; intros [|y m] E; try discriminate; [reflexivity|].
    injection E as E. cbn. rewrite IH by assumption.
    assert (G : forall (l1 : list A) (m1 : list B) (l2 : list A) (m2 : list B), length l1 = length m1 ->
      combine (l1 ++ l2) (m1 ++ m2) = combine l1 m1 ++ combine l2 m2).
    { induction l1; destruct m1; cbn; intros; try discriminate; auto. f_equal; auto. }
    rewrite G; [reflexivity|]. now rewrite !rev_length.
  Qed.

  Definition lex l m : comparison := cmp_pairs (combine l m).

  Lemma lex_eq l m : length l = length m -> (lex l m = Eq <-> l = m).
  Proof.
    unfold lex. revert m. induction l as [|x l IH]; intros [|y m] E; try discriminate; cbn; [tauto|].
    injection E as E. destruct (cmp x y) eqn:C.
    - apply cmp_eq in C. subst y. rewrite IH by assumption. split; [now intros ->|now intros [= ->]].
    - split; [discriminate|]. intros [= -> ->]. rewrite cmp_refl in C. discriminate.
    - split; [discriminate|]. intros [= -> ->]. rewrite cmp_refl in C. discriminate.
  Qed.

  Lemma lex_sym l m : lex m l = CompOpp (lex l m).
  Proof.
    unfold lex. revert m. induction l as [|x l IH]; intros [|y m]; cbn; try reflexivity.
    rewrite (cmp_sym x y). destruct (cmp x y); cbn; auto.
  Qed.

  Lemma lex_trans l m n : length l = length m -> length m = length n ->
    lex l m = Lt -> lex m n = Lt -> lex l n = Lt.
  Proof.
    unfold lex. revert m n. induction l as [|x l IH]; intros [|y m] [|z n] E F; try discriminate; cbn; auto.
    injection E as E. injection F as F.
    destruct (cmp x y) eqn:C; [|intros _|discriminate].
    - apply cmp_eq in C. subst y. intros L. destruct (cmp x z) eqn:D; auto. now apply IH.
    - destruct (cmp y z) eqn:D; [|intros _|discriminate].
      + apply cmp_eq in D. subst z. rewrite C. reflexivity.
      + rewrite (cmp_lt_trans x y z C D). reflexivity.
  Qed.

  (** The components from the most significant to the least. *)
  Definition signif {e N} (x : date e N T) : list T :=
    match e with LittleEndian => rev (components x) | BigEndian => components x end.

  Lemma signif_len {e N} (x : date e N T) : length (signif x) = N.
  Proof. destruct x as [l Hl], e; cbn; [now rewrite rev_length|assumption]. Qed.

  Lemma signif_inj {e N} (x y : date e N T) : signif x = signif y -> x = y.
  Proof.
    intros E. apply date_ext. destruct e; cbn in *; [|assumption].
    rewrite <- (rev_involutive (components x)), E. apply rev_involutive.
  Qed.

  Lemma date_cmp_lex {e N} (x y : date e N T) : date_cmp x y = lex (signif x) (signif y).
  Proof.
    destruct e; cbn; [|reflexivity]. unfold lex. rewrite combine_rev; [reflexivity|].
    now rewrite !components_len.
  Qed.

  Lemma date_cmp_eq {e N} (x y : date e N T) : date_cmp x y = Eq <-> x = y.
  Proof.
    rewrite date_cmp_lex, lex_eq by now rewrite !signif_len.
    split; [apply signif_inj|now intros ->].
  Qed.
  Lemma date_cmp_sym {e N} (x y : date e N T) : date_cmp y x = CompOpp (date_cmp x y).
  Proof. rewrite !date_cmp_lex. apply lex_sym. Qed.
  Lemma date_cmp_trans {e N} (x y z : date e N T) :
    date_cmp x y = Lt -> date_cmp y z = Lt -> date_cmp x z = Lt.
  Proof. rewrite !date_cmp_lex. apply lex_trans; now rewrite !signif_len. Qed.

  Lemma comps_eq_eq l m : comps_eq l m = true <-> l = m.
  Proof.
    revert m. induction l as [|x l IH]; intros [|y m]; cbn; try (split; congruence).
    destruct (eqb x y) eqn:E.
    - apply eqb_eq in E. subst y. rewrite IH. split; congruence.
    - apply eqb_neq in E. split; congruence.
  Qed.

  Lemma date_eq_eq {e N} (x y : date e N T) : date_eq x y = true <-> x = y.
  Proof. unfold date_eq. rewrite comps_eq_eq. split; [apply date_ext|congruence]. Qed.

  (** First difference decides. *)
  Lemma lex_first l m o : length l = length m -> o <> Eq ->
    lex l m = o <-> exists k a b, firstn k l = firstn k m /\ nth_error l k = Some a /\
      nth_error m k = Some b /\ cmp a b = o.
  Proof.
    unfold lex. revert m. induction l as [|x l IH]; intros [|y m] E No; try discriminate; cbn.
    - split; [congruence|]. intros (k & a & b & _ & N & _). destruct k; discriminate.
    - injection E as E. destruct (cmp x y) eqn:C.
      + apply cmp_eq in C. subst y. rewrite IH by assumption. split.
        * intros (k & a & b & F & N1 & N2 & D). exists (S k), a, b. cbn. rewrite F. auto.
        * intros ([|k] & a & b & F & N1 & N2 & D); cbn in *.
          -- injection N1 as <-. injection N2 as <-. rewrite cmp_refl in D. congruence.
          -- injection F as F. exists k, a, b. auto.
      + split.
        * intros <-. exists 0, x, y. auto.
        * intros ([|k] & a & b & F & N1 & N2 & D); cbn in *; [congruence|].
          injection F as -> _. rewrite cmp_refl in C. discriminate.
      + split.
        * intros <-. exists 0, x, y. auto.
        * intros ([|k] & a & b & F & N1 & N2 & D); cbn in *; [congruence|].
          injection F as -> _. rewrite cmp_refl in C. discriminate.
  Qed.
End Facts.

#[global] Instance date_ord e N T `{OrdT T} : OrdT (date e N T) := {
  cmp := date_cmp;
  cmp_eq := date_cmp_eq;
  cmp_sym := date_cmp_sym;
  cmp_lt_trans := date_cmp_trans
}.

#[global] Instance date_partial_eq e N T `{OrdT T} : PartialEq (date e N T) :=
  { eqv := date_eq; eqv_eq := date_eq_eq }.
