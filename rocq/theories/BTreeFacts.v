(** Facts about the [BTreeMap] specification. *)
From Coq Require Import List Sorted.
From Verif Require Import Ord OrdFacts BTree.
Import ListNotations.

Section Facts.
  Context {K V : Type} `{OrdT K}.
  Implicit Types (m : btree K V) (k : K) (v : V).

  (** Keys strictly ascending. *)
  Definition bt_sorted m : Prop := StronglySorted lt (map fst m).

  Lemma bt_sorted_nil : bt_sorted [].
  Proof. constructor. Qed.

  Lemma bt_sorted_inv k v m : bt_sorted ((k, v) :: m) ->
    bt_sorted m /\ Forall (fun kv => lt k (fst kv)) m.
  Proof.
    unfold bt_sorted; cbn. intros S. inversion S as [|? ? S1 S2]; subst.
    split; [exact S1|]. now rewrite Forall_map in S2.
  Qed.

  Lemma bt_sorted_cons k v m : bt_sorted m -> Forall (fun kv => lt k (fst kv)) m ->
    bt_sorted ((k, v) :: m).
  Proof. unfold bt_sorted; cbn. intros. constructor; [assumption|]. now rewrite Forall_map. Qed.

  Lemma bt_get_lt k m : Forall (fun kv => lt k (fst kv)) m -> bt_get k m = None.
  Proof.
    destruct m as [|[k' v'] m]; cbn; [reflexivity|].
    intros F. inversion F as [|? ? L _]; subst. cbn in L. unfold lt in L. now rewrite L.
  Qed.

  Lemma Forall_insert (P : K * V -> Prop) k v m :
    (forall k', k = k' -> P (k', v)) -> Forall P m -> Forall P (bt_insert k v m).
  Proof.
    intros Pk. induction m as [|[k' v'] m IH]; cbn; intros F.
    - constructor; auto.
    - inversion F; subst. destruct (cmp k k') eqn:E; constructor; auto.
      apply Pk. now apply cmp_eq.
  Qed.

  Lemma Forall_remove (P : K * V -> Prop) k m : Forall P m -> Forall P (bt_remove k m).
  Proof.
    induction m as [|[k' v'] m IH]; cbn; intros F; [constructor|].
    inversion F; subst. destruct (cmp k k'); auto.
  Qed.

  Lemma bt_insert_sorted k v m : bt_sorted m -> bt_sorted (bt_insert k v m).
  Proof.
    induction m as [|[k' v'] m IH]; cbn; intros S.
    - repeat constructor.
    - apply bt_sorted_inv in S as [S L]. destruct (cmp k k') eqn:E.
      + apply bt_sorted_cons; auto.
      + apply bt_sorted_cons; [now apply bt_sorted_cons|].
        constructor; [exact E|]. eapply Forall_impl; [|exact L].
        intros a La. cbn in *. eapply lt_trans; eauto.
      + apply bt_sorted_cons; [now apply IH|].
        apply Forall_insert; [|assumption]. cbn. intros k0 <-. now apply gt_lt.
  Qed.

  Lemma bt_remove_sorted k m : bt_sorted m -> bt_sorted (bt_remove k m).
  Proof.
    induction m as [|[k' v'] m IH]; cbn; intros S; [assumption|].
    apply bt_sorted_inv in S as [S L]. destruct (cmp k k') eqn:E.
    - assumption.
    - now apply bt_sorted_cons.
    - apply bt_sorted_cons; [now apply IH|]. now apply Forall_remove.
  Qed.

  Lemma bt_get_insert k v m j : bt_sorted m ->
    bt_get j (bt_insert k v m) = if eqb k j then Some v else bt_get j m.
  Proof.
    induction m as [|[k' v'] m IH]; cbn; intros S.
    - unfold eqb. rewrite (cmp_sym j k). destruct (cmp j k); reflexivity.
    - apply bt_sorted_inv in S as [S L]. destruct (cmp k k') eqn:E; cbn.
      + apply cmp_eq in E; subst k'. unfold eqb. rewrite (cmp_sym j k).
        destruct (cmp j k); reflexivity.
      + unfold eqb. rewrite (cmp_sym j k).
        destruct (cmp j k) eqn:Ejk; cbn; try reflexivity.
        assert (cmp j k' = Lt) as -> by (eapply lt_trans; eauto). reflexivity.
      + rewrite IH by assumption.
        destruct (cmp j k') eqn:Ej; try reflexivity.
        * apply cmp_eq in Ej; subst j. unfold eqb. now rewrite E.
        * assert (eqb k j = false) as ->; [|reflexivity].
          apply eqb_neq. intros <-. congruence.
  Qed.

  Lemma bt_get_remove k m j : bt_sorted m ->
    bt_get j (bt_remove k m) = if eqb k j then None else bt_get j m.
  Proof.
    induction m as [|[k' v'] m IH]; cbn; intros S.
    - destruct (eqb k j); reflexivity.
    - apply bt_sorted_inv in S as [S L]. destruct (cmp k k') eqn:E; cbn.
      + apply cmp_eq in E; subst k'. destruct (eqb k j) eqn:Ekj.
        * apply eqb_eq in Ekj; subst. now apply bt_get_lt.
        * apply eqb_neq in Ekj. destruct (cmp j k) eqn:Ej.
          -- apply cmp_eq in Ej. congruence.
          -- apply bt_get_lt. eapply Forall_impl; [|exact L]. cbn. intros a La.
             eapply lt_trans; eauto.
          -- reflexivity.
      + destruct (eqb k j) eqn:Ekj; [|reflexivity].
        apply eqb_eq in Ekj; subst. now rewrite E.
      + rewrite IH by assumption. destruct (cmp j k') eqn:Ej; try reflexivity.
        * apply cmp_eq in Ej; subst. unfold eqb. now rewrite E.
        * destruct (eqb k j) eqn:Ekj; reflexivity.
  Qed.

  Lemma bt_get_in k v m : bt_sorted m -> (bt_get k m = Some v <-> In (k, v) m).
  Proof.
    induction m as [|[k' v'] m IH]; cbn; intros S; [split; [congruence|tauto]|].
    apply bt_sorted_inv in S as [S L]. rewrite Forall_forall in L.
    destruct (cmp k k') eqn:E.
    - apply cmp_eq in E; subst k'. split.
      + intros [= ->]. now left.
      + intros [[= ->]|I]; [reflexivity|]. specialize (L _ I). cbn in L.
        exfalso; exact (lt_irrefl _ L).
    - split; [congruence|]. intros [[= -> ->]|I].
      + rewrite cmp_refl in E. discriminate.
      + specialize (L _ I). cbn in L. exfalso; exact (lt_irrefl _ (lt_trans _ _ _ E L)).
    - rewrite IH by assumption. split; [tauto|]. intros [[= -> ->]|I]; [|tauto].
      rewrite cmp_refl in E. discriminate.
  Qed.

  Lemma bt_contains_key_get k m : bt_contains_key k m = true <-> exists v, bt_get k m = Some v.
  Proof.
    unfold bt_contains_key. destruct (bt_get k m); split; try congruence; eauto.
    intros [? ?]; discriminate.
  Qed.

  (** Sorted lists that answer alike are equal. *)
  Lemma bt_ext m1 m2 : bt_sorted m1 -> bt_sorted m2 ->
    (forall k, bt_get k m1 = bt_get k m2) -> m1 = m2.
  Proof.
    revert m2. induction m1 as [|[k1 v1] m1 IH]; intros [|[k2 v2] m2] S1 S2 E.
    - reflexivity.
    - specialize (E k2). cbn in E. rewrite cmp_refl in E. discriminate.
    - specialize (E k1). cbn in E. rewrite cmp_refl in E. discriminate.
    - pose proof (bt_sorted_inv _ _ _ S1) as [S1' L1].
      pose proof (bt_sorted_inv _ _ _ S2) as [S2' L2].
      assert (k1 = k2) as ->.
      { pose proof (E k1) as E1. pose proof (E k2) as E2. cbn in E1, E2.
        rewrite cmp_refl in E1, E2. destruct (cmp k1 k2) eqn:Ek.
        - now apply cmp_eq.
        - discriminate.
        - rewrite (cmp_sym k1 k2), Ek in E2. cbn in E2. discriminate. }
      pose proof (E k2) as E2. cbn in E2. rewrite cmp_refl in E2. injection E2 as ->.
      f_equal. apply IH; auto. intros k. specialize (E k). cbn in E.
      destruct (cmp k k2) eqn:Ek; auto.
      + apply cmp_eq in Ek; subst. rewrite !bt_get_lt; auto.
      + rewrite !bt_get_lt; auto; (eapply Forall_impl; [|eassumption]); cbn;
          intros a La; eapply lt_trans; eauto.
  Qed.

  Lemma bt_from_iter_sorted_aux l m : bt_sorted m ->
    bt_sorted (fold_left (fun m kv => bt_insert (fst kv) (snd kv) m) l m).
  Proof.
    revert m. induction l as [|[k v] l IH]; cbn; intros m S; [assumption|].
    apply IH, bt_insert_sorted, S.
  Qed.

  Lemma bt_from_iter_sorted l : bt_sorted (bt_from_iter l).
  Proof. apply bt_from_iter_sorted_aux. constructor. Qed.

  Lemma bt_insert_get_same k v m : bt_sorted m -> bt_get k m = Some v -> bt_insert k v m = m.
  Proof.
    intros S G. apply bt_ext; auto using bt_insert_sorted. intros j.
    rewrite bt_get_insert by assumption. destruct (eqb k j) eqn:E; [|reflexivity].
    apply eqb_eq in E; subst; auto.
  Qed.
End Facts.
