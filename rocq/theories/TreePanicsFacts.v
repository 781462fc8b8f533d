(** Facts about panics of single calls of user code while a search tree is written. *)
From Coq Require Import List Arith Bool Lia.
From Verif Require Import Ord OrdFacts Interval SpecInterval IntervalFacts TreeCalls SpecTreeCalls TreeCallsFacts Plugin SpecPlugins TreePanics SpecTreePanics.
Import ListNotations.

Section Facts.
  Context {A B : Type} `{HB : OrdT B} `{HI : Interval A B} `{HE : PartialEq A}.
  Notation tree := (tree A B).
  Notation ucall := (ucall A B).

  Lemma harmless_iff bad (l : list ucall) : harmless bad l <-> existsb bad l = false.
  Proof.
    split.
    - intros N. destruct (existsb bad l) eqn:E; [|reflexivity]. apply existsb_exists in E. destruct E as (u & Iu & E). rewrite (N u Iu) in E. discriminate.
    - intros E u Iu. destruct (bad u) eqn:Bu; [|reflexivity]. assert (X : existsb bad l = true) by (apply existsb_exists; eauto). rewrite X in E. discriminate.
  Qed.
  Lemma harmless_app bad (l l' : list ucall) : harmless bad (l ++ l') <-> harmless bad l /\ harmless bad l'.
  Proof.
    split; [intros N; split; intros u Iu; apply N, in_app_iff; auto|]. intros [N N'] u Iu. apply in_app_iff in Iu. destruct Iu; auto.
  Qed.

  (** The first call that panics. *)
  Lemma first_bad bad (l : list ucall) : existsb bad l = true ->
    exists l1 u l2, l = l1 ++ u :: l2 /\ harmless bad l1 /\ bad u = true.
  Proof.
    induction l as [|u l IH]; [discriminate|]. cbn [existsb]. destruct (bad u) eqn:Bu; cbn [orb]; intros E.
    - exists [], u, l. repeat split; auto. intros v [].
    - destruct (IH E) as (l1 & v & l2 & -> & N & Bv). exists (u :: l1), v, l2. repeat split; auto. intros w [<-|Iw]; auto.
  Qed.

  Lemma fst_delete_fuel fuel fuel' (t : tree) i : fst (c_delete fuel t i) = fst (c_delete fuel' t i).
  Proof.
    induction t as [|l IHl v m r IHr]; [reflexivity|]. cbn [c_delete]. rewrite !fst_bind. f_equal. cbn [snd c_eq]. destruct (eqv v i).
    - destruct l, r; try reflexivity. unfold c_join. destruct (nth_error _ _); reflexivity.
    - repeat (rewrite !fst_bind; cbn [fst snd c_lo c_lt]). do 3 f_equal. destruct (ltb (lo i) (lo v)).
      + rewrite !fst_bind. cbn [fst ret]. now rewrite IHl.
      + repeat (rewrite !fst_bind; cbn [fst snd c_lo c_gt]). do 3 f_equal. destruct (ltb (lo v) (lo i)); [|reflexivity].
        rewrite !fst_bind. cbn [fst ret]. now rewrite IHr.
  Qed.

  (** Calls made by a call on the tree, and its result. *)
  Lemma calls_insert fuel (t : tree) i : tree_calls fuel t (XInsert i) = (fst (c_insert t i), (Some (insert t i), XDone)).
  Proof.
    rewrite (surjective_pairing (tree_calls _ _ _)), snd_tree_calls. cbn [tree_result]. f_equal. unfold tree_calls. rewrite fst_bind. cbn [fst ret].
    apply app_nil_r.
  Qed.
  Lemma calls_delete fuel (t : tree) i : tree_calls fuel t (XDelete i) = (fst (c_delete fuel t i), (delete fuel t i, XDone)).
  Proof.
    rewrite (surjective_pairing (tree_calls _ _ _)), snd_tree_calls. cbn [tree_result]. f_equal. unfold tree_calls. rewrite fst_bind. cbn [fst ret].
    apply app_nil_r.
  Qed.

  Lemma step_breaks fuel (t : tree) x l1 u l2 : fst (tree_calls fuel t x) = l1 ++ u :: l2 ->
    tree_step fuel (Some (length l1)) t x = (l1 ++ [u], Some (root_meanwhile t x), XPanic).
  Proof.
    intros E. unfold tree_step. destruct (tree_calls fuel t x) as [l [o e]]. cbn [fst] in E. subst l.
    rewrite app_length. cbn [length]. replace (_ <? _) with true by (symmetry; apply Nat.ltb_lt; lia). f_equal. f_equal.
    clear. induction l1 as [|v l1 IH]; [reflexivity|]. change (v :: firstn (S (length l1)) (l1 ++ u :: l2) = v :: l1 ++ [u]). now rewrite IH.
  Qed.

  Lemma step_inv fuel crash (t : tree) x l o e : tree_step fuel crash t x = (l, o, e) -> e = XPanic ->
    exists rest, fst (tree_calls fuel t x) = l ++ rest.
  Proof.
    intros S ->. apply tree_step_cases in S. destruct S as [[_ R]|(k & _ & _ & -> & _)].
    - pose proof (tree_result_end fuel t x) as N. rewrite <- R in N. now destruct N.
    - exists (skipn (S k) (fst (tree_calls fuel t x))). symmetry. apply firstn_skipn.
  Qed.

  (** Trees whose intervals and stored maxima are good. *)
  Fixpoint good_tree (good : A -> Prop) (goodb : B -> Prop) (t : tree) : Prop :=
    match t with
    | Leaf => True
    | Node l v m r => good v /\ goodb m /\ good_tree good goodb l /\ good_tree good goodb r
    end.

  Lemma good_contents good goodb (t : tree) : good_tree good goodb t -> forall i, In i (contents t) -> good i.
  Proof.
    induction t as [|l IHl v m r IHr]; [intros _ i []|]. intros (Gv & _ & Gl & Gr) i Ii. cbn [contents] in Ii.
    apply in_app_iff in Ii. destruct Ii as [Ii|[<-|Ii]]; auto.
  Qed.

  Section Sound.
    Variables (bad : ucall -> bool) (good : A -> Prop) (goodb : B -> Prop).
    Hypothesis Sf : sound_for bad good goodb.

    Lemma good_insert (t : tree) i : good i -> good_tree good goodb t -> good_tree good goodb (insert t i).
    Proof.
      intros Gi. destruct Sf as (Sl & _). destruct (Sl i Gi) as (_ & _ & _ & Gh).
      induction t as [|l IHl v m r IHr]; [cbn; tauto|]. intros (Gv & Gm & Gl & Gr). cbn [insert].
      destruct (ltb (lo i) (lo v)); cbn; (split; [exact Gv|]); (split; [destruct (ltb m (hi i)); assumption|]); auto.
    Qed.

    Lemma immersion_same fuel : forall (root : tree) l t', join_immersion fuel root l = Some t' -> t' = root.
    Proof.
      induction fuel as [|fuel IH]; intros root l t' E; [discriminate|]. cbn in E. destruct l as [|x l]; [now injection E|].
      destruct (join_immersion fuel root _) as [r|] eqn:E1; [|discriminate]. apply IH in E1. subst r. now apply IH in E.
    Qed.

    Lemma good_delete fuel (t : tree) i : forall t', good_tree good goodb t -> delete fuel t i = Some t' -> good_tree good goodb t'.
    Proof.
      induction t as [|l IHl v m r IHr]; intros t' G D; [now injection D as <-|]. pose proof (good_contents _ _ _ G) as Gc. destruct G as (Gv & Gm & Gl & Gr).
      cbn [delete] in D. destruct (eqv v i).
      - assert (J : join fuel l r = Some t' -> good_tree good goodb t').
        { unfold join. rewrite !into_inorder_contents. destruct (nth_error _ _) as [c|] eqn:N; [|discriminate]. intros J. apply immersion_same in J. subst t'.
          apply nth_error_In in N. assert (Gc' : good c) by (apply Gc; cbn [contents]; apply in_app_iff in N; apply in_app_iff; cbn; tauto).
          destruct Sf as (Sl & _). destruct (Sl c Gc') as (_ & _ & _ & Gh). cbn. auto. }
        destruct l, r; try (injection D as <-; assumption). now apply J.
      - destruct (ltb (lo i) (lo v)).
        + destruct (delete fuel l i) as [l'|]; [|discriminate]. injection D as <-. cbn. auto.
        + destruct (ltb (lo v) (lo i)); [|injection D as <-; cbn; auto].
          destruct (delete fuel r i) as [r'|]; [|discriminate]. injection D as <-. cbn. auto.
    Qed.

    Ltac one := let u := fresh in let X := fresh in intros u X; cbn [fst c_lo c_hi c_lt c_gt c_le c_eq] in X; destruct X as [<-|[]]; tauto.

    Lemma harmless_insert (t : tree) i : good i -> good_tree good goodb t -> harmless bad (fst (c_insert t i)).
    Proof.
      intros Gi. destruct Sf as (Sl & Sc & _). pose proof (Sl i Gi) as (B1 & B2 & G1 & G2).
      induction t as [|l IHl v m r IHr].
      - intros _. cbn. intros u [<-|[]]. exact B2.
      - intros (Gv & Gm & Gl & Gr). pose proof (Sl v Gv) as (B3 & B4 & G3 & G4).
        pose proof (Sc m (hi i) Gm G2) as C1. pose proof (Sc (lo i) (lo v) G1 G3) as C2.
        cbn [c_insert]. repeat (rewrite fst_bind, harmless_app; cbn [fst snd c_lo c_hi c_lt]; split; [first [one|destruct (ltb m (hi i)); [one|intros u []]]|]).
        destruct (ltb (lo i) (lo v)); rewrite fst_bind, harmless_app; (split; [auto|intros u []]).
    Qed.

    Lemma harmless_delete fuel (t : tree) i : good i -> good_tree good goodb t -> harmless bad (fst (c_delete fuel t i)).
    Proof.
      intros Gi. destruct Sf as (Sl & Sc & Se). pose proof (Sl i Gi) as (B1 & B2 & G1 & G2).
      induction t as [|l IHl v m r IHr]; [intros _ u []|].
      intros G. pose proof (good_contents _ _ _ G) as Gc. destruct G as (Gv & Gm & Gl & Gr). pose proof (Sl v Gv) as (B3 & B4 & G3 & G4).
      pose proof (Sc (lo i) (lo v) G1 G3) as C2. pose proof (Se v i Gv Gi) as Q.
      cbn [c_delete]. rewrite fst_bind, harmless_app. cbn [fst snd c_eq]. split; [one|]. destruct (eqv v i).
      - destruct l, r; try (intros u []). unfold c_join. rewrite !into_inorder_contents. destruct (nth_error _ _) as [c|] eqn:N; [|intros u []].
        apply nth_error_In in N. assert (Gc' : good c) by (apply Gc; cbn [contents]; cbn [contents] in N; rewrite in_app_iff in *; cbn; tauto).
        rewrite fst_bind, harmless_app. split; [|intros u []]. cbn. intros u [<-|[]]. now apply Sl.
      - repeat (rewrite fst_bind, harmless_app; cbn [fst snd c_lo c_hi c_lt]; split; [one|]). destruct (ltb (lo i) (lo v)).
        + rewrite fst_bind, harmless_app. split; [auto|intros u []].
        + repeat (rewrite fst_bind, harmless_app; cbn [fst snd c_lo c_hi c_gt]; split; [one|]). destruct (ltb (lo v) (lo i)); [|intros u []].
          rewrite fst_bind, harmless_app. split; [auto|intros u []].
    Qed.

    Lemma good_run fuel cs : (forall i, In (TInsert i) cs -> good i) ->
      forall t t' : tree, good_tree good goodb t -> t_run fuel t cs = Some t' -> good_tree good goodb t'.
    Proof.
      induction cs as [|c cs IH]; intros Gc t t' G R; [now injection R as <-|].
      assert (Gc' : forall i, In (TInsert i) cs -> good i) by (intros i Ii; apply Gc; now right).
      destruct c as [i|i]; cbn [t_run] in R.
      - apply (IH Gc' (insert t i) t'); [|exact R]. apply good_insert; [apply Gc; now left|exact G].
      - destruct (delete fuel t i) as [t1|] eqn:D; [|discriminate]. apply (IH Gc' t1 t'); [|exact R]. now apply (good_delete fuel t i).
    Qed.
  End Sound.
End Facts.
