(** Lemmas about the code of users that the interval search tree runs. *)
From Coq Require Import List Arith Bool Lia Permutation.
From Verif Require Import Ord OrdFacts Interval SpecInterval IntervalFacts TreeCalls SpecTreeCalls.
Import ListNotations.

Section Facts.
  Context {I B : Type} `{HB : OrdT B} `{HI : Interval I B} `{HE : PartialEq I}.
  Notation tree := (tree I B).
  Notation ucall := (ucall I B).
  Notation tree_call := (tree_call I).

  Lemma fst_bind {A C} (x : called A) (f : A -> called C) : fst (bind x f) = fst x ++ fst (f (snd x) : @called I B C).
  Proof. destruct x as [l a]. unfold bind. cbn. destruct (f a). reflexivity. Qed.
  Lemma snd_bind {A C} (x : called A) (f : A -> called C) : snd (bind x f) = snd (f (snd x) : @called I B C).
  Proof. destruct x as [l a]. unfold bind. cbn. destruct (f a). reflexivity. Qed.

  (** ** Results are those of Interval.v *)
  Lemma snd_contains s b : snd (c_contains (B := B) s b) = iv_contains s b.
  Proof. unfold c_contains, c_and, iv_contains. rewrite !snd_bind. cbn. destruct (leb (lo s) b); reflexivity. Qed.

  Lemma snd_iv_intersects s o : snd (c_iv_intersects (B := B) s o) = iv_intersects s o.
  Proof.
    assert (O : forall a b : called bool, snd (c_or a b : @called I B bool) = snd a || snd b).
    { intros a b. unfold c_or. rewrite snd_bind. now destruct (snd a). }
    unfold c_iv_intersects, iv_intersects. rewrite !O, !snd_bind. cbn [snd c_lo c_hi]. now rewrite !snd_contains.
  Qed.

  Lemma snd_insert (t : tree) i : snd (c_insert t i) = insert t i.
  Proof.
    induction t as [|l IHl v m r IHr]; [reflexivity|]. cbn [c_insert insert].
    repeat (rewrite snd_bind; cbn [snd c_lo c_hi c_lt]).
    destruct (ltb m (hi i)), (ltb (lo i) (lo v)); cbn [snd c_hi ret]; rewrite snd_bind; cbn [snd ret]; now rewrite ?IHl, ?IHr.
  Qed.

  Lemma snd_join fuel (l r : tree) : snd (c_join fuel l r) = join fuel l r.
  Proof. unfold c_join, join. destruct (nth_error _ _); [|reflexivity]. rewrite snd_bind. reflexivity. Qed.

  Lemma snd_delete fuel (t : tree) i : snd (c_delete fuel t i) = delete fuel t i.
  Proof.
    induction t as [|l IHl v m r IHr]; [reflexivity|]. cbn [c_delete delete]. rewrite snd_bind. cbn [snd c_eq].
    destruct (eqv v i).
    - destruct l, r; try reflexivity. apply snd_join.
    - repeat (rewrite snd_bind; cbn [snd c_lo c_lt c_gt]). destruct (ltb (lo i) (lo v)).
      + rewrite snd_bind, IHl. destruct (delete fuel l i); reflexivity.
      + repeat (rewrite snd_bind; cbn [snd c_lo c_lt c_gt]). destruct (ltb (lo v) (lo i)); [|reflexivity].
        rewrite snd_bind, IHr. destruct (delete fuel r i); reflexivity.
  Qed.

  Lemma snd_intersects (t : tree) q : snd (c_intersects t q) = t_intersects t q.
  Proof.
    induction t as [|l IHl v m r IHr]; [reflexivity|]. cbn [c_intersects t_intersects]. rewrite snd_bind, snd_iv_intersects.
    destruct (iv_intersects v q); [reflexivity|]. destruct (t_max l); [|exact IHr].
    repeat (rewrite snd_bind; cbn [snd c_lo c_lt]). destruct (ltb _ _); assumption.
  Qed.

  (** ** Calls of the closure *)
  Lemma visited_app (a b : list ucall) : visited (a ++ b) = visited a ++ visited b.
  Proof. apply flat_map_app. Qed.

  Lemma visited_contains s b : visited (fst (c_contains (B := B) s b)) = [].
  Proof. unfold c_contains, c_and. rewrite !fst_bind, snd_bind. cbn. destruct (leb (lo s) b); reflexivity. Qed.

  Lemma visited_iv s o : visited (fst (c_iv_intersects (B := B) s o)) = [].
  Proof.
    unfold c_iv_intersects, c_or. rewrite !fst_bind, !visited_app. cbn [fst snd c_lo c_hi]. rewrite !visited_contains.
    repeat match goal with |- context [if ?b then _ else _] => destruct b end;
      cbn [fst ret visited flat_map app]; rewrite ?fst_bind, ?visited_app; cbn [fst snd c_lo c_hi]; rewrite ?visited_contains; reflexivity.
  Qed.

  Lemma visited_insert (t : tree) i : visited (fst (c_insert t i)) = [].
  Proof.
    induction t as [|l IHl v m r IHr]; [reflexivity|]. cbn [c_insert].
    repeat (rewrite fst_bind, visited_app; cbn [fst snd c_lo c_hi c_lt visited flat_map app]).
    replace (visited (fst (if ltb m (hi i) then c_hi i else ret m : @called I B B))) with (@nil I) by (destruct (ltb m (hi i)); reflexivity).
    cbn [app]. destruct (ltb (lo i) (lo v)); rewrite fst_bind, visited_app; cbn [fst ret]; now rewrite ?IHl, ?IHr.
  Qed.

  Lemma visited_delete fuel (t : tree) i : visited (fst (c_delete fuel t i)) = [].
  Proof.
    induction t as [|l IHl v m r IHr]; [reflexivity|]. cbn [c_delete]. rewrite fst_bind, visited_app. cbn [fst snd c_eq visited flat_map app].
    destruct (eqv v i).
    - destruct l, r; try reflexivity. unfold c_join. destruct (nth_error _ _); [|reflexivity]. rewrite fst_bind. reflexivity.
    - repeat (rewrite fst_bind, visited_app; cbn [fst snd c_lo c_lt c_gt visited flat_map app]). destruct (ltb (lo i) (lo v)).
      + rewrite fst_bind, visited_app, IHl. reflexivity.
      + repeat (rewrite fst_bind, visited_app; cbn [fst snd c_lo c_lt c_gt visited flat_map app]). destruct (ltb (lo v) (lo i)); [|reflexivity].
        rewrite fst_bind, visited_app, IHr. reflexivity.
  Qed.

  Lemma visited_intersects (t : tree) q : visited (fst (c_intersects t q)) = [].
  Proof.
    induction t as [|l IHl v m r IHr]; [reflexivity|]. cbn [c_intersects]. rewrite fst_bind, visited_app, visited_iv, snd_iv_intersects.
    destruct (iv_intersects v q); [reflexivity|]. destruct (t_max l); [|exact IHr].
    repeat (rewrite fst_bind, visited_app; cbn [fst snd c_lo c_lt visited flat_map app]). destruct (ltb _ _); assumption.
  Qed.

  Lemma visited_for_each (t : tree) q : visited (fst (c_for_each t q)) = for_each t q.
  Proof.
    induction t as [|l IHl v m r IHr]; [reflexivity|]. cbn [c_for_each for_each].
    rewrite fst_bind, visited_app, IHr, fst_bind, visited_app, visited_iv, snd_iv_intersects, fst_bind, visited_app. cbn [app].
    f_equal. f_equal; [now destruct (iv_intersects v q)|].
    destruct (t_max l); [|reflexivity].
    repeat (rewrite fst_bind, visited_app; cbn [fst snd c_lo c_lt visited flat_map app]). destruct (ltb _ _); [reflexivity|assumption].
  Qed.

  (** ** Steps *)
  Definition tree_result (fuel : nat) (t : tree) (x : tree_call) : option tree * tree_end :=
    match x with
    | XInsert i => (Some (insert t i), XDone)
    | XDelete i => (delete fuel t i, XDone)
    | XIntersects q => (Some t, XAnswer (t_intersects t q))
    | XForEach q => (Some t, XDone)
    end.

  Lemma snd_tree_calls fuel t x : snd (tree_calls fuel t x) = tree_result fuel t x.
  Proof.
    destruct x; unfold tree_calls, tree_result; rewrite snd_bind; cbn [snd ret]; now rewrite ?snd_insert, ?snd_delete, ?snd_intersects.
  Qed.

  Lemma visited_tree_calls fuel t x : visited (fst (tree_calls fuel t x)) = match x with XForEach q => for_each t q | _ => [] end.
  Proof.
    destruct x; unfold tree_calls; rewrite fst_bind; cbn [fst ret]; rewrite app_nil_r;
      auto using visited_insert, visited_delete, visited_intersects, visited_for_each.
  Qed.

  Lemma tree_step_cases fuel crash t x l o e : tree_step fuel crash t x = (l, o, e) ->
    (l = fst (tree_calls fuel t x) /\ (o, e) = tree_result fuel t x) \/
    (exists k, crash = Some k /\ k < length (fst (tree_calls fuel t x)) /\ l = firstn (S k) (fst (tree_calls fuel t x)) /\
       o = Some (root_meanwhile t x) /\ e = XPanic).
  Proof.
    unfold tree_step. rewrite <- snd_tree_calls. destruct (tree_calls fuel t x) as [l0 [o0 e0]]. cbn [fst snd].
    destruct crash as [k|]; [|intros [= <- <- <-]; auto].
    destruct (k <? length l0) eqn:K; intros [= <- <- <-]; [|auto]. right. exists k. repeat split; auto. now apply Nat.ltb_lt.
  Qed.

  Lemma tree_result_end fuel t x : snd (tree_result fuel t x) <> XPanic.
  Proof. destruct x; discriminate. Qed.

  Lemma t_run_snoc fuel cs c : forall t : tree, t_run fuel t (cs ++ [c]) = match t_run fuel t cs with Some t' => t_run fuel t' [c] | None => None end.
  Proof.
    induction cs as [|d cs IH]; intros t; [reflexivity|]. destruct d as [i|i]; cbn [app t_run]; [apply IH|].
    destruct (delete fuel t i); [apply IH|reflexivity].
  Qed.

  Lemma t_run_fuel fuel fuel' cs : forall t t' : tree, t_run fuel t cs = Some t' -> t_run fuel' t cs = Some t'.
  Proof.
    induction cs as [|d cs IH]; intros t t'; [auto|]. destruct d as [i|i]; cbn [t_run]; [apply IH|].
    destruct (delete fuel t i) as [t1|] eqn:D; [|discriminate]. rewrite (delete_fuel_irrelevant i t fuel t1 D fuel'). apply IH.
  Qed.

  Lemma standing_snoc es v : standing (es ++ [v] : list (event I B)) = changed (standing es) v.
  Proof. unfold standing. now rewrite fold_left_app. Qed.

  Lemma story_run es (t : tree) : story Leaf es t -> t_run 0 Leaf (standing es) = Some t.
  Proof.
    induction 1 as [|es t1 fuel crash x l e t2 S IH T]; [reflexivity|]. rewrite standing_snoc. unfold changed. cbn [ev_call ev_end].
    apply tree_step_cases in T. destruct T as [[-> R]|(k & -> & K & -> & E & ->)].
    - destruct x as [i|i|q|q]; cbn [tree_result] in R; injection R as E1 E2; subst e; try (subst; exact IH).
      + subst t2. rewrite t_run_snoc, IH. reflexivity.
      + rewrite t_run_snoc, IH. cbn [t_run]. symmetry in E1. now rewrite (delete_fuel_irrelevant _ _ _ _ E1 0).
    - injection E as E. destruct x; cbn [root_meanwhile] in E; subst t2; try reflexivity; exact IH.
  Qed.

  Lemma t_run_inserts fuel cs : no_deletions cs -> forall t : tree, t_run fuel t cs = Some (fold_left insert (inserted cs) t).
  Proof.
    induction cs as [|d cs IH]; intros N t; [reflexivity|]. destruct d as [i|i].
    - apply IH. intros j J. apply (N j). now right.
    - destruct (N i). now left.
  Qed.

  (** ** How many calls *)
  Lemma length_contains s b : length (fst (c_contains (B := B) s b)) <= 4.
  Proof. unfold c_contains, c_and. rewrite !fst_bind, snd_bind, app_length. cbn. destruct (leb (lo s) b); cbn; lia. Qed.

  Lemma length_or (a b : called bool) : length (fst (c_or a b : @called I B bool)) <= length (fst a) + length (fst b).
  Proof. unfold c_or. rewrite fst_bind, app_length. destruct (snd a); cbn; lia. Qed.

  Lemma length_iv s o : length (fst (c_iv_intersects (B := B) s o)) <= 20.
  Proof.
    unfold c_iv_intersects.
    assert (X : forall i b, length (fst (bind (c_lo i) (fun _ => c_contains b (lo i)) : @called I B bool)) <= 5 /\
                            length (fst (bind (c_hi i) (fun _ => c_contains b (hi i)) : @called I B bool)) <= 5).
    { intros i b. rewrite !fst_bind, !app_length. cbn [fst c_lo c_hi length]. pose proof (length_contains b (lo i)). pose proof (length_contains b (hi i)). lia. }
    assert (Y : forall i b, fst (bind (c_lo i) (fun x => c_contains b x) : @called I B bool) = fst (bind (c_lo i) (fun _ => c_contains b (lo i)) : @called I B bool) /\
                            fst (bind (c_hi i) (fun x => c_contains b x) : @called I B bool) = fst (bind (c_hi i) (fun _ => c_contains b (hi i)) : @called I B bool)).
    { intros i b. rewrite !fst_bind. auto. }
    etransitivity; [apply length_or|]. etransitivity; [apply Nat.add_le_mono_r, length_or|]. etransitivity; [apply Nat.add_le_mono_r, Nat.add_le_mono_r, length_or|].
    rewrite (proj1 (Y o s)), (proj2 (Y o s)), (proj1 (Y s o)), (proj2 (Y s o)).
    destruct (X o s), (X s o). lia.
  Qed.

  Lemma length_intersects (t : tree) q : length (fst (c_intersects t q)) <= 22 * height t.
  Proof.
    induction t as [|l IHl v m r IHr]; [cbn; lia|]. cbn [c_intersects height]. rewrite fst_bind, app_length. pose proof (length_iv v q) as X.
    destruct (snd _); [cbn; lia|]. destruct (t_max l); [|lia].
    rewrite !fst_bind, !app_length. cbn [fst snd c_lo c_lt length]. destruct (ltb _ _); lia.
  Qed.

  Lemma length_insert (t : tree) i : length (fst (c_insert t i)) <= 6 * height t + 1.
  Proof.
    induction t as [|l IHl v m r IHr]; [cbn; lia|]. cbn [c_insert height]. repeat (rewrite fst_bind, app_length; cbn [fst snd c_lo c_hi c_lt length]).
    destruct (ltb m (hi i)), (ltb (lo i) (lo v)); cbn [fst c_hi ret length]; rewrite fst_bind, app_length; cbn [fst ret length]; lia.
  Qed.

  Lemma length_delete fuel (t : tree) i : length (fst (c_delete fuel t i)) <= 7 * height t + 1.
  Proof.
    induction t as [|l IHl v m r IHr]; [cbn; lia|]. cbn [c_delete height]. rewrite fst_bind, app_length. cbn [fst snd c_eq length].
    destruct (eqv v i).
    - assert (length (fst (c_join fuel l r)) <= 1) by (unfold c_join; destruct (nth_error _ _); cbn; lia).
      destruct l, r; cbn [fst ret length] in *; lia.
    - repeat (rewrite fst_bind, app_length; cbn [fst snd c_lo c_lt c_gt length]). destruct (ltb (lo i) (lo v)).
      + rewrite fst_bind, app_length. cbn [fst ret length]. lia.
      + repeat (rewrite fst_bind, app_length; cbn [fst snd c_lo c_lt c_gt length]). destruct (ltb (lo v) (lo i)); [|cbn; lia].
        rewrite fst_bind, app_length. cbn [fst ret length]. lia.
  Qed.

  Lemma length_for_each (t : tree) q : length (fst (c_for_each t q)) <= 23 * length (contents t).
  Proof.
    induction t as [|l IHl v m r IHr]; [cbn; lia|]. cbn [c_for_each contents]. rewrite app_length. cbn [length].
    rewrite fst_bind, app_length, fst_bind, app_length, fst_bind, app_length. pose proof (length_iv v q).
    destruct (snd (c_iv_intersects v q)), (t_max l); rewrite ?fst_bind, ?app_length; cbn [fst snd c_lo c_lt call ret length];
      try (destruct (ltb _ _); cbn [fst ret length]); lia.
  Qed.

  (** ** Of which intervals *)
  Lemma in_contains s b i : In (ULo i) (fst (c_contains (B := B) s b)) -> i = s.
  Proof.
    unfold c_contains, c_and. rewrite !fst_bind, snd_bind. cbn. destruct (leb (lo s) b); cbn; intuition congruence.
  Qed.

  Lemma in_iv s o i : In (ULo i) (fst (c_iv_intersects (B := B) s o)) -> i = s \/ i = o.
  Proof.
    assert (O : forall a b : called bool, In (ULo i) (fst (c_or a b : @called I B bool)) -> In (ULo i) (fst a) \/ In (ULo i) (fst b)).
    { intros a b. unfold c_or. rewrite fst_bind, in_app_iff. destruct (snd a); cbn; tauto. }
    unfold c_iv_intersects. intros X. repeat (apply O in X; destruct X as [X|X]);
      rewrite fst_bind, in_app_iff in X; destruct X as [X|X]; try (apply in_contains in X; auto); cbn in X; intuition congruence.
  Qed.

  Lemma iv_in s o : In (ULo s) (fst (c_iv_intersects (B := B) s o)).
  Proof.
    unfold c_iv_intersects. assert (O : forall a b : called bool, In (ULo s) (fst a) -> In (ULo s) (fst (c_or a b : @called I B bool))).
    { intros a b X. unfold c_or. rewrite fst_bind, in_app_iff. auto. }
    do 3 apply O. rewrite fst_bind, in_app_iff. right. unfold c_contains, c_and. rewrite !fst_bind, !in_app_iff. left. left. now left.
  Qed.

  Lemma in_for_each (t : tree) q i : i <> q ->
    In (ULo i) (fst (c_for_each t q)) <-> exists l m r, uncut q t (Node l i m r).
  Proof.
    intros Nq. induction t as [|l IHl v m r IHr].
    - split; [intros []|]. intros (l & m & r & U). inversion U.
    - cbn [c_for_each]. rewrite !fst_bind, !in_app_iff, IHr. split.
      + intros [(l' & m' & r' & U)|[X|[X|X]]].
        * exists l', m', r'. now apply uncut_right.
        * apply in_iv in X. destruct X as [->|]; [|contradiction]. exists l, m, r. constructor.
        * destruct (snd _); cbn in X; intuition discriminate.
        * destruct (t_max l) as [lm|] eqn:M; [|destruct X].
          rewrite !fst_bind, !in_app_iff in X. cbn [fst snd c_lo c_lt] in X. destruct X as [X|[X|X]].
          -- cbn in X. destruct X as [[= <-]|[]]. contradiction.
          -- cbn in X. intuition discriminate.
          -- destruct (ltb lm (lo q)) eqn:L; [destruct X|]. apply IHl in X. destruct X as (l' & m' & r' & U). exists l', m', r'.
             eapply uncut_left; [exact M| |exact U]. now apply ltb_false.
      + intros (l' & m' & r' & U). inversion U as [|? ? ? ? ? U'|? ? ? ? lm ? M L U']; subst.
        * right. left. apply iv_in.
        * left. eauto.
        * right. right. right. rewrite M. rewrite !fst_bind, !in_app_iff. right. right. cbn [fst snd c_lo c_lt].
          apply ltb_false in L. rewrite L. apply IHl. eauto.
  Qed.

  Lemma in_intersects (t : tree) q i : all_wf t -> iwf q -> i <> q ->
    In (ULo i) (fst (c_intersects t q)) <-> exists l m r, visits q t (Node l i m r).
  Proof.
    intros W Wq Nq. revert W. induction t as [|l IHl v m r IHr]; intros W.
    - split; [intros []|]. intros (l & m & r & U). inversion U.
    - apply all_wf_node in W. destruct W as (Wv & Wl & Wr). specialize (IHl Wl). specialize (IHr Wr).
      pose proof (iv_intersects_overlap v q Wv Wq) as Ov.
      cbn [c_intersects]. rewrite !fst_bind, !in_app_iff, snd_iv_intersects. split.
      + intros [X|X].
        * apply in_iv in X. destruct X as [->|]; [|contradiction]. exists l, m, r. constructor.
        * destruct (iv_intersects v q) eqn:F; [destruct X|]. assert (No : ~ overlap v q) by (rewrite <- Ov; discriminate).
          destruct (t_max l) as [lm|] eqn:M.
          -- rewrite !fst_bind, !in_app_iff in X. cbn [fst snd c_lo c_lt] in X. destruct X as [X|[X|X]].
             ++ cbn in X. destruct X as [[= <-]|[]]. contradiction.
             ++ cbn in X. intuition discriminate.
             ++ destruct (ltb lm (lo q)) eqn:L.
                ** apply IHr in X. destruct X as (l' & m' & r' & U). exists l', m', r'. apply visits_right; auto.
                   intros lm' E. rewrite M in E. injection E as <-. now apply ltb_lt.
                ** apply IHl in X. destruct X as (l' & m' & r' & U). exists l', m', r'. eapply visits_left; eauto. now apply ltb_false.
          -- apply IHr in X. destruct X as (l' & m' & r' & U). exists l', m', r'. apply visits_right; auto. intros lm' E. congruence.
      + intros (l' & m' & r' & U). inversion U as [|? ? ? ? lm ? No M L U'|? ? ? ? ? No M U']; subst.
        * left. apply iv_in.
        * right. destruct (iv_intersects v q) eqn:F; [destruct No; now apply Ov|]. rewrite M. rewrite !fst_bind, !in_app_iff. right. right.
          cbn [fst snd c_lo c_lt]. apply ltb_false in L. rewrite L. apply IHl. eauto.
        * right. destruct (iv_intersects v q) eqn:F; [destruct No; now apply Ov|]. destruct (t_max l) as [lm|]; [|apply IHr; eauto].
          rewrite !fst_bind, !in_app_iff. right. right. cbn [fst snd c_lo c_lt]. specialize (M lm eq_refl). apply ltb_lt in M. rewrite M. apply IHr. eauto.
  Qed.
End Facts.
