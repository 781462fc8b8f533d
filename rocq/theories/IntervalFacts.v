(** Facts about interval search trees. *)
From Coq Require Import List Arith Bool Sorted Lia Permutation.
From Verif Require Import Ord OrdFacts Interval SpecInterval.
Import ListNotations.

Section Facts.
  Context {I B : Type} `{HB : OrdT B} `{HI : Interval I B} `{HE : PartialEq I}.
  Notation tree := (tree I B).
  Implicit Types (t : tree) (i q v : I) (m : B).

  (** ** Intervals *)

  Lemma iv_intersects_overlap i q : iwf i -> iwf q -> iv_intersects i q = true <-> overlap i q.
  Proof.
    unfold iv_intersects, iv_contains, iwf, overlap, within. intros Wi Wq.
    rewrite !orb_true_iff, !andb_true_iff, !leb_le. split.
    - intros [[[[? ?]|[? ?]]|[? ?]]|[? ?]].
      + exists (lo q). repeat split; auto using le_refl.
      + exists (hi q). repeat split; auto using le_refl.
      + exists (lo i). repeat split; auto using le_refl.
      + exists (hi i). repeat split; auto using le_refl.
    - intros (x & [L1 L2] & [L3 L4]). destruct (le_total (lo i) (lo q)) as [L|L].
      + left; left; left. split; [assumption|order].
      + left; right. split; [assumption|order].
  Qed.

  Lemma overlap_bounds i q : iwf i -> iwf q -> overlap i q <-> le (lo i) (hi q) /\ le (lo q) (hi i).
  Proof.
    unfold iwf, overlap, within. intros Wi Wq. split.
    - intros (x & [L1 L2] & [L3 L4]). split; order.
    - intros [L1 L2]. destruct (le_total (lo i) (lo q)) as [L|L].
      + exists (lo q). repeat split; auto using le_refl.
      + exists (lo i). repeat split; auto using le_refl.
  Qed.

  Lemma overlap_sym i q : overlap i q <-> overlap q i.
  Proof. unfold overlap. split; intros (x & ? & ?); exists x; auto. Qed.

  Lemma iv_intersects_sym i q : iv_intersects i q = iv_intersects q i.
  Proof.
    unfold iv_intersects. rewrite <- !orb_assoc.
    destruct (iv_contains i (lo q)), (iv_contains i (hi q)), (iv_contains q (lo i)), (iv_contains q (hi i)); reflexivity.
  Qed.

  Lemma iv_intersects_refl i : iwf i -> iv_intersects i i = true.
  Proof. intros W. apply iv_intersects_overlap; auto. exists (lo i). repeat split; auto using le_refl. Qed.

  (** ** Contents *)

  Lemma inorder_push_contents t acc : inorder_push t acc = acc ++ contents t.
  Proof.
    revert acc. induction t as [|l IHl v m r IHr]; intros acc; cbn; [now rewrite app_nil_r|].
    rewrite IHr, IHl. now rewrite <- !app_assoc.
  Qed.

  Lemma into_inorder_contents t : into_inorder t = contents t.
  Proof. unfold into_inorder. now rewrite inorder_push_contents. Qed.

  Lemma count_contents t : count t = length (contents t).
  Proof. induction t as [|l IHl v m r IHr]; cbn; [reflexivity|]. rewrite app_length; cbn; lia. Qed.

  Lemma sorted_lo_app (l1 l2 : list I) : sorted_lo (l1 ++ l2) <->
    sorted_lo l1 /\ sorted_lo l2 /\ (forall a b, In a l1 -> In b l2 -> le (lo a) (lo b)).
  Proof.
    unfold sorted_lo. induction l1 as [|x l1 IH]; cbn.
    - split; [|tauto]. intros S. repeat split; [constructor|exact S|intros a b []].
    - split.
      + intros S. inversion S as [|? ? S' F]; subst. apply IH in S' as (S1 & S2 & S3).
        rewrite Forall_app in F. destruct F as [F1 F2]. rewrite Forall_forall in F2. repeat split.
        * now constructor.
        * assumption.
        * intros a b [<-|Ia] Ib; auto.
      + intros (S1 & S2 & S3). inversion S1 as [|? ? S1' F1]; subst. constructor.
        * apply IH. repeat split; auto.
        * apply Forall_app. split; [assumption|]. apply Forall_forall. intros b Ib. apply S3; auto.
  Qed.

  Lemma sorted_lo_filter f (l : list I) : sorted_lo l -> sorted_lo (filter f l).
  Proof.
    unfold sorted_lo. induction 1 as [|x l S IH F]; cbn; [constructor|].
    destruct (f x); [|assumption]. constructor; [assumption|].
    rewrite Forall_forall in *. intros a Ia. apply filter_In in Ia as [Ia _]. auto.
  Qed.

  Lemma filter_rev {A} (f : A -> bool) (l : list A) : filter f (rev l) = rev (filter f l).
  Proof.
    induction l as [|x l IH]; cbn; [reflexivity|]. rewrite filter_app, IH. cbn.
    destruct (f x); cbn; [reflexivity|apply app_nil_r].
  Qed.

  Lemma sorted_lo_node l v m r : sorted_lo (contents (Node l v m r)) <->
    sorted_lo (contents l) /\ sorted_lo (contents r) /\
    (forall a, In a (contents l) -> le (lo a) (lo v)) /\
    (forall a, In a (contents r) -> le (lo v) (lo a)).
  Proof.
    cbn. rewrite sorted_lo_app. split.
    - intros (S1 & S2 & S3). inversion S2 as [|? ? S2' F]; subst. rewrite Forall_forall in F.
      repeat split; auto. intros a Ia. apply S3; [assumption|now left].
    - intros (S1 & S2 & S3 & S4). repeat split; auto.
      + constructor; [assumption|]. now apply Forall_forall.
      + intros a b Ia [<-|Ib]; auto. apply S3 in Ia. apply S4 in Ib. order.
  Qed.

  (** ** Insert *)

  (** The new interval goes after all those with a lower bound not greater than its own. *)
  Lemma insert_contents t i : sorted_lo (contents t) ->
    exists pre post, contents t = pre ++ post /\ contents (insert t i) = pre ++ i :: post /\
      (forall a, In a pre -> le (lo a) (lo i)) /\ (forall a, In a post -> lt (lo i) (lo a)).
  Proof.
    induction t as [|l IHl v m r IHr]; intros S.
    - exists [], []. cbn. repeat split; intros a [].
    - apply sorted_lo_node in S as (Sl & Sr & Bl & Br). cbn.
      destruct (ltb (lo i) (lo v)) eqn:L; ord_norm; cbn.
      + destruct (IHl Sl) as (pre & post & E & E' & P & Q). exists pre, (post ++ v :: contents r).
        rewrite E, E', <- !app_assoc. repeat split; auto.
        intros a Ia. apply in_app_or in Ia as [Ia|[<-|Ia]]; auto. apply Br in Ia. order.
      + destruct (IHr Sr) as (pre & post & E & E' & P & Q). exists (contents l ++ v :: pre), post.
        rewrite E, E', <- !app_assoc. repeat split; auto.
        intros a Ia. apply in_app_or in Ia as [Ia|[<-|Ia]]; auto. apply Bl in Ia. order.
  Qed.

  (** Whatever the shape of the tree, exactly one occurrence is added. *)
  Lemma insert_permutation t i : Permutation (contents (insert t i)) (i :: contents t).
  Proof.
    induction t as [|l IHl v m r IHr]; cbn; [reflexivity|].
    destruct (ltb (lo i) (lo v)); cbn.
    - now rewrite IHl.
    - rewrite IHr. rewrite (perm_swap i v (contents r)). symmetry. apply Permutation_middle.
  Qed.

  Lemma insert_sorted t i : sorted_lo (contents t) -> sorted_lo (contents (insert t i)).
  Proof.
    intros S. destruct (insert_contents t i S) as (pre & post & E & -> & P & Q).
    rewrite E in S. apply sorted_lo_app in S as (S1 & S2 & S3). apply sorted_lo_app.
    repeat split; auto.
    - constructor; [assumption|]. apply Forall_forall. intros a Ia. apply lt_le, Q, Ia.
    - intros a b Ia [<-|Ib]; auto.
  Qed.

  Lemma insert_in t i a : In a (contents (insert t i)) <-> a = i \/ In a (contents t).
  Proof.
    split.
    - intros X. apply (Permutation_in _ (insert_permutation t i)) in X. destruct X; auto.
    - intros X. apply (Permutation_in _ (Permutation_sym (insert_permutation t i))). cbn. destruct X; auto.
  Qed.

  Lemma insert_exact t i : exact_max t -> exact_max (insert t i).
  Proof.
    induction t as [|l IHl v m r IHr].
    - intros _. cbn. repeat split.
      + intros a [<-|[]]. apply le_refl.
      + exists i. split; [now left|reflexivity].
    - cbn [exact_max]. intros ([U (x & Ix & Ex)] & Xl & Xr).
      assert (G : forall c, (forall a, In a c <-> a = i \/ In a (contents (Node l v m r))) ->
        greatest_hi c (if ltb m (hi i) then hi i else m)).
      { intros c Ec. split.
        - intros a Ia. apply Ec in Ia as [->|Ia].
          + destruct (ltb m (hi i)) eqn:L; ord_norm; [apply le_refl|assumption].
          + apply U in Ia. destruct (ltb m (hi i)) eqn:L; ord_norm; order.
        - destruct (ltb m (hi i)) eqn:L.
          + exists i. split; [apply Ec; auto|reflexivity].
          + exists x. split; [apply Ec; auto|assumption]. }
      pose proof (insert_in (Node l v m r) i) as EI. cbn [insert] in EI |- *.
      destruct (ltb (lo i) (lo v)); cbn [exact_max]; repeat split; auto; apply G; exact EI.
  Qed.

  (** ** Upper bounds: [max] may be stale but never too small. *)
  Fixpoint max_bound t : Prop :=
    match t with
    | Leaf => True
    | Node l v m r => (forall a, In a (contents t) -> le (hi a) m) /\ max_bound l /\ max_bound r
    end.

  Lemma exact_bound t : exact_max t -> max_bound t.
  Proof. induction t as [|l IHl v m r IHr]; cbn; [auto|]. intros ([U _] & Xl & Xr). auto. Qed.

  Lemma insert_bound t i : max_bound t -> max_bound (insert t i).
  Proof.
    induction t as [|l IHl v m r IHr].
    - intros _. cbn. repeat split. intros a [<-|[]]. apply le_refl.
    - cbn [max_bound]. intros (U & Xl & Xr).
      assert (G : forall a, a = i \/ In a (contents (Node l v m r)) ->
        le (hi a) (if ltb m (hi i) then hi i else m)).
      { intros a [->|Ia].
        - destruct (ltb m (hi i)) eqn:L; ord_norm; [apply le_refl|assumption].
        - apply U in Ia. destruct (ltb m (hi i)) eqn:L; ord_norm; order. }
      pose proof (insert_in (Node l v m r) i) as EI. cbn [insert] in EI |- *.
      destruct (ltb (lo i) (lo v)); cbn [max_bound]; repeat split; auto; intros a Ia; apply G, EI, Ia.
  Qed.

  (** ** Queries *)

  Lemma max_bound_max t m a : max_bound t -> t_max t = Some m -> In a (contents t) -> le (hi a) m.
  Proof. destruct t as [|l v m' r]; [discriminate|]. intros [U _] [= <-]. apply U. Qed.

  Lemma max_bound_subtree s t : subtree s t -> max_bound t -> max_bound s.
  Proof. induction 1; auto; intros (_ & Xl & Xr); auto. Qed.

  Lemma t_max_none t : t_max t = None -> t = Leaf.
  Proof. destruct t; [reflexivity|discriminate]. Qed.

  Lemma pruned t m q : max_bound t -> all_wf t -> iwf q -> t_max t = Some m -> lt m (lo q) ->
    forall a, In a (contents t) -> iv_intersects a q = false.
  Proof.
    intros X W Wq E L a Ia. destruct (iv_intersects a q) eqn:V; [exfalso|reflexivity].
    apply iv_intersects_overlap in V; auto. apply overlap_bounds in V as [_ V]; auto.
    pose proof (max_bound_max t m a X E Ia). order.
  Qed.

  Lemma filter_none {A} (f : A -> bool) l : (forall a, In a l -> f a = false) -> filter f l = [].
  Proof.
    induction l as [|x l IH]; intros F; cbn; [reflexivity|]. rewrite F by now left. apply IH.
    intros a Ia. apply F. now right.
  Qed.

  Lemma all_wf_node l v m r : all_wf (Node l v m r) <-> iwf v /\ all_wf l /\ all_wf r.
  Proof.
    unfold all_wf; cbn. split.
    - intros W. repeat split; intros; apply W, in_or_app; cbn; auto.
    - intros (Wv & Wl & Wr) a Ia. apply in_app_or in Ia as [Ia|[<-|Ia]]; auto.
  Qed.

  Lemma for_each_filter t q : max_bound t -> all_wf t -> iwf q ->
    for_each t q = filter (fun a => iv_intersects a q) (rev (contents t)).
  Proof.
    induction t as [|l IHl v m r IHr]; intros X W Wq; [reflexivity|].
    pose proof W as W'. apply all_wf_node in W' as (Wv & Wl & Wr). destruct X as (U & Xl & Xr).
    cbn [for_each contents]. rewrite rev_app_distr. cbn [rev]. rewrite !filter_app. cbn [filter].
    rewrite IHr by assumption. rewrite <- app_assoc. f_equal. f_equal.
    destruct (t_max l) as [lm|] eqn:E.
    - destruct (ltb lm (lo q)) eqn:L.
      + symmetry. apply filter_none. intros a Ia. apply in_rev in Ia. ord_norm. exact (pruned l lm q Xl Wl Wq E L a Ia).
      + now apply IHl.
    - rewrite (t_max_none l E). reflexivity.
  Qed.

  Lemma t_intersects_sound t q : t_intersects t q = true ->
    exists a, In a (contents t) /\ iv_intersects a q = true.
  Proof.
    induction t as [|l IHl v m r IHr]; [discriminate|]. cbn.
    destruct (iv_intersects v q) eqn:V.
    - intros _. exists v. split; [apply in_or_app; right; now left|assumption].
    - assert (R : t_intersects r q = true ->
        exists a, In a (contents l ++ v :: contents r) /\ iv_intersects a q = true).
      { intros E. destruct (IHr E) as (a & Ia & Ea). exists a. split; [|assumption]. apply in_or_app; cbn; auto. }
      destruct (t_max l) as [lm|]; [destruct (ltb lm (lo q))|]; auto.
      intros E. destruct (IHl E) as (a & Ia & Ea). exists a. split; [|assumption]. apply in_or_app; auto.
  Qed.

  Lemma t_intersects_complete t q : exact_max t -> sorted_lo (contents t) -> all_wf t -> iwf q ->
    t_intersects t q = false -> forall a, In a (contents t) -> iv_intersects a q = false.
  Proof.
    induction t as [|l IHl v m r IHr]; intros X S W Wq E a Ia; [destruct Ia|].
    pose proof X as (U & Xl & Xr). apply sorted_lo_node in S as (Sl & Sr & Bl & Br).
    apply all_wf_node in W as (Wv & Wl & Wr).
    cbn in E. destruct (iv_intersects v q) eqn:V; [discriminate|].
    cbn in Ia. destruct (t_max l) as [lm|] eqn:El.
    - destruct (ltb lm (lo q)) eqn:L.
      + apply in_app_or in Ia as [Ia|[<-|Ia]]; [|assumption|now apply IHr].
        ord_norm. exact (pruned l lm q (exact_bound l Xl) Wl Wq El L a Ia).
      + apply in_app_or in Ia as [Ia|[<-|Ia]]; [now apply IHl|assumption|].
        destruct (iv_intersects a q) eqn:Va; [exfalso|reflexivity].
        apply iv_intersects_overlap in Va; auto. apply overlap_bounds in Va as [V1 V2]; auto.
        ord_norm.
        assert (exists x, In x (contents l) /\ hi x = lm) as (x & Ix & Ex).
        { destruct l as [|ll lv lm' lr]; [discriminate|]. cbn in El. injection El as ->. apply Xl. }
        assert (Nx : iv_intersects x q = false) by now apply IHl.
        assert (NO : ~ overlap x q).
        { intros O. apply iv_intersects_overlap in O; auto. congruence. }
        apply NO, overlap_bounds; auto. split; [|order].
        apply Bl in Ix. apply Br in Ia. order.
    - rewrite (t_max_none l El) in Ia. cbn in Ia. destruct Ia as [<-|Ia]; [assumption|now apply IHr].
  Qed.

  Lemma t_intersects_exact t q : exact_max t -> sorted_lo (contents t) -> all_wf t -> iwf q ->
    t_intersects t q = true <-> exists a, In a (contents t) /\ overlap a q.
  Proof.
    intros X S W Wq. split.
    - intros E. destruct (t_intersects_sound t q E) as (a & Ia & Ea). exists a. split; [assumption|].
      apply iv_intersects_overlap; auto.
    - intros (a & Ia & Oa). destruct (t_intersects t q) eqn:E; [reflexivity|].
      apply iv_intersects_overlap in Oa; auto.
      rewrite (t_intersects_complete t q X S W Wq E a Ia) in Oa. discriminate.
  Qed.

  Lemma visits_answer t q s : all_wf t -> iwf q -> visits q t s -> t_intersects t q = t_intersects s q /\ (forall i, In i (contents s) -> In i (contents t)).
  Proof.
    intros W Wq Vi. induction Vi as [t|l v m r lm s Nv El Le Vi IH|l v m r s Nv El Vi IH]; [auto| |];
      apply all_wf_node in W as (Wv & Wl & Wr);
      (assert (V : iv_intersects v q = false);
       [destruct (iv_intersects v q) eqn:V; [exfalso; apply Nv; now apply iv_intersects_overlap|reflexivity]|]).
    - destruct (IH Wl) as [E J]. split; [|intros i Ii; cbn; apply in_or_app; left; auto].
      cbn. rewrite V, El, <- E. apply ltb_false in Le. now rewrite Le.
    - destruct (IH Wr) as [E J]. split; [|intros i Ii; cbn; apply in_or_app; right; right; auto].
      cbn. rewrite V, <- E. destruct (t_max l) as [lm|]; [|reflexivity].
      specialize (El lm eq_refl). apply ltb_lt in El. now rewrite El.
  Qed.

  (** A negative answer although there is an overlap: exactly when the search is misled. *)
  Lemma t_intersects_misled t q : max_bound t -> sorted_lo (contents t) -> all_wf t -> iwf q ->
    (t_intersects t q = false /\ (exists i, In i (contents t) /\ overlap i q)) <-> exists s, visits q t s /\ misled q s.
  Proof.
    intros X S W Wq. split.
    - intros [E (i & Ii & Oi)]. revert X S W E i Ii Oi.
      induction t as [|l IHl v m r IHr]; intros X S W E i Ii Oi; [destruct Ii|].
      pose proof S as S'. apply sorted_lo_node in S' as (Sl & Sr & Bl & Br). pose proof W as W'. apply all_wf_node in W' as (Wv & Wl & Wr).
      destruct X as (U & Xl & Xr).
      assert (Nv : ~ overlap v q).
      { intros O. apply iv_intersects_overlap in O; auto. cbn in E. rewrite O in E. discriminate. }
      assert (V : iv_intersects v q = false).
      { destruct (iv_intersects v q) eqn:V; [exfalso; apply Nv; now apply iv_intersects_overlap|reflexivity]. }
      cbn in E, Ii. rewrite V in E. apply in_app_or in Ii as [Il|[->|Ir]]; [|contradiction|].
      + destruct (t_max l) as [lm|] eqn:El; [|rewrite (t_max_none l El) in Il; destruct Il].
        destruct (ltb lm (lo q)) eqn:L; ord_norm.
        * exfalso. pose proof (pruned l lm q Xl Wl Wq El L i Il) as N. apply iv_intersects_overlap in Oi; auto. congruence.
        * destruct (IHl Xl Sl Wl E i Il Oi) as (s & Vi & Ms). exists s. split; [|exact Ms]. eapply visits_left; eauto.
      + destruct (t_max l) as [lm|] eqn:El.
        * destruct (ltb lm (lo q)) eqn:L; ord_norm.
          -- destruct (IHr Xr Sr Wr E i Ir Oi) as (s & Vi & Ms). exists s. split; [|exact Ms]. apply visits_right; auto.
             rewrite El. intros lm' [= <-]. exact L.
          -- destruct (for_each l q) as [|x xs] eqn:F.
             ++ exists (Node l v m r). split; [apply visits_self|]. cbn. split; [exact Nv|]. split; [eauto|]. split; [|eauto].
                intros j Jl. destruct (iv_intersects j q) eqn:Vj.
                { exfalso. rewrite (for_each_filter l q Xl Wl Wq) in F.
                  assert (In j []) as []. rewrite <- F. apply filter_In. split; [now apply -> in_rev|exact Vj]. }
                assert (No : ~ overlap j q) by (intros O; apply iv_intersects_overlap in O; auto; congruence).
                apply lt_not_le. intros Le. apply No, overlap_bounds; auto. split; [|exact Le].
                apply overlap_bounds in Oi as [O1 _]; auto. apply Bl in Jl. apply Br in Ir. order.
             ++ assert (Ix : In x (for_each l q)) by (rewrite F; now left). rewrite (for_each_filter l q Xl Wl Wq) in Ix.
                apply filter_In in Ix as [Ix Vx]. apply in_rev in Ix.
                destruct (IHl Xl Sl Wl E x Ix) as (s & Vi & Ms); [apply iv_intersects_overlap; auto|].
                exists s. split; [|exact Ms]. eapply visits_left; eauto.
        * destruct (IHr Xr Sr Wr E i Ir Oi) as (s & Vi & Ms). exists s. split; [|exact Ms]. apply visits_right; auto.
          rewrite El. discriminate.
    - intros (s & Vi & Ms). destruct (visits_answer t q s W Wq Vi) as [E J]. destruct s as [|l v m r]; [destruct Ms|].
      destruct Ms as (Nv & (lm & El & Le) & Al & i & Ir & Oi). split; [|exists i; split; [apply J; cbn; apply in_or_app; right; now right|exact Oi]].
      rewrite E. cbn.
      assert (Ws : all_wf (Node l v m r)) by (intros a Ia; apply W, J, Ia). apply all_wf_node in Ws as (Wv & Wl & Wr).
      destruct (iv_intersects v q) eqn:V; [exfalso; apply Nv; now apply iv_intersects_overlap|]. rewrite El.
      apply ltb_false in Le. rewrite Le. destruct (t_intersects l q) eqn:T; [exfalso|reflexivity].
      destruct (t_intersects_sound l q T) as (a & Ia & Ea). apply iv_intersects_overlap in Ea; auto.
      apply overlap_bounds in Ea as [_ Ea]; auto. specialize (Al a Ia). order.
  Qed.

  (** ** Rotations *)

  Lemma rotate_right_contents t : contents (rotate_right t) = contents t.
  Proof.
    destruct t as [|[|ll lv lm lr] v m r]; try reflexivity. cbn. now rewrite <- app_assoc.
  Qed.

  Lemma rotate_left_contents t : contents (rotate_left t) = contents t.
  Proof.
    destruct t as [|l v m [|rl rv rm rr]]; try reflexivity. cbn. now rewrite <- app_assoc.
  Qed.

  Lemma exact_max_max t m : exact_max t -> t_max t = Some m -> greatest_hi (contents t) m.
  Proof. destruct t; [discriminate|]. intros [X _] [= <-]. exact X. Qed.

  Lemma greatest_max_opt (l1 : list I) (a : B) t : (forall x, In x l1 -> True) -> greatest_hi l1 a -> exact_max t ->
    greatest_hi (l1 ++ contents t) (max_opt a (t_max t)).
  Proof.
    intros _ [U (x & Ix & Ex)] X. destruct (t_max t) as [m|] eqn:E; cbn.
    - destruct (exact_max_max t m X E) as [Um (y & Iy & Ey)]. split.
      + intros z Iz. apply in_app_or in Iz as [Iz|Iz].
        * apply U in Iz. pose proof (max_l_le a m). order.
        * apply Um in Iz. pose proof (max_r_le a m). order.
      + destruct (max_cases a m) as [Ea|Ea]; rewrite Ea.
        * exists x. split; [apply in_or_app; auto|assumption].
        * exists y. split; [apply in_or_app; auto|assumption].
    - rewrite (t_max_none t E). cbn. rewrite app_nil_r. split; eauto.
  Qed.

  Lemma recompute_exact l v r : exact_max l -> exact_max r ->
    greatest_hi (contents l ++ v :: contents r) (recompute l v r).
  Proof.
    intros Xl Xr. unfold recompute.
    assert (G : greatest_hi [v] (hi v)).
    { split; [intros a [<-|[]]; apply le_refl|exists v; split; [now left|reflexivity]]. }
    pose proof (greatest_max_opt [v] (hi v) l (fun _ _ => Logic.I) G Xl) as G1.
    pose proof (greatest_max_opt _ _ r (fun _ _ => Logic.I) G1 Xr) as [U (x & Ix & Ex)].
    assert (P : forall a, In a (([v] ++ contents l) ++ contents r) <-> In a (contents l ++ v :: contents r)).
    { intros a. rewrite !in_app_iff. cbn. tauto. }
    split.
    - intros a Ia. apply U, P, Ia.
    - exists x. split; [apply P, Ix|assumption].
  Qed.

  Lemma greatest_hi_fun (l : list I) (m1 m2 : B) : greatest_hi l m1 -> greatest_hi l m2 -> m1 = m2.
  Proof.
    intros [U1 (x1 & I1 & E1)] [U2 (x2 & I2 & E2)]. apply le_antisym.
    - rewrite <- E1. now apply U2.
    - rewrite <- E2. now apply U1.
  Qed.

  Lemma rotate_right_exact t : exact_max t -> exact_max (rotate_right t).
  Proof.
    destruct t as [|[|ll lv lm lr] v m r]; auto. cbn [rotate_right exact_max].
    intros (G & (Gl & Xll & Xlr) & Xr).
    assert (X : exact_max (Node lr v (recompute lr v r) r)).
    { cbn [exact_max contents]. repeat split; auto; now apply recompute_exact. }
    split; [|split; auto]. cbn [contents]. apply (recompute_exact ll lv _ Xll X).
  Qed.

  Lemma rotate_left_exact t : exact_max t -> exact_max (rotate_left t).
  Proof.
    destruct t as [|l v m [|rl rv rm rr]]; auto. cbn [rotate_left exact_max].
    intros (G & Xl & (Gr & Xrl & Xrr)).
    assert (X : exact_max (Node l v (recompute l v rl) rl)).
    { cbn [exact_max contents]. repeat split; auto; now apply recompute_exact. }
    split; [|split; auto]. cbn [contents]. apply (recompute_exact _ rv rr X Xrr).
  Qed.

  Lemma exact_max_recompute l v m r : exact_max (Node l v m r) -> recompute l v r = m.
  Proof.
    intros (G & Xl & Xr). eapply greatest_hi_fun; [|exact G]. now apply recompute_exact.
  Qed.

  Lemma rotate_left_right l v m r : l <> Leaf -> exact_max (Node l v m r) ->
    rotate_left (rotate_right (Node l v m r)) = Node l v m r.
  Proof.
    intros N X. destruct l as [|ll lv lm lr]; [congruence|]. cbn.
    pose proof X as (_ & Xl & Xr).
    rewrite (exact_max_recompute ll lv lm lr Xl). f_equal.
    exact (exact_max_recompute (Node ll lv lm lr) v m r X).
  Qed.

  Lemma rotate_right_left l v m r : r <> Leaf -> exact_max (Node l v m r) ->
    rotate_right (rotate_left (Node l v m r)) = Node l v m r.
  Proof.
    intros N X. destruct r as [|rl rv rm rr]; [congruence|]. cbn.
    pose proof X as (_ & Xl & Xr).
    rewrite (exact_max_recompute rl rv rm rr Xr). f_equal.
    exact (exact_max_recompute l v m (Node rl rv rm rr) X).
  Qed.

  (** ** Delete *)

  Lemma join_immersion_diverges fuel : forall (root : tree) (l : list I), l <> [] -> join_immersion fuel root l = None.
  Proof.
    induction fuel as [|fuel IH]; intros root l N; [reflexivity|].
    cbn [join_immersion]. destruct l as [|x l]; [congruence|].
    destruct (join_immersion fuel root _) as [root'|]; [|reflexivity].
    apply IH. intros E.
    assert (L : length (skipn (length (x :: l) / 2) (x :: l)) = 0) by now rewrite E.
    rewrite skipn_length in L.
    assert (length (x :: l) / 2 < length (x :: l)) by (apply Nat.div_lt; cbn; lia). lia.
  Qed.

  Lemma join_diverges fuel (l r : tree) : l <> Leaf -> r <> Leaf -> join fuel l r = None.
  Proof.
    intros Nl Nr. unfold join. rewrite !into_inorder_contents.
    destruct (nth_error _ _) as [c|] eqn:E; [|reflexivity].
    apply join_immersion_diverges. intros F. apply app_eq_nil in F as [F1 F2].
    set (xs := contents l ++ contents r) in *.
    assert (L : 2 <= length xs).
    { unfold xs. rewrite app_length. destruct l as [|? ? ? ?]; [congruence|]. destruct r as [|? ? ? ?]; [congruence|].
      cbn. rewrite !app_length. cbn. lia. }
    apply (f_equal (@length I)) in F1. rewrite firstn_length in F1. cbn [length] in F1.
    assert (length xs / 2 < length xs) by (apply Nat.div_lt; lia).
    assert (1 <= length xs / 2) by (apply Nat.div_le_lower_bound; lia). lia.
  Qed.

  (** When the node is equal to the interval. *)
  Lemma eqv_refl i : eqv i i = true.
  Proof. now apply eqv_eq. Qed.

  Lemma found_fun i t s1 s2 : found_at i t s1 -> found_at i t s2 -> s1 = s2.
  Proof.
    intros F1. revert s2. induction F1 as [|l v m r E|l v m r s L F IH|l v m r s L F IH]; intros s2 F2;
      inversion F2; subst; auto; exfalso;
      repeat match goal with
      | E : lo _ = lo _ |- _ => first [rewrite E in * | rewrite <- E in *]; clear E
      end; order.
  Qed.

  Lemma found_total i t : exists s, found_at i t s.
  Proof.
    induction t as [|l [sl Fl] v m r [sr Fr]]; [exists Leaf; constructor|].
    destruct (lt_trichotomy (lo i) (lo v)) as [L|[E|L]].
    - exists sl. now apply found_left.
    - eexists. now apply found_here.
    - exists sr. now apply found_right.
  Qed.

  (** The found node blocks the deletion: it holds the interval and has two children. *)
  Definition stuck i (s : tree) : Prop :=
    match s with Node l v _ r => v = i /\ l <> Leaf /\ r <> Leaf | Leaf => False end.

  Lemma delete_stuck i t s : found_at i t s -> stuck i s -> forall fuel, delete fuel t i = None.
  Proof.
    intros F St fuel. induction F as [|l v m r E|l v m r s L F IH|l v m r s L F IH]; cbn.
    - destruct St.
    - destruct St as (-> & Nl & Nr). rewrite eqv_refl.
      destruct l; [congruence|]. destruct r; [congruence|]. now apply join_diverges.
    - destruct (eqv v i) eqn:Q; [apply eqv_eq in Q; subst; exfalso; order|].
      apply ltb_lt in L. rewrite L, (IH St). reflexivity.
    - destruct (eqv v i) eqn:Q; [apply eqv_eq in Q; subst; exfalso; order|].
      assert (ltb (lo i) (lo v) = false) as -> by (ord_norm; now apply lt_le).
      apply ltb_lt in L. rewrite L, (IH St). reflexivity.
  Qed.

  (** Effect of a deletion that returns. *)
  Lemma delete_returns i t s : found_at i t s -> ~ stuck i s -> forall fuel,
    exists t', delete fuel t i = Some t' /\
      match s with
      | Node _ v _ _ =>
          (v = i -> exists pre post, contents t = pre ++ i :: post /\ contents t' = pre ++ post) /\
          (v <> i -> t' = t)
      | Leaf => t' = t
      end.
  Proof.
    intros F St fuel. induction F as [|l v m r E|l v m r s L F IH|l v m r s L F IH]; cbn [delete].
    - exists Leaf. split; reflexivity.
    - destruct (eqv v i) eqn:Q.
      + apply eqv_eq in Q. subst v. destruct l as [|ll lv lm lr].
        * exists r. split; [destruct r; reflexivity|]. split; [|congruence].
          intros _. exists [], (contents r). auto.
        * destruct r as [|rl rv rm rr]; [|exfalso; apply St; cbn; repeat split; discriminate].
          eexists. split; [reflexivity|]. split; [|congruence].
          intros _. exists (contents (Node ll lv lm lr)), []. rewrite app_nil_r. auto.
      + exists (Node l v m r). assert (N : v <> i) by (intros ->; rewrite eqv_refl in Q; discriminate).
        assert (ltb (lo i) (lo v) = false) as -> by (rewrite E; ord_norm; apply le_refl).
        assert (ltb (lo v) (lo i) = false) as -> by (rewrite E; ord_norm; apply le_refl).
        split; [reflexivity|]. split; [congruence|reflexivity].
    - destruct (eqv v i) eqn:Q; [apply eqv_eq in Q; subst; exfalso; order|].
      apply ltb_lt in L. rewrite L. destruct (IH St) as (t' & -> & P).
      eexists. split; [reflexivity|]. destruct s as [|sl sv sm sr]; [now subst|].
      destruct P as [P1 P2]. split.
      + intros E. destruct (P1 E) as (pre & post & E1 & E2).
        exists pre, (post ++ v :: contents r). cbn. rewrite E1, E2, <- !app_assoc. auto.
      + intros E. now rewrite (P2 E).
    - destruct (eqv v i) eqn:Q; [apply eqv_eq in Q; subst; exfalso; order|].
      assert (ltb (lo i) (lo v) = false) as -> by (ord_norm; now apply lt_le).
      apply ltb_lt in L. rewrite L. destruct (IH St) as (t' & -> & P).
      eexists. split; [reflexivity|]. destruct s as [|sl sv sm sr]; [now subst|].
      destruct P as [P1 P2]. split.
      + intros E. destruct (P1 E) as (pre & post & E1 & E2).
        exists (contents l ++ v :: pre), post. cbn. rewrite E1, E2, <- !app_assoc. auto.
      + intros E. now rewrite (P2 E).
  Qed.

  Lemma stuck_dec i s : stuck i s \/ ~ stuck i s.
  Proof.
    destruct s as [|l v m r]; cbn; [tauto|]. destruct (eqv v i) eqn:Q.
    - apply eqv_eq in Q. destruct l; [right; intros (_ & N & _); congruence|].
      destruct r; [right; intros (_ & _ & N); congruence|]. left. repeat split; auto; discriminate.
    - right. intros [-> _]. rewrite eqv_refl in Q. discriminate.
  Qed.

  Lemma delete_fuel_irrelevant i t fuel t' : delete fuel t i = Some t' -> forall fuel', delete fuel' t i = Some t'.
  Proof.
    intros D fuel'. destruct (found_total i t) as [s F]. destruct (stuck_dec i s) as [St|St].
    - rewrite (delete_stuck i t s F St) in D. discriminate.
    - clear F St s. revert t' D. induction t as [|l IHl v m r IHr]; intros t' D; [exact D|].
      cbn in *. destruct (eqv v i).
      + destruct l, r; auto. rewrite join_diverges in D by discriminate. discriminate.
      + destruct (ltb (lo i) (lo v)).
        * destruct (delete fuel l i) as [l'|]; [|discriminate]. now rewrite (IHl l' eq_refl).
        * destruct (ltb (lo v) (lo i)); [|exact D].
          destruct (delete fuel r i) as [r'|]; [|discriminate]. now rewrite (IHr r' eq_refl).
  Qed.

  Lemma delete_cases i t fuel t' : delete fuel t i = Some t' ->
    t' = t \/ exists pre post, contents t = pre ++ i :: post /\ contents t' = pre ++ post.
  Proof.
    intros D. destruct (found_total i t) as [s F]. destruct (stuck_dec i s) as [St|St].
    - rewrite (delete_stuck i t s F St) in D. discriminate.
    - destruct (delete_returns i t s F St fuel) as (t2 & D2 & P). rewrite D in D2. injection D2 as <-.
      destruct s as [|sl sv sm sr]; [now left|]. destruct P as [P1 P2].
      destruct (eqv sv i) eqn:Q; [apply eqv_eq in Q; auto|].
      left. apply P2. intros ->. rewrite eqv_refl in Q. discriminate.
  Qed.

  Lemma delete_in i t fuel t' a : delete fuel t i = Some t' -> In a (contents t') -> In a (contents t).
  Proof.
    intros D Ia. destruct (delete_cases i t fuel t' D) as [->|(pre & post & E1 & E2)]; [assumption|].
    rewrite E1. rewrite E2 in Ia. apply in_app_or in Ia as [Ia|Ia]; apply in_or_app; cbn; auto.
  Qed.

  Lemma delete_sorted i t fuel t' : delete fuel t i = Some t' -> sorted_lo (contents t) -> sorted_lo (contents t').
  Proof.
    intros D S. destruct (delete_cases i t fuel t' D) as [->|(pre & post & E1 & ->)]; [assumption|].
    rewrite E1 in S. apply sorted_lo_app in S as (S1 & S2 & S3). inversion S2; subst.
    apply sorted_lo_app. repeat split; auto. intros a b Ia Ib. apply S3; cbn; auto.
  Qed.

  Lemma delete_bound i t fuel t' : delete fuel t i = Some t' -> max_bound t -> max_bound t'.
  Proof.
    revert t'. induction t as [|l IHl v m r IHr]; intros t' D X; [cbn in D; injection D as <-; exact X|].
    pose proof (delete_in i (Node l v m r) fuel t' ) as DI. pose proof D as D0.
    pose proof X as (U & Xl & Xr). cbn in D. destruct (eqv v i).
    - destruct l, r; try (injection D as <-; assumption).
      rewrite join_diverges in D by discriminate. discriminate.
    - destruct (ltb (lo i) (lo v)).
      + destruct (delete fuel l i) as [l'|]; [|discriminate]. injection D as <-.
        split; [|split; auto]. intros a Ia. apply U. eapply DI; eassumption.
      + destruct (ltb (lo v) (lo i)); [|injection D as <-; exact X].
        destruct (delete fuel r i) as [r'|]; [|discriminate]. injection D as <-.
        split; [|split; auto]. intros a Ia. apply U. eapply DI; eassumption.
  Qed.

  Lemma between_stuck i t : between_children i t <-> exists s, found_at i t s /\ stuck i s.
  Proof.
    split.
    - intros (l & m & r & F & Nl & Nr). exists (Node l i m r). cbn. auto.
    - intros ([|l v m r] & F & St); [destruct St|]. destruct St as (-> & Nl & Nr). exists l, m, r. auto.
  Qed.

  Lemma delete_terminates_iff t i : delete_terminates t i <-> ~ between_children i t.
  Proof.
    rewrite between_stuck. split.
    - intros (fuel & t' & D) (s & F & St). rewrite (delete_stuck i t s F St) in D. discriminate.
    - intros N. destruct (found_total i t) as [s F].
      destruct (delete_returns i t s F) with (fuel := 0) as (t' & D & _); [intros St; eauto|].
      exists 0, t'. exact D.
  Qed.

  Lemma delete_effect t i fuel t' : delete fuel t i = Some t' ->
    ((exists l m r, found_at i t (Node l i m r)) -> without_one i (contents t) (contents t')) /\
    (~ (exists l m r, found_at i t (Node l i m r)) -> t' = t).
  Proof.
    intros D. destruct (found_total i t) as [s F]. destruct (stuck_dec i s) as [St|St].
    - rewrite (delete_stuck i t s F St) in D. discriminate.
    - destruct (delete_returns i t s F St fuel) as (t2 & D2 & P). rewrite D in D2. injection D2 as <-.
      split.
      + intros (l & m & r & F2). rewrite (found_fun i t s _ F F2) in P. destruct P as [P _]. now apply P.
      + intros N. destruct s as [|sl sv sm sr]; [assumption|]. apply P. intros ->. eauto.
  Qed.

  (** In a sorted tree, the search finds the topmost node with that lower bound. *)
  Lemma found_sorted i t s : sorted_lo (contents t) -> found_at i t s ->
    match s with
    | Leaf => forall a, In a (contents t) -> lo a <> lo i
    | Node _ v _ _ => lo v = lo i /\ In v (contents t)
    end.
  Proof.
    intros S F. induction F as [|l v m r E|l v m r s L F IH|l v m r s L F IH].
    - intros a [].
    - split; [assumption|]. cbn. apply in_or_app; cbn; auto.
    - apply sorted_lo_node in S as (Sl & Sr & Bl & Br). specialize (IH Sl).
      destruct s as [|sl sv sm sr].
      + intros a Ia Ea. cbn in Ia. apply in_app_or in Ia as [Ia|[<-|Ia]].
        * exact (IH a Ia Ea).
        * rewrite Ea in L. order.
        * apply Br in Ia. rewrite Ea in Ia. order.
      + destruct IH. split; [assumption|]. cbn. apply in_or_app; auto.
    - apply sorted_lo_node in S as (Sl & Sr & Bl & Br). specialize (IH Sr).
      destruct s as [|sl sv sm sr].
      + intros a Ia Ea. cbn in Ia. apply in_app_or in Ia as [Ia|[<-|Ia]].
        * apply Bl in Ia. rewrite Ea in Ia. order.
        * rewrite Ea in L. order.
        * exact (IH a Ia Ea).
      + destruct IH. split; [assumption|]. cbn. apply in_or_app; cbn; auto.
  Qed.

  Lemma delete_effect_distinct t i fuel t' : sorted_lo (contents t) ->
    (forall a, In a (contents t) -> lo a = lo i -> a = i) -> delete fuel t i = Some t' ->
    (In i (contents t) -> without_one i (contents t) (contents t')) /\
    (~ In i (contents t) -> t' = t).
  Proof.
    intros S U D. destruct (delete_effect t i fuel t' D) as [P Q]. destruct (found_total i t) as [s F].
    pose proof (found_sorted i t s S F) as FS. split.
    - intros Ii. apply P. destruct s as [|l v m r]; [exfalso; now apply (FS i Ii)|].
      destruct FS as [E Iv]. rewrite (U v Iv E) in F. eauto.
    - intros N. apply Q. intros (l & m & r & F2). apply N.
      pose proof (found_sorted i t _ S F2) as [_ X]. exact X.
  Qed.

  (** ** Reachable trees *)

  Lemma reachable_sorted t : t_reachable t -> sorted_lo (contents t).
  Proof.
    induction 1 as [|t i R IH|t i fuel t' R IH D].
    - constructor.
    - now apply insert_sorted.
    - eapply delete_sorted; eassumption.
  Qed.

  Lemma reachable_bound t : t_reachable t -> max_bound t.
  Proof.
    induction 1 as [|t i R IH|t i fuel t' R IH D].
    - exact Logic.I.
    - now apply insert_bound.
    - eapply delete_bound; eassumption.
  Qed.

  Lemma inserts_exact (l : list I) : exact_max (fold_left insert l t_default) /\
    sorted_lo (contents (fold_left insert l t_default)) /\
    (forall a, In a (contents (fold_left insert l t_default)) <-> In a l).
  Proof.
    assert (G : forall l t, exact_max t -> sorted_lo (contents t) ->
      exact_max (fold_left insert l t) /\ sorted_lo (contents (fold_left insert l t)) /\
      (forall a, In a (contents (fold_left insert l t)) <-> In a l \/ In a (contents t))).
    { clear l. intros l. induction l as [|x l IH]; intros t X S; cbn [fold_left].
      - repeat split; auto. intros [[]|]; assumption.
      - destruct (IH (insert t x) (insert_exact t x X) (insert_sorted t x S)) as (X' & S' & E').
        split; [assumption|]. split; [assumption|]. intros a. rewrite E', insert_in. cbn. intuition congruence. }
    destruct (G l t_default Logic.I) as (X & S & E); [constructor|]. split; [assumption|]. split; [assumption|].
    intros a. rewrite E. cbn. tauto.
  Qed.
  (** ** Order of equal lower bounds *)
  Lemma insert_same_lo t i b : sorted_lo (contents t) ->
    filter (fun a => eqb (lo a) b) (contents (insert t i)) =
    filter (fun a => eqb (lo a) b) (contents t) ++ (if eqb (lo i) b then [i] else []).
  Proof.
    intros S. destruct (insert_contents t i S) as (pre & post & E1 & E2 & P & Q).
    rewrite E1, E2, !filter_app. cbn [filter]. destruct (eqb (lo i) b) eqn:E.
    - apply eqb_eq in E. rewrite (filter_none _ post), !app_nil_r; [reflexivity|].
      intros a Ia. apply eqb_neq. intros F. specialize (Q a Ia). rewrite E, F in Q. exact (lt_irrefl _ Q).
    - now rewrite app_nil_r.
  Qed.

  Lemma inserts_same_lo (l : list I) b : forall t, sorted_lo (contents t) ->
    filter (fun a => eqb (lo a) b) (contents (fold_left insert l t)) =
    filter (fun a => eqb (lo a) b) (contents t) ++ filter (fun a => eqb (lo a) b) l.
  Proof.
    induction l as [|i l IH]; intros t S; cbn [fold_left filter].
    - now rewrite app_nil_r.
    - rewrite IH by now apply insert_sorted. rewrite insert_same_lo by assumption.
      rewrite <- app_assoc. now destruct (eqb (lo i) b).
  Qed.

  Lemma filter_filter {A} (f g : A -> bool) l : filter f (filter g l) = filter (fun a => f a && g a) l.
  Proof.
    induction l as [|a l IH]; cbn; [reflexivity|]. destruct (g a) eqn:G; cbn; destruct (f a); cbn; now rewrite IH.
  Qed.

  Lemma filter_ext_in' {A} (f g : A -> bool) l : (forall a, In a l -> f a = g a) -> filter f l = filter g l.
  Proof.
    induction l as [|a l IH]; intros E; cbn; [reflexivity|]. rewrite (E a) by now left.
    rewrite IH; [reflexivity|]. intros c Ic. apply E. now right.
  Qed.

  (** ** Intervals with any bounds *)
  Lemma iv_contains_iff i (x : B) : iv_contains i x = true <-> within i x.
  Proof. unfold iv_contains, within. now rewrite andb_true_iff, !leb_le. Qed.

  Lemma for_each_sound t q a : In a (for_each t q) -> In a (contents t) /\ iv_intersects a q = true.
  Proof.
    induction t as [|l IHl v m r IHr]; cbn [for_each contents]; [intros []|].
    rewrite !in_app_iff. cbn [In]. intros [Ir|[Iv|Il]].
    - destruct (IHr Ir). auto.
    - destruct (iv_intersects v q) eqn:E; [|destruct Iv]. destruct Iv as [<-|[]]. auto.
    - destruct (t_max l); [|destruct Il]. destruct (ltb b (lo q)); [destruct Il|]. destruct (IHl Il). auto.
  Qed.

  Lemma for_each_complete t q a : max_bound t -> In a (contents t) -> iv_intersects a q = true ->
    le (lo q) (hi a) -> In a (for_each t q).
  Proof.
    intros X Ia E L. induction t as [|l IHl v m r IHr]; cbn [for_each contents] in *; [destruct Ia|].
    destruct X as (Xm & Xl & Xr). rewrite !in_app_iff. rewrite in_app_iff in Ia. cbn [In] in Ia.
    destruct Ia as [Il|[->|Ir]].
    - right; right. destruct (t_max l) as [lm|] eqn:M; [|apply t_max_none in M; subst; destruct Il].
      pose proof (max_bound_max l lm a Xl M Il) as G.
      destruct (ltb lm (lo q)) eqn:T; [|now apply IHl]. apply ltb_lt in T. order.
    - right; left. rewrite E. now left.
    - left. now apply IHr.
  Qed.

  (** ** Height *)
  Lemma insert_height t i : height t <= height (insert t i) <= S (height t).
  Proof.
    induction t as [|l IHl v m r IHr]; cbn [insert height node_new]; [split; auto with arith|].
    destruct (ltb (lo i) (lo v)); cbn [height]; Lia.lia.
  Qed.

  (** Rightmost path. *)
  Fixpoint right_spine (t : tree) : Prop :=
    match t with Leaf => True | Node l _ _ r => l = Leaf /\ right_spine r end.
  Fixpoint left_spine (t : tree) : Prop :=
    match t with Leaf => True | Node l _ _ r => r = Leaf /\ left_spine l end.

  Lemma right_spine_insert t i : right_spine t -> (forall a, In a (contents t) -> le (lo a) (lo i)) ->
    right_spine (insert t i) /\ height (insert t i) = S (height t).
  Proof.
    induction t as [|l IHl v m r IHr]; intros R L; cbn [insert height node_new right_spine contents] in *; [auto|].
    destruct R as [-> R]. destruct (ltb (lo i) (lo v)) eqn:T.
    - apply ltb_lt in T. specialize (L v (in_eq _ _)). order.
    - destruct IHr as [R' E]; [assumption|intros a Ia; apply L; now right|]. cbn [right_spine height]. rewrite E. cbn. auto.
  Qed.

  Lemma left_spine_insert t i : left_spine t -> (forall a, In a (contents t) -> lt (lo i) (lo a)) ->
    left_spine (insert t i) /\ height (insert t i) = S (height t).
  Proof.
    induction t as [|l IHl v m r IHr]; intros R L; cbn [insert height node_new left_spine contents] in *; [auto|].
    destruct R as [-> R]. destruct (ltb (lo i) (lo v)) eqn:T.
    - destruct IHl as [R' E]; [assumption|intros a Ia; apply L, in_app_iff; now left|].
      cbn [left_spine height]. rewrite E, !Nat.max_0_r. auto.
    - apply ltb_false in T. assert (In v (contents l ++ [v])) as Iv by (apply in_app_iff; right; now left).
      specialize (L v Iv). order.
  Qed.

  Lemma ascending_height (l : list I) : forall t, right_spine t -> sorted_lo (contents t ++ l) ->
    height (fold_left insert l t) = height t + length l.
  Proof.
    induction l as [|i l IH]; intros t R S; cbn [fold_left length]; [auto|].
    apply sorted_lo_app in S as (S1 & S2 & S3). inversion S2 as [|? ? S4 S5]; subst.
    destruct (right_spine_insert t i R) as [R' E]; [intros a Ia; apply S3; [assumption|now left]|].
    rewrite IH; [rewrite E; Lia.lia|assumption|]. apply sorted_lo_app. split; [now apply insert_sorted|].
    split; [assumption|]. intros a c Ia Ic. apply insert_in in Ia as [->|Ia].
    - rewrite Forall_forall in S5. now apply S5.
    - apply S3; [assumption|now right].
  Qed.

  Lemma descending_height (l : list I) : forall t, left_spine t ->
    (forall a c, In a (contents t) -> In c l -> lt (lo c) (lo a)) ->
    StronglySorted (fun a b => lt (lo b) (lo a)) l ->
    height (fold_left insert l t) = height t + length l.
  Proof.
    induction l as [|i l IH]; intros t R L S; cbn [fold_left length]; [auto|].
    inversion S as [|? ? S1 S2]; subst. rewrite Forall_forall in S2.
    destruct (left_spine_insert t i R) as [R' E]; [intros a Ia; apply L; [assumption|now left]|].
    rewrite IH; [rewrite E; Lia.lia|assumption| |assumption].
    intros a c Ia Ic. apply insert_in in Ia as [->|Ia]; [now apply S2|]. apply L; [assumption|now right].
  Qed.
End Facts.
