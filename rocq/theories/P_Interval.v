(** Properties C48-C55, C61-C63, C80, C89-C91: intervals and interval search trees. *)
From Coq Require Import List Sorted Permutation Arith Bool.
From Verif Require Import Ord OrdFacts Interval SpecInterval IntervalFacts DemoInterval.
Import ListNotations.

Section Properties.
  Context {I B : Type} `{HB : OrdT B} `{HI : Interval I B} `{HE : PartialEq I}.
  Notation tree := (tree I B).

  (** C48. *)
  Theorem C48_intersects_is_overlap :
    (forall a b : I, iwf a -> iwf b ->
      (iv_intersects a b = true <-> overlap a b) /\
      (iv_intersects a b = true <-> le (lo a) (hi b) /\ le (lo b) (hi a))) /\
    (forall a b : I, iv_intersects a b = iv_intersects b a) /\
    (forall a : I, iwf a -> iv_intersects a a = true).
  Proof.
    split; [|split; [exact iv_intersects_sym|exact iv_intersects_refl]].
    intros a b Wa Wb. split; [now apply iv_intersects_overlap|].
    rewrite <- overlap_bounds by assumption. now apply iv_intersects_overlap.
  Qed.

  (** C49. *)
  Theorem C49_insert_only_intersects_exact :
    forall (l : list I) (q : I), (forall i, In i l -> iwf i) -> iwf q ->
      t_intersects (fold_left insert l t_default) q = true <-> exists i, In i l /\ overlap i q.
  Proof.
    intros l q W Wq. destruct (inserts_exact l) as (X & S & E).
    rewrite t_intersects_exact; auto.
    - split; intros (a & Ia & Oa); exists a; (split; [now apply E|assumption]).
    - intros a Ia. now apply W, E.
  Qed.

  (** C50. *)
  Theorem C50_for_each_visits_exactly_overlaps :
    forall (t : tree) (q : I), t_reachable t -> all_wf t -> iwf q ->
      for_each t q = filter (fun i => iv_intersects i q) (rev (contents t)) /\
      (forall i, In i (for_each t q) <-> In i (contents t) /\ overlap i q) /\
      sorted_lo (rev (for_each t q)).
  Proof.
    intros t q R W Wq. pose proof (for_each_filter t q (reachable_bound t R) W Wq) as E.
    split; [exact E|]. split.
    - intros i. rewrite E, filter_In, <- in_rev. split; intros [Ii Oi]; (split; [assumption|]);
        apply iv_intersects_overlap in Oi; auto.
    - rewrite E, <- filter_rev, rev_involutive. apply sorted_lo_filter. now apply reachable_sorted.
  Qed.

  (** C51. *)
  Theorem C51_insert_adds_one :
    (forall (t : tree) (i : I), sorted_lo (contents t) ->
      exists pre post, contents t = pre ++ post /\ contents (insert t i) = pre ++ i :: post /\
        (forall a, In a pre -> le (lo a) (lo i)) /\ (forall a, In a post -> lt (lo i) (lo a)) /\
        sorted_lo (contents (insert t i))) /\
    (forall t : tree, t_reachable t -> sorted_lo (contents t)) /\
    (forall (t : tree) (i : I), count (insert t i) = S (count t)) /\
    (forall t : tree, count t = length (contents t)) /\
    (forall t : tree, into_inorder t = contents t) /\
    (forall (t : tree) (i : I), exact_max t -> exact_max (insert t i)).
  Proof.
    split; [|split; [exact reachable_sorted|split; [|split; [exact count_contents|split;
      [exact into_inorder_contents|exact insert_exact]]]]].
    - intros t i S. destruct (insert_contents t i S) as (pre & post & E1 & E2 & P & Q).
      exists pre, post. repeat split; auto. now apply insert_sorted.
    - intros t i. rewrite !count_contents. now rewrite (Permutation_length (insert_permutation t i)).
  Qed.

  (** C52 is false, see [C52_delete_terminates_refuted] below: [delete] does not return when the
      interval sits in a node with two children. Missing from the full statement: those trees. *)
  Theorem C52_delete_terminates_partial :
    forall (t : tree) (i : I), ~ between_children i t -> delete_terminates t i.
  Proof. intros t i. apply delete_terminates_iff. Qed.

  (** C61. *)
  Theorem C61_delete_terminates_iff :
    forall (t : tree) (i : I), delete_terminates t i <-> ~ between_children i t.
  Proof. exact delete_terminates_iff. Qed.

  (** C53 is false, see [C53_delete_removes_refuted] below. Missing from the full statement:
      trees with another interval of the same lower bound. *)
  Theorem C53_delete_removes_partial :
    forall (t : tree) (i : I) fuel (t' : tree), t_reachable t ->
      (forall a, In a (contents t) -> lo a = lo i -> a = i) ->
      delete fuel t i = Some t' ->
      (In i (contents t) -> without_one i (contents t) (contents t')) /\
      (~ In i (contents t) -> t' = t).
  Proof. intros t i fuel t' R. apply delete_effect_distinct. now apply reachable_sorted. Qed.

  (** C62. *)
  Theorem C62_delete_exact_effect :
    forall (t : tree) (i : I) fuel (t' : tree), delete fuel t i = Some t' ->
      ((exists l m r, found_at i t (Node l i m r)) -> without_one i (contents t) (contents t')) /\
      (~ (exists l m r, found_at i t (Node l i m r)) -> t' = t).
  Proof. exact delete_effect. Qed.

  (** C62: the search always ends, at one place. *)
  Theorem C62_search_deterministic :
    forall (t : tree) (i : I), exists s, found_at i t s /\ forall s', found_at i t s' -> s' = s.
  Proof.
    intros t i. destruct (found_total i t) as [s F]. exists s. split; [assumption|].
    intros s' F'. exact (found_fun i t s' s F' F).
  Qed.

  (** C54 is false, see [C54_intersects_after_delete_refuted] below. Missing from the full
      statement: a negative answer given by a tree with a stale maximum. *)
  Theorem C54_intersects_after_delete_partial :
    forall (t : tree) (q : I), t_reachable t -> all_wf t -> iwf q ->
      (t_intersects t q = true -> exists i, In i (contents t) /\ overlap i q) /\
      (exact_max t -> (exists i, In i (contents t) /\ overlap i q) -> t_intersects t q = true).
  Proof.
    intros t q R W Wq. split.
    - intros E. destruct (t_intersects_sound t q E) as (i & Ii & Oi). exists i.
      split; [assumption|]. apply iv_intersects_overlap; auto.
    - intros X E. apply t_intersects_exact; auto. now apply reachable_sorted.
  Qed.

  (** C80. *)
  Theorem C80_wrong_negative_iff_misled :
    forall (t : tree) (q : I), t_reachable t -> all_wf t -> iwf q ->
      (t_intersects t q = false /\ (exists i, In i (contents t) /\ overlap i q)) <->
      exists s, visits q t s /\ misled q s.
  Proof. intros t q R W Wq. apply t_intersects_misled; auto using reachable_bound, reachable_sorted. Qed.

  (** C63. *)
  Theorem C63_max_never_too_small :
    forall t : tree, t_reachable t ->
      (forall s m i, subtree s t -> t_max s = Some m -> In i (contents s) -> le (hi i) m) /\
      (forall q, all_wf t -> iwf q -> (for_each t q = [] <-> ~ exists i, In i (contents t) /\ overlap i q)).
  Proof.
    intros t R. pose proof (reachable_bound t R) as X. split.
    - intros s m i Su. apply max_bound_max. exact (max_bound_subtree s t Su X).
    - intros q W Wq. rewrite (for_each_filter t q X W Wq). split.
      + intros E (i & Ii & Oi).
        assert (In i (filter (fun i => iv_intersects i q) (rev (contents t)))) as F.
        { apply filter_In. split; [now apply -> in_rev|]. apply iv_intersects_overlap; auto. }
        rewrite E in F. destruct F.
      + intros N. apply filter_none. intros a Ia. apply in_rev in Ia.
        destruct (iv_intersects a q) eqn:V; [exfalso|reflexivity]. apply N. exists a.
        split; [assumption|]. apply iv_intersects_overlap; auto.
  Qed.

  (** C55. *)
  Theorem C55_rotations :
    (forall t : tree, contents (rotate_right t) = contents t /\ contents (rotate_left t) = contents t) /\
    (forall t : tree, exact_max t -> exact_max (rotate_right t) /\ exact_max (rotate_left t)) /\
    (forall (l : tree) v m r, l <> Leaf -> exact_max (Node l v m r) ->
      rotate_left (rotate_right (Node l v m r)) = Node l v m r) /\
    (forall (l : tree) v m r, r <> Leaf -> exact_max (Node l v m r) ->
      rotate_right (rotate_left (Node l v m r)) = Node l v m r) /\
    (* the pair of nodes concerned really is rotated *)
    (forall (ll : tree) lv lm lr v m r, exists m1 m2,
      rotate_right (Node (Node ll lv lm lr) v m r) = Node ll lv m1 (Node lr v m2 r)) /\
    (forall (l : tree) v m rl rv rm rr, exists m1 m2,
      rotate_left (Node l v m (Node rl rv rm rr)) = Node (Node l v m1 rl) rv m2 rr).
  Proof.
    split; [intros t; split; [apply rotate_right_contents|apply rotate_left_contents]|].
    split; [intros t X; split; [now apply rotate_right_exact|now apply rotate_left_exact]|].
    split; [exact rotate_left_right|]. split; [exact rotate_right_left|].
    split; intros; do 2 eexists; reflexivity.
  Qed.

  (** C89. *)
  Theorem C89_visits_latest_first :
    forall (l : list I) (q : I) (f : I -> bool), (forall i, In i l -> iwf i) -> iwf q ->
      (forall i, In i l -> (f i = true <-> overlap i q)) ->
      let visited := for_each (fold_left insert l t_default) q in
      StronglySorted (fun a b => le (lo b) (lo a)) visited /\
      forall b, filter (fun i => eqb (lo i) b) visited = rev (filter (fun i => eqb (lo i) b && f i)%bool l).
  Proof.
    intros l q f W Wq F visited. destruct (inserts_exact l) as (X & S & E).
    assert (V : visited = filter (fun i => iv_intersects i q) (rev (contents (fold_left insert l t_default)))).
    { apply for_each_filter; [now apply exact_bound| |assumption]. intros i Ii. now apply W, E. }
    split.
    - rewrite V, filter_rev. apply sorted_lo_filter with (f := fun i => iv_intersects i q) in S. revert S.
      generalize (filter (fun i => iv_intersects i q) (contents (fold_left insert l t_default))). clear.
      intros l S. induction S as [|a l S IH A]; cbn; [constructor|]. rewrite Forall_forall in A.
      assert (A' : forall c, In c (rev l) -> le (lo a) (lo c)) by (intros c Ic; apply A; now apply in_rev).
      clear A S. induction (rev l) as [|c m IHm]; cbn; [repeat constructor|]. inversion IH; subst. constructor.
      + apply IHm; [assumption|]. intros d Id. apply A'. now right.
      + rewrite Forall_forall in *. intros d Id. apply in_app_iff in Id as [Id|[<-|[]]]; [auto|]. apply A'. now left.
    - intros b. rewrite V, filter_filter, filter_rev. f_equal.
      transitivity (filter (fun i => iv_intersects i q) (filter (fun i => eqb (lo i) b) (contents (fold_left insert l t_default)))).
      { rewrite filter_filter. apply filter_ext_in'. intros a _. apply andb_comm. }
      rewrite inserts_same_lo by constructor. cbn [t_default contents filter app]. rewrite filter_filter.
      apply filter_ext_in'. intros a Ia. rewrite andb_comm. f_equal.
      specialize (F a Ia). rewrite <- iv_intersects_overlap in F by auto.
      destruct (f a), (iv_intersects a q); intuition congruence.
  Qed.

  (** C90. *)
  Theorem C90_reversed_intervals :
    (forall a b : I, ~ iwf a -> iwf b -> (iv_intersects a b = true <-> within b (lo a) \/ within b (hi a))) /\
    (forall a b : I, ~ iwf a -> ~ iwf b -> iv_intersects a b = false) /\
    (forall (t : tree) (q i : I), In i (for_each t q) -> In i (contents t) /\ iv_intersects i q = true) /\
    (forall (t : tree) (q : I), t_intersects t q = true -> exists i, In i (contents t) /\ iv_intersects i q = true) /\
    (forall (t : tree) (q i : I), t_reachable t -> In i (contents t) -> iv_intersects i q = true ->
      ~ In i (for_each t q) -> lt (hi i) (lo q) /\ (~ iwf i \/ ~ iwf q)).
  Proof.
    assert (N : forall (a : I) x, ~ iwf a -> iv_contains a x = false).
    { intros a x Na. destruct (iv_contains a x) eqn:E; [|reflexivity]. apply iv_contains_iff in E as [L1 L2].
      destruct Na. unfold iwf. order. }
    split; [|split; [|split; [exact for_each_sound|split; [exact t_intersects_sound|]]]].
    - intros a b Na Wb. unfold iv_intersects. rewrite !(N a) by assumption. cbn.
      now rewrite orb_true_iff, !iv_contains_iff.
    - intros a b Na Nb. unfold iv_intersects. now rewrite !(N a), !(N b) by assumption.
    - intros t q i R Ii E Nv. assert (L : lt (hi i) (lo q)).
      { apply lt_not_le. intros L. apply Nv. apply for_each_complete; auto using reachable_bound. }
      split; [assumption|].
      destruct (leb (lo i) (hi i)) eqn:Wi; [|left; apply leb_false in Wi; unfold iwf; rewrite le_not_lt; tauto].
      destruct (leb (lo q) (hi q)) eqn:Wq; [|right; apply leb_false in Wq; unfold iwf; rewrite le_not_lt; tauto].
      exfalso. apply leb_le in Wi, Wq. apply iv_intersects_overlap in E; [|assumption..].
      apply overlap_bounds in E as [_ L2]; [|assumption..]. order.
  Qed.

  (** C91. *)
  Theorem C91_sorted_insertions_degenerate :
    (forall l : list I, sorted_lo l -> height (fold_left insert l t_default) = length l) /\
    (forall l : list I, StronglySorted (fun a b => lt (lo b) (lo a)) l ->
      height (fold_left insert l t_default) = length l) /\
    (forall (t : tree) (i : I), height t <= height (insert t i) <= S (height t)).
  Proof.
    split; [|split; [|exact insert_height]].
    - intros l S. now apply (ascending_height l Leaf).
    - intros l S. apply (descending_height l Leaf); [exact Logic.I|intros a c []|assumption].
  Qed.
End Properties.

(** C52 fails: after three insertions, deleting the first interval never returns. *)
Theorem C52_delete_terminates_refuted :
  exists (t : dtree) i, t_reachable t /\ In i (contents t) /\ all_wf t /\ ~ delete_terminates t i.
Proof.
  exists (d_tree [(5, 6); (2, 3); (8, 9)]), (5, 6). split; [|split; [|split]].
  - unfold d_tree; cbn [fold_left]. repeat constructor.
  - vm_compute. auto.
  - intros i Ii. vm_compute in Ii. repeat destruct Ii as [<-|Ii]; try (vm_compute; discriminate). destruct Ii.
  - intros D. apply delete_terminates_iff in D. apply D.
    do 3 eexists. split; [apply found_here; reflexivity|]. split; discriminate.
Qed.

(** C53 fails: of two intervals with the same lower bound, the second cannot be deleted. *)
Theorem C53_delete_removes_refuted :
  exists (t : dtree) i, t_reachable t /\ In i (contents t) /\
    forall fuel, delete fuel t i = Some t.
Proof.
  exists (d_tree [(5, 6); (5, 7)]), (5, 7). split; [|split].
  - unfold d_tree; cbn [fold_left]. repeat constructor.
  - vm_compute. auto.
  - intros fuel. reflexivity.
Qed.

(** C54 fails: a deletion leaves a stale maximum that hides a stored interval. *)
Theorem C54_intersects_after_delete_refuted :
  exists (t : dtree) q i, t_reachable t /\ all_wf t /\ iwf q /\ In i (contents t) /\ overlap i q /\
    t_intersects t q = false.
Proof.
  assert (D : exists t, delete 0 (d_tree [(5, 6); (2, 3); (1, 9); (7, 8)]) (1, 9) = Some t /\
    all_wf t /\ In (7, 8) (contents t) /\ t_intersects t (7, 7) = false).
  { eexists. split; [vm_compute; reflexivity|]. split; [|split; [vm_compute; auto|vm_compute; reflexivity]].
    intros i Ii. vm_compute in Ii. repeat destruct Ii as [<-|Ii]; try (vm_compute; discriminate). destruct Ii. }
  destruct D as (t & D & W & Ii & E). exists t, (7, 7), (7, 8).
  split; [|repeat split; auto; try (vm_compute; discriminate)].
  - eapply tr_delete; [|exact D]. unfold d_tree; cbn [fold_left]. repeat constructor.
  - exists 7. repeat split; vm_compute; discriminate.
Qed.

(** ** Non-vacuity *)

Example C48_case : iwf (2, 5) /\ iwf (4, 9) /\ iv_intersects (2, 5) (4, 9) = true /\ iv_intersects (2, 3) (4, 9) = false.
Proof. repeat split; vm_compute; discriminate. Qed.

Definition C49_intervals := [(15, 20); (10, 30); (17, 19); (5, 20); (12, 15); (30, 40)].
Example C49_case :
  (forall i, In i C49_intervals -> iwf i) /\ iwf (41, 50) /\
  t_intersects (d_tree C49_intervals) (16, 16) = true /\ t_intersects (d_tree C49_intervals) (41, 50) = false.
Proof.
  split; [|repeat split; vm_compute; discriminate].
  intros i Ii. repeat destruct Ii as [<-|Ii]; try (vm_compute; discriminate). destruct Ii.
Qed.

Example C50_case : exists t : dtree, t_reachable t /\ all_wf t /\
  delete 0 (d_tree C49_intervals) (17, 19) = Some t /\ for_each t (14, 16) = [(15, 20); (12, 15); (10, 30); (5, 20)].
Proof.
  assert (D : exists t, delete 0 (d_tree C49_intervals) (17, 19) = Some t /\ all_wf t /\
    for_each t (14, 16) = [(15, 20); (12, 15); (10, 30); (5, 20)]).
  { eexists. split; [vm_compute; reflexivity|]. split; [|vm_compute; reflexivity].
    intros i Ii. vm_compute in Ii. repeat destruct Ii as [<-|Ii]; try (vm_compute; discriminate). destruct Ii. }
  destruct D as (t & D & W & E). exists t. split; [|repeat split; assumption].
  eapply tr_delete; [|exact D]. unfold d_tree, C49_intervals; cbn [fold_left]. repeat constructor.
Qed.

Example C51_case :
  contents (insert (d_tree [(5, 6); (2, 3); (8, 9)]) (5, 1)) = [(2, 3); (5, 6); (5, 1); (8, 9)].
Proof. reflexivity. Qed.

Example C52_case : ~ between_children (2, 3) (d_tree [(5, 6); (2, 3); (8, 9)]).
Proof. apply delete_terminates_iff. exists 0. eexists. reflexivity. Qed.

Example C53_case : exists t : dtree, delete 0 (d_tree [(5, 6); (2, 3); (8, 9)]) (2, 3) = Some t /\
  contents t = [(5, 6); (8, 9)].
Proof. eexists. split; reflexivity. Qed.

Example C54_case : exists t : dtree, delete 0 (d_tree [(5, 6); (2, 9); (8, 9)]) (8, 9) = Some t /\
  exact_max t /\ t_intersects t (7, 7) = true.
Proof.
  eexists. split; [reflexivity|]. split; [|reflexivity].
  cbn. repeat split; try (intros a Ia; repeat destruct Ia as [<-|Ia]; try (vm_compute; discriminate); destruct Ia).
  - exists (2, 9). cbn. auto.
  - exists (2, 9). cbn. auto.
Qed.

(** C80: after the deletion of (1, 9) the search for 7 goes left of (5, 6). *)
Example C80_case : exists t : dtree, delete 0 (d_tree [(5, 6); (2, 3); (1, 9); (7, 8)]) (1, 9) = Some t /\
  all_wf t /\ misled (7, 7) t.
Proof.
  eexists. split; [vm_compute; reflexivity|]. split.
  - intros i Ii. vm_compute in Ii. repeat destruct Ii as [<-|Ii]; try (vm_compute; discriminate). destruct Ii.
  - cbn. split; [|split; [|split]].
    + intros (x & [A C] & [D E]). cbn in *. apply C, Nat.compare_gt_iff.
      assert (x >= 7) by (apply Nat.nlt_ge; intros L; apply D; now apply Nat.compare_gt_iff). unfold ge, gt in *. apply Nat.lt_le_trans with 7; auto.
    + exists 9. split; [reflexivity|]. vm_compute. discriminate.
    + intros i [<-|[]]. reflexivity.
    + exists (7, 8). split; [now left|]. exists 7. repeat split; vm_compute; discriminate.
Qed.

(** C61: deleted twice the same interval: the first deletion returns, the second meets two children. *)
Example C61_case : exists t : dtree, delete_terminates (d_tree [(2, 3); (5, 6); (5, 6); (4, 4)]) (2, 3) /\
  delete 0 (d_tree [(2, 3); (5, 6); (5, 6); (4, 4)]) (2, 3) = Some t /\ ~ delete_terminates t (5, 6).
Proof.
  eexists. split; [exists 0; eexists; reflexivity|]. split; [reflexivity|].
  intros D. apply delete_terminates_iff in D. apply D. do 3 eexists. split; [apply found_here; reflexivity|]. split; discriminate.
Qed.

(** C62: of equal lower bounds only the one met first is found, and only the first of two equal intervals goes. *)
Example C62_case :
  (exists t : dtree, delete 0 (d_tree [(2, 3); (5, 6); (5, 7); (5, 6)]) (5, 6) = Some t /\
     contents t = [(2, 3); (5, 7); (5, 6)]) /\
  ~ (exists l m r, found_at (5, 7) (d_tree [(2, 3); (5, 6); (5, 7); (5, 6)]) (Node l (5, 7) m r)).
Proof.
  split; [eexists; split; reflexivity|]. intros (l & m & r & F). vm_compute in F.
  inversion F; subst; try discriminate. match goal with H : found_at _ _ _ |- _ => inversion H; subst; discriminate end.
Qed.

(** C63: after a deletion a maximum is too large, and the visit is still exact. *)
Example C63_case : exists t : dtree, t_reachable t /\
  delete 0 (d_tree [(5, 6); (2, 3); (1, 9); (7, 8)]) (1, 9) = Some t /\
  t_max t = Some 9 /\ contents t = [(2, 3); (5, 6); (7, 8)] /\ for_each t (9, 9) = [] /\ for_each t (3, 7) = [(7, 8); (5, 6); (2, 3)].
Proof.
  assert (D : exists t, delete 0 (d_tree [(5, 6); (2, 3); (1, 9); (7, 8)]) (1, 9) = Some t /\
    t_max t = Some 9 /\ contents t = [(2, 3); (5, 6); (7, 8)] /\ for_each t (9, 9) = [] /\ for_each t (3, 7) = [(7, 8); (5, 6); (2, 3)])
    by (eexists; split; [vm_compute; reflexivity|repeat split]).
  destruct D as (t & D & M). exists t. split; [|auto].
  eapply tr_delete; [|exact D]. unfold d_tree; cbn [fold_left]. repeat constructor.
Qed.

Example C55_case : exact_max (d_tree [(5, 6); (2, 3); (8, 9)]) /\
  rotate_right (d_tree [(5, 6); (2, 3); (8, 9)]) <> d_tree [(5, 6); (2, 3); (8, 9)].
Proof.
  split; [|discriminate]. unfold d_tree; cbn [fold_left]. repeat apply insert_exact. exact Logic.I.
Qed.

(** C89: the two intervals from 5 are visited latest first. *)
Example C89_case : for_each (d_tree [(5, 6); (0, 2); (3, 3); (5, 9); (6, 6)]) (3, 5) = [(5, 9); (5, 6); (3, 3)] /\
  (forall i, In i [(5, 6); (0, 2); (3, 3); (5, 9); (6, 6)] -> iwf i) /\ iwf (3, 5).
Proof.
  split; [reflexivity|]. split; [|vm_compute; discriminate].
  intros i Ii. repeat destruct Ii as [<-|Ii]; try (vm_compute; discriminate). destruct Ii.
Qed.

(** C90: (1, 3) holds an end of the reversed (9, 2) but is missed; so is the reversed (4, 1) by a search from 4. *)
Example C90_case :
  iv_intersects (1, 3) (9, 2) = true /\ for_each (d_tree [(5, 6); (1, 3)]) (9, 2) = [] /\
  iv_intersects (4, 1) (4, 4) = true /\ for_each (d_tree [(5, 6); (4, 1)]) (4, 4) = [].
Proof. repeat split. Qed.

Example C91_case : height (d_tree [(1, 9); (2, 3); (2, 8); (4, 5)]) = 4 /\ height (d_tree [(4, 5); (2, 8); (1, 9)]) = 3 /\
  height (d_tree [(2, 8); (1, 9); (4, 5)]) = 2.
Proof. repeat split. Qed.

Print Assumptions C48_intersects_is_overlap.
Print Assumptions C49_insert_only_intersects_exact.
Print Assumptions C50_for_each_visits_exactly_overlaps.
Print Assumptions C51_insert_adds_one.
Print Assumptions C52_delete_terminates_partial.
Print Assumptions C52_delete_terminates_refuted.
Print Assumptions C53_delete_removes_partial.
Print Assumptions C53_delete_removes_refuted.
Print Assumptions C54_intersects_after_delete_partial.
Print Assumptions C54_intersects_after_delete_refuted.
Print Assumptions C55_rotations.
Print Assumptions C61_delete_terminates_iff.
Print Assumptions C62_delete_exact_effect.
Print Assumptions C62_search_deterministic.
Print Assumptions C63_max_never_too_small.
Print Assumptions C80_wrong_negative_iff_misled.
Print Assumptions C89_visits_latest_first.
Print Assumptions C90_reversed_intervals.
Print Assumptions C91_sorted_insertions_degenerate.
