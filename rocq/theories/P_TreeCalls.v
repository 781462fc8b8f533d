(** Properties C138, C139: the code of users that the interval search tree runs. *)
From Coq Require Import List Arith Bool Lia.
From Verif Require Import Ord OrdFacts Interval SpecInterval IntervalFacts TreeCalls SpecTreeCalls TreeCallsFacts DemoInterval.
Import ListNotations.

Section Properties.
  Context {I B : Type} `{HB : OrdT B} `{HI : Interval I B} `{HE : PartialEq I}.
  Notation tree := (tree I B).
  Notation ucall := (ucall I B).
  Notation tree_call := (tree_call I).
  Notation event := (event I B).

  (** C138: when no user code panics, the calls do what Interval.v says, and the closure is called as it says. *)
  Theorem C138_without_panics :
    forall fuel (t : tree) (x : tree_call) l o e, tree_step fuel None t x = (l, o, e) ->
      match x with
      | XInsert i => o = Some (insert t i) /\ e = XDone /\ visited l = []
      | XDelete i => o = delete fuel t i /\ e = XDone /\ visited l = []
      | XIntersects q => o = Some t /\ e = XAnswer (t_intersects t q) /\ visited l = []
      | XForEach q => o = Some t /\ e = XDone /\ visited l = for_each t q
      end.
  Proof.
    intros fuel t x l o e S. apply tree_step_cases in S. destruct S as [[-> R]|(k & K & _)]; [|discriminate].
    pose proof (visited_tree_calls fuel t x) as V. destruct x; injection R as -> ->; auto.
  Qed.

  (** C138: a call that panics has made some of the calls it would have made, the last of which panicked; an
      insertion or a deletion leaves the tree empty, a query leaves it as it was. *)
  Theorem C138_broken_off :
    forall fuel crash (t : tree) (x : tree_call) l o, tree_step fuel crash t x = (l, o, XPanic) ->
      (exists l' o' e' rest, tree_step fuel None t x = (l', o', e') /\ l <> [] /\ l' = l ++ rest) /\
      o = Some match x with XInsert _ | XDelete _ => Leaf | XIntersects _ | XForEach _ => t end.
  Proof.
    intros fuel crash t x l o S. apply tree_step_cases in S. destruct S as [[-> R]|(k & K & Lk & -> & -> & _)].
    - pose proof (tree_result_end fuel t x) as N. rewrite <- R in N. now destruct N.
    - split; [|destruct x; reflexivity]. unfold tree_step. destruct (tree_calls fuel t x) as [l' [o' e']]. cbn [fst] in *.
      exists l', o', e', (skipn (S k) l'). split; [reflexivity|]. split.
      + destruct l'; [cbn in Lk; lia|discriminate].
      + symmetry. apply firstn_skipn.
  Qed.

  (** C138: any call may panic, but those on an empty tree that insert nothing. *)
  Theorem C138_may_panic :
    forall fuel (t : tree) (x : tree_call),
      (exists crash l o, tree_step fuel crash t x = (l, o, XPanic)) <-> t <> Leaf \/ exists i, x = XInsert i.
  Proof.
    intros fuel t x.
    assert (C : (exists crash l o, tree_step fuel crash t x = (l, o, XPanic)) <-> fst (tree_calls fuel t x) <> []).
    { split.
      - intros (crash & l & o & S). apply tree_step_cases in S. destruct S as [[_ R]|(k & _ & Lk & _)].
        + pose proof (tree_result_end fuel t x) as N. rewrite <- R in N. now destruct N.
        + intros E. rewrite E in Lk. cbn in Lk. lia.
      - intros N. exists (Some 0), (firstn 1 (fst (tree_calls fuel t x))), (Some (root_meanwhile t x)). unfold tree_step.
        destruct (tree_calls fuel t x) as [[|u l] [o e]]; [now destruct N|]. reflexivity. }
    rewrite C. clear C.
    assert (N : forall a b : list ucall, a <> [] -> a ++ b <> []) by (intros [|u a] b Na; [now destruct Na|discriminate]).
    assert (Niv : forall s o, fst (c_iv_intersects (B := B) s o) <> []).
    { intros s o E. pose proof (iv_in s o) as X. rewrite E in X. destruct X. }
    split.
    - intros X. destruct t as [|l v m r]; [|left; discriminate]. destruct x as [i|i|q|q]; [right; eauto|now destruct X..].
    - intros [Nt|[i ->]].
      + destruct t as [|l v m r]; [now destruct Nt|]. destruct x as [i|i|q|q]; cbn [tree_calls]; rewrite fst_bind; apply N; cbn [c_insert c_delete c_intersects c_for_each];
          rewrite ?fst_bind; [apply N; discriminate|apply N; discriminate|apply N, Niv|].
        intros E. apply app_eq_nil in E. destruct E as [_ E]. apply app_eq_nil in E. destruct E as [E _]. exact (Niv _ _ E).
      + cbn [tree_calls]. rewrite fst_bind. apply N. destruct t; cbn [c_insert]; [discriminate|]. rewrite fst_bind. apply N. discriminate.
  Qed.

  (** C138: whatever was broken off before, the tree is the one made by the insertions and deletions since the last that
      was. *)
  Theorem C138_history :
    forall (es : list event) (t : tree), story t_default es t ->
      (exists fuel, t_run fuel t_default (standing es) = Some t) /\ t_reachable t.
  Proof.
    intros es t S. split; [exists 0; now apply story_run|].
    induction S as [|es t1 fuel crash x l e t2 S IH T]; [constructor|].
    apply tree_step_cases in T. destruct T as [[_ R]|(k & _ & _ & _ & E & _)].
    - destruct x; injection R as R _; [subst; now constructor| |now subst..]. symmetry in R. now apply (tr_delete _ _ _ _ IH R).
    - injection E as ->. destruct x; cbn [root_meanwhile]; auto; constructor.
  Qed.

  (** C138: without deletions the answers are about the intervals inserted since the last insertion that was broken off.  A
      walk over the overlapping ones that is broken off has come across some of them only. *)
  Theorem C138_answers :
    forall (es : list event) (t : tree) v, story t_default (es ++ [v]) t ->
      no_deletions (standing es) -> (forall i, In i (inserted (standing es)) -> iwf i) ->
      match ev_call v, ev_end v with
      | XIntersects q, XAnswer b => iwf q -> (b = true <-> exists i, In i (inserted (standing es)) /\ overlap i q)
      | XForEach q, XDone => iwf q -> forall i, In i (visited (ev_made v)) <-> In i (inserted (standing es)) /\ overlap i q
      | XForEach q, XPanic => iwf q -> forall i, In i (visited (ev_made v)) -> In i (inserted (standing es)) /\ overlap i q
      | XIntersects _, XDone | XForEach _, XAnswer _ => False
      | _, _ => visited (ev_made v) = []
      end.
  Proof.
    intros es t v St N W. inversion St as [E|es' t1 fuel crash x l e t2 S' T E]; [now destruct es|].
    apply app_inj_tail in E. destruct E as [-> <-]. subst t2. cbn [ev_call ev_made ev_end].
    apply story_run in S'. rewrite (t_run_inserts _ _ N) in S'. injection S' as <-.
    set (is := inserted (standing es)) in *. destruct (inserts_exact is) as (X & So & In').
    assert (Wt : all_wf (fold_left insert is t_default)) by (intros i Ii; now apply W, In').
    assert (R : forall (l : list I) (t : tree), t_reachable t -> t_reachable (fold_left insert l t)).
    { intros l'. induction l' as [|i l' IH]; intros t' Rt; [exact Rt|]. apply IH. now constructor. }
    specialize (R is t_default tr_default). change (@Leaf I B) with (@t_default I B) in T.
    assert (Fe : forall q i, iwf q -> In i (for_each (fold_left insert is t_default) q) <-> In i is /\ overlap i q).
    { intros q i Wq. rewrite (for_each_filter _ q (reachable_bound _ R) Wt Wq), filter_In, <- in_rev, In'.
      split; intros [Ii O]; (split; [assumption|]); apply (iv_intersects_overlap i q (W _ Ii) Wq); assumption. }
    pose proof (visited_tree_calls fuel (fold_left insert is t_default) x) as V.
    apply tree_step_cases in T. destruct T as [[-> Rt]|(k & _ & _ & El & _ & ->)].
    - destruct x as [i|i|q|q]; injection Rt as _ ->; auto.
      + intros Wq. rewrite t_intersects_exact by auto. split; intros (i & Ii & O); exists i; (split; [now apply In'|assumption]).
      + intros Wq i. rewrite V. now apply Fe.
    - assert (P : exists rest, visited l ++ rest = visited (fst (tree_calls fuel (fold_left insert is t_default) x))).
      { exists (visited (skipn (S k) (fst (tree_calls fuel (fold_left insert is t_default) x)))). rewrite El, <- visited_app. now rewrite firstn_skipn. }
      destruct P as [rest P]. rewrite V in P. destruct x as [i|i|q|q]; try (now apply app_eq_nil in P).
      intros Wq i Ii. apply (Fe q i Wq). rewrite <- P. apply in_app_iff. now left.
  Qed.

  (** C139: insertions, deletions and [intersects] go down one path: they call user code a bounded number of times for
      each level of the tree, [for_each_intersection] for each interval. *)
  Theorem C139_how_many_calls :
    forall fuel crash (t : tree) (x : tree_call) l o e, tree_step fuel crash t x = (l, o, e) ->
      length l <= match x with
                  | XInsert _ => 6 * height t + 1
                  | XDelete _ => 7 * height t + 1
                  | XIntersects _ => 22 * height t
                  | XForEach _ => 23 * length (contents t)
                  end.
  Proof.
    intros fuel crash t x l o e S.
    assert (L : length l <= length (fst (tree_calls fuel t x))).
    { apply tree_step_cases in S. destruct S as [[-> _]|(k & _ & _ & -> & _)]; [lia|]. rewrite firstn_length. lia. }
    etransitivity; [exact L|]. clear L S.
    destruct x as [i|i|q|q]; unfold tree_calls; rewrite fst_bind; cbn [fst ret]; rewrite app_nil_r;
      [apply length_insert|apply length_delete|apply length_intersects|apply length_for_each].
  Qed.

  (** C139: the intervals that are looked at, besides the query. *)
  Theorem C139_which_intervals :
    forall (t : tree) (q i : I) fuel l o e, i <> q ->
      (tree_step fuel None t (XForEach q) = (l, o, e) -> (In (ULo i) l <-> exists tl m tr, uncut q t (Node tl i m tr))) /\
      (all_wf t -> iwf q -> tree_step fuel None t (XIntersects q) = (l, o, e) ->
         (In (ULo i) l <-> exists tl m tr, visits q t (Node tl i m tr))).
  Proof.
    intros t q i fuel l o e N. split.
    - intros S. apply tree_step_cases in S. destruct S as [[-> _]|(k & K & _)]; [|discriminate].
      unfold tree_calls. rewrite fst_bind. cbn [fst ret]. rewrite app_nil_r. now apply in_for_each.
    - intros W Wq S. apply tree_step_cases in S. destruct S as [[-> _]|(k & K & _)]; [|discriminate].
      unfold tree_calls. rewrite fst_bind. cbn [fst ret]. rewrite app_nil_r. now apply in_intersects.
  Qed.

  (** C139: [for_each_intersection] looks at every interval that begins after the query ends, in vain. *)
  Theorem C139_looked_at_in_vain :
    forall (t : tree) (q i : I) fuel l o e, t_reachable t -> all_wf t -> iwf q ->
      In i (contents t) -> lt (hi q) (lo i) -> tree_step fuel None t (XForEach q) = (l, o, e) ->
      In (ULo i) l /\ ~ In i (visited l).
  Proof.
    intros t q i fuel l o e R W Wq Ii L S. pose proof (reachable_bound t R) as M.
    assert (Li : lt (lo q) (lo i)) by (eapply le_lt_trans; [exact Wq|exact L]).
    assert (N : i <> q) by (intros ->; now apply lt_irrefl in Li).
    split.
    - apply (proj1 (C139_which_intervals t q i fuel l o e N) S).
      clear S R. induction t as [|tl IHl v m tr IHr]; [destruct Ii|].
      apply all_wf_node in W. destruct W as (Wv & Wl & Wr).
      assert (Ml : max_bound tl) by (eapply max_bound_subtree; [|exact M]; apply sub_left, sub_self).
      assert (Mr : max_bound tr) by (eapply max_bound_subtree; [|exact M]; apply sub_right, sub_self).
      cbn [contents] in Ii. apply in_app_iff in Ii. destruct Ii as [Ii|[<-|Ii]].
      + destruct (IHl Wl Ii Ml) as (a & b & c & U). exists a, b, c.
        destruct (t_max tl) as [lm|] eqn:E; [|apply t_max_none in E; subst; destruct Ii].
        eapply uncut_left; [exact E| |exact U]. pose proof (max_bound_max tl lm i Ml E Ii) as H.
        eapply le_trans; [|exact H]. eapply le_trans; [|exact (Wl i Ii)]. now apply lt_le.
      + exists tl, m, tr. constructor.
      + destruct (IHr Wr Ii Mr) as (a & b & c & U). exists a, b, c. now apply uncut_right.
    - apply C138_without_panics in S. destruct S as (_ & _ & ->). intros F. apply for_each_sound in F. destruct F as [_ F].
      apply (iv_intersects_overlap i q (W i Ii) Wq), (overlap_bounds i q (W i Ii) Wq) in F. destruct F as [F _].
      now apply lt_not_le in L.
  Qed.
End Properties.

(** C138: three insertions; a fourth whose comparison with the root panics; an insertion and a query. *)
Definition ex_story : list (event (nat * nat) nat) :=
  [Event (XInsert (5, 6)) [UHi (5, 6)] XDone;
   Event (XInsert (2, 3)) [UHi (2, 3); UCmp 6 3; ULo (2, 3); ULo (5, 6); UCmp 2 5; UHi (2, 3)] XDone;
   Event (XIntersects (3, 4)) [ULo (3, 4)] XPanic;
   Event (XInsert (8, 9)) [UHi (8, 9); UCmp 6 9; UHi (8, 9); ULo (8, 9); ULo (5, 6); UCmp 8 5] XPanic;
   Event (XInsert (1, 1)) [UHi (1, 1)] XDone].

Example C138_case :
  exists t : dtree, story t_default ex_story t /\ t = d_tree [(1, 1)] /\ standing ex_story = [TInsert (1, 1)] /\
    tree_step 0 None t (XIntersects (2, 5)) = (fst (tree_calls 0 t (XIntersects (2, 5))), Some t, XAnswer false) /\
    t_intersects (d_tree [(5, 6); (2, 3); (8, 9); (1, 1)]) (2, 5) = true.
Proof.
  exists (d_tree [(1, 1)]). split; [|repeat split].
  assert (S : story (t_default : dtree) [] t_default) by constructor.
  eapply (story_more _ _ _ 0 None (XInsert (5, 6))) in S; [|vm_compute; reflexivity].
  eapply (story_more _ _ _ 0 None (XInsert (2, 3))) in S; [|vm_compute; reflexivity].
  eapply (story_more _ _ _ 0 (Some 0) (XIntersects (3, 4))) in S; [|vm_compute; reflexivity].
  eapply (story_more _ _ _ 0 (Some 5) (XInsert (8, 9))) in S; [|vm_compute; reflexivity].
  eapply (story_more _ _ _ 0 None (XInsert (1, 1))) in S; [|vm_compute; reflexivity].
  exact S.
Qed.

(** C139: a query before all of four intervals: [intersects] looks at two of them, [for_each_intersection] at all. *)
Example C139_case :
  let t := d_tree [(5, 6); (2, 3); (8, 9); (7, 7)] in
  let looked x := filter (fun i => existsb (fun u => match u with ULo j => eqv i j | _ => false end) (fst (tree_calls 0 t x))) (contents t) in
  looked (XIntersects (0, 1)) = [(2, 3); (5, 6)] /\
  looked (XForEach (0, 1)) = [(2, 3); (5, 6); (7, 7); (8, 9)] /\ for_each t (0, 1) = [] /\
  looked (XForEach (7, 8)) = [(5, 6); (7, 7); (8, 9)] /\ for_each t (7, 8) = [(8, 9); (7, 7)].
Proof. vm_compute. repeat split. Qed.

Print Assumptions C138_without_panics.
Print Assumptions C138_broken_off.
Print Assumptions C138_may_panic.
Print Assumptions C138_history.
Print Assumptions C138_answers.
Print Assumptions C139_how_many_calls.
Print Assumptions C139_which_intervals.
Print Assumptions C139_looked_at_in_vain.
