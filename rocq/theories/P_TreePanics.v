(** Property C140: panics of single calls of user code while the interval plugin writes its search tree. *)
From Coq Require Import List Arith Bool Lia.
From Verif Require Import Ord OrdFacts BTree Graph GraphFacts Tx SpecTx Interval SpecInterval IntervalFacts 
  Prog SpecProg ProgFacts Plugin PluginFacts SpecPlugin SpecPlugins PluginsFacts PluginScripts P_Plugin P_Res P_Plugins TreeCalls SpecTreeCalls TreeCallsFacts TreePanics SpecTreePanics TreePanicsFacts DemoInterval.
Import ListNotations.

Section Properties.
  Context {Id Node I B O W : Type} `{HId : OrdT Id} `{HN : Identify Node Id} `{HB : OrdT B} `{HI : Interval I B} `{HE : PartialEq I}.
  Notation ni := (node_interval Id I).
  Notation stree := (tree ni B).
  Notation value := (value Id I W).
  Notation resource := (resource Id Node I B O).
  Notation world := (world Id Node value resource).
  Notation schema := (schema Id Node value resource).
  Notation script := (@script Id Node I W).
  Notation extractors := (extractors (Node := Node) (I := I)).
  Notation trees := (@trees Id I B).
  Notation ucall := (ucall ni B).

  (** C140: what the plugin does to its search tree is one call of the tree after the other, until one panics. *)
  Theorem C140_written_by_calls :
    forall (bad : ucall -> bool) (t : stree) l s,
      (inserting (FP := panics_at bad) t l = s <-> writes bad XInsert t l s) /\
      (deleting (FP := panics_at bad) t l = s <-> writes bad XDelete t l s).
  Proof.
    intros bad t l s. split; split.
    - revert t s. induction l as [|x l IH]; intros t s; cbn [inserting]; [intros <-; constructor|].
      change (insert_panics t x) with (existsb bad (fst (c_insert t x))). destruct (existsb bad _) eqn:E; intros Q.
      + subst s. apply first_bad in E. destruct E as (l1 & u & l2 & E & N & Bu).
        eapply (wr_panic _ _ _ _ _ 0); [|exact N|exact Bu]. apply (step_breaks 0 t (XInsert x) l1 u l2). now rewrite calls_insert.
      + apply harmless_iff in E. apply IH in Q. eapply (wr_one _ _ _ _ _ 0); [|exact E|exact Q]. unfold tree_step. now rewrite calls_insert.
    - intros Wr. remember (@XInsert ni) as f eqn:Ef. induction Wr as [t|t x xs fuel l t' s S N Wr IH|t x xs fuel crash l u o S N Bu|t x xs En]; subst f; cbn [inserting]; [reflexivity|..];
        change (insert_panics t x) with (existsb bad (fst (c_insert t x))).
      + unfold tree_step in S. rewrite calls_insert in S. injection S as <- <-. rewrite (proj1 (harmless_iff _ _) N). now apply IH.
      + apply step_inv in S; [|reflexivity]. destruct S as [rest S]. rewrite calls_insert in S. cbn [fst] in S.
        rewrite S, !existsb_app. cbn [existsb]. now rewrite Bu, orb_true_r.
      + destruct (En 0) as (l & S & _). unfold tree_step in S. rewrite calls_insert in S. discriminate.
    - revert t s. induction l as [|x l IH]; intros t s; cbn [deleting]; [intros <-; constructor|].
      change (delete_panics t x) with (existsb bad (fst (c_delete (2 + count t) t x))). destruct (existsb bad _) eqn:E; intros Q.
      + subst s. apply first_bad in E. destruct E as (l1 & u & l2 & E & N & Bu).
        eapply (wr_panic _ _ _ _ _ (2 + count t)); [|exact N|exact Bu]. apply (step_breaks (2 + count t) t (XDelete x) l1 u l2). now rewrite calls_delete.
      + apply harmless_iff in E. unfold t_delete in Q. destruct (delete (2 + count t) t x) as [t'|] eqn:D.
        * apply IH in Q. eapply (wr_one _ _ _ _ _ (2 + count t)); [|exact E|exact Q]. unfold tree_step. rewrite calls_delete, D. reflexivity.
        * subst s. apply wr_endless. intros fuel. exists (fst (c_delete fuel t x)). split; [|rewrite (fst_delete_fuel fuel (2 + count t)); exact E].
          unfold tree_step. rewrite calls_delete. f_equal. f_equal. destruct (delete fuel t x) as [t'|] eqn:D'; [|reflexivity].
          rewrite (delete_fuel_irrelevant x t fuel t' D' (2 + count t)) in D. discriminate.
    - intros Wr. remember (@XDelete ni) as f eqn:Ef. induction Wr as [t|t x xs fuel l t' s S N Wr IH|t x xs fuel crash l u o S N Bu|t x xs En]; subst f; cbn [deleting]; [reflexivity|..];
        change (delete_panics t x) with (existsb bad (fst (c_delete (2 + count t) t x))).
      + unfold tree_step in S. rewrite calls_delete in S. injection S as <- D. rewrite (fst_delete_fuel fuel (2 + count t)) in N.
        assert (X : existsb bad (fst (c_delete (2 + count t) t x)) = false) by (now apply harmless_iff). rewrite X. unfold t_delete. rewrite (delete_fuel_irrelevant x t fuel t' D (2 + count t)). now apply IH.
      + apply step_inv in S; [|reflexivity]. destruct S as [rest S]. rewrite calls_delete in S. cbn [fst] in S. rewrite (fst_delete_fuel fuel (2 + count t)) in S.
        rewrite S, !existsb_app. cbn [existsb]. now rewrite Bu, orb_true_r.
      + destruct (En (2 + count t)) as (l & S & N). unfold tree_step in S. rewrite calls_delete in S. injection S as <- D.
        assert (X : existsb bad (fst (c_delete (2 + count t) t x)) = false) by (now apply harmless_iff). rewrite X. change (t_delete t x = None) in D. now rewrite D.
  Qed.

  (** C140: no tree is lost as long as the calls about the intervals ever inserted, and those being written, do not panic. *)
  Theorem C140_harmless_intervals :
    forall (bad : ucall -> bool) good goodb fuel cs (t : stree) l s,
      sound_for bad good goodb -> t_run fuel t_default cs = Some t ->
      (forall x, In (TInsert x) cs -> good x) -> (forall x, In x l -> good x) ->
      (writes bad XInsert t l s -> exists t', s = Done (Some t')) /\
      (writes bad XDelete t l s -> s <> Broken None).
  Proof.
    intros bad good goodb fuel cs t l s Sf R Gc Gl. pose proof (good_run bad good goodb Sf fuel cs Gc t_default t Logic.I R) as G. clear R Gc. split.
    - intros Wr. remember (@XInsert ni) as f eqn:Ef. revert G Gl. induction Wr as [t|t x xs fuel' l t' s S N Wr IH|t x xs fuel' crash l u o S N Bu|t x xs En]; subst f; intros G Gl.
      + eauto.
      + unfold tree_step in S. rewrite calls_insert in S. injection S as _ <-. apply IH; [|intros y Iy; apply Gl; now right].
        apply (good_insert bad); auto. apply Gl. now left.
      + exfalso. apply step_inv in S; [|reflexivity]. destruct S as [rest S]. rewrite calls_insert in S. cbn [fst] in S.
        assert (Hl := harmless_insert bad good goodb Sf t x (Gl x (or_introl eq_refl)) G u). rewrite Hl in Bu; [discriminate|].
        rewrite S. apply in_app_iff. left. apply in_app_iff. right. now left.
      + destruct (En 0) as (l & S & _). unfold tree_step in S. rewrite calls_insert in S. discriminate.
    - intros Wr. remember (@XDelete ni) as f eqn:Ef. revert G Gl. induction Wr as [t|t x xs fuel' l t' s S N Wr IH|t x xs fuel' crash l u o S N Bu|t x xs En]; subst f; intros G Gl; try discriminate.
      + unfold tree_step in S. rewrite calls_delete in S. injection S as _ D. apply IH; [|intros y Iy; apply Gl; now right].
        now apply (good_delete bad good goodb Sf fuel' t x).
      + exfalso. apply step_inv in S; [|reflexivity]. destruct S as [rest S]. rewrite calls_delete in S. cbn [fst] in S.
        assert (Hl := harmless_delete bad good goodb Sf fuel' t x (Gl x (or_introl eq_refl)) G u). rewrite Hl in Bu; [discriminate|].
        rewrite S. apply in_app_iff. left. apply in_app_iff. right. now left.
  Qed.

  (** C140: an interval whose lower bound panics is let in by an empty tree, which does not ask for it; as long as it is at the
      root, every call asks for it but its own deletion. *)
  Theorem C140_let_in_unnoticed :
    forall fuel (x : ni),
      tree_step fuel None (t_default : stree) (XInsert x) = ([UHi x], Some (insert t_default x), XDone) /\
      forall l m r (c : tree_call ni) made o e,
        tree_step fuel None (Interval.Node l x m r : stree) c = (made, o, e) ->
        (In (ULo x) made <-> c <> XDelete x).
  Proof.
    intros fuel x. split; [reflexivity|]. intros l m r c made o e S. apply tree_step_cases in S. destruct S as [[-> _]|(k & K & _)]; [|discriminate].
    assert (V : forall q, In (ULo x) (fst (c_iv_intersects (B := B) x q))).
    { intros q. apply iv_in. }
    destruct c as [i|i|q|q]; cbn [tree_calls]; rewrite fst_bind; cbn [fst ret]; rewrite app_nil_r.
    - split; [discriminate|]. intros _. cbn [c_insert]. repeat (rewrite fst_bind; cbn [fst snd c_lo c_hi c_lt]). rewrite !in_app_iff.
      do 4 right. left. left. reflexivity.
    - cbn [c_delete]. rewrite fst_bind. cbn [fst snd c_eq]. destruct (eqv x i) eqn:Q.
      + apply eqv_eq in Q. subst i. split; [|intros N; now destruct N]. intros Ix. exfalso. destruct Ix as [E|Ix]; [discriminate|].
        destruct l, r; try (now destruct Ix). unfold c_join in Ix. destruct (nth_error _ _); [|destruct Ix]. cbn in Ix. destruct Ix as [E|[]]; discriminate.
      + split; [|intros _; repeat (rewrite fst_bind; cbn [fst snd c_lo]); rewrite !in_app_iff; cbn [In]; auto 12].
        intros _ E. injection E as ->. rewrite (proj2 (eqv_eq x x) eq_refl) in Q. discriminate.
    - split; [discriminate|]. intros _. cbn [c_intersects]. rewrite fst_bind. apply in_app_iff. left. apply V.
    - split; [discriminate|]. intros _. cbn [c_for_each]. rewrite !fst_bind. apply in_app_iff. right. apply in_app_iff. left. apply V.
  Qed.

  (** C140: a node with such an interval is saved and indexed; the next save of a node that has intervals panics and loses
      the search tree. *)
  Theorem C140_lost_by_the_next_save :
    forall (bad : ucall -> bool) p (ex : extractors) (sc : schema) (w : world) x n i n' j l,
      fitted (FP := panics_at bad) [p] ex sc w x -> at_rest w -> g_reachable (w_graph w) ->
      reads w (res_from sc (pg_tree p)) = Some (DRes (pg_tree p) (RTree t_default)) ->
      ex (pg_extr p) n = Some [i] -> bad (UHi (NI (id_of n) i)) = false -> bad (ULo (NI (id_of n) i)) = true ->
      ex (pg_extr p) n' = Some (j :: l) ->
      exists w1 w2,
        ends sc w (PWith (TxBg None) (compiled (Saving n Finish : script)) PRet) w1 (ORet RUnit) /\
        g_get (w_graph w1) (id_of n) = Some n /\
        reads w1 (res_from sc (pg_tree p)) = Some (DRes (pg_tree p) (RTree (insert t_default (NI (id_of n) i)))) /\
        ends sc w1 (PWith (TxBg None) (compiled (Saving n' Finish : script)) PRet) w2 OPanic /\
        (forall k, g_get (w_graph w2) k = g_get (w_graph w1) k) /\
        forall (ss : list script) w3 o, ends sc w2 (session ss) w3 o -> reads w3 (res_from sc (pg_tree p)) = None.
  Proof.
    intros bad p ex sc w x n i n' j l F A R X En Bh Bl En'.
    assert (X' : x (pg_tree p) = Some t_default).
    { pose proof (ft_tree _ _ _ _ _ F p (or_introl eq_refl)) as T. rewrite X in T. destruct (x (pg_tree p)); [|discriminate T]. now injection T as ->. }
    set (y := NI (id_of n) i) in *.
    assert (P1 : play (FP := panics_at bad) [p] ex (Saving n Finish : script) (g_get (w_graph w)) x =
      Some (base_set (id_of n) (Some n) (g_get (w_graph w)), put (pg_tree p) (Some (insert t_default y)) x, ORet RUnit)).
    { cbn [play plugins_do]. unfold plugin_does. rewrite En, X'. cbn [map inserting]. fold y.
      change (insert_panics _ _) with (existsb bad [UHi y]). cbn [existsb]. now rewrite Bh. }
    assert (S : settled (FP := panics_at bad) [p] ex sc w (g_get (w_graph w)) x) by (constructor; auto; now apply g_reachable_wf).
    pose proof (bg_played [p] ex sc (Saving n Finish) w _ x S) as Q1. rewrite P1 in Q1. cbn [succeeded] in Q1.
    destruct Q1 as (w1 & E1 & S1). set (x1 := put _ _ x) in *.
    assert (T1 : x1 (pg_tree p) = Some (insert t_default y)) by (unfold x1, put; now rewrite Nat.eqb_refl).
    set (v1 := base_set (id_of n) (Some n) (g_get (w_graph w))) in *.
    assert (P2 : play (FP := panics_at bad) [p] ex (Saving n' Finish : script) v1 x1 = Some (v1, put (pg_tree p) None x1, OPanic)).
    { cbn [play plugins_do]. unfold plugin_does. rewrite En', T1. cbn [map inserting].
      change (insert_panics ?t ?z) with (existsb bad (fst (c_insert t z))).
      replace (existsb bad _) with true; [reflexivity|]. symmetry. apply existsb_exists. exists (ULo y). split; [|exact Bl].
      eapply (proj2 (C140_let_in_unnoticed 0 y) Leaf (hi y) Leaf (XInsert (NI (id_of n') j))); [|discriminate].
      unfold tree_step. now rewrite calls_insert. }
    pose proof (bg_played [p] ex sc (Saving n' Finish) w1 _ _ S1) as Q2. rewrite P2 in Q2.
    destruct Q2 as (w2 & E2 & S2). exists w1, w2.
    split; [now apply exec_run|]. split; [rewrite (se_view _ _ _ _ _ _ S1); unfold v1, base_set, eqb; now rewrite cmp_refl|].
    split; [rewrite (ft_tree _ _ _ _ _ (se_fitted _ _ _ _ _ _ S1) p (or_introl eq_refl)), T1; reflexivity|].
    split; [now apply exec_run|]. split; [intros k; now rewrite (se_view _ _ _ _ _ _ S2), (se_view _ _ _ _ _ _ S1)|].
    intros ss w3 o E. pose proof (session_played [p] ex sc ss w2 _ _ S2) as Q3.
    pose proof (play_all_keeps (FP := panics_at bad) (pg_tree p) (fun o => o = None) ltac:(discriminate) ltac:(discriminate) [p] ex ss v1 (put (pg_tree p) None x1)
      ltac:(unfold put; now rewrite Nat.eqb_refl)) as K.
    destruct (play_all [p] ex ss v1 _) as [[v' x']|].
    - destruct Q3 as (w3' & E3 & S3). apply exec_run in E3. destruct (ends_det _ _ _ _ _ _ _ E3 E) as [<- _].
      rewrite (ft_tree _ _ _ _ _ (se_fitted _ _ _ _ _ _ S3) p (or_introl eq_refl)), K. reflexivity.
    - destruct E as [fuel E]. rewrite (Q3 fuel) in E. discriminate.
  Qed.
End Properties.

(** ** Concrete case: the lower bound of the interval of the node 5 panics. *)
#[local] Existing Instance nat_self.
Definition tp_bad (u : ucall (node_interval nat (nat * nat)) nat) : bool := match u with ULo x => Nat.eqb (ni_id x) 5 | _ => false end.
Definition tp : pn_schema * pn_world :=
  install (O := unit) (W := unit) (FP := panics_at tp_bad) 0 1 1 (fun n => Some (pn_all n)) (built g_default []).
Definition tp_ex (u : type_id) (n : nat) : option (list (nat * nat)) := Some (pn_all n).

Lemma tp_fitted : fitted (W := unit) (O := unit) (FP := panics_at tp_bad) [Plug 0 1] tp_ex (fst tp) (snd tp) (put 1 (Some t_default) ps_none) /\
  at_rest (snd tp) /\ g_reachable (w_graph (snd tp)) /\ reads (snd tp) (res_from (fst tp) 1) = Some (DRes 1 (RTree t_default)).
Proof.
  pose proof (built_lives (V := value nat (nat * nat) unit) (U := resource nat nat (nat * nat) nat unit) (g_default : graph nat nat) []) as L.
  assert (F := C134_none_installed (FP := panics_at tp_bad) tp_ex _ _ ps_none L
    ltac:(intros s Is; cbn in Is; decompose [or] Is; try contradiction; subst s; reflexivity)).
  destruct (C134_installed (FP := panics_at tp_bad) [] _ _ (fst tp) _ (snd tp) ps_none (Plug 0 1) (fun n => Some (pn_all n)) 1 L F) as (L' & _ & _ & F').
  - reflexivity.
  - discriminate.
  - discriminate.
  - intros q [].
  - reflexivity.
  - split; [|split; [repeat split|split; [constructor|reflexivity]]]. destruct F' as [G1 G2 G3 G4 G5 G6 G7 G8]. constructor; auto.
    intros p [<-|[]]. exact (G5 _ (or_introl eq_refl)).
Qed.

(** Inserted after others the interval is found out at once; inserted first, by the next one: the transaction that saves 7 panics, and
    8 is saved but not indexed. *)
Example C140_case :
  let s := fun n => Saving n Finish : @script nat nat (nat * nat) unit in
  let w1 := left_by (snd tp) (run (fst tp) 200 (snd tp) (session [s 5])) in
  let w2 := left_by (snd tp) (run (fst tp) 200 w1 (session [s 7])) in
  let w3 := left_by (snd tp) (run (fst tp) 200 w2 (session [s 8])) in
  let w4 := left_by (snd tp) (run (fst tp) 200 (snd tp) (session [s 7; s 5])) in
  g_iter (w_graph w1) = [5] /\ index 1 (fst tp) w1 = Some [NI 5 (5, 8)] /\
  g_iter (w_graph w2) = [5] /\ index 1 (fst tp) w2 = None /\
  g_iter (w_graph w3) = [5; 8] /\ index 1 (fst tp) w3 = None /\
  g_iter (w_graph w4) = [7] /\ index 1 (fst tp) w4 = None /\
  writes tp_bad XInsert (t_default : tree (node_interval nat (nat * nat)) nat) [NI 5 (5, 8)] (Done (Some (insert t_default (NI 5 (5, 8))))) /\
  writes tp_bad XInsert (t_default : tree (node_interval nat (nat * nat)) nat) [NI 5 (5, 8); NI 7 (7, 9)] (Broken None).
Proof.
  cbn zeta. do 8 (split; [vm_compute; reflexivity|]). split; apply C140_written_by_calls; vm_compute; reflexivity.
Qed.

Print Assumptions C140_written_by_calls.
Print Assumptions C140_harmless_intervals.
Print Assumptions C140_let_in_unnoticed.
Print Assumptions C140_lost_by_the_next_save.
