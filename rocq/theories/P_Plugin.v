(** Properties C59, C60 and C76-C79, C81, C105: the interval plugin. *)
From Coq Require Import List Bool Arith Lia Permutation.
From Coq Require String.
From Verif Require Import Ord OrdFacts BTree BTreeFacts Graph GraphFacts Demo Tx SpecTx TxFacts Interval SpecInterval IntervalFacts
  DemoInterval Prog SpecProg ProgFacts ProgFrame ProgTx ProgOps ProgRes P_Res P_Ops Plugin SpecPlugin PluginFacts.
Import ListNotations.

Section Properties.
  Context {Id Node I B O W : Type} `{HO : OrdT Id} `{HI : Identify Node Id} `{HB : OrdT B} `{HV : Interval I B} `{HP : PartialEq I}.
  Notation ni := (node_interval Id I).
  Notation stree := (tree ni B).
  Notation value := (value Id I W).
  Notation resource := (resource Id Node I B O).
  Notation world := (world Id Node value resource).
  Notation schema := (schema Id Node value resource).
  Notation prog := (prog Id Node value resource).
  Notation build := (@build Id Node value resource).
  Variables ty_extr ty_tree_id ty_tree_node : type_id.
  Notation on_save := (Plugin.on_save (O := O) (W := W) ty_extr ty_tree_id).
  Notation on_delete := (Plugin.on_delete (O := O) (W := W) ty_extr ty_tree_id).
  Notation install := (Plugin.install (O := O) (W := W) ty_extr ty_tree_id ty_tree_node).
  Notation plugged := (SpecPlugin.plugged (O := O) (W := W) ty_extr ty_tree_id).
  Notation index := (SpecPlugin.index (O := O) (W := W) ty_tree_id).

  Lemma install_built (all : Node -> option (list I)) g (bs : list build) : install all (built g bs) =
    built g (bs ++ [BResource ty_extr (RExtr all); BResource ty_tree_node (RTree t_default);
                    BTrigger AfterSave on_save; BTrigger AfterDelete on_delete]).
  Proof. unfold built at 2. rewrite fold_left_app. reflexivity. Qed.

  (** C59: on a schema without other triggers the plugin is set up, if [T] is [T::Id]. *)
  Theorem C59_installed_partial :
    forall (all : Node -> list I) g (bs : list build),
      ty_tree_id = ty_tree_node -> ty_extr <> ty_tree_id ->
      (forall b, In b bs -> exists t u, b = BResource t u) ->
      let (sc, w) := install (fun n => Some (all n)) (built g bs) in
      plugged all sc w /\ index sc w = Some [] /\ at_rest w /\ w_graph w = g.
  Proof.
    intros all g bs Et Ne Rs. rewrite install_built.
    set (bs' := bs ++ _). pose proof (built_resources g bs') as (_ & Fr & Rd & _).
    assert (Tr : forall s, triggers_for s bs = []).
    { intros s. clear -Rs. induction bs as [|b bs IH]; [reflexivity|]. destruct (Rs b (or_introl eq_refl)) as (t & u & ->).
      cbn. apply IH. intros b' I'. apply Rs. now right. }
    assert (Sc : forall s, scheduled (fst (built g bs')) s =
      triggers_for s [BTrigger AfterSave on_save; BTrigger AfterDelete on_delete]).
    { intros s. destruct (built_triggers g bs' s) as [_ ->]. unfold bs'. rewrite triggers_for_app, Tr. reflexivity. }
    assert (Gr : w_graph (snd (built g bs')) = g /\ at_rest (snd (built g bs'))).
    { assert (X : forall bs sw, w_graph (snd (fold_left build_step bs sw)) = w_graph (snd sw) /\
        (at_rest (snd sw) -> at_rest (snd (fold_left (@build_step Id Node value resource) bs sw)))).
      { clear. induction bs as [|b bs IH]; intros sw; [auto|]. cbn. destruct (IH (build_step sw b)) as [X Y]. rewrite X.
        destruct sw as [sc w]. destruct b; cbn; auto. }
      destruct (X bs' (sc_from g)) as [X1 X2]. split; [exact X1|]. apply X2. repeat split. }
    assert (Lr : forall t, last_resource t bs' =
      if Nat.eqb ty_tree_node t then Some (RTree t_default) else if Nat.eqb ty_extr t then Some (RExtr (fun n => Some (all n))) else last_resource t bs).
    { intros t. unfold bs'.
      replace (bs ++ [BResource ty_extr (RExtr (fun n => Some (all n))); BResource ty_tree_node (RTree t_default); BTrigger AfterSave on_save; BTrigger AfterDelete on_delete])
        with ((((bs ++ [BResource ty_extr (RExtr (fun n => Some (all n)))]) ++ [BResource ty_tree_node (RTree t_default)]) ++ [BTrigger AfterSave on_save]) ++ [BTrigger AfterDelete on_delete])
        by (rewrite <- !app_assoc; reflexivity).
      rewrite !last_resource_snoc. reflexivity. }
    destruct (built g bs') as [sc w]. cbn [fst snd] in *.
    assert (Rt : reads w (res_from sc ty_tree_id) = Some (DRes ty_tree_id (RTree t_default))).
    { rewrite Rd, Lr, <- Et, Nat.eqb_refl. reflexivity. }
    split; [|split; [unfold SpecPlugin.index; now rewrite Rt|tauto]]. constructor.
    - rewrite Sc. reflexivity.
    - rewrite Sc. reflexivity.
    - rewrite Sc. reflexivity.
    - rewrite Sc. reflexivity.
    - rewrite Rd, Lr, <- Et. destruct (Nat.eqb_spec ty_tree_id ty_extr); [congruence|]. now rewrite Nat.eqb_refl.
    - exists t_default. split; [exact Rt|constructor].
    - intros a x N. apply Fr. eapply nth_error_In; eauto.
  Qed.

  Lemma plugged_index all (sc : schema) (w : world) : plugged all sc w ->
    exists t, reads w (res_from sc ty_tree_id) = Some (DRes ty_tree_id (RTree t)) /\ sorted_lo (contents t) /\
      index sc w = Some (contents t).
  Proof.
    intros P. destruct (pl_tree _ _ _ _ _ P) as (t & R & S). exists t. split; [exact R|]. split; [exact S|].
    unfold SpecPlugin.index. now rewrite R.
  Qed.

  Lemma tree_index (sc : schema) (w : world) t :
    reads w (res_from sc ty_tree_id) = Some (DRes ty_tree_id (RTree t)) -> index sc w = Some (contents t).
  Proof. intros R. unfold SpecPlugin.index. now rewrite R. Qed.

  Lemma intervals_all (all : Node -> list I) (n : Node) : intervals_of all n = all_intervals all [n].
  Proof. unfold all_intervals, intervals_of. cbn. now rewrite app_nil_r. Qed.

  (** C59 is false (below); what holds of it.  Missing: node types other than their own id type, for which the plugin
      looks up a search tree that is not registered, and schemas with other triggers. *)
  Theorem C59_saved_node_indexed_partial :
    forall (all : Node -> list I) (sc : schema) (w : world) (n : Node) l,
      plugged all sc w -> w_lock w = GFree -> fresh w -> g_reachable (w_graph w) -> index sc w = Some l ->
      exists w' l', ends sc w (p_save n (TxBg None) PRet) w' (ORet RUnit) /\ plugged all sc w' /\
        index sc w' = Some l' /\ Permutation l' (l ++ map (fun x => NI (id_of n) x) (all n)) /\
        (forall i, g_get (w_graph w') i = base_set (id_of n) (Some n) (g_get (w_graph w)) i).
  Proof.
    intros all sc w n l P L Fr R Ix. destruct (plugged_index _ _ _ P) as (t & Rt & S & Ix'). rewrite Ix in Ix'. injection Ix' as ->.
    destruct (save_plugged ty_extr ty_tree_id all sc w n t P Rt L Fr (g_reachable_wf _ R)) as (w' & E & G & P' & I' & _).
    exists w'. eexists. split; [exact E|]. split; [exact P'|]. split; [exact (tree_index _ _ _ I')|]. split; [apply insert_all_permutation|exact G].
  Qed.

  (** ** Histories *)

  Lemma delete_absent_plugged all (sc : schema) (w : world) i : plugged all sc w -> w_lock w = GFree -> fresh w ->
    g_get (w_graph w) i = None -> exists w', ends sc w (p_delete i (TxBg None) PRet) w' (ORet (RErr Noop)) /\
      w_graph w' = w_graph w /\ plugged all sc w' /\ (forall h, reads w' h = reads w h) /\ w_lock w' = GFree /\ fresh w'.
  Proof.
    intros P L Fr Gi. destruct (C25_delete_absent_is_noop sc w i None L Fr Gi) as (w1 & E & G & L' & Hp & C & _).
    exists w1. split; [exact E|]. split; [exact G|].
    assert (Rw : forall h, reads w1 h = reads w h) by (intros h; unfold reads; now rewrite C).
    split; [|split; [exact Rw|split; [now rewrite L'|]]].
    - destruct P. constructor; auto; [now rewrite Rw|rewrite Rw; auto|now rewrite C].
    - destruct (bg_inv sc w None _ w1 _ E) as (_ & wb & Eb & X). cbn in X.
      subst w1. unfold fresh, leaked, close; cbn. apply not_true_is_false. intros Y. apply existsb_exists in Y as (b & Ib & Eb').
      apply Nat.eqb_eq in Eb'. subst b. apply filter_In in Ib as [_ Lt]. apply Nat.ltb_lt in Lt. cbn in Hp. rewrite Hp in Lt. lia.
  Qed.

  Lemma t_run_inserts (l : list ni) : forall (t : stree) fuel es, t_run fuel t (map TInsert l ++ es) = t_run fuel (insert_all t l) es.
  Proof. induction l as [|x l IH]; intros t fuel es; [reflexivity|]. cbn. apply IH. Qed.

  Lemma t_run_deletes (l : list ni) : forall (t t' : stree) fuel es, delete_all t l = Some t' ->
    t_run fuel t (map TDelete l ++ es) = t_run fuel t' es.
  Proof.
    induction l as [|x l IH]; intros t t' fuel es D; cbn in *; [now injection D as ->|].
    destruct (t_delete t x) as [t1|] eqn:D1; [|discriminate].
    unfold t_delete in D1. rewrite (delete_fuel_irrelevant _ _ _ _ D1 fuel). now apply IH.
  Qed.

  (** C81: after any history the search tree is the one obtained by the insertions and deletions alone. *)
  Theorem C81_index_replays_history :
    forall (all : Node -> list I) (sc : schema) (w w' : world) cs es t,
      plugged all sc w -> at_rest w -> g_reachable (w_graph w) ->
      reads w (res_from sc ty_tree_id) = Some (DRes ty_tree_id (RTree t)) -> replayed all sc w cs es w' ->
      exists t', reads w' (res_from sc ty_tree_id) = Some (DRes ty_tree_id (RTree t')) /\
        (forall fuel, t_run fuel t es = Some t') /\ plugged all sc w'.
  Proof.
    intros all sc w w' cs es t P (L & Hp & Lk) R Rt F.
    assert (Fr : fresh w) by (unfold fresh, leaked; now rewrite Lk).
    apply g_reachable_wf in R. clear Hp Lk. revert t P L R Rt Fr.
    induction F as [w|w w1 w2 n r cs es E F IH|w w1 w2 i n r cs es Gi E F IH|w w1 w2 i r cs es Gi E F IH]; intros t P L Wf Rt Fr.
    - exists t. auto.
    - destruct (save_plugged ty_extr ty_tree_id all sc w n t P Rt L Fr Wf) as (w1' & E' & G & P' & I' & L' & _ & Fr' & Wf').
      destruct (ends_det _ _ _ _ _ _ _ E E') as [<- _]. destruct (IH _ P' L' Wf' I' Fr') as (t' & Rt' & Run & P2).
      exists t'. split; [exact Rt'|]. split; [|exact P2]. intros fuel. rewrite <- intervals_all, t_run_inserts. apply Run.
    - pose proof (delete_plugged ty_extr ty_tree_id all sc w i n t P Rt L Fr Wf Gi) as X.
      destruct (delete_all t (intervals_of all n)) as [t1|] eqn:D.
      2: { destruct E as [f E]. rewrite X in E. discriminate. }
      destruct X as (w1' & E' & G & P' & I' & L' & _ & Fr' & Wf').
      destruct (ends_det _ _ _ _ _ _ _ E E') as [<- _]. destruct (IH _ P' L' Wf' I' Fr') as (t' & Rt' & Run & P2).
      exists t'. split; [exact Rt'|]. split; [|exact P2]. intros fuel. rewrite <- intervals_all, (t_run_deletes _ _ _ _ _ D). apply Run.
    - destruct (delete_absent_plugged all sc w i P L Fr Gi) as (w1' & E' & G & P' & Rw & L' & Fr').
      destruct (ends_det _ _ _ _ _ _ _ E E') as [<- _]. apply IH; auto; [now rewrite G|now rewrite Rw].
  Qed.
  Lemma iter_save (g g' : graph Id Node) n : g_wf g -> g_wf g' -> g_get g (id_of n) = None ->
    (forall i, g_get g' i = base_set (id_of n) (Some n) (g_get g) i) -> Permutation (g_iter g') (n :: g_iter g).
  Proof.
    intros Wg Wg' N E. apply NoDup_Permutation.
    - apply (NoDup_map_inv id_of). now apply g_iter_nodup.
    - constructor; [|apply (NoDup_map_inv id_of); now apply g_iter_nodup]. intros J. apply g_iter_in in J; [congruence|exact Wg].
    - intros m. rewrite (g_iter_in g' m Wg'), E. cbn [In]. rewrite (g_iter_in g m Wg). unfold base_set.
      destruct (eqb (id_of n) (id_of m)) eqn:Q.
      + apply eqb_eq in Q. rewrite <- Q, N. split; [intros [= ->]; auto|intros [->|?]; congruence].
      + apply eqb_neq in Q. split; [auto|]. intros [->|?]; [congruence|assumption].
  Qed.

  Lemma iter_delete (g g' : graph Id Node) i n : g_wf g -> g_wf g' -> g_get g i = Some n ->
    (forall j, g_get g' j = base_set i None (g_get g) j) -> Permutation (g_iter g) (n :: g_iter g').
  Proof.
    intros Wg Wg' N E.
    assert (Ei : id_of n = i) by exact (g_get_id g i n Wg N).
    apply iter_save; auto; subst i.
    - rewrite E. unfold base_set. now rewrite (proj2 (eqb_eq (id_of n) (id_of n)) eq_refl).
    - intros j. unfold base_set. rewrite E. unfold base_set. destruct (eqb (id_of n) j) eqn:Q; [|reflexivity].
      apply eqb_eq in Q. now subst j.
  Qed.

  Lemma all_intervals_perm (all : Node -> list I) (l l' : list Node) : Permutation l l' ->
    Permutation (all_intervals all l) (all_intervals all l').
  Proof. apply Permutation_flat_map. Qed.

  (** C60 is false (below); what holds of it.  Missing: node types other than their own id type; saves that overwrite a
      node; transactions that fail after saving or deleting; intervals with equal lower bounds; deletes that
      do not return. *)
  Theorem C60_index_follows_graph_partial :
    forall (all : Node -> list I) (sc : schema) (w w' : world) cs l,
      plugged all sc w -> at_rest w -> g_reachable (w_graph w) ->
      index sc w = Some l -> Permutation l (all_intervals all (g_iter (w_graph w))) ->
      distinct_lo (all_intervals all (g_iter (w_graph w) ++ saved cs)) ->
      fresh_history sc w cs w' ->
      exists l', index sc w' = Some l' /\ Permutation l' (all_intervals all (g_iter (w_graph w'))).
  Proof.
    intros all sc w w' cs l P (L & Hp & Lk) R Ix Pm Dl F.
    assert (Fr : fresh w) by (unfold fresh, leaked; now rewrite Lk).
    apply g_reachable_wf in R. clear Hp Lk. revert l P L R Ix Pm Dl Fr.
    induction F as [w|w w1 w2 n r cs Gn E F IH|w w1 w2 i r cs E F IH]; intros l P L Wf Ix Pm Dl Fr; [eauto| |].
    - destruct (plugged_index _ _ _ P) as (t & Rt & S & Ix'). rewrite Ix in Ix'. injection Ix' as ->.
      destruct (save_plugged ty_extr ty_tree_id all sc w n t P Rt L Fr Wf) as (w1' & E' & G & P' & I' & L' & _ & Fr' & Wf').
      destruct (ends_det _ _ _ _ _ _ _ E E') as [<- _]. pose proof (iter_save _ _ _ Wf Wf' Gn G) as It.
      apply (IH _ P' L' Wf' (tree_index _ _ _ I')); auto.
      + rewrite insert_all_permutation, Pm. rewrite (all_intervals_perm all _ _ It), intervals_all.
        unfold all_intervals. cbn. rewrite app_nil_r. apply Permutation_app_comm.
      + intros x y Ix0 Iy. assert (Q : Permutation (all_intervals all (g_iter (w_graph w1) ++ saved cs))
                                 (all_intervals all (g_iter (w_graph w) ++ saved (HSave n :: cs)))).
        { apply all_intervals_perm. rewrite It. cbn. apply Permutation_middle. }
        apply Dl; eapply Permutation_in; eauto.
    - destruct (g_get (w_graph w) i) as [n|] eqn:Gi.
      + destruct (plugged_index _ _ _ P) as (t & Rt & S & Ix'). rewrite Ix in Ix'. injection Ix' as ->.
        pose proof (delete_plugged ty_extr ty_tree_id all sc w i n t P Rt L Fr Wf Gi) as X.
        destruct (delete_all t (intervals_of all n)) as [t'|] eqn:D.
        2: { destruct E as [f E]. rewrite X in E. discriminate. }
        destruct X as (w1' & E' & G & P' & I' & L' & _ & Fr' & Wf').
        destruct (ends_det _ _ _ _ _ _ _ E E') as [<- _]. pose proof (iter_delete _ _ _ _ Wf Wf' Gi G) as It.
        assert (Dt : distinct_lo (contents t)).
        { intros x y Ix0 Iy. apply Dl; unfold all_intervals; rewrite flat_map_app; apply in_or_app; left;
            eapply Permutation_in; eauto. }
        apply (IH _ P' L' Wf' (tree_index _ _ _ I')); auto.
        * apply (delete_all_distinct (intervals_of all n) t t' _ S Dt); [|exact D].
          rewrite Pm, (all_intervals_perm all _ _ It), intervals_all. unfold all_intervals. cbn. now rewrite app_nil_r.
        * intros x y Ix0 Iy. apply Dl;
            (unfold all_intervals in *; rewrite flat_map_app in *; apply in_app_or in Ix0; apply in_app_or in Iy; apply in_or_app).
          -- destruct Ix0 as [J|J]; [left|right; exact J]. eapply Permutation_in; [apply Permutation_sym, (all_intervals_perm all), It|].
             cbn. apply in_or_app. now right.
          -- destruct Iy as [J|J]; [left|right; exact J]. eapply Permutation_in; [apply Permutation_sym, (all_intervals_perm all), It|].
             cbn. apply in_or_app. now right.
      + destruct (delete_absent_plugged all sc w i P L Fr Gi) as (w1' & E' & G & P' & Rw & L' & Fr').
        destruct (ends_det _ _ _ _ _ _ _ E E') as [<- _].
        apply (IH l P'); auto; try congruence; [unfold SpecPlugin.index; now rewrite Rw|now rewrite G].
  Qed.

  Lemma run_reachable es : forall (t : stree) fuel t', t_reachable t -> t_run fuel t es = Some t' -> t_reachable t'.
  Proof.
    induction es as [|[x|x] es IH]; intros t fuel t' R E; cbn in E.
    - now injection E as <-.
    - eapply IH; [apply tr_insert; exact R|exact E].
    - destruct (delete fuel t x) as [t1|] eqn:D; [|discriminate]. eapply IH; [eapply tr_delete; eauto|exact E].
  Qed.

  Lemma fresh_replayed all (sc : schema) w cs w' : fresh_history sc w cs w' -> exists es, replayed all sc w cs es w'.
  Proof.
    induction 1 as [w|w w1 w2 n r cs Gn E F [es IH]|w w1 w2 i r cs E F [es IH]]; [eexists; constructor| |].
    - eexists. eapply rp_save; eauto.
    - destruct (g_get (w_graph w) i) as [n|] eqn:G; eexists; [eapply rp_delete|eapply rp_delete_absent]; eauto.
  Qed.

  Lemma filter_permutation {A} (f : A -> bool) l l' : Permutation l l' -> Permutation (filter f l) (filter f l').
  Proof.
    induction 1 as [|x l l' P IH|x y l|l1 l2 l3 P1 IH1 P2 IH2]; cbn; auto.
    - destruct (f x); auto.
    - destruct (f x), (f y); auto using perm_swap.
    - now rewrite IH1.
  Qed.

  Lemma visited_overlaps (t : stree) (l : list ni) j (q : I) (f : ni -> bool) :
    t_reachable t -> Permutation (contents t) l -> (forall x, In x l -> le (lo (ni_iv x)) (hi (ni_iv x))) -> le (lo q) (hi q) ->
    (forall x, f x = true <-> le (lo (ni_iv x)) (hi q) /\ le (lo q) (hi (ni_iv x))) ->
    Permutation (for_each t (NI j q)) (filter f l).
  Proof.
    intros R P Wl Wq F.
    assert (Wt : all_wf t) by (intros x Ix; apply (Wl x); now rewrite <- P).
    rewrite (for_each_filter t (NI j q) (reachable_bound t R) Wt Wq).
    assert (X : filter (fun x => iv_intersects x (NI j q)) (rev (contents t)) = filter f (rev (contents t))).
    { apply filter_ext_in. intros x Ix. apply in_rev in Ix. apply eq_true_iff_eq.
      rewrite F, iv_intersects_overlap, overlap_bounds; auto. reflexivity. }
    rewrite X. apply filter_permutation. rewrite <- P. symmetry. apply Permutation_rev.
  Qed.

  (** C105: what the search tree answers, in terms of the intervals the extractor returned for the nodes in the graph. *)
  Theorem C105_index_answers :
    forall (all : Node -> list I) (sc : schema) (w w' : world) cs,
      plugged all sc w -> at_rest w -> w_graph w = g_default ->
      reads w (res_from sc ty_tree_id) = Some (DRes ty_tree_id (RTree t_default)) ->
      (forall n x, In x (all n) -> le (lo x) (hi x)) -> fresh_history sc w cs w' ->
      (forall n m x y, In n (saved cs) -> In m (saved cs) -> In x (all n) -> In y (all m) -> lo x = lo y ->
        id_of n = id_of m /\ x = y) ->
      exists t', reads w' (res_from sc ty_tree_id) = Some (DRes ty_tree_id (RTree t')) /\
        forall j (q : I) f, le (lo q) (hi q) ->
          (forall x, f x = true <-> le (lo (ni_iv x)) (hi q) /\ le (lo q) (hi (ni_iv x))) ->
          Permutation (for_each t' (NI j q)) (filter f (all_intervals all (g_iter (w_graph w')))) /\
          (t_intersects t' (NI j q) = true -> exists n x, In n (g_iter (w_graph w')) /\ In x (all n) /\ le (lo x) (hi q) /\ le (lo q) (hi x)) /\
          ((forall i, ~ In (HDelete i) cs) ->
            (t_intersects t' (NI j q) = true <-> exists n x, In n (g_iter (w_graph w')) /\ In x (all n) /\ le (lo x) (hi q) /\ le (lo q) (hi x))).
  Proof.
    intros all sc w w' cs P Ar G0 Rt Wf F Dl.
    assert (Rg : g_reachable (w_graph w)) by (rewrite G0; constructor).
    destruct (fresh_replayed all sc w cs w' F) as (es & Rp).
    destruct (C81_index_replays_history all sc w w' cs es t_default P Ar Rg Rt Rp) as (t' & Rt' & Run & _).
    exists t'. split; [exact Rt'|]. intros j q f Wq Fq.
    assert (Ix : index sc w = Some []) by now apply (tree_index _ _ t_default).
    destruct (C60_index_follows_graph_partial all sc w w' cs [] P Ar Rg Ix) as (l' & Ix' & Pm); auto.
    { rewrite G0. constructor. }
    { rewrite G0. cbn [app g_iter g_default bt_values map]. intros [i x] [k y] Jx Jy.
      apply in_flat_map in Jx as (n & In1 & Jx). apply in_flat_map in Jy as (m & Im & Jy).
      apply in_map_iff in Jx as (x' & [= <- <-] & Jx). apply in_map_iff in Jy as (y' & [= <- <-] & Jy).
      intros E. destruct (Dl n m x' y' In1 Im Jx Jy E) as [-> ->]. reflexivity. }
    rewrite (tree_index _ _ _ Rt') in Ix'. injection Ix' as <-.
    assert (R : t_reachable t') by (apply (run_reachable es t_default 0 t'); [constructor|apply Run]).
    assert (Wl : forall x, In x (all_intervals all (g_iter (w_graph w'))) -> le (lo (ni_iv x)) (hi (ni_iv x))).
    { intros x Jx. apply in_flat_map in Jx as (n & In1 & Jx). apply in_map_iff in Jx as (x' & <- & Jx). now apply (Wf n). }
    assert (Wt : all_wf t') by (intros x Jx; apply (Wl x); now rewrite <- Pm).
    assert (So : forall a, In a (contents t') -> overlap a (NI j q) ->
      exists n x, In n (g_iter (w_graph w')) /\ In x (all n) /\ le (lo x) (hi q) /\ le (lo q) (hi x)).
    { intros a Ia Oa. apply overlap_bounds in Oa; auto. rewrite Pm in Ia. apply in_flat_map in Ia as (n & In1 & Ia).
      apply in_map_iff in Ia as (x & <- & Jx). exists n, x. tauto. }
    split; [now apply visited_overlaps|]. split.
    - intros E. destruct (t_intersects_sound _ _ E) as (a & Ia & Oa). apply (So a Ia). apply iv_intersects_overlap; auto.
    - intros Nd. assert (Ex : exists l, t' = fold_left insert l t_default).
      { assert (Te : exists l, es = map TInsert l).
        { clear -Rp Nd. induction Rp as [w|w w1 w2 n r cs es E F IH|w w1 w2 i n r cs es Gi E F IH|w w1 w2 i r cs es Gi E F IH].
          - now exists [].
          - destruct IH as [l ->]; [intros i J; apply (Nd i); now right|].
            exists (all_intervals all [n] ++ l). now rewrite map_app.
          - destruct (Nd i). now left.
          - destruct (Nd i). now left. }
        destruct Te as [l ->]. exists l. specialize (Run 0). rewrite <- (app_nil_r (map _ l)), t_run_inserts in Run. cbn in Run.
        now injection Run as <-. }
      destruct Ex as [l ->]. destruct (inserts_exact l) as (X & S & _). rewrite t_intersects_exact by auto. split.
      + intros (a & Ia & Oa). now apply (So a).
      + intros (n & x & In1 & Jx & B1 & B2). exists (NI (id_of n) x).
        assert (Ic : In (NI (id_of n) x) (contents (fold_left insert l t_default))).
        { rewrite Pm. apply in_flat_map. exists n. split; [exact In1|]. now apply (in_map (fun x => NI (id_of n) x)). }
        split; [exact Ic|]. apply overlap_bounds; auto; exact (Wt _ Ic).
  Qed.

  (** C78: nothing is ever removed by a save: the intervals of an overwritten node remain indexed. *)
  Theorem C78_overwritten_intervals_remain :
    forall (all : Node -> list I) (sc : schema) (w : world) (m n : Node) l,
      plugged all sc w -> w_lock w = GFree -> fresh w -> g_reachable (w_graph w) -> index sc w = Some l ->
      g_get (w_graph w) (id_of n) = Some m -> Permutation l (all_intervals all (g_iter (w_graph w))) ->
      exists w' l', ends sc w (p_save n (TxBg None) PRet) w' (ORet RUnit) /\ index sc w' = Some l' /\
        Permutation l' (map (fun x => NI (id_of n) x) (all m) ++ all_intervals all (g_iter (w_graph w'))).
  Proof.
    intros all sc w m n l P L Fr R Ix Gm Pm. pose proof (g_reachable_wf _ R) as Wf.
    destruct (plugged_index _ _ _ P) as (t & Rt & S & Ix'). rewrite Ix in Ix'. injection Ix' as ->.
    destruct (save_plugged ty_extr ty_tree_id all sc w n t P Rt L Fr Wf) as (w' & E & G & P' & I' & _ & _ & _ & Wf').
    exists w'. eexists. split; [exact E|]. split; [exact (tree_index _ _ _ I')|].
    rewrite insert_all_permutation, Pm.
    (* the graph without either node *)
    set (g0 := bt_remove (id_of n) (w_graph w)).
    assert (W0 : g_wf g0) by (now apply g_wf_remove).
    assert (E0 : forall j, g_get g0 j = base_set (id_of n) None (g_get (w_graph w)) j).
    { intros j. unfold g0, base_set, g_get. rewrite bt_get_remove by apply Wf. reflexivity. }
    assert (I1 : Permutation (g_iter (w_graph w)) (m :: g_iter g0)) by (apply (iter_delete _ _ (id_of n)); auto).
    assert (I2 : Permutation (g_iter (w_graph w')) (n :: g_iter g0)).
    { apply (iter_delete _ _ (id_of n)); auto.
      - rewrite G. unfold base_set. now rewrite (proj2 (eqb_eq (id_of n) (id_of n)) eq_refl).
      - intros j. rewrite E0. unfold base_set. rewrite G. unfold base_set. now destruct (eqb (id_of n) j). }
    rewrite (all_intervals_perm all _ _ I1), (all_intervals_perm all _ _ I2).
    pose proof (g_get_id _ _ _ Wf Gm) as Em. rewrite intervals_all. unfold all_intervals. cbn. rewrite Em, app_nil_r, <- app_assoc.
    apply Permutation_app_head, Permutation_app_comm.
  Qed.

  (** C77: a save rolled back with the transaction it is part of leaves its intervals in the index. *)
  Theorem C77_rolled_back_save_remains_indexed :
    forall (all : Node -> list I) (sc : schema) (w : world) (n : Node) l e,
      plugged all sc w -> w_lock w = GFree -> index sc w = Some l ->
      exists w' l', ends sc w (PWith (TxBg None) (fun c => p_save n (TxFg c) (fun _ => PRet (RErr e))) PRet) w' (ORet (RErr e)) /\
        w_graph w' = w_graph w /\ index sc w' = Some l' /\
        Permutation l' (l ++ map (fun x => NI (id_of n) x) (all n)).
  Proof.
    intros all sc w n l e P L Ix. destruct (plugged_index _ _ _ P) as (t & Rt & S & Ix'). rewrite Ix in Ix'. injection Ix' as ->.
    set (w0 := fg_open (bg_open w)). set (c0 := fg_ctx (bg_open w) (bg_ctx w)).
    assert (P0 : plugged all sc w0) by (destruct P; constructor; assumption).
    destruct (save_body_plugged ty_extr ty_tree_id all sc w0 n t c0 P0 Rt) as (w1 & E1 & G1 & P1 & I1). apply tree_index in I1.
    assert (X : exists w2, exec sc (bg_open w) (p_save n (TxFg (bg_ctx w)) (fun _ => PRet (RErr e))) w2 (ORet (RErr e)) /\
      w_graph w2 = w_graph w /\ w_cells w2 = w_cells w1).
    { eexists. split; [eapply XFgOk; [exact E1|reflexivity|apply XRet]|]. split; cbn.
      - unfold fg_commit. destruct (leaked w1 _); exact G1.
      - unfold fg_commit. destruct (leaked w1 _); reflexivity. }
    destruct X as (w2 & E2 & G2 & C2).
    eexists. exists (contents (insert_all t (intervals_of all n))). split; [apply exec_run; eapply XBgErr; [exact L|exact E2|reflexivity|apply XRet]|].
    split; [exact G2|]. split; [|apply insert_all_permutation].
    rewrite <- I1. unfold SpecPlugin.index, reads. cbn. now rewrite C2.
  Qed.

  (** C79: deleting a node may never return: exactly when one of its intervals, in turn, has been found in the tree
      between two others. *)
  Theorem C79_delete_hangs_or_removes :
    forall (all : Node -> list I) (sc : schema) (w : world) (i : Id) (n : Node) t,
      plugged all sc w -> w_lock w = GFree -> fresh w -> g_reachable (w_graph w) ->
      reads w (res_from sc ty_tree_id) = Some (DRes ty_tree_id (RTree t)) -> g_get (w_graph w) i = Some n ->
      (diverges sc w (p_delete i (TxBg None) PRet) <->
       exists pre x post fuel t', map (fun x => NI (id_of n) x) (all n) = pre ++ x :: post /\
         t_run fuel t (map TDelete pre) = Some t' /\ between_children x t') /\
      (~ diverges sc w (p_delete i (TxBg None) PRet) ->
       exists w' fuel t', ends sc w (p_delete i (TxBg None) PRet) w' (ORet RUnit) /\
         t_run fuel t (map TDelete (map (fun x => NI (id_of n) x) (all n))) = Some t' /\
         index sc w' = Some (contents t') /\
         (forall j, g_get (w_graph w') j = base_set i None (g_get (w_graph w)) j)).
  Proof.
    intros all sc w i n t P L Fr R Rt Gi.
    pose proof (delete_plugged ty_extr ty_tree_id all sc w i n t P Rt L Fr (g_reachable_wf _ R) Gi) as X.
    assert (DA : forall l (t : stree), match delete_all t l with
      | Some t' => (exists fuel, t_run fuel t (map TDelete l) = Some t') /\
          forall pre x post fuel t1, l = pre ++ x :: post -> t_run fuel t (map TDelete pre) = Some t1 -> ~ between_children x t1
      | None => exists pre x post fuel t1, l = pre ++ x :: post /\ t_run fuel t (map TDelete pre) = Some t1 /\ between_children x t1
      end).
    { clear. induction l as [|y l IH]; intros t; cbn.
      - split; [exists 0; reflexivity|]. intros [|? ?] x post fuel t1 E; discriminate.
      - destruct (t_delete t y) as [t1|] eqn:D.
        + pose proof (fun fuel => delete_fuel_irrelevant y t _ t1 D fuel) as Df. specialize (IH t1).
          destruct (delete_all t1 l) as [t'|].
          * destruct IH as [[fuel E] N]. split; [exists fuel; now rewrite Df|].
            intros [|z pre] x post f t2 Eq Run; cbn in *.
            -- injection Eq as <- <-. injection Run as <-. apply delete_terminates_iff. exists 0, t1. apply Df.
            -- injection Eq as <- ->. rewrite Df in Run. eapply N; eauto.
          * destruct IH as (pre & x & post & fuel & t2 & -> & Run & Bc). exists (y :: pre), x, post, fuel, t2.
            split; [reflexivity|]. cbn. rewrite Df. auto.
        + exists [], y, l, 0, t. split; [reflexivity|]. split; [reflexivity|].
          destruct (classic_between y t) as [Bc|Bc]; [exact Bc|]. exfalso. apply delete_terminates_iff in Bc as (f & t' & D').
          unfold t_delete in D. rewrite (delete_fuel_irrelevant y t f t' D' _) in D. discriminate. }
    specialize (DA (intervals_of all n) t). change (map (fun x => NI (id_of n) x) (all n)) with (intervals_of all n).
    destruct (delete_all t (intervals_of all n)) as [t'|].
    - destruct X as (w' & E & G & P' & I' & _). apply tree_index in I'. destruct DA as [[fuel Run] N].
      assert (Nd : ~ diverges sc w (p_delete i (TxBg None) PRet)).
      { intros D. destruct E as [f E]. rewrite D in E. discriminate. }
      split; [|intros _; exists w', fuel, t'; auto]. split; [contradiction|].
      intros (pre & x & post & f & t1 & Eq & Run' & Bc). exfalso. eapply N; eauto.
    - split; [tauto|]. contradiction.
  Qed.

  (** C76: if [T] is not [T::Id], nobody can register the tree the triggers look up (its type is private to the
      plugin), and the plugin does nothing: its triggers succeed without any effect, *)
  Theorem C76_plugin_inert_triggers :
    forall (all : Node -> option (list I)) g (bs1 bs2 : list build) (w : world) (c : ctx),
      let sc := fst (fold_left build_step bs2 (install all (built g bs1))) in
      ty_tree_id <> ty_tree_node -> ty_extr <> ty_tree_id ->
      (forall u, ~ In (BResource ty_tree_id u) (bs1 ++ bs2)) ->
      index sc w = None /\
      (available Shared w [target_of c; res_from sc ty_extr] ->
       (forall t u, reads w (res_from sc ty_extr) = Some (DRes t u) -> exists all : Node -> list I, u = RExtr (fun n => Some (all n))) ->
       forall w' o, (ends sc w (on_save c) w' o <-> w' = w /\ o = ORet RUnit) /\
                    (ends sc w (on_delete c) w' o <-> w' = w /\ o = ORet RUnit)).
  Proof.
    intros all g bs1 bs2 w c sc Ne Nx Nr.
    assert (Sc : sc = fst (built g ((bs1 ++ [BResource ty_extr (RExtr all); BResource ty_tree_node (RTree t_default);
                    BTrigger AfterSave on_save; BTrigger AfterDelete on_delete]) ++ bs2))).
    { unfold sc. rewrite install_built. unfold built. now rewrite <- fold_left_app. }
    set (bs := _ ++ bs2) in Sc.
    assert (La : last_resource ty_tree_id bs = None).
    { assert (X : forall bs : list build, (forall u, ~ In (BResource ty_tree_id u) bs) -> last_resource ty_tree_id bs = None).
      { clear. induction bs as [|b bs IH]; intros N; [reflexivity|]. cbn. rewrite IH by (intros u J; apply (N u); now right).
        destruct b as [t u|s t]; [|reflexivity]. destruct (Nat.eqb_spec t ty_tree_id) as [->|_]; [|reflexivity].
        exfalso. apply (N u). now left. }
      apply X. intros u J. unfold bs in J. rewrite <- app_assoc in J. apply in_app_or in J as [J|J]; [apply (Nr u), in_or_app; auto|].
      apply in_app_or in J as [J|J]; [|apply (Nr u), in_or_app; auto]. cbn in J.
      destruct J as [J|[J|[J|[J|[]]]]]; try discriminate; injection J as J _; congruence. }
    destruct (built_resources g bs) as (_ & _ & _ & _ & No & _). rewrite <- Sc in No. apply No in La.
    assert (Rt : reads w (res_from sc ty_tree_id) = None) by (unfold reads, res_from; cbn; now rewrite La).
    split; [unfold SpecPlugin.index; now rewrite Rt|]. intros Av Te w' o.
    apply (on_save_inert ty_extr ty_tree_id sc w c); auto.
    - split; [exact Av|]. intros h a [<-|[]] Ea. unfold res_from in Ea. cbn in Ea. rewrite La in Ea. discriminate.
    - intros d Rd. destruct (reads_addr _ _ _ Rd) as (a & x & _ & _ & _ & _ & Ty). destruct d as [n|]; [eauto|discriminate].
    - intros d Rd. destruct (reads_addr _ _ _ Rd) as (a & x & _ & _ & _ & _ & Ty). destruct d as [n|t u]; [discriminate|].
      cbn in Ty. apply Nat.eqb_eq in Ty. subst t. destruct (Te _ _ Rd) as [all' ->]. eauto.
  Qed.
End Properties.
Print Assumptions C59_installed_partial.
Print Assumptions C59_saved_node_indexed_partial.
Print Assumptions C60_index_follows_graph_partial.
Print Assumptions C76_plugin_inert_triggers.
Print Assumptions C77_rolled_back_save_remains_indexed.
Print Assumptions C78_overwritten_intervals_remain.
Print Assumptions C79_delete_hangs_or_removes.
Print Assumptions C81_index_replays_history.
Print Assumptions C105_index_answers.

(** The state in which a run ends, [w] if it does not. *)
Definition left_by {A B} (w : A) (o : option (A * B)) : A := match o with Some x => fst x | None => w end.

(** ** Nodes of a type other than that of their ids: the type ids of [Extr], [SearchTree<T::Id, _>] and
    [SearchTree<T, _>] are 0, 1 and 2. *)
Definition pd_all (n : dnode) : list (nat * nat) := [(d_val n, d_val n + 3)].
Notation pd_world := (world nat dnode (value nat (nat * nat) unit) (resource nat dnode (nat * nat) nat unit)).
Notation pd_schema := (schema nat dnode (value nat (nat * nat) unit) (resource nat dnode (nat * nat) nat unit)).
Definition pd : pd_schema * pd_world := install (O := unit) (W := unit) 0 1 2 (fun n => Some (pd_all n)) (built g_default []).
Definition pd_saved : pd_world :=
  (left_by (snd pd) (run (fst pd) 100 (snd pd) (p_save (Demo.DNode 1 4) (TxBg None) PRet))).

(** C59 is false: the save succeeds, the node is in the graph, its interval is in no search tree. *)
Theorem C59_saved_node_indexed_refuted :
  exists (all : dnode -> list (nat * nat)) (n : dnode) (sc : pd_schema) (w w' : pd_world),
    install 0 1 2 (fun n => Some (all n)) (built g_default []) = (sc, w) /\ all n <> [] /\
    ends sc w (p_save n (TxBg None) PRet) w' (ORet RUnit) /\ g_get (w_graph w') (id_of n) = Some n /\
    forall t u, reads w' (res_from sc t) = Some (DRes t u) -> u = RExtr (fun n => Some (all n)) \/ u = RTree t_default.
Proof.
  exists pd_all, (Demo.DNode 1 4), (fst pd), (snd pd), pd_saved.
  split; [reflexivity|]. split; [discriminate|]. split; [exists 100; vm_compute; reflexivity|].
  split; [vm_compute; reflexivity|]. intros t u. unfold reads, res_from. cbn [h_addr h_ty].
  destruct t as [|[|[|t]]]; cbn; try discriminate; intros [= <-]; auto.
Qed.
Print Assumptions C59_saved_node_indexed_refuted.

(** C60 is false: likewise, and (C77, C78) when a save is rolled back or overwrites a node. *)
Theorem C60_index_follows_graph_refuted :
  exists (all : dnode -> list (nat * nat)) (n : dnode) (sc : pd_schema) (w w' : pd_world),
    install 0 1 2 (fun n => Some (all n)) (built g_default []) = (sc, w) /\
    ends sc w (p_save n (TxBg None) PRet) w' (ORet RUnit) /\
    all_intervals all (g_iter (w_graph w')) <> [] /\ index 1 sc w' = None.
Proof.
  exists pd_all, (Demo.DNode 1 4), (fst pd), (snd pd), pd_saved.
  split; [reflexivity|]. split; [exists 100; vm_compute; reflexivity|]. split; [vm_compute; discriminate|reflexivity].
Qed.
Print Assumptions C60_index_follows_graph_refuted.

(** C76: the hypotheses hold of the schema above, when its triggers are called by a save. *)
Example C76_case :
  let w := (left_by (snd pd) (run (fst pd) 100 (snd pd) (p_save (Demo.DNode 1 4) (TxBg None) PRet))) in
  let c := CRoot 0 (Some 2) in
  fst pd = fst (fold_left build_step [] (install 0 1 2 (fun n => Some (pd_all n)) (built g_default []))) /\
  available Shared w [target_of c; res_from (fst pd) 0] /\
  reads w (target_of c) = Some (DNode (Demo.DNode 1 4)) /\
  (exists u, reads w (res_from (fst pd) 0) = Some (DRes 0 u)).
Proof.
  cbn zeta. split; [reflexivity|]. split; [|split; [vm_compute; reflexivity|eexists; vm_compute; reflexivity]].
  intros h a [<-|[<-|[]]] E; injection E as <-; eexists; (split; [vm_compute; reflexivity|]); vm_compute; discriminate || reflexivity.
Qed.

(** ** Numbers that are their own ids: the type ids of [Extr] and the search tree are 0 and 1. *)
Local Instance nat_self : Identify nat nat := { id_of := fun n => n }.
Definition pn_all (n : nat) : list (nat * nat) := [(n, n + 3)].
Notation pn_world := (world nat nat (value nat (nat * nat) unit) (resource nat nat (nat * nat) nat unit)).
Notation pn_schema := (schema nat nat (value nat (nat * nat) unit) (resource nat nat (nat * nat) nat unit)).
Definition pn : pn_schema * pn_world := install (O := unit) (W := unit) 0 1 1 (fun n => Some (pn_all n)) (built g_default []).
Definition pn_run (w : pn_world) p : pn_world := (left_by w (run (fst pn) 100 w p)).
Definition pn_save w n := pn_run w (p_save n (TxBg None) PRet).
Definition pn_delete w i := pn_run w (p_delete i (TxBg None) PRet).

Example C59_case :
  plugged 0 1 pn_all (fst pn) (snd pn) /\ w_lock (snd pn) = GFree /\ fresh (snd pn) /\ g_reachable (w_graph (snd pn)) /\
  index 1 (fst pn) (pn_save (snd pn) 5) = Some [NI 5 (5, 8)].
Proof.
  pose proof (C59_installed_partial (O := unit) (W := unit) 0 1 1 pn_all g_default []) as X. fold pn in X.
  destruct X as (P & _ & R & G); [reflexivity|discriminate|intros b []|].
  split; [exact P|]. split; [reflexivity|]. split; [reflexivity|]. split; [constructor|vm_compute; reflexivity].
Qed.

Example C60_case :
  let w1 := pn_save (snd pn) 5 in let w2 := pn_save w1 3 in let w3 := pn_delete w2 5 in
  fresh_history (fst pn) (snd pn) [HSave 5; HSave 3; HDelete 5] w3 /\
  index 1 (fst pn) w2 = Some [NI 3 (3, 6); NI 5 (5, 8)] /\ index 1 (fst pn) w3 = Some [NI 3 (3, 6)] /\
  g_iter (w_graph w3) = [3].
Proof.
  cbn zeta. split; [|vm_compute; repeat split].
  apply fh_save with (w1 := pn_save (snd pn) 5) (r := RUnit); [reflexivity|exists 100; vm_compute; reflexivity|].
  apply fh_save with (w1 := pn_save (pn_save (snd pn) 5) 3) (r := RUnit); [vm_compute; reflexivity|exists 100; vm_compute; reflexivity|].
  eapply fh_delete with (r := RUnit); [exists 100; vm_compute; reflexivity|]. constructor.
Qed.

(** C81: an overwriting save, a delete, a delete of nothing. *)
Example C81_case :
  let w1 := pn_save (snd pn) 5 in let w2 := pn_save w1 5 in let w3 := pn_delete w2 5 in let w4 := pn_delete w3 5 in
  replayed pn_all (fst pn) (snd pn) [HSave 5; HSave 5; HDelete 5; HDelete 5]
    [TInsert (NI 5 (5, 8)); TInsert (NI 5 (5, 8)); TDelete (NI 5 (5, 8))] w4 /\
  index 1 (fst pn) w4 = Some [NI 5 (5, 8)] /\ g_iter (w_graph w4) = [].
Proof.
  cbn zeta. split; [|vm_compute; repeat split].
  change [TInsert (NI 5 (5, 8)); TInsert (NI 5 (5, 8)); TDelete (NI 5 (5, 8))] with
    (map TInsert (all_intervals pn_all [5]) ++ map TInsert (all_intervals pn_all [5]) ++ map TDelete (all_intervals pn_all [5]) ++ []).
  apply rp_save with (w1 := pn_save (snd pn) 5) (r := RUnit); [exists 100; vm_compute; reflexivity|].
  apply rp_save with (w1 := pn_save (pn_save (snd pn) 5) 5) (r := RUnit); [exists 100; vm_compute; reflexivity|].
  apply rp_delete with (w1 := pn_delete (pn_save (pn_save (snd pn) 5) 5) 5) (r := RUnit);
    [vm_compute; reflexivity|exists 100; vm_compute; reflexivity|].
  eapply rp_delete_absent with (r := RErr Noop); [vm_compute; reflexivity|exists 100; vm_compute; reflexivity|]. constructor.
Qed.

Example C77_case :
  let w := pn_run (snd pn) (PWith (TxBg None) (fun c => p_save 5 (TxFg c) (fun _ => PRet (RErr Noop))) PRet) in
  w_graph w = [] /\ index 1 (fst pn) w = Some [NI 5 (5, 8)].
Proof. vm_compute. repeat split. Qed.

Example C78_case :
  let w1 := pn_save (snd pn) 5 in let w2 := pn_save w1 5 in
  g_get (w_graph w1) 5 = Some 5 /\ g_iter (w_graph w2) = [5] /\
  index 1 (fst pn) w2 = Some [NI 5 (5, 8); NI 5 (5, 8)].
Proof. vm_compute. repeat split. Qed.

(** C79: 5 is between 3 and 7. *)
Example C79_case :
  let w := pn_save (pn_save (pn_save (snd pn) 5) 3) 7 in
  (exists t, reads w (res_from (fst pn) 1) = Some (DRes 1 (RTree t)) /\ between_children (NI 5 (5, 8)) t /\
             ~ between_children (NI 3 (3, 6)) t) /\
  run (fst pn) 1000 w (p_delete 5 (TxBg None) PRet) = None /\
  index 1 (fst pn) (pn_delete w 3) = Some [NI 5 (5, 8); NI 7 (7, 10)].
Proof.
  cbn zeta. split; [|vm_compute; repeat split]. eexists. split; [vm_compute; reflexivity|]. split.
  - eexists _, _, _. split; [apply found_here; reflexivity|]. split; discriminate.
  - apply delete_terminates_iff. exists 10. eexists. vm_compute. reflexivity.
Qed.

(** C105: nodes 5 and 3, with the intervals [5,8] and [3,6]. *)
Example C105_case :
  let w2 := pn_save (pn_save (snd pn) 5) 3 in
  fresh_history (fst pn) (snd pn) [HSave 5; HSave 3] w2 /\
  exists t, reads w2 (res_from (fst pn) 1) = Some (DRes 1 (RTree t)) /\
    for_each t (NI 0 (6, 7)) = [NI 5 (5, 8); NI 3 (3, 6)] /\ for_each t (NI 0 (7, 7)) = [NI 5 (5, 8)] /\
    t_intersects t (NI 0 (8, 9)) = true /\ t_intersects t (NI 0 (9, 9)) = false /\ t_intersects t (NI 0 (0, 2)) = false.
Proof.
  cbn zeta. split.
  - apply fh_save with (w1 := pn_save (snd pn) 5) (r := RUnit); [reflexivity|exists 100; vm_compute; reflexivity|].
    apply fh_save with (w1 := pn_save (pn_save (snd pn) 5) 3) (r := RUnit); [vm_compute; reflexivity|exists 100; vm_compute; reflexivity|].
    constructor.
  - eexists. split; [vm_compute; reflexivity|]. vm_compute. repeat split.
Qed.
