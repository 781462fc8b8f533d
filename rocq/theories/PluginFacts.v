(** Facts about the interval plugin. *)
From Coq Require Import List Bool Arith Lia Permutation.
From Verif Require Import Ord OrdFacts BTree BTreeFacts Graph GraphFacts Tx SpecTx TxFacts Interval SpecInterval IntervalFacts
  Prog SpecProg ProgFacts ProgFrame ProgTx ProgOps ProgRes P_Res P_Ops Plugin SpecPlugin.
Import ListNotations.

Section Facts.
  Context {Id Node I B O W : Type} `{HO : OrdT Id} `{HI : Identify Node Id} `{HB : OrdT B} `{HV : Interval I B} `{HP : PartialEq I}.
  Notation ni := (node_interval Id I).
  Notation stree := (tree ni B).
  Notation value := (value Id I W).
  Notation resource := (resource Id Node I B O).
  Notation world := (world Id Node value resource).
  Notation schema := (schema Id Node value resource).
  Notation prog := (prog Id Node value resource).

  Lemma t_delete_iff (t : stree) x t' : t_delete t x = Some t' <-> exists fuel, delete fuel t x = Some t'.
  Proof.
    split; [intros D; exists (2 + count t); exact D|]. intros [fuel D]. exact (delete_fuel_irrelevant x t fuel t' D _).
  Qed.

  Lemma insert_all_permutation l : forall t : stree, Permutation (contents (insert_all t l)) (contents t ++ l).
  Proof.
    induction l as [|x l IH]; intros t; cbn; [now rewrite app_nil_r|]. unfold insert_all in IH. rewrite IH.
    rewrite insert_permutation. cbn. rewrite <- Permutation_middle. reflexivity.
  Qed.

  Lemma insert_all_sorted l : forall t : stree, sorted_lo (contents t) -> sorted_lo (contents (insert_all t l)).
  Proof. induction l as [|x l IH]; intros t S; cbn; [exact S|]. apply IH. now apply insert_sorted. Qed.

  Lemma delete_all_sorted l : forall (t t' : stree), delete_all t l = Some t' -> sorted_lo (contents t) -> sorted_lo (contents t').
  Proof.
    induction l as [|x l IH]; intros t t' D S; cbn in D; [injection D as <-; exact S|].
    destruct (t_delete t x) as [t1|] eqn:D1; [|discriminate]. apply (IH t1); [exact D|]. eapply delete_sorted; eauto.
  Qed.

  Lemma delete_all_distinct l : forall (t t' : stree) rest, sorted_lo (contents t) -> distinct_lo (contents t) ->
    Permutation (contents t) (l ++ rest) -> delete_all t l = Some t' -> Permutation (contents t') rest.
  Proof.
    induction l as [|x l IH]; intros t t' rest S Dl P D; cbn in D; [injection D as <-; exact P|].
    destruct (t_delete t x) as [t1|] eqn:D1; [|discriminate].
    assert (Ix : In x (contents t)) by (apply (Permutation_in _ (Permutation_sym P)); now left).
    destruct (delete_effect_distinct t x _ t1 S (fun a Ia E => Dl a x Ia Ix E) D1) as [X _].
    destruct (X Ix) as (pre & post & E1 & E2).
    assert (P1 : Permutation (contents t1) (l ++ rest)).
    { rewrite E2. apply (Permutation_cons_inv (a := x)). rewrite <- P, E1. apply Permutation_middle. }
    apply (IH t1); auto.
    - eapply delete_sorted; eauto.
    - intros a b Ia Ib. apply Dl; eapply delete_in; eauto.
  Qed.

  (** ** Accesses *)
  Lemma same_cells (w wl w2 : world) : same_but_locks w wl -> same_but_locks wl w2 ->
    (forall a x, nth_error (w_cells w) a = Some x -> exists y, nth_error (w_cells w2) a = Some y /\ c_lock y = c_lock x) ->
    w2 = w.
  Proof.
    intros (C1 & G1 & L1 & P1 & H1 & K1 & O1) (C2 & G2 & L2 & P2 & H2 & K2 & O2) Lk.
    rewrite <- C2 in C1. clear C2.
    assert (E : w_cells w2 = w_cells w).
    { apply list_ext. intros a.
      assert (X : option_map sig (nth_error (w_cells w2) a) = option_map sig (nth_error (w_cells w) a))
        by (rewrite <- !nth_error_map; unfold sig; now rewrite C1).
      destruct (nth_error (w_cells w) a) as [x|] eqn:N.
      - destruct (Lk a x N) as (y & Ny & Ly). rewrite Ny in *. destruct x, y; unfold sig in X; cbn in *. congruence.
      - destruct (nth_error (w_cells w2) a); [discriminate|reflexivity]. }
    destruct w, w2; cbn in *. congruence.
  Qed.

  Lemma with_intervals_exact (sc : schema) (w : world) c ex ty all n l k :
    available Shared w [target_of c; ex] -> reads w (target_of c) = Some (DNode n) -> reads w ex = Some (DRes ty (RExtr all)) -> all n = Some l ->
    forall w' o, ends sc w (with_intervals c ex k) w' o <-> ends sc w (k (map (NI (id_of n)) l)) w' o.
  Proof.
    intros Av Rt Re An. destruct (C35_runs_once_on_current_values sc Shared w [target_of c; ex] [DNode n; DRes ty (RExtr all)] Av)
      as (la & wl & El & Sb & X); [discriminate|cbn; now rewrite Rt, Re|].
    unfold with_intervals.
    destruct la as [|a [|b [|? ?]]]; try discriminate.
    match goal with |- forall w' o, ends sc w (PAccess _ _ ?b0 ?k0) w' o <-> _ => destruct (X b0 k0) as [Y _] end.
    destruct (Y wl (RVal (VIntervals (map (NI (id_of n)) l)))) as (w2 & Sb2 & Lk & Z).
    { exists 1. cbn. now rewrite An. }
    pose proof (same_cells w wl w2 Sb Sb2 Lk). subst w2. exact Z.
  Qed.

  Lemma with_intervals_panics (sc : schema) (w : world) c ex ty all n k :
    available Shared w [target_of c; ex] -> reads w (target_of c) = Some (DNode n) -> reads w ex = Some (DRes ty (RExtr all)) -> all n = None ->
    forall w' o, ends sc w (with_intervals c ex k) w' o <-> w' = w /\ o = OPanic.
  Proof.
    intros Av Rt Re An. assert (Nd : Shared = Excl -> NoDup (live w [target_of c; ex])) by discriminate.
    destruct (available_acquire Shared w _ Av Nd) as (cs & A & Sg).
    destruct (proj1 (deref_all_reads w cs [target_of c; ex] Sg) [DNode n; DRes ty (RExtr all)]) as (l & El & D); [cbn; now rewrite Rt, Re|].
    destruct l as [|a [|b [|? ?]]]; try discriminate.
    assert (E : ends sc w (with_intervals c ex k) w OPanic).
    { exists 2. unfold with_intervals. cbn [run]. rewrite A, D. cbn [combine]. cbv beta iota. rewrite An.
      change (run sc 1 (set_cells cs w) PPanic) with (Some (set_cells cs w, @OPanic value)). cbv beta iota. f_equal. f_equal.
      exact (set_cells_id w _ (release_all _ _ _ _ _ A)). }
    intros w' o. split; [|intros [-> ->]; exact E]. intros E'.
    destruct (ends_det _ _ _ _ _ _ _ E E') as [<- <-]. auto.
  Qed.

  Lemma with_intervals_absent (sc : schema) (w : world) c ex k :
    available Shared w [target_of c; ex] -> reads w (target_of c) = None \/ reads w ex = None ->
    forall w' o, ends sc w (with_intervals c ex k) w' o <-> (w' = w /\ o = ORet RUnit).
  Proof.
    intros Av R w' o. unfold with_intervals. rewrite C35_absent_does_nothing; [|exact Av|discriminate|].
    - split; [intros [[|f] E]; [discriminate|]; cbn in E; injection E as <- <-; auto|]. intros [-> ->]. exists 1. reflexivity.
    - destruct R as [R|R]; eexists; (split; [|exact R]); cbn; auto.
  Qed.

  (** The world with the resource at [a] replaced. *)
  Definition set_tree (a : nat) (ty : type_id) (t : stree) (w : world) : world :=
    set_cells (alter (fun x => Cell (DRes ty (RTree t)) (c_poison x) (c_lock x)) a (w_cells w)) w.

  Lemma ends_ret (sc : schema) (w : world) r w' o : ends sc w (PRet r) w' o <-> w' = w /\ o = ORet r.
  Proof. split; [intros [[|f] E]; [discriminate|]; cbn in E; injection E as <- <-; auto|]. intros [-> ->]. exists 1. reflexivity. Qed.

  Lemma access_loops (sc : schema) (w : world) m hs body k cs held vs :
    acquire m hs (w_cells w) = AcqOk _ cs held -> deref_all cs hs held = Some vs ->
    (forall f, run sc f (set_cells cs w) (body vs) = None) -> forall fuel, run sc fuel w (PAccess m hs body k) = None.
  Proof. intros A D R [|f]; [reflexivity|]. cbn [run]. now rewrite A, D, R. Qed.

  (** The world with the resource at [a] poisoned. *)
  Definition spoil (a : nat) (w : world) : world := set_cells (alter (fun x => Cell (c_val x) true (c_lock x)) a (w_cells w)) w.

  Section Modify.
    Variables (sc : schema) (w : world) (h : handle) (a : nat) (ty : type_id) (t : stree) (body : list (nat * dyn Node resource) -> prog).
    Hypothesis Ea : h_addr h = Some a.
    Hypothesis Rd : reads w h = Some (DRes ty (RTree t)).
    Hypothesis Av : available Excl w [h].
    Notation p := (PAccess Excl [h] body (fun _ => PRet RUnit)).

    Lemma modify_cell : nth_error (w_cells w) a = Some (Cell (DRes ty (RTree t)) false Free) /\ ty_eqb (TyRes ty) (h_ty h) = true.
    Proof.
      unfold reads in Rd. rewrite Ea in Rd. destruct (Av h a (or_introl eq_refl) Ea) as (x & Nx & Lx).
      rewrite Nx in Rd. destruct x as [d q l]; cbn in *. destruct q; [discriminate|]. destruct (ty_eqb (ty_of d) (h_ty h)) eqn:T; [|discriminate].
      injection Rd as ->. subst l. auto.
    Qed.

    Lemma modify_acquires : acquire Excl [h] (w_cells w) = AcqOk _ (alter (lock_cell Excl) a (w_cells w)) [Some a] /\
      deref_all (alter (lock_cell Excl) a (w_cells w)) [h] [Some a] = Some [(a, DRes ty (RTree t))] /\
      nth_error (alter (lock_cell Excl) a (w_cells w)) a = Some (Cell (DRes ty (RTree t)) false Writer).
    Proof.
      destruct modify_cell as [N T].
      assert (Na : nth_error (alter (lock_cell Excl) a (w_cells w)) a = Some (Cell (DRes ty (RTree t)) false Writer)).
      { rewrite nth_error_alter, Nat.eqb_refl, N. reflexivity. }
      split; [|split; [|exact Na]].
      - cbn. unfold acquire1. rewrite Ea, N. reflexivity.
      - cbn [deref_all deref1]. rewrite Na. cbn [c_val ty_of]. rewrite T. reflexivity.
    Qed.

    Lemma modify_done t' : body [(a, DRes ty (RTree t))] = PPoke a (DRes ty (RTree t')) (PRet RUnit) ->
      forall w' o, ends sc w p w' o <-> w' = set_tree a ty t' w /\ o = ORet RUnit.
    Proof.
      intros Bd. destruct modify_cell as [N T]. destruct modify_acquires as (Acq & Der & Na).
      assert (E : ends sc w p (set_tree a ty t' w) (ORet RUnit)).
      { apply exec_run.
        assert (St : set_tree a ty t' w = set_cells (release false [Some a] (w_cells (set_tree a ty t' (set_cells (alter (lock_cell Excl) a (w_cells w)) w))))
                       (set_tree a ty t' (set_cells (alter (lock_cell Excl) a (w_cells w)) w))).
        { unfold set_tree, set_cells. cbn. f_equal. rewrite !alter_alter. apply list_ext. intros b.
          rewrite !nth_error_alter. destruct (Nat.eqb_spec a b) as [<-|_]; [|reflexivity]. rewrite N. reflexivity. }
        eapply XAccess; [exact Acq|exact Der| |rewrite <- St; apply XRet]. rewrite Bd.
        eapply XPoke; [exact Na|reflexivity|apply ty_eqb_refl|]. apply XRet. }
      intros w' o. split; [|intros [-> ->]; exact E]. intros E'.
      destruct (ends_det _ _ _ _ _ _ _ E E') as [<- <-]. auto.
    Qed.

    Lemma modify_panics : body [(a, DRes ty (RTree t))] = PPanic ->
      forall w' o, ends sc w p w' o <-> w' = spoil a w /\ o = OPanic.
    Proof.
      intros Bd. destruct modify_cell as [N T]. destruct modify_acquires as (Acq & Der & Na).
      assert (E : ends sc w p (spoil a w) OPanic).
      { apply exec_run.
        assert (St : spoil a w = set_cells (release true [Some a] (w_cells (set_cells (alter (lock_cell Excl) a (w_cells w)) w)))
                       (set_cells (alter (lock_cell Excl) a (w_cells w)) w)).
        { unfold spoil, set_cells. cbn. f_equal. rewrite !alter_alter. apply list_ext. intros b.
          rewrite !nth_error_alter. destruct (Nat.eqb_spec a b) as [<-|_]; [|reflexivity]. rewrite N. reflexivity. }
        rewrite St. eapply (XAccessPanic sc w Excl [h]); [exact Acq|exact Der|]. rewrite Bd. apply XPanic. }
      intros w' o. split; [|intros [-> ->]; exact E]. intros E'.
      destruct (ends_det _ _ _ _ _ _ _ E E') as [<- <-]. auto.
    Qed.

    Lemma modify_loops : body [(a, DRes ty (RTree t))] = PLoop -> diverges sc w p.
    Proof.
      intros Bd fuel. destruct modify_acquires as (Acq & Der & _). apply (access_loops sc w Excl [h] _ _ _ _ _ Acq Der). intros f. rewrite Bd. now destruct f.
    Qed.
  End Modify.

  Lemma ends_res (sc : schema) (w : world) t k w' o : ends sc w (PRes t k) w' o <-> ends sc w (k (res_from sc t)) w' o.
  Proof.
    split; intros [f E]; [destruct f as [|f]; [discriminate|]; exists f; exact E|exists (S f); exact E].
  Qed.

  Definition ready_for (ty_extr ty_tree_id : type_id) (sc : schema) (w : world) (c : ctx) : Prop :=
    available Shared w [target_of c; res_from sc ty_extr] /\ available Excl w [res_from sc ty_tree_id].

  (** ** The triggers, with panics *)
  Section Panicking.
    Context {FP : Panics ni B}.
    Variables ty_extr ty_tree_id : type_id.
    Notation on_save := (Plugin.on_save (O := O) (W := W) ty_extr ty_tree_id).
    Notation on_delete := (Plugin.on_delete (O := O) (W := W) ty_extr ty_tree_id).
    Variables (sc : schema) (w : world) (c : ctx) (n : Node) (ty : type_id) (all : Node -> option (list I)).
    Hypothesis Rdy : ready_for ty_extr ty_tree_id sc w c.
    Hypothesis Rt : reads w (target_of c) = Some (DNode n).
    Hypothesis Re : reads w (res_from sc ty_extr) = Some (DRes ty (RExtr all)).

    Lemma extractor_panics : all n = None ->
      forall w' o, (ends sc w (on_save c) w' o <-> w' = w /\ o = OPanic) /\ (ends sc w (on_delete c) w' o <-> w' = w /\ o = OPanic).
    Proof.
      intros An w' o. destruct Rdy as [A1 A2]. unfold Plugin.on_save, Plugin.on_delete. rewrite !ends_res, !(with_intervals_panics sc w c _ ty all n _ A1 Rt Re An). tauto.
    Qed.

    Variables (l : list I) (ty' : type_id) (t : stree) (a : nat).
    Hypothesis An : all n = Some l.
    Hypothesis Ea : h_addr (res_from sc ty_tree_id) = Some a.
    Hypothesis Rd : reads w (res_from sc ty_tree_id) = Some (DRes ty' (RTree t)).
    Notation xs := (map (NI (id_of n)) l).

    Lemma on_save_done : insert_all_panics t xs = false ->
      forall w' o, ends sc w (on_save c) w' o <-> w' = set_tree a ty' (insert_all t xs) w /\ o = ORet RUnit.
    Proof.
      intros Np w' o. destruct Rdy as [A1 A2]. unfold Plugin.on_save. rewrite !ends_res, (with_intervals_exact sc w c _ ty all n l _ A1 Rt Re An).
      apply (modify_done sc w _ a ty' t _ Ea Rd A2). cbv beta iota. now rewrite Np.
    Qed.

    Lemma on_save_breaks : insert_all_panics t xs = true ->
      forall w' o, ends sc w (on_save c) w' o <-> w' = spoil a w /\ o = OPanic.
    Proof.
      intros Np w' o. destruct Rdy as [A1 A2]. unfold Plugin.on_save. rewrite !ends_res, (with_intervals_exact sc w c _ ty all n l _ A1 Rt Re An).
      apply (modify_panics sc w _ a ty' t _ Ea Rd A2). cbv beta iota. now rewrite Np.
    Qed.

    Lemma on_delete_done t' : delete_all_panics t xs = false -> delete_all t xs = Some t' ->
      forall w' o, ends sc w (on_delete c) w' o <-> w' = set_tree a ty' t' w /\ o = ORet RUnit.
    Proof.
      intros Np D w' o. destruct Rdy as [A1 A2]. unfold Plugin.on_delete. rewrite !ends_res, (with_intervals_exact sc w c _ ty all n l _ A1 Rt Re An).
      apply (modify_done sc w _ a ty' t _ Ea Rd A2). cbv beta iota. now rewrite Np, D.
    Qed.

    Lemma on_delete_breaks : delete_all_panics t xs = true ->
      forall w' o, ends sc w (on_delete c) w' o <-> w' = spoil a w /\ o = OPanic.
    Proof.
      intros Np w' o. destruct Rdy as [A1 A2]. unfold Plugin.on_delete. rewrite !ends_res, (with_intervals_exact sc w c _ ty all n l _ A1 Rt Re An).
      apply (modify_panics sc w _ a ty' t _ Ea Rd A2). cbv beta iota. now rewrite Np.
    Qed.

    Lemma on_delete_loops : delete_all_panics t xs = false -> delete_all t xs = None -> diverges sc w (on_delete c).
    Proof.
      intros Np D fuel. destruct Rdy as [A1 A2]. destruct (run sc fuel w (on_delete c)) as [[w' o]|] eqn:R; [exfalso|reflexivity].
      assert (E : ends sc w (on_delete c) w' o) by (exists fuel; exact R). unfold Plugin.on_delete in E.
      rewrite !ends_res, (with_intervals_exact sc w c _ ty all n l _ A1 Rt Re An) in E. destruct E as [f E].
      rewrite (modify_loops sc w _ a ty' t _ Ea Rd A2) in E; [discriminate|]. cbv beta iota. now rewrite Np, D.
    Qed.
  End Panicking.

  Lemma no_insert_panics l : forall t : stree, insert_all_panics t l = false.
  Proof. induction l as [|x l IH]; intros t; [reflexivity|]. apply IH. Qed.
  Lemma no_delete_panics l : forall t : stree, delete_all_panics t l = false.
  Proof. induction l as [|x l IH]; intros t; [reflexivity|]. cbn. destruct (t_delete t x); [apply IH|reflexivity]. Qed.

  Variables ty_extr ty_tree_id : type_id.
  Notation on_save := (Plugin.on_save (O := O) (W := W) ty_extr ty_tree_id).
  Notation on_delete := (Plugin.on_delete (O := O) (W := W) ty_extr ty_tree_id).
  Notation plugged := (SpecPlugin.plugged (O := O) (W := W) ty_extr ty_tree_id).
  Notation index := (SpecPlugin.index (O := O) (W := W) ty_tree_id).
  Notation ready := (ready_for ty_extr ty_tree_id).
  Notation calm all := (fun n => Some (all n)).

  (** ** The triggers, without panics *)
  Lemma on_save_exact (sc : schema) (w : world) c n ty (all : Node -> list I) ty' t a :
    ready sc w c -> reads w (target_of c) = Some (DNode n) -> reads w (res_from sc ty_extr) = Some (DRes ty (RExtr (calm all))) ->
    h_addr (res_from sc ty_tree_id) = Some a -> reads w (res_from sc ty_tree_id) = Some (DRes ty' (RTree t)) ->
    forall w' o, ends sc w (on_save c) w' o <-> w' = set_tree a ty' (insert_all t (intervals_of all n)) w /\ o = ORet RUnit.
  Proof.
    intros Rdy Rt Re Ea Rd. apply (on_save_done _ _ sc w c n ty _ Rdy Rt Re (all n) ty' t a eq_refl Ea Rd). apply no_insert_panics.
  Qed.

  Lemma on_delete_exact (sc : schema) (w : world) c n ty (all : Node -> list I) ty' t a :
    ready sc w c -> reads w (target_of c) = Some (DNode n) -> reads w (res_from sc ty_extr) = Some (DRes ty (RExtr (calm all))) ->
    h_addr (res_from sc ty_tree_id) = Some a -> reads w (res_from sc ty_tree_id) = Some (DRes ty' (RTree t)) ->
    match delete_all t (intervals_of all n) with
    | Some t' => forall w' o, ends sc w (on_delete c) w' o <-> w' = set_tree a ty' t' w /\ o = ORet RUnit
    | None => diverges sc w (on_delete c)
    end.
  Proof.
    intros Rdy Rt Re Ea Rd. destruct (delete_all t (intervals_of all n)) as [t'|] eqn:D.
    - apply (on_delete_done _ _ sc w c n ty _ Rdy Rt Re (all n) ty' t a eq_refl Ea Rd); [apply no_delete_panics|exact D].
    - apply (on_delete_loops _ _ sc w c n ty _ Rdy Rt Re (all n) ty' t a eq_refl Ea Rd); [apply no_delete_panics|exact D].
  Qed.

  (** Without the tree, or the extractor, or the target: nothing. *)
  Lemma on_save_inert (sc : schema) (w : world) c : ready sc w c ->
    (forall d, reads w (target_of c) = Some d -> exists n, d = DNode n) ->
    (forall d, reads w (res_from sc ty_extr) = Some d -> exists all : Node -> list I, d = DRes ty_extr (RExtr (calm all))) ->
    reads w (target_of c) = None \/ reads w (res_from sc ty_extr) = None \/ reads w (res_from sc ty_tree_id) = None ->
    forall w' o, (ends sc w (on_save c) w' o <-> w' = w /\ o = ORet RUnit) /\
                 (ends sc w (on_delete c) w' o <-> w' = w /\ o = ORet RUnit).
  Proof.
    intros [A1 A2] Tt Te R w' o. unfold Plugin.on_save, Plugin.on_delete. rewrite !ends_res.
    destruct (reads w (target_of c)) as [dt|] eqn:Rt; [|rewrite !with_intervals_absent by auto; tauto].
    destruct (reads w (res_from sc ty_extr)) as [de|] eqn:Re; [|rewrite !with_intervals_absent by auto; tauto].
    destruct R as [R|[R|R]]; try discriminate. destruct (Tt _ eq_refl) as [n ->]. destruct (Te _ eq_refl) as [all ->].
    rewrite !(with_intervals_exact sc w c _ ty_extr _ n (all n) _ A1 Rt Re eq_refl).
    assert (Nd : Excl = Excl -> NoDup (live w [res_from sc ty_tree_id])).
    { intros _. unfold live. cbn. destruct (bt_get ty_tree_id (sc_resources sc)); [|constructor].
      destruct (nth_error _ _) as [[? [] ?]|]; cbn; repeat constructor; intros []. }
    assert (Ex : exists h, In h [res_from sc ty_tree_id] /\ reads w h = None) by (eexists; split; [left; reflexivity|exact R]).
    rewrite !C35_absent_does_nothing by assumption. rewrite !ends_ret. tauto.
  Qed.

  (** ** Save and Delete with the plugin *)
  Lemma reads_set_tree (w : world) h a ty t x : nth_error (w_cells w) a = Some x ->
    reads (set_tree a ty t w) h =
    (if match h_addr h with Some b => Nat.eqb a b | None => false end
     then if c_poison x then None else if ty_eqb (TyRes ty) (h_ty h) then Some (DRes ty (RTree t)) else None
     else reads w h).
  Proof.
    intros N. unfold reads, set_tree. cbn [w_cells set_cells]. destruct (h_addr h) as [b|]; [|reflexivity].
    rewrite nth_error_alter. destruct (Nat.eqb_spec a b) as [<-|_]; [|reflexivity]. rewrite N. cbn. now destruct (c_poison x).
  Qed.

  Lemma reads_with_target (w : world) n h d : reads w h = Some d -> reads (with_target n w) h = Some d.
  Proof.
    unfold reads, with_target. cbn [w_cells set_cells]. destruct (h_addr h) as [a|]; [|auto].
    destruct (nth_error (w_cells w) a) as [x|] eqn:N; [|discriminate].
    rewrite nth_error_app1 by (apply nth_error_Some; congruence). now rewrite N.
  Qed.

  Lemma reads_addr (w : world) h d : reads w h = Some d -> exists a x, h_addr h = Some a /\
    nth_error (w_cells w) a = Some x /\ c_poison x = false /\ c_val x = d /\ ty_eqb (ty_of d) (h_ty h) = true.
  Proof.
    unfold reads. destruct (h_addr h) as [a|]; [|discriminate]. destruct (nth_error (w_cells w) a) as [[d' p l]|] eqn:N; [|discriminate].
    destruct p; [discriminate|]. destruct (ty_eqb (ty_of d') (h_ty h)) eqn:T; [|discriminate]. intros [= <-].
    exists a. eexists. repeat split; eauto.
  Qed.

  Lemma plugged_ready all (sc : schema) (w : world) n c : plugged all sc w ->
    ctx_target c = Some (length (w_cells w)) -> forall w1, w_cells w1 = w_cells (with_target n w) ->
    ready sc w1 c /\ reads w1 (target_of c) = Some (DNode n) /\ reads w1 (res_from sc ty_extr) = Some (DRes ty_extr (RExtr (calm all))) /\
    (forall t, reads w (res_from sc ty_tree_id) = Some (DRes ty_tree_id (RTree t)) ->
       reads w1 (res_from sc ty_tree_id) = Some (DRes ty_tree_id (RTree t))).
  Proof.
    intros P Tc w1 Ec.
    assert (Rw : forall h, reads w1 h = reads (with_target n w) h) by (intros h; unfold reads; now rewrite Ec).
    assert (Fr : forall a x, nth_error (w_cells w1) a = Some x -> c_lock x = Free).
    { intros a x. rewrite Ec. unfold with_target; cbn. destruct (Nat.lt_ge_cases a (length (w_cells w))) as [L|L].
      - rewrite nth_error_app1 by exact L. apply (pl_idle _ _ _ _ _ P).
      - rewrite nth_error_app2 by exact L. destruct (a - length (w_cells w)) as [|[|k]]; cbn; [intros [= <-]; reflexivity|discriminate..]. }
    assert (Rt : reads w1 (target_of c) = Some (DNode n)).
    { rewrite Rw. unfold reads, target_of, with_target; cbn. rewrite Tc, nth_error_app2, Nat.sub_diag by lia. reflexivity. }
    assert (Re : reads w1 (res_from sc ty_extr) = Some (DRes ty_extr (RExtr (calm all)))).
    { rewrite Rw. apply reads_with_target. apply P. }
    assert (Rd : forall t, reads w (res_from sc ty_tree_id) = Some (DRes ty_tree_id (RTree t)) ->
       reads w1 (res_from sc ty_tree_id) = Some (DRes ty_tree_id (RTree t))).
    { intros t R. rewrite Rw. now apply reads_with_target. }
    assert (Av : forall m h d, reads w1 h = Some d -> forall a, h_addr h = Some a -> exists x, nth_error (w_cells w1) a = Some x /\
      match m with Excl => c_lock x = Free | Shared => c_lock x <> Writer end).
    { intros m h d R a Ea. destruct (reads_addr w1 h d R) as (a' & x & Ea' & N & _). assert (a' = a) by congruence. subst a'.
      exists x. split; [exact N|]. rewrite (Fr _ _ N). destruct m; congruence. }
    split; [|auto]. destruct (pl_tree _ _ _ _ _ P) as (t & R & _). apply Rd in R. split.
    - intros h a [<-|[<-|[]]] Ea; [apply (Av Shared _ _ Rt a Ea)|apply (Av Shared _ _ Re a Ea)].
    - intros h a [<-|[]] Ea. apply (Av Excl _ _ R a Ea).
  Qed.

  Lemma plugged_set all (sc : schema) (w w1 w' : world) n a t : plugged all sc w ->
    h_addr (res_from sc ty_tree_id) = Some a -> w_cells w1 = w_cells (with_target n w) ->
    w_cells w' = w_cells (set_tree a ty_tree_id t w1) -> sorted_lo (contents t) ->
    plugged all sc w' /\ reads w' (res_from sc ty_tree_id) = Some (DRes ty_tree_id (RTree t)) /\
    (forall h, reads w h <> None -> h_addr h <> Some a -> reads w' h = reads w h).
  Proof.
    intros P Ea Ec Ec' S.
    destruct (pl_tree _ _ _ _ _ P) as (t0 & R0 & _). destruct (reads_addr _ _ _ R0) as (a' & x & Ea' & N & Px & Vx & Tx).
    assert (a' = a) by congruence. subst a'.
    assert (N1 : nth_error (w_cells w1) a = Some x).
    { rewrite Ec. unfold with_target; cbn. rewrite nth_error_app1 by (apply nth_error_Some; congruence). exact N. }
    assert (Rw : forall h, reads w' h = reads (set_tree a ty_tree_id t w1) h) by (intros h; unfold reads; now rewrite Ec').
    assert (Rt : reads w' (res_from sc ty_tree_id) = Some (DRes ty_tree_id (RTree t))).
    { rewrite Rw, (reads_set_tree w1 _ a _ _ x N1), Ea, Nat.eqb_refl, Px. cbn. now rewrite Nat.eqb_refl. }
    assert (Ro : forall h, reads w h <> None -> h_addr h <> Some a -> reads w' h = reads w h).
    { intros h Nn Na. rewrite Rw, (reads_set_tree w1 _ a _ _ x N1).
      assert (F : match h_addr h with Some b => Nat.eqb a b | None => false end = false)
        by (destruct (h_addr h) as [b|]; [apply Nat.eqb_neq; congruence|reflexivity]).
      rewrite F. unfold reads at 1. rewrite Ec. fold (reads (with_target n w) h).
      destruct (reads w h) as [d|] eqn:E; [|congruence]. now apply reads_with_target. }
    split; [|split; [exact Rt|exact Ro]].
    constructor; try apply P.
    - rewrite Ro; [apply P|rewrite (pl_extr _ _ _ _ _ P); discriminate|].
      intros Eb. pose proof (pl_extr _ _ _ _ _ P) as Re. destruct (reads_addr _ _ _ Re) as (b & y & Eb' & Ny & Py & Vy & Ty).
      rewrite Eb in Eb'. injection Eb' as <-. rewrite N in Ny. injection Ny as <-. rewrite Vx in Vy. discriminate.
    - exists t. auto.
    - intros b y. rewrite Ec'. unfold set_tree; cbn. rewrite nth_error_alter, Ec. unfold with_target; cbn.
      assert (Fr : forall b y, nth_error (w_cells w ++ [Cell (DNode n) false Free]) b = Some y -> c_lock y = Free).
      { intros b' y'. destruct (Nat.lt_ge_cases b' (length (w_cells w))) as [L|L].
        - rewrite nth_error_app1 by exact L. apply (pl_idle _ _ _ _ _ P).
        - rewrite nth_error_app2 by exact L. destruct (b' - length (w_cells w)) as [|[|k]]; cbn; [intros [= <-]; reflexivity|discriminate..]. }
      destruct (Nat.eqb a b); [|apply Fr]. destruct (nth_error (w_cells w ++ _) b) as [z|] eqn:Nz; [|discriminate].
      cbn. intros [= <-]. cbn. eapply Fr; eauto.
  Qed.

  Lemma firstn_alter_last (h : heap Id Node) f : firstn (length h) (alter f (length h) (h ++ [[]])) = h.
  Proof. induction h as [|x h IH]; [reflexivity|]. cbn. now rewrite IH. Qed.

  (** The closure of [Save] on any context. *)
  Lemma save_body_plugged all (sc : schema) (w : world) n t c0 :
    plugged all sc w -> reads w (res_from sc ty_tree_id) = Some (DRes ty_tree_id (RTree t)) ->
    exists w', exec sc w (save_body n c0) w' (ORet RUnit) /\ w_graph w' = w_graph w /\
      plugged all sc w' /\ reads w' (res_from sc ty_tree_id) = Some (DRes ty_tree_id (RTree (insert_all t (intervals_of all n)))).
  Proof.
    intros P R. set (c := after_target c0 w).
    set (w1 := with_target n w). set (w2 := set_heap (ctx_save (w_heap w1) c n) w1).
    assert (Rt1 : reads w1 (target_of c) = Some (DNode n)).
    { unfold reads, w1, with_target, target_of. cbn [h_addr]. unfold c. rewrite target_of_after.
      cbn. rewrite nth_error_app2, Nat.sub_diag by lia. reflexivity. }
    destruct (reads_addr _ _ _ R) as (a & x & Ea & N & Px & Vx & Tx).
    assert (Ec2 : w_cells w2 = w_cells (with_target n w)) by reflexivity.
    destruct (plugged_ready all sc w n c P (target_of_after c0 w) w2 Ec2) as (Rdy & Rt & Re & Rd). specialize (Rd t R).
    set (t' := insert_all t (intervals_of all n)). exists (set_tree a ty_tree_id t' w2). split.
    - apply exec_save_body. right. exists w1. rewrite (pl_before_save _ _ _ _ _ P). split; [constructor|].
      rewrite (pl_after_save _ _ _ _ _ P). left. split; [reflexivity|].
      fold c. unfold save_step. rewrite Rt1. fold w2.
      apply (as_cons sc c _ [] w2 (set_tree a ty_tree_id t' w2) _ RUnit); [|discriminate|constructor].
      apply (on_save_exact sc w2 c n ty_extr all ty_tree_id t a Rdy Rt Re Ea Rd). split; reflexivity.
    - split; [reflexivity|]. destruct (pl_tree _ _ _ _ _ P) as (t0 & R0 & S). rewrite R in R0. injection R0 as <-.
      destruct (plugged_set all sc w w2 (set_tree a ty_tree_id t' w2) n a t' P Ea Ec2 eq_refl (insert_all_sorted _ _ S)) as (P' & Ix & _). auto.
  Qed.

  Lemma classic_between (x : ni) (t : stree) : between_children x t \/ ~ between_children x t.
  Proof.
    destruct (delete 0 t x) as [t'|] eqn:D.
    - right. apply delete_terminates_iff. exists 0, t'. exact D.
    - left. rewrite between_stuck. destruct (found_total x t) as [s F]. exists s. split; [exact F|].
      destruct (stuck_dec x s) as [St|St]; [exact St|]. exfalso.
      destruct (delete_returns x t s F St 0) as (t' & D' & _). rewrite D' in D. discriminate.
  Qed.

  Lemma save_plugged all (sc : schema) (w : world) n t :
    plugged all sc w -> reads w (res_from sc ty_tree_id) = Some (DRes ty_tree_id (RTree t)) ->
    w_lock w = GFree -> fresh w -> g_wf (w_graph w) ->
    exists w', ends sc w (p_save n (TxBg None) PRet) w' (ORet RUnit) /\
      (forall i, g_get (w_graph w') i = base_set (id_of n) (Some n) (g_get (w_graph w)) i) /\
      plugged all sc w' /\ reads w' (res_from sc ty_tree_id) = Some (DRes ty_tree_id (RTree (insert_all t (intervals_of all n)))) /\
      w_lock w' = GFree /\ w_heap w' = w_heap w /\ fresh w' /\ g_wf (w_graph w').
  Proof.
    intros P R L Fr Wf. set (c := bg_target_ctx w).
    set (w1 := with_target n (bg_open w)).
    set (w2 := set_heap (ctx_save (w_heap w1) c n) w1).
    assert (Rt1 : reads w1 (target_of c) = Some (DNode n)).
    { unfold reads, w1, with_target; cbn. rewrite nth_error_app2, Nat.sub_diag by lia. reflexivity. }
    destruct (reads_addr _ _ _ R) as (a & x & Ea & N & Px & Vx & Tx).
    assert (Ec2 : w_cells w2 = w_cells (with_target n w)) by reflexivity.
    destruct (plugged_ready all sc w n c P eq_refl w2 Ec2) as (Rdy & Rt & Re & Rd). specialize (Rd t R).
    set (t' := insert_all t (intervals_of all n)).
    assert (E : exec sc (bg_open w) (save_body n (bg_ctx w)) (set_tree a ty_tree_id t' w2) (ORet RUnit)).
    { apply exec_save_body. right. exists w1. rewrite (pl_before_save _ _ _ _ _ P). split; [constructor|].
      rewrite (pl_after_save _ _ _ _ _ P). left. split; [reflexivity|].
      change (after_target (bg_ctx w) (bg_open w)) with c. unfold save_step. rewrite Rt1. fold w2.
      apply (as_cons sc c _ [] w2 (set_tree a ty_tree_id t' w2) _ RUnit); [|discriminate|constructor].
      apply (on_save_exact sc w2 c n ty_extr all ty_tree_id t a Rdy Rt Re Ea Rd). split; reflexivity. }
    assert (Lk : leaked (set_tree a ty_tree_id t' w2) (length (w_heap w)) = false) by exact Fr.
    eexists. split; [apply exec_run; eapply XBgOk; [exact L|exact E|reflexivity|unfold bg_commit; rewrite Lk; reflexivity|apply XRet]|].
    destruct (pl_tree _ _ _ _ _ P) as (t0 & R0 & S). rewrite R in R0. injection R0 as <-.
    match goal with |- context [close ?b ?v] => set (w' := close b v) end.
    destruct (plugged_set all sc w w2 w' n a t' P Ea Ec2 eq_refl (insert_all_sorted _ _ S)) as (P' & Ix & _).
    assert (G : w_graph w' = apply_ops (w_graph w) [OSave n]).
    { change (w_graph w') with (apply_ops (w_graph w) (buf_ops (buf_push (w_heap w ++ [[]]) (length (w_heap w)) (OSave n)) (length (w_heap w)))).
      rewrite buf_ops_push_eq by (rewrite app_length; cbn; lia). rewrite buf_ops_open. unfold buf_ops. rewrite nth_overflow by lia. reflexivity. }
    split; [intros i; rewrite G, replay_apply_ops by exact Wf; reflexivity|]. split; [exact P'|]. split; [exact Ix|].
    split; [reflexivity|]. split; [apply firstn_alter_last|]. split.
    - unfold fresh, leaked, w', close; cbn. rewrite firstn_alter_last.
      apply not_true_is_false. intros X. apply existsb_exists in X as (b & Ib & Eb). apply Nat.eqb_eq in Eb. subst b.
      apply filter_In in Ib as [_ Lt]. apply Nat.ltb_lt in Lt. lia.
    - rewrite G. now apply apply_ops_wf.
  Qed.

  Lemma delete_plugged all (sc : schema) (w : world) i n t :
    plugged all sc w -> reads w (res_from sc ty_tree_id) = Some (DRes ty_tree_id (RTree t)) ->
    w_lock w = GFree -> fresh w -> g_wf (w_graph w) -> g_get (w_graph w) i = Some n ->
    match delete_all t (intervals_of all n) with
    | Some t' =>
      exists w', ends sc w (p_delete i (TxBg None) PRet) w' (ORet RUnit) /\
        (forall j, g_get (w_graph w') j = base_set i None (g_get (w_graph w)) j) /\
        plugged all sc w' /\ reads w' (res_from sc ty_tree_id) = Some (DRes ty_tree_id (RTree t')) /\
        w_lock w' = GFree /\ w_heap w' = w_heap w /\ fresh w' /\ g_wf (w_graph w')
    | None => diverges sc w (p_delete i (TxBg None) PRet)
    end.
  Proof.
    intros P R L Fr Wf Gi. set (c := bg_target_ctx w).
    set (w1 := with_target n (bg_open w)).
    set (w2 := set_heap (ctx_delete (w_heap w1) c i) w1).
    destruct (reads_addr _ _ _ R) as (a & x & Ea & N & Px & Vx & Tx).
    assert (Ec2 : w_cells w2 = w_cells (with_target n w)) by reflexivity.
    destruct (plugged_ready all sc w n c P eq_refl w2 Ec2) as (Rdy & Rt & Re & Rd). specialize (Rd t R).
    pose proof (on_delete_exact sc w2 c n ty_extr all ty_tree_id t a Rdy Rt Re Ea Rd) as OD.
    destruct (pl_tree _ _ _ _ _ P) as (t0 & R0 & S). rewrite R in R0. injection R0 as <-.
    destruct (delete_all t (intervals_of all n)) as [t'|] eqn:D.
    - assert (E : exec sc (bg_open w) (delete_body i (bg_ctx w)) (set_tree a ty_tree_id t' w2) (ORet RUnit)).
      { apply exec_delete_body. rewrite open_view_root, Gi. right. exists w1. rewrite (pl_before_delete _ _ _ _ _ P). split; [constructor|].
        rewrite (pl_after_delete _ _ _ _ _ P). left. split; [reflexivity|].
        change (after_target (bg_ctx w) (bg_open w)) with c. change (delete_step c i w1) with w2.
        apply (as_cons sc c _ [] w2 (set_tree a ty_tree_id t' w2) _ RUnit); [|discriminate|constructor]. apply OD. split; reflexivity. }
      assert (Lk : leaked (set_tree a ty_tree_id t' w2) (length (w_heap w)) = false) by exact Fr.
      eexists. split; [apply exec_run; eapply XBgOk; [exact L|exact E|reflexivity|unfold bg_commit; rewrite Lk; reflexivity|apply XRet]|].
      match goal with |- context [close ?b ?v] => set (w' := close b v) end.
      destruct (plugged_set all sc w w2 w' n a t' P Ea Ec2 eq_refl (delete_all_sorted _ _ _ D S)) as (P' & Ix & _).
      assert (G : w_graph w' = apply_ops (w_graph w) [ODelete i]).
    { change (w_graph w') with (apply_ops (w_graph w) (buf_ops (buf_push (w_heap w ++ [[]]) (length (w_heap w)) (ODelete i)) (length (w_heap w)))).
      rewrite buf_ops_push_eq by (rewrite app_length; cbn; lia). rewrite buf_ops_open. unfold buf_ops. rewrite nth_overflow by lia. reflexivity. }
      split; [intros j; rewrite G, replay_apply_ops by exact Wf; reflexivity|]. split; [exact P'|]. split; [exact Ix|].
      split; [reflexivity|]. split; [apply firstn_alter_last|]. split.
      + unfold fresh, leaked, w', close; cbn. rewrite firstn_alter_last.
        apply not_true_is_false. intros X. apply existsb_exists in X as (b & Ib & Eb). apply Nat.eqb_eq in Eb. subst b.
        apply filter_In in Ib as [_ Lt]. apply Nat.ltb_lt in Lt. lia.
      + rewrite G. now apply apply_ops_wf.
    - intros [|fuel]; [reflexivity|]. unfold p_delete. cbn [run]. rewrite L.
      destruct (run sc fuel _ (delete_body i _)) as [[v o]|] eqn:E; [|reflexivity]. exfalso.
      revert E. fold (bg_open w). fold (bg_ctx w). destruct fuel as [|fuel]; [discriminate|]. unfold delete_body. cbn [run].
      change (ctx_get (w_heap (bg_open w)) (w_graph (bg_open w)) (bg_ctx w) i) with (view (bg_open w) (bg_ctx w) i).
      rewrite open_view_root, Gi. destruct fuel as [|fuel]; [discriminate|]. cbn [run].
      change (ctx_with_target (bg_ctx w) (length (w_cells (bg_open w)))) with c.
      change (set_cells (w_cells (bg_open w) ++ [Cell (DNode n) false Free]) (bg_open w)) with w1.
      destruct fuel as [|fuel]; [discriminate|]. cbn [run]. rewrite select_scheduled, (pl_before_delete _ _ _ _ _ P).
      destruct fuel as [|fuel]; [discriminate|]. cbn [run try_for_each try_].
      destruct fuel as [|fuel]; [discriminate|]. cbn [run]. change (set_heap _ w1) with w2.
      rewrite select_scheduled, (pl_after_delete _ _ _ _ _ P).
      destruct fuel as [|fuel]; [discriminate|]. cbn [run try_for_each]. rewrite OD. discriminate.
  Qed.
End Facts.
