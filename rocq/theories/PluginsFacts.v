(** Facts about several interval plugins on one schema, and about their panics. *)
From Coq Require Import List Bool Arith Lia.
From Verif Require Import Ord OrdFacts BTree BTreeFacts Graph GraphFacts Tx SpecTx TxFacts Interval SpecInterval IntervalFacts
  Prog SpecProg ProgFacts ProgFrame ProgTx ProgOps ProgRes P_Res P_Ops Plugin SpecPlugin PluginFacts PluginScripts SpecPlugins.
Import ListNotations.

Section Facts.
  Context {Id Node I B O W : Type} `{HO : OrdT Id} `{HI : Identify Node Id} `{HB : OrdT B} `{HV : Interval I B} `{HP : PartialEq I} {FP : Panics (node_interval Id I) B}.
  Notation ni := (node_interval Id I).
  Notation stree := (tree ni B).
  Notation value := (value Id I W).
  Notation resource := (resource Id Node I B O).
  Notation world := (world Id Node value resource).
  Notation schema := (schema Id Node value resource).
  Notation prog := (prog Id Node value resource).
  Notation script := (@script Id Node I W).
  Notation trees := (@trees Id I B).
  Notation extractors := (@extractors Node I).
  Notation fitted := (SpecPlugins.fitted (O := O) (W := W)).
  Notation compiled := (SpecPlugin.compiled (B := B) (O := O)).
  Notation session := (SpecPlugin.session (B := B) (O := O)).
  Notation trigger := (trigger Id Node value resource).

  (** ** Trees *)
  Lemma inserting_all (l : list ni) : forall t : stree,
    inserting t l = if insert_all_panics t l then Broken None else Done (Some (insert_all t l)).
  Proof.
    induction l as [|x l IH]; intros t; [reflexivity|]. cbn. destruct (insert_panics t x); [reflexivity|]. cbn. apply IH.
  Qed.

  Lemma deleting_all (l : list ni) : forall t : stree,
    deleting t l = if delete_all_panics t l then Broken None
      else match delete_all t l with Some t' => Done (Some t') | None => Endless end.
  Proof.
    induction l as [|x l IH]; intros t; [reflexivity|]. cbn. destruct (delete_panics t x); [reflexivity|]. cbn.
    destruct (t_delete t x); [apply IH|reflexivity].
  Qed.

  Notation tree_of ty o := (option_map (fun t => DRes ty (RTree t)) o).

  (** ** The world, apart from its cells *)
  Definition recelled (w w' : world) : Prop := exists cs, w' = set_cells cs w.

  Lemma recelled_refl (w : world) : recelled w w.
  Proof. exists (w_cells w). now destruct w. Qed.
  Lemma recelled_trans (w1 w2 w3 : world) : recelled w1 w2 -> recelled w2 w3 -> recelled w1 w3.
  Proof. intros [c1 ->] [c2 ->]. exists c2. reflexivity. Qed.

  Lemma fitted_cells ps ex sc (w w' : world) x : w_cells w' = w_cells w -> fitted ps ex sc w x -> fitted ps ex sc w' x.
  Proof.
    intros E F. assert (Rw : forall h, reads w' h = reads w h) by (intros h; unfold reads; now rewrite E).
    destruct F. constructor; auto; try (intros p Ip; rewrite Rw; auto); rewrite E; auto.
  Qed.

  Lemma nth_with_target (w : world) n a : nth_error (w_cells (with_target n w)) a =
    if Nat.ltb a (length (w_cells w)) then nth_error (w_cells w) a
    else if Nat.eqb a (length (w_cells w)) then Some (Cell (DNode n) false Free) else None.
  Proof.
    unfold with_target; cbn [set_cells w_cells]. destruct (Nat.ltb_spec a (length (w_cells w))) as [L|L].
    - rewrite nth_error_app1 by exact L. reflexivity.
    - rewrite nth_error_app2 by exact L. destruct (Nat.eqb_spec a (length (w_cells w))) as [-> |Ne]; [now rewrite Nat.sub_diag|].
      destruct (a - length (w_cells w)) as [|[|k]] eqn:Ek; cbn; [lia|reflexivity|reflexivity].
  Qed.

  Lemma fitted_target ps ex sc (w : world) n x : fitted ps ex sc w x -> fitted ps ex sc (with_target n w) x.
  Proof.
    intros F. assert (Rw : forall ty, reads (with_target n w) (res_from sc ty) = reads w (res_from sc ty)).
    { intros ty. unfold reads. destruct (h_addr (res_from sc ty)) as [a|] eqn:Ea; [|reflexivity].
      pose proof (ft_known _ _ _ _ _ F ty a Ea) as L. rewrite nth_with_target. apply Nat.ltb_lt in L. now rewrite L. }
    constructor; try apply F.
    - intros p Ip. rewrite Rw. now apply F.
    - intros p Ip. rewrite Rw. now apply F.
    - intros a y. rewrite nth_with_target. destruct (Nat.ltb_spec a (length (w_cells w))) as [L|L]; [apply F|].
      destruct (Nat.eqb a _); [intros [= <-]; reflexivity|discriminate].
    - intros ty a Ea. pose proof (ft_known _ _ _ _ _ F ty a Ea). unfold with_target; cbn. rewrite app_length. cbn. lia.
  Qed.

  (** A tree written, or lost. *)
  Definition retree (a : nat) (ty : type_id) (o : option stree) (w : world) : world :=
    match o with Some t => set_tree a ty t w | None => spoil a w end.

  Lemma retree_recelled a ty o (w : world) : recelled w (retree a ty o w).
  Proof. destruct o; eexists; reflexivity. Qed.

  Lemma reads_retree (sc : schema) (w : world) ty a t o u : h_addr (res_from sc ty) = Some a ->
    reads w (res_from sc ty) = Some (DRes ty (RTree t)) ->
    reads (retree a ty o w) (res_from sc u) = if Nat.eqb u ty then tree_of ty o else reads w (res_from sc u).
  Proof.
    intros Ea R. destruct (reads_addr _ _ _ R) as (a' & y & Ea' & N & Py & Vy & _). assert (a' = a) by congruence. subst a'.
    assert (X : forall h, reads (retree a ty o w) h =
      if match h_addr h with Some b => Nat.eqb a b | None => false end
      then match o with Some t => if ty_eqb (TyRes ty) (h_ty h) then Some (DRes ty (RTree t)) else None | None => None end
      else reads w h).
    { intros h. destruct o as [t'|].
      - cbn [retree]. rewrite (reads_set_tree w h a ty t' y N), Py. reflexivity.
      - unfold retree, spoil, reads; cbn [w_cells set_cells]. destruct (h_addr h) as [b|]; [|reflexivity].
        rewrite nth_error_alter. destruct (Nat.eqb_spec a b) as [<-|_]; [now rewrite N|reflexivity]. }
    rewrite X. destruct (Nat.eqb_spec u ty) as [-> |Ne].
    - rewrite Ea, Nat.eqb_refl. cbn. rewrite Nat.eqb_refl. destruct o; reflexivity.
    - destruct (h_addr (res_from sc u)) as [b|] eqn:Eb; [|reflexivity]. destruct (Nat.eqb_spec a b) as [<-|_]; [|reflexivity].
      unfold reads. rewrite Eb, N. destruct y as [d p l]; cbn in *. subst d p. cbn.
      assert (Q : Nat.eqb ty u = false) by (apply Nat.eqb_neq; congruence). rewrite Q. now destruct o.
  Qed.

  Lemma retree_target (sc : schema) (w : world) ty a t o c n : h_addr (res_from sc ty) = Some a ->
    reads w (res_from sc ty) = Some (DRes ty (RTree t)) ->
    reads w (target_of c) = Some (DNode n) -> reads (retree a ty o w) (target_of c) = Some (DNode n).
  Proof.
    intros Ea R T. destruct (reads_addr _ _ _ R) as (a' & y & Ea' & N & Py & Vy & _). assert (a' = a) by congruence. subst a'.
    destruct (reads_addr _ _ _ T) as (b & z & Eb & Nb & _ & Vz & _).
    assert (Ne : a <> b) by (intros <-; rewrite N in Nb; congruence).
    rewrite <- T. unfold reads. rewrite Eb. destruct o as [t'|]; unfold retree, set_tree, spoil; cbn [w_cells set_cells];
      rewrite nth_error_alter; apply Nat.eqb_neq in Ne; now rewrite Ne.
  Qed.

  Lemma fitted_retree ps ex sc (w : world) x ty a t o : fitted ps ex sc w x -> h_addr (res_from sc ty) = Some a ->
    reads w (res_from sc ty) = Some (DRes ty (RTree t)) -> fitted ps ex sc (retree a ty o w) (put ty o x).
  Proof.
    intros F Ea R. pose proof (fun u => reads_retree sc w ty a t o u Ea R) as Rw.
    constructor; try apply F.
    - intros p Ip. rewrite Rw. pose proof (ft_extr _ _ _ _ _ F p Ip) as X. destruct (Nat.eqb_spec (pg_extr p) ty) as [E|_]; [|exact X].
      rewrite E, R in X. discriminate.
    - intros p Ip. rewrite Rw. unfold put. pose proof (ft_tree _ _ _ _ _ F p Ip) as X.
      destruct (Nat.eqb_spec (pg_tree p) ty) as [E|_]; [now rewrite E|exact X].
    - intros b y. assert (X : forall f, (forall z, c_lock (f z) = c_lock z) -> nth_error (alter f a (w_cells w)) b = Some y -> c_lock y = Free).
      { intros f Hf. rewrite nth_error_alter. destruct (Nat.eqb a b); [|apply F].
        destruct (nth_error (w_cells w) b) as [z|] eqn:Nz; [|discriminate]. cbn. intros [= <-]. rewrite Hf. apply (ft_idle _ _ _ _ _ F b z Nz). }
      destruct o; apply X; reflexivity.
    - intros u b Eb. pose proof (ft_known _ _ _ _ _ F u b Eb). destruct o; cbn; now rewrite alter_length.
  Qed.

  (** ** One trigger *)
  (** What a trigger does, when a plugin does [s]. *)
  Definition acts ps ex (sc : schema) (w : world) c n (q : prog) (s : stage trees) : Prop :=
    match s with
    | Done x => exists w', exec sc w q w' (ORet RUnit) /\ recelled w w' /\ fitted ps ex sc w' x /\ reads w' (target_of c) = Some (DNode n)
    | Broken x => exists w', exec sc w q w' OPanic /\ recelled w w' /\ fitted ps ex sc w' x
    | Endless => diverges sc w q
    end.

  Lemma fitted_ready ps ex sc (w : world) x p c n : fitted ps ex sc w x -> reads w (target_of c) = Some (DNode n) ->
    ready_for (pg_extr p) (pg_tree p) sc w c.
  Proof.
    intros F T. assert (Av : forall u a, h_addr (res_from sc u) = Some a -> exists y, nth_error (w_cells w) a = Some y /\ c_lock y = Free).
    { intros u a Ea. pose proof (ft_known _ _ _ _ _ F u a Ea) as L. apply nth_error_Some in L.
      destruct (nth_error (w_cells w) a) as [y|] eqn:N; [|congruence]. exists y. split; [reflexivity|]. apply (ft_idle _ _ _ _ _ F a y N). }
    split.
    - intros h a [<-|[<-|[]]] Ea.
      + destruct (reads_addr _ _ _ T) as (b & z & Eb & Nb & _). rewrite Ea in Eb. injection Eb as <-. exists z. split; [exact Nb|].
        rewrite (ft_idle _ _ _ _ _ F a z Nb). discriminate.
      + destruct (Av _ _ Ea) as (y & N & L). exists y. split; [exact N|]. rewrite L. discriminate.
    - intros h a [<-|[]] Ea. apply (Av _ _ Ea).
  Qed.

  Lemma tree_absent (sc : schema) (w : world) p body : available Excl w [res_from sc (pg_tree p)] -> reads w (res_from sc (pg_tree p)) = None ->
    exec sc w (PAccess Excl [res_from sc (pg_tree p)] body (fun _ => PRet RUnit)) w (ORet RUnit).
  Proof.
    intros Av R. apply ends_exec; [exact Logic.I|]. rewrite C35_absent_does_nothing; [now apply ends_ret|exact Av| |].
    - intros _. unfold live. cbn. destruct (bt_get (pg_tree p) (sc_resources sc)); [|constructor].
      destruct (nth_error _ _) as [[? [] ?]|]; cbn; repeat constructor; intros [].
    - eexists. split; [left; reflexivity|exact R].
  Qed.

  Section One.
    Variables (ps : list plug) (ex : extractors) (sc : schema) (w : world) (x : trees) (p : plug) (c : ctx) (n : Node).
    Hypothesis F : fitted ps ex sc w x.
    Hypothesis Ip : In p ps.
    Hypothesis T : reads w (target_of c) = Some (DNode n).

    Lemma on_save_acts : acts ps ex sc w c n (on_save (pg_extr p) (pg_tree p) c) (plugin_does ex inserting n p x).
    Proof.
      pose proof (fitted_ready ps ex sc w x p c n F T) as Rdy. pose proof (ft_extr _ _ _ _ _ F p Ip) as Re. pose proof (ft_tree _ _ _ _ _ F p Ip) as Rt.
      unfold plugin_does. destruct (ex (pg_extr p) n) as [l|] eqn:El.
      2: { exists w. split; [|split; [apply recelled_refl|exact F]]. apply ends_exec; [exact Logic.I|].
           apply (extractor_panics _ _ sc w c n _ _ Rdy T Re El). auto. }
      destruct (x (pg_tree p)) as [t|] eqn:Et; cbn [option_map] in Rt.
      2: { exists w. split; [|split; [apply recelled_refl|split; [exact F|exact T]]]. apply ends_exec; [exact Logic.I|].
           unfold on_save. rewrite !ends_res, (with_intervals_exact sc w c _ _ _ n l _ (proj1 Rdy) T Re El).
           eapply exec_run, tree_absent; [apply Rdy|exact Rt]. }
      destruct (reads_addr _ _ _ Rt) as (a & y & Ea & _).
      change (map (fun i => NI (id_of n) i) l) with (map (NI (id_of n)) l). rewrite inserting_all.
      destruct (insert_all_panics t (map (NI (id_of n)) l)) eqn:Ep.
      - exists (retree a (pg_tree p) None w). split; [|split; [apply retree_recelled|eapply fitted_retree; eauto]].
        apply ends_exec; [exact Logic.I|]. apply (on_save_breaks _ _ sc w c n _ _ Rdy T Re l _ t a El Ea Rt Ep). split; reflexivity.
      - exists (retree a (pg_tree p) (Some (insert_all t (map (NI (id_of n)) l))) w).
        split; [|split; [apply retree_recelled|split; [eapply fitted_retree; eauto|eapply retree_target; eauto]]].
        apply ends_exec; [exact Logic.I|]. apply (on_save_done _ _ sc w c n _ _ Rdy T Re l _ t a El Ea Rt Ep). split; reflexivity.
    Qed.

    Lemma on_delete_acts : acts ps ex sc w c n (on_delete (pg_extr p) (pg_tree p) c) (plugin_does ex deleting n p x).
    Proof.
      pose proof (fitted_ready ps ex sc w x p c n F T) as Rdy. pose proof (ft_extr _ _ _ _ _ F p Ip) as Re. pose proof (ft_tree _ _ _ _ _ F p Ip) as Rt.
      unfold plugin_does. destruct (ex (pg_extr p) n) as [l|] eqn:El.
      2: { exists w. split; [|split; [apply recelled_refl|exact F]]. apply ends_exec; [exact Logic.I|].
           apply (extractor_panics _ _ sc w c n _ _ Rdy T Re El). auto. }
      destruct (x (pg_tree p)) as [t|] eqn:Et; cbn [option_map] in Rt.
      2: { exists w. split; [|split; [apply recelled_refl|split; [exact F|exact T]]]. apply ends_exec; [exact Logic.I|].
           unfold on_delete. rewrite !ends_res, (with_intervals_exact sc w c _ _ _ n l _ (proj1 Rdy) T Re El).
           eapply exec_run, tree_absent; [apply Rdy|exact Rt]. }
      destruct (reads_addr _ _ _ Rt) as (a & y & Ea & _).
      change (map (fun i => NI (id_of n) i) l) with (map (NI (id_of n)) l). rewrite deleting_all.
      destruct (delete_all_panics t (map (NI (id_of n)) l)) eqn:Ep.
      - exists (retree a (pg_tree p) None w). split; [|split; [apply retree_recelled|eapply fitted_retree; eauto]].
        apply ends_exec; [exact Logic.I|]. apply (on_delete_breaks _ _ sc w c n _ _ Rdy T Re l _ t a El Ea Rt Ep). split; reflexivity.
      - destruct (delete_all t (map (NI (id_of n)) l)) as [t'|] eqn:D.
        + exists (retree a (pg_tree p) (Some t') w).
          split; [|split; [apply retree_recelled|split; [eapply fitted_retree; eauto|eapply retree_target; eauto]]].
          apply ends_exec; [exact Logic.I|]. apply (on_delete_done _ _ sc w c n _ _ Rdy T Re l _ t a El Ea Rt t' Ep D). split; reflexivity.
        + apply (on_delete_loops _ _ sc w c n _ _ Rdy T Re l _ t a El Ea Rt Ep D).
    Qed.
  End One.

  (** ** All of them *)
  Section All.
    Variables (ps : list plug) (ex : extractors) (sc : schema) (c : ctx) (n : Node).
    Variables (f : plug -> trigger) (change : stree -> list ni -> stage (option stree)).
    Hypothesis Act : forall p (w : world) x, fitted ps ex sc w x -> In p ps -> reads w (target_of c) = Some (DNode n) ->
      acts ps ex sc w c n (f p c) (plugin_does ex change n p x).

    Lemma all_act : forall qs, (forall p, In p qs -> In p ps) -> forall (w : world) x, fitted ps ex sc w x ->
      reads w (target_of c) = Some (DNode n) ->
      acts ps ex sc w c n (try_for_each (map f qs) c) (plugins_do ex change n qs x).
    Proof.
      induction qs as [|p qs IH]; intros Sub w x F T.
      - exists w. split; [constructor|]. split; [apply recelled_refl|auto].
      - cbn [map try_for_each plugins_do]. pose proof (Act p w x F (Sub p (or_introl eq_refl)) T) as A.
        destruct (plugin_does ex change n p x) as [x1|x1|]; cbn [acts] in A.
        + destruct A as (w1 & E & R1 & F1 & T1). specialize (IH (fun q Iq => Sub q (or_intror Iq)) w1 x1 F1 T1).
          destruct (plugins_do ex change n qs x1) as [x2|x2|]; cbn [acts] in *.
          * destruct IH as (w2 & E2 & R2 & F2 & T2). exists w2. split; [eapply XCall; [exact E|exact E2]|].
            split; [eapply recelled_trans; eauto|auto].
          * destruct IH as (w2 & E2 & R2 & F2). exists w2. split; [eapply XCall; [exact E|exact E2]|].
            split; [eapply recelled_trans; eauto|auto].
          * intros [|fuel]; [reflexivity|]. cbn [run]. destruct (run sc fuel w (f p c)) as [[w1' o]|] eqn:Rn; [|reflexivity].
            destruct (ends_det _ _ _ _ _ _ _ (exec_run _ _ _ _ _ E) (ex_intro _ fuel Rn)) as [<- <-]. apply IH.
        + destruct A as (w1 & E & R1 & F1). exists w1. split; [apply XCallPanic; exact E|auto].
        + intros [|fuel]; [reflexivity|]. cbn [run]. now rewrite A.
    Qed.
  End All.

  Lemma saves_act ps ex (sc : schema) (w : world) x c n : fitted ps ex sc w x -> reads w (target_of c) = Some (DNode n) ->
    acts ps ex sc w c n (try_for_each (scheduled sc AfterSave) c) (plugins_do ex inserting n ps x).
  Proof.
    intros F T. rewrite (ft_after_save _ _ _ _ _ F).
    apply (all_act ps ex sc c n (fun p => on_save (pg_extr p) (pg_tree p)) inserting); auto.
    intros p w' x' F' Ip T'. now apply on_save_acts.
  Qed.

  Lemma deletes_act ps ex (sc : schema) (w : world) x c n : fitted ps ex sc w x -> reads w (target_of c) = Some (DNode n) ->
    acts ps ex sc w c n (try_for_each (scheduled sc AfterDelete) c) (plugins_do ex deleting n ps x).
  Proof.
    intros F T. rewrite (ft_after_delete _ _ _ _ _ F).
    apply (all_act ps ex sc c n (fun p => on_delete (pg_extr p) (pg_tree p)) deleting); auto.
    intros p w' x' F' Ip T'. now apply on_delete_acts.
  Qed.

  (** ** The state of a transaction's closure *)
  Record among (ps : list plug) (ex : extractors) (sc : schema) (w : world) (c : ctx) (v : Id -> option Node) (x : trees) : Prop := {
    am_fitted : fitted ps ex sc w x;
    am_leaked : w_leaked w = [];
    am_view : forall i, view w c i = v i;
    am_chain : Forall (fun b => b < length (w_heap w)) (ctx_chain c);
    am_nodup : NoDup (ctx_chain c)
  }.

  Lemma among_open ps ex sc (w : world) c v x : among ps ex sc w c v x -> among ps ex sc (fg_open w) (fg_ctx w c) v x.
  Proof.
    intros [F L V C N]. constructor.
    - eapply fitted_cells; [|exact F]. reflexivity.
    - exact L.
    - intros i. unfold view. rewrite ctx_get_unfold. cbn [ctx_buf fg_ctx fg_open w_heap set_heap w_graph].
      rewrite buf_ops_open. unfold buf_ops at 1. rewrite nth_overflow by lia. cbn.
      rewrite <- V. unfold view. apply ctx_get_frame. intros b _. apply buf_ops_open.
    - cbn. rewrite app_length; cbn. constructor; [lia|]. eapply Forall_impl; [|exact C]. cbn. intros; lia.
    - cbn. constructor; [|exact N]. intros J. rewrite Forall_forall in C. apply C in J. lia.
  Qed.

  Lemma among_close ps ex sc (w w1 : world) c v v1 x x1 (ok : bool) : among ps ex sc w c v x ->
    among ps ex sc w1 (fg_ctx w c) v1 x1 -> apart (fg_ctx w c) (fg_open w) w1 ->
    let w2 := close (length (w_heap w)) (if ok then fg_commit c (length (w_heap w)) w1 else w1) in
    among ps ex sc w2 c (if ok then v1 else v) x1 /\ apart c w w2.
  Proof.
    intros [F L V C N] [F1 L1 V1 C1 N1] [G1 Lo1 Le1 B1]. cbn zeta.
    assert (Le : length (w_heap w1) = S (length (w_heap w))) by (rewrite Le1; cbn; rewrite app_length; cbn; lia).
    assert (Lb : ctx_buf c < length (w_heap w)) by (rewrite Forall_forall in C; apply C, ctx_buf_in).
    assert (Bw : forall b, b <> length (w_heap w) -> buf_ops (w_heap w1) b = buf_ops (w_heap w) b).
    { intros b Nb. rewrite B1 by exact Nb. cbn. apply buf_ops_open. }
    destruct ok.
    - set (ops := buf_ops (w_heap w1) (length (w_heap w))).
      assert (Cm : fg_commit c (length (w_heap w)) w1 = set_heap (alter (fun l => l ++ ops) (ctx_buf c) (w_heap w1)) w1).
      { unfold fg_commit, leaked. now rewrite L1. }
      rewrite Cm. set (w2 := close _ _).
      assert (Hw : w_heap w2 = firstn (length (w_heap w)) (alter (fun l => l ++ ops) (ctx_buf c) (w_heap w1))) by reflexivity.
      assert (A : apart c w w2).
      { constructor; [exact G1|exact Lo1| |].
        - rewrite Hw, firstn_length, alter_length, Le. lia.
        - intros b Nb. rewrite Hw. destruct (Nat.lt_ge_cases b (length (w_heap w))) as [Lt|Ge].
          + rewrite buf_ops_firstn by exact Lt. unfold buf_ops at 1. rewrite nth_alter_ne by congruence. apply Bw. lia.
          + unfold buf_ops. rewrite !nth_overflow; [reflexivity|exact Ge|rewrite firstn_length; lia]. }
      split; [|exact A]. constructor.
      + eapply fitted_cells; [|exact F1]. reflexivity.
      + cbn. now rewrite L1.
      + intros i. rewrite (view_push w w2 c ops (ap_graph _ _ _ A) (ap_length _ _ _ A) N (ap_bufs _ _ _ A)).
        * rewrite <- (V1 i). unfold view at 2. rewrite ctx_get_unfold. cbn [ctx_buf fg_ctx]. fold ops.
          destruct (ops_overlay ops i); [reflexivity|]. unfold view. rewrite G1. symmetry.
          apply ctx_get_frame. intros b Ib. apply Bw. rewrite Forall_forall in C. apply C in Ib. lia.
        * rewrite Hw, buf_ops_firstn by exact Lb. unfold buf_ops at 1. rewrite nth_alter_eq by lia. f_equal. apply Bw. lia.
      + rewrite (ap_length _ _ _ A). exact C.
      + exact N.
    - set (w2 := close _ _).
      assert (Hw : w_heap w2 = firstn (length (w_heap w)) (w_heap w1)) by reflexivity.
      assert (A : apart c w w2).
      { constructor; [exact G1|exact Lo1| |].
        - rewrite Hw, firstn_length, Le. lia.
        - intros b Nb. rewrite Hw. destruct (Nat.lt_ge_cases b (length (w_heap w))) as [Lt|Ge].
          + rewrite buf_ops_firstn by exact Lt. apply Bw. lia.
          + unfold buf_ops. rewrite !nth_overflow; [reflexivity|exact Ge|rewrite firstn_length; lia]. }
      split; [|exact A]. constructor.
      + eapply fitted_cells; [|exact F1]. reflexivity.
      + cbn. now rewrite L1.
      + intros i. rewrite <- V. unfold view. rewrite (ap_graph _ _ _ A). apply ctx_get_frame. intros b Ib. rewrite Hw.
        rewrite Forall_forall in C. apply C in Ib. rewrite buf_ops_firstn by exact Ib. apply Bw. lia.
      + rewrite (ap_length _ _ _ A). exact C.
      + exact N.
  Qed.

  Lemma among_push ps ex sc (w : world) c v x o : among ps ex sc w c v x ->
    let w' := set_heap (buf_push (w_heap w) (ctx_buf c) o) w in
    among ps ex sc w' c (base_set (fst (op_entry o)) (snd (op_entry o)) v) x /\ apart c w w'.
  Proof.
    intros [F L V C N] w'.
    assert (Lb : ctx_buf c < length (w_heap w)) by (rewrite Forall_forall in C; apply C, ctx_buf_in).
    assert (A : apart c w w').
    { constructor; try reflexivity; [apply alter_length|]. intros b Nb. apply buf_ops_push_ne. congruence. }
    split; [|exact A]. constructor.
    - eapply fitted_cells; [|exact F]. reflexivity.
    - exact L.
    - intros i. rewrite (view_push w w' c [o] eq_refl (ap_length _ _ _ A) N (ap_bufs _ _ _ A) (buf_ops_push_eq _ _ _ Lb)).
      rewrite ops_overlay_one. unfold base_set. destruct o as [n|j]; cbn; destruct (eqb _ i); auto.
    - rewrite (ap_length _ _ _ A). exact C.
    - exact N.
  Qed.

  (** The operation registered, then cells changed. *)
  Lemma among_after ps ex sc (w w' : world) c v x x' o cells : among ps ex sc w c v x ->
    recelled (set_heap (buf_push (w_heap w) (ctx_buf c) o) (set_cells cells w)) w' -> fitted ps ex sc w' x' ->
    among ps ex sc w' c (base_set (fst (op_entry o)) (snd (op_entry o)) v) x' /\ apart c w w'.
  Proof.
    intros A [cs ->] F. destruct (among_push ps ex sc w c v x o A) as [[_ L3 V3 C3 N3] [G3 K3 H3 B3]].
    split; constructor; auto.
  Qed.

  (** The closures of [Save] and [Delete]. *)
  Definition body_acts ps ex (sc : schema) (w : world) c (q : prog) v (s : stage trees) : Prop :=
    match s with
    | Done x => exists w', exec sc w q w' (ORet RUnit) /\ among ps ex sc w' c v x /\ apart c w w'
    | Broken x => exists w' v', exec sc w q w' OPanic /\ among ps ex sc w' c v' x /\ apart c w w'
    | Endless => diverges sc w q
    end.

  Lemma save_body_acts ps ex sc (w : world) n c v x : among ps ex sc w c v x ->
    body_acts ps ex sc w c (save_body n c) (base_set (id_of n) (Some n) v) (plugins_do ex inserting n ps x).
  Proof.
    intros A. set (c1 := after_target c w). set (w1 := with_target n w). set (w2 := set_heap (ctx_save (w_heap w1) c1 n) w1).
    assert (N1 : nth_error (w_cells w1) (length (w_cells w)) = Some (Cell (DNode n) false Free)).
    { unfold w1. rewrite nth_with_target, Nat.ltb_irrefl, Nat.eqb_refl. reflexivity. }
    assert (T1 : reads w1 (target_of c1) = Some (DNode n)).
    { unfold reads, target_of. cbn [h_addr h_ty]. unfold c1. rewrite target_of_after, N1. reflexivity. }
    assert (St : save_step c1 w1 = w2) by (unfold save_step; now rewrite T1).
    assert (F2 : fitted ps ex sc w2 x) by (eapply fitted_cells; [|apply (fitted_target _ _ _ w n x), A]; reflexivity).
    assert (T2 : reads w2 (target_of c1) = Some (DNode n)) by (rewrite <- T1; now apply reads_cells).
    pose proof (saves_act ps ex sc w2 x c1 n F2 T2) as X.
    assert (W2 : w2 = set_heap (buf_push (w_heap w) (ctx_buf c) (OSave n)) (set_cells (w_cells w1) w)).
    { unfold w2, w1, c1, ctx_save, after_target. rewrite ctx_buf_with_target. reflexivity. }
    assert (Bs : scheduled sc BeforeSave = []) by apply (am_fitted _ _ _ _ _ _ _ A).
    assert (Start : forall w' o k, exec sc w2 k w' o -> forall b, k = PTriggers AfterSave c1 b ->
      (forall r, b r = try_ r (PRet RUnit)) -> exec sc w (save_body n c) w' o).
    { intros w' o k E b -> Eb. unfold save_body. apply XTarget. apply exec_triggers. left. exists w1, RUnit. rewrite Bs.
      split; [left; split; [reflexivity|constructor]|]. cbn [try_].
      apply (exec_save_access sc c1 w1 _ n false _ w' o (target_of_after c w) N1). rewrite St.
      apply exec_triggers. apply exec_triggers in E as [(w3 & r & R & E)|E]; [left; exists w3, r; split; [exact R|now rewrite <- Eb]|right; exact E]. }
    destruct (plugins_do ex inserting n ps x) as [x'|x'|] eqn:Pl; cbn [acts body_acts] in *.
    - destruct X as (w' & E & R & F' & T'). exists w'. split; [|apply (among_after ps ex sc w w' c v x x' (OSave n) (w_cells w1) A); [rewrite <- W2; exact R|exact F']].
      eapply Start; [|reflexivity|reflexivity]. apply exec_triggers. left. exists w', RUnit. split; [|constructor].
      now apply exec_try.
    - destruct X as (w' & E & R & F'). exists w', (base_set (id_of n) (Some n) v).
      split; [|apply (among_after ps ex sc w w' c v x x' (OSave n) (w_cells w1) A); [rewrite <- W2; exact R|exact F']].
      eapply Start; [|reflexivity|reflexivity]. apply exec_triggers. right. auto.
    - intros fuel. destruct (run sc fuel w (save_body n c)) as [[w' o]|] eqn:Rn; [exfalso|reflexivity].
      destruct fuel as [|fuel]; [discriminate|]. unfold save_body in Rn. cbn [run] in Rn. change (ctx_with_target c (length (w_cells w))) with c1 in Rn.
      change (set_cells (w_cells w ++ [Cell (DNode n) false Free]) w) with w1 in Rn.
      destruct fuel as [|fuel]; [discriminate|]. cbn [run] in Rn. rewrite select_scheduled, Bs in Rn.
      destruct fuel as [|fuel]; [discriminate|]. cbn [run try_for_each try_] in Rn.
      assert (Eq : acquire Shared [target_of c1] (w_cells w1) = AcqOk _ (alter (lock_cell Shared) (length (w_cells w)) (w_cells w1)) [Some (length (w_cells w))] /\
        deref_all (alter (lock_cell Shared) (length (w_cells w)) (w_cells w1)) [target_of c1] [Some (length (w_cells w))] = Some [(length (w_cells w), DNode n)] /\
        alter (unlock_cell false) (length (w_cells w)) (alter (lock_cell Shared) (length (w_cells w)) (w_cells w1)) = w_cells w1).
      { split; [|split].
        - cbn [acquire]. unfold acquire1. cbn [h_addr target_of]. unfold c1. rewrite target_of_after, N1. reflexivity.
        - cbn [deref_all deref1]. rewrite nth_error_alter, Nat.eqb_refl, N1. reflexivity.
        - eapply alter_unlock_lock; [exact N1|reflexivity]. }
      destruct Eq as (Eq1 & Eq2 & Eq3). rewrite Eq1, Eq2 in Rn.
      destruct fuel as [|fuel]; [discriminate|]. cbn [run] in Rn. destruct fuel as [|fuel]; [discriminate|].
      change (run sc (S fuel) ?u (PRet RUnit)) with (Some (u, ORet (@RUnit value))) in Rn. cbv beta iota in Rn.
      cbn [release w_cells set_heap set_cells w_heap] in Rn. rewrite Eq3 in Rn.
      match type of Rn with match run _ _ ?u _ with _ => _ end = _ => change u with w2 in Rn end.
      rewrite select_scheduled, X in Rn. discriminate.
  Qed.

  Lemma delete_body_acts ps ex sc (w : world) i n c v x : among ps ex sc w c v x -> v i = Some n ->
    body_acts ps ex sc w c (delete_body i c) (base_set i None v) (plugins_do ex deleting n ps x).
  Proof.
    intros A Vi. rewrite <- (am_view _ _ _ _ _ _ _ A) in Vi. unfold view in Vi.
    set (c1 := after_target c w). set (w1 := with_target n w). set (w2 := set_heap (ctx_delete (w_heap w1) c1 i) w1).
    assert (N1 : nth_error (w_cells w1) (length (w_cells w)) = Some (Cell (DNode n) false Free)).
    { unfold w1. rewrite nth_with_target, Nat.ltb_irrefl, Nat.eqb_refl. reflexivity. }
    assert (F2 : fitted ps ex sc w2 x) by (eapply fitted_cells; [|apply (fitted_target _ _ _ w n x), A]; reflexivity).
    assert (T2 : reads w2 (target_of c1) = Some (DNode n)).
    { unfold reads, target_of. cbn [h_addr h_ty]. unfold c1. rewrite target_of_after. change (w_cells w2) with (w_cells w1). now rewrite N1. }
    pose proof (deletes_act ps ex sc w2 x c1 n F2 T2) as X.
    assert (W2 : w2 = set_heap (buf_push (w_heap w) (ctx_buf c) (ODelete i)) (set_cells (w_cells w1) w)).
    { unfold w2, w1, c1, ctx_delete, after_target. rewrite ctx_buf_with_target. reflexivity. }
    assert (Bs : scheduled sc BeforeDelete = []) by apply (am_fitted _ _ _ _ _ _ _ A).
    assert (Start : forall w' o, exec sc w2 (PTriggers AfterDelete c1 (fun r => try_ r (PRet RUnit))) w' o -> exec sc w (delete_body i c) w' o).
    { intros w' o E. unfold delete_body. apply XGet. rewrite Vi. apply XTarget. apply exec_triggers. left. exists w1, RUnit. rewrite Bs.
      split; [left; split; [reflexivity|constructor]|]. cbn [try_]. apply XDelete. exact E. }
    destruct (plugins_do ex deleting n ps x) as [x'|x'|] eqn:Pl; cbn [acts body_acts] in *.
    - destruct X as (w' & E & R & F' & T'). exists w'. split; [|apply (among_after ps ex sc w w' c v x x' (ODelete i) (w_cells w1) A); [rewrite <- W2; exact R|exact F']].
      apply Start. apply exec_triggers. left. exists w', RUnit. split; [|constructor]. now apply exec_try.
    - destruct X as (w' & E & R & F'). exists w', (base_set i None v).
      split; [|apply (among_after ps ex sc w w' c v x x' (ODelete i) (w_cells w1) A); [rewrite <- W2; exact R|exact F']].
      apply Start. apply exec_triggers. right. auto.
    - intros [|fuel]; [reflexivity|]. unfold delete_body. cbn [run]. rewrite Vi.
      destruct fuel as [|fuel]; [reflexivity|]. cbn [run].
      change (ctx_with_target c (length (w_cells w))) with c1.
      change (set_cells (w_cells w ++ [Cell (DNode n) false Free]) w) with w1.
      destruct fuel as [|fuel]; [reflexivity|]. cbn [run]. rewrite select_scheduled, Bs.
      destruct fuel as [|fuel]; [reflexivity|]. cbn [run try_for_each try_].
      destruct fuel as [|fuel]; [reflexivity|]. cbn [run]. change (set_heap _ w1) with w2.
      rewrite select_scheduled. now rewrite X.
  Qed.

  Lemma play_back ps ex (s : script) : forall v x v' x' o, play ps ex s v x = Some (v', x', o) -> (exists r, o = ORet r) \/ o = OPanic.
  Proof.
    induction s as [r| |i k IH|n k IH|i k IH|n s IH|i s IH|body IHb k IHk]; intros v x v' x' o; cbn [play].
    - intros [= _ _ <-]. eauto.
    - intros [= _ _ <-]. eauto.
    - apply IH.
    - destruct (plugins_do _ _ _ _ _); [apply IH|intros [= _ _ <-]; eauto|discriminate].
    - destruct (v i); [|apply IH]. destruct (plugins_do _ _ _ _ _); [apply IH|intros [= _ _ <-]; eauto|discriminate].
    - apply IH.
    - apply IH.
    - destruct (play ps ex body v x) as [[[v1 x1] [r| | |]]|]; [apply IHk..|discriminate].
  Qed.

  Lemma succeeded_ok (r : res value) : succeeded r = is_ok r.
  Proof. now destruct r. Qed.

  (** ** Scripts *)
  Definition runs ps ex (sc : schema) (w : world) c (s : script) (r : option ((Id -> option Node) * trees * outcome value)) : Prop :=
    match r with
    | Some (v', x', o) => exists w', exec sc w (compiled s c) w' o /\ (exists v'', among ps ex sc w' c v'' x' /\ (o <> OPanic -> v'' = v')) /\ apart c w w'
    | None => diverges sc w (compiled s c)
    end.

  Lemma runs_after ps ex (sc : schema) (w : world) c s (w1 : world) s1 r : apart c w w1 ->
    (forall w' o, exec sc w1 (compiled s1 c) w' o -> exec sc w (compiled s c) w' o) ->
    (diverges sc w1 (compiled s1 c) -> diverges sc w (compiled s c)) -> runs ps ex sc w1 c s1 r -> runs ps ex sc w c s r.
  Proof.
    intros A E D. destruct r as [[[v' x'] o]|]; cbn; [|exact D]. intros (w' & E' & X & A'). exists w'. split; [auto|].
    split; [exact X|]. eapply apart_trans; eauto.
  Qed.

  Lemma played ps ex (sc : schema) (s : script) : forall (w : world) c v x, among ps ex sc w c v x -> runs ps ex sc w c s (play ps ex s v x).
  Proof.
    induction s as [r| |i k IH|n k IH|i k IH|n s IH|i s IH|body IHb k IHk]; intros w c v x A; cbn [play].
    - exists w. split; [constructor|]. split; [eauto|apply apart_refl].
    - exists w. split; [constructor|]. split; [exists v; split; [exact A|congruence]|apply apart_refl].
    - pose proof (am_view _ _ _ _ _ _ _ A i) as Vi. unfold view in Vi. apply (runs_after ps ex sc w c _ w (k (v i))); auto using apart_refl.
      + intros w' o E. cbn. apply XGet. now rewrite Vi.
      + intros D [|f]; [reflexivity|]. cbn [SpecPlugin.compiled run]. rewrite Vi. apply D.
    - pose proof (save_body_acts ps ex sc (fg_open w) n (fg_ctx w c) v x (among_open _ _ _ _ _ _ _ A)) as X.
      destruct (plugins_do ex inserting n ps x) as [x1|x1|]; cbn [body_acts] in X.
      + destruct X as (w1 & E & A1 & P1). destruct (among_close ps ex sc w w1 c _ _ _ _ true A A1 P1) as [A2 P2]. cbv beta iota in A2, P2.
        eapply runs_after; [exact P2| | |apply IH; exact A2].
        * intros w' o E'. cbn. eapply XFgOk; [exact E|reflexivity|exact E'].
        * intros D. cbn. eapply diverges_fg_after; [exact E|exact D].
      + destruct X as (w1 & v1 & E & A1 & P1). destruct (among_close ps ex sc w w1 c _ _ _ _ false A A1 P1) as [A2 P2]. cbv beta iota in A2, P2.
        cbn [runs]. eexists. split; [cbn; eapply XFgPanic; exact E|]. split; [exists v; split; [exact A2|congruence]|exact P2].
      + now apply diverges_fg_body.
    - destruct (v i) as [n|] eqn:Vi.
      + pose proof (delete_body_acts ps ex sc (fg_open w) i n (fg_ctx w c) v x (among_open _ _ _ _ _ _ _ A) Vi) as X.
        destruct (plugins_do ex deleting n ps x) as [x1|x1|]; cbn [body_acts] in X.
        * destruct X as (w1 & E & A1 & P1). destruct (among_close ps ex sc w w1 c _ _ _ _ true A A1 P1) as [A2 P2]. cbv beta iota in A2, P2.
          eapply runs_after; [exact P2| | |apply IH; exact A2].
          -- intros w' o E'. cbn. eapply XFgOk; [exact E|reflexivity|exact E'].
          -- intros D. cbn. eapply diverges_fg_after; [exact E|exact D].
        * destruct X as (w1 & v1 & E & A1 & P1). destruct (among_close ps ex sc w w1 c _ _ _ _ false A A1 P1) as [A2 P2]. cbv beta iota in A2, P2.
          cbn [runs]. eexists. split; [cbn; eapply XFgPanic; exact E|]. split; [exists v; split; [exact A2|congruence]|exact P2].
        * now apply diverges_fg_body.
      + assert (E : exec sc (fg_open w) (delete_body i (fg_ctx w c)) (fg_open w) (ORet (RErr Noop))).
        { apply exec_delete_body. rewrite (am_view _ _ _ _ _ _ _ (among_open _ _ _ _ _ _ _ A)), Vi. auto. }
        destruct (among_close ps ex sc w _ c _ _ _ _ false A (among_open _ _ _ _ _ _ _ A) (apart_refl _ _)) as [A2 P2]. cbv beta iota in A2, P2.
        eapply runs_after; [exact P2| | |apply IH; exact A2].
        * intros w' o E'. cbn. eapply XFgErr; [exact E|reflexivity|exact E'].
        * intros D. cbn. eapply diverges_fg_after; [exact E|exact D].
    - destruct (among_push ps ex sc w c v x (OSave n) A) as [A2 P2]. eapply runs_after; [exact P2| | |apply IH; exact A2].
      + intros w' o E'. cbn. apply XSave. exact E'.
      + intros D [|f]; [reflexivity|]. apply D.
    - destruct (among_push ps ex sc w c v x (ODelete i) A) as [A2 P2]. eapply runs_after; [exact P2| | |apply IH; exact A2].
      + intros w' o E'. cbn. apply XDelete. exact E'.
      + intros D [|f]; [reflexivity|]. apply D.
    - pose proof (IHb _ _ _ _ (among_open _ _ _ _ _ _ _ A)) as X. pose proof (play_back ps ex body v x) as Bk.
      destruct (play ps ex body v x) as [[[v1 x1] o1]|]; cbn [runs] in X; [|now apply diverges_try, diverges_fg_body].
      destruct X as (w1 & E & (v2 & A1 & Ev) & P1). specialize (Bk _ _ _ eq_refl).
      destruct o1 as [r| | |]; [| |destruct Bk as [[? Bk]|Bk]; discriminate..].
      + assert (v2 = v1) by (apply Ev; discriminate). subst v2. rewrite succeeded_ok.
        destruct (among_close ps ex sc w w1 c _ _ _ _ (is_ok r) A A1 P1) as [A2 P2].
        assert (Ew : exec sc w (PWith (TxFg c) (compiled body) PRet) (close (length (w_heap w)) (if is_ok r then fg_commit c (length (w_heap w)) w1 else w1)) (ORet r)).
        { destruct (is_ok r) eqn:Ok; [eapply XFgOk|eapply XFgErr]; try exact E; try exact Ok; apply XRet. }
        eapply runs_after; [exact P2| | |apply IHk; exact A2].
        * intros w' o E'. cbn. eapply XTry; [exact Ew|exact E'].
        * intros D. cbn. eapply diverges_try_after; [exact Ew|exact D].
      + destruct (among_close ps ex sc w w1 c _ _ _ _ false A A1 P1) as [A2 P2]. cbv beta iota in A2, P2.
        assert (Ew : exec sc w (PWith (TxFg c) (compiled body) PRet) (close (length (w_heap w)) w1) OPanic) by (eapply XFgPanic; exact E).
        eapply runs_after; [exact P2| | |apply IHk; exact A2].
        * intros w' o E'. cbn. eapply XTryPanic; [exact Ew|exact E'].
        * intros D. cbn. eapply diverges_try_after; [exact Ew|exact D].
  Qed.

  (** ** Top level *)
  Record settled (ps : list plug) (ex : extractors) (sc : schema) (w : world) (v : Id -> option Node) (x : trees) : Prop := {
    se_fitted : fitted ps ex sc w x;
    se_rest : at_rest w;
    se_wf : g_wf (w_graph w);
    se_view : forall i, g_get (w_graph w) i = v i
  }.

  Lemma bg_played ps ex (sc : schema) (s : script) (w : world) v x : settled ps ex sc w v x ->
    match play ps ex s v x with
    | Some (v', x', o) => exists w', exec sc w (PWith (TxBg None) (compiled s) PRet) w' o /\
        settled ps ex sc w' (match o with ORet r => if succeeded r then v' else v | _ => v end) x'
    | None => diverges sc w (PWith (TxBg None) (compiled s) PRet)
    end.
  Proof.
    intros [F (L & Hp & Lk) Wf V].
    assert (A : among ps ex sc (bg_open w) (bg_ctx w) v x).
    { constructor.
      - eapply fitted_cells; [|exact F]. reflexivity.
      - exact Lk.
      - intros i. rewrite open_view_root. apply V.
      - cbn. rewrite Hp. cbn. constructor; [lia|constructor].
      - cbn. constructor; [intros []|constructor]. }
    pose proof (played ps ex sc s _ _ _ _ A) as X. pose proof (play_back ps ex s v x) as Bk.
    destruct (play ps ex s v x) as [[[v' x'] o]|]; cbn [runs] in X.
    2: { intros [|f]; [reflexivity|]. cbn [run]. rewrite L. cbn zeta. specialize (X f). unfold bg_open, bg_ctx in X. now rewrite X. }
    destruct X as (w1 & E & (v2 & [F1 L1 V1 C1 N1] & Ev) & [G1 Lo1 Le1 B1]). cbn in G1, Lo1, Le1. specialize (Bk _ _ _ eq_refl).
    assert (Fin : forall w2 : world, w_cells w2 = w_cells w1 -> w_lock w2 = GFree -> g_wf (w_graph w2) -> w_leaked w2 = [] -> w_heap w2 = [] ->
      forall u, (forall i, g_get (w_graph w2) i = u i) -> settled ps ex sc w2 u x').
    { intros w2 Ec El Ew Ek Eh u Eu. constructor; [eapply fitted_cells; eauto|repeat split; assumption|exact Ew|exact Eu]. }
    destruct Bk as [[r ->] | ->].
    - rewrite succeeded_ok. assert (v2 = v') by (apply Ev; discriminate). subst v2. destruct (is_ok r) eqn:Ok.
      + eexists. split.
        { eapply XBgOk; [exact L|exact E|exact Ok| |apply XRet]. unfold bg_commit, leaked. rewrite L1. cbn. reflexivity. }
        apply Fin; try reflexivity.
        * cbn. rewrite G1. now apply apply_ops_wf.
        * cbn. now rewrite L1.
        * cbn. now rewrite Hp.
        * intros i. rewrite <- V1. cbn [close set_leaked set_heap set_lock w_graph set_graph]. symmetry. apply view_root. now rewrite G1.
      + eexists. split; [eapply XBgErr; [exact L|exact E|exact Ok|apply XRet]|].
        apply Fin; try reflexivity.
        * cbn. now rewrite G1.
        * cbn. now rewrite L1.
        * cbn. now rewrite Hp.
        * intros i. cbn. rewrite G1. apply V.
    - eexists. split; [eapply XBgPanic; [exact L|exact E]|].
      apply Fin; try reflexivity.
      * cbn. now rewrite G1.
      * cbn. now rewrite L1.
      * cbn. now rewrite Hp.
      * intros i. cbn. rewrite G1. apply V.
  Qed.

  Lemma session_played ps ex (sc : schema) (ss : list script) : forall (w : world) v x, settled ps ex sc w v x ->
    match play_all ps ex ss v x with
    | Some (v', x') => exists w', exec sc w (session ss) w' (ORet RUnit) /\ settled ps ex sc w' v' x'
    | None => diverges sc w (session ss)
    end.
  Proof.
    induction ss as [|s ss IH]; intros w v x S; cbn [play_all].
    - exists w. split; [constructor|exact S].
    - pose proof (bg_played ps ex sc s w v x S) as X. pose proof (play_back ps ex s v x) as Bk. cbn [SpecPlugin.session].
      destruct (play ps ex s v x) as [[[v1 x1] o]|]; [|now apply diverges_try].
      destruct X as (w1 & E & S1). specialize (Bk _ _ _ eq_refl).
      assert (Go : match o with ORet _ | OPanic => True | _ => False end) by (destruct Bk as [[? ->] | ->]; exact Logic.I).
      destruct o as [r| | |]; [| |destruct Go..]; specialize (IH _ _ _ S1).
      + destruct (play_all ps ex ss _ x1) as [[v' x']|].
        * destruct IH as (w' & E' & S'). exists w'. split; [eapply XTry; [exact E|exact E']|exact S'].
        * eapply diverges_try_after; [exact E|exact IH].
      + destruct (play_all ps ex ss v x1) as [[v' x']|].
        * destruct IH as (w' & E' & S'). exists w'. split; [eapply XTryPanic; [exact E|exact E']|exact S'].
        * eapply diverges_try_after; [exact E|exact IH].
  Qed.
End Facts.
