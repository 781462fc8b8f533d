(** Properties C24-C32: Save, Delete and triggers. *)
From Coq Require Import List Bool Arith Lia.
From Coq Require String.
From Verif Require Import Ord OrdFacts BTree BTreeFacts Graph GraphFacts Demo Tx TxMachine SpecTx TxFacts Prog SpecProg
  ProgFacts ProgFrame ProgTx ProgOps ProgTerm P_Prog.
Import ListNotations.

Section Properties.
  Context {Id Node V U : Type} `{HO : OrdT Id} `{HI : Identify Node Id}.
  Notation prog := (prog Id Node V U).
  Notation world := (world Id Node V U).
  Notation schema := (schema Id Node V U).
  Notation trigger := (trigger Id Node V U).

  Local Arguments buf_ops : simpl never.

  (** C24, top level. *)
  Theorem C24_save_inserts_exactly :
    forall (sc : schema) (w : world) (n : Node),
      scheduled sc BeforeSave = [] -> scheduled sc AfterSave = [] ->
      g_reachable (w_graph w) -> w_lock w = GFree -> fresh w ->
      exists w', ends sc w (p_save n (TxBg None) PRet) w' (ORet RUnit) /\
        (forall i, g_get (w_graph w') i = base_set (id_of n) (Some n) (g_get (w_graph w)) i) /\
        w_lock w' = GFree /\ w_heap w' = w_heap w /\ w_out w' = w_out w /\
        (forall h, reads w h <> None -> reads w' h = reads w h).
  Proof.
    intros sc w n B A R L Fr.
    set (c := bg_target_ctx w).
    assert (E : exec sc (bg_open w) (save_body n (bg_ctx w)) (save_step c (with_target n (bg_open w))) (ORet RUnit)).
    { apply exec_save_body. right. exists (with_target n (bg_open w)). rewrite A, B. split; [constructor|].
      left. split; [reflexivity|constructor]. }
    assert (Rd : reads (with_target n (bg_open w)) (target_of c) = Some (DNode n)).
    { unfold reads, with_target; cbn. rewrite nth_error_app2, Nat.sub_diag by lia. reflexivity. }
    unfold save_step in E. rewrite Rd in E.
    eexists. split.
    - apply exec_run. eapply XBgOk; [exact L|exact E|reflexivity| |apply XRet].
      unfold bg_commit. cbn [w_leaked leaked]. unfold fresh, leaked in Fr. unfold leaked. cbn. rewrite Fr. reflexivity.
    - unfold close; cbn [w_graph w_lock w_heap w_cells w_out set_leaked set_heap set_lock set_graph with_target bg_open set_cells].
      split; [|split; [reflexivity|split; [|split; [reflexivity|]]]].
      + intros i. rewrite replay_apply_ops by now apply g_reachable_wf.
        change (buf_ops (alter _ _ _) _)
          with (buf_ops (buf_push (w_heap w ++ [[]]) (length (w_heap w)) (OSave n)) (length (w_heap w))).
        rewrite buf_ops_push_eq by (rewrite app_length; cbn; lia). rewrite buf_ops_open. unfold buf_ops. rewrite nth_overflow by lia. reflexivity.
      + assert (X : forall (h : heap Id Node) f, firstn (length h) (alter f (length h) (h ++ [[]])) = h).
        { induction h as [|x h IH]; intros f; [reflexivity|]. cbn. now rewrite IH. }
        apply X.
      + intros h. unfold reads; cbn. destruct (h_addr h) as [a|]; [|reflexivity].
        destruct (nth_error (w_cells w) a) as [x|] eqn:N; [|tauto]. intros _.
        rewrite nth_error_app1 by (apply nth_error_Some; congruence). now rewrite N.
  Qed.

  (** What a context answers when [o] is registered on [c]. *)
  Lemma view_registered (w w' : world) c o : w_graph w' = w_graph w ->
    (forall d, registered w' d = registered w d ++ (if Nat.eqb (ctx_buf d) (ctx_buf c) then [o] else [])) ->
    (forall d i, i <> op_id o -> view w' d i = view w d i) /\
    view w' c (op_id o) = op_result o /\
    (forall d i, ~ In (ctx_buf c) (ctx_chain d) -> view w' d i = view w d i).
  Proof.
    intros G Rg. unfold view, registered in *. rewrite G. split; [|split].
    - intros d i Ne.
      assert (X : forall e, ops_overlay (buf_ops (w_heap w') (ctx_buf e)) i = ops_overlay (buf_ops (w_heap w) (ctx_buf e)) i).
      { intros e. rewrite Rg, ops_overlay_app. destruct (Nat.eqb _ _); [|reflexivity]. rewrite ops_overlay_one.
        destruct (eqb (op_id o) i) eqn:E; [apply eqb_eq in E; congruence|reflexivity]. }
      induction d as [b t|p IH b t].
      + rewrite (ctx_get_unfold (w_heap w')), (ctx_get_unfold (w_heap w)), X. reflexivity.
      + rewrite (ctx_get_unfold (w_heap w') _ (CSub p b t)), (ctx_get_unfold (w_heap w) _ (CSub p b t)), X, IH. reflexivity.
    - rewrite ctx_get_unfold, Rg, ops_overlay_app, Nat.eqb_refl, ops_overlay_one.
      now rewrite (proj2 (eqb_eq (op_id o) (op_id o)) eq_refl).
    - intros d i N. apply ctx_get_frame. intros b I. specialize (Rg (CRoot b None)). cbn in Rg.
      rewrite Rg. destruct (Nat.eqb_spec b (ctx_buf c)) as [Eb|_]; [rewrite Eb in I; contradiction|apply app_nil_r].
  Qed.

  (** C24, on a context [c]. *)
  Theorem C24_save_on_context :
    forall (sc : schema) (w : world) (n : Node) (c : ctx),
      scheduled sc BeforeSave = [] -> scheduled sc AfterSave = [] ->
      ctx_buf c < length (w_heap w) -> fresh w ->
      exists w', ends sc w (p_save n (TxFg c) PRet) w' (ORet RUnit) /\
        w_graph w' = w_graph w /\ w_lock w' = w_lock w /\ w_out w' = w_out w /\
        view w' c (id_of n) = Some n /\
        (forall d i, i <> id_of n -> view w' d i = view w d i) /\
        (forall d i, ~ In (ctx_buf c) (ctx_chain d) -> view w' d i = view w d i).
  Proof.
    intros sc w n c B A Lc Fr.
    set (d := fg_target_ctx w c).
    assert (E : exec sc (fg_open w) (save_body n (fg_ctx w c)) (save_step d (with_target n (fg_open w))) (ORet RUnit)).
    { apply exec_save_body. right. exists (with_target n (fg_open w)). rewrite A, B. split; [constructor|].
      left. split; [reflexivity|constructor]. }
    assert (Rd : reads (with_target n (fg_open w)) (target_of d) = Some (DNode n)).
    { unfold reads, with_target; cbn. rewrite nth_error_app2, Nat.sub_diag by lia. reflexivity. }
    unfold save_step in E. rewrite Rd in E.
    destruct (C68_sub_commits_all_or_nothing_if_leaked sc w _ c _ RUnit Lc (exec_run _ _ _ _ _ E) eq_refl)
      as (w' & E' & G & Oth & Own).
    exists w'. split; [exact E'|]. pose proof (ends_framed sc _ _ _ _ E' I) as Fm.
    split; [exact G|]. split; [apply (fr_lock _ _ Fm)|]. split.
    { destruct (fg_inv sc w c _ w' RUnit E') as (w1 & E1 & ->).
      destruct (ends_det _ _ _ _ _ _ _ E1 (exec_run _ _ _ _ _ E)) as [-> _]. cbn [is_ok].
      unfold fg_commit. destruct (leaked _ _); reflexivity. }
    assert (Nl : leaked (set_heap (ctx_save (w_heap (with_target n (fg_open w))) d n) (with_target n (fg_open w)))
                   (length (w_heap w)) = false) by exact Fr.
    rewrite Nl in Own.
    assert (Rg : forall e, registered w' e = registered w e ++ (if Nat.eqb (ctx_buf e) (ctx_buf c) then [OSave n] else [])).
    { intros e. destruct (Nat.eqb_spec (ctx_buf e) (ctx_buf c)) as [Ee|Ne].
      - unfold registered in *. rewrite Ee, Own. cbn [w_heap set_heap]. unfold ctx_save, d. cbn [ctx_buf fg_target_ctx fg_ctx].
        rewrite buf_ops_push_ne by lia. rewrite buf_ops_push_eq by (cbn; rewrite app_length; cbn; lia).
        cbn [with_target fg_open w_heap set_cells set_heap]. rewrite !buf_ops_open. f_equal.
        unfold buf_ops. rewrite nth_overflow by lia. reflexivity.
      - rewrite app_nil_r. destruct (Nat.lt_ge_cases (ctx_buf e) (length (w_heap w))) as [Lt|Ge].
        + rewrite Oth by assumption. unfold registered. cbn [w_heap set_heap]. unfold ctx_save, d. cbn [ctx_buf fg_target_ctx].
          rewrite buf_ops_push_ne by lia. cbn [with_target fg_open w_heap set_cells set_heap]. apply buf_ops_open.
        + unfold registered, buf_ops. rewrite !nth_overflow; auto. rewrite (fr_len _ _ Fm). exact Ge. }
    destruct (view_registered w w' c (OSave n) G Rg) as (V1 & V2 & V3). auto.
  Qed.

  Lemma open_view_root (w : world) i : view (bg_open w) (bg_ctx w) i = g_get (w_graph w) i.
  Proof.
    unfold view. rewrite ctx_get_unfold. cbn. rewrite buf_ops_open. unfold buf_ops. rewrite nth_overflow by lia. reflexivity.
  Qed.

  Lemma open_view_sub (w : world) c i : view (fg_open w) (fg_ctx w c) i = view w c i.
  Proof.
    unfold view. rewrite ctx_get_unfold. cbn. rewrite buf_ops_open. unfold buf_ops at 1. rewrite nth_overflow by lia. cbn.
    apply ctx_get_frame. intros; apply buf_ops_open.
  Qed.

  (** C25, nothing to delete: whatever the triggers. *)
  Theorem C25_delete_absent_is_noop :
    forall (sc : schema) (w : world) (i : Id) crash,
      w_lock w = GFree -> fresh w -> g_get (w_graph w) i = None ->
      exists w', ends sc w (p_delete i (TxBg crash) PRet) w' (ORet (RErr Noop)) /\
        w_graph w' = w_graph w /\ w_lock w' = w_lock w /\ w_heap w' = w_heap w /\ w_cells w' = w_cells w /\
        w_out w' = w_out w.
  Proof.
    intros sc w i crash L Fr G.
    assert (E : exec sc (bg_open w) (delete_body i (bg_ctx w)) (bg_open w) (ORet (RErr Noop))).
    { apply exec_delete_body. rewrite open_view_root, G. auto. }
    eexists. split; [apply exec_run; eapply XBgErr; [exact L|exact E|reflexivity|apply XRet]|].
    unfold close; cbn. rewrite firstn_app, Nat.sub_diag, firstn_all, app_nil_r. auto 6.
  Qed.

  Theorem C25_delete_absent_on_context :
    forall (sc : schema) (w : world) (i : Id) c,
      fresh w -> view w c i = None ->
      exists w', ends sc w (p_delete i (TxFg c) PRet) w' (ORet (RErr Noop)) /\
        w_graph w' = w_graph w /\ w_lock w' = w_lock w /\ w_heap w' = w_heap w /\ w_cells w' = w_cells w /\
        w_out w' = w_out w.
  Proof.
    intros sc w i c Fr G.
    assert (E : exec sc (fg_open w) (delete_body i (fg_ctx w c)) (fg_open w) (ORet (RErr Noop))).
    { apply exec_delete_body. rewrite open_view_sub, G. auto. }
    eexists. split; [apply exec_run; eapply XFgErr; [exact E|reflexivity|apply XRet]|].
    unfold close; cbn. rewrite firstn_app, Nat.sub_diag, firstn_all, app_nil_r. auto 6.
  Qed.

  (** C25, deleting. *)
  Theorem C25_delete_removes_exactly :
    forall (sc : schema) (w : world) (i : Id) n,
      scheduled sc BeforeDelete = [] -> scheduled sc AfterDelete = [] ->
      g_reachable (w_graph w) -> w_lock w = GFree -> fresh w -> g_get (w_graph w) i = Some n ->
      exists w', ends sc w (p_delete i (TxBg None) PRet) w' (ORet RUnit) /\
        (forall j, g_get (w_graph w') j = base_set i None (g_get (w_graph w)) j) /\
        w_lock w' = GFree /\ w_out w' = w_out w.
  Proof.
    intros sc w i n B A R L Fr G.
    set (c := bg_target_ctx w).
    assert (E : exec sc (bg_open w) (delete_body i (bg_ctx w)) (delete_step c i (with_target n (bg_open w))) (ORet RUnit)).
    { apply exec_delete_body. rewrite open_view_root, G. right. exists (with_target n (bg_open w)). rewrite A, B.
      split; [constructor|]. left. split; [reflexivity|constructor]. }
    eexists. split.
    - apply exec_run. eapply XBgOk; [exact L|exact E|reflexivity| |apply XRet].
      unfold bg_commit. unfold fresh, leaked in Fr. unfold leaked. cbn. rewrite Fr. reflexivity.
    - unfold close; cbn [w_graph w_lock w_heap w_cells w_out set_leaked set_heap set_lock set_graph with_target bg_open set_cells delete_step].
      split; [|auto]. intros j. rewrite replay_apply_ops by now apply g_reachable_wf.
      change (buf_ops (alter _ _ _) _)
        with (buf_ops (buf_push (w_heap w ++ [[]]) (length (w_heap w)) (ODelete i)) (length (w_heap w))).
      rewrite buf_ops_push_eq by (rewrite app_length; cbn; lia). rewrite buf_ops_open. unfold buf_ops. rewrite nth_overflow by lia. reflexivity.
  Qed.

  Theorem C25_delete_on_context :
    forall (sc : schema) (w : world) (i : Id) n (c : ctx),
      scheduled sc BeforeDelete = [] -> scheduled sc AfterDelete = [] ->
      ctx_buf c < length (w_heap w) -> fresh w -> view w c i = Some n ->
      exists w', ends sc w (p_delete i (TxFg c) PRet) w' (ORet RUnit) /\
        w_graph w' = w_graph w /\ w_lock w' = w_lock w /\ w_out w' = w_out w /\
        view w' c i = None /\
        (forall d j, j <> i -> view w' d j = view w d j) /\
        (forall d j, ~ In (ctx_buf c) (ctx_chain d) -> view w' d j = view w d j).
  Proof.
    intros sc w i n c B A Lc Fr Vw.
    set (d := fg_target_ctx w c).
    assert (E : exec sc (fg_open w) (delete_body i (fg_ctx w c)) (delete_step d i (with_target n (fg_open w))) (ORet RUnit)).
    { apply exec_delete_body. rewrite open_view_sub, Vw. right. exists (with_target n (fg_open w)). rewrite A, B.
      split; [constructor|]. left. split; [reflexivity|constructor]. }
    destruct (C68_sub_commits_all_or_nothing_if_leaked sc w _ c _ RUnit Lc (exec_run _ _ _ _ _ E) eq_refl)
      as (w' & E' & G & Oth & Own).
    exists w'. split; [exact E'|]. pose proof (ends_framed sc _ _ _ _ E' I) as Fm.
    split; [exact G|]. split; [apply (fr_lock _ _ Fm)|]. split.
    { destruct (fg_inv sc w c _ w' RUnit E') as (w1 & E1 & ->).
      destruct (ends_det _ _ _ _ _ _ _ E1 (exec_run _ _ _ _ _ E)) as [-> _]. cbn [is_ok].
      unfold fg_commit. destruct (leaked _ _); reflexivity. }
    assert (Nl : leaked (delete_step d i (with_target n (fg_open w))) (length (w_heap w)) = false) by exact Fr.
    rewrite Nl in Own.
    assert (Rg : forall e, registered w' e = registered w e ++ (if Nat.eqb (ctx_buf e) (ctx_buf c) then [ODelete i] else [])).
    { intros e. destruct (Nat.eqb_spec (ctx_buf e) (ctx_buf c)) as [Ee|Ne].
      - unfold registered in *. rewrite Ee, Own. cbn [w_heap set_heap delete_step]. unfold ctx_delete, d. cbn [ctx_buf fg_target_ctx fg_ctx].
        rewrite buf_ops_push_ne by lia. rewrite buf_ops_push_eq by (cbn; rewrite app_length; cbn; lia).
        cbn [with_target fg_open w_heap set_cells set_heap]. rewrite !buf_ops_open. f_equal.
        unfold buf_ops. rewrite nth_overflow by lia. reflexivity.
      - rewrite app_nil_r. destruct (Nat.lt_ge_cases (ctx_buf e) (length (w_heap w))) as [Lt|Ge].
        + rewrite Oth by assumption. unfold registered. cbn [w_heap set_heap delete_step]. unfold ctx_delete, d. cbn [ctx_buf fg_target_ctx].
          rewrite buf_ops_push_ne by lia. cbn [with_target fg_open w_heap set_cells set_heap]. apply buf_ops_open.
        + unfold registered, buf_ops. rewrite !nth_overflow; auto. rewrite (fr_len _ _ Fm). exact Ge. }
    destruct (view_registered w w' c (ODelete i) G Rg) as (V1 & V2 & V3). auto.
  Qed.

  (** ** Phases *)

  (** C26: what happened when [Save] returned [Ok] ([w1]: after the [BeforeSave] triggers, [w2]: after the
      save, [w3]: after the [AfterSave] triggers).  The target reads as nothing when a trigger panicked
      while mutating it and caught that panic; see C29. *)
  Theorem C26_save_phases :
    forall (sc : schema) (w w' : world) (n : Node) crash r,
      triggers_borrow sc -> g_reachable (w_graph w) -> fresh w ->
      ends sc w (p_save n (TxBg crash) PRet) w' (ORet r) -> is_ok r = true ->
      let c := bg_target_ctx w in
      exists w1 w2 w3 saved after,
        all_succeed sc c (scheduled sc BeforeSave) (with_target n (bg_open w)) w1 /\
        match reads w1 (target_of c) with
        | Some (DNode m) => saved = [OSave m] /\ registers c (OSave m) w1 w2 /\ view w2 c (id_of m) = Some m
        | _ => saved = [] /\ w2 = w1
        end /\
        all_succeed sc c (scheduled sc AfterSave) w2 w3 /\
        registered w3 c = registered w1 c ++ saved ++ after /\
        (forall i, g_get (w_graph w') i =
                   replay (map op_entry (registered w1 c ++ saved ++ after)) (g_get (w_graph w)) i) /\
        w_cells w' = w_cells w3 /\ w_out w' = w_out w3.
  Proof.
    intros sc w w' n crash r T R Fr E Ok c.
    destruct (bg_inv sc w crash _ w' r E) as (L & w3 & E3 & X).
    rewrite Ok in X. destruct X as (w2' & Cm & ->).
    apply (ends_exec sc _ _ _ (ORet r) I) in E3. pose proof (exec_framed _ _ _ _ _ E3) as F3.
    apply exec_save_body in E3 as [(e & -> & _)|(w1 & A & Rn)]; [discriminate|].
    fold c in A, Rn.
    assert (Rn' : all_succeed sc c (scheduled sc AfterSave) (save_step c w1) w3).
    { destruct Rn as [[_ Q]|(e & -> & _)]; [exact Q|discriminate]. }
    pose proof (all_framed _ _ _ _ _ A) as F1. pose proof (all_framed _ _ _ _ _ Rn') as F2.
    destruct (target_cell n (bg_open w) w1 F1) as (m & p & N). cbn [bg_open w_cells set_lock set_heap] in N.
    assert (Lh : length (w_heap w) < length (w_heap w1)).
    { rewrite (fr_len _ _ F1). cbn. rewrite app_length. cbn. lia. }
    assert (Nl : leaked w3 (length (w_heap w)) = false).
    { rewrite (ran_leaked sc c AfterSave (save_step c w1) w3 r _ T Rn).
      - replace (leaked (save_step c w1) (length (w_heap w))) with (leaked w1 (length (w_heap w)))
          by (unfold save_step; destruct (reads w1 _) as [[|]|]; reflexivity).
        rewrite (ran_leaked sc c BeforeSave (with_target n (bg_open w)) w1 RUnit _ T); [exact Fr|left; auto|].
        cbn. rewrite app_length. cbn. lia.
      - unfold save_step. destruct (reads w1 _) as [[|]|]; cbn; try exact Lh. unfold ctx_save, buf_push. now rewrite alter_length. }
    destruct (fr_ops _ _ F2 (ctx_buf c)) as [after Ea].
    exists w1, (save_step c w1), w3,
      (match reads w1 (target_of c) with Some (DNode m) => [OSave m] | _ => [] end), after.
    assert (Cells : w_cells w2' = w_cells w3 /\ w_out w2' = w_out w3).
    { apply bg_commit_graph in Cm as [ops ->]. auto. }
    assert (Rg : registered w3 c = registered w1 c ++
              match reads w1 (target_of c) with Some (DNode m) => [OSave m] | _ => [] end ++ after).
    { unfold registered. rewrite Ea. unfold save_step. destruct (reads w1 (target_of c)) as [[m'|t u]|]; auto.
      cbn [w_heap set_heap]. unfold ctx_save. rewrite buf_ops_push_eq by exact Lh. now rewrite <- app_assoc. }
    split; [exact A|]. split.
    { unfold save_step. destruct (reads w1 (target_of c)) as [[m'|t u]|]; auto.
      split; [reflexivity|]. split; [reflexivity|]. unfold view. rewrite ctx_get_unfold. cbn [w_heap set_heap].
      unfold ctx_save. rewrite buf_ops_push_eq by exact Lh. rewrite ops_overlay_app, ops_overlay_one. cbn.
      now rewrite (proj2 (eqb_eq (id_of m') (id_of m')) eq_refl). }
    split; [exact Rn'|]. split; [exact Rg|]. split; [|exact Cells].
    intros i. rewrite <- Rg.
    assert (G : w_graph w3 = w_graph w) by exact (fr_frozen _ _ F3 I).
    unfold bg_commit in Cm. rewrite Nl in Cm.
    assert (Gg : w_graph w2' = apply_ops (w_graph w3) (buf_ops (w_heap w3) (length (w_heap w)))).
    { destruct crash as [k|]; [destruct (crashes k _)|]; try discriminate; injection Cm as <-; reflexivity. }
    unfold close; cbn [w_graph set_leaked set_heap set_lock]. rewrite Gg, G.
    apply replay_apply_ops. now apply g_reachable_wf.
  Qed.

  (** C26, conversely: those phases succeeding, [Save] returns [Ok]. *)
  Theorem C26_save_succeeds :
    forall (sc : schema) (w w1 w2 w3 : world) (n : Node),
      w_lock w = GFree ->
      let c := bg_target_ctx w in
      all_succeed sc c (scheduled sc BeforeSave) (with_target n (bg_open w)) w1 ->
      match reads w1 (target_of c) with Some (DNode m) => registers c (OSave m) w1 w2 | _ => w2 = w1 end ->
      all_succeed sc c (scheduled sc AfterSave) w2 w3 ->
      exists w', ends sc w (p_save n (TxBg None) PRet) w' (ORet RUnit).
  Proof.
    intros sc w w1 w2 w3 n L c A S B.
    assert (E2 : w2 = save_step c w1).
    { unfold save_step. destruct (reads w1 (target_of c)) as [[m|t u]|]; auto. }
    subst w2.
    assert (E : exec sc (bg_open w) (save_body n (bg_ctx w)) w3 (ORet RUnit)).
    { apply exec_save_body. right. exists w1. split; [exact A|]. left. auto. }
    destruct (bg_commit None (length (w_heap w)) w3) as [w4 x] eqn:C.
    assert (x = false) as -> by (unfold bg_commit in C; destruct (leaked w3 _); congruence).
    eexists. apply exec_run. eapply XBgOk; [exact L|exact E|reflexivity|exact C|apply XRet].
  Qed.

  (** C28: what happened when [Delete] returned [Ok]. *)
  Theorem C28_delete_phases :
    forall (sc : schema) (w w' : world) (i : Id) crash r,
      triggers_borrow sc -> g_reachable (w_graph w) -> fresh w ->
      ends sc w (p_delete i (TxBg crash) PRet) w' (ORet r) -> is_ok r = true ->
      let c := bg_target_ctx w in
      exists n w1 w2 w3 after,
        g_get (w_graph w) i = Some n /\
        reads (with_target n (bg_open w)) (target_of c) = Some (DNode n) /\
        all_succeed sc c (scheduled sc BeforeDelete) (with_target n (bg_open w)) w1 /\
        registers c (ODelete i) w1 w2 /\ view w2 c i = None /\
        all_succeed sc c (scheduled sc AfterDelete) w2 w3 /\
        registered w3 c = registered w1 c ++ [ODelete i] ++ after /\
        (forall j, g_get (w_graph w') j =
                   replay (map op_entry (registered w1 c ++ [ODelete i] ++ after)) (g_get (w_graph w)) j) /\
        w_cells w' = w_cells w3 /\ w_out w' = w_out w3.
  Proof.
    intros sc w w' i crash r T R Fr E Ok c.
    destruct (bg_inv sc w crash _ w' r E) as (L & w3 & E3 & X).
    rewrite Ok in X. destruct X as (w2' & Cm & ->).
    apply (ends_exec sc _ _ _ (ORet r) I) in E3. pose proof (exec_framed _ _ _ _ _ E3) as F3.
    apply exec_delete_body in E3. rewrite open_view_root in E3.
    destruct (g_get (w_graph w) i) as [n|] eqn:Gi; [|destruct E3 as [-> _]; discriminate].
    destruct E3 as [(e & -> & _)|(w1 & A & Rn)]; [discriminate|]. fold c in A, Rn.
    assert (Rn' : all_succeed sc c (scheduled sc AfterDelete) (delete_step c i w1) w3).
    { destruct Rn as [[_ Q]|(e & -> & _)]; [exact Q|discriminate]. }
    pose proof (all_framed _ _ _ _ _ A) as F1. pose proof (all_framed _ _ _ _ _ Rn') as F2.
    assert (Lh : length (w_heap w) < length (w_heap w1)).
    { rewrite (fr_len _ _ F1). cbn. rewrite app_length. cbn. lia. }
    assert (Nl : leaked w3 (length (w_heap w)) = false).
    { rewrite (ran_leaked sc c AfterDelete (delete_step c i w1) w3 r _ T Rn).
      - change (leaked (delete_step c i w1) (length (w_heap w))) with (leaked w1 (length (w_heap w))).
        rewrite (ran_leaked sc c BeforeDelete (with_target n (bg_open w)) w1 RUnit _ T); [exact Fr|left; auto|].
        cbn. rewrite app_length. cbn. lia.
      - cbn. unfold ctx_delete, buf_push. now rewrite alter_length. }
    destruct (fr_ops _ _ F2 (ctx_buf c)) as [after Ea].
    exists n, w1, (delete_step c i w1), w3, after.
    assert (Cells : w_cells w2' = w_cells w3 /\ w_out w2' = w_out w3).
    { apply bg_commit_graph in Cm as [ops ->]. auto. }
    assert (Rg : registered w3 c = registered w1 c ++ [ODelete i] ++ after).
    { unfold registered. rewrite Ea. cbn [w_heap set_heap delete_step]. unfold ctx_delete. rewrite buf_ops_push_eq by exact Lh.
      now rewrite <- app_assoc. }
    split; [reflexivity|]. split.
    { unfold reads, with_target; cbn. rewrite nth_error_app2, Nat.sub_diag by lia. reflexivity. }
    split; [exact A|]. split; [reflexivity|]. split.
    { unfold view. rewrite ctx_get_unfold. cbn [w_heap set_heap delete_step].
      unfold ctx_delete. rewrite buf_ops_push_eq by exact Lh. rewrite ops_overlay_app, ops_overlay_one. cbn.
      now rewrite (proj2 (eqb_eq i i) eq_refl). }
    split; [exact Rn'|]. split; [exact Rg|]. split; [|exact Cells].
    intros j. rewrite <- Rg.
    assert (G : w_graph w3 = w_graph w) by exact (fr_frozen _ _ F3 I).
    unfold bg_commit in Cm. rewrite Nl in Cm.
    assert (Gg : w_graph w2' = apply_ops (w_graph w3) (buf_ops (w_heap w3) (length (w_heap w)))).
    { destruct crash as [k|]; [destruct (crashes k _)|]; try discriminate; injection Cm as <-; reflexivity. }
    unfold close; cbn [w_graph set_leaked set_heap set_lock]. rewrite Gg, G.
    apply replay_apply_ops. now apply g_reachable_wf.
  Qed.

  (** C27. [w1]: the state in which the failing trigger returned; nothing ran after it. *)
  Theorem C27_failing_trigger_aborts_save :
    forall (sc : schema) (w w1 : world) (n : Node) crash e,
      w_lock w = GFree ->
      let c := bg_target_ctx w in
      first_failure sc c e (scheduled sc BeforeSave) (with_target n (bg_open w)) w1 \/
      (exists wb ws, all_succeed sc c (scheduled sc BeforeSave) (with_target n (bg_open w)) wb /\
         match reads wb (target_of c) with Some (DNode m) => registers c (OSave m) wb ws | _ => ws = wb end /\
         first_failure sc c e (scheduled sc AfterSave) ws w1) ->
      exists w', ends sc w (p_save n (TxBg crash) PRet) w' (ORet (RErr e)) /\
        w_graph w' = w_graph w /\ w_lock w' = GFree /\ w_cells w' = w_cells w1 /\ w_out w' = w_out w1.
  Proof.
    intros sc w w1 n crash e L c X.
    assert (E : exec sc (bg_open w) (save_body n (bg_ctx w)) w1 (ORet (RErr e))).
    { apply exec_save_body. destruct X as [F|(wb & ws & A & S & F)]; [left; eauto|].
      right. exists wb. split; [exact A|]. right. exists e. split; [reflexivity|].
      assert (Es : ws = save_step c wb).
      { unfold save_step. destruct (reads wb (target_of c)) as [[m|t u]|]; auto. }
      subst ws. exact F. }
    eexists. split; [apply exec_run; eapply XBgErr; [exact L|exact E|reflexivity|apply XRet]|].
    split; [exact (fr_frozen _ _ (exec_framed _ _ _ _ _ E) I)|auto].
  Qed.

  Theorem C27_failing_trigger_aborts_delete :
    forall (sc : schema) (w w1 : world) (i : Id) n crash e,
      w_lock w = GFree -> g_get (w_graph w) i = Some n ->
      let c := bg_target_ctx w in
      first_failure sc c e (scheduled sc BeforeDelete) (with_target n (bg_open w)) w1 \/
      (exists wb ws, all_succeed sc c (scheduled sc BeforeDelete) (with_target n (bg_open w)) wb /\
         registers c (ODelete i) wb ws /\ first_failure sc c e (scheduled sc AfterDelete) ws w1) ->
      exists w', ends sc w (p_delete i (TxBg crash) PRet) w' (ORet (RErr e)) /\
        w_graph w' = w_graph w /\ w_lock w' = GFree /\ w_cells w' = w_cells w1 /\ w_out w' = w_out w1.
  Proof.
    intros sc w w1 i n crash e L G c X.
    assert (E : exec sc (bg_open w) (delete_body i (bg_ctx w)) w1 (ORet (RErr e))).
    { apply exec_delete_body. rewrite open_view_root, G. destruct X as [F|(wb & ws & A & S & F)]; [left; eauto|].
      right. exists wb. split; [exact A|]. right. exists e. split; [reflexivity|]. unfold registers in S. subst ws. exact F. }
    eexists. split; [apply exec_run; eapply XBgErr; [exact L|exact E|reflexivity|apply XRet]|].
    split; [exact (fr_frozen _ _ (exec_framed _ _ _ _ _ E) I)|auto].
  Qed.

  (** C26, C27, C28 on a sub-transaction of [c0]. *)
  Theorem C26_save_phases_on_context :
    forall (sc : schema) (w w' : world) (n : Node) c0 r,
      triggers_borrow sc -> triggers_mind_their_own sc -> ctx_buf c0 < length (w_heap w) -> fresh w -> w_lock w = GTx ->
      ends sc w (p_save n (TxFg c0) PRet) w' (ORet r) -> is_ok r = true ->
      let c := fg_target_ctx w c0 in
      exists w1 w2 w3 saved after,
        all_succeed sc c (scheduled sc BeforeSave) (with_target n (fg_open w)) w1 /\
        match reads w1 (target_of c) with
        | Some (DNode m) => saved = [OSave m] /\ registers c (OSave m) w1 w2 /\ view w2 c (id_of m) = Some m
        | _ => saved = [] /\ w2 = w1
        end /\
        all_succeed sc c (scheduled sc AfterSave) w2 w3 /\
        registered w3 c = registered w1 c ++ saved ++ after /\
        w_graph w' = w_graph w /\
        registered w' c0 = registered w c0 ++ registered w1 c ++ saved ++ after /\
        (forall d, ctx_buf d <> ctx_buf c0 -> registered w' d = registered w d) /\
        w_cells w' = w_cells w3 /\ w_out w' = w_out w3.
  Proof.
    intros sc w w' n c0 r T Tm Lc Fr Lk E Ok c.
    destruct (fg_inv sc w c0 _ w' r E) as (w3 & E3 & Ew). rewrite Ok in Ew.
    destruct (C68_sub_commits_all_or_nothing_if_leaked sc w w3 c0 _ r Lc E3 Ok) as (w4 & E4 & G4 & Oth & Own).
    destruct (ends_det _ _ _ _ _ _ _ E4 E) as [-> _]. clear E4.
    destruct (uncommitted_heap sc w w3 c0 _ _ Tm (confined_save_body n (fg_ctx w c0) (fun b => b = length (w_heap w)) eq_refl) E3 I)
      as [Eh _].
    pose proof (ends_framed sc _ _ _ _ E I) as Fm.
    apply (ends_exec sc _ _ _ (ORet r) I) in E3. pose proof (exec_framed _ _ _ _ _ E3) as F3.
    apply exec_save_body in E3 as [(e & -> & _)|(w1 & A & Rn)]; [discriminate|].
    change (after_target (fg_ctx w c0) (fg_open w)) with c in A, Rn.
    assert (Rn' : all_succeed sc c (scheduled sc AfterSave) (save_step c w1) w3).
    { destruct Rn as [[_ Q]|(e & -> & _)]; [exact Q|discriminate]. }
    pose proof (all_framed _ _ _ _ _ A) as F1. pose proof (all_framed _ _ _ _ _ Rn') as F2.
    assert (Lh : length (w_heap w) < length (w_heap w1)).
    { rewrite (fr_len _ _ F1). cbn. rewrite app_length. cbn. lia. }
    assert (Nl : leaked w3 (length (w_heap w)) = false).
    { rewrite (ran_leaked sc c AfterSave (save_step c w1) w3 r _ T Rn).
      - replace (leaked (save_step c w1) (length (w_heap w))) with (leaked w1 (length (w_heap w)))
          by (unfold save_step; destruct (reads w1 _) as [[|]|]; reflexivity).
        rewrite (ran_leaked sc c BeforeSave (with_target n (fg_open w)) w1 RUnit _ T); [exact Fr|left; auto|].
        cbn. rewrite app_length. cbn. lia.
      - unfold save_step. destruct (reads w1 _) as [[|]|]; cbn; try exact Lh. unfold ctx_save, buf_push. now rewrite alter_length. }
    rewrite Nl in Own.
    assert (Keep : forall d, ctx_buf d < length (w_heap w) -> registered w3 d = registered w d).
    { intros d Ld. unfold registered. rewrite <- Eh. unfold close; cbn [w_heap set_leaked set_heap]. now rewrite buf_ops_firstn. }
    destruct (fr_ops _ _ F2 (ctx_buf c)) as [after Ea].
    exists w1, (save_step c w1), w3,
      (match reads w1 (target_of c) with Some (DNode m) => [OSave m] | _ => [] end), after.
    assert (Rg : registered w3 c = registered w1 c ++
              match reads w1 (target_of c) with Some (DNode m) => [OSave m] | _ => [] end ++ after).
    { unfold registered. rewrite Ea. unfold save_step. destruct (reads w1 (target_of c)) as [[m'|t u]|]; auto.
      cbn [w_heap set_heap]. unfold ctx_save. rewrite buf_ops_push_eq by exact Lh. now rewrite <- app_assoc. }
    split; [exact A|]. split.
    { unfold save_step. destruct (reads w1 (target_of c)) as [[m'|t u]|]; auto.
      split; [reflexivity|]. split; [reflexivity|]. unfold view. rewrite ctx_get_unfold. cbn [w_heap set_heap].
      unfold ctx_save. rewrite buf_ops_push_eq by exact Lh. rewrite ops_overlay_app, ops_overlay_one. cbn.
      now rewrite (proj2 (eqb_eq (id_of m') (id_of m')) eq_refl). }
    split; [exact Rn'|]. split; [exact Rg|]. split; [apply (fr_frozen _ _ Fm); rewrite Lk; exact I|]. split.
    { rewrite Own, (Keep c0 Lc), <- Rg. reflexivity. }
    split.
    { intros d Nd. destruct (Nat.lt_ge_cases (ctx_buf d) (length (w_heap w))) as [Lt|Ge].
      - rewrite Oth by assumption. now apply Keep.
      - unfold registered, buf_ops. rewrite !nth_overflow; auto. rewrite (fr_len _ _ Fm). exact Ge. }
    rewrite Ew. unfold fg_commit. destruct (leaked w3 _); auto.
  Qed.

  Theorem C28_delete_phases_on_context :
    forall (sc : schema) (w w' : world) (i : Id) c0 r,
      triggers_borrow sc -> triggers_mind_their_own sc -> ctx_buf c0 < length (w_heap w) -> fresh w -> w_lock w = GTx ->
      ends sc w (p_delete i (TxFg c0) PRet) w' (ORet r) -> is_ok r = true ->
      let c := fg_target_ctx w c0 in
      exists n w1 w2 w3 after,
        view w c0 i = Some n /\
        reads (with_target n (fg_open w)) (target_of c) = Some (DNode n) /\
        all_succeed sc c (scheduled sc BeforeDelete) (with_target n (fg_open w)) w1 /\
        registers c (ODelete i) w1 w2 /\ view w2 c i = None /\
        all_succeed sc c (scheduled sc AfterDelete) w2 w3 /\
        registered w3 c = registered w1 c ++ [ODelete i] ++ after /\
        w_graph w' = w_graph w /\
        registered w' c0 = registered w c0 ++ registered w1 c ++ [ODelete i] ++ after /\
        (forall d, ctx_buf d <> ctx_buf c0 -> registered w' d = registered w d) /\
        w_cells w' = w_cells w3 /\ w_out w' = w_out w3.
  Proof.
    intros sc w w' i c0 r T Tm Lc Fr Lk E Ok c.
    destruct (fg_inv sc w c0 _ w' r E) as (w3 & E3 & Ew). rewrite Ok in Ew.
    destruct (C68_sub_commits_all_or_nothing_if_leaked sc w w3 c0 _ r Lc E3 Ok) as (w4 & E4 & G4 & Oth & Own).
    destruct (ends_det _ _ _ _ _ _ _ E4 E) as [-> _]. clear E4.
    destruct (uncommitted_heap sc w w3 c0 _ _ Tm (confined_delete_body i (fg_ctx w c0) (fun b => b = length (w_heap w)) eq_refl) E3 I)
      as [Eh _].
    pose proof (ends_framed sc _ _ _ _ E I) as Fm.
    apply (ends_exec sc _ _ _ (ORet r) I) in E3. pose proof (exec_framed _ _ _ _ _ E3) as F3.
    apply exec_delete_body in E3. rewrite open_view_sub in E3.
    destruct (view w c0 i) as [n|] eqn:Gi; [|destruct E3 as [-> _]; discriminate].
    destruct E3 as [(e & -> & _)|(w1 & A & Rn)]; [discriminate|].
    change (after_target (fg_ctx w c0) (fg_open w)) with c in A, Rn.
    assert (Rn' : all_succeed sc c (scheduled sc AfterDelete) (delete_step c i w1) w3).
    { destruct Rn as [[_ Q]|(e & -> & _)]; [exact Q|discriminate]. }
    pose proof (all_framed _ _ _ _ _ A) as F1. pose proof (all_framed _ _ _ _ _ Rn') as F2.
    assert (Lh : length (w_heap w) < length (w_heap w1)).
    { rewrite (fr_len _ _ F1). cbn. rewrite app_length. cbn. lia. }
    assert (Nl : leaked w3 (length (w_heap w)) = false).
    { rewrite (ran_leaked sc c AfterDelete (delete_step c i w1) w3 r _ T Rn).
      - change (leaked (delete_step c i w1) (length (w_heap w))) with (leaked w1 (length (w_heap w))).
        rewrite (ran_leaked sc c BeforeDelete (with_target n (fg_open w)) w1 RUnit _ T); [exact Fr|left; auto|].
        cbn. rewrite app_length. cbn. lia.
      - cbn. unfold ctx_delete, buf_push. now rewrite alter_length. }
    rewrite Nl in Own.
    assert (Keep : forall d, ctx_buf d < length (w_heap w) -> registered w3 d = registered w d).
    { intros d Ld. unfold registered. rewrite <- Eh. unfold close; cbn [w_heap set_leaked set_heap]. now rewrite buf_ops_firstn. }
    destruct (fr_ops _ _ F2 (ctx_buf c)) as [after Ea].
    exists n, w1, (delete_step c i w1), w3, after.
    assert (Rg : registered w3 c = registered w1 c ++ [ODelete i] ++ after).
    { unfold registered. rewrite Ea. cbn [w_heap set_heap delete_step]. unfold ctx_delete. rewrite buf_ops_push_eq by exact Lh.
      now rewrite <- app_assoc. }
    split; [reflexivity|]. split.
    { unfold reads, with_target; cbn. rewrite nth_error_app2, Nat.sub_diag by lia. reflexivity. }
    split; [exact A|]. split; [reflexivity|]. split.
    { unfold view. rewrite ctx_get_unfold. cbn [w_heap set_heap delete_step].
      unfold ctx_delete. rewrite buf_ops_push_eq by exact Lh. rewrite ops_overlay_app, ops_overlay_one. cbn.
      now rewrite (proj2 (eqb_eq i i) eq_refl). }
    split; [exact Rn'|]. split; [exact Rg|]. split; [apply (fr_frozen _ _ Fm); rewrite Lk; exact I|]. split.
    { rewrite Own, (Keep c0 Lc), <- Rg. reflexivity. }
    split.
    { intros d Nd. destruct (Nat.lt_ge_cases (ctx_buf d) (length (w_heap w))) as [Lt|Ge].
      - rewrite Oth by assumption. now apply Keep.
      - unfold registered, buf_ops. rewrite !nth_overflow; auto. rewrite (fr_len _ _ Fm). exact Ge. }
    rewrite Ew. unfold fg_commit. destruct (leaked w3 _); auto.
  Qed.

  Theorem C27_failing_trigger_aborts_save_on_context :
    forall (sc : schema) (w w1 : world) (n : Node) c0 e,
      triggers_mind_their_own sc -> w_lock w = GTx ->
      let c := fg_target_ctx w c0 in
      first_failure sc c e (scheduled sc BeforeSave) (with_target n (fg_open w)) w1 \/
      (exists wb ws, all_succeed sc c (scheduled sc BeforeSave) (with_target n (fg_open w)) wb /\
         match reads wb (target_of c) with Some (DNode m) => registers c (OSave m) wb ws | _ => ws = wb end /\
         first_failure sc c e (scheduled sc AfterSave) ws w1) ->
      exists w', ends sc w (p_save n (TxFg c0) PRet) w' (ORet (RErr e)) /\
        w_graph w' = w_graph w /\ (forall d, registered w' d = registered w d) /\
        w_cells w' = w_cells w1 /\ w_out w' = w_out w1.
  Proof.
    intros sc w w1 n c0 e Tm Lk c X.
    assert (E : exec sc (fg_open w) (save_body n (fg_ctx w c0)) w1 (ORet (RErr e))).
    { apply exec_save_body. destruct X as [F|(wb & ws & A & S & F)]; [left; eauto|].
      right. exists wb. split; [exact A|]. right. exists e. split; [reflexivity|].
      assert (Es : ws = save_step c wb).
      { unfold save_step. destruct (reads wb (target_of c)) as [[m|t u]|]; auto. }
      subst ws. exact F. }
    assert (E' : ends sc w (p_save n (TxFg c0) PRet) (close (length (w_heap w)) w1) (ORet (RErr e))).
    { apply exec_run. eapply XFgErr; [exact E|reflexivity|apply XRet]. }
    eexists. split; [exact E'|].
    destruct (C14_failed_sub_leaves_no_trace sc w _ c0 _ _ Tm
      (confined_save_body n (fg_ctx w c0) (fun b => b = length (w_heap w)) eq_refl) Lk E' (or_introl (ex_intro _ e eq_refl)))
      as (_ & G & Rg & _). auto.
  Qed.

  Theorem C27_failing_trigger_aborts_delete_on_context :
    forall (sc : schema) (w w1 : world) (i : Id) n c0 e,
      triggers_mind_their_own sc -> w_lock w = GTx -> view w c0 i = Some n ->
      let c := fg_target_ctx w c0 in
      first_failure sc c e (scheduled sc BeforeDelete) (with_target n (fg_open w)) w1 \/
      (exists wb ws, all_succeed sc c (scheduled sc BeforeDelete) (with_target n (fg_open w)) wb /\
         registers c (ODelete i) wb ws /\ first_failure sc c e (scheduled sc AfterDelete) ws w1) ->
      exists w', ends sc w (p_delete i (TxFg c0) PRet) w' (ORet (RErr e)) /\
        w_graph w' = w_graph w /\ (forall d, registered w' d = registered w d) /\
        w_cells w' = w_cells w1 /\ w_out w' = w_out w1.
  Proof.
    intros sc w w1 i n c0 e Tm Lk Vw c X.
    assert (E : exec sc (fg_open w) (delete_body i (fg_ctx w c0)) w1 (ORet (RErr e))).
    { apply exec_delete_body. rewrite open_view_sub, Vw. destruct X as [F|(wb & ws & A & S & F)]; [left; eauto|].
      right. exists wb. split; [exact A|]. right. exists e. split; [reflexivity|]. unfold registers in S. subst ws. exact F. }
    assert (E' : ends sc w (p_delete i (TxFg c0) PRet) (close (length (w_heap w)) w1) (ORet (RErr e))).
    { apply exec_run. eapply XFgErr; [exact E|reflexivity|apply XRet]. }
    eexists. split; [exact E'|].
    destruct (C14_failed_sub_leaves_no_trace sc w _ c0 _ _ Tm
      (confined_delete_body i (fg_ctx w c0) (fun b => b = length (w_heap w)) eq_refl) Lk E' (or_introl (ex_intro _ e eq_refl)))
      as (_ & G & Rg & _). auto.
  Qed.

  (** C29, what holds of it: the target is readable after the [BeforeSave] triggers, and the [AfterSave] ones
      register nothing about its id.  Missing: the cases refuted below. *)
  Theorem C29_ok_means_saved_partial :
    forall (sc : schema) (w w' w1 w3 : world) (n m : Node) crash r after,
      triggers_borrow sc -> g_reachable (w_graph w) -> fresh w ->
      ends sc w (p_save n (TxBg crash) PRet) w' (ORet r) -> is_ok r = true ->
      let c := bg_target_ctx w in
      all_succeed sc c (scheduled sc BeforeSave) (with_target n (bg_open w)) w1 ->
      reads w1 (target_of c) = Some (DNode m) ->
      (forall w2, registers c (OSave m) w1 w2 -> all_succeed sc c (scheduled sc AfterSave) w2 w3) ->
      registered w3 c = registered w1 c ++ [OSave m] ++ after ->
      (forall o, In o after -> op_id o <> id_of m) ->
      g_get (w_graph w') (id_of m) = Some m.
  Proof.
    intros sc w w' w1 w3 n m crash r after T R Fr E Ok c A Rd B Rg No.
    destruct (C26_save_phases sc w w' n crash r T R Fr E Ok) as (w1' & w2' & w3' & saved & after' & A' & S' & B' & Rg' & G & _).
    fold c in A', S', B', Rg', G.
    assert (X1 : w1' = w1).
    { assert (P1 : ran sc c (scheduled sc BeforeSave) (with_target n (bg_open w)) w1 RUnit) by (left; auto).
      assert (P2 : ran sc c (scheduled sc BeforeSave) (with_target n (bg_open w)) w1' RUnit) by (left; auto).
      apply exec_try in P1, P2. apply exec_run in P1, P2. now destruct (ends_det _ _ _ _ _ _ _ P2 P1). }
    subst w1'. rewrite Rd in S'. destruct S' as (-> & Sv & _).
    assert (X3 : w3' = w3).
    { assert (P1 : ran sc c (scheduled sc AfterSave) w2' w3 RUnit) by (left; auto).
      assert (P2 : ran sc c (scheduled sc AfterSave) w2' w3' RUnit) by (left; auto).
      apply exec_try in P1, P2. apply exec_run in P1, P2. now destruct (ends_det _ _ _ _ _ _ _ P2 P1). }
    subst w3'. rewrite G, <- Rg', Rg, <- replay_apply_ops by now apply g_reachable_wf.
    rewrite g_get_apply_ops by now apply g_reachable_wf.
    rewrite !ops_overlay_app, ops_overlay_one. rewrite (proj2 (ops_overlay_none after (id_of m)) No). cbn.
    now rewrite (proj2 (eqb_eq (id_of m) (id_of m)) eq_refl).
  Qed.

  (** C69: exactly when [Save] returning [Ok] means the node is there. *)
  Theorem C69_ok_from_save_means :
    forall (sc : schema) (w w' : world) (n : Node) crash r,
      triggers_borrow sc -> g_reachable (w_graph w) -> fresh w ->
      ends sc w (p_save n (TxBg crash) PRet) w' (ORet r) -> is_ok r = true ->
      let c := bg_target_ctx w in
      exists w1 w2 w3 after,
        all_succeed sc c (scheduled sc BeforeSave) (with_target n (bg_open w)) w1 /\
        all_succeed sc c (scheduled sc AfterSave) w2 w3 /\
        registered w3 c = registered w2 c ++ after /\
        match reads w1 (target_of c) with
        | Some (DNode m) =>
            registers c (OSave m) w1 w2 /\
            g_get (w_graph w') (id_of m) = replay (map op_entry after) (fun _ => Some m) (id_of m)
        | _ =>
            w2 = w1 /\
            forall i, g_get (w_graph w') i = replay (map op_entry (registered w1 c ++ after)) (g_get (w_graph w)) i
        end.
  Proof.
    intros sc w w' n crash r T R Fr E Ok c.
    destruct (C26_save_phases sc w w' n crash r T R Fr E Ok) as (w1 & w2 & w3 & saved & after & A & S & B & Rg & G & _).
    fold c in A, S, B, Rg, G. exists w1, w2, w3, after.
    split; [exact A|]. split; [exact B|].
    assert (Lh : ctx_buf c < length (w_heap w1)).
    { rewrite (fr_len _ _ (all_framed _ _ _ _ _ A)). cbn. rewrite app_length. cbn. lia. }
    destruct (reads w1 (target_of c)) as [[m|t u]|].
    - destruct S as (-> & S & _). split.
      + rewrite Rg. unfold registers in S. subst w2. unfold registered. cbn [w_heap set_heap].
        change (alter _ (ctx_buf c) (w_heap w1)) with (buf_push (w_heap w1) (ctx_buf c) (OSave m)).
        rewrite buf_ops_push_eq by exact Lh. now rewrite <- app_assoc.
      + split; [exact S|]. rewrite G.
        assert (X : forall l (f g : Id -> option Node) i, f i = g i ->
                  replay (map op_entry l) f i = replay (map op_entry l) g i).
        { induction l as [|o l IH]; intros f g i Efg; [exact Efg|]. cbn. destruct o as [m'|j]; cbn; apply IH;
            unfold base_set; destruct (eqb _ i); auto. }
        assert (Y : forall l1 l2 (f : Id -> option Node), replay (l1 ++ l2) f = replay l2 (replay l1 f)).
        { induction l1 as [|x l1 IH]; intros; [reflexivity|]. cbn. destruct x. apply IH. }
        rewrite !map_app, !Y. apply X. cbn. unfold base_set.
        now rewrite (proj2 (eqb_eq (id_of m) (id_of m)) eq_refl).
    - destruct S as (-> & ->). auto.
    - destruct S as (-> & ->). auto.
  Qed.

  (** C31. *)
  Theorem C31_stops_at_first_failure :
    forall (sc : schema) (w w' : world) s c,
      (forall r, ends sc w (PTriggers s c PRet) w' (ORet r) <->
        (r = RUnit /\ all_succeed sc c (scheduled sc s) w w') \/
        (exists e, r = RErr e /\ first_failure sc c e (scheduled sc s) w w')).
  Proof.
    intros sc w w' s c r. rewrite (ends_exec sc _ _ _ (ORet r) I), exec_triggers. split.
    - intros [(w1 & r1 & R & E)|[D _]]; [|discriminate]. inversion E; subst. exact R.
    - intros R. left. exists w', r. split; [exact R|constructor].
  Qed.

  (** C30. *)
  Theorem C30_triggers_in_registration_order :
    forall g (bs : list (@build Id Node V U)) (w w' : world) s c r,
      let sc := fst (built g bs) in
      ends sc w (PTriggers s c PRet) w' (ORet r) <->
        (r = RUnit /\ all_succeed sc c (triggers_for s bs) w w') \/
        (exists e, r = RErr e /\ first_failure sc c e (triggers_for s bs) w w').
  Proof.
    intros g bs w w' s c r sc. unfold sc. destruct (built_triggers g bs s) as [_ <-]. apply C31_stops_at_first_failure.
  Qed.

  (** C70. *)
  Theorem C70_stratified_programs_terminate :
    forall rank (sc : schema), stratified rank sc -> forall w (p : prog), loop_free p ->
      exists w' o, ends sc w p w' o.
  Proof. exact stratified_all_terminate. Qed.

  (** C32, what holds of it: termination if schedules can be ranked so that triggers only execute schedules of a
      lower rank (in particular if triggers neither save nor delete).  Missing: triggers that save or delete in
      a cycle, where it is false (below). *)
  Theorem C32_save_delete_terminate_partial :
    forall rank (sc : schema), stratified rank sc -> forall w t,
      (forall n, exists w' o, ends sc w (p_save n t PRet) w' o) /\
      (forall i, exists w' o, ends sc w (p_delete i t PRet) w' o).
  Proof. intros rank sc S w t. split; intros x; apply (C70_stratified_programs_terminate rank); auto using loop_free_save, loop_free_delete. Qed.

  (** C32: if each of the triggers, run with all it executes in turn, always comes back, so do [Save] and
      [Delete]. *)
  Theorem C32_save_comes_back_partial :
    forall (sc : schema) (w : world) (n : Node) crash,
      (forall t, In t (scheduled sc BeforeSave) -> always_comes_back sc t) ->
      (forall t, In t (scheduled sc AfterSave) -> always_comes_back sc t) ->
      w_lock w = GFree -> (forall a x, nth_error (w_cells w) a = Some x -> c_lock x = Free) ->
      exists w' o, ends sc w (p_save n (TxBg crash) PRet) w' o /\ comes_back o.
  Proof.
    intros sc w n crash TB TA L C. apply bg_comes_back; [exact L|]. apply save_body_comes_back; auto.
    split; [reflexivity|exact C].
  Qed.

  Theorem C32_delete_comes_back_partial :
    forall (sc : schema) (w : world) (i : Id) crash,
      (forall t, In t (scheduled sc BeforeDelete) -> always_comes_back sc t) ->
      (forall t, In t (scheduled sc AfterDelete) -> always_comes_back sc t) ->
      w_lock w = GFree -> (forall a x, nth_error (w_cells w) a = Some x -> c_lock x = Free) ->
      exists w' o, ends sc w (p_delete i (TxBg crash) PRet) w' o /\ comes_back o.
  Proof.
    intros sc w i crash TB TA L C. apply bg_comes_back; [exact L|]. apply delete_body_comes_back; auto.
    split; [reflexivity|exact C].
  Qed.
End Properties.

Print Assumptions C24_save_inserts_exactly.
Print Assumptions C24_save_on_context.
Print Assumptions C25_delete_absent_is_noop.
Print Assumptions C25_delete_absent_on_context.
Print Assumptions C25_delete_removes_exactly.
Print Assumptions C25_delete_on_context.
Print Assumptions C26_save_phases.
Print Assumptions C26_save_succeeds.
Print Assumptions C26_save_phases_on_context.
Print Assumptions C27_failing_trigger_aborts_save.
Print Assumptions C27_failing_trigger_aborts_delete.
Print Assumptions C27_failing_trigger_aborts_save_on_context.
Print Assumptions C27_failing_trigger_aborts_delete_on_context.
Print Assumptions C28_delete_phases.
Print Assumptions C28_delete_phases_on_context.
Print Assumptions C29_ok_means_saved_partial.
Print Assumptions C69_ok_from_save_means.
Print Assumptions C30_triggers_in_registration_order.
Print Assumptions C31_stops_at_first_failure.
Print Assumptions C70_stratified_programs_terminate.
Print Assumptions C32_save_delete_terminate_partial.
Print Assumptions C32_save_comes_back_partial.
Print Assumptions C32_delete_comes_back_partial.

(** ** Concrete cases *)

(** C24, C25: nodes 1 and 2; no trigger for deletes. *)
Definition ops_w : dworld := snd (built ex_graph []).
Definition ops_sc : dschema := fst (built ex_graph []).
Definition nodes_after (sc : dschema) (w : dworld) (p : dprog) : outcome nat * list dnode :=
  let x := last_of w (run sc 100 w p) in (snd x, g_iter (w_graph (fst x))).

Example C24_case :
  scheduled ops_sc BeforeSave = [] /\ g_reachable (w_graph ops_w) /\ w_lock ops_w = GFree /\ fresh ops_w /\
  nodes_after ops_sc ops_w (p_save (n_ 3 30) (TxBg None) PRet) = (ORet RUnit, [n_ 1 10; n_ 2 20; n_ 3 30]) /\
  nodes_after ops_sc ops_w (p_save (n_ 2 99) (TxBg None) PRet) = (ORet RUnit, [n_ 1 10; n_ 2 99]).
Proof. repeat split. constructor. Qed.

Example C25_case :
  scheduled ex_sc BeforeDelete = [] /\
  nodes_after ex_sc ex_w (p_delete 2 (TxBg None) PRet) = (ORet RUnit, [n_ 1 10]) /\
  nodes_after ex_sc ex_w (p_delete 3 (TxBg None) PRet) = (ORet (RErr Noop), [n_ 1 10; n_ 2 20]) /\
  (let x := last_of ex_w (run ex_sc 100 ex_w_tx (p_delete 1 (TxFg (CRoot 0 None)) PRet)) in
   view ex_w_tx (CRoot 0 None) 1 = None /\ snd x = ORet (RErr Noop)) /\
  (let x := last_of ex_w (run ex_sc 100 ex_w_tx (p_delete 2 (TxFg (CRoot 0 None)) PRet)) in
   snd x = ORet RUnit /\ view (fst x) (CRoot 0 None) 2 = None).
Proof. vm_compute. auto 10. Qed.

(** C26-C28, C30, C31, C69: a schema with triggers for all four schedules, registered in a mixed order.
    Before a save, the target's data is incremented twice; after it, what the context says of it is emitted and
    node 50 is saved; node 9 is rejected before saving and node 8 after.  Before a delete, the target's data is
    emitted; after it, whether the context still contains it. *)
Definition bump : trigger nat dnode nat nat := fun c =>
  PAccess Excl [target_of c] (fun vs => match vs with
    | [(a, DNode n)] => PPoke a (DNode (n_ (d_id n) (S (d_val n)))) (PRet RUnit)
    | _ => PPanic end) (fun _ => PRet RUnit).
Definition on_target (f : dnode -> dprog) : trigger nat dnode nat nat := fun c =>
  PAccess Shared [target_of c] (fun vs => match vs with [(_, DNode n)] => f n | _ => PPanic end)
    (fun r => PRet (match r with Some r => r | None => RUnit end)).
Definition reject (i : nat) : trigger nat dnode nat nat :=
  on_target (fun n => if Nat.eqb (d_id n) i then PRet (RErr oops) else PRet RUnit).
Definition announce : trigger nat dnode nat nat := fun c =>
  on_target (fun n => PGet c (d_id n) (fun m => match m with
    | Some m => PEmit (d_val m) (PSave c (n_ 50 5) (PRet RUnit))
    | None => PPanic end)) c.
Definition show : trigger nat dnode nat nat := on_target (fun n => PEmit (d_val n) (PRet RUnit)).
Definition still_there : trigger nat dnode nat nat := fun c =>
  on_target (fun n => PContains c (d_id n) (fun b => PEmit (if b then 1 else 0) (PRet RUnit))) c.

Definition four : list (@build nat dnode nat nat) :=
  [BTrigger AfterSave announce; BTrigger BeforeSave bump; BTrigger BeforeDelete show; BTrigger BeforeSave (reject 9);
   BTrigger BeforeSave bump; BTrigger AfterDelete still_there; BTrigger AfterSave (reject 8)].
Definition four_sc : dschema := fst (built ex_graph four).
Definition four_w : dworld := snd (built ex_graph four).

Lemma four_borrow : triggers_borrow four_sc.
Proof.
  intros s t c J. unfold scheduled, ts_select in J. cbn in J.
  destruct s as [|[|[|[|s]]]]; cbn in J; repeat (destruct J as [<-|J] || destruct J);
    cbn; (split; [|intros; exact I]); intros [|[a [n|u u']] [|v vs]]; cbn; auto;
    try (destruct (Nat.eqb _ _); exact I); try (intros [m|]; cbn; auto); try (intros b; cbn; auto).
Qed.

Lemma four_minds_its_own : triggers_mind_their_own four_sc.
Proof.
  intros s t J c. unfold scheduled, ts_select in J. cbn in J.
  destruct s as [|[|[|[|s]]]]; cbn in J; repeat (destruct J as [<-|J] || destruct J);
    cbn; (split; [|intros; exact I]); intros [|[a [n|u u']] [|v vs]]; cbn; auto;
    try (destruct (Nat.eqb _ _); exact I); try (intros [m|]; cbn; auto); try (intros b; cbn; auto).
Qed.

Example C26_case :
  triggers_borrow four_sc /\ triggers_mind_their_own four_sc /\ g_reachable (w_graph four_w) /\ fresh four_w /\
  nodes_after four_sc four_w (p_save (n_ 3 30) (TxBg None) PRet) = (ORet RUnit, [n_ 1 10; n_ 2 20; n_ 3 32; n_ 50 5]) /\
  w_out (fst (last_of four_w (run four_sc 100 four_w (p_save (n_ 3 30) (TxBg None) PRet)))) = [32].
Proof. split; [apply four_borrow|]. split; [apply four_minds_its_own|]. repeat split. constructor. Qed.

Example C27_case :
  nodes_after four_sc four_w (p_save (n_ 9 30) (TxBg None) PRet) = (ORet (RErr oops), [n_ 1 10; n_ 2 20]) /\
  nodes_after four_sc four_w (p_save (n_ 8 30) (TxBg None) PRet) = (ORet (RErr oops), [n_ 1 10; n_ 2 20]) /\
  map (fun p => w_out (fst (last_of four_w (run four_sc 100 four_w p))))
    [p_save (n_ 9 30) (TxBg None) PRet; p_save (n_ 8 30) (TxBg None) PRet] = [[]; [32]].
Proof. vm_compute. auto. Qed.

Example C28_case :
  nodes_after four_sc four_w (p_delete 2 (TxBg None) PRet) = (ORet RUnit, [n_ 1 10]) /\
  w_out (fst (last_of four_w (run four_sc 100 four_w (p_delete 2 (TxBg None) PRet)))) = [20; 0].
Proof. vm_compute. auto. Qed.

Example C30_case :
  triggers_for BeforeSave four = [bump; reject 9; bump] /\ triggers_for AfterSave four = [announce; reject 8] /\
  triggers_for BeforeDelete four = [show] /\ triggers_for AfterDelete four = [still_there].
Proof. auto. Qed.

(** C31: of three triggers, the second fails. *)
Example C31_case :
  let say v : trigger nat dnode nat nat := fun _ => PEmit v (PRet RUnit) in
  let sc := fst (built ex_graph [BTrigger 4 (say 1); BTrigger 4 (fun _ => PRet (RErr oops)); BTrigger 4 (say 3)]) in
  let x := last_of four_w (run sc 100 four_w (PTriggers 4 (CRoot 0 None) PRet)) in
  snd x = ORet (RErr oops) /\ w_out (fst x) = [1].
Proof. vm_compute. auto. Qed.

(** C29 is false: a trigger run after the save may delete the node again (it is given the context of the very
    transaction), and *)
Theorem C29_ok_means_saved_refuted :
  exists (sc : dschema) (w w' : dworld) n,
    triggers_borrow sc /\ triggers_mind_their_own sc /\ g_reachable (w_graph w) /\ at_rest w /\
    scheduled sc BeforeSave = [] /\
    ends sc w (p_save n (TxBg None) PRet) w' (ORet RUnit) /\
    g_get (w_graph w') (id_of n) = None.
Proof.
  set (t := fun c : ctx => PDelete c 3 (PRet RUnit) : dprog).
  set (b := built ex_graph [BTrigger AfterSave t]).
  exists (fst b), (snd b), (fst (last_of ex_w (run (fst b) 100 (snd b) (p_save (n_ 3 30) (TxBg None) PRet)))), (n_ 3 30).
  split; [|split; [|split; [constructor|split; [repeat split|split; [reflexivity|split; [exists 100|]; vm_compute; reflexivity]]]]].
  - intros s t' c J. unfold scheduled, ts_select in J. cbn in J. destruct s as [|[|s]]; cbn in J; destruct J as [<-|[]] || destruct J.
    exact I.
  - intros s t' J c. unfold scheduled, ts_select in J. cbn in J. destruct s as [|[|s]]; cbn in J; destruct J as [<-|[]] || destruct J.
    split; [reflexivity|exact I].
Qed.

(** even if no trigger registers any operation, one that panics while mutating the target, and catches that
    panic, poisons it: save.rs 45 then ignores that [target().with] did nothing, and [Save] returns [Ok]
    having saved nothing. *)
Theorem C29_ok_means_saved_refuted_by_poison :
  exists (sc : dschema) (w w' w1 : dworld) n,
    triggers_borrow sc /\ triggers_mind_their_own sc /\ g_reachable (w_graph w) /\ at_rest w /\
    scheduled sc AfterSave = [] /\
    all_succeed sc (bg_target_ctx w) (scheduled sc BeforeSave) (with_target n (bg_open w)) w1 /\
    registered w1 (bg_target_ctx w) = [] /\
    ends sc w (p_save n (TxBg None) PRet) w' (ORet RUnit) /\
    g_iter (w_graph w') = g_iter (w_graph w) /\ g_get (w_graph w') (id_of n) = None.
Proof.
  set (t := fun c : ctx => PTry (PAccess Excl [target_of c] (fun _ => PPanic) (fun _ => PRet RUnit)) (fun _ => PRet RUnit) : dprog).
  set (b := built ex_graph [BTrigger BeforeSave t]).
  exists (fst b), (snd b), (fst (last_of ex_w (run (fst b) 100 (snd b) (p_save (n_ 3 30) (TxBg None) PRet)))),
    (fst (last_of ex_w (run (fst b) 100 (with_target (n_ 3 30) (bg_open (snd b))) (t (bg_target_ctx (snd b)))))), (n_ 3 30).
  split; [|split; [|split; [constructor|split; [repeat split|split; [reflexivity|split; [|split; [|split; [exists 100|]]]]]]]].
  - intros s t' c J. unfold scheduled, ts_select in J. cbn in J. destruct s as [|s]; cbn in J; destruct J as [<-|[]] || destruct J.
    cbn. auto.
  - intros s t' J c. unfold scheduled, ts_select in J. cbn in J. destruct s as [|s]; cbn in J; destruct J as [<-|[]] || destruct J.
    cbn. auto.
  - eapply (as_cons _ _ t []); [exists 100; vm_compute; reflexivity|discriminate|constructor].
  - vm_compute. reflexivity.
  - vm_compute. reflexivity.
  - vm_compute. auto.
Qed.

(** C32 is false: a trigger before saves that itself saves.  Without the triggers it executes, it always
    terminates; with them, [Save] never does. *)
Definition saver : trigger nat dnode nat nat := fun c => p_save (n_ 2 2) (TxFg c) PRet.
Definition saver_sc : dschema := fst (built ex_graph [BTrigger BeforeSave saver]).

Lemma saver_diverges fuel : forall w c, run saver_sc fuel w (p_save (n_ 2 2) (TxFg c) PRet) = None.
Proof.
  induction fuel as [fuel IH] using lt_wf_ind. intros w c.
  destruct fuel as [|fuel]; [reflexivity|]. cbn [run p_save].
  destruct fuel as [|fuel]; [reflexivity|]. cbn [run save_body].
  destruct fuel as [|fuel]; [reflexivity|]. cbn [run].
  destruct fuel as [|fuel]; [reflexivity|].
  match goal with |- context [select_execute ?sel ?d] =>
    change (select_execute sel d) with (PCall (p_save (n_ 2 2) (TxFg d) PRet)
      (fun r => match r with RErr e => PRet (RErr e) | _ => PRet RUnit end) : dprog) end.
  cbn [run]. rewrite IH by lia. reflexivity.
Qed.

Theorem C32_save_terminates_refuted :
  exists (sc : dschema) (w : dworld) n,
    at_rest w /\
    (forall s t, In t (scheduled sc s) -> forall w c, terminates (no_triggers sc) w (t c)) /\
    ~ terminates sc w (p_save n (TxBg None) PRet).
Proof.
  exists saver_sc, (snd (built ex_graph [BTrigger BeforeSave saver])), (n_ 1 1). split; [repeat split|]. split.
  - intros s t It w c. apply (stratified_all_terminate (fun _ => 0)); [intros s' t' c' J; destruct J|].
    unfold scheduled, saver_sc in It. cbn in It. destruct s as [|s]; cbn in It; [|destruct It]. destruct It as [<-|[]].
    apply loop_free_save.
  - intros (w' & o & fuel & E).
    destruct fuel as [|fuel]; [discriminate|]. cbn [run p_save] in E.
    revert E. cbn [w_lock snd built fold_left build_step sc_with_trigger sc_from].
    destruct fuel as [|fuel]; [discriminate|]. cbn [run save_body].
    destruct fuel as [|fuel]; [discriminate|]. cbn [run].
    destruct fuel as [|fuel]; [discriminate|].
    match goal with |- context [select_execute ?sel ?d] =>
    change (select_execute sel d) with (PCall (p_save (n_ 2 2) (TxFg d) PRet)
      (fun r => match r with RErr e => PRet (RErr e) | _ => PRet RUnit end) : dprog) end.
    cbn [run]. rewrite saver_diverges. discriminate.
Qed.

Print Assumptions C29_ok_means_saved_refuted.
Print Assumptions C29_ok_means_saved_refuted_by_poison.
Print Assumptions C32_save_terminates_refuted.

(** C70, C32: announcing triggers are stratified; one that saves in another schedule too. *)
Example C70_case :
  stratified (fun _ => 0) four_sc /\
  stratified (fun s => if Nat.eqb s AfterDelete then 1 else 0) (fst (built ex_graph [BTrigger BeforeSave bump; BTrigger AfterDelete saver])).
Proof.
  split; intros s t c J; unfold scheduled, ts_select in J; cbn in J.
  - destruct s as [|[|[|[|s]]]]; cbn in J; repeat (destruct J as [<-|J] || destruct J);
    cbn; (split; [|intros; exact I]); intros [|[? [?|? ?]] [|? ?]]; cbn; auto;
    try (destruct (Nat.eqb _ _); exact I); try (intros [m|]; cbn; auto); try (intros b; cbn; auto).
  - destruct s as [|[|[|[|s]]]]; cbn in J; repeat (destruct J as [<-|J] || destruct J); cbn.
    + split; [|intros; exact I]. intros [|[? [?|? ?]] [|? ?]]; cbn; auto.
    + split; [|intros; exact I]. intros c'. intros c''. split; [lia|]. intros [| |e]; cbn; auto;
        (split; [intros [|[? [?|? ?]] [|? ?]]; cbn; auto|intros _; split; [lia|intros [| |e]; exact I]]).
Qed.

(** C32: a trigger that saves something, or panics. *)
Example C32_case :
  let t : trigger nat dnode nat nat := fun c => PContains c 1 (fun b => if b then PSave c (n_ 7 7) (PRet RUnit) else PPanic) in
  let sc := fst (built ex_graph [BTrigger BeforeSave t]) in
  (forall t', In t' (scheduled sc BeforeSave) -> always_comes_back sc t') /\
  nodes_after sc ex_w (p_save (n_ 3 3) (TxBg None) PRet) = (ORet RUnit, [n_ 1 10; n_ 2 20; n_ 3 3; n_ 7 7]).
Proof.
  split; [|reflexivity]. intros t' J w c _ _. unfold scheduled, ts_select in J. cbn in J. destruct J as [<-|[]].
  destruct (ctx_contains (w_heap w) (w_graph w) c 1) eqn:E.
  - eexists. exists (ORet RUnit). split; [|exact I]. exists 3. cbn [run]. rewrite E. reflexivity.
  - exists w, OPanic. split; [|exact I]. exists 2. cbn [run]. rewrite E. reflexivity.
Qed.
