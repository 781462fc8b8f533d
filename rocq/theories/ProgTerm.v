(** Termination of programs. *)
From Coq Require Import List Bool Arith Lia.
From Verif Require Import Ord OrdFacts BTree BTreeFacts Graph GraphFacts Tx TxMachine SpecTx TxFacts Prog SpecProg
  ProgFacts ProgFrame ProgTx ProgOps.
Import ListNotations.

Section ProgTerm.
  Context {Id Node V U : Type} `{HO : OrdT Id} `{HI : Identify Node Id}.
  Notation prog := (prog Id Node V U).
  Notation world := (world Id Node V U).
  Notation schema := (schema Id Node V U).
  Notation outcome := (outcome V).
  Notation res := (res V).
  Notation trigger := (trigger Id Node V U).

  Ltac fin f := exists (S f); cbn [run].
  Ltac more E F := rewrite (run_mono _ _ _ _ _ E F ltac:(lia)).

  Lemma try_terminates (sc : schema) c (ts : list trigger) :
    (forall t w, In t ts -> terminates sc w (t c)) -> forall w, terminates sc w (try_for_each ts c).
  Proof.
    induction ts as [|t ts IH]; intros T w; [exists w, (ORet RUnit), 1; reflexivity|].
    destruct (T t w (or_introl eq_refl)) as (w1 & o1 & f1 & E1). destruct o1 as [r| | |].
    - assert (X : terminates sc w1 (match r with RErr e => PRet (RErr e) | _ => try_for_each ts c end)).
      { destruct r as [|v|e]; [apply IH; intros; apply T; now right|apply IH; intros; apply T; now right|].
        exists w1, (ORet (RErr e)), 1. reflexivity. }
      destruct X as (w2 & o2 & f2 & E2). exists w2, o2, (S (f1 + f2)). cbn [try_for_each run].
      more E1 (f1 + f2). eapply run_mono; [exact E2|lia].
    - exists w1, OPanic, (S f1). cbn [try_for_each run]. now rewrite E1.
    - exists w1, OHang, (S f1). cbn [try_for_each run]. now rewrite E1.
    - exists w1, OStuck, (S f1). cbn [try_for_each run]. now rewrite E1.
  Qed.

  Lemma prog_terminates (sc : schema) (ok : nat -> Prop) :
    (forall s t c w, ok s -> In t (scheduled sc s) -> terminates sc w (t c)) ->
    forall (p : prog), schedules ok p -> forall w, terminates sc w p.
  Proof.
    intros T.
    induction p as [r| | |v k IHk|body IHb k IHk|body IHb k IHk|t body IHb k IHk|c n k IHk|c i k IHk|c i k IHk|c i k IHk
      |c n k IHk|c k IHk|s c k IHk|body IHb k IHk|body IHb k IHk|i k IHk|k IHk|c k IHk|t k IHk|m hs body IHb k IHk
      |a d k IHk]; intros C w; cbn [schedules] in C.
    - exists w, (ORet r), 1. reflexivity.
    - exists w, OPanic, 1. reflexivity.
    - destruct C.
    - destruct (IHk C (emit v w)) as (w' & o & f & E). exists w', o, (S f). exact E.
    - destruct C as [C1 C2]. destruct (IHb C1 w) as (w1 & o1 & f1 & E1).
      destruct o1 as [r| | |]; [|eexists _, _, (S f1); cbn [run]; rewrite E1; reflexivity..].
      destruct (IHk r (C2 r) w1) as (w' & o & f & E). exists w', o, (S (f1 + f)). cbn [run]. more E1 (f1 + f).
      eapply run_mono; [exact E|lia].
    - destruct C as [C1 C2]. destruct (IHb C1 w) as (w1 & o1 & f1 & E1).
      destruct o1 as [r| | |]; [| |eexists _, _, (S f1); cbn [run]; rewrite E1; reflexivity..].
      + destruct (IHk (Some r) (C2 _) w1) as (w' & o & f & E). exists w', o, (S (f1 + f)). cbn [run]. more E1 (f1 + f).
        eapply run_mono; [exact E|lia].
      + destruct (IHk None (C2 _) w1) as (w' & o & f & E). exists w', o, (S (f1 + f)). cbn [run]. more E1 (f1 + f).
        eapply run_mono; [exact E|lia].
    - destruct C as [C1 C2]. destruct t as [crash|c].
      + destruct (w_lock w) eqn:L; [|exists w, OHang, 1; cbn [run]; rewrite L; reflexivity..].
        destruct (IHb (CRoot (length (w_heap w)) None) (C1 _) (set_lock GTx (set_heap (w_heap w ++ [[]]) w)))
          as (w1 & o1 & f1 & E1).
        destruct o1 as [r| | |]; [|eexists _, _, (S f1); cbn [run]; rewrite L; cbn zeta; rewrite E1; reflexivity..].
        destruct (is_ok r) eqn:Ok.
        * destruct (bg_commit crash (length (w_heap w)) w1) as [w2 []] eqn:Bc.
          -- eexists _, _, (S f1); cbn [run]; rewrite L; cbn zeta; rewrite E1, Ok, Bc; reflexivity.
          -- destruct (IHk r (C2 r) (close (length (w_heap w)) (set_lock GFree w2))) as (w' & o & f & E).
             exists w', o, (S (f1 + f)). cbn [run]. rewrite L. cbn zeta. more E1 (f1 + f). rewrite Ok, Bc.
             eapply run_mono; [exact E|lia].
        * destruct (IHk r (C2 r) (close (length (w_heap w)) (set_lock GFree w1))) as (w' & o & f & E).
          exists w', o, (S (f1 + f)). cbn [run]. rewrite L. cbn zeta. more E1 (f1 + f). rewrite Ok.
          eapply run_mono; [exact E|lia].
      + destruct (IHb (CSub c (length (w_heap w)) None) (C1 _) (set_heap (w_heap w ++ [[]]) w)) as (w1 & o1 & f1 & E1).
        destruct o1 as [r| | |]; [|eexists _, _, (S f1); cbn [run]; cbn zeta; rewrite E1; reflexivity..].
        destruct (is_ok r) eqn:Ok.
        * destruct (IHk r (C2 r) (close (length (w_heap w)) (fg_commit c (length (w_heap w)) w1))) as (w' & o & f & E).
          exists w', o, (S (f1 + f)). cbn [run]. cbn zeta. more E1 (f1 + f). rewrite Ok. eapply run_mono; [exact E|lia].
        * destruct (IHk r (C2 r) (close (length (w_heap w)) w1)) as (w' & o & f & E).
          exists w', o, (S (f1 + f)). cbn [run]. cbn zeta. more E1 (f1 + f). rewrite Ok. eapply run_mono; [exact E|lia].
    - destruct (IHk C (set_heap (ctx_save (w_heap w) c n) w)) as (w' & o & f & E). exists w', o, (S f). exact E.
    - destruct (IHk C (set_heap (ctx_delete (w_heap w) c i) w)) as (w' & o & f & E). exists w', o, (S f). exact E.
    - destruct (IHk _ (C (ctx_get (w_heap w) (w_graph w) c i)) w) as (w' & o & f & E). exists w', o, (S f). exact E.
    - destruct (IHk _ (C (ctx_contains (w_heap w) (w_graph w) c i)) w) as (w' & o & f & E). exists w', o, (S f). exact E.
    - destruct (IHk _ (C (ctx_with_target c (length (w_cells w)))) (set_cells (w_cells w ++ [Cell (DNode n) false Free]) w))
        as (w' & o & f & E). exists w', o, (S f). exact E.
    - destruct (IHk C (set_leaked (ctx_buf c :: w_leaked w) w)) as (w' & o & f & E). exists w', o, (S f). exact E.
    - destruct C as [C1 C2].
      destruct (try_terminates sc c (scheduled sc s) (fun t w => T s t c w C1) w) as (w1 & o1 & f1 & E1).
      rewrite <- select_scheduled in E1.
      destruct o1 as [r| | |]; [|eexists _, _, (S f1); cbn [run]; rewrite E1; reflexivity..].
      destruct (IHk r (C2 r) w1) as (w' & o & f & E). exists w', o, (S (f1 + f)). cbn [run]. more E1 (f1 + f).
      eapply run_mono; [exact E|lia].
    - destruct C as [C1 C2]. destruct (glock_read (w_lock w)) as [l|] eqn:L;
        [|exists w, OHang, 1; cbn [run]; rewrite L; reflexivity].
      destruct (IHb C1 (set_lock l w)) as (w1 & o1 & f1 & E1).
      destruct o1 as [r| | |]; [|eexists _, _, (S f1); cbn [run]; rewrite L, E1; reflexivity..].
      destruct (IHk r (C2 r) (set_lock (glock_unread (w_lock w1)) w1)) as (w' & o & f & E).
      exists w', o, (S (f1 + f)). cbn [run]. rewrite L. more E1 (f1 + f). eapply run_mono; [exact E|lia].
    - destruct C as [C1 C2]. destruct (w_lock w) eqn:L; [|exists w, OHang, 1; cbn [run]; rewrite L; reflexivity..].
      destruct (IHb C1 (set_lock GWrite w)) as (w1 & o1 & f1 & E1).
      destruct o1 as [r| | |]; [|eexists _, _, (S f1); cbn [run]; rewrite L, E1; reflexivity..].
      destruct (IHk r (C2 r) (set_lock GFree w1)) as (w' & o & f & E).
      exists w', o, (S (f1 + f)). cbn [run]. rewrite L. more E1 (f1 + f). eapply run_mono; [exact E|lia].
    - destruct (IHk _ (C (g_get (w_graph w) i)) w) as (w' & o & f & E).
      destruct (w_lock w) eqn:L; [exists w, OStuck, 1; cbn [run]; now rewrite L| |exists w, OStuck, 1; cbn [run]; now rewrite L|];
        exists w', o, (S f); cbn [run]; rewrite L; exact E.
    - destruct (IHk _ (C (g_iter (w_graph w))) w) as (w' & o & f & E).
      destruct (w_lock w) eqn:L; [exists w, OStuck, 1; cbn [run]; now rewrite L| |exists w, OStuck, 1; cbn [run]; now rewrite L|];
        exists w', o, (S f); cbn [run]; rewrite L; exact E.
    - destruct (w_lock w) eqn:L; [exists w, OStuck, 1; cbn [run]; now rewrite L..|].
      destruct (g_step (w_graph w) c) as [g r] eqn:G.
      destruct (IHk r (C r) (set_graph g w)) as (w' & o & f & E). exists w', o, (S f). cbn [run]. now rewrite L, G.
    - destruct (IHk _ (C (res_from sc t)) w) as (w' & o & f & E). exists w', o, (S f). exact E.
    - destruct C as [C1 C2]. destruct (acquire m hs (w_cells w)) as [cs held| |] eqn:A;
        [|exists w, OHang, 1; cbn [run]; now rewrite A|exists w, OStuck, 1; cbn [run]; now rewrite A].
      destruct (deref_all cs hs held) as [vs|] eqn:D.
      + destruct (IHb vs (C1 vs) (set_cells cs w)) as (w1 & o1 & f1 & E1).
        destruct o1 as [r| | |]; [|eexists _, _, (S f1); cbn [run]; rewrite A, D, E1; reflexivity..].
        destruct (IHk (Some r) (C2 _) (set_cells (release false held (w_cells w1)) w1)) as (w' & o & f & E).
        exists w', o, (S (f1 + f)). cbn [run]. rewrite A, D. more E1 (f1 + f). eapply run_mono; [exact E|lia].
      + destruct (IHk None (C2 _) (set_cells (release false held cs) w)) as (w' & o & f & E).
        exists w', o, (S f). cbn [run]. now rewrite A, D.
    - destruct (nth_error (w_cells w) a) as [x|] eqn:N; [|exists w, OStuck, 1; cbn [run]; now rewrite N].
      destruct (c_lock x) eqn:L; [exists w, OStuck, 1; cbn [run]; now rewrite N, L..|].
      destruct (ty_eqb (ty_of d) (ty_of (c_val x))) eqn:Ty; [|exists w, OStuck, 1; cbn [run]; now rewrite N, L, Ty].
      destruct (IHk C (set_cells (alter (fun x => Cell d (c_poison x) (c_lock x)) a (w_cells w)) w)) as (w' & o & f & E).
      exists w', o, (S f). cbn [run]. now rewrite N, L, Ty.
  Qed.

  Lemma schedules_mono (p : prog) : forall ok ok' : nat -> Prop, (forall s, ok s -> ok' s) ->
    schedules ok p -> schedules ok' p.
  Proof.
    induction p as [r| | |v k IHk|body IHb k IHk|body IHb k IHk|t body IHb k IHk|c n k IHk|c i k IHk|c i k IHk|c i k IHk
      |c n k IHk|c k IHk|s c k IHk|body IHb k IHk|body IHb k IHk|i k IHk|k IHk|c k IHk|t k IHk|m hs body IHb k IHk
      |a d k IHk]; intros ok ok' Sub C; cbn [schedules] in *; try tauto; eauto;
      try (destruct C as [C1 C2]; split; eauto; fail).
  Qed.

  Lemma stratified_terminates rank (sc : schema) : stratified rank sc ->
    forall n s t c w, rank s < n -> In t (scheduled sc s) -> terminates sc w (t c).
  Proof.
    intros S. induction n as [|n IH]; intros s t c w L I; [lia|].
    apply (prog_terminates sc (fun s' => rank s' < rank s)); [|now apply S].
    intros s' t' c' w' L' I'. apply (IH s'); [lia|exact I'].
  Qed.

  Lemma stratified_all_terminate rank (sc : schema) : stratified rank sc -> forall w (p : prog),
    loop_free p -> terminates sc w p.
  Proof.
    intros S w p Lf. apply (prog_terminates sc (fun _ => True)); [|exact Lf].
    intros s t c w' _ I. apply (stratified_terminates rank sc S (Datatypes.S (rank s)) s); [lia|exact I].
  Qed.

  Lemma loop_free_try r (p : prog) : loop_free p -> loop_free (try_ r p).
  Proof. intros L. destruct r; [exact L|exact L|exact I]. Qed.

  Lemma loop_free_save n t : loop_free (p_save n t PRet : prog).
  Proof.
    split; [|intros r; exact I]. intros c0 c. split; [exact I|]. intros r. apply loop_free_try. split.
    - intros [|[a [m|? ?]] [|? ?]]; exact I.
    - intros _. split; [exact I|]. intros r'. apply loop_free_try. exact I.
  Qed.

  Lemma loop_free_delete i t : loop_free (p_delete i t PRet : prog).
  Proof.
    split; [|intros r; exact I]. intros c0 [n|]; [|exact I]. intros c. split; [exact I|]. intros r. apply loop_free_try.
    split; [exact I|]. intros r'. apply loop_free_try. exact I.
  Qed.

  (** ** Coming back *)
  Lemma idle_framed (w w' : world) : idle_in_tx w -> framed w w' -> idle_in_tx w'.
  Proof.
    intros [L C] F. split; [rewrite (fr_lock _ _ F); exact L|]. intros a x N.
    destruct (fr_cells _ _ F) as [K1 K2]. destruct (Nat.lt_ge_cases a (length (w_cells w))) as [Lt|Ge].
    - destruct (nth_error (w_cells w) a) as [y|] eqn:Ny; [|apply nth_error_None in Ny; lia].
      destruct (K1 a y Ny) as (z & Nz & Lz & _). rewrite N in Nz. injection Nz as <-. rewrite Lz. now apply (C a).
    - now apply (K2 a).
  Qed.

  Lemma try_comes_back (sc : schema) c (ts : list trigger) : (forall t, In t ts -> always_comes_back sc t) ->
    forall w, idle_in_tx w -> (forall a, ctx_target c = Some a -> a < length (w_cells w)) ->
    exists w' o, exec sc w (try_for_each ts c) w' o.
  Proof.
    induction ts as [|t ts IH]; intros T w Id' Tg; [exists w, (ORet RUnit); constructor|].
    destruct (T t (or_introl eq_refl) w c Id' Tg) as (w1 & o1 & E1 & B).
    apply (ends_exec sc _ _ _ o1 B) in E1. pose proof (exec_framed _ _ _ _ _ E1) as F.
    destruct o1 as [r| | |]; try destruct B.
    - destruct (IH (fun t' I' => T t' (or_intror I')) w1 (idle_framed _ _ Id' F)) as (w2 & o2 & E2).
      { intros a Ea. pose proof (cells_le_length _ _ (fr_cells _ _ F)). specialize (Tg a Ea). lia. }
      destruct r as [|v|e].
      + exists w2, o2. eapply XCall; [exact E1|exact E2].
      + exists w2, o2. eapply XCall; [exact E1|exact E2].
      + exists w1, (ORet (RErr e)). eapply XCall; [exact E1|constructor].
    - exists w1, OPanic. now apply XCallPanic.
  Qed.

  Lemma save_body_comes_back (sc : schema) n c0 (w : world) :
    (forall t, In t (scheduled sc BeforeSave) -> always_comes_back sc t) ->
    (forall t, In t (scheduled sc AfterSave) -> always_comes_back sc t) ->
    idle_in_tx w -> exists w' o, exec sc w (save_body n c0) w' o.
  Proof.
    intros TB TA Id'. set (c := after_target c0 w).
    assert (F0 : framed w (with_target n w)).
    { constructor; cbn; auto using cells_le_snoc; intros; exists []; now rewrite app_nil_r. }
    assert (Tg : forall w', framed (with_target n w) w' -> forall a, ctx_target c = Some a -> a < length (w_cells w')).
    { intros w' F a Ea. unfold c in Ea. rewrite target_of_after in Ea. injection Ea as <-.
      pose proof (cells_le_length _ _ (fr_cells _ _ F)) as L. cbn in L. rewrite app_length in L. cbn in L. lia. }
    destruct (try_comes_back sc c _ TB (with_target n w) (idle_framed _ _ Id' F0) (Tg _ (framed_refl _)))
      as (w1 & o1 & E1).
    pose proof (exec_framed _ _ _ _ _ E1) as F1. pose proof (exec_comes_back _ _ _ _ _ E1) as B1.
    destruct o1 as [r| | |]; try destruct B1.
    2: { exists w1, OPanic. apply XTarget. apply exec_triggers. right. auto. }
    apply exec_try in E1. destruct E1 as [[-> A]|(e & -> & F)].
    2: { exists w1, (ORet (RErr e)). apply exec_save_body. left. eauto. }
    destruct (target_cell n w w1 F1) as (m & p & N).
    assert (F2 : framed w1 (save_step c w1)).
    { unfold save_step. destruct (reads w1 _) as [[m'|]|]; try apply framed_refl. apply framed_push. }
    assert (F3 : framed (with_target n w) (save_step c w1)) by (eapply framed_trans; eassumption).
    destruct (try_comes_back sc c _ TA (save_step c w1)) as (w2 & o2 & E2).
    { eapply idle_framed; [|exact F3]. eapply idle_framed; eassumption. }
    { now apply Tg. }
    pose proof (exec_comes_back _ _ _ _ _ E2) as B2. destruct o2 as [r| | |]; try destruct B2.
    - exists w2, (ORet r). apply exec_save_body. right. exists w1. split; [exact A|]. now apply exec_try.
    - exists w2, OPanic. apply XTarget. apply exec_triggers. left. exists w1, RUnit. split; [left; auto|].
      cbn [try_]. apply (exec_save_access sc c w1 _ m p _ _ _ (target_of_after c0 w) N).
      apply exec_triggers. right. auto.
  Qed.

  Lemma delete_body_comes_back (sc : schema) i c0 (w : world) :
    (forall t, In t (scheduled sc BeforeDelete) -> always_comes_back sc t) ->
    (forall t, In t (scheduled sc AfterDelete) -> always_comes_back sc t) ->
    idle_in_tx w -> exists w' o, exec sc w (delete_body i c0) w' o.
  Proof.
    intros TB TA Id'. destruct (view w c0 i) as [n|] eqn:Vw.
    2: { exists w, (ORet (RErr Noop)). apply exec_delete_body. rewrite Vw. auto. }
    set (c := after_target c0 w).
    assert (F0 : framed w (with_target n w)).
    { constructor; cbn; auto using cells_le_snoc; intros; exists []; now rewrite app_nil_r. }
    assert (Tg : forall w', framed (with_target n w) w' -> forall a, ctx_target c = Some a -> a < length (w_cells w')).
    { intros w' F a Ea. unfold c in Ea. rewrite target_of_after in Ea. injection Ea as <-.
      pose proof (cells_le_length _ _ (fr_cells _ _ F)) as L. cbn in L. rewrite app_length in L. cbn in L. lia. }
    assert (Start : forall w' o, exec sc (with_target n w) (PTriggers BeforeDelete c (fun r => try_ r (
              PDelete c i (PTriggers AfterDelete c (fun r => try_ r (PRet RUnit)))))) w' o ->
              exec sc w (delete_body i c0) w' o).
    { intros w' o E. unfold delete_body. apply XGet. unfold view in Vw. rewrite Vw. apply XTarget. exact E. }
    destruct (try_comes_back sc c _ TB (with_target n w) (idle_framed _ _ Id' F0) (Tg _ (framed_refl _)))
      as (w1 & o1 & E1).
    pose proof (exec_framed _ _ _ _ _ E1) as F1. pose proof (exec_comes_back _ _ _ _ _ E1) as B1.
    destruct o1 as [r| | |]; try destruct B1.
    2: { exists w1, OPanic. apply Start. apply exec_triggers. right. auto. }
    apply exec_try in E1. destruct E1 as [[-> A]|(e & -> & F)].
    2: { exists w1, (ORet (RErr e)). apply exec_delete_body. rewrite Vw. left. eauto. }
    assert (F2 : framed w1 (delete_step c i w1)) by apply framed_push.
    assert (F3 : framed (with_target n w) (delete_step c i w1)) by (eapply framed_trans; eassumption).
    destruct (try_comes_back sc c _ TA (delete_step c i w1)) as (w2 & o2 & E2).
    { eapply idle_framed; [|exact F3]. eapply idle_framed; eassumption. }
    { now apply Tg. }
    pose proof (exec_comes_back _ _ _ _ _ E2) as B2. destruct o2 as [r| | |]; try destruct B2.
    - exists w2, (ORet r). apply exec_delete_body. rewrite Vw. right. exists w1. split; [exact A|]. now apply exec_try.
    - exists w2, OPanic. apply Start. apply exec_triggers. left. exists w1, RUnit. split; [left; auto|].
      cbn [try_]. apply XDelete. apply exec_triggers. right. auto.
  Qed.

  Lemma bg_comes_back (sc : schema) crash body (w : world) : w_lock w = GFree ->
    (exists w' o, exec sc (bg_open w) (body (bg_ctx w)) w' o) ->
    exists w' o, ends sc w (PWith (TxBg crash) body PRet) w' o /\ comes_back o.
  Proof.
    intros L (w1 & o1 & E). pose proof (exec_comes_back _ _ _ _ _ E) as B.
    assert (X : exists w' o, exec sc w (PWith (TxBg crash) body PRet) w' o).
    { destruct o1 as [r| | |]; try destruct B.
      - destruct (is_ok r) eqn:Ok.
        + destruct (bg_commit crash (length (w_heap w)) w1) as [w2 []] eqn:C.
          * eexists _, _. eapply XBgCrash; eassumption.
          * eexists _, _. eapply XBgOk; try eassumption. constructor.
        + eexists _, _. eapply XBgErr; try eassumption. constructor.
      - eexists _, _. eapply XBgPanic; eassumption. }
    destruct X as (w' & o & X). exists w', o. split; [now apply exec_run|eapply exec_comes_back; exact X].
  Qed.
End ProgTerm.
