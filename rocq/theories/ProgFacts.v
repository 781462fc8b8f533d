(** Facts about programs: fuel, big-step rules, frame. *)
From Coq Require Import List Bool Arith Lia.
From Verif Require Import Ord OrdFacts BTree BTreeFacts Graph GraphFacts Tx TxFacts Prog SpecProg.
Import ListNotations.

Section Facts.
  Context {Id Node V U : Type} `{HO : OrdT Id} `{HI : Identify Node Id}.
  Notation prog := (prog Id Node V U).
  Notation world := (world Id Node V U).
  Notation schema := (schema Id Node V U).
  Notation outcome := (outcome V).
  Notation res := (res V).
  Notation trigger := (trigger Id Node V U).
  Notation dyn := (dyn Node U).
  Notation cell := (cell Node U).

  Section Run.
    Variable sc : schema.

    (** ** More fuel changes nothing *)
    Lemma run_mono fuel : forall (w : world) (p : prog) x, run sc fuel w p = Some x ->
      forall fuel', fuel <= fuel' -> run sc fuel' w p = Some x.
    Proof.
      induction fuel as [|f IH]; intros w p x R fuel' L; [discriminate|].
      destruct fuel' as [|f']; [lia|]. assert (L' : f <= f') by lia.
      assert (IH' : forall (w : world) (p : prog) x, run sc f w p = Some x -> run sc f' w p = Some x)
        by (intros; eapply IH; eauto).
      clear IH L.
      destruct p; cbn [run] in R |- *; auto.
      - destruct (run sc f w p) as [[w1 o]|] eqn:E; [|discriminate]. rewrite (IH' _ _ _ E). destruct o; auto.
      - destruct (run sc f w p) as [[w1 o]|] eqn:E; [|discriminate]. rewrite (IH' _ _ _ E). destruct o; auto.
      - destruct t as [crash|c].
        + destruct (w_lock w); auto. cbn zeta in *.
          destruct (run sc f _ (body _)) as [[w1 o]|] eqn:E; [|discriminate]. rewrite (IH' _ _ _ E).
          destruct o; auto. destruct (is_ok r); auto.
          destruct (bg_commit crash _ w1) as [w2 []]; auto.
        + cbn zeta in *.
          destruct (run sc f _ (body _)) as [[w1 o]|] eqn:E; [|discriminate]. rewrite (IH' _ _ _ E).
          destruct o; auto. destruct (is_ok r); auto.
      - destruct (run sc f w (select_execute _ c)) as [[w1 o]|] eqn:E; [|discriminate].
        rewrite (IH' _ _ _ E). destruct o; auto.
      - destruct (glock_read (w_lock w)); auto.
        destruct (run sc f _ p) as [[w1 o]|] eqn:E; [|discriminate]. rewrite (IH' _ _ _ E). destruct o; auto.
      - destruct (w_lock w); auto.
        destruct (run sc f _ p) as [[w1 o]|] eqn:E; [|discriminate]. rewrite (IH' _ _ _ E). destruct o; auto.
      - destruct (w_lock w); auto.
      - destruct (w_lock w); auto.
      - destruct (w_lock w); auto. destruct (g_step _ c); auto.
      - destruct (acquire m hs (w_cells w)) as [cs held| |]; auto.
        destruct (deref_all cs hs held) as [vs|]; auto.
        destruct (run sc f _ (body vs)) as [[w1 o]|] eqn:E; [|discriminate]. rewrite (IH' _ _ _ E). destruct o; auto.
      - destruct (nth_error (w_cells w) a) as [x'|]; auto. destruct (c_lock x'); auto.
        destruct (ty_eqb _ _); auto.
    Qed.

    Lemma ends_det (w : world) (p : prog) w1 o1 w2 o2 :
      ends sc w p w1 o1 -> ends sc w p w2 o2 -> w1 = w2 /\ o1 = o2.
    Proof.
      intros [f1 E1] [f2 E2].
      pose proof (run_mono _ _ _ _ E1 (f1 + f2) ltac:(lia)) as F1.
      pose proof (run_mono _ _ _ _ E2 (f1 + f2) ltac:(lia)) as F2.
      rewrite F1 in F2. injection F2 as -> ->. auto.
    Qed.

    Lemma ends_not_diverges (w : world) (p : prog) w1 o1 : ends sc w p w1 o1 -> ~ diverges sc w p.
    Proof. intros [f E] D. now rewrite (D f) in E. Qed.

    (** ** Big-step rules for programs that come back *)
    Definition readable (l : glock) : Prop := match l with GReaders _ | GWrite => True | _ => False end.
    Definition poisons (m : mode) : bool := match m with Excl => true | Shared => false end.

    Inductive exec : world -> prog -> world -> outcome -> Prop :=
    | XRet : forall w r, exec w (PRet r) w (ORet r)
    | XPanic : forall w, exec w PPanic w OPanic
    | XEmit : forall w v k w' o, exec (emit v w) k w' o -> exec w (PEmit v k) w' o
    | XCall : forall w body k w1 r w' o, exec w body w1 (ORet r) -> exec w1 (k r) w' o -> exec w (PCall body k) w' o
    | XCallPanic : forall w body k w1, exec w body w1 OPanic -> exec w (PCall body k) w1 OPanic
    | XTry : forall w body k w1 r w' o, exec w body w1 (ORet r) -> exec w1 (k (Some r)) w' o -> exec w (PTry body k) w' o
    | XTryPanic : forall w body k w1 w' o, exec w body w1 OPanic -> exec w1 (k None) w' o -> exec w (PTry body k) w' o
    | XBgOk : forall w crash body k w1 r w2 w' o, w_lock w = GFree ->
        exec (bg_open w) (body (bg_ctx w)) w1 (ORet r) -> is_ok r = true ->
        bg_commit crash (length (w_heap w)) w1 = (w2, false) ->
        exec (close (length (w_heap w)) (set_lock GFree w2)) (k r) w' o ->
        exec w (PWith (TxBg crash) body k) w' o
    | XBgCrash : forall w crash body k w1 r w2, w_lock w = GFree ->
        exec (bg_open w) (body (bg_ctx w)) w1 (ORet r) -> is_ok r = true ->
        bg_commit crash (length (w_heap w)) w1 = (w2, true) ->
        exec w (PWith (TxBg crash) body k) (set_poison (close (length (w_heap w)) (set_lock GFree w2))) OPanic
    | XBgErr : forall w crash body k w1 r w' o, w_lock w = GFree ->
        exec (bg_open w) (body (bg_ctx w)) w1 (ORet r) -> is_ok r = false ->
        exec (close (length (w_heap w)) (set_lock GFree w1)) (k r) w' o ->
        exec w (PWith (TxBg crash) body k) w' o
    | XBgPanic : forall w crash body k w1, w_lock w = GFree ->
        exec (bg_open w) (body (bg_ctx w)) w1 OPanic ->
        exec w (PWith (TxBg crash) body k) (close (length (w_heap w)) (set_lock GFree (set_poison w1))) OPanic
    | XFgOk : forall w c body k w1 r w' o,
        exec (fg_open w) (body (fg_ctx w c)) w1 (ORet r) -> is_ok r = true ->
        exec (close (length (w_heap w)) (fg_commit c (length (w_heap w)) w1)) (k r) w' o ->
        exec w (PWith (TxFg c) body k) w' o
    | XFgErr : forall w c body k w1 r w' o,
        exec (fg_open w) (body (fg_ctx w c)) w1 (ORet r) -> is_ok r = false ->
        exec (close (length (w_heap w)) w1) (k r) w' o ->
        exec w (PWith (TxFg c) body k) w' o
    | XFgPanic : forall w c body k w1,
        exec (fg_open w) (body (fg_ctx w c)) w1 OPanic ->
        exec w (PWith (TxFg c) body k) (close (length (w_heap w)) w1) OPanic
    | XSave : forall w c n k w' o, exec (set_heap (ctx_save (w_heap w) c n) w) k w' o -> exec w (PSave c n k) w' o
    | XDelete : forall w c i k w' o, exec (set_heap (ctx_delete (w_heap w) c i) w) k w' o -> exec w (PDelete c i k) w' o
    | XGet : forall w c i k w' o, exec w (k (ctx_get (w_heap w) (w_graph w) c i)) w' o -> exec w (PGet c i k) w' o
    | XContains : forall w c i k w' o, exec w (k (ctx_contains (w_heap w) (w_graph w) c i)) w' o ->
        exec w (PContains c i k) w' o
    | XTarget : forall w c n k w' o,
        exec (set_cells (w_cells w ++ [Cell (DNode n) false Free]) w) (k (ctx_with_target c (length (w_cells w)))) w' o ->
        exec w (PTarget c n k) w' o
    | XLeak : forall w c k w' o, exec (set_leaked (ctx_buf c :: w_leaked w) w) k w' o -> exec w (PLeak c k) w' o
    | XTriggers : forall w s c k w1 r w' o,
        exec w (select_execute (ts_select (sc_triggers sc) s) c) w1 (ORet r) -> exec w1 (k r) w' o ->
        exec w (PTriggers s c k) w' o
    | XTriggersPanic : forall w s c k w1,
        exec w (select_execute (ts_select (sc_triggers sc) s) c) w1 OPanic -> exec w (PTriggers s c k) w1 OPanic
    | XRead : forall w l body k w1 r w' o, glock_read (w_lock w) = Some l ->
        exec (set_lock l w) body w1 (ORet r) -> exec (set_lock (glock_unread (w_lock w1)) w1) (k r) w' o ->
        exec w (PRead body k) w' o
    | XReadPanic : forall w l body k w1, glock_read (w_lock w) = Some l ->
        exec (set_lock l w) body w1 OPanic ->
        exec w (PRead body k) (set_lock (glock_unread (w_lock w1)) w1) OPanic
    | XWrite : forall w body k w1 r w' o, w_lock w = GFree ->
        exec (set_lock GWrite w) body w1 (ORet r) -> exec (set_lock GFree w1) (k r) w' o ->
        exec w (PWrite body k) w' o
    | XWritePanic : forall w body k w1, w_lock w = GFree ->
        exec (set_lock GWrite w) body w1 OPanic ->
        exec w (PWrite body k) (set_lock GFree (set_poison w1)) OPanic
    | XGraphGet : forall w i k w' o, readable (w_lock w) ->
        exec w (k (g_get (w_graph w) i)) w' o -> exec w (PGraphGet i k) w' o
    | XGraphIter : forall w k w' o, readable (w_lock w) ->
        exec w (k (g_iter (w_graph w))) w' o -> exec w (PGraphIter k) w' o
    | XGraphCall : forall w c k w' o, w_lock w = GWrite ->
        exec (set_graph (fst (g_step (w_graph w) c)) w) (k (snd (g_step (w_graph w) c))) w' o ->
        exec w (PGraphCall c k) w' o
    | XRes : forall w t k w' o, exec w (k (res_from sc t)) w' o -> exec w (PRes t k) w' o
    | XAbsent : forall w m hs body k cs held w' o, acquire m hs (w_cells w) = AcqOk _ cs held ->
        deref_all cs hs held = None ->
        exec (set_cells (release false held cs) w) (k None) w' o -> exec w (PAccess m hs body k) w' o
    | XAccess : forall w m hs body k cs held vs w1 r w' o, acquire m hs (w_cells w) = AcqOk _ cs held ->
        deref_all cs hs held = Some vs -> exec (set_cells cs w) (body vs) w1 (ORet r) ->
        exec (set_cells (release false held (w_cells w1)) w1) (k (Some r)) w' o -> exec w (PAccess m hs body k) w' o
    | XAccessPanic : forall w m hs body k cs held vs w1, acquire m hs (w_cells w) = AcqOk _ cs held ->
        deref_all cs hs held = Some vs -> exec (set_cells cs w) (body vs) w1 OPanic ->
        exec w (PAccess m hs body k) (set_cells (release (poisons m) held (w_cells w1)) w1) OPanic
    | XPoke : forall w a d k x w' o, nth_error (w_cells w) a = Some x -> c_lock x = Writer ->
        ty_eqb (ty_of d) (ty_of (c_val x)) = true ->
        exec (set_cells (alter (fun x => Cell d (c_poison x) (c_lock x)) a (w_cells w)) w) k w' o ->
        exec w (PPoke a d k) w' o.

    Lemma run_exec fuel : forall (w : world) (p : prog) w' o, run sc fuel w p = Some (w', o) -> comes_back o ->
      exec w p w' o.
    Proof.
      induction fuel as [|f IH]; intros w p w' o R B; [discriminate|].
      destruct p; cbn [run] in R.
      - injection R as <- <-. constructor.
      - injection R as <- <-. constructor.
      - discriminate.
      - constructor. eauto.
      - destruct (run sc f w p) as [[w1 [r| | |]]|] eqn:E; try discriminate; try (injection R as <- <-; destruct B).
        + eapply XCall; eauto; (eapply IH; [exact E|exact I]).
        + apply XCallPanic. eapply IH; [exact E|exact I].
      - destruct (run sc f w p) as [[w1 [r| | |]]|] eqn:E; try discriminate; try (injection R as <- <-; destruct B).
        + eapply XTry; eauto; (eapply IH; [exact E|exact I]).
        + eapply XTryPanic; eauto; (eapply IH; [exact E|exact I]).
      - destruct t as [crash|c].
        + destruct (w_lock w) eqn:Lk; try (injection R as <- <-; destruct B). cbn zeta in R.
          destruct (run sc f _ (body _)) as [[w1 [r| | |]]|] eqn:E; try discriminate; try (injection R as <- <-; destruct B).
          * destruct (is_ok r) eqn:Ok.
            -- destruct (bg_commit crash _ w1) as [w2 []] eqn:C.
               ++ injection R as <- <-. eapply XBgCrash; eauto; (eapply IH; [exact E|exact I]).
               ++ eapply XBgOk; eauto; (eapply IH; [exact E|exact I]).
            -- eapply XBgErr; eauto; (eapply IH; [exact E|exact I]).
          * eapply XBgPanic; eauto; (eapply IH; [exact E|exact I]).
        + cbn zeta in R.
          destruct (run sc f _ (body _)) as [[w1 [r| | |]]|] eqn:E; try discriminate; try (injection R as <- <-; destruct B).
          * destruct (is_ok r) eqn:Ok.
            -- eapply XFgOk; eauto; (eapply IH; [exact E|exact I]).
            -- eapply XFgErr; eauto; (eapply IH; [exact E|exact I]).
          * eapply XFgPanic; eauto; (eapply IH; [exact E|exact I]).
      - constructor; eauto.
      - constructor; eauto.
      - constructor; eauto.
      - constructor; eauto.
      - constructor; eauto.
      - constructor; eauto.
      - destruct (run sc f w (select_execute _ c)) as [[w1 [r| | |]]|] eqn:E; try discriminate; try (injection R as <- <-; destruct B).
        + eapply XTriggers; eauto; (eapply IH; [exact E|exact I]).
        + eapply XTriggersPanic; eauto; (eapply IH; [exact E|exact I]).
      - destruct (glock_read (w_lock w)) as [l|] eqn:Lk; [|injection R as <- <-; destruct B].
        destruct (run sc f _ p) as [[w1 [r| | |]]|] eqn:E; try discriminate; try (injection R as <- <-; destruct B).
        + eapply XRead; eauto; (eapply IH; [exact E|exact I]).
        + eapply XReadPanic; eauto; (eapply IH; [exact E|exact I]).
      - destruct (w_lock w) eqn:Lk; try (injection R as <- <-; destruct B).
        destruct (run sc f _ p) as [[w1 [r| | |]]|] eqn:E; try discriminate; try (injection R as <- <-; destruct B).
        + eapply XWrite; eauto; (eapply IH; [exact E|exact I]).
        + eapply XWritePanic; eauto; (eapply IH; [exact E|exact I]).
      - destruct (w_lock w) eqn:Lk; try (injection R as <- <-; destruct B); (apply XGraphGet; [rewrite Lk; exact I|eauto]).
      - destruct (w_lock w) eqn:Lk; try (injection R as <- <-; destruct B); (apply XGraphIter; [rewrite Lk; exact I|eauto]).
      - destruct (w_lock w) eqn:Lk; try (injection R as <- <-; destruct B). apply XGraphCall; [assumption|].
        destruct (g_step (w_graph w) c) as [g r]. cbn. eauto.
      - constructor; eauto.
      - destruct (acquire m hs (w_cells w)) as [cs held| |] eqn:A; try (injection R as <- <-; destruct B).
        destruct (deref_all cs hs held) as [vs|] eqn:D; [|eapply XAbsent; eauto].
        destruct (run sc f _ (body vs)) as [[w1 [r| | |]]|] eqn:E; try discriminate; try (injection R as <- <-; destruct B).
        + eapply XAccess; eauto; (eapply IH; [exact E|exact I]).
        + eapply XAccessPanic; eauto; (eapply IH; [exact E|exact I]).
      - destruct (nth_error (w_cells w) a) as [x|] eqn:N; [|injection R as <- <-; destruct B].
        destruct (c_lock x) eqn:Lk; try (injection R as <- <-; destruct B).
        destruct (ty_eqb _ _) eqn:T; [|injection R as <- <-; destruct B]. eapply XPoke; eauto.
    Qed.

    Ltac fuel2 f1 f2 E1 E2 :=
      exists (S (f1 + f2)); cbn [run];
      rewrite (run_mono _ _ _ _ E1 (f1 + f2) ltac:(lia)).

    Lemma exec_run (w : world) (p : prog) w' o : exec w p w' o -> ends sc w p w' o.
    Proof.
      induction 1.
      - exists 1. reflexivity.
      - exists 1. reflexivity.
      - destruct IHexec as [f E]. exists (S f). exact E.
      - destruct IHexec1 as [f1 E1], IHexec2 as [f2 E2]. fuel2 f1 f2 E1 E2. eapply run_mono; [exact E2|lia].
      - destruct IHexec as [f E]. exists (S f). cbn [run]. now rewrite E.
      - destruct IHexec1 as [f1 E1], IHexec2 as [f2 E2]. fuel2 f1 f2 E1 E2. eapply run_mono; [exact E2|lia].
      - destruct IHexec1 as [f1 E1], IHexec2 as [f2 E2]. fuel2 f1 f2 E1 E2. eapply run_mono; [exact E2|lia].
      - destruct IHexec1 as [f1 E1], IHexec2 as [f2 E2]. exists (S (f1 + f2)); cbn [run]. rewrite H. cbn zeta.
        unfold bg_open, bg_ctx in E1. rewrite (run_mono _ _ _ _ E1 (f1 + f2) ltac:(lia)), H1, H2.
        eapply run_mono; [exact E2|lia].
      - destruct IHexec as [f1 E1]. exists (S f1); cbn [run]. rewrite H. cbn zeta.
        unfold bg_open, bg_ctx in E1. now rewrite E1, H1, H2.
      - destruct IHexec1 as [f1 E1], IHexec2 as [f2 E2]. exists (S (f1 + f2)); cbn [run]. rewrite H. cbn zeta.
        unfold bg_open, bg_ctx in E1. rewrite (run_mono _ _ _ _ E1 (f1 + f2) ltac:(lia)), H1.
        eapply run_mono; [exact E2|lia].
      - destruct IHexec as [f1 E1]. exists (S f1); cbn [run]. rewrite H. cbn zeta.
        unfold bg_open, bg_ctx in E1. now rewrite E1.
      - destruct IHexec1 as [f1 E1], IHexec2 as [f2 E2]. exists (S (f1 + f2)); cbn [run]. cbn zeta.
        unfold fg_open, fg_ctx in E1. rewrite (run_mono _ _ _ _ E1 (f1 + f2) ltac:(lia)), H0.
        eapply run_mono; [exact E2|lia].
      - destruct IHexec1 as [f1 E1], IHexec2 as [f2 E2]. exists (S (f1 + f2)); cbn [run]. cbn zeta.
        unfold fg_open, fg_ctx in E1. rewrite (run_mono _ _ _ _ E1 (f1 + f2) ltac:(lia)), H0.
        eapply run_mono; [exact E2|lia].
      - destruct IHexec as [f1 E1]. exists (S f1); cbn [run]. cbn zeta. unfold fg_open, fg_ctx in E1. now rewrite E1.
      - destruct IHexec as [f E]. exists (S f). exact E.
      - destruct IHexec as [f E]. exists (S f). exact E.
      - destruct IHexec as [f E]. exists (S f). exact E.
      - destruct IHexec as [f E]. exists (S f). exact E.
      - destruct IHexec as [f E]. exists (S f). exact E.
      - destruct IHexec as [f E]. exists (S f). exact E.
      - destruct IHexec1 as [f1 E1], IHexec2 as [f2 E2]. fuel2 f1 f2 E1 E2. eapply run_mono; [exact E2|lia].
      - destruct IHexec as [f E]. exists (S f). cbn [run]. now rewrite E.
      - destruct IHexec1 as [f1 E1], IHexec2 as [f2 E2]. exists (S (f1 + f2)); cbn [run]. rewrite H.
        rewrite (run_mono _ _ _ _ E1 (f1 + f2) ltac:(lia)). eapply run_mono; [exact E2|lia].
      - destruct IHexec as [f E]. exists (S f). cbn [run]. now rewrite H, E.
      - destruct IHexec1 as [f1 E1], IHexec2 as [f2 E2]. exists (S (f1 + f2)); cbn [run]. rewrite H.
        rewrite (run_mono _ _ _ _ E1 (f1 + f2) ltac:(lia)). eapply run_mono; [exact E2|lia].
      - destruct IHexec as [f E]. exists (S f). cbn [run]. now rewrite H, E.
      - destruct IHexec as [f E]. exists (S f). cbn [run]. destruct (w_lock w); try destruct H; exact E.
      - destruct IHexec as [f E]. exists (S f). cbn [run]. destruct (w_lock w); try destruct H; exact E.
      - destruct IHexec as [f E]. exists (S f). cbn [run]. rewrite H. destruct (g_step _ c); exact E.
      - destruct IHexec as [f E]. exists (S f). exact E.
      - destruct IHexec as [f E]. exists (S f). cbn [run]. now rewrite H, H0.
      - destruct IHexec1 as [f1 E1], IHexec2 as [f2 E2]. exists (S (f1 + f2)); cbn [run]. rewrite H, H0.
        rewrite (run_mono _ _ _ _ E1 (f1 + f2) ltac:(lia)). eapply run_mono; [exact E2|lia].
      - destruct IHexec as [f E]. exists (S f). cbn [run]. rewrite H, H0, E. now destruct m.
      - destruct IHexec as [f E]. exists (S f). cbn [run]. now rewrite H, H0, H1.
    Qed.

    Lemma exec_comes_back (w : world) (p : prog) w' o : exec w p w' o -> comes_back o.
    Proof. induction 1; try exact I; assumption. Qed.

    Lemma ends_exec (w : world) (p : prog) w' o : comes_back o -> ends sc w p w' o <-> exec w p w' o.
    Proof.
      intros B. split; [intros [f E]; now apply (run_exec f)|apply exec_run].
    Qed.
  End Run.
End Facts.
