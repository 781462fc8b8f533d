(** Facts about guards of the graph with any lifetime. *)
From Coq Require Import List Bool Arith Lia.
From Verif Require Import Ord OrdFacts BTree BTreeFacts Graph GraphFacts SpecGraph Tx TxMachine SpecTx TxFacts TxMachineFacts TxInv
  Guards SpecGuards.
Import ListNotations.

Section Facts.
  Context {Id Node : Type} `{HO : OrdT Id} `{HI : Identify Node Id}.
  Notation graph := (graph Id Node).
  Notation event := (@event Id Node).
  Notation machine := (@machine Id Node).
  Notation gstate := (gstate Id Node).
  Notation gevent := (gevent Id Node).
  Notation gout := (gout Id Node).

  Lemma g_run_app (es1 es2 : list gevent) : forall st : gstate,
    g_run st (es1 ++ es2) = (fst (g_run (fst (g_run st es1)) es2), snd (g_run st es1) ++ snd (g_run (fst (g_run st es1)) es2)).
  Proof.
    induction es1 as [|e es1 IH]; intros st; cbn; [now destruct (g_run st es2)|].
    destruct (g_step st e) as [st1 o]. rewrite IH. destruct (g_run st1 es1). reflexivity.
  Qed.

  Lemma g_after_snoc g0 (es : list gevent) e : g_after g0 (es ++ [e]) = fst (g_step (g_after g0 es) e).
  Proof. unfold g_after. rewrite g_run_app. cbn. now destruct (g_step _ e). Qed.

  Lemma g_after_app g0 (es1 es2 : list gevent) : g_after g0 (es1 ++ es2) = fst (g_run (g_after g0 es1) es2).
  Proof. unfold g_after. now rewrite g_run_app. Qed.

  Lemma g_answers_snoc g0 (es : list gevent) e : g_answers g0 (es ++ [e]) = g_answers g0 es ++ [g_says g0 es e].
  Proof. unfold g_answers, g_says. rewrite g_run_app. cbn. fold (g_after g0 es). now destruct (g_step _ e). Qed.

  Lemma g_answers_length g0 (es : list gevent) : length (g_answers g0 es) = length es.
  Proof. induction es as [|e es IH] using rev_ind; [reflexivity|]. rewrite g_answers_snoc, !app_length, IH. reflexivity. Qed.

  (** ** Commits that panic *)

  Lemma apply_told_graph ops : forall g : graph, fst (apply_told g ops) = apply_ops g ops.
  Proof.
    induction ops as [|o ops IH]; intros g; [reflexivity|]. cbn. specialize (IH (apply_op g o)).
    destruct o; cbn in *; destruct (apply_told _ ops); exact IH.
  Qed.

  Lemma apply_told_calls ops : forall g : graph, map fst (snd (apply_told g ops)) = map op_call ops.
  Proof.
    induction ops as [|o ops IH]; intros g; [reflexivity|]. cbn. destruct (Graph.g_step g (op_call o)) as [g1 r].
    specialize (IH g1). destruct (apply_told g1 ops). cbn in *. congruence.
  Qed.

  (** One at a time, through guards dropped at once. *)
  Lemma apply_told_run ops (p : proto) hp cs : p_hung p = false -> guard_held p = false -> forall g : graph,
    m_run (Machine p (Store g hp cs)) (map (fun x => EWrite (fst x)) (snd (apply_told g ops))) =
    (Machine p (Store (fst (apply_told g ops)) hp cs), map (fun x => XNode (snd x)) (snd (apply_told g ops))).
  Proof.
    intros Hh G. induction ops as [|o ops IH]; intros g; [reflexivity|]. cbn. destruct (Graph.g_step g (op_call o)) as [g1 r] eqn:S.
    specialize (IH g1). destruct (apply_told g1 ops) as [g2 l]. cbn in *. unfold m_step, p_step. cbn. rewrite Hh, G. cbn. rewrite S. cbn. now rewrite IH.
  Qed.

  (** A commit that panics does so in this state, and nothing else is called in the meantime. *)
  Record crashing (st : gstate) (t k : nat) : Prop := Crashing {
    cr_hung : gs_hung st = false;
    cr_lost : lost t st = false;
    cr_rec : nth_error (p_txs (m_proto (gs_m st))) t = Some (TxRec None true true);
    cr_live : has_ctx (m_proto (gs_m st)) t Live = false;
    cr_leaked : has_ctx (m_proto (gs_m st)) t Leaked = false;
    cr_can : can_crash k (buf_ops (s_heap (m_store (gs_m st))) t) = true
  }.

  Definition crashed (st : gstate) (t k : nat) : gstate * gout :=
    let s := m_store (gs_m st) in
    let r := apply_told (s_graph s) (firstn k (buf_ops (s_heap s) t)) in
    (GState (Machine (close_tx t (m_proto (gs_m st))) (Store (fst r) (s_heap s) (s_ctxs s))) (gs_guards st) (gs_lost st) (gs_hung st), GCrashed (snd r)).

  Lemma crash_yes (st : gstate) t k : crashing st t k -> g_step st (GCrash t k) = crashed st t k.
  Proof.
    intros [A B C D E F]. unfold g_step, crashed. rewrite A, B, C, D, E, F. cbn. now destruct (apply_told _ _).
  Qed.

  Lemma crash_cases (st : gstate) t k :
    (g_step st (GCrash t k) = (st, GX XInvalid) \/ g_step st (GCrash t k) = (st, GX XHang)) \/
    (crashing st t k /\ g_step st (GCrash t k) = crashed st t k).
  Proof.
    assert (K : (g_step st (GCrash t k) = (st, GX XInvalid) \/ g_step st (GCrash t k) = (st, GX XHang)) \/ crashing st t k).
    { unfold g_step. destruct (gs_hung st) eqn:A; [auto|]. destruct (lost t st) eqn:B; [auto|].
      destruct (nth_error _ t) as [[[c|] [] []]|] eqn:C; auto. cbn zeta.
      destruct (has_ctx _ t Live) eqn:D; [auto|]. destruct (has_ctx _ t Leaked) eqn:E; [auto|].
      destruct (can_crash k _) eqn:F; [|auto]. right. now constructor. }
    destruct K as [K|K]; [now left|right]. split; [exact K|now apply crash_yes].
  Qed.

  (** ** Who holds what *)

  Lemma held_true w (st : gstate) : held w st = true <->
    exists g s, nth_error (gs_guards st) g = Some (SGuard w s) /\ s <> Dropped.
  Proof.
    unfold held. rewrite existsb_exists. split.
    - intros ([w' s] & I & E). apply In_nth_error in I as [g N]. unfold holds in E. cbn in E. apply andb_true_iff in E as [E1 E2].
      apply eqb_prop in E1. subst w'. exists g, s. split; [exact N|]. intros ->. discriminate.
    - intros (g & s & N & D). exists (SGuard w s). split; [exact (nth_error_In _ _ N)|]. unfold holds. cbn. rewrite eqb_reflx.
      destruct s; auto; contradiction.
  Qed.

  Lemma held_false w (st : gstate) : held w st = false <-> forall g s, nth_error (gs_guards st) g = Some (SGuard w s) -> s = Dropped.
  Proof.
    rewrite <- not_true_iff_false, held_true. split.
    - intros K g s N. destruct s; auto; exfalso; apply K; exists g; eexists; (split; [exact N|discriminate]).
    - intros K (g & s & N & D). apply D. eauto.
  Qed.

  Lemma lost_true t (st : gstate) : lost t st = true <-> In t (gs_lost st).
  Proof.
    unfold lost. rewrite existsb_exists. split; [intros (x & I & E); apply Nat.eqb_eq in E; now subst|].
    intros I. exists t. split; [exact I|apply Nat.eqb_refl].
  Qed.

  Record ginv (st : gstate) : Prop := GInv {
    gi_m : minv (gs_m st);
    gi_hung : p_hung (m_proto (gs_m st)) = false;
    gi_excl : guard_held (m_proto (gs_m st)) = true -> held true st = false /\ held false st = false;
    gi_wr : held true st = true -> held false st = false;
    gi_one : forall g1 g2 s1 s2, nth_error (gs_guards st) g1 = Some (SGuard true s1) -> nth_error (gs_guards st) g2 = Some (SGuard true s2) ->
      s1 <> Dropped -> s2 <> Dropped -> g1 = g2;
    gi_lost : forall t, In t (gs_lost st) -> nth_error (p_txs (m_proto (gs_m st))) t = Some (TxRec None true true)
  }.

  Lemma usable_spec g (st : gstate) w : usable g st = Some w <-> nth_error (gs_guards st) g = Some (SGuard w Live).
  Proof.
    unfold usable. destruct (nth_error (gs_guards st) g) as [[w' []]|]; split; intros E; try discriminate; congruence.
  Qed.

  Lemma usable_held g (st : gstate) w : usable g st = Some w -> held w st = true.
  Proof. intros U. apply usable_spec in U. apply held_true. exists g, Live. split; [exact U|discriminate]. Qed.

  Lemma usable_free g (st : gstate) w : ginv st -> usable g st = Some w -> guard_held (m_proto (gs_m st)) = false.
  Proof.
    intros I U. apply usable_held in U. destruct (guard_held _) eqn:G; [|reflexivity].
    destruct (gi_excl st I G) as [E1 E2]. destruct w; congruence.
  Qed.

  (** ** What an event passed to the machine of transactions does to the lock *)

  Lemma pass_hung (st : gstate) (e : event) : ginv st -> (forall w, asks st e = Some w -> locked w st = false) ->
    p_hung (fst (p_step (m_proto (gs_m st)) e)) = false /\ snd (p_step (m_proto (gs_m st)) e) <> AHang.
  Proof.
    intros I A. pose proof (gi_hung st I) as Hh.
    assert (L : forall w, locked w st = false -> guard_held (m_proto (gs_m st)) = false).
    { intros w E. unfold locked in E. destruct (guard_held _); [discriminate|reflexivity]. }
    destruct (p_step_pstep (m_proto (gs_m st)) e); try (split; [assumption || reflexivity|discriminate]); try congruence.
    exfalso. destruct e; try contradiction; cbn in A.
    - rewrite H1 in A. specialize (L true (A true eq_refl)). congruence.
    - specialize (L false (A false eq_refl)). congruence.
    - specialize (L true (A true eq_refl)). congruence.
  Qed.

  Lemma guard_close t p : pinv p -> guard_held (close_tx t p) = true -> guard_held p = true.
  Proof.
    intros I G. apply guard_held_true in G as (u & x & N & Gx). apply guard_held_true. cbn in N. rewrite nth_error_alter in N.
    destruct (Nat.eqb_spec t u) as [->|D]; [|eauto]. destruct (nth_error (p_txs p) u) as [y|]; [|discriminate]. injection N as <-. discriminate.
  Qed.

  Lemma guard_snoc p par h : guard_held (Proto (p_txs p ++ [TxRec par false true]) (p_ctxs p) h) = guard_held p.
  Proof. unfold guard_held. cbn. rewrite existsb_app. cbn. now rewrite !orb_false_r. Qed.

  (** The lock is taken only by an event that asks for it. *)
  Lemma pass_guard (st : gstate) (e : event) : ginv st -> (forall w, asks st e = Some w -> locked w st = false) ->
    guard_held (fst (p_step (m_proto (gs_m st)) e)) = true ->
    guard_held (m_proto (gs_m st)) = true \/ (held true st = false /\ held false st = false).
  Proof.
    intros I A G. pose proof (gi_m st I) as M. destruct (guard_held (m_proto (gs_m st))) eqn:E; [now left|].
    destruct (p_step_pstep (m_proto (gs_m st)) e); cbn [fst] in G; try congruence; try (unfold guard_held in G, E; cbn in G; congruence).
    - rewrite guard_snoc in G. congruence.
    - rewrite guard_snoc in G. congruence.
    - right. specialize (A true). cbn in A. rewrite H0 in A. specialize (A eq_refl). unfold locked in A.
      apply orb_false_iff in A as [A B]. apply orb_false_iff in A as [_ A]. auto.
    - apply guard_close in G; [congruence|apply (mi_p _ M)].
    - apply guard_close in G; [congruence|apply (mi_p _ M)].
    - apply guard_close in G; [congruence|apply (mi_p _ M)].
  Qed.

  Lemma pass_lost (st : gstate) (e : event) t : ginv st -> of_lost st e = false -> In t (gs_lost st) ->
    nth_error (p_txs (fst (p_step (m_proto (gs_m st)) e))) t = Some (TxRec None true true).
  Proof.
    intros I O J. pose proof (gi_lost st I t J) as N. pose proof (proj2 (lost_true t st) J) as Lt.
    assert (Cl : forall u b, e = EEnd u b -> nth_error (p_txs (close_tx u (m_proto (gs_m st)))) t = Some (TxRec None true true)).
    { intros u b ->. cbn in O |- *. rewrite nth_error_alter. destruct (Nat.eqb_spec u t) as [->|D]; [congruence|exact N]. }
    destruct (p_step_pstep (m_proto (gs_m st)) e); cbn; try exact N.
    - apply nth_error_snoc. auto.
    - apply nth_error_snoc. auto.
    - cbn in O. rewrite nth_error_alter. destruct (Nat.eqb_spec t0 t) as [->|D]; [congruence|exact N].
    - eapply Cl. reflexivity.
    - eapply Cl. reflexivity.
    - eapply Cl. reflexivity.
  Qed.

  Lemma held_same w (st st' : gstate) : gs_guards st' = gs_guards st -> held w st' = held w st.
  Proof. unfold held. now intros ->. Qed.

  Lemma ginv_pass (st : gstate) (e : event) : ginv st -> of_lost st e = false -> (forall w, asks st e = Some w -> locked w st = false) ->
    ginv (fst (g_pass st e)).
  Proof.
    intros I O A. destruct (pass_hung st e I A) as [Hh _]. pose proof (pass_guard st e I A) as G. pose proof (pass_lost st e) as L.
    pose proof (minv_step (gs_m st) e (gi_m st I)) as M. unfold g_pass. rewrite m_step_fst in *. cbn in *. constructor; cbn.
    - exact M.
    - exact Hh.
    - intros E. unfold held in *. cbn. destruct (G E) as [E'|E']; [|exact E']. exact (gi_excl st I E').
    - exact (gi_wr st I).
    - exact (gi_one st I).
    - intros t J. now apply L.
  Qed.

  Lemma ginv_hang (st : gstate) : ginv st -> ginv (fst (g_hang st)).
  Proof. intros [M Hh E W O L]. now constructor. Qed.

  Lemma minv_graph (m : machine) g : g_wf g -> minv m -> minv (Machine (m_proto m) (Store g (s_heap (m_store m)) (s_ctxs (m_store m)))).
  Proof. intros W [P Hp C V _]. now constructor. Qed.

  Lemma locked_false w (st : gstate) : locked w st = false ->
    guard_held (m_proto (gs_m st)) = false /\ held true st = false /\ (w = true -> held false st = false).
  Proof.
    unfold locked. intros E. apply orb_false_iff in E as [E E2]. apply orb_false_iff in E as [E0 E1]. repeat split; auto.
    intros ->. exact E2.
  Qed.

  Lemma held_set s g (st : gstate) w : usable g st <> None -> held w (set_guard s g st) = true -> held w st = true.
  Proof.
    intros U E. apply held_true in E as (g' & s' & N & D). apply held_true. cbn in N. rewrite nth_error_alter in N.
    destruct (Nat.eqb_spec g g') as [->|]; [|eauto]. destruct (usable g' st) as [w0|] eqn:U0; [|congruence]. apply usable_spec in U0.
    rewrite U0 in N. injection N as -> <-. exists g', Live. split; [exact U0|discriminate].
  Qed.

  Lemma ginv_set s g (st : gstate) : ginv st -> usable g st <> None -> ginv (set_guard s g st).
  Proof.
    intros I U. destruct I as [M Hh E W O L]. constructor; auto.
    - intros G. destruct (E G) as [E1 E2]. split.
      + destruct (held true (set_guard s g st)) eqn:K; [|reflexivity]. apply held_set in K; [congruence|exact U].
      + destruct (held false (set_guard s g st)) eqn:K; [|reflexivity]. apply held_set in K; [congruence|exact U].
    - intros G. apply held_set in G; [|exact U]. specialize (W G).
      destruct (held false (set_guard s g st)) eqn:K; [|reflexivity]. apply held_set in K; [congruence|exact U].
    - cbn. assert (K : forall g1 s1, nth_error (alter (fun x => SGuard (sg_write x) s) g (gs_guards st)) g1 = Some (SGuard true s1) -> s1 <> Dropped ->
        exists s0, nth_error (gs_guards st) g1 = Some (SGuard true s0) /\ s0 <> Dropped).
      { intros g1 s1 N D. rewrite nth_error_alter in N. destruct (Nat.eqb_spec g g1) as [->|]; [|eauto].
        destruct (usable g1 st) as [w0|] eqn:U0; [|congruence]. apply usable_spec in U0. rewrite U0 in N. injection N as -> <-. exists Live.
        split; [exact U0|discriminate]. }
      intros g1 g2 s1 s2 N1 N2 D1 D2. destruct (K g1 s1 N1 D1) as (t1 & M1 & F1). destruct (K g2 s2 N2 D2) as (t2 & M2 & F2). eauto.
  Qed.

  (** A commit that panics is, but for the graph, a transaction that is dropped. *)
  Lemma crash_drop (st : gstate) t k : ginv st -> crashing st t k ->
    g_step st (GEvent (EEnd t false)) =
      (GState (Machine (close_tx t (m_proto (gs_m st))) (m_store (gs_m st))) (gs_guards st) (gs_lost st) (gs_hung st), GX XUnit).
  Proof.
    intros I [A B C D E F]. pose proof (gi_hung st I) as Hh. unfold g_step. rewrite A. cbn [of_lost asks]. rewrite B. unfold g_pass, m_step, p_step.
    rewrite Hh, C, D, A. reflexivity.
  Qed.

  Lemma ginv_crash (st : gstate) t k : ginv st -> ginv (fst (g_step st (GCrash t k))).
  Proof.
    intros I. destruct (crash_cases st t k) as [[->| ->]|[C ->]]; [exact I|exact I|].
    assert (J : ginv (fst (g_step st (GEvent (EEnd t false))))).
    { unfold g_step. rewrite (cr_hung _ _ _ C). cbn [of_lost asks]. rewrite (cr_lost _ _ _ C). apply ginv_pass; auto.
      - cbn. apply (cr_lost _ _ _ C).
      - intros w E. discriminate. }
    rewrite (crash_drop st t k I C) in J. cbn [fst] in J. destruct J as [M Hh Ex W O L]. unfold crashed. cbn [fst]. constructor; auto.
    cbn [gs_m] in *. apply (minv_graph (Machine (close_tx t (m_proto (gs_m st))) (m_store (gs_m st)))); [|exact M].
    rewrite apply_told_graph. apply apply_ops_wf. apply (mi_wf _ (gi_m _ I)).
  Qed.

  Lemma ginv_step (st : gstate) (e : gevent) : ginv st -> ginv (fst (g_step st e)).
  Proof.
    intros I. destruct (gs_hung st) eqn:Hg; [unfold g_step; rewrite Hg; exact I|].
    destruct e as [e|t|t k|w|g i|g|g c|g|g]; [| |now apply ginv_crash| | | | | |]; unfold g_step; rewrite Hg.
    - destruct (of_lost st e) eqn:O; [exact I|]. destruct (asks st e) as [w|] eqn:A.
      + destruct (locked w st) eqn:L; [now apply ginv_hang|]. apply ginv_pass; auto. intros w' E. congruence.
      + apply ginv_pass; auto. intros w' E. congruence.
    - destruct (lost t st); [exact I|]. destruct (nth_error _ t) as [[[c|] [] []]|] eqn:N; try exact I.
      destruct (has_ctx _ t Live); [exact I|]. destruct I as [M Hh E W O L]. constructor; auto. cbn. intros u [<-|J]; auto.
    - destruct (locked w st) eqn:L; [now apply ginv_hang|]. apply locked_false in L as (G & T & F). destruct I as [M Hh E W O L].
      rewrite held_false in T.
      assert (K : forall w' g s, nth_error (gs_guards st ++ [SGuard w Live]) g = Some (SGuard w' s) ->
                nth_error (gs_guards st) g = Some (SGuard w' s) \/ (g = length (gs_guards st) /\ w' = w)).
      { intros w' g s N. apply nth_error_snoc in N as [N|[N E1]]; [auto|right]. split; congruence. }
      constructor; cbn [fst gs_m gs_guards gs_lost].
      + exact M.
      + exact Hh.
      + intros Gt. exfalso. cbn [fst gs_m] in Gt. congruence.
      + intros Ht. apply held_false. cbn. intros g s N. apply held_true in Ht as (g' & s' & N' & D). cbn in N'.
        destruct (K true g' s' N') as [N1|[_ Ew]]; [exfalso; apply D; eauto|]. subst w.
        destruct (K false g s N) as [N2|[_ E2]]; [|discriminate]. specialize (F eq_refl). rewrite held_false in F. eauto.
      + intros g1 g2 s1 s2 N1 N2 D1 D2. destruct (K true g1 s1 N1) as [M1|[E1 _]]; [exfalso; apply D1; eauto|].
        destruct (K true g2 s2 N2) as [M2|[E2 _]]; [exfalso; apply D2; eauto|]. congruence.
      + exact L.
    - destruct (usable g st); exact I.
    - destruct (usable g st); exact I.
    - destruct (usable g st) as [[]|]; try exact I. destruct (Graph.g_step (s_graph (m_store (gs_m st))) c) as [g' r] eqn:S.
      destruct I as [M Hh E W O L]. constructor; auto. cbn. apply minv_graph; [|exact M].
      replace g' with (fst (Graph.g_step (s_graph (m_store (gs_m st))) c)) by now rewrite S. apply g_wf_step, (mi_wf _ M).
    - destruct (usable g st) eqn:U; [|exact I]. apply ginv_set; [exact I|congruence].
    - destruct (usable g st) eqn:U; [|exact I]. apply ginv_set; [exact I|congruence].
  Qed.

  Lemma ginv_after g0 (es : list gevent) : g_wf g0 -> ginv (g_after g0 es).
  Proof.
    intros W. induction es as [|e es IH] using rev_ind; [|rewrite g_after_snoc; now apply ginv_step].
    constructor; cbn; auto.
    - now apply minv_init.
    - intros [] g2 s1 s2 N; discriminate.
    - intros t [].
  Qed.

  (** ** The same history with guards dropped at once *)

  Lemma guard_freed t p : pinv p -> nth_error (p_txs p) t = Some (TxRec None true true) -> guard_held (close_tx t p) = false.
  Proof.
    intros I N. destruct (guard_held (close_tx t p)) eqn:G; [|reflexivity]. exfalso. apply guard_held_true in G as (u & x & Nu & Gx). cbn in Nu.
    rewrite nth_error_alter in Nu. destruct (Nat.eqb_spec t u) as [->|Du].
    - rewrite N in Nu. injection Nu as <-. discriminate.
    - apply Du. eapply (pi_one _ I); eauto.
  Qed.

  Lemma erase_crash (st : gstate) t k : ginv st ->
    let o := snd (g_step st (GCrash t k)) in
    gs_m (fst (g_step st (GCrash t k))) = fst (m_run (gs_m st) (erase [GCrash t k] [o])) /\
    kept [GCrash t k] [o] = snd (m_run (gs_m st) (erase [GCrash t k] [o])).
  Proof.
    intros I. cbn zeta. destruct (crash_cases st t k) as [[->| ->]|[C ->]]; [auto|auto|].
    unfold crashed. cbn [fst snd gs_m erase kept]. rewrite !app_nil_r. set (l := snd _). cbn [m_run].
    replace (m_step (gs_m st) (EEnd t false)) with (Machine (close_tx t (m_proto (gs_m st))) (m_store (gs_m st)), XUnit : @output Node).
    - pose proof (gi_m _ I) as M. destruct (m_store (gs_m st)) as [g hp cs] eqn:Es. cbn [s_graph s_heap s_ctxs] in *. subst l.
      rewrite apply_told_run; [auto|apply (gi_hung _ I)|]. apply guard_freed; [apply (mi_p _ M)|apply C].
    - symmetry. destruct C as [A B R D E F]. unfold m_step, p_step. now rewrite (gi_hung _ I), R, D.
  Qed.

  Lemma erase_step (st : gstate) (e : gevent) : ginv st ->
    let o := snd (g_step st e) in
    gs_m (fst (g_step st e)) = fst (m_run (gs_m st) (erase [e] [o])) /\ kept [e] [o] = snd (m_run (gs_m st) (erase [e] [o])).
  Proof.
    intros I. cbn zeta. destruct (gs_hung st) eqn:Hg; [unfold g_step; rewrite Hg; destruct e; auto|].
    destruct e as [e|t|t k|w|g i|g|g c|g|g]; [| |now apply erase_crash| | | | | |]; unfold g_step; rewrite Hg.
    - destruct (of_lost st e) eqn:O; [auto|].
      assert (P : (forall w, asks st e = Some w -> locked w st = false) ->
        gs_m (fst (g_pass st e)) = fst (m_run (gs_m st) (erase [GEvent e] [snd (g_pass st e)])) /\
        kept [GEvent e] [snd (g_pass st e)] = snd (m_run (gs_m st) (erase [GEvent e] [snd (g_pass st e)]))).
      { intros A. destruct (pass_hung st e I A) as [_ Nh]. unfold g_pass. destruct (m_step (gs_m st) e) as [m o] eqn:S. cbn.
        assert (Eo : o = snd (m_exec (m_store (gs_m st)) (snd (p_step (m_proto (gs_m st)) e)))) by (rewrite m_step_fst in S; congruence).
        assert (Em : o = XInvalid -> m = gs_m st).
        { rewrite m_step_fst in S. intros ->. injection S as <- S. destruct (p_step_pstep (m_proto (gs_m st)) e); cbn in *; try discriminate S; try (exfalso; congruence). all: now destruct (gs_m st). }
        assert (Ex : o <> XHang).
        { intros Eh. rewrite Eo in Eh. destruct (snd (p_step (m_proto (gs_m st)) e)) as [| | | | | | | | | | | |[]]; cbn in Eh; congruence. }
        destruct o; cbn; rewrite ?S; try (split; [auto|reflexivity]); cbn; auto. contradiction. }
      destruct (asks st e) as [w|] eqn:A.
      + destruct (locked w st) eqn:L; [auto|]. apply P. intros w' E. congruence.
      + apply P. intros w' E. congruence.
    - destruct (lost t st); [auto|]. destruct (nth_error _ t) as [[[c|] [] []]|] eqn:N; auto. destruct (has_ctx _ t Live); auto.
    - destruct (locked w st); auto.
    - destruct (usable g st) as [w|] eqn:U; [|auto]. pose proof (usable_free g st w I U) as G. pose proof (gi_hung st I) as Hh.
      cbn. unfold m_step, p_step. rewrite Hh, G. cbn. split; [|reflexivity]. destruct (gs_m st) as [p s]. reflexivity.
    - destruct (usable g st); auto.
    - destruct (usable g st) as [[]|] eqn:U; auto. pose proof (usable_free g st true I U) as G. pose proof (gi_hung st I) as Hh.
      destruct (Graph.g_step (s_graph (m_store (gs_m st))) c) as [g' r] eqn:S. cbn. unfold m_step, p_step. rewrite Hh, G. cbn. rewrite S. auto.
    - destruct (usable g st); auto.
    - destruct (usable g st); auto.
  Qed.

  Lemma erase_app es1 os1 es2 os2 : length es1 = length os1 -> erase (Id:=Id) (Node:=Node) (es1 ++ es2) (os1 ++ os2) = erase es1 os1 ++ erase es2 os2.
  Proof.
    revert os1. induction es1 as [|e es1 IH]; intros [|o os1] L; try discriminate; [reflexivity|]. injection L as L. cbn.
    destruct e as [e|t|t k|w|g i|g|g c|g|g]; destruct o as [[]| |]; cbn; rewrite ?IH by assumption; rewrite ?app_assoc; reflexivity.
  Qed.

  Lemma kept_app es1 os1 es2 os2 : length es1 = length os1 -> kept (Id:=Id) (Node:=Node) (es1 ++ es2) (os1 ++ os2) = kept es1 os1 ++ kept es2 os2.
  Proof.
    revert os1. induction es1 as [|e es1 IH]; intros [|o os1] L; try discriminate; [reflexivity|]. injection L as L. cbn.
    destruct e as [e|t|t k|w|g i|g|g c|g|g]; destruct o as [[]| |]; cbn; rewrite ?IH by assumption; rewrite ?app_assoc; reflexivity.
  Qed.

  Lemma erased (g0 : graph) (es : list gevent) : g_wf g0 ->
    gs_m (g_after g0 es) = after g0 (erase es (g_answers g0 es)) /\
    kept es (g_answers g0 es) = snd (m_run (m_init g0) (erase es (g_answers g0 es))).
  Proof.
    intros W. induction es as [|e es [IH1 IH2]] using rev_ind; [split; reflexivity|].
    pose proof (erase_step (g_after g0 es) e (ginv_after g0 es W)) as [E1 E2].
    rewrite g_answers_snoc, erase_app, kept_app by now rewrite g_answers_length. rewrite g_after_snoc. unfold g_says.
    rewrite E1, E2. unfold after in *. rewrite m_run_app. cbn [fst snd]. rewrite <- IH2, <- IH1. auto.
  Qed.

  (** ** Histories and states *)

  Lemma happened_snoc g0 es (e e' : gevent) o :
    (exists e2, happened g0 (es ++ [e]) e' o e2) <-> (exists e2, happened g0 es e' o e2) \/ (e = e' /\ g_says g0 es e' = o).
  Proof.
    split.
    - intros (e2 & e1 & E & S). induction e2 as [|x e2 _] using rev_ind.
      + apply app_inj_tail in E as [-> ->]. auto.
      + replace (e1 ++ e' :: e2 ++ [x]) with ((e1 ++ e' :: e2) ++ [x]) in E by now rewrite <- app_assoc.
        apply app_inj_tail in E as [-> ->]. left. exists e2, e1. auto.
    - intros [(e2 & e1 & -> & S)|[-> S]].
      + exists (e2 ++ [e]), e1. split; [now rewrite <- app_assoc|exact S].
      + exists [], es. auto.
  Qed.

  Lemma happened_nil g0 (e' : gevent) o : ~ exists e2, happened g0 [] e' o e2.
  Proof. intros (e2 & [|x e1] & E & _); discriminate. Qed.

  Definition of_tx (e : gevent) (o : gout) : Prop :=
    match e with GEvent (EBackground | EContext _ | EEnd _ _) | GCrash _ _ => o = GX XInvalid \/ o = GX XHang | _ => True end.

  Inductive txchange (txs : list txrec) : gevent -> gout -> list txrec -> Prop :=
  | tc_same e o : of_tx e o -> txchange txs e o txs
  | tc_bg : txchange txs (GEvent EBackground) (GX (XHandle (length txs))) (txs ++ [TxRec None false true])
  | tc_fg c h : txchange txs (GEvent (EForeground c)) h (txs ++ [TxRec (Some c) false true])
  | tc_ctx t h par g : nth_error txs t = Some (TxRec par g true) -> (par = None -> g = true) ->
      txchange txs (GEvent (EContext t)) (GX (XHandle h)) txs
  | tc_lock t h : nth_error txs t = Some (TxRec None false true) ->
      txchange txs (GEvent (EContext t)) (GX (XHandle h)) (alter (fun r => TxRec (tx_parent r) true (tx_open r)) t txs)
  | tc_end t b par g : nth_error txs t = Some (TxRec par g true) ->
      txchange txs (GEvent (EEnd t b)) (GX XUnit) (alter (fun r => TxRec (tx_parent r) false false) t txs)
  | tc_crash t k l : nth_error txs t = Some (TxRec None true true) ->
      txchange txs (GCrash t k) (GCrashed l) (alter (fun r => TxRec (tx_parent r) false false) t txs).

  Lemma pass_txs (st : gstate) (e : event) : ginv st ->
    txchange (p_txs (m_proto (gs_m st))) (GEvent e) (snd (g_pass st e)) (p_txs (m_proto (gs_m (fst (g_pass st e))))).
  Proof.
    intros I. pose proof (mi_heap _ (gi_m st I)) as Lh. unfold g_pass. rewrite m_step_fst. cbn [fst snd gs_m m_proto].
    destruct (p_step_pstep (m_proto (gs_m st)) e); cbn [m_exec fst snd]; try (apply tc_same; exact Logic.I).
    - apply tc_same. destruct e; cbn; auto.
    - apply tc_same. destruct e; cbn; auto.
    - rewrite Lh. apply tc_bg.
    - apply tc_fg.
    - eapply tc_ctx; [eassumption|discriminate].
    - eapply tc_ctx; [eassumption|reflexivity].
    - now apply tc_lock.
    - apply tc_same. destruct e; cbn; auto.
    - eapply tc_end. eassumption.
    - eapply tc_end. eassumption.
    - eapply tc_end. eassumption.
  Qed.

  Lemma step_txs (st : gstate) (e : gevent) : ginv st ->
    txchange (p_txs (m_proto (gs_m st))) e (snd (g_step st e)) (p_txs (m_proto (gs_m (fst (g_step st e))))).
  Proof.
    intros I. destruct (gs_hung st) eqn:Hg; [unfold g_step; rewrite Hg; apply tc_same; destruct e as [[]| | | | | | | |]; cbn; auto|].
    destruct e as [e|t|t k|w|g i|g|g c|g|g];
      [| |destruct (crash_cases st t k) as [[->| ->]|[C ->]]; [apply tc_same; cbn; auto|apply tc_same; cbn; auto|apply tc_crash, C]| | | | | |];
      unfold g_step; rewrite Hg.
    - destruct (of_lost st e); [apply tc_same; destruct e; cbn; auto|]. destruct (asks st e) as [w|] eqn:A; [|now apply pass_txs].
      destruct (locked w st); [|now apply pass_txs]. apply tc_same. destruct e; cbn; auto.
    - destruct (lost t st); [now apply tc_same|]. destruct (nth_error _ t) as [[[c|] [] []]|] eqn:N; try now apply tc_same.
      destruct (has_ctx _ t Live); now apply tc_same.
    - destruct (locked w st); now apply tc_same.
    - destruct (usable g st); now apply tc_same.
    - destruct (usable g st); now apply tc_same.
    - destruct (usable g st) as [[]|]; try now apply tc_same. destruct (Graph.g_step _ c). now apply tc_same.
    - destruct (usable g st); now apply tc_same.
    - destruct (usable g st); now apply tc_same.
  Qed.

  Definition txs_of g0 (es : list gevent) : list txrec := p_txs (m_proto (gs_m (g_after g0 es))).

  Lemma bg_snoc g0 es (e : gevent) t : background g0 (es ++ [e]) t <->
    background g0 es t \/ (e = GEvent EBackground /\ g_says g0 es e = GX (XHandle t)).
  Proof. unfold background. rewrite happened_snoc. intuition (subst; auto). Qed.

  Lemma hc_snoc g0 es (e : gevent) t : had_context g0 (es ++ [e]) t <->
    had_context g0 es t \/ (e = GEvent (EContext t) /\ exists c, g_says g0 es e = GX (XHandle c)).
  Proof.
    unfold had_context. split.
    - intros [c K]. apply happened_snoc in K as [K|[-> K]]; eauto.
    - intros [(c & K)|[-> [c K]]]; exists c; apply happened_snoc; auto.
  Qed.

  Lemma end_snoc g0 es (e : gevent) t : ended g0 (es ++ [e]) t <->
    ended g0 es t \/ (exists b, e = GEvent (EEnd t b) /\ g_says g0 es e = GX XUnit) \/ (exists k l, e = GCrash t k /\ g_says g0 es e = GCrashed l).
  Proof.
    unfold ended. split.
    - intros [[b K]|(k & l & K)]; (apply happened_snoc in K as [K|[-> K]]; [left|right]); [left|left|right|right]; eauto.
    - intros [[(b & K)|(k & l & K)]|[(b & -> & K)|(k & l & -> & K)]]; [left; exists b|right; exists k, l|left; exists b|right; exists k, l]; apply happened_snoc; auto.
  Qed.

  Record txhist g0 (es : list gevent) : Prop := TxHist {
    th_bg : forall t, background g0 es t <-> exists b o, nth_error (txs_of g0 es) t = Some (TxRec None b o);
    th_end : forall t, ended g0 es t <-> exists par b, nth_error (txs_of g0 es) t = Some (TxRec par b false);
    th_ctx : forall t, had_context g0 es t -> t < length (txs_of g0 es);
    th_open : forall t b, nth_error (txs_of g0 es) t = Some (TxRec None b true) -> (had_context g0 es t <-> b = true)
  }.

  Lemma txhist_after g0 es : g_wf g0 -> txhist g0 es.
  Proof.
    intros W. induction es as [|e es IH] using rev_ind.
    { constructor; unfold txs_of; cbn.
      - intros t. split; [intros K; now apply happened_nil in K|]. intros (b & o & N). destruct t; discriminate.
      - intros t. split; [intros [[b K]|(k & l & K)]; now apply happened_nil in K|]. intros (b & o & N). destruct t; discriminate.
      - intros t [c K]. now apply happened_nil in K.
      - intros t b N. destruct t; discriminate. }
    pose proof (step_txs (g_after g0 es) e (ginv_after g0 es W)) as T. fold (g_says g0 es e) in T. rewrite <- g_after_snoc in T.
    fold (txs_of g0 es) in T. fold (txs_of g0 (es ++ [e])) in T.
    remember (g_says g0 es e) as o eqn:So. remember (txs_of g0 (es ++ [e])) as txs' eqn:Et.
    destruct IH as [Hb He Hc Ho].
    assert (Lt : forall t x, nth_error (txs_of g0 es) t = Some x -> t < length (txs_of g0 es)).
    { intros t x N. apply nth_error_Some. congruence. }
    destruct T as [e o Oe| |c h|t h par g N Pg|t h N|t b par g N|t k l N]; constructor; rewrite <- Et; intros u;
      rewrite ?bg_snoc, ?hc_snoc, ?end_snoc, <- ?So.
    - rewrite Hb. split; [intros [K|[-> K]]; [exact K|]|auto]. cbn in Oe. destruct Oe; congruence.
    - rewrite He. split; [intros [K|[(b & -> & K)|(k & l & -> & K)]]; [exact K| |]|auto]; cbn in Oe; destruct Oe; congruence.
    - intros [K|[-> [c K]]]; [now apply Hc|]. cbn in Oe. destruct Oe; congruence.
    - intros b N. rewrite hc_snoc, <- So, <- (Ho u b N). split; [intros [K|[-> [c K]]]; [exact K|]|auto]. cbn in Oe. destruct Oe; congruence.
    - rewrite Hb. split.
      + intros [(b & o & N)|[_ [= <-]]]; [exists b, o|exists false, true]; apply nth_error_snoc; auto.
      + intros (b & o & N). apply nth_error_snoc in N as [N|[-> _]]; eauto.
    - rewrite He. split.
      + intros [(b & o & N)|[(b & E & _)|(k & l & E & _)]]; [exists b, o; apply nth_error_snoc; auto|discriminate|discriminate].
      + intros (b & o & N). apply nth_error_snoc in N as [N|[-> N]]; [eauto|discriminate].
    - rewrite app_length. cbn. intros [K|[E _]]; [specialize (Hc u K); lia|discriminate].
    - intros b N. rewrite hc_snoc. apply nth_error_snoc in N as [N|[-> [= ->]]].
      + rewrite <- (Ho u b N). split; [intros [K|[E _]]; [exact K|discriminate]|auto].
      + split; [intros [K|[E _]]; [specialize (Hc _ K); lia|discriminate]|discriminate].
    - rewrite Hb. split.
      + intros [(b & o & N)|[E _]]; [exists b, o; apply nth_error_snoc; auto|discriminate].
      + intros (b & o & N). apply nth_error_snoc in N as [N|[-> N]]; [eauto|discriminate].
    - rewrite He. split.
      + intros [(b & o & N)|[(b & E & _)|(k & l & E & _)]]; [exists b, o; apply nth_error_snoc; auto|discriminate|discriminate].
      + intros (b & o & N). apply nth_error_snoc in N as [N|[-> N]]; [eauto|discriminate].
    - rewrite app_length. cbn. intros [K|[E _]]; [specialize (Hc u K); lia|discriminate].
    - intros b N. rewrite hc_snoc. apply nth_error_snoc in N as [N|[-> N]]; [|discriminate].
      rewrite <- (Ho u b N). split; [intros [K|[E _]]; [exact K|discriminate]|auto].
    - rewrite Hb. split; [intros [K|[E _]]; [exact K|discriminate]|auto].
    - rewrite He. split; [intros [K|[(b & E & _)|(k & l & E & _)]]; [exact K|discriminate|discriminate]|auto].
    - intros [K|[[= ->] _]]; [now apply Hc|]. eauto.
    - intros b M. rewrite hc_snoc, <- So, <- (Ho u b M). split; [|auto]. intros [K|[[= ->] [x K]]]; [exact K|]. apply (Ho u b M).
      rewrite M in N. injection N as <- ->. auto.
    - rewrite Hb, nth_error_alter. destruct (Nat.eqb_spec t u) as [->|D].
      + rewrite N. cbn. split; [eauto|]. intros _. left. eauto.
      + split; [intros [K|[E _]]; [exact K|discriminate]|auto].
    - rewrite He, nth_error_alter. destruct (Nat.eqb_spec t u) as [->|D].
      + rewrite N. cbn. split; [|intros (par & b & [=])]. intros [(par & b & [=])|[(b & E & _)|(k & l & E & _)]]; discriminate.
      + split; [intros [K|[(b & E & _)|(k & l & E & _)]]; [exact K|discriminate|discriminate]|auto].
    - rewrite alter_length. intros [K|[[= ->] _]]; [now apply Hc|]. eauto.
    - intros b M. rewrite hc_snoc, <- So. rewrite nth_error_alter in M. destruct (Nat.eqb_spec t u) as [->|D].
      + rewrite N in M. injection M as <-. split; [auto|]. intros _. right. eauto.
      + rewrite <- (Ho u b M). split; [intros [K|[[= ->] _]]; [exact K|congruence]|auto].
    - rewrite Hb, nth_error_alter. destruct (Nat.eqb_spec t u) as [->|D].
      + rewrite N. cbn. split.
        * intros [(b0 & o & E)|[E _]]; [injection E as -> _ _; eauto|discriminate].
        * intros (b0 & o & E). injection E as -> _ _. left. eauto.
      + split; [intros [K|[E _]]; [exact K|discriminate]|auto].
    - rewrite He, nth_error_alter. destruct (Nat.eqb_spec t u) as [->|D].
      + rewrite N. cbn. split; [eauto|]. intros _. right. eauto.
      + split; [intros [K|[(b0 & [= -> ->] & _)|(k & l & E & _)]]; [exact K|congruence|discriminate]|auto].
    - rewrite alter_length. intros [K|[E _]]; [now apply Hc|discriminate].
    - intros b0 M. rewrite hc_snoc. rewrite nth_error_alter in M. destruct (Nat.eqb_spec t u) as [->|D].
      + rewrite N in M. discriminate.
      + rewrite <- (Ho u b0 M). split; [intros [K|[E _]]; [exact K|discriminate]|auto].
    - rewrite Hb, nth_error_alter. destruct (Nat.eqb_spec t u) as [->|D].
      + rewrite N. cbn. split.
        * intros [(b0 & o & E)|[E _]]; [eauto|discriminate].
        * intros (b0 & o & E). left. eauto.
      + split; [intros [K|[E _]]; [exact K|discriminate]|auto].
    - rewrite He, nth_error_alter. destruct (Nat.eqb_spec t u) as [->|D].
      + rewrite N. cbn. split; [eauto|]. intros _. right. right. eauto.
      + split; [intros [K|[(b0 & E & _)|(k0 & l0 & [= -> ->] & _)]]; [exact K|discriminate|congruence]|auto].
    - rewrite alter_length. intros [K|[E _]]; [now apply Hc|discriminate].
    - intros b0 M. rewrite hc_snoc. rewrite nth_error_alter in M. destruct (Nat.eqb_spec t u) as [->|D].
      + rewrite N in M. discriminate.
      + rewrite <- (Ho u b0 M). split; [intros [K|[E _]]; [exact K|discriminate]|auto].
  Qed.

  (** Guards in the history are guards in the state. *)
  Record guhist g0 (es : list gevent) : Prop := GuHist {
    uh_open : forall w g, (exists e2, happened g0 es (GOpen w) (GX (XHandle g)) e2) <-> exists s, nth_error (gs_guards (g_after g0 es)) g = Some (SGuard w s);
    uh_drop : forall g, (exists e2, happened g0 es (GDrop g) (GX XUnit) e2) <-> exists w, nth_error (gs_guards (g_after g0 es)) g = Some (SGuard w Dropped)
  }.

  Definition of_guard (e : gevent) (o : gout) : Prop :=
    match e with GOpen _ => o = GX XHang | GDrop _ => o = GX XInvalid \/ o = GX XHang | _ => True end.

  Inductive guchange (gs : list sguard) : gevent -> gout -> list sguard -> Prop :=
  | gc_same e o : of_guard e o -> guchange gs e o gs
  | gc_open w : guchange gs (GOpen w) (GX (XHandle (length gs))) (gs ++ [SGuard w Live])
  | gc_drop g w : nth_error gs g = Some (SGuard w Live) -> guchange gs (GDrop g) (GX XUnit) (alter (fun x => SGuard (sg_write x) Dropped) g gs)
  | gc_leak g w : nth_error gs g = Some (SGuard w Live) -> guchange gs (GLeak g) (GX XUnit) (alter (fun x => SGuard (sg_write x) Leaked) g gs).

  Lemma step_guards (st : gstate) (e : gevent) : guchange (gs_guards st) e (snd (g_step st e)) (gs_guards (fst (g_step st e))).
  Proof.
    destruct (gs_hung st) eqn:Hg; [unfold g_step; rewrite Hg; apply gc_same; destruct e as [[]| | | | | | | |]; cbn; auto|].
    destruct e as [e|t|t k|w|g i|g|g c|g|g]; [| |destruct (crash_cases st t k) as [[->| ->]|[C ->]]; now apply gc_same| | | | | |]; unfold g_step; rewrite Hg.
    - assert (P : guchange (gs_guards st) (GEvent e) (snd (g_pass st e)) (gs_guards (fst (g_pass st e)))).
      { unfold g_pass. destruct (m_step (gs_m st) e). now apply gc_same. }
      destruct (of_lost st e); [now apply gc_same|]. destruct (asks st e) as [w|] eqn:A; [|exact P].
      destruct (locked w st); [|exact P]. now apply gc_same.
    - destruct (lost t st); [now apply gc_same|]. destruct (nth_error _ t) as [[[c|] [] []]|] eqn:N; try now apply gc_same.
      destruct (has_ctx _ t Live); now apply gc_same.
    - destruct (locked w st); [now apply gc_same|apply gc_open].
    - destruct (usable g st); now apply gc_same.
    - destruct (usable g st); now apply gc_same.
    - destruct (usable g st) as [[]|]; try now apply gc_same. destruct (Graph.g_step _ c). now apply gc_same.
    - destruct (usable g st) eqn:U; [|apply gc_same; cbn; auto]. apply usable_spec in U. now apply gc_drop with b.
    - destruct (usable g st) eqn:U; [|now apply gc_same]. apply usable_spec in U. now apply gc_leak with b.
  Qed.

  Lemma guhist_after g0 es : guhist g0 es.
  Proof.
    induction es as [|e es IH] using rev_ind.
    { constructor; cbn.
      - intros w g. split; [intros K; now apply happened_nil in K|]. intros (s & N). destruct g; discriminate.
      - intros g. split; [intros K; now apply happened_nil in K|]. intros (s & N). destruct g; discriminate. }
    pose proof (step_guards (g_after g0 es) e) as T. rewrite <- g_after_snoc in T. fold (g_says g0 es e) in T.
    remember (g_says g0 es e) as o eqn:So. remember (gs_guards (g_after g0 (es ++ [e]))) as gs' eqn:Et.
    remember (gs_guards (g_after g0 es)) as gs eqn:Es. destruct IH as [Ho Hd]. rewrite <- Es in Ho, Hd.
    destruct T as [e o Oe|w|g w N|g w N]; constructor; rewrite <- Et; [intros w' u|intros u|intros w' u|intros u|intros w' u|intros u|intros w' u|intros u];
      rewrite happened_snoc.
    - rewrite Ho. split; [intros [K|[-> K]]; [exact K|]|auto]. rewrite <- So in K. cbn in Oe. congruence.
    - rewrite Hd. split; [intros [K|[-> K]]; [exact K|]|auto]. rewrite <- So in K. cbn in Oe. destruct Oe; congruence.
    - rewrite Ho. split.
      + intros [(s & N)|[[= ->] K]]; [exists s; apply nth_error_snoc; auto|]. rewrite <- So in K. injection K as <-. exists Live.
        apply nth_error_snoc. auto.
      + intros (s & N). apply nth_error_snoc in N as [N|[-> [= -> ->]]]; [eauto|]. right. split; [reflexivity|]. now rewrite <- So.
    - rewrite Hd. split; [intros [(s & N)|[E K]]; [exists s; apply nth_error_snoc; auto|discriminate]|].
      intros (s & N). apply nth_error_snoc in N as [N|[-> [=]]]. eauto.
    - rewrite Ho, nth_error_alter. destruct (Nat.eqb_spec g u) as [->|D].
      + rewrite N. cbn. split; [intros [(s & E)|[E _]]; [injection E as -> _; eauto|discriminate]|]. intros (s & E). injection E as -> _. eauto.
      + split; [intros [K|[E _]]; [exact K|discriminate]|auto].
    - rewrite Hd, nth_error_alter. destruct (Nat.eqb_spec g u) as [->|D].
      + rewrite N. cbn. split; [eauto|]. intros _. right. split; [reflexivity|]. now rewrite <- So.
      + split; [intros [K|[[= ->] _]]; [exact K|congruence]|auto].
    - rewrite Ho, nth_error_alter. destruct (Nat.eqb_spec g u) as [->|D].
      + rewrite N. cbn. split; [intros [(s & E)|[E _]]; [injection E as -> _; eauto|discriminate]|]. intros (s & E). injection E as -> _. eauto.
      + split; [intros [K|[E _]]; [exact K|discriminate]|auto].
    - rewrite Hd, nth_error_alter. destruct (Nat.eqb_spec g u) as [->|D].
      + rewrite N. cbn. split; [intros [(s & [=])|[E _]]; discriminate|]. intros (s & [=]).
      + split; [intros [K|[E _]]; [exact K|discriminate]|auto].
  Qed.

  Lemma outstanding_spec g0 es w g : outstanding g0 es w g <->
    exists s, nth_error (gs_guards (g_after g0 es)) g = Some (SGuard w s) /\ s <> Dropped.
  Proof.
    destruct (guhist_after g0 es) as [Ho Hd]. unfold outstanding. rewrite Ho, Hd. split.
    - intros [[s N] K]. exists s. split; [exact N|]. intros ->. eauto.
    - intros (s & N & D). split; [eauto|]. intros [w' N']. congruence.
  Qed.

  Lemma held_outstanding g0 es w : held w (g_after g0 es) = true <-> exists g, outstanding g0 es w g.
  Proof.
    rewrite held_true. split; intros (g & K); [destruct K as (s & N & D)|]; [exists g; apply outstanding_spec; eauto|].
    apply outstanding_spec in K as (s & N & D). eauto.
  Qed.

  Lemma active_spec g0 es t : g_wf g0 -> active g0 es t <-> nth_error (txs_of g0 es) t = Some (TxRec None true true).
  Proof.
    intros W. destruct (txhist_after g0 es W) as [Hb He Hc Ho]. unfold active. rewrite Hb, He. split.
    - intros ((b & o & N) & K & E). destruct o; [|exfalso; eauto]. apply (Ho t b N) in K. congruence.
    - intros N. split; [eauto|]. split; [now apply (Ho t true N)|]. intros (par & b & M). congruence.
  Qed.

  Lemma guard_active g0 es : g_wf g0 -> guard_held (m_proto (gs_m (g_after g0 es))) = true <-> exists t, active g0 es t.
  Proof.
    intros W. rewrite guard_held_true. split.
    - intros (t & x & N & G). exists t. apply active_spec; [exact W|]. pose proof (gi_m _ (ginv_after g0 es W)) as M.
      destruct (pi_guard _ (mi_p _ M) t x N G) as [P O]. unfold txs_of. rewrite N. destruct x. cbn in *. congruence.
    - intros (t & A). apply active_spec in A; [|exact W]. eauto.
  Qed.

  Lemma locked_excluded g0 es w : g_wf g0 -> locked w (g_after g0 es) = true <-> excluded g0 es w.
  Proof.
    intros W. unfold locked, excluded. rewrite !orb_true_iff, andb_true_iff, guard_active, !held_outstanding by exact W. tauto.
  Qed.

  Lemma asks_wants g0 es (e : event) w : g_wf g0 -> asks (g_after g0 es) e = Some w <-> wants g0 es (GEvent e) w.
  Proof.
    intros W. destruct (txhist_after g0 es W) as [Hb He Hc Ho]. split.
    - destruct e; cbn; intros E; try discriminate; try (injection E as <-; constructor).
      destruct (nth_error (p_txs (m_proto (gs_m (g_after g0 es)))) t) as [[[c|] [] []]|] eqn:N; try discriminate. injection E as <-.
      fold (txs_of g0 es) in N. constructor; [apply Hb; eauto| |].
      + intros K. apply (Ho t false N) in K. discriminate.
      + intros K. apply He in K as (par & b & M). congruence.
    - intros K. inversion K; subst; cbn; auto. destruct (proj1 (Hb t) H0) as (b & o & N). pose proof N as N'. unfold txs_of in N. rewrite N.
      destruct o.
      + destruct b; [|reflexivity]. exfalso. apply H1. now apply (Ho t true N').
      + exfalso. apply H2. apply He. eauto.
  Qed.

  (** A call answers that it waits exactly if the thread waits for ever afterwards. *)
  Lemma step_hung (st : gstate) (e : gevent) : ginv st -> gs_hung (fst (g_step st e)) = true <-> snd (g_step st e) = GX XHang.
  Proof.
    intros I. destruct (gs_hung st) eqn:Hg; [unfold g_step; rewrite Hg; cbn; tauto|].
    assert (P : forall e, (forall w, asks st e = Some w -> locked w st = false) -> gs_hung (fst (g_pass st e)) = true <-> snd (g_pass st e) = GX XHang).
    { intros e0 A. destruct (pass_hung st e0 I A) as [_ Nh]. unfold g_pass. rewrite m_step_fst. cbn. rewrite Hg. split; [discriminate|].
      intros E. exfalso. apply Nh. destruct (snd (p_step (m_proto (gs_m st)) e0)); cbn in E; congruence. }
    assert (F : forall (st' : gstate) (o : gout), gs_hung st' = false -> o <> GX XHang -> gs_hung (fst (st', o)) = true <-> snd (st', o) = GX XHang).
    { intros st' o E N. cbn. rewrite E. split; [discriminate|contradiction]. }
    destruct e as [e|t|t k|w|g i|g|g c|g|g];
      [| |destruct (crash_cases st t k) as [[E|E]|[C E]];
          [rewrite E; now apply F|unfold g_step in E; rewrite Hg in E; cbn zeta in E;
            repeat match type of E with (if ?b then _ else _) = _ => destruct b | (match ?x with _ => _ end) = _ => destruct x end; discriminate
          |rewrite E; now apply F]| | | | | |]; unfold g_step; rewrite Hg.
    - destruct (of_lost st e); [apply F; [first [exact Hg|reflexivity]|discriminate]|]. destruct (asks st e) as [w|] eqn:A; [|apply P; congruence].
      destruct (locked w st) eqn:L; [cbn; tauto|apply P; congruence].
    - destruct (lost t st); [apply F; [first [exact Hg|reflexivity]|discriminate]|]. destruct (nth_error _ t) as [[[c|] [] []]|] eqn:N; try (apply F; [first [exact Hg|reflexivity]|discriminate]).
      destruct (has_ctx _ t Live); (apply F; [first [exact Hg|reflexivity]|discriminate]).
    - destruct (locked w st); [cbn; tauto|apply F; [first [exact Hg|reflexivity]|discriminate]].
    - destruct (usable g st); (apply F; [first [exact Hg|reflexivity]|discriminate]).
    - destruct (usable g st); (apply F; [first [exact Hg|reflexivity]|discriminate]).
    - destruct (usable g st) as [[]|]; try (apply F; [first [exact Hg|reflexivity]|discriminate]). destruct (Graph.g_step _ c). apply F; [first [exact Hg|reflexivity]|discriminate].
    - destruct (usable g st); (apply F; [first [exact Hg|reflexivity]|discriminate]).
    - destruct (usable g st); (apply F; [first [exact Hg|reflexivity]|discriminate]).
  Qed.

  Lemma step_stays_hung (st : gstate) (e : gevent) : gs_hung st = true -> g_step st e = (st, GX XHang).
  Proof. intros E. unfold g_step. now rewrite E. Qed.

  Lemma hung_returns g0 es : g_wf g0 -> gs_hung (g_after g0 es) = false <-> returns g0 es.
  Proof.
    intros W. unfold returns. enough (gs_hung (g_after g0 es) = true <-> In (GX XHang) (g_answers g0 es)) as K.
    { rewrite <- K. destruct (gs_hung (g_after g0 es)); split; congruence. }
    induction es as [|e es IH] using rev_ind; [cbn; split; [discriminate|tauto]|].
    rewrite g_answers_snoc, in_app_iff, <- IH, g_after_snoc. cbn [In]. rewrite (step_hung _ e (ginv_after g0 es W)). unfold g_says.
    split; [auto|]. intros [E|[E|[]]]; [|exact E]. now rewrite step_stays_hung.
  Qed.

  Lemma blocks_exactly g0 es (e : gevent) : g_wf g0 -> returns g0 es ->
    (g_says g0 es e = GX XHang <-> exists w, wants g0 es e w /\ excluded g0 es w).
  Proof.
    intros W R. apply hung_returns in R; [|exact W]. pose proof (ginv_after g0 es W) as I.
    pose proof (fun w => locked_excluded g0 es w W) as Lx. pose proof (fun e w => asks_wants g0 es e w W) as Aw.
    unfold g_says. rewrite <- step_hung by exact I.
    assert (F : forall e (b : bool), b = false -> (forall w, ~ wants g0 es e w) -> b = true <-> exists w, wants g0 es e w /\ excluded g0 es w).
    { intros e0 b -> K. split; [discriminate|]. intros (w & Kw & _). now apply K in Kw. }
    destruct e as [e|t|t k|w|g i|g|g c|g|g];
      [| |assert (forall w, ~ wants g0 es (GCrash t k) w) by (intros w K; inversion K);
          destruct (crash_cases (g_after g0 es) t k) as [[->| ->]|[C ->]]; now apply F| | | | | |]; unfold g_step; rewrite R.
    - assert (Al : of_lost (g_after g0 es) e = true -> asks (g_after g0 es) e = None).
      { destruct e; cbn; try discriminate; try reflexivity. intros K. apply lost_true in K. now rewrite (gi_lost _ I _ K). }
      destruct (of_lost (g_after g0 es) e).
      + apply F; [exact R|]. intros w K. apply Aw in K. rewrite Al in K by reflexivity. discriminate.
      + destruct (asks (g_after g0 es) e) as [w|] eqn:A.
        * pose proof (proj1 (Aw e w) A) as Kw. destruct (locked w (g_after g0 es)) eqn:L.
          -- apply Lx in L. cbn. split; eauto.
          -- unfold g_pass. rewrite m_step_fst. cbn. rewrite ?R. split; [discriminate|]. intros (w' & Kw' & X). apply Aw in Kw'. apply Lx in X. congruence.
        * apply F; [unfold g_pass; rewrite m_step_fst; cbn; rewrite ?R; reflexivity|]. intros w K. apply Aw in K. congruence.
    - assert (forall w, ~ wants g0 es (GForget t) w) by (intros w K; inversion K).
      destruct (lost t _); [now apply F|]. destruct (nth_error _ t) as [[[c|] [] []]|] eqn:N; try now apply F.
      destruct (has_ctx _ t Live); now apply F.
    - destruct (locked w (g_after g0 es)) eqn:L.
      + apply Lx in L. cbn. split; [intros _; exists w; split; [constructor|exact L]|reflexivity].
      + cbn. rewrite ?R. split; [discriminate|]. intros (w' & Kw' & X). inversion Kw'; subst. apply Lx in X. congruence.
    - assert (forall w, ~ wants g0 es (GGet g i) w) by (intros w K; inversion K). destruct (usable g _); now apply F.
    - assert (forall w, ~ wants g0 es (GIter g) w) by (intros w K; inversion K). destruct (usable g _); now apply F.
    - assert (forall w, ~ wants g0 es (GCall g c) w) by (intros w K; inversion K). destruct (usable g _) as [[]|]; try now apply F.
      destruct (Graph.g_step _ c). now apply F.
    - assert (forall w, ~ wants g0 es (GDrop g) w) by (intros w K; inversion K). destruct (usable g _); now apply F.
    - assert (forall w, ~ wants g0 es (GLeak g) w) by (intros w K; inversion K). destruct (usable g _); now apply F.
  Qed.

  (** ** When the graph changes *)

  Notation graph_of st := (s_graph (m_store (gs_m st))).

  Lemma step_graph (st : gstate) (e : gevent) : ginv st ->
    graph_of (fst (g_step st e)) = graph_of st \/
    (gs_hung st = false /\ exists c, e = GEvent (EWrite c) /\ locked true st = false) \/
    (exists g c, e = GCall g c /\ usable g st = Some true) \/
    (exists t, (e = GEvent (EEnd t true) \/ exists k, e = GCrash t k) /\ lost t st = false /\ nth_error (p_txs (m_proto (gs_m st))) t = Some (TxRec None true true)).
  Proof.
    intros I. destruct (gs_hung st) eqn:Hg; [unfold g_step; rewrite Hg; auto|].
    assert (P : forall e, of_lost st e = false -> (forall c, e = EWrite c -> locked true st = false) ->
      graph_of (fst (g_pass st e)) = graph_of st \/ (false = false /\ exists c, GEvent e = GEvent (EWrite c) /\ locked true st = false) \/
      (exists g c, GEvent e = GCall g c /\ usable g st = Some true) \/
      (exists t, (GEvent e = GEvent (EEnd t true) \/ exists k, GEvent e = GCrash t k) /\ lost t st = false /\ nth_error (p_txs (m_proto (gs_m st))) t = Some (TxRec None true true))).
    { intros e0 O A. unfold g_pass. rewrite m_step_fst. cbn [fst gs_m m_store].
      destruct (p_step_pstep (m_proto (gs_m st)) e0); cbn [m_exec fst s_graph]; auto.
      - right. right. right. exists t. cbn in O. auto.
      - right. left. split; [reflexivity|]. exists c. split; [reflexivity|]. now apply (A c). }
    destruct e as [e|t|t k|w|g i|g|g c|g|g];
      [| |destruct (crash_cases st t k) as [[->| ->]|[C ->]]; [auto|auto|right; right; right; exists t; split; [eauto|split; apply C]]| | | | | |]; unfold g_step; rewrite Hg.
    - destruct (of_lost st e) eqn:O; [auto|]. destruct (asks st e) as [w|] eqn:A.
      + destruct (locked w st) eqn:L; [auto|]. apply P; auto. intros c ->. cbn in A. congruence.
      + apply P; auto. intros c ->. discriminate.
    - destruct (lost t st); [auto|]. destruct (nth_error _ t) as [[[c|] [] []]|] eqn:N; auto. destruct (has_ctx _ t Live); auto.
    - destruct (locked w st); auto.
    - destruct (usable g st); auto.
    - destruct (usable g st); auto.
    - destruct (usable g st) as [[]|] eqn:U; auto. right. right. left. eauto.
    - destruct (usable g st); auto.
    - destruct (usable g st); auto.
  Qed.

  Lemma happened_more g0 es es' (e : gevent) o : (exists e2, happened g0 es e o e2) -> exists e2, happened g0 (es ++ es') e o e2.
  Proof. intros (e2 & e1 & -> & S). exists (e2 ++ es'), e1. split; [now rewrite <- app_assoc|exact S]. Qed.

  Lemma outstanding_between g0 es es1 es2 w g : outstanding g0 es w g -> outstanding g0 (es ++ es1 ++ es2) w g -> outstanding g0 (es ++ es1) w g.
  Proof.
    intros [A _] [_ B]. split; [now apply happened_more|]. intros K. apply B. rewrite app_assoc. now apply happened_more.
  Qed.

  Lemma held_still g0 es es' w g : g_wf g0 -> outstanding g0 es w g -> outstanding g0 (es ++ es') w g ->
    (w = true -> forall c, ~ In (GCall g c) es') -> graph_of (g_after g0 (es ++ es')) = graph_of (g_after g0 es).
  Proof.
    intros W A. induction es' as [|e es' IH] using rev_ind; intros B N; [now rewrite app_nil_r|].
    pose proof (outstanding_between _ _ _ _ _ _ A B) as C.
    rewrite <- IH; [|exact C|intros Ew c K; apply (N Ew c); apply in_or_app; auto].
    pose proof C as C'. apply outstanding_spec in C' as (s & Ns & D).
    rewrite app_assoc, g_after_snoc. pose proof (ginv_after g0 (es ++ es') W) as I.
    assert (Hh : exists g, outstanding g0 (es ++ es') w g) by eauto. apply held_outstanding in Hh.
    destruct (step_graph (g_after g0 (es ++ es')) e I) as [E|[(_ & c & -> & L)|[(g' & c & -> & U)|(t & _ & L & Nt)]]]; [exact E| | |]; exfalso.
    - apply locked_false in L as (_ & L1 & L2). specialize (L2 eq_refl). destruct w; congruence.
    - destruct w.
      + apply usable_spec in U. assert (g' = g) as -> by (apply (gi_one _ I g' g Live s); auto; discriminate).
        apply (N eq_refl c). apply in_or_app. right. now left.
      + apply usable_held in U. rewrite (gi_wr _ I U) in Hh. discriminate.
    - destruct (gi_excl _ I) as [E1 E2]; [apply guard_held_true; eauto|]. destruct w; congruence.
  Qed.

  (** ** What is leaked stays *)

  Lemma leak_stays g0 es g es' :
    (exists w, nth_error (gs_guards (g_after g0 es)) g = Some (SGuard w Leaked)) ->
    nth_error (gs_guards (g_after g0 (es ++ es'))) g = nth_error (gs_guards (g_after g0 es)) g.
  Proof.
    intros [w N]. induction es' as [|e es' IH] using rev_ind; [now rewrite app_nil_r|]. rewrite app_assoc, g_after_snoc. rewrite <- IH. rewrite N in IH.
    pose proof (step_guards (g_after g0 (es ++ es')) e) as T. remember (gs_guards (fst (g_step (g_after g0 (es ++ es')) e))) as gs'.
    destruct T as [e o Oe|w'|g' w' N'|g' w' N']; auto.
    - rewrite IH. apply nth_error_snoc. auto.
    - rewrite nth_error_alter. destruct (Nat.eqb_spec g' g) as [->|]; [congruence|reflexivity].
    - rewrite nth_error_alter. destruct (Nat.eqb_spec g' g) as [->|]; [congruence|reflexivity].
  Qed.

  Lemma leaked_state g0 es g : (exists e3, happened g0 es (GLeak g) (GX XUnit) e3) -> exists w, nth_error (gs_guards (g_after g0 es)) g = Some (SGuard w Leaked).
  Proof.
    intros (e3 & e1 & -> & S).
    assert (K : exists w, nth_error (gs_guards (g_after g0 (e1 ++ [GLeak g]))) g = Some (SGuard w Leaked)).
    { rewrite g_after_snoc. unfold g_says in S. unfold g_step in *. destruct (gs_hung (g_after g0 e1)); [discriminate|].
      destruct (usable g (g_after g0 e1)) as [w|] eqn:U; [|discriminate]. apply usable_spec in U. exists w. cbn. rewrite nth_error_alter, Nat.eqb_refl, U. reflexivity. }
    replace (e1 ++ GLeak g :: e3) with ((e1 ++ [GLeak g]) ++ e3) by now rewrite <- app_assoc.
    destruct K as [w K]. exists w. rewrite leak_stays; eauto.
  Qed.

  Lemma lost_stays g0 es t : (exists e3, happened g0 es (GForget t) (GX XUnit) e3) -> In t (gs_lost (g_after g0 es)).
  Proof.
    intros (e3 & e1 & -> & S). replace (e1 ++ GForget t :: e3) with ((e1 ++ [GForget t]) ++ e3) by now rewrite <- app_assoc.
    induction e3 as [|e e3 IH] using rev_ind.
    - rewrite app_nil_r, g_after_snoc. unfold g_says in S. unfold g_step in *. destruct (gs_hung (g_after g0 e1)); [discriminate|].
      destruct (lost t (g_after g0 e1)); [discriminate|]. destruct (nth_error _ t) as [[[c|] [] []]|]; try discriminate.
      destruct (has_ctx _ t Live); [discriminate|]. now left.
    - rewrite app_assoc, g_after_snoc. set (st := g_after g0 ((e1 ++ [GForget t]) ++ e3)) in *. destruct (gs_hung st) eqn:Hg; [unfold g_step; rewrite Hg; exact IH|].
      assert (P : forall e, In t (gs_lost (fst (g_pass st e)))) by (intros e0; unfold g_pass; destruct (m_step (gs_m st) e0); exact IH).
      destruct e as [e|u|u k|w|g i|g|g c|g|g]; [| |destruct (crash_cases st u k) as [[->| ->]|[C ->]]; exact IH| | | | | |]; unfold g_step; rewrite Hg.
      + destruct (of_lost st e); [exact IH|]. destruct (asks st e) as [w|]; [|apply P]. destruct (locked w st); [exact IH|apply P].
      + destruct (lost u st); [exact IH|]. destruct (nth_error _ u) as [[[c|] [] []]|]; try exact IH. destruct (has_ctx _ u Live); [exact IH|]. now right.
      + destruct (locked w st); exact IH.
      + destruct (usable g st); exact IH.
      + destruct (usable g st); exact IH.
      + destruct (usable g st) as [[]|]; try exact IH. destruct (Graph.g_step _ c). exact IH.
      + destruct (usable g st); exact IH.
      + destruct (usable g st); exact IH.
  Qed.

  Lemma leaked_excludes g0 es es' w w' : g_wf g0 -> leaked g0 es w -> (w || w' = true)%bool -> excluded g0 (es ++ es') w'.
  Proof.
    intros W K E. destruct K as [(g & e2 & e3 & Op & Lk)|(-> & t & e2 & Fg)].
    - assert (O : outstanding g0 (es ++ es') w g).
      { apply outstanding_spec. destruct (leaked_state g0 es g) as [w0 N]; [eauto|]. exists Leaked. split; [|discriminate].
        rewrite leak_stays by eauto. destruct (proj1 (uh_open _ _ (guhist_after g0 es) w g)) as [s M]; [eauto|]. congruence. }
      destruct w; [right; left; eauto|]. cbn in E. right. right. eauto.
    - left. exists t. apply active_spec; [exact W|]. apply (gi_lost _ (ginv_after g0 (es ++ es') W)). apply lost_stays. apply happened_more. eauto.
  Qed.

  Lemma leaked_still g0 es es' w : g_wf g0 -> leaked g0 es w -> graph_of (g_after g0 (es ++ es')) = graph_of (g_after g0 es).
  Proof.
    intros W K. induction es' as [|e es' IH] using rev_ind; [now rewrite app_nil_r|]. rewrite <- IH, app_assoc, g_after_snoc.
    pose proof (ginv_after g0 (es ++ es') W) as I.
    destruct (step_graph (g_after g0 (es ++ es')) e I) as [E|[(_ & c & -> & L)|[(g' & c & -> & U)|(t & _ & L & Nt)]]]; [exact E| | |]; exfalso.
    - assert (X : excluded g0 (es ++ es') true) by (apply leaked_excludes with w; auto; now destruct w).
      apply locked_excluded in X; [congruence|exact W].
    - pose proof U as U'. apply usable_spec in U. destruct K as [(g & e2 & e3 & Op & Lk)|(-> & t & e2 & Fg)].
      + destruct (leaked_state g0 es g) as [w0 N]; [eauto|]. pose proof (leak_stays g0 es g es') as S. rewrite N in S.
        specialize (S ltac:(eauto)). clear N. rename S into N. destruct w0.
        * assert (g = g') as -> by (apply (gi_one _ I g g' Leaked Live); auto; discriminate). congruence.
        * assert (Hf : held false (g_after g0 (es ++ es')) = true) by (apply held_true; exists g, Leaked; now split).
          apply usable_held in U'. rewrite (gi_wr _ I U') in Hf. discriminate.
      + assert (J : In t (gs_lost (g_after g0 (es ++ es')))) by (apply lost_stays, happened_more; eauto).
        apply (gi_lost _ I) in J. destruct (gi_excl _ I) as [E1 _]; [apply guard_held_true; eauto|]. apply usable_held in U'. congruence.
    - assert (G : guard_held (m_proto (gs_m (g_after g0 (es ++ es')))) = true) by (apply guard_held_true; eauto).
      destruct (gi_excl _ I G) as [E1 E2]. destruct K as [(g & e2 & e3 & Op & Lk)|(-> & u & e2 & Fg)].
      + destruct (leaked_state g0 es g) as [w0 N]; [eauto|]. pose proof (leak_stays g0 es g es') as S. rewrite N in S. specialize (S ltac:(eauto)).
        assert (Hf : held w0 (g_after g0 (es ++ es')) = true) by (apply held_true; exists g, Leaked; now split).
        destruct w0; congruence.
      + assert (J : In u (gs_lost (g_after g0 (es ++ es')))) by (apply lost_stays, happened_more; eauto).
        pose proof (gi_lost _ I _ J) as Nu. assert (u = t) as -> by (eapply (pi_one _ (mi_p _ (gi_m _ I))); eauto).
        apply lost_true in J. congruence.
  Qed.

  Lemma leaked_only g0 es g w : nth_error (gs_guards (g_after g0 es)) g = Some (SGuard w Leaked) -> exists e3, happened g0 es (GLeak g) (GX XUnit) e3.
  Proof.
    induction es as [|e es IH] using rev_ind; [destruct g; discriminate|]. intros N. apply happened_snoc. rewrite g_after_snoc in N.
    pose proof (step_guards (g_after g0 es) e) as T. fold (g_says g0 es e) in T. remember (g_says g0 es e) as o eqn:So.
    remember (gs_guards (fst (g_step (g_after g0 es) e))) as gs' eqn:Eg. clear Eg.
    destruct T as [e o Oe|w'|g0' w' N'|g0' w' N']; [auto| | |].
    - apply nth_error_snoc in N as [N|[_ N]]; [auto|discriminate].
    - rewrite nth_error_alter in N. destruct (Nat.eqb_spec g0' g) as [E|]; [|auto]. rewrite E in N'. rewrite N' in N. discriminate.
    - rewrite nth_error_alter in N. destruct (Nat.eqb_spec g0' g) as [E|]; [|auto]. right. rewrite <- E. auto.
  Qed.

  Lemma live_guard g0 es w g : outstanding g0 es w g -> (~ exists e3, happened g0 es (GLeak g) (GX XUnit) e3) -> usable g (g_after g0 es) = Some w.
  Proof.
    intros O L. apply outstanding_spec in O as (s & N & D). apply usable_spec. rewrite N. destruct s; [reflexivity|contradiction|].
    exfalso. apply L. eapply leaked_only. eassumption.
  Qed.
End Facts.
