(** Consequences of the invariants: live visibility, commit of sub-transactions,
    serial replay, lock discipline, transparency of nesting. *)
From Coq Require Import List Bool Arith Lia.
From Verif Require Import Ord OrdFacts BTree BTreeFacts Graph GraphFacts SpecGraph Tx TxMachine
  SpecTx TxFacts TxMachineFacts TxInv.
Import ListNotations.

Section Hist.
  Context {Id Node : Type} `{HO : OrdT Id} `{HI : Identify Node Id}.
  Notation graph := (graph Id Node).
  Notation event := (@event Id Node).
  Notation action := (@action Id Node).
  Notation machine := (@machine Id Node).
  Notation store := (@store Id Node).
  Notation output := (@output Node).
  Notation op := (op Id Node).
  Notation base := (@base Id Node).
  Notation script := (@script Id Node).
  Notation journal := (@journal Id Node).
  Notation entry := (@entry Id Node).

  Ltac mcbn := cbn [fst snd m_exec s_heap s_graph s_ctxs m_store m_proto p_txs p_ctxs close_tx set_status hang].

  Definition hp (m : machine) := s_heap (m_store m).
  Definition gr (m : machine) := s_graph (m_store m).
  Definition cv (m : machine) (c : nat) := ctx_value (m_store m) c.

  (** ** Live visibility *)

  Lemma overlay_pends (g : graph) (W : g_wf g) es : forall t i,
    ops_overlay (buf_ops (hp (after g es)) t) i <> None -> history_pends g es t i.
  Proof.
    induction es as [|e es IH] using rev_ind; intros t i.
    - cbn. unfold buf_ops. destruct t; cbn; congruence.
    - pose proof (minv_after g es W) as I. unfold hp. rewrite after_snoc, m_step_fst. cbn [fst snd m_store].
      pose proof (IH t i) as IHt. unfold hp in IHt, IH.
      set (m := after g es) in *.
      assert (LT : forall e' a', p_step (m_proto m) e' = (fst (p_step (m_proto m) e'), a') ->
        snd (m_step m e') = snd (m_exec (m_store m) a')) by (intros e' a' Ea; rewrite m_step_fst, Ea; reflexivity).
      assert (EE : p_step (m_proto m) e = (fst (p_step (m_proto m) e), snd (p_step (m_proto m) e)))
        by now destruct (p_step (m_proto m) e).
      specialize (LT e _ EE). clear EE. revert LT.
      destruct (p_step_pstep (m_proto m) e) as
        [ | | | | | | | |c u n Hh N|c u j Hh N| | | | | |t' c gd Hh N HL HK| | |[] ]; intros LT; cbn [fst snd m_exec s_heap m_store]; intros NE;
        try (apply pends_later; apply IHt; exact NE).
      + apply pends_later, IHt. unfold buf_ops in *.
        destruct (Nat.lt_trichotomy t (length (s_heap (m_store m)))) as [L|[L|L]].
        * now rewrite nth_snoc_old in NE by assumption.
        * subst t. now rewrite nth_snoc_new in NE.
        * rewrite nth_overflow in NE by (rewrite app_length; cbn; lia). now cbn in NE.
      + apply pends_later, IHt. unfold buf_ops in *.
        destruct (Nat.lt_trichotomy t (length (s_heap (m_store m)))) as [L|[L|L]].
        * now rewrite nth_snoc_old in NE by assumption.
        * subst t. now rewrite nth_snoc_new in NE.
        * rewrite nth_overflow in NE by (rewrite app_length; cbn; lia). now cbn in NE.
      + assert (M : made_from (m_proto m) c u) by (now exists Live).
        unfold ctx_save in NE. rewrite (ctx_buf_value m c u I M) in NE.
        destruct (Nat.eq_dec u t) as [->|D].
        * rewrite buf_ops_push_eq in NE by (eapply tx_lt; eassumption).
          rewrite ops_overlay_app, ops_overlay_one in NE. cbn in NE.
          destruct (eqb (id_of n) i) eqn:E; [|apply pends_later, IHt; exact NE].
          apply eqb_eq in E. subst i. constructor; [exact LT|exact M].
        * rewrite buf_ops_push_ne in NE by assumption. apply pends_later, IHt, NE.
      + assert (M : made_from (m_proto m) c u) by (now exists Live).
        unfold ctx_delete in NE. rewrite (ctx_buf_value m c u I M) in NE.
        destruct (Nat.eq_dec u t) as [->|D].
        * rewrite buf_ops_push_eq in NE by (eapply tx_lt; eassumption).
          rewrite ops_overlay_app, ops_overlay_one in NE. cbn in NE.
          destruct (eqb j i) eqn:E; [|apply pends_later, IHt; exact NE].
          apply eqb_eq in E. subst i. constructor; [exact LT|exact M].
        * rewrite buf_ops_push_ne in NE by assumption. apply pends_later, IHt, NE.
      + assert (O : opened_on (m_proto m) t' c) by (now exists gd, true).
        destruct (pinv_opened _ _ _ (mi_p m I) O) as (u & M & Lt).
        unfold fg_extend in NE. rewrite (ctx_buf_value m c u I M) in NE. unfold buf_ops in NE.
        destruct (Nat.eq_dec u t) as [->|D].
        * rewrite nth_alter_eq in NE by (eapply tx_lt; eassumption).
          rewrite ops_overlay_app in NE.
          destruct (ops_overlay (nth t' (s_heap (m_store m)) []) i) eqn:E.
          -- eapply pends_commit; [exact LT|exact O|exact M| |].
             ++ intros d Nd. assert (has_ctx (m_proto m) t' Leaked = true) by (apply has_ctx_spec; eauto).
                congruence.
             ++ apply IH. unfold buf_ops. congruence.
          -- apply pends_later, IHt. exact NE.
        * rewrite nth_alter_ne in NE by assumption. apply pends_later, IHt, NE.
  Qed.

  Lemma live_visibility (g : graph) es c d t i :
    g_wf g -> p_hung (m_proto (after g es)) = false ->
    opened_on (m_proto (after g es)) t c ->
    nth_error (p_ctxs (m_proto (after g es))) d = Some (CtxRec t Live) ->
    ~ history_pends g es t i ->
    ask (after g es) d i = ask (after g es) c i /\
    ask_contains (after g es) d i = ask_contains (after g es) c i.
  Proof.
    intros W H O N NP. pose proof (minv_after g es W) as I. set (m := after g es) in *.
    assert (A : alive (m_proto m) d) by (now exists t).
    assert (M : made_from (m_proto m) d t) by (now exists Live).
    assert (Ac : alive (m_proto m) c).
    { destruct O as (gd & o & Nt). destruct (pi_ctx _ (mi_p m I) _ _ N) as (x & Nx & E). cbn in Nx, E.
      rewrite Nt in Nx. injection Nx as <-. destruct (E eq_refl) as [Eo _]. cbn in Eo. subst o.
      destruct (pi_tx _ (mi_p m I) _ _ _ Nt eq_refl) as ([u s] & Nc & _ & El). cbn in El.
      rewrite (El eq_refl) in Nc. now exists u. }
    assert (E : ctx_get (hp m) (gr m) (cv m d) i = ctx_get (hp m) (gr m) (cv m c) i).
    { destruct (mi_val m I _ _ M) as [[T _]|(q & O' & S)]; [exfalso; eapply opened_on_top; eassumption|].
      rewrite (opened_on_fun _ _ _ _ O O'). unfold cv. rewrite S, ctx_get_unfold. cbn.
      destruct (ops_overlay (buf_ops (hp m) t) i) eqn:Eo; [|reflexivity].
      exfalso. apply NP, overlay_pends; [assumption|]. fold m. congruence. }
    rewrite !ask_alive, !ask_contains_alive by assumption. fold (hp m) (gr m) (cv m d) (cv m c).
    now rewrite E.
  Qed.

  (** ** Commit of a sub-transaction *)

  Lemma m_step_end_unit (m : machine) t b parent g : p_hung (m_proto m) = false ->
    nth_error (p_txs (m_proto m)) t = Some (TxRec parent g true) ->
    has_ctx (m_proto m) t Live = false ->
    p_step (m_proto m) (EEnd t b : event) = (close_tx t (m_proto m),
      if negb b then ANone else if has_ctx (m_proto m) t Leaked then ANone
      else match parent with Some c => AMerge t c | None => if g then APublish t else ANone end).
  Proof.
    intros H N HL. unfold p_step. rewrite H, N, HL. destruct b; cbn; [|reflexivity].
    destruct (has_ctx (m_proto m) t Leaked); [reflexivity|].
    destruct parent; [reflexivity|]. destruct g; reflexivity.
  Qed.

  Lemma p_step_drop p c : p_hung p = false -> snd (p_step p (EDropCtx c : event)) = ANone ->
    p_step p (EDropCtx c : event) = (set_status Dropped c p, ANone) /\ ctx_borrowed p c = false /\
    ctx_live p c = true.
  Proof.
    intros H. unfold p_step. rewrite H. destruct (ctx_live p c); cbn; [|discriminate].
    destruct (ctx_borrowed p c); cbn; [discriminate|auto].
  Qed.

  Lemma m_step_unit_none (m : machine) c : snd (m_step m (EDropCtx c)) = XUnit ->
    p_hung (m_proto m) = false /\
    m_step m (EDropCtx c) = (Machine (set_status Dropped c (m_proto m)) (m_store m), XUnit) /\
    ctx_borrowed (m_proto m) c = false /\ alive (m_proto m) c.
  Proof.
    unfold m_step, p_step. destruct (p_hung (m_proto m)) eqn:H; cbn; [discriminate|].
    destruct (ctx_live (m_proto m) c) eqn:L; cbn; [|discriminate].
    destruct (ctx_borrowed (m_proto m) c) eqn:B; cbn; [discriminate|].
    intros _. repeat split; auto. now apply ctx_live_spec.
  Qed.

  Lemma m_step_end_cases (m : machine) t b : snd (m_step m (EEnd t b)) = XUnit ->
    p_hung (m_proto m) = false /\
    exists parent g, nth_error (p_txs (m_proto m)) t = Some (TxRec parent g true) /\
      has_ctx (m_proto m) t Live = false.
  Proof.
    unfold m_step, p_step. destruct (p_hung (m_proto m)) eqn:H; cbn; [discriminate|].
    destruct (nth_error (p_txs (m_proto m)) t) as [[q g []]|] eqn:N; cbn; try discriminate.
    destruct (has_ctx (m_proto m) t Live) eqn:L; cbn; [discriminate|]. eauto.
  Qed.

  Lemma commit_sub (m : machine) t c d :
    minv m ->
    opened_on (m_proto m) t c ->
    made_from (m_proto m) d t ->
    (forall x, nth_error (p_ctxs (m_proto m)) x <> Some (CtxRec t Leaked)) ->
    snd (m_run m [EDropCtx d; EEnd t true]) = [XUnit; XUnit] ->
    let m' := fst (m_run m [EDropCtx d; EEnd t true]) in
    (forall i, ask m' c i = ask m d i) /\
    (forall i, ask_contains m' c i = ask_contains m d i) /\
    (forall i, g_get (gr m') i = g_get (gr m) i) /\
    (forall x u, alive (m_proto m') x -> made_from (m_proto m) c u -> ~ within (m_proto m) x u ->
       forall i, ask m' x i = ask m x i /\ ask_contains m' x i = ask_contains m x i).
  Proof.
    intros I O M NLk OUT m'.
    assert (S1 : snd (m_step m (EDropCtx d)) = XUnit /\
                 snd (m_step (fst (m_step m (EDropCtx d))) (EEnd t true)) = XUnit).
    { cbn -[m_step] in OUT. destruct (m_step m (EDropCtx d)) as [m1 o1] eqn:E1.
      cbn -[m_step] in OUT. destruct (m_step m1 (EEnd t true)) as [m2 o2] eqn:E2. cbn in OUT.
      injection OUT as -> ->. cbn. rewrite E2. auto. }
    destruct S1 as [S1 S2].
    destruct (m_step_unit_none m d S1) as (H & E1 & B & A). rewrite E1 in S2. cbn [fst] in S2.
    set (m1 := Machine (set_status Dropped d (m_proto m)) (m_store m)) in *.
    assert (I1 : minv m1) by (pose proof (minv_step m (EDropCtx d) I) as X; now rewrite E1 in X).
    destruct (m_step_end_cases m1 t true S2) as (H1 & parent & gd & Nt & HL).
    assert (O1 : opened_on (m_proto m1) t c) by exact O.
    assert (parent = Some c) as -> by (destruct O1 as (? & ? & Nt'); congruence).
    assert (HK : has_ctx (m_proto m1) t Leaked = false).
    { destruct (has_ctx (m_proto m1) t Leaked) eqn:HK; [|reflexivity]. exfalso.
      apply has_ctx_spec in HK as [x Nx]. cbn in Nx. rewrite nth_error_alter in Nx.
      destruct (Nat.eqb d x).
      - destruct (nth_error (p_ctxs (m_proto m)) x); discriminate.
      - exact (NLk x Nx). }
    pose proof (m_step_end_unit m1 t true (Some c) gd H1 Nt HL) as E2. rewrite HK in E2. cbn in E2.
    assert (Em' : m' = Machine (close_tx t (m_proto m1)) (fst (m_exec (m_store m1) (AMerge t c)))).
    { unfold m'. rewrite m_run_cons, E1. cbn [fst]. rewrite m_run_cons, m_step_fst. fold m1.
      cbn -[p_step]. rewrite E2. reflexivity. }
    assert (I' : minv m') by (apply minv_run, I).
    destruct (pi_tx _ (mi_p m1 I1) _ _ _ Nt eq_refl) as ([u s] & Nc & Lt & El). cbn in Lt, El.
    rewrite (El eq_refl) in Nc.
    assert (Mc1 : made_from (m_proto m1) c u) by (now exists Live).
    assert (Ac : alive (m_proto m') c) by (rewrite Em'; now exists u).
    assert (Hm' : p_hung (m_proto m') = false) by (rewrite Em'; exact H).
    assert (Mcu : forall u', made_from (m_proto m) c u' -> u' = u).
    { intros u' [s' N']. cbn in Nc. rewrite nth_error_alter, N' in Nc. destruct (Nat.eqb d c); cbn in Nc; congruence. }
    assert (EQ : forall i, ctx_get (hp m') (gr m') (cv m' c) i = ctx_get (hp m) (gr m) (cv m d) i).
    { intros i. rewrite Em'. unfold hp, gr, cv. cbn [m_store m_exec fst s_heap s_graph s_ctxs].
      unfold m1. cbn [m_store].
      destruct (mi_val m I _ _ M) as [[T _]|(q & O' & S)]; [exfalso; eapply opened_on_top; eassumption|].
      rewrite (opened_on_fun _ _ _ _ O' O) in S. rewrite S.
      change (ctx_value (Store (s_graph (m_store m)) (fg_extend (s_heap (m_store m)) (ctx_value (m_store m) c) t)
                          (s_ctxs (m_store m))) c) with (ctx_value (m_store m) c).
      rewrite (ctx_get_unfold (s_heap (m_store m)) _ (CSub _ _ _)). cbn [ctx_buf].
      pose proof (ctx_buf_value m1 c u I1 Mc1) as Eb. cbn in Eb.
      assert (Ebuf : buf_ops (fg_extend (s_heap (m_store m)) (ctx_value (m_store m) c) t) u
                     = buf_ops (s_heap (m_store m)) u ++ buf_ops (s_heap (m_store m)) t).
      { unfold fg_extend, buf_ops. rewrite Eb. rewrite nth_alter_eq; [reflexivity|].
        apply (tx_lt m1 c u I1 Mc1). }
      change (ctx_value (m_store m1) c) with (ctx_value (m_store m) c) in *.
      rewrite (ctx_get_unfold (fg_extend _ _ _)), Eb, Ebuf, ops_overlay_app.
      destruct (ops_overlay (buf_ops (s_heap (m_store m)) t) i) eqn:Et; [reflexivity|].
      rewrite (ctx_get_unfold (s_heap (m_store m))), Eb.
      destruct (ops_overlay (buf_ops (s_heap (m_store m)) u) i) eqn:Eu; [reflexivity|].
      destruct (ctx_value (m_store m) c) as [b tg|v b tg] eqn:Ev; [reflexivity|].
      apply ctx_get_frame. intros b' Hb'. unfold fg_extend. cbn [ctx_buf]. cbn in Eb. subst b.
      unfold buf_ops. apply nth_alter_ne. intros <-.
      destruct (mi_val m1 I1 _ _ Mc1) as [[_ S']|(q' & Oq & S')]; cbn in S';
        change (ctx_value (m_store m1) c) with (ctx_value (m_store m) c) in S'; rewrite Ev in S'; [discriminate|].
      injection S' as -> _. destruct (pinv_opened _ _ _ (mi_p m1 I1) Oq) as (w & Mq & Lw).
      assert (within (m_proto m1) q' u) as Wq by (apply (within_chain m1 q' u I1); split; eauto).
      pose proof (within_le _ _ _ (mi_p m1 I1) Wq w Mq). lia. }
    split; [|split; [|split]].
    - intros i. rewrite !ask_alive by assumption. f_equal. apply EQ.
    - intros i. rewrite !ask_contains_alive by assumption.
      fold (hp m) (gr m) (cv m d) (hp m') (gr m') (cv m' c). now rewrite EQ.
    - intros i. now rewrite Em'.
    - intros x u' Ax Mu NW i. pose proof (Mcu u' Mu) as ->.
      pose proof (ask_isolation_run [EDropCtx d; EEnd t true] x m I) as R.
      apply R; [| exact Ax|exact Hm'|].
      + destruct (alive_made _ _ Ax) as [w Mx]. apply made_from_lt in Mx. rewrite Em' in Mx. cbn in Mx.
        now rewrite alter_length in Mx.
      + intros es1 e es2 Ees v Rg Wv. destruct es1 as [|e1 es1]; [|destruct es1 as [|e2 es1]].
        * cbn in Ees. injection Ees as <- _. inversion Rg.
        * cbn in Ees. injection Ees as <- <- _. cbn -[m_step] in Rg, Wv. rewrite E1 in Rg, Wv. cbn [fst] in Rg, Wv.
          fold m1 in Rg, Wv. cbn in Rg, Wv.
          inversion Rg; subst. apply NW.
          assert (c0 = c) as -> by (eapply opened_on_fun; [|exact O1]; assumption).
          assert (v = u) as -> by (eapply made_from_fun; [|exact Mc1]; assumption).
          clear - Wv. cbn in Wv.
          assert (MB : forall a b, made_from (set_status Dropped d (m_proto m)) a b -> made_from (m_proto m) a b).
          { intros a b [s N]. cbn in N. rewrite nth_error_alter in N. destruct (Nat.eqb d a); [|now exists s].
            destruct (nth_error (p_ctxs (m_proto m)) a) as [[]|] eqn:En; [|discriminate]. cbn in N.
            injection N as -> _. eexists; exact En. }
          induction Wv as [x v Mx|x v w q Mx Oq Wq IH].
          -- constructor. now apply MB.
          -- eapply within_outer; [apply MB; eassumption|exact Oq|exact IH].
        * cbn in Ees. destruct es1; discriminate.
  Qed.

  (** ** A sub-transaction that is not committed leaves no trace *)

  Lemma p_ext_run (es : list event) : forall m : machine, p_ext (m_proto m) (m_proto (fst (m_run m es))).
  Proof.
    induction es as [|e es IH]; intros m; [apply p_ext_refl|]. rewrite m_run_cons.
    eapply p_ext_trans; [|apply IH]. rewrite m_step_fst. apply p_step_ext.
  Qed.

  Lemma within_old (m m' : machine) d t u : minv m -> p_ext (m_proto m) (m_proto m') -> minv m' ->
    made_from (m_proto m) d u -> within (m_proto m') d t -> t < length (p_txs (m_proto m)).
  Proof.
    intros I X I' M W. pose proof (within_le _ _ _ (mi_p m' I') W u (made_from_ext _ _ _ _ X M)).
    pose proof (tx_lt m d u I M). rewrite (mi_heap m I) in *. lia.
  Qed.

  Lemma only_new_no_trace (m : machine) es d : minv m ->
    only_new m es -> d < length (p_ctxs (m_proto m)) ->
    alive (m_proto (fst (m_run m es))) d -> p_hung (m_proto (fst (m_run m es))) = false ->
    forall i, ask (fst (m_run m es)) d i = ask m d i /\
              ask_contains (fst (m_run m es)) d i = ask_contains m d i.
  Proof.
    intros I ON L A H. apply ask_isolation_run; auto.
    intros es1 e es2 E t R W. pose proof (ON es1 e es2 E t R).
    assert (alive (m_proto m) d) as [u N] by (eapply alive_back_run; eassumption).
    assert (t < length (p_txs (m_proto m))); [|lia].
    eapply (within_old m (fst (m_run m es1)) d t u); eauto.
    - apply p_ext_run.
    - now apply minv_run.
    - now exists Live.
  Qed.

  Lemma graph_frozen_run (es : list event) c : forall m : machine, minv m ->
    c < length (p_ctxs (m_proto m)) ->
    alive (m_proto (fst (m_run m es))) c -> gr (fst (m_run m es)) = gr m.
  Proof.
    induction es as [|e es IH]; intros m I L A; [reflexivity|]. rewrite m_run_cons in *.
    pose proof (ctxs_len_step m e).
    rewrite IH; auto using minv_step; [|lia]. unfold gr.
    apply (graph_frozen m e c I). eapply alive_back_run with (es := [e]).
    - rewrite m_run_cons. cbn [fst m_run]. eapply alive_back_run; [exact A|lia].
    - exact L.
  Qed.

  (** ** Serial replay *)

  Definition op_entry (o : op) : entry :=
    match o with OSave n => (id_of n, Some n) | ODelete i => (i, None) end.

  Lemma replay_app l1 l2 (b : base) : replay (l1 ++ l2) b = replay l2 (replay l1 b).
  Proof. apply fold_left_app. Qed.

  Lemma replay_ext l : forall (b b' : base), (forall i, b i = b' i) -> forall i, replay l b i = replay l b' i.
  Proof.
    induction l as [|e l IH]; intros b b' E i; cbn; [apply E|]. apply IH. intros j. unfold base_set.
    destruct (eqb (fst e) j); auto.
  Qed.

  Lemma replay_ops (g : graph) ops : g_wf g -> forall i,
    g_get (apply_ops g ops) i = replay (map op_entry ops) (g_get g) i.
  Proof.
    revert g. induction ops as [|o ops IH]; intros g W i; [reflexivity|].
    change (g_get (apply_ops (apply_op g o) ops) i = replay (map op_entry ops) (base_set (fst (op_entry o)) (snd (op_entry o)) (g_get g)) i).
    rewrite IH by now apply apply_op_wf.
    apply replay_ext. intros j. rewrite g_get_apply_op by assumption. unfold base_set.
    destruct o; reflexivity.
  Qed.

  Record jinv (b : base) (m : machine) (j : journal) : Prop := JInv {
    ji_tx : forall t, j_tx j t = map op_entry (buf_ops (hp m) t);
    ji_pub : forall i, g_get (gr m) i = replay (j_pub j) b i
  }.

  Lemma owner_made p c t : made_from p c t -> owner p c = t.
  Proof. intros [s N]. unfold owner. now rewrite N. Qed.

  Lemma jinv_add b (m m' : machine) j t l :
    jinv b m j -> gr m' = gr m -> t < length (hp m) ->
    hp m' = alter (fun ops => ops ++ l) t (hp m) ->
    jinv b m' (j_add t (map op_entry l) j).
  Proof.
    intros [T P] Eg L Eh. constructor; cbn.
    - intros u. rewrite Eh. unfold buf_ops. destruct (Nat.eqb_spec u t) as [->|D].
      + rewrite nth_alter_eq by assumption. rewrite map_app, T. reflexivity.
      + rewrite nth_alter_ne by auto. apply T.
    - intros i. rewrite Eg. apply P.
  Qed.

  (** A top-level transaction without its guard has registered nothing. *)
  Definition unlocked_empty (m : machine) : Prop := forall t o,
    nth_error (p_txs (m_proto m)) t = Some (TxRec None false o) -> o = true -> buf_ops (hp m) t = [].

  Lemma unlocked_empty_step (m : machine) (e : event) : minv m -> unlocked_empty m -> unlocked_empty (fst (m_step m e)).
  Proof.
    intros I U t o. rewrite m_step_fst. unfold hp in *. mcbn. intros N ->.
    assert (LB : forall t, length (s_heap (m_store m)) <= t -> buf_ops (s_heap (m_store m)) t = [])
      by (intros; now apply nth_overflow).
    revert N. destruct (p_step_pstep (m_proto m) e) as
      [ | | | | | | | |c u n Hh Nc|c u j Hh Nc| | | | |t' commit q gd Hh Nt HL HC|t' c gd Hh Nt HL HK| | |[] ]; mcbn; intros N;
      try (eapply U; [exact N|reflexivity]).
    - apply nth_error_snoc in N as [N|[-> _]].
      + unfold buf_ops. rewrite nth_snoc_old; [eapply U; [exact N|reflexivity]|].
        rewrite (mi_heap m I). apply nth_error_Some. congruence.
      + unfold buf_ops. rewrite <- (mi_heap m I). apply nth_snoc_new.
    - apply nth_error_snoc in N as [N|[-> E]]; [|discriminate].
      unfold buf_ops. rewrite nth_snoc_old; [eapply U; [exact N|reflexivity]|].
      rewrite (mi_heap m I). apply nth_error_Some. congruence.
    - rewrite nth_error_alter in N. destruct (Nat.eqb t0 t).
      + destruct (nth_error _ t); [|discriminate]. cbn in N. congruence.
      + eapply U; [exact N|reflexivity].
    - assert (M : made_from (m_proto m) c u) by (now exists Live).
      unfold ctx_save. rewrite (ctx_buf_value m c u I M). rewrite buf_ops_push_ne; [eapply U; [exact N|reflexivity]|].
      intros ->. destruct (pi_ctx _ (mi_p m I) _ _ Nc) as (x & Nx & E). cbn in Nx, E.
      rewrite N in Nx. injection Nx as <-. cbn in E. destruct (E eq_refl) as [_ E']. discriminate (E' eq_refl).
    - assert (M : made_from (m_proto m) c u) by (now exists Live).
      unfold ctx_delete. rewrite (ctx_buf_value m c u I M). rewrite buf_ops_push_ne; [eapply U; [exact N|reflexivity]|].
      intros ->. destruct (pi_ctx _ (mi_p m I) _ _ Nc) as (x & Nx & E). cbn in Nx, E.
      rewrite N in Nx. injection Nx as <-. cbn in E. destruct (E eq_refl) as [_ E']. discriminate (E' eq_refl).
    - rewrite nth_error_alter in N. destruct (Nat.eqb t' t).
      + destruct (nth_error _ t); [|discriminate]. cbn in N. congruence.
      + eapply U; [exact N|reflexivity].
    - rewrite nth_error_alter in N. destruct (Nat.eqb_spec t' t) as [->|D].
      + rewrite Nt in N. discriminate.
      + assert (O : opened_on (m_proto m) t' c) by (now exists gd, true).
        destruct (pi_tx _ (mi_p m I) _ _ _ Nt eq_refl) as ([u s] & Nc & Lt & El). cbn in Lt, El.
        rewrite (El eq_refl) in Nc. assert (M : made_from (m_proto m) c u) by (now exists Live).
        unfold fg_extend. rewrite (ctx_buf_value m c u I M). unfold buf_ops.
        rewrite nth_alter_ne; [eapply U; [exact N|reflexivity]|]. intros ->.
        destruct (pi_ctx _ (mi_p m I) _ _ Nc) as (x & Nx & E). cbn in Nx, E.
        rewrite N in Nx. injection Nx as <-. cbn in E. destruct (E eq_refl) as [_ E']. discriminate (E' eq_refl).
    - rewrite nth_error_alter in N. destruct (Nat.eqb t0 t).
      + destruct (nth_error _ t); [|discriminate]. cbn in N. congruence.
      + eapply U; [exact N|reflexivity].
  Qed.

  Lemma jinv_step b (m : machine) e j : minv m -> unlocked_empty m -> jinv b m j ->
    jinv b (fst (m_step m e)) (j_step (m_proto m) e (snd (m_step m e)) j).
  Proof.
    intros I U J. pose proof J as [T P]. rewrite m_step_fst. cbn [fst snd].
    destruct (p_step_pstep (m_proto m) e) as
      [ | |Hh|c t Hh Nc|t c g Hh Nt|t Hh Nt|t Hh Nt GH|e Hh GH|c t n Hh Nc|c t i Hh Nc|c t i Hh Nc
      |c t i Hh Nc|c t Hh Nc NB|c t Hh Nc NB|t commit q gd Hh Nt HL HC|t c gd Hh Nt HL HK|t Hh Nt HL HK|i Hh GH|w Hh GH ];
      cbn; try exact J; try (constructor; assumption).
    - constructor; cbn; [|exact P]. intros t. rewrite T. unfold buf_ops.
      destruct (Nat.lt_trichotomy t (length (s_heap (m_store m)))) as [L|[L|L]].
      + now rewrite nth_snoc_old.
      + subst t. now rewrite nth_snoc_new, nth_overflow by (unfold hp; lia).
      + rewrite !nth_overflow; [reflexivity|rewrite app_length; cbn; lia|unfold hp; lia].
    - constructor; cbn; [|exact P]. intros u. rewrite T. unfold buf_ops.
      destruct (Nat.lt_trichotomy u (length (s_heap (m_store m)))) as [L|[L|L]].
      + now rewrite nth_snoc_old.
      + subst u. now rewrite nth_snoc_new, nth_overflow by (unfold hp; lia).
      + rewrite !nth_overflow; [reflexivity|rewrite app_length; cbn; lia|unfold hp; lia].
    - assert (M : made_from (m_proto m) c t) by (now exists Live).
      rewrite (owner_made _ _ _ M). apply (jinv_add b m _ j t [OSave n] J); cbn; auto.
      + apply (tx_lt m c t I M).
      + unfold hp, ctx_save. cbn. now rewrite (ctx_buf_value m c t I M).
    - assert (M : made_from (m_proto m) c t) by (now exists Live).
      rewrite (owner_made _ _ _ M). apply (jinv_add b m _ j t [ODelete i] J); cbn; auto.
      + apply (tx_lt m c t I M).
      + unfold hp, ctx_delete. cbn. now rewrite (ctx_buf_value m c t I M).
    - destruct commit; [|now constructor]. destruct (has_ctx (m_proto m) t Leaked) eqn:HK; [now constructor|].
      rewrite Nt. destruct HC as [HC|[HC|[-> ->]]]; try discriminate.
      constructor; cbn; [exact T|]. intros i. rewrite T, (U t true Nt eq_refl). cbn.
      rewrite app_nil_r. apply P.
    - rewrite HK, Nt. assert (O : opened_on (m_proto m) t c) by (now exists gd, true).
      destruct (pinv_opened _ _ _ (mi_p m I) O) as (u & M & Lt).
      rewrite (owner_made _ _ _ M), T. apply (jinv_add b m _ j u _ J); auto.
      + apply (tx_lt m c u I M).
      + cbn. unfold fg_extend. now rewrite (ctx_buf_value m c u I M).
    - rewrite HK, Nt. constructor; cbn [j_tx j_pub]; [exact T|]. intros i. rewrite replay_app.
      unfold gr; mcbn. rewrite replay_ops by apply (mi_wf m I). rewrite T.
      apply replay_ext. exact P.
    - destruct w as [n|n|i]; cbn [g_step fst snd]; constructor; cbn [j_tx j_pub]; auto; intros k; rewrite replay_app; cbn; unfold gr, base_set; cbn.
      + unfold g_get, g_with_node. rewrite bt_get_insert by apply (mi_wf m I). destruct (eqb (id_of n) k); auto. apply P.
      + unfold g_get. rewrite bt_get_insert by apply (mi_wf m I). destruct (eqb (id_of n) k); auto. apply P.
      + unfold g_get. rewrite bt_get_remove by apply (mi_wf m I). destruct (eqb i k); auto. apply P.
  Qed.

  Lemma jinv_run b es : forall (m : machine) j, minv m -> unlocked_empty m -> jinv b m j ->
    jinv b (fst (m_run m es)) (j_run m es j).
  Proof.
    induction es as [|e es IH]; intros m j I U J; [exact J|]. rewrite m_run_cons. cbn -[m_step].
    pose proof (jinv_step b m e j I U J) as J'.
    pose proof (minv_step m e I) as I'. pose proof (unlocked_empty_step m e I U) as U'.
    destruct (m_step m e) as [m' o]. cbn in *. now apply IH.
  Qed.

  Lemma serial_replay (g : graph) es : g_wf g ->
    forall i, g_get (gr (after g es)) i = replay (published g es) (g_get g) i.
  Proof.
    intros W. unfold after, published.
    apply (ji_pub (g_get g) (fst (m_run (m_init g) es))).
    apply jinv_run.
    - now apply minv_init.
    - intros t o N. cbn in N. destruct t; discriminate.
    - constructor; cbn; [|reflexivity]. intros t. unfold buf_ops; cbn. destruct t; reflexivity.
  Qed.

  (** ** Lock discipline *)

  Lemma hung_forever (es : list event) : forall m : machine, p_hung (m_proto m) = true ->
    snd (m_run m es) = map (fun _ => XHang) es /\ m_store (fst (m_run m es)) = m_store m.
  Proof.
    induction es as [|e es IH]; intros m H; [auto|].
    cbn -[m_step]. unfold m_step at 1 2. unfold p_step. rewrite H. cbn -[m_step].
    destruct m as [p s]. cbn in *. specialize (IH (Machine p s) H).
    destruct (m_run (Machine p s) es) as [m2 os]. cbn in *. destruct IH as [-> ->]. auto.
  Qed.

  Lemma locked_out (m : machine) c (e : event) : minv m -> alive (m_proto m) c -> p_hung (m_proto m) = false ->
    match e with
    | ERead _ | EWrite _ => True
    | EContext t => top_level (m_proto m) t /\ tx_live (m_proto m) t = true /\ ~ within (m_proto m) c t
    | _ => False
    end ->
    snd (m_step m e) = XHang /\ p_hung (m_proto (fst (m_step m e))) = true /\
    m_store (fst (m_step m e)) = m_store m.
  Proof.
    intros I A H E. pose proof (alive_guard m c I A) as G. unfold m_step, p_step. rewrite H.
    destruct e as [| |t| | | | | | | |i|w]; try contradiction.
    - destruct E as ((gd & o & N) & TL & NW). unfold tx_live in TL. rewrite N in *. cbn in TL. subst o.
      destruct gd; [exfalso|rewrite G; auto].
      destruct (alive_root m c I A) as (r & d & W & _ & _ & Nr & _). apply NW.
      assert (r = t) as <- by (eapply (pi_one _ (mi_p m I)); eauto; reflexivity). exact W.
    - rewrite G; auto.
    - rewrite G; auto.
  Qed.

  Lemma one_root (m : machine) c1 c2 r1 r2 : minv m -> alive (m_proto m) c1 -> alive (m_proto m) c2 ->
    top_level (m_proto m) r1 -> top_level (m_proto m) r2 ->
    within (m_proto m) c1 r1 -> within (m_proto m) c2 r2 -> r1 = r2.
  Proof.
    intros I A1 A2 T1 T2 W1 W2.
    assert (K : forall c r, alive (m_proto m) c -> top_level (m_proto m) r -> within (m_proto m) c r ->
                exists g o, nth_error (p_txs (m_proto m)) r = Some (TxRec None g o) /\ g = true).
    { intros c r A T W. revert A. induction W as [c r [s M]|c r u q M O W IH]; intros A.
      - destruct A as [t' N]. rewrite N in M. injection M as -> <-.
        destruct (pi_ctx _ (mi_p m I) _ _ N) as ([q g o] & Nx & E). cbn in Nx, E.
        destruct T as (g' & o' & N'). rewrite Nx in N'. injection N' as -> -> ->.
        destruct (E eq_refl) as [_ Eg]. specialize (Eg eq_refl). subst. eauto.
      - apply IH; [exact T|]. destruct A as [t' N]. destruct O as (g & o & Nt).
        assert (t' = u) as -> by (destruct M as [s M]; congruence).
        destruct (pi_ctx _ (mi_p m I) _ _ N) as (x & Nx & E). cbn in Nx, E. rewrite Nt in Nx. injection Nx as <-.
        destruct (E eq_refl) as [Eo _]. cbn in Eo. subst o.
        destruct (pi_tx _ (mi_p m I) _ _ _ Nt eq_refl) as ([w s] & Nc & _ & El). cbn in El.
        rewrite (El eq_refl) in Nc. now exists w. }
    destruct (K c1 r1 A1 T1 W1) as (g1 & o1 & N1 & ->). destruct (K c2 r2 A2 T2 W2) as (g2 & o2 & N2 & ->).
    eapply (pi_one _ (mi_p m I)); eauto; reflexivity.
  Qed.

  (** ** Transparency of nesting *)

  Fixpoint script_ops (s : script) : list op :=
    match s with
    | SNil => []
    | SSave n rest => OSave n :: script_ops rest
    | SDelete i rest => ODelete i :: script_ops rest
    | SSub inner rest => script_ops inner ++ script_ops rest
    end.

  Lemma script_ops_flatten (s : script) : script_ops (flatten s) = script_ops s.
  Proof.
    induction s as [|n s IH|i s IH|x IHx s IH]; cbn; try congruence.
    rewrite <- IHx, <- IH. generalize (flatten x). intros y. clear.
    induction y as [|n y IH|i y IH|z IHz y IH]; cbn; rewrite ?IH; try reflexivity. now rewrite app_assoc.
  Qed.

  Lemma script_ops_entries (s : script) : map op_entry (script_ops s) = entries s.
  Proof. induction s as [|n s IH|i s IH|x IHx s IH]; cbn; rewrite ?map_app; try rewrite IH; try rewrite IHx; reflexivity. Qed.

  Record played (m m' : machine) (t : nat) (ops : list op) : Prop := Played {
    pl_inv : minv m';
    pl_run : p_hung (m_proto m') = false;
    pl_txs : exists X, p_txs (m_proto m') = p_txs (m_proto m) ++ X /\
               forall x, In x X -> tx_open x = false /\ tx_guard x = false;
    pl_ctxs : exists Y, p_ctxs (m_proto m') = p_ctxs (m_proto m) ++ Y /\
               forall y, In y Y -> cr_status y = Dropped /\ length (p_txs (m_proto m)) <= cr_tx y;
    pl_graph : gr m' = gr m;
    pl_vals : forall c, c < length (s_ctxs (m_store m)) -> cv m' c = cv m c;
    pl_bufs : forall u, u < length (hp m) ->
                buf_ops (hp m') u = buf_ops (hp m) u ++ (if Nat.eqb u t then ops else [])
  }.

  Lemma nth_error_app_old {A} (l k : list A) n x : nth_error l n = Some x -> nth_error (l ++ k) n = Some x.
  Proof. intros N. rewrite nth_error_app1; [exact N|]. apply nth_error_Some. congruence. Qed.

  Lemma played_alive (m m' : machine) t ops c u : played m m' t ops ->
    nth_error (p_ctxs (m_proto m)) c = Some (CtxRec u Live) ->
    nth_error (p_ctxs (m_proto m')) c = Some (CtxRec u Live).
  Proof. intros P N. destruct (pl_ctxs _ _ _ _ P) as (Y & -> & _). now apply nth_error_app_old. Qed.

  Lemma played_refl (m : machine) t : minv m -> p_hung (m_proto m) = false -> played m m t [].
  Proof.
    intros I H. constructor; auto.
    - exists []. rewrite app_nil_r. split; [reflexivity|intros x []].
    - exists []. rewrite app_nil_r. split; [reflexivity|intros x []].
    - intros u _. destruct (Nat.eqb u t); now rewrite app_nil_r.
  Qed.

  Lemma played_trans (m1 m2 m3 : machine) t ops ops' : minv m1 ->
    played m1 m2 t ops -> played m2 m3 t ops' -> played m1 m3 t (ops ++ ops').
  Proof.
    intros I1 P Q. pose proof (pl_inv _ _ _ _ P) as I2.
    destruct P as [_ _ (X & EX & PX) (Y & EY & PY) G V B].
    destruct Q as [I3 H3 (X' & EX' & PX') (Y' & EY' & PY') G' V' B'].
    constructor; auto.
    - exists (X ++ X'). rewrite EX', EX, app_assoc. split; [reflexivity|].
      intros x Ix. apply in_app_or in Ix as [Ix|Ix]; auto.
    - exists (Y ++ Y'). rewrite EY', EY, app_assoc. split; [reflexivity|].
      intros y Iy. apply in_app_or in Iy as [Iy|Iy]; auto.
      destruct (PY' y Iy) as [D L]. split; [exact D|]. rewrite EX, app_length in L. lia.
    - congruence.
    - intros c L. rewrite V', V; auto. rewrite (mi_ctxs m2 I2), EY, app_length, <- (mi_ctxs m1 I1). lia.
    - intros u L. assert (u < length (hp m2)).
      { unfold hp in *. rewrite (mi_heap m2 I2), EX, app_length, <- (mi_heap m1 I1). lia. }
      rewrite B', B by assumption. destruct (Nat.eqb u t); rewrite ?app_nil_r; auto. now rewrite app_assoc.
  Qed.

  Lemma m_step_save (m : machine) c t n : p_hung (m_proto m) = false ->
    nth_error (p_ctxs (m_proto m)) c = Some (CtxRec t Live) ->
    m_step m (ESave c n) = (Machine (m_proto m) (fst (m_exec (m_store m) (ASave c n))), XUnit).
  Proof. intros H N. unfold m_step, p_step, ctx_live. rewrite H, N. reflexivity. Qed.

  Lemma m_step_delete (m : machine) c t i : p_hung (m_proto m) = false ->
    nth_error (p_ctxs (m_proto m)) c = Some (CtxRec t Live) ->
    m_step m (EDelete c i) = (Machine (m_proto m) (fst (m_exec (m_store m) (ADelete c i))), XUnit).
  Proof. intros H N. unfold m_step, p_step, ctx_live. rewrite H, N. reflexivity. Qed.

  Lemma played_push (m : machine) c t e o : minv m -> p_hung (m_proto m) = false ->
    nth_error (p_ctxs (m_proto m)) c = Some (CtxRec t Live) ->
    (e = match o with OSave n => ESave c n | ODelete i => EDelete c i end) ->
    played m (fst (m_step m e)) t [o].
  Proof.
    intros I H N ->. assert (M : made_from (m_proto m) c t) by (now exists Live).
    pose proof (ctx_buf_value m c t I M) as Eb.
    assert (Es : forall s, s = s_heap (m_store m) -> forall u, u < length s ->
      buf_ops (buf_push s t o) u = buf_ops s u ++ (if Nat.eqb u t then [o] else [])).
    { intros s -> u L. destruct (Nat.eqb_spec u t) as [->|D].
      - now apply buf_ops_push_eq.
      - rewrite app_nil_r. apply buf_ops_push_ne; auto. }
    destruct o as [n|i].
    - pose proof (minv_step m (ESave c n) I) as I'. rewrite (m_step_save m c t n H N) in *. cbn in *.
      constructor; cbn; auto.
      + exists []. rewrite app_nil_r. split; [reflexivity|intros x []].
      + exists []. rewrite app_nil_r. split; [reflexivity|intros x []].
      + intros u L. unfold hp, ctx_save. cbn. rewrite Eb. now apply Es.
    - pose proof (minv_step m (EDelete c i) I) as I'. rewrite (m_step_delete m c t i H N) in *. cbn in *.
      constructor; cbn; auto.
      + exists []. rewrite app_nil_r. split; [reflexivity|intros x []].
      + exists []. rewrite app_nil_r. split; [reflexivity|intros x []].
      + intros u L. unfold hp, ctx_delete. cbn. rewrite Eb. now apply Es.
  Qed.

  Lemma m_step_fg (m : machine) c t : p_hung (m_proto m) = false ->
    nth_error (p_ctxs (m_proto m)) c = Some (CtxRec t Live) ->
    m_step m (EForeground c) =
    (Machine (Proto (p_txs (m_proto m) ++ [TxRec (Some c) false true]) (p_ctxs (m_proto m)) false)
             (Store (gr m) (hp m ++ [[]]) (s_ctxs (m_store m))), XHandle (length (hp m))).
  Proof. intros H N. unfold m_step, p_step, ctx_live. rewrite H, N. reflexivity. Qed.

  Lemma m_step_ctx (m : machine) c g t : p_hung (m_proto m) = false ->
    nth_error (p_txs (m_proto m)) t = Some (TxRec (Some c) g true) ->
    m_step m (EContext t) =
    (Machine (Proto (p_txs (m_proto m)) (p_ctxs (m_proto m) ++ [CtxRec t Live]) false)
             (Store (gr m) (hp m) (s_ctxs (m_store m) ++ [CSub (cv m c) t None])),
     XHandle (length (s_ctxs (m_store m)))).
  Proof. intros H N. unfold m_step, p_step. rewrite H, N. reflexivity. Qed.

  Lemma play_spec (s : script) : forall (m : machine) c t, minv m -> p_hung (m_proto m) = false ->
    nth_error (p_ctxs (m_proto m)) c = Some (CtxRec t Live) ->
    played m (play s m c) t (script_ops s).
  Proof.
    induction s as [|n s IH|i s IH|x IHx s IH]; intros m c t I H N.
    - now apply played_refl.
    - cbn [play script_ops]. pose proof (played_push m c t _ (OSave n) I H N eq_refl) as P.
      change (OSave n :: script_ops s) with ([OSave n] ++ script_ops s).
      eapply played_trans; [assumption|exact P|].
      apply IH; [apply P|apply P|]. eapply played_alive; eassumption.
    - cbn [play script_ops]. pose proof (played_push m c t _ (ODelete i) I H N eq_refl) as P.
      change (ODelete i :: script_ops s) with ([ODelete i] ++ script_ops s).
      eapply played_trans; [assumption|exact P|].
      apply IH; [apply P|apply P|]. eapply played_alive; eassumption.
    - cbn [play script_ops]. pose proof (minv_step m (EForeground c) I) as I1.
      rewrite (m_step_fg m c t H N) in *. cbn [fst] in I1.
      set (m1 := Machine _ _) in I1 |- *.
      remember (length (hp m)) as u eqn:Hu.
      assert (Lu : u = length (p_txs (m_proto m))) by (rewrite Hu; apply (mi_heap m I)).
      assert (N1 : nth_error (p_txs (m_proto m1)) u = Some (TxRec (Some c) false true))
        by (cbn; apply nth_error_snoc; auto).
      pose proof (minv_step m1 (EContext u) I1) as I2.
      rewrite (m_step_ctx m1 c false u eq_refl N1) in *. cbn [fst] in I2.
      set (m2 := Machine _ _) in I2 |- *.
      remember (length (s_ctxs (m_store m1))) as d eqn:Hd.
      assert (Ld : d = length (p_ctxs (m_proto m))) by (rewrite Hd; apply (mi_ctxs m I)).
      assert (N2 : nth_error (p_ctxs (m_proto m2)) d = Some (CtxRec u Live))
        by (cbn; apply nth_error_snoc; auto).
      pose proof (IHx m2 d u I2 eq_refl N2) as P3. set (m3 := play x m2 d) in *.
      pose proof (pl_inv _ _ _ _ P3) as I3. pose proof (pl_run _ _ _ _ P3) as H3.
      destruct (pl_txs _ _ _ _ P3) as (X & EX & PX). destruct (pl_ctxs _ _ _ _ P3) as (Y & EY & PY).
      pose proof (played_alive _ _ _ _ _ _ P3 N2) as N3.
      (* drop the context *)
      assert (B3 : ctx_borrowed (m_proto m3) d = false).
      { destruct (ctx_borrowed (m_proto m3) d) eqn:B; [|reflexivity]. exfalso.
        apply ctx_borrowed_spec in B as (w & r & Nr & Or & Pr).
        rewrite EX in Nr. cbn in Nr.
        destruct (Nat.lt_ge_cases w (length (p_txs (m_proto m) ++ [TxRec (Some c) false true]))) as [Lw|Lw].
        - rewrite nth_error_app1 in Nr by assumption. apply nth_error_snoc in Nr as [Nr|[-> ->]].
          + destruct (pi_tx _ (mi_p m I) _ _ _ Nr Pr) as (rr & Nrr & _).
            assert (d < length (p_ctxs (m_proto m))) by (apply nth_error_Some; congruence). lia.
          + change (Some c = Some d) in Pr. assert (Ecd : c = d) by congruence.
            assert (c < length (p_ctxs (m_proto m))) by (apply nth_error_Some; congruence). lia.
        - rewrite nth_error_app2 in Nr by assumption. apply nth_error_In in Nr. destruct (PX r Nr). congruence. }
      pose proof (minv_step m3 (EDropCtx d) I3) as I4.
      assert (E4 : m_step m3 (EDropCtx d) = (Machine (set_status Dropped d (m_proto m3)) (m_store m3), XUnit)).
      { unfold m_step, p_step, ctx_live. rewrite H3, N3, B3. reflexivity. }
      rewrite E4 in *. cbn [fst] in I4 |- *. set (m4 := Machine _ _) in I4 |- *.
      (* commit *)
      assert (N4 : nth_error (p_txs (m_proto m4)) u = Some (TxRec (Some c) false true)).
      { cbn. rewrite EX. apply nth_error_app_old. exact N1. }
      assert (HC : forall st, st <> Dropped -> has_ctx (m_proto m4) u st = false).
      { intros st NS. destruct (has_ctx (m_proto m4) u st) eqn:HC; [|reflexivity]. exfalso.
        apply has_ctx_spec in HC as [w Nw]. cbn in Nw. rewrite nth_error_alter in Nw.
        destruct (Nat.eqb_spec d w) as [->|Dw].
        - rewrite N3 in Nw. cbn in Nw. congruence.
        - rewrite EY in Nw. cbn in Nw.
          destruct (Nat.lt_ge_cases w (length (p_ctxs (m_proto m) ++ [CtxRec u Live]))) as [Lw|Lw].
          + rewrite nth_error_app1 in Nw by assumption. apply nth_error_snoc in Nw as [Nw|[-> _]]; [|lia].
            destruct (pi_ctx _ (mi_p m I) _ _ Nw) as (r & Nr & _). cbn in Nr.
            assert (u < length (p_txs (m_proto m))) by (apply nth_error_Some; congruence). lia.
          + rewrite nth_error_app2 in Nw by assumption. apply nth_error_In in Nw.
            destruct (PY _ Nw) as [Dr _]. cbn in Dr. congruence. }
      pose proof (minv_step m4 (EEnd u true) I4) as I5.
      assert (E5 : m_step m4 (EEnd u true) =
        (Machine (close_tx u (m_proto m4)) (fst (m_exec (m_store m4) (AMerge u c))), XUnit)).
      { rewrite m_step_fst, (m_step_end_unit m4 u true (Some c) false); auto; [|apply HC; discriminate].
        rewrite (HC Leaked) by discriminate. reflexivity. }
      rewrite E5 in *. cbn [fst] in I5 |- *. set (m5 := Machine _ _) in I5 |- *.
      assert (Mc : made_from (m_proto m) c t) by (now exists Live).
      assert (Lt : t < u) by (rewrite Lu, <- (mi_heap m I); apply (tx_lt m c t I Mc)).
      assert (Lc : c < length (s_ctxs (m_store m))) by (rewrite (mi_ctxs m I); eapply made_from_lt; eassumption).
      assert (V3 : forall k, k < length (s_ctxs (m_store m)) -> cv m3 k = cv m k).
      { intros k Lk. rewrite (pl_vals _ _ _ _ P3) by (cbn; rewrite app_length; lia).
        unfold cv, ctx_value. cbn. apply app_nth1. exact Lk. }
      assert (B5 : forall w, w < length (hp m) ->
                buf_ops (hp m5) w = buf_ops (hp m) w ++ (if Nat.eqb w t then script_ops x else [])).
      { intros w Lw. unfold hp at 1. cbn -[Nat.eqb]. unfold fg_extend. fold (cv m3 c).
        rewrite V3 by assumption. unfold cv. rewrite (ctx_buf_value m c t I Mc).
        assert (B3w : forall w, w < u -> buf_ops (hp m3) w = buf_ops (hp m) w).
        { intros v Lv. rewrite (pl_bufs _ _ _ _ P3) by (cbn; rewrite app_length; lia).
          destruct (Nat.eqb_spec v u); [lia|]. rewrite app_nil_r. unfold buf_ops, hp. cbn.
          apply app_nth1. rewrite Hu in Lv. exact Lv. }
        assert (B3u : buf_ops (hp m3) u = script_ops x).
        { rewrite (pl_bufs _ _ _ _ P3) by (cbn; rewrite app_length; cbn; lia).
          rewrite Nat.eqb_refl. unfold buf_ops, hp at 1. cbn. rewrite Hu. now rewrite nth_snoc_new. }
        fold (hp m3). rewrite B3u. unfold buf_ops at 1. destruct (Nat.eqb_spec w t) as [->|D].
        - rewrite nth_alter_eq; [change (nth t (hp m3) []) with (buf_ops (hp m3) t); now rewrite B3w|].
          pose proof (mi_heap m3 I3) as L3. unfold hp. rewrite L3, EX. cbn.
          rewrite !app_length, <- (mi_heap m I). fold (hp m). lia.
        - rewrite nth_alter_ne by auto. change (nth w (hp m3) []) with (buf_ops (hp m3) w).
          rewrite B3w by lia. now rewrite app_nil_r. }
      assert (P5 : played m m5 t (script_ops x)).
      { constructor.
        - exact I5.
        - exact H3.
        - exists (TxRec (Some c) false false :: X). split.
          + cbn. rewrite EX. cbn. rewrite <- app_assoc. cbn [app].
            rewrite Lu. clear. induction (p_txs (m_proto m)) as [|a l IHl]; cbn; [reflexivity|]. f_equal. exact IHl.
          + intros z [<-|Iz]; [auto|]. apply PX, Iz.
        - exists (CtxRec u Dropped :: Y). split.
          + cbn. rewrite EY. cbn. rewrite <- app_assoc. cbn [app].
            rewrite Ld. clear. induction (p_ctxs (m_proto m)) as [|a l IHl]; cbn; [reflexivity|]. f_equal. exact IHl.
          + intros z [<-|Iz]; [cbn; rewrite Lu; auto|]. destruct (PY z Iz) as [D L]. split; [exact D|].
            cbn in L. rewrite app_length in L. lia.
        - exact (pl_graph _ _ _ _ P3).
        - intros k Lk. exact (V3 k Lk).
        - exact B5. }
      eapply played_trans; [exact I|exact P5|]. apply IH; [exact I5|exact H3|].
      eapply played_alive; eassumption.
  Qed.

  (** What the enclosing context answers after a script. *)
  Lemma play_ask (s : script) (m : machine) c t : minv m -> p_hung (m_proto m) = false ->
    nth_error (p_ctxs (m_proto m)) c = Some (CtxRec t Live) ->
    forall i, ctx_get (hp (play s m c)) (gr (play s m c)) (cv (play s m c) c) i =
      match ops_overlay (script_ops s) i with Some r => r | None => ctx_get (hp m) (gr m) (cv m c) i end.
  Proof.
    intros I H N i. pose proof (play_spec s m c t I H N) as P.
    assert (M : made_from (m_proto m) c t) by (now exists Live).
    rewrite (pl_graph _ _ _ _ P), (pl_vals _ _ _ _ P)
      by (rewrite (mi_ctxs m I); eapply made_from_lt; eassumption).
    pose proof (ctx_buf_value m c t I M) as Eb. fold (cv m c) in Eb.
    rewrite (ctx_get_unfold (hp (play s m c))), Eb.
    rewrite (pl_bufs _ _ _ _ P) by apply (tx_lt m c t I M). rewrite Nat.eqb_refl, ops_overlay_app.
    destruct (ops_overlay (script_ops s) i); [reflexivity|].
    rewrite (ctx_get_unfold (hp m)), Eb. destruct (ops_overlay (buf_ops (hp m) t) i); [reflexivity|].
    unfold cv. destruct (mi_val m I _ _ M) as [[_ ->]|(q & O & ->)]; [reflexivity|].
    apply ctx_get_frame. intros b Hb.
    destruct (pinv_opened _ _ _ (mi_p m I) O) as (w & Mq & Lw).
    assert (Wq : within (m_proto m) q b) by (apply (within_chain m q b I); split; eauto).
    pose proof (within_le _ _ _ (mi_p m I) Wq w Mq).
    rewrite (pl_bufs _ _ _ _ P).
    - destruct (Nat.eqb_spec b t); [lia|]. now rewrite app_nil_r.
    - pose proof (tx_lt m q w I Mq). unfold hp. lia.
  Qed.

  Lemma overlay_replay ops (b : base) i :
    match ops_overlay ops i with Some r => r | None => b i end = replay (map op_entry ops) b i.
  Proof.
    induction ops as [|o ops IH] using rev_ind; [reflexivity|].
    rewrite ops_overlay_app, ops_overlay_one, map_app, replay_app. cbn. unfold base_set.
    destruct o as [n|j]; cbn; [destruct (eqb (id_of n) i)|destruct (eqb j i)]; auto.
  Qed.

  (** The enclosing context answers the replay of the registered operations. *)
  Lemma play_replay (s : script) (m : machine) c t : minv m -> p_hung (m_proto m) = false ->
    nth_error (p_ctxs (m_proto m)) c = Some (CtxRec t Live) ->
    forall (b : base), (forall i, ask m c i = XNode (b i)) ->
    forall i, ask (play s m c) c i = XNode (replay (entries s) b i).
  Proof.
    intros I H N b Eb i. pose proof (play_spec s m c t I H N) as P.
    assert (A : alive (m_proto m) c) by (now exists t).
    assert (A' : alive (m_proto (play s m c)) c) by (exists t; eapply played_alive; eassumption).
    rewrite ask_alive by (try apply (pl_run _ _ _ _ P); assumption).
    fold (hp (play s m c)) (gr (play s m c)) (cv (play s m c) c). rewrite (play_ask s m c t I H N i).
    rewrite <- script_ops_entries, <- overlay_replay.
    specialize (Eb i). rewrite ask_alive in Eb by assumption.
    injection Eb as Eb. fold (hp m) (gr m) (cv m c) in Eb. now rewrite Eb.
  Qed.

  (** Committing the enclosing top-level transaction after a script. *)
  Lemma play_commit (s : script) (m : machine) c t : minv m -> p_hung (m_proto m) = false ->
    nth_error (p_ctxs (m_proto m)) c = Some (CtxRec t Live) ->
    top_level (m_proto m) t ->
    (forall d st, nth_error (p_ctxs (m_proto m)) d = Some (CtxRec t st) -> d = c \/ st = Dropped) ->
    ctx_borrowed (m_proto m) c = false ->
    forall i, snd (m_run (play s m c) [EDropCtx c; EEnd t true; ERead i]) =
      [XUnit; XUnit; XNode (match ops_overlay (buf_ops (hp m) t ++ script_ops s) i with
                            | Some r => r | None => g_get (gr m) i end)].
  Proof.
    intros I H N T OC NB i. pose proof (play_spec s m c t I H N) as P.
    assert (M : made_from (m_proto m) c t) by (now exists Live).
    pose proof (pl_inv _ _ _ _ P) as I1. pose proof (pl_run _ _ _ _ P) as H1.
    destruct (pl_txs _ _ _ _ P) as (X & EX & PX). destruct (pl_ctxs _ _ _ _ P) as (Y & EY & PY).
    pose proof (played_alive _ _ _ _ _ _ P N) as N1.
    pose proof (pl_graph _ _ _ _ P) as EG.
    pose proof (pl_bufs _ _ _ _ P t (tx_lt m c t I M)) as EB. rewrite Nat.eqb_refl in EB.
    set (m1 := play s m c) in *. clearbody m1.
    assert (NB1 : ctx_borrowed (m_proto m1) c = false).
    { destruct (ctx_borrowed (m_proto m1) c) eqn:B; [|reflexivity]. exfalso.
      apply ctx_borrowed_spec in B as (w & r & Nr & Or & Pr). rewrite EX in Nr.
      destruct (Nat.lt_ge_cases w (length (p_txs (m_proto m)))) as [Lw|Lw].
      - rewrite nth_error_app1 in Nr by assumption.
        assert (ctx_borrowed (m_proto m) c = true) by (apply ctx_borrowed_spec; eauto). congruence.
      - rewrite nth_error_app2 in Nr by assumption. apply nth_error_In in Nr. destruct (PX r Nr). congruence. }
    assert (E2 : m_step m1 (EDropCtx c) = (Machine (set_status Dropped c (m_proto m1)) (m_store m1), XUnit)).
    { unfold m_step, p_step, ctx_live. rewrite H1, N1, NB1. reflexivity. }
    pose proof (minv_step m1 (EDropCtx c) I1) as I2. rewrite E2 in I2. cbn [fst] in I2.
    set (m2 := Machine (set_status Dropped c (m_proto m1)) (m_store m1)) in *.
    assert (Nt : nth_error (p_txs (m_proto m)) t = Some (TxRec None true true)).
    { destruct T as (g & o & Nt). destruct (pi_ctx _ (mi_p m I) _ _ N) as (x & Nx & E). cbn in Nx, E.
      rewrite Nt in Nx. injection Nx as <-. destruct (E eq_refl) as [Eo Eg]. cbn in Eo, Eg. subst o.
      now rewrite (Eg eq_refl) in Nt. }
    assert (N2 : nth_error (p_txs (m_proto m2)) t = Some (TxRec None true true)).
    { cbn. rewrite EX. now apply nth_error_app_old. }
    assert (Ltm : t < length (p_txs (m_proto m))) by (apply nth_error_Some; congruence).
    assert (HC : forall st, st <> Dropped -> has_ctx (m_proto m2) t st = false).
    { intros st NS. destruct (has_ctx (m_proto m2) t st) eqn:HC; [|reflexivity]. exfalso.
      apply has_ctx_spec in HC as [w Nw]. cbn in Nw. rewrite nth_error_alter in Nw.
      destruct (Nat.eqb_spec c w) as [->|Dw].
      - rewrite N1 in Nw. cbn in Nw. congruence.
      - rewrite EY in Nw.
        destruct (Nat.lt_ge_cases w (length (p_ctxs (m_proto m)))) as [Lw|Lw].
        + rewrite nth_error_app1 in Nw by assumption. destruct (OC _ _ Nw); congruence.
        + rewrite nth_error_app2 in Nw by assumption. apply nth_error_In in Nw.
          destruct (PY _ Nw) as [Dr _]. cbn in Dr. congruence. }
    assert (E3 : m_step m2 (EEnd t true) =
      (Machine (close_tx t (m_proto m2)) (fst (m_exec (m_store m2) (APublish t))), XUnit)).
    { rewrite m_step_fst, (m_step_end_unit m2 t true None true); auto; [|apply HC; discriminate].
      rewrite (HC Leaked) by discriminate. reflexivity. }
    pose proof (minv_step m2 (EEnd t true) I2) as I3. rewrite E3 in I3. cbn [fst] in I3.
    set (m3 := Machine (close_tx t (m_proto m2)) (fst (m_exec (m_store m2) (APublish t)))) in *.
    assert (G3 : guard_held (m_proto m3) = false).
    { destruct (guard_held (m_proto m3)) eqn:G; [|reflexivity]. exfalso.
      apply guard_held_true in G as (w & r & Nr & Gr). cbn in Nr. rewrite nth_error_alter in Nr.
      destruct (Nat.eqb_spec t w) as [->|D].
      - destruct (nth_error _ w); [|discriminate]. injection Nr as <-. discriminate.
      - apply D. eapply (pi_one _ (mi_p m2 I2)); eauto. }
    cbn [m_run]. rewrite E2. cbn [m_run]. rewrite E3. cbn [m_run].
    assert (E4 : m_step m3 (ERead i) = (m3, XNode (g_get (gr m3) i))).
    { unfold m_step, p_step. assert (p_hung (m_proto m3) = false) as -> by exact H1. rewrite G3. reflexivity. }
    rewrite E4. cbn [snd]. do 3 f_equal. f_equal. unfold gr at 1. cbn -[ops_overlay buf_ops].
    fold (hp m1) (gr m1). rewrite EG, EB. apply g_get_apply_ops. apply (mi_wf m I).
  Qed.

  Lemma nesting_graph (s : script) (m : machine) c t : minv m ->
    p_hung (m_proto m) = false ->
    nth_error (p_ctxs (m_proto m)) c = Some (CtxRec t Live) ->
    top_level (m_proto m) t ->
    (forall d st, nth_error (p_ctxs (m_proto m)) d = Some (CtxRec t st) -> d = c \/ st = Dropped) ->
    (forall u, opened_on (m_proto m) u c -> tx_live (m_proto m) u = false) ->
    forall i,
      snd (m_run (play s m c) [EDropCtx c; EEnd t true; ERead i]) =
      snd (m_run (play (flatten s) m c) [EDropCtx c; EEnd t true; ERead i]) /\
      forall b : base, (forall i, ask m c i = XNode (b i)) ->
      snd (m_run (play s m c) [EDropCtx c; EEnd t true; ERead i]) =
      [XUnit; XUnit; XNode (replay (entries s) b i)].
  Proof.
    intros I H N T OC NB i.
    assert (B : ctx_borrowed (m_proto m) c = false).
    { destruct (ctx_borrowed (m_proto m) c) eqn:B; [|reflexivity]. exfalso.
      apply ctx_borrowed_spec in B as (w & [q g o] & Nw & Ow & Pw). cbn in Ow, Pw. subst.
      assert (O : opened_on (m_proto m) w c) by (now exists g, true).
      specialize (NB w O). unfold tx_live in NB. rewrite Nw in NB. discriminate. }
    rewrite !(play_commit _ m c t I H N T OC B). rewrite script_ops_flatten. split; [reflexivity|].
    intros b Eb. do 3 f_equal. f_equal. rewrite ops_overlay_app, <- script_ops_entries, <- overlay_replay.
    destruct (ops_overlay (script_ops s) i) eqn:Eo; [reflexivity|].
    specialize (Eb i). rewrite ask_alive in Eb by (try assumption; now exists t). injection Eb as <-.
    assert (M : made_from (m_proto m) c t) by (now exists Live).
    destruct (mi_val m I _ _ M) as [[_ ->]|(q & O & _)]; [|exfalso; eapply opened_on_top; eassumption].
    now rewrite ctx_get_unfold.
  Qed.

  Lemma locked_out_forever (m : machine) (es' : list event) c (e : event) : minv m ->
    alive (m_proto m) c -> p_hung (m_proto m) = false ->
    match e with
    | ERead _ | EWrite _ => True
    | EContext t => top_level (m_proto m) t /\ tx_live (m_proto m) t = true /\ ~ within (m_proto m) c t
    | _ => False
    end ->
    snd (m_run m (e :: es')) = map (fun _ => XHang) (e :: es') /\
    m_store (fst (m_run m (e :: es'))) = m_store m.
  Proof.
    intros I A H E. destruct (locked_out m c e I A H E) as (O & H' & S).
    destruct (hung_forever es' _ H') as [O' S']. cbn [m_run map].
    destruct (m_step m e) as [m1 o]. cbn [fst snd] in *. subst o.
    destruct (m_run m1 es') as [m2 os]. cbn [fst snd] in *. subst os. split; congruence.
  Qed.

  Lemma siblings_apart (m : machine) t1 t2 c d1 d2 : minv m ->
    opened_on (m_proto m) t1 c -> opened_on (m_proto m) t2 c -> t1 <> t2 ->
    made_from (m_proto m) d1 t1 -> made_from (m_proto m) d2 t2 ->
    ~ within (m_proto m) d2 t1 /\ ~ within (m_proto m) d1 t2 /\
    ~ within (m_proto m) c t1 /\ ~ within (m_proto m) c t2.
  Proof.
    intros I O1 O2 D M1 M2.
    assert (NC : forall t, opened_on (m_proto m) t c -> ~ within (m_proto m) c t).
    { intros t O W. destruct (pinv_opened _ _ _ (mi_p m I) O) as (u & M & L).
      pose proof (within_le _ _ _ (mi_p m I) W u M). lia. }
    assert (K : forall t t' d', opened_on (m_proto m) t c -> opened_on (m_proto m) t' c -> t <> t' ->
                made_from (m_proto m) d' t' -> ~ within (m_proto m) d' t).
    { intros t t' d' O O' D' M' W. inversion W as [Mx|u q Mu Ou Wq]; subst.
      - apply D'. eapply made_from_fun; eassumption.
      - rewrite (made_from_fun _ _ _ _ Mu M') in Ou. rewrite (opened_on_fun _ _ _ _ Ou O') in Wq.
        exact (NC t O Wq). }
    repeat split; eauto.
  Qed.

  (** Buffers only grow. *)
  Lemma buf_grows (m : machine) (e : event) t : exists l,
    buf_ops (hp (fst (m_step m e))) t = buf_ops (hp m) t ++ l.
  Proof.
    assert (AL : forall (f : list op -> list op) b (h : heap Id Node),
      (forall x, exists l, f x = x ++ l) -> exists l, buf_ops (alter f b h) t = buf_ops h t ++ l).
    { intros f b h F. destruct (Nat.eq_dec b t) as [<-|D].
      - destruct (Nat.lt_ge_cases b (length h)) as [L|L].
        + destruct (F (buf_ops h b)) as [l E]. exists l. unfold buf_ops at 1. rewrite nth_alter_eq by assumption.
          exact E.
        + exists []. rewrite alter_oob by assumption. now rewrite app_nil_r.
      - exists []. unfold buf_ops. rewrite nth_alter_ne by assumption. now rewrite app_nil_r. }
    assert (NW : forall h : heap Id Node, exists l, buf_ops (h ++ [[]]) t = buf_ops h t ++ l).
    { intros h. exists []. rewrite app_nil_r. unfold buf_ops.
      destruct (Nat.lt_trichotomy t (length h)) as [L|[L|L]].
      - now rewrite nth_snoc_old.
      - subst t. now rewrite nth_snoc_new, nth_overflow by lia.
      - rewrite !nth_overflow; [reflexivity|lia|rewrite app_length; cbn; lia]. }
    assert (RF : exists l, buf_ops (hp m) t = buf_ops (hp m) t ++ l) by (exists []; now rewrite app_nil_r).
    rewrite m_step_fst. unfold hp at 1. mcbn.
    destruct (p_step_pstep (m_proto m) e) as
        [ | | | | | | | | | | | | | | | | | |[] ]; mcbn; try exact RF; try apply NW;
      unfold ctx_save, ctx_delete, buf_push, fg_extend; apply AL; eauto.
  Qed.

  (** Pending operations recorded by a history are in the buffer. *)
  Lemma history_pends_overlay (g : graph) (W : g_wf g) es t i :
    history_pends g es t i -> ops_overlay (buf_ops (hp (after g es)) t) i <> None.
  Proof.
    induction 1 as [es c n t O M|es c j t O M|es u c t i O Op M NL P IH|es e t i P IH];
      pose proof (minv_after g es W) as I; rewrite after_snoc.
    - revert O. unfold m_step, p_step. destruct (p_hung _) eqn:Hh; [discriminate|].
      destruct (ctx_live _ c); [|discriminate]. intros _. unfold hp. mcbn.
      unfold ctx_save. rewrite (ctx_buf_value _ _ _ I M), buf_ops_push_eq by apply (tx_lt _ _ _ I M).
      rewrite ops_overlay_app, ops_overlay_one. cbn. rewrite eqb_refl. discriminate.
    - revert O. unfold m_step, p_step. destruct (p_hung _) eqn:Hh; [discriminate|].
      destruct (ctx_live _ c); [|discriminate]. intros _. unfold hp. mcbn.
      unfold ctx_delete. rewrite (ctx_buf_value _ _ _ I M), buf_ops_push_eq by apply (tx_lt _ _ _ I M).
      rewrite ops_overlay_app, ops_overlay_one. cbn. rewrite eqb_refl. discriminate.
    - destruct (m_step_end_cases _ _ _ O) as (H & q & gd & Nt & HL).
      assert (q = Some c) as -> by (destruct Op as (? & ? & Nt'); congruence).
      assert (HK : has_ctx (m_proto (after g es)) u Leaked = false).
      { destruct (has_ctx _ u Leaked) eqn:HK; [|reflexivity]. apply has_ctx_spec in HK as [x Nx].
        now apply NL in Nx. }
      rewrite m_step_fst, (m_step_end_unit _ u true (Some c) gd H Nt HL), HK. unfold hp. mcbn.
      cbn [negb]. mcbn. unfold fg_extend. rewrite (ctx_buf_value _ _ _ I M). unfold buf_ops at 1.
      rewrite nth_alter_eq by apply (tx_lt _ _ _ I M). rewrite ops_overlay_app.
      unfold hp in IH. destruct (ops_overlay (buf_ops _ u) i); [discriminate|]. now contradiction IH.
    - destruct (buf_grows (after g es) e t) as [l ->]. rewrite ops_overlay_app.
      destruct (ops_overlay l i); [discriminate|exact IH].
  Qed.
End Hist.
