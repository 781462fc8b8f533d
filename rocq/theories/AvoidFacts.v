(** What a program does not look at does not matter to it: a simulation along the recursion of [run], [trace] and
    [events]. *)
From Coq Require Import List Bool Arith Lia.
From Verif Require Import Ord OrdFacts BTree BTreeFacts Graph SpecGraph GraphFacts Tx TxFacts TxMachine SpecTx Prog SpecProg
  ProgFacts ProgFrame ProgOps ProgTrace ProgRes ProgEvents SpecAvoid.
Import ListNotations.

Section Avoid.
  Context {Id Node V U : Type} `{HO : OrdT Id} `{HI : Identify Node Id}.
  Notation prog := (prog Id Node V U).
  Notation world := (world Id Node V U).
  Notation schema := (schema Id Node V U).
  Notation outcome := (outcome V).
  Notation cell := (cell Node U).
  Notation hidden := (hidden Id).

  Local Arguments buf_ops : simpl never.

  Variable h : hidden.

  Definition alike (cs1 cs2 : list cell) : Prop :=
    length cs1 = length cs2 /\ forall a, ~ hd_cell h a -> nth_error cs1 a = nth_error cs2 a.

  Lemma alike_alter f a cs1 cs2 : alike cs1 cs2 -> alike (alter f a cs1) (alter f a cs2).
  Proof.
    intros [L E]. split; [now rewrite !alter_length|]. intros b N. now rewrite !nth_error_alter, (E b N).
  Qed.

  Lemma alike_release p l cs1 cs2 : alike cs1 cs2 -> alike (release p l cs1) (release p l cs2).
  Proof. intros E. induction l as [|[a|] l IH]; cbn; auto. now apply alike_alter. Qed.

  Lemma alike_acquire1 m x cs1 cs2 : alike cs1 cs2 -> (forall a, h_addr x = Some a -> ~ hd_cell h a) ->
    match acquire1 m x cs1, acquire1 m x cs2 with
    | AcqOk _ cs1' o1, AcqOk _ cs2' o2 => o1 = o2 /\ alike cs1' cs2' /\ forall a, o1 = Some a -> ~ hd_cell h a
    | AcqHang _, AcqHang _ | AcqStuck _, AcqStuck _ => True
    | _, _ => False
    end.
  Proof.
    intros A N. unfold acquire1. destruct (h_addr x) as [a|]; [|split; [reflexivity|split; [exact A|discriminate]]].
    specialize (N a eq_refl). rewrite <- (proj2 A a N). destruct (nth_error cs1 a) as [y|]; [|exact I].
    destruct (blocked m (c_lock y)); [exact I|]. destruct (c_poison y); [split; [reflexivity|split; [exact A|discriminate]]|].
    split; [reflexivity|]. split; [now apply alike_alter|]. now intros ? [= <-].
  Qed.

  Lemma alike_acquire m hs : forall cs1 cs2, alike cs1 cs2 -> (forall x a, In x hs -> h_addr x = Some a -> ~ hd_cell h a) ->
    match acquire m hs cs1, acquire m hs cs2 with
    | AcqOk _ cs1' l1, AcqOk _ cs2' l2 => l1 = l2 /\ alike cs1' cs2' /\ forall a, In (Some a) l1 -> ~ hd_cell h a
    | AcqHang _, AcqHang _ | AcqStuck _, AcqStuck _ => True
    | _, _ => False
    end.
  Proof.
    induction hs as [|x hs IH]; intros cs1 cs2 A N; cbn; [split; [reflexivity|split; [exact A|intros a []]]|].
    pose proof (alike_acquire1 m x cs1 cs2 A (fun a => N x a (or_introl eq_refl))) as K.
    destruct (acquire1 m x cs1) as [cs1' o1| |], (acquire1 m x cs2) as [cs2' o2| |]; try destruct K; auto.
    subst o2. destruct H0 as [A' N'].
    specialize (IH cs1' cs2' A' (fun y a J => N y a (or_intror J))).
    destruct (acquire m hs cs1') as [cs1'' l1| |], (acquire m hs cs2') as [cs2'' l2| |]; try destruct IH; auto.
    subst l2. destruct H0 as [A'' N'']. split; [reflexivity|]. split; [exact A''|]. intros a [E|J]; [now apply N'|now apply N''].
  Qed.

  Lemma alike_deref hs : forall l cs1 cs2, alike cs1 cs2 -> (forall a, In (Some a) l -> ~ hd_cell h a) ->
    deref_all cs1 hs l = deref_all cs2 hs l.
  Proof.
    induction hs as [|x hs IH]; intros [|o l] cs1 cs2 A N; cbn; try reflexivity.
    rewrite (IH l cs1 cs2 A) by (intros a J; apply N; now right).
    replace (deref1 cs2 x o) with (deref1 cs1 x o); [reflexivity|].
    unfold deref1. destruct o as [a|]; [|reflexivity]. rewrite (proj2 A a); [reflexivity|]. apply N. now left.
  Qed.

  Notation similar := (similar h).

  Lemma sim_alike (w1 w2 : world) : similar w1 w2 -> alike (w_cells w1) (w_cells w2).
  Proof. intros S. split; [apply (sm_cells _ _ _ S)|apply (sm_cell _ _ _ S)]. Qed.

  Lemma sim_set_lock l (w1 w2 : world) : similar w1 w2 -> similar (set_lock l w1) (set_lock l w2).
  Proof. intros []. now constructor. Qed.
  Lemma sim_set_poison (w1 w2 : world) : similar w1 w2 -> similar (set_poison w1) (set_poison w2).
  Proof. intros []. now constructor. Qed.
  Lemma sim_set_heap b (w1 w2 : world) : similar w1 w2 -> similar (set_heap b w1) (set_heap b w2).
  Proof. intros []. now constructor. Qed.
  Lemma sim_set_leaked l (w1 w2 : world) : similar w1 w2 -> similar (set_leaked l w1) (set_leaked l w2).
  Proof. intros []. now constructor. Qed.
  Lemma sim_emit v (w1 w2 : world) : similar w1 w2 -> similar (emit v w1) (emit v w2).
  Proof. intros []. constructor; auto. cbn. now f_equal. Qed.
  Lemma sim_set_cells cs1 cs2 (w1 w2 : world) : similar w1 w2 -> alike cs1 cs2 -> length (w_cells w1) <= length cs1 ->
    similar (set_cells cs1 w1) (set_cells cs2 w2).
  Proof.
    intros [] [L E] Le. constructor; auto. cbn. intros a J. specialize (sm_known a J). lia.
  Qed.
  Lemma sim_close b (w1 w2 : world) : similar w1 w2 -> similar (close b w1) (close b w2).
  Proof.
    intros S. unfold close. rewrite (sm_leaked _ _ _ S), (sm_heap _ _ _ S). now apply sim_set_leaked, sim_set_heap.
  Qed.
  Lemma sim_apply ops : forall (w1 w2 : world), similar w1 w2 ->
    similar (set_graph (apply_ops (w_graph w1) ops) w1) (set_graph (apply_ops (w_graph w2) ops) w2).
  Proof.
    intros w1 w2 S. assert (R : forall g : graph Id Node, g_reachable g -> g_reachable (apply_ops g ops)).
    { clear. induction ops as [|o ops IH]; intros g R; [exact R|]. apply IH.
      destruct o; [exact (gr_step g (GInsert n) R)|exact (gr_step g (GRemove i) R)]. }
    pose proof (g_reachable_wf _ (sm_graph1 _ _ _ S)) as W1. pose proof (g_reachable_wf _ (sm_graph2 _ _ _ S)) as W2.
    destruct S. constructor; try assumption; cbn [w_graph set_graph]; auto. intros i N. rewrite !g_get_apply_ops by assumption. now rewrite sm_graph.
  Qed.
  Lemma sim_bg_commit crash b (w1 w2 : world) : similar w1 w2 ->
    similar (fst (bg_commit crash b w1)) (fst (bg_commit crash b w2)) /\
    snd (bg_commit crash b w1) = snd (bg_commit crash b w2).
  Proof.
    intros S. unfold bg_commit, leaked. rewrite (sm_leaked _ _ _ S), (sm_heap _ _ _ S).
    destruct (existsb _ _); [now split|]. cbn zeta.
    destruct crash as [k|]; [destruct (crashes k _)|]; (split; [now apply sim_apply|reflexivity]).
  Qed.
  Lemma sim_fg_commit c b (w1 w2 : world) : similar w1 w2 -> similar (fg_commit c b w1) (fg_commit c b w2).
  Proof.
    intros S. unfold fg_commit, leaked. rewrite (sm_leaked _ _ _ S), (sm_heap _ _ _ S).
    destruct (existsb _ _); [exact S|now apply sim_set_heap].
  Qed.
  Lemma sim_ctx_get (w1 w2 : world) c i : similar w1 w2 -> ~ hd_id h i ->
    ctx_get (w_heap w1) (w_graph w1) c i = ctx_get (w_heap w2) (w_graph w2) c i.
  Proof.
    intros S N. rewrite (sm_heap _ _ _ S). induction c as [b t|c IH b t]; cbn.
    - now rewrite (sm_graph _ _ _ S).
    - now rewrite IH.
  Qed.
  Lemma sim_ctx_contains (w1 w2 : world) c i : similar w1 w2 -> ~ hd_id h i ->
    ctx_contains (w_heap w1) (w_graph w1) c i = ctx_contains (w_heap w2) (w_graph w2) c i.
  Proof.
    intros S N. pose proof (sim_ctx_get w1 w2 c i S N) as E.
    rewrite !ctx_contains_get. now rewrite E.
  Qed.
  Lemma sim_step (w1 w2 : world) c : similar w1 w2 -> (forall i, asks c i -> ~ hd_id h i) ->
    similar (set_graph (fst (g_step (w_graph w1) c)) w1) (set_graph (fst (g_step (w_graph w2) c)) w2) /\
    snd (g_step (w_graph w1) c) = snd (g_step (w_graph w2) c).
  Proof.
    intros S A. pose proof (g_reachable_wf _ (sm_graph1 _ _ _ S)) as W1. pose proof (g_reachable_wf _ (sm_graph2 _ _ _ S)) as W2. split.
    - destruct S. constructor; try assumption; cbn [w_graph set_graph]; try (now apply gr_step). intros i N.
      rewrite !g_get_step by assumption. now rewrite sm_graph.
    - destruct c as [n|n|i]; cbn; [reflexivity| |]; apply (sm_graph _ _ _ S); apply A; reflexivity.
  Qed.

  Variables sc1 sc2 : schema.
  Hypothesis SB : same_but h sc1 sc2.
  Hypothesis TA : triggers_avoid sc1 h.

  Lemma avoids_try c ts : (forall t, In t ts -> avoids sc1 h (t c)) -> avoids sc1 h (try_for_each ts c : prog).
  Proof.
    induction ts as [|t ts IH]; intros A; cbn; [exact I|]. split; [apply A; now left|].
    assert (K : avoids sc1 h (try_for_each ts c : prog)) by (apply IH; intros; apply A; now right).
    intros [| |e]; [exact K|exact K|exact I].
  Qed.

  Definition same_end (x1 x2 : option (world * outcome)) : Prop :=
    match x1, x2 with
    | Some (w1, o1), Some (w2, o2) => o1 = o2 /\ similar w1 w2
    | None, None => True
    | _, _ => False
    end.

  Lemma release_length q l : forall cs : list cell, length (release q l cs) = length cs.
  Proof. induction l as [|[a|] l IH]; intros cs; cbn; auto. now rewrite alter_length. Qed.

  Lemma sim_target n (w1 w2 : world) : similar w1 w2 ->
    similar (set_cells (w_cells w1 ++ [Cell (DNode n) false Free]) w1) (set_cells (w_cells w2 ++ [Cell (DNode n) false Free]) w2).
  Proof.
    intros S. apply sim_set_cells; [exact S| |rewrite app_length; lia].
    split; [now rewrite !app_length, (sm_cells _ _ _ S)|]. intros a N.
    destruct (Nat.lt_ge_cases a (length (w_cells w1))) as [L|L].
    - rewrite !nth_error_app1 by (rewrite <- ?(sm_cells _ _ _ S); exact L). now apply (sm_cell _ _ _ S).
    - rewrite !nth_error_app2 by (rewrite <- ?(sm_cells _ _ _ S); exact L). now rewrite (sm_cells _ _ _ S).
  Qed.

  Lemma run_similar fuel : forall (w1 w2 : world) (p : prog), similar w1 w2 -> avoids sc1 h p ->
    same_end (run sc1 fuel w1 p) (run sc2 fuel w2 p).
  Proof.
    induction fuel as [|fuel IH]; intros w1 w2 p S A; [exact I|].
    destruct p as [r| | |v k|body k|body k|t body k|c n k|c i k|c i k|c i k|c n k|c k|s c k|body k|body k|i k|k|c k|t k|m hs body k|a d k];
      cbn [run avoids] in *.
    - now split.
    - now split.
    - exact I.
    - apply IH; [now apply sim_emit|exact A].
    - destruct A as [A1 A2]. pose proof (IH w1 w2 body S A1) as K. unfold same_end in K at 1.
      destruct (run sc1 fuel w1 body) as [[w1' o1]|], (run sc2 fuel w2 body) as [[w2' o2]|]; try destruct K; [subst o2|exact I].
      destruct o1; [now apply IH|now split|now split|now split].
    - destruct A as [A1 A2]. pose proof (IH w1 w2 body S A1) as K. unfold same_end in K at 1.
      destruct (run sc1 fuel w1 body) as [[w1' o1]|], (run sc2 fuel w2 body) as [[w2' o2]|]; try destruct K; [subst o2|exact I].
      destruct o1; [now apply IH|now apply IH|now split|now split].
    - destruct t as [crash|c].
      + destruct A as [A1 A2]. rewrite <- (sm_lock _ _ _ S), <- (sm_heap _ _ _ S).
        destruct (w_lock w1); try (now split).
        pose proof (IH (set_lock GTx (set_heap (w_heap w1 ++ [[]]) w1)) (set_lock GTx (set_heap (w_heap w1 ++ [[]]) w2))
                      (body (CRoot (length (w_heap w1)) None)) (sim_set_lock _ _ _ (sim_set_heap _ _ _ S)) (A1 _)) as K.
        unfold same_end in K at 1. destruct (run sc1 fuel _ _) as [[w1' o1]|], (run sc2 fuel _ _) as [[w2' o2]|]; try destruct K; [subst o2|exact I].
        destruct o1 as [r| | |].
        * destruct (is_ok r); [|apply IH; [now apply sim_close, sim_set_lock|apply A2]].
          destruct (sim_bg_commit crash (length (w_heap w1)) w1' w2' H0) as [K1 K2].
          destruct (bg_commit crash _ w1') as [u1 x1], (bg_commit crash _ w2') as [u2 x2]. cbn [fst snd] in *. subst x2. cbn zeta.
          destruct x1; [split; [reflexivity|now apply sim_set_poison, sim_close, sim_set_lock]|].
          apply IH; [now apply sim_close, sim_set_lock|apply A2].
        * split; [reflexivity|]. now apply sim_close, sim_set_lock, sim_set_poison.
        * now split.
        * now split.
      + destruct A as [A1 A2]. cbn zeta. rewrite <- (sm_heap _ _ _ S).
        pose proof (IH (set_heap (w_heap w1 ++ [[]]) w1) (set_heap (w_heap w1 ++ [[]]) w2)
                      (body (CSub c (length (w_heap w1)) None)) (sim_set_heap _ _ _ S) (A1 _)) as K.
        unfold same_end in K at 1. destruct (run sc1 fuel _ _) as [[w1' o1]|], (run sc2 fuel _ _) as [[w2' o2]|]; try destruct K; [subst o2|exact I].
        destruct o1 as [r| | |].
        * destruct (is_ok r); apply IH; try apply A2; [now apply sim_close, sim_fg_commit|now apply sim_close].
        * split; [reflexivity|]. now apply sim_close.
        * now split.
        * now split.
    - rewrite <- (sm_heap _ _ _ S). apply IH; [now apply sim_set_heap|exact A].
    - rewrite <- (sm_heap _ _ _ S). apply IH; [now apply sim_set_heap|exact A].
    - destruct A as [N A]. rewrite (sim_ctx_get w1 w2 c i S N). now apply IH.
    - destruct A as [N A]. rewrite (sim_ctx_contains w1 w2 c i S N). now apply IH.
    - rewrite <- (sm_cells _ _ _ S).
      assert (F : ~ hd_cell h (length (w_cells w1))) by (intros J; apply (sm_known _ _ _ S) in J; lia).
      apply IH; [|now apply A]. now apply sim_target.
    - rewrite <- (sm_leaked _ _ _ S). apply IH; [now apply sim_set_leaked|exact A].
    - destruct A as (N & Un & A). rewrite !select_scheduled. rewrite <- (sb_triggers _ _ _ SB s N).
      assert (K0 : avoids sc1 h (try_for_each (scheduled sc1 s) c : prog)) by (apply avoids_try; intros t J; now apply (TA s)).
      pose proof (IH w1 w2 _ S K0) as K. unfold same_end in K at 1.
      destruct (run sc1 fuel w1 _) as [[w1' o1]|], (run sc2 fuel w2 _) as [[w2' o2]|]; try destruct K; [subst o2|exact I].
      destruct o1; [now apply IH|now split|now split|now split].
    - destruct A as [A1 A2]. rewrite <- (sm_lock _ _ _ S). destruct (glock_read (w_lock w1)) as [l|]; [|now split].
      pose proof (IH (set_lock l w1) (set_lock l w2) body (sim_set_lock _ _ _ S) A1) as K. unfold same_end in K at 1.
      destruct (run sc1 fuel _ body) as [[w1' o1]|], (run sc2 fuel _ body) as [[w2' o2]|]; try destruct K; [subst o2|exact I].
      rewrite <- (sm_lock _ _ _ H0).
      destruct o1; [apply IH; [now apply sim_set_lock|apply A2]|split; [reflexivity|now apply sim_set_lock]|now split|now split].
    - destruct A as [A1 A2]. rewrite <- (sm_lock _ _ _ S). destruct (w_lock w1); try (now split).
      pose proof (IH (set_lock GWrite w1) (set_lock GWrite w2) body (sim_set_lock _ _ _ S) A1) as K. unfold same_end in K at 1.
      destruct (run sc1 fuel _ body) as [[w1' o1]|], (run sc2 fuel _ body) as [[w2' o2]|]; try destruct K; [subst o2|exact I].
      destruct o1; [apply IH; [now apply sim_set_lock|apply A2]|split; [reflexivity|now apply sim_set_lock, sim_set_poison]|now split|now split].
    - destruct A as [N A]. rewrite <- (sm_lock _ _ _ S), <- (sm_graph _ _ _ S i N). destruct (w_lock w1); try (now split); now apply IH.
    - destruct A as [N A]. rewrite <- (sm_lock _ _ _ S).
      assert (G : w_graph w1 = w_graph w2).
      { apply g_ext; [apply g_reachable_wf, (sm_graph1 _ _ _ S)|apply g_reachable_wf, (sm_graph2 _ _ _ S)|].
        intros i. now apply (sm_graph _ _ _ S). }
      rewrite <- G. destruct (w_lock w1); try (now split); now apply IH.
    - destruct A as [N A]. rewrite <- (sm_lock _ _ _ S). destruct (w_lock w1); try (now split).
      destruct (sim_step w1 w2 c S N) as [K1 K2].
      destruct (g_step (w_graph w1) c) as [g1 r1], (g_step (w_graph w2) c) as [g2 r2]. cbn [fst snd] in *. subst r2. now apply IH.
    - unfold res_from in *. rewrite <- (sb_resources _ _ _ SB). now apply IH.
    - destruct A as (N & A1 & A2). pose proof (alike_acquire m hs _ _ (sim_alike _ _ S) N) as K.
      destruct (acquire m hs (w_cells w1)) as [cs1 l1| |] eqn:Q1, (acquire m hs (w_cells w2)) as [cs2 l2| |] eqn:Q2;
        try destruct K; try (now split).
      subst l2. destruct H0 as [AL NL]. rewrite (alike_deref hs l1 cs1 cs2 AL NL).
      assert (L1 : length cs1 = length (w_cells w1)) by (eapply acquire_length; eauto).
      destruct (deref_all cs2 hs l1) as [vs|] eqn:D.
      + pose proof (IH (set_cells cs1 w1) (set_cells cs2 w2) (body vs)) as K. unfold same_end in K at 1.
        specialize (K (sim_set_cells _ _ _ _ S AL ltac:(lia)) (A1 vs (deref_all_addrs _ _ _ _ _ _ _ Q2 D))).
        destruct (run sc1 fuel _ (body vs)) as [[w1' o1]|] eqn:R1, (run sc2 fuel _ (body vs)) as [[w2' o2]|]; try destruct K; [subst o2|exact I].
        destruct o1; [apply IH; [|apply A2]|split; [reflexivity|]|now split|now split];
          (apply sim_set_cells; [assumption|apply alike_release; now apply sim_alike|now rewrite release_length]).
      + apply IH; [|apply A2]. apply sim_set_cells; [exact S|now apply alike_release|now rewrite release_length, L1].
    - destruct A as [N A]. rewrite <- (sm_cell _ _ _ S a N). destruct (nth_error (w_cells w1) a) as [x|]; [|now split].
      destruct (c_lock x); try (now split). destruct (ty_eqb _ _); [|now split].
      apply IH; [|exact A]. apply sim_set_cells; [exact S|apply alike_alter; now apply sim_alike|now rewrite alter_length].
  Qed.

  Ltac hd := try match goal with |- _ :: _ = _ :: _ => f_equal | |- _ ++ _ = _ ++ _ => f_equal end.

  Lemma acquire_notices_alike m hs : forall cs1 cs2, alike cs1 cs2 -> (forall x a, In x hs -> h_addr x = Some a -> ~ hd_cell h a) ->
    acquire_notices m hs cs1 = acquire_notices m hs cs2 :> list (happening Id Node).
  Proof.
    induction hs as [|x hs IH]; intros cs1 cs2 A N; cbn; [reflexivity|].
    assert (E : acquire1_notices m x cs1 = acquire1_notices m x cs2 :> list (happening Id Node)).
    { unfold acquire1_notices. destruct (h_addr x) as [a|] eqn:Ex; [|reflexivity].
      now rewrite (proj2 A a (N x a (or_introl eq_refl) Ex)). }
    rewrite E. f_equal. pose proof (alike_acquire1 m x cs1 cs2 A (fun a => N x a (or_introl eq_refl))) as K.
    destruct (acquire1 m x cs1) as [cs1' o1| |], (acquire1 m x cs2) as [cs2' o2| |]; try destruct K; auto.
    subst o2. destruct H0 as [A' _]. apply IH; [exact A'|]. intros y a J. apply N. now right.
  Qed.

  Lemma trace_similar fuel : forall (w1 w2 : world) (p : prog), similar w1 w2 -> avoids sc1 h p ->
    trace sc1 fuel w1 p = trace sc2 fuel w2 p.
  Proof.
    induction fuel as [|fuel IH]; intros w1 w2 p S A; [reflexivity|].
    destruct p as [r| | |v k|body k|body k|t body k|c n k|c i k|c i k|c i k|c n k|c k|s c k|body k|body k|i k|k|c k|t k|m hs body k|a d k];
      cbn [trace avoids] in *.
    - reflexivity.
    - reflexivity.
    - reflexivity.
    - apply IH; [now apply sim_emit|exact A].
    - destruct A as [A1 A2]. rewrite (IH w1 w2 body S A1). f_equal.
      pose proof (run_similar fuel w1 w2 body S A1) as K. unfold same_end in K.
      destruct (run sc1 fuel w1 body) as [[w1' o1]|], (run sc2 fuel w2 body) as [[w2' o2]|]; try destruct K; [subst o2|reflexivity].
      destruct o1; [now apply IH|reflexivity|reflexivity|reflexivity].
    - destruct A as [A1 A2]. rewrite (IH w1 w2 body S A1). f_equal.
      pose proof (run_similar fuel w1 w2 body S A1) as K. unfold same_end in K.
      destruct (run sc1 fuel w1 body) as [[w1' o1]|], (run sc2 fuel w2 body) as [[w2' o2]|]; try destruct K; [subst o2|reflexivity].
      destruct o1; [now apply IH|now apply IH|reflexivity|reflexivity].
    - destruct t as [crash|c].
      + destruct A as [A1 A2]. unfold guard_notices. rewrite <- (sm_lock _ _ _ S), <- (sm_heap _ _ _ S), <- ?(sm_poison _ _ _ S).
        hd. destruct (w_lock w1); try reflexivity. cbn zeta.
        pose proof (sim_set_lock GTx _ _ (sim_set_heap (w_heap w1 ++ [[]]) _ _ S)) as S0.
        rewrite (IH _ _ _ S0 (A1 _)). hd. hd.
        pose proof (run_similar fuel _ _ _ S0 (A1 (length (w_heap w1)))) as K. unfold same_end in K.
        destruct (run sc1 fuel _ _) as [[w1' o1]|], (run sc2 fuel _ _) as [[w2' o2]|]; try destruct K; [subst o2|reflexivity].
        destruct o1 as [r| | |]; try reflexivity. hd.
        destruct (is_ok r); [|apply IH; [now apply sim_close, sim_set_lock|apply A2]].
        unfold commit_trace, leaked. rewrite <- (sm_leaked _ _ _ H0), <- (sm_heap _ _ _ H0). f_equal.
        destruct (sim_bg_commit crash (length (w_heap w1)) w1' w2' H0) as [K1 K2].
        destruct (bg_commit crash _ w1') as [u1 x1], (bg_commit crash _ w2') as [u2 x2]. cbn [fst snd] in *. subst x2.
        destruct x1; [reflexivity|]. apply IH; [now apply sim_close, sim_set_lock|apply A2].
      + destruct A as [A1 A2]. cbn zeta. rewrite <- (sm_heap _ _ _ S).
        pose proof (sim_set_heap (w_heap w1 ++ [[]]) _ _ S) as S0.
        rewrite (IH _ _ _ S0 (A1 _)). f_equal.
        pose proof (run_similar fuel _ _ _ S0 (A1 (length (w_heap w1)))) as K. unfold same_end in K.
        destruct (run sc1 fuel _ _) as [[w1' o1]|], (run sc2 fuel _ _) as [[w2' o2]|]; try destruct K; [subst o2|reflexivity].
        destruct o1 as [r| | |]; try reflexivity.
        destruct (is_ok r); [|apply IH; [now apply sim_close|apply A2]].
        unfold merge_notices, leaked. rewrite <- (sm_leaked _ _ _ H0), <- ?(sm_heap _ _ _ H0). f_equal.
        apply IH; [now apply sim_close, sim_fg_commit|apply A2].
    - rewrite <- (sm_heap _ _ _ S). hd. apply IH; [now apply sim_set_heap|exact A].
    - rewrite <- (sm_heap _ _ _ S). hd. apply IH; [now apply sim_set_heap|exact A].
    - destruct A as [N A]. rewrite (sim_ctx_get w1 w2 c i S N). now apply IH.
    - destruct A as [N A]. rewrite (sim_ctx_contains w1 w2 c i S N). now apply IH.
    - rewrite <- (sm_cells _ _ _ S).
      assert (F : ~ hd_cell h (length (w_cells w1))) by (intros J; apply (sm_known _ _ _ S) in J; lia).
      apply IH; [|now apply A]. now apply sim_target.
    - rewrite <- (sm_leaked _ _ _ S). apply IH; [now apply sim_set_leaked|exact A].
    - destruct A as (N & Un & A). cbn zeta. rewrite !select_scheduled. rewrite <- (sb_triggers _ _ _ SB s N).
      assert (K0 : avoids sc1 h (try_for_each (scheduled sc1 s) c : prog)) by (apply avoids_try; intros t J; now apply (TA s)).
      rewrite (IH w1 w2 _ S K0). f_equal.
      pose proof (run_similar fuel w1 w2 _ S K0) as K. unfold same_end in K.
      destruct (run sc1 fuel w1 _) as [[w1' o1]|], (run sc2 fuel w2 _) as [[w2' o2]|]; try destruct K; [subst o2|reflexivity].
      destruct o1; [now apply IH|reflexivity|reflexivity|reflexivity].
    - destruct A as [A1 A2]. unfold guard_notices. rewrite <- (sm_lock _ _ _ S), <- ?(sm_poison _ _ _ S). hd.
      destruct (glock_read (w_lock w1)) as [l|]; [|reflexivity].
      pose proof (sim_set_lock l _ _ S) as S0. rewrite (IH _ _ body S0 A1). hd. hd.
      pose proof (run_similar fuel _ _ body S0 A1) as K. unfold same_end in K.
      destruct (run sc1 fuel _ body) as [[w1' o1]|], (run sc2 fuel _ body) as [[w2' o2]|]; try destruct K; [subst o2|reflexivity].
      destruct o1; try reflexivity. hd. rewrite <- (sm_lock _ _ _ H0). apply IH; [now apply sim_set_lock|apply A2].
    - destruct A as [A1 A2]. unfold guard_notices. rewrite <- (sm_lock _ _ _ S), <- ?(sm_poison _ _ _ S). hd.
      destruct (w_lock w1); try reflexivity.
      pose proof (sim_set_lock GWrite _ _ S) as S0. rewrite (IH _ _ body S0 A1). hd. hd.
      pose proof (run_similar fuel _ _ body S0 A1) as K. unfold same_end in K.
      destruct (run sc1 fuel _ body) as [[w1' o1]|], (run sc2 fuel _ body) as [[w2' o2]|]; try destruct K; [subst o2|reflexivity].
      destruct o1; try reflexivity. hd. apply IH; [now apply sim_set_lock|apply A2].
    - destruct A as [N A]. rewrite <- (sm_lock _ _ _ S), <- (sm_graph _ _ _ S i N).
      destruct (w_lock w1); try reflexivity; hd; now apply IH.
    - destruct A as [N A]. rewrite <- (sm_lock _ _ _ S).
      assert (G : w_graph w1 = w_graph w2).
      { apply g_ext; [apply g_reachable_wf, (sm_graph1 _ _ _ S)|apply g_reachable_wf, (sm_graph2 _ _ _ S)|].
        intros i. now apply (sm_graph _ _ _ S). }
      rewrite <- G. destruct (w_lock w1); try reflexivity; hd; now apply IH.
    - destruct A as [N A]. rewrite <- (sm_lock _ _ _ S). destruct (w_lock w1); try reflexivity.
      destruct (sim_step w1 w2 c S N) as [K1 K2].
      destruct (g_step (w_graph w1) c) as [g1 r1], (g_step (w_graph w2) c) as [g2 r2]. cbn [fst snd] in *. subst r2.
      hd. now apply IH.
    - unfold res_from in *. rewrite <- (sb_resources _ _ _ SB). now apply IH.
    - destruct A as (N & A1 & A2). rewrite (acquire_notices_alike m hs _ _ (sim_alike _ _ S) N). f_equal.
      pose proof (alike_acquire m hs _ _ (sim_alike _ _ S) N) as K.
      destruct (acquire m hs (w_cells w1)) as [cs1 l1| |] eqn:Q1, (acquire m hs (w_cells w2)) as [cs2 l2| |] eqn:Q2;
        try destruct K; try reflexivity.
      subst l2. destruct H0 as [AL NL]. rewrite (alike_deref hs l1 cs1 cs2 AL NL).
      assert (L1 : length cs1 = length (w_cells w1)) by (eapply acquire_length; eauto).
      destruct (deref_all cs2 hs l1) as [vs|] eqn:D.
      + pose proof (sim_set_cells _ _ _ _ S AL ltac:(lia)) as S0. pose proof (A1 vs (deref_all_addrs _ _ _ _ _ _ _ Q2 D)) as A0.
        rewrite (IH _ _ _ S0 A0). f_equal. pose proof (run_similar fuel _ _ _ S0 A0) as K. unfold same_end in K.
        destruct (run sc1 fuel _ (body vs)) as [[w1' o1]|] eqn:R1, (run sc2 fuel _ (body vs)) as [[w2' o2]|]; try destruct K; [subst o2|reflexivity].
        destruct o1; try reflexivity. hd. apply IH; [|apply A2].
        apply sim_set_cells; [assumption|apply alike_release; now apply sim_alike|]. now rewrite release_length.
      + hd. apply IH; [|apply A2]. apply sim_set_cells; [exact S|now apply alike_release|]. now rewrite release_length, L1.
    - destruct A as [N A]. rewrite <- (sm_cell _ _ _ S a N). destruct (nth_error (w_cells w1) a) as [x|]; [|reflexivity].
      destruct (c_lock x); try reflexivity. destruct (ty_eqb _ _); [|reflexivity].
      apply IH; [|exact A]. apply sim_set_cells; [exact S|apply alike_alter; now apply sim_alike|now rewrite alter_length].
  Qed.

  Lemma acquire_events_alike m hs : forall cs1 cs2, alike cs1 cs2 -> (forall x a, In x hs -> h_addr x = Some a -> ~ hd_cell h a) ->
    acquire_events m hs cs1 = acquire_events m hs cs2 :> list (event Id Node).
  Proof.
    induction hs as [|x hs IH]; intros cs1 cs2 A N; cbn; [reflexivity|].
    assert (E : acquire1_events m x cs1 = acquire1_events m x cs2 :> list (event Id Node)).
    { unfold acquire1_events. destruct (h_addr x) as [a|] eqn:Ex; [|reflexivity].
      now rewrite (proj2 A a (N x a (or_introl eq_refl) Ex)). }
    rewrite E. f_equal. pose proof (alike_acquire1 m x cs1 cs2 A (fun a => N x a (or_introl eq_refl))) as K.
    destruct (acquire1 m x cs1) as [cs1' o1| |], (acquire1 m x cs2) as [cs2' o2| |]; try destruct K; auto.
    subst o2. destruct H0 as [A' _]. apply IH; [exact A'|]. intros y a J. apply N. now right.
  Qed.

  Lemma events_similar fuel : forall (w1 w2 : world) (p : prog), similar w1 w2 -> avoids sc1 h p ->
    events sc1 fuel w1 p = events sc2 fuel w2 p.
  Proof.
    induction fuel as [|fuel IH]; intros w1 w2 p S A; [reflexivity|].
    destruct p as [r| | |v k|body k|body k|t body k|c n k|c i k|c i k|c i k|c n k|c k|s c k|body k|body k|i k|k|c k|t k|m hs body k|a d k];
      cbn [events avoids] in *.
    - reflexivity.
    - reflexivity.
    - reflexivity.
    - apply IH; [now apply sim_emit|exact A].
    - destruct A as [A1 A2]. rewrite (IH w1 w2 body S A1). f_equal.
      pose proof (run_similar fuel w1 w2 body S A1) as K. unfold same_end in K.
      destruct (run sc1 fuel w1 body) as [[w1' o1]|], (run sc2 fuel w2 body) as [[w2' o2]|]; try destruct K; [subst o2|reflexivity].
      destruct o1; [now apply IH|reflexivity|reflexivity|reflexivity].
    - destruct A as [A1 A2]. rewrite (IH w1 w2 body S A1). f_equal.
      pose proof (run_similar fuel w1 w2 body S A1) as K. unfold same_end in K.
      destruct (run sc1 fuel w1 body) as [[w1' o1]|], (run sc2 fuel w2 body) as [[w2' o2]|]; try destruct K; [subst o2|reflexivity].
      destruct o1; [now apply IH|now apply IH|reflexivity|reflexivity].
    - destruct t as [crash|c].
      + destruct A as [A1 A2]. rewrite <- (sm_lock _ _ _ S), <- (sm_heap _ _ _ S), <- ?(sm_poison _ _ _ S).
        hd. destruct (w_lock w1); try reflexivity. cbn zeta.
        pose proof (sim_set_lock GTx _ _ (sim_set_heap (w_heap w1 ++ [[]]) _ _ S)) as S0.
        rewrite (IH _ _ _ S0 (A1 _)). hd. hd.
        pose proof (run_similar fuel _ _ _ S0 (A1 (length (w_heap w1)))) as K. unfold same_end in K.
        destruct (run sc1 fuel _ _) as [[w1' o1]|], (run sc2 fuel _ _) as [[w2' o2]|]; try destruct K; [subst o2|reflexivity].
        destruct o1 as [r| | |]; try reflexivity. hd.
        destruct (is_ok r); [|apply IH; [now apply sim_close, sim_set_lock|apply A2]].
        
        destruct (sim_bg_commit crash (length (w_heap w1)) w1' w2' H0) as [K1 K2].
        destruct (bg_commit crash _ w1') as [u1 x1], (bg_commit crash _ w2') as [u2 x2]. cbn [fst snd] in *. subst x2.
        destruct x1; [reflexivity|]. apply IH; [now apply sim_close, sim_set_lock|apply A2].
      + destruct A as [A1 A2]. cbn zeta. rewrite <- (sm_heap _ _ _ S).
        pose proof (sim_set_heap (w_heap w1 ++ [[]]) _ _ S) as S0.
        rewrite (IH _ _ _ S0 (A1 _)). f_equal.
        pose proof (run_similar fuel _ _ _ S0 (A1 (length (w_heap w1)))) as K. unfold same_end in K.
        destruct (run sc1 fuel _ _) as [[w1' o1]|], (run sc2 fuel _ _) as [[w2' o2]|]; try destruct K; [subst o2|reflexivity].
        destruct o1 as [r| | |]; try reflexivity.
        destruct (is_ok r); [|apply IH; [now apply sim_close|apply A2]].
        unfold merge_events, leaked. rewrite <- (sm_leaked _ _ _ H0), <- ?(sm_heap _ _ _ H0). f_equal.
        apply IH; [now apply sim_close, sim_fg_commit|apply A2].
    - rewrite <- (sm_heap _ _ _ S). hd. apply IH; [now apply sim_set_heap|exact A].
    - rewrite <- (sm_heap _ _ _ S). hd. apply IH; [now apply sim_set_heap|exact A].
    - destruct A as [N A]. rewrite (sim_ctx_get w1 w2 c i S N). now apply IH.
    - destruct A as [N A]. rewrite (sim_ctx_contains w1 w2 c i S N). now apply IH.
    - rewrite <- (sm_cells _ _ _ S).
      assert (F : ~ hd_cell h (length (w_cells w1))) by (intros J; apply (sm_known _ _ _ S) in J; lia).
      apply IH; [|now apply A]. now apply sim_target.
    - rewrite <- (sm_leaked _ _ _ S). apply IH; [now apply sim_set_leaked|exact A].
    - destruct A as (N & Un & A). cbn zeta. rewrite !select_scheduled. rewrite <- (sb_triggers _ _ _ SB s N).
      assert (K0 : avoids sc1 h (try_for_each (scheduled sc1 s) c : prog)) by (apply avoids_try; intros t J; now apply (TA s)).
      rewrite (IH w1 w2 _ S K0). f_equal.
      pose proof (run_similar fuel w1 w2 _ S K0) as K. unfold same_end in K.
      destruct (run sc1 fuel w1 _) as [[w1' o1]|], (run sc2 fuel w2 _) as [[w2' o2]|]; try destruct K; [subst o2|reflexivity].
      destruct o1; [now apply IH|reflexivity|reflexivity|reflexivity].
    - destruct A as [A1 A2]. rewrite <- (sm_lock _ _ _ S), <- ?(sm_poison _ _ _ S). hd.
      destruct (glock_read (w_lock w1)) as [l|]; [|reflexivity].
      pose proof (sim_set_lock l _ _ S) as S0. rewrite (IH _ _ body S0 A1). hd. hd.
      pose proof (run_similar fuel _ _ body S0 A1) as K. unfold same_end in K.
      destruct (run sc1 fuel _ body) as [[w1' o1]|], (run sc2 fuel _ body) as [[w2' o2]|]; try destruct K; [subst o2|reflexivity].
      destruct o1; try reflexivity. hd. rewrite <- (sm_lock _ _ _ H0). apply IH; [now apply sim_set_lock|apply A2].
    - destruct A as [A1 A2]. rewrite <- (sm_lock _ _ _ S), <- ?(sm_poison _ _ _ S). hd.
      destruct (w_lock w1); try reflexivity.
      pose proof (sim_set_lock GWrite _ _ S) as S0. rewrite (IH _ _ body S0 A1). hd. hd.
      pose proof (run_similar fuel _ _ body S0 A1) as K. unfold same_end in K.
      destruct (run sc1 fuel _ body) as [[w1' o1]|], (run sc2 fuel _ body) as [[w2' o2]|]; try destruct K; [subst o2|reflexivity].
      destruct o1; try reflexivity. hd. apply IH; [now apply sim_set_lock|apply A2].
    - destruct A as [N A]. rewrite <- (sm_lock _ _ _ S), <- (sm_graph _ _ _ S i N).
      destruct (w_lock w1); try reflexivity; hd; now apply IH.
    - destruct A as [N A]. rewrite <- (sm_lock _ _ _ S).
      assert (G : w_graph w1 = w_graph w2).
      { apply g_ext; [apply g_reachable_wf, (sm_graph1 _ _ _ S)|apply g_reachable_wf, (sm_graph2 _ _ _ S)|].
        intros i. now apply (sm_graph _ _ _ S). }
      rewrite <- G. destruct (w_lock w1); try reflexivity; hd; now apply IH.
    - destruct A as [N A]. rewrite <- (sm_lock _ _ _ S). destruct (w_lock w1); try reflexivity.
      destruct (sim_step w1 w2 c S N) as [K1 K2].
      destruct (g_step (w_graph w1) c) as [g1 r1], (g_step (w_graph w2) c) as [g2 r2]. cbn [fst snd] in *. subst r2.
      hd. now apply IH.
    - unfold res_from in *. rewrite <- (sb_resources _ _ _ SB). now apply IH.
    - destruct A as (N & A1 & A2). rewrite (acquire_events_alike m hs _ _ (sim_alike _ _ S) N). f_equal.
      pose proof (alike_acquire m hs _ _ (sim_alike _ _ S) N) as K.
      destruct (acquire m hs (w_cells w1)) as [cs1 l1| |] eqn:Q1, (acquire m hs (w_cells w2)) as [cs2 l2| |] eqn:Q2;
        try destruct K; try reflexivity.
      subst l2. destruct H0 as [AL NL]. rewrite (alike_deref hs l1 cs1 cs2 AL NL).
      assert (L1 : length cs1 = length (w_cells w1)) by (eapply acquire_length; eauto).
      destruct (deref_all cs2 hs l1) as [vs|] eqn:D.
      + pose proof (sim_set_cells _ _ _ _ S AL ltac:(lia)) as S0. pose proof (A1 vs (deref_all_addrs _ _ _ _ _ _ _ Q2 D)) as A0.
        rewrite (IH _ _ _ S0 A0). f_equal. pose proof (run_similar fuel _ _ _ S0 A0) as K. unfold same_end in K.
        destruct (run sc1 fuel _ (body vs)) as [[w1' o1]|] eqn:R1, (run sc2 fuel _ (body vs)) as [[w2' o2]|]; try destruct K; [subst o2|reflexivity].
        destruct o1; try reflexivity. hd. apply IH; [|apply A2].
        apply sim_set_cells; [assumption|apply alike_release; now apply sim_alike|]. now rewrite release_length.
      + hd. apply IH; [|apply A2]. apply sim_set_cells; [exact S|now apply alike_release|]. now rewrite release_length, L1.
    - destruct A as [N A]. rewrite <- (sm_cell _ _ _ S a N). destruct (nth_error (w_cells w1) a) as [x|]; [|reflexivity].
      destruct (c_lock x); try reflexivity. destruct (ty_eqb _ _); [|reflexivity].
      apply IH; [|exact A]. apply sim_set_cells; [exact S|apply alike_alter; now apply sim_alike|now rewrite alter_length].
  Qed.
End Avoid.
