(** Lemmas for C106. *)
From Coq Require Import List Bool Arith Lia.
From Verif Require Import Ord OrdFacts BTree BTreeFacts Graph SpecGraph GraphFacts Tx TxFacts TxMachine SpecTx Prog SpecProg
  ProgFacts ProgFrame ProgOps SpecPending.
Import ListNotations.

Section Pending.
  Context {Id Node V U : Type} `{HO : OrdT Id} `{HI : Identify Node Id}.
  Notation prog := (prog Id Node V U).
  Notation world := (world Id Node V U).
  Notation schema := (schema Id Node V U).
  Notation outcome := (outcome V).
  Notation op := (op Id Node).
  Notation heap := (heap Id Node).

  Local Arguments buf_ops : simpl never.

  Lemma pending_overlay (ops : list op) i : pending ops i = ops_overlay ops i.
  Proof.
    unfold pending. induction ops as [|o ops IH] using rev_ind; [reflexivity|].
    rewrite map_app, fold_left_app, ops_overlay_app, ops_overlay_one, <- IH. cbn [map fold_left].
    unfold ov_set. destruct o as [n|j]; cbn; destruct (eqb _ i); reflexivity.
  Qed.

  (** The same buffers, as overlays. *)
  Definition heap_eq (h1 h2 : heap) : Prop :=
    length h1 = length h2 /\ forall b i, ops_overlay (buf_ops h1 b) i = ops_overlay (buf_ops h2 b) i.

  Record rel (w1 w2 : world) : Prop := {
    rl_wf : g_wf (w_graph w1);
    rl_graph : w_graph w1 = w_graph w2;
    rl_lock : w_lock w1 = w_lock w2;
    rl_poison : w_poison w1 = w_poison w2;
    rl_leaked : w_leaked w1 = w_leaked w2;
    rl_cells : w_cells w1 = w_cells w2;
    rl_out : w_out w1 = w_out w2;
    rl_heap : heap_eq (w_heap w1) (w_heap w2)
  }.

  Lemma rel_iff (w1 w2 : world) : g_wf (w_graph w1) -> rel w1 w2 <-> same_pending w1 w2.
  Proof.
    intros W. split; intros []; constructor; auto.
    - apply rl_heap0.
    - intros b i. rewrite !pending_overlay. apply rl_heap0.
    - split; [assumption|]. intros b i. unfold buf_ops. rewrite <- !pending_overlay. apply sp_pending.
  Qed.

  Lemma buf_alter f b (h : heap) b' :
    buf_ops (alter f b h) b' = if (Nat.eqb b b' && (b' <? length h))%bool then f (buf_ops h b') else buf_ops h b'.
  Proof.
    unfold buf_ops. destruct (Nat.eqb_spec b b') as [<-|N]; cbn [andb]; [|now rewrite nth_alter_ne].
    destruct (Nat.ltb_spec b (length h)); [now rewrite nth_alter_eq|]. now rewrite alter_oob.
  Qed.

  Lemma heap_alter f1 f2 b (h1 h2 : heap) : heap_eq h1 h2 ->
    (forall l1 l2, (forall i, ops_overlay l1 i = ops_overlay l2 i) -> forall i, ops_overlay (f1 l1) i = ops_overlay (f2 l2) i) ->
    heap_eq (alter f1 b h1) (alter f2 b h2).
  Proof.
    intros [L E] F. split; [now rewrite !alter_length|]. intros b' i. rewrite !buf_alter, <- L.
    destruct (_ && _)%bool; [now apply F|apply E].
  Qed.

  Lemma heap_push b o (h1 h2 : heap) : heap_eq h1 h2 -> heap_eq (buf_push h1 b o) (buf_push h2 b o).
  Proof. intros E. apply heap_alter; [exact E|]. intros l1 l2 El i. rewrite !ops_overlay_app. now rewrite El. Qed.

  Lemma heap_extend c b (h1 h2 : heap) : heap_eq h1 h2 -> heap_eq (fg_extend h1 c b) (fg_extend h2 c b).
  Proof.
    intros E. apply heap_alter; [exact E|]. intros l1 l2 El i. rewrite !ops_overlay_app. now rewrite El, (proj2 E b i).
  Qed.

  Lemma heap_new (h1 h2 : heap) : heap_eq h1 h2 -> heap_eq (h1 ++ [[]]) (h2 ++ [[]]).
  Proof.
    intros [L E]. split; [now rewrite !app_length, L|]. intros b i. specialize (E b i). unfold buf_ops in *.
    destruct (Nat.lt_ge_cases b (length h1)) as [B|B].
    - rewrite !app_nth1 by lia. exact E.
    - rewrite !app_nth2 by lia. now rewrite L.
  Qed.

  Lemma heap_firstn b (h1 h2 : heap) : heap_eq h1 h2 -> heap_eq (firstn b h1) (firstn b h2).
  Proof.
    intros [L E]. split; [now rewrite !firstn_length, L|]. intros b' i. specialize (E b' i). unfold buf_ops in *.
    assert (X : forall (h : heap), nth b' (firstn b h) [] = if b' <? b then nth b' h [] else []).
    { clear. intros h. revert b b'. induction h as [|x h IH]; intros [|b] [|b']; cbn [firstn nth]; auto.
      - destruct (_ <? _); reflexivity.
      - rewrite IH. reflexivity. }
    rewrite !X. destruct (b' <? b); [exact E|reflexivity].
  Qed.

  Lemma rel_set_lock l (w1 w2 : world) : rel w1 w2 -> rel (set_lock l w1) (set_lock l w2).
  Proof. intros []. now constructor. Qed.
  Lemma rel_set_poison (w1 w2 : world) : rel w1 w2 -> rel (set_poison w1) (set_poison w2).
  Proof. intros []. now constructor. Qed.
  Lemma rel_set_heap h1 h2 (w1 w2 : world) : rel w1 w2 -> heap_eq h1 h2 -> rel (set_heap h1 w1) (set_heap h2 w2).
  Proof. intros []. now constructor. Qed.
  Lemma rel_set_leaked l (w1 w2 : world) : rel w1 w2 -> rel (set_leaked l w1) (set_leaked l w2).
  Proof. intros []. now constructor. Qed.
  Lemma rel_emit v (w1 w2 : world) : rel w1 w2 -> rel (emit v w1) (emit v w2).
  Proof. intros []. constructor; auto. cbn. now f_equal. Qed.
  Lemma rel_set_cells cs (w1 w2 : world) : rel w1 w2 -> rel (set_cells cs w1) (set_cells cs w2).
  Proof. intros []. now constructor. Qed.
  Lemma rel_set_graph g (w1 w2 : world) : rel w1 w2 -> g_wf g -> rel (set_graph g w1) (set_graph g w2).
  Proof. intros [] W. now constructor. Qed.
  Lemma rel_close b (w1 w2 : world) : rel w1 w2 -> rel (close b w1) (close b w2).
  Proof.
    intros S. unfold close. rewrite (rl_leaked _ _ S). apply rel_set_leaked, rel_set_heap; [exact S|]. apply heap_firstn, S.
  Qed.
  Lemma apply_same g (l1 l2 : list op) : g_wf g -> (forall i, ops_overlay l1 i = ops_overlay l2 i) ->
    apply_ops g l1 = apply_ops g l2.
  Proof.
    intros W E. apply g_ext; try now apply apply_ops_wf. intros i. rewrite !g_get_apply_ops by exact W. now rewrite E.
  Qed.
  Lemma rel_bg_commit b (w1 w2 : world) : rel w1 w2 ->
    rel (fst (bg_commit None b w1)) (fst (bg_commit None b w2)) /\ snd (bg_commit None b w1) = false /\ snd (bg_commit None b w2) = false.
  Proof.
    intros S. unfold bg_commit, leaked. rewrite (rl_leaked _ _ S).
    destruct (existsb _ _); [auto|]. cbn [fst snd]. split; [|auto]. rewrite <- (rl_graph _ _ S).
    rewrite <- (apply_same (w_graph w1) _ _ (rl_wf _ _ S) (proj2 (rl_heap _ _ S) b)).
    apply rel_set_graph; [exact S|]. apply apply_ops_wf, S.
  Qed.
  Lemma rel_fg_commit c b (w1 w2 : world) : rel w1 w2 -> rel (fg_commit c b w1) (fg_commit c b w2).
  Proof.
    intros S. unfold fg_commit, leaked. rewrite (rl_leaked _ _ S).
    destruct (existsb _ _); [exact S|]. apply rel_set_heap; [exact S|]. apply heap_extend, S.
  Qed.
  Lemma rel_ctx_get (w1 w2 : world) c i : rel w1 w2 ->
    ctx_get (w_heap w1) (w_graph w1) c i = ctx_get (w_heap w2) (w_graph w2) c i.
  Proof.
    intros S. rewrite <- (rl_graph _ _ S). induction c as [b t|c IH b t].
    - rewrite !ctx_get_unfold. cbn [ctx_buf]. now rewrite (proj2 (rl_heap _ _ S)).
    - rewrite !ctx_get_unfold. cbn [ctx_buf]. rewrite (proj2 (rl_heap _ _ S)). destruct (ops_overlay _ i); [reflexivity|]. now rewrite <- !ctx_get_unfold.
  Qed.

  Variable sc : schema.
  Hypothesis ST : steady_triggers sc.

  Lemma steady_try c ts : (forall t, In t ts -> steady (t c)) -> steady (try_for_each ts c : prog).
  Proof.
    induction ts as [|t ts IH]; intros A; cbn; [exact I|]. split; [apply A; now left|].
    assert (K : steady (try_for_each ts c : prog)) by (apply IH; intros; apply A; now right).
    intros [| |e]; [exact K|exact K|exact I].
  Qed.

  Definition same_end (x1 x2 : option (world * outcome)) : Prop :=
    match x1, x2 with
    | Some (w1, o1), Some (w2, o2) => o1 = o2 /\ rel w1 w2
    | None, None => True
    | _, _ => False
    end.

  Lemma run_same fuel : forall (w1 w2 : world) (p : prog), rel w1 w2 -> steady p -> same_end (run sc fuel w1 p) (run sc fuel w2 p).
  Proof.
    induction fuel as [|fuel IH]; intros w1 w2 p S A; [exact I|].
    destruct p as [r| | |v k|body k|body k|t body k|c n k|c i k|c i k|c i k|c n k|c k|s c k|body k|body k|i k|k|c k|t k|m hs body k|a d k];
      cbn [run steady] in *.
    - now split.
    - now split.
    - exact I.
    - apply IH; [now apply rel_emit|exact A].
    - destruct A as [A1 A2]. pose proof (IH w1 w2 body S A1) as K. unfold same_end in K at 1.
      destruct (run sc fuel w1 body) as [[w1' o1]|], (run sc fuel w2 body) as [[w2' o2]|]; try destruct K; [subst o2|exact I].
      destruct o1; [now apply IH|now split|now split|now split].
    - destruct A as [A1 A2]. pose proof (IH w1 w2 body S A1) as K. unfold same_end in K at 1.
      destruct (run sc fuel w1 body) as [[w1' o1]|], (run sc fuel w2 body) as [[w2' o2]|]; try destruct K; [subst o2|exact I].
      destruct o1; [now apply IH|now apply IH|now split|now split].
    - destruct t as [crash|c].
      + destruct A as (-> & A1 & A2). rewrite <- (rl_lock _ _ S), <- (proj1 (rl_heap _ _ S)).
        destruct (w_lock w1); try (now split).
        pose proof (IH (set_lock GTx (set_heap (w_heap w1 ++ [[]]) w1)) (set_lock GTx (set_heap (w_heap w2 ++ [[]]) w2))
                      (body (CRoot (length (w_heap w1)) None))
                      (rel_set_lock _ _ _ (rel_set_heap _ _ _ _ S (heap_new _ _ (rl_heap _ _ S)))) (A1 _)) as K.
        unfold same_end in K at 1. destruct (run sc fuel _ _) as [[w1' o1]|], (run sc fuel _ _) as [[w2' o2]|]; try destruct K; [subst o2|exact I].
        destruct o1 as [r| | |].
        * destruct (is_ok r); [|apply IH; [now apply rel_close, rel_set_lock|apply A2]].
          destruct (rel_bg_commit (length (w_heap w1)) w1' w2' H0) as (K1 & K2 & K3).
          destruct (bg_commit None _ w1') as [u1 x1], (bg_commit None _ w2') as [u2 x2]. cbn [fst snd] in *. subst x1 x2. cbn zeta.
          apply IH; [now apply rel_close, rel_set_lock|apply A2].
        * split; [reflexivity|]. now apply rel_close, rel_set_lock, rel_set_poison.
        * now split.
        * now split.
      + destruct A as [A1 A2]. cbn zeta. rewrite <- (proj1 (rl_heap _ _ S)).
        pose proof (IH (set_heap (w_heap w1 ++ [[]]) w1) (set_heap (w_heap w2 ++ [[]]) w2)
                      (body (CSub c (length (w_heap w1)) None)) (rel_set_heap _ _ _ _ S (heap_new _ _ (rl_heap _ _ S))) (A1 _)) as K.
        unfold same_end in K at 1. destruct (run sc fuel _ _) as [[w1' o1]|], (run sc fuel _ _) as [[w2' o2]|]; try destruct K; [subst o2|exact I].
        destruct o1 as [r| | |].
        * destruct (is_ok r); apply IH; try apply A2; [now apply rel_close, rel_fg_commit|now apply rel_close].
        * split; [reflexivity|]. now apply rel_close.
        * now split.
        * now split.
    - apply IH; [|exact A]. apply rel_set_heap; [exact S|]. apply heap_push, S.
    - apply IH; [|exact A]. apply rel_set_heap; [exact S|]. apply heap_push, S.
    - rewrite (rel_ctx_get w1 w2 c i S). now apply IH.
    - rewrite !ctx_contains_get, (rel_ctx_get w1 w2 c i S). now apply IH.
    - rewrite <- (rl_cells _ _ S). apply IH; [|apply A]. now apply rel_set_cells.
    - rewrite <- (rl_leaked _ _ S). apply IH; [now apply rel_set_leaked|exact A].
    - rewrite !select_scheduled.
      assert (K0 : steady (try_for_each (scheduled sc s) c : prog)) by (apply steady_try; intros t J; now apply (ST s)).
      pose proof (IH w1 w2 _ S K0) as K. unfold same_end in K at 1.
      destruct (run sc fuel w1 _) as [[w1' o1]|], (run sc fuel w2 _) as [[w2' o2]|]; try destruct K; [subst o2|exact I].
      destruct o1; [now apply IH|now split|now split|now split].
    - destruct A as [A1 A2]. rewrite <- (rl_lock _ _ S). destruct (glock_read (w_lock w1)) as [l|]; [|now split].
      pose proof (IH (set_lock l w1) (set_lock l w2) body (rel_set_lock _ _ _ S) A1) as K. unfold same_end in K at 1.
      destruct (run sc fuel _ body) as [[w1' o1]|], (run sc fuel _ body) as [[w2' o2]|]; try destruct K; [subst o2|exact I].
      rewrite <- (rl_lock _ _ H0).
      destruct o1; [apply IH; [now apply rel_set_lock|apply A2]|split; [reflexivity|now apply rel_set_lock]|now split|now split].
    - destruct A as [A1 A2]. rewrite <- (rl_lock _ _ S). destruct (w_lock w1); try (now split).
      pose proof (IH (set_lock GWrite w1) (set_lock GWrite w2) body (rel_set_lock _ _ _ S) A1) as K. unfold same_end in K at 1.
      destruct (run sc fuel _ body) as [[w1' o1]|], (run sc fuel _ body) as [[w2' o2]|]; try destruct K; [subst o2|exact I].
      destruct o1; [apply IH; [now apply rel_set_lock|apply A2]|split; [reflexivity|now apply rel_set_lock, rel_set_poison]|now split|now split].
    - rewrite <- (rl_lock _ _ S), <- (rl_graph _ _ S). destruct (w_lock w1); try (now split); now apply IH.
    - rewrite <- (rl_lock _ _ S), <- (rl_graph _ _ S). destruct (w_lock w1); try (now split); now apply IH.
    - rewrite <- (rl_lock _ _ S), <- (rl_graph _ _ S). destruct (w_lock w1); try (now split).
      pose proof (g_wf_step (w_graph w1) c (rl_wf _ _ S)) as W. destruct (g_step (w_graph w1) c) as [g r].
      apply IH; [|apply A]. now apply rel_set_graph.
    - now apply IH.
    - destruct A as [A1 A2]. rewrite <- (rl_cells _ _ S). destruct (acquire m hs (w_cells w1)) as [cs l| |]; try (now split).
      destruct (deref_all cs hs l) as [vs|]; [|apply IH; [now apply rel_set_cells|apply A2]].
      pose proof (IH (set_cells cs w1) (set_cells cs w2) (body vs) (rel_set_cells _ _ _ S) (A1 _)) as K. unfold same_end in K at 1.
      destruct (run sc fuel _ (body vs)) as [[w1' o1]|], (run sc fuel _ (body vs)) as [[w2' o2]|]; try destruct K; [subst o2|exact I].
      rewrite <- (rl_cells _ _ H0).
      destruct o1; [apply IH; [now apply rel_set_cells|apply A2]|split; [reflexivity|now apply rel_set_cells]|now split|now split].
    - rewrite <- (rl_cells _ _ S). destruct (nth_error (w_cells w1) a) as [x|]; [|now split].
      destruct (c_lock x); try (now split). destruct (ty_eqb _ _); [|now split].
      apply IH; [|exact A]. now apply rel_set_cells.
  Qed.
End Pending.
