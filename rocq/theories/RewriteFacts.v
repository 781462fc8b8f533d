(** Lemmas for C107: rewriting a program by the laws of [SpecPending.rewrites] changes nothing. *)
From Coq Require Import List Bool Arith Lia.
From Verif Require Import Ord OrdFacts BTree BTreeFacts Graph SpecGraph GraphFacts Tx TxFacts TxMachine SpecTx Prog SpecProg
  ProgFacts ProgFrame ProgOps SpecPending PendingFacts.
Import ListNotations.

Section Rewrite.
  Context {Id Node V U : Type} `{HO : OrdT Id} `{HI : Identify Node Id}.
  Notation prog := (prog Id Node V U).
  Notation world := (world Id Node V U).
  Notation schema := (schema Id Node V U).
  Notation outcome := (outcome V).
  Notation res := (res V).
  Notation op := (op Id Node).
  Notation heap := (heap Id Node).
  Notation code := (code (Id := Id) (Node := Node) (V := V)).

  Local Arguments buf_ops : simpl never.

  (** ** States *)

  Definition bounded (w : world) : Prop := forall b, In b (w_leaked w) -> b < length (w_heap w).
  Definition R (w1 w2 : world) : Prop := rel w1 w2 /\ bounded w1.

  Definition push (c : ctx) (o : op) (w : world) : world := set_heap (buf_push (w_heap w) (ctx_buf c) o) w.

  Lemma push_length (h : heap) b o : length (buf_push h b o) = length h.
  Proof. apply alter_length. Qed.

  Lemma R_push c o (w1 w2 : world) : R w1 w2 -> R (push c o w1) (push c o w2).
  Proof.
    intros [S B]. split; [|intros b J; cbn; rewrite push_length; now apply B].
    apply rel_set_heap; [exact S|]. apply heap_push, S.
  Qed.
  Lemma R_emit v (w1 w2 : world) : R w1 w2 -> R (emit v w1) (emit v w2).
  Proof. intros [S B]. split; [now apply rel_emit|exact B]. Qed.
  Lemma R_set_lock l (w1 w2 : world) : R w1 w2 -> R (set_lock l w1) (set_lock l w2).
  Proof. intros [S B]. split; [now apply rel_set_lock|exact B]. Qed.
  Lemma R_set_poison (w1 w2 : world) : R w1 w2 -> R (set_poison w1) (set_poison w2).
  Proof. intros [S B]. split; [now apply rel_set_poison|exact B]. Qed.
  Lemma R_set_cells cs (w1 w2 : world) : R w1 w2 -> R (set_cells cs w1) (set_cells cs w2).
  Proof. intros [S B]. split; [now apply rel_set_cells|exact B]. Qed.
  Lemma R_set_graph g (w1 w2 : world) : R w1 w2 -> g_wf g -> R (set_graph g w1) (set_graph g w2).
  Proof. intros [S B] W. split; [now apply rel_set_graph|exact B]. Qed.
  Lemma R_open (w1 w2 : world) : R w1 w2 -> R (fg_open w1) (fg_open w2).
  Proof.
    intros [S B]. split; [apply rel_set_heap; [exact S|apply heap_new, S]|].
    intros b J. cbn. rewrite app_length. apply B in J. lia.
  Qed.
  Lemma R_close b (w1 w2 : world) : R w1 w2 -> b <= length (w_heap w1) -> R (close b w1) (close b w2).
  Proof.
    intros [S B] L. split; [now apply rel_close|]. intros b' J. cbn in *. apply filter_In in J as [_ J]. apply Nat.ltb_lt in J.
    rewrite firstn_length. lia.
  Qed.
  Lemma R_bg_commit b (w1 w2 : world) : R w1 w2 ->
    R (fst (bg_commit None b w1)) (fst (bg_commit None b w2)) /\ snd (bg_commit None b w1) = false /\
    snd (bg_commit None b w2) = false /\ length (w_heap (fst (bg_commit None b w1))) = length (w_heap w1).
  Proof.
    intros [S B]. destruct (rel_bg_commit b w1 w2 S) as (K1 & K2 & K3).
    assert (X : w_heap (fst (bg_commit None b w1)) = w_heap w1 /\ w_leaked (fst (bg_commit None b w1)) = w_leaked w1).
    { unfold bg_commit. destruct (leaked w1 b); auto. }
    destruct X as [X Y]. split; [|now rewrite X]. split; [exact K1|]. unfold bounded. now rewrite X, Y.
  Qed.
  Lemma R_fg_commit c b (w1 w2 : world) : R w1 w2 -> R (fg_commit c b w1) (fg_commit c b w2).
  Proof.
    intros [S B]. split; [now apply rel_fg_commit|]. unfold fg_commit. destruct (leaked w1 b); [exact B|].
    intros b' J. cbn. unfold fg_extend. rewrite alter_length. now apply B.
  Qed.
  Lemma fg_commit_length c b (w : world) : length (w_heap (fg_commit c b w)) = length (w_heap w).
  Proof. unfold fg_commit. destruct (leaked w b); [reflexivity|]. apply alter_length. Qed.

  Lemma R_get (w1 w2 : world) c i : R w1 w2 -> ctx_get (w_heap w1) (w_graph w1) c i = ctx_get (w_heap w2) (w_graph w2) c i.
  Proof. intros [S _]. now apply rel_ctx_get. Qed.

  (** ** Runs *)

  Lemma run_register sc n (w : world) c o k : run sc (S n) w (register c o k) = run sc n (push c o w) k.
  Proof. destruct o; reflexivity. Qed.

  Lemma ends_step sc (w w0 w' : world) (p q : prog) o :
    (forall n, run sc (S n) w p = run sc n w0 q) -> ends sc w0 q w' o -> ends sc w p w' o.
  Proof. intros E [n F]. exists (S n). now rewrite E. Qed.

  Lemma ends_register sc (w w' : world) c op k o : ends sc (push c op w) k w' o -> ends sc w (register c op k) w' o.
  Proof. apply ends_step. intros n. apply run_register. Qed.

  Lemma heap_len sc n (w w' : world) p o : run sc n w p = Some (w', o) -> comes_back o -> length (w_heap w') = length (w_heap w).
  Proof. intros E B. exact (fr_len _ _ (exec_framed sc w p w' o (run_exec sc n w p w' o E B))). Qed.

  (** ** Code on one context *)

  Fixpoint eval (c : ctx) (s : code) (w : world) : world * res :=
    match s with
    | CRet r _ => (w, r)
    | CEmit v s => eval c s (emit v w)
    | CRegister o s => eval c s (push c o w)
    | CGet i s => eval c (s (ctx_get (w_heap w) (w_graph w) c i)) w
    | CContains i s => eval c (s (ctx_contains (w_heap w) (w_graph w) c i)) w
    end.

  Lemma eval_ok c s : forall w, is_ok (snd (eval c s w)) = true.
  Proof. induction s; intros w; cbn; auto. Qed.

  Lemma run_on sc c s : forall n w k x, run sc n w (on c s k) = Some x ->
    exists m, m <= n /\ run sc m (fst (eval c s w)) (k (snd (eval c s w))) = Some x.
  Proof.
    induction s as [r ok|v s IH|o s IH|i s IH|i s IH]; intros n w k x E; cbn in *.
    - eauto.
    - destruct n as [|n]; [discriminate|]. apply IH in E as (m & L & E). exists m. auto.
    - destruct n as [|n]; [discriminate|]. rewrite run_register in E. apply IH in E as (m & L & E). exists m. auto.
    - destruct n as [|n]; [discriminate|]. apply IH in E as (m & L & E). exists m. auto.
    - destruct n as [|n]; [discriminate|]. apply IH in E as (m & L & E). exists m. auto.
  Qed.

  Lemma ends_on sc c s : forall w k w' o, ends sc (fst (eval c s w)) (k (snd (eval c s w))) w' o -> ends sc w (on c s k) w' o.
  Proof.
    induction s as [r ok|v s IH|o s IH|i s IH|i s IH]; intros w k w' o' E; cbn in *.
    - exact E.
    - eapply ends_step; [|apply IH; exact E]. reflexivity.
    - apply ends_register, IH, E.
    - eapply ends_step; [|apply IH; exact E]. reflexivity.
    - eapply ends_step; [|apply IH; exact E]. reflexivity.
  Qed.

  Lemma eval_R c s : forall w1 w2 : world, R w1 w2 ->
    R (fst (eval c s w1)) (fst (eval c s w2)) /\ snd (eval c s w1) = snd (eval c s w2) /\
    length (w_heap (fst (eval c s w1))) = length (w_heap w1).
  Proof.
    induction s as [r ok|v s IH|o s IH|i s IH|i s IH]; intros w1 w2 S; cbn.
    - auto.
    - apply (IH (emit v w1) (emit v w2)). now apply R_emit.
    - destruct (IH (push c o w1) (push c o w2)) as (A & B & C); [now apply R_push|]. rewrite C. cbn. rewrite push_length. auto.
    - rewrite (R_get w1 w2 c i S). now apply IH.
    - rewrite !ctx_contains_get, (R_get w1 w2 c i S). now apply IH.
  Qed.

  Lemma get_child (h : heap) (g : graph Id Node) c ops i : ctx_buf c < length h ->
    ctx_get (h ++ [ops]) g (CSub c (length h) None) i = ctx_get (alter (fun l => l ++ ops) (ctx_buf c) h) g c i.
  Proof.
    intros L. rewrite ctx_get_unfold. cbn [ctx_buf].
    assert (X : buf_ops (h ++ [ops]) (length h) = ops).
    { unfold buf_ops. rewrite app_nth2, Nat.sub_diag by lia. reflexivity. }
    rewrite X. destruct (ops_overlay ops i) as [r|] eqn:Q.
    - rewrite ctx_get_unfold, buf_alter, Nat.eqb_refl, (proj2 (Nat.ltb_lt _ _) L). cbn [andb].
      rewrite ops_overlay_app, Q. reflexivity.
    - assert (Y : forall b, ops_overlay (buf_ops (h ++ [ops]) b) i = ops_overlay (buf_ops (alter (fun l => l ++ ops) (ctx_buf c) h) b) i).
      { intros b. rewrite buf_alter. unfold buf_ops at 1. destruct (Nat.lt_ge_cases b (length h)) as [B|B].
        - rewrite app_nth1 by exact B. rewrite (proj2 (Nat.ltb_lt _ _) B), andb_true_r. fold (buf_ops h b).
          destruct (Nat.eqb _ b); [|reflexivity]. now rewrite ops_overlay_app, Q.
        - rewrite app_nth2 by exact B. rewrite (proj2 (Nat.ltb_ge _ _) B), andb_false_r. unfold buf_ops. rewrite (nth_overflow h) by exact B.
          destruct (b - length h) as [|[|m]]; cbn; auto. }
      clear -Y. revert Y. generalize (alter (fun l => l ++ ops) (ctx_buf c) h). intros h' Y. revert Y.
      induction c as [b t|c IH b t]; intros Y; rewrite !ctx_get_unfold; cbn [ctx_buf]; rewrite Y; [reflexivity|].
      destruct (ops_overlay _ i); [reflexivity|]. rewrite <- !ctx_get_unfold. now apply IH.
  Qed.

  Lemma eval_child c s : forall (h : heap) (w : world) ops, ctx_buf c < length h ->
    exists ops' w', w_leaked w' = w_leaked w /\ 
      fst (eval (CSub c (length h) None) s (set_heap (h ++ [ops]) w)) = set_heap (h ++ [ops']) w' /\
      fst (eval c s (set_heap (alter (fun l => l ++ ops) (ctx_buf c) h) w)) = set_heap (alter (fun l => l ++ ops') (ctx_buf c) h) w' /\
      snd (eval (CSub c (length h) None) s (set_heap (h ++ [ops]) w)) =
      snd (eval c s (set_heap (alter (fun l => l ++ ops) (ctx_buf c) h) w)).
  Proof.
    induction s as [r ok|v s IH|o s IH|i s IH|i s IH]; intros h w ops L; cbn [eval].
    - exists ops, w. auto.
    - destruct (IH h (emit v w) ops L) as (ops' & w' & Lk & E1 & E2 & E3). exists ops', w'. auto.
    - destruct (IH h w (ops ++ [o]) L) as (ops' & w' & Lk & E1 & E2 & E3). exists ops', w'.
      assert (X1 : push (CSub c (length h) None) o (set_heap (h ++ [ops]) w) = set_heap (h ++ [ops ++ [o]]) w).
      { unfold push. cbn [ctx_buf w_heap set_heap]. unfold buf_push.
        assert (Y : forall f, alter f (length h) (h ++ [ops]) = h ++ [f ops]).
        { intros f. clear. induction h as [|x h IH]; [reflexivity|]. cbn. now rewrite IH. }
        now rewrite Y. }
      assert (X2 : push c o (set_heap (alter (fun l => l ++ ops) (ctx_buf c) h) w) = set_heap (alter (fun l => l ++ ops ++ [o]) (ctx_buf c) h) w).
      { unfold push. cbn [w_heap set_heap]. unfold buf_push. rewrite alter_alter.
        rewrite (alter_ext _ (fun l => l ++ ops ++ [o])) by (intros; now rewrite app_assoc). reflexivity. }
      rewrite X1, X2. auto.
    - cbn [w_heap set_heap w_graph]. rewrite get_child by exact L. now apply IH.
    - cbn [w_heap set_heap w_graph]. rewrite !ctx_contains_get, get_child by exact L. now apply IH.
  Qed.

  Lemma filter_below n (l : list nat) : (forall b, In b l -> b < n) -> filter (fun b => b <? n) l = l.
  Proof.
    induction l as [|b l IH]; intros B; [reflexivity|]. cbn [filter].
    rewrite (proj2 (Nat.ltb_lt _ _) (B b (or_introl eq_refl))). f_equal. apply IH. intros b' J. apply B. now right.
  Qed.

  (** A sub-transaction with that code leaves what the code leaves without it. *)
  Lemma inline_exact c s (w : world) : ctx_buf c < length (w_heap w) -> bounded w ->
    let u := fst (eval (fg_ctx w c) s (fg_open w)) in
    close (length (w_heap w)) (fg_commit c (length (w_heap w)) u) = fst (eval c s w) /\
    snd (eval (fg_ctx w c) s (fg_open w)) = snd (eval c s w).
  Proof.
    intros L B. destruct (eval_child c s (w_heap w) w [] L) as (ops & w' & Lk & E1 & E2 & E3).
    assert (X : set_heap (alter (fun l => l ++ []) (ctx_buf c) (w_heap w)) w = w).
    { rewrite alter_id by (intros; apply app_nil_r). now destruct w. }
    rewrite X in E2, E3. cbn zeta. unfold fg_ctx, fg_open. rewrite E1, E2. split; [|exact E3].
    unfold fg_commit, leaked. cbn [w_leaked w_heap set_heap]. rewrite Lk.
    destruct (existsb (Nat.eqb (length (w_heap w))) (w_leaked w)) eqn:Q.
    { exfalso. apply existsb_exists in Q as (b & J & Eb). apply Nat.eqb_eq in Eb. subst b. apply B in J. lia. }
    unfold fg_extend, close. cbn [w_leaked w_heap set_heap set_leaked]. rewrite Lk.
    assert (Y : buf_ops (w_heap w ++ [ops]) (length (w_heap w)) = ops).
    { unfold buf_ops. rewrite app_nth2, Nat.sub_diag by lia. reflexivity. }
    rewrite Y, alter_app_l by exact L.
    assert (Z : firstn (length (w_heap w)) (alter (fun l => l ++ ops) (ctx_buf c) (w_heap w) ++ [ops]) = alter (fun l => l ++ ops) (ctx_buf c) (w_heap w)).
    { rewrite <- (alter_length (fun l => l ++ ops) (ctx_buf c) (w_heap w)) at 1. rewrite firstn_app, Nat.sub_diag, firstn_all. cbn. apply app_nil_r. }
    rewrite Z.
    assert (F : filter (fun b => b <? length (w_heap w)) (w_leaked w) = w_leaked w).
    { apply filter_below, B. }
    rewrite F, <- Lk. destruct w'; reflexivity.
  Qed.

  Lemma run_abandoned sc c' ops r : forall n (w : world) x, run sc n w (registers_all c' ops (PRet r)) = Some x ->
    x = (fold_left (fun w o => push c' o w) ops w, ORet r).
  Proof.
    induction ops as [|o ops IH]; intros n w x E; (destruct n as [|n]; [discriminate|]).
    - now injection E as <-.
    - cbn [registers_all fold_right] in E. rewrite run_register in E. now apply IH in E.
  Qed.
  Lemma ends_abandoned sc c' ops r : forall (w : world),
    ends sc w (registers_all c' ops (PRet r)) (fold_left (fun w o => push c' o w) ops w) (ORet r).
  Proof.
    induction ops as [|o ops IH]; intros w; [exists 1; reflexivity|]. cbn. apply ends_register, IH.
  Qed.
  Lemma abandoned_exact c ops (w : world) : bounded w ->
    close (length (w_heap w)) (fold_left (fun w o => push (fg_ctx w c) o w) [] (fg_open w)) = w /\
    close (length (w_heap w)) (fold_left (fun u o => push (CSub c (length (w_heap w)) None) o u) ops (fg_open w)) = w.
  Proof.
    intros B.
    assert (K : forall l, close (length (w_heap w)) (fold_left (fun u o => push (CSub c (length (w_heap w)) None) o u) ops (set_heap (w_heap w ++ [l]) w)) = w).
    { induction ops as [|o ops' IH]; intros l.
      - cbn [fold_left]. unfold close. cbn [w_heap set_heap w_leaked].
        rewrite firstn_app, Nat.sub_diag, firstn_all. cbn [firstn]. rewrite app_nil_r.
        assert (F : filter (fun b => b <? length (w_heap w)) (w_leaked w) = w_leaked w).
        { apply filter_below, B. }
        rewrite F. destruct w; reflexivity.
      - cbn [fold_left].
        assert (Y : forall f, alter f (length (w_heap w)) (w_heap w ++ [l]) = w_heap w ++ [f l]).
        { intros f. clear. induction (w_heap w) as [|x h IH]; [reflexivity|]. cbn. now rewrite IH. }
        unfold push at 2. cbn [w_heap set_heap ctx_buf]. unfold buf_push. rewrite Y. apply IH. }
    split; [|apply K]. cbn [fold_left]. unfold close. cbn [w_heap fg_open set_heap w_leaked].
    rewrite firstn_app, Nat.sub_diag, firstn_all. cbn [firstn]. rewrite app_nil_r.
    assert (F : filter (fun b => b <? length (w_heap w)) (w_leaked w) = w_leaked w).
    { apply filter_below, B. }
    rewrite F. destruct w; reflexivity.
  Qed.

  (** ** Rewriting is symmetric *)

  Lemma rewrites_sym l (p q : prog) : rewrites l p q -> rewrites l q p.
  Proof.
    intros R0. induction R0; try (now (econstructor; eauto)).
  Qed.

  Lemma rewritten_sym (sc1 sc2 : schema) : rewritten sc1 sc2 -> rewritten sc2 sc1.
  Proof.
    intros [A B]. split; [now symmetry|]. intros s. specialize (B s).
    induction B as [|t1 t2 l1 l2 T _ IH]; constructor; [|exact IH]. intros c. apply rewrites_sym, T.
  Qed.

  Lemma rewrites_try c : forall ts1 ts2,
    Forall2 (fun t1 t2 => forall c : ctx, rewrites [ctx_buf c] (t1 c) (t2 c)) ts1 ts2 ->
    rewrites [ctx_buf c] (try_for_each ts1 c : prog) (try_for_each ts2 c).
  Proof.
    intros ts1 ts2 F. induction F as [|t1 t2 l1 l2 T _ IH]; cbn; [apply rw_ret|].
    apply rw_call; [apply T|]. intros [| |e]; [exact IH|exact IH|apply rw_ret].
  Qed.

  (** ** Simulation *)

  Section Sim.
    Variables sc1 sc2 : schema.
    Hypothesis RT : rewritten sc1 sc2.

    Definition scope (l : list nat) (w : world) : Prop := forall b, In b l -> b < length (w_heap w).

    Lemma scope_len l (w w' : world) : scope l w -> length (w_heap w) <= length (w_heap w') -> scope l w'.
    Proof. intros A L b J. apply A in J. lia. Qed.

    Definition simulates (n : nat) (l : list nat) (p q : prog) : Prop :=
      forall w1 w2 : world, R w1 w2 -> scope l w1 -> forall w1' o, run sc1 n w1 p = Some (w1', o) ->
      exists w2', ends sc2 w2 q w2' o /\ R w1' w2'.

    Lemma R_len (w1 w2 : world) : R w1 w2 -> length (w_heap w1) = length (w_heap w2).
    Proof. intros [S _]. exact (proj1 (rl_heap _ _ S)). Qed.
    Lemma R_bounded (w1 w2 : world) : R w1 w2 -> bounded w2.
    Proof. intros S b J. rewrite <- (R_len _ _ S). apply (proj2 S). now rewrite (rl_leaked _ _ (proj1 S)). Qed.

    Lemma up f (w : world) p x : run sc1 f w p = Some x -> run sc1 (S f) w p = Some x.
    Proof. intros E. eapply run_mono; [exact E|lia]. Qed.

    Lemma R_alter b f1 f2 (w1 w2 : world) : R w1 w2 ->
      (forall l1 l2, (forall i, ops_overlay l1 i = ops_overlay l2 i) -> forall i, ops_overlay (f1 l1) i = ops_overlay (f2 l2) i) ->
      R (set_heap (alter f1 b (w_heap w1)) w1) (set_heap (alter f2 b (w_heap w2)) w2).
    Proof.
      intros [S B] A. split; [|intros b' J; cbn; rewrite alter_length; now apply B].
      apply rel_set_heap; [exact S|]. apply heap_alter; [apply S|]. exact A.
    Qed.

    Lemma push_push c o1 o2 (w : world) : push c o2 (push c o1 w) = set_heap (alter (fun l => (l ++ [o1]) ++ [o2]) (ctx_buf c) (w_heap w)) w.
    Proof. unfold push. cbn [w_heap set_heap]. unfold buf_push. now rewrite alter_alter. Qed.

    Lemma one_about (o : op) i : ops_overlay [o] i = if eqb (about o) i then Some (leaves o) else None.
    Proof. rewrite ops_overlay_one. now destruct o. Qed.

    (** The last operation about a node is what counts. *)
    Lemma R_overwritten c o1 o2 (w1 w2 : world) : R w1 w2 -> about o1 = about o2 ->
      R (push c o2 (push c o1 w1)) (push c o2 w2) /\ R (push c o2 w1) (push c o2 (push c o1 w2)).
    Proof.
      intros S A. rewrite !push_push. split; apply R_alter; try exact S; intros l1 l2 E i;
        rewrite !ops_overlay_app, !one_about, A; destruct (eqb (about o2) i); auto.
    Qed.

    Lemma R_swapped c o1 o2 (w1 w2 : world) : R w1 w2 -> about o1 <> about o2 -> R (push c o2 (push c o1 w1)) (push c o1 (push c o2 w2)).
    Proof.
      intros S A. rewrite !push_push. apply R_alter; [exact S|]. intros l1 l2 E i. rewrite !ops_overlay_app, !one_about.
      destruct (eqb (about o2) i) eqn:E2, (eqb (about o1) i) eqn:E1; auto.
      apply eqb_eq in E1, E2. congruence.
    Qed.

    Lemma get_known c o (w : world) : ctx_buf c < length (w_heap w) ->
      ctx_get (w_heap (push c o w)) (w_graph (push c o w)) c (about o) = leaves o.
    Proof.
      intros L. rewrite ctx_get_unfold. unfold push. cbn [w_heap set_heap]. unfold buf_push. rewrite buf_alter, Nat.eqb_refl.
      rewrite (proj2 (Nat.ltb_lt _ _) L). cbn [andb]. now rewrite ops_overlay_app, one_about, eqb_refl.
    Qed.

    (** *** How the second program gets there *)

    Definition then_ (o : outcome) (w1 : world) (k : res -> world * prog) (w' : world) (o' : outcome) : Prop :=
      match o with
      | ORet r => ends sc2 (fst (k r)) (snd (k r)) w' o'
      | _ => w' = w1 /\ o' = o
      end.

    Ltac two E1 E2 :=
      let f1 := fresh "f" in let f2 := fresh "f" in
      destruct E1 as [f1 E1], E2 as [f2 E2];
      apply (run_mono _ _ _ _ _) with (fuel' := f1 + f2) in E1; [|lia];
      apply (run_mono _ _ _ _ _) with (fuel' := f1 + f2) in E2; [|lia];
      exists (S (f1 + f2)); cbn [run].

    Lemma ends_call (w w1 : world) b k o w' o' : ends sc2 w b w1 o ->
      match o with ORet r => ends sc2 w1 (k r) w' o' | _ => w' = w1 /\ o' = o end -> ends sc2 w (PCall b k) w' o'.
    Proof.
      intros E K. destruct o as [r| | |]; [two E K; now rewrite E|..];
        destruct K as [-> ->]; destruct E as [f E]; exists (S f); cbn [run]; now rewrite E.
    Qed.
    Lemma ends_try (w w1 : world) b k o w' o' : ends sc2 w b w1 o ->
      match o with ORet r => ends sc2 w1 (k (Some r)) w' o' | OPanic => ends sc2 w1 (k None) w' o' | _ => w' = w1 /\ o' = o end ->
      ends sc2 w (PTry b k) w' o'.
    Proof.
      intros E K. destruct o as [r| | |]; [two E K; now rewrite E|two E K; now rewrite E|..];
        destruct K as [-> ->]; destruct E as [f E]; exists (S f); cbn [run]; now rewrite E.
    Qed.
    Lemma ends_triggers (w w1 : world) s c k o w' o' : ends sc2 w (try_for_each (scheduled sc2 s) c) w1 o ->
      match o with ORet r => ends sc2 w1 (k r) w' o' | _ => w' = w1 /\ o' = o end -> ends sc2 w (PTriggers s c k) w' o'.
    Proof.
      rewrite <- select_scheduled.
      intros E K. destruct o as [r| | |]; [two E K; now rewrite E|..];
        destruct K as [-> ->]; destruct E as [f E]; exists (S f); cbn [run]; now rewrite E.
    Qed.
    Lemma ends_bg (w w1 : world) b k o w' o' : w_lock w = GFree ->
      ends sc2 (bg_open w) (b (bg_ctx w)) w1 o ->
      match o with
      | ORet r => ends sc2 (close (length (w_heap w)) (set_lock GFree (if is_ok r then fst (bg_commit None (length (w_heap w)) w1) else w1))) (k r) w' o'
      | OPanic => w' = close (length (w_heap w)) (set_lock GFree (set_poison w1)) /\ o' = OPanic
      | _ => w' = w1 /\ o' = o end -> ends sc2 w (PWith (TxBg None) b k) w' o'.
    Proof.
      intros L E K. unfold bg_open, bg_ctx in E. destruct o as [r| | |].
      - two E K. rewrite L, E. destruct (is_ok r); [|exact K].
        assert (X : snd (bg_commit None (length (w_heap w)) w1) = false) by (unfold bg_commit; destruct (leaked _ _); reflexivity).
        destruct (bg_commit None _ w1) as [u x]. cbn [fst snd] in *. subst x. exact K.
      - destruct K as [-> ->]; destruct E as [f E]; exists (S f); cbn [run]; now rewrite L, E.
      - destruct K as [-> ->]; destruct E as [f E]; exists (S f); cbn [run]; now rewrite L, E.
      - destruct K as [-> ->]; destruct E as [f E]; exists (S f); cbn [run]; now rewrite L, E.
    Qed.
    Lemma ends_fg (w w1 : world) c b k o w' o' :
      ends sc2 (fg_open w) (b (fg_ctx w c)) w1 o ->
      match o with
      | ORet r => ends sc2 (close (length (w_heap w)) (if is_ok r then fg_commit c (length (w_heap w)) w1 else w1)) (k r) w' o'
      | OPanic => w' = close (length (w_heap w)) w1 /\ o' = OPanic
      | _ => w' = w1 /\ o' = o end -> ends sc2 w (PWith (TxFg c) b k) w' o'.
    Proof.
      intros E K. unfold fg_open, fg_ctx in E. destruct o as [r| | |].
      - two E K. rewrite E. destruct (is_ok r); exact K.
      - destruct K as [-> ->]; destruct E as [f E]; exists (S f); cbn [run]; now rewrite E.
      - destruct K as [-> ->]; destruct E as [f E]; exists (S f); cbn [run]; now rewrite E.
      - destruct K as [-> ->]; destruct E as [f E]; exists (S f); cbn [run]; now rewrite E.
    Qed.
    Lemma ends_read (w w1 : world) l b k o w' o' : glock_read (w_lock w) = Some l -> ends sc2 (set_lock l w) b w1 o ->
      match o with
      | ORet r => ends sc2 (set_lock (glock_unread (w_lock w1)) w1) (k r) w' o'
      | OPanic => w' = set_lock (glock_unread (w_lock w1)) w1 /\ o' = OPanic
      | _ => w' = w1 /\ o' = o end -> ends sc2 w (PRead b k) w' o'.
    Proof.
      intros L E K. destruct o as [r| | |]; [two E K; now rewrite L, E|..];
        destruct K as [-> ->]; destruct E as [f E]; exists (S f); cbn [run]; now rewrite L, E.
    Qed.
    Lemma ends_write (w w1 : world) b k o w' o' : w_lock w = GFree -> ends sc2 (set_lock GWrite w) b w1 o ->
      match o with
      | ORet r => ends sc2 (set_lock GFree w1) (k r) w' o'
      | OPanic => w' = set_lock GFree (set_poison w1) /\ o' = OPanic
      | _ => w' = w1 /\ o' = o end -> ends sc2 w (PWrite b k) w' o'.
    Proof.
      intros L E K. destruct o as [r| | |]; [two E K; now rewrite L, E|..];
        destruct K as [-> ->]; destruct E as [f E]; exists (S f); cbn [run]; now rewrite L, E.
    Qed.
    Lemma ends_access (w w1 : world) m hs b k cs held vs o w' o' : acquire m hs (w_cells w) = AcqOk _ cs held ->
      deref_all cs hs held = Some vs -> ends sc2 (set_cells cs w) (b vs) w1 o ->
      match o with
      | ORet r => ends sc2 (set_cells (release false held (w_cells w1)) w1) (k (Some r)) w' o'
      | OPanic => w' = set_cells (release (match m with Excl => true | Shared => false end) held (w_cells w1)) w1 /\ o' = OPanic
      | _ => w' = w1 /\ o' = o end -> ends sc2 w (PAccess m hs b k) w' o'.
    Proof.
      intros L D E K. destruct o as [r| | |]; [two E K; now rewrite L, D, E|..];
        destruct K as [-> ->]; destruct E as [f E]; exists (S f); cbn [run]; now rewrite L, D, E.
    Qed.

    Lemma simulation n : forall l p q, rewrites l p q -> simulates n l p q.
    Proof.
      induction n as [|f IHn]; intros l p q RW; [intros w1 w2 S SC w1' oc E; discriminate|].
      induction RW as
        [ l c o1 o2 k k' A RW IH | l c o1 o2 k k' A RW IH | l c o1 o2 k k' A RW IH
        | l c s k k' J RW IH | l c s k k' J RW IH | l c ops e k k' RW IH | l c ops e k k' RW IH
        | l c o k k' J RW IH | l c o k k' J RW IH | l c i k k' RW IH | l c i k k' RW IH | l c i k k' RW IH | l c i k k' RW IH
        | l r | l | l | l v k k' RW IH | l b b' k k' RW IH RW' IH' | l b b' k k' RW IH RW' IH' | l b b' k k' RW IH RW' IH'
        | l c b b' k k' RW IH RW' IH' | l c o k k' RW IH | l c i k k' RW IH | l c i k k' RW IH | l c m k k' RW IH
        | l c k k' J RW IH | l s c k k' J RW IH | l b b' k k' RW IH RW' IH' | l b b' k k' RW IH RW' IH'
        | l i k k' RW IH | l k k' RW IH | l c k k' RW IH | l t k k' RW IH | l m hs b b' k k' RW IH RW' IH' | l a d k k' RW IH ];
        intros w1 w2 S SC w1' oc E.
      - (* overwritten *)
        rewrite run_register in E. destruct f as [|f]; [discriminate|]. rewrite run_register in E. apply up, up in E.
        destruct (R_overwritten c o1 o2 w1 w2 S A) as [K _].
        eapply IH in E as (w2' & E & K'); [|exact K|].
        + exists w2'. split; [|exact K']. now apply ends_register.
        + eapply scope_len; [exact SC|]. cbn. now rewrite !push_length.
      - rewrite run_register in E. apply up in E.
        destruct (R_overwritten c o1 o2 w1 w2 S A) as [_ K].
        eapply IH in E as (w2' & E & K'); [|exact K|].
        + exists w2'. split; [|exact K']. now apply ends_register, ends_register.
        + eapply scope_len; [exact SC|]. cbn. now rewrite !push_length.
      - (* swapped *)
        rewrite run_register in E. destruct f as [|f]; [discriminate|]. rewrite run_register in E. apply up, up in E.
        eapply IH in E as (w2' & E & K'); [|exact (R_swapped c o1 o2 w1 w2 S A)|].
        + exists w2'. split; [|exact K']. now apply ends_register, ends_register.
        + eapply scope_len; [exact SC|]. cbn. now rewrite !push_length.
      - (* inlined *)
        pose proof (inline_exact c s w1 (SC _ J) (proj2 S)) as [X Y].
        destruct (eval_R c s w1 w2 S) as (K & Q & L).
        cbn [run] in E. destruct (run sc1 f _ (on _ s PRet)) as [[u o]|] eqn:B; [|discriminate].
        apply run_on in B as (m & _ & B). destruct m as [|m]; [discriminate|]. cbn [run] in B. injection B as <- <-.
        fold (fg_open w1) in E. fold (fg_ctx w1 c) in E. rewrite eval_ok, X, Y in E. apply up in E.
        eapply IH in E as (w2' & E & K'); [|exact K|].
        + exists w2'. split; [|exact K']. apply ends_on. now rewrite <- Q.
        + eapply scope_len; [exact SC|]. now rewrite L.
      - apply run_on in E as (m & Lm & E). apply (run_mono _ _ _ _ _) with (fuel' := Datatypes.S f) in E; [|exact Lm].
        assert (L2 : ctx_buf c < length (w_heap w2)) by (rewrite <- (R_len _ _ S); now apply SC).
        pose proof (inline_exact c s w2 L2 (R_bounded _ _ S)) as [X Y].
        destruct (eval_R c s w1 w2 S) as (K & Q & L).
        eapply IH in E as (w2' & E & K'); [|exact K|].
        + exists w2'. split; [|exact K']. eapply ends_fg.
          * apply ends_on. exists 1. cbn [run]. reflexivity.
          * cbn beta iota. rewrite eval_ok, X, Y, <- Q. exact E.
        + eapply scope_len; [exact SC|]. now rewrite L.
      - (* abandoned *)
        cbn [run] in E. destruct (run sc1 f _ (registers_all _ ops _)) as [[u o]|] eqn:B; [|discriminate].
        apply run_abandoned in B. injection B as -> ->. cbn [is_ok] in E. fold (fg_open w1) in E.
        rewrite (proj2 (abandoned_exact c ops w1 (proj2 S))) in E. apply up in E. eapply IH in E; eauto.
      - destruct (IH w1 w2 S SC w1' oc E) as (w2' & E2 & K'). exists w2'. split; [|exact K'].
        eapply ends_fg; [apply ends_abandoned|]. cbn beta iota. cbn [is_ok]. unfold fg_ctx.
        now rewrite (proj2 (abandoned_exact c ops w2 (R_bounded _ _ S))).
      - (* known *)
        rewrite run_register in E. destruct f as [|f]; [discriminate|]. cbn [run] in E. rewrite get_known in E by now apply SC.
        apply up, up in E. eapply IH in E as (w2' & E & K'); [|exact (R_push c o w1 w2 S)|].
        + exists w2'. split; [|exact K']. now apply ends_register.
        + eapply scope_len; [exact SC|]. cbn. now rewrite !push_length.
      - rewrite run_register in E. apply up in E. eapply IH in E as (w2' & E & K'); [|exact (R_push c o w1 w2 S)|].
        + exists w2'. split; [|exact K']. apply ends_register. eapply ends_step; [|exact E]. intros n. cbn [run].
          rewrite get_known; [reflexivity|]. rewrite <- (R_len _ _ S). now apply SC.
        + eapply scope_len; [exact SC|]. cbn. now rewrite !push_length.
      - (* reread *)
        cbn [run] in E. destruct f as [|f]; [discriminate|]. cbn [run] in E. apply up, up in E.
        eapply IH in E as (w2' & E & K'); [|exact S|exact SC]. exists w2'. split; [|exact K'].
        eapply ends_step; [|exact E]. intros n. cbn [run]. now rewrite (R_get w1 w2 c i S).
      - cbn [run] in E. apply up in E. eapply IH in E as (w2' & E & K'); [|exact S|exact SC]. exists w2'. split; [|exact K'].
        rewrite (R_get w1 w2 c i S) in E. eapply ends_step; [reflexivity|]. eapply ends_step; [reflexivity|]. exact E.
      - (* unused *)
        cbn [run] in E. apply up in E. eapply IH in E; eauto.
      - destruct (IH w1 w2 S SC w1' oc E) as (w2' & E2 & K'). exists w2'. split; [|exact K']. eapply ends_step; [reflexivity|exact E2].
      - injection E as <- <-. exists w2. split; [now exists 1|exact S].
      - injection E as <- <-. exists w2. split; [now exists 1|exact S].
      - discriminate.
      - cbn [run] in E. apply up in E. eapply IH in E as (w2' & E & K'); [|exact (R_emit v _ _ S)|exact SC].
        exists w2'. split; [|exact K']. eapply ends_step; [reflexivity|exact E].
      - (* call *)
        cbn [run] in E. destruct (run sc1 f w1 b) as [[u o]|] eqn:B; [|discriminate]. pose proof B as B0. apply up in B.
        eapply IH in B as (u2 & B & K); [|exact S|exact SC]. destruct o as [r| | |].
        + apply up in E. eapply IH' in E as (w2' & E & K'); [|exact K|].
          * exists w2'. split; [|exact K']. eapply ends_call; [exact B|exact E].
          * eapply scope_len; [exact SC|]. rewrite (heap_len _ _ _ _ _ _ B0); [lia|exact I].
        + injection E as <- <-. exists u2. split; [|exact K]. eapply ends_call; [exact B|now split].
        + injection E as <- <-. exists u2. split; [|exact K]. eapply ends_call; [exact B|now split].
        + injection E as <- <-. exists u2. split; [|exact K]. eapply ends_call; [exact B|now split].
      - (* try *)
        cbn [run] in E. destruct (run sc1 f w1 b) as [[u o]|] eqn:B; [|discriminate]. pose proof B as B0. apply up in B.
        eapply IH in B as (u2 & B & K); [|exact S|exact SC]. destruct o as [r| | |].
        + apply up in E. eapply IH' in E as (w2' & E & K'); [|exact K|].
          * exists w2'. split; [|exact K']. eapply ends_try; [exact B|exact E].
          * eapply scope_len; [exact SC|]. rewrite (heap_len _ _ _ _ _ _ B0); [lia|exact I].
        + apply up in E. eapply IH' in E as (w2' & E & K'); [|exact K|].
          * exists w2'. split; [|exact K']. eapply ends_try; [exact B|exact E].
          * eapply scope_len; [exact SC|]. rewrite (heap_len _ _ _ _ _ _ B0); [lia|exact I].
        + injection E as <- <-. exists u2. split; [|exact K]. eapply ends_try; [exact B|now split].
        + injection E as <- <-. exists u2. split; [|exact K]. eapply ends_try; [exact B|now split].
      - (* background transaction *)
        cbn [run] in E. pose proof (rl_lock _ _ (proj1 S)) as Lk. destruct (w_lock w1) eqn:L1.
        2-4: injection E as <- <-; exists w2; split; [exists 1; cbn [run]; rewrite <- Lk; reflexivity|exact S].
        symmetry in Lk. cbn zeta in E. destruct (run sc1 f _ (b _)) as [[u o]|] eqn:B; [|discriminate]. pose proof B as B0. apply up in B.
        assert (So : R (bg_open w1) (bg_open w2)) by now apply R_set_lock, R_open.
        eapply IH in B as (u2 & B & K); [|exact So|].
        2:{ intros x [<-|Jx]; cbn; rewrite app_length; cbn; [lia|]. apply SC in Jx. lia. }
        rewrite (R_len _ _ S) in B at 1. fold (bg_ctx w2) in B.
        assert (HL : comes_back o -> length (w_heap u) = length (w_heap w1) + 1).
        { intros Cb. rewrite (heap_len _ _ _ _ _ _ B0 Cb). cbn. rewrite app_length. reflexivity. }
        destruct o as [r| | |].
        + specialize (HL Logic.I).
          assert (E' : run sc1 f (close (length (w_heap w1)) (set_lock GFree (if is_ok r then fst (bg_commit None (length (w_heap w1)) u) else u))) (k r) = Some (w1', oc)).
          { destruct (is_ok r); [|exact E]. destruct (R_bg_commit (length (w_heap w1)) u u2 K) as (_ & X & _).
            destruct (bg_commit None _ u) as [y x]. cbn [fst snd] in *. subst x. exact E. }
          clear E. apply up in E'.
          assert (K2 : R (close (length (w_heap w1)) (set_lock GFree (if is_ok r then fst (bg_commit None (length (w_heap w1)) u) else u)))
                        (close (length (w_heap w1)) (set_lock GFree (if is_ok r then fst (bg_commit None (length (w_heap w1)) u2) else u2))) /\
                      length (w_heap (if is_ok r then fst (bg_commit None (length (w_heap w1)) u) else u)) = length (w_heap w1) + 1).
          { destruct (R_bg_commit (length (w_heap w1)) u u2 K) as (X & _ & _ & Y). destruct (is_ok r).
            - split; [|now rewrite Y]. apply R_close; [now apply R_set_lock|]. cbn. rewrite Y, HL. lia.
            - split; [|exact HL]. apply R_close; [now apply R_set_lock|]. cbn. rewrite HL. lia. }
          destruct K2 as [K2 Y]. eapply IH' in E' as (w2' & E' & K'); [|exact K2|].
          * exists w2'. split; [|exact K']. eapply ends_bg; [exact Lk|exact B|]. cbn beta iota. rewrite <- (R_len _ _ S). exact E'.
          * eapply scope_len; [exact SC|]. cbn. rewrite firstn_length, Y. lia.
        + specialize (HL Logic.I). injection E as <- <-. eexists. split.
          * eapply ends_bg; [exact Lk|exact B|]. cbn beta iota. split; reflexivity.
          * rewrite <- (R_len _ _ S). apply R_close; [now apply R_set_lock, R_set_poison|]. cbn. lia.
        + injection E as <- <-. exists u2. split; [|exact K]. eapply ends_bg; [exact Lk|exact B|now split].
        + injection E as <- <-. exists u2. split; [|exact K]. eapply ends_bg; [exact Lk|exact B|now split].
      - (* sub-transaction *)
        cbn [run] in E. cbn zeta in E. destruct (run sc1 f _ (b _)) as [[u o]|] eqn:B; [|discriminate]. pose proof B as B0. apply up in B.
        eapply IH in B as (u2 & B & K); [|exact (R_open w1 w2 S)|].
        2:{ intros x [<-|Jx]; cbn; rewrite app_length; cbn; [lia|]. apply SC in Jx. lia. }
        rewrite (R_len _ _ S) in B at 1. fold (fg_ctx w2 c) in B.
        assert (HL : comes_back o -> length (w_heap u) = length (w_heap w1) + 1).
        { intros Cb. rewrite (heap_len _ _ _ _ _ _ B0 Cb). cbn. rewrite app_length. reflexivity. }
        destruct o as [r| | |].
        + specialize (HL Logic.I).
          assert (E' : run sc1 f (close (length (w_heap w1)) (if is_ok r then fg_commit c (length (w_heap w1)) u else u)) (k r) = Some (w1', oc)).
          { destruct (is_ok r); exact E. }
          clear E. apply up in E'.
          assert (K2 : R (close (length (w_heap w1)) (if is_ok r then fg_commit c (length (w_heap w1)) u else u))
                        (close (length (w_heap w1)) (if is_ok r then fg_commit c (length (w_heap w1)) u2 else u2)) /\
                      length (w_heap (if is_ok r then fg_commit c (length (w_heap w1)) u else u)) = length (w_heap w1) + 1).
          { destruct (is_ok r).
            - split; [|now rewrite fg_commit_length]. apply R_close; [now apply R_fg_commit|]. rewrite fg_commit_length, HL. lia.
            - split; [|exact HL]. apply R_close; [exact K|]. rewrite HL. lia. }
          destruct K2 as [K2 Y]. eapply IH' in E' as (w2' & E' & K'); [|exact K2|].
          * exists w2'. split; [|exact K']. eapply ends_fg; [exact B|]. cbn beta iota. rewrite <- (R_len _ _ S). exact E'.
          * eapply scope_len; [exact SC|]. cbn. rewrite firstn_length, Y. lia.
        + specialize (HL Logic.I). injection E as <- <-. eexists. split.
          * eapply ends_fg; [exact B|]. cbn beta iota. split; reflexivity.
          * rewrite <- (R_len _ _ S). apply R_close; [exact K|]. lia.
        + injection E as <- <-. exists u2. split; [|exact K]. eapply ends_fg; [exact B|now split].
        + injection E as <- <-. exists u2. split; [|exact K]. eapply ends_fg; [exact B|now split].
      - rewrite run_register in E. apply up in E. eapply IH in E as (w2' & E & K'); [|exact (R_push c o w1 w2 S)|].
        + exists w2'. split; [|exact K']. now apply ends_register.
        + eapply scope_len; [exact SC|]. cbn. now rewrite !push_length.
      - cbn [run] in E. apply up in E. rewrite (R_get w1 w2 c i S) in E. eapply IH in E as (w2' & E & K'); [|exact S|exact SC].
        exists w2'. split; [|exact K']. eapply ends_step; [reflexivity|exact E].
      - cbn [run] in E. apply up in E. rewrite !ctx_contains_get, (R_get w1 w2 c i S), <- ctx_contains_get in E.
        eapply IH in E as (w2' & E & K'); [|exact S|exact SC].
        exists w2'. split; [|exact K']. eapply ends_step; [reflexivity|exact E].
      - cbn [run] in E. apply up in E. eapply IH in E as (w2' & E & K'); [|exact (R_set_cells _ _ _ S)|exact SC].
        exists w2'. split; [|exact K']. rewrite (rl_cells _ _ (proj1 S)) in E. eapply ends_step; [reflexivity|exact E].
      - cbn [run] in E. apply up in E.
        assert (K : R (set_leaked (ctx_buf c :: w_leaked w1) w1) (set_leaked (ctx_buf c :: w_leaked w1) w2)).
        { split; [apply rel_set_leaked, S|]. intros x [<-|Jx]; cbn; [now apply SC|now apply (proj2 S)]. }
        eapply IH in E as (w2' & E & K'); [|exact K|exact SC].
        exists w2'. split; [|exact K']. rewrite (rl_leaked _ _ (proj1 S)) in E. eapply ends_step; [reflexivity|exact E].
      - (* triggers *)
        cbn [run] in E. rewrite select_scheduled in E. destruct (run sc1 f w1 _) as [[u o]|] eqn:B; [|discriminate]. pose proof B as B0.
        eapply (IHn [ctx_buf c] _ (try_for_each (scheduled sc2 s) c)) in B as (u2 & B & K);
          [|apply rewrites_try, (rt_triggers _ _ RT)|exact S|intros x [<-|[]]; now apply SC].
        destruct o as [r| | |].
        + apply up in E. eapply IH in E as (w2' & E & K'); [|exact K|].
          * exists w2'. split; [|exact K']. eapply ends_triggers; [exact B|exact E].
          * eapply scope_len; [exact SC|]. rewrite (heap_len _ _ _ _ _ _ B0); [lia|exact I].
        + injection E as <- <-. exists u2. split; [|exact K]. eapply ends_triggers; [exact B|now split].
        + injection E as <- <-. exists u2. split; [|exact K]. eapply ends_triggers; [exact B|now split].
        + injection E as <- <-. exists u2. split; [|exact K]. eapply ends_triggers; [exact B|now split].
      - (* read *)
        cbn [run] in E. pose proof (rl_lock _ _ (proj1 S)) as Lk. destruct (glock_read (w_lock w1)) as [lk|] eqn:L1.
        2:{ injection E as <- <-. exists w2. split; [exists 1; cbn [run]; rewrite <- Lk, L1; reflexivity|exact S]. }
        rewrite Lk in L1. destruct (run sc1 f _ b) as [[u o]|] eqn:B; [|discriminate]. pose proof B as B0. apply up in B.
        eapply IH in B as (u2 & B & K); [|exact (R_set_lock lk _ _ S)|exact SC].
        pose proof (rl_lock _ _ (proj1 K)) as Lu. destruct o as [r| | |].
        + apply up in E. eapply IH' in E as (w2' & E & K'); [|exact (R_set_lock _ _ _ K)|].
          * exists w2'. split; [|exact K']. eapply ends_read; [exact L1|exact B|]. cbn beta iota. rewrite <- Lu. exact E.
          * eapply scope_len; [exact SC|]. cbn. rewrite (heap_len _ _ _ _ _ _ B0); [cbn; lia|exact I].
        + injection E as <- <-. eexists. split; [eapply ends_read; [exact L1|exact B|cbn beta iota; split; reflexivity]|].
          rewrite <- Lu. now apply R_set_lock.
        + injection E as <- <-. exists u2. split; [|exact K]. eapply ends_read; [exact L1|exact B|now split].
        + injection E as <- <-. exists u2. split; [|exact K]. eapply ends_read; [exact L1|exact B|now split].
      - (* write *)
        cbn [run] in E. pose proof (rl_lock _ _ (proj1 S)) as Lk. destruct (w_lock w1) eqn:L1.
        2-4: injection E as <- <-; exists w2; split; [exists 1; cbn [run]; rewrite <- Lk; reflexivity|exact S].
        symmetry in Lk. destruct (run sc1 f _ b) as [[u o]|] eqn:B; [|discriminate]. pose proof B as B0. apply up in B.
        eapply IH in B as (u2 & B & K); [|exact (R_set_lock GWrite _ _ S)|exact SC].
        destruct o as [r| | |].
        + apply up in E. eapply IH' in E as (w2' & E & K'); [|exact (R_set_lock _ _ _ K)|].
          * exists w2'. split; [|exact K']. eapply ends_write; [exact Lk|exact B|]. exact E.
          * eapply scope_len; [exact SC|]. cbn. rewrite (heap_len _ _ _ _ _ _ B0); [cbn; lia|exact I].
        + injection E as <- <-. eexists. split; [eapply ends_write; [exact Lk|exact B|cbn beta iota; split; reflexivity]|].
          now apply R_set_lock, R_set_poison.
        + injection E as <- <-. exists u2. split; [|exact K]. eapply ends_write; [exact Lk|exact B|now split].
        + injection E as <- <-. exists u2. split; [|exact K]. eapply ends_write; [exact Lk|exact B|now split].
      - cbn [run] in E. pose proof (rl_lock _ _ (proj1 S)) as Lk. pose proof (rl_graph _ _ (proj1 S)) as G.
        destruct (w_lock w1) eqn:L1; symmetry in Lk;
          try (injection E as <- <-; exists w2; split; [exists 1; cbn [run]; rewrite Lk; reflexivity|exact S]);
          apply up in E; (eapply IH in E as (w2' & E & K'); [|exact S|exact SC]; exists w2'; split; [|exact K'];
          rewrite G in E; eapply ends_step; [|exact E]; intros ?; cbn [run]; now rewrite Lk).
      - cbn [run] in E. pose proof (rl_lock _ _ (proj1 S)) as Lk. pose proof (rl_graph _ _ (proj1 S)) as G.
        destruct (w_lock w1) eqn:L1; symmetry in Lk;
          try (injection E as <- <-; exists w2; split; [exists 1; cbn [run]; rewrite Lk; reflexivity|exact S]);
          apply up in E; (eapply IH in E as (w2' & E & K'); [|exact S|exact SC]; exists w2'; split; [|exact K'];
          rewrite G in E; eapply ends_step; [|exact E]; intros ?; cbn [run]; now rewrite Lk).
      - cbn [run] in E. pose proof (rl_lock _ _ (proj1 S)) as Lk. pose proof (rl_graph _ _ (proj1 S)) as G.
        destruct (w_lock w1) eqn:L1; symmetry in Lk;
          try (injection E as <- <-; exists w2; split; [exists 1; cbn [run]; rewrite Lk; reflexivity|exact S]).
        pose proof (g_wf_step (w_graph w1) c (rl_wf _ _ (proj1 S))) as W. destruct (g_step (w_graph w1) c) as [g r] eqn:GS. apply up in E.
        eapply IH in E as (w2' & E & K'); [|exact (R_set_graph g _ _ S W)|exact SC]. exists w2'. split; [|exact K'].
        eapply ends_step; [|exact E]. intros m'. cbn [run]. now rewrite Lk, <- G, GS.
      - cbn [run] in E. apply up in E. eapply IH in E as (w2' & E & K'); [|exact S|exact SC]. exists w2'. split; [|exact K'].
        eapply ends_step; [|exact E]. intros m'. cbn [run]. unfold res_from. now rewrite (rt_resources _ _ RT).
      - (* access *)
        cbn [run] in E. pose proof (rl_cells _ _ (proj1 S)) as C. destruct (acquire m hs (w_cells w1)) as [cs held| |] eqn:Q.
        2-3: injection E as <- <-; exists w2; split; [exists 1; cbn [run]; rewrite <- C, Q; reflexivity|exact S].
        rewrite C in Q. destruct (deref_all cs hs held) as [vs|] eqn:D.
        2:{ apply up in E. eapply IH' in E as (w2' & E & K'); [|exact (R_set_cells _ _ _ S)|exact SC]. exists w2'. split; [|exact K'].
            eapply ends_step; [|exact E]. intros n. cbn [run]. now rewrite Q, D. }
        destruct (run sc1 f _ (b vs)) as [[u o]|] eqn:B; [|discriminate]. pose proof B as B0. apply up in B.
        eapply IH in B as (u2 & B & K); [|exact (R_set_cells cs _ _ S)|exact SC].
        pose proof (rl_cells _ _ (proj1 K)) as Cu. destruct o as [r| | |].
        + apply up in E. eapply IH' in E as (w2' & E & K'); [|exact (R_set_cells _ _ _ K)|].
          * exists w2'. split; [|exact K']. eapply ends_access; [exact Q|exact D|exact B|]. cbn beta iota. rewrite <- Cu. exact E.
          * eapply scope_len; [exact SC|]. cbn. rewrite (heap_len _ _ _ _ _ _ B0); [cbn; lia|exact I].
        + injection E as <- <-. eexists. split; [eapply ends_access; [exact Q|exact D|exact B|cbn beta iota; split; reflexivity]|].
          rewrite <- Cu. now apply R_set_cells.
        + injection E as <- <-. exists u2. split; [|exact K]. eapply ends_access; [exact Q|exact D|exact B|now split].
        + injection E as <- <-. exists u2. split; [|exact K]. eapply ends_access; [exact Q|exact D|exact B|now split].
      - cbn [run] in E. pose proof (rl_cells _ _ (proj1 S)) as C. destruct (nth_error (w_cells w1) a) as [x|] eqn:Q.
        2:{ injection E as <- <-. exists w2. split; [exists 1; cbn [run]; rewrite <- C, Q; reflexivity|exact S]. }
        destruct (c_lock x) eqn:X;
          try (injection E as <- <-; exists w2; split; [exists 1; cbn [run]; rewrite <- C, Q, X; reflexivity|exact S]).
        destruct (ty_eqb _ _) eqn:T.
        2:{ injection E as <- <-. exists w2. split; [exists 1; cbn [run]; rewrite <- C, Q, X, T; reflexivity|exact S]. }
        apply up in E. eapply IH in E as (w2' & E & K'); [|exact (R_set_cells _ _ _ S)|exact SC]. exists w2'. split; [|exact K'].
        eapply ends_step; [|exact E]. intros n. cbn [run]. rewrite <- C, Q, X, T. reflexivity.
    Qed.
  End Sim.
End Rewrite.
