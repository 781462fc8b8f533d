(** Runs that log no lost commit are those of the program without leaks; poisoning of the graph; notices of accesses. *)
From Coq Require Import List Bool Arith Lia.
From Verif Require Import Ord OrdFacts BTree BTreeFacts Graph SpecGraph GraphFacts Tx TxFacts TxMachine SpecTx Prog SpecProg ProgFacts
  ProgFrame ProgTx ProgTrace SpecTrace TraceFacts.
Import ListNotations.

Section Leaks.
  Context {Id Node V U : Type} `{HO : OrdT Id} `{HI : Identify Node Id}.
  Notation prog := (prog Id Node V U).
  Notation world := (world Id Node V U).
  Notation schema := (schema Id Node V U).
  Notation outcome := (outcome V).
  Notation res := (res V).
  Notation happening := (happening Id Node).
  Notation trigger := (trigger Id Node V U).
  Notation cell := (cell Node U).

  Definition tidy_world (w : world) : world := set_leaked [] w.
  Definition tidy_end (x : option (world * outcome)) : option (world * outcome) :=
    match x with Some (w, o) => Some (tidy_world w, o) | None => None end.

  Lemma leaked_tidy (w : world) b : leaked (tidy_world w) b = false.
  Proof. reflexivity. Qed.

  Lemma close_tidy b (w : world) : close b (tidy_world w) = tidy_world (close b w).
  Proof. reflexivity. Qed.

  Lemma commit_tidy crash b (w : world) : leaked w b = false ->
    bg_commit crash b (tidy_world w) = (tidy_world (fst (bg_commit crash b w)), snd (bg_commit crash b w)).
  Proof.
    intros L. unfold bg_commit. rewrite L, leaked_tidy. cbn zeta. change (w_heap (tidy_world w)) with (w_heap w).
    destruct crash as [k|]; [destruct (crashes k (buf_ops (w_heap w) b))|]; reflexivity.
  Qed.

  Section Sim.
    Variables sc sc' : schema.
    Hypothesis SC : unleaked_schema sc sc'.

    Lemma unleaked_try c : forall (ts ts' : list trigger), Forall2 (fun t t' => forall c, unleaked (t c) (t' c)) ts ts' ->
      unleaked (try_for_each ts c) (try_for_each ts' c).
    Proof.
      induction 1 as [|t t' ts ts' Ht _ IH]; cbn; [reflexivity|]. split; [apply Ht|]. intros []; cbn; auto.
    Qed.

    Lemma select_scheduled (s : schema) t c : select_execute (ts_select (sc_triggers s) t) c = try_for_each (scheduled s t) c.
    Proof. unfold scheduled, select_execute. now destruct (ts_select (sc_triggers s) t). Qed.

    Lemma unleaked_select s c : unleaked (select_execute (ts_select (sc_triggers sc) s) c : prog)
      (select_execute (ts_select (sc_triggers sc') s) c).
    Proof. rewrite !select_scheduled. apply unleaked_try, SC. Qed.

    Definition quiet (l : list happening) : Prop := ~ In (HNotice NInUse) l.

    Lemma quiet_app l1 l2 : quiet (l1 ++ l2) <-> quiet l1 /\ quiet l2.
    Proof. unfold quiet. rewrite in_app_iff. tauto. Qed.

    Lemma quiet_cons h l : quiet (h :: l) -> quiet l.
    Proof. unfold quiet. cbn. tauto. Qed.

    Lemma run_tidy fuel : forall (w : world) (p q : prog) x, unleaked p q -> run sc fuel w p = Some x ->
      quiet (trace sc fuel w p) ->
      run sc' fuel (tidy_world w) q = tidy_end (Some x) /\
      trace sc' fuel (tidy_world w) q = trace sc fuel w p.
    Proof.
      induction fuel as [|f IH]; intros w p q x T R Q; [discriminate|].
      assert (M : forall (w : world) (q : prog) y, run sc' f (tidy_world w) q = tidy_end (Some y) ->
        run sc' (S f) (tidy_world w) q = tidy_end (Some y) /\ trace sc' (S f) (tidy_world w) q = trace sc' f (tidy_world w) q).
      { intros w0 q0 [w1 o1] E. cbn [tidy_end] in *. split; [eapply run_mono; [exact E|lia]|].
        apply (trace_more sc' f (tidy_world w0) q0 (S f)); [lia|congruence]. }
      destruct p; cbn [unleaked] in T.
      all: try (lazymatch type of R with run _ _ _ (PLeak _ _) = _ => fail | _ => idtac end; destruct q; try contradiction; cbn [run trace] in R, Q |- *).
      - (* ret *) injection R as <-. now subst.
      - injection R as <-. auto.
      - discriminate.
      - (* emit *) destruct T as [-> T]. exact (IH _ _ _ _ T R Q).
      - (* call *) destruct T as [T1 T2]. apply quiet_app in Q as [Q1 Q2].
        destruct (run sc f w p) as [[w1 o]|] eqn:E; [|discriminate].
        destruct (IH _ _ _ _ T1 E Q1) as [R1 ->]. cbn [tidy_end] in R1. rewrite R1.
        destruct o; try (injection R as <-; auto).
        destruct (IH _ _ _ _ (T2 r) R Q2) as [-> ->]. auto.
      - (* try *) destruct T as [T1 T2]. apply quiet_app in Q as [Q1 Q2].
        destruct (run sc f w p) as [[w1 o]|] eqn:E; [|discriminate].
        destruct (IH _ _ _ _ T1 E Q1) as [R1 ->]. cbn [tidy_end] in R1. rewrite R1.
        destruct o; try (injection R as <-; auto).
        + destruct (IH _ _ _ _ (T2 (Some r)) R Q2) as [-> ->]. auto.
        + destruct (IH _ _ _ _ (T2 None) R Q2) as [-> ->]. auto.
      - (* with *) destruct T as (-> & T1 & T2). destruct t as [crash|c].
        + change (w_lock (tidy_world w)) with (w_lock w). change (w_heap (tidy_world w)) with (w_heap w).
          destruct (w_lock w); try (injection R as <-; auto). cbn zeta in *.
          apply quiet_app in Q as [_ Q]. apply quiet_app in Q as [Q1 Q2].
          change (guard_notices (tidy_world w)) with (guard_notices (Id := Id) w).
          change (set_lock GTx (set_heap (w_heap w ++ [[]]) (tidy_world w)))
            with (tidy_world (set_lock GTx (set_heap (w_heap w ++ [[]]) w))).
          destruct (run sc f _ (body _)) as [[w1 o]|] eqn:E; [|discriminate].
          destruct (IH _ _ _ _ (T1 _) E Q1) as [R1 ->]. cbn [tidy_end] in R1. rewrite R1.
          destruct o; try (injection R as <-; auto).
          destruct (is_ok r).
          * apply quiet_app in Q2 as [Qc Q2].
            assert (L : leaked w1 (length (w_heap w)) = false).
            { unfold commit_trace in Qc. destruct (leaked w1 _); [|reflexivity]. destruct Qc. now left. }
            rewrite commit_tidy by exact L.
            assert (Ct : commit_trace crash (length (w_heap w)) (tidy_world w1) = commit_trace (Id := Id) crash (length (w_heap w)) w1)
              by (unfold commit_trace; now rewrite L, leaked_tidy).
            rewrite Ct. destruct (bg_commit crash _ w1) as [w2 b]; cbn [fst snd] in *. destruct b.
            -- injection R as <-. auto.
            -- destruct (IH _ _ _ _ (T2 r) R Q2) as [R2 Tr2].
               change (close (length (w_heap w)) (set_lock GFree (tidy_world w2)))
                 with (tidy_world (close (length (w_heap w)) (set_lock GFree w2))). rewrite R2, Tr2. auto.
          * destruct (IH _ _ _ _ (T2 r) R Q2) as [R2 Tr2].
            change (close (length (w_heap w)) (set_lock GFree (tidy_world w1)))
              with (tidy_world (close (length (w_heap w)) (set_lock GFree w1))). rewrite R2, Tr2. auto.
        + change (w_heap (tidy_world w)) with (w_heap w). cbn zeta in *.
          apply quiet_app in Q as [Q1 Q2].
          change (set_heap (w_heap w ++ [[]]) (tidy_world w)) with (tidy_world (set_heap (w_heap w ++ [[]]) w)).
          destruct (run sc f _ (body _)) as [[w1 o]|] eqn:E; [|discriminate].
          destruct (IH _ _ _ _ (T1 _) E Q1) as [R1 ->]. cbn [tidy_end] in R1. rewrite R1.
          destruct o; try (injection R as <-; auto).
          destruct (is_ok r).
          * apply quiet_app in Q2 as [Qc Q2].
            assert (L : leaked w1 (length (w_heap w)) = false).
            { unfold merge_notices in Qc. destruct (leaked w1 _); [|reflexivity]. destruct Qc. now left. }
            assert (Ct : merge_notices (length (w_heap w)) (tidy_world w1) = merge_notices (Id := Id) (length (w_heap w)) w1)
              by (unfold merge_notices; now rewrite L, leaked_tidy). rewrite Ct.
            destruct (IH _ _ _ _ (T2 r) R Q2) as [R2 Tr2].
            replace (close (length (w_heap w)) (fg_commit c (length (w_heap w)) (tidy_world w1)))
              with (tidy_world (close (length (w_heap w)) (fg_commit c (length (w_heap w)) w1)))
              by (unfold fg_commit; rewrite L, leaked_tidy; reflexivity).
            rewrite R2, Tr2. auto.
          * destruct (IH _ _ _ _ (T2 r) R Q2) as [R2 Tr2]. rewrite close_tidy, R2, Tr2. auto.
      - destruct T as (-> & -> & T). exact (IH _ _ _ _ T R Q).
      - destruct T as (-> & -> & T). exact (IH _ _ _ _ T R Q).
      - destruct T as (-> & -> & T). exact (IH _ _ _ _ (T _) R Q).
      - destruct T as (-> & -> & T). exact (IH _ _ _ _ (T _) R Q).
      - destruct T as (-> & -> & T). exact (IH _ _ _ _ (T _) R Q).
      - (* leak *) cbn [run trace] in R, Q. destruct (IH _ _ _ _ T R Q) as [R2 Tr2].
        change (tidy_world (set_leaked _ w)) with (tidy_world w) in *.
        destruct x as [w1 o1]. destruct (M _ _ _ R2) as [M1 M2]. split; [exact M1|]. etransitivity; [exact M2|exact Tr2].
      - (* triggers *) destruct T as (-> & -> & T). apply quiet_app in Q as [Q1 Q2].
        destruct (run sc f w _) as [[w1 o]|] eqn:E; [|discriminate].
        destruct (IH _ _ _ _ (unleaked_select _ _) E Q1) as [R1 ->]. cbn [tidy_end] in R1. rewrite R1.
        destruct o; try (injection R as <-; auto).
        destruct (IH _ _ _ _ (T r) R Q2) as [-> ->]. auto.
      - (* read *) destruct T as [T1 T2]. change (w_lock (tidy_world w)) with (w_lock w).
        destruct (glock_read (w_lock w)) as [l|]; [|injection R as <-; auto].
        apply quiet_app in Q as [_ Q]. apply quiet_app in Q as [Q1 Q2].
        change (guard_notices (tidy_world w)) with (guard_notices (Id := Id) w).
        change (set_lock l (tidy_world w)) with (tidy_world (set_lock l w)).
        destruct (run sc f _ p) as [[w1 o]|] eqn:E; [|discriminate].
        destruct (IH _ _ _ _ T1 E Q1) as [R1 ->]. cbn [tidy_end] in R1. rewrite R1.
        destruct o; try (injection R as <-; auto).
        change (set_lock _ (tidy_world w1)) with (tidy_world (set_lock (glock_unread (w_lock w1)) w1)).
        destruct (IH _ _ _ _ (T2 r) R Q2) as [-> ->]. auto.
      - (* write *) destruct T as [T1 T2]. change (w_lock (tidy_world w)) with (w_lock w).
        destruct (w_lock w); try (injection R as <-; auto).
        apply quiet_app in Q as [_ Q]. apply quiet_app in Q as [Q1 Q2].
        change (guard_notices (tidy_world w)) with (guard_notices (Id := Id) w).
        change (set_lock GWrite (tidy_world w)) with (tidy_world (set_lock GWrite w)).
        destruct (run sc f _ p) as [[w1 o]|] eqn:E; [|discriminate].
        destruct (IH _ _ _ _ T1 E Q1) as [R1 ->]. cbn [tidy_end] in R1. rewrite R1.
        destruct o; try (injection R as <-; auto).
        change (set_lock _ (tidy_world w1)) with (tidy_world (set_lock GFree w1)).
        destruct (IH _ _ _ _ (T2 r) R Q2) as [-> ->]. auto.
      - destruct T as [-> T]. change (w_lock (tidy_world w)) with (w_lock w). change (w_graph (tidy_world w)) with (w_graph w).
        destruct (w_lock w); try (injection R as <-; auto);
          apply quiet_cons in Q; destruct (IH _ _ _ _ (T _) R Q) as [-> ->]; auto.
      - change (w_lock (tidy_world w)) with (w_lock w). change (w_graph (tidy_world w)) with (w_graph w).
        destruct (w_lock w); try (injection R as <-; auto);
          apply quiet_cons in Q; destruct (IH _ _ _ _ (T _) R Q) as [-> ->]; auto.
      - destruct T as [-> T]. change (w_lock (tidy_world w)) with (w_lock w). change (w_graph (tidy_world w)) with (w_graph w).
        destruct (w_lock w); try (injection R as <-; auto). destruct (g_step (w_graph w) c) as [g r].
        change (set_graph g (tidy_world w)) with (tidy_world (set_graph g w)).
        apply quiet_cons in Q; destruct (IH _ _ _ _ (T _) R Q) as [-> ->]; auto.
      - destruct T as [-> T]. unfold res_from in *. rewrite (proj1 SC). exact (IH _ _ _ _ (T _) R Q).
      - (* access *) destruct T as (-> & -> & T1 & T2). change (w_cells (tidy_world w)) with (w_cells w).
        apply quiet_app in Q as [_ Q].
        destruct (acquire m hs (w_cells w)) as [cs held| |]; try (injection R as <-; auto).
        destruct (deref_all cs hs held) as [vs|].
        + apply quiet_app in Q as [Q1 Q2]. change (set_cells cs (tidy_world w)) with (tidy_world (set_cells cs w)).
          destruct (run sc f _ (body vs)) as [[w1 o]|] eqn:E; [|discriminate].
          destruct (IH _ _ _ _ (T1 vs) E Q1) as [R1 ->]. cbn [tidy_end] in R1. rewrite R1.
          destruct o; try (injection R as <-; auto).
          change (set_cells _ (tidy_world w1)) with (tidy_world (set_cells (release false held (w_cells w1)) w1)).
          destruct (IH _ _ _ _ (T2 (Some r)) R Q2) as [-> ->]. auto.
        + change (set_cells _ (tidy_world w)) with (tidy_world (set_cells (release false held cs) w)).
          destruct (IH _ _ _ _ (T2 None) R Q) as [-> ->]. auto.
      - (* poke *) destruct T as (-> & -> & T). change (w_cells (tidy_world w)) with (w_cells w).
        destruct (nth_error (w_cells w) a) as [y|]; try (injection R as <-; auto).
        destruct (c_lock y); try (injection R as <-; auto).
        destruct (ty_eqb _ _); try (injection R as <-; auto). exact (IH _ _ _ _ T R Q).
    Qed.
  End Sim.

  (** Every program has one without leaks. *)
  Lemma unleaked_exists (p : prog) : exists q, unleaked p q.
  Proof.
    (* by a function, as continuations are *)
    set (tidy := fix tidy (p : prog) : prog :=
      match p with
      | PRet r => PRet r
      | PPanic => PPanic
      | PLoop => PLoop
      | PEmit v k => PEmit v (tidy k)
      | PCall body k => PCall (tidy body) (fun r => tidy (k r))
      | PTry body k => PTry (tidy body) (fun r => tidy (k r))
      | PWith t body k => PWith t (fun c => tidy (body c)) (fun r => tidy (k r))
      | PSave c n k => PSave c n (tidy k)
      | PDelete c i k => PDelete c i (tidy k)
      | PGet c i k => PGet c i (fun r => tidy (k r))
      | PContains c i k => PContains c i (fun r => tidy (k r))
      | PTarget c n k => PTarget c n (fun d => tidy (k d))
      | PLeak _ k => tidy k
      | PTriggers s c k => PTriggers s c (fun r => tidy (k r))
      | PRead body k => PRead (tidy body) (fun r => tidy (k r))
      | PWrite body k => PWrite (tidy body) (fun r => tidy (k r))
      | PGraphGet i k => PGraphGet i (fun r => tidy (k r))
      | PGraphIter k => PGraphIter (fun r => tidy (k r))
      | PGraphCall c k => PGraphCall c (fun r => tidy (k r))
      | PRes t k => PRes t (fun h => tidy (k h))
      | PAccess m hs body k => PAccess m hs (fun vs => tidy (body vs)) (fun r => tidy (k r))
      | PPoke a d k => PPoke a d (tidy k)
      end).
    exists (tidy p). induction p; cbn; auto.
  Qed.

  (** ** Notices of an access *)
  Lemma logged_ext (w : world) cs1 hs : 
    (forall a, option_map c_poison (nth_error cs1 a) = option_map c_poison (nth_error (w_cells w) a)) ->
    flat_map (logged (Id := Id) (set_cells cs1 w)) hs = flat_map (logged w) hs.
  Proof.
    intros E. induction hs as [|h hs IH]; [reflexivity|]. cbn [flat_map]. rewrite IH. f_equal.
    unfold logged. cbn [w_cells set_cells]. destruct (h_addr h) as [a|]; [|reflexivity]. specialize (E a).
    destruct (nth_error cs1 a) as [[? [] ?]|], (nth_error (w_cells w) a) as [[? [] ?]|]; cbn in E; try discriminate; reflexivity.
  Qed.

  Lemma acquire_logged m hs : forall (w : world) cs held, acquire m hs (w_cells w) = AcqOk _ cs held ->
    acquire_notices (Id := Id) m hs (w_cells w) = flat_map (logged w) hs.
  Proof.
    induction hs as [|h hs IH]; intros w cs held A; [reflexivity|]. cbn [acquire] in A. cbn [acquire_notices flat_map].
    destruct (acquire1 m h (w_cells w)) as [cs1 a| |] eqn:A1; try discriminate.
    destruct (acquire m hs cs1) as [cs2 l| |] eqn:A2; try discriminate. f_equal.
    - unfold acquire1 in A1. unfold acquire1_notices, logged, handle_notice. destruct (h_addr h) as [n|]; [|reflexivity].
      destruct (nth_error (w_cells w) n) as [[d b k]|]; [|discriminate]. cbn in *. destruct (blocked m k); [discriminate|].
      now destruct b.
    - change cs1 with (w_cells (set_cells cs1 w)) in A2. rewrite (IH _ _ _ A2) || (change cs1 with (w_cells (set_cells cs1 w)) at 1; rewrite (IH _ _ _ A2)).
      apply logged_ext. intros b.
      destruct (acquire1_spec _ _ _ _ _ A1) as [[-> ->]|(n & x & -> & _ & N & _ & _ & ->)]; [reflexivity|].
      rewrite nth_error_alter. destruct (Nat.eqb n b); [|reflexivity]. now destruct (nth_error (w_cells w) b).
  Qed.

  (** ** Poisoning of the graph's lock *)
  Lemma exec_poison_locked sc (w : world) (p : prog) w' o : exec sc w p w' o -> w_lock w <> GFree -> w_poison w' = w_poison w.
  Proof.
    induction 1; intros L; try reflexivity; try contradiction.
    all: try (cbn in *; now auto).
    all: try (rewrite IHexec2, IHexec1; [reflexivity|assumption|now rewrite (fr_lock _ _ (exec_framed _ _ _ _ _ H))]).
    - (* fg ok *) rewrite IHexec2.
      + unfold fg_commit. destruct (leaked w1 _); apply IHexec1; exact L.
      + unfold fg_commit. destruct (leaked w1 _); cbn; rewrite (fr_lock _ _ (exec_framed _ _ _ _ _ H)); exact L.
    - rewrite IHexec2; [apply IHexec1; exact L|]. cbn. rewrite (fr_lock _ _ (exec_framed _ _ _ _ _ H)); exact L.
    - (* read *) rewrite IHexec2.
      + apply IHexec1. cbn. destruct (w_lock w); cbn in *; congruence.
      + cbn. rewrite (fr_lock _ _ (exec_framed _ _ _ _ _ H0)). cbn [w_lock set_lock].
        destruct (w_lock w); cbn in H; try discriminate; [congruence|]. injection H as <-. discriminate.
    - apply IHexec. cbn. destruct (w_lock w); cbn in *; congruence.
    - rewrite IHexec2; [apply IHexec1; exact L|]. cbn. rewrite (fr_lock _ _ (exec_framed _ _ _ _ _ H1)); exact L.
  Qed.

  (** ** The error of a poisoned graph is logged only if it is *)
  Lemma run_poison sc f (w : world) p w1 o : run sc f w p = Some (w1, o) -> comes_back o -> w_poison w = true -> w_poison w1 = true.
  Proof. intros R C. apply (run_exec sc) in R; [|exact C]. apply (fr_poison _ _ (exec_framed _ _ _ _ _ R)). Qed.

  Lemma guard_poison (w : world) : In (HNotice (Id := Id) (Node := Node) NGraph) (guard_notices w) -> w_poison w = true.
  Proof. unfold guard_notices. now destruct (w_poison w). Qed.

  Lemma acquire_not_graph m hs : forall cs : list cell, ~ In (HNotice NGraph) (acquire_notices (Id := Id) m hs cs).
  Proof.
    induction hs as [|h hs IH]; intros cs; cbn; [easy|]. intros J. apply in_app_or in J as [J|J].
    - unfold acquire1_notices, handle_notice in J. destruct (h_addr h); [|easy]. destruct (nth_error cs n); [|easy].
      destruct (blocked _ _); [easy|]. destruct (c_poison c); [|easy]. destruct J as [J|[]]. now destruct (h_ty h).
    - destruct (acquire1 m h cs); [now apply IH in J|easy|easy].
  Qed.

  Lemma trace_poison sc fuel : forall (w : world) (p : prog) w' o, run sc fuel w p = Some (w', o) -> comes_back o ->
    In (HNotice NGraph) (trace sc fuel w p) -> w_poison w' = true.
  Proof.
    induction fuel as [|f IH]; intros w p w' o R C J; [discriminate|].
    assert (P : forall (w : world) p w' o, run sc f w p = Some (w', o) -> comes_back o -> w_poison w = true -> w_poison w' = true)
      by (intros; eapply run_poison; eauto).
    destruct p; cbn [run trace] in R, J; try easy; try (eapply IH; eassumption).
    - destruct (run sc f w p) as [[w1 o1]|] eqn:E; [|discriminate]. apply in_app_or in J as [J|J].
      + destruct o1; try (injection R as <- <-; now apply (IH _ _ _ _ E)). eapply P; [exact R|exact C|]. now apply (IH _ _ _ _ E).
      + destruct o1; try easy. eapply IH; eassumption.
    - destruct (run sc f w p) as [[w1 o1]|] eqn:E; [|discriminate]. apply in_app_or in J as [J|J].
      + destruct o1; try (injection R as <- <-; now apply (IH _ _ _ _ E)); (eapply P; [exact R|exact C|]; now apply (IH _ _ _ _ E)).
      + destruct o1; try easy; eapply IH; eassumption.
    - destruct t as [crash|c].
      + destruct (w_lock w); try easy. cbn zeta in *.
        destruct (run sc f _ (body _)) as [[w1 o1]|] eqn:E; [|discriminate].
        assert (K : comes_back o1 -> In (HNotice NGraph) (guard_notices w) \/
          In (HNotice NGraph) (trace sc f (set_lock GTx (set_heap (w_heap w ++ [[]]) w)) (body (CRoot (length (w_heap w)) None))) ->
          w_poison w1 = true).
        { intros C1 [G|G]; [|now apply (IH _ _ _ _ E C1)]. apply guard_poison in G. now apply (P _ _ _ _ E C1). }
        destruct o1 as [r| | |]; try (injection R as <- <-; try contradiction).
        * assert (J' : w_poison w1 = true \/ In (HNotice NGraph)
            (if is_ok r
             then commit_trace crash (length (w_heap w)) w1 ++
                  (let (w2, panicked) := bg_commit crash (length (w_heap w)) w1 in
                   if panicked then [] else trace sc f (close (length (w_heap w)) (set_lock GFree w2)) (k r))
             else trace sc f (close (length (w_heap w)) (set_lock GFree w1)) (k r))).
          { apply in_app_or in J as [J|J]; [left; apply K; [exact I|now left]|].
            apply in_app_or in J as [J|J]; [left; apply K; [exact I|now right]|]. now right. }
          clear J. destruct (is_ok r).
          -- destruct (bg_commit crash _ w1) as [w2 b] eqn:B.
             assert (P2 : w_poison w2 = w_poison w1) by (apply bg_commit_graph in B as [ops ->]; reflexivity).
             destruct J' as [J|J].
             ++ destruct b; [injection R as <- <-; reflexivity|]. eapply P; [exact R|exact C|]. cbn. congruence.
             ++ apply in_app_or in J as [J|J].
                ** unfold commit_trace in J. destruct (leaked w1 _); destruct J as [J|[]]; discriminate.
                ** destruct b; [easy|]. eapply IH; eassumption.
          -- destruct J' as [J|J]; [eapply P; [exact R|exact C|exact J]|eapply IH; eassumption].
        * reflexivity.
      + cbn zeta in *. destruct (run sc f _ (body _)) as [[w1 o1]|] eqn:E; [|discriminate].
        apply in_app_or in J as [J|J].
        * destruct o1 as [r| | |]; try (injection R as <- <-; now apply (IH _ _ _ _ E)).
          assert (P1 : w_poison w1 = true) by now apply (IH _ _ _ _ E I).
          destruct (is_ok r); (eapply P; [exact R|exact C|]); [|exact P1]. unfold fg_commit. now destruct (leaked w1 _).
        * destruct o1 as [r| | |]; try easy. destruct (is_ok r); [|eapply IH; eassumption].
          apply in_app_or in J as [J|J]; [|eapply IH; eassumption].
          unfold merge_notices in J. destruct (leaked w1 _); [|easy]. destruct J as [J|[]]; discriminate.
    - destruct (run sc f w _) as [[w1 o1]|] eqn:E; [|discriminate]. apply in_app_or in J as [J|J].
      + destruct o1; try (injection R as <- <-; now apply (IH _ _ _ _ E)). eapply P; [exact R|exact C|]. now apply (IH _ _ _ _ E).
      + destruct o1; try easy. eapply IH; eassumption.
    - destruct (glock_read (w_lock w)) as [l|]; [|easy].
      destruct (run sc f _ p) as [[w1 o1]|] eqn:E; [|discriminate].
      assert (K : comes_back o1 -> In (HNotice NGraph) (guard_notices w) -> w_poison w1 = true).
      { intros C1 G. apply guard_poison in G. now apply (P _ _ _ _ E C1). }
      apply in_app_or in J as [J|J]; [|apply in_app_or in J as [J|J]].
      + destruct o1; try (injection R as <- <-; try contradiction; try reflexivity; exact (K Logic.I J)). eapply P; [exact R|exact C|now apply K].
      + destruct o1; try (injection R as <- <-; try contradiction; try reflexivity; exact (IH _ _ _ _ E Logic.I J)).
        eapply P; [exact R|exact C|now apply (IH _ _ _ _ E)].
      + destruct o1; try easy. eapply IH; eassumption.
    - destruct (w_lock w); try easy.
      destruct (run sc f _ p) as [[w1 o1]|] eqn:E; [|discriminate].
      assert (K : comes_back o1 -> In (HNotice NGraph) (guard_notices w) -> w_poison w1 = true).
      { intros C1 G. apply guard_poison in G. now apply (P _ _ _ _ E C1). }
      apply in_app_or in J as [J|J]; [|apply in_app_or in J as [J|J]].
      + destruct o1; try (injection R as <- <-; try contradiction; try reflexivity; exact (K Logic.I J)). eapply P; [exact R|exact C|now apply K].
      + destruct o1; try (injection R as <- <-; try contradiction; try reflexivity; exact (IH _ _ _ _ E Logic.I J)).
        eapply P; [exact R|exact C|now apply (IH _ _ _ _ E)].
      + destruct o1; try easy. eapply IH; eassumption.
    - destruct (w_lock w); try easy; (destruct J as [J|J]; [discriminate|eapply IH; eassumption]).
    - destruct (w_lock w); try easy; (destruct J as [J|J]; [discriminate|eapply IH; eassumption]).
    - destruct (w_lock w); try easy. destruct (g_step (w_graph w) c). destruct J as [J|J]; [discriminate|eapply IH; eassumption].
    - apply in_app_or in J as [J|J]; [now apply acquire_not_graph in J|].
      destruct (acquire m hs (w_cells w)) as [cs held| |]; try easy.
      destruct (deref_all cs hs held) as [vs|]; [|eapply IH; eassumption].
      destruct (run sc f _ (body vs)) as [[w1 o1]|] eqn:E; [|discriminate]. apply in_app_or in J as [J|J].
      + destruct o1; try (injection R as <- <-; try contradiction; try reflexivity; exact (IH _ _ _ _ E Logic.I J)).
        eapply P; [exact R|exact C|now apply (IH _ _ _ _ E)].
      + destruct o1; try easy. eapply IH; eassumption.
    - destruct (nth_error (w_cells w) a) as [x|]; [|easy]. destruct (c_lock x); try easy.
      destruct (ty_eqb _ _); [|easy]. eapply IH; eassumption.
  Qed.
End Leaks.
