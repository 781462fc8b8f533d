(** Properties C94-C98: histories of runs and what is logged. *)
From Coq Require Import List Bool Arith Lia Sorted.
From Verif Require Import Ord OrdFacts BTree BTreeFacts Graph SpecGraph GraphFacts Demo Tx TxFacts TxMachine SpecTx Prog SpecProg
  ProgFacts ProgFrame ProgTx ProgOps ProgRes P_Prog P_Ops P_Res ProgTrace SpecTrace TraceFacts TraceLeaks.
Import ListNotations.

Section Properties.
  Context {Id Node V U : Type} `{HO : OrdT Id} `{HI : Identify Node Id}.
  Notation prog := (prog Id Node V U).
  Notation world := (world Id Node V U).
  Notation schema := (schema Id Node V U).
  Notation outcome := (outcome V).
  Notation res := (res V).
  Notation happening := (happening Id Node).

  Local Arguments buf_ops : simpl never.

  (** C94: at any point of any run, even one that never ends, what has happened is a legal history of a map. *)
  Theorem C94_history_is_serial :
    forall (sc : schema) (w : world) (p : prog),
      g_reachable (w_graph w) ->
      (forall l, so_far sc w p l -> serial (g_get (w_graph w)) l) /\
      (forall w' o l, happened sc w p w' o l -> forall i, g_get (w_graph w') i = after (g_get (w_graph w)) l i).
  Proof.
    intros sc w p R. apply g_reachable_wf in R. split.
    - intros l [f <-]. destruct (trace_gsound sc f w p) as [S _].
      apply (gserial_serial _ (w_graph w) (g_get (w_graph w)) R (fun _ => eq_refl) S).
    - intros w' o l (f & E & <-) i. destruct (trace_gsound sc f w p) as [S A].
      rewrite (proj2 (gserial_serial _ (w_graph w) (g_get (w_graph w)) R (fun _ => eq_refl) S)). now rewrite (A _ _ E).
  Qed.

  (** Every run that ends has exactly one history, and what has happened before its end is the beginning of it. *)
  Theorem C94_one_history :
    forall (sc : schema) (w : world) (p : prog) w' o,
      ends sc w p w' o ->
      exists l, happened sc w p w' o l /\
        (forall l', so_far sc w p l' -> exists rest, l = l' ++ rest) /\
        (forall w2 o2 l2, happened sc w p w2 o2 l2 -> w2 = w' /\ o2 = o /\ l2 = l).
  Proof.
    intros sc w p w' o E. destruct (ends_happened sc w p w' o E) as [l Hl]. exists l. split; [exact Hl|]. split.
    - intros l' S. exact (so_far_prefix sc w p w' o l l' Hl S).
    - intros w2 o2 l2 H2. pose proof (happened_fun sc _ _ _ _ _ _ _ _ H2 Hl) as ->.
      apply happened_ends in H2. now destruct (ends_det _ _ _ _ _ _ _ H2 E) as [-> ->].
  Qed.

  (** Inside a transaction nothing is published, whether it ends or not; under a read guard the graph is only read. *)
  Theorem C94_nothing_published_inside :
    forall (sc : schema) (w : world) (p : prog) l,
      so_far sc w p l ->
      (w_lock w = GTx -> only_notices l) /\ (forall n, w_lock w = GReaders n -> only_reads l).
  Proof.
    intros sc w p l [f <-]. split; [apply trace_inside|]. intros n L. now apply (trace_reading sc f w p n).
  Qed.

  Lemma bg_happened (sc : schema) (w : world) crash body w' o l :
    happened sc w (PWith (TxBg crash) body PRet) w' o l -> comes_back o ->
    w_lock w = GFree /\ exists w1 o1 lb, happened sc (bg_open w) (body (bg_ctx w)) w1 o1 lb /\
      match o1 with
      | ORet r =>
          if is_ok r then
            exists w2 b, bg_commit crash (length (w_heap w)) w1 = (w2, b) /\
              o = (if b then OPanic else ORet r) /\
              l = guard_notices w ++ lb ++ commit_trace crash (length (w_heap w)) w1
          else o = ORet r /\ l = guard_notices w ++ lb
      | OPanic => o = OPanic /\ l = guard_notices w ++ lb
      | _ => False
      end.
  Proof.
    intros (f & R & <-) C. destruct f as [|f]; [discriminate|]. cbn [run trace] in *.
    destruct (w_lock w); try (injection R as <- <-; contradiction). split; [reflexivity|]. cbn zeta in *.
    change (set_lock GTx (set_heap (w_heap w ++ [[]]) w)) with (bg_open w) in *.
    change (CRoot (length (w_heap w)) None) with (bg_ctx w) in *.
    destruct (run sc f (bg_open w) (body (bg_ctx w))) as [[w1 o1]|] eqn:E; [|discriminate].
    exists w1, o1, (trace sc f (bg_open w) (body (bg_ctx w))). split; [now exists f|].
    destruct o1 as [r| | |]; try (injection R as <- <-; try contradiction; now rewrite app_nil_r).
    assert (K : forall (w2 : world) r, run sc f w2 (PRet r) = Some (w', o) -> o = ORet r /\ trace sc f w2 (PRet r) = []).
    { intros w2 r0 E0. destruct f; [discriminate|]. cbn in E0. injection E0 as <- <-. auto. }
    destruct (is_ok r).
    - destruct (bg_commit crash (length (w_heap w)) w1) as [w2 []] eqn:B; exists w2.
      + exists true. injection R as <- <-. now rewrite app_nil_r.
      + exists false. destruct (K _ _ R) as [-> ->]. now rewrite app_nil_r.
    - destruct (K _ _ R) as [-> Et]. split; [reflexivity|]. now rewrite Et, app_nil_r.
  Qed.

  Lemma guard_notices_eq (w : world) : guard_notices w = if w_poison w then [@HNotice Id Node NGraph] else [].
  Proof. reflexivity. Qed.

  (** A top-level transaction publishes what its closure registered, at once and at the end, unless the closure fails or leaks
      a context; or a prefix of it, when an insertion or removal panics. *)
  Theorem C94_transaction_publishes_once :
    forall (sc : schema) (w w' : world) crash body o l,
      happened sc w (PWith (TxBg crash) body PRet) w' o l -> comes_back o ->
      exists w1 o1 lb, happened sc (bg_open w) (body (bg_ctx w)) w1 o1 lb /\ only_notices lb /\
        let ops := registered w1 (bg_ctx w) in
        let log := if w_poison w then [HNotice NGraph] else [] in
        match o1 with
        | ORet (RUnit | RVal _) =>
            (leaked w1 (length (w_heap w)) = true /\ o = o1 /\ l = log ++ lb ++ [HNotice NInUse]) \/
            (leaked w1 (length (w_heap w)) = false /\ o = o1 /\ l = log ++ lb ++ [HPublish ops]) \/
            (exists k, crash = Some k /\ 0 < length ops /\ k <= length ops /\ leaked w1 (length (w_heap w)) = false /\ o = OPanic /\
               l = log ++ lb ++ [HPublish (firstn k ops)])
        | _ => o = o1 /\ l = log ++ lb
        end.
  Proof.
    intros sc w w' crash body o l E C. destruct (bg_happened sc w crash body w' o l E C) as (L & w1 & o1 & lb & B & M).
    exists w1, o1, lb. split; [exact B|]. split; [apply happened_so_far in B as [f <-]; now apply trace_inside|].
    cbn zeta. rewrite <- guard_notices_eq. unfold registered. cbn [ctx_buf bg_ctx].
    destruct o1 as [r| | |]; try contradiction; [|now destruct M].
    assert (K : is_ok r = true ->
      (leaked w1 (length (w_heap w)) = true /\ o = ORet r /\ l = guard_notices w ++ lb ++ [HNotice NInUse]) \/
      (leaked w1 (length (w_heap w)) = false /\ o = ORet r /\ l = guard_notices w ++ lb ++ [HPublish (buf_ops (w_heap w1) (length (w_heap w)))]) \/
      (exists k, crash = Some k /\ 0 < length (buf_ops (w_heap w1) (length (w_heap w))) /\ k <= length (buf_ops (w_heap w1) (length (w_heap w))) /\ leaked w1 (length (w_heap w)) = false /\
         o = OPanic /\ l = guard_notices w ++ lb ++ [HPublish (firstn k (buf_ops (w_heap w1) (length (w_heap w))))])).
    { intros Ok. rewrite Ok in M. destruct M as (w2 & b & Bc & -> & ->). unfold bg_commit, commit_trace in *.
      destruct (leaked w1 (length (w_heap w))).
      - injection Bc as <- <-. auto.
      - right. cbn zeta in Bc. destruct crash as [k|]; [|injection Bc as <- <-; auto].
        destruct (crashes k (buf_ops (w_heap w1) (length (w_heap w)))) eqn:Lt; injection Bc as <- <-.
        + right. exists k. apply crashes_iff in Lt as [? ?]. auto 7.
        + left. now rewrite crashes_not. }
    destruct r as [|v|e]; [now apply K|now apply K|]. now destruct M.
  Qed.

  (** C95: a run that logs no "contexts yet in use" is a run of the program whose contexts are all dropped: same outcome, same
      history, same graph, resources and values. *)
  Theorem C95_quiet_runs_lose_nothing :
    forall (sc sc' : schema) (w w' : world) (p q : prog) o l,
      unleaked_schema sc sc' -> unleaked p q ->
      happened sc w p w' o l -> ~ In (HNotice NInUse) l ->
      happened sc' (set_leaked [] w) q (set_leaked [] w') o l.
  Proof.
    intros sc sc' w w' p q o l S T (f & R & <-) Q. exists f.
    exact (run_tidy sc sc' S f w p q _ T R Q).
  Qed.

  (** Every program is one of those, once its leaks are removed. *)
  Theorem C95_leaks_can_be_removed : forall p : prog, exists q, unleaked p q.
  Proof. exact unleaked_exists. Qed.

  (** Nothing a transaction registered is lost silently. *)
  Theorem C95_published_or_logged :
    forall (sc : schema) (w w' : world) crash body r l,
      g_reachable (w_graph w) ->
      happened sc w (PWith (TxBg crash) body PRet) w' (ORet r) l -> is_ok r = true ->
      exists w1, ends sc (bg_open w) (body (bg_ctx w)) w1 (ORet r) /\
        ((exists l', l = l' ++ [HNotice NInUse]) /\ w_graph w' = w_graph w \/
         (exists l', l = l' ++ [HPublish (registered w1 (bg_ctx w))]) /\
         forall i, g_get (w_graph w') i = view w1 (bg_ctx w) i).
  Proof.
    intros sc w w' crash body r l R E Ok.
    destruct (C94_transaction_publishes_once sc w w' crash body _ l E I) as (w1 & o1 & lb & B & _ & M).
    assert (G : w_graph w1 = w_graph w).
    { pose proof (happened_ends sc _ _ _ _ _ B) as B'. 
      destruct (bg_inv sc w crash body w' r (happened_ends sc _ _ _ _ _ E)) as (_ & w1' & E1 & _).
      destruct (ends_det _ _ _ _ _ _ _ B' E1) as [-> _]. exact (fr_frozen _ _ (ends_framed sc _ _ _ _ E1 I) I). }
    destruct (bg_inv sc w crash body w' r (happened_ends sc _ _ _ _ _ E)) as (_ & w1' & E1 & X).
    destruct (ends_det _ _ _ _ _ _ _ (happened_ends sc _ _ _ _ _ B) E1) as [-> ->]. exists w1'. split; [exact E1|].
    rewrite Ok in X. destruct X as (w2 & Bc & ->). cbn zeta in M.
    assert (M' : (leaked w1' (length (w_heap w)) = true /\ exists l', l = l' ++ [HNotice NInUse]) \/
      (leaked w1' (length (w_heap w)) = false /\ exists l', l = l' ++ [HPublish (registered w1' (bg_ctx w))])).
    { destruct r as [|v|e]; [| |discriminate]; (destruct M as [(Lk & _ & ->)|[(Lk & _ & ->)|(k & _ & _ & _ & _ & Ab & _)]]; [| |discriminate]);
        rewrite app_assoc; eauto. }
    destruct M' as [[Lk Ex]|[Lk Ex]]; [left|right]; (split; [exact Ex|]); unfold bg_commit in Bc; rewrite Lk in Bc.
    - injection Bc as <-. exact G.
    - intros i. unfold bg_ctx. rewrite view_root by (rewrite G; now apply g_reachable_wf). cbn zeta in Bc.
      destruct crash as [k|]; [destruct (crashes k _); [discriminate|]|]; injection Bc as <-; reflexivity.
  Qed.

  Lemma fg_happened (sc : schema) (w : world) c body w' r l :
    happened sc w (PWith (TxFg c) body PRet) w' (ORet r) l ->
    exists w1 lb, happened sc (fg_open w) (body (fg_ctx w c)) w1 (ORet r) lb /\
      w' = close (length (w_heap w)) (if is_ok r then fg_commit c (length (w_heap w)) w1 else w1) /\
      l = lb ++ if is_ok r then merge_notices (length (w_heap w)) w1 else [].
  Proof.
    intros (f & R & <-). destruct f as [|f]; [discriminate|]. cbn [run trace] in *. cbn zeta in *.
    change (set_heap (w_heap w ++ [[]]) w) with (fg_open w) in *.
    change (CSub c (length (w_heap w)) None) with (fg_ctx w c) in *.
    destruct (run sc f (fg_open w) (body (fg_ctx w c))) as [[w1 o1]|] eqn:E; [|discriminate].
    destruct o1 as [r1| | |]; try discriminate.
    assert (K : forall (w2 : world) r0, run sc f w2 (PRet r0) = Some (w', ORet r) -> r0 = r /\ w2 = w' /\ trace sc f w2 (PRet r0) = []).
    { intros w2 r0 E0. destruct f; [discriminate|]. cbn in E0. injection E0 as <- <-. auto. }
    exists w1, (trace sc f (fg_open w) (body (fg_ctx w c))).
    destruct (is_ok r1) eqn:Ok; destruct (K _ _ R) as (-> & <- & ->); rewrite Ok, ?app_nil_r; (split; [now exists f|auto]).
  Qed.

  (** The same of a sub-transaction: its operations are in its parent's, or the error is logged. *)
  Theorem C95_merged_or_logged :
    forall (sc : schema) (w w' : world) c body r l,
      ctx_buf c < length (w_heap w) ->
      happened sc w (PWith (TxFg c) body PRet) w' (ORet r) l -> is_ok r = true ->
      exists w1, ends sc (fg_open w) (body (fg_ctx w c)) w1 (ORet r) /\
        ((exists l', l = l' ++ [HNotice NInUse]) /\ leaked w1 (length (w_heap w)) = true /\ registered w' c = registered w1 c \/
         registered w' c = registered w1 c ++ registered w1 (fg_ctx w c)).
  Proof.
    intros sc w w' c body r l Lc E Ok. destruct (fg_happened sc w c body w' r l E) as (w1 & lb & B & -> & ->). rewrite Ok.
    apply happened_ends in B. exists w1. split; [exact B|]. unfold merge_notices, fg_commit.
    destruct (leaked w1 (length (w_heap w))) eqn:Lk.
    - left. split; [eauto|]. split; [reflexivity|]. unfold registered, close. cbn. now apply buf_ops_firstn.
    - right. unfold registered, close. cbn. rewrite buf_ops_firstn by assumption.
      unfold fg_extend. cbn [ctx_buf fg_ctx]. unfold buf_ops at 1. rewrite nth_alter_eq; [reflexivity|].
      pose proof (fr_len _ _ (ends_framed sc _ _ _ _ B I)) as Ln. cbn in Ln. rewrite app_length in Ln. cbn in Ln. lia.
  Qed.

  (** The closure of [Save] logs an error if the target is not readable after the [BeforeSave] triggers. *)
  Lemma save_body_logs (sc : schema) n c0 (w w' : world) r l :
    happened sc w (save_body n c0) w' (ORet r) l -> is_ok r = true ->
    exists w1, all_succeed sc (after_target c0 w) (scheduled sc BeforeSave) (with_target n w) w1 /\
      ran sc (after_target c0 w) (scheduled sc AfterSave) (save_step (after_target c0 w) w1) w' r /\
      (reads w1 (target_of (after_target c0 w)) = None -> In (HNotice NTarget) l).
  Proof.
    intros E Ok. pose proof (happened_ends sc _ _ _ _ _ E) as X. apply (ends_exec sc _ _ _ (ORet r) I) in X.
    apply exec_save_body in X. cbn zeta in X. destruct X as [(e & -> & _)|(w1 & A & Rn)]; [discriminate|].
    exists w1. split; [exact A|]. split; [exact Rn|]. intros Rd.
    destruct E as (f & R & <-). destruct f as [|f]; [discriminate|]. unfold save_body in *. cbn [run trace] in *.
    change (set_cells (w_cells w ++ [Cell (DNode n) false Free]) w) with (with_target n w) in *.
    change (ctx_with_target c0 (length (w_cells w))) with (after_target c0 w) in *.
    destruct f as [|f]; [discriminate|]. cbn [run trace] in *. rewrite select_scheduled in *.
    destruct (run sc f (with_target n w) (try_for_each (scheduled sc BeforeSave) (after_target c0 w))) as [[w1' o1]|] eqn:E1; [|discriminate].
    assert (A' : ends sc (with_target n w) (try_for_each (scheduled sc BeforeSave) (after_target c0 w)) w1 (ORet RUnit)).
    { apply exec_run. apply exec_try. left. auto. }
    destruct (ends_det _ _ _ _ _ _ _ A' (ex_intro _ f E1)) as [<- <-]. clear A'. cbn [try_] in *.
    apply in_or_app. right. destruct f as [|f]; [discriminate|]. cbn [run trace] in *. apply in_or_app. left.
    destruct (acquire Shared [target_of (after_target c0 w)] (w_cells w1)) as [cs held| |] eqn:Aq; try discriminate.
    rewrite (acquire_logged _ _ _ _ _ Aq). cbn [flat_map]. rewrite app_nil_r.
    destruct (target_cell n w w1 (all_framed _ _ _ _ _ A)) as (m & pz & N).
    unfold reads, logged, target_of in *. cbn [h_addr h_ty] in *. rewrite target_of_after in *. rewrite N in *.
    destruct pz; [now left|discriminate].
  Qed.

  (** C96: a [Save] that returns [Ok] and logs no error about its target has published the node. *)
  Theorem C96_dropped_save_is_logged :
    forall (sc : schema) (w w' : world) (n : Node) crash r l,
      triggers_borrow sc -> fresh w ->
      happened sc w (p_save n (TxBg crash) PRet) w' (ORet r) l -> is_ok r = true ->
      ~ In (HNotice NTarget) l ->
      let c := bg_target_ctx w in
      exists w1 m l' later,
        all_succeed sc c (scheduled sc BeforeSave) (with_target n (bg_open w)) w1 /\
        reads w1 (target_of c) = Some (DNode m) /\
        l = l' ++ [HPublish (registered w1 c ++ OSave m :: later)].
  Proof.
    intros sc w w' n crash r l T Fr E Ok Q c.
    destruct (C94_transaction_publishes_once sc w w' crash _ _ l E I) as (w3 & o1 & lb & B & _ & M).
    destruct (bg_inv sc w crash _ w' r (happened_ends sc _ _ _ _ _ E)) as (_ & w3' & E3 & _).
    destruct (ends_det _ _ _ _ _ _ _ (happened_ends sc _ _ _ _ _ B) E3) as [-> ->].
    destruct (save_body_logs sc n (bg_ctx w) (bg_open w) w3' r lb B Ok) as (w1 & A & Rn & Lg).
    change (after_target (bg_ctx w) (bg_open w)) with c in *.
    assert (Lk : leaked w3' (length (w_heap w)) = false).
    { rewrite (ran_leaked sc c AfterSave _ _ _ (length (w_heap w)) T Rn).
      - unfold save_step. destruct (reads w1 (target_of c)) as [[m|t u]|].
        1: change (leaked (set_heap (ctx_save (w_heap w1) c m) w1) (length (w_heap w))) with (leaked w1 (length (w_heap w))).
        all: rewrite (ran_leaked sc c BeforeSave _ _ RUnit (length (w_heap w)) T (or_introl (conj eq_refl A))); [exact Fr|];
          cbn; rewrite app_length; cbn; lia.
      - unfold save_step. pose proof (fr_len _ _ (all_framed _ _ _ _ _ A)) as Ln. cbn in Ln. rewrite app_length in Ln. cbn in Ln.
        destruct (reads w1 (target_of c)) as [[m|t u]|]; cbn; unfold ctx_save, buf_push; rewrite ?alter_length; lia. }
    assert (Pb : exists l', l = l' ++ [HPublish (registered w3' (bg_ctx w))]).
    { cbn zeta in M. destruct r as [|v|e]; [| |discriminate];
        (destruct M as [(Lk' & _)|[(_ & _ & ->)|(k & _ & _ & _ & _ & Ab & _)]]; [congruence| |discriminate]);
        rewrite app_assoc; eauto. }
    assert (Ql : ~ In (HNotice NTarget) lb).
    { intros J. apply Q. cbn zeta in M. destruct r as [|v|e]; [| |discriminate];
        (destruct M as [(_ & _ & ->)|[(_ & _ & ->)|(k & _ & _ & _ & _ & _ & ->)]]);
        apply in_or_app; right; apply in_or_app; now left. }
    destruct (target_cell n (bg_open w) w1 (all_framed _ _ _ _ _ A)) as (m & pz & N).
    assert (Rd : reads w1 (target_of c) = Some (DNode m)).
    { destruct (reads w1 (target_of c)) as [d|] eqn:Rd; [|destruct (Ql (Lg eq_refl))].
      unfold reads, target_of in Rd. cbn [h_addr h_ty ctx_target c bg_target_ctx] in Rd. 
      change (w_cells (bg_open w)) with (w_cells w) in N. rewrite N in Rd. destruct pz; [discriminate|]. cbn in Rd. congruence. }
    destruct Pb as [l' ->].
    assert (X : exists later, registered w3' (bg_ctx w) = registered w1 c ++ OSave m :: later).
    { destruct (fr_ops _ _ (ran_framed _ _ _ _ _ _ Rn) (length (w_heap w))) as [later Eo]. exists later.
      change (registered w3' (bg_ctx w)) with (buf_ops (w_heap w3') (length (w_heap w))). rewrite Eo.
      unfold save_step. rewrite Rd. cbn [w_heap set_heap]. unfold ctx_save. rewrite buf_ops_push_eq.
      - now rewrite <- app_assoc.
      - cbn [ctx_buf c bg_target_ctx]. pose proof (fr_len _ _ (all_framed _ _ _ _ _ A)) as Ln. cbn in Ln. rewrite app_length in Ln. cbn in Ln. lia. }
    destruct X as [later X]. exists w1, m, l', later. rewrite X. auto.
  Qed.

  (** The same on a context: the node is registered in it. *)
  Theorem C96_dropped_save_is_logged_on_context :
    forall (sc : schema) (w w' : world) (n : Node) c0 r l,
      triggers_borrow sc -> ctx_buf c0 < length (w_heap w) -> fresh w ->
      happened sc w (p_save n (TxFg c0) PRet) w' (ORet r) l -> is_ok r = true ->
      ~ In (HNotice NTarget) l ->
      let c := fg_target_ctx w c0 in
      exists w1 m earlier later,
        all_succeed sc c (scheduled sc BeforeSave) (with_target n (fg_open w)) w1 /\
        reads w1 (target_of c) = Some (DNode m) /\
        registered w' c0 = earlier ++ registered w1 c ++ OSave m :: later.
  Proof.
    intros sc w w' n c0 r l T Lc Fr E Ok Q c.
    destruct (C95_merged_or_logged sc w w' c0 _ r l Lc E Ok) as (w3 & E3 & M).
    destruct (fg_happened sc w c0 _ w' r l E) as (w3' & lb & B & _ & El).
    destruct (ends_det _ _ _ _ _ _ _ (happened_ends sc _ _ _ _ _ B) E3) as [-> _].
    destruct (save_body_logs sc n (fg_ctx w c0) (fg_open w) w3 r lb B Ok) as (w1 & A & Rn & Lg).
    change (after_target (fg_ctx w c0) (fg_open w)) with c in *.
    assert (Ln : length (w_heap w1) = S (length (w_heap w))).
    { pose proof (fr_len _ _ (all_framed _ _ _ _ _ A)) as Ln. cbn in Ln. rewrite app_length in Ln. cbn in Ln. lia. }
    assert (Lk : leaked w3 (length (w_heap w)) = false).
    { rewrite (ran_leaked sc c AfterSave _ _ _ (length (w_heap w)) T Rn).
      - unfold save_step. destruct (reads w1 (target_of c)) as [[m|t u]|].
        1: change (leaked (set_heap (ctx_save (w_heap w1) c m) w1) (length (w_heap w))) with (leaked w1 (length (w_heap w))).
        all: rewrite (ran_leaked sc c BeforeSave _ _ RUnit (length (w_heap w)) T (or_introl (conj eq_refl A))); [exact Fr|];
          cbn; rewrite app_length; cbn; lia.
      - unfold save_step. destruct (reads w1 (target_of c)) as [[m|t u]|]; cbn; unfold ctx_save, buf_push; rewrite ?alter_length; lia. }
    destruct M as [(_ & Lk' & _)|M]; [congruence|].
    assert (Ql : ~ In (HNotice NTarget) lb) by (intros J; apply Q; rewrite El; apply in_or_app; now left).
    destruct (target_cell n (fg_open w) w1 (all_framed _ _ _ _ _ A)) as (m & pz & N).
    assert (Rd : reads w1 (target_of c) = Some (DNode m)).
    { destruct (reads w1 (target_of c)) as [d|] eqn:Rd; [|destruct (Ql (Lg eq_refl))].
      unfold reads, target_of in Rd. cbn [h_addr h_ty ctx_target c fg_target_ctx] in Rd. 
      change (w_cells (fg_open w)) with (w_cells w) in N. rewrite N in Rd. destruct pz; [discriminate|]. cbn in Rd. congruence. }
    destruct (fr_ops _ _ (ran_framed _ _ _ _ _ _ Rn) (length (w_heap w))) as [later Eo].
    exists w1, m, (registered w3 c0), later. split; [exact A|]. split; [exact Rd|]. rewrite M. f_equal.
    change (registered w3 (fg_ctx w c0)) with (buf_ops (w_heap w3) (length (w_heap w))). rewrite Eo.
    unfold save_step. rewrite Rd. cbn [w_heap set_heap]. unfold ctx_save. rewrite buf_ops_push_eq.
    - now rewrite <- app_assoc.
    - cbn [ctx_buf c fg_target_ctx]. lia.
  Qed.

  (** C97: an access logs one error per handle a panic disabled, in order, before anything else. *)
  Theorem C97_disabled_handles_are_logged :
    forall (sc : schema) m (w : world) hs body k w' o l,
      happened sc w (PAccess m hs body k) w' o l -> comes_back o ->
      exists l', l = flat_map (logged w) hs ++ l' /\
        ((exists h, In h hs /\ reads w h = None) -> happened sc w (k None) w' o l').
  Proof.
    intros sc m w hs body k w' o l (f & R & <-) C. destruct f as [|f]; [discriminate|]. cbn [run trace] in *.
    destruct (acquire m hs (w_cells w)) as [cs held| |] eqn:A; try (injection R as <- <-; contradiction).
    rewrite (acquire_logged _ _ _ _ _ A). eexists. split; [reflexivity|]. intros Ex.
    pose proof (proj2 (deref_all_reads w cs hs (sig_acquire _ _ _ _ _ A)) Ex) as D0.
    assert (Hd : held = map (hold (w_cells w)) hs).
    { clear -A. revert cs held A. generalize (w_cells w) as cs0. induction hs as [|h hs IH]; intros cs0 cs held A; cbn in A.
      - now injection A as _ <-.
      - destruct (acquire1 m h cs0) as [cs1 a| |] eqn:A1; try discriminate.
        destruct (acquire m hs cs1) as [cs2 l2| |] eqn:A2; try discriminate. injection A as _ <-.
        rewrite (IH _ _ _ A2). cbn [map]. f_equal.
        + unfold acquire1 in A1. unfold hold. destruct (h_addr h) as [n|]; [|congruence].
          destruct (nth_error cs0 n) as [[d b k0]|]; [|discriminate]. cbn in A1. destruct (blocked m k0); [discriminate|].
          destruct b; injection A1 as _ <-; reflexivity.
        + apply map_ext. intros h'. apply hold_sig.
          destruct (acquire1_spec _ _ _ _ _ A1) as [[-> ->]|(n & x & -> & _ & _ & _ & _ & ->)]; [reflexivity|apply sig_alter]. }
    subst held. rewrite D0 in *. rewrite (set_cells_id w _ (release_all _ _ _ _ _ A)) in *. now exists f.
  Qed.

  (** For handles of things that are there, the closure is skipped exactly when that is logged; an access to things that were
      never there logs nothing. *)
  Theorem C97_skipped_iff_logged :
    forall (w : world) hs,
      ((forall h, In h hs -> present w h) ->
        ((exists h, In h hs /\ reads w h = None) <-> flat_map (logged (Id := Id) w) hs <> [])) /\
      ((forall h, In h hs -> h_addr h = None) -> flat_map (logged (Id := Id) w) hs = []).
  Proof.
    intros w hs. split.
    - intros P. induction hs as [|h hs IH]; [split; [intros (h & [] & _)|intros X; now destruct X]|].
      cbn [flat_map]. specialize (IH (fun h' J => P h' (or_intror J))).
      destruct (P h (or_introl eq_refl)) as (a & [d b k] & Ea & N & Ty). cbn in Ty.
      assert (K : (reads w h = None /\ logged (Id := Id) w h <> []) \/ (reads w h <> None /\ logged (Id := Id) w h = [])).
      { unfold reads, logged. rewrite Ea, N. destruct b; [left; split; [reflexivity|discriminate]|right].
        rewrite Ty, (ty_eqb_refl (h_ty h)). split; [discriminate|reflexivity]. }
      destruct K as [[K1 K2]|[K1 K2]].
      + split; [|intros _; exists h; split; [now left|exact K1]]. intros _ X. now apply app_eq_nil in X.
      + rewrite K2. cbn [app]. rewrite <- IH. split.
        * intros (h' & [<-|J] & Rd); [contradiction|eauto].
        * intros (h' & J & Rd). exists h'. split; [now right|exact Rd].
    - intros P. induction hs as [|h hs IH]; [reflexivity|]. cbn [flat_map]. rewrite IH by (intros; apply P; now right).
      unfold logged. now rewrite (P h (or_introl eq_refl)).
  Qed.

  (** C98: taking a guard of a poisoned graph, for a transaction too, is logged first. *)
  Theorem C98_poisoned_graph_is_logged :
    forall (sc : schema) (w w' : world) p o l,
      happened sc w p w' o l -> comes_back o -> w_poison w = true ->
      match p with PWith (TxBg _) _ _ | PRead _ _ | PWrite _ _ => True | _ => False end ->
      exists l', l = HNotice NGraph :: l'.
  Proof.
    intros sc w w' p o l (f & R & <-) C P K. destruct f as [|f]; [discriminate|].
    assert (G : guard_notices w = [@HNotice Id Node NGraph]) by (unfold guard_notices; now rewrite P).
    destruct p as [| | | | | |[crash|c] body k| | | | | | | |body k|body k| | | | | |]; try contradiction; cbn [run trace] in *.
    - destruct (w_lock w); try (injection R as <- <-; contradiction). rewrite G. eexists. reflexivity.
    - destruct (glock_read (w_lock w)); try (injection R as <- <-; contradiction). rewrite G. eexists. reflexivity.
    - destruct (w_lock w); try (injection R as <- <-; contradiction). rewrite G. eexists. reflexivity.
  Qed.

  (** It is never logged of a graph that is not poisoned. *)
  Theorem C98_only_a_poisoned_graph_is_logged :
    forall (sc : schema) (w w' : world) (p : prog) o l,
      happened sc w p w' o l -> comes_back o -> w_poison w' = false -> ~ In (HNotice NGraph) l.
  Proof.
    intros sc w w' p o l (f & R & <-) C P J. rewrite (trace_poison sc f w p w' o R C J) in P. discriminate.
  Qed.

  (** Exactly a panicking transaction or write guard poisons it; a panic under a read guard does not. *)
  Theorem C98_poisoned_by_panics :
    forall (sc : schema) (w w' : world) o,
      comes_back o ->
      (forall crash body, ends sc w (PWith (TxBg crash) body PRet) w' o ->
         w_poison w' = match o with OPanic => true | _ => w_poison w end) /\
      (forall body, ends sc w (PWrite body PRet) w' o -> w_poison w' = match o with OPanic => true | _ => w_poison w end) /\
      (forall body, ends sc w (PRead body PRet) w' o -> w_poison w' = w_poison w) /\
      (forall c body, w_lock w = GTx -> ends sc w (PWith (TxFg c) body PRet) w' o -> w_poison w' = w_poison w).
  Proof.
    intros sc w w' o C. split; [|split; [|split]].
    - intros crash body E. apply (ends_exec sc _ _ _ o C) in E. inversion E; subst; try reflexivity;
        match goal with H : exec _ _ (PRet _) _ _ |- _ => inversion H; subst end; cbn.
      + match goal with H : bg_commit _ _ _ = _ |- _ => apply bg_commit_graph in H as [ops ->] end. cbn.
        match goal with H : exec _ (bg_open w) _ _ _ |- _ => apply exec_poison_locked in H; [exact H|discriminate] end.
      + match goal with H : exec _ (bg_open w) _ _ _ |- _ => apply exec_poison_locked in H; [exact H|discriminate] end.
    - intros body E. apply (ends_exec sc _ _ _ o C) in E. inversion E; subst; try reflexivity;
        match goal with H : exec _ _ (PRet _) _ _ |- _ => inversion H; subst end; cbn.
      match goal with H : exec _ (set_lock GWrite w) _ _ _ |- _ => apply exec_poison_locked in H; [exact H|discriminate] end.
    - intros body E. apply (ends_exec sc _ _ _ o C) in E. inversion E; subst;
        try match goal with H : exec _ _ (PRet _) _ _ |- _ => inversion H; subst end; cbn;
        match goal with H : exec _ (set_lock ?l w) _ _ _ |- _ => apply exec_poison_locked in H; [exact H|] end;
        cbn; match goal with H : glock_read _ = Some _ |- _ => destruct (w_lock w); cbn in H; congruence end.
    - intros c body L E. apply (ends_exec sc _ _ _ o C) in E. apply exec_poison_locked in E; [exact E|congruence].
  Qed.
End Properties.

Print Assumptions C94_history_is_serial.
Print Assumptions C94_one_history.
Print Assumptions C94_nothing_published_inside.
Print Assumptions C94_transaction_publishes_once.
Print Assumptions C95_quiet_runs_lose_nothing.
Print Assumptions C95_leaks_can_be_removed.
Print Assumptions C95_published_or_logged.
Print Assumptions C95_merged_or_logged.
Print Assumptions C96_dropped_save_is_logged.
Print Assumptions C96_dropped_save_is_logged_on_context.
Print Assumptions C97_disabled_handles_are_logged.
Print Assumptions C97_skipped_iff_logged.
Print Assumptions C98_poisoned_graph_is_logged.
Print Assumptions C98_only_a_poisoned_graph_is_logged.
Print Assumptions C98_poisoned_by_panics.

(** ** Concrete cases, over the schema of [P_Prog] *)

(** What happens in a run, or nothing if it takes more than 100 nested steps. *)
Definition ex_trace (sc : dschema) (w : dworld) (p : dprog) : list (happening nat dnode) := trace sc 100 w p.

Definition ex_boom (c : ctx) : dprog := PSave c (n_ 50 5) PPanic.

(** C94, C98: a write guard, a transaction that panics, one that goes through, and a reader. *)
Definition ex_session : dprog :=
  PWrite (PGraphCall (GInsert (n_ 4 40)) (fun _ => PGraphCall (GRemove 1) (fun _ => PGraphGet 1 (fun _ => PRet RUnit)))) (fun _ =>
  PTry (PWith (TxBg None) ex_boom PRet) (fun _ =>
  PWith (TxBg None) (fun c => PSave c (n_ 5 50) (PDelete c 4 (PRet RUnit))) (fun _ =>
  PRead (PGraphIter (fun _ => PRet RUnit)) PRet))).

Example C94_case :
  let l := [HCall (GInsert (n_ 4 40)) None; HCall (GRemove 1) (Some (n_ 1 10)); HGet 1 None;
            HNotice NGraph; HPublish [OSave (n_ 5 50); ODelete 4];
            HNotice NGraph; HIter [n_ 2 20; n_ 5 50]] in
  (exists w', happened ex_sc ex_w ex_session w' (ORet RUnit) l /\
     g_iter (w_graph w') = [n_ 2 20; n_ 5 50] /\ map (after (g_get ex_graph) l) [1; 2; 4; 5; 50] = [None; Some (n_ 2 20); None; Some (n_ 5 50); None]) /\
  g_iter ex_graph = [n_ 1 10; n_ 2 20].
Proof.
  split; [|vm_compute; reflexivity].
  exists (fst (last_of ex_w (run ex_sc 100 ex_w ex_session))). split; [|split; vm_compute; reflexivity].
  exists 100. split; vm_compute; reflexivity.
Qed.

(** C94: a transaction that never ends has published nothing, though it has saved. *)
Example C94_case_loop :
  exists l, so_far ex_sc ex_w (PWith (TxBg None) (fun c => PSave c (n_ 5 50) (PGet c 5 (fun _ => PLoop))) PRet) l /\ l = [].
Proof. eexists. split; [exists 50|]; vm_compute; reflexivity. Qed.

(** C95: a sub-transaction leaks its context.  If it fails nothing is logged, and the run is that of the program without the
    leak; if it does not, the error is. *)
Definition ex_leaky (r : res nat) (c : ctx) : dprog :=
  PSave c (n_ 5 50) (PWith (TxFg c) (fun c' => PSave c' (n_ 6 60) (PLeak c' (PRet r))) (fun _ => PRet RUnit)).
Definition ex_tidy (r : res nat) (c : ctx) : dprog :=
  PSave c (n_ 5 50) (PWith (TxFg c) (fun c' => PSave c' (n_ 6 60) (PRet r)) (fun _ => PRet RUnit)).

Example C95_case :
  (forall r, unleaked (PWith (TxBg None) (ex_leaky r) PRet) (PWith (TxBg None) (ex_tidy r) PRet)) /\
  unleaked_schema ex_sc ex_sc /\
  ex_trace ex_sc ex_w (PWith (TxBg None) (ex_leaky (RErr oops)) PRet) = [HPublish [OSave (n_ 5 50)]] /\
  ex_trace ex_sc ex_w (PWith (TxBg None) (ex_tidy (RErr oops)) PRet) = [HPublish [OSave (n_ 5 50)]] /\
  ex_trace ex_sc ex_w (PWith (TxBg None) (ex_leaky RUnit) PRet) = [HNotice NInUse; HPublish [OSave (n_ 5 50)]] /\
  ex_trace ex_sc ex_w (PWith (TxBg None) (ex_tidy RUnit) PRet) = [HPublish [OSave (n_ 5 50); OSave (n_ 6 60)]] /\
  ex_trace ex_sc ex_w (PWith (TxBg None) (fun c => PSave c (n_ 5 50) (PLeak c (PRet RUnit))) PRet) = [HNotice NInUse].
Proof.
  split; [cbn; auto 10|]. split.
  - split; [reflexivity|]. intros s. unfold scheduled, ts_select. cbn. destruct s as [|s]; cbn; [|constructor].
    constructor; [|constructor]. intros c. cbn. split; [reflexivity|]. intros h. split; [reflexivity|]. split; [reflexivity|]. split.
    + intros [|[a [n|t u]] [|v vs]]; cbn; auto.
    + intros _. split; [reflexivity|]. split; [cbn; auto|]. intros _. split; [reflexivity|]. split; [reflexivity|]. split; [|reflexivity].
      intros [|[a [n|t u]] [|v vs]]; cbn; auto. destruct (Nat.eqb (d_id n) 9); reflexivity.
  - vm_compute. auto 10.
Qed.

(** C96: a trigger that panics while modifying the target, and catches it; the save is dropped, [Ok], and logged. *)
Definition ex_dropper (c : ctx) : dprog :=
  PTry (PAccess Excl [target_of c] (fun _ => PPanic) (fun _ => PRet RUnit)) (fun _ => PRet RUnit).
Definition ex_dropping : dschema * dworld := built ex_graph [BTrigger BeforeSave ex_dropper].

Example C96_case :
  ex_trace (fst ex_dropping) (snd ex_dropping) (p_save (n_ 3 30) (TxBg None) PRet) = [HNotice NTarget; HPublish []] /\
  snd (last_of ex_w (run (fst ex_dropping) 100 (snd ex_dropping) (p_save (n_ 3 30) (TxBg None) PRet))) = ORet RUnit /\
  ex_trace ex_sc ex_w (p_save (n_ 3 30) (TxBg None) PRet) = [HPublish [OSave (n_ 100 1); OSave (n_ 3 30)]].
Proof. vm_compute. auto. Qed.

(** C97: of two resources one is poisoned, and a third one was never registered. *)
Definition ex_three : dschema * dworld := built ex_graph [BResource 7 70; BResource 8 80].
Definition ex_hs : list handle := map (res_from (fst ex_three)) [8; 7; 9].
Definition ex_probe : dprog := PAccess Shared ex_hs (fun _ => PRet RUnit) (fun r => PRet (match r with Some _ => RUnit | None => RErr oops end)).

Example C97_case :
  let w := fst (last_of ex_w (run (fst ex_three) 100 (snd ex_three)
             (PTry (PAccess Excl [res_from (fst ex_three) 7] (fun _ => PPanic) (fun _ => PRet RUnit)) (fun _ => PRet RUnit)))) in
  ex_trace (fst ex_three) (snd ex_three) ex_probe = [] /\
  ex_trace (fst ex_three) w ex_probe = [HNotice (NResource 7)] /\
  flat_map (logged w) ex_hs = [HNotice (NResource 7)] /\
  map (reads w) ex_hs = [Some (DRes 8 80); None; None] /\
  present w (res_from (fst ex_three) 7).
Proof. vm_compute. repeat split. exists 0. eexists. repeat split. Qed.

(** C98: a panic under a read guard logs nothing afterwards; one in a transaction does, ever after. *)
Example C98_case :
  ex_trace ex_sc ex_w (PTry (PRead PPanic PRet) (fun _ => PRead (PRet RUnit) PRet)) = [] /\
  ex_trace ex_sc ex_w (PTry (PWith (TxBg None) ex_boom PRet) (fun _ => PRead (PRet RUnit) (fun _ => PWrite (PRet RUnit) PRet)))
    = [HNotice NGraph; HNotice NGraph] /\
  ex_trace ex_sc ex_w (PTry (PWith (TxBg (Some 1)) (fun c => PSave c (n_ 5 50) (PSave c (n_ 6 60) (PRet RUnit))) PRet)
      (fun _ => PRead (PGraphGet 6 (fun _ => PRet RUnit)) PRet))
    = [HPublish [OSave (n_ 5 50)]; HNotice NGraph; HGet 6 None].
Proof. vm_compute. auto. Qed.
