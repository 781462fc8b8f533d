(** Properties C14-C17, C21-C23, C67, C68: programs over one schema. *)
From Coq Require Import List Bool Arith Lia.
From Coq Require String.
From Verif Require Import Ord OrdFacts BTree Graph GraphFacts Demo Tx TxMachine SpecTx TxFacts Prog SpecProg
  ProgFacts ProgFrame ProgTx.
Import ListNotations.

Section Properties.
  Context {Id Node V U : Type} `{HO : OrdT Id} `{HI : Identify Node Id}.
  Notation prog := (prog Id Node V U).
  Notation world := (world Id Node V U).
  Notation schema := (schema Id Node V U).

  (** C14 (programs): a sub-transaction on [c] whose closure returns [Err] or panics, registering
      (and leaking) nothing on other contexts directly, changes nothing outside; by [w_lock w = GTx] the
      enclosing top-level transaction is running. *)
  Theorem C14_failed_sub_leaves_no_trace :
    forall (sc : schema) (w w' : world) (c : ctx) body o,
      triggers_mind_their_own sc ->
      confined (fun b => b = length (w_heap w)) (body (fg_ctx w c)) ->
      w_lock w = GTx ->
      ends sc w (PWith (TxFg c) body PRet) w' o ->
      (exists e, o = ORet (RErr e)) \/ o = OPanic ->
      (exists w1, ends sc (fg_open w) (body (fg_ctx w c)) w1 o) /\
      w_graph w' = w_graph w /\
      (forall d, registered w' d = registered w d) /\
      (forall d i, view w' d i = view w d i) /\
      (forall b, b < length (w_heap w) -> leaked w' b = leaked w b).
  Proof.
    intros sc w w' c body o T C L E [[e ->]| ->].
    - assert (F := ends_framed sc _ _ _ _ E I). apply fg_inv in E as (w1 & E1 & ->). cbn [is_ok] in *.
      destruct (uncommitted_heap sc w w1 c body _ T C E1 I) as [Eh El].
      assert (Eg : w_graph (close (length (w_heap w)) w1) = w_graph w) by (apply (fr_frozen _ _ F); rewrite L; exact I).
      split; [eauto|]. split; [exact Eg|]. split; [|split; [|exact El]].
      + intros d. unfold registered. now rewrite Eh.
      + intros d i. unfold view. now rewrite Eh, Eg.
    - assert (F := ends_framed sc _ _ _ _ E I). apply fg_inv_panic in E as (w1 & E1 & ->).
      destruct (uncommitted_heap sc w w1 c body _ T C E1 I) as [Eh El].
      assert (Eg : w_graph (close (length (w_heap w)) w1) = w_graph w) by (apply (fr_frozen _ _ F); rewrite L; exact I).
      split; [eauto|]. split; [exact Eg|]. split; [|split; [|exact El]].
      + intros d. unfold registered. now rewrite Eh.
      + intros d i. unfold view. now rewrite Eh, Eg.
  Qed.

  (** C15. *)
  Theorem C15_failed_tx_leaves_graph :
    forall (sc : schema) (w w1 : world) crash body e,
      w_lock w = GFree ->
      ends sc (bg_open w) (body (bg_ctx w)) w1 (ORet (RErr e)) ->
      exists w', ends sc w (PWith (TxBg crash) body PRet) w' (ORet (RErr e)) /\
        w_graph w' = w_graph w /\ w_lock w' = GFree.
  Proof.
    intros sc w w1 crash body e L E. apply (ends_exec sc _ _ _ (ORet (RErr e)) I) in E.
    eexists. split; [apply exec_run; eapply XBgErr; [exact L|exact E|reflexivity|apply XRet]|].
    split; [|reflexivity]. exact (fr_frozen _ _ (exec_framed _ _ _ _ _ E) I).
  Qed.

  (** C15, from the caller's side. *)
  Theorem C15_err_means_unchanged :
    forall (sc : schema) (w w' : world) crash body e,
      ends sc w (PWith (TxBg crash) body PRet) w' (ORet (RErr e)) ->
      w_graph w' = w_graph w /\ exists w1, ends sc (bg_open w) (body (bg_ctx w)) w1 (ORet (RErr e)).
  Proof.
    intros sc w w' crash body e E. apply bg_inv in E as (L & w1 & E1 & ->). split; [|eauto].
    exact (fr_frozen _ _ (ends_framed sc _ _ _ _ E1 I) I).
  Qed.

  (** C16: after a panic of the closure the graph is the same, nothing is locked, and whatever is run
      next runs as if the transaction had not been started, except for resources and targets, which are
      left as the closure left them (see C36 and C37). *)
  Theorem C16_panicking_tx_leaves_graph :
    forall (sc : schema) (w w1 : world) crash body,
      at_rest w ->
      ends sc (bg_open w) (body (bg_ctx w)) w1 OPanic ->
      exists w', ends sc w (PWith (TxBg crash) body PRet) w' OPanic /\
        w_graph w' = w_graph w /\ at_rest w' /\
        indistinguishable sc w' (set_cells (w_cells w') w) /\
        (w_cells w' = w_cells w -> indistinguishable sc w' w).
  Proof.
    intros sc w w1 crash body (L & Eh & Ek) E. apply (ends_exec sc _ _ _ OPanic I) in E.
    pose proof (fr_frozen _ _ (exec_framed _ _ _ _ _ E) I) as G. cbn in G.
    eexists. split; [apply exec_run; eapply XBgPanic; [exact L|exact E]|]. rewrite Eh.
    assert (Nk : forall l, filter (fun b' => b' <? 0) l = []) by (induction l; auto).
    assert (At : at_rest (close (length (@nil (list (op Id Node)))) (set_lock GFree (set_poison w1)))).
    { unfold at_rest, close, set_leaked, set_heap. cbn [w_lock w_heap w_leaked length]. rewrite Nk. auto. }
    destruct At as (A1 & A2 & A3).
    split; [exact G|]. split; [now repeat split|]. split; [|intros Ec]; apply alike_indistinguishable;
      rewrite ?A1, ?A2, ?A3; cbn; auto; congruence.
  Qed.

  (** C17. *)
  Theorem C17_ok_publishes_final_view :
    forall (sc : schema) (w w1 : world) body r,
      g_reachable (w_graph w) -> w_lock w = GFree ->
      ends sc (bg_open w) (body (bg_ctx w)) w1 (ORet r) -> is_ok r = true ->
      leaked w1 (length (w_heap w)) = false ->
      exists w', ends sc w (PWith (TxBg None) body PRet) w' (ORet r) /\
        forall i, g_get (w_graph w') i = view w1 (bg_ctx w) i.
  Proof.
    intros sc w w1 body r R L E Ok Nl. apply (ends_exec sc _ _ _ (ORet r) I) in E.
    pose proof (fr_frozen _ _ (exec_framed _ _ _ _ _ E) I) as G. cbn in G.
    eexists. split.
    - apply exec_run. eapply XBgOk; [exact L|exact E|exact Ok| |apply XRet]. unfold bg_commit. rewrite Nl. reflexivity.
    - intros i. unfold bg_ctx. rewrite view_root by (rewrite G; now apply g_reachable_wf). reflexivity.
  Qed.

  (** C17, from the caller's side: when [with] returns [Ok], commit having met panicking code or not. *)
  Theorem C17_ok_means_published :
    forall (sc : schema) (w w' : world) crash body r,
      g_reachable (w_graph w) ->
      ends sc w (PWith (TxBg crash) body PRet) w' (ORet r) -> is_ok r = true ->
      exists w1, ends sc (bg_open w) (body (bg_ctx w)) w1 (ORet r) /\
        (leaked w1 (length (w_heap w)) = false -> forall i, g_get (w_graph w') i = view w1 (bg_ctx w) i).
  Proof.
    intros sc w w' crash body r R E Ok. apply bg_inv in E as (L & w1 & E1 & X). rewrite Ok in X.
    destruct X as (w2 & C & ->). exists w1. split; [exact E1|]. intros Nl i.
    pose proof (fr_frozen _ _ (ends_framed sc _ _ _ _ E1 I) I) as G. cbn in G.
    unfold bg_ctx. rewrite view_root by (rewrite G; now apply g_reachable_wf).
    unfold bg_commit in C. rewrite Nl in C.
    destruct crash as [k|]; [destruct (crashes k _)|]; try discriminate; injection C as <-; reflexivity.
  Qed.

  (** C67: what a panic of user code during the commit leaves: the operations before the crash point,
      in order, and an unlocked schema. *)
  Theorem C67_crashed_commit_applies_prefix :
    forall (sc : schema) (w w1 : world) k body r,
      g_reachable (w_graph w) -> at_rest w ->
      ends sc (bg_open w) (body (bg_ctx w)) w1 (ORet r) -> is_ok r = true ->
      leaked w1 (length (w_heap w)) = false ->
      registered w1 (bg_ctx w) <> [] -> k <= length (registered w1 (bg_ctx w)) ->
      exists w', ends sc w (PWith (TxBg (Some k)) body PRet) w' OPanic /\ at_rest w' /\
        forall i, g_get (w_graph w') i =
                  replay (map op_entry (firstn k (registered w1 (bg_ctx w)))) (g_get (w_graph w)) i.
  Proof.
    intros sc w w1 k body r R (L & Eh & Ek) E Ok Nl Ne K. apply (ends_exec sc _ _ _ (ORet r) I) in E.
    pose proof (fr_frozen _ _ (exec_framed _ _ _ _ _ E) I) as G. cbn in G.
    eexists. split.
    - apply exec_run. eapply XBgCrash; [exact L|exact E|exact Ok|]. unfold bg_commit. rewrite Nl.
      unfold registered in K, Ne. cbn [ctx_buf bg_ctx] in K, Ne.
      assert (C : crashes k (buf_ops (w_heap w1) (length (w_heap w))) = true) by (apply crashes_iff; split; [|exact K]; destruct (buf_ops _ _); [now destruct Ne|cbn; lia]).
      rewrite C. reflexivity.
    - split.
      + assert (Nk : forall l, filter (fun b' => b' <? 0) l = []) by (induction l; auto).
        unfold at_rest, close, set_poison, set_leaked, set_heap. cbn [w_lock w_heap w_leaked]. rewrite Eh. cbn [length].
        rewrite Nk. auto.
      + intros i. unfold close, registered. cbn [w_graph set_poison set_leaked set_heap set_lock set_graph ctx_buf bg_ctx].
        rewrite replay_apply_ops by (rewrite G; now apply g_reachable_wf). now rewrite G.
  Qed.

  (** C21, what holds of it: a panic before the first operation is applied leaves the graph as it was, and one
      after the last is too late.  Missing: crash points in between, where it is false (below). *)
  Theorem C21_commit_atomic_partial :
    forall (sc : schema) (w w' : world) k body r w1,
      g_reachable (w_graph w) ->
      ends sc (bg_open w) (body (bg_ctx w)) w1 (ORet r) -> is_ok r = true ->
      k = 0 \/ length (registered w1 (bg_ctx w)) <= k \/ length (registered w1 (bg_ctx w)) <= 1 ->
      (exists o, ends sc w (PWith (TxBg (Some k)) body PRet) w' o /\ (o = OPanic \/ o = ORet r)) ->
      w_graph w' = w_graph w \/ (forall i, g_get (w_graph w') i = view w1 (bg_ctx w) i).
  Proof.
    intros sc w w' k body r w1 R E1 Ok K (o & E & O).
    assert (B : comes_back o) by (destruct O as [-> | ->]; exact I).
    pose proof (fr_frozen _ _ (ends_framed sc _ _ _ _ E1 I) I) as G. cbn in G.
    assert (X : exists w2 x, bg_commit (Some k) (length (w_heap w)) w1 = (w2, x) /\ w_graph w' = w_graph w2).
    { apply (ends_exec sc _ _ _ o B) in E. inversion E; subst;
        match goal with H : exec _ (bg_open w) _ ?w3 ?o |- _ =>
          apply exec_run in H; destruct (ends_det _ _ _ _ _ _ _ H E1) as [<- Eo]; try discriminate; injection Eo as <- end;
        try congruence.
      - match goal with H : exec _ _ (PRet _) _ _ |- _ => inversion H; subst end. eauto.
      - eauto. }
    destruct X as (w2 & x & C & ->). unfold bg_commit in C. unfold registered in K. cbn [ctx_buf bg_ctx] in K.
    destruct (leaked w1 _); [injection C as <- _; auto|].
    assert (Vw : forall i, g_get (apply_ops (w_graph w1) (buf_ops (w_heap w1) (length (w_heap w)))) i = view w1 (bg_ctx w) i).
    { intros i. unfold bg_ctx. rewrite view_root by (rewrite G; now apply g_reachable_wf). reflexivity. }
    destruct (crashes k _) eqn:Lt; injection C as <- _; [|right; exact Vw].
    apply crashes_iff in Lt as [Lt Le]. destruct (Nat.eq_dec k (length (buf_ops (w_heap w1) (length (w_heap w))))) as [Ek|Nk].
    - right. intros i. rewrite <- Vw, firstn_all2 by lia. reflexivity.
    - left. assert (k = 0) as -> by lia. exact G.
  Qed.

  (** C68: what [Ok] means exactly.  A top-level transaction publishes all its operations if none of
      its contexts was leaked, and nothing otherwise. *)
  Theorem C68_ok_commits_all_or_nothing_if_leaked :
    forall (sc : schema) (w w1 : world) body r,
      g_reachable (w_graph w) -> w_lock w = GFree ->
      ends sc (bg_open w) (body (bg_ctx w)) w1 (ORet r) -> is_ok r = true ->
      exists w', ends sc w (PWith (TxBg None) body PRet) w' (ORet r) /\
        (leaked w1 (length (w_heap w)) = true -> w_graph w' = w_graph w) /\
        (leaked w1 (length (w_heap w)) = false -> forall i,
           g_get (w_graph w') i = replay (map op_entry (registered w1 (bg_ctx w))) (g_get (w_graph w)) i).
  Proof.
    intros sc w w1 body r R L E Ok. apply (ends_exec sc _ _ _ (ORet r) I) in E.
    pose proof (fr_frozen _ _ (exec_framed _ _ _ _ _ E) I) as G. cbn in G.
    eexists. split.
    - apply exec_run. eapply XBgOk; [exact L|exact E|exact Ok| |apply XRet]. unfold bg_commit.
      instantiate (1 := if leaked w1 (length (w_heap w)) then w1
                        else set_graph (apply_ops (w_graph w1) (buf_ops (w_heap w1) (length (w_heap w)))) w1).
      destruct (leaked w1 _); reflexivity.
    - split; intros ->.
      + exact G.
      + intros i. unfold close, registered. cbn [w_graph set_leaked set_heap set_lock set_graph ctx_buf bg_ctx]. rewrite replay_apply_ops by (rewrite G; now apply g_reachable_wf). now rewrite G.
  Qed.

  (** C68 for sub-transactions: the parent's operations are extended by all of them or none. *)
  Theorem C68_sub_commits_all_or_nothing_if_leaked :
    forall (sc : schema) (w w1 : world) c body r,
      ctx_buf c < length (w_heap w) ->
      ends sc (fg_open w) (body (fg_ctx w c)) w1 (ORet r) -> is_ok r = true ->
      exists w', ends sc w (PWith (TxFg c) body PRet) w' (ORet r) /\
        w_graph w' = w_graph w1 /\
        (forall d, ctx_buf d < length (w_heap w) -> ctx_buf d <> ctx_buf c -> registered w' d = registered w1 d) /\
        registered w' c = registered w1 c ++
          (if leaked w1 (length (w_heap w)) then [] else registered w1 (fg_ctx w c)).
  Proof.
    intros sc w w1 c body r Lc E Ok. apply (ends_exec sc _ _ _ (ORet r) I) in E.
    pose proof (fr_len _ _ (exec_framed _ _ _ _ _ E)) as Len. cbn in Len. rewrite app_length in Len. cbn in Len.
    eexists. split; [apply exec_run; eapply XFgOk; [exact E|exact Ok|apply XRet]|].
    unfold close, fg_commit, registered. destruct (leaked w1 _); cbn [w_graph w_heap set_leaked set_heap].
    - split; [reflexivity|]. split; [intros d Ld _|rewrite app_nil_r]; now rewrite buf_ops_firstn.
    - split; [reflexivity|]. split; [intros d Ld Ne|]; rewrite buf_ops_firstn by assumption; unfold fg_extend, buf_ops at 1.
      + rewrite nth_alter_ne by auto. reflexivity.
      + rewrite nth_alter_eq by lia. reflexivity.
  Qed.

  (** C22, what holds of it: when no context was leaked.  Missing: closures that leak their context,
      where it is false (below). *)
  Theorem C22_ok_implies_committed_partial :
    forall (sc : schema) (w w' w1 : world) crash body r,
      g_reachable (w_graph w) ->
      ends sc w (PWith (TxBg crash) body PRet) w' (ORet r) -> is_ok r = true ->
      ends sc (bg_open w) (body (bg_ctx w)) w1 (ORet r) ->
      leaked w1 (length (w_heap w)) = false ->
      forall i, g_get (w_graph w') i = replay (map op_entry (registered w1 (bg_ctx w))) (g_get (w_graph w)) i.
  Proof.
    intros sc w w' w1 crash body r R E Ok E1 Nl i.
    destruct (C17_ok_means_published sc w w' crash body r R E Ok) as (w2 & E2 & P).
    destruct (ends_det _ _ _ _ _ _ _ E1 E2) as [<- _]. rewrite (P Nl).
    pose proof (fr_frozen _ _ (ends_framed sc _ _ _ _ E1 I) I) as G. cbn in G.
    unfold bg_ctx. rewrite view_root by (rewrite G; now apply g_reachable_wf).
    rewrite replay_apply_ops by (rewrite G; now apply g_reachable_wf). now rewrite G.
  Qed.

  (** C23: after any program that returns or panics, the graph's lock and the locks of all the cells that
      existed are as they were, and those of the cells it created are free. *)
  Theorem C23_all_locks_released :
    forall (sc : schema) (w w' : world) (p : prog) o,
      ends sc w p w' o -> comes_back o ->
      w_lock w' = w_lock w /\
      (forall a x, nth_error (w_cells w) a = Some x ->
         exists y, nth_error (w_cells w') a = Some y /\ c_lock y = c_lock x) /\
      (forall a y, length (w_cells w) <= a -> nth_error (w_cells w') a = Some y -> c_lock y = Free).
  Proof.
    intros sc w w' p o E B. pose proof (ends_framed sc w p w' o E B) as F.
    split; [apply (fr_lock _ _ F)|]. destruct (fr_cells _ _ F) as [C1 C2]. split; [|exact C2].
    intros a x N. destruct (C1 a x N) as (y & Ny & Ly & _). eauto.
  Qed.
End Properties.

Print Assumptions C14_failed_sub_leaves_no_trace.
Print Assumptions C15_failed_tx_leaves_graph.
Print Assumptions C15_err_means_unchanged.
Print Assumptions C16_panicking_tx_leaves_graph.
Print Assumptions C17_ok_publishes_final_view.
Print Assumptions C17_ok_means_published.
Print Assumptions C67_crashed_commit_applies_prefix.
Print Assumptions C21_commit_atomic_partial.
Print Assumptions C68_ok_commits_all_or_nothing_if_leaked.
Print Assumptions C68_sub_commits_all_or_nothing_if_leaked.
Print Assumptions C22_ok_implies_committed_partial.
Print Assumptions C23_all_locks_released.

(** ** Concrete cases *)
Notation dprog := (prog nat dnode nat nat).
Notation dworld := (world nat dnode nat nat).
Notation dschema := (schema nat dnode nat nat).
Notation n_ := Demo.DNode.

Definition oops : error := Msg String.EmptyString.

Definition ex_graph : graph nat dnode := g_from_iter [n_ 1 10; n_ 2 20].

(** One resource of type 7, and a trigger before saves that counts in it, opens a sub-transaction
    and rejects node 9. *)
Definition ex_trigger : trigger nat dnode nat nat := fun c =>
  PRes 7 (fun h => PAccess Excl [h] (fun vs => match vs with
      | [(a, DRes t u)] => PPoke a (DRes t (S u)) (PRet RUnit)
      | _ => PPanic
      end) (fun _ =>
    PWith (TxFg c) (fun c' => PSave c' (n_ 100 1) (PRet RUnit)) (fun _ =>
    PAccess Shared [target_of c] (fun vs => match vs with
      | [(_, DNode n)] => if Nat.eqb (d_id n) 9 then PRet (RErr oops) else PRet RUnit
      | _ => PPanic
      end) (fun r => PRet (match r with Some r => r | None => RUnit end))))).

Definition ex_built : dschema * dworld := built ex_graph [BResource 7 0; BTrigger BeforeSave ex_trigger].
Definition ex_sc : dschema := fst ex_built.
Definition ex_w : dworld := snd ex_built.

Example ex_at_rest : at_rest ex_w /\ g_reachable (w_graph ex_w).
Proof. split; [repeat split|constructor]. Qed.

Lemma ex_minds_its_own : triggers_mind_their_own ex_sc.
Proof.
  intros s t I. unfold scheduled, ts_select in I. cbn in I. destruct s as [|s]; cbn in I; [|destruct I].
  destruct I as [<-|[]]. intros c. cbn. intros h. split.
  - intros [|[a [n|t u]] [|v vs]]; cbn; auto.
  - intros _. split; [reflexivity|]. split; [intros b; split; [now right|exact I]|]. intros _. split; [|intros r; exact I].
    intros [|[a [n|t u]] [|v vs]]; cbn; auto. destruct (Nat.eqb (d_id n) 9); exact I.
Qed.

(** C14: inside a transaction that deletes node 1, a sub-transaction saving node 9 through the schema's
    triggers fails. *)
Definition ex_w_tx : dworld := set_heap [[ODelete 1]] (set_lock GTx ex_w).
Definition ex_sub (c : ctx) : dprog := PSave c (n_ 3 30) (p_save (n_ 9 90) (TxFg c) PRet).

Definition last_of (w : dworld) (o : option (dworld * outcome nat)) : dworld * outcome nat :=
  match o with Some x => x | None => (w, OHang) end.

Example C14_case :
  confined (fun b => b = 1) (ex_sub (CSub (CRoot 0 None) 1 None)) /\
  let x := last_of ex_w (run ex_sc 100 ex_w_tx (PWith (TxFg (CRoot 0 None)) ex_sub PRet)) in
  snd x = ORet (RErr oops) /\ map (view (fst x) (CRoot 0 None)) [1; 2; 3; 9; 100] = [None; Some (n_ 2 20); None; None; None].
Proof.
  split.
  - cbn [ex_sub confined p_save]. split; [reflexivity|]. split; [reflexivity|].
    split; [|intros r; exact I]. intros b. apply confined_save_body. now right.
  - vm_compute. auto.
Qed.

(** C15: the trigger changes the resource and the transaction fails; the graph is the same. *)
Example C15_case :
  let x := last_of ex_w (run ex_sc 100 ex_w (PWith (TxBg None) ex_sub PRet)) in
  snd x = ORet (RErr oops) /\ w_graph (fst x) = ex_graph.
Proof. vm_compute. auto. Qed.

(** C16: a closure that saves, deletes, then panics inside a sub-transaction. *)
Definition ex_panics (c : ctx) : dprog :=
  PDelete c 1 (p_save (n_ 3 30) (TxFg c) (fun _ => PWith (TxFg c) (fun c' => PDelete c' 2 PPanic) PRet)).
Example C16_case :
  snd (last_of ex_w (run ex_sc 100 (bg_open ex_w) (ex_panics (bg_ctx ex_w)))) = OPanic /\
  let x := last_of ex_w (run ex_sc 100 ex_w
             (PTry (PWith (TxBg None) ex_panics PRet) (fun _ => p_save (n_ 4 40) (TxBg None) PRet))) in
  snd x = ORet RUnit /\ g_iter (w_graph (fst x)) = [n_ 1 10; n_ 2 20; n_ 4 40; n_ 100 1].
Proof. vm_compute. auto. Qed.

(** C17, C68: deletes, saves and a nested save with its trigger, published. *)
Definition ex_ok (c : ctx) : dprog :=
  PDelete c 1 (PSave c (n_ 2 21) (p_save (n_ 3 30) (TxFg c) (fun r => PRet r))).
Example C17_case :
  let x := last_of ex_w (run ex_sc 100 (bg_open ex_w) (ex_ok (bg_ctx ex_w))) in
  snd x = ORet RUnit /\ leaked (fst x) 0 = false /\
  g_iter (w_graph (fst (last_of ex_w (run ex_sc 100 ex_w (PWith (TxBg None) ex_ok PRet))))) = [n_ 2 21; n_ 3 30; n_ 100 1].
Proof. vm_compute. auto. Qed.

(** C68 for sub-transactions, leaking and not. *)
Example C68_case :
  let leaky (c : ctx) : dprog := PSave c (n_ 5 50) (PLeak c (PRet RUnit)) in
  let plain (c : ctx) : dprog := PSave c (n_ 5 50) (PRet RUnit) in
  map (fun body => registered (fst (last_of ex_w (run ex_sc 100 ex_w_tx (PWith (TxFg (CRoot 0 None)) body PRet)))) (CRoot 0 None))
    [leaky; plain]
  = [[ODelete 1]; [ODelete 1; OSave (n_ 5 50)]].
Proof. reflexivity. Qed.

(** C67: the commit crashes after the first two of its four operations. *)
Example C67_case :
  let x := last_of ex_w (run ex_sc 100 (bg_open ex_w) (ex_ok (bg_ctx ex_w))) in
  length (registered (fst x) (bg_ctx ex_w)) = 4 /\
  let y := last_of ex_w (run ex_sc 100 ex_w (PWith (TxBg (Some 2)) ex_ok PRet)) in
  snd y = OPanic /\ g_iter (w_graph (fst y)) = [n_ 2 21] /\
  let z := last_of ex_w (run ex_sc 100 ex_w (PWith (TxBg (Some 4)) ex_ok PRet)) in
  snd z = OPanic /\ w_graph (fst z) = w_graph (fst (last_of ex_w (run ex_sc 100 ex_w (PWith (TxBg None) ex_ok PRet)))) /\
  snd (last_of ex_w (run ex_sc 100 ex_w (PWith (TxBg (Some 5)) ex_ok PRet))) = ORet RUnit.
Proof. vm_compute. auto 6. Qed.

(** C21 is false: a panic of user code in the middle of a commit leaves the graph neither as it was
    nor as the transaction showed it (transaction.rs 88-95 applies the operations one by one). *)
Theorem C21_commit_atomic_refuted :
  exists (sc : dschema) (w w' w1 : dworld) k body r,
    g_reachable (w_graph w) /\ at_rest w /\
    ends sc (bg_open w) (body (bg_ctx w)) w1 (ORet r) /\ is_ok r = true /\
    ends sc w (PWith (TxBg (Some k)) body PRet) w' OPanic /\
    (exists i, g_get (w_graph w') i <> g_get (w_graph w) i) /\
    (exists i, g_get (w_graph w') i <> view w1 (bg_ctx w) i).
Proof.
  exists ex_sc, ex_w,
    (fst (last_of ex_w (run ex_sc 100 ex_w (PWith (TxBg (Some 2)) ex_ok PRet)))),
    (fst (last_of ex_w (run ex_sc 100 (bg_open ex_w) (ex_ok (bg_ctx ex_w))))), 2, ex_ok, RUnit.
  split; [constructor|]. split; [repeat split|]. split; [exists 100; vm_compute; reflexivity|].
  split; [reflexivity|]. split; [exists 100; vm_compute; reflexivity|].
  split; [exists 1|exists 3]; vm_compute; discriminate.
Qed.

(** C22 is false: a closure that leaks its context ([mem::forget], safe Rust) and returns [Ok] gets
    [Ok] from [with] although nothing was committed (transaction.rs 75-78 only logs). *)
Theorem C22_ok_implies_committed_refuted :
  exists (sc : dschema) (w w' w1 : dworld) body r,
    g_reachable (w_graph w) /\ at_rest w /\
    ends sc w (PWith (TxBg None) body PRet) w' (ORet r) /\ is_ok r = true /\
    ends sc (bg_open w) (body (bg_ctx w)) w1 (ORet r) /\
    exists i, g_get (w_graph w') i <> replay (map op_entry (registered w1 (bg_ctx w))) (g_get (w_graph w)) i.
Proof.
  set (body := fun c : ctx => PSave c (n_ 5 50) (PLeak c (PRet RUnit)) : dprog).
  exists ex_sc, ex_w,
    (fst (last_of ex_w (run ex_sc 100 ex_w (PWith (TxBg None) body PRet)))),
    (fst (last_of ex_w (run ex_sc 100 (bg_open ex_w) (body (bg_ctx ex_w))))), body, RUnit.
  split; [constructor|]. split; [repeat split|]. split; [exists 100; vm_compute; reflexivity|].
  split; [reflexivity|]. split; [exists 100; vm_compute; reflexivity|].
  exists 5. vm_compute. discriminate.
Qed.

Print Assumptions C21_commit_atomic_refuted.
Print Assumptions C22_ok_implies_committed_refuted.

(** C23: a program taking every lock, nested, and panicking; caught. *)
Example C23_case :
  let p : dprog :=
    PRead (PRead (PRes 7 (fun h => PAccess Excl [h] (fun _ => PPanic) (fun _ => PRet RUnit))) PRet) PRet in
  let x := last_of ex_w (run ex_sc 100 ex_w p) in
  snd x = OPanic /\ w_lock (fst x) = GFree /\ map c_lock (w_cells (fst x)) = [Free].
Proof. vm_compute. auto. Qed.
