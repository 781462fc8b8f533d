(** Properties C10-C14, C18-C20: histories of transactions, sub-transactions and
    contexts. *)
From Coq Require Import List Lia.
From Verif Require Import Ord OrdFacts BTree Graph GraphFacts Tx TxMachine SpecTx TxFacts
  TxMachineFacts TxInv TxHist Demo.
Import ListNotations.

Section Properties.
  Context {Id Node : Type} `{HO : OrdT Id} `{HI : Identify Node Id}.
  Notation graph := (graph Id Node).
  Notation event := (@event Id Node).

  (** The graph stored in a state. *)
  Notation graph_of m := (s_graph (m_store m)).

  (** C10: every output of every history is the one of the overlay specification. *)
  Theorem C10_reads_are_overlays :
    forall (g : graph) (es : list event), g_reachable g ->
      snd (m_run (m_init g) es) = snd (sm_run (sm_init (g_get g)) es).
  Proof. intros g es R. apply refines_overlays. now apply g_reachable_wf. Qed.

  (** C11: a history that registers nothing in the transactions enclosing context [d]
      changes none of its answers. *)
  Theorem C11_isolation :
    forall (g : graph) (es es' : list event) d, g_reachable g ->
      d < length (p_ctxs (m_proto (after g es))) ->
      alive (m_proto (after g (es ++ es'))) d ->
      p_hung (m_proto (after g (es ++ es'))) = false ->
      never_registers_around (after g es) d es' ->
      forall i, ask (after g (es ++ es')) d i = ask (after g es) d i /\
                ask_contains (after g (es ++ es')) d i = ask_contains (after g es) d i.
  Proof.
    intros g es es' d R. rewrite after_app. intros L A H N i.
    apply ask_isolation_run; auto. apply minv_after. now apply g_reachable_wf.
  Qed.

  (** C11: a transaction opened on [c] and another one opened on [c] are not within each
      other, nor is [c] within them. *)
  Theorem C11_siblings_apart :
    forall (g : graph) (es : list event) t1 t2 c d1 d2, g_reachable g ->
      let p := m_proto (after g es) in
      opened_on p t1 c -> opened_on p t2 c -> t1 <> t2 ->
      made_from p d1 t1 -> made_from p d2 t2 ->
      ~ within p d2 t1 /\ ~ within p d1 t2 /\ ~ within p c t1 /\ ~ within p c t2.
  Proof. intros g es t1 t2 c d1 d2 R p. apply siblings_apart. apply minv_after. now apply g_reachable_wf. Qed.

  (** C12. *)
  Theorem C12_parent_visible_live :
    forall (g : graph) (es : list event) c d t i, g_reachable g ->
      p_hung (m_proto (after g es)) = false ->
      opened_on (m_proto (after g es)) t c ->
      nth_error (p_ctxs (m_proto (after g es))) d = Some (CtxRec t Live) ->
      ~ history_pends g es t i ->
      ask (after g es) d i = ask (after g es) c i /\
      ask_contains (after g es) d i = ask_contains (after g es) c i.
  Proof. intros g es c d t i R. apply live_visibility. now apply g_reachable_wf. Qed.

  (** C13. *)
  Theorem C13_commit_transfers_view :
    forall (g : graph) (es : list event) t c d, g_reachable g ->
      let m := after g es in
      let m' := after g (es ++ [EDropCtx d; EEnd t true]) in
      opened_on (m_proto m) t c ->
      made_from (m_proto m) d t ->
      (forall x, nth_error (p_ctxs (m_proto m)) x <> Some (CtxRec t Leaked)) ->
      snd (m_run m [EDropCtx d; EEnd t true]) = [XUnit; XUnit] ->
      (forall i, ask m' c i = ask m d i) /\
      (forall i, ask_contains m' c i = ask_contains m d i) /\
      (forall i, g_get (graph_of m') i = g_get (graph_of m) i) /\
      (forall x u, alive (m_proto m') x -> made_from (m_proto m) c u -> ~ within (m_proto m) x u ->
         forall i, ask m' x i = ask m x i /\ ask_contains m' x i = ask_contains m x i).
  Proof.
    intros g es t c d R m m'. unfold m'. rewrite after_app. apply commit_sub.
    apply minv_after. now apply g_reachable_wf.
  Qed.

  (** C14 (histories): events that register only in transactions opened meanwhile leave
      every older context and the graph as they were; the commit of one of
      those into an older context is a registration in an older transaction, so this is
      about transactions that fail or are dropped. *)
  Theorem C14_uncommitted_leaves_no_trace :
    forall (g : graph) (es es' : list event) d, g_reachable g ->
      d < length (p_ctxs (m_proto (after g es))) ->
      alive (m_proto (after g (es ++ es'))) d ->
      p_hung (m_proto (after g (es ++ es'))) = false ->
      only_new (after g es) es' ->
      (forall i, ask (after g (es ++ es')) d i = ask (after g es) d i /\
                 ask_contains (after g (es ++ es')) d i = ask_contains (after g es) d i) /\
      (forall i, g_get (graph_of (after g (es ++ es'))) i = g_get (graph_of (after g es)) i).
  Proof.
    intros g es es' d R. rewrite after_app. intros L A H N.
    assert (I : minv (after g es)) by (apply minv_after; now apply g_reachable_wf).
    split.
    - now apply only_new_no_trace.
    - intros i. pose proof (graph_frozen_run es' d _ I L A) as E. unfold gr in E. now rewrite E.
  Qed.

  (** C18: a script of operations grouped in committed sub-transactions in any way is seen by
      the enclosing context as the operations replayed in order. *)
  Theorem C18_nesting_transparent_view :
    forall (g : graph) (es : list event) (s : script) c t b, g_reachable g ->
      let m := after g es in
      p_hung (m_proto m) = false ->
      nth_error (p_ctxs (m_proto m)) c = Some (CtxRec t Live) ->
      (forall i, ask m c i = XNode (b i)) ->
      forall i, ask (play s m c) c i = XNode (replay (entries s) b i) /\
                ask (play s m c) c i = ask (play (flatten s) m c) c i.
  Proof.
    intros g es s c t b R m H N Eb i.
    assert (I : minv m) by (apply minv_after; now apply g_reachable_wf).
    split; [now apply (play_replay s m c t)|].
    rewrite !(play_replay _ m c t I H N b Eb).
    rewrite <- !script_ops_entries, script_ops_flatten. reflexivity.
  Qed.

  (** C18: after the commit of the enclosing top-level transaction, the graph answers the
      same as with the flat list. *)
  Theorem C18_nesting_transparent_graph :
    forall (g : graph) (es : list event) (s : script) c t, g_reachable g ->
      let m := after g es in
      p_hung (m_proto m) = false ->
      nth_error (p_ctxs (m_proto m)) c = Some (CtxRec t Live) ->
      top_level (m_proto m) t ->
      (forall d st, nth_error (p_ctxs (m_proto m)) d = Some (CtxRec t st) -> d = c \/ st = Dropped) ->
      (forall u, opened_on (m_proto m) u c -> tx_live (m_proto m) u = false) ->
      forall i,
        snd (m_run (play s m c) [EDropCtx c; EEnd t true; ERead i]) =
        snd (m_run (play (flatten s) m c) [EDropCtx c; EEnd t true; ERead i]) /\
        forall b, (forall i, ask m c i = XNode (b i)) ->
        snd (m_run (play s m c) [EDropCtx c; EEnd t true; ERead i]) =
        [XUnit; XUnit; XNode (replay (entries s) b i)].
  Proof. intros g es s c t R m. apply nesting_graph. apply minv_after. now apply g_reachable_wf. Qed.

  (** C19. *)
  Theorem C19_serial_replay :
    forall (g : graph) (es : list event), g_reachable g ->
      forall i, g_get (graph_of (after g es)) i = replay (published g es) (g_get g) i.
  Proof. intros g es R. apply serial_replay. now apply g_reachable_wf. Qed.

  (** C20: at most one top-level transaction has live contexts (its own or nested ones). *)
  Theorem C20_one_active_transaction :
    forall (g : graph) (es : list event) c1 c2 r1 r2, g_reachable g ->
      let p := m_proto (after g es) in
      alive p c1 -> alive p c2 -> top_level p r1 -> top_level p r2 ->
      within p c1 r1 -> within p c2 r2 -> r1 = r2.
  Proof.
    intros g es c1 c2 r1 r2 R p. apply one_root. apply minv_after. now apply g_reachable_wf.
  Qed.

  (** C20: while a context is alive, reading or writing the graph, or creating a context of
      another top-level transaction, never returns, and nor does anything after it. *)
  Theorem C20_others_locked_out :
    forall (g : graph) (es es' : list event) c e, g_reachable g ->
      let m := after g es in
      alive (m_proto m) c -> p_hung (m_proto m) = false ->
      match e with
      | ERead _ | EWrite _ => True
      | EContext t => top_level (m_proto m) t /\ tx_live (m_proto m) t = true /\ ~ within (m_proto m) c t
      | _ => False
      end ->
      snd (m_run m (e :: es')) = map (fun _ => XHang) (e :: es') /\
      m_store (after g (es ++ e :: es')) = m_store m.
  Proof. intros g es es' c e R m. unfold m. rewrite after_app. apply locked_out_forever. apply minv_after. now apply g_reachable_wf. Qed.

  (** C20: while a context stays alive no history changes the graph. *)
  Theorem C20_graph_stable_while_active :
    forall (g : graph) (es es' : list event) c, g_reachable g ->
      c < length (p_ctxs (m_proto (after g es))) ->
      alive (m_proto (after g (es ++ es'))) c ->
      graph_of (after g (es ++ es')) = graph_of (after g es).
  Proof.
    intros g es es' c R. rewrite after_app. apply graph_frozen_run. apply minv_after. now apply g_reachable_wf.
  Qed.
End Properties.

Print Assumptions C10_reads_are_overlays.
Print Assumptions C11_isolation.
Print Assumptions C11_siblings_apart.
Print Assumptions C12_parent_visible_live.
Print Assumptions C13_commit_transfers_view.
Print Assumptions C14_uncommitted_leaves_no_trace.
Print Assumptions C18_nesting_transparent_view.
Print Assumptions C18_nesting_transparent_graph.
Print Assumptions C19_serial_replay.
Print Assumptions C20_one_active_transaction.
Print Assumptions C20_others_locked_out.
Print Assumptions C20_graph_stable_while_active.

(** Concrete cases meeting the hypotheses. *)

(** The history of the repository's test [subtransactions_should_be_independent]
    (transaction.rs 607-648), with commits: one transaction (0), its context (0), two siblings
    (1 and 2) on it with contexts 1 and 2. *)
Definition ex_g : graph nat dnode := g_from_iter [DNode 1 10].
Definition ex_open : list (@event nat dnode) :=
  [EBackground; EContext 0; EForeground 0; EContext 1; EForeground 0; EContext 2].
Definition ex_siblings : list (@event nat dnode) :=
  ex_open ++ [EDelete 1 1; ESave 2 (DNode 2 20); ESave 0 (DNode 5 50)].

Example ex_g_reachable : g_reachable ex_g.
Proof. constructor. Qed.

(** C10/C11: the siblings see their own operation and the parent's live one, not each other's. *)
Example ex_siblings_answers :
  map (fun ci => ask (after ex_g ex_siblings) (fst ci) (snd ci))
    [(0, 1); (0, 2); (1, 1); (1, 2); (2, 1); (2, 2); (1, 5); (2, 5)]
  = [XNode (Some (DNode 1 10)); XNode None; XNode None; XNode None;
     XNode (Some (DNode 1 10)); XNode (Some (DNode 2 20));
     XNode (Some (DNode 5 50)); XNode (Some (DNode 5 50))].
Proof. reflexivity. Qed.

(** C11: hypotheses hold for context 1 and the events of its sibling. *)
Example ex_isolated : never_registers_around (after ex_g ex_open) 1 [ESave 2 (DNode 2 20)].
Proof.
  intros es1 e es2 E t R W. destruct es1 as [|e1 es1]; [|destruct es1; discriminate].
  injection E as <- _. cbn [m_run fst] in R, W. inversion R; subst.
  match goal with H : made_from _ 2 t |- _ => destruct H as [s N] end. cbn in N. injection N as <- _.
  apply (within_chain (after ex_g ex_open) 1 2 (minv_after _ _ (g_reachable_wf _ ex_g_reachable))) in W.
  destruct W as [_ W]. cbn in W. lia.
Qed.

Example ex_C11_siblings :
  opened_on (m_proto (after ex_g ex_open)) 1 0 /\ opened_on (m_proto (after ex_g ex_open)) 2 0 /\
  made_from (m_proto (after ex_g ex_open)) 1 1 /\ made_from (m_proto (after ex_g ex_open)) 2 2.
Proof. repeat split; try (exists false, true; reflexivity); exists Live; reflexivity. Qed.

(** C12: sub-transaction 1 has nothing pending on id 5, registered later on its parent. *)
Example ex_not_pending : ~ history_pends ex_g [EBackground; EContext 0; EForeground 0; EContext 1] 1 5.
Proof.
  intros P. apply (history_pends_overlay ex_g (g_reachable_wf _ ex_g_reachable)) in P. now apply P.
Qed.

(** C13: committing sub-transaction 1 makes the parent answer what it answered. *)
Example ex_commit :
  let m := after ex_g ex_siblings in
  snd (m_run m [EDropCtx 1; EEnd 1 true]) = [XUnit; XUnit] /\
  (forall x, nth_error (p_ctxs (m_proto m)) x <> Some (CtxRec 1 Leaked)) /\
  map (ask (after ex_g (ex_siblings ++ [EDropCtx 1; EEnd 1 true])) 0) [1; 2; 5]
  = [XNode None; XNode None; XNode (Some (DNode 5 50))].
Proof.
  split; [reflexivity|]. split; [|reflexivity].
  intros x. cbn. destruct x as [|[|[|[|x]]]]; cbn; discriminate.
Qed.

(** C18: a nested script and its flat version. *)
Definition ex_script : @script nat dnode :=
  SSave (DNode 3 30) (SSub (SDelete 3 (SSub (SSave (DNode 4 40) SNil) (SSave (DNode 1 11) SNil)))
    (SDelete 4 SNil)).
Example ex_script_flat : flatten ex_script =
  SSave (DNode 3 30) (SDelete 3 (SSave (DNode 4 40) (SSave (DNode 1 11) (SDelete 4 SNil)))).
Proof. reflexivity. Qed.
Example ex_script_graph :
  let m := after ex_g [EBackground; EContext 0] in
  map (fun i => snd (m_run (play ex_script m 0) [EDropCtx 0; EEnd 0 true; ERead i])) [1; 3; 4]
  = [[XUnit; XUnit; XNode (Some (DNode 1 11))]; [XUnit; XUnit; XNode None]; [XUnit; XUnit; XNode None]].
Proof. reflexivity. Qed.

(** C19: one committed transaction with a committed and a dropped sub-transaction. *)
Example ex_published :
  published ex_g (ex_siblings ++ [EDropCtx 1; EEnd 1 true; EDropCtx 2; EEnd 2 false; EDropCtx 0; EEnd 0 true;
                                  EWrite (GInsert (DNode 9 90))])
  = [(5, Some (DNode 5 50)); (1, None); (9, Some (DNode 9 90))].
Proof. reflexivity. Qed.

(** C20: a second top-level transaction is locked out while the first is active. *)
Example ex_locked :
  snd (m_run (m_init ex_g) [EBackground; EContext 0; EBackground; EContext 1; EGet 0 1])
  = [XHandle 0; XHandle 0; XHandle 1; XHang; XHang].
Proof. reflexivity. Qed.
