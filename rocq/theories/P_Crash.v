(** C137: user code that panics in a commit, among guards and transactions of any lifetime (plotline/src/schema/transaction.rs 65-115). *)
From Coq Require Import List Bool Arith Lia.
From Verif Require Import Ord OrdFacts BTree BTreeFacts Graph GraphFacts SpecGraph Tx TxFacts TxMachine SpecTx TxMachineFacts TxInv TxHist Guards SpecGuards GuardsFacts.
From Verif Require Import Unwind SpecUnwind UnwindFacts SpecCrash CrashFacts Demo.
Import ListNotations.

Section Crash.
  Context {Id Node : Type} `{HO : OrdT Id} `{HI : Identify Node Id}.
  Notation graph := (graph Id Node).
  Notation gevent := (gevent Id Node).
  Notation uevent := (uevent Id Node).

  (** C137: user code can panic once [k] operations are applied exactly if the transaction holds the graph, was not leaked, all of its contexts were
      dropped, and it has gathered something, and at least [k] operations. *)
  Theorem C137_when :
    forall (g0 : graph) (es : list gevent) t k, g_reachable g0 -> returns g0 es ->
      ((exists l, g_says g0 es (GCrash t k) = GCrashed l) <->
       active g0 es t /\ ~ forgotten g0 es t /\ contexts_gone g0 es t /\ gathered g0 es t <> [] /\ k <= length (gathered g0 es t)).
  Proof.
    intros g0 es t k R T. rewrite <- (crashes_spec g0 es t k (g_reachable_wf g0 R) T). unfold g_says. split.
    - intros [l S]. destruct (crash_cases (g_after g0 es) t k) as [[E|E]|[C E]]; [rewrite E in S; discriminate|rewrite E in S; discriminate|exact C].
    - intros C. rewrite crash_yes by exact C. eexists. reflexivity.
  Qed.

  (** Then the calls that were made are those of the first [k] operations gathered, in order, and the graph is changed by these alone. *)
  Theorem C137_applies_a_prefix :
    forall (g0 : graph) (es : list gevent) t k l, g_reachable g0 -> g_says g0 es (GCrash t k) = GCrashed l ->
      map (fun x => call_entry (fst x)) l = firstn k (gathered g0 es t) /\
      (forall i, node_at g0 (es ++ [GCrash t k]) i = replay (firstn k (gathered g0 es t)) (node_at g0 es) i).
  Proof.
    intros g0 es t k l R S. pose proof (g_reachable_wf g0 R) as W. unfold node_at. rewrite g_after_snoc. unfold g_says in S.
    destruct (crash_cases (g_after g0 es) t k) as [[E|E]|[C E]]; [rewrite E in S; discriminate|rewrite E in S; discriminate|].
    rewrite E in *. unfold crashed in *. cbn [fst snd gs_m m_store s_graph] in *. injection S as <-.
    rewrite (gathered_ops g0 es t W), firstn_map. split.
    - rewrite <- (map_map fst call_entry), apply_told_calls, map_map. apply map_ext. apply call_entry_op.
    - intros i. rewrite apply_told_graph. apply replay_ops. apply (mi_wf _ (gi_m _ (ginv_after g0 es W))).
  Qed.

  (** Whatever follows is as if the transaction had been dropped and the same calls made through guards of their own: the graph is free again. *)
  Theorem C137_as_if_dropped_then_written :
    forall (g0 : graph) (es es' : list gevent) t k l e, g_reachable g0 -> g_says g0 es (GCrash t k) = GCrashed l ->
      g_says g0 (es ++ GCrash t k :: es') e = g_says g0 (es ++ dropped_then t (map fst l) ++ es') e /\
      g_nodes g0 (es ++ GCrash t k :: es') = g_nodes g0 (es ++ dropped_then t (map fst l) ++ es').
  Proof.
    intros g0 es es' t k l e R S. pose proof (ginv_after g0 es (g_reachable_wf g0 R)) as I. unfold g_says in S.
    destruct (crash_cases (g_after g0 es) t k) as [[E|E]|[C E]]; [rewrite E in S; discriminate|rewrite E in S; discriminate|].
    assert (K : g_after g0 (es ++ GCrash t k :: es') = g_after g0 (es ++ dropped_then t (map fst l) ++ es')).
    { change (GCrash t k :: es') with ([GCrash t k] ++ es'). rewrite !app_assoc, !(g_after_app g0 _ es'). f_equal. f_equal.
      rewrite g_after_snoc, g_after_app, E. rewrite E in S. injection S as <-. symmetry. now apply crash_run. }
    unfold g_says, g_nodes. now rewrite K.
  Qed.

  (** Whether the thread is panicking or not, the panic is not announced by the library: nothing is logged. *)
  Theorem C137_logs_nothing :
    forall (g0 : graph) (es : list uevent) t k, u_logs g0 es (UEvent (GCrash t k)) = [].
  Proof. intros g0 es t k. unfold u_logs, u_step, u_call. destruct (g_step _ _) as [st' o] eqn:E. cbn. destruct (returned o); reflexivity. Qed.

  (** From then on the graph is reported poisoned, if it was locked outside of a panic. *)
  Theorem C137_poisons :
    forall (g0 : graph) (es e1 e1' e2 : list uevent) t c k l e w, g_reachable g0 ->
      background g0 (calls e1) t -> ~ had_context g0 (calls e1) t -> depth g0 e1 = 0 ->
      u_did g0 e2 (GEvent (EContext t)) (GX (XHandle c)) e1 e1' -> u_says g0 e2 (UEvent (GCrash t k)) = GCrashed l ->
      wants g0 (calls (e2 ++ UEvent (GCrash t k) :: es)) e w -> u_says g0 (e2 ++ UEvent (GCrash t k) :: es) (UEvent e) <> GX XHang ->
      u_logs g0 (e2 ++ UEvent (GCrash t k) :: es) (UEvent e) = [LPoisoned].
  Proof.
    intros g0 es e1 e1' e2 t c k l e w R B N D E S Wa Nh. destruct (reports g0 _ e w (g_reachable_wf g0 R) Wa Nh) as [[_ K]|[K _]]; [exact K|].
    destruct K. exists e1. split; [|exact D]. right. exists t, c, e1', e2, es. repeat (split; [assumption|]). right. exists k, l. split; [reflexivity|exact S].
  Qed.
End Crash.

(** ** Concrete cases *)

Definition cr_n (i v : nat) : dnode := DNode i v.

(** A transaction saves, brings a deletion from a sub-transaction, and saves again; user code panics after two operations. *)
Definition cr_events : list (gevent nat dnode) :=
  [GEvent (EWrite (GInsert (cr_n 1 10))); GEvent (EWrite (GInsert (cr_n 2 20))); GEvent EBackground; GEvent (EContext 0); GEvent (ESave 0 (cr_n 1 11));
   GEvent (EForeground 0); GEvent (EContext 1); GEvent (EDelete 1 2); GEvent (EDropCtx 1); GEvent (EEnd 1 true); GEvent (ESave 0 (cr_n 3 30))].

Example C137_case :
  gathered [] cr_events 0 = [(1, Some (cr_n 1 11)); (2, None); (3, Some (cr_n 3 30))] /\
  g_says [] cr_events (GCrash 0 2) = GX XInvalid /\
  g_says [] (cr_events ++ [GEvent (EDropCtx 0)]) (GCrash 0 2) = GCrashed [(GInsert (cr_n 1 11), Some (cr_n 1 10)); (GRemove 2, Some (cr_n 2 20))] /\
  g_says [] (cr_events ++ [GEvent (EDropCtx 0)]) (GCrash 0 4) = GX XInvalid /\
  g_nodes [] (cr_events ++ [GEvent (EDropCtx 0); GCrash 0 2]) = [cr_n 1 11] /\
  g_says [] (cr_events ++ [GEvent (EDropCtx 0); GCrash 0 2]) (GEvent (ERead 1)) = GX (XNode (Some (cr_n 1 11))) /\
  g_says [] (cr_events ++ [GEvent (EDropCtx 0); GCrash 0 2]) (GEvent (EEnd 0 true)) = GX XInvalid /\
  g_nodes [] (cr_events ++ [GEvent (EDropCtx 0); GCrash 0 3]) = g_nodes [] (cr_events ++ [GEvent (EDropCtx 0); GEvent (EEnd 0 true)]) /\
  g_says [] (cr_events ++ [GEvent (ELeakCtx 0)]) (GCrash 0 2) = GX XInvalid /\
  g_says [] (cr_events ++ [GEvent (EDropCtx 0); GForget 0]) (GCrash 0 2) = GX XInvalid.
Proof. vm_compute. repeat split; reflexivity. Qed.

Example C137_case_poisoned :
  let es := map UEvent (cr_events ++ [GEvent (EDropCtx 0)]) in
  u_logs [] (es ++ [UEvent (GCrash 0 0)]) (UEvent (GEvent (ERead 1))) = [LPoisoned] /\
  u_logs [] (es ++ [UEvent (GEvent (EEnd 0 true))]) (UEvent (GEvent (ERead 1))) = [].
Proof. vm_compute. split; reflexivity. Qed.

Print Assumptions C137_when.
Print Assumptions C137_applies_a_prefix.
Print Assumptions C137_as_if_dropped_then_written.
Print Assumptions C137_logs_nothing.
Print Assumptions C137_poisons.
