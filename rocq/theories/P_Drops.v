(** C141: what becomes of every node that a schema is given. *)
From Coq Require Import List Bool Arith Lia Permutation.
From Verif Require Import Ord OrdFacts BTree BTreeFacts Graph GraphFacts SpecGraph Tx TxMachine SpecTx TxMachineFacts TxInv
  Guards SpecGuards GuardsFacts SpecCrash Drops SpecDrops DropsFacts Demo.
Import ListNotations.

Section Drops.
  Context {Id Node : Type} `{HO : OrdT Id} `{HI : Identify Node Id}.
  Notation graph := (graph Id Node).
  Notation gevent := (gevent Id Node).

  (** C141: after any history, every node that was in the graph or was given to the schema is in exactly one place: in the graph, waiting in the
      buffer of a transaction, dropped, or given back to the caller; and nothing else is in any of them. *)
  Theorem C141_in_exactly_one_place :
    forall (g0 : graph) (es : list gevent), g_reachable g0 ->
      Permutation (g_iter g0 ++ given es (g_answers g0 es))
        (g_nodes g0 es ++ all_waiting (g_after g0 es) ++ map fst (all_drops (g_init g0) es) ++ given_back es (g_answers g0 es)).
  Proof. intros g0 es R. apply conserved. now apply g_reachable_wf. Qed.

  (** Once every transaction has ended, and no context was leaked, nothing waits. *)
  Theorem C141_nothing_is_lost :
    forall (g0 : graph) (es : list gevent), g_reachable g0 ->
      (forall c, ~ In (GEvent (ELeakCtx c)) es) -> (forall t, begun g0 es t -> ended g0 es t) ->
      Permutation (g_iter g0 ++ given es (g_answers g0 es))
        (g_nodes g0 es ++ map fst (all_drops (g_init g0) es) ++ given_back es (g_answers g0 es)).
  Proof.
    intros g0 es R NL En. pose proof (C141_in_exactly_one_place g0 es R) as P.
    rewrite none_waiting in P; auto. now apply g_reachable_wf.
  Qed.

  (** What a leaked transaction had gathered waits for ever: it is neither published nor dropped. *)
  Theorem C141_leaked_transactions :
    forall (g0 : graph) (es es' : list gevent) t, g_reachable g0 -> g_says g0 es (GForget t) = GX XUnit ->
      waiting (g_after g0 (es ++ GForget t :: es')) t = waiting (g_after g0 es) t.
  Proof.
    intros g0 es es' t R S. apply g_reachable_wf in R. replace (es ++ GForget t :: es') with ((es ++ [GForget t]) ++ es') by now rewrite <- app_assoc.
    rewrite (proj2 (frozen_after g0 _ es' t R (forget_frozen g0 es t R S))). rewrite g_after_snoc. unfold g_says in S. unfold g_step in *.
    destruct (gs_hung (g_after g0 es)); [reflexivity|]. destruct (lost t _); [reflexivity|]. destruct (nth_error _ t) as [[[c|] [] []]|]; try reflexivity.
    destruct (has_ctx _ t Live); reflexivity.
  Qed.

  (** So does what was gathered by a transaction of which a context was leaked, however it ends. *)
  Theorem C141_leaked_contexts :
    forall (g0 : graph) (es es' : list gevent) t c commit, g_reachable g0 ->
      (exists e2, happened g0 es (GEvent (EContext t)) (GX (XHandle c)) e2) -> (exists e2, happened g0 es (GEvent (ELeakCtx c)) (GX XUnit) e2) ->
      g_says g0 es (GEvent (EEnd t commit)) = GX XUnit ->
      drops (g_after g0 es) (GEvent (EEnd t commit)) = [] /\
      waiting (g_after g0 (es ++ GEvent (EEnd t commit) :: es')) t = waiting (g_after g0 es) t.
  Proof.
    intros g0 es es' t c commit R M L S. apply g_reachable_wf in R. destruct (end_of_leaked g0 es t c commit R M L S) as (D & Wt & F).
    split; [exact D|]. replace (es ++ GEvent (EEnd t commit) :: es') with ((es ++ [GEvent (EEnd t commit)]) ++ es') by now rewrite <- app_assoc.
    rewrite (proj2 (frozen_after g0 _ es' t R F)). exact Wt.
  Qed.

  (** A node is dropped while the graph is locked, so that a destructor that asks the schema for it waits for ever, but for the nodes that a
      top-level transaction had gathered when it ends without being committed: its guard is dropped before them. *)
  Theorem C141_locked_while_dropping :
    forall (g0 : graph) (es : list gevent) e n locked, g_reachable g0 -> In (n, locked) (drops (g_after g0 es) e) ->
      (locked = false <-> exists t, e = GEvent (EEnd t false) /\ background g0 es t).
  Proof. intros g0 es e n b R. apply dropped_locked. now apply g_reachable_wf. Qed.

  (** Until a transaction ends, what it has gathered waits. *)
  Theorem C141_waiting :
    forall (g0 : graph) (es : list gevent) t, g_reachable g0 -> begun g0 es t -> ~ ended g0 es t ->
      waiting (g_after g0 es) t = entry_nodes (gathered g0 es t).
  Proof. intros g0 es t R. apply waiting_gathered. now apply g_reachable_wf. Qed.

  (** A transaction, none of whose contexts was leaked, that ends without being committed drops all it has gathered, in that order. *)
  Theorem C141_rollback_drops :
    forall (g0 : graph) (es : list gevent) t, g_reachable g0 -> returns g0 es ->
      begun g0 es t -> ~ ended g0 es t -> ~ forgotten g0 es t -> contexts_gone g0 es t ->
      map fst (drops (g_after g0 es) (GEvent (EEnd t false))) = entry_nodes (gathered g0 es t).
  Proof. intros g0 es t R. apply rollback_drops. now apply g_reachable_wf. Qed.

  (** One that is committed drops the nodes that each of its changes takes out of the graph, in that order; a sub-transaction drops nothing. *)
  Theorem C141_commit_drops :
    forall (g0 : graph) (es : list gevent) t, g_reachable g0 -> returns g0 es ->
      active g0 es t -> ~ forgotten g0 es t -> contexts_gone g0 es t ->
      map fst (drops (g_after g0 es) (GEvent (EEnd t true))) = replaced (gathered g0 es t) (node_at g0 es).
  Proof. intros g0 es t R. apply commit_drops. now apply g_reachable_wf. Qed.

  Theorem C141_merge_drops :
    forall (g0 : graph) (es : list gevent) t, g_reachable g0 -> begun g0 es t -> ~ background g0 es t ->
      drops (g_after g0 es) (GEvent (EEnd t true)) = [].
  Proof. intros g0 es t R. apply merge_drops. now apply g_reachable_wf. Qed.

  (** A commit that panics after [k] changes drops what these took out of the graph, then the nodes of the others. *)
  Theorem C141_crash_drops :
    forall (g0 : graph) (es : list gevent) t k l, g_reachable g0 -> g_says g0 es (GCrash t k) = GCrashed l ->
      map fst (drops (g_after g0 es) (GCrash t k)) =
        replaced (firstn k (gathered g0 es t)) (node_at g0 es) ++ entry_nodes (skipn k (gathered g0 es t)).
  Proof. intros g0 es t k l R. apply crash_drops. now apply g_reachable_wf. Qed.
End Drops.

(** ** Concrete cases *)

Definition dr_n (i v : nat) : dnode := DNode i v.

(** A commit that replaces a node twice and deletes another; a roll-back of a transaction and one of a sub-transaction in it. *)
Definition dr_commit : list (gevent nat dnode) :=
  [GEvent (EWrite (GInsert (dr_n 1 10))); GEvent (EWrite (GInsert (dr_n 2 20))); GEvent EBackground; GEvent (EContext 0); GEvent (ESave 0 (dr_n 1 11));
   GEvent (EForeground 0); GEvent (EContext 1); GEvent (ESave 1 (dr_n 1 12)); GEvent (EDropCtx 1); GEvent (EEnd 1 true); GEvent (EDelete 0 2);
   GEvent (EDropCtx 0); GEvent (EEnd 0 true); GEvent (EWrite (GInsert (dr_n 1 13))); GEvent (EWrite (GWithNode (dr_n 1 14)))].
Definition dr_rollback : list (gevent nat dnode) :=
  [GEvent EBackground; GEvent (EContext 0); GEvent (ESave 0 (dr_n 1 11)); GEvent (ESave 0 (dr_n 2 21)); GEvent (EForeground 0); GEvent (EContext 1);
   GEvent (ESave 1 (dr_n 1 12)); GEvent (EDropCtx 1); GEvent (EEnd 1 false); GEvent (EDropCtx 0); GEvent (EEnd 0 false)].
Definition dr_leak : list (gevent nat dnode) :=
  [GEvent EBackground; GEvent (EContext 0); GEvent (ESave 0 (dr_n 1 11)); GEvent (ELeakCtx 0); GEvent (EEnd 0 true)].
Definition dr_crash : list (gevent nat dnode) :=
  [GEvent (EWrite (GInsert (dr_n 1 10))); GEvent EBackground; GEvent (EContext 0); GEvent (ESave 0 (dr_n 1 11)); GEvent (ESave 0 (dr_n 2 21));
   GEvent (ESave 0 (dr_n 3 31)); GEvent (EDropCtx 0); GCrash 0 1].

Example C141_case :
  (all_drops (g_init []) dr_commit = [(dr_n 1 10, true); (dr_n 1 11, true); (dr_n 2 20, true); (dr_n 1 13, true)] /\
   given_back dr_commit (g_answers [] dr_commit) = [dr_n 1 12] /\ g_nodes [] dr_commit = [dr_n 1 14] /\ all_waiting (g_after [] dr_commit) = []) /\
  (all_drops (g_init []) dr_rollback = [(dr_n 1 12, true); (dr_n 1 11, false); (dr_n 2 21, false)] /\ g_nodes [] dr_rollback = []) /\
  (all_drops (g_init []) dr_leak = [] /\ g_nodes [] dr_leak = [] /\ all_waiting (g_after [] dr_leak) = [dr_n 1 11]) /\
  (all_drops (g_init []) dr_crash = [(dr_n 1 10, true); (dr_n 2 21, true); (dr_n 3 31, true)] /\ g_nodes [] dr_crash = [dr_n 1 11]) /\
  given dr_rollback (g_answers [] dr_rollback) = [dr_n 1 11; dr_n 2 21; dr_n 1 12].
Proof. repeat split; reflexivity. Qed.

Print Assumptions C141_in_exactly_one_place.
Print Assumptions C141_nothing_is_lost.
Print Assumptions C141_leaked_transactions.
Print Assumptions C141_leaked_contexts.
Print Assumptions C141_locked_while_dropping.
Print Assumptions C141_waiting.
Print Assumptions C141_rollback_drops.
Print Assumptions C141_commit_drops.
Print Assumptions C141_merge_drops.
Print Assumptions C141_crash_drops.
