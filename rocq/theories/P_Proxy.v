(** Properties C06-C09, C64: node proxies. *)
From Coq Require Import List.
From Verif Require Import Ord OrdFacts BTree Graph GraphFacts Tx TxMachine SpecTx TxInv Proxy SpecProxy ProxyFacts Demo.
Import ListNotations.

Section Properties.
  Context {Id Node : Type} `{HO : OrdT Id} `{HI : Identify Node Id}.
  Variable edges : Node -> list Id.
  Notation graph := (graph Id Node).
  Notation pxevent := (@pxevent Id Node).
  Notation px_says := (px_says edges).
  Notation source_says := (source_says edges).
  Notation stands_for := (stands_for edges).
  Notation pristine := (pristine edges).
  Notation copy_of := (copy_of edges).

  (** C06: [is_virtual] answers exactly when the source does, and is the absence of the node. *)
  Theorem C06_virtual_iff_absent :
    forall (g : graph) (es : list pxevent) k s i, stands_for g es k s i ->
      (forall r, source_says g es s i r ->
        px_says g es (PxVirtual k) = PxOut (XBool (match r with None => true | Some _ => false end))) /\
      (forall b, px_says g es (PxVirtual k) = PxOut (XBool b) ->
        exists r, source_says g es s i r /\ (b = true <-> r = None)).
  Proof.
    intros g es k s i S. split; [intros r; now apply px_says_virtual|].
    intros b V. destruct (px_virtual_says edges g es k s i b S V) as [r R]. exists r. split; [assumption|].
    rewrite (px_says_virtual edges g es k s i r S R) in V. destruct r; split; congruence.
  Qed.

  (** C07: the first dereference is what the source holds. *)
  Theorem C07_first_dereference :
    forall (g : graph) (es : list pxevent) k s i r, stands_for g es k s i -> pristine g es k ->
      px_says g es (PxDeref k) = PxOut (XNode r) <-> source_says g es s i r.
  Proof. exact (first_deref edges). Qed.

  (** C07: later dereferences, and those of clones made meanwhile, repeat it. *)
  Theorem C07_dereference_frozen :
    forall (g : graph) (es : list pxevent) k r, px_says g es (PxDeref k) = PxOut (XNode r) ->
      forall es' k', copy_of g (es ++ [PxDeref k]) k es' k' ->
        px_says g ((es ++ [PxDeref k]) ++ es') (PxDeref k') = PxOut (XNode r).
  Proof.
    intros g es k r D es' k' C. destruct (deref_stored edges g es k r D) as (p & N & V).
    destruct (frozen_copies edges g _ k r p N V es' k' C) as (p' & N' & V').
    exact (stored_says edges g _ k' p' r N' V').
  Qed.

  (** C08 is false, see [C08_deref_agrees_with_virtual_refuted] below. Missing from the full statement:
      proxies over contexts that had operations registered since the first dereference. *)
  Theorem C08_deref_agrees_with_virtual_partial :
    (* over a graph: always *)
    (forall (g : graph) (es : list pxevent) k gr i, stands_for g es k (SGraph gr) i ->
      px_says g es (PxDeref k) = PxOut (XNode (g_get gr i)) /\
      px_says g es (PxVirtual k) = PxOut (XBool (match g_get gr i with None => true | Some _ => false end))) /\
    (* at the first dereference *)
    (forall (g : graph) (es : list pxevent) k s i r, stands_for g es k s i -> pristine g es k ->
      px_says g es (PxDeref k) = PxOut (XNode r) ->
      px_says g es (PxVirtual k) = PxOut (XBool (match r with None => true | Some _ => false end))) /\
    (* over a context, while nothing is registered in the transactions enclosing it *)
    (forall (g : graph) (es es' : list pxevent) k c i r, g_reachable g ->
      stands_for g es k (SCtx c) i -> pristine g es k ->
      px_says g es (PxDeref k) = PxOut (XNode r) ->
      never_registers_around (after g (api_events es)) c (api_events es') ->
      c < length (p_ctxs (m_proto (after g (api_events es)))) ->
      alive (m_proto (after g (api_events (es ++ [PxDeref k] ++ es')))) c ->
      p_hung (m_proto (after g (api_events (es ++ [PxDeref k] ++ es')))) = false ->
      px_says g (es ++ [PxDeref k] ++ es') (PxDeref k) = PxOut (XNode r) /\
      px_says g (es ++ [PxDeref k] ++ es') (PxVirtual k) =
        PxOut (XBool (match r with None => true | Some _ => false end))).
  Proof.
    split; [|split].
    - intros g es k gr i S. split; [now apply graph_deref|].
      now apply (px_says_virtual edges g es k (SGraph gr) i).
    - intros g es k s i r S P D. apply (first_deref edges g es k s i r S P) in D.
      now apply (px_says_virtual edges g es k s i).
    - intros g es es' k c i r R S P D N L A Hg. pose proof D as D0.
      apply (first_deref edges g es k _ i r S P), says_ask in D.
      assert (E : api_events (es ++ [PxDeref k] ++ es') = api_events es ++ api_events es').
      { rewrite !api_events_app. reflexivity. }
      rewrite E, after_app in A, Hg.
      assert (I : minv (after g (api_events es))) by (apply minv_after; now apply g_reachable_wf).
      destruct (ask_isolation_run (api_events es') c _ I L A Hg N i) as [Q _]. split.
      + rewrite app_assoc. destruct (deref_stored edges g es k r D0) as (p & Np & V).
        assert (C : copy_of g (es ++ [PxDeref k]) k es' k).
        { clear. induction es' as [|e es' IH] using rev_ind; now constructor. }
        destruct (frozen_copies edges g _ k r p Np V es' k C) as (p' & N' & V').
        exact (stored_says edges g _ k p' r N' V').
      + apply (px_says_virtual edges g _ k (SCtx c) i).
        * clear - S. rewrite app_assoc. induction es' as [|e es' IH] using rev_ind.
          -- rewrite app_nil_r. now apply sf_later.
          -- rewrite app_assoc. now apply sf_later.
        * apply says_ask. rewrite E, after_app, Q. exact D.
  Qed.

  (** C64: a dereferenced proxy keeps its answer while [is_virtual] follows the source. *)
  Theorem C64_snapshot_versus_live :
    forall (g : graph) (es es' : list pxevent) k s i r r', stands_for g es k s i ->
      px_says g es (PxDeref k) = PxOut (XNode r) ->
      let es2 := es ++ [PxDeref k] ++ es' in
      source_says g es2 s i r' ->
      px_says g es2 (PxDeref k) = PxOut (XNode r) /\
      px_says g es2 (PxVirtual k) = PxOut (XBool (match r' with None => true | Some _ => false end)).
  Proof.
    intros g es es' k s i r r' S D es2 R. unfold es2 in *. split.
    - rewrite app_assoc. destruct (deref_stored edges g es k r D) as (p & Np & V).
      assert (C : copy_of g (es ++ [PxDeref k]) k es' k).
      { clear. induction es' as [|e es' IH] using rev_ind; now constructor. }
      destruct (frozen_copies edges g _ k r p Np V es' k C) as (p' & N' & V').
      exact (stored_says edges g _ k p' r N' V').
    - apply (px_says_virtual edges g _ k s i); [|assumption].
      clear - S. rewrite app_assoc. induction es' as [|e es' IH] using rev_ind.
      + rewrite app_nil_r. now apply sf_later.
      + rewrite app_assoc. now apply sf_later.
  Qed.

  (** C09: one successor per edge, in order. *)
  Theorem C09_successors :
    forall (g : graph) (es : list pxevent) k s i r, stands_for g es k s i ->
      px_says g es (PxDeref k) = PxOut (XNode r) ->
      let ids := match r with Some n => edges n | None => [] end in
      exists first, px_says g es (PxSuccessors k) = PxHandles first (length ids) /\
        (forall d i', nth_error ids d = Some i' ->
          (exists q, nth_error (xs_proxies (px_after edges g (es ++ [PxSuccessors k]))) (first + d) = Some q /\
             px_source q = s /\ px_id q = i') /\
          stands_for g (es ++ [PxSuccessors k]) (first + d) s i' /\
          pristine g (es ++ [PxSuccessors k]) (first + d)).
  Proof.
    intros g es k s i r S D ids. destruct (px_succ_deref edges g es k r D) as (E & _).
    assert (E' : (match r with Some n => length (edges n) | None => 0 end) = length ids)
      by (unfold ids; destruct r; reflexivity).
    rewrite E' in E. eexists. split; [exact E|]. intros d i' N.
    assert (F : stands_for g (es ++ [PxSuccessors k]) (length (xs_proxies (px_after edges g es)) + d) s i').
    { unfold ids in N. destruct r as [n|]; [|destruct d; discriminate].
      eapply sf_succ; eassumption. }
    split; [now apply (stands_for_proxy edges g)|]. split; [assumption|].
    eapply pr_succ; [exact E|]. apply nth_error_Some. congruence.
  Qed.

  (** C09: proxies are what they stand for, for the caller that reads their public fields. *)
  Theorem C09_proxy_fields :
    forall (g : graph) (es : list pxevent) k s i, stands_for g es k s i ->
      exists p, nth_error (xs_proxies (px_after edges g es)) k = Some p /\ px_source p = s /\ px_id p = i.
  Proof. exact (stands_for_proxy edges). Qed.

  (** C09: iterating successors follows exactly the paths of the edge relation. *)
  Theorem C09_paths :
    forall (m : @machine Id Node) s (get : Id -> option Node),
      (forall i, src_get m s i = Some (get i)) ->
      forall i l, proxy_path edges m (px_new s i) l <-> edge_path edges get i l.
  Proof. exact (paths_iff edges). Qed.
End Properties.

(** ** Examples: nodes whose value is the id of their only successor. *)
Definition d_edges (n : dnode) : list nat := [d_val n; d_val n + 1].
Definition d_graph : graph nat dnode := g_from_iter [DNode 1 2; DNode 2 1].
Definition d_open : list (@pxevent nat dnode) :=
  [PxEvent EBackground; PxEvent (EContext 0); PxNode (SCtx 0) 7].

(** C08 fails: an absent node dereferenced through a context, then saved. *)
Theorem C08_deref_agrees_with_virtual_refuted :
  exists (g : graph nat dnode) es k s i, g_reachable g /\ stands_for d_edges g es k s i /\
    px_says d_edges g es (PxDeref k) = PxOut (XNode None) /\
    px_says d_edges g es (PxVirtual k) = PxOut (XBool false).
Proof.
  exists d_graph, (((d_open ++ [PxDeref 0]) ++ [PxEvent (ESave 0 (DNode 7 0))])), 0, (SCtx 0), 7.
  split; [apply gr_from_iter|]. split; [|split; vm_compute; reflexivity].
  repeat apply sf_later. apply (sf_node d_edges d_graph [PxEvent EBackground; PxEvent (EContext 0)]).
  vm_compute. reflexivity.
Qed.

Example C06_case : stands_for d_edges d_graph d_open 0 (SCtx 0) 7 /\
  source_says d_edges d_graph d_open (SCtx 0) 7 None.
Proof.
  split; [|vm_compute; reflexivity].
  apply (sf_node d_edges d_graph [PxEvent EBackground; PxEvent (EContext 0)]). vm_compute. reflexivity.
Qed.

Example C07_case : pristine d_edges d_graph d_open 0 /\
  px_says d_edges d_graph d_open (PxDeref 0) = PxOut (XNode None) /\
  copy_of d_edges d_graph (d_open ++ [PxDeref 0]) 0 [PxEvent (ESave 0 (DNode 7 0)); PxClone 0] 1 /\
  source_says d_edges d_graph ((d_open ++ [PxDeref 0]) ++ [PxEvent (ESave 0 (DNode 7 0)); PxClone 0])
    (SCtx 0) 7 (Some (DNode 7 0)).
Proof.
  split; [apply (pr_node d_edges d_graph [PxEvent EBackground; PxEvent (EContext 0)] (SCtx 0) 7); vm_compute; reflexivity|].
  split; [vm_compute; reflexivity|]. split; [|vm_compute; reflexivity].
  apply (cp_clone d_edges d_graph _ 0 [PxEvent (ESave 0 (DNode 7 0))] 0); [|vm_compute; reflexivity].
  apply (cp_later d_edges d_graph _ 0 []). constructor.
Qed.

Example C09_case :
  px_says d_edges d_graph [PxNode (SGraph d_graph) 1] (PxSuccessors 0) = PxHandles 1 2 /\
  edge_path d_edges (g_get d_graph) 1 [1; 2; 1; 3].
Proof.
  split; [vm_compute; reflexivity|].
  apply (ep_step d_edges _ 1 (DNode 1 2) 2); [vm_compute; reflexivity|cbn; auto|].
  apply (ep_step d_edges _ 2 (DNode 2 1) 1); [vm_compute; reflexivity|cbn; auto|].
  apply (ep_step d_edges _ 1 (DNode 1 2) 3); [vm_compute; reflexivity|cbn; auto|]. constructor.
Qed.

(** C08, C64: node 7 is absent when first dereferenced, then saved. *)
Example C64_case :
  stands_for d_edges d_graph d_open 0 (SCtx 0) 7 /\
  px_says d_edges d_graph d_open (PxDeref 0) = PxOut (XNode None) /\
  source_says d_edges d_graph (d_open ++ [PxDeref 0] ++ [PxEvent (ESave 0 (DNode 7 0))]) (SCtx 0) 7 (Some (DNode 7 0)) /\
  px_says d_edges d_graph (d_open ++ [PxDeref 0] ++ [PxEvent (ESave 0 (DNode 7 0))]) (PxVirtual 0) = PxOut (XBool false).
Proof. split; [apply C06_case|]. repeat split. Qed.

(** C08: the saving is done by a sibling sub-transaction instead. *)
Example C08_case :
  let es := [PxEvent EBackground; PxEvent (EContext 0); PxEvent (EForeground 0); PxEvent (EContext 1);
             PxEvent (EForeground 0); PxEvent (EContext 2); PxNode (SCtx 1) 7] in
  map (px_says d_edges d_graph (es ++ [PxDeref 0; PxEvent (ESave 2 (DNode 7 0))])) [PxDeref 0; PxVirtual 0]
  = [PxOut (XNode None); PxOut (XBool true)] /\
  source_says d_edges d_graph (es ++ [PxDeref 0; PxEvent (ESave 2 (DNode 7 0))]) (SCtx 2) 7 (Some (DNode 7 0)).
Proof. split; reflexivity. Qed.

Print Assumptions C06_virtual_iff_absent.
Print Assumptions C07_first_dereference.
Print Assumptions C07_dereference_frozen.
Print Assumptions C08_deref_agrees_with_virtual_partial.
Print Assumptions C08_deref_agrees_with_virtual_refuted.
Print Assumptions C09_successors.
Print Assumptions C09_proxy_fields.
Print Assumptions C09_paths.
Print Assumptions C64_snapshot_versus_live.
