(** C117-C119: guards of the graph with any lifetime (plotline/src/schema/guard.rs). *)
From Coq Require Import List Bool Arith Lia.
From Verif Require Import Ord OrdFacts BTree BTreeFacts Graph GraphFacts SpecGraph Tx TxMachine SpecTx TxMachineFacts TxInv Guards SpecGuards GuardsFacts Demo.
Import ListNotations.

Section Guards.
  Context {Id Node : Type} `{HO : OrdT Id} `{HI : Identify Node Id}.
  Notation graph := (graph Id Node).
  Notation gevent := (gevent Id Node).

  (** C117: what is answered while guards are kept, dropped in any order and leaked is what would be answered if every access through a
      guard opened and dropped one of its own. *)
  Theorem C117_as_if_dropped_at_once :
    forall (g0 : graph) (es : list gevent), g_reachable g0 ->
      snd (m_run (m_init g0) (erase es (g_answers g0 es))) = kept es (g_answers g0 es).
  Proof. intros g0 es R. symmetry. apply erased. now apply g_reachable_wf. Qed.

  (** Iterating over a guard gives the nodes of the graph after those events, and a guard that was neither dropped nor leaked can always be used. *)
  Theorem C117_iteration :
    forall (g0 : graph) (es : list gevent) w g, g_reachable g0 -> returns g0 es ->
      outstanding g0 es w g -> ~ (exists e2, happened g0 es (GLeak g) (GX XUnit) e2) ->
      g_says g0 es (GIter g) = GNodes (g_iter (s_graph (m_store (after g0 (erase es (g_answers g0 es)))))).
  Proof.
    intros g0 es w g R T O L. apply g_reachable_wf in R. apply hung_returns in T; [|exact R]. unfold g_says, g_step.
    rewrite T, (live_guard g0 es w g O L). cbn. now rewrite (proj1 (erased g0 es R)).
  Qed.

  Theorem C117_get :
    forall (g0 : graph) (es : list gevent) w g i, g_reachable g0 -> returns g0 es ->
      outstanding g0 es w g -> ~ (exists e2, happened g0 es (GLeak g) (GX XUnit) e2) ->
      g_says g0 es (GGet g i) = GX (snd (m_step (after g0 (erase es (g_answers g0 es))) (ERead i))).
  Proof.
    intros g0 es w g i R T O L. apply g_reachable_wf in R. apply hung_returns in T; [|exact R]. unfold g_says, g_step.
    pose proof (live_guard g0 es w g O L) as U. pose proof (ginv_after g0 es R) as I. pose proof (usable_free _ _ _ I U) as G.
    pose proof (gi_hung _ I) as Hh. rewrite T, U. cbn. rewrite <- (proj1 (erased g0 es R)). unfold m_step, p_step. now rewrite Hh, G.
  Qed.

  (** C118: a call waits for ever exactly if it asks for the graph and someone holds it in a way that excludes that. *)
  Theorem C118_waits_exactly :
    forall (g0 : graph) (es : list gevent) e, g_reachable g0 -> returns g0 es ->
      (g_says g0 es e = GX XHang <-> exists w, wants g0 es e w /\ excluded g0 es w).
  Proof. intros g0 es e R. apply blocks_exactly. now apply g_reachable_wf. Qed.

  (** What comes after a call that waits for ever is not reached. *)
  Theorem C118_never_after :
    forall (g0 : graph) (es es' : list gevent), ~ returns g0 es -> g_reachable g0 ->
      g_answers g0 (es ++ es') = g_answers g0 es ++ map (fun _ => GX XHang) es' /\ g_nodes g0 (es ++ es') = g_nodes g0 es.
  Proof.
    intros g0 es es' N R. apply g_reachable_wf in R.
    assert (Hg : gs_hung (g_after g0 es) = true).
    { destruct (gs_hung (g_after g0 es)) eqn:E; [reflexivity|]. apply hung_returns in E; [contradiction|exact R]. }
    assert (K : g_after g0 (es ++ es') = g_after g0 es /\ g_answers g0 (es ++ es') = g_answers g0 es ++ map (fun _ => GX XHang) es').
    { induction es' as [|e es' [IH1 IH2]] using rev_ind; [now rewrite !app_nil_r|].
      rewrite app_assoc, g_after_snoc, g_answers_snoc, IH1, IH2. unfold g_says. rewrite IH1, step_stays_hung by exact Hg.
      split; [reflexivity|]. rewrite map_app. cbn. now rewrite app_assoc. }
    destruct K as [K1 K2]. split; [exact K2|]. unfold g_nodes. now rewrite K1.
  Qed.

  (** C119: while a guard is kept the graph changes only by calls through that guard, and through a [SchemaReadGuard] not at all. *)
  Theorem C119_held_still :
    forall (g0 : graph) (es es' : list gevent) w g, g_reachable g0 ->
      outstanding g0 es w g -> outstanding g0 (es ++ es') w g -> (w = true -> forall c, ~ In (GCall g c) es') ->
      g_nodes g0 (es ++ es') = g_nodes g0 es.
  Proof. intros g0 es es' w g R A B N. unfold g_nodes. now rewrite (held_still g0 es es' w g (g_reachable_wf g0 R) A B N). Qed.

  (** What is leaked while it holds the graph freezes the graph and blocks whoever asks for it in an excluded way, for ever. *)
  Theorem C119_leaked_for_ever :
    forall (g0 : graph) (es es' : list gevent) w, g_reachable g0 -> leaked g0 es w ->
      g_nodes g0 (es ++ es') = g_nodes g0 es /\
      (returns g0 (es ++ es') -> forall e w', wants g0 (es ++ es') e w' -> (w || w')%bool = true -> g_says g0 (es ++ es') e = GX XHang).
  Proof.
    intros g0 es es' w R K. pose proof (g_reachable_wf g0 R) as W. split.
    - unfold g_nodes. now rewrite (leaked_still g0 es es' w W K).
    - intros T e w' Kw E. apply C118_waits_exactly; [exact R|exact T|]. exists w'. split; [exact Kw|]. now apply leaked_excludes with w.
  Qed.
End Guards.

(** ** Concrete cases *)

Definition gd_n (i v : nat) : dnode := DNode i v.

(** Two readers at once, an iteration, dropped in the order they were opened; then a writer, whose insertion a later reader sees; a
    transaction without contexts disturbs nobody. *)
Definition gd_events : list (gevent nat dnode) :=
  [GEvent (EWrite (GInsert (gd_n 1 10))); GOpen false; GEvent EBackground; GOpen false; GGet 0 1; GDrop 0; GIter 1; GDrop 1; GOpen true;
   GCall 2 (GInsert (gd_n 2 20)); GGet 2 2; GDrop 2; GEvent (EContext 0); GEvent (ESave 0 (gd_n 3 30)); GEvent (EDropCtx 0); GEvent (EEnd 0 true);
   GOpen false; GIter 3].

Example C117_case :
  g_answers [] gd_events =
    [GX (XNode None); GX (XHandle 0); GX (XHandle 0); GX (XHandle 1); GX (XNode (Some (gd_n 1 10))); GX XUnit; GNodes [gd_n 1 10]; GX XUnit; GX (XHandle 2);
     GX (XNode None); GX (XNode (Some (gd_n 2 20))); GX XUnit; GX (XHandle 0); GX XUnit; GX XUnit; GX XUnit; GX (XHandle 3); GNodes [gd_n 1 10; gd_n 2 20; gd_n 3 30]] /\
  erase gd_events (g_answers [] gd_events) =
    [EWrite (GInsert (gd_n 1 10)); EBackground; ERead 1; EWrite (GInsert (gd_n 2 20)); ERead 2; EContext 0; ESave 0 (gd_n 3 30); EDropCtx 0; EEnd 0 true].
Proof. split; reflexivity. Qed.

(** With a reader open, another reader enters and a writer does not; nor does the first context of a transaction. *)
Example C118_case :
  g_answers [] [GOpen false; GOpen false; GOpen true; GDrop 0] = [GX (XHandle 0); GX (XHandle 1); GX XHang; GX XHang] /\
  g_answers [] [GOpen false; GEvent EBackground; GEvent (EContext 0)] = [GX (XHandle 0); GX (XHandle 0); GX XHang] /\
  g_answers [] [GOpen true; GOpen false] = [GX (XHandle 0); GX XHang] /\
  g_answers [] [GEvent EBackground; GEvent (EContext 0); GOpen false] = [GX (XHandle 0); GX (XHandle 0); GX XHang] /\
  g_answers [] [GOpen false; GOpen false; GDrop 0; GDrop 1; GOpen true] = [GX (XHandle 0); GX (XHandle 1); GX XUnit; GX XUnit; GX (XHandle 2)].
Proof. repeat split; reflexivity. Qed.

(** A leaked reader lets readers in and blocks writers; a leaked transaction blocks everyone, though it has ended for the program. *)
Example C119_case :
  g_answers [] [GOpen false; GLeak 0; GGet 0 1; GEvent (ERead 1); GEvent (EWrite (GRemove 1))] =
    [GX (XHandle 0); GX XUnit; GX XInvalid; GX (XNode None); GX XHang] /\
  g_answers [] [GEvent EBackground; GEvent (EContext 0); GEvent (ESave 0 (gd_n 1 1)); GEvent (EDropCtx 0); GForget 0; GEvent (EEnd 0 true); GEvent (ERead 1)] =
    [GX (XHandle 0); GX (XHandle 0); GX XUnit; GX XUnit; GX XUnit; GX XInvalid; GX XHang] /\
  leaked (Id := nat) (Node := dnode) [] [GOpen false; GLeak 0] false.
Proof.
  split; [reflexivity|]. split; [reflexivity|]. left. exists 0, [GLeak 0], []. split; [now exists []|]. now exists [GOpen false].
Qed.

Print Assumptions C117_as_if_dropped_at_once.
Print Assumptions C117_iteration.
Print Assumptions C117_get.
Print Assumptions C118_waits_exactly.
Print Assumptions C118_never_after.
Print Assumptions C119_held_still.
Print Assumptions C119_leaked_for_ever.
