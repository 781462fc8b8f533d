(** C123-C125: panics among guards and transactions of any lifetime (plotline/src/schema/guard.rs, schema/transaction.rs). *)
From Coq Require Import List Bool Arith Lia.
From Verif Require Import Ord OrdFacts BTree BTreeFacts Graph GraphFacts SpecGraph Tx TxMachine SpecTx TxMachineFacts TxInv
  Guards SpecGuards GuardsFacts Unwind SpecUnwind UnwindFacts Demo.
Import ListNotations.

Section Unwind.
  Context {Id Node : Type} `{HO : OrdT Id} `{HI : Identify Node Id}.
  Notation graph := (graph Id Node).
  Notation uevent := (uevent Id Node).
  Notation gevent := (gevent Id Node).

  (** C123: a call that takes the graph logs "posioned graph" once if a write guard taken outside of a panic was dropped during one, and nothing otherwise. *)
  Theorem C123_reported_exactly :
    forall (g0 : graph) (es : list uevent) (e : gevent) w, g_reachable g0 ->
      wants g0 (calls es) e w -> u_says g0 es (UEvent e) <> GX XHang ->
      (spoilt g0 es /\ u_logs g0 es (UEvent e) = [LPoisoned]) \/ (~ spoilt g0 es /\ u_logs g0 es (UEvent e) = []).
  Proof. intros g0 es e w R. apply reports. now apply g_reachable_wf. Qed.

  (** No other call does. *)
  Theorem C123_by_no_other :
    forall (g0 : graph) (es : list uevent) (e : uevent), g_reachable g0 -> In LPoisoned (u_logs g0 es e) ->
      spoilt g0 es /\ exists e' w, e = UEvent e' /\ wants g0 (calls es) e' w /\ u_says g0 es e <> GX XHang.
  Proof. intros g0 es e R. apply reported. now apply g_reachable_wf. Qed.

  (** It stays so. *)
  Theorem C123_for_ever :
    forall (g0 : graph) (es es' : list uevent), spoilt g0 es -> spoilt g0 (es ++ es').
  Proof. intros g0 es es'. apply spoilt_app. Qed.

  (** C124: panics by themselves change no answer: calls answer as in any history with the same calls, wherever it panics. *)
  Theorem C124_panics_do_not_matter :
    forall (g0 : graph) (es1 es2 : list uevent), calls es1 = calls es2 ->
      (forall e, u_says g0 es1 (UEvent e) = u_says g0 es2 (UEvent e)) /\
      (forall e, u_says g0 es1 (UEvent e) = g_says g0 (calls es2) e).
  Proof. intros g0 es1 es2 E. split; intros e; rewrite !says_calls, E; reflexivity. Qed.

  (** C125: the end of a transaction that succeeded logs that it had no context, or that one of its contexts was leaked, exactly if so. *)
  Theorem C125_what_an_end_logs :
    forall (g0 : graph) (es : list uevent) t, g_reachable g0 -> u_says g0 es (UEvent (GEvent (EEnd t true))) = GX XUnit ->
      (background g0 (calls es) t /\ ~ had_context g0 (calls es) t /\ u_logs g0 es (UEvent (GEvent (EEnd t true))) = [LUninitialized]) \/
      (context_leaked g0 es t /\ u_logs g0 es (UEvent (GEvent (EEnd t true))) = [LInUse]) \/
      ((background g0 (calls es) t -> had_context g0 (calls es) t) /\ ~ context_leaked g0 es t /\ u_logs g0 es (UEvent (GEvent (EEnd t true))) = []).
  Proof. intros g0 es t R. apply end_logs. now apply g_reachable_wf. Qed.

  (** If it logs anything, everything that follows is as if the transaction had been dropped. *)
  Theorem C125_logged_is_dropped :
    forall (g0 : graph) (es es' : list uevent) t e, g_reachable g0 -> u_says g0 es (UEvent (GEvent (EEnd t true))) = GX XUnit ->
      u_logs g0 es (UEvent (GEvent (EEnd t true))) <> [] ->
      u_says g0 (es ++ UEvent (GEvent (EEnd t true)) :: es') e = u_says g0 (es ++ UEvent (GEvent (EEnd t false)) :: es') e /\
      u_logs g0 (es ++ UEvent (GEvent (EEnd t true)) :: es') e = u_logs g0 (es ++ UEvent (GEvent (EEnd t false)) :: es') e.
  Proof.
    intros g0 es es' t e R S L. destruct (end_like_drop g0 es t (g_reachable_wf g0 R) S L) as [E _].
    assert (A : forall b, u_after g0 (es ++ UEvent (GEvent (EEnd t b)) :: es') = fst (u_run (u_after g0 (es ++ [UEvent (GEvent (EEnd t b))])) es')).
    { intros b. change (es ++ UEvent (GEvent (EEnd t b)) :: es') with (es ++ [UEvent (GEvent (EEnd t b))] ++ es'). rewrite app_assoc. unfold u_after. now rewrite u_run_app. }
    unfold u_says, u_logs. now rewrite !A, E.
  Qed.

  (** If a top-level transaction ends without logging anything, the graph is what its contexts saw. *)
  Theorem C125_silent_is_published :
    forall (g0 : graph) (es : list uevent) t, g_reachable g0 -> background g0 (calls es) t -> u_says g0 es (UEvent (GEvent (EEnd t true))) = GX XUnit ->
      u_logs g0 es (UEvent (GEvent (EEnd t true))) = [] ->
      exists c, u_says g0 es (UEvent (GEvent (EContext t))) = GX (XHandle c) /\
        forall i, u_says g0 (es ++ [UEvent (GEvent (EEnd t true))]) (UEvent (GEvent (ERead i))) =
                  u_says g0 (es ++ [UEvent (GEvent (EContext t))]) (UEvent (GEvent (EGet c i))).
  Proof. intros g0 es t R. apply end_publishes. now apply g_reachable_wf. Qed.
End Unwind.

(** ** Concrete cases *)

Definition uw (e : event) : uevent nat dnode := UEvent (GEvent e).

(** A transaction is abandoned by a panic; a destructor reads the graph meanwhile, runs a transaction of its own and ends it: that is published, and since it began
    during the panic it does not poison anything more.  Every later access is reported. *)
Definition uw_events : list (uevent nat dnode) :=
  [uw EBackground; uw (EContext 0); uw (ESave 0 (DNode 1 10)); UPanic; uw (EDropCtx 0); uw (EEnd 0 false);
   uw (ERead 1); uw EBackground; uw (EContext 1); uw (ESave 1 (DNode 2 20)); uw (EDropCtx 1); uw (EEnd 1 true); UCatch; uw (ERead 2)].

Example C123_case :
  u_answers [] uw_events =
    [(GX (XHandle 0), []); (GX (XHandle 0), []); (GX XUnit, []); (GX XUnit, []); (GX XUnit, []); (GX XUnit, []);
     (GX (XNode None), [LPoisoned]); (GX (XHandle 1), []); (GX (XHandle 1), [LPoisoned]); (GX XUnit, []); (GX XUnit, []); (GX XUnit, []); (GX XUnit, []);
     (GX (XNode (Some (DNode 2 20))), [LPoisoned])] /\
  spoilt [] uw_events.
Proof.
  split; [reflexivity|]. exists [uw EBackground]. split; [|reflexivity].
  right. exists 0, 0, [uw (ESave 0 (DNode 1 10)); UPanic; uw (EDropCtx 0)],
    [uw EBackground; uw (EContext 0); uw (ESave 0 (DNode 1 10)); UPanic; uw (EDropCtx 0)],
    [uw (ERead 1); uw EBackground; uw (EContext 1); uw (ESave 1 (DNode 2 20)); uw (EDropCtx 1); uw (EEnd 1 true); UCatch; uw (ERead 2)].
  split; [exists [], []; split; reflexivity|]. split; [intros (c & e2 & e1 & E & _); destruct e1 as [|? [|? ?]]; discriminate|].
  split; [split; reflexivity|]. left. exists false. split; [split; reflexivity|discriminate].
Qed.

(** A commit in the middle of which user code panics spoils the graph by itself; not if the guard was taken during another panic. *)
Example C123_case_commit :
  u_answers [] [uw EBackground; uw (EContext 0); uw (ESave 0 (DNode 1 10)); uw (ESave 0 (DNode 2 20)); uw (EDropCtx 0); UEvent (GCrash 0 1); UCatch; uw (ERead 1); uw (ERead 2)] =
    [(GX (XHandle 0), []); (GX (XHandle 0), []); (GX XUnit, []); (GX XUnit, []); (GX XUnit, []); (GCrashed [(GInsert (DNode 1 10), None)], []); (GX XUnit, []);
     (GX (XNode (Some (DNode 1 10))), [LPoisoned]); (GX (XNode None), [LPoisoned])] /\
  map snd (u_answers [] [UPanic; uw EBackground; uw (EContext 0); uw (ESave 0 (DNode 1 10)); uw (EDropCtx 0); UEvent (GCrash 0 0); UCatch; uw (ERead 1)]) =
    [[]; []; []; []; []; []; []; []] /\
  depth [] [UPanic; uw EBackground; uw (EContext 0); uw (ESave 0 (DNode 1 10)); uw (EDropCtx 0); UEvent (GCrash 0 0)] = 2.
Proof. repeat split; reflexivity. Qed.

(** A write guard taken during a panic and dropped after it, or in it, spoils nothing; nor does a read guard; one taken before and leaked does not either. *)
Example C123_case_unspoilt :
  map snd (u_answers (Id := nat) (Node := dnode) []
    [UEvent (GOpen false); UPanic; UEvent (GDrop 0); UEvent (GOpen true); UCatch; UEvent (GDrop 1); UPanic; UEvent (GOpen true); UEvent (GDrop 2); UCatch; UEvent (GOpen false)]) =
    [[]; []; []; []; []; []; []; []; []; []; []] /\
  map snd (u_answers (Id := nat) (Node := dnode) [] [UEvent (GOpen true); UPanic; UEvent (GDrop 0); UCatch; UEvent (GOpen false); UEvent (GOpen false)]) =
    [[]; []; []; []; [LPoisoned]; [LPoisoned]].
Proof. split; reflexivity. Qed.

Example C124_case :
  calls uw_events = calls (filter (fun e => match e with UEvent _ => true | _ => false end) uw_events) /\
  u_says [] uw_events (uw (ERead 2)) = u_says [] (filter (fun e => match e with UEvent _ => true | _ => false end) uw_events) (uw (ERead 2)).
Proof. split; reflexivity. Qed.

(** A transaction without context, one whose context was leaked, and one without such a defect. *)
Example C125_case :
  u_answers [] [uw EBackground; uw (EEnd 0 true); uw EBackground; uw (EContext 1); uw (ESave 0 (DNode 1 10)); uw (ELeakCtx 0); uw (EEnd 1 true); uw (ERead 1);
                uw EBackground; uw (EContext 2); uw (ESave 1 (DNode 1 11)); uw (EDropCtx 1); uw (EEnd 2 true); uw (ERead 1)] =
    [(GX (XHandle 0), []); (GX XUnit, [LUninitialized]); (GX (XHandle 1), []); (GX (XHandle 0), []); (GX XUnit, []); (GX XUnit, []); (GX XUnit, [LInUse]); (GX (XNode None), []);
     (GX (XHandle 2), []); (GX (XHandle 1), []); (GX XUnit, []); (GX XUnit, []); (GX XUnit, []); (GX (XNode (Some (DNode 1 11))), [])].
Proof. reflexivity. Qed.

Print Assumptions C123_reported_exactly.
Print Assumptions C123_by_no_other.
Print Assumptions C123_for_ever.
Print Assumptions C124_panics_do_not_matter.
Print Assumptions C125_what_an_end_logs.
Print Assumptions C125_logged_is_dropped.
Print Assumptions C125_silent_is_published.
