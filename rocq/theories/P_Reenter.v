(** C142: user code that uses the schema in the middle of calls. *)
From Coq Require Import List Bool Arith Lia.
From Verif Require Import Ord OrdFacts BTree BTreeFacts Graph GraphFacts SpecGraph Tx TxMachine SpecTx TxMachineFacts TxInv
  Guards SpecGuards GuardsFacts SpecCrash Reenter SpecReenter ReenterFacts Demo.
Import ListNotations.

Section Reenter.
  Context {Id Node : Type} `{HO : OrdT Id} `{HI : Identify Node Id}.
  Notation graph := (graph Id Node).
  Notation gevent := (gevent Id Node).
  Notation revent := (revent Id Node).

  (** C142: whatever user code calls in the middle of calls, and wherever it panics, everything is answered as if each call happened at once when it
      finished. *)
  Theorem C142_as_if_at_once :
    forall (g0 : graph) (es : list revent), g_reachable g0 -> r_returns g0 es ->
      g_answers g0 (calls g0 es) = map snd (finished g0 es) /\
      (unfinished g0 es = [] -> rs_g (r_after g0 es) = g_after g0 (calls g0 es)).
  Proof.
    intros g0 es R T. destruct (rel_after g0 es (g_reachable_wf g0 R) T) as [A K]. split; [exact A|]. intros E.
    pose proof (rl_open _ _ _ K) as O. rewrite E in O. destruct (rl_state _ _ _ K) as [[-> _]|(f & g' & Ef & _)]; [reflexivity|].
    rewrite Ef in O. discriminate.
  Qed.

  (** While reads are unfinished, the graph is as the calls that finished left it. *)
  Theorem C142_reads_change_nothing :
    forall (g0 : graph) (es : list revent), g_reachable g0 -> r_returns g0 es -> (forall e, In e (unfinished g0 es) -> ~ changes_graph e) ->
      rs_g (r_after g0 es) = g_after g0 (calls g0 es).
  Proof.
    intros g0 es R T N. destruct (rel_after g0 es (g_reachable_wf g0 R) T) as [_ K].
    destruct (rl_state _ _ _ K) as [[-> _]|(f & g' & Ef & A & _)]; [reflexivity|].
    exfalso. apply (N (call_of f)); [|eapply alone_changes; eauto]. rewrite <- (rl_open _ _ _ K), Ef. now left.
  Qed.

  (** A commit or a call on the graph has everything to itself: it is the only unfinished call, and of the calls that user code makes meanwhile all are
      rejected or wait for ever but new transactions and the ends of transactions that never had a context. *)
  Theorem C142_changes_alone :
    forall (g0 : graph) (es : list revent) e0 e, g_reachable g0 -> r_returns g0 es -> In e0 (unfinished g0 es) -> changes_graph e0 ->
      unfinished g0 es = [e0] /\
      match r_says g0 es (RCall e) with
      | RAnswer (GX XInvalid) | RAnswer (GX XHang) => True
      | RAnswer (GX (XHandle _)) => e = GEvent EBackground
      | RAnswer (GX XUnit) => exists t b, e = GEvent (EEnd t b) /\ background g0 (calls g0 es) t /\ ~ had_context g0 (calls g0 es) t
      | _ => False
      end.
  Proof.
    intros g0 es e0 e R T Ie Ce. pose proof (g_reachable_wf g0 R) as W. destruct (rel_after g0 es W T) as [_ K].
    destruct (rel_alone _ _ _ e0 K Ie Ce) as [E (f & g' & Ef & A & Es)]. split; [exact E|]. unfold r_says. rewrite (call_answer _ _ _ e K).
    pose proof (rl_inv _ _ _ K) as I. pose proof (rl_run _ _ _ K) as Hh. rewrite Ef, Es. destruct (rejected [f] e) eqn:Rj; [exact Logic.I|].
    destruct (private_call _ g' f e I Hh (alone_private _ g' f I A) Rj) as (B & o & a' & G1 & G2 & PA). rewrite B, (alone_waits _ g' f _ e A), G1. cbn [snd].
    destruct PA as [| |Ee|t b Ee N]; try exact Logic.I; [exact Ee|]. exists t, b. split; [exact Ee|].
    destruct (txhist_after g0 (calls g0 es) W) as [Hb He Hc Ho]. split; [apply Hb; eauto|]. intros Q. apply (Ho t false N) in Q. discriminate.
  Qed.

  (** A call waits for ever exactly if it asks for the graph while someone excludes that (as in C118), or if it puts operations into a transaction that an
      unfinished read has come to. *)
  Theorem C142_waits_exactly :
    forall (g0 : graph) (es : list revent) e, g_reachable g0 -> r_returns g0 es ->
      (r_says g0 es (RCall e) = RAnswer (GX XHang) <->
       (exists w, wants g0 (calls g0 es) e w /\ excluded g0 (calls g0 es) w) \/
       exists t, has_come_to g0 es t /\ stores g0 (calls g0 es) e t).
  Proof.
    intros g0 es e R T. pose proof (g_reachable_wf g0 R) as W. rewrite (hangs_exactly g0 es e W T). split; (intros [K|K]; [now left|right]).
    - destruct K as (f & t & If & It & S). exists t. split; [|exact S]. apply locked_come_to; eauto.
    - destruct K as (t & C & S). apply locked_come_to in C as (f & If & It); eauto.
  Qed.

  (** So only while user code is in the middle of a read of a context of that transaction or of one nested in it. *)
  Theorem C142_waits_only :
    forall (g0 : graph) (es : list revent) e, g_reachable g0 -> r_returns g0 es -> r_says g0 es (RCall e) = RAnswer (GX XHang) ->
      (exists w, wants g0 (calls g0 es) e w /\ excluded g0 (calls g0 es) w) \/
      (exists e0 c t, In e0 (unfinished g0 es) /\ reads_context c e0 /\ stores g0 (calls g0 es) e t /\
         within (m_proto (gs_m (g_after g0 (calls g0 es)))) c t).
  Proof.
    intros g0 es e R T S. pose proof (g_reachable_wf g0 R) as W. destruct (rel_after g0 es W T) as [_ K].
    apply (hangs_exactly g0 es e W T) in S as [S|(f & t & If & It & S)]; [now left|right].
    destruct (read_locked _ _ _ f t K If It) as (c & Rc & Io & Wc). eauto 8.
  Qed.

  (** It does if it asks for the graph so, or puts operations into the very transaction of the context that is being read. *)
  Theorem C142_waits_if :
    forall (g0 : graph) (es : list revent) e, g_reachable g0 -> r_returns g0 es ->
      (exists w, wants g0 (calls g0 es) e w /\ excluded g0 (calls g0 es) w) \/
      (exists e0 c t, In e0 (unfinished g0 es) /\ reads_context c e0 /\ stores g0 (calls g0 es) e t /\
         made_from (m_proto (gs_m (g_after g0 (calls g0 es)))) c t) ->
      r_says g0 es (RCall e) = RAnswer (GX XHang).
  Proof.
    intros g0 es e R T S. pose proof (g_reachable_wf g0 R) as W. destruct (rel_after g0 es W T) as [_ K]. apply (hangs_exactly g0 es e W T).
    destruct S as [S|(e0 & c & t & Ie & Rc & S & Mc)]; [now left|right]. destruct (own_locked _ _ _ e0 c t K Ie Rc Mc) as (f & If & It). eauto.
  Qed.

  (** What is rejected: what rustc rejects because an unfinished call borrows it, and what is rejected anyway.  (A crash is not a call.) *)
  Theorem C142_rejected :
    forall (g0 : graph) (es : list revent) e, g_reachable g0 -> r_returns g0 es ->
      (r_says g0 es (RCall e) = RAnswer (GX XInvalid) <->
       (exists t k, e = GCrash t k) \/ (exists e0, In e0 (unfinished g0 es) /\ conflicts e0 e) \/ g_says g0 (calls g0 es) e = GX XInvalid).
  Proof. intros g0 es e R. apply invalid_exactly. now apply g_reachable_wf. Qed.

  (** The innermost unfinished call finishes, if user code lets it. *)
  Theorem C142_goes_on :
    forall (g0 : graph) (es : list revent) e0 open, g_reachable g0 -> r_returns g0 es -> unfinished g0 es = e0 :: open ->
      exists k o, o <> GX XHang /\ o <> GX XInvalid /\
        r_answers g0 (es ++ repeat RStep (S k)) = r_answers g0 es ++ repeat RRunning k ++ [RAnswer o] /\
        unfinished g0 (es ++ repeat RStep (S k)) = open.
  Proof.
    intros g0 es e0 open R T U. pose proof (g_reachable_wf g0 R) as W. destruct (rel_after g0 es W T) as [_ K].
    assert (Hg : gs_hung (rs_g (r_after g0 es)) = false).
    { destruct (rl_state _ _ _ K) as [[-> _]|(f & g' & _ & _ & ->)]; exact (rl_run _ _ _ K). }
    pose proof (rl_open _ _ _ K) as O. rewrite U in O. destruct (rs_frames (r_after g0 es)) as [|f fs] eqn:Ef; [discriminate|]. injection O as _ O.
    destruct (goes_on _ _ f fs Hg Ef (le_n _)) as (k & o & N1 & N2 & A & B). exists k, o. split; [exact N1|]. split; [exact N2|].
    assert (An : r_answers g0 (es ++ repeat RStep (S k)) = r_answers g0 es ++ repeat RRunning k ++ [RAnswer o]) by now rewrite r_answers_app, A.
    split; [exact An|]. assert (T' : r_returns g0 (es ++ repeat RStep (S k))).
    { unfold r_returns. rewrite An, in_app_iff. intros [Q|Q]; [now apply T|]. apply in_app_iff in Q as [Q|[Q|[]]]; [|congruence].
      apply repeat_spec in Q. discriminate. }
    destruct (rel_after g0 _ W T') as [_ K']. rewrite <- (rl_open _ _ _ K'), r_after_app, B. exact O.
  Qed.

  (** A panic in the middle of a read: as if the read had not been. *)
  Theorem C142_read_panics :
    forall (g0 : graph) (es : list revent) e0 open, g_reachable g0 -> r_returns g0 es -> unfinished g0 es = e0 :: open -> ~ changes_graph e0 ->
      r_says g0 es RPanic = RPanicked None /\ unfinished g0 (es ++ [RPanic]) = open /\ finished g0 (es ++ [RPanic]) = finished g0 es.
  Proof.
    intros g0 es e0 open R T U N. destruct (rel_after g0 es (g_reachable_wf g0 R) T) as [_ K]. rewrite U in K.
    pose proof (read_panics _ _ _ _ K N : r_says g0 es RPanic = _) as P. split; [exact P|]. rewrite unfinished_snoc, finished_snoc, U, P. cbn.
    now rewrite app_nil_r.
  Qed.

  (** A panic in the middle of a commit: a commit that crashed, when it has been unwound. *)
  Theorem C142_commit_panics :
    forall (g0 : graph) (es : list revent) t, g_reachable g0 -> r_returns g0 es -> unfinished g0 es = [GEvent (EEnd t true)] ->
      r_says g0 es RPanic = RRunning ->
      exists l, r_says g0 (es ++ [RPanic]) RStep = RAnswer (GCrashed l) /\
        g_says g0 (calls g0 es) (GCrash t (length l)) = GCrashed l /\
        calls g0 (es ++ [RPanic; RStep]) = calls g0 es ++ [GCrash t (length l)] /\ unfinished g0 (es ++ [RPanic; RStep]) = [] /\
        rs_g (r_after g0 (es ++ [RPanic; RStep])) = g_after g0 (calls g0 es ++ [GCrash t (length l)]).
  Proof.
    intros g0 es t R T U P. pose proof (g_reachable_wf g0 R) as W. destruct (rel_after g0 es W T) as [An K]. rewrite U in K.
    destruct (commit_panics _ _ t K P) as [l S]. exists l.
    assert (S' : r_says g0 (es ++ [RPanic]) RStep = RAnswer (GCrashed l)).
    { unfold r_says. rewrite r_after_app. cbn. destruct (r_step (r_after g0 es) RPanic). exact S. }
    assert (U1 : unfinished g0 (es ++ [RPanic]) = [GEvent (EEnd t true)]) by (rewrite unfinished_snoc, U, P; reflexivity).
    assert (F1 : finished g0 (es ++ [RPanic]) = finished g0 es) by (rewrite finished_snoc, U, P; cbn; apply app_nil_r).
    replace (es ++ [RPanic; RStep]) with ((es ++ [RPanic]) ++ [RStep]) by now rewrite <- app_assoc.
    assert (F2 : finished g0 ((es ++ [RPanic]) ++ [RStep]) = finished g0 es ++ [(GCrash t (length l), GCrashed l)]) by now rewrite finished_snoc, F1, U1, S'.
    assert (C2 : calls g0 ((es ++ [RPanic]) ++ [RStep]) = calls g0 es ++ [GCrash t (length l)]) by (unfold calls; rewrite F2; apply map_app).
    assert (U2 : unfinished g0 ((es ++ [RPanic]) ++ [RStep]) = []) by now rewrite unfinished_snoc, U1, S'.
    assert (T2 : r_returns g0 ((es ++ [RPanic]) ++ [RStep])).
    { unfold r_returns. rewrite !r_answers_snoc, S', P, !in_app_iff. intros [[Q|[Q|[]]]|[Q|[]]]; [now apply T|discriminate|discriminate]. }
    destruct (C142_as_if_at_once g0 _ R T2) as [A2 G2]. specialize (G2 U2). split; [exact S'|]. split; [|rewrite C2 in G2; auto].
    rewrite C2, g_answers_snoc, An, F2, map_app in A2. apply app_inv_head in A2. now injection A2.
  Qed.
End Reenter.

(** ** Concrete cases *)

Definition rn (i v : nat) : dnode := DNode i v.

(** A transaction in which 1 was saved, a sub-transaction in which 2 was deleted, a read of 1 there; after its first comparison user code saves 1 again,
    through the outer context: the read finds that.  Once the read has come to the outer transaction the same save waits for ever, as does one into the
    sub-transaction from the start. *)
Definition rn_begin : list (revent nat dnode) :=
  [RCall (GEvent EBackground); RCall (GEvent (EContext 0)); RCall (GEvent (ESave 0 (rn 1 10))); RCall (GEvent (EForeground 0)); RCall (GEvent (EContext 1));
   RCall (GEvent (EDelete 1 2)); RCall (GEvent (EGet 1 1))].
Definition rn_save : list (revent nat dnode) := rn_begin ++ [RStep; RCall (GEvent (ESave 0 (rn 1 11))); RStep; RStep; RStep].

Example C142_case :
  (r_answers [] rn_save = map (fun o => RAnswer (GX o)) [XHandle 0; XHandle 0; XUnit; XHandle 1; XHandle 1; XUnit] ++
     [RRunning; RRunning; RAnswer (GX XUnit); RRunning; RRunning; RAnswer (GX (XNode (Some (rn 1 11))))] /\ unfinished [] rn_save = []) /\
  (unfinished [] rn_begin = [GEvent (EGet 1 1)] /\
   r_says [] rn_begin (RCall (GEvent (ESave 1 (rn 5 50)))) = RAnswer (GX XHang) /\
   r_says [] rn_begin (RCall (GEvent (ESave 0 (rn 5 50)))) = RAnswer (GX XUnit) /\
   r_says [] (rn_begin ++ [RStep; RStep]) (RCall (GEvent (ESave 0 (rn 5 50)))) = RAnswer (GX XHang) /\
   r_says [] rn_begin (RCall (GEvent (ERead 1))) = RAnswer (GX XHang) /\
   r_says [] rn_begin (RCall (GEvent (EGet 0 1))) = RRunning /\
   r_says [] rn_begin (RCall (GEvent (EDropCtx 1))) = RAnswer (GX XInvalid)).
Proof. repeat split; reflexivity. Qed.

(** A commit of two nodes; user code begins a transaction in the middle; then it panics, and what was not inserted yet is not. *)
Definition rn_commit : list (revent nat dnode) :=
  [RCall (GEvent EBackground); RCall (GEvent (EContext 0)); RCall (GEvent (ESave 0 (rn 1 10))); RCall (GEvent (ESave 0 (rn 2 20)));
   RCall (GEvent (EDropCtx 0)); RCall (GEvent (EEnd 0 true)); RStep; RCall (GEvent EBackground)].

Example C142_case_commit :
  (unfinished [] rn_commit = [GEvent (EEnd 0 true)] /\ r_says [] rn_commit (RCall (GEvent (EContext 1))) = RAnswer (GX XHang) /\
   r_says [] rn_commit (RCall (GOpen false)) = RAnswer (GX XHang) /\ r_says [] rn_commit (RCall (GEvent (EEnd 1 true))) = RAnswer (GX XUnit) /\
   r_says [] rn_commit (RCall (GEvent (EEnd 0 true))) = RAnswer (GX XInvalid)) /\
  (r_says [] (rn_commit ++ [RPanic]) RStep = RAnswer (GCrashed [(GInsert (rn 1 10), None)]) /\
   r_says [] (rn_commit ++ [RPanic; RStep]) (RCall (GEvent (ERead 1))) = RAnswer (GX (XNode (Some (rn 1 10)))) /\
   r_says [] (rn_commit ++ [RPanic; RStep]) (RCall (GEvent (ERead 2))) = RAnswer (GX (XNode None))) /\
  (r_says [] (rn_commit ++ [RStep; RStep]) (RCall (GEvent (ERead 2))) = RAnswer (GX (XNode (Some (rn 2 20)))) /\
   calls [] (rn_commit ++ [RStep; RStep]) =
     [GEvent EBackground; GEvent (EContext 0); GEvent (ESave 0 (rn 1 10)); GEvent (ESave 0 (rn 2 20)); GEvent (EDropCtx 0); GEvent EBackground;
      GEvent (EEnd 0 true)]).
Proof. repeat split; reflexivity. Qed.

Print Assumptions C142_as_if_at_once.
Print Assumptions C142_reads_change_nothing.
Print Assumptions C142_changes_alone.
Print Assumptions C142_waits_exactly.
Print Assumptions C142_waits_only.
Print Assumptions C142_waits_if.
Print Assumptions C142_rejected.
Print Assumptions C142_goes_on.
Print Assumptions C142_read_panics.
Print Assumptions C142_commit_panics.
