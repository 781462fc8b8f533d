(** Facts about user code that uses the schema in the middle of calls. *)
From Coq Require Import List Bool Arith Lia.
From Verif Require Import Ord OrdFacts BTree BTreeFacts Graph GraphFacts SpecGraph Tx TxMachine SpecTx TxFacts TxMachineFacts TxInv
  Guards SpecGuards GuardsFacts SpecCrash CrashFacts Reenter SpecReenter.
Import ListNotations.

Section Facts.
  Context {Id Node : Type} `{HO : OrdT Id} `{HI : Identify Node Id}.
  Notation graph := (graph Id Node).
  Notation event := (@event Id Node).
  Notation machine := (@machine Id Node).
  Notation gstate := (gstate Id Node).
  Notation gevent := (gevent Id Node).
  Notation gout := (gout Id Node).
  Notation frame := (frame Id Node).
  Notation rstate := (rstate Id Node).
  Notation op := (op Id Node).

  Definition nodes_of (st : gstate) : graph := s_graph (m_store (gs_m st)).
  Definition heap_of (st : gstate) : heap Id Node := s_heap (m_store (gs_m st)).

  Lemma with_graph_same (st : gstate) : with_graph (nodes_of st) st = st.
  Proof. now destruct st as [[p [g h c]] gs l hg]. Qed.

  Lemma with_graph_twice g1 g2 (st : gstate) : with_graph g1 (with_graph g2 st) = with_graph g1 st.
  Proof. reflexivity. Qed.

  (** ** A call that changes the graph is alone *)

  (** The frame of a call that changes the graph, in a state where no more has happened than the calls that finished; [g'] is the graph
      as the call has changed it so far. *)
  Definition alone_ok (a : gstate) (g' : graph) (f : frame) : Prop :=
    match f with
    | FCall g c None => usable g a = Some true /\ g' = nodes_of a
    | FCall g c (Some r) => usable g a = Some true /\ Graph.g_step (nodes_of a) c = (g', r)
    | FCommit t l rest => publishes a t = true /\ exists done, buf_ops (heap_of a) t = done ++ rest /\ apply_told (nodes_of a) done = (g', l)
    | FCrash t l => publishes a t = true /\ exists done rest, buf_ops (heap_of a) t = done ++ rest /\ buf_ops (heap_of a) t <> [] /\
        apply_told (nodes_of a) done = (g', l)
    | _ => False
    end.

  Lemma publishes_spec (a : gstate) t : publishes a t = true <->
    nth_error (p_txs (m_proto (gs_m a))) t = Some (TxRec None true true) /\ lost t a = false /\
    has_ctx (m_proto (gs_m a)) t Live = false /\ has_ctx (m_proto (gs_m a)) t Leaked = false.
  Proof.
    unfold publishes. destruct (nth_error _ t) as [[[q|] [] []]|]; try (split; [discriminate|intros (E & _); discriminate]).
    rewrite negb_true_iff, !orb_false_iff. tauto.
  Qed.

  Record private (a : gstate) (f : frame) : Prop := Private {
    pv_ctx : forall c, ctx_live (m_proto (gs_m a)) c = false;
    pv_lock : forall w, locked w a = true;
    pv_guard : forall g, usable g a <> None -> forall e, match e with GDrop g' | GLeak g' | GCall g' _ | GGet g' _ | GIter g' => g' = g | _ => False end ->
      borrows f e = true;
    pv_tx : forall t, nth_error (p_txs (m_proto (gs_m a))) t = Some (TxRec None true true) ->
      forall e, match e with GEvent (EContext t') | GEvent (EEnd t' _) | GForget t' => t' = t | _ => False end -> borrows f e = true
  }.

  Lemma publish_private (a : gstate) t f : ginv a -> publishes a t = true ->
    (exists l rest, f = FCommit t l rest) \/ (exists l, f = FCrash t l) -> private a f.
  Proof.
    intros I P F. apply publishes_spec in P as (N & L & HL & HK). pose proof (gi_m a I) as M.
    assert (G : guard_held (m_proto (gs_m a)) = true) by (apply guard_held_true; eauto).
    constructor.
    - intros c. destruct (ctx_live _ c) eqn:E; [|reflexivity]. exfalso. apply ctx_live_spec in E.
      destruct (alive_root (gs_m a) c M E) as (r & d & _ & _ & _ & Nr & Nd).
      assert (r = t) as -> by (eapply (pi_one _ (mi_p _ M)); eauto; reflexivity).
      assert (has_ctx (m_proto (gs_m a)) t Live = true) by (apply has_ctx_spec; eauto). congruence.
    - intros w. unfold locked. now rewrite G.
    - intros g U. exfalso. destruct (usable g a) as [w|] eqn:E; [|congruence]. apply usable_free in E; [congruence|exact I].
    - intros t' N'. assert (t' = t) as -> by (eapply (pi_one _ (mi_p _ M)); eauto; reflexivity).
      intros e. destruct F as [(l & rest & ->)|(l & ->)]; destruct e as [[]| | | | | | | |]; try contradiction; intros ->; apply Nat.eqb_refl.
  Qed.

  Lemma call_private (a : gstate) g c r : ginv a -> usable g a = Some true -> private a (FCall g c r).
  Proof.
    intros I U. pose proof (gi_m a I) as M. pose proof (usable_free g a true I U) as G. constructor.
    - intros c'. destruct (ctx_live _ c') eqn:E; [|reflexivity]. exfalso. apply ctx_live_spec in E.
      rewrite (alive_guard (gs_m a) c' M E) in G. discriminate.
    - intros w. unfold locked. rewrite (usable_held g a true U). now rewrite orb_true_r.
    - intros g' U' e E. assert (g' = g) as ->.
      { destruct (usable g' a) as [[]|] eqn:E'; [| |congruence].
        - apply usable_spec in U, E'. eapply (gi_one a I); eauto; discriminate.
        - apply usable_held in U, E'. rewrite (gi_wr a I U) in E'. discriminate. }
      destruct e; try contradiction; subst; apply Nat.eqb_refl.
    - intros t N. exfalso. assert (guard_held (m_proto (gs_m a)) = true) by (apply guard_held_true; eauto). congruence.
  Qed.

  Lemma alone_private (a : gstate) g' f : ginv a -> alone_ok a g' f -> private a f.
  Proof.
    intros I A. destruct f as [| | | |g c [r|]|t l rest|t l]; try contradiction; destruct A as [A B].
    - now apply call_private.
    - now apply call_private.
    - eapply publish_private; eauto.
    - eapply publish_private; eauto.
  Qed.

  (** What can be answered then, and the state afterwards. *)
  Inductive private_answer (a : gstate) (e : gevent) : gout -> gstate -> Prop :=
  | pa_hang : private_answer a e (GX XHang) (fst (g_hang a))
  | pa_invalid : private_answer a e (GX XInvalid) a
  | pa_new : e = GEvent EBackground -> private_answer a e (GX (XHandle (length (heap_of a))))
      (GState (Machine (Proto (p_txs (m_proto (gs_m a)) ++ [TxRec None false true]) (p_ctxs (m_proto (gs_m a))) false)
        (Store (nodes_of a) (heap_of a ++ [[]]) (s_ctxs (m_store (gs_m a))))) (gs_guards a) (gs_lost a) (gs_hung a))
  | pa_end t b : e = GEvent (EEnd t b) -> nth_error (p_txs (m_proto (gs_m a))) t = Some (TxRec None false true) -> private_answer a e (GX XUnit) (closed t a).

  Lemma sub_closed (a : gstate) f t q g : ginv a -> private a f -> nth_error (p_txs (m_proto (gs_m a))) t = Some (TxRec (Some q) g true) -> False.
  Proof.
    intros I P N. destruct (pi_tx _ (mi_p _ (gi_m a I)) _ _ _ N eq_refl) as ([u s] & Nr & _ & L). cbn in L. rewrite (L eq_refl) in Nr.
    pose proof (pv_ctx a f P q) as K. assert (ctx_live (m_proto (gs_m a)) q = true) by (apply ctx_live_spec; eauto). congruence.
  Qed.

  Lemma private_call (a : gstate) g' f (e : gevent) : ginv a -> gs_hung a = false -> private a f -> rejected [f] e = false ->
    begins (with_graph g' a) e = None /\
    exists o a', g_step a e = (a', o) /\ g_step (with_graph g' a) e = (with_graph g' a', o) /\ private_answer a e o a'.
  Proof.
    intros I Hh P R. pose proof (gi_hung a I) as Hp. pose proof (sub_closed a f) as Sc.
    assert (B : match e with GCrash _ _ => True | _ => borrows f e = false end) by (destruct e; cbn in R; auto; now rewrite orb_false_r in R).
    destruct P as [Pc Pl Pg Pt].
    assert (Pl' : forall w, locked w (with_graph g' a) = true) by exact Pl.
    destruct a as [[p [g h cs]] gs ls hg]. cbn in Hh, Hp, Pc, Pt |- *. subst hg.
    assert (Sc' : forall t q gd, nth_error (p_txs p) t = Some (TxRec (Some q) gd true) -> False).
    { intros t q gd N. eapply Sc; eauto. now constructor. }
    assert (Lt : forall w, locked w (GState (Machine p (Store g h cs)) gs ls false) = true) by exact Pl.
    assert (Lt' : forall w, locked w (GState (Machine p (Store g' h cs)) gs ls false) = true) by exact Pl'.
    assert (Lo : forall t g1, lost t (GState (Machine p (Store g1 h cs)) gs ls false) = existsb (Nat.eqb t) ls) by reflexivity.
    assert (Us : forall x g1, usable x (GState (Machine p (Store g1 h cs)) gs ls false) = match nth_error gs x with Some (SGuard w Live) => Some w | _ => None end)
      by reflexivity.
    clear Pl Pl' Sc.
    assert (Inv : forall e o a', g_step (GState (Machine p (Store g h cs)) gs ls false) e = (a', o) ->
       g_step (GState (Machine p (Store g' h cs)) gs ls false) e = (with_graph g' a', o) ->
       private_answer (GState (Machine p (Store g h cs)) gs ls false) e o a' ->
       exists o a', g_step (GState (Machine p (Store g h cs)) gs ls false) e = (a', o) /\
       g_step (GState (Machine p (Store g' h cs)) gs ls false) e = (with_graph g' a', o) /\
       private_answer (GState (Machine p (Store g h cs)) gs ls false) e o a') by eauto.
    change (with_graph g' (GState (Machine p (Store g h cs)) gs ls false)) with (GState (Machine p (Store g' h cs)) gs ls false).
    Ltac inval K := eapply K; [| |apply pa_invalid]; unfold g_step; cbn [gs_hung of_lost asks gs_m m_proto m_store with_graph].
    Ltac hangs K := eapply K; [| |apply pa_hang]; unfold g_step; cbn [gs_hung of_lost asks gs_m m_proto m_store with_graph].
    destruct e as [e|t|t k|w|x i|x|x c|x|x]; [destruct e| | | | | | | |]; cbn in R; try discriminate.
    - split; [reflexivity|]. eapply Inv; [| |now apply pa_new]; unfold g_step, g_pass, m_step, p_step; cbn; now rewrite Hp.
    - split; [reflexivity|]. inval Inv; unfold g_pass, m_step, p_step; cbn; now rewrite Hp, Pc.
    - split; [reflexivity|]. destruct (existsb (Nat.eqb t) ls) eqn:L.
      { inval Inv; now rewrite Lo, L. }
      destruct (nth_error (p_txs p) t) as [[[q|] gd []]|] eqn:N.
      + exfalso. eauto.
      + try destruct gd; inval Inv; rewrite Lo, L, N; unfold g_pass, m_step, p_step; cbn; now rewrite Hp, N.
      + destruct gd; [exfalso; rewrite (Pt t N) in B; [discriminate|reflexivity]|]. hangs Inv; rewrite Lo, L, N, ?Lt, ?Lt'; reflexivity.
      + try destruct gd; inval Inv; rewrite Lo, L, N; unfold g_pass, m_step, p_step; cbn; now rewrite Hp, N.
      + try destruct gd; inval Inv; rewrite Lo, L, N; unfold g_pass, m_step, p_step; cbn; now rewrite Hp, N.
    - split; [reflexivity|]. inval Inv; unfold g_pass, m_step, p_step; cbn; now rewrite Hp, Pc.
    - split; [reflexivity|]. inval Inv; unfold g_pass, m_step, p_step; cbn; now rewrite Hp, Pc.
    - split; [cbn; now rewrite Pc|]. inval Inv; unfold g_pass, m_step, p_step; cbn; now rewrite Hp, Pc.
    - split; [cbn; now rewrite Pc|]. inval Inv; unfold g_pass, m_step, p_step; cbn; now rewrite Hp, Pc.
    - split; [reflexivity|]. inval Inv; unfold g_pass, m_step, p_step; cbn; now rewrite Hp, Pc.
    - split; [reflexivity|]. inval Inv; unfold g_pass, m_step, p_step; cbn; now rewrite Hp, Pc.
    - destruct (nth_error (p_txs p) t) as [[[q|] gd []]|] eqn:N.
      + exfalso. eauto.
      + split; [destruct commit; [|reflexivity]; unfold begins, publishes; cbn; rewrite N; try destruct gd; reflexivity|]. destruct (existsb (Nat.eqb t) ls) eqn:L.
        { inval Inv; now rewrite Lo, L. }
        inval Inv; rewrite Lo, L; unfold g_pass, m_step, p_step; cbn; rewrite Hp, N; try destruct gd; reflexivity.
      + destruct gd; [exfalso; rewrite (Pt t N) in B; [discriminate|reflexivity]|].
        split; [destruct commit; [|reflexivity]; unfold begins, publishes; cbn; rewrite N; try destruct gd; reflexivity|]. destruct (existsb (Nat.eqb t) ls) eqn:L.
        { inval Inv; now rewrite Lo, L. }
        destruct (has_ctx p t Live) eqn:HL.
        { inval Inv; rewrite Lo, L; unfold g_pass, m_step, p_step; cbn; now rewrite Hp, N, HL. }
        eapply Inv; [| |now apply (pa_end _ _ t commit)]; unfold g_step; cbn [gs_hung of_lost asks gs_m m_proto m_store with_graph]; rewrite Lo, L;
          unfold g_pass, m_step, p_step; cbn; rewrite Hp, N, HL; destruct commit; cbn; try reflexivity; now destruct (has_ctx p t Leaked).
      + split; [destruct commit; [|reflexivity]; unfold begins, publishes; cbn; rewrite N; try destruct gd; reflexivity|]. destruct (existsb (Nat.eqb t) ls) eqn:L.
        { inval Inv; now rewrite Lo, L. }
        inval Inv; rewrite Lo, L; unfold g_pass, m_step, p_step; cbn; rewrite Hp, N; try destruct gd; reflexivity.
      + split; [destruct commit; [|reflexivity]; unfold begins, publishes; cbn; rewrite N; try destruct gd; reflexivity|]. destruct (existsb (Nat.eqb t) ls) eqn:L.
        { inval Inv; now rewrite Lo, L. }
        inval Inv; rewrite Lo, L; unfold g_pass, m_step, p_step; cbn; rewrite Hp, N; try destruct gd; reflexivity.
    - split; [reflexivity|]. hangs Inv; rewrite ?Lt, ?Lt'; reflexivity.
    - split; [reflexivity|]. hangs Inv; rewrite ?Lt, ?Lt'; reflexivity.
    - split; [reflexivity|]. destruct (existsb (Nat.eqb t) ls) eqn:L.
      { inval Inv; now rewrite Lo, L. }
      destruct (nth_error (p_txs p) t) as [[[q|] [] []]|] eqn:N; try (inval Inv; now rewrite Lo, L, N).
      exfalso. rewrite (Pt t N) in B; [discriminate|reflexivity].
    - split; [reflexivity|]. hangs Inv; rewrite ?Lt, ?Lt'; reflexivity.
    - destruct (usable x (GState (Machine p (Store g h cs)) gs ls false)) as [w|] eqn:U;
        [exfalso; rewrite (Pg x) in B; [discriminate|congruence|reflexivity]|]. rewrite Us in U.
      split; [unfold begins; now rewrite Us, U|]. inval Inv; now rewrite Us, U.
    - destruct (usable x (GState (Machine p (Store g h cs)) gs ls false)) as [w|] eqn:U;
        [exfalso; rewrite (Pg x) in B; [discriminate|congruence|reflexivity]|]. rewrite Us in U.
      split; [reflexivity|]. inval Inv; now rewrite Us, U.
    - destruct (usable x (GState (Machine p (Store g h cs)) gs ls false)) as [w|] eqn:U;
        [exfalso; rewrite (Pg x) in B; [discriminate|congruence|reflexivity]|]. rewrite Us in U.
      split; [unfold begins; now rewrite Us, U|]. inval Inv; now rewrite Us, U.
    - destruct (usable x (GState (Machine p (Store g h cs)) gs ls false)) as [w|] eqn:U;
        [exfalso; rewrite (Pg x) in B; [discriminate|congruence|reflexivity]|]. rewrite Us in U.
      split; [reflexivity|]. inval Inv; now rewrite Us, U.
    - destruct (usable x (GState (Machine p (Store g h cs)) gs ls false)) as [w|] eqn:U;
        [exfalso; rewrite (Pg x) in B; [discriminate|congruence|reflexivity]|]. rewrite Us in U.
      split; [reflexivity|]. inval Inv; now rewrite Us, U.
  Qed.

  Lemma publishes_answer (a : gstate) e o a' t : ginv a -> private_answer a e o a' -> o <> GX XHang -> publishes a t = true ->
    publishes a' t = true /\ buf_ops (heap_of a') t = buf_ops (heap_of a) t.
  Proof.
    intros I PA NH P. pose proof P as Q. apply publishes_spec in Q as (N & L & HL & HK).
    assert (Lt : t < length (heap_of a)).
    { unfold heap_of. rewrite (mi_heap _ (gi_m a I)). apply nth_error_Some. congruence. }
    destruct PA; [congruence|now split| |].
    - split; [|unfold buf_ops, heap_of; cbn; now rewrite nth_snoc_old]. apply publishes_spec. cbn. repeat split; auto. apply nth_error_snoc. auto.
    - split; [|reflexivity]. apply publishes_spec. cbn. repeat split; auto. rewrite nth_error_alter.
      destruct (Nat.eqb_spec t0 t) as [->|]; [congruence|exact N].
  Qed.

  Lemma alone_answer (a : gstate) g' f e o a' : ginv a -> private_answer a e o a' -> o <> GX XHang -> alone_ok a g' f -> alone_ok a' g' f.
  Proof.
    intros I PA NH A.
    assert (G : nodes_of a' = nodes_of a) by now destruct PA.
    assert (U : forall x, usable x a' = usable x a) by now destruct PA.
    pose proof (fun t => publishes_answer a e o a' t I PA NH) as Pb.
    destruct f as [| | | |g c [r|]|t l rest|t l]; try contradiction; cbn in A |- *; rewrite ?U, ?G; auto.
    - destruct A as [P A]. destruct (Pb t P) as [P' ->]. auto.
    - destruct A as [P A]. destruct (Pb t P) as [P' ->]. auto.
  Qed.

  (** ** Reads *)

  (** What a lookup finds that has come to [rest] in the operations of [c]. *)
  Definition look_left (h : heap Id Node) (g : graph) (c : ctx) (rest : list op) (i : Id) : option Node :=
    match find (fun o => eqb (op_id o) i) rest with
    | Some (OSave n) => Some n
    | Some (ODelete _) => None
    | None => match c with CRoot _ _ => g_get g i | CSub q _ _ => ctx_get h g q i end
    end.

  Lemma look_start (h : heap Id Node) g c i : ctx_get h g c i = look_left h g c (rev (buf_ops h (ctx_buf c))) i.
  Proof. destruct c; reflexivity. Qed.

  Definition agree (held : list nat) (h h' : heap Id Node) : Prop := forall b, In b held -> buf_ops h' b = buf_ops h b.

  (** A read that is unfinished will find what its context shows, as long as the buffers it has locked do not change. *)
  Definition finds (a : gstate) (f : frame) : Prop :=
    let p := m_proto (gs_m a) in
    let v c := ctx_value (m_store (gs_m a)) c in
    match f with
    | FLook get c i held at_ rest => ctx_live p c = true /\
        forall h g, agree held (heap_of a) h -> ctx_get h g (v c) i = look_left h g at_ rest i
    | FBase get c i held => ctx_live p c = true /\ forall h g, agree held (heap_of a) h -> ctx_get h g (v c) i = g_get g i
    | FFound c i held n => ctx_live p c = true /\ forall h g, agree held (heap_of a) h -> ctx_get h g (v c) i = Some n
    | FGet g i => usable g a <> None
    | _ => False
    end.

  (** The call a frame belongs to. *)
  Definition call_of (f : frame) : gevent :=
    match f with
    | FLook get c i _ _ _ | FBase get c i _ => GEvent (if get then EGet c i else EContains c i)
    | FFound c i _ _ => GEvent (EGet c i)
    | FGet g i => GGet g i
    | FCall g c _ => GCall g c
    | FCommit t _ _ | FCrash t _ => GEvent (EEnd t true)
    end.

  Lemma agree_refl held h : agree held h h.
  Proof. intros b _. reflexivity. Qed.

  Lemma agree_app l1 l2 h h' : agree (l1 ++ l2) h h' -> agree l1 h h' /\ agree l2 h h'.
  Proof. intros A. split; intros b I; apply A, in_app_iff; auto. Qed.

  Lemma contains_base (g : graph) i : g_contains g i = match g_get g i with Some _ => true | None => false end.
  Proof. unfold g_contains, g_get, bt_contains_key. reflexivity. Qed.

  Lemma look_done (a : gstate) get c i : ginv a -> gs_hung a = false -> ctx_live (m_proto (gs_m a)) c = true ->
    g_step a (GEvent (if get : bool then EGet c i else EContains c i)) =
      (a, look_answer get (ctx_get (heap_of a) (nodes_of a) (ctx_value (m_store (gs_m a)) c) i)).
  Proof.
    intros I Hh L. pose proof (gi_hung a I) as Hp. destruct a as [[p [g h cs]] gs ls hg]. cbn in *. subst hg.
    destruct get; unfold g_step, g_pass, m_step, p_step; cbn; rewrite Hp, L; cbn; [reflexivity|]. now rewrite ctx_contains_get.
  Qed.

  Lemma calm_step (a : gstate) f : ginv a -> gs_hung a = false -> finds a f ->
    match f_step a f with
    | (a', inl f') => a' = a /\ finds a f' /\ call_of f' = call_of f
    | (a', inr o) => a' = a /\ g_step a (call_of f) = (a, o)
    end.
  Proof.
    intros I Hh C. destruct f as [get c i held at_ [|o rest]|get c i held|c i held n|g i| | |]; try contradiction; cbn in C; cbn [f_step call_of].
    - destruct C as [L C]. destruct at_ as [b tg|q b tg]; (split; [reflexivity|split; [|reflexivity]]); cbn; (split; [exact L|]); intros h g A.
      + exact (C h g A).
      + apply agree_app in A as [A B]. rewrite (C h g A). cbn. rewrite look_start. specialize (B (ctx_buf q) (or_introl eq_refl)). now rewrite B.
    - destruct C as [L C]. destruct (eqb (op_id o) i) eqn:E.
      + destruct o as [n|j].
        * assert (F : forall h g, agree held (heap_of a) h -> ctx_get h g (ctx_value (m_store (gs_m a)) c) i = Some n).
          { intros h g A. rewrite (C h g A). unfold look_left. cbn [find]. now rewrite E. }
          destruct get; [split; [reflexivity|]; split; [now split|reflexivity]|]. split; [reflexivity|].
          rewrite (look_done a false c i I Hh L), F by apply agree_refl. reflexivity.
        * split; [reflexivity|]. rewrite (look_done a get c i I Hh L). rewrite (C _ _ (agree_refl _ _)). unfold look_left. cbn [find]. now rewrite E.
      + split; [reflexivity|]. split; [|reflexivity]. split; [exact L|]. intros h g A. rewrite (C h g A). unfold look_left. cbn [find]. now rewrite E.
    - destruct C as [L C]. split; [reflexivity|]. rewrite (look_done a get c i I Hh L), (C _ _ (agree_refl _ _)).
      destruct get; [reflexivity|]. unfold look_answer. now rewrite <- contains_base.
    - destruct C as [L C]. split; [reflexivity|]. rewrite (look_done a true c i I Hh L), (C _ _ (agree_refl _ _)). reflexivity.
    - split; [reflexivity|]. unfold g_step. rewrite Hh. destruct (usable g a); [reflexivity|congruence].
  Qed.

  Lemma calm_out (a a1 : gstate) f o : finds a f -> f_step a f = (a1, inr o) -> (exists r, o = GX (XNode r)) \/ (exists b, o = GX (XBool b)).
  Proof.
    intros C E. destruct f as [get c i held at_ [|o' rest]|get c i held|c i held n|g i| | |]; try contradiction; cbn in E.
    - destruct at_; discriminate.
    - destruct (eqb (op_id o') i); [|discriminate]. destruct o', get; try discriminate; injection E as _ <-; cbn; eauto.
    - destruct get; injection E as _ <-; eauto.
    - injection E as _ <-; eauto.
    - injection E as _ <-; eauto.
  Qed.

  (** What a call that runs no user code does to the transactions. *)
  Lemma step_machine (a : gstate) (e : gevent) : begins a e = None -> match e with GCrash _ _ => False | _ => True end ->
    gs_m (fst (g_step a e)) = gs_m a \/ exists e0, e = GEvent e0 /\ gs_m (fst (g_step a e)) = fst (m_step (gs_m a) e0).
  Proof.
    intros B K. unfold g_step. destruct (gs_hung a); [now left|]. destruct e as [e|t|t k|w|g i|g|g c|g|g]; try contradiction.
    - assert (Q : gs_m (fst (g_pass a e)) = fst (m_step (gs_m a) e)) by (unfold g_pass; now destruct (m_step (gs_m a) e)).
      destruct (of_lost a e); [now left|]. destruct (asks a e) as [w|]; [destruct (locked w a); [now left|]|]; right; exists e; auto.
    - destruct (lost t a); [now left|]. destruct (nth_error _ t) as [[[q|] [] []]|]; try now left. destruct (has_ctx _ t Live); now left.
    - destruct (locked w a); now left.
    - destruct (usable g a); now left.
    - destruct (usable g a); now left.
    - cbn in B. destruct (usable g a) as [[]|]; [discriminate| |]; now left.
    - destruct (usable g a); now left.
    - destruct (usable g a); now left.
  Qed.

  Lemma buf_snoc_nil (h : heap Id Node) b : buf_ops (h ++ [[]]) b = buf_ops h b.
  Proof.
    unfold buf_ops. destruct (Nat.lt_ge_cases b (length h)) as [L|L]; [now rewrite nth_snoc_old|].
    rewrite (nth_overflow h) by exact L. destruct (Nat.eq_dec b (length h)) as [->|D]; [apply nth_snoc_new|].
    apply nth_overflow. rewrite app_length. cbn. lia.
  Qed.

  Lemma writes_only (a : gstate) (e : gevent) b : begins a e = None -> match e with GCrash _ _ => False | _ => True end ->
    writes a e <> Some b -> buf_ops (heap_of (fst (g_step a e))) b = buf_ops (heap_of a) b.
  Proof.
    intros B K W. unfold heap_of. destruct (step_machine a e B K) as [->|(e0 & -> & ->)]; [reflexivity|].
    rewrite m_step_fst. cbn. unfold writes in W.
    destruct (p_step_pstep (m_proto (gs_m a)) e0) as [ | | | | | | | |c u n Hh N|c u i Hh N| | | | | |t' c g Hh N HL HK| | |[] ]; cbn; try reflexivity.
    - apply buf_snoc_nil.
    - apply buf_snoc_nil.
    - assert (L : ctx_live (m_proto (gs_m a)) c = true) by (apply ctx_live_spec; eauto). rewrite L in W. apply buf_ops_push_ne. congruence.
    - assert (L : ctx_live (m_proto (gs_m a)) c = true) by (apply ctx_live_spec; eauto). rewrite L in W. apply buf_ops_push_ne. congruence.
    - rewrite N, HL, HK in W. cbn in W. unfold fg_extend, buf_ops. apply nth_alter_ne. congruence.
  Qed.

  Lemma values_stay (a : gstate) (e : gevent) c : ginv a -> begins a e = None -> match e with GCrash _ _ => False | _ => True end ->
    ctx_live (m_proto (gs_m a)) c = true -> ctx_value (m_store (gs_m (fst (g_step a e)))) c = ctx_value (m_store (gs_m a)) c.
  Proof.
    intros I B K L. destruct (step_machine a e B K) as [->|(e0 & -> & ->)]; [reflexivity|]. rewrite m_step_fst. cbn. apply ctx_value_exec.
    rewrite (mi_ctxs _ (gi_m a I)). apply ctx_live_spec in L as [t L]. apply nth_error_Some. congruence.
  Qed.

  Lemma live_stays (a : gstate) (e : gevent) c : begins a e = None -> match e with GCrash _ _ => False | _ => True end ->
    e <> GEvent (EDropCtx c) -> e <> GEvent (ELeakCtx c) ->
    ctx_live (m_proto (gs_m a)) c = true -> ctx_live (m_proto (gs_m (fst (g_step a e)))) c = true.
  Proof.
    intros B K D1 D2 L. apply ctx_live_spec in L as [t L]. apply ctx_live_spec. exists t.
    destruct (step_machine a e B K) as [->|(e0 & -> & ->)]; [exact L|]. rewrite m_step_fst. cbn.
    destruct (p_step_pstep (m_proto (gs_m a)) e0); cbn; try exact L; try (apply nth_error_snoc; now left).
    - rewrite nth_error_alter. destruct (Nat.eqb_spec c0 c) as [->|]; [congruence|exact L].
    - rewrite nth_error_alter. destruct (Nat.eqb_spec c0 c) as [->|]; [congruence|exact L].
  Qed.

  Lemma usable_stays (a : gstate) (e : gevent) g : e <> GDrop g -> e <> GLeak g -> usable g a <> None -> usable g (fst (g_step a e)) = usable g a.
  Proof.
    intros D1 D2 U. unfold usable in *. destruct (nth_error (gs_guards a) g) as [[w []]|] eqn:N; try congruence.
    assert (Q : nth_error (gs_guards (fst (g_step a e))) g = Some (SGuard w Live)); [|now rewrite Q].
    unfold g_step. destruct (gs_hung a); [exact N|]. destruct e as [e|t|t k|w'|g' i|g'|g' c|g'|g'].
    - assert (Q : gs_guards (fst (g_pass a e)) = gs_guards a) by (unfold g_pass; now destruct (m_step (gs_m a) e)).
      destruct (of_lost a e); [exact N|]. destruct (asks a e) as [x|]; [destruct (locked x a)|]; try exact N; now rewrite Q.
    - destruct (lost t a); [exact N|]. destruct (nth_error (p_txs _) t) as [[[q|] [] []]|]; try exact N. destruct (has_ctx _ t Live); exact N.
    - destruct (lost t a); [exact N|]. destruct (nth_error (p_txs _) t) as [[[q|] [] []]|]; try exact N. cbn zeta.
      destruct (_ || _); [exact N|]. now destruct (apply_told _ _).
    - destruct (locked w' a); [exact N|]. cbn. apply nth_error_snoc. now left.
    - destruct (usable g' a); exact N.
    - destruct (usable g' a); exact N.
    - destruct (usable g' a) as [[]|]; try exact N. cbn zeta. now destruct (Graph.g_step _ c).
    - destruct (usable g' a); [|exact N]. cbn. rewrite nth_error_alter. destruct (Nat.eqb_spec g' g) as [->|]; [congruence|exact N].
    - destruct (usable g' a); [|exact N]. cbn. rewrite nth_error_alter. destruct (Nat.eqb_spec g' g) as [->|]; [congruence|exact N].
  Qed.

  Lemma calm_call (a : gstate) (e : gevent) f : ginv a -> finds a f -> begins a e = None -> match e with GCrash _ _ => False | _ => True end ->
    borrows f e = false -> (forall b, writes a e = Some b -> ~ In b (reading f)) -> finds (fst (g_step a e)) f.
  Proof.
    intros I C B K Nb W.
    assert (Ag : agree (reading f) (heap_of a) (heap_of (fst (g_step a e)))).
    { intros b Hb. apply writes_only; auto. intros E. exact (W b E Hb). }
    assert (Ctx : forall c, (forall x, x = EDropCtx c \/ x = ELeakCtx c -> borrows f (GEvent x) = true) -> ctx_live (m_proto (gs_m a)) c = true ->
      ctx_live (m_proto (gs_m (fst (g_step a e)))) c = true /\ ctx_value (m_store (gs_m (fst (g_step a e)))) c = ctx_value (m_store (gs_m a)) c).
    { intros c Fb L. split; [|now apply values_stay]. apply live_stays; auto; intros ->; rewrite Fb in Nb; auto; discriminate. }
    assert (Tr : forall held h, agree held (heap_of a) (heap_of (fst (g_step a e))) -> agree held (heap_of (fst (g_step a e))) h -> agree held (heap_of a) h).
    { intros held h A1 A2 b Hb. rewrite (A2 b Hb). exact (A1 b Hb). }
    destruct f as [get c i held at_ rest|get c i held|c i held n|g i| | |]; try contradiction; cbn in C, Ag |- *.
    - destruct C as [L C]. destruct (Ctx c) as [L' ->]; [intros x [->| ->]; apply Nat.eqb_refl|exact L|]. split; [exact L'|]. intros h g A. apply C. eauto.
    - destruct C as [L C]. destruct (Ctx c) as [L' ->]; [intros x [->| ->]; apply Nat.eqb_refl|exact L|]. split; [exact L'|]. intros h g A. apply C. eauto.
    - destruct C as [L C]. destruct (Ctx c) as [L' ->]; [intros x [->| ->]; apply Nat.eqb_refl|exact L|]. split; [exact L'|]. intros h g A. apply C. eauto.
    - rewrite usable_stays; auto; intros ->; cbn in Nb; rewrite Nat.eqb_refl in Nb; discriminate.
  Qed.

  (** ** A call begins *)

  Lemma begins_ok (a : gstate) e f : begins a e = Some f -> call_of f = e /\ (finds a f \/ alone_ok a (nodes_of a) f).
  Proof.
    unfold begins. destruct e as [e|t|t k|w|g i|g|g c|g|g]; try discriminate.
    - destruct e as [| | | | |c i|c i| | |t [|]| |]; try discriminate.
      + destruct (ctx_live _ c) eqn:L; [|discriminate]. intros [= <-]. split; [reflexivity|]. left. cbn. split; [exact L|].
        intros h g A. rewrite look_start. now rewrite (A _ (or_introl eq_refl)).
      + destruct (ctx_live _ c) eqn:L; [|discriminate]. intros [= <-]. split; [reflexivity|]. left. cbn. split; [exact L|].
        intros h g A. rewrite look_start. now rewrite (A _ (or_introl eq_refl)).
      + destruct (publishes a t) eqn:P; [|discriminate]. intros [= <-]. split; [reflexivity|]. right. cbn. split; [exact P|]. exists []. auto.
    - destruct (usable g a) eqn:U; [|discriminate]. intros [= <-]. split; [reflexivity|]. left. cbn. congruence.
    - destruct (usable g a) as [[]|] eqn:U; try discriminate. intros [= <-]. split; [reflexivity|]. right. cbn. auto.
  Qed.

  (** A call that changes the graph does not begin while a read is unfinished. *)
  Lemma begins_excl (a : gstate) e f f0 : ginv a -> begins a e = Some f -> alone_ok a (nodes_of a) f -> finds a f0 -> borrows f0 e = false -> False.
  Proof.
    intros I B A C Nb. pose proof (alone_private a (nodes_of a) f I A) as [Pc Pl Pg Pt]. destruct (begins_ok a e f B) as [<- _].
    destruct f0 as [get c i held at_ rest|get c i held|c i held n|g0 i| | |]; try contradiction; cbn in C;
      try (destruct C as [L _]; rewrite Pc in L; discriminate).
    destruct f as [| | | |g c [r|]|t l rest|t l]; try contradiction.
    - specialize (Pg g0 C (GGet g0 i) eq_refl). cbn in Pg, Nb. apply Nat.eqb_eq in Pg. apply Nat.eqb_neq in Nb. congruence.
    - specialize (Pg g0 C (GGet g0 i) eq_refl). cbn in Pg, Nb. apply Nat.eqb_eq in Pg. apply Nat.eqb_neq in Nb. congruence.
    - specialize (Pg g0 C (GGet g0 i) eq_refl). discriminate.
    - specialize (Pg g0 C (GGet g0 i) eq_refl). discriminate.
  Qed.

  (** ** What a read has locked *)

  (** Its own operations, and none but those of its context and of the contexts around. *)
  Definition holds_own (a : gstate) (f : frame) : Prop :=
    let p := m_proto (gs_m a) in
    match f with
    | FLook _ c _ held at_ _ =>
        (exists q u, at_ = ctx_value (m_store (gs_m a)) q /\ made_from p q u /\ forall t, within p q t -> within p c t) /\
        (forall b, In b held -> within p c b) /\ (forall t, made_from p c t -> In t held)
    | FBase _ c _ held | FFound c _ held _ => (forall b, In b held -> within p c b) /\ (forall t, made_from p c t -> In t held)
    | _ => True
    end.

  Lemma within_ext p p' d t : p_ext p p' -> within p d t -> within p' d t.
  Proof.
    intros X W. induction W as [d t M|d t u c M O W IH]; [apply within_own; eapply made_from_ext; eauto|].
    eapply within_outer; [eapply made_from_ext|eapply opened_on_ext|]; eauto.
  Qed.

  Lemma held_begins (a : gstate) e f : ginv a -> begins a e = Some f -> holds_own a f.
  Proof.
    intros I B. pose proof (gi_m a I) as M.
    assert (K : forall get c i, ctx_live (m_proto (gs_m a)) c = true ->
      holds_own a (FLook get c i [ctx_buf (ctx_value (m_store (gs_m a)) c)] (ctx_value (m_store (gs_m a)) c)
        (rev (buf_ops (s_heap (m_store (gs_m a))) (ctx_buf (ctx_value (m_store (gs_m a)) c)))))).
    { intros get c i L. apply ctx_live_spec in L as [t N]. assert (Mf : made_from (m_proto (gs_m a)) c t) by now exists Live.
      cbn. rewrite (ctx_buf_value (gs_m a) c t M Mf). split; [exists c, t; auto|]. split.
      - intros b [<-|[]]. now apply within_own.
      - intros t' Mf'. left. now rewrite (made_from_fun _ _ _ _ Mf Mf'). }
    unfold begins in B. destruct e as [e|t|t k|w|g i|g|g c|g|g]; try discriminate.
    - destruct e as [| | | | |c i|c i| | |t [|]| |]; try discriminate.
      + destruct (ctx_live _ c) eqn:L; [|discriminate]. injection B as <-. now apply K.
      + destruct (ctx_live _ c) eqn:L; [|discriminate]. injection B as <-. now apply K.
      + destruct (publishes a t); [|discriminate]. now injection B as <-.
    - destruct (usable g a); [|discriminate]. now injection B as <-.
    - destruct (usable g a) as [[]|]; try discriminate. now injection B as <-.
  Qed.

  Lemma held_step (a a' : gstate) f f' : ginv a -> holds_own a f -> f_step a f = (a', inl f') -> holds_own a f'.
  Proof.
    intros I K E. pose proof (gi_m a I) as M. destruct f as [get c i held at_ [|o rest]|get c i held|c i held n|g i|g c [r|]|t l [|o rest]|t l]; cbn in E; try discriminate.
    - destruct K as ((q & u & Ea & Mq & Wq) & K1 & K2). destruct at_ as [b tg|q' b tg]; injection E as _ <-; [now split|].
      destruct (mi_val _ M q u Mq) as [[_ S]|(q2 & O & S)]; rewrite <- Ea in S; [discriminate|]. injection S as -> -> _.
      destruct (pinv_opened _ _ _ (mi_p _ M) O) as (u2 & M2 & _). rewrite (ctx_buf_value (gs_m a) q2 u2 M M2). cbn.
      assert (W2 : forall t, within (m_proto (gs_m a)) q2 t -> within (m_proto (gs_m a)) c t).
      { intros t W. apply Wq. eapply within_outer; eauto. }
      split; [exists q2, u2; auto|]. split.
      + intros b' Hb. apply in_app_iff in Hb as [Hb|[<-|[]]]; [auto|]. apply W2. now apply within_own.
      + intros t Mt. apply in_app_iff. auto.
    - destruct K as (K0 & K1 & K2). destruct (eqb (op_id o) i).
      + destruct o as [n|j]; [|discriminate]. destruct get; [|discriminate]. injection E as _ <-. now split.
      + injection E as _ <-. now split.
    - destruct (Graph.g_step _ c). injection E as _ <-. exact Logic.I.
    - destruct (Graph.g_step _ _). injection E as _ <-. exact Logic.I.
  Qed.

  Lemma ext_step (a : gstate) (e : gevent) : begins a e = None -> match e with GCrash _ _ => False | _ => True end ->
    p_ext (m_proto (gs_m a)) (m_proto (gs_m (fst (g_step a e)))).
  Proof.
    intros B K. destruct (step_machine a e B K) as [->|(e0 & -> & ->)]; [apply p_ext_refl|]. rewrite m_step_fst. apply p_step_ext.
  Qed.

  Lemma held_call (a : gstate) (e : gevent) f : ginv a -> finds a f -> holds_own a f -> begins a e = None -> match e with GCrash _ _ => False | _ => True end ->
    holds_own (fst (g_step a e)) f.
  Proof.
    intros I F K B C. pose proof (gi_m a I) as M. pose proof (ext_step a e B C) as X.
    assert (K1 : forall c held, (forall b, In b held -> within (m_proto (gs_m a)) c b) -> forall b, In b held -> within (m_proto (gs_m (fst (g_step a e)))) c b).
    { intros c held W b Hb. eapply within_ext; eauto. }
    assert (K2 : forall c (held : list nat), ctx_live (m_proto (gs_m a)) c = true -> (forall t, made_from (m_proto (gs_m a)) c t -> In t held) ->
      forall t, made_from (m_proto (gs_m (fst (g_step a e)))) c t -> In t held).
    { intros c held L W t Mt. apply ctx_live_spec in L as [t0 N]. assert (M0 : made_from (m_proto (gs_m a)) c t0) by now exists Live.
      rewrite (made_from_fun _ _ _ _ Mt (made_from_ext _ _ _ _ X M0)). auto. }
    assert (V : forall q u, made_from (m_proto (gs_m a)) q u -> ctx_value (m_store (gs_m (fst (g_step a e)))) q = ctx_value (m_store (gs_m a)) q).
    { intros q u Mq. destruct (step_machine a e B C) as [->|(e0 & -> & ->)]; [reflexivity|]. rewrite m_step_fst. cbn. apply ctx_value_exec.
      rewrite (mi_ctxs _ M). eapply made_from_lt; eauto. }
    destruct f as [get c i held at_ rest|get c i held|c i held n|g i| | |]; try contradiction; cbn in F, K |- *; try exact Logic.I; destruct F as [L _].
    - destruct K as ((q & u & Ea & Mq & Wq) & W1 & W2). split; [|split; eauto]. exists q, u. rewrite (V q u Mq). split; [exact Ea|].
      split; [eapply made_from_ext; eauto|]. intros t W. eapply within_ext; [exact X|]. apply Wq.
      assert (Bk : forall d, within (m_proto (gs_m (fst (g_step a e)))) d t -> forall u0, made_from (m_proto (gs_m a)) d u0 -> within (m_proto (gs_m a)) d t).
      { intros d Wd. clear W. induction Wd as [d t Md|d t u0 c0 Md Od Wd IH]; intros u1 M1.
        - rewrite (made_from_fun _ _ _ _ Md (made_from_ext _ _ _ _ X M1)). now apply within_own.
        - rewrite (made_from_fun _ _ _ _ Md (made_from_ext _ _ _ _ X M1)) in Od.
          destruct (made_from_tx _ _ _ (mi_p _ M) M1) as [T|(q0 & O0)].
          + exfalso. eapply opened_on_top; [exact Od|]. eapply top_level_ext; eauto.
          + rewrite (opened_on_fun _ _ _ _ Od (opened_on_ext _ _ _ _ X O0)) in *. destruct (pinv_opened _ _ _ (mi_p _ M) O0) as (u2 & M2 & _).
            eapply within_outer; eauto. }
      eauto.
    - destruct K as [W1 W2]. split; eauto.
    - destruct K as [W1 W2]. split; eauto.
  Qed.

  Definition calm_ok (a : gstate) (f : frame) : Prop := finds a f /\ holds_own a f.

  (** ** A call that changes the graph goes on *)

  Lemma apply_told_app (l1 l2 : list op) : forall g : graph, apply_told g (l1 ++ l2) =
    (fst (apply_told (fst (apply_told g l1)) l2), snd (apply_told g l1) ++ snd (apply_told (fst (apply_told g l1)) l2)).
  Proof.
    induction l1 as [|o l1 IH]; intros g; cbn; [now destruct (apply_told g l2)|]. destruct (Graph.g_step g (op_call o)) as [g1 r]. rewrite IH.
    destruct (apply_told g1 l1) as [g2 l]. reflexivity.
  Qed.

  Lemma apply_told_length (ops : list op) : forall g : graph, length (snd (apply_told g ops)) = length ops.
  Proof.
    induction ops as [|o ops IH]; intros g; [reflexivity|]. cbn. destruct (Graph.g_step g (op_call o)) as [g1 r]. specialize (IH g1).
    destruct (apply_told g1 ops). cbn in *. lia.
  Qed.

  Lemma alone_step (a : gstate) g' f : ginv a -> gs_hung a = false -> alone_ok a g' f ->
    match f_step (with_graph g' a) f with
    | (st, inl f') => exists g2, st = with_graph g2 a /\ alone_ok a g2 f' /\ call_of f' = call_of f
    | (st, inr o) => match o with
        | GCrashed l => exists t, call_of f = GEvent (EEnd t true) /\ g_step a (GCrash t (length l)) = (st, o)
        | GX XInvalid | GX XHang => False
        | _ => g_step a (call_of f) = (st, o)
        end
    end.
  Proof.
    intros I Hh A. pose proof (gi_hung a I) as Hp. destruct f as [| | | |g c [r|]|t l [|o rest]|t l]; try contradiction; cbn in A; cbn [f_step call_of].
    - destruct A as [U S]. unfold g_step. rewrite Hh, U. unfold nodes_of in S. cbn zeta. rewrite S. unfold with_graph. now rewrite Hh.
    - destruct A as [U ->]. cbn. destruct (Graph.g_step (nodes_of a) c) as [g2 r] eqn:S. exists g2.
      split; [reflexivity|]. split; [|reflexivity]. cbn. auto.
    - destruct A as (P & done & E & T). rewrite app_nil_r in E. apply publishes_spec in P as (N & L & HL & HK). unfold g_step. rewrite Hh. cbn [of_lost asks].
      rewrite L. unfold g_pass, m_step, p_step. rewrite Hp, N, HL, HK. cbn. unfold heap_of, nodes_of in *. rewrite E.
      rewrite <- apply_told_graph, T. unfold closed, with_graph. cbn. now rewrite Hh.
    - destruct A as (P & done & E & T). cbn. destruct (Graph.g_step g' (op_call o)) as [g2 r] eqn:S. exists g2. split; [reflexivity|]. split; [|reflexivity]. cbn.
      split; [exact P|]. exists (done ++ [o]). split; [rewrite <- app_assoc; exact E|]. rewrite apply_told_app, T. cbn. rewrite S. reflexivity.
    - destruct A as (P & done & rest & E & Ne & T). exists t. split; [reflexivity|]. apply publishes_spec in P as (N & L & HL & HK).
      assert (Ln : length l = length done) by (rewrite <- (apply_told_length done (nodes_of a)), T; reflexivity).
      assert (C : crashing a t (length l)).
      { constructor; auto. unfold can_crash. fold (heap_of a). rewrite E, Ln in *. apply andb_true_iff. split.
        - apply Nat.ltb_lt. destruct (done ++ rest); [congruence|cbn; lia].
        - apply Nat.leb_le. rewrite app_length. lia. }
      rewrite (crash_yes a t (length l) C). unfold crashed. cbn zeta. fold (heap_of a) (nodes_of a). rewrite E, Ln, firstn_app, firstn_all, Nat.sub_diag.
      cbn [firstn]. rewrite app_nil_r, T. reflexivity.
  Qed.

  (** ** The same calls, each at once when it finishes *)

  Record rel (st : rstate) (a : gstate) (open : list gevent) : Prop := Rel {
    rl_inv : ginv a;
    rl_run : gs_hung a = false;
    rl_open : map call_of (rs_frames st) = open;
    rl_state : (rs_g st = a /\ Forall (calm_ok a) (rs_frames st)) \/
      (exists f g', rs_frames st = [f] /\ alone_ok a g' f /\ rs_g st = with_graph g' a)
  }.

  Lemma g_run_one (a a' : gstate) e o : g_step a e = (a', o) -> g_run a [e] = (a', [o]).
  Proof. intros E. cbn. now rewrite E. Qed.

  Lemma step_not_hung (a : gstate) e : ginv a -> snd (g_step a e) <> GX XHang -> gs_hung (fst (g_step a e)) = false.
  Proof. intros I N. destruct (gs_hung (fst (g_step a e))) eqn:E; [|reflexivity]. apply step_hung in E; [contradiction|exact I]. Qed.

  Lemma rejected_all fs (e : gevent) : rejected fs e = false -> match e with GCrash _ _ => False | _ => True end /\ forall f : frame, In f fs -> borrows f e = false.
  Proof.
    unfold rejected. intros R. assert (K : existsb (fun f => borrows f e) fs = false -> forall f : frame, In f fs -> borrows f e = false).
    { intros E f Hf. destruct (borrows f e) eqn:B; [|reflexivity]. assert (existsb (fun f => borrows f e) fs = true) by (apply existsb_exists; eauto). congruence. }
    destruct e; try discriminate; auto.
  Qed.

  Lemma waits_false fs (a : gstate) e : waits fs a e = false -> forall b, writes a e = Some b -> forall f : frame, In f fs -> ~ In b (reading f).
  Proof.
    unfold waits. intros W b E f Hf Hb. rewrite E in W. assert (existsb (fun f => existsb (Nat.eqb b) (reading f)) fs = true); [|congruence].
    apply existsb_exists. exists f. split; [exact Hf|]. apply existsb_exists. exists b. split; [exact Hb|apply Nat.eqb_refl].
  Qed.

  Lemma alone_reading (a : gstate) g' f : alone_ok a g' f -> reading f = [].
  Proof. destruct f; try contradiction; reflexivity. Qed.

  Lemma settle_call open e o : o <> GX XHang -> o <> GX XInvalid -> settle open (RCall e) (RAnswer o) = (open, [(e, o)]) :> list gevent * list (gevent * gout).
  Proof. intros A B. destruct o as [[]| |]; cbn; congruence. Qed.

  Lemma invalid_same (a : gstate) e : snd (g_step a e) = GX XInvalid -> fst (g_step a e) = a.
  Proof.
    unfold g_step. destruct (gs_hung a) eqn:Hg; [reflexivity|]. destruct e as [e|t|t k|w|g i|g|g c|g|g].
    - destruct (of_lost a e); [reflexivity|].
      assert (K : snd (g_pass a e) = GX XInvalid -> fst (g_pass a e) = a).
      { unfold g_pass. rewrite m_step_fst. cbn. destruct a as [[p [gr h cs]] gs ls hg]. cbn.
        destruct (p_step_pstep p e) as [ | | | | | | | | | | | | | | | | | |[] ]; cbn; intros E; try discriminate; reflexivity. }
      destruct (asks a e) as [w|]; [|exact K]. destruct (locked w a); [discriminate|exact K].
    - destruct (lost t a); [reflexivity|]. destruct (nth_error _ t) as [[[q|] [] []]|]; try reflexivity. destruct (has_ctx _ t Live); [reflexivity|discriminate].
    - destruct (lost t a); [reflexivity|]. destruct (nth_error _ t) as [[[q|] [] []]|]; try reflexivity. cbn zeta. destruct (_ || _); [reflexivity|].
      destruct (apply_told _ _). discriminate.
    - destruct (locked w a); discriminate.
    - destruct (usable g a); [discriminate|reflexivity].
    - destruct (usable g a); [discriminate|reflexivity].
    - destruct (usable g a) as [[]|]; try reflexivity. cbn zeta. destruct (Graph.g_step _ c). discriminate.
    - destruct (usable g a); [discriminate|reflexivity].
    - destruct (usable g a); [discriminate|reflexivity].
  Qed.

  Lemma rel_step st a open (e : revent Id Node) : rel st a open -> snd (r_step st e) <> RAnswer (GX XHang) ->
    exists a', g_run a (map fst (snd (settle open e (snd (r_step st e))))) = (a', map snd (snd (settle open e (snd (r_step st e))))) /\
      rel (fst (r_step st e)) a' (fst (settle open e (snd (r_step st e)))).
  Proof.
    intros R NH. pose proof R as [I Hh O S].
    assert (Hg : gs_hung (rs_g st) = false) by (destruct S as [[-> _]|(f & g' & _ & _ & ->)]; exact Hh).
    unfold r_step in *. rewrite Hg in *. destruct e as [e| |].
    - (* a call *)
      destruct (rejected (rs_frames st) e) eqn:Rj; [now exists a|]. pose proof (rejected_all _ _ Rj) as [NC Nb].
      destruct S as [[E C]|(f & g' & Ef & A & E)].
      + rewrite E in *. destruct (begins a e) as [f|] eqn:B.
        * cbn. exists a. split; [reflexivity|]. destruct (begins_ok a e f B) as [Ce Ok]. constructor; cbn; auto; [congruence|].
          destruct Ok as [Ok|Ok]; [left; split; [reflexivity|]; constructor; [split; [exact Ok|eapply held_begins; eauto]|exact C]|]. right. destruct (rs_frames st) as [|f0 fs] eqn:Fs.
          -- exists f, (nodes_of a). rewrite with_graph_same. auto.
          -- exfalso. inversion C as [|x y [C0 _] C1]. eapply begins_excl; eauto. apply Nb. now left.
        * destruct (waits (rs_frames st) a e) eqn:W; [cbn in NH; congruence|]. destruct (g_step a e) as [a' o] eqn:G. cbn [fst snd] in *.
          assert (NH' : o <> GX XHang) by congruence.
          assert (R' : rel (RState a' (rs_frames st)) a' open).
          { constructor; cbn; auto.
            - rewrite <- (f_equal fst G : fst (g_step a e) = a'). now apply ginv_step.
            - rewrite <- (f_equal fst G : fst (g_step a e) = a'). apply step_not_hung; [exact I|]. now rewrite G.
            - left. split; [reflexivity|]. rewrite Forall_forall in C |- *. intros f Hf. rewrite <- (f_equal fst G : fst (g_step a e) = a').
              destruct (C f Hf) as [C0 C1]. split; [|now apply held_call]. apply calm_call; auto. intros b Wb. eapply waits_false; eauto. }
          destruct o as [[]| |]; cbn; try congruence; try (exists a'; cbn; rewrite G; split; [reflexivity|exact R']).
          (* rejected *)
          exists a. split; [reflexivity|]. assert (a' = a) as ->; [|exact R'].
rewrite <- (f_equal fst G : fst (g_step a e) = a'). apply invalid_same. now rewrite G.
      + rewrite Ef in *. destruct (private_call a g' f e I Hh (alone_private a g' f I A) Rj) as (B & o & a' & G1 & G2 & PA).
        rewrite E in *. rewrite B in *. assert (W : waits [f] (with_graph g' a) e = false).
        { unfold waits. destruct (writes _ e); [|reflexivity]. cbn. now rewrite (alone_reading a g' f A). }
        rewrite W, G2 in *. cbn [fst snd] in *. assert (NH' : o <> GX XHang) by congruence.
        assert (R' : rel (RState (with_graph g' a') [f]) a' open).
        { constructor; cbn; auto.
          - rewrite <- (f_equal fst G1 : fst (g_step a e) = a'). now apply ginv_step.
          - rewrite <- (f_equal fst G1 : fst (g_step a e) = a'). apply step_not_hung; [exact I|]. now rewrite G1.
          - right. exists f, g'. split; [reflexivity|]. split; [|reflexivity]. eapply alone_answer; eauto. }
        destruct o as [[]| |]; cbn; try congruence; try (exists a'; rewrite G1; split; [reflexivity|exact R']).
        exists a. split; [reflexivity|]. assert (a' = a) as ->; [|exact R'].
        rewrite <- (f_equal fst G1 : fst (g_step a e) = a'). apply invalid_same. now rewrite G1.
    - (* the innermost goes on *)
      destruct (rs_frames st) as [|f fs] eqn:Fs; [exists a; now split|]. subst open. cbn [map].
      destruct S as [[E C]|(f0 & g' & Ef & A & E)].
      + rewrite E in *. inversion C as [|x y [C0 C2] C1]. subst x y. pose proof (calm_step a f I Hh C0) as K.
        destruct (f_step a f) as [a1 [f'|o]] eqn:Fo; cbn [fst snd] in *.
        * destruct K as (-> & K & Ec). exists a. split; [reflexivity|]. constructor; cbn; [exact I|exact Hh|now rewrite Ec|left].
          split; [reflexivity|]. constructor; [|exact C1]. split; [exact K|]. eapply held_step; eauto.
        * destruct K as [-> K].
          assert (R' : rel (RState a fs) a (map call_of fs)) by (constructor; cbn; auto).
          destruct (calm_out a a f o C0 Fo) as [[r ->]|[b ->]]; (exists a; cbn; rewrite K; split; [reflexivity|exact R']).
      + injection Ef as -> ->. rewrite E in *. pose proof (alone_step a g' f0 I Hh A) as K.
        destruct (f_step (with_graph g' a) f0) as [a1 [f'|o]] eqn:Fo; cbn [fst snd] in *.
        * destruct K as (g2 & -> & A2 & Ec). exists a. split; [reflexivity|]. constructor; cbn; [exact I|exact Hh|now rewrite Ec|right]. exists f', g2. auto.
        * assert (R' : forall e, g_step a e = (a1, o) -> o <> GX XHang -> rel (RState a1 []) a1 []).
          { intros e K' No. constructor; cbn; auto.
            - rewrite <- (f_equal fst K' : fst (g_step a e) = a1). now apply ginv_step.
            - rewrite <- (f_equal fst K' : fst (g_step a e) = a1). apply step_not_hung; [exact I|]. rewrite K'. exact No. }
          destruct o as [[]| |]; try contradiction; cbn [settle fst snd map]; try (exists a1; cbn; rewrite K; split; [reflexivity|]; eapply R'; [exact K|discriminate]).
          destruct K as (t & Ec & K). rewrite Ec. exists a1. cbn [settle fst snd map]. cbn [g_run]. rewrite K. split; [reflexivity|]. eapply R'; [exact K|discriminate].
    - (* a panic *)
      destruct (rs_frames st) as [|f fs] eqn:Fs; [exists a; now split|]. subst open. cbn [map].
      destruct S as [[E C]|(f0 & g' & Ef & A & E)].
      + rewrite E in *. inversion C as [|x y [C0 C2] C1]. subst x y.
        assert (R' : rel (RState a fs) a (map call_of fs)) by (constructor; cbn; auto).
        destruct f; try contradiction; exists a; (split; [reflexivity|exact R']).
      + injection Ef as -> ->. rewrite E in *. destruct f0 as [| | | |g c r|t l rest|t l]; try contradiction.
        * cbn in A. destruct r as [r|]; cbn [fst snd settle map].
          -- destruct A as [U S]. assert (K : g_step a (GCall g c) = (with_graph g' a, GX (XNode r))).
             { unfold g_step. rewrite Hh, U. unfold nodes_of in S. cbn zeta. rewrite S. unfold with_graph. now rewrite Hh. }
             exists (with_graph g' a). cbn [g_run call_of]. rewrite K. split; [reflexivity|]. constructor; cbn [rs_g rs_frames map]; auto.
             rewrite <- (f_equal fst K : fst (g_step a (GCall g c)) = with_graph g' a). now apply ginv_step.
          -- destruct A as [U ->]. rewrite with_graph_same. exists a. split; [reflexivity|]. constructor; cbn; auto.
        * assert (K : buf_ops (heap_of a) t <> [] -> alone_ok a g' (FCrash t l)).
          { intros Ne. destruct A as (P & done & Eo & T). split; [exact P|]. exists done, rest. auto. }
          assert (Q : (l = [] /\ rest = []) \/ buf_ops (heap_of a) t <> []).
          { destruct A as (P & done & Eo & T). rewrite Eo. destruct rest; [|right; now destruct done]. destruct done as [|o done]; [|right; discriminate].
            left. cbn in T. injection T as _ <-. auto. }
          destruct Q as [[-> ->]|Ne]; [exists a; now split|]. specialize (K Ne).
          assert (R' : rel (RState (with_graph g' a) [FCrash t l]) a [GEvent (EEnd t true)]).
          { constructor; cbn; auto. right. exists (FCrash t l), g'. auto. }
          destruct l, rest; try (exists a; split; [reflexivity|exact R']). exists a. split; [reflexivity|exact R].
        * exists a. now split.
  Qed.

  Lemma rel_run es : forall st a open, rel st a open -> ~ In (RAnswer (GX XHang)) (snd (r_run st es)) ->
    exists a', g_run a (map fst (snd (settled open es (snd (r_run st es))))) = (a', map snd (snd (settled open es (snd (r_run st es))))) /\
      rel (fst (r_run st es)) a' (fst (settled open es (snd (r_run st es)))).
  Proof.
    induction es as [|e es IH]; intros st a open R NH; [exists a; now split|]. cbn in *.
    pose proof (rel_step st a open e R) as K. destruct (r_step st e) as [st1 o]. cbn [fst snd] in K.
    specialize (IH st1). destruct (r_run st1 es) as [st2 os]. cbn in *.
    destruct K as (a1 & G1 & R1); [intros E; apply NH; auto|]. destruct (settle open e o) as [open1 l1]. cbn [fst snd] in *.
    destruct (IH a1 open1 R1) as (a2 & G2 & R2); [auto|]. destruct (settled open1 es os) as [open2 l2]. cbn [fst snd] in *.
    exists a2. split; [|exact R2]. rewrite !map_app, g_run_app, G1. cbn [fst snd]. now rewrite G2.
  Qed.

  Lemma rel_after g0 (es : list (revent Id Node)) : g_wf g0 -> r_returns g0 es ->
    g_answers g0 (calls g0 es) = map snd (finished g0 es) /\ rel (r_after g0 es) (g_after g0 (calls g0 es)) (unfinished g0 es).
  Proof.
    intros W NH. assert (R : rel (r_init g0) (g_init g0) []).
    { constructor; cbn; auto. apply (ginv_after g0 [] W). }
    destruct (rel_run es (r_init g0) (g_init g0) [] R NH) as (a & G & Ra). unfold calls, finished, unfinished, g_answers, g_after, r_answers, r_after.
    unfold r_answers in *. rewrite G. auto.
  Qed.

  (** ** What is answered to a call *)

  Lemma alone_changes (a : gstate) g' f : alone_ok a g' f -> changes_graph (call_of f).
  Proof. destruct f; try contradiction; intros _; exact Logic.I. Qed.

  Lemma calm_changes (a : gstate) f : finds a f -> ~ changes_graph (call_of f).
  Proof. destruct f as [[]| | | | | |]; try contradiction; cbn; auto. destruct get; auto. Qed.

  Lemma rel_alone st a open e : rel st a open -> In e open -> changes_graph e ->
    open = [e] /\ exists f g', rs_frames st = [f] /\ alone_ok a g' f /\ rs_g st = with_graph g' a.
  Proof.
    intros [I Hh O [[E C]|(f & g' & Ef & A & E)]] Ie Ce; subst open.
    - exfalso. apply in_map_iff in Ie as (f & <- & If). rewrite Forall_forall in C. destruct (C f If) as [F _]. exact (calm_changes a f F Ce).
    - split; [|eauto]. rewrite Ef in *. destruct Ie as [<-|[]]. reflexivity.
  Qed.

  Lemma borrows_conflicts (f : frame) e : borrows f e = true <-> conflicts (call_of f) e.
  Proof.
    destruct f as [[]|[]| | | | |]; destruct e as [[]| | | | | | | |]; cbn; try (split; [discriminate|contradiction]); rewrite Nat.eqb_eq; split; congruence.
  Qed.

  Lemma rejected_spec st a open e : rel st a open ->
    (rejected (rs_frames st) e = true <-> (exists t k, e = GCrash t k) \/ exists e0, In e0 open /\ conflicts e0 e).
  Proof.
    intros R. rewrite <- (rl_open st a open R).
    assert (K : existsb (fun f => borrows f e) (rs_frames st) = true <-> exists e0, In e0 (map call_of (rs_frames st)) /\ conflicts e0 e).
    { rewrite existsb_exists. split.
      - intros (f & If & B). exists (call_of f). split; [now apply in_map|]. now apply borrows_conflicts.
      - intros (e0 & Ie & C). apply in_map_iff in Ie as (f & <- & If). exists f. split; [exact If|]. now apply borrows_conflicts. }
    rewrite <- K. unfold rejected. destruct e; split; intros Q; auto; try (destruct Q as [(t' & k' & Q)|Q]; [discriminate|exact Q]). left. eauto.
  Qed.

  (** Answers to a call: rejected, begun, waiting for an operation buffer, or as the same call at once after those that finished. *)
  Lemma call_answer st a open e : rel st a open ->
    snd (r_step st (RCall e)) =
      if rejected (rs_frames st) e then RAnswer (GX XInvalid)
      else match begins (rs_g st) e with
           | Some _ => RRunning
           | None => if waits (rs_frames st) (rs_g st) e then RAnswer (GX XHang) else RAnswer (snd (g_step a e))
           end.
  Proof.
    intros [I Hh O S].
    assert (Hg : gs_hung (rs_g st) = false) by (destruct S as [[-> _]|(f & g' & _ & _ & ->)]; exact Hh).
    unfold r_step. rewrite Hg. destruct (rejected (rs_frames st) e) eqn:Rj; [reflexivity|].
    destruct S as [[E C]|(f & g' & Ef & A & E)].
    - rewrite E. destruct (begins a e); [reflexivity|]. destruct (waits _ a e); [reflexivity|]. now destruct (g_step a e).
    - rewrite Ef, E in *. destruct (private_call a g' f e I Hh (alone_private a g' f I A) Rj) as (B & o & a' & G1 & G2 & PA). rewrite B.
      destruct (waits _ _ e); [reflexivity|]. rewrite G1, G2. reflexivity.
  Qed.

  Lemma writes_spec g0 (es : list gevent) e t : g_wf g0 -> returns g0 es -> (writes (g_after g0 es) e = Some t <-> stores g0 es e t).
  Proof.
    intros W T. apply hung_returns in T; [|exact W]. pose proof (ginv_after g0 es W) as I. pose proof (gi_m _ I) as M. pose proof (gi_hung _ I) as Hp.
    pose proof (fun u => contexts_gone_spec g0 es u W) as Cg. unfold stores, g_says. remember (g_after g0 es) as a eqn:Ea. clear Ea.
    assert (Bf : forall c u, made_from (m_proto (gs_m a)) c u -> ctx_buf (ctx_value (m_store (gs_m a)) c) = u) by (intros c u K; now apply ctx_buf_value).
    assert (Lv : forall c, ctx_live (m_proto (gs_m a)) c = true -> exists u, made_from (m_proto (gs_m a)) c u).
    { intros c L. apply ctx_live_spec in L as [u L]. exists u. now exists Live. }
    split.
    - unfold writes. destruct e as [e|t'|t' k|w|g i|g|g c|g|g]; try discriminate. destruct e as [| | |c n|c i|c i|c i| | |u [|]| |]; try discriminate.
      + destruct (ctx_live _ c) eqn:L; [|discriminate]. intros [= Et]. exists (ESave c n). split; [reflexivity|]. destruct (Lv c L) as [u Mu].
        rewrite (Bf c u Mu) in Et. subst u. split; [now apply reg_save|]. split; [|discriminate].
        unfold g_step. rewrite T. cbn [of_lost asks]. unfold g_pass, m_step, p_step. rewrite Hp, L. reflexivity.
      + destruct (ctx_live _ c) eqn:L; [|discriminate]. intros [= Et]. exists (EDelete c i). split; [reflexivity|]. destruct (Lv c L) as [u Mu].
        rewrite (Bf c u Mu) in Et. subst u. split; [now apply reg_delete|]. split; [|discriminate].
        unfold g_step. rewrite T. cbn [of_lost asks]. unfold g_pass, m_step, p_step. rewrite Hp, L. reflexivity.
      + destruct (nth_error _ u) as [[[c|] gd []]|] eqn:N; try discriminate. destruct (_ || _) eqn:Hc; [discriminate|]. intros [= Et].
        apply orb_false_iff in Hc as [Hc1 Hc2]. exists (EEnd u true). split; [reflexivity|].
        assert (O : opened_on (m_proto (gs_m a)) u c) by (exists gd, true; exact N).
        destruct (pinv_opened _ _ _ (mi_p _ M) O) as (u2 & M2 & _). rewrite (Bf c u2 M2) in Et. subst u2.
        split; [eapply reg_commit; eauto|]. split.
        * unfold g_step. rewrite T. cbn [of_lost asks]. destruct (lost u a) eqn:L; [apply lost_true in L; rewrite (gi_lost _ I _ L) in N; discriminate|].
          unfold g_pass, m_step, p_step. rewrite Hp, N, Hc1, Hc2. reflexivity.
        * intros u' b [= <- <-]. now apply Cg.
    - intros (e0 & -> & Rg & Sy & Gn). unfold g_step in Sy. rewrite T in Sy. unfold writes. destruct Rg as [c n Mc|c i Mc|u c O Mc].
      + cbn [of_lost asks] in Sy. unfold g_pass, m_step, p_step in Sy. rewrite Hp in Sy. destruct (ctx_live _ c); [|discriminate]. now rewrite (Bf c t Mc).
      + cbn [of_lost asks] in Sy. unfold g_pass, m_step, p_step in Sy. rewrite Hp in Sy. destruct (ctx_live _ c); [|discriminate]. now rewrite (Bf c t Mc).
      + destruct (proj1 (Cg u) (Gn u true eq_refl)) as [H1 H2]. destruct O as (gd & o & N).
        cbn [of_lost asks] in Sy. destruct (lost u a); [discriminate|]. unfold g_pass, m_step, p_step in Sy. rewrite Hp, N in Sy. rewrite N.
        destruct o; [|discriminate]. rewrite H1, H2. cbn. now rewrite (Bf c t Mc).
  Qed.

  Lemma begins_store g0 (es : list gevent) e f : g_wf g0 -> begins (g_after g0 es) e = Some f ->
    writes (g_after g0 es) e = None /\ snd (g_step (g_after g0 es) e) <> GX XInvalid \/ gs_hung (g_after g0 es) = true.
  Proof.
    intros W B. pose proof (ginv_after g0 es W) as I. pose proof (gi_hung _ I) as Hp. remember (g_after g0 es) as a eqn:Ea. clear Ea.
    destruct (gs_hung a) eqn:T; [now right|left]. unfold begins in B. destruct e as [e|t'|t' k|w|g i|g|g c|g|g]; try discriminate.
    - destruct e as [| | |c n|c i|c i|c i| | |u [|]| |]; try discriminate.
      + destruct (ctx_live _ c) eqn:L; [|discriminate]. split; [reflexivity|]. unfold g_step. rewrite T. cbn [of_lost asks]. unfold g_pass, m_step, p_step. rewrite Hp, L. discriminate.
      + destruct (ctx_live _ c) eqn:L; [|discriminate]. split; [reflexivity|]. unfold g_step. rewrite T. cbn [of_lost asks]. unfold g_pass, m_step, p_step. rewrite Hp, L. discriminate.
      + destruct (publishes a u) eqn:P; [|discriminate]. apply publishes_spec in P as (N & L & HL & HK). unfold writes. rewrite N. split; [reflexivity|].
        unfold g_step. rewrite T. cbn [of_lost asks]. rewrite L. unfold g_pass, m_step, p_step. rewrite Hp, N, HL, HK. discriminate.
    - destruct (usable g a) eqn:U; [|discriminate]. split; [reflexivity|]. unfold g_step. rewrite T, U. discriminate.
    - destruct (usable g a) as [[]|] eqn:U; try discriminate. split; [reflexivity|]. unfold g_step. rewrite T, U. cbn zeta. destruct (Graph.g_step _ c). discriminate.
  Qed.

  Lemma begins_wants g0 (es : list gevent) e f w : begins (g_after g0 es) e = Some f -> ~ wants g0 es e w.
  Proof. intros B K. destruct K; discriminate. Qed.

  Lemma conflicts_wants g0 (es : list gevent) st e w : g_wf g0 -> rel st (g_after g0 es) (map call_of (rs_frames st)) ->
    rejected (rs_frames st) e = true -> ~ wants g0 es e w.
  Proof.
    intros W R Rj K. destruct (proj1 (rejected_spec st _ _ e R) Rj) as [(t & k & ->)|(e0 & Ie & C)]; [inversion K|].
    destruct K as [w|i|c|t Bg Nc Ne].
    - destruct e0 as [[]| | | | | | | |]; contradiction.
    - destruct e0 as [[]| | | | | | | |]; contradiction.
    - destruct e0 as [[]| | | | | | | |]; contradiction.
    - destruct e0 as [[| | | | | | | | |u b| |]| | | | | | | |]; try contradiction. cbn in C. subst u.
      apply in_map_iff in Ie as (f & Ef & If). destruct (txhist_after g0 es W) as [Hb He Hc Ho].
      assert (P : publishes (g_after g0 es) t = true).
      { destruct R as [I Hh _ [[_ Cm]|(f' & g' & Eq & A & _)]].
        - exfalso. rewrite Forall_forall in Cm. destruct (Cm f If) as [F _]. destruct f as [[]|[]| | | | |]; try contradiction; discriminate.
        - rewrite Eq in If. destruct If as [<-|[]]. destruct f' as [[]|[]| | | | |]; try contradiction; try discriminate; injection Ef as -> _; exact (proj1 A). }
      apply publishes_spec in P as (N & _). apply Nc. now apply (Ho t true N).
  Qed.

  Lemma alone_waits (a : gstate) g' f st e : alone_ok a g' f -> waits [f] st e = false.
  Proof. intros A. unfold waits. destruct (writes st e); [|reflexivity]. cbn. now rewrite (alone_reading a g' f A). Qed.

  (** When a call waits for ever. *)
  Lemma hangs_exactly g0 (es : list (revent Id Node)) e : g_wf g0 -> r_returns g0 es ->
    (r_says g0 es (RCall e) = RAnswer (GX XHang) <->
     (exists w, wants g0 (calls g0 es) e w /\ excluded g0 (calls g0 es) w) \/
     exists f t, In f (rs_frames (r_after g0 es)) /\ In t (reading f) /\ stores g0 (calls g0 es) e t).
  Proof.
    intros W NH. destruct (rel_after g0 es W NH) as [An R]. unfold r_says. set (cs := calls g0 es) in *. set (st := r_after g0 es) in *.
    assert (T : returns g0 cs) by (apply hung_returns; [exact W|exact (rl_run _ _ _ R)]).
    rewrite (call_answer st _ _ e R), <- (blocks_exactly g0 cs e W T). unfold g_says.
    assert (R' : rel st (g_after g0 cs) (map call_of (rs_frames st))) by (rewrite (rl_open _ _ _ R); exact R).
    destruct (rejected (rs_frames st) e) eqn:Rj.
    { split; [discriminate|]. intros [K|(f & t & If & It & S)]; exfalso.
      - apply (blocks_exactly g0 cs e W T) in K as (w & K & _). eapply conflicts_wants; eauto.
      - destruct S as (e0 & -> & Rg & _). apply (proj1 (rejected_spec st _ _ _ R)) in Rj as [(u & k & Q)|(e1 & Ie & C)]; [discriminate|].
        destruct Rg as [c n Mc|c i Mc|u c O Mc]; try (destruct e1 as [[]| | | | | | | |]; contradiction).
        destruct R' as [I Hh _ [[_ Cm]|(f' & g' & Eq & A & _)]].
        + rewrite Forall_forall in Cm. rewrite <- (rl_open _ _ _ R) in Ie. apply in_map_iff in Ie as (f1 & <- & If1). destruct (Cm f1 If1) as [F _].
          destruct f1 as [[]|[]| | | | |]; contradiction.
        + rewrite Eq in If. destruct If as [<-|[]]. rewrite (alone_reading _ _ _ A) in It. contradiction. }
    destruct (rl_state _ _ _ R) as [[E Cm]|(f & g' & Ef & A & E)].
    - rewrite E. destruct (begins (g_after g0 cs) e) as [f|] eqn:B.
      + split; [discriminate|]. intros [K|(f' & t & If & It & S)]; exfalso.
        * apply (blocks_exactly g0 cs e W T) in K as (w & K & _). eapply begins_wants; eauto.
        * apply (writes_spec g0 cs e t W T) in S. destruct (begins_store g0 cs e f W B) as [[K _]|K]; [congruence|].
          rewrite (rl_run _ _ _ R) in K. discriminate.
      + destruct (waits (rs_frames st) (g_after g0 cs) e) eqn:Wt.
        * split; [|reflexivity]. intros _. right. unfold waits in Wt. destruct (writes _ e) as [t|] eqn:Wr; [|discriminate].
          apply existsb_exists in Wt as (f & If & Wt). apply existsb_exists in Wt as (t' & It & Et). apply Nat.eqb_eq in Et. subst t'.
          exists f, t. split; [exact If|]. split; [exact It|]. now apply writes_spec.
        * split; [intros [= K]; now left|]. intros [K|(f' & t & If & It & S)]; [now rewrite K|]. exfalso. apply (writes_spec g0 cs e t W T) in S.
          exact (waits_false _ _ _ Wt t S f' If It).
    - rewrite Ef, E in *. destruct (private_call _ g' f e (rl_inv _ _ _ R) (rl_run _ _ _ R) (alone_private _ g' f (rl_inv _ _ _ R) A) Rj) as (B & _).
      rewrite B, (alone_waits _ g' f _ e A). split; [intros [= K]; now left|]. intros [K|(f' & t & If & It & S)]; [now rewrite K|].
      destruct If as [<-|[]]. rewrite (alone_reading _ g' f A) in It. contradiction.
  Qed.

  (** When it is rejected. *)
  Lemma invalid_exactly g0 (es : list (revent Id Node)) e : g_wf g0 -> r_returns g0 es ->
    (r_says g0 es (RCall e) = RAnswer (GX XInvalid) <->
     (exists t k, e = GCrash t k) \/ (exists e0, In e0 (unfinished g0 es) /\ conflicts e0 e) \/ g_says g0 (calls g0 es) e = GX XInvalid).
  Proof.
    intros W NH. destruct (rel_after g0 es W NH) as [An R]. unfold r_says. set (cs := calls g0 es) in *. set (st := r_after g0 es) in *.
    assert (T : returns g0 cs) by (apply hung_returns; [exact W|exact (rl_run _ _ _ R)]).
    rewrite (call_answer st _ _ e R), <- or_assoc, <- (rejected_spec st _ _ e R). unfold g_says.
    destruct (rejected (rs_frames st) e) eqn:Rj; [split; auto|].
    destruct (rl_state _ _ _ R) as [[E Cm]|(f & g' & Ef & A & E)].
    - rewrite E. destruct (begins (g_after g0 cs) e) as [f|] eqn:B.
      + split; [discriminate|]. intros [K|K]; [discriminate|]. destruct (begins_store g0 cs e f W B) as [[_ K']|K']; [congruence|].
        rewrite (rl_run _ _ _ R) in K'. discriminate.
      + destruct (waits (rs_frames st) (g_after g0 cs) e) eqn:Wt.
        * split; [discriminate|]. intros [K|K]; [discriminate|]. unfold waits in Wt. destruct (writes _ e) as [t|] eqn:Wr; [|discriminate].
          apply (writes_spec g0 cs e t W T) in Wr as (e0 & -> & _ & S & _). unfold g_says in S. congruence.
        * split; [intros [= K]; now right|]. intros [K|K]; [discriminate|]. now rewrite K.
    - rewrite Ef, E in *. destruct (private_call _ g' f e (rl_inv _ _ _ R) (rl_run _ _ _ R) (alone_private _ g' f (rl_inv _ _ _ R) A) Rj) as (B & _).
      rewrite B, (alone_waits _ g' f _ e A). split; [intros [= K]; now right|]. intros [K|K]; [discriminate|]. now rewrite K.
  Qed.

  (** What an unfinished read has locked. *)
  Lemma read_locked st a open f t : rel st a open -> In f (rs_frames st) -> In t (reading f) ->
    exists c, reads_context c (call_of f) /\ In (call_of f) open /\ within (m_proto (gs_m a)) c t.
  Proof.
    intros R If It. assert (Io : In (call_of f) open) by (rewrite <- (rl_open _ _ _ R); now apply in_map).
    destruct (rl_state _ _ _ R) as [[_ Cm]|(f' & g' & Ef & A & _)].
    - rewrite Forall_forall in Cm. destruct (Cm f If) as [F K]. destruct f as [get c i held at_ rest|get c i held|c i held n| | | |]; try contradiction.
      + exists c. split; [destruct get; reflexivity|]. split; [exact Io|]. now apply K.
      + exists c. split; [destruct get; reflexivity|]. split; [exact Io|]. now apply K.
      + exists c. split; [reflexivity|]. split; [exact Io|]. now apply K.
    - rewrite Ef in If. destruct If as [<-|[]]. rewrite (alone_reading _ _ _ A) in It. contradiction.
  Qed.

  Lemma own_locked st a open e0 c t : rel st a open -> In e0 open -> reads_context c e0 -> made_from (m_proto (gs_m a)) c t ->
    exists f, In f (rs_frames st) /\ In t (reading f).
  Proof.
    intros R Ie Rc Mc. rewrite <- (rl_open _ _ _ R) in Ie. apply in_map_iff in Ie as (f & <- & If). exists f. split; [exact If|].
    destruct (rl_state _ _ _ R) as [[_ Cm]|(f' & g' & Ef & A & _)].
    - rewrite Forall_forall in Cm. destruct (Cm f If) as [F K].
      destruct f as [get c' i held at_ rest|get c' i held|c' i held n| | | |]; try contradiction; [destruct get|destruct get|]; cbn in Rc; subst c'; now apply K.
    - rewrite Ef in If. destruct If as [<-|[]]. destruct f' as [[]|[]| | | | |]; try contradiction.
  Qed.

  (** ** Unfinished calls can go on *)

  Fixpoint left_in (h : heap Id Node) (c : ctx) : nat :=
    match c with CRoot _ _ => 0 | CSub q _ _ => S (length (buf_ops h (ctx_buf q)) + left_in h q) end.

  Definition left_of (h : heap Id Node) (f : frame) : nat :=
    match f with
    | FLook _ _ _ _ at_ rest => 2 + length rest + left_in h at_
    | FBase _ _ _ _ | FFound _ _ _ _ | FGet _ _ | FCall _ _ (Some _) | FCrash _ _ => 0
    | FCall _ _ None => 1
    | FCommit _ _ rest => length rest
    end.

  Lemma f_step_left (st : gstate) f : match f_step st f with
    | (st', inl f') => left_of (heap_of st') f' < left_of (heap_of st) f /\ heap_of st' = heap_of st /\ gs_hung st' = gs_hung st
    | _ => True
    end.
  Proof.
    destruct f as [get c i held at_ [|o rest]|get c i held|c i held n|g i|g c [r|]|t l [|o rest]|t l]; cbn [f_step]; auto.
    - destruct at_ as [b tg|q b tg]; cbn; rewrite ?rev_length; repeat split; unfold heap_of; lia.
    - destruct (eqb (op_id o) i); [|cbn; repeat split; lia]. destruct o; [|auto]. destruct get; cbn; repeat split; try lia; auto.
    - destruct (Graph.g_step _ c). cbn. repeat split; lia.
    - destruct (Graph.g_step _ _). cbn. repeat split; lia.
  Qed.

  Lemma r_run_app (es es' : list (revent Id Node)) : forall st, r_run st (es ++ es') =
    (fst (r_run (fst (r_run st es)) es'), snd (r_run st es) ++ snd (r_run (fst (r_run st es)) es')).
  Proof.
    induction es as [|e es IH]; intros st; cbn; [now destruct (r_run st es')|]. destruct (r_step st e) as [st1 o]. rewrite IH.
    destruct (r_run st1 es). reflexivity.
  Qed.

  Lemma f_step_out (st st' : gstate) f o : f_step st f = (st', inr o) -> o <> GX XHang /\ o <> GX XInvalid.
  Proof.
    destruct f as [get c i held at_ [|o' rest]|get c i held|c i held n|g i|g c [r|]|t l [|o' rest]|t l]; cbn [f_step]; intros E;
      try (injection E as _ <-; split; discriminate).
    - destruct at_; discriminate.
    - destruct (eqb (op_id o') i); [|discriminate]. destruct o', get; try discriminate; injection E as _ <-; split; discriminate.
    - destruct get; injection E as _ <-; split; discriminate.
    - destruct (Graph.g_step _ c). discriminate.
    - destruct (Graph.g_step _ _). discriminate.
  Qed.

  Lemma goes_on n : forall (st : rstate) f fs, gs_hung (rs_g st) = false -> rs_frames st = f :: fs -> left_of (heap_of (rs_g st)) f <= n ->
    exists k o, o <> GX XHang /\ o <> GX XInvalid /\ snd (r_run st (repeat RStep (S k))) = repeat RRunning k ++ [RAnswer o] /\ rs_frames (fst (r_run st (repeat RStep (S k)))) = fs.
  Proof.
    induction n as [|n IH]; intros [g fs0] f fs Hg Ef L; cbn in Hg, Ef, L; subst fs0; pose proof (f_step_left g f) as K;
      destruct (f_step g f) as [g' [f'|o]] eqn:S; try (exists 0, o; pose proof (f_step_out g g' f o S) as [? ?]; cbn; unfold r_step; cbn; rewrite Hg, S; auto).
    - destruct K as [K _]. lia.
    - destruct K as (K & Eh & Hu). destruct (IH (RState g' (f' :: fs)) f' fs) as (k & o & N1 & N2 & A & B); cbn; [congruence|reflexivity|lia|].
      exists (Datatypes.S k), o. change (repeat RStep (Datatypes.S (Datatypes.S k))) with (@RStep Id Node :: repeat RStep (Datatypes.S k)).
      assert (Q : r_step (RState g (f :: fs)) RStep = (RState g' (f' :: fs), RRunning)) by (unfold r_step; cbn; now rewrite Hg, S).
      change (r_run (RState g (f :: fs)) (RStep :: repeat RStep (Datatypes.S k))) with
        (let (st1, o) := r_step (RState g (f :: fs)) RStep in let (st2, os) := r_run st1 (repeat RStep (Datatypes.S k)) in (st2, o :: os)). rewrite Q.
      destruct (r_run (RState g' (f' :: fs)) (repeat RStep (Datatypes.S k))) as [st2 os]. cbn [fst snd] in *. subst os. auto.
  Qed.

  (** ** One event more *)

  Lemma r_answers_length g0 (es : list (revent Id Node)) : length (r_answers g0 es) = length es.
  Proof.
    unfold r_answers. generalize (r_init g0). induction es as [|e es IH]; intros st; [reflexivity|]. cbn. destruct (r_step st e) as [st1 o].
    specialize (IH st1). destruct (r_run st1 es). cbn in *. congruence.
  Qed.

  Lemma r_answers_app g0 (es es' : list (revent Id Node)) : r_answers g0 (es ++ es') = r_answers g0 es ++ snd (r_run (r_after g0 es) es').
  Proof. unfold r_answers, r_after. now rewrite r_run_app. Qed.

  Lemma r_after_app g0 (es es' : list (revent Id Node)) : r_after g0 (es ++ es') = fst (r_run (r_after g0 es) es').
  Proof. unfold r_after. now rewrite r_run_app. Qed.

  Lemma r_answers_snoc g0 (es : list (revent Id Node)) e : r_answers g0 (es ++ [e]) = r_answers g0 es ++ [r_says g0 es e].
  Proof. rewrite r_answers_app. unfold r_says. cbn. now destruct (r_step _ e). Qed.

  Lemma settled_snoc (es : list (revent Id Node)) e o : forall os open, length os = length es ->
    settled open (es ++ [e]) (os ++ [o]) =
      (fst (settle (fst (settled open es os)) e o), snd (settled open es os) ++ snd (settle (fst (settled open es os)) e o)).
  Proof.
    induction es as [|e' es IH]; intros [|o' os] open L; try discriminate; cbn.
    - destruct (settle open e o). now rewrite app_nil_r.
    - destruct (settle open e' o') as [open1 l1]. injection L as L. rewrite (IH os open1 L). destruct (settled open1 es os). cbn. now rewrite app_assoc.
  Qed.

  Lemma unfinished_snoc g0 (es : list (revent Id Node)) e : unfinished g0 (es ++ [e]) = fst (settle (unfinished g0 es) e (r_says g0 es e)).
  Proof. unfold unfinished. rewrite r_answers_snoc, settled_snoc by apply r_answers_length. reflexivity. Qed.

  Lemma finished_snoc g0 (es : list (revent Id Node)) e : finished g0 (es ++ [e]) = finished g0 es ++ snd (settle (unfinished g0 es) e (r_says g0 es e)).
  Proof. unfold finished, unfinished. rewrite r_answers_snoc, settled_snoc by apply r_answers_length. reflexivity. Qed.

  Lemma calls_snoc g0 (es : list (revent Id Node)) e : calls g0 (es ++ [e]) = calls g0 es ++ map fst (snd (settle (unfinished g0 es) e (r_says g0 es e))).
  Proof. unfold calls. rewrite finished_snoc. apply map_app. Qed.

  Lemma read_panics st a open e0 : rel st a (e0 :: open) -> ~ changes_graph e0 -> snd (r_step st RPanic) = RPanicked None.
  Proof.
    intros R Nc. pose proof R as [I Hh O S]. assert (Hg : gs_hung (rs_g st) = false) by (destruct S as [[-> _]|(f & g' & _ & _ & ->)]; exact Hh).
    unfold r_step. rewrite Hg. destruct S as [[_ Cm]|(f & g' & Ef & A & _)].
    - destruct (rs_frames st) as [|f fs]; [discriminate|]. inversion Cm as [|x y [F _] _]. subst x y. destruct f; try contradiction; reflexivity.
    - exfalso. rewrite Ef in O. injection O as Ec _. apply Nc. rewrite <- Ec. eapply alone_changes; eauto.
  Qed.

  Lemma commit_panics st a t : rel st a [GEvent (EEnd t true)] -> snd (r_step st RPanic) = RRunning ->
    exists l, snd (r_step (fst (r_step st RPanic)) RStep) = RAnswer (GCrashed l).
  Proof.
    intros R. pose proof R as [I Hh O S]. assert (Hg : gs_hung (rs_g st) = false) by (destruct S as [[-> _]|(f & g' & _ & _ & ->)]; exact Hh).
    unfold r_step at 1 3. rewrite Hg. destruct S as [[_ Cm]|(f & g' & Ef & A & _)].
    - exfalso. destruct (rs_frames st) as [|f fs]; [discriminate|]. inversion Cm as [|x y [F _] _]. subst x y. injection O as O _.
      destruct f as [[]|[]| | | | |]; try contradiction; discriminate.
    - rewrite Ef in *. destruct f as [[]|[]| | | |t' l rest|t' l]; try contradiction; try discriminate; injection O as ->.
      destruct l as [|x l], rest as [|o rest]; try discriminate; intros _; unfold r_step; cbn; rewrite Hg; cbn; eauto.
  Qed.

  (** ** How far reads have come *)

  Definition size (h : heap Id Node) (ts : list nat) : nat := list_sum (map (fun t => S (length (buf_ops h t))) ts).

  Lemma size_app h l1 l2 : size h (l1 ++ l2) = size h l1 + size h l2.
  Proof. unfold size. now rewrite map_app, list_sum_app. Qed.

  Definition counted (a : gstate) (f : frame) (k : nat) : Prop :=
    let p := m_proto (gs_m a) in
    let h := heap_of a in
    match f with
    | FLook _ c _ held at_ rest => exists ts1 t ts2 q, held = ts1 ++ [t] /\ outward p c (ts1 ++ t :: ts2) /\ outward p q (t :: ts2) /\
        at_ = ctx_value (m_store (gs_m a)) q /\ k + length rest = size h ts1 + length (buf_ops h t) /\ length rest <= length (buf_ops h t)
    | FBase _ c _ held => outward p c held /\ k = size h held
    | FFound c _ held _ => exists ts1 t ts2, held = ts1 ++ [t] /\ outward p c (ts1 ++ t :: ts2) /\ size h ts1 <= k <= size h ts1 + length (buf_ops h t)
    | _ => True
    end.

  Lemma outward_made p c ts : outward p c ts -> exists t ts', ts = t :: ts' /\ made_from p c t.
  Proof. destruct 1; eauto. Qed.

  Lemma outward_fun p : pinv p -> forall c ts, outward p c ts -> forall ts', outward p c ts' -> ts = ts'.
  Proof.
    intros P. induction 1 as [c t M T|c t q ts M O K IH]; intros ts' K'.
    - destruct K' as [c t' M'|c t' q' ts' M' O' K']; rewrite (made_from_fun _ _ _ _ M M') in *; [reflexivity|].
      exfalso. eapply opened_on_top; eauto.
    - destruct K' as [c t' M' T'|c t' q' ts' M' O' K']; rewrite (made_from_fun _ _ _ _ M M') in *.
      + exfalso. eapply opened_on_top; eauto.
      + f_equal. apply IH. now rewrite (opened_on_fun _ _ _ _ O O').
  Qed.

  Lemma outward_ext p p' c ts : p_ext p p' -> outward p c ts -> outward p' c ts.
  Proof.
    intros X. induction 1 as [c t M T|c t q ts M O K IH]; [apply outward_top|eapply outward_sub]; eauto using made_from_ext, top_level_ext, opened_on_ext.
  Qed.

  Lemma outward_exists (m : machine) : minv m -> forall v c t, made_from (m_proto m) c t -> ctx_value (m_store m) c = v -> exists ts, outward (m_proto m) c (t :: ts).
  Proof.
    intros M. induction v as [b tg|v IH b tg]; intros c t Mc E; destruct (mi_val _ M c t Mc) as [[T S]|(q & O & S)]; rewrite E in S; try discriminate.
    - exists []. now apply outward_top.
    - destruct (pinv_opened _ _ _ (mi_p _ M) O) as (u & Mq & _). injection S as S _. destruct (IH q u Mq (eq_sym S)) as [ts K].
      exists (u :: ts). eapply outward_sub; eauto.
  Qed.

  Lemma counted_begins (a : gstate) e f : ginv a -> begins a e = Some f -> counted a f 0.
  Proof.
    intros I B. pose proof (gi_m a I) as M.
    assert (K : forall get c i, ctx_live (m_proto (gs_m a)) c = true ->
      counted a (FLook get c i [ctx_buf (ctx_value (m_store (gs_m a)) c)] (ctx_value (m_store (gs_m a)) c)
        (rev (buf_ops (s_heap (m_store (gs_m a))) (ctx_buf (ctx_value (m_store (gs_m a)) c))))) 0).
    { intros get c i L. apply ctx_live_spec in L as [t N]. assert (Mf : made_from (m_proto (gs_m a)) c t) by now exists Live.
      cbn. rewrite (ctx_buf_value (gs_m a) c t M Mf). destruct (outward_exists _ M _ c t Mf eq_refl) as [ts K].
      exists [], t, ts, c. rewrite rev_length. unfold heap_of. cbn. repeat split; auto. }
    unfold begins in B. destruct e as [e|t|t k|w|g i|g|g c|g|g]; try discriminate.
    - destruct e as [| | | | |c i|c i| | |t [|]| |]; try discriminate.
      + destruct (ctx_live _ c) eqn:L; [|discriminate]. injection B as <-. now apply K.
      + destruct (ctx_live _ c) eqn:L; [|discriminate]. injection B as <-. now apply K.
      + destruct (publishes a t); [|discriminate]. now injection B as <-.
    - destruct (usable g a); [|discriminate]. now injection B as <-.
    - destruct (usable g a) as [[]|]; try discriminate. now injection B as <-.
  Qed.

  Lemma counted_step (a a' : gstate) f f' k : ginv a -> counted a f k -> f_step a f = (a', inl f') -> counted a f' (S k).
  Proof.
    intros I C E. pose proof (gi_m a I) as M. destruct f as [get c i held at_ [|o rest]|get c i held|c i held n|g i|g c [r|]|t l [|o rest]|t l]; cbn in E; try discriminate.
    - destruct C as (ts1 & t & ts2 & q & Eh & K1 & K2 & Ea & Ek & _). cbn in Ek.
      assert (Mq : made_from (m_proto (gs_m a)) q t) by (destruct (outward_made _ _ _ K2) as (t' & ts' & [= <- <-] & ?); assumption).
      destruct (mi_val _ M q t Mq) as [[T S]|(q2 & O & S)]; rewrite <- Ea in S; rewrite S in E; injection E as _ <-; cbn.
      + inversion K2 as [? ? ? T'|? ? ? ? ? O' ?]; subst; [|exfalso; eapply opened_on_top; eauto].
        split; [exact K1|]. rewrite size_app. unfold size at 2. cbn. lia.
      + destruct (pinv_opened _ _ _ (mi_p _ M) O) as (u & Mu & _). rewrite (ctx_buf_value (gs_m a) q2 u M Mu).
        inversion K2 as [? ? ? T'|? ? q' ts' ? O' K']; subst; [exfalso; eapply opened_on_top; eauto|].
        rewrite (opened_on_fun _ _ _ _ O' O) in K'. destruct (outward_made _ _ _ K') as (u' & ts3 & -> & Mu').
        rewrite (made_from_fun _ _ _ _ Mu' Mu) in *. exists (ts1 ++ [t]), u, ts3, q2. rewrite rev_length, size_app. unfold size at 2. unfold heap_of in *. cbn.
        repeat split; auto; [|lia]. rewrite <- app_assoc. exact K1.
    - destruct C as (ts1 & t & ts2 & q & Eh & K1 & K2 & Ea & Ek & Le). cbn in Ek, Le. destruct (eqb (op_id o) i).
      + destruct o as [n|j]; [|discriminate]. destruct get; [|discriminate]. injection E as _ <-. cbn. exists ts1, t, ts2. repeat split; auto; lia.
      + injection E as _ <-. cbn. exists ts1, t, ts2, q. repeat split; auto; lia.
    - destruct (Graph.g_step _ c). injection E as _ <-. exact Logic.I.
    - destruct (Graph.g_step _ _). injection E as _ <-. exact Logic.I.
  Qed.

  Lemma size_same h h' ts : agree ts h h' -> size h' ts = size h ts.
  Proof.
    intros A. unfold size. f_equal. apply map_ext_in. intros t It. now rewrite (A t It).
  Qed.

  Lemma counted_call (a : gstate) (e : gevent) f k : ginv a -> counted a f k -> begins a e = None -> match e with GCrash _ _ => False | _ => True end ->
    (forall b, writes a e = Some b -> ~ In b (reading f)) -> counted (fst (g_step a e)) f k.
  Proof.
    intros I C B K W. pose proof (ext_step a e B K) as X. pose proof (gi_m a I) as M.
    assert (Ag : agree (reading f) (heap_of a) (heap_of (fst (g_step a e)))).
    { intros b Hb. apply writes_only; auto. intros E. exact (W b E Hb). }
    assert (V : forall q u, made_from (m_proto (gs_m a)) q u -> ctx_value (m_store (gs_m (fst (g_step a e)))) q = ctx_value (m_store (gs_m a)) q).
    { intros q u Mq. destruct (step_machine a e B K) as [->|(e0 & -> & ->)]; [reflexivity|]. rewrite m_step_fst. cbn. apply ctx_value_exec.
      rewrite (mi_ctxs _ M). eapply made_from_lt; eauto. }
    destruct f as [get c i held at_ rest|get c i held|c i held n|g i| | |]; cbn in C, Ag |- *; try exact Logic.I.
    - destruct C as (ts1 & t & ts2 & q & -> & K1 & K2 & Ea & Ek & Le). exists ts1, t, ts2, q. apply agree_app in Ag as [A1 A2].
      rewrite (size_same _ _ _ A1), (A2 t (or_introl eq_refl)). destruct (outward_made _ _ _ K2) as (t' & ts' & [= <- <-] & Mq). rewrite (V q t Mq).
      repeat split; eauto using outward_ext.
    - destruct C as [K1 ->]. rewrite (size_same _ _ _ Ag). split; eauto using outward_ext.
    - destruct C as (ts1 & t & ts2 & -> & K1 & Le). exists ts1, t, ts2. apply agree_app in Ag as [A1 A2].
      rewrite (size_same _ _ _ A1), (A2 t (or_introl eq_refl)). split; [reflexivity|]. split; eauto using outward_ext.
  Qed.

  Definition counts (st : rstate) (ks : list nat) : Prop := Forall2 (counted (rs_g st)) (rs_frames st) ks.

  Lemma counts_step st a open ks e : rel st a open -> counts st ks -> snd (r_step st e) <> RAnswer (GX XHang) ->
    counts (fst (r_step st e)) (go_on ks e (snd (r_step st e))).
  Proof.
    intros R C NH. pose proof R as [I Hh O S]. unfold counts in *.
    assert (Hg : gs_hung (rs_g st) = false) by (destruct S as [[-> _]|(f & g' & _ & _ & ->)]; exact Hh).
    unfold r_step in *. rewrite Hg in *. destruct e as [e| |].
    - destruct (rejected (rs_frames st) e) eqn:Rj; [exact C|]. pose proof (rejected_all _ _ Rj) as [NC Nb].
      destruct S as [[E Cm]|(f & g' & Ef & A & E)].
      + rewrite E in *. destruct (begins a e) as [f|] eqn:B.
        * cbn. constructor; [eapply counted_begins; eauto|exact C].
        * destruct (waits (rs_frames st) a e) eqn:W; [cbn in NH; congruence|]. destruct (g_step a e) as [a' o] eqn:G. cbn [fst snd rs_g rs_frames] in *.
          replace (go_on ks (RCall e) (RAnswer o)) with ks by (destruct o as [[]| |]; reflexivity).
          pose proof (fun f (If : In f (rs_frames st)) k (Q : counted a f k) => counted_call a e f k I Q B NC (fun b Wb => waits_false _ _ _ W b Wb f If)) as K.
          rewrite G in K. cbn [fst] in K. clear - C K. induction C as [|f k fs ks C0 C1 IH]; constructor; [apply K; [now left|exact C0]|].
          apply IH. intros f' If. apply K. now right.
      + rewrite Ef in *. destruct (private_call a g' f e I Hh (alone_private a g' f I A) Rj) as (B & o & a' & G1 & G2 & PA).
        rewrite E in *. rewrite B, (alone_waits a g' f _ e A), G2 in *. cbn [fst snd rs_g rs_frames] in *.
        replace (go_on ks (RCall e) (RAnswer o)) with ks by (destruct o as [[]| |]; reflexivity).
        inversion C as [|f1 k fs1 ks1 C0 C1]; subst. inversion C1; subst. constructor; [|constructor].
        destruct f as [| | | | | |]; try contradiction; exact Logic.I.
    - destruct (rs_frames st) as [|f fs] eqn:Fs; [cbn [fst rs_frames]; rewrite Fs; inversion C; constructor|].
      inversion C as [|f1 k fs1 ks1 C0 C1]; subst.
      destruct S as [[E Cm]|(f0 & g' & Ef & A & E)].
      + rewrite E in *. inversion Cm as [|x y [F0 F2] F1]. subst x y. pose proof (calm_step a f I Hh F0) as K.
        destruct (f_step a f) as [a1 [f'|o]] eqn:Fo; cbn [fst snd rs_g rs_frames] in *.
        * destruct K as (-> & K & Ec). cbn. constructor; [eapply counted_step; eauto|exact C1].
        * destruct K as [-> K]. destruct (f_step_out _ _ _ _ Fo) as [N1 N2]. destruct o as [[]| |]; cbn; congruence || exact C1.
      + injection Ef as -> ->. inversion C1; subst. rewrite E in *. pose proof (alone_step a g' f0 I Hh A) as K.
        destruct (f_step (with_graph g' a) f0) as [a1 [f'|o]] eqn:Fo; cbn [fst snd rs_g rs_frames] in *.
        * destruct K as (g2 & -> & A2 & Ec). cbn. constructor; [|constructor]. destruct f' as [| | | | | |]; try contradiction; exact Logic.I.
        * destruct (f_step_out _ _ _ _ Fo) as [N1 N2]. destruct o as [[]| |]; cbn; congruence || constructor.
    - destruct (rs_frames st) as [|f fs] eqn:Fs; [cbn [fst rs_frames]; rewrite Fs; inversion C; constructor|].
      pose proof C as C'. inversion C as [|f1 k fs1 ks1 C0 C1]; subst.
      destruct f as [| | | | |t [|x l] [|y rest]|]; cbn [fst snd rs_g rs_frames go_on]; rewrite ?Fs; try exact C1; try exact C'; constructor; try exact C1; exact Logic.I.
  Qed.

  Lemma counts_run es : forall st a open ks, rel st a open -> counts st ks -> ~ In (RAnswer (GX XHang)) (snd (r_run st es)) ->
    counts (fst (r_run st es)) (went_on ks es (snd (r_run st es))).
  Proof.
    induction es as [|e es IH]; intros st a open ks R C NH; [exact C|]. cbn in *.
    pose proof (rel_step st a open e R) as K. pose proof (counts_step st a open ks e R C) as K'. destruct (r_step st e) as [st1 o]. cbn [fst snd] in K, K'.
    specialize (IH st1). destruct (r_run st1 es) as [st2 os]. cbn in *.
    destruct K as (a1 & G1 & R1); [intros E; apply NH; auto|]. eapply IH; [exact R1|apply K'; intros E; apply NH; auto|auto].
  Qed.

  Lemma counts_after g0 (es : list (revent Id Node)) : g_wf g0 -> r_returns g0 es -> counts (r_after g0 es) (steps g0 es).
  Proof.
    intros W NH. assert (R : rel (r_init g0) (g_init g0) []).
    { constructor; cbn; auto. apply (ginv_after g0 [] W). }
    apply (counts_run es (r_init g0) (g_init g0) [] [] R); [constructor|exact NH].
  Qed.

  Lemma app_split {A} (l1 l2 m1 m2 : list A) : l1 ++ l2 = m1 ++ m2 -> (exists x, l1 = m1 ++ x /\ m2 = x ++ l2) \/ (exists x, m1 = l1 ++ x /\ l2 = x ++ m2).
  Proof.
    revert m1. induction l1 as [|a l1 IH]; intros [|b m1] E; cbn in E.
    - left. exists []. auto.
    - right. exists (b :: m1). auto.
    - left. exists (a :: l1). auto.
    - injection E as <- E. destruct (IH m1 E) as [(x & -> & ->)|(x & -> & ->)]; [left|right]; exists x; auto.
  Qed.

  (** What a read has locked: what it has come to. *)
  Lemma locked_exactly (a : gstate) f k t : ginv a -> finds a f -> counted a f k ->
    (In t (reading f) <-> exists c ts1 ts2, reads_context c (call_of f) /\ outward (m_proto (gs_m a)) c (ts1 ++ t :: ts2) /\ size (heap_of a) ts1 <= k).
  Proof.
    intros I F C. pose proof (mi_p _ (gi_m a I)) as P.
    assert (G : forall c held l1 l2 u, held = l1 ++ [u] -> outward (m_proto (gs_m a)) c (l1 ++ u :: l2) ->
      size (heap_of a) l1 <= k <= size (heap_of a) l1 + length (buf_ops (heap_of a) u) -> reads_context c (call_of f) -> reading f = held ->
      (forall c', reads_context c' (call_of f) -> c' = c) ->
      In t (reading f) <-> exists c ts1 ts2, reads_context c (call_of f) /\ outward (m_proto (gs_m a)) c (ts1 ++ t :: ts2) /\ size (heap_of a) ts1 <= k).
    { intros c held l1 l2 u Eh K Le Rc -> Uq. split.
      - intros It. rewrite Eh in It. apply in_split in It as (ts1 & x & Es). exists c, ts1, (x ++ l2). split; [exact Rc|].
        assert (Q : l1 ++ u :: l2 = ts1 ++ t :: x ++ l2).
        { replace (l1 ++ u :: l2) with ((l1 ++ [u]) ++ l2) by now rewrite <- app_assoc. rewrite Es, <- app_assoc. reflexivity. }
        split; [now rewrite <- Q|]. destruct (app_split _ _ _ _ Es) as [(y & E1 & E2)|(y & E1 & E2)].
        + rewrite E1, size_app in Le. lia.
        + destruct y as [|z y]; [rewrite app_nil_r in E1; subst; lia|]. exfalso. destruct y; discriminate.
      - intros (c' & ts1 & ts2 & Rc' & K' & Ls). rewrite (Uq c' Rc') in K'. pose proof (outward_fun _ P _ _ K _ K') as Q.
        replace (l1 ++ u :: l2) with ((l1 ++ [u]) ++ l2) in Q by now rewrite <- app_assoc. rewrite Eh.
        destruct (app_split _ _ _ _ Q) as [(y & E1 & E2)|(y & E1 & E2)].
        + destruct y as [|z y]; [|injection E2 as <- _; rewrite E1; apply in_app_iff; right; now left].
          exfalso. rewrite app_nil_r in E1. rewrite <- E1, size_app in Ls. unfold size at 2 in Ls. cbn in Ls. lia.
        + exfalso. rewrite E1, !size_app in Ls. unfold size at 2 in Ls. cbn in Ls. lia. }
    destruct f as [get c i held at_ rest|get c i held|c i held n|g i| | |]; try contradiction; cbn in C.
    - destruct C as (l1 & u & l2 & q & Eh & K1 & K2 & Ea & Ek & Le). apply (G c held l1 l2 u Eh K1); [lia|destruct get; reflexivity|reflexivity|].
      destruct get; cbn; auto.
    - destruct C as [K1 Ek]. destruct (exists_last (l := held)) as (l1 & u & Eh).
      { destruct (outward_made _ _ _ K1) as (x & y & -> & _). discriminate. }
      subst held. rewrite size_app in Ek. unfold size at 2 in Ek. cbn in Ek.
      split.
      + intros It. cbn in It. apply in_split in It as (ts1 & x & Es). exists c, ts1, x. split; [destruct get; reflexivity|]. rewrite <- Es. split; [exact K1|].
        assert (Z : size (heap_of a) (l1 ++ [u]) = size (heap_of a) (ts1 ++ t :: x)) by now rewrite Es. rewrite !size_app in Z. unfold size at 2 in Z. cbn in Z. lia.
      + intros (c' & ts1 & ts2 & Rc' & K' & _). assert (c' = c) as -> by (destruct get; cbn in Rc'; congruence). cbn.
        rewrite (outward_fun _ P _ _ K1 _ K'). apply in_app_iff. right. now left.
    - destruct C as (l1 & u & l2 & Eh & K1 & Le). apply (G c held l1 l2 u Eh K1); auto. reflexivity.
    - split; [intros []|]. intros (c & _ & _ & [] & _).
  Qed.

  Lemma steps_past_size g0 (es : list gevent) ts : g_wf g0 -> steps_past g0 es ts = size (heap_of (g_after g0 es)) ts.
  Proof. intros W. unfold steps_past, size, heap_of. f_equal. apply map_ext. intros t. now rewrite (gathered_ops g0 es t W), map_length. Qed.

  Lemma Forall2_nth {A B} (P : A -> B -> Prop) l1 l2 : Forall2 P l1 l2 -> forall n x y, nth_error l1 n = Some x -> nth_error l2 n = Some y -> P x y.
  Proof.
    induction 1 as [|a b l1 l2 K F IH]; intros [|n] x y N1 N2; try discriminate; cbn in *; [congruence|eauto].
  Qed.

  Lemma Forall2_len {A B} (P : A -> B -> Prop) l1 l2 : Forall2 P l1 l2 -> length l1 = length l2.
  Proof. induction 1; cbn; congruence. Qed.

  Lemma locked_come_to g0 (es : list (revent Id Node)) t : g_wf g0 -> r_returns g0 es ->
    ((exists f, In f (rs_frames (r_after g0 es)) /\ In t (reading f)) <-> has_come_to g0 es t).
  Proof.
    intros W NH. destruct (rel_after g0 es W NH) as [_ R]. pose proof (counts_after g0 es W NH) as C. unfold has_come_to.
    set (st := r_after g0 es) in *. set (a := g_after g0 (calls g0 es)) in *.
    assert (Sz : forall ts, steps_past g0 (calls g0 es) ts = size (heap_of a) ts) by (intros ts; now apply steps_past_size).
    pose proof (rl_open _ _ _ R) as O. pose proof (rl_inv _ _ _ R) as I.
    destruct (rl_state _ _ _ R) as [[E Cm]|(f & g' & Ef & A & _)].
    - unfold counts in C. rewrite E in C. rewrite Forall_forall in Cm. split.
      + intros (f & If & It). apply In_nth_error in If as [n N]. pose proof (nth_error_In _ _ N) as If. destruct (Cm f If) as [F _].
        assert (exists k, nth_error (steps g0 es) n = Some k) as [k Nk].
        { destruct (nth_error (steps g0 es) n) eqn:Q; [eauto|]. apply nth_error_None in Q. pose proof (Forall2_len _ _ _ C).
          assert (n < length (rs_frames st)) by (apply nth_error_Some; congruence). lia. }
        apply (locked_exactly a f k t I F (Forall2_nth _ _ _ C n f k N Nk)) in It as (c & ts1 & ts2 & Rc & K & L).
        exists n, (call_of f), c, k, ts1, ts2. rewrite <- O, Sz. repeat split; auto. now apply map_nth_error.
      + intros (n & e0 & c & k & ts1 & ts2 & Nu & Rc & Nk & K & L). rewrite <- O in Nu. rewrite Sz in L.
        rewrite nth_error_map in Nu. destruct (nth_error (rs_frames st) n) as [f|] eqn:N; [|discriminate]. injection Nu as <-.
        pose proof (nth_error_In _ _ N) as If. destruct (Cm f If) as [F _]. exists f. split; [exact If|].
        apply (locked_exactly a f k t I F (Forall2_nth _ _ _ C n f k N Nk)). eauto 6.
    - split.
      + intros (f' & If & It). rewrite Ef in If. destruct If as [<-|[]]. rewrite (alone_reading _ _ _ A) in It. contradiction.
      + intros (n & e0 & c & k & ts1 & ts2 & Nu & Rc & _). exfalso. rewrite <- O, Ef in Nu. apply nth_error_In in Nu as [<-|[]].
        destruct f as [[]|[]| | | | |]; contradiction.
  Qed.
End Facts.
