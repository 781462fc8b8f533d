(** Facts about the calls of programs: the worlds of Prog.v and the states of Unwind.v go together. *)
From Coq Require Import List Bool Arith Lia.
From Verif Require Import Cells Ord OrdFacts BTree BTreeFacts Graph GraphFacts Tx TxFacts TxMachine TxMachineFacts Guards GuardsFacts Unwind UnwindFacts Prog SpecProg ProgFacts ProgFrame ProgTrace SpecCalls.
Import ListNotations.

Section Facts.
  Context {Id Node V U : Type} `{HO : OrdT Id} `{HI : Identify Node Id}.
  Notation prog := (prog Id Node V U).
  Notation world := (world Id Node V U).
  Notation schema := (schema Id Node V U).
  Notation outcome := (outcome V).
  Notation trigger := (trigger Id Node V U).
  Notation cell := (cell Node U).
  Notation happening := (happening Id Node).
  Notation ustate := (ustate Id Node).
  Notation uevent := (uevent Id Node).
  Notation gout := (gout Id Node).
  Notation made := (@made Id Node U).
  Notation kstate := (kstate (dyn Node U)).
  Notation state := (@state Id Node U).
  Notation env := (list (nat * nat)).

  (** ** Histories *)
  Lemma told_nil (st : state) : told st [] st.
  Proof. reflexivity. Qed.

  Lemma told_app es1 : forall (st : state) es2 st', told st (es1 ++ es2) st' <-> exists st1, told st es1 st1 /\ told st1 es2 st'.
  Proof.
    induction es1 as [|x es1 IH]; intros st es2 st'; cbn [app told].
    - split; [eauto|]. now intros (x & -> & T).
    - split.
      + intros (s1 & E & T). apply IH in T as (s2 & T1 & T2). eauto.
      + intros (s2 & (s1 & E & T1) & T2). exists s1. split; [assumption|]. apply IH. eauto.
  Qed.

  Lemma answered_fun (st : state) x st1 st2 : answered st x st1 -> answered st x st2 -> st1 = st2.
  Proof. destruct st1 as [u1 k1], st2 as [u2 k2], x; cbn; intros [] []; congruence. Qed.

  Lemma told_fun es : forall (st : state) st1 st2, told st es st1 -> told st es st2 -> st1 = st2.
  Proof.
    induction es as [|x es IH]; cbn; intros st st1 st2; [congruence|]. intros (s & A & T) (s' & A' & T').
    rewrite (answered_fun _ _ _ _ A A') in T. eauto.
  Qed.

  Ltac pj := cbn [us_g us_panics us_poisoned us_calm us_calm_txs gs_m gs_guards gs_lost gs_hung m_proto m_store p_txs p_ctxs p_hung s_graph s_heap s_ctxs w_graph w_lock w_poison w_heap w_leaked w_cells w_out set_graph set_lock set_poison set_heap set_leaked set_cells tx_parent tx_open tx_guard cr_tx cr_status sg_write sg_status].
  Ltac pjs := cbn [us_g us_panics us_poisoned us_calm us_calm_txs gs_m gs_guards gs_lost gs_hung m_proto m_store p_txs p_ctxs p_hung s_graph s_heap s_ctxs w_graph w_lock w_poison w_heap w_leaked w_cells w_out set_graph set_lock set_poison set_heap set_leaked set_cells tx_parent tx_open tx_guard cr_tx cr_status sg_write sg_status] in *.

  (** ** What never goes away *)
  Notation proto_of st := (m_proto (gs_m (us_g st))).
  Notation store_of st := (m_store (gs_m (us_g st))).

  Definition grows (st st' : ustate) : Prop :=
    (exists l, s_ctxs (store_of st') = s_ctxs (store_of st) ++ l) /\
    forall t x, nth_error (p_txs (proto_of st)) t = Some x -> exists x', nth_error (p_txs (proto_of st')) t = Some x' /\ tx_parent x' = tx_parent x.

  Lemma grows_refl st : grows st st.
  Proof. split; [exists []; now rewrite app_nil_r|eauto]. Qed.

  Lemma grows_trans st1 st2 st3 : grows st1 st2 -> grows st2 st3 -> grows st1 st3.
  Proof.
    intros [[l E] G] [[l' E'] G']. split.
    - exists (l ++ l'). now rewrite E', E, app_assoc.
    - intros t x N. apply G in N as (x1 & N & P). apply G' in N as (x2 & N & P'). exists x2. split; congruence.
  Qed.

  Lemma m_step_grows (m : @machine Id Node) e :
    (exists l, s_ctxs (m_store (fst (m_step m e))) = s_ctxs (m_store m) ++ l) /\
    forall t x, nth_error (p_txs (m_proto m)) t = Some x -> exists x', nth_error (p_txs (m_proto (fst (m_step m e)))) t = Some x' /\ tx_parent x' = tx_parent x.
  Proof.
    destruct m as [[txs ctxs hung] [g heap cs]]. unfold m_step.
    assert (Snoc : forall y t x, nth_error txs t = Some x -> exists x', nth_error (txs ++ [y]) t = Some x' /\ tx_parent x' = tx_parent x).
    { intros y t x N. exists x. split; [|reflexivity]. rewrite nth_error_app1; [assumption|]. apply nth_error_Some; congruence. }
    assert (Alt : forall f n, (forall x, tx_parent (f x) = tx_parent x) -> forall t x, nth_error txs t = Some x ->
              exists x', nth_error (alter f n txs) t = Some x' /\ tx_parent x' = tx_parent x).
    { intros f n F t x N. rewrite nth_error_alter, N. destruct (Nat.eqb_spec n t); cbn; eexists; split; try reflexivity. apply F. }
    assert (K : forall (p : proto) a, (p, a) = p_step (Proto txs ctxs hung) e ->
       (exists l, s_ctxs (fst (m_exec (Store g heap cs) a)) = cs ++ l) /\
       forall t x, nth_error txs t = Some x -> exists x', nth_error (p_txs p) t = Some x' /\ tx_parent x' = tx_parent x).
    { assert (Z : exists l, cs = cs ++ l) by (exists []; now rewrite app_nil_r).
      intros p a. unfold p_step. cbn [p_hung p_txs p_ctxs]. destruct hung; [intros [= -> ->]; cbn; eauto|].
      destruct e; try (intros [= -> ->]; cbn; eauto; fail);
        try (destruct (ctx_live _ _); intros [= -> ->]; cbn; eauto; fail);
        try (destruct (ctx_live _ _ && _); intros [= -> ->]; cbn; eauto; fail);
        try (destruct (guard_held _); intros [= -> ->]; cbn; eauto; fail).
      - destruct (nth_error txs t) as [[[c|] [] []]|]; try (intros [= -> ->]; cbn; eauto; fail).
        destruct (guard_held _); intros [= -> ->]; cbn; eauto.
      - destruct (nth_error txs t) as [[par gd []]|]; try (intros [= -> ->]; cbn; eauto; fail).
        destruct (has_ctx _ _ Live); [intros [= -> ->]; cbn; eauto; fail|].
        destruct (negb commit); [|destruct (has_ctx _ _ Leaked); [|destruct par; [|destruct gd]]]; intros [= -> ->]; cbn; (split; [eauto|]); apply Alt; reflexivity. }
    cbn [m_proto m_store] in *.
    destruct (p_step (Proto txs ctxs hung) e) as [p a]. specialize (K _ _ eq_refl).
    destruct (m_exec (Store g heap cs) a) as [s o]. cbn in *. exact K.
  Qed.

  Lemma g_step_grows (st : gstate Id Node) e :
    (exists l, s_ctxs (m_store (gs_m (fst (Guards.g_step st e)))) = s_ctxs (m_store (gs_m st)) ++ l) /\
    forall t x, nth_error (p_txs (m_proto (gs_m st))) t = Some x ->
      exists x', nth_error (p_txs (m_proto (gs_m (fst (Guards.g_step st e))))) t = Some x' /\ tx_parent x' = tx_parent x.
  Proof.
    assert (Z : (exists l, s_ctxs (m_store (gs_m st)) = s_ctxs (m_store (gs_m st)) ++ l) /\
       forall t x, nth_error (p_txs (m_proto (gs_m st))) t = Some x -> exists x', nth_error (p_txs (m_proto (gs_m st))) t = Some x' /\ tx_parent x' = tx_parent x)
      by (split; [exists []; now rewrite app_nil_r|eauto]).
    assert (K : forall t k, (exists l, s_ctxs (m_store (gs_m (fst (Guards.g_step st (GCrash t k))))) = s_ctxs (m_store (gs_m st)) ++ l) /\
       forall t' x, nth_error (p_txs (m_proto (gs_m st))) t' = Some x ->
         exists x', nth_error (p_txs (m_proto (gs_m (fst (Guards.g_step st (GCrash t k)))))) t' = Some x' /\ tx_parent x' = tx_parent x).
    { intros t k. destruct (crash_cases st t k) as [[->| ->]|[_ ->]]; [exact Z|exact Z|]. unfold crashed. split; [exact (proj1 Z)|].
      intros t' x N. cbn. rewrite nth_error_alter, N. destruct (Nat.eqb t t'); cbn; eexists; split; reflexivity. }
    destruct e as [e|t|t k|w|g i|g|g c|g|g]; [| |apply K| | | | | |]; unfold Guards.g_step; (destruct (gs_hung st); [exact Z|]).
    - destruct (of_lost st e); [exact Z|].
      pose proof (m_step_grows (gs_m st) e) as M.
      assert (P : (exists l, s_ctxs (m_store (gs_m (fst (g_pass st e)))) = s_ctxs (m_store (gs_m st)) ++ l) /\
         forall t x, nth_error (p_txs (m_proto (gs_m st))) t = Some x ->
           exists x', nth_error (p_txs (m_proto (gs_m (fst (g_pass st e))))) t = Some x' /\ tx_parent x' = tx_parent x).
      { unfold g_pass. destruct (m_step (gs_m st) e) as [m o]. exact M. }
      destruct (asks st e) as [w|]; [destruct (locked w st); [exact Z|]|]; exact P.
    - destruct (lost t st); [exact Z|]. destruct (nth_error _ t) as [[[c|] [] []]|]; try exact Z. destruct (has_ctx _ _ _); exact Z.
    - destruct (locked w st); exact Z.
    - destruct (usable g st); exact Z.
    - destruct (usable g st); exact Z.
    - destruct (usable g st) as [[]|]; try exact Z. destruct (Graph.g_step _ c) as [g' r]. exact Z.
    - destruct (usable g st); exact Z.
    - destruct (usable g st); exact Z.
  Qed.

  Lemma u_step_grows (st : ustate) e : grows st (fst (u_step st e)).
  Proof.
    destruct e as [e| |]; unfold u_step.
    - unfold grows. rewrite (proj1 (call_g st e)). apply g_step_grows.
    - destruct (gs_hung _); exact (grows_refl st).
    - destruct (gs_hung _); [exact (grows_refl st)|]. destruct (us_panics st); exact (grows_refl st).
  Qed.

  Lemma told_grows es : forall (st : state) st', told st es st' -> grows (fst st) (fst st').
  Proof.
    induction es as [|x es IH]; intros st st' T.
    - cbn in T. subst. apply grows_refl.
    - destruct T as (s1 & E & T). eapply grows_trans; [|eapply IH; exact T].
      destruct x as [e a|e a|t w h a]; cbn in E; destruct E as [E Eq]; try (rewrite Eq; apply grows_refl).
      pose proof (u_step_grows (fst st) e) as G. now rewrite E in G.
  Qed.

  (** ** Worlds and states *)
  Definition writes (l : glock) : bool := match l with GWrite => true | _ => false end.

  Record rel (en : env) (gs : list nat) (d : nat) (w : world) (st : ustate) : Prop := {
    r_graph : s_graph (store_of st) = w_graph w;
    r_poison : us_poisoned st = w_poison w;
    r_panics : us_panics st = d;
    r_hung1 : gs_hung (us_g st) = false;
    r_hung2 : p_hung (proto_of st) = false;
    r_lost : gs_lost (us_g st) = [];
    r_heap : length (w_heap w) = length en;
    r_heaps : length (s_heap (store_of st)) = length (p_txs (proto_of st));
    r_ctxs : length (s_ctxs (store_of st)) = length (p_ctxs (proto_of st));
    r_buf : forall b t h, nth_error en b = Some (t, h) -> buf_ops (w_heap w) b = buf_ops (s_heap (store_of st)) t;
    r_val : forall b t h, nth_error en b = Some (t, h) -> ctx_buf (ctx_value (store_of st) h) = t;
    r_ctx : forall b t h, nth_error en b = Some (t, h) -> nth_error (p_ctxs (proto_of st)) h = Some (CtxRec t Live);
    r_tx : forall b t h, nth_error en b = Some (t, h) -> exists par, nth_error (p_txs (proto_of st)) t = Some (TxRec par (b =? 0) true) /\
      match par with None => b = 0 | Some h' => b <> 0 /\ exists b' t', b' < b /\ nth_error en b' = Some (t', h') end;
    r_in_use : forall b t h, nth_error en b = Some (t, h) -> has_ctx (proto_of st) t Leaked = leaked w b;
    r_calm_tx : forall b t h, nth_error en b = Some (t, h) -> existsb (Nat.eqb t) (us_calm_txs st) = (b =? 0);
    r_inj : forall b b' t h h', nth_error en b = Some (t, h) -> nth_error en b' = Some (t, h') -> b = b';
    r_open : forall t x, nth_error (p_txs (proto_of st)) t = Some x -> tx_open x = true -> exists b h, nth_error en b = Some (t, h);
    r_held : forall t x, nth_error (p_txs (proto_of st)) t = Some x -> tx_guard x = true -> tx_open x = true;
    r_live : forall h t, nth_error (p_ctxs (proto_of st)) h = Some (CtxRec t Live) -> exists b, nth_error en b = Some (t, h);
    r_of : forall h t s, nth_error (p_ctxs (proto_of st)) h = Some (CtxRec t s) -> t < length (p_txs (proto_of st));
    r_calm_txs : forall t, In t (us_calm_txs st) -> t < length (p_txs (proto_of st));
    r_leaked : forall b, In b (w_leaked w) -> b < length en;
    r_lock : match w_lock w with
             | GFree => en = [] /\ gs = []
             | GTx => en <> [] /\ gs = []
             | GReaders n => en = [] /\ length gs = S n
             | GWrite => en = [] /\ length gs = 1
             end;
    r_dropped : forall g x, nth_error (gs_guards (us_g st)) g = Some x -> sg_status x = Dropped \/ In g gs;
    r_gs : forall g, In g gs -> nth_error (gs_guards (us_g st)) g = Some (SGuard (writes (w_lock w)) Live) /\ nth g (us_calm st) false = true;
    r_nodup : NoDup gs;
    r_calm : length (us_calm st) = length (gs_guards (us_g st))
  }.

  Lemma rel_start (w : world) : at_rest w -> rel [] [] 0 w (start w).
  Proof.
    intros (L & Hp & Le).
    assert (N : forall A n (x : A), nth_error [] n = Some x -> False) by (intros A [|n] x; discriminate).
    constructor; cbn; auto; try (rewrite Hp; reflexivity); try (intros; exfalso; eauto; fail); try (intros; tauto).
    - rewrite Le. intros b [].
    - rewrite L. auto.
    - constructor.
  Qed.

  (** What does not concern the machine. *)
  Lemma rel_cells en gs d w st cs : rel en gs d w st -> rel en gs d (set_cells cs w) st.
  Proof. intros []; constructor; assumption. Qed.
  Lemma rel_emit en gs d w st v : rel en gs d w st -> rel en gs d (emit v w) st.
  Proof. intros []; constructor; assumption. Qed.

  (** ** The lock of the graph *)
  Lemma held_env en gs d w st : rel en gs d w st -> guard_held (proto_of st) = match en with [] => false | _ => true end.
  Proof.
    intros R. destruct en as [|[t h] en].
    - destruct (guard_held _) eqn:E; [|reflexivity]. apply guard_held_true in E as (t & x & N & G).
      destruct (r_open _ _ _ _ _ R _ _ N (r_held _ _ _ _ _ R _ _ N G)) as ([|b] & h & X); discriminate.
    - apply guard_held_true. destruct (r_tx _ _ _ _ _ R 0 t h eq_refl) as (par & N & _). eexists _, _; split; [exact N|reflexivity].
  Qed.

  Lemma held_guards en gs d w st wr : rel en gs d w st ->
    Guards.held wr (us_g st) = (Bool.eqb (writes (w_lock w)) wr) && match gs with [] => false | _ => true end.
  Proof.
    intros R. unfold Guards.held. destruct (existsb _ _) eqn:E.
    - apply existsb_exists in E as (x & I & Hx). apply In_nth_error in I as [g N]. unfold holds in Hx.
      apply andb_true_iff in Hx as [W S]. destruct (r_dropped _ _ _ _ _ R _ _ N) as [D|I]; [rewrite D in S; discriminate|].
      destruct (r_gs _ _ _ _ _ R _ I) as [N' _]. rewrite N in N'. injection N' as ->. cbn in W. rewrite W. destruct gs; [destruct I|reflexivity].
    - destruct gs as [|g gs]; [now rewrite andb_false_r|]. rewrite andb_true_r.
      destruct (r_gs _ _ _ _ _ R g (or_introl eq_refl)) as [N _]. destruct (Bool.eqb _ wr) eqn:W; [|reflexivity].
      apply nth_error_In in N. assert (X : existsb (holds wr) (gs_guards (us_g st)) = true); [|congruence].
      apply existsb_exists. eexists; split; [exact N|]. unfold holds. cbn. now rewrite W.
  Qed.

  Lemma locked_lock en gs d w st wr : rel en gs d w st ->
    locked wr (us_g st) = match w_lock w with GFree => false | GReaders _ => wr | GTx | GWrite => true end.
  Proof.
    intros R. unfold locked. rewrite (held_env _ _ _ _ _ R), !(held_guards _ _ _ _ _ _ R).
    pose proof (r_lock _ _ _ _ _ R) as L. destruct (w_lock w) as [|n| |]; cbn [writes Bool.eqb].
    - destruct L as [-> ->]. now destruct wr.
    - destruct L as [-> L]. destruct gs; [discriminate|]. now destruct wr.
    - destruct L as [L ->]. destruct en; [congruence|reflexivity].
    - destruct L as [-> L]. destruct gs; [discriminate|]. now destruct wr.
  Qed.

  (** ** Names of contexts *)
  Fixpoint names (en : env) (x mc : ctx) : Prop :=
    match x, mc with
    | CRoot b _, CRoot t _ => exists h, nth_error en b = Some (t, h)
    | CSub p b _, CSub mp t _ => (exists h, nth_error en b = Some (t, h)) /\ names en p mp
    | _, _ => False
    end.

  Definition bound (en : env) (st : ustate) (x : ctx) : Prop :=
    exists t h mc, nth_error en (ctx_buf x) = Some (t, h) /\ nth_error (s_ctxs (store_of st)) h = Some mc /\ names en x mc.

  Lemma names_app en l x : forall mc, names en x mc -> names (en ++ l) x mc.
  Proof.
    assert (A : forall b t, (exists h, nth_error en b = Some (t, h)) -> exists h, nth_error (en ++ l) b = Some (t, h)).
    { intros b t [h E]. exists h. rewrite nth_error_app1; [assumption|]. apply nth_error_Some. congruence. }
    induction x as [b a|p IH b a]; intros [t a'|mp t a']; cbn; auto. intros [E N]. auto.
  Qed.

  Lemma bound_grows en st st' x : grows st st' -> bound en st x -> bound en st' x.
  Proof.
    intros [[l E] _] (t & h & mc & N & M & A). exists t, h, mc. repeat split; auto.
    rewrite E, nth_error_app1; [assumption|]. apply nth_error_Some. congruence.
  Qed.

  Lemma bound_app en l st x : bound en st x -> bound (en ++ l) st x.
  Proof.
    intros (t & h & mc & N & M & A). exists t, h, mc. repeat split; auto using names_app.
    rewrite nth_error_app1; [assumption|]. apply nth_error_Some. congruence.
  Qed.

  Lemma bound_target en st c a : bound en st c -> bound en st (ctx_with_target c a).
  Proof.
    intros (t & h & mc & N & M & A). exists t, h, mc. destruct c; cbn in *; auto.
  Qed.

  Lemma bound_same en st c x : bound en st c -> same_context c x -> bound en st x.
  Proof. intros B [->|[a ->]]; auto using bound_target. Qed.

  Lemma names_get en gs d w st x : rel en gs d w st -> forall mc, names en x mc -> forall i,
    ctx_get (w_heap w) (w_graph w) x i = ctx_get (s_heap (store_of st)) (s_graph (store_of st)) mc i.
  Proof.
    intros R. induction x as [b a|p IH b a]; intros [t a'|mp t a'] N i; cbn [names] in N; try contradiction.
    - destruct N as [h N]. cbn. now rewrite (r_buf _ _ _ _ _ R _ _ _ N), (r_graph _ _ _ _ _ R).
    - destruct N as [[h N] N']. cbn. rewrite (r_buf _ _ _ _ _ R _ _ _ N). now rewrite (IH _ N' i).
  Qed.

  Lemma names_contains en gs d w st x : rel en gs d w st -> forall mc, names en x mc -> forall i,
    ctx_contains (w_heap w) (w_graph w) x i = ctx_contains (s_heap (store_of st)) (s_graph (store_of st)) mc i.
  Proof. intros R mc N i. rewrite !ctx_contains_get. now rewrite (names_get _ _ _ _ _ _ R _ N). Qed.

  (** ** Calls on the machine *)
  Definition with_m (m : @machine Id Node) (st : ustate) : ustate :=
    UState (GState m (gs_guards (us_g st)) (gs_lost (us_g st)) (gs_hung (us_g st))) (us_panics st) (us_poisoned st) (us_calm st) (us_calm_txs st).

  Lemma pass_step en gs d w st e m o : rel en gs d w st -> asks (us_g st) e = None -> m_step (gs_m (us_g st)) e = (m, o) ->
    o <> XHang -> o <> XInvalid -> (forall t b, e <> EEnd t b) ->
    u_step st (UEvent (GEvent e)) = (with_m m st, (GX o, [])).
  Proof.
    intros R A M NH NI NE. unfold u_step, u_call, Guards.g_step. rewrite (r_hung1 _ _ _ _ _ R).
    assert (L : of_lost (us_g st) e = false) by (destruct e; cbn; auto; unfold lost; now rewrite (r_lost _ _ _ _ _ R)).
    rewrite L. rewrite A. unfold g_pass. rewrite M.
    assert (Rt : returned (GX o : gout) = true) by (destruct o; try reflexivity; congruence). rewrite Rt.
    assert (T : takes (us_g st) (GEvent e) = false) by (cbn; now rewrite A). rewrite T.
    assert (Po : Unwind.poisons st (GEvent e) = false) by (destruct e; auto; exfalso; eapply NE; reflexivity).
    rewrite Po, orb_false_r. assert (El : end_log (us_g st) (GEvent e) = []) by (destruct e as [| | | | | | | | |t []| |]; cbn; auto; exfalso; eapply NE; reflexivity).
    rewrite El. cbn [andb app]. unfold with_m. destruct e; reflexivity.
  Qed.

  Lemma asks_env en gs d w st b t h : rel en gs d w st -> nth_error en b = Some (t, h) -> asks (us_g st) (EContext t) = None.
  Proof.
    intros R N. cbn. destruct (r_tx _ _ _ _ _ R _ _ _ N) as (par & T & P). rewrite T. destruct par; [reflexivity|]. now subst.
  Qed.

  Lemma live_env en gs d w st b t h : rel en gs d w st -> nth_error en b = Some (t, h) -> ctx_live (proto_of st) h = true.
  Proof. intros R N. apply ctx_live_spec. exists t. eapply r_ctx; eauto. Qed.

  Lemma bound_value en gs d w st c t h : rel en gs d w st -> bound en st c -> nth_error en (ctx_buf c) = Some (t, h) ->
    names en c (ctx_value (store_of st) h) /\ ctx_buf (ctx_value (store_of st) h) = t.
  Proof.
    intros R (t' & h' & mc & N & M & A) N'. rewrite N in N'. injection N' as -> ->.
    unfold ctx_value. rewrite (nth_error_nth _ _ _ M). split; [assumption|].
    pose proof (r_val _ _ _ _ _ R _ _ _ N) as E. unfold ctx_value in E. now rewrite (nth_error_nth _ _ _ M) in E.
  Qed.

  Lemma step_get en gs w st c t h i : rel en gs 0 w st -> bound en st c -> nth_error en (ctx_buf c) = Some (t, h) ->
    u_step st (UEvent (GEvent (EGet h i))) = (st, (GX (XNode (ctx_get (w_heap w) (w_graph w) c i)), [])).
  Proof.
    intros R B N. destruct (bound_value _ _ _ _ _ _ _ _ R B N) as [Nm _].
    erewrite (pass_step _ _ _ _ _ _ (gs_m (us_g st)) (XNode _) R); try reflexivity; try discriminate.
    - f_equal. destruct st as [[m gd l hg] ? ? ? ?]. reflexivity.
    - unfold m_step, p_step. rewrite (r_hung2 _ _ _ _ _ R), (live_env _ _ _ _ _ _ _ _ R N). cbn [m_exec].
      rewrite (names_get _ _ _ _ _ _ R _ Nm). destruct (gs_m (us_g st)); reflexivity.
  Qed.

  Lemma step_contains en gs w st c t h i : rel en gs 0 w st -> bound en st c -> nth_error en (ctx_buf c) = Some (t, h) ->
    u_step st (UEvent (GEvent (EContains h i))) = (st, (GX (XBool (ctx_contains (w_heap w) (w_graph w) c i)), [])).
  Proof.
    intros R B N. destruct (bound_value _ _ _ _ _ _ _ _ R B N) as [Nm _].
    erewrite (pass_step _ _ _ _ _ _ (gs_m (us_g st)) (XBool _) R); try reflexivity; try discriminate.
    - f_equal. destruct st as [[m gd l hg] ? ? ? ?]. reflexivity.
    - unfold m_step, p_step. rewrite (r_hung2 _ _ _ _ _ R), (live_env _ _ _ _ _ _ _ _ R N). cbn [m_exec].
      rewrite (names_contains _ _ _ _ _ _ R _ Nm). destruct (gs_m (us_g st)); reflexivity.
  Qed.

  Definition with_heap (hp : heap Id Node) (st : ustate) : ustate :=
    with_m (Machine (proto_of st) (Store (s_graph (store_of st)) hp (s_ctxs (store_of st)))) st.

  Lemma buf_ops_pushed (hp : heap Id Node) b l b' : b < length hp ->
    buf_ops (alter (fun o => o ++ l) b hp) b' = if Nat.eqb b b' then buf_ops hp b' ++ l else buf_ops hp b'.
  Proof.
    intros L. unfold buf_ops. destruct (Nat.eqb_spec b b'); [subst; now rewrite nth_alter_eq|now rewrite nth_alter_ne].
  Qed.

  Lemma env_lt en gs d w st b t h : rel en gs d w st -> nth_error en b = Some (t, h) -> b < length (w_heap w) /\ t < length (s_heap (store_of st)).
  Proof.
    intros R N. split.
    - rewrite (r_heap _ _ _ _ _ R). apply nth_error_Some. congruence.
    - rewrite (r_heaps _ _ _ _ _ R). destruct (r_tx _ _ _ _ _ R _ _ _ N) as (par & T & _). apply nth_error_Some. congruence.
  Qed.

  Lemma rel_push en gs d w st b t h l : rel en gs d w st -> nth_error en b = Some (t, h) ->
    rel en gs d (set_heap (alter (fun o => o ++ l) b (w_heap w)) w) (with_heap (alter (fun o => o ++ l) t (s_heap (store_of st))) st).
  Proof.
    intros R N. destruct (env_lt _ _ _ _ _ _ _ _ R N) as [Lb Lt]. destruct R. constructor; try assumption.
    - cbn. now rewrite alter_length.
    - cbn. now rewrite alter_length.
    - intros b' t' h' N'. cbn [w_heap set_heap with_heap with_m us_g gs_m m_store s_heap]. rewrite !buf_ops_pushed by assumption. rewrite (r_buf0 _ _ _ N').
      destruct (Nat.eqb_spec b b') as [->|Ne], (Nat.eqb_spec t t') as [->|Ne']; try reflexivity; exfalso.
      + rewrite N in N'. injection N' as -> ->. congruence.
      + apply Ne. eapply r_inj0; eauto.
  Qed.

  Lemma step_save en gs w st c t h n : rel en gs 0 w st -> bound en st c -> nth_error en (ctx_buf c) = Some (t, h) ->
    exists st', u_step st (UEvent (GEvent (ESave h n))) = (st', (GX XUnit, [])) /\ rel en gs 0 (set_heap (ctx_save (w_heap w) c n) w) st'.
  Proof.
    intros R B N. destruct (bound_value _ _ _ _ _ _ _ _ R B N) as [_ Ev].
    eexists; split; [|apply (rel_push _ _ _ _ _ _ _ _ [OSave n] R N)].
    eapply (pass_step _ _ _ _ _ _ _ XUnit R); try reflexivity; try discriminate.
    unfold m_step, p_step. rewrite (r_hung2 _ _ _ _ _ R), (live_env _ _ _ _ _ _ _ _ R N). cbn [m_exec].
    unfold ctx_save, buf_push. rewrite Ev. reflexivity.
  Qed.

  Lemma step_delete en gs w st c t h i : rel en gs 0 w st -> bound en st c -> nth_error en (ctx_buf c) = Some (t, h) ->
    exists st', u_step st (UEvent (GEvent (EDelete h i))) = (st', (GX XUnit, [])) /\ rel en gs 0 (set_heap (ctx_delete (w_heap w) c i) w) st'.
  Proof.
    intros R B N. destruct (bound_value _ _ _ _ _ _ _ _ R B N) as [_ Ev].
    eexists; split; [|apply (rel_push _ _ _ _ _ _ _ _ [ODelete i] R N)].
    eapply (pass_step _ _ _ _ _ _ _ XUnit R); try reflexivity; try discriminate.
    unfold m_step, p_step. rewrite (r_hung2 _ _ _ _ _ R), (live_env _ _ _ _ _ _ _ _ R N). cbn [m_exec].
    unfold ctx_delete, buf_push. rewrite Ev. reflexivity.
  Qed.

  (** ** Leaks *)
  Lemma has_ctx_app txs ctxs hung t s t' s' : has_ctx (Proto txs (ctxs ++ [CtxRec t s]) hung) t' s' =
    has_ctx (Proto txs ctxs hung) t' s' || (Nat.eqb t t' && match s, s' with Live, Live | Dropped, Dropped | Leaked, Leaked => true | _, _ => false end).
  Proof. unfold has_ctx. cbn [p_ctxs]. rewrite existsb_app. cbn. now rewrite orb_false_r. Qed.

  Lemma alter_snoc {A} f (l : list A) x : alter f (length l) (l ++ [x]) = l ++ [f x].
  Proof. induction l; cbn; congruence. Qed.

  Lemma not_borrowed en gs d w st h : rel en gs d w st -> length (p_ctxs (proto_of st)) <= h -> ctx_borrowed (proto_of st) h = false.
  Proof.
    intros R L. destruct (ctx_borrowed _ _) eqn:E; [|reflexivity]. apply ctx_borrowed_spec in E as (t & x & N & O & P).
    destruct (r_open _ _ _ _ _ R _ _ N O) as (b & h' & Nb). destruct (r_tx _ _ _ _ _ R _ _ _ Nb) as (par & T & Pr).
    rewrite N in T. injection T as ->. cbn in P. subst par. destruct Pr as (_ & b' & t' & _ & Nb').
    apply (r_ctx _ _ _ _ _ R) in Nb'. assert (h < length (p_ctxs (proto_of st))) by (apply nth_error_Some; congruence). lia.
  Qed.

  Lemma step_leak en gs w st c t h : rel en gs 0 w st -> nth_error en (ctx_buf c) = Some (t, h) ->
    exists h' st1 st2, u_step st (UEvent (GEvent (EContext t))) = (st1, (GX (XHandle h'), [])) /\
      u_step st1 (UEvent (GEvent (ELeakCtx h'))) = (st2, (GX XUnit, [])) /\
      rel en gs 0 (set_leaked (ctx_buf c :: w_leaked w) w) st2.
  Proof.
    intros R N. pose proof (asks_env _ _ _ _ _ _ _ _ R N) as A.
    destruct (r_tx _ _ _ _ _ R _ _ _ N) as (par & T & P).
    pose proof (not_borrowed _ _ _ _ _ _ R (le_n _)) as NB.
    destruct st as [[[[txs ctxs hung] [g hp vals]] guards lst hung'] panics poisoned calm calmtxs].
    assert (hung' = false) by apply R. assert (hung = false) by apply R. assert (lst = []) by apply R. subst. cbn [us_g gs_m m_proto m_store p_txs p_ctxs s_graph s_heap s_ctxs gs_guards gs_lost gs_hung] in *.
    set (mv := match par with None => CRoot t None | Some p => CSub (ctx_value (Store g hp vals) p) t None end).
    set (st1 := UState (GState (Machine (Proto txs (ctxs ++ [CtxRec t Live]) false) (Store g hp (vals ++ [mv]))) guards [] false) panics poisoned calm calmtxs).
    set (st2 := UState (GState (Machine (Proto txs (ctxs ++ [CtxRec t Leaked]) false) (Store g hp (vals ++ [mv]))) guards [] false) panics poisoned calm calmtxs).
    exists (length ctxs), st1, st2. split; [|split].
    - assert (M : m_step (Machine (Proto txs ctxs false) (Store g hp vals)) (EContext t) =
                  (Machine (Proto txs (ctxs ++ [CtxRec t Live]) false) (Store g hp (vals ++ [mv])), XHandle (length ctxs))).
      { unfold m_step, p_step. cbn [m_proto m_store p_hung p_txs]. rewrite T. pose proof (r_ctxs _ _ _ _ _ R) as X; cbn in X.
        unfold mv. destruct par as [p|]; [|rewrite P]; cbn; rewrite X; reflexivity. }
      rewrite (pass_step _ _ _ _ _ _ _ _ R A M); try discriminate. reflexivity.
    - unfold u_step, u_call, Guards.g_step, st1. cbn [us_g gs_hung of_lost asks gs_lost]. unfold g_pass, m_step, p_step. cbn [gs_m m_proto m_store p_hung p_txs p_ctxs].
      assert (Lv : ctx_live (Proto txs (ctxs ++ [CtxRec t Live]) false) (length ctxs) = true).
      { apply ctx_live_spec. exists t. cbn. now rewrite nth_error_app2, Nat.sub_diag by lia. }
      rewrite Lv. unfold ctx_borrowed in *. cbn [p_txs] in *. rewrite NB. cbn [negb andb m_exec].
      unfold set_status. cbn [p_txs p_ctxs p_hung]. rewrite alter_snoc. cbn. unfold st2. destruct panics; cbn; now rewrite ?orb_false_r.
    - destruct R. pjs. unfold st2. constructor; pj; auto.
      + now rewrite !app_length, r_ctxs0.
      + intros b' t' h' N'. rewrite <- (r_val0 _ _ _ N'). unfold ctx_value; cbn. rewrite app_nth1; [reflexivity|].
        rewrite r_ctxs0. apply r_ctx0 in N'. apply nth_error_Some. congruence.
      + intros b' t' h' N'. apply r_ctx0 in N'. rewrite nth_error_app1; [assumption|]. apply nth_error_Some. congruence.
      + intros b' t' h' N'. rewrite has_ctx_app, (r_in_use0 _ _ _ N'). unfold leaked. cbn. rewrite andb_true_r, orb_comm. f_equal.
        destruct (Nat.eqb_spec t t') as [->|Ne], (Nat.eqb_spec b' (ctx_buf c)) as [->|Ne']; try reflexivity; exfalso.
        * apply Ne'. eapply r_inj0; eauto.
        * rewrite N in N'. injection N' as -> ->. congruence.
      + intros h' t' N'. apply nth_error_snoc in N' as [N'|[_ [=]]]; eauto.
      + intros h' t' s' N'. apply nth_error_snoc in N' as [N'|[_ [= -> ->]]]; eauto.
      + intros b' [<-|I]; auto. apply nth_error_Some. congruence.
  Qed.

  (** ** Panics *)
  Lemma step_panic en gs w st : rel en gs 0 w st -> exists st', u_step st UPanic = (st', (GX XUnit, [])) /\ rel en gs 1 w st'.
  Proof.
    intros R. unfold u_step. rewrite (r_hung1 _ _ _ _ _ R). eexists; split; [reflexivity|].
    pose proof (r_panics _ _ _ _ _ R) as E. rewrite E. destruct R. constructor; assumption || reflexivity.
  Qed.

  Lemma step_catch en gs w st : rel en gs 1 w st -> exists st', u_step st UCatch = (st', (GX XUnit, [])) /\ rel en gs 0 w st'.
  Proof.
    intros R. unfold u_step. rewrite (r_hung1 _ _ _ _ _ R), (r_panics _ _ _ _ _ R). eexists; split; [reflexivity|].
    destruct R. constructor; assumption || reflexivity.
  Qed.

  (** ** Transactions begin *)
  Lemma nth_snoc_eq {A} (l : list A) x : nth_error (l ++ [x]) (length l) = Some x.
  Proof. now rewrite nth_error_app2, Nat.sub_diag by lia. Qed.

  Definition began (par : option nat) (st : ustate) : ustate :=
    with_m (Machine (Proto (p_txs (proto_of st) ++ [TxRec par false true]) (p_ctxs (proto_of st)) false)
                    (Store (s_graph (store_of st)) (s_heap (store_of st) ++ [[]]) (s_ctxs (store_of st)))) st.

  Lemma step_background en gs w st : rel en gs 0 w st ->
    u_step st (UEvent (GEvent EBackground)) = (began None st, (GX (XHandle (length (p_txs (proto_of st)))), [])).
  Proof.
    intros R. eapply pass_step; [exact R|reflexivity| |discriminate..].
    unfold m_step, p_step. rewrite (r_hung2 _ _ _ _ _ R). cbn [m_exec]. now rewrite (r_heaps _ _ _ _ _ R).
  Qed.

  Lemma step_foreground en gs w st b t h : rel en gs 0 w st -> nth_error en b = Some (t, h) ->
    u_step st (UEvent (GEvent (EForeground h))) = (began (Some h) st, (GX (XHandle (length (p_txs (proto_of st)))), [])).
  Proof.
    intros R N. eapply pass_step; [exact R|reflexivity| |discriminate..].
    unfold m_step, p_step. rewrite (r_hung2 _ _ _ _ _ R), (live_env _ _ _ _ _ _ _ _ R N). cbn [m_exec]. now rewrite (r_heaps _ _ _ _ _ R).
  Qed.

  Lemma guard_began par st : guard_held (proto_of (began par st)) = guard_held (proto_of st).
  Proof. unfold guard_held, began, with_m. pj. rewrite existsb_app. cbn. apply orb_false_r. Qed.

  Lemma locked_began par st wr : locked wr (us_g (began par st)) = locked wr (us_g st).
  Proof. unfold locked. rewrite guard_began. reflexivity. Qed.

  Lemma bg_blocked en gs w st : rel en gs 0 w st -> w_lock w <> GFree ->
    exists st', u_step (began None st) (UEvent (GEvent (EContext (length (p_txs (proto_of st)))))) = (st', (GX XHang, [])) /\
      s_graph (store_of st') = w_graph w /\ us_poisoned st' = w_poison w.
  Proof.
    intros R L. unfold u_step, u_call, Guards.g_step.
    change (gs_hung (us_g (began None st))) with (gs_hung (us_g st)). rewrite (r_hung1 _ _ _ _ _ R).
    assert (O : of_lost (us_g (began None st)) (EContext (length (p_txs (proto_of st)))) = false).
    { cbn. unfold lost. cbn. now rewrite (r_lost _ _ _ _ _ R). }
    rewrite O.
    assert (A : asks (us_g (began None st)) (EContext (length (p_txs (proto_of st)))) = Some true).
    { cbn [asks began with_m us_g gs_m m_proto p_txs]. now rewrite nth_snoc_eq. }
    rewrite A, locked_began, (locked_lock _ _ _ _ _ _ R).
    assert (X : (match w_lock w with GFree => false | GReaders _ => true | GTx | GWrite => true end) = true) by (destruct (w_lock w); congruence).
    rewrite X. cbn. eexists; split; [reflexivity|]. cbn. split; apply R.
  Qed.

  Lemma open_bg en gs w st : rel en gs 0 w st -> w_lock w = GFree ->
    let t := length (p_txs (proto_of st)) in let h := length (p_ctxs (proto_of st)) in
    exists st', u_step (began None st) (UEvent (GEvent (EContext t))) = (st', (GX (XHandle h), if w_poison w then [LPoisoned] else [])) /\
      rel (en ++ [(t, h)]) gs 0 (bg_open w) st' /\ nth_error (s_ctxs (store_of st')) h = Some (CRoot t None).
  Proof.
    intros R L t h.
    pose proof (locked_lock _ _ _ _ _ true R) as Lk. rewrite L in Lk. rewrite <- (locked_began None) in Lk.
    pose proof (held_env _ _ _ _ _ R) as Gd. rewrite <- (guard_began None) in Gd.
    pose proof (r_lock _ _ _ _ _ R) as E. rewrite L in E. destruct E as [-> ->].
    destruct st as [[[[txs ctxs hung] [g hp vals]] guards lst hung'] panics poisoned calm calmtxs].
    assert (hung' = false) by apply R. assert (hung = false) by apply R. assert (lst = []) by apply R. assert (panics = 0) by apply R.
    subst. unfold t, h, began, with_m in *; clear t h. pjs.
    set (t := length txs). set (h := length ctxs).
    exists (UState (GState (Machine (Proto (txs ++ [TxRec None true true]) (ctxs ++ [CtxRec t Live]) false) (Store g (hp ++ [[]]) (vals ++ [CRoot t None]))) guards [] false) 0 poisoned calm (t :: calmtxs)).
    assert (A : nth_error (txs ++ [TxRec None false true]) t = Some (TxRec None false true)) by apply nth_snoc_eq.
    split; [|split].
    - unfold u_step, u_call, Guards.g_step. pj. cbn [of_lost lost existsb]. unfold lost. pj. cbn [existsb].
      unfold takes. cbn [asks]. pj. rewrite A, Lk. unfold g_pass, m_step, p_step. pj. rewrite A, Gd. unfold t at 2 3. rewrite alter_snoc.
      cbn [m_exec]. pj. pose proof (r_ctxs _ _ _ _ _ R) as X. pjs. rewrite X. cbn [returned Unwind.poisons us_panics]. rewrite orb_false_r.
      cbn [Nat.eqb andb end_log]. rewrite app_nil_r. pose proof (r_poison _ _ _ _ _ R) as Pz. pjs. rewrite <- Pz. reflexivity.
    - assert (No : forall b x, nth_error ([] : env) b = Some x -> False) by (intros [|b] x; discriminate).
      assert (One : forall b t' h', nth_error [(t, h)] b = Some (t', h') -> b = 0 /\ t' = t /\ h' = h).
      { intros [|[|b]] t' h' [=]; subst; auto. }
      destruct R; pjs. unfold bg_open. constructor; pj; cbn [app]; auto.
      + now rewrite app_length, r_heap0.
      + now rewrite !app_length, r_heaps0.
      + now rewrite !app_length, r_ctxs0.
      + intros b t' h' (-> & -> & ->)%One. unfold buf_ops. destruct (w_heap w); [|discriminate]. cbn.
        unfold t. now rewrite <- r_heaps0, nth_snoc_new.
      + intros b t' h' (-> & -> & ->)%One. unfold ctx_value. pj. unfold h. now rewrite <- r_ctxs0, nth_snoc_new.
      + intros b t' h' (-> & -> & ->)%One. apply nth_snoc_eq.
      + intros b t' h' (-> & -> & ->)%One. exists None. split; [apply nth_snoc_eq|reflexivity].
      + intros b t' h' (-> & -> & ->)%One. rewrite has_ctx_app, andb_false_r, orb_false_r.
        assert (X : has_ctx (Proto (txs ++ [TxRec None true true]) ctxs false) t Leaked = false).
        { destruct (has_ctx _ _ _) eqn:E; [|reflexivity]. apply has_ctx_spec in E as (c & N). apply r_of0 in N. unfold t in N. lia. }
        rewrite X. symmetry. unfold leaked. pj. destruct (existsb _ _) eqn:E; [|reflexivity]. apply existsb_exists in E as (b & I & _).
        apply r_leaked0 in I. cbn in I. lia.
      + intros b t' h' (-> & -> & ->)%One. cbn. now rewrite Nat.eqb_refl.
      + intros b b' t' h1 h2 (-> & _ & _)%One (-> & _ & _)%One. reflexivity.
      + intros t' x N O. apply nth_error_snoc in N as [N|[-> ->]].
        * destruct (r_open0 _ _ N O) as (b & h' & N'). now apply No in N'.
        * now exists 0, h.
      + intros t' x N O. apply nth_error_snoc in N as [N|[-> ->]]; [eauto|reflexivity].
      + intros h' t' N. apply nth_error_snoc in N as [N|[-> [= ->]]].
        * apply r_live0 in N as [b N]. now apply No in N.
        * now exists 0.
      + intros h' t' s N. rewrite app_length. cbn. apply nth_error_snoc in N as [N|[-> [= -> ->]]].
        * apply r_of0 in N. lia.
        * unfold t. lia.
      + intros t' [<-|I]; rewrite app_length; cbn; unfold t; [lia|]. apply r_calm_txs0 in I. lia.
      + intros b I. apply r_leaked0 in I. cbn in *. lia.
      + split; [discriminate|reflexivity].
      + intros g' [].
    - pj. unfold h. pose proof (r_ctxs _ _ _ _ _ R) as X. pjs. rewrite <- X. apply nth_snoc_eq.
  Qed.

  Lemma env_snoc (en : env) x b y : nth_error (en ++ [x]) b = Some y -> nth_error en b = Some y \/ b = length en /\ y = x.
  Proof. apply nth_error_snoc. Qed.

  Lemma open_fg en gs w st b0 tc hc : rel en gs 0 w st -> nth_error en b0 = Some (tc, hc) ->
    let t := length (p_txs (proto_of st)) in let h := length (p_ctxs (proto_of st)) in
    exists st', u_step (began (Some hc) st) (UEvent (GEvent (EContext t))) = (st', (GX (XHandle h), [])) /\
      rel (en ++ [(t, h)]) gs 0 (fg_open w) st' /\ nth_error (s_ctxs (store_of st')) h = Some (CSub (ctx_value (store_of st) hc) t None).
  Proof.
    intros R N0 t h.
    destruct st as [[[[txs ctxs hung] [g hp vals]] guards lst hung'] panics poisoned calm calmtxs].
    assert (hung' = false) by apply R. assert (hung = false) by apply R. assert (lst = []) by apply R. assert (panics = 0) by apply R.
    subst. unfold t, h, began, with_m in *; clear t h. pjs.
    set (t := length txs). set (h := length ctxs). set (v := CSub (ctx_value (Store g hp vals) hc) t None).
    exists (UState (GState (Machine (Proto (txs ++ [TxRec (Some hc) false true]) (ctxs ++ [CtxRec t Live]) false) (Store g (hp ++ [[]]) (vals ++ [v]))) guards [] false) 0 poisoned calm calmtxs).
    assert (A : nth_error (txs ++ [TxRec (Some hc) false true]) t = Some (TxRec (Some hc) false true)) by apply nth_snoc_eq.
    split; [|split].
    - unfold u_step, u_call, Guards.g_step. pj. cbn [of_lost lost existsb]. unfold lost. pj. cbn [existsb].
      unfold takes. cbn [asks]. pj. rewrite A. unfold g_pass, m_step, p_step. pj. rewrite A.
      cbn [m_exec]. pj. pose proof (r_ctxs _ _ _ _ _ R) as X. pjs. rewrite X. cbn [returned Unwind.poisons us_panics]. rewrite orb_false_r.
      reflexivity.
    - assert (Ne : length en <> 0) by (destruct en; [destruct b0; discriminate|discriminate]).
      destruct R; pjs. unfold fg_open.
      assert (Lt : forall b t' h', nth_error en b = Some (t', h') -> t' < length txs).
      { intros b t' h' N. destruct (r_tx0 _ _ _ N) as (par & T & _). apply nth_error_Some. congruence. }
      constructor; pj; auto.
      + rewrite !app_length, r_heap0. reflexivity.
      + now rewrite !app_length, r_heaps0.
      + now rewrite !app_length, r_ctxs0.
      + intros b t' h' [N|[-> [= -> ->]]]%env_snoc.
        * rewrite !buf_ops_open. eauto.
        * unfold buf_ops. rewrite <- r_heap0, nth_snoc_new. unfold t. now rewrite <- r_heaps0, nth_snoc_new.
      + intros b t' h' [N|[-> [= -> ->]]]%env_snoc; unfold ctx_value; pj.
        * rewrite <- (r_val0 _ _ _ N). unfold ctx_value. pj. rewrite app_nth1; [reflexivity|]. rewrite r_ctxs0. apply r_ctx0 in N. apply nth_error_Some. congruence.
        * unfold h. now rewrite <- r_ctxs0, nth_snoc_new.
      + intros b t' h' [N|[-> [= -> ->]]]%env_snoc; [|apply nth_snoc_eq]. apply r_ctx0 in N. rewrite nth_error_app1; [assumption|]. apply nth_error_Some. congruence.
      + intros b t' h' [N|[-> [= -> ->]]]%env_snoc.
        * pose proof (Lt _ _ _ N). destruct (r_tx0 _ _ _ N) as (par & T & P). exists par. rewrite nth_error_app1 by assumption. split; [assumption|].
          destruct par; auto. destruct P as (P & b' & t'' & Lb & N'). split; auto. exists b', t''. split; auto. rewrite nth_error_app1; auto. apply nth_error_Some. congruence.
        * exists (Some hc). split; [unfold t; rewrite nth_snoc_eq; do 2 f_equal; now destruct (Nat.eqb_spec (length en) 0)|]. split; [assumption|].
          exists b0, tc. assert (b0 < length en) by (apply nth_error_Some; congruence). split; [assumption|]. now rewrite nth_error_app1.
      + intros b t' h' [N|[-> [= -> ->]]]%env_snoc; rewrite has_ctx_app, andb_false_r, orb_false_r.
        * exact (r_in_use0 _ _ _ N).
        * assert (X : has_ctx (Proto (txs ++ [TxRec (Some hc) false true]) ctxs false) t Leaked = false).
          { destruct (has_ctx _ _ _) eqn:E; [|reflexivity]. apply has_ctx_spec in E as (c & N). apply r_of0 in N. unfold t in N. lia. }
          rewrite X. symmetry. unfold leaked. pj. destruct (existsb _ _) eqn:E; [|reflexivity]. apply existsb_exists in E as (b & I & Eb).
          apply r_leaked0 in I. apply Nat.eqb_eq in Eb. lia.
      + intros b t' h' [N|[-> [= -> ->]]]%env_snoc; [eauto|].
        destruct (existsb _ _) eqn:E.
        * apply existsb_exists in E as (x & I & Ex). apply Nat.eqb_eq in Ex. subst x. apply r_calm_txs0 in I. unfold t in I. lia.
        * symmetry. now apply Nat.eqb_neq.
      + intros b b' t' h1 h2 [N|[-> E]]%env_snoc [N'|[-> E']]%env_snoc; eauto.
        * injection E' as -> ->. apply Lt in N. unfold t in N. lia.
        * injection E as -> ->. apply Lt in N'. unfold t in N'. lia.
      + intros t' x N O. apply nth_error_snoc in N as [N|[-> ->]].
        * destruct (r_open0 _ _ N O) as (b & h' & N'). exists b, h'. rewrite nth_error_app1; auto. apply nth_error_Some. congruence.
        * exists (length en), h. apply nth_snoc_eq.
      + intros t' x N O. apply nth_error_snoc in N as [N|[-> ->]]; [eauto|discriminate].
      + intros h' t' N. apply nth_error_snoc in N as [N|[-> [= ->]]].
        * apply r_live0 in N as [b N]. exists b. rewrite nth_error_app1; auto. apply nth_error_Some. congruence.
        * exists (length en). apply nth_snoc_eq.
      + intros h' t' s N. rewrite app_length. cbn. apply nth_error_snoc in N as [N|[-> [= -> ->]]].
        * apply r_of0 in N. lia.
        * unfold t. lia.
      + intros t' I. rewrite app_length. apply r_calm_txs0 in I. lia.
      + intros b I. rewrite app_length. apply r_leaked0 in I. lia.
      + destruct (w_lock w); try (destruct r_lock0 as [-> _]; cbn in Ne; lia). destruct r_lock0 as [_ ->]. split; [|reflexivity].
        intros E. apply app_eq_nil in E as [_ [=]].
    - pj. unfold h. pose proof (r_ctxs _ _ _ _ _ R) as X. pjs. rewrite <- X. apply nth_snoc_eq.
  Qed.

  (** ** Transactions end *)
  Definition dropped (h : nat) (st : ustate) : ustate := with_m (Machine (set_status Dropped h (proto_of st)) (store_of st)) st.

  Lemma step_drop en gs d w st t h : rel (en ++ [(t, h)]) gs d w st ->
    u_step st (UEvent (GEvent (EDropCtx h))) = (dropped h st, (GX XUnit, [])).
  Proof.
    intros R. assert (N : nth_error (en ++ [(t, h)]) (length en) = Some (t, h)) by apply nth_snoc_eq.
    eapply pass_step; [exact R|reflexivity| |discriminate..].
    unfold m_step, p_step. rewrite (r_hung2 _ _ _ _ _ R), (live_env _ _ _ _ _ _ _ _ R N).
    assert (B : ctx_borrowed (proto_of st) h = false).
    { destruct (ctx_borrowed _ _) eqn:E; [|reflexivity]. apply ctx_borrowed_spec in E as (t' & x & N' & O & P).
      destruct (r_open _ _ _ _ _ R _ _ N' O) as (b & h' & Nb). destruct (r_tx _ _ _ _ _ R _ _ _ Nb) as (par & T & Pr).
      rewrite N' in T. injection T as ->. cbn in P. subst par. destruct Pr as (_ & b' & t'' & Lb & Nb').
      pose proof (r_ctx _ _ _ _ _ R _ _ _ Nb') as C. rewrite (r_ctx _ _ _ _ _ R _ _ _ N) in C. injection C as <-.
      pose proof (r_inj _ _ _ _ _ R _ _ _ _ _ N Nb'). subst b'.
      assert (b < length (en ++ [(t, h)])) by (apply nth_error_Some; congruence). rewrite app_length in *. cbn in *. lia. }
    rewrite B. reflexivity.
  Qed.

  (** The state after the end of the transaction, [g'] and [hp'] being the graph and the buffers. *)
  Definition ended (t h : nat) (g' : graph Id Node) (hp' : heap Id Node) (po : bool) (st : ustate) : ustate :=
    UState (GState (Machine (close_tx t (set_status Dropped h (proto_of st))) (Store g' hp' (s_ctxs (store_of st))))
                   (gs_guards (us_g st)) (gs_lost (us_g st)) (gs_hung (us_g st))) (us_panics st) po (us_calm st) (us_calm_txs st).

  Lemma rel_pop en t h gs d w st w' g' hp' po : rel (en ++ [(t, h)]) gs d w st ->
    w_graph w' = g' -> w_poison w' = po -> length (w_heap w') = length en -> length hp' = length (s_heap (store_of st)) ->
    (forall b t' h', nth_error en b = Some (t', h') -> buf_ops (w_heap w') b = buf_ops hp' t') ->
    w_leaked w' = filter (fun b => b <? length en) (w_leaked w) ->
    w_lock w' = match en with [] => GFree | _ => GTx end ->
    rel en gs d w' (ended t h g' hp' po st).
  Proof.
    intros R <- <- Lh Lh' Bu Le Lk. assert (N0 : nth_error (en ++ [(t, h)]) (length en) = Some (t, h)) by apply nth_snoc_eq.
    assert (Up : forall b x, nth_error en b = Some x -> nth_error (en ++ [(t, h)]) b = Some x).
    { intros b x N. rewrite nth_error_app1; auto. apply nth_error_Some. congruence. }
    assert (Net : forall b t' h', nth_error en b = Some (t', h') -> t' <> t).
    { intros b t' h' N ->. pose proof (r_inj _ _ _ _ _ R _ _ _ _ _ N0 (Up _ _ N)). subst b. assert (length en < length en) by (apply nth_error_Some; congruence). lia. }
    assert (Neh : forall b t' h', nth_error en b = Some (t', h') -> h' <> h).
    { intros b t' h' N ->. pose proof (r_ctx _ _ _ _ _ R _ _ _ (Up _ _ N)) as C. rewrite (r_ctx _ _ _ _ _ R _ _ _ N0) in C. injection C as <-. now apply (Net _ _ _ N). }
    assert (Tx : forall t' x, nth_error (alter (fun r => TxRec (tx_parent r) false false) t (p_txs (proto_of st))) t' = Some x ->
               t' = t /\ tx_open x = false /\ tx_guard x = false \/ t' <> t /\ nth_error (p_txs (proto_of st)) t' = Some x).
    { intros t' x N. rewrite nth_error_alter in N. destruct (Nat.eqb_spec t t') as [<-|Ne]; [|right; split; [congruence|assumption]].
      left. destruct (nth_error (p_txs (proto_of st)) t); cbn in N; [|discriminate]. injection N as <-. auto. }
    assert (Cx : forall h' t' s, nth_error (alter (fun r => CtxRec (cr_tx r) Dropped) h (p_ctxs (proto_of st))) h' = Some (CtxRec t' s) ->
               h' = h /\ t' = t /\ s = Dropped \/ h' <> h /\ nth_error (p_ctxs (proto_of st)) h' = Some (CtxRec t' s)).
    { intros h' t' s N. rewrite nth_error_alter in N. destruct (Nat.eqb_spec h h') as [<-|Ne]; [|right; split; [congruence|assumption]].
      left. rewrite (r_ctx _ _ _ _ _ R _ _ _ N0) in N. cbn in N. injection N as <- <-. auto. }
    unfold ended, close_tx, set_status. destruct R. pjs. constructor; pj; auto.
    - now rewrite alter_length, Lh'.
    - now rewrite alter_length.
    - intros b t' h' N. rewrite <- (r_val0 _ _ _ (Up _ _ N)). reflexivity.
    - intros b t' h' N. rewrite nth_error_alter. destruct (Nat.eqb_spec h h') as [->|_]; [now apply Neh in N|]. eauto.
    - intros b t' h' N. destruct (r_tx0 _ _ _ (Up _ _ N)) as (par & T & P). exists par. rewrite nth_error_alter.
      destruct (Nat.eqb_spec t t') as [->|_]; [now apply Net in N|]. split; [assumption|]. destruct par; auto.
      destruct P as (P & b' & t'' & Lb & Nb). split; auto. exists b', t''. split; auto.
      assert (b < length en) by (apply nth_error_Some; congruence). rewrite nth_error_app1 in Nb by lia. assumption.
    - intros b t' h' N. transitivity (leaked w b).
      + rewrite <- (r_in_use0 _ _ _ (Up _ _ N)). apply eq_true_iff_eq. rewrite !has_ctx_spec. pj. split; intros (c & X).
        * apply Cx in X as [(_ & _ & [=])|[_ X]]; eauto.
        * exists c. rewrite nth_error_alter. destruct (Nat.eqb_spec h c) as [<-|_]; auto. rewrite (r_ctx0 _ _ _ N0) in X. discriminate.
      + unfold leaked. rewrite Le. assert (b < length en) by (apply nth_error_Some; congruence). apply eq_true_iff_eq. rewrite !existsb_exists.
        split; intros (x & I & E); exists x; rewrite filter_In in *; repeat split; try tauto. apply Nat.eqb_eq in E. subst. now apply Nat.ltb_lt.
    - intros b t' h' N. eauto.
    - intros b b' t' h1 h2 N N'. eauto.
    - intros t' x N O. apply Tx in N as [(_ & F & _)|[Ne N]]; [congruence|]. destruct (r_open0 _ _ N O) as (b & h' & Nb).
      apply env_snoc in Nb as [Nb|[_ [= -> ->]]]; [eauto|congruence].
    - intros t' x N O. apply Tx in N as [(_ & _ & F)|[Ne N]]; [congruence|eauto].
    - intros h' t' N. apply Cx in N as [(_ & _ & [=])|[Ne N]]. apply r_live0 in N as [b Nb]. apply env_snoc in Nb as [Nb|[_ [= -> ->]]]; [eauto|congruence].
    - intros h' t' s N. rewrite alter_length. apply Cx in N as [(_ & -> & _)|[Ne N]]; eauto.
    - intros t' I. rewrite alter_length. auto.
    - intros b I. rewrite Le in I. apply filter_In in I as [_ I]. now apply Nat.ltb_lt.
    - rewrite Lk. destruct (w_lock w); try (destruct r_lock0 as [E _]; apply app_eq_nil in E as [_ [=]]). destruct r_lock0 as [_ ->]. destruct en; auto. split; [discriminate|reflexivity].
    - rewrite Lk. destruct (w_lock w); try (destruct r_lock0 as [E _]; apply app_eq_nil in E as [_ [=]]). destruct r_lock0 as [_ ->]. intros g [].
  Qed.

  (** transaction.rs 70-96 and 140-166 on the machine: what [EEnd] does once the context has been dropped. *)
  Lemma step_end en gs d w st t h commit : rel (en ++ [(t, h)]) gs d w st ->
    exists par, nth_error (p_txs (proto_of st)) t = Some (TxRec par (length en =? 0) true) /\
      (par = None <-> en = []) /\
      u_step (dropped h st) (UEvent (GEvent (EEnd t commit))) =
      (let b := length en in
       let po := w_poison w || (match d with 0 => false | _ => b =? 0 end) in
       let s := store_of st in
       if commit && negb (leaked w b) then
         match par with
         | None => ended t h (apply_ops (s_graph s) (buf_ops (s_heap s) t)) (s_heap s) po st
         | Some p => ended t h (s_graph s) (fg_extend (s_heap s) (ctx_value s p) t) po st
         end
       else ended t h (s_graph s) (s_heap s) po st,
       (GX XUnit, if commit && leaked w (length en) then [LInUse] else [])).
  Proof.
    intros R. assert (N0 : nth_error (en ++ [(t, h)]) (length en) = Some (t, h)) by apply nth_snoc_eq.
    destruct (r_tx _ _ _ _ _ R _ _ _ N0) as (par & T & P). exists par. split; [assumption|]. split.
    { destruct par; split; intros E; try discriminate; try reflexivity; subst.
      - destruct P as [P _]. cbn in P. lia.
      - destruct en; [reflexivity|discriminate]. }
    assert (Lv : has_ctx (set_status Dropped h (proto_of st)) t Live = false).
    { destruct (has_ctx _ _ _) eqn:E; [|reflexivity]. apply has_ctx_spec in E as (c & N). unfold set_status in N. pjs. rewrite nth_error_alter in N.
      destruct (Nat.eqb_spec h c) as [Ec|Ne].
      - rewrite <- Ec in N. rewrite (r_ctx _ _ _ _ _ R _ _ _ N0) in N. discriminate.
      - apply (r_live _ _ _ _ _ R) in N as [b N]. pose proof (r_inj _ _ _ _ _ R _ _ _ _ _ N0 N). subst b. congruence. }
    assert (Lk : has_ctx (set_status Dropped h (proto_of st)) t Leaked = leaked w (length en)).
    { rewrite <- (r_in_use _ _ _ _ _ R _ _ _ N0). apply eq_true_iff_eq. rewrite !has_ctx_spec. unfold set_status. pj. split; intros (c & X).
      - rewrite nth_error_alter in X. destruct (Nat.eqb_spec h c) as [Ec|_]; eauto. rewrite <- Ec, (r_ctx _ _ _ _ _ R _ _ _ N0) in X. discriminate.
      - exists c. rewrite nth_error_alter. destruct (Nat.eqb_spec h c) as [Ec|_]; auto. rewrite <- Ec, (r_ctx _ _ _ _ _ R _ _ _ N0) in X. discriminate. }
    pose proof (r_calm_tx _ _ _ _ _ R _ _ _ N0) as Ca. pose proof (r_panics _ _ _ _ _ R) as Pa. pose proof (r_poison _ _ _ _ _ R) as Po.
    pose proof (r_hung1 _ _ _ _ _ R) as H1. pose proof (r_hung2 _ _ _ _ _ R) as H2. pose proof (r_lost _ _ _ _ _ R) as Lo.
    clear R N0. unfold dropped, with_m, ended in *.
    destruct st as [[[[txs ctxs hung] [g hp vals]] guards lst hung'] panics poisoned calm calmtxs]. pjs. subst.
    unfold u_step, u_call, Guards.g_step. pj. cbn [of_lost]. unfold lost. pj. cbn [existsb asks]. unfold g_pass, m_step, p_step. pj.
    unfold takes. cbn [asks andb].
    unfold end_log, Unwind.poisons. pj. unfold set_status in *. pjs. rewrite T, Lv, Lk.
    destruct commit; cbn [negb andb].
    - destruct (leaked w (length en)) eqn:Le; cbn [negb].
      + cbn [m_exec returned]. rewrite Ca. destruct par as [p|].
        * destruct (length en); destruct d; cbn [app]; reflexivity.
        * rewrite P in *. destruct d; reflexivity.
      + destruct par as [p|].
        * cbn [m_exec returned]. rewrite Ca. destruct (length en); destruct d; reflexivity.
        * rewrite P. cbn [Nat.eqb]. cbn [m_exec returned]. rewrite Ca, P. destruct d; reflexivity.
    - cbn [m_exec returned]. rewrite Ca. destruct d; reflexivity.
  Qed.

  Lemma framed_heap_lt en gs d w st x : rel (en ++ [x]) gs d w st -> length (firstn (length en) (w_heap w)) = length en.
  Proof. intros R. rewrite firstn_length, (r_heap _ _ _ _ _ R), app_length. cbn. lia. Qed.

  Lemma pop_bufs en x gs d w st b t h : rel (en ++ [x]) gs d w st -> nth_error en b = Some (t, h) ->
    buf_ops (firstn (length en) (w_heap w)) b = buf_ops (s_heap (store_of st)) t.
  Proof.
    intros R N. assert (L : b < length en) by (apply nth_error_Some; congruence). rewrite buf_ops_firstn by assumption.
    eapply (r_buf _ _ _ _ _ R). rewrite nth_error_app1; eassumption.
  Qed.

  (** The end of a transaction that is not committed. *)
  Lemma end_without en gs d w st t h : rel (en ++ [(t, h)]) gs d w st ->
    exists st', u_step (dropped h st) (UEvent (GEvent (EEnd t false))) = (st', (GX XUnit, [])) /\
      let w0 := match en with [] => set_lock GFree (match d with 0 => w | _ => set_poison w end) | _ => w end in
      rel en gs d (close (length en) w0) st'.
  Proof.
    intros R. destruct (step_end _ _ _ _ _ _ _ false R) as (par & T & P & S). cbn [andb] in S. eexists; split; [exact S|].
    pose proof (r_lock _ _ _ _ _ R) as L. assert (Lk : w_lock w = GTx) by (destruct (w_lock w); auto; destruct L as [L _]; apply app_eq_nil in L as [_ [=]]).
    cbn zeta. eapply rel_pop; [exact R|..]; cbn [close set_heap set_leaked w_graph w_poison w_heap w_leaked w_lock]; auto.
    - destruct en, d; cbn; symmetry; apply (r_graph _ _ _ _ _ R).
    - destruct en, d; cbn; now rewrite ?orb_false_r, ?orb_true_r.
    - destruct en, d; cbn [set_lock set_poison w_heap]; eapply framed_heap_lt; exact R.
    - intros b t' h' N. rewrite <- (pop_bufs _ _ _ _ _ _ _ _ _ R N). destruct en, d; reflexivity.
    - destruct en, d; reflexivity.
    - destruct en, d; cbn; auto.
  Qed.

  Lemma end_bg gs w st t h : rel [(t, h)] gs 0 w st ->
    exists st', u_step (dropped h st) (UEvent (GEvent (EEnd t true))) = (st', (GX XUnit, if leaked w 0 then [LInUse] else [])) /\
      rel [] gs 0 (close 0 (set_lock GFree (fst (bg_commit None 0 w)))) st'.
  Proof.
    intros R. destruct (step_end [] _ _ _ _ _ _ true R) as (par & T & P & S). cbn [andb length] in S. eexists; split; [exact S|].
    assert (par = None) by now apply P. subst par. unfold bg_commit. 
    assert (N0 : nth_error ([] ++ [(t, h)]) 0 = Some (t, h)) by reflexivity.
    destruct (leaked w 0) eqn:Le; cbn [negb fst]; (eapply (rel_pop []); [exact R|..]; cbn [close set_heap set_leaked set_lock set_graph w_graph w_poison w_heap w_leaked w_lock firstn length]; auto).
    - symmetry; apply (r_graph _ _ _ _ _ R).
    - now rewrite orb_false_r.
    - intros [|b] t' h' [=].
    - rewrite (r_graph _ _ _ _ _ R), <- (r_buf _ _ _ _ _ R _ _ _ N0). reflexivity.
    - now rewrite orb_false_r.
    - intros [|b] t' h' [=].
  Qed.

  Lemma end_fg en gs w st t h c tc hc x : rel (en ++ [(t, h)]) gs 0 w st -> nth_error en (ctx_buf c) = Some (tc, hc) ->
    nth_error (p_txs (proto_of st)) t = Some x -> tx_parent x = Some hc ->
    exists st', u_step (dropped h st) (UEvent (GEvent (EEnd t true))) = (st', (GX XUnit, if leaked w (length en) then [LInUse] else [])) /\
      rel en gs 0 (close (length en) (fg_commit c (length en) w)) st'.
  Proof.
    intros R Nc Nx Px. destruct (step_end _ _ _ _ _ _ _ true R) as (par & T & P & S). cbn [andb length] in S. eexists; split; [exact S|].
    rewrite Nx in T. injection T as ->. cbn in Px. subst par.
    assert (Lc : ctx_buf c < length en) by (apply nth_error_Some; congruence).
    pose proof (r_lock _ _ _ _ _ R) as L. assert (Lk : w_lock w = GTx) by (destruct (w_lock w); auto; destruct L as [L _]; apply app_eq_nil in L as [_ [=]]).
    assert (Nc' : nth_error (en ++ [(t, h)]) (ctx_buf c) = Some (tc, hc)) by now rewrite nth_error_app1.
    assert (N0 : nth_error (en ++ [(t, h)]) (length en) = Some (t, h)) by apply nth_snoc_eq.
    destruct (env_lt _ _ _ _ _ _ _ _ R Nc') as [L1 L2].
    assert (En : en <> []) by (destruct en; [cbn in Lc; lia|discriminate]).
    unfold fg_commit, fg_extend. rewrite (r_val _ _ _ _ _ R _ _ _ Nc').
    destruct (leaked w (length en)) eqn:Le; cbn [negb fst]; (eapply rel_pop; [exact R|..]; cbn [close set_heap set_leaked set_lock set_graph w_graph w_poison w_heap w_leaked w_lock]; auto).
    - symmetry; apply (r_graph _ _ _ _ _ R).
    - now rewrite orb_false_r.
    - eapply framed_heap_lt; exact R.
    - intros b t' h' N. apply (pop_bufs _ _ _ _ _ _ _ _ _ R N).
    - rewrite Lk. destruct en; [congruence|reflexivity].
    - symmetry; apply (r_graph _ _ _ _ _ R).
    - now rewrite orb_false_r.
    - rewrite firstn_length, alter_length, (r_heap _ _ _ _ _ R), app_length. cbn. lia.
    - now rewrite alter_length.
    - intros b t' h' N. assert (Lb : b < length en) by (apply nth_error_Some; congruence). rewrite buf_ops_firstn by assumption.
      rewrite !buf_ops_pushed by assumption. rewrite <- (r_buf _ _ _ _ _ R _ _ _ N0).
      assert (N' : nth_error (en ++ [(t, h)]) b = Some (t', h')) by now rewrite nth_error_app1.
      rewrite (r_buf _ _ _ _ _ R _ _ _ N').
      destruct (Nat.eqb_spec (ctx_buf c) b) as [<-|Ne], (Nat.eqb_spec tc t') as [<-|Ne']; try reflexivity; exfalso.
      + rewrite Nc in N. injection N as -> ->. congruence.
      + apply Ne. eapply (r_inj _ _ _ _ _ R); eassumption.
    - rewrite Lk. destruct en; [congruence|reflexivity].
  Qed.

  (** A commit in which user code panics. *)
  Definition broken (k b : nat) (w : world) : world :=
    set_poison (close b (set_lock GFree (set_graph (apply_ops (w_graph w) (firstn k (buf_ops (w_heap w) b))) w))).

  Lemma step_crash gs w st t h k : rel [(t, h)] gs 0 w st ->
    if negb (leaked w 0) && crashes k (buf_ops (w_heap w) 0)
    then exists st' l, u_step (dropped h st) (UEvent (GCrash t k)) = (st', (GCrashed l, [])) /\ rel [] gs 1 (broken k 0 w) st'
    else u_step (dropped h st) (UEvent (GCrash t k)) = (dropped h st, (GX XInvalid, [])).
  Proof.
    intros R. assert (N0 : nth_error ([] ++ [(t, h)]) (length (@nil (nat * nat))) = Some (t, h)) by apply nth_snoc_eq. cbn [app length] in N0.
    destruct (r_tx _ _ _ _ _ R _ _ _ N0) as (par & T & P). cbn [Nat.eqb] in T.
    assert (par = None) by (destruct par; [destruct P as [P _]; congruence|reflexivity]). subst par. clear P.
    assert (Lv : has_ctx (set_status Dropped h (proto_of st)) t Live = false).
    { destruct (has_ctx _ _ _) eqn:E; [|reflexivity]. apply has_ctx_spec in E as (c & N). unfold set_status in N. pjs. rewrite nth_error_alter in N.
      destruct (Nat.eqb_spec h c) as [Ec|Ne].
      - rewrite <- Ec in N. rewrite (r_ctx _ _ _ _ _ R _ _ _ N0) in N. discriminate.
      - apply (r_live _ _ _ _ _ R) in N as [b N]. pose proof (r_inj _ _ _ _ _ R _ _ _ _ _ N0 N). subst b. congruence. }
    assert (Lk : has_ctx (set_status Dropped h (proto_of st)) t Leaked = leaked w 0).
    { rewrite <- (r_in_use _ _ _ _ _ R _ _ _ N0). apply eq_true_iff_eq. rewrite !has_ctx_spec. unfold set_status. pj. split; intros (c & X).
      - rewrite nth_error_alter in X. destruct (Nat.eqb_spec h c) as [Ec|_]; eauto. rewrite <- Ec, (r_ctx _ _ _ _ _ R _ _ _ N0) in X. discriminate.
      - exists c. rewrite nth_error_alter. destruct (Nat.eqb_spec h c) as [Ec|_]; auto. rewrite <- Ec, (r_ctx _ _ _ _ _ R _ _ _ N0) in X. discriminate. }
    pose proof (r_buf _ _ _ _ _ R _ _ _ N0) as Bu. pose proof (r_lost _ _ _ _ _ R) as Lo.
    assert (Iff : crashing (us_g (dropped h st)) t k <-> negb (leaked w 0) && crashes k (buf_ops (w_heap w) 0) = true).
    { rewrite andb_true_iff, negb_true_iff, Bu, <- Lk. split; [intros C; split; apply C|]. intros [C1 C2]. constructor; try assumption.
      - apply (r_hung1 _ _ _ _ _ R).
      - unfold lost. unfold dropped, with_m. pj. now rewrite Lo. }
    destruct (crash_cases (us_g (dropped h st)) t k) as [K|[C K]].
    - assert (NC : ~ crashing (us_g (dropped h st)) t k).
      { intros C. rewrite (crash_yes _ _ _ C) in K. unfold crashed in K. destruct K; discriminate. }
      destruct (_ && _); [destruct NC; now apply Iff|]. destruct K as [K|K].
      + unfold u_step, u_call. rewrite K. cbn [returned]. reflexivity.
      + exfalso. unfold Guards.g_step in K. change (gs_hung (us_g (dropped h st))) with (gs_hung (us_g st)) in K. rewrite (r_hung1 _ _ _ _ _ R) in K.
        destruct (lost t _); [discriminate|]. destruct (nth_error _ t) as [[[c|] [] []]|]; try discriminate. destruct (_ || _); [discriminate|].
        destruct (apply_told _ _). discriminate.
    - rewrite (proj1 Iff C).
      set (st1 := UState (us_g st) 1 (us_poisoned st) (us_calm st) (us_calm_txs st)).
      assert (R1 : rel ([] ++ [(t, h)]) gs 1 w st1) by (destruct R; constructor; assumption || reflexivity).
      eexists (ended t h _ (s_heap (store_of st)) true st1), _. split.
      + unfold u_step, u_call. rewrite K. unfold crashed. cbn [returned takes andb end_log app Unwind.poisons]. 
        change (us_calm_txs (dropped h st)) with (us_calm_txs st). rewrite (r_calm_tx _ _ _ _ _ R _ _ _ N0), orb_true_r.
        unfold dropped, with_m, ended, st1. pj. rewrite (r_panics _ _ _ _ _ R). reflexivity.
      + eapply (rel_pop []); [exact R1|..]; unfold broken; cbn [close set_heap set_leaked set_lock set_graph set_poison w_graph w_poison w_heap w_leaked w_lock firstn length]; auto.
        * unfold dropped, with_m. pj. rewrite apply_told_graph, Bu, (r_graph _ _ _ _ _ R). reflexivity.
        * intros [|b] t' h' [=].
  Qed.

  (** ** Guards *)
  Lemma open_guard en gs w st (wr : bool) l : rel en gs 0 w st -> (if wr then w_lock w = GFree /\ l = GWrite else glock_read (w_lock w) = Some l) ->
    exists g st', u_step st (UEvent (GOpen wr)) = (st', (GX (XHandle g), if w_poison w then [LPoisoned] else [])) /\
      rel en (g :: gs) 0 (set_lock l w) st'.
  Proof.
    intros R L. exists (length (gs_guards (us_g st))). eexists. split.
    - unfold u_step, u_call, Guards.g_step. rewrite (r_hung1 _ _ _ _ _ R), (locked_lock _ _ _ _ _ _ R).
      assert (X : (match w_lock w with GFree => false | GReaders _ => wr | GTx | GWrite => true end) = false).
      { destruct wr; [now destruct L as [-> _]|]. destruct (w_lock w); try discriminate; reflexivity. }
      rewrite X. cbn [returned takes andb end_log]. rewrite app_nil_r, (r_poison _ _ _ _ _ R). reflexivity.
    - pose proof (r_poison _ _ _ _ _ R) as Po. pose proof (r_panics _ _ _ _ _ R) as Pa. unfold Unwind.poisons. rewrite Pa. cbn [Nat.eqb].
      assert (Fr : forall g, In g gs -> g < length (gs_guards (us_g st))).
      { intros g I. destruct (r_gs _ _ _ _ _ R _ I) as [N _]. apply nth_error_Some. congruence. }
      assert (Wl : writes l = wr /\ (gs = [] \/ writes (w_lock w) = writes l) /\ en = [] /\
                match l with GReaders n => length gs = n | GWrite => gs = [] | _ => False end).
      { pose proof (r_lock _ _ _ _ _ R) as Rl. destruct wr; [destruct L as [L ->]; rewrite L in *; destruct Rl as [-> ->]; auto|].
        destruct (w_lock w); try discriminate; cbn in L; injection L as <-; destruct Rl as [-> Rl]; cbn; auto. subst gs. auto. }
      destruct Wl as (Wl & Old & -> & Len). destruct R. constructor; pj; auto.
      + now rewrite orb_false_r.
      + destruct l; try contradiction; split; auto; cbn; now rewrite Len.
      + intros g x N. apply nth_error_snoc in N as [N|[-> _]]; [|right; now left]. destruct (r_dropped0 _ _ N); auto. right; now right.
      + intros g [<-|I].
        * rewrite nth_snoc_eq, <- r_calm0, nth_snoc_new. subst wr. auto.
        * pose proof (Fr _ I) as Lg. destruct (r_gs0 _ I) as [N C]. rewrite nth_error_app1, app_nth1 by (rewrite ?r_calm0; assumption).
          destruct Old as [->|<-]; [destruct I|]. auto.
      + constructor; [|assumption]. intros I. apply Fr in I. lia.
      + rewrite !app_length. cbn. now rewrite r_calm0.
  Qed.

  Lemma guard_blocked en gs w st (wr : bool) : rel en gs 0 w st -> (if wr then w_lock w <> GFree else glock_read (w_lock w) = None) ->
    exists st', u_step st (UEvent (GOpen wr)) = (st', (GX XHang, [])) /\ s_graph (store_of st') = w_graph w /\ us_poisoned st' = w_poison w.
  Proof.
    intros R L. unfold u_step, u_call, Guards.g_step. rewrite (r_hung1 _ _ _ _ _ R), (locked_lock _ _ _ _ _ _ R).
    assert (X : (match w_lock w with GFree => false | GReaders _ => wr | GTx | GWrite => true end) = true).
    { destruct wr, (w_lock w); auto; try congruence; discriminate. }
    rewrite X. cbn. eexists; split; [reflexivity|]. cbn. split; apply R.
  Qed.

  Lemma drop_guard en g gs d w st : rel en (g :: gs) d w st ->
    exists st', u_step st (UEvent (GDrop g)) = (st', (GX XUnit, [])) /\
      rel en gs d (match w_lock w with
                   | GWrite => set_lock GFree (match d with 0 => w | _ => set_poison w end)
                   | l => set_lock (glock_unread l) w
                   end) st'.
  Proof.
    intros R. destruct (r_gs _ _ _ _ _ R g (or_introl eq_refl)) as [N C]. pose proof (r_lock _ _ _ _ _ R) as Rl.
    eexists. split.
    - unfold u_step, u_call, Guards.g_step. rewrite (r_hung1 _ _ _ _ _ R). unfold usable. rewrite N. cbn [returned takes andb end_log app]. reflexivity.
    - unfold Unwind.poisons, usable. rewrite N, C, (r_panics _ _ _ _ _ R).
      pose proof (r_nodup _ _ _ _ _ R) as Nd. apply NoDup_cons_iff in Nd as [Ni Nd].
      assert (Gs : forall g', In g' gs -> g' <> g) by (intros g' I ->; auto).
      assert (Po : us_poisoned st = w_poison w) by apply R.
      pose proof (r_gs _ _ _ _ _ R) as Rg.
      assert (K : forall w', w_graph w' = w_graph w -> w_heap w' = w_heap w -> w_leaked w' = w_leaked w ->
         w_poison w' = us_poisoned st || (negb (Nat.eqb d 0) && if writes (w_lock w) then true else false) ->
         (gs = [] \/ writes (w_lock w') = writes (w_lock w)) ->
         match w_lock w' with GFree => en = [] /\ gs = [] | GTx => en <> [] /\ gs = [] | GReaders n => en = [] /\ length gs = S n | GWrite => en = [] /\ length gs = 1 end ->
         rel en gs d w' (UState (set_guard Dropped g (us_g st)) d (us_poisoned st || (negb (Nat.eqb d 0) && if writes (w_lock w) then true else false)) (us_calm st) (us_calm_txs st))).
      { intros w' E1 E2 E3 E4 E5 E6. destruct R. unfold set_guard. constructor; pj; auto; try (rewrite ?E1, ?E2, ?E3; assumption).
        - intros b t h X. unfold leaked. rewrite E3. apply (r_in_use0 _ _ _ X).
        - intros g' x X. rewrite nth_error_alter in X. destruct (Nat.eqb_spec g g') as [<-|Ne].
          + left. rewrite N in X. cbn in X. injection X as <-. reflexivity.
          + destruct (r_dropped0 _ _ X) as [D|[->|I]]; auto. congruence.
        - intros g' I. destruct (Rg g' (or_intror I)) as [X Y]. rewrite nth_error_alter. destruct (Nat.eqb_spec g g') as [<-|Ne]; [now apply Gs in I|].
          destruct E5 as [->|E5]; [destruct I|]. now rewrite E5.
        - now rewrite alter_length. }
      destruct (w_lock w) as [|n| |] eqn:Lk; cbn [writes glock_unread] in *.
      + destruct Rl as [_ [=]].
      + destruct Rl as [-> Rl]. cbn in Rl. injection Rl as Rl. apply K; destruct n; pj; auto; try (destruct d; now rewrite orb_false_r).
        * destruct gs; [auto|discriminate].
      + destruct Rl as [_ [=]].
      + destruct Rl as [-> Rl]. cbn in Rl. injection Rl as Rl. destruct gs; [|discriminate]. apply K; destruct d; pj; auto; now rewrite ?orb_false_r, ?orb_true_r.
  Qed.

  Lemma top_usable en g gs w st : rel en (g :: gs) 0 w st -> usable g (us_g st) = Some (writes (w_lock w)).
  Proof. intros R. unfold usable. destruct (r_gs _ _ _ _ _ R g (or_introl eq_refl)) as [N _]. now rewrite N. Qed.

  Lemma ustate_eta (st : ustate) : UState (us_g st) (us_panics st) (us_poisoned st || false) (us_calm st) (us_calm_txs st) = st.
  Proof. rewrite orb_false_r. destruct st; reflexivity. Qed.

  Lemma step_graph_get en g gs w st i : rel en (g :: gs) 0 w st ->
    u_step st (UEvent (GGet g i)) = (st, (GX (XNode (g_get (w_graph w) i)), [])).
  Proof.
    intros R. unfold u_step, u_call, Guards.g_step. rewrite (r_hung1 _ _ _ _ _ R), (top_usable _ _ _ _ _ R).
    cbn [returned takes andb end_log app]. rewrite (r_graph _ _ _ _ _ R). f_equal. unfold Unwind.poisons. rewrite (r_panics _ _ _ _ _ R).
    rewrite <- (r_panics _ _ _ _ _ R) at 1. apply ustate_eta.
  Qed.

  Lemma step_graph_iter en g gs w st : rel en (g :: gs) 0 w st ->
    u_step st (UEvent (GIter g)) = (st, (GNodes (g_iter (w_graph w)), [])).
  Proof.
    intros R. unfold u_step, u_call, Guards.g_step. rewrite (r_hung1 _ _ _ _ _ R), (top_usable _ _ _ _ _ R).
    cbn [returned takes andb end_log app]. rewrite (r_graph _ _ _ _ _ R). f_equal. unfold Unwind.poisons. rewrite (r_panics _ _ _ _ _ R).
    rewrite <- (r_panics _ _ _ _ _ R) at 1. apply ustate_eta.
  Qed.

  Lemma step_graph_call en g gs w st c : rel en (g :: gs) 0 w st -> w_lock w = GWrite ->
    exists st', u_step st (UEvent (GCall g c)) = (st', (GX (XNode (snd (Graph.g_step (w_graph w) c))), [])) /\
      rel en (g :: gs) 0 (set_graph (fst (Graph.g_step (w_graph w) c)) w) st'.
  Proof.
    intros R L. unfold u_step, u_call, Guards.g_step. rewrite (r_hung1 _ _ _ _ _ R), (top_usable _ _ _ _ _ R), L. cbn [writes].
    rewrite (r_graph _ _ _ _ _ R). destruct (Graph.g_step (w_graph w) c) as [g' r]. cbn [returned takes andb end_log app fst snd].
    eexists; split; [reflexivity|]. unfold Unwind.poisons. rewrite (r_panics _ _ _ _ _ R), orb_false_r. destruct R. constructor; pj; assumption || reflexivity.
  Qed.
End Facts.
