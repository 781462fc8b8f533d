(** Commits in which user code panics: the facts behind C137. *)
From Coq Require Import List Bool Arith Lia.
From Verif Require Import Ord OrdFacts BTree BTreeFacts Graph GraphFacts SpecGraph Tx TxFacts TxMachine SpecTx TxMachineFacts TxInv TxHist Guards SpecGuards GuardsFacts.
From Verif Require Import Unwind SpecUnwind UnwindFacts SpecCrash.
Import ListNotations.

Section Crash.
  Context {Id Node : Type} `{HO : OrdT Id} `{HI : Identify Node Id}.
  Notation graph := (graph Id Node).
  Notation event := (@event Id Node).
  Notation gevent := (gevent Id Node).
  Notation gstate := (gstate Id Node).

  Lemma gathered_ops g0 (es : list gevent) t : g_wf g0 ->
    gathered g0 es t = map op_entry (buf_ops (s_heap (m_store (gs_m (g_after g0 es)))) t).
  Proof.
    intros W. unfold gathered. rewrite (proj1 (erased g0 es W)).
    apply (ji_tx (g_get g0) (fst (m_run (m_init g0) (erase es (g_answers g0 es))))). apply jinv_run.
    - now apply minv_init.
    - intros u o N. cbn in N. destruct u; discriminate.
    - constructor; cbn; [|reflexivity]. intros u. unfold buf_ops; cbn. destruct u; reflexivity.
  Qed.

  Lemma call_entry_op (o : op Id Node) : call_entry (op_call o) = op_entry o.
  Proof. now destruct o. Qed.

  Lemma lost_forgotten g0 (es : list gevent) t : lost t (g_after g0 es) = true <-> forgotten g0 es t.
  Proof.
    unfold lost. split.
    - intros L. apply existsb_exists in L as (u & L & E). apply Nat.eqb_eq in E. subst u. revert L.
      induction es as [|e es IH] using rev_ind; [intros []|]. rewrite g_after_snoc. intros L. apply happened_snoc. set (st := g_after g0 es) in *.
      assert (G : In t (gs_lost st) \/ (e = GForget t /\ snd (g_step st e) = GX XUnit)); [|destruct G as [G|G]; [left; apply IH; exact G|right; destruct G as [-> G]; split; [reflexivity|exact G]]].
      destruct (gs_hung st) eqn:Hg; [unfold g_step in L; rewrite Hg in L; auto|].
      assert (P : forall e, In t (gs_lost (fst (g_pass st e))) -> In t (gs_lost st)) by (intros e0; unfold g_pass; destruct (m_step (gs_m st) e0); auto).
      destruct e as [e|u|u k|w|g i|g|g c|g|g]; [| |destruct (crash_cases st u k) as [[K|K]|[C K]]; rewrite K in L; left; exact L| | | | | |]; unfold g_step in *; rewrite Hg in *.
      + destruct (of_lost st e); [auto|]. destruct (asks st e) as [w|]; [destruct (locked w st); [auto|]|]; left; eapply P; eassumption.
      + destruct (lost u st); [auto|]. destruct (nth_error _ u) as [[[c|] [] []]|]; auto. destruct (has_ctx _ u Live); [auto|].
        destruct L as [->|L]; auto.
      + destruct (locked w st); auto.
      + destruct (usable g st); auto.
      + destruct (usable g st); auto.
      + destruct (usable g st) as [[]|]; auto. destruct (Graph.g_step _ c). auto.
      + destruct (usable g st); auto.
      + destruct (usable g st); auto.
    - intros L. apply existsb_exists. exists t. split; [now apply lost_stays|apply Nat.eqb_refl].
  Qed.

  Lemma has_ctx_spec (p : proto) t s : has_ctx p t s = true <-> exists c, nth_error (p_ctxs p) c = Some (CtxRec t s).
  Proof.
    unfold has_ctx. rewrite existsb_exists. split.
    - intros ([t' s'] & I & E). apply andb_true_iff in E as [E1 E2]. apply Nat.eqb_eq in E1. cbn in *. subst t'. apply In_nth_error in I as [c N].
      exists c. rewrite N. destruct s, s'; try discriminate; reflexivity.
    - intros [c N]. exists (CtxRec t s). split; [exact (nth_error_In _ _ N)|]. cbn. rewrite Nat.eqb_refl. now destruct s.
  Qed.

  Lemma contexts_gone_spec g0 (es : list gevent) t : g_wf g0 ->
    (contexts_gone g0 es t <-> has_ctx (m_proto (gs_m (g_after g0 es))) t Live = false /\ has_ctx (m_proto (gs_m (g_after g0 es))) t Leaked = false).
  Proof.
    intros W. destruct (chist_after g0 es W) as [Hn Hl Hd].
    assert (K : forall s, has_ctx (m_proto (gs_m (g_after g0 es))) t s = false <-> ~ exists c, nth_error (p_ctxs (m_proto (gs_m (g_after g0 es)))) c = Some (CtxRec t s)).
    { intros s. rewrite <- has_ctx_spec. destruct (has_ctx _ t s); split; congruence. }
    rewrite !K. unfold contexts_gone. split.
    - intros C. split; intros [c N]; (destruct (proj2 (Hn t c)) as [e2 M]; [eauto|]); specialize (C c e2 M); apply Hd in C as [t' C]; congruence.
    - intros [A B] c e2 M. apply Hd. destruct (proj1 (Hn t c)) as [s N]; [eauto|]. exists t. destruct s; [destruct A; eauto|exact N|destruct B; eauto].
  Qed.

  Lemma active_spec g0 (es : list gevent) t : g_wf g0 -> (active g0 es t <-> nth_error (p_txs (m_proto (gs_m (g_after g0 es)))) t = Some (TxRec None true true)).
  Proof.
    intros W. destruct (txhist_after g0 es W) as [Hb He Hc Ho]. unfold txs_of in *. unfold active. split.
    - intros (B & C & E). apply Hb in B as (b & o & N). destruct o.
      + apply (Ho t b N) in C. subst b. exact N.
      + destruct E. apply He. eauto.
    - intros N. split; [apply Hb; eauto|]. split; [now apply (Ho t true N)|]. intros K. apply He in K as (par & b & K). congruence.
  Qed.

  Lemma crashes_spec g0 (es : list gevent) t k : g_wf g0 -> returns g0 es ->
    (crashing (g_after g0 es) t k <->
     active g0 es t /\ ~ forgotten g0 es t /\ contexts_gone g0 es t /\ gathered g0 es t <> [] /\ k <= length (gathered g0 es t)).
  Proof.
    intros W R. apply hung_returns in R; [|exact W]. rewrite (active_spec g0 es t W), (contexts_gone_spec g0 es t W), <- lost_forgotten, (gathered_ops g0 es t W), map_length.
    assert (C : can_crash k (buf_ops (s_heap (m_store (gs_m (g_after g0 es)))) t) = true <->
      map op_entry (buf_ops (s_heap (m_store (gs_m (g_after g0 es)))) t) <> [] /\ k <= length (buf_ops (s_heap (m_store (gs_m (g_after g0 es)))) t)).
    { unfold can_crash. rewrite andb_true_iff, Nat.ltb_lt, Nat.leb_le. destruct (buf_ops _ t); cbn; split; intros [A B]; split; auto; try lia; try congruence. }
    split.
    - intros [A B D E F G]. repeat split; auto; [now rewrite B|now apply C|now apply C].
    - intros (A & B & (D & E) & F & G). constructor; auto. + now destruct (lost t _); [destruct B|]. + now apply C.
  Qed.

  (** The state after the panic is the state after the transaction is dropped and the calls are made. *)
  Lemma writes_run ops : forall (st : gstate), gs_hung st = false -> p_hung (m_proto (gs_m st)) = false -> locked true st = false ->
    let s := m_store (gs_m st) in
    g_run st (map (fun c => GEvent (EWrite c)) (map fst (snd (apply_told (s_graph s) ops)))) =
      (GState (Machine (m_proto (gs_m st)) (Store (fst (apply_told (s_graph s) ops)) (s_heap s) (s_ctxs s))) (gs_guards st) (gs_lost st) (gs_hung st),
       map (fun x => GX (XNode (snd x))) (snd (apply_told (s_graph s) ops))).
  Proof.
    induction ops as [|o ops IH]; intros st Hg Hh L; cbn zeta.
    - cbn. destruct st as [[p [g hp cs]] gs ls h]. reflexivity.
    - destruct st as [[p [g hp cs]] gs ls h]. cbn [gs_m m_store s_graph s_heap s_ctxs m_proto gs_guards gs_lost gs_hung apply_told] in *. subst h.
      destruct (Graph.g_step g (op_call o)) as [g1 r] eqn:S. destruct (apply_told g1 ops) as [g2 l] eqn:T. cbn [fst snd map g_run].
      assert (E : g_step (GState (Machine p (Store g hp cs)) gs ls false) (GEvent (EWrite (op_call o))) =
        (GState (Machine p (Store g1 hp cs)) gs ls false, GX (XNode r))).
      { unfold g_step. cbn [gs_hung of_lost asks]. rewrite L. unfold g_pass, m_step, p_step. cbn [gs_m m_proto]. rewrite Hh.
        assert (G : guard_held p = false) by (unfold locked in L; cbn in L; destruct (guard_held p); [discriminate|reflexivity]).
        rewrite G. cbn. now rewrite S. }
      rewrite E. specialize (IH (GState (Machine p (Store g1 hp cs)) gs ls false) eq_refl Hh L). cbn [gs_m m_store s_graph s_heap s_ctxs m_proto gs_guards gs_lost gs_hung] in IH.
      rewrite T in IH. cbn [fst snd] in IH. now rewrite IH.
  Qed.

  Lemma crash_run (st : gstate) t k : ginv st -> crashing st t k ->
    fst (g_run st (dropped_then t (map fst (snd (apply_told (s_graph (m_store (gs_m st))) (firstn k (buf_ops (s_heap (m_store (gs_m st))) t))))))) = fst (crashed st t k).
  Proof.
    intros I C. unfold dropped_then. cbn [g_run]. rewrite (crash_drop st t k I C). set (st1 := GState _ _ _ _).
    assert (L : locked true st1 = false).
    { pose proof (gi_m _ I) as M. assert (G : guard_held (m_proto (gs_m st)) = true).
      { unfold guard_held. apply existsb_exists. exists (TxRec None true true). split; [exact (nth_error_In _ _ (cr_rec _ _ _ C))|reflexivity]. }
      destruct (gi_excl _ I G) as [A B]. unfold locked. subst st1. cbn [gs_m m_proto]. rewrite guard_freed; [|apply (mi_p _ M)|apply C].
      change (held true st || held false st = false). now rewrite A, B. }
    pose proof (writes_run (firstn k (buf_ops (s_heap (m_store (gs_m st))) t)) st1 (cr_hung _ _ _ C) (gi_hung _ I) L) as K. cbn zeta in K.
    change (m_store (gs_m st1)) with (m_store (gs_m st)) in K. rewrite K. reflexivity.
  Qed.
End Crash.
