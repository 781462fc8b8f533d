(** Invariants of histories and their consequences for contexts: isolation,
    live visibility, commit, serial replay, lock discipline. *)
From Coq Require Import List Bool Arith Lia.
From Verif Require Import Ord OrdFacts BTree BTreeFacts Graph GraphFacts SpecGraph Tx TxMachine
  SpecTx TxFacts TxMachineFacts.
Import ListNotations.

Section Inv.
  Context {Id Node : Type} `{HO : OrdT Id} `{HI : Identify Node Id}.
  Notation graph := (graph Id Node).
  Notation event := (@event Id Node).
  Notation action := (@action Id Node).
  Notation machine := (@machine Id Node).
  Notation store := (@store Id Node).
  Notation output := (@output Node).

  (** ** Case analysis of [p_step] *)

  Inductive pstep (p : proto) : event -> proto -> action -> Prop :=
  | ps_hung e : p_hung p = true -> pstep p e p AHang
  | ps_invalid e : p_hung p = false -> pstep p e p AInvalid
  | ps_bg : p_hung p = false ->
      pstep p EBackground (Proto (p_txs p ++ [TxRec None false true]) (p_ctxs p) false) ANewTx
  | ps_fg c t : p_hung p = false -> nth_error (p_ctxs p) c = Some (CtxRec t Live) ->
      pstep p (EForeground c) (Proto (p_txs p ++ [TxRec (Some c) false true]) (p_ctxs p) false) ANewTx
  | ps_ctx_fg t c g : p_hung p = false -> nth_error (p_txs p) t = Some (TxRec (Some c) g true) ->
      pstep p (EContext t) (Proto (p_txs p) (p_ctxs p ++ [CtxRec t Live]) false) (ANewCtx t (Some c))
  | ps_ctx_bg t : p_hung p = false -> nth_error (p_txs p) t = Some (TxRec None true true) ->
      pstep p (EContext t) (Proto (p_txs p) (p_ctxs p ++ [CtxRec t Live]) false) (ANewCtx t None)
  | ps_ctx_lock t : p_hung p = false -> nth_error (p_txs p) t = Some (TxRec None false true) ->
      guard_held p = false ->
      pstep p (EContext t)
        (Proto (alter (fun r => TxRec (tx_parent r) true (tx_open r)) t (p_txs p))
               (p_ctxs p ++ [CtxRec t Live]) false) (ANewCtx t None)
  | ps_hang e : p_hung p = false -> guard_held p = true ->
      match e with
      | ERead _ | EWrite _ => True
      | EContext t => nth_error (p_txs p) t = Some (TxRec None false true)
      | _ => False
      end -> pstep p e (hang p) AHang
  | ps_save c t n : p_hung p = false -> nth_error (p_ctxs p) c = Some (CtxRec t Live) ->
      pstep p (ESave c n) p (ASave c n)
  | ps_delete c t i : p_hung p = false -> nth_error (p_ctxs p) c = Some (CtxRec t Live) ->
      pstep p (EDelete c i) p (ADelete c i)
  | ps_get c t i : p_hung p = false -> nth_error (p_ctxs p) c = Some (CtxRec t Live) ->
      pstep p (EGet c i) p (AGet c i)
  | ps_contains c t i : p_hung p = false -> nth_error (p_ctxs p) c = Some (CtxRec t Live) ->
      pstep p (EContains c i) p (AContains c i)
  | ps_drop c t : p_hung p = false -> nth_error (p_ctxs p) c = Some (CtxRec t Live) ->
      ctx_borrowed p c = false -> pstep p (EDropCtx c) (set_status Dropped c p) ANone
  | ps_leak c t : p_hung p = false -> nth_error (p_ctxs p) c = Some (CtxRec t Live) ->
      ctx_borrowed p c = false -> pstep p (ELeakCtx c) (set_status Leaked c p) ANone
  | ps_end_none t commit parent g : p_hung p = false ->
      nth_error (p_txs p) t = Some (TxRec parent g true) ->
      has_ctx p t Live = false ->
      commit = false \/ has_ctx p t Leaked = true \/ (parent = None /\ g = false) ->
      pstep p (EEnd t commit) (close_tx t p) ANone
  | ps_merge t c g : p_hung p = false ->
      nth_error (p_txs p) t = Some (TxRec (Some c) g true) ->
      has_ctx p t Live = false -> has_ctx p t Leaked = false ->
      pstep p (EEnd t true) (close_tx t p) (AMerge t c)
  | ps_publish t : p_hung p = false ->
      nth_error (p_txs p) t = Some (TxRec None true true) ->
      has_ctx p t Live = false -> has_ctx p t Leaked = false ->
      pstep p (EEnd t true) (close_tx t p) (APublish t)
  | ps_read i : p_hung p = false -> guard_held p = false -> pstep p (ERead i) p (ARead i)
  | ps_write c : p_hung p = false -> guard_held p = false -> pstep p (EWrite c) p (AWrite c).

  Lemma p_step_pstep p (e : event) : pstep p e (fst (p_step p e)) (snd (p_step p e)).
  Proof.
    unfold p_step. destruct (p_hung p) eqn:Hh; [now constructor|].
    destruct e as [|c|t|c n|c i|c i|c i|c|c|t commit|i|g]; cbn.
    - now constructor.
    - destruct (ctx_live p c) eqn:L; cbn; [|now constructor].
      apply ctx_live_spec in L as [t L]. econstructor; eassumption.
    - destruct (nth_error (p_txs p) t) as [[[c|] [] []]|] eqn:N; cbn;
        try (now constructor); try (econstructor; eassumption).
      destruct (guard_held p) eqn:GH; cbn; [now apply ps_hang|now constructor].
    - destruct (ctx_live p c) eqn:L; cbn; [|now constructor].
      apply ctx_live_spec in L as [t L]. econstructor; eassumption.
    - destruct (ctx_live p c) eqn:L; cbn; [|now constructor].
      apply ctx_live_spec in L as [t L]. econstructor; eassumption.
    - destruct (ctx_live p c) eqn:L; cbn; [|now constructor].
      apply ctx_live_spec in L as [t L]. econstructor; eassumption.
    - destruct (ctx_live p c) eqn:L; cbn; [|now constructor].
      apply ctx_live_spec in L as [t L]. econstructor; eassumption.
    - destruct (ctx_live p c) eqn:L; cbn; [|now constructor].
      apply ctx_live_spec in L as [t L].
      destruct (ctx_borrowed p c) eqn:B; cbn; [now constructor|econstructor; eassumption].
    - destruct (ctx_live p c) eqn:L; cbn; [|now constructor].
      apply ctx_live_spec in L as [t L].
      destruct (ctx_borrowed p c) eqn:B; cbn; [now constructor|econstructor; eassumption].
    - destruct (nth_error (p_txs p) t) as [[parent g []]|] eqn:N; cbn; try (now constructor).
      destruct (has_ctx p t Live) eqn:HL; cbn; [now constructor|].
      destruct commit; cbn; [|eapply ps_end_none; eauto].
      destruct (has_ctx p t Leaked) eqn:HK; cbn; [eapply ps_end_none; eauto|].
      destruct parent as [c|]; cbn; [econstructor; eassumption|].
      destruct g; cbn; [econstructor; eassumption|eapply ps_end_none; eauto].
    - destruct (guard_held p) eqn:GH; cbn; [now apply ps_hang|now constructor].
    - destruct (guard_held p) eqn:GH; cbn; [now apply ps_hang|now constructor].
  Qed.

  (** ** Protocol states only grow *)

  Record p_ext (p p' : proto) : Prop := PExt {
    pe_tx : forall t x, nth_error (p_txs p) t = Some x ->
      exists x', nth_error (p_txs p') t = Some x' /\ tx_parent x' = tx_parent x;
    pe_ctx : forall c r, nth_error (p_ctxs p) c = Some r ->
      exists r', nth_error (p_ctxs p') c = Some r' /\ cr_tx r' = cr_tx r
  }.

  Lemma p_ext_refl p : p_ext p p.
  Proof. constructor; eauto. Qed.

  Lemma p_ext_trans p1 p2 p3 : p_ext p1 p2 -> p_ext p2 p3 -> p_ext p1 p3.
  Proof.
    intros [T1 C1] [T2 C2]. constructor.
    - intros t x N. destruct (T1 t x N) as (x2 & N2 & E2). destruct (T2 t x2 N2) as (x3 & N3 & E3).
      exists x3. split; congruence.
    - intros c r N. destruct (C1 c r N) as (x2 & N2 & E2). destruct (C2 c x2 N2) as (x3 & N3 & E3).
      exists x3. split; congruence.
  Qed.

  Lemma alter_keep {A B} (f : A -> A) (k : A -> B) n (l : list A) :
    (forall x, k (f x) = k x) ->
    forall m x, nth_error l m = Some x ->
    exists x', nth_error (alter f n l) m = Some x' /\ k x' = k x.
  Proof.
    intros K m x N. rewrite nth_error_alter. rewrite N. destruct (Nat.eqb n m); cbn; eauto.
  Qed.

  Lemma snoc_keep {A B} (k : A -> B) (l : list A) y m x :
    nth_error l m = Some x -> exists x', nth_error (l ++ [y]) m = Some x' /\ k x' = k x.
  Proof. intros N. exists x. split; [|reflexivity]. apply nth_error_snoc. auto. Qed.

  Lemma p_step_ext p (e : event) : p_ext p (fst (p_step p e)).
  Proof.
    destruct (p_step_pstep p e); try apply p_ext_refl; constructor; cbn;
      eauto using snoc_keep;
      try (apply alter_keep; reflexivity).
  Qed.

  Lemma made_from_ext p p' c t : p_ext p p' -> made_from p c t -> made_from p' c t.
  Proof.
    intros [_ C] [s N]. destruct (C _ _ N) as ([t' s'] & N' & E). cbn in E. subst. now exists s'.
  Qed.

  Lemma opened_on_ext p p' t c : p_ext p p' -> opened_on p t c -> opened_on p' t c.
  Proof.
    intros [T _] (g & o & N). destruct (T _ _ N) as ([q g' o'] & N' & E). cbn in E. subst.
    now exists g', o'.
  Qed.

  Lemma top_level_ext p p' t : p_ext p p' -> top_level p t -> top_level p' t.
  Proof.
    intros [T _] (g & o & N). destruct (T _ _ N) as ([q g' o'] & N' & E). cbn in E. subst.
    now exists g', o'.
  Qed.

  Lemma made_from_fun p c t u : made_from p c t -> made_from p c u -> t = u.
  Proof. intros [s N] [s' N']. congruence. Qed.

  Lemma opened_on_fun p t c d : opened_on p t c -> opened_on p t d -> c = d.
  Proof. intros (? & ? & N) (? & ? & N'). congruence. Qed.

  Lemma opened_on_top p t c : opened_on p t c -> top_level p t -> False.
  Proof. intros (? & ? & N) (? & ? & N'). congruence. Qed.

  (** ** The invariant of reachable states *)

  Definition ctx_shape (p : proto) (s : store) (c t : nat) : Prop :=
    (top_level p t /\ ctx_value s c = CRoot t None) \/
    (exists q, opened_on p t q /\ ctx_value s c = CSub (ctx_value s q) t None).

  Record minv (m : machine) : Prop := MInv {
    mi_p : pinv (m_proto m);
    mi_heap : length (s_heap (m_store m)) = length (p_txs (m_proto m));
    mi_ctxs : length (s_ctxs (m_store m)) = length (p_ctxs (m_proto m));
    mi_val : forall c t, made_from (m_proto m) c t -> ctx_shape (m_proto m) (m_store m) c t;
    mi_wf : g_wf (s_graph (m_store m))
  }.

  Lemma pinv_opened p t c : pinv p -> opened_on p t c ->
    exists u, made_from p c u /\ u < t.
  Proof.
    intros I (g & o & N). destruct (pi_tx p I _ _ _ N eq_refl) as ([u s] & Nr & L & _).
    exists u. split; [now exists s|exact L].
  Qed.

  Lemma made_from_tx p c t : pinv p -> made_from p c t -> top_level p t \/ exists q, opened_on p t q.
  Proof.
    intros I [s N]. destruct (pi_ctx p I _ _ N) as ([[q|] g o] & Nx & _); cbn in Nx.
    - right. exists q, g, o. exact Nx.
    - left. exists g, o. exact Nx.
  Qed.

  Lemma shape_ext p (s : store) p' (s' : store) c t : p_ext p p' ->
    ctx_value s' c = ctx_value s c ->
    (forall q, opened_on p t q -> ctx_value s' q = ctx_value s q) ->
    ctx_shape p s c t -> ctx_shape p' s' c t.
  Proof.
    intros E V Q [[T S]|(q & O & S)]; [left|right].
    - split; [eapply top_level_ext; eassumption|congruence].
    - exists q. split; [eapply opened_on_ext; eassumption|]. rewrite V, S. now rewrite (Q q O).
  Qed.

  Lemma ctx_value_same (s s' : store) c : s_ctxs s' = s_ctxs s -> ctx_value s' c = ctx_value s c.
  Proof. unfold ctx_value. now intros ->. Qed.

  Lemma m_exec_ctxs s (a : action) :
    match a with ANewCtx _ _ => False | _ => True end -> s_ctxs (fst (m_exec s a)) = s_ctxs s.
  Proof. destruct a as [| | | | | | | | | | | |[]]; cbn; intros []; reflexivity. Qed.

  Lemma m_exec_heap_len s (a : action) :
    length (s_heap (fst (m_exec s a))) =
    match a with ANewTx => S (length (s_heap s)) | _ => length (s_heap s) end.
  Proof.
    destruct a as [| | | | | | | | | | | |[]]; cbn; try reflexivity;
      unfold ctx_save, ctx_delete, buf_push, fg_extend; rewrite ?alter_length; try reflexivity.
    rewrite app_length; cbn; lia.
  Qed.

  Lemma m_exec_wf s (a : action) : g_wf (s_graph s) -> g_wf (s_graph (fst (m_exec s a))).
  Proof.
    intros W. destruct a as [| | | | | | | | | | | |[]]; cbn; try assumption.
    - now apply apply_ops_wf.
    - now apply g_wf_insert.
    - now apply g_wf_insert.
    - now apply g_wf_remove.
  Qed.

  Lemma m_step_fst (m : machine) (e : event) : m_step m e =
    (Machine (fst (p_step (m_proto m) e)) (fst (m_exec (m_store m) (snd (p_step (m_proto m) e)))),
     snd (m_exec (m_store m) (snd (p_step (m_proto m) e)))).
  Proof.
    unfold m_step. destruct (p_step (m_proto m) e) as [p a]. cbn.
    destruct (m_exec (m_store m) a); reflexivity.
  Qed.

  Lemma made_from_snoc p txs c t t' :
    pinv p -> made_from (Proto txs (p_ctxs p ++ [CtxRec t Live]) false) c t' ->
    made_from p c t' \/ (c = length (p_ctxs p) /\ t' = t).
  Proof.
    intros I [s N]. cbn in N. apply nth_error_snoc in N as [N|[-> E]].
    - left. now exists s.
    - right. split; [reflexivity|]. now injection E.
  Qed.

  Lemma made_from_back p (e : event) c t : made_from (fst (p_step p e)) c t ->
    made_from p c t \/ c = length (p_ctxs p).
  Proof.
    intros [s N]. destruct (p_step_pstep p e); cbn in N;
      try (left; now exists s);
      try (apply nth_error_snoc in N as [N|[-> E]]; [left; now exists s|now right]).
    - left. rewrite nth_error_alter in N. destruct (Nat.eqb c0 c); [|now exists s].
      destruct (nth_error (p_ctxs p) c) as [[t1 s1]|] eqn:N1; [|discriminate]. cbn in N.
      injection N as -> _. now exists s1.
    - left. rewrite nth_error_alter in N. destruct (Nat.eqb c0 c); [|now exists s].
      destruct (nth_error (p_ctxs p) c) as [[t1 s1]|] eqn:N1; [|discriminate]. cbn in N.
      injection N as -> _. now exists s1.
  Qed.

  Lemma made_from_lt p c t : made_from p c t -> c < length (p_ctxs p).
  Proof. intros [s N]. apply nth_error_Some. congruence. Qed.

  Lemma opened_on_lt p t c : pinv p -> opened_on p t c -> c < length (p_ctxs p).
  Proof. intros I O. destruct (pinv_opened p t c I O) as (u & M & _). eapply made_from_lt; eassumption. Qed.

  (** Values of existing contexts never change. *)
  Lemma ctx_value_exec s (a : action) c : c < length (s_ctxs s) ->
    ctx_value (fst (m_exec s a)) c = ctx_value s c.
  Proof.
    intros L. destruct a as [| | |t q| | | | | | | | |]; try (apply ctx_value_same, m_exec_ctxs; exact I).
    cbn. unfold ctx_value. cbn. now rewrite nth_snoc_old.
  Qed.

  Lemma minv_step (m : machine) (e : event) : minv m -> minv (fst (m_step m e)).
  Proof.
    intros [P Hh Hc V W]. rewrite m_step_fst. cbn.
    pose proof (p_step_ext (m_proto m) e) as X.
    pose proof (pinv_step (m_proto m) e P) as P'.
    assert (Hl : forall t c, opened_on (m_proto m) t c -> c < length (s_ctxs (m_store m)))
      by (intros; rewrite Hc; eapply opened_on_lt; eassumption).
    constructor; cbn.
    - exact P'.
    - rewrite m_exec_heap_len. destruct (p_step_pstep (m_proto m) e); cbn; auto;
        rewrite ?alter_length, ?app_length; cbn; try lia; auto.
    - destruct (p_step_pstep (m_proto m) e) as [ | | | | | | | | | | | | | | | | | |[] ]; cbn; auto;
        rewrite ?alter_length, ?app_length; cbn; try lia; auto.
    - intros c t M. pose proof (made_from_back _ _ _ _ M) as [M0| ->].
      + apply (shape_ext (m_proto m) (m_store m)); auto.
        * apply ctx_value_exec. rewrite Hc. eapply made_from_lt; eassumption.
        * intros q O. apply ctx_value_exec. eauto.
      + assert (E : forall p' (s' : store), p_ctxs p' = p_ctxs (m_proto m) ->
                made_from p' (length (p_ctxs (m_proto m))) t ->
                ctx_shape p' s' (length (p_ctxs (m_proto m))) t).
        { intros p' s' E [s N]. rewrite E in N.
          assert (length (p_ctxs (m_proto m)) < length (p_ctxs (m_proto m)))
            by (apply nth_error_Some; congruence). lia. }
        revert M X. destruct (p_step_pstep (m_proto m) e); intros M X;
          try (apply E; [reflexivity|exact M]).
        * apply made_from_snoc in M as [M|[_ ->]]; [apply made_from_lt in M; lia| |assumption].
          right. exists c. split; [eexists _, _; cbn; eassumption|].
          cbn. unfold ctx_value. cbn. rewrite <- Hc, nth_snoc_new. f_equal.
          rewrite nth_snoc_old; [reflexivity|]. eapply Hl. eexists _, _. eassumption.
        * apply made_from_snoc in M as [M|[_ ->]]; [apply made_from_lt in M; lia| |assumption].
          left. split; [eexists _, _; cbn; eassumption|].
          cbn. unfold ctx_value. cbn. now rewrite <- Hc, nth_snoc_new.
        * apply made_from_snoc in M as [M|[_ ->]]; [apply made_from_lt in M; lia| |assumption].
          left. split.
          -- eexists _, _; cbn. rewrite nth_error_alter, Nat.eqb_refl, H0. reflexivity.
          -- cbn. unfold ctx_value. cbn. now rewrite <- Hc, nth_snoc_new.
        * apply made_from_lt in M. cbn in M. rewrite alter_length in M. lia.
        * apply made_from_lt in M. cbn in M. rewrite alter_length in M. lia.
    - now apply m_exec_wf.
  Qed.

  Lemma minv_init g : g_wf g -> minv (m_init g).
  Proof.
    intros W. constructor; cbn; auto.
    - apply pinv_init.
    - intros c t [s N]. cbn in N. destruct c; discriminate.
  Qed.

  Lemma m_run_app (m : machine) es1 es2 :
    m_run m (es1 ++ es2) =
    (fst (m_run (fst (m_run m es1)) es2), snd (m_run m es1) ++ snd (m_run (fst (m_run m es1)) es2)).
  Proof.
    revert m. induction es1 as [|e es1 IH]; intros m; cbn; [now destruct (m_run m es2)|].
    destruct (m_step m e) as [m1 o]. rewrite IH. destruct (m_run m1 es1) as [m2 os]. cbn.
    reflexivity.
  Qed.

  Lemma m_run_cons (m : machine) e es : fst (m_run m (e :: es)) = fst (m_run (fst (m_step m e)) es).
  Proof. cbn. destruct (m_step m e) as [m1 o]. cbn. now destruct (m_run m1 es). Qed.

  Lemma after_snoc (g : graph) es e : after g (es ++ [e]) = fst (m_step (after g es) e).
  Proof. unfold after. rewrite m_run_app. cbn [fst]. rewrite m_run_cons. reflexivity. Qed.

  Lemma after_app (g : graph) es es' : after g (es ++ es') = fst (m_run (after g es) es').
  Proof. unfold after. now rewrite m_run_app. Qed.

  Lemma minv_run (es : list event) : forall m : machine, minv m -> minv (fst (m_run m es)).
  Proof. induction es as [|e es IH]; intros m I; [exact I|]. rewrite m_run_cons. apply IH, minv_step, I. Qed.

  Lemma minv_after (g : graph) es : g_wf g -> minv (after g es).
  Proof. intros W. apply minv_run, minv_init, W. Qed.

  (** ** Chains *)

  Lemma within_chain (m : machine) d t : minv m ->
    within (m_proto m) d t <-> (exists u, made_from (m_proto m) d u) /\ In t (ctx_chain (ctx_value (m_store m) d)).
  Proof.
    intros I. split.
    - induction 1 as [d t M|d t u c M O W IH].
      + split; [eauto|]. destruct (mi_val m I _ _ M) as [[_ ->]|(q & _ & ->)]; cbn; auto.
      + split; [eauto|]. destruct IH as [_ IH].
        destruct (mi_val m I _ _ M) as [[T _]|(q & O' & ->)]; [exfalso; eapply opened_on_top; eassumption|].
        rewrite (opened_on_fun _ _ _ _ O O') in IH. cbn. auto.
    - intros [[u M] In_]. remember (ctx_value (m_store m) d) as v eqn:Ev.
      revert d u M Ev In_. induction v as [b tg|v IH b tg]; intros d u M Ev In_.
      + destruct (mi_val m I _ _ M) as [[_ S]|(q & _ & S)]; rewrite <- Ev in S; [|discriminate].
        injection S as -> ->. destruct In_ as [->|[]]. now constructor.
      + destruct (mi_val m I _ _ M) as [[_ S]|(q & O & S)]; rewrite <- Ev in S; [discriminate|].
        injection S as -> -> ->. destruct In_ as [->|In_]; [now constructor|].
        destruct (pinv_opened _ _ _ (mi_p m I) O) as (w & Mq & _).
        eapply within_outer; eauto.
  Qed.

  Lemma ctx_buf_value (m : machine) c t : minv m -> made_from (m_proto m) c t ->
    ctx_buf (ctx_value (m_store m) c) = t.
  Proof. intros I M. destruct (mi_val m I _ _ M) as [[_ ->]|(q & _ & ->)]; reflexivity. Qed.

  Lemma within_le p d t : pinv p -> within p d t -> forall u, made_from p d u -> t <= u.
  Proof.
    intros I. induction 1 as [d t M|d t u c M O W IH]; intros v Mv.
    - rewrite (made_from_fun _ _ _ _ M Mv). lia.
    - destruct (pinv_opened p u c I O) as (w & Mc & L). specialize (IH w Mc).
      rewrite <- (made_from_fun _ _ _ _ M Mv). lia.
  Qed.

  Lemma tx_lt (m : machine) c t : minv m -> made_from (m_proto m) c t -> t < length (s_heap (m_store m)).
  Proof.
    intros I [s N]. rewrite (mi_heap m I). destruct (pi_ctx _ (mi_p m I) _ _ N) as (x & Nx & _).
    apply nth_error_Some. cbn in Nx. congruence.
  Qed.

  (** ** Isolation *)


  Lemma alive_made p c : alive p c -> exists t, made_from p c t.
  Proof. intros [t N]. exists t. now exists Live. Qed.

  Lemma p_step_ask p (e : event) : p_hung p = false -> forall c i, e = EGet c i ->
    ctx_live p c = true -> p_step p e = (p, AGet c i).
  Proof. intros H c i -> L. unfold p_step. now rewrite H, L. Qed.

  Lemma ask_alive (m : machine) c i : p_hung (m_proto m) = false -> alive (m_proto m) c ->
    ask m c i = XNode (ctx_get (s_heap (m_store m)) (s_graph (m_store m)) (ctx_value (m_store m) c) i).
  Proof.
    intros H A. unfold ask, m_step. rewrite (p_step_ask _ (EGet c i) H c i eq_refl).
    - reflexivity.
    - now apply ctx_live_spec.
  Qed.

  Lemma ask_contains_alive (m : machine) c i : p_hung (m_proto m) = false -> alive (m_proto m) c ->
    ask_contains m c i =
    XBool (match ctx_get (s_heap (m_store m)) (s_graph (m_store m)) (ctx_value (m_store m) c) i with
           | Some _ => true | None => false end).
  Proof.
    intros H A. unfold ask_contains, m_step, p_step. apply ctx_live_spec in A. rewrite H, A. cbn.
    now rewrite ctx_contains_get.
  Qed.

  (** The transaction enclosing everything around a live context is still open and holds the lock. *)
  Lemma alive_root (m : machine) c : minv m -> alive (m_proto m) c ->
    exists r d, within (m_proto m) c r /\ top_level (m_proto m) r /\ within (m_proto m) c r /\
      nth_error (p_txs (m_proto m)) r = Some (TxRec None true true) /\
      nth_error (p_ctxs (m_proto m)) d = Some (CtxRec r Live).
  Proof.
    intros I. remember (ctx_value (m_store m) c) as v eqn:Ev. revert c Ev.
    induction v as [b tg|v IH b tg]; intros c Ev [t N].
    - destruct (pi_ctx _ (mi_p m I) _ _ N) as ([q g o] & Nx & E). cbn in Nx, E. destruct (E eq_refl) as [-> G].
      assert (M : made_from (m_proto m) c t) by (now exists Live).
      destruct (mi_val m I _ _ M) as [[T S]|(q' & _ & S)]; rewrite <- Ev in S; [|discriminate].
      destruct T as (g' & o' & N'). rewrite Nx in N'. injection N' as -> _ _.
      rewrite (G eq_refl) in Nx. exists t, c.
      repeat split; try (now constructor); auto. now exists true, true.
    - destruct (pi_ctx _ (mi_p m I) _ _ N) as ([q g o] & Nx & E). cbn in Nx, E. destruct (E eq_refl) as [-> G].
      assert (M : made_from (m_proto m) c t) by (now exists Live).
      destruct (mi_val m I _ _ M) as [[T S]|(q' & O & S)]; rewrite <- Ev in S; [discriminate|].
      assert (q = Some q') as -> by (destruct O as (g' & o' & N'); congruence).
      injection S as -> -> ->.
      destruct (pi_tx _ (mi_p m I) _ _ _ Nx eq_refl) as ([u st] & Nr & L & El). cbn in El.
      rewrite (El eq_refl) in Nr.
      destruct (IH q' eq_refl) as (r & d & W & T & _ & Nt & Nd); [now exists u|].
      exists r, d. assert (within (m_proto m) c r) by (eapply within_outer; eauto). repeat split; auto.
  Qed.

  Lemma alive_guard (m : machine) c : minv m -> alive (m_proto m) c -> guard_held (m_proto m) = true.
  Proof.
    intros I A. destruct (alive_root m c I A) as (r & d & _ & _ & _ & N & _).
    apply guard_held_true. now exists r, (TxRec None true true).
  Qed.

  (** While a context is alive, no event changes the graph. *)
  Lemma graph_frozen (m : machine) (e : event) c : minv m -> alive (m_proto m) c ->
    s_graph (m_store (fst (m_step m e))) = s_graph (m_store m).
  Proof.
    intros I A. pose proof (alive_guard m c I A) as G. rewrite m_step_fst. cbn.
    destruct (p_step_pstep (m_proto m) e); try reflexivity.
    - exfalso. destruct (alive_root m c I A) as (r & d & _ & _ & _ & N & Nd).
      assert (r = t) as -> by (eapply (pi_one _ (mi_p m I)); eauto; reflexivity).
      assert (has_ctx (m_proto m) t Live = true) by (apply has_ctx_spec; eauto). congruence.
    - congruence.
  Qed.

  (** Buffers change only by registering events. *)
  Lemma buf_frame (m : machine) (e : event) t : minv m -> t < length (s_heap (m_store m)) ->
    ~ registers_in (m_proto m) t e ->
    buf_ops (s_heap (m_store (fst (m_step m e)))) t = buf_ops (s_heap (m_store m)) t.
  Proof.
    intros I L NR. rewrite m_step_fst. cbn.
    destruct (p_step_pstep (m_proto m) e) as
      [ | | | | | | | |c u n Hh N|c u i Hh N| | | | | |t' c g Hh N HL HK| | |[] ]; cbn; try reflexivity.
    - unfold buf_ops. now rewrite nth_snoc_old.
    - unfold buf_ops. now rewrite nth_snoc_old.
    - assert (M : made_from (m_proto m) c u) by (now exists Live).
      unfold ctx_save. rewrite (ctx_buf_value m c u I M). apply buf_ops_push_ne.
      intros ->. apply NR. now constructor.
    - assert (M : made_from (m_proto m) c u) by (now exists Live).
      unfold ctx_delete. rewrite (ctx_buf_value m c u I M). apply buf_ops_push_ne.
      intros ->. apply NR. now constructor.
    - assert (O : opened_on (m_proto m) t' c) by (now exists g, true).
      destruct (pinv_opened _ _ _ (mi_p m I) O) as (u & M & _).
      unfold fg_extend. rewrite (ctx_buf_value m c u I M). unfold buf_ops. apply nth_alter_ne.
      intros ->. apply NR. econstructor; eassumption.
  Qed.

  Lemma isolation (m : machine) (e : event) d : minv m ->
    alive (m_proto m) d ->
    (forall t, registers_in (m_proto m) t e -> ~ within (m_proto m) d t) ->
    forall i, ctx_get (s_heap (m_store (fst (m_step m e)))) (s_graph (m_store (fst (m_step m e))))
                (ctx_value (m_store (fst (m_step m e))) d) i
              = ctx_get (s_heap (m_store m)) (s_graph (m_store m)) (ctx_value (m_store m) d) i.
  Proof.
    intros I A NR i. rewrite (graph_frozen m e d I A).
    destruct (alive_made _ _ A) as [u M].
    assert (ctx_value (m_store (fst (m_step m e))) d = ctx_value (m_store m) d) as ->.
    { rewrite m_step_fst. cbn. apply ctx_value_exec. rewrite (mi_ctxs m I). eapply made_from_lt; eassumption. }
    apply ctx_get_frame. intros t Ht.
    assert (W : within (m_proto m) d t) by (apply (within_chain m d t I); split; eauto).
    apply buf_frame; [assumption| |].
    - pose proof (within_le _ _ _ (mi_p m I) W u M). pose proof (tx_lt m d u I M). lia.
    - intros R. exact (NR t R W).
  Qed.

  Lemma ask_isolation (m : machine) (e : event) d : minv m ->
    alive (m_proto m) d -> alive (m_proto (fst (m_step m e))) d ->
    p_hung (m_proto (fst (m_step m e))) = false ->
    (forall t, registers_in (m_proto m) t e -> ~ within (m_proto m) d t) ->
    forall i, ask (fst (m_step m e)) d i = ask m d i /\
              ask_contains (fst (m_step m e)) d i = ask_contains m d i.
  Proof.
    intros I A A' H NR i.
    assert (H0 : p_hung (m_proto m) = false).
    { rewrite m_step_fst in H. cbn in H. unfold p_step in H. destruct (p_hung (m_proto m)) eqn:E; [|reflexivity].
      cbn in H. congruence. }
    rewrite !ask_alive, !ask_contains_alive, (isolation m e d I A NR i) by assumption. auto.
  Qed.

  Lemma alive_back (m : machine) (e : event) d : alive (m_proto (fst (m_step m e))) d -> d < length (p_ctxs (m_proto m)) ->
    alive (m_proto m) d.
  Proof.
    rewrite m_step_fst; cbn. intros [t N] L.
    destruct (p_step_pstep (m_proto m) e); cbn in N; try (now exists t);
      try (apply nth_error_snoc in N as [N|[-> _]]; [now exists t|lia]).
    - rewrite nth_error_alter in N. destruct (Nat.eqb c d); [|now exists t].
      destruct (nth_error _ d); discriminate.
    - rewrite nth_error_alter in N. destruct (Nat.eqb c d); [|now exists t].
      destruct (nth_error _ d); discriminate.
  Qed.

  Lemma hung_back (m : machine) (e : event) : p_hung (m_proto (fst (m_step m e))) = false -> p_hung (m_proto m) = false.
  Proof.
    rewrite m_step_fst; cbn. unfold p_step. destruct (p_hung (m_proto m)) eqn:E; [|reflexivity].
    cbn. congruence.
  Qed.

  Lemma ctxs_len_step (m : machine) (e : event) : length (p_ctxs (m_proto m)) <= length (p_ctxs (m_proto (fst (m_step m e)))).
  Proof.
    rewrite m_step_fst; cbn. destruct (p_step_pstep (m_proto m) e); cbn; rewrite ?alter_length, ?app_length; lia.
  Qed.

  Lemma hung_back_run (es : list event) : forall m : machine, p_hung (m_proto (fst (m_run m es))) = false -> p_hung (m_proto m) = false.
  Proof.
    induction es as [|e es IH]; intros m E; [exact E|]. rewrite m_run_cons in E. eapply hung_back, IH, E.
  Qed.

  Lemma alive_back_run (es : list event) d : forall m : machine, alive (m_proto (fst (m_run m es))) d ->
    d < length (p_ctxs (m_proto m)) -> alive (m_proto m) d.
  Proof.
    induction es as [|e es IH]; intros m E L; [exact E|]. rewrite m_run_cons in E.
    eapply alive_back; [|exact L]. apply IH; [exact E|]. pose proof (ctxs_len_step m e). lia.
  Qed.

  Lemma ask_isolation_run (es : list event) d : forall m : machine, minv m ->
    d < length (p_ctxs (m_proto m)) ->
    alive (m_proto (fst (m_run m es))) d ->
    p_hung (m_proto (fst (m_run m es))) = false ->
    never_registers_around m d es ->
    forall i, ask (fst (m_run m es)) d i = ask m d i /\
              ask_contains (fst (m_run m es)) d i = ask_contains m d i.
  Proof.
    induction es as [|e es IH]; intros m I L A H NR i; [auto|].
    rewrite m_run_cons in *.
    pose proof (ctxs_len_step m e) as Lm.
    assert (A1 : alive (m_proto (fst (m_step m e))) d) by (eapply alive_back_run; [exact A|lia]).
    assert (H1 : p_hung (m_proto (fst (m_step m e))) = false) by (eapply hung_back_run, H).
    destruct (IH (fst (m_step m e)) (minv_step m e I) ltac:(lia) A H) with (i := i) as [-> ->].
    { intros es1 e' es2 -> t R. specialize (NR (e :: es1) e' es2 eq_refl t).
      rewrite m_run_cons in NR. auto. }
    apply ask_isolation; auto.
    - eapply alive_back; eassumption.
    - exact (NR [] e es eq_refl).
  Qed.
End Inv.
