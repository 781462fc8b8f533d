(** Facts about histories of transactions: refinement to overlay maps and the
    ownership/lock invariants. *)
From Coq Require Import List Bool Arith Lia.
From Verif Require Import Ord OrdFacts BTree BTreeFacts Graph GraphFacts SpecGraph Tx TxMachine
  SpecTx TxFacts.
Import ListNotations.

Lemma nth_error_snoc {A} (l : list A) x n y :
  nth_error (l ++ [x]) n = Some y <->
  (nth_error l n = Some y) \/ (n = length l /\ y = x).
Proof.
  destruct (Nat.lt_ge_cases n (length l)) as [L|L].
  - rewrite nth_error_app1 by assumption. split; [auto|]. intros [E|[-> _]]; [assumption|lia].
  - rewrite nth_error_app2 by assumption. split.
    + intros E. right. destruct (n - length l) as [|k] eqn:D; cbn in E.
      * injection E as <-. split; [lia|reflexivity].
      * destruct k; discriminate.
    + intros [E|[-> ->]].
      * assert (n < length l) by (apply nth_error_Some; congruence). lia.
      * now rewrite Nat.sub_diag.
Qed.

Lemma nth_snoc_old {A} (l : list A) x n d : n < length l -> nth n (l ++ [x]) d = nth n l d.
Proof. intros L. now apply app_nth1. Qed.

Lemma nth_snoc_new {A} (l : list A) x d : nth (length l) (l ++ [x]) d = x.
Proof. now rewrite app_nth2, Nat.sub_diag by lia. Qed.

Section Facts.
  Context {Id Node : Type} `{HO : OrdT Id} `{HI : Identify Node Id}.
  Notation event := (@event Id Node).
  Notation machine := (@machine Id Node).
  Notation store := (@store Id Node).
  Notation sstore := (@sstore Id Node).
  Notation output := (@output Node).

  (** ** Refinement *)

  Record sim (s : store) (a : sstore) : Prop := Sim {
    sim_wf : g_wf (s_graph s);
    sim_base : forall i, sp_base a i = g_get (s_graph s) i;
    sim_len_over : length (sp_over a) = length (s_heap s);
    sim_over : forall t i, over_of a t i = ops_overlay (buf_ops (s_heap s) t) i;
    sim_len_ctx : length (sp_chain a) = length (s_ctxs s);
    sim_chain : forall c, chain_of a c = ctx_chain (ctx_value s c)
  }.

  Lemma sim_view s a c i : sim s a ->
    sp_view a c i = ctx_get (s_heap s) (s_graph s) (ctx_value s c) i.
  Proof.
    intros S. rewrite ctx_get_view. unfold sp_view. rewrite (sim_chain _ _ S).
    induction (ctx_chain (ctx_value s c)) as [|b l IH]; cbn.
    - apply (sim_base _ _ S).
    - rewrite (sim_over _ _ S), IH. reflexivity.
  Qed.

  Lemma sim_innermost s a c : sim s a -> innermost a c = ctx_buf (ctx_value s c).
  Proof.
    intros S. unfold innermost. rewrite (sim_chain _ _ S).
    destruct (ctx_chain_hd (ctx_value s c)) as [l ->]. reflexivity.
  Qed.

  (** Changing one buffer and the corresponding overlay. *)
  Lemma sim_alter s a b f F :
    sim s a ->
    (forall ops i, buf_ops (s_heap s) b = ops -> F (over_of a b) i = ops_overlay (f ops) i) ->
    sim (Store (s_graph s) (alter f b (s_heap s)) (s_ctxs s))
        (SStore (sp_base a) (alter F b (sp_over a)) (sp_chain a)).
  Proof.
    intros [W B LO O LC C] E. constructor; cbn; auto.
    - now rewrite !alter_length.
    - intros t i. unfold over_of, buf_ops in *; cbn.
      destruct (Nat.eq_dec b t) as [<-|N].
      + destruct (Nat.lt_ge_cases b (length (s_heap s))) as [L|L].
        * rewrite !nth_alter_eq by lia. now apply E.
        * rewrite !alter_oob by lia. apply O.
      + rewrite !nth_alter_ne by assumption. apply O.
  Qed.

  Lemma sim_exec s a act : sim s a ->
    sim (fst (m_exec s act)) (fst (sp_exec a act)) /\ snd (m_exec s act) = snd (sp_exec a act).
  Proof.
    intros S. destruct act as [| | |t parent|c n|c i|c i|c i|t c|t| |i|[n|n|i]]; cbn.
    - auto.
    - auto.
    - destruct S as [W B LO O LC C]. split; [|now rewrite LO].
      constructor; cbn; auto; [rewrite !app_length; cbn; lia|].
      intros t i. unfold over_of, buf_ops in *; cbn.
      destruct (Nat.lt_trichotomy t (length (s_heap s))) as [L|[E|G]].
      + rewrite !nth_snoc_old by lia. apply O.
      + subst t. rewrite nth_snoc_new. rewrite <- LO at 1. now rewrite nth_snoc_new.
      + rewrite !nth_overflow by (rewrite app_length; cbn; lia). reflexivity.
    - pose proof S as [W B LO O LC C]. split; [|now rewrite LC].
      constructor; cbn; auto; [rewrite !app_length; cbn; lia|].
      intros c. unfold chain_of, ctx_value in *; cbn.
      destruct (Nat.lt_trichotomy c (length (s_ctxs s))) as [L|[E|G]].
      + rewrite !nth_snoc_old by lia. apply C.
      + subst c. rewrite nth_snoc_new. rewrite <- LC at 1. rewrite nth_snoc_new.
        destruct parent as [p|]; cbn; [|reflexivity]. f_equal. apply C.
      + rewrite !nth_overflow by (rewrite app_length; cbn; lia). reflexivity.
    - split; [|reflexivity]. rewrite (sim_innermost s a c S). apply sim_alter; [assumption|].
      intros ops i Eo. rewrite ops_overlay_app, ops_overlay_one. unfold ov_set; cbn.
      rewrite (sim_over _ _ S), Eo. destruct (eqb (id_of n) i); reflexivity.
    - split; [|reflexivity]. rewrite (sim_innermost s a c S). apply sim_alter; [assumption|].
      intros ops j Eo. rewrite ops_overlay_app, ops_overlay_one. unfold ov_set; cbn.
      rewrite (sim_over _ _ S), Eo. destruct (eqb i j); reflexivity.
    - split; [assumption|]. now rewrite (sim_view s a c i S).
    - split; [assumption|]. rewrite (sim_view s a c i S), ctx_contains_get. reflexivity.
    - split; [|reflexivity]. rewrite (sim_innermost s a c S). apply sim_alter; [assumption|].
      intros ops i Eo. rewrite ops_overlay_app. unfold ov_merge.
      rewrite !(sim_over _ _ S), Eo. reflexivity.
    - split; [|reflexivity]. destruct S as [W B LO O LC C]. constructor; cbn; auto.
      + now apply apply_ops_wf.
      + intros i. unfold ov_publish. rewrite O, B. symmetry. now apply g_get_apply_ops.
    - auto.
    - split; [assumption|]. now rewrite (sim_base _ _ S).
    - split; [|reflexivity]. destruct S as [W B LO O LC C]. constructor; cbn; auto.
      + now apply g_wf_insert.
      + intros j. unfold base_set, g_get, g_with_node. rewrite bt_get_insert by apply W.
        destruct (eqb (id_of n) j); auto. apply B.
    - split; [|now rewrite (sim_base _ _ S)]. destruct S as [W B LO O LC C]. constructor; cbn; auto.
      + now apply g_wf_insert.
      + intros j. unfold base_set, g_get. rewrite bt_get_insert by apply W.
        destruct (eqb (id_of n) j); auto. apply B.
    - split; [|now rewrite (sim_base _ _ S)]. destruct S as [W B LO O LC C]. constructor; cbn; auto.
      + now apply g_wf_remove.
      + intros j. unfold base_set, g_get. rewrite bt_get_remove by apply W.
        destruct (eqb i j); auto. apply B.
  Qed.

  Lemma sim_run es : forall p s a, sim s a ->
    let r := m_run (Machine p s) es in
    let r' := sm_run (SMachine p a) es in
    snd r = snd r' /\ m_proto (fst r) = sm_proto (fst r') /\
    sim (m_store (fst r)) (sm_store (fst r')).
  Proof.
    induction es as [|e es IH]; intros p s a S; cbn -[p_step]; [auto|].
    unfold m_step, sm_step; cbn -[p_step]. destruct (p_step p e) as [p' act].
    pose proof (sim_exec s a act S) as [S' E].
    destruct (m_exec s act) as [s' o]. destruct (sp_exec a act) as [a' o']. cbn in S', E. subst o'.
    specialize (IH p' s' a' S'). cbn in IH.
    destruct (m_run (Machine p' s') es) as [m2 os]. destruct (sm_run (SMachine p' a') es) as [m2' os'].
    cbn in *. destruct IH as (-> & E1 & E2). auto.
  Qed.

  Lemma sim_init g : g_wf g -> sim (Store g [] []) (SStore (g_get g) [] []).
  Proof.
    intros W. constructor; cbn; auto.
    - intros t i. unfold over_of, buf_ops; cbn. destruct t; reflexivity.
    - intros c. unfold chain_of, ctx_value; cbn. destruct c; reflexivity.
  Qed.

  Lemma refines_overlays g es : g_wf g ->
    snd (m_run (m_init g) es) = snd (sm_run (sm_init (g_get g)) es).
  Proof. intros W. apply (sim_run es (Proto [] [] false) _ _ (sim_init g W)). Qed.

  (** ** Ownership and lock invariant *)

  Record pinv (p : proto) : Prop := PInv {
    pi_ctx : forall c r, nth_error (p_ctxs p) c = Some r ->
      exists x, nth_error (p_txs p) (cr_tx r) = Some x /\
        (cr_status r = Live -> tx_open x = true /\ (tx_parent x = None -> tx_guard x = true));
    pi_tx : forall t x c, nth_error (p_txs p) t = Some x -> tx_parent x = Some c ->
      exists r, nth_error (p_ctxs p) c = Some r /\ cr_tx r < t /\
        (tx_open x = true -> cr_status r = Live);
    pi_guard : forall t x, nth_error (p_txs p) t = Some x -> tx_guard x = true ->
      tx_open x = true /\ tx_parent x = None;
    pi_one : forall t1 t2 x1 x2, nth_error (p_txs p) t1 = Some x1 -> nth_error (p_txs p) t2 = Some x2 ->
      tx_guard x1 = true -> tx_guard x2 = true -> t1 = t2
  }.

  Lemma guard_held_false p : guard_held p = false ->
    forall t x, nth_error (p_txs p) t = Some x -> tx_guard x = false.
  Proof.
    unfold guard_held. intros E t x N. apply nth_error_In in N.
    destruct (tx_guard x) eqn:G; [|reflexivity].
    assert (existsb tx_guard (p_txs p) = true) by (apply existsb_exists; eauto). congruence.
  Qed.

  Lemma guard_held_true p : guard_held p = true <->
    exists t x, nth_error (p_txs p) t = Some x /\ tx_guard x = true.
  Proof.
    unfold guard_held. rewrite existsb_exists. split.
    - intros (x & I & G). apply In_nth_error in I as [t N]. eauto.
    - intros (t & x & N & G). apply nth_error_In in N. eauto.
  Qed.

  Lemma ctx_live_spec p c : ctx_live p c = true <->
    exists t, nth_error (p_ctxs p) c = Some (CtxRec t Live).
  Proof.
    unfold ctx_live. destruct (nth_error (p_ctxs p) c) as [[t []]|]; split; try congruence; eauto;
      intros [? ?]; discriminate.
  Qed.

  Lemma ctx_borrowed_spec p c : ctx_borrowed p c = true <->
    exists t x, nth_error (p_txs p) t = Some x /\ tx_open x = true /\ tx_parent x = Some c.
  Proof.
    unfold ctx_borrowed. rewrite existsb_exists. split.
    - intros (x & I & E). apply In_nth_error in I as [t N]. exists t, x.
      apply andb_true_iff in E as [E1 E2]. destruct (tx_parent x) as [c'|]; [|discriminate].
      apply Nat.eqb_eq in E2; subst; auto.
    - intros (t & x & N & E1 & E2). apply nth_error_In in N. exists x. split; [assumption|].
      rewrite E1, E2. cbn. apply Nat.eqb_refl.
  Qed.

  Lemma has_ctx_spec p t s : has_ctx p t s = true <->
    exists c, nth_error (p_ctxs p) c = Some (CtxRec t s).
  Proof.
    unfold has_ctx. rewrite existsb_exists. split.
    - intros ([t' s'] & I & E). apply In_nth_error in I as [c N]. exists c.
      cbn in E. apply andb_true_iff in E as [E1 E2]. apply Nat.eqb_eq in E1; subst.
      rewrite N. destruct s', s; try discriminate; reflexivity.
    - intros (c & N). apply nth_error_In in N. eexists; split; [exact N|]. cbn.
      rewrite Nat.eqb_refl. destruct s; reflexivity.
  Qed.

  Lemma pinv_init : pinv (Proto [] [] false).
  Proof.
    constructor; cbn.
    - intros [|c] r E; discriminate.
    - intros [|t] x c E; discriminate.
    - intros [|t] x E; discriminate.
    - intros [|t1] t2 x1 x2 E; discriminate.
  Qed.

  Lemma pinv_new_tx p parent :
    pinv p -> (forall c, parent = Some c -> ctx_live p c = true) ->
    pinv (Proto (p_txs p ++ [TxRec parent false true]) (p_ctxs p) false).
  Proof.
    intros [C T G O] L. constructor; cbn.
    - intros c r N. destruct (C c r N) as (x & Nx & E). exists x. split; [|assumption].
      apply nth_error_snoc. auto.
    - intros t x c N E. apply nth_error_snoc in N as [N|[-> ->]].
      + eapply T; eassumption.
      + cbn in E. apply L, ctx_live_spec in E as [u E]. exists (CtxRec u Live). cbn.
        repeat split; auto. destruct (C _ _ E) as (x & Nx & _). cbn in Nx.
        apply nth_error_Some. congruence.
    - intros t x N E. apply nth_error_snoc in N as [N|[-> ->]]; [eapply G; eassumption|discriminate].
    - intros t1 t2 x1 x2 N1 N2 E1 E2.
      apply nth_error_snoc in N1 as [N1|[-> ->]]; [|discriminate].
      apply nth_error_snoc in N2 as [N2|[-> ->]]; [|discriminate]. eapply O; eassumption.
  Qed.

  Lemma pinv_new_ctx p t x :
    pinv p -> nth_error (p_txs p) t = Some x -> tx_open x = true ->
    (tx_parent x = None -> tx_guard x = true) ->
    pinv (Proto (p_txs p) (p_ctxs p ++ [CtxRec t Live]) false).
  Proof.
    intros [C T G O] N E1 E2. constructor; cbn; auto.
    - intros c r Nc. apply nth_error_snoc in Nc as [Nc|[-> ->]]; [eapply C; eassumption|].
      cbn. eauto.
    - intros u y c Nu Ep. destruct (T u y c Nu Ep) as (r & Nr & A). exists r. split; [|assumption].
      apply nth_error_snoc. auto.
  Qed.

  Lemma pinv_take_guard p t x :
    pinv p -> nth_error (p_txs p) t = Some x -> tx_open x = true -> tx_parent x = None ->
    guard_held p = false ->
    pinv (Proto (alter (fun r => TxRec (tx_parent r) true (tx_open r)) t (p_txs p)) (p_ctxs p) false).
  Proof.
    intros [C T G O] N E1 E2 F. pose proof (guard_held_false p F) as NG. constructor; cbn.
    - intros c r Nc. destruct (C c r Nc) as (y & Ny & A). rewrite nth_error_alter.
      destruct (Nat.eqb_spec t (cr_tx r)) as [->|D].
      + rewrite Ny; cbn. eexists; split; [reflexivity|]. cbn. intros L. destruct (A L); auto.
      + eauto.
    - intros u y c Nu Ep. rewrite nth_error_alter in Nu.
      destruct (Nat.eqb_spec t u) as [->|D]; [|eapply T; eassumption].
      rewrite N in Nu; cbn in Nu. injection Nu as <-. cbn in Ep. congruence.
    - intros u y Nu Eg. rewrite nth_error_alter in Nu.
      destruct (Nat.eqb_spec t u) as [->|D]; [|eapply G; eassumption].
      rewrite N in Nu; cbn in Nu. injection Nu as <-. cbn. auto.
    - intros u1 u2 y1 y2 N1 N2 E3 E4. rewrite nth_error_alter in N1, N2.
      destruct (Nat.eqb_spec t u1) as [->|D1].
      + destruct (Nat.eqb_spec u1 u2) as [->|D2]; [reflexivity|].
        rewrite (NG _ _ N2) in E4. discriminate.
      + rewrite (NG _ _ N1) in E3. discriminate.
  Qed.

  Lemma pinv_set_status p c s :
    pinv p -> s <> Live -> ctx_borrowed p c = false -> pinv (set_status s c p).
  Proof.
    intros [C T G O] NL B. constructor; cbn; auto.
    - intros d r N. rewrite nth_error_alter in N. destruct (Nat.eqb_spec c d) as [->|D].
      + destruct (nth_error (p_ctxs p) d) as [r0|] eqn:E; [|discriminate]. injection N as <-. cbn.
        destruct (C _ _ E) as (x & Nx & A). exists x. split; [assumption|]. congruence.
      + eapply C; eassumption.
    - intros t x d N Ep. destruct (T t x d N Ep) as (r & Nr & Lt & A). rewrite nth_error_alter.
      destruct (Nat.eqb_spec c d) as [->|D].
      + rewrite Nr; cbn. eexists; split; [reflexivity|]. cbn. split; [assumption|].
        intros Eo. exfalso. assert (ctx_borrowed p d = true) by (apply ctx_borrowed_spec; eauto). congruence.
      + eauto.
  Qed.

  Lemma pinv_close p t : pinv p -> has_ctx p t Live = false -> pinv (close_tx t p).
  Proof.
    intros [C T G O] NL. constructor; cbn.
    - intros c r N. destruct (C c r N) as (x & Nx & A). rewrite nth_error_alter.
      destruct (Nat.eqb_spec t (cr_tx r)) as [->|D].
      + rewrite Nx; cbn. eexists; split; [reflexivity|]. intros L. exfalso.
        assert (has_ctx p (cr_tx r) Live = true).
        { apply has_ctx_spec. exists c. rewrite N. destruct r; cbn in *; now subst. }
        congruence.
      + eauto.
    - intros u x c N Ep. rewrite nth_error_alter in N. destruct (Nat.eqb_spec t u) as [->|D].
      + destruct (nth_error (p_txs p) u) as [x0|] eqn:E; [|discriminate]. injection N as <-. cbn in Ep.
        destruct (T u x0 c E Ep) as (r & Nr & Lt & A). exists r. cbn. auto.
        split; [assumption|]. split; [assumption|]. discriminate.
      + eapply T; eassumption.
    - intros u x N Eg. rewrite nth_error_alter in N. destruct (Nat.eqb_spec t u) as [->|D].
      + destruct (nth_error (p_txs p) u); [|discriminate]. injection N as <-. discriminate.
      + eapply G; eassumption.
    - intros u1 u2 x1 x2 N1 N2 E1 E2. rewrite nth_error_alter in N1, N2.
      destruct (Nat.eqb_spec t u1) as [->|D1].
      + destruct (nth_error (p_txs p) u1); [|discriminate]. injection N1 as <-. discriminate.
      + destruct (Nat.eqb_spec t u2) as [->|D2].
        * destruct (nth_error (p_txs p) u2); [|discriminate]. injection N2 as <-. discriminate.
        * eapply O; eassumption.
  Qed.

  Lemma pinv_hang p : pinv p -> pinv (hang p).
  Proof. intros [C T G O]. now constructor. Qed.

  Lemma pinv_step p (e : event) : pinv p -> pinv (fst (p_step p e)).
  Proof.
    intros I. unfold p_step. destruct (p_hung p); [exact I|].
    destruct e as [|c|t|c n|c i|c i|c i|c|c|t commit|i|g]; cbn.
    - apply pinv_new_tx; [assumption|discriminate].
    - destruct (ctx_live p c) eqn:L; cbn; [|assumption].
      apply pinv_new_tx; [assumption|]. intros ? [= <-]. assumption.
    - destruct (nth_error (p_txs p) t) as [[[c|] g []]|] eqn:N; cbn; try assumption.
      + eapply pinv_new_ctx; try eassumption; cbn; [reflexivity|discriminate].
      + destruct g; cbn; try assumption.
        * eapply pinv_new_ctx; try eassumption; reflexivity.
        * destruct (guard_held p) eqn:GH; cbn; [now apply pinv_hang|].
          set (p' := Proto (alter (fun r => TxRec (tx_parent r) true (tx_open r)) t (p_txs p)) (p_ctxs p) false).
          assert (pinv p') as I' by (eapply pinv_take_guard; eauto).
          change (pinv (Proto (p_txs p') (p_ctxs p' ++ [CtxRec t Live]) false)).
          apply (pinv_new_ctx p' t (TxRec None true true) I'); cbn; auto.
          rewrite nth_error_alter, Nat.eqb_refl, N. reflexivity.
      + destruct g; assumption.
    - destruct (ctx_live p c); assumption.
    - destruct (ctx_live p c); assumption.
    - destruct (ctx_live p c); assumption.
    - destruct (ctx_live p c); assumption.
    - destruct (ctx_live p c); cbn; [|assumption]. destruct (ctx_borrowed p c) eqn:B; cbn; [assumption|].
      apply pinv_set_status; [assumption|discriminate|assumption].
    - destruct (ctx_live p c); cbn; [|assumption]. destruct (ctx_borrowed p c) eqn:B; cbn; [assumption|].
      apply pinv_set_status; [assumption|discriminate|assumption].
    - destruct (nth_error (p_txs p) t) as [[parent g []]|] eqn:N; cbn; try assumption.
      destruct (has_ctx p t Live) eqn:HL; cbn; [assumption|].
      pose proof (pinv_close p t I HL). destruct commit; cbn; [|assumption].
      destruct (has_ctx p t Leaked); cbn; [assumption|].
      destruct parent; cbn; [assumption|]. destruct g; assumption.
    - destruct (guard_held p); [now apply pinv_hang|assumption].
    - destruct (guard_held p); [now apply pinv_hang|assumption].
  Qed.
End Facts.
