(** Facts about what becomes of nodes. *)
From Coq Require Import List Bool Arith Lia Permutation.
From Verif Require Import Ord OrdFacts BTree BTreeFacts Graph GraphFacts SpecGraph Tx TxMachine SpecTx TxFacts TxMachineFacts TxInv
  TxHist Guards SpecGuards GuardsFacts SpecCrash Drops SpecDrops.
From Verif Require CrashFacts.
Import ListNotations.

(** Permutations of concatenations of the same lists. *)
Lemma perm_nil {A} (l : list A) : Permutation l (l ++ []).
Proof. now rewrite app_nil_r. Qed.

Ltac perm_find a r :=
  lazymatch r with
  | a => constr:(perm_nil r)
  | a ++ ?t => constr:(Permutation_refl r)
  | ?b ++ ?t => let p := perm_find a t in
      lazymatch type of p with
      | Permutation _ (_ ++ ?t') => constr:(Permutation_trans (Permutation_app_head b p) (Permutation_app_swap_app b a t'))
      end
  end.
Ltac perm :=
  rewrite ?app_nil_r, <- ?app_assoc; cbn [app];
  repeat match goal with
    | |- context [?x :: ?l] => lazymatch l with nil => fail | _ => change (x :: l) with ([x] ++ l) end
    end;
  rewrite <- ?app_assoc;
  repeat lazymatch goal with
    | |- Permutation ?l ?l => apply Permutation_refl
    | |- Permutation (?a ++ ?t) ?r =>
        let p := perm_find a r in (eapply Permutation_trans; [|apply (Permutation_sym p)]); apply Permutation_app_head; rewrite ?app_nil_r
    end.

Section Facts.
  Context {Id Node : Type} `{HO : OrdT Id} `{HI : Identify Node Id}.
  Notation graph := (graph Id Node).
  Notation event := (@event Id Node).
  Notation machine := (@machine Id Node).
  Notation gstate := (gstate Id Node).
  Notation gevent := (gevent Id Node).
  Notation gout := (gout Id Node).

  Definition olist (o : option Node) : list Node := match o with Some n => [n] | None => [] end.

  (** ** The graph *)

  Lemma insert_perm (g : graph) k v : Permutation (bt_values g ++ [v]) (bt_values (bt_insert k v g) ++ olist (bt_get k g)).
  Proof.
    unfold bt_values. induction g as [|[k' v'] g IH]; [apply Permutation_refl|].
    cbn [bt_insert bt_get]. destruct (cmp k k'); cbn [map snd olist].
    - perm.
    - perm.
    - cbn [app]. now apply perm_skip.
  Qed.

  Lemma remove_perm (g : graph) k : Permutation (bt_values g) (bt_values (bt_remove k g) ++ olist (bt_get k g)).
  Proof.
    unfold bt_values. induction g as [|[k' v'] g IH]; [apply Permutation_refl|].
    cbn [bt_remove bt_get]. destruct (cmp k k'); cbn [map snd olist].
    - perm.
    - perm.
    - cbn [app]. now apply perm_skip.
  Qed.

  Definition call_given (c : @gcall Id Node) : list Node := match c with GInsert n | GWithNode n => [n] | GRemove _ => [] end.

  Lemma call_perm (g : graph) (c : @gcall Id Node) :
    Permutation (g_iter g ++ call_given c) (g_iter (fst (Graph.g_step g c)) ++ overwritten g c ++ olist (snd (Graph.g_step g c))).
  Proof.
    destruct c as [n|n|i]; cbn [call_given Graph.g_step overwritten fst snd olist].
    - rewrite app_nil_r. exact (insert_perm g (id_of n) n).
    - exact (insert_perm g (id_of n) n).
    - rewrite app_nil_r. exact (remove_perm g i).
  Qed.

  Lemma told_perm ops : forall g : graph,
    Permutation (g_iter g ++ saves ops) (g_iter (fst (apply_told g ops)) ++ taken (snd (apply_told g ops))).
  Proof.
    induction ops as [|o ops IH]; intros g; [apply Permutation_refl|]. cbn [apply_told].
    destruct (Graph.g_step g (op_call o)) as [g1 r] eqn:S. specialize (IH g1). destruct (apply_told g1 ops) as [g2 l]. cbn [fst snd] in *.
    pose proof (call_perm g (op_call o)) as C. rewrite S in C. cbn [fst snd] in C.
    replace (overwritten g (op_call o)) with (@nil Node) in C by now destruct o. cbn [app] in C.
    replace (saves (o :: ops)) with (call_given (op_call o) ++ saves ops) by now destruct o.
    change (taken ((op_call o, r) :: l)) with (olist r ++ taken l).
    rewrite app_assoc, C. transitivity ((g_iter g1 ++ saves ops) ++ olist r); [perm|]. rewrite IH. perm.
  Qed.

  Lemma saves_app l1 l2 : saves (Id:=Id) (Node:=Node) (l1 ++ l2) = saves l1 ++ saves l2.
  Proof. apply flat_map_app. Qed.

  (** ** One element of a concatenation *)

  Lemma flat_map_at (f f' : nat -> list Node) n t : t < n -> (forall u, u <> t -> f' u = f u) ->
    exists rest, Permutation (flat_map f (seq 0 n)) (f t ++ rest) /\ Permutation (flat_map f' (seq 0 n)) (f' t ++ rest).
  Proof.
    intros L E. replace n with (t + (1 + (n - t - 1))) by lia. rewrite !seq_app, !flat_map_app. cbn [seq flat_map plus].
    exists (flat_map f (seq 0 t) ++ flat_map f (seq (t + 1) (n - t - 1))).
    replace (flat_map f' (seq 0 t)) with (flat_map f (seq 0 t)).
    - replace (flat_map f' (seq (t + 1) (n - t - 1))) with (flat_map f (seq (t + 1) (n - t - 1))).
      + split; perm.
      + rewrite !flat_map_concat_map. f_equal. apply map_ext_in. intros u I. apply in_seq in I. symmetry. apply E. lia.
    - rewrite !flat_map_concat_map. f_equal. apply map_ext_in. intros u I. apply in_seq in I. symmetry. apply E. lia.
  Qed.

  Lemma flat_map_same (f f' : nat -> list Node) n : (forall u, u < n -> f' u = f u) -> flat_map f' (seq 0 n) = flat_map f (seq 0 n).
  Proof. intros E. rewrite !flat_map_concat_map. f_equal. apply map_ext_in. intros u I. apply in_seq in I. apply E. lia. Qed.

  (** ** Buffers *)

  Definition m_allocated (p : proto) (t : nat) : bool :=
    match nth_error (p_txs p) t with Some r => tx_open r || has_ctx p t Leaked | None => false end.
  Definition m_waiting (p : proto) (h : heap Id Node) (t : nat) : list Node := if m_allocated p t then saves (buf_ops h t) else [].
  Definition m_all (p : proto) (h : heap Id Node) : list Node := flat_map (m_waiting p h) (seq 0 (length (p_txs p))).

  Lemma all_waiting_m (st : gstate) : all_waiting st = m_all (m_proto (gs_m st)) (s_heap (m_store (gs_m st))).
  Proof. reflexivity. Qed.

  Lemma allocated_keep p p' : length (p_txs p') = length (p_txs p) ->
    (forall t r, nth_error (p_txs p) t = Some r -> exists r', nth_error (p_txs p') t = Some r' /\ tx_open r' || has_ctx p' t Leaked = tx_open r || has_ctx p t Leaked) ->
    forall t, m_allocated p' t = m_allocated p t.
  Proof.
    intros L E t. unfold m_allocated. destruct (nth_error (p_txs p) t) as [r|] eqn:N.
    - destruct (E t r N) as (r' & -> & ->). reflexivity.
    - replace (nth_error (p_txs p') t) with (@None txrec); [reflexivity|]. symmetry. apply nth_error_None. rewrite L. now apply nth_error_None.
  Qed.

  Lemma has_leaked_close p t u : has_ctx (close_tx t p) u Leaked = has_ctx p u Leaked.
  Proof. reflexivity. Qed.

  Lemma allocated_close p t u : t <> u -> m_allocated (close_tx t p) u = m_allocated p u.
  Proof. intros D. unfold m_allocated. cbn [close_tx p_txs]. rewrite nth_error_alter. rewrite (proj2 (Nat.eqb_neq t u) D). reflexivity. Qed.

  Lemma allocated_closed p t : has_ctx p t Leaked = false -> m_allocated (close_tx t p) t = false.
  Proof.
    intros K. unfold m_allocated. cbn [close_tx p_txs]. rewrite nth_error_alter, Nat.eqb_refl.
    destruct (nth_error (p_txs p) t); cbn [option_map]; [|reflexivity]. cbn [tx_open orb]. rewrite has_leaked_close. exact K.
  Qed.

  Lemma closed_length p t : length (p_txs (close_tx t p)) = length (p_txs p).
  Proof. cbn. apply alter_length. Qed.

  (** A transaction ends and its buffer is freed. *)
  Lemma all_closed p h t par g : nth_error (p_txs p) t = Some (TxRec par g true) -> has_ctx p t Leaked = false ->
    Permutation (m_all p h) (saves (buf_ops h t) ++ m_all (close_tx t p) h).
  Proof.
    intros N K. unfold m_all. rewrite closed_length. assert (L : t < length (p_txs p)) by (apply nth_error_Some; congruence).
    destruct (flat_map_at (m_waiting p h) (m_waiting (close_tx t p) h) (length (p_txs p)) t L) as (rest & P1 & P2).
    - intros u D. unfold m_waiting. rewrite allocated_close by auto. reflexivity.
    - rewrite P1, P2. unfold m_waiting. rewrite allocated_closed by assumption. unfold m_allocated. rewrite N. apply Permutation_refl.
  Qed.

  (** A transaction ends and a leaked context keeps the buffer. *)
  Lemma all_kept p h t par g : nth_error (p_txs p) t = Some (TxRec par g true) -> has_ctx p t Leaked = true ->
    m_all (close_tx t p) h = m_all p h.
  Proof.
    intros N K. unfold m_all. rewrite closed_length. apply flat_map_same. intros u L. unfold m_waiting. destruct (Nat.eq_dec t u) as [<-|D].
    - replace (m_allocated (close_tx t p) t) with (m_allocated p t); [reflexivity|]. unfold m_allocated. cbn [close_tx p_txs].
      rewrite nth_error_alter, Nat.eqb_refl, N. cbn [option_map tx_open orb]. rewrite has_leaked_close. now rewrite K.
    - now rewrite allocated_close.
  Qed.

  (** An open transaction's buffer grows. *)
  Lemma all_grows p h t l x : nth_error (p_txs p) t = Some x -> tx_open x = true -> t < length h ->
    Permutation (m_all p (alter (fun ops => ops ++ l) t h)) (m_all p h ++ saves l).
  Proof.
    intros N O Lh. unfold m_all. assert (L : t < length (p_txs p)) by (apply nth_error_Some; congruence).
    destruct (flat_map_at (m_waiting p h) (m_waiting p (alter (fun ops => ops ++ l) t h)) (length (p_txs p)) t L) as (rest & P1 & P2).
    - intros u D. unfold m_waiting, buf_ops. rewrite nth_alter_ne by auto. reflexivity.
    - rewrite P1, P2. unfold m_waiting, m_allocated. rewrite N, O. cbn [orb]. unfold buf_ops. rewrite nth_alter_eq by assumption. rewrite saves_app. perm.
  Qed.

  (** A transaction begins. *)
  Lemma all_begins p h par : length h = length (p_txs p) ->
    m_all (Proto (p_txs p ++ [TxRec par false true]) (p_ctxs p) false) (h ++ [[]]) = m_all p h.
  Proof.
    intros L. unfold m_all. cbn [p_txs]. rewrite app_length. cbn [length]. rewrite seq_app, flat_map_app. cbn [plus seq flat_map].
    rewrite (flat_map_same (m_waiting p h)).
    - unfold m_waiting at 2. unfold buf_ops. rewrite app_nth2 by lia. replace (length (p_txs p) - length h) with 0 by lia. cbn [nth saves flat_map].
      destruct (m_allocated _ _); now rewrite !app_nil_r.
    - intros u Lu. unfold m_waiting, m_allocated, buf_ops. cbn [p_txs]. rewrite nth_error_app1 by assumption. rewrite app_nth1 by lia. reflexivity.
  Qed.

  Lemma has_snoc_live p txs t u b : has_ctx (Proto txs (p_ctxs p ++ [CtxRec t Live]) b) u Leaked = has_ctx p u Leaked.
  Proof. unfold has_ctx. cbn [p_ctxs]. rewrite existsb_app. cbn. now rewrite andb_false_r, !orb_false_r. Qed.

  Lemma all_context p h t txs b : length txs = length (p_txs p) ->
    (forall u r, nth_error (p_txs p) u = Some r -> exists r', nth_error txs u = Some r' /\ tx_open r' = tx_open r) ->
    m_all (Proto txs (p_ctxs p ++ [CtxRec t Live]) b) h = m_all p h.
  Proof.
    intros L E. unfold m_all. cbn [p_txs]. rewrite L. apply flat_map_same. intros u Lu. unfold m_waiting.
    rewrite (allocated_keep p); [reflexivity|exact L|]. intros v r N. destruct (E v r N) as (r' & N' & O). exists r'. split; [exact N'|].
    now rewrite has_snoc_live, O.
  Qed.

  Lemma has_set_other s c t p u : nth_error (p_ctxs p) c = Some (CtxRec t Live) -> u <> t ->
    has_ctx (set_status s c p) u Leaked = has_ctx p u Leaked.
  Proof.
    intros N D. apply eq_true_iff_eq. rewrite !has_ctx_spec. cbn [set_status p_ctxs]. split; intros [k K]; exists k.
    - rewrite nth_error_alter in K. destruct (Nat.eqb_spec c k) as [->|]; [|exact K]. rewrite N in K. cbn in K. congruence.
    - rewrite nth_error_alter. destruct (Nat.eqb_spec c k) as [->|]; [|exact K]. congruence.
  Qed.

  Lemma all_status s c t p h : pinv p -> nth_error (p_ctxs p) c = Some (CtxRec t Live) -> m_all (set_status s c p) h = m_all p h.
  Proof.
    intros I N. unfold m_all. cbn [set_status p_txs]. apply flat_map_same. intros u Lu. unfold m_waiting.
    replace (m_allocated (set_status s c p) u) with (m_allocated p u); [reflexivity|].
    unfold m_allocated. change (p_txs (set_status s c p)) with (p_txs p). destruct (nth_error (p_txs p) u) as [x|] eqn:X; [|reflexivity]. destruct (Nat.eq_dec u t) as [->|D].
    - destruct (pi_ctx _ I c _ N) as (y & Y & O). cbn in Y, O. rewrite X in Y. injection Y as <-. destruct (O eq_refl) as [-> _]. reflexivity.
    - now rewrite (has_set_other s c t).
  Qed.

  (** ** One event *)

  Notation graph_of st := (s_graph (m_store (gs_m st))).

  Definition conserves (st : gstate) (e : gevent) (r : gstate * gout) : Prop :=
    Permutation (all_waiting st ++ g_iter (graph_of st) ++ given [e] [snd r])
                (all_waiting (fst r) ++ g_iter (graph_of (fst r)) ++ map fst (drops st e) ++ given_back [e] [snd r]).

  Lemma conserves_still st e o : accepted o = false -> drops st e = [] -> conserves st e (st, o).
  Proof.
    intros A D. unfold conserves. cbn [fst snd given]. rewrite A, D. cbn [map app].
    replace (given_back [e] [o]) with (@nil Node); [apply Permutation_refl|]. destruct o as [[]| |]; try discriminate A; now destruct e as [[]| | | | | | | |].
  Qed.

  Lemma map_fst_pair {A B} (b : B) (l : list A) : map fst (map (fun n => (n, b)) l) = l.
  Proof. rewrite map_map. cbn. apply map_id. Qed.

  Lemma conserves_pass st (e : event) : ginv st -> gs_hung st = false -> of_lost st e = false ->
    (forall w, asks st e = Some w -> locked w st = false) -> conserves st (GEvent e) (g_pass st e).
  Proof.
    intros I Hg O A. destruct (pass_hung st e I A) as [_ Nh]. pose proof (gi_m _ I) as M. pose proof (mi_p _ M) as PI. pose proof (gi_hung _ I) as Hh.
    unfold conserves, g_pass. rewrite m_step_fst. unfold all_waiting, waiting, allocated. cbn [fst snd gs_m m_proto m_store].
    set (p := m_proto (gs_m st)) in *. set (s := m_store (gs_m st)) in *.
    change (Permutation (m_all p (s_heap s) ++ g_iter (s_graph s) ++ given [GEvent e] [GX (snd (m_exec s (snd (p_step p e))))])
      (m_all (fst (p_step p e)) (s_heap (fst (m_exec s (snd (p_step p e))))) ++ g_iter (s_graph (fst (m_exec s (snd (p_step p e))))) ++
       map fst (drops st (GEvent e)) ++ given_back [GEvent e] [GX (snd (m_exec s (snd (p_step p e))))])).
    assert (Inv : snd (p_step p e) = AInvalid -> drops st (GEvent e) = []).
    { intros E. unfold drops. rewrite Hg. destruct e; try reflexivity.
      - unfold p_step in E. rewrite Hh in E. cbn in O. rewrite O. fold p. destruct (nth_error (p_txs p) t) as [[par g []]|]; try reflexivity.
        destruct (has_ctx p t Live); [reflexivity|]. destruct commit; cbn in E; [|discriminate]. destruct (has_ctx p t Leaked); [reflexivity|].
        destruct par; [discriminate|]. destruct g; discriminate.
      - unfold p_step in E. rewrite Hh in E. destruct (guard_held p); discriminate. }
    destruct (p_step_pstep p e) as [e E|e E|E|c t E N|t c g E N|t E N|t E N G|e E G W|c t n E N|c t i E N|c t i E N|c t i E N
      |c t E N B|c t E N B|t commit par g E N K C|t c g E N K C|t E N K C|i E G|c E G]; cbn [m_exec fst snd s_heap s_graph] in *.
    - congruence.
    - cbn [given accepted given_back app]. rewrite Inv by reflexivity. destruct e; cbn [given_back map app]; apply Permutation_refl.
    - rewrite all_begins by (apply (mi_heap _ M)). unfold drops. rewrite Hg. cbn. perm.
    - rewrite all_begins by (apply (mi_heap _ M)). unfold drops. rewrite Hg. cbn. perm.
    - rewrite all_context by eauto. unfold drops. rewrite Hg. cbn. perm.
    - rewrite all_context by eauto. unfold drops. rewrite Hg. cbn. perm.
    - rewrite all_context.
      + unfold drops. rewrite Hg. cbn. perm.
      + apply alter_length.
      + intros u r Nu. rewrite nth_error_alter, Nu. destruct (Nat.eqb t u); cbn; eauto.
    - congruence.
    - destruct (pi_ctx _ PI c _ N) as (x & X & Lv). cbn in X, Lv. destruct (Lv eq_refl) as [Ox _].
      assert (Mf : made_from p c t) by (exists Live; exact N).
      unfold ctx_save, buf_push. rewrite (ctx_buf_value _ c t M Mf : ctx_buf (ctx_value s c) = t). pose proof (tx_lt _ c t M Mf) as Lh. fold s in Lh.
      rewrite (all_grows p (s_heap s) t [OSave n] x X Ox Lh). unfold drops. rewrite Hg. cbn [saves flat_map given argument accepted given_back map app]. perm.
    - destruct (pi_ctx _ PI c _ N) as (x & X & Lv). cbn in X, Lv. destruct (Lv eq_refl) as [Ox _].
      assert (Mf : made_from p c t) by (exists Live; exact N).
      unfold ctx_delete, buf_push. rewrite (ctx_buf_value _ c t M Mf : ctx_buf (ctx_value s c) = t). pose proof (tx_lt _ c t M Mf) as Lh. fold s in Lh.
      rewrite (all_grows p (s_heap s) t [ODelete i] x X Ox Lh). unfold drops. rewrite Hg. cbn [saves flat_map given argument accepted given_back map app]. perm.
    - unfold drops. rewrite Hg. cbn. perm.
    - unfold drops. rewrite Hg. cbn. perm.
    - rewrite (all_status _ _ t) by assumption. unfold drops. rewrite Hg. cbn. perm.
    - rewrite (all_status _ _ t) by assumption. unfold drops. rewrite Hg. cbn. perm.
    - cbn [given argument accepted given_back app]. unfold drops. rewrite Hg. cbn in O. rewrite O. fold p. rewrite N, K. cbn [orb].
      destruct (has_ctx p t Leaked) eqn:Lk; [rewrite (all_kept p (s_heap s) t par g N Lk); cbn; perm|].
      assert (Ed : match commit, par, g with
        | true, Some _, _ => []
        | true, None, true => map (fun n => (n, locked false st)) (taken (snd (apply_told (s_graph (m_store (gs_m st))) (buf_ops (s_heap (m_store (gs_m st))) t))))
        | _, _, _ => map (fun n => (n, locked false (GState (Machine (close_tx t p) s) (gs_guards st) (gs_lost st) false))) (saves (buf_ops (s_heap (m_store (gs_m st))) t))
        end = map (fun n => (n, locked false (GState (Machine (close_tx t p) s) (gs_guards st) (gs_lost st) false))) (saves (buf_ops (s_heap s) t))).
      { destruct C as [->|[C|[-> ->]]]; [reflexivity|congruence|]. destruct commit; reflexivity. }
      cbn zeta. fold s in Ed |- *. rewrite Ed, map_fst_pair, (all_closed p (s_heap s) t par g N Lk). perm.
    - cbn [given argument accepted given_back app]. unfold drops. rewrite Hg. cbn in O. rewrite O. fold p. rewrite N, K, C. cbn [orb map app].
      destruct (pi_tx _ PI t _ c N eq_refl) as (r & Nc & Lt & Lv). cbn in Lv. specialize (Lv eq_refl). destruct r as [u st']. cbn in Lt, Lv. subst st'.
      destruct (pi_ctx _ PI c _ Nc) as (x & X & Lx). cbn in X, Lx. destruct (Lx eq_refl) as [Ox _].
      assert (Mf : made_from p c u) by (exists Live; exact Nc).
      unfold fg_extend. rewrite (ctx_buf_value _ c u M Mf : ctx_buf (ctx_value s c) = u). pose proof (tx_lt _ c u M Mf) as Lh. fold s in Lh.
      rewrite (all_grows (close_tx t p) (s_heap s) u (buf_ops (s_heap s) t) x); [|cbn; rewrite nth_error_alter|exact Ox|exact Lh].
      + rewrite (all_closed p (s_heap s) t _ _ N C). perm.
      + rewrite (proj2 (Nat.eqb_neq t u)) by lia. exact X.
    - cbn [given argument accepted given_back app]. unfold drops. rewrite Hg. cbn in O. rewrite O. fold p. rewrite N, K, C. cbn [orb].
      rewrite map_fst_pair, (all_closed p (s_heap s) t _ _ N C). fold s. pose proof (told_perm (buf_ops (s_heap s) t) (s_graph s)) as T.
      rewrite apply_told_graph in T. transitivity (m_all (close_tx t p) (s_heap s) ++ g_iter (s_graph s) ++ saves (buf_ops (s_heap s) t)); [perm|].
      rewrite T. perm.
    - unfold drops. rewrite Hg. cbn. perm.
    - unfold drops. rewrite Hg. rewrite (A true eq_refl), map_fst_pair. fold s. pose proof (call_perm (s_graph s) c) as P.
      replace (given [GEvent (EWrite c)] [GX (XNode (snd (Graph.g_step (s_graph s) c)))]) with (call_given c) by (destruct c; reflexivity).
      replace (given_back [GEvent (EWrite c)] [GX (XNode (snd (Graph.g_step (s_graph s) c)))]) with (olist (snd (Graph.g_step (s_graph s) c)))
        by (cbn; now destruct (snd (Graph.g_step (s_graph s) c))).
      rewrite P. perm.
  Qed.

  Lemma conserves_step st (e : gevent) : ginv st -> conserves st e (g_step st e).
  Proof.
    intros I. destruct (gs_hung st) eqn:Hg.
    { unfold g_step. rewrite Hg. apply conserves_still; [reflexivity|]. unfold drops. now rewrite Hg. }
    pose proof (gi_m _ I) as M.
    assert (Q : forall e o, accepted o = true -> given [e] [o] = [] -> given_back [e] [o] = [] -> drops st e = [] -> forall st', gs_m st' = gs_m st -> conserves st e (st', o)).
    { intros e' o _ G B D st' E. unfold conserves. cbn [fst snd]. rewrite G, B, D. unfold all_waiting, waiting, allocated. rewrite E. apply Permutation_refl. }
    destruct e as [e|t|t k|w|g i|g|g c|g|g].
    - unfold g_step. rewrite Hg. destruct (of_lost st e) eqn:O.
      { apply conserves_still; [reflexivity|]. unfold drops. rewrite Hg. destruct e; try discriminate O; [reflexivity|]. cbn in O. now rewrite O. }
      destruct (asks st e) as [w|] eqn:A.
      + destruct (locked w st) eqn:L; [|apply conserves_pass; auto; intros w' E; congruence]. unfold g_hang, conserves. cbn [fst snd].
        replace (drops st (GEvent e)) with (@nil (Node * bool)).
        * destruct e; cbn [given accepted given_back map app]; apply Permutation_refl.
        * unfold drops. rewrite Hg. destruct e; try reflexivity; cbn in A; try discriminate A. injection A as <-. now rewrite L.
      + apply conserves_pass; auto. intros w' E. congruence.
    - unfold g_step. rewrite Hg. destruct (lost t st); [apply conserves_still; [reflexivity|unfold drops; now rewrite Hg]|].
      destruct (nth_error _ t) as [[[c|] [] []]|] eqn:N; try (apply conserves_still; [reflexivity|unfold drops; now rewrite Hg]).
      destruct (has_ctx _ t Live); [apply conserves_still; [reflexivity|unfold drops; now rewrite Hg]|].
      apply Q; try reflexivity. unfold drops. now rewrite Hg.
    - unfold conserves. assert (D : drops st (GCrash t k) = match snd (g_step st (GCrash t k)) with
        | GCrashed l => map (fun n => (n, locked false st)) (taken l ++ saves (skipn k (buf_ops (s_heap (m_store (gs_m st))) t))) | _ => [] end).
      { unfold drops. now rewrite Hg. }
      rewrite D. clear D. destruct (crash_cases st t k) as [[->| ->]|[C ->]]; [apply Permutation_refl|apply Permutation_refl|].
      unfold crashed. cbn [fst snd]. rewrite map_fst_pair. cbn [given argument accepted given_back app]. rewrite !all_waiting_m. cbn [gs_m m_proto m_store s_heap s_graph].
      set (p := m_proto (gs_m st)) in *. set (s := m_store (gs_m st)) in *. rewrite (all_closed p (s_heap s) t _ _ (cr_rec _ _ _ C) (cr_leaked _ _ _ C)).
      pose proof (told_perm (firstn k (buf_ops (s_heap s) t)) (s_graph s)) as T.
      rewrite <- (firstn_skipn k (buf_ops (s_heap s) t)) at 1. rewrite saves_app.
      transitivity ((g_iter (s_graph s) ++ saves (firstn k (buf_ops (s_heap s) t))) ++ saves (skipn k (buf_ops (s_heap s) t)) ++ m_all (close_tx t p) (s_heap s)); [perm|].
      rewrite T. perm.
    - unfold g_step. rewrite Hg. destruct (locked w st).
      + unfold g_hang, conserves. cbn [fst snd]. unfold drops. rewrite Hg. apply Permutation_refl.
      + apply Q; try reflexivity. unfold drops. now rewrite Hg.
    - unfold g_step. rewrite Hg. destruct (usable g st); [|apply conserves_still; [reflexivity|unfold drops; now rewrite Hg]].
      apply Q; try reflexivity. unfold drops. now rewrite Hg.
    - unfold g_step. rewrite Hg. destruct (usable g st); [|apply conserves_still; [reflexivity|unfold drops; now rewrite Hg]].
      apply Q; try reflexivity. unfold drops. now rewrite Hg.
    - unfold g_step. rewrite Hg. destruct (usable g st) as [[]|] eqn:U; [|apply conserves_still; [reflexivity|unfold drops; now rewrite Hg, U]|apply conserves_still; [reflexivity|unfold drops; now rewrite Hg, U]].
      destruct (Graph.g_step (graph_of st) c) as [g' r] eqn:S. unfold conserves. cbn [fst snd]. unfold drops. rewrite Hg, U, map_fst_pair.
      rewrite !all_waiting_m. cbn [gs_m m_proto m_store s_heap s_graph]. pose proof (call_perm (graph_of st) c) as P. rewrite S in P. cbn [fst snd] in P.
      replace (given [GCall g c] [GX (XNode r)]) with (call_given c) by (destruct c; reflexivity).
      replace (given_back [GCall g c] [GX (XNode r)]) with (olist r) by (destruct r; reflexivity). rewrite P. perm.
    - unfold g_step. rewrite Hg. destruct (usable g st); [|apply conserves_still; [reflexivity|unfold drops; now rewrite Hg]].
      apply Q; try reflexivity. unfold drops. now rewrite Hg.
    - unfold g_step. rewrite Hg. destruct (usable g st); [|apply conserves_still; [reflexivity|unfold drops; now rewrite Hg]].
      apply Q; try reflexivity. unfold drops. now rewrite Hg.
  Qed.

  (** ** Histories *)

  Lemma given_app es1 os1 es2 os2 : length es1 = length os1 -> given (Id:=Id) (Node:=Node) (es1 ++ es2) (os1 ++ os2) = given es1 os1 ++ given es2 os2.
  Proof.
    revert os1. induction es1 as [|e es1 IH]; intros [|o os1] L; try discriminate; [reflexivity|]. injection L as L. cbn. now rewrite IH, app_assoc.
  Qed.

  Lemma given_back_app es1 os1 es2 os2 : length es1 = length os1 ->
    given_back (Id:=Id) (Node:=Node) (es1 ++ es2) (os1 ++ os2) = given_back es1 os1 ++ given_back es2 os2.
  Proof.
    revert os1. induction es1 as [|e es1 IH]; intros [|o os1] L; try discriminate; [reflexivity|]. injection L as L. cbn.
    destruct e as [[]|t|t k|w|g i|g|g c|g|g]; destruct o as [[]| |]; cbn; rewrite ?IH by assumption; try reflexivity; destruct r; cbn; rewrite ?IH by assumption; reflexivity.
  Qed.

  Lemma all_drops_snoc es e : forall st : gstate, all_drops st (es ++ [e]) = all_drops st es ++ drops (fst (g_run st es)) e.
  Proof.
    induction es as [|x es IH]; intros st; cbn; [now rewrite app_nil_r|]. rewrite IH. destruct (g_step st x) as [st1 o]. cbn [fst].
    destruct (g_run st1 es). now rewrite app_assoc.
  Qed.

  Lemma conserved (g0 : graph) (es : list gevent) : g_wf g0 ->
    Permutation (g_iter g0 ++ given es (g_answers g0 es))
      (g_nodes g0 es ++ all_waiting (g_after g0 es) ++ map fst (all_drops (g_init g0) es) ++ given_back es (g_answers g0 es)).
  Proof.
    intros W. induction es as [|e es IH] using rev_ind.
    { unfold g_nodes. cbn. rewrite !app_nil_r. apply Permutation_refl. }
    pose proof (conserves_step (g_after g0 es) e (ginv_after g0 es W)) as C. unfold conserves in C. rewrite <- g_after_snoc in C. fold (g_says g0 es e) in C.
    rewrite g_answers_snoc, given_app, given_back_app by now rewrite g_answers_length. rewrite all_drops_snoc, map_app. fold (g_after g0 es).
    unfold g_nodes in *. rewrite app_assoc, IH.
    transitivity ((all_waiting (g_after g0 es) ++ g_iter (graph_of (g_after g0 es)) ++ given [e] [g_says g0 es e]) ++
      map fst (all_drops (g_init g0) es) ++ given_back es (g_answers g0 es)); [perm|]. rewrite C. perm.
  Qed.

  (** ** When nothing waits any more *)

  Lemma no_leaked_ctx (g0 : graph) (es : list gevent) : (forall c, ~ In (GEvent (ELeakCtx c)) es) -> g_wf g0 ->
    forall c t, nth_error (p_ctxs (m_proto (gs_m (g_after g0 es)))) c <> Some (CtxRec t Leaked).
  Proof.
    intros NL W. induction es as [|e es IH] using rev_ind; [intros [|c] t; discriminate|].
    assert (NL' : forall c, ~ In (GEvent (ELeakCtx c)) es) by (intros c K; apply (NL c), in_or_app; auto).
    specialize (IH NL'). rewrite g_after_snoc. set (st := g_after g0 es) in *. pose proof (ginv_after g0 es W : ginv st) as I.
    assert (S : forall st', gs_m st' = gs_m st -> forall c t, nth_error (p_ctxs (m_proto (gs_m st'))) c <> Some (CtxRec t Leaked)) by (intros st' ->; exact IH).
    unfold g_step. destruct (gs_hung st) eqn:Hg; [now apply S|]. destruct e as [e|t|t k|w|g i|g|g c|g|g].
    - assert (P : forall c t, nth_error (p_ctxs (m_proto (gs_m (fst (g_pass st e))))) c <> Some (CtxRec t Leaked)).
      { unfold g_pass. rewrite m_step_fst. cbn [fst gs_m m_proto]. intros d u.
        assert (Sn : forall t, nth_error (p_ctxs (m_proto (gs_m st)) ++ [CtxRec t Live]) d <> Some (CtxRec u Leaked)).
        { intros t K. apply nth_error_snoc in K as [K|[_ K]]; [exact (IH _ _ K)|discriminate]. }
        destruct (p_step_pstep (m_proto (gs_m st)) e) as [| | | | | | | | | | | |c t E N B|c t E N B| | | | |]; cbn [p_ctxs hang close_tx set_status]; try apply IH; try apply Sn.
        - rewrite nth_error_alter. destruct (Nat.eqb c d); [|apply IH]. destruct (nth_error _ d); cbn; discriminate.
        - exfalso. apply (NL c), in_or_app. right. now left. }
      destruct (of_lost st e); [exact IH|]. destruct (asks st e) as [w|]; [|exact P]. destruct (locked w st); [exact IH|exact P].
    - destruct (lost t st); [exact IH|]. destruct (nth_error _ t) as [[[c|] [] []]|]; try exact IH. destruct (has_ctx _ t Live); exact IH.
    - destruct (crash_cases st t k) as [[E|E]|[C E]]; unfold g_step in E; rewrite Hg in E; rewrite E; exact IH.
    - destruct (locked w st); exact IH.
    - destruct (usable g st); exact IH.
    - destruct (usable g st); exact IH.
    - destruct (usable g st) as [[]|]; try exact IH. destruct (Graph.g_step _ c). exact IH.
    - destruct (usable g st); exact IH.
    - destruct (usable g st); exact IH.
  Qed.

  Lemma fg_handle (st : gstate) c : ginv st -> forall r, nth_error (p_txs (m_proto (gs_m (fst (g_step st (GEvent (EForeground c))))))) (length (p_txs (m_proto (gs_m st)))) = Some r ->
    snd (g_step st (GEvent (EForeground c))) = GX (XHandle (length (p_txs (m_proto (gs_m st))))).
  Proof.
    intros I r. unfold g_step. destruct (gs_hung st).
    - cbn [fst]. intros N. exfalso. assert (nth_error (p_txs (m_proto (gs_m st))) (length (p_txs (m_proto (gs_m st)))) = None) by now apply nth_error_None. congruence.
    - cbn [of_lost asks]. unfold g_pass, m_step, p_step. rewrite (gi_hung _ I). destruct (ctx_live _ c).
      + cbn [m_exec fst snd]. intros _. now rewrite <- (mi_heap _ (gi_m _ I)).
      + cbn [m_exec fst snd gs_m m_proto]. intros N. exfalso.
        assert (nth_error (p_txs (m_proto (gs_m st))) (length (p_txs (m_proto (gs_m st)))) = None) by now apply nth_error_None. congruence.
  Qed.

  Lemma fg_begun g0 es : g_wf g0 -> forall t c b o, nth_error (txs_of g0 es) t = Some (TxRec (Some c) b o) ->
    exists c e2, happened g0 es (GEvent (EForeground c)) (GX (XHandle t)) e2.
  Proof.
    intros W. induction es as [|e es IH] using rev_ind; [intros [|t] c b o N; discriminate|].
    intros t c b o N. pose proof (ginv_after g0 es W) as I.
    assert (Old : (exists c' b' o', nth_error (txs_of g0 es) t = Some (TxRec (Some c') b' o')) ->
      exists c e2, happened g0 (es ++ [e]) (GEvent (EForeground c)) (GX (XHandle t)) e2).
    { intros (c' & b' & o' & N'). destruct (IH t c' b' o' N') as (d & e2 & K). exists d. apply happened_snoc. left. eauto. }
    unfold txs_of in N. rewrite g_after_snoc in N. pose proof (step_txs (g_after g0 es) e I) as T.
    remember (p_txs (m_proto (gs_m (fst (g_step (g_after g0 es) e))))) as txs' eqn:Et.
    remember (snd (g_step (g_after g0 es) e)) as ans eqn:Ea.
    fold (txs_of g0 es) in T.
    destruct T as [e0 o0 Oe| |d h|u h par g Nu Pg|u h Nu|u b0 par g Nu|u k l Nu]; try (apply Old; eauto; fail).
    - apply nth_error_snoc in N as [N|[-> N]]; [apply Old; eauto|discriminate].
    - apply nth_error_snoc in N as [N|[-> N]]; [apply Old; eauto|]. exists d. apply happened_snoc. right. split; [reflexivity|].
      unfold g_says, txs_of. eapply fg_handle; [exact I|]. rewrite <- Et. unfold txs_of. rewrite nth_error_app2, Nat.sub_diag by lia. reflexivity.
    - rewrite nth_error_alter in N. destruct (Nat.eqb u t); [|apply Old; eauto]. destruct (nth_error (txs_of g0 es) t) as [[c' b' o']|] eqn:X; [|discriminate].
      cbn in N. injection N as -> _ _. apply Old. eauto.
    - rewrite nth_error_alter in N. destruct (Nat.eqb u t); [|apply Old; eauto]. destruct (nth_error (txs_of g0 es) t) as [[c' b' o']|] eqn:X; [|discriminate].
      cbn in N. injection N as -> _ _. apply Old. eauto.
    - rewrite nth_error_alter in N. destruct (Nat.eqb u t); [|apply Old; eauto]. destruct (nth_error (txs_of g0 es) t) as [[c' b' o']|] eqn:X; [|discriminate].
      cbn in N. injection N as -> _ _. apply Old. eauto.
  Qed.

  Lemma none_waiting g0 es : g_wf g0 -> (forall c, ~ In (GEvent (ELeakCtx c)) es) -> (forall t, begun g0 es t -> ended g0 es t) ->
    all_waiting (g_after g0 es) = [].
  Proof.
    intros W NL En. unfold all_waiting. rewrite (flat_map_same (fun _ => [])).
    - induction (seq 0 _); [reflexivity|assumption].
    - intros t _. unfold waiting, allocated. destruct (nth_error _ t) as [[par b o]|] eqn:N; [|reflexivity]. cbn [tx_open]. pose proof (txhist_after g0 es W) as TH.
      assert (E : ended g0 es t).
      { apply En. destruct par as [c|]; [right; eapply fg_begun; eauto|left; apply (th_bg _ _ TH); exists b, o; exact N]. }
      apply (th_end _ _ TH) in E as (par' & b' & N'). unfold txs_of in N'. rewrite N in N'. injection N' as _ _ ->. cbn [orb].
      destruct (has_ctx _ t Leaked) eqn:K; [|reflexivity]. exfalso. apply has_ctx_spec in K as [c K]. revert K. now apply no_leaked_ctx.
  Qed.

  (** ** Which nodes are dropped while the graph is locked *)

  Definition unstarted (m : machine) : Prop :=
    forall t, nth_error (p_txs (m_proto m)) t = Some (TxRec None false true) -> saves (buf_ops (s_heap (m_store m)) t) = [].

  Lemma unstarted_pass (m : machine) (e : event) : minv m -> unstarted m -> unstarted (fst (m_step m e)).
  Proof.
    intros M U. pose proof (mi_p _ M) as PI. rewrite m_step_fst. unfold unstarted. cbn [fst m_proto m_store]. intros u.
    assert (Live' : forall c t, nth_error (p_ctxs (m_proto m)) c = Some (CtxRec t Live) -> nth_error (p_txs (m_proto m)) t <> Some (TxRec None false true)).
    { intros c t N K. destruct (pi_ctx _ PI c _ N) as (x & X & L). cbn in X, L. rewrite K in X. injection X as <-. destruct (L eq_refl) as [_ G]. discriminate (G eq_refl). }
    assert (Grow : forall c t l, nth_error (p_ctxs (m_proto m)) c = Some (CtxRec t Live) -> nth_error (p_txs (m_proto m)) u = Some (TxRec None false true) ->
      saves (buf_ops (alter (fun ops => ops ++ l) (ctx_buf (ctx_value (m_store m) c)) (s_heap (m_store m))) u) = []).
    { intros c t l N K. assert (Mf : made_from (m_proto m) c t) by (now exists Live). rewrite (ctx_buf_value _ c t M Mf).
      unfold buf_ops. rewrite nth_alter_ne; [now apply U|]. intros ->. exact (Live' c u N K). }
    assert (Cl : forall t txs, txs = p_txs (close_tx t (m_proto m)) -> nth_error txs u = Some (TxRec None false true) -> nth_error (p_txs (m_proto m)) u = Some (TxRec None false true)).
    { intros t txs -> K. cbn in K. rewrite nth_error_alter in K. destruct (Nat.eqb t u); [|exact K]. destruct (nth_error _ u); discriminate. }
    destruct (p_step_pstep (m_proto m) e) as [e E|e E|E|c t E N|t c g E N|t E N|t E N G|e E G Wt|c t n E N|c t i E N|c t i E N|c t i E N
      |c t E N B|c t E N B|t commit par g E N K C|t c g E N K C|t E N K C|i E G|c E G]; cbn [m_exec fst s_heap p_txs hang set_status]; try apply U.
    - intros K. apply nth_error_snoc in K as [K|[-> _]].
      + unfold buf_ops. rewrite app_nth1; [now apply U|]. rewrite (mi_heap _ M). apply nth_error_Some. congruence.
      + unfold buf_ops. rewrite app_nth2, (mi_heap _ M), Nat.sub_diag by (rewrite (mi_heap _ M); lia). reflexivity.
    - intros K. apply nth_error_snoc in K as [K|[-> _]].
      + unfold buf_ops. rewrite app_nth1; [now apply U|]. rewrite (mi_heap _ M). apply nth_error_Some. congruence.
      + unfold buf_ops. rewrite app_nth2, (mi_heap _ M), Nat.sub_diag by (rewrite (mi_heap _ M); lia). reflexivity.
    - rewrite nth_error_alter. destruct (Nat.eqb t u); [destruct (nth_error _ u); discriminate|apply U].
    - now apply (Grow c t).
    - now apply (Grow c t).
    - intros K'. apply U. eapply Cl; [reflexivity|exact K'].
    - intros K'. destruct (pi_tx _ PI t _ c N eq_refl) as ([v s'] & Nc & Lt & Lv). cbn in Lv. rewrite (Lv eq_refl) in Nc.
      apply (Grow c v); [exact Nc|]. eapply Cl; [reflexivity|exact K'].
    - intros K'. apply U. eapply Cl; [reflexivity|exact K'].
  Qed.

  Lemma unstarted_after g0 es : g_wf g0 -> unstarted (gs_m (g_after g0 es)).
  Proof.
    intros W. induction es as [|e es IH] using rev_ind; [intros [|t]; discriminate|]. rewrite g_after_snoc.
    pose proof (ginv_after g0 es W) as I. set (st := g_after g0 es) in *. unfold g_step. destruct (gs_hung st) eqn:Hg; [exact IH|].
    destruct e as [e|t|t k|w|g i|g|g c|g|g].
    - assert (P : unstarted (gs_m (fst (g_pass st e)))).
      { unfold g_pass. pose proof (unstarted_pass (gs_m st) e (gi_m _ I) IH) as P. destruct (m_step (gs_m st) e). exact P. }
      destruct (of_lost st e); [exact IH|]. destruct (asks st e) as [w|]; [|exact P]. destruct (locked w st); [exact IH|exact P].
    - destruct (lost t st); [exact IH|]. destruct (nth_error _ t) as [[[c|] [] []]|]; try exact IH. destruct (has_ctx _ t Live); exact IH.
    - destruct (crash_cases st t k) as [[E|E]|[C E]]; unfold g_step in E; rewrite Hg in E; rewrite E; try exact IH. unfold crashed. cbn [fst gs_m].
      unfold unstarted. cbn [m_proto m_store s_heap close_tx p_txs]. intros u. rewrite nth_error_alter. destruct (Nat.eqb t u); [|apply IH]. destruct (nth_error _ u); discriminate.
    - destruct (locked w st); exact IH.
    - destruct (usable g st); exact IH.
    - destruct (usable g st); exact IH.
    - destruct (usable g st) as [[]|]; try exact IH. destruct (Graph.g_step _ c). exact IH.
    - destruct (usable g st); exact IH.
    - destruct (usable g st); exact IH.
  Qed.

  Lemma tx_guard_locked (st : gstate) t r : nth_error (p_txs (m_proto (gs_m st))) t = Some r -> tx_guard r = true -> locked false st = true.
  Proof. intros N G. unfold locked. replace (guard_held _) with true; [reflexivity|]. symmetry. apply guard_held_true. eauto. Qed.

  Lemma dropped_locked g0 es (e : gevent) n b : g_wf g0 -> In (n, b) (drops (g_after g0 es) e) ->
    (b = false <-> exists t, e = GEvent (EEnd t false) /\ background g0 es t).
  Proof.
    intros W D. pose proof (ginv_after g0 es W) as I. pose proof (txhist_after g0 es W) as TH. pose proof (unstarted_after g0 es W) as Un.
    assert (Yes : b = true -> (forall t, e <> GEvent (EEnd t false)) -> b = false <-> exists t, e = GEvent (EEnd t false) /\ background g0 es t).
    { intros -> Ne. split; [discriminate|]. intros (t & E & _). now apply Ne in E. }
    set (st := g_after g0 es) in *. unfold drops in D. destruct (gs_hung st) eqn:Hg; [contradiction|].
    destruct e as [e|t|t k|w|g i|g|g c|g|g]; try contradiction.
    - destruct e as [| | | | | | | | |t commit| |c]; try contradiction.
      + destruct (lost t st) eqn:Lo; [contradiction|]. destruct (nth_error (p_txs (m_proto (gs_m st))) t) as [[par g []]|] eqn:N; try contradiction.
        destruct (has_ctx _ t Live) eqn:K; [contradiction|]. destruct (has_ctx _ t Leaked) eqn:C; [contradiction|]. cbn [orb] in D.
        set (closed := GState _ _ _ _) in D.
        destruct commit; [destruct par as [c|]; [contradiction|]; destruct g|].
        * apply in_map_iff in D as (n' & [= -> <-] & _). apply Yes; [|discriminate]. eapply tx_guard_locked; [exact N|reflexivity].
        * rewrite (Un t N) in D. contradiction.
        * assert (D' : In (n, b) (map (fun n0 => (n0, locked false closed)) (saves (buf_ops (s_heap (m_store (gs_m st))) t)))) by exact D.
          apply in_map_iff in D' as (n' & [= -> <-] & Sn). destruct par as [c|].
          -- assert (Lc : locked false closed = true).
             { unfold locked. replace (guard_held (m_proto (gs_m closed))) with true; [reflexivity|]. symmetry. cbn [closed gs_m m_proto].
               destruct (pi_tx _ (mi_p _ (gi_m _ I)) t _ c N eq_refl) as ([v s'] & Nc & Lt & Lv). cbn in Lv. rewrite (Lv eq_refl) in Nc.
               assert (Al : alive (m_proto (gs_m st)) c) by (now exists v).
               destruct (alive_root _ c (gi_m _ I) Al) as (r & d & _ & _ & _ & Nr & _). apply guard_held_true. exists r, (TxRec None true true).
               split; [|reflexivity]. cbn. rewrite nth_error_alter. destruct (Nat.eqb_spec t r) as [->|]; [congruence|exact Nr]. }
             rewrite Lc. split; [discriminate|]. intros (t' & [= <-] & Bg). exfalso. apply (th_bg _ _ TH) in Bg as (b' & o' & N'). unfold txs_of in N'. fold st in N'. congruence.
          -- destruct g; [|rewrite (Un t N) in Sn; contradiction]. assert (Lc : locked false closed = false).
             { unfold locked. cbn [closed gs_m m_proto]. rewrite (guard_freed t _ (mi_p _ (gi_m _ I)) N). cbn [orb andb].
               assert (Gh : guard_held (m_proto (gs_m st)) = true) by (apply guard_held_true; eauto).
               destruct (gi_excl _ I Gh) as [E1 _]. unfold held in *. cbn [closed gs_guards]. now rewrite E1. }
             rewrite Lc. split; [|reflexivity]. intros _. exists t. split; [reflexivity|]. apply (th_bg _ _ TH). exists true, true. exact N.
      + destruct (locked true st); [contradiction|]. apply in_map_iff in D as (n' & [= -> <-] & _). apply Yes; [reflexivity|discriminate].
    - destruct (crash_cases st t k) as [[E|E]|[C E]]; rewrite E in D; try contradiction. unfold crashed in D. cbn [snd] in D.
      apply in_map_iff in D as (n' & [= -> <-] & _). apply Yes; [|discriminate]. eapply tx_guard_locked; [apply C|reflexivity].
    - destruct (usable g st) as [[]|] eqn:U; try contradiction. apply in_map_iff in D as (n' & [= -> <-] & _). apply Yes; [|discriminate].
      apply usable_held in U. unfold locked. rewrite U. now rewrite orb_true_r.
  Qed.

  (** ** Buffers that nothing can free or fill *)

  Definition frozen (st : gstate) (t : nat) : Prop :=
    has_ctx (m_proto (gs_m st)) t Live = false /\
    exists r, nth_error (p_txs (m_proto (gs_m st))) t = Some r /\ (tx_open r = true -> In t (gs_lost st)).

  Lemma has_set_same s s' c t p u : nth_error (p_ctxs p) c = Some (CtxRec t Live) -> u <> t -> has_ctx (set_status s c p) u s' = has_ctx p u s'.
  Proof.
    intros N D. apply eq_true_iff_eq. rewrite !has_ctx_spec. cbn [set_status p_ctxs]. split; intros [k K]; exists k.
    - rewrite nth_error_alter in K. destruct (Nat.eqb_spec c k) as [->|]; [|exact K]. rewrite N in K. cbn in K. congruence.
    - rewrite nth_error_alter. destruct (Nat.eqb_spec c k) as [->|]; [|exact K]. congruence.
  Qed.

  Lemma frozen_pass (st : gstate) (e : event) t : ginv st -> of_lost st e = false -> frozen st t ->
    frozen (fst (g_pass st e)) t /\ waiting (fst (g_pass st e)) t = waiting st t.
  Proof.
    intros I O [NL (r & N & Lo)]. pose proof (gi_m _ I) as M. pose proof (mi_p _ M) as PI.
    assert (Ne : forall c u, nth_error (p_ctxs (m_proto (gs_m st))) c = Some (CtxRec u Live) -> t <> u).
    { intros c u Nc ->. assert (has_ctx (m_proto (gs_m st)) u Live = true) by (apply has_ctx_spec; eauto). congruence. }
    assert (Op : forall u par g, nth_error (p_txs (m_proto (gs_m st))) u = Some (TxRec par g true) -> lost u st = false -> t <> u).
    { intros u par g Nu L ->. rewrite N in Nu. injection Nu as ->. specialize (Lo eq_refl). apply lost_true in Lo. congruence. }
    assert (Len : t < length (s_heap (m_store (gs_m st)))) by (rewrite (mi_heap _ M); apply nth_error_Some; congruence).
    unfold frozen, waiting, allocated, g_pass. rewrite m_step_fst. cbn [fst gs_m gs_lost m_proto m_store].
    set (p := m_proto (gs_m st)) in *. set (s := m_store (gs_m st)) in *.
    assert (Sn : forall u txs b, u <> t -> has_ctx (Proto txs (p_ctxs p ++ [CtxRec u Live]) b) t Live = false).
    { intros u txs b D. unfold has_ctx in *. cbn [p_ctxs]. rewrite existsb_app, NL. cbn. now rewrite (proj2 (Nat.eqb_neq u t) D). }
    assert (Gr : forall c u l, nth_error (p_ctxs p) c = Some (CtxRec u Live) -> buf_ops (alter (fun ops => ops ++ l) (ctx_buf (ctx_value s c)) (s_heap s)) t = buf_ops (s_heap s) t).
    { intros c u l Nc. assert (Mf : made_from p c u) by (now exists Live). rewrite (ctx_buf_value _ c u M Mf : ctx_buf (ctx_value s c) = u).
      unfold buf_ops. apply nth_alter_ne. apply not_eq_sym, (Ne c u Nc). }
    assert (Cl : forall u, u <> t -> nth_error (alter (fun r => TxRec (tx_parent r) false false) u (p_txs p)) t = Some r).
    { intros u D. rewrite nth_error_alter, (proj2 (Nat.eqb_neq u t) D). exact N. }
    destruct (p_step_pstep p e) as [e E|e E|E|c u E Nc|u c g E Nu|u E Nu|u E Nu G|e E G Wt|c u n E Nc|c u i E Nc|c u i E Nc|c u i E Nc
      |c u E Nc B|c u E Nc B|u commit par g E Nu K C|u c g E Nu K C|u E Nu K C|i E G|c E G];
      cbn [m_exec fst s_heap p_txs hang close_tx]; try (split; [split; [exact NL|exists r; split; [exact N|exact Lo]]|reflexivity]).
    - rewrite nth_error_app1 by (apply nth_error_Some; congruence). rewrite N. split; [split; [exact NL|eauto]|]. unfold buf_ops. now rewrite app_nth1.
    - rewrite nth_error_app1 by (apply nth_error_Some; congruence). rewrite N. split; [split; [exact NL|eauto]|]. unfold buf_ops. now rewrite app_nth1.
    - assert (D : u <> t) by (apply not_eq_sym; eapply Op; eauto). rewrite N, has_snoc_live. split; [split; [now apply Sn|eauto]|reflexivity].
    - assert (D : u <> t) by (apply not_eq_sym; eapply Op; eauto). rewrite N, has_snoc_live. split; [split; [now apply Sn|eauto]|reflexivity].
    - assert (D : u <> t) by (apply not_eq_sym; eapply Op; eauto). rewrite nth_error_alter, (proj2 (Nat.eqb_neq u t) D), N, has_snoc_live.
      split; [split; [now apply Sn|eauto]|reflexivity].
    - unfold ctx_save, buf_push. rewrite (Gr c u) by exact Nc. split; [split; [exact NL|eauto]|reflexivity].
    - unfold ctx_delete, buf_push. rewrite (Gr c u) by exact Nc. split; [split; [exact NL|eauto]|reflexivity].
    - change (p_txs (set_status Dropped c p)) with (p_txs p). rewrite !(has_set_same _ _ c u) by eauto. split; [split; [exact NL|eauto]|reflexivity].
    - change (p_txs (set_status Leaked c p)) with (p_txs p). rewrite !(has_set_same _ _ c u) by eauto. split; [split; [exact NL|eauto]|reflexivity].
    - assert (D : u <> t) by (apply not_eq_sym; eapply Op; eauto). rewrite Cl by exact D. rewrite N. split; [split; [exact NL|eauto]|reflexivity].
    - assert (D : u <> t) by (apply not_eq_sym; eapply Op; eauto). rewrite Cl by exact D. rewrite N.
      destruct (pi_tx _ PI u _ c Nu eq_refl) as ([v s'] & Nc & Lt & Lv). cbn in Lv. rewrite (Lv eq_refl) in Nc.
      unfold fg_extend. rewrite (Gr c v) by exact Nc. split; [split; [exact NL|eauto]|reflexivity].
    - assert (D : u <> t) by (apply not_eq_sym; eapply Op; eauto). rewrite Cl by exact D. rewrite N. split; [split; [exact NL|eauto]|reflexivity].
  Qed.

  Lemma frozen_step (st : gstate) (e : gevent) t : ginv st -> frozen st t ->
    frozen (fst (g_step st e)) t /\ waiting (fst (g_step st e)) t = waiting st t.
  Proof.
    intros I F. assert (S : frozen st t /\ waiting st t = waiting st t) by auto.
    unfold g_step. destruct (gs_hung st) eqn:Hg; [exact S|]. destruct e as [e|u|u k|w|g i|g|g c|g|g].
    - destruct (of_lost st e) eqn:O; [exact S|]. destruct (asks st e) as [w|]; [|now apply frozen_pass]. destruct (locked w st); [exact S|now apply frozen_pass].
    - destruct (lost u st); [exact S|]. destruct (nth_error _ u) as [[[c|] [] []]|]; try exact S. destruct (has_ctx _ u Live); [exact S|].
      split; [|reflexivity]. destruct F as [NL (r & N & Lo)]. split; [exact NL|]. exists r. split; [exact N|]. intros Op. right. auto.
    - destruct (crash_cases st u k) as [[E|E]|[C E]]; unfold g_step in E; rewrite Hg in E; rewrite E; try exact S. unfold crashed. cbn [fst].
      destruct F as [NL (r & N & Lo)]. assert (D : u <> t).
      { intros ->. pose proof (cr_rec _ _ _ C) as R. rewrite N in R. injection R as ->. specialize (Lo eq_refl). apply lost_true in Lo. rewrite (cr_lost _ _ _ C) in Lo. discriminate. }
      unfold frozen, waiting, allocated. cbn [gs_m gs_lost m_proto m_store close_tx p_txs s_heap]. rewrite nth_error_alter, (proj2 (Nat.eqb_neq u t) D), N.
      split; [split; [exact NL|eauto]|reflexivity].
    - destruct (locked w st); exact S.
    - destruct (usable g st); exact S.
    - destruct (usable g st); exact S.
    - destruct (usable g st) as [[]|]; try exact S. destruct (Graph.g_step _ c). exact S.
    - destruct (usable g st); exact S.
    - destruct (usable g st); exact S.
  Qed.

  Lemma frozen_after g0 es es' t : g_wf g0 -> frozen (g_after g0 es) t ->
    frozen (g_after g0 (es ++ es')) t /\ waiting (g_after g0 (es ++ es')) t = waiting (g_after g0 es) t.
  Proof.
    intros W F. induction es' as [|e es' [IH1 IH2]] using rev_ind; [rewrite app_nil_r; auto|]. rewrite app_assoc, g_after_snoc.
    destruct (frozen_step _ e t (ginv_after g0 (es ++ es') W) IH1) as [F' W']. split; [exact F'|congruence].
  Qed.

  Lemma forget_frozen g0 es t : g_wf g0 -> g_says g0 es (GForget t) = GX XUnit -> frozen (g_after g0 (es ++ [GForget t])) t.
  Proof.
    intros W S. rewrite g_after_snoc. unfold g_says in S. unfold g_step in *. destruct (gs_hung (g_after g0 es)); [discriminate|].
    destruct (lost t (g_after g0 es)); [discriminate|]. destruct (nth_error _ t) as [[[c|] [] []]|] eqn:N; try discriminate.
    destruct (has_ctx _ t Live) eqn:L; [discriminate|]. split; [exact L|]. exists (TxRec None true true). split; [exact N|]. intros _. now left.
  Qed.

  Lemma ended_frozen g0 es t : g_wf g0 -> ended g0 es t -> frozen (g_after g0 es) t.
  Proof.
    intros W E. apply (th_end _ _ (txhist_after g0 es W)) in E as (par & b & N). unfold txs_of in N. split; [|exists (TxRec par b false); split; [exact N|discriminate]].
    destruct (has_ctx _ t Live) eqn:L; [|reflexivity]. exfalso. apply has_ctx_spec in L as [c L].
    destruct (pi_ctx _ (mi_p _ (gi_m _ (ginv_after g0 es W))) c _ L) as (x & X & O). cbn in X, O. rewrite N in X. injection X as <-. destruct (O eq_refl). discriminate.
  Qed.

  (** ** Leaked contexts *)

  Lemma ctx_kept (st : gstate) (e : gevent) c t s : nth_error (p_ctxs (m_proto (gs_m st))) c = Some (CtxRec t s) ->
    exists s', nth_error (p_ctxs (m_proto (gs_m (fst (g_step st e))))) c = Some (CtxRec t s') /\ (s <> Live -> s' = s).
  Proof.
    intros N. assert (S : exists s', nth_error (p_ctxs (m_proto (gs_m st))) c = Some (CtxRec t s') /\ (s <> Live -> s' = s)) by eauto.
    unfold g_step. destruct (gs_hung st) eqn:Hg; [exact S|]. destruct e as [e|u|u k|w|g i|g|g d|g|g].
    - assert (P : exists s', nth_error (p_ctxs (m_proto (gs_m (fst (g_pass st e))))) c = Some (CtxRec t s') /\ (s <> Live -> s' = s)).
      { unfold g_pass. rewrite m_step_fst. cbn [fst gs_m m_proto].
        destruct (p_step_pstep (m_proto (gs_m st)) e) as [| | | | | | | | | | | |d u E Nd B|d u E Nd B| | | | |]; cbn [p_ctxs hang close_tx set_status]; try exact S.
        - exists s. split; [|auto]. rewrite nth_error_app1; [exact N|]. apply nth_error_Some. congruence.
        - exists s. split; [|auto]. rewrite nth_error_app1; [exact N|]. apply nth_error_Some. congruence.
        - exists s. split; [|auto]. rewrite nth_error_app1; [exact N|]. apply nth_error_Some. congruence.
        - rewrite nth_error_alter. destruct (Nat.eqb_spec d c) as [->|]; [|exact S]. rewrite N in *. injection Nd as -> ->. cbn. eexists. split; [reflexivity|]. congruence.
        - rewrite nth_error_alter. destruct (Nat.eqb_spec d c) as [->|]; [|exact S]. rewrite N in *. injection Nd as -> ->. cbn. eexists. split; [reflexivity|]. congruence. }
      destruct (of_lost st e); [exact S|]. destruct (asks st e) as [w|]; [|exact P]. destruct (locked w st); [exact S|exact P].
    - destruct (lost u st); [exact S|]. destruct (nth_error (p_txs _) u) as [[[d|] [] []]|]; try exact S. destruct (has_ctx _ u Live); exact S.
    - destruct (crash_cases st u k) as [[E|E]|[C E]]; unfold g_step in E; rewrite Hg in E; rewrite E; exact S.
    - destruct (locked w st); exact S.
    - destruct (usable g st); exact S.
    - destruct (usable g st); exact S.
    - destruct (usable g st) as [[]|]; try exact S. destruct (Graph.g_step _ d). exact S.
    - destruct (usable g st); exact S.
    - destruct (usable g st); exact S.
  Qed.

  Lemma ctx_kept_run g0 es es' c t s : nth_error (p_ctxs (m_proto (gs_m (g_after g0 es)))) c = Some (CtxRec t s) ->
    exists s', nth_error (p_ctxs (m_proto (gs_m (g_after g0 (es ++ es'))))) c = Some (CtxRec t s') /\ (s <> Live -> s' = s).
  Proof.
    intros N. induction es' as [|e es' (s1 & N1 & K1)] using rev_ind; [rewrite app_nil_r; eauto|]. rewrite app_assoc, g_after_snoc.
    destruct (ctx_kept _ e c t s1 N1) as (s2 & N2 & K2). exists s2. split; [exact N2|]. intros L. specialize (K1 L). subst s1. auto.
  Qed.

  Lemma context_made g0 es t c : g_wf g0 -> (exists e2, happened g0 es (GEvent (EContext t)) (GX (XHandle c)) e2) ->
    exists s, nth_error (p_ctxs (m_proto (gs_m (g_after g0 es)))) c = Some (CtxRec t s).
  Proof.
    intros W (e2 & e1 & -> & S). replace (e1 ++ GEvent (EContext t) :: e2) with ((e1 ++ [GEvent (EContext t)]) ++ e2) by now rewrite <- app_assoc.
    assert (K : exists s, nth_error (p_ctxs (m_proto (gs_m (g_after g0 (e1 ++ [GEvent (EContext t)]))))) c = Some (CtxRec t s)).
    { rewrite g_after_snoc. unfold g_says in S. pose proof (ginv_after g0 e1 W) as I. set (st := g_after g0 e1) in *. exists Live.
      assert (P : snd (g_pass st (EContext t)) = GX (XHandle c) -> nth_error (p_ctxs (m_proto (gs_m (fst (g_pass st (EContext t)))))) c = Some (CtxRec t Live)).
      { unfold g_pass. rewrite m_step_fst. cbn [fst snd gs_m m_proto]. pose proof (mi_ctxs _ (gi_m _ I)) as L.
        remember (EContext t) as e eqn:Ee. destruct (p_step_pstep (m_proto (gs_m st)) e); try discriminate Ee; cbn [m_exec fst snd p_ctxs]; try discriminate;
          injection Ee as ->; intros [= <-]; rewrite L, nth_error_app2, Nat.sub_diag by lia; reflexivity. }
      unfold g_step in *. destruct (gs_hung st); [discriminate|]. destruct (of_lost st (EContext t)); [discriminate|].
      destruct (asks st (EContext t)) as [w|]; [|now apply P]. destruct (locked w st); [discriminate|now apply P]. }
    destruct K as [s K]. destruct (ctx_kept_run _ _ e2 _ _ _ K) as (s' & K' & _). eauto.
  Qed.

  Lemma context_leaked g0 es c : g_wf g0 -> (exists e2, happened g0 es (GEvent (ELeakCtx c)) (GX XUnit) e2) ->
    exists t, nth_error (p_ctxs (m_proto (gs_m (g_after g0 es)))) c = Some (CtxRec t Leaked).
  Proof.
    intros W (e2 & e1 & -> & S). replace (e1 ++ GEvent (ELeakCtx c) :: e2) with ((e1 ++ [GEvent (ELeakCtx c)]) ++ e2) by now rewrite <- app_assoc.
    assert (K : exists t, nth_error (p_ctxs (m_proto (gs_m (g_after g0 (e1 ++ [GEvent (ELeakCtx c)]))))) c = Some (CtxRec t Leaked)).
    { rewrite g_after_snoc. unfold g_says in S. set (st := g_after g0 e1) in *. unfold g_step in *. destruct (gs_hung st); [discriminate|].
      cbn [of_lost asks] in *. unfold g_pass in *. rewrite m_step_fst in *. cbn [fst snd gs_m m_proto] in *.
      remember (ELeakCtx c) as e eqn:Ee. destruct (p_step_pstep (m_proto (gs_m st)) e) as [| | | | | | | | | | | | |d u E Nd B| | | | |]; try discriminate Ee; try discriminate S.
      injection Ee as ->. exists u. cbn [fst set_status p_ctxs]. rewrite nth_error_alter, Nat.eqb_refl, Nd. reflexivity. }
    destruct K as [t K]. destruct (ctx_kept_run _ _ e2 _ _ _ K) as (s' & K' & E). rewrite E in K' by discriminate. eauto.
  Qed.

  Lemma end_of_leaked g0 es t c commit : g_wf g0 ->
    (exists e2, happened g0 es (GEvent (EContext t)) (GX (XHandle c)) e2) -> (exists e2, happened g0 es (GEvent (ELeakCtx c)) (GX XUnit) e2) ->
    g_says g0 es (GEvent (EEnd t commit)) = GX XUnit ->
    drops (g_after g0 es) (GEvent (EEnd t commit)) = [] /\
    waiting (g_after g0 (es ++ [GEvent (EEnd t commit)])) t = waiting (g_after g0 es) t /\
    frozen (g_after g0 (es ++ [GEvent (EEnd t commit)])) t.
  Proof.
    intros W M L S. destruct (context_made g0 es t c W M) as [s Nc]. destruct (context_leaked g0 es c W L) as [t' Nl]. rewrite Nc in Nl. injection Nl as <- ->.
    assert (Fz : frozen (g_after g0 (es ++ [GEvent (EEnd t commit)])) t).
    { apply ended_frozen; [exact W|]. apply end_snoc. right. left. eauto. }
    split; [|split; [|exact Fz]].
    - unfold drops. destruct (gs_hung _); [reflexivity|]. destruct (lost t _); [reflexivity|]. destruct (nth_error _ t) as [[par g []]|]; try reflexivity.
      replace (has_ctx _ t Leaked) with true; [now rewrite orb_true_r|]. symmetry. apply has_ctx_spec. eauto.
    - rewrite g_after_snoc. set (st := g_after g0 es) in *. unfold g_says in S. fold st in S. unfold g_step in *. destruct (gs_hung st); [discriminate|].
      destruct (of_lost st (EEnd t commit)); [discriminate|]. cbn [asks] in *. unfold g_pass in *. rewrite m_step_fst in *. cbn [fst snd] in *.
      assert (Lk : has_ctx (m_proto (gs_m st)) t Leaked = true) by (apply has_ctx_spec; eauto).
      assert (Lk' : forall q, p_ctxs q = p_ctxs (m_proto (gs_m st)) -> has_ctx q t Leaked = true) by (intros q Q; unfold has_ctx in *; now rewrite Q).
      remember (EEnd t commit) as e eqn:Ee. unfold waiting, allocated. cbn [gs_m m_proto m_store].
      destruct (p_step_pstep (m_proto (gs_m st)) e) as [| | | | | | | | | | | | | |u b par g E Nu K C|u d g E Nu K C|u E Nu K C| |]; try discriminate Ee; try discriminate S.
      + injection Ee as -> ->. cbn [m_exec fst s_heap close_tx p_txs]. rewrite nth_error_alter, Nat.eqb_refl, Nu. cbn [option_map tx_open orb].
        rewrite Lk' by reflexivity. reflexivity.
      + injection Ee as -> _. congruence.
      + injection Ee as -> _. congruence.
  Qed.

  (** ** Which nodes, in which order *)

  Lemma saves_entries (ops : list (op Id Node)) : saves ops = entry_nodes (map op_entry ops).
  Proof. induction ops as [|[n|i] ops IH]; [reflexivity|cbn; now f_equal|exact IH]. Qed.

  Lemma replaced_ext l : forall b b' : Id -> option Node, (forall i, b i = b' i) -> replaced l b = replaced l b'.
  Proof.
    induction l as [|e l IH]; intros b b' E; [reflexivity|]. cbn. rewrite E. f_equal. apply IH. intros i. unfold base_set. now rewrite E.
  Qed.

  Lemma taken_replaced ops : forall g : graph, g_wf g -> taken (snd (apply_told g ops)) = replaced (map op_entry ops) (g_get g).
  Proof.
    induction ops as [|o ops IH]; intros g W; [reflexivity|]. cbn [apply_told map replaced].
    destruct (Graph.g_step g (op_call o)) as [g1 r] eqn:S. specialize (IH g1). destruct (apply_told g1 ops) as [g2 l]. cbn [snd] in *.
    assert (E : g1 = apply_op g o /\ r = g_get g (fst (op_entry o))) by (destruct o; cbn in S |- *; injection S as <- <-; auto). destruct E as [-> ->].
    change (taken ((op_call o, g_get g (fst (op_entry o))) :: l)) with (olist (g_get g (fst (op_entry o))) ++ taken l).
    unfold olist. f_equal. rewrite IH by now apply apply_op_wf. apply replaced_ext. intros i. rewrite g_get_apply_op by assumption. unfold base_set. destruct o; reflexivity.
  Qed.

  Lemma open_rec g0 es t : g_wf g0 -> begun g0 es t -> ~ ended g0 es t -> exists par g, nth_error (p_txs (m_proto (gs_m (g_after g0 es)))) t = Some (TxRec par g true) /\ (background g0 es t <-> par = None).
  Proof.
    intros W B E. pose proof (txhist_after g0 es W) as TH. assert (L : exists r, nth_error (p_txs (m_proto (gs_m (g_after g0 es)))) t = Some r).
    { destruct B as [B|(c & e2 & e1 & -> & S)].
      - apply (th_bg _ _ TH) in B as (b & o & N). eauto.
      - replace (e1 ++ GEvent (EForeground c) :: e2) with ((e1 ++ [GEvent (EForeground c)]) ++ e2) by now rewrite <- app_assoc. clear TH E.
        assert (K : exists r, nth_error (p_txs (m_proto (gs_m (g_after g0 (e1 ++ [GEvent (EForeground c)]))))) t = Some r).
        { rewrite g_after_snoc. unfold g_says in S. pose proof (ginv_after g0 e1 W) as I. unfold g_step in *. destruct (gs_hung (g_after g0 e1)); [discriminate|].
          cbn [of_lost asks] in *. unfold g_pass, m_step, p_step in *. rewrite (gi_hung _ I) in *. destruct (ctx_live _ c); [|discriminate].
          cbn [m_exec fst snd gs_m m_proto p_txs] in *. injection S as <-. rewrite (mi_heap _ (gi_m _ I)), nth_error_app2, Nat.sub_diag by lia. eexists. reflexivity. }
        clear S. induction e2 as [|x e2 IH] using rev_ind; [rewrite app_nil_r; exact K|]. rewrite app_assoc, g_after_snoc. destruct IH as [r N].
        pose proof (step_txs (g_after g0 ((e1 ++ [GEvent (EForeground c)]) ++ e2)) x (ginv_after g0 _ W)) as T.
        assert (Lt : t < length (p_txs (m_proto (gs_m (g_after g0 ((e1 ++ [GEvent (EForeground c)]) ++ e2)))))) by (apply nth_error_Some; congruence).
        destruct T; rewrite ?nth_error_alter, ?(nth_error_app1 _ _ Lt), ?N; try (destruct (Nat.eqb _ _)); cbn; eauto. }
    destruct L as [[par g []] N].
    - exists par, g. split; [exact N|]. rewrite (th_bg _ _ TH). unfold txs_of. rewrite N. split; [intros (b & o & [= -> _ _]); reflexivity|intros ->; eauto].
    - destruct E. apply (th_end _ _ TH). exists par, g. exact N.
  Qed.

  Lemma end_drops g0 es t commit : g_wf g0 -> returns g0 es -> begun g0 es t -> ~ ended g0 es t -> ~ forgotten g0 es t -> contexts_gone g0 es t ->
    drops (g_after g0 es) (GEvent (EEnd t commit)) =
      match nth_error (p_txs (m_proto (gs_m (g_after g0 es)))) t with
      | Some (TxRec parent guard _) =>
          match commit, parent, guard with
          | true, Some _, _ => []
          | true, None, true => map (fun n => (n, locked false (g_after g0 es))) (replaced (gathered g0 es t) (node_at g0 es))
          | _, _, _ => map (fun n => (n, locked false (GState (Machine (close_tx t (m_proto (gs_m (g_after g0 es)))) (m_store (gs_m (g_after g0 es))))
              (gs_guards (g_after g0 es)) (gs_lost (g_after g0 es)) (gs_hung (g_after g0 es))))) (entry_nodes (gathered g0 es t))
          end
      | None => []
      end.
  Proof.
    intros W R B E F C. destruct (open_rec g0 es t W B E) as (par & g & N & _). apply hung_returns in R; [|exact W].
    apply (CrashFacts.contexts_gone_spec g0 es t W) in C as [C1 C2].
    assert (Lo : lost t (g_after g0 es) = false).
    { destruct (lost t (g_after g0 es)) eqn:L; [|reflexivity]. apply CrashFacts.lost_forgotten in L. contradiction. }
    rewrite (CrashFacts.gathered_ops g0 es t W), <- saves_entries. unfold node_at. rewrite <- taken_replaced by apply (mi_wf _ (gi_m _ (ginv_after g0 es W))).
    unfold drops. rewrite R, Lo, N, C1, C2. cbn [orb]. reflexivity.
  Qed.

  (** What a transaction that has not ended has gathered waits in its buffer. *)
  Lemma waiting_gathered g0 es t : g_wf g0 -> begun g0 es t -> ~ ended g0 es t -> waiting (g_after g0 es) t = entry_nodes (gathered g0 es t).
  Proof.
    intros W B E. destruct (open_rec g0 es t W B E) as (par & g & N & _). unfold waiting, allocated. rewrite N. cbn [tx_open orb].
    now rewrite (CrashFacts.gathered_ops g0 es t W), <- saves_entries.
  Qed.

  Lemma rollback_drops g0 es t : g_wf g0 -> returns g0 es -> begun g0 es t -> ~ ended g0 es t -> ~ forgotten g0 es t -> contexts_gone g0 es t ->
    map fst (drops (g_after g0 es) (GEvent (EEnd t false))) = entry_nodes (gathered g0 es t).
  Proof.
    intros W R B E F C. rewrite (end_drops g0 es t false) by assumption. destruct (open_rec g0 es t W B E) as (par & g & -> & _). apply map_fst_pair.
  Qed.

  Lemma commit_drops g0 es t : g_wf g0 -> returns g0 es -> active g0 es t -> ~ forgotten g0 es t -> contexts_gone g0 es t ->
    map fst (drops (g_after g0 es) (GEvent (EEnd t true))) = replaced (gathered g0 es t) (node_at g0 es).
  Proof.
    intros W R A F C. rewrite (end_drops g0 es t true); auto; [|left; apply A|apply A]. apply active_spec in A; [|exact W]. unfold txs_of in A. rewrite A. apply map_fst_pair.
  Qed.

  Lemma merge_drops g0 es t : g_wf g0 -> begun g0 es t -> ~ background g0 es t -> drops (g_after g0 es) (GEvent (EEnd t true)) = [].
  Proof.
    intros W B NB. unfold drops. destruct (gs_hung _); [reflexivity|]. destruct (lost t _); [reflexivity|].
    destruct (nth_error _ t) as [[[c|] g []]|] eqn:N; try reflexivity.
    - destruct (_ || _); reflexivity.
    - destruct NB. apply (th_bg _ _ (txhist_after g0 es W)). exists g, true. exact N.
  Qed.

  Lemma crash_drops g0 es t k l : g_wf g0 -> g_says g0 es (GCrash t k) = GCrashed l ->
    map fst (drops (g_after g0 es) (GCrash t k)) =
      replaced (firstn k (gathered g0 es t)) (node_at g0 es) ++ entry_nodes (skipn k (gathered g0 es t)).
  Proof.
    intros W S. unfold g_says in S. unfold drops. destruct (gs_hung (g_after g0 es)) eqn:Hg; [unfold g_step in S; rewrite Hg in S; discriminate|].
    rewrite S, map_fst_pair. destruct (crash_cases (g_after g0 es) t k) as [[E|E]|[C E]]; rewrite E in S; try discriminate S. unfold crashed in S. cbn [snd] in S.
    injection S as <-. rewrite (CrashFacts.gathered_ops g0 es t W), firstn_map, skipn_map, <- saves_entries. unfold node_at.
    rewrite taken_replaced by apply (mi_wf _ (gi_m _ (ginv_after g0 es W))). reflexivity.
  Qed.
End Facts.
