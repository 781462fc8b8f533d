(** Facts about schemas of lazy documents. *)
From Coq Require Import List Bool Arith Lia Permutation.
From Verif Require Import Ord OrdFacts BTree BTreeFacts Graph GraphFacts SpecGraph Tx TxMachine SpecTx TxFacts TxMachineFacts TxInv
  TxHist Guards SpecGuards GuardsFacts SpecCrash Drops SpecDrops DropsFacts Lazy LazySchema SpecLazySchema.
From Verif Require CrashFacts.
Import ListNotations.

Lemma NoDup_app_iff {A} (l1 l2 : list A) : NoDup (l1 ++ l2) <-> NoDup l1 /\ NoDup l2 /\ (forall x, In x l1 -> ~ In x l2).
Proof.
  induction l1 as [|a l1 IH]; cbn.
  - split; [intros N; repeat split; [constructor|exact N|tauto]|tauto].
  - rewrite !NoDup_cons_iff, in_app_iff, IH. split.
    + intros (N & N1 & N2 & D). repeat split; auto. intros x [<-|K]; auto.
    + intros ((N & N1) & N2 & D). repeat split; auto. intros [K|K]; [contradiction|]. apply (D a); auto.
Qed.

Section Facts.
  Context {Id Doc : Type} `{HO : OrdT Id} `{HI : Identify Doc Id}.
  Notation znode := (znode Id).
  Notation graph := (graph Id znode).
  Notation gstate := (gstate Id znode).
  Notation gevent := (gevent Id znode).
  Notation gout := (gout Id znode).
  Notation zevent := (zevent Id Doc).
  Notation zout := (zout Id Doc).
  Notation zstate := (zstate Id Doc).
  Notation graph_of st := (s_graph (m_store (gs_m st))).

  Definition inside (st : gstate) : list znode := all_waiting st ++ g_iter (graph_of st).

  (** ** What a read finds is in the schema *)

  Lemma find_op_saves (ops : list (op Id znode)) i n : find_op ops i = Some (OSave n) -> In n (saves ops).
  Proof.
    unfold find_op. intros F. apply find_some in F as [F _]. apply in_rev in F. unfold saves. apply in_flat_map. exists (OSave n). split; [exact F|now left].
  Qed.

  Lemma get_iter (g : graph) i n : g_wf g -> g_get g i = Some n -> In n (g_iter g) /\ zn_id n = i.
  Proof.
    intros [S F] E. unfold g_get, g_iter, bt_values in *. apply bt_get_in in E; [|exact S]. split; [apply in_map_iff; now exists (i, n)|].
    rewrite Forall_forall in F. exact (eq_sym (F _ E)).
  Qed.

  (** In the buffer of a transaction that has not ended. *)
  Definition kept_in (m : @machine Id znode) (t : nat) (n : znode) : Prop :=
    exists x, nth_error (p_txs (m_proto m)) t = Some x /\ tx_open x = true /\ In n (saves (buf_ops (s_heap (m_store m)) t)).

  Lemma kept_in_waiting (st : gstate) t n : kept_in (gs_m st) t n -> In n (waiting st t).
  Proof. intros (x & N & O & K). unfold waiting, allocated. rewrite N, O. exact K. Qed.

  Lemma waiting_inside (st : gstate) t n : In n (waiting st t) -> In n (all_waiting st).
  Proof.
    intros K. unfold all_waiting. apply in_flat_map. exists t. split; [|exact K]. apply in_seq. unfold waiting, allocated in K.
    destruct (nth_error _ t) eqn:N; [|destruct K]. assert (t < length (p_txs (m_proto (gs_m st)))) by (apply nth_error_Some; congruence). lia.
  Qed.

  Lemma chain_found (m : @machine Id znode) i n : minv m -> forall t c, nth_error (p_ctxs (m_proto m)) c = Some (CtxRec t Live) ->
    ctx_get (s_heap (m_store m)) (s_graph (m_store m)) (ctx_value (m_store m) c) i = Some n ->
    ((exists t', kept_in m t' n) \/ In n (g_iter (s_graph (m_store m)))) /\ zn_id n = i.
  Proof.
    intros M t. induction t as [t IH] using lt_wf_ind. intros c N E. destruct (pi_ctx _ (mi_p _ M) c _ N) as (x & X & Lv). cbn in X, Lv.
    destruct (Lv eq_refl) as [O _]. assert (Mf : made_from (m_proto m) c t) by now exists Live.
    rewrite ctx_get_unfold, (ctx_buf_value _ c t M Mf) in E. unfold ops_overlay in E.
    destruct (find_op (buf_ops (s_heap (m_store m)) t) i) as [[n'|]|] eqn:F; [|discriminate|].
    - injection E as ->. split; [left; exists t, x; split; [exact X|]; split; [exact O|eapply find_op_saves; eassumption]|].
      unfold find_op in F. apply find_some in F as [_ F]. now apply eqb_eq in F.
    - destruct (mi_val _ M c t Mf) as [[_ S]|(q & (g & o & Q) & S)]; rewrite S in E.
      + apply get_iter in E; [|apply (mi_wf _ M)]. destruct E. auto.
      + rewrite X in Q. injection Q as ->. destruct (pi_tx _ (mi_p _ M) t _ q X eq_refl) as ([u s] & Nq & Lt & Lq). cbn in Lt, Lq, O. rewrite (Lq O) in Nq.
        apply (IH u Lt q Nq E).
  Qed.

  Lemma read_found (st : gstate) (e : gevent) n : ginv st -> z_clones e = true -> snd (g_step st e) = GX (XNode (Some n)) ->
    (exists t, kept_in (gs_m st) t n) \/ In n (g_iter (graph_of st)).
  Proof.
    intros I C E. pose proof (gi_m _ I) as M. unfold g_step in E. destruct (gs_hung st); [discriminate|]. destruct e as [e| | | |g i| | | |]; try discriminate C.
    - destruct e as [| | | | |c i| | | | |i|]; try discriminate C.
      + cbn [of_lost asks] in E. unfold g_pass, m_step, p_step in E. rewrite (gi_hung _ I) in E. destruct (ctx_live _ c) eqn:L; [|discriminate].
        cbn in E. injection E as E. apply ctx_live_spec in L as [t L]. eapply chain_found; eassumption.
      + cbn [of_lost asks] in E. destruct (locked false st); [discriminate|]. unfold g_pass, m_step, p_step in E. rewrite (gi_hung _ I) in E.
        destruct (guard_held _); [discriminate|]. cbn in E. injection E as E. right. eapply get_iter; [apply (mi_wf _ M)|exact E].
    - destruct (usable g st); [|discriminate]. cbn in E. injection E as E. right. eapply get_iter; [apply (mi_wf _ M)|exact E].
  Qed.

  Lemma node_answers (st : gstate) (e : gevent) r : ginv st -> snd (g_step st e) = GX (XNode r) ->
    z_clones e = true \/ (exists c, e = GEvent (EWrite c) /\ r = snd (Graph.g_step (graph_of st) c)) \/ (exists g c, e = GCall g c /\ r = snd (Graph.g_step (graph_of st) c)).
  Proof.
    intros I E. destruct e as [e|t|t k|w|g i|g|g c|g|g]; auto;
      [| |destruct (crash_cases st t k) as [[C|C]|[_ C]]; rewrite C in E; discriminate E|..];
      unfold g_step in E; (destruct (gs_hung st); [discriminate|]).
    - destruct e as [|c|t|c n|c i|c i|c i|c|c|t b|i|c]; auto; cbn [of_lost asks] in E.
      + unfold g_pass, m_step, p_step in E. rewrite (gi_hung _ I) in E. discriminate.
      + unfold g_pass, m_step, p_step in E. rewrite (gi_hung _ I) in E. destruct (ctx_live _ c); discriminate.
      + destruct (lost t st); [discriminate|]. unfold g_pass, m_step, p_step in E. rewrite (gi_hung _ I) in E.
        destruct (nth_error _ t) as [[[c|] [] []]|]; try discriminate E; destruct (locked _ st); try discriminate E; destruct (guard_held _); discriminate E.
      + unfold g_pass, m_step, p_step in E. rewrite (gi_hung _ I) in E. destruct (ctx_live _ c); discriminate.
      + unfold g_pass, m_step, p_step in E. rewrite (gi_hung _ I) in E. destruct (ctx_live _ c); discriminate.
      + unfold g_pass, m_step, p_step in E. rewrite (gi_hung _ I) in E. destruct (ctx_live _ c); discriminate.
      + unfold g_pass, m_step, p_step in E. rewrite (gi_hung _ I) in E. destruct (ctx_live _ c && _)%bool; discriminate.
      + unfold g_pass, m_step, p_step in E. rewrite (gi_hung _ I) in E. destruct (ctx_live _ c && _)%bool; discriminate.
      + destruct (lost t st); [discriminate|]. unfold g_pass, m_step, p_step in E. rewrite (gi_hung _ I) in E.
        destruct (nth_error _ t) as [[[c|] [] []]|]; try discriminate E; destruct (has_ctx _ t Live); try discriminate E; destruct b; try discriminate E;
          cbn [negb] in E; destruct (has_ctx _ t Leaked); discriminate E.
      + right. left. exists c. split; [reflexivity|]. destruct (locked true st); [discriminate|]. unfold g_pass, m_step, p_step in E. rewrite (gi_hung _ I) in E.
        destruct (guard_held _); [discriminate|]. cbn in E. congruence.
    - destruct (lost t st); [discriminate|]. destruct (nth_error _ t) as [[[c|] [] []]|]; try discriminate E. destruct (has_ctx _ t Live); discriminate E.
    - destruct (locked w st); discriminate E.
    - destruct (usable g st); discriminate E.
    - right. right. exists g, c. split; [reflexivity|]. destruct (usable g st) as [[]|]; try discriminate E. destruct (Graph.g_step _ c). cbn in *. congruence.
    - destruct (usable g st); discriminate E.
    - destruct (usable g st); discriminate E.
  Qed.

  (** ** What an event does *)

  Record zinv (st : zstate) : Prop := ZInv {
    zi_g : ginv (z_g st);
    zi_one : NoDup (z_mine st ++ map zn_doc (inside (z_g st)));
    zi_mine : forall d, In d (z_mine st) -> d < length (z_docs st);
    zi_ids : forall n, In n (inside (z_g st)) -> exists x, nth_error (z_docs st) (zn_doc n) = Some x /\ ld_id x = zn_id n
  }.

  Lemma owns_spec (st : zstate) d : z_owns st d = true <-> In d (z_mine st).
  Proof. unfold z_owns. rewrite existsb_exists. split; [intros (x & K & E); apply Nat.eqb_eq in E; now subst|intros K; exists d; split; [exact K|apply Nat.eqb_refl]]. Qed.

  Lemma without_in d ds x : In x (z_without d ds) <-> In x ds /\ x <> d.
  Proof. unfold z_without. rewrite filter_In. destruct (Nat.eqb d x) eqn:E; cbn; [apply Nat.eqb_eq in E|apply Nat.eqb_neq in E]; intuition congruence. Qed.

  Lemma without_perm d ds : NoDup ds -> In d ds -> Permutation ds (z_without d ds ++ [d]).
  Proof.
    intros N K. apply NoDup_Permutation; [exact N| |].
    - apply NoDup_app_iff. split; [now apply NoDup_filter|]. split; [repeat constructor; intros []|]. intros x K1 [<-|[]]. apply without_in in K1. tauto.
    - intros x. rewrite in_app_iff, without_in. cbn. destruct (Nat.eq_dec x d); subst; intuition congruence.
  Qed.

  (** The calls of the schema, as they appear from outside. *)
  Inductive zcall (st : zstate) (e : gevent) : gout -> zout -> zstate -> Prop :=
  | zca_none g' : g_step (z_g st) e = (g', GX (XNode None)) ->
      zcall st e (GX (XNode None)) (ZDoc None) (ZState g' (z_docs st) (z_kept e (GX (XNode None)) (z_mine st)))
  | zca_copy g' n x : z_clones e = true -> g_step (z_g st) e = (g', GX (XNode (Some n))) -> nth_error (z_docs st) (zn_doc n) = Some x -> In n (inside (z_g st)) ->
      zcall st e (GX (XNode (Some n))) (ZDoc (Some (length (z_docs st)))) (ZState g' (z_docs st ++ [ld_clone x]) (z_mine st ++ [length (z_docs st)]))
  | zca_back g' n : z_clones e = false -> g_step (z_g st) e = (g', GX (XNode (Some n))) -> In n (g_iter (graph_of (z_g st))) ->
      zcall st e (GX (XNode (Some n))) (ZDoc (Some (zn_doc n))) (ZState g' (z_docs st) (z_kept e (GX (XNode (Some n))) (z_mine st) ++ [zn_doc n]))
  | zca_all g' l : g_step (z_g st) e = (g', GNodes l) -> zcall st e (GNodes l) (ZAll (map zn_doc l)) (ZState g' (z_docs st) (z_kept e (GNodes l) (z_mine st)))
  | zca_other g' o : g_step (z_g st) e = (g', o) -> match o with GX (XNode _) | GX XInvalid | GNodes _ => False | _ => True end ->
      zcall st e o (ZOut o) (ZState g' (z_docs st) (z_kept e o (z_mine st))).

  (** Document [d] can be dereferenced by the event. *)
  Definition reaches (st : zstate) (e : zevent) (d : nat) (ans : option Doc) : Prop :=
    (e = ZRead d ans /\ In d (z_mine st)) \/
    (exists g w, e = ZRef g d ans /\ usable g (z_g st) = Some w /\ In d (map zn_doc (g_iter (graph_of (z_g st))))).

  Inductive zchange (st : zstate) : zevent -> zout -> zstate -> Prop :=
  | zc_hung e : gs_hung (z_g st) = true -> zchange st e (ZOut (GX XHang)) st
  | zc_invalid e : gs_hung (z_g st) = false ->
      match e with
      | ZBuild _ | ZNew _ => False
      | ZClone d | ZDrop d => ~ In d (z_mine st)
      | ZRead d ans | ZRef _ d ans => ~ reaches st e d ans
      | ZEvent e => z_may st e = false \/ snd (g_step (z_g st) e) = GX XInvalid
      end -> zchange st e ZInvalid st
  | zc_build i : gs_hung (z_g st) = false ->
      zchange st (ZBuild i) (ZDoc (Some (length (z_docs st)))) (ZState (z_g st) (z_docs st ++ [ld_build i]) (z_mine st ++ [length (z_docs st)]))
  | zc_new v : gs_hung (z_g st) = false ->
      zchange st (ZNew v) (ZDoc (Some (length (z_docs st)))) (ZState (z_g st) (z_docs st ++ [ld_new v]) (z_mine st ++ [length (z_docs st)]))
  | zc_clone d x : gs_hung (z_g st) = false -> In d (z_mine st) -> nth_error (z_docs st) d = Some x ->
      zchange st (ZClone d) (ZDoc (Some (length (z_docs st)))) (ZState (z_g st) (z_docs st ++ [ld_clone x]) (z_mine st ++ [length (z_docs st)]))
  | zc_drop d : gs_hung (z_g st) = false -> In d (z_mine st) -> zchange st (ZDrop d) (ZDoc None) (ZState (z_g st) (z_docs st) (z_without d (z_mine st)))
  | zc_known e d ans x v : gs_hung (z_g st) = false -> reaches st e d ans -> nth_error (z_docs st) d = Some x -> ld_cell x = Some v ->
      zchange st e (ZContent (Some v) []) st
  | zc_loaded e d x v : gs_hung (z_g st) = false -> reaches st e d (Some v) -> nth_error (z_docs st) d = Some x -> ld_cell x = None ->
      zchange st e (ZContent (Some v) [ld_id x]) (ZState (z_g st) (set_cell v d (z_docs st)) (z_mine st))
  | zc_absent e d x : gs_hung (z_g st) = false -> reaches st e d None -> nth_error (z_docs st) d = Some x -> ld_cell x = None ->
      zchange st e (ZContent None [ld_id x]) st
  | zc_call e o o' st' : gs_hung (z_g st) = false -> z_may st e = true -> zcall st e o o' st' -> zchange st (ZEvent e) o' st'.

  Lemma reached_doc (st : zstate) e d ans : zinv st -> reaches st e d ans -> exists x, nth_error (z_docs st) d = Some x.
  Proof.
    intros I [[_ K]|(g & w & _ & _ & K)].
    - apply (zi_mine _ I) in K. apply nth_error_Some in K. destruct (nth_error _ d); [eauto|congruence].
    - apply in_map_iff in K as (n & <- & K). destruct (zi_ids _ I n) as (x & X & _); [apply in_app_iff; now right|]. eauto.
  Qed.

  Lemma state_eta (st : zstate) : ZState (z_g st) (z_docs st) (z_mine st) = st.
  Proof. now destruct st. Qed.

  Lemma deref_change (st : zstate) e d ans : zinv st -> gs_hung (z_g st) = false -> reaches st e d ans ->
    zchange st e (snd (z_deref d ans (z_docs st))) (ZState (z_g st) (fst (z_deref d ans (z_docs st))) (z_mine st)).
  Proof.
    intros I Hh R. destruct (reached_doc st e d ans I R) as [x X]. unfold z_deref. rewrite X.
    destruct (ld_cell x) as [v|] eqn:C; [|destruct ans as [v|]]; cbn [fst snd]; rewrite ?state_eta; econstructor; eassumption.
  Qed.

  Lemma z_step_change (st : zstate) e : zinv st -> zchange st e (snd (z_step st e)) (fst (z_step st e)).
  Proof.
    intros I. unfold z_step. destruct (gs_hung (z_g st)) eqn:Hh; [now constructor|].
    destruct e as [i|v|d|d|d ans|g d ans|e]; cbn zeta.
    - now constructor.
    - now constructor.
    - destruct (z_owns st d) eqn:O.
      + apply owns_spec in O. destruct (nth_error (z_docs st) d) as [x|] eqn:X; [now constructor|].
        apply nth_error_None in X. pose proof (zi_mine _ I d O). lia.
      + assert (N : ~ In d (z_mine st)) by (intros K; apply owns_spec in K; congruence). destruct (nth_error (z_docs st) d); now constructor.
    - destruct (z_owns st d) eqn:O; [apply owns_spec in O; now constructor|]. apply zc_invalid; [exact Hh|]. intros K. cbn in K. apply owns_spec in K. rewrite O in K. discriminate K.
    - destruct (z_owns st d) eqn:O.
      + apply owns_spec in O. pose proof (deref_change st (ZRead d ans) d ans I Hh (or_introl (conj eq_refl O))) as D. now destruct (z_deref d ans (z_docs st)).
      + apply zc_invalid; [exact Hh|]. intros [[_ K]|(g & w & K & _)]; [|discriminate]. apply (owns_spec st d) in K. rewrite O in K. discriminate K.
    - unfold g_step. rewrite Hh. destruct (usable g (z_g st)) as [w|] eqn:U; cbn [snd].
      + destruct (existsb _ _) eqn:X.
        * assert (K : In d (map zn_doc (g_iter (graph_of (z_g st))))).
          { apply existsb_exists in X as (n & K & E). apply Nat.eqb_eq in E. subst d. now apply in_map. }
          pose proof (deref_change st (ZRef g d ans) d ans I Hh) as D. destruct (z_deref d ans (z_docs st)). apply D. right. eauto.
        * apply zc_invalid; [exact Hh|]. intros [[K _]|(g' & w' & E & _ & K)]; [discriminate|]. apply in_map_iff in K as (n & <- & K).
          apply (fun K => eq_true_false_abs _ K X). apply existsb_exists. exists n. split; [exact K|apply Nat.eqb_refl].
      + apply zc_invalid; [exact Hh|]. intros [[K _]|(g' & w' & [= <-] & U' & _)]; [discriminate|cbn in U'; congruence].
    - destruct (z_may st e) eqn:Y; cbn [negb]; [|constructor; auto].
      destruct (g_step (z_g st) e) as [g' o] eqn:S. assert (So : snd (g_step (z_g st) e) = o) by now rewrite S.
      destruct o as [[| |h|[n|]|b|]|l|l].
      + constructor; auto.
      + eapply zc_call; eauto. now apply zca_other.
      + eapply zc_call; eauto. now apply zca_other.
      + destruct (z_clones e) eqn:C.
        * assert (F : In n (inside (z_g st))).
          { apply in_app_iff. destruct (read_found _ _ _ (zi_g _ I) C So) as [[t K]|K]; [left|now right]. eapply waiting_inside, kept_in_waiting, K. }
          destruct (zi_ids _ I n F) as (x & X & _). rewrite X. eapply zc_call; eauto.
          replace (z_kept e (GX (XNode (Some n))) (z_mine st)) with (z_mine st); [eapply zca_copy; eauto|].
          unfold z_kept. destruct e as [[]| | | | | | | |]; try discriminate C; reflexivity.
        * eapply zc_call; eauto. eapply zca_back; eauto.
          destruct (node_answers _ _ _ (zi_g _ I) So) as [K|[(c & _ & K)|(g & c & _ & K)]]; [congruence| |].
          -- destruct c; cbn in K; [discriminate| |]; symmetry in K; apply get_iter in K; try (destruct K; assumption); apply (mi_wf _ (gi_m _ (zi_g _ I))).
          -- destruct c; cbn in K; [discriminate| |]; symmetry in K; apply get_iter in K; try (destruct K; assumption); apply (mi_wf _ (gi_m _ (zi_g _ I))).
      + eapply zc_call; eauto. now apply zca_none.
      + eapply zc_call; eauto. now apply zca_other.
      + eapply zc_call; eauto. now apply zca_other.
      + eapply zc_call; eauto. now apply zca_all.
      + eapply zc_call; eauto. now apply zca_other.
  Qed.

  Lemma may_spec (st : zstate) e : z_may st e = true <->
    forall n, z_given e = Some n -> In (zn_doc n) (z_mine st) /\ exists x, nth_error (z_docs st) (zn_doc n) = Some x /\ ld_id x = zn_id n.
  Proof.
    unfold z_may. destruct (z_given e) as [n|]; [|split; [intros _ n; discriminate|reflexivity]]. rewrite andb_true_iff, owns_spec. split.
    - intros [O E] m [= <-]. split; [exact O|]. destruct (nth_error _ _) as [x|]; [|discriminate]. exists x. split; [reflexivity|]. now apply eqb_eq.
    - intros K. destruct (K n eq_refl) as (O & x & X & E). split; [exact O|]. rewrite X. now apply eqb_eq.
  Qed.

  Lemma argument_given (e : gevent) : argument e = match z_given e with Some n => [n] | None => [] end.
  Proof. destruct e as [[| | | | | | | | | | |[]]| | | | | |? []| |]; reflexivity. Qed.

  Lemma kept_accepted (e : gevent) (o : gout) ds : z_kept e o ds =
    if accepted o then match z_given e with Some n => z_without (zn_doc n) ds | None => ds end else ds.
  Proof. unfold z_kept. destruct o as [[]| |]; cbn; destruct (z_given e); reflexivity. Qed.

  Lemma kept_perm (st : zstate) e o : NoDup (z_mine st) -> z_may st e = true ->
    Permutation (z_mine st) (z_kept e o (z_mine st) ++ map zn_doc (given [e] [o])).
  Proof.
    intros N Y. cbn [given]. rewrite app_nil_r, kept_accepted, argument_given. destruct (accepted o); [|cbn; now rewrite app_nil_r].
    pose proof (proj1 (may_spec st e) Y) as G. destruct (z_given e) as [n|]; [|cbn; now rewrite app_nil_r]. cbn. apply without_perm; [exact N|]. now apply G.
  Qed.

  Lemma call_moves (st : zstate) e g' o : zinv st -> z_may st e = true -> g_step (z_g st) e = (g', o) ->
    NoDup ((z_kept e o (z_mine st) ++ map zn_doc (given_back [e] [o])) ++ map zn_doc (inside g')) /\
    (forall n, In n (inside g') \/ In n (given_back [e] [o]) -> In n (inside (z_g st)) \/ (z_given e = Some n /\ accepted o = true)).
  Proof.
    intros I Y S. pose proof (conserves_step (z_g st) e (zi_g _ I)) as C. unfold conserves in C. rewrite S in C. cbn [fst snd] in C. split.
    - pose proof (zi_one _ I) as N. assert (Nm : NoDup (z_mine st)) by (apply NoDup_app_iff in N; tauto).
      assert (P : Permutation (z_mine st ++ map zn_doc (inside (z_g st)))
        (((z_kept e o (z_mine st) ++ map zn_doc (given_back [e] [o])) ++ map zn_doc (inside g')) ++ map zn_doc (map fst (drops (z_g st) e)))).
      { rewrite (kept_perm st e o Nm Y) at 1. unfold inside. apply (Permutation_map zn_doc) in C. rewrite !map_app in C. rewrite !map_app.
        transitivity (z_kept e o (z_mine st) ++ map zn_doc (all_waiting (z_g st)) ++ map zn_doc (g_iter (graph_of (z_g st))) ++ map zn_doc (given [e] [o])); [perm|].
        rewrite C. perm. }
      rewrite P in N. apply NoDup_app_iff in N. tauto.
    - intros n K. assert (K' : In n (all_waiting (z_g st) ++ g_iter (graph_of (z_g st)) ++ given [e] [o])).
      { rewrite C. unfold inside in K. rewrite !in_app_iff in *. tauto. }
      unfold inside. cbn [given] in K'. rewrite !in_app_iff, argument_given in K'. rewrite in_app_iff. destruct K' as [K'|[K'|[K'|[]]]]; auto.
      destruct (accepted o); [|destruct K']. destruct (z_given e); [|destruct K']. destruct K' as [->|[]]. auto.
  Qed.

  Lemma nodup_fresh (ds ds' : list nat) m : NoDup (ds ++ ds') -> (forall d, In d (ds ++ ds') -> d < m) -> NoDup ((ds ++ [m]) ++ ds').
  Proof.
    intros N L. rewrite <- app_assoc. cbn [app]. apply NoDup_Add with (a := m) (l := ds ++ ds'); [apply Add_app|]. split; [exact N|]. intros K. apply L in K. lia.
  Qed.

  Lemma nth_snoc {A} (l : list A) x n y : nth_error (l ++ [x]) n = Some y <-> nth_error l n = Some y \/ (n = length l /\ y = x).
  Proof.
    destruct (lt_eq_lt_dec n (length l)) as [[L|E]|L].
    - rewrite nth_error_app1 by exact L. split; [auto|]. intros [K|[K _]]; [exact K|lia].
    - subst n. rewrite nth_error_app2, Nat.sub_diag by lia. cbn. split; [intros [= <-]; auto|]. intros [K|[_ ->]]; [|reflexivity].
      assert (length l < length l) by (apply nth_error_Some; congruence). lia.
    - split; [intros K|intros [K|[K _]]]; [| |lia].
      + assert (n < length (l ++ [x])) by (apply nth_error_Some; congruence). rewrite app_length in *. cbn in *. lia.
      + assert (n < length l) by (apply nth_error_Some; congruence). lia.
  Qed.

  Lemma nth_set v d (docs : list (ldoc Id Doc)) n y : nth_error (set_cell v d docs) n = Some y <->
    exists x, nth_error docs n = Some x /\ y = if Nat.eqb d n then LDoc (ld_id x) (Some v) else x.
  Proof.
    unfold set_cell. rewrite nth_error_alter. destruct (Nat.eqb d n); [|split; [eauto|intros (x & X & ->); exact X]].
    destruct (nth_error docs n) as [x|]; cbn; split; try (intros [= <-]; eauto); try (intros (x' & [= <-] & ->); reflexivity); try discriminate.
  Qed.

  Lemma inside_lt (st : zstate) : zinv st -> forall d, In d (z_mine st ++ map zn_doc (inside (z_g st))) -> d < length (z_docs st).
  Proof.
    intros I d K. apply in_app_iff in K as [K|K]; [now apply (zi_mine _ I)|]. apply in_map_iff in K as (n & <- & K).
    destruct (zi_ids _ I n K) as (x & X & _). apply nth_error_Some. congruence.
  Qed.

  Lemma read_state (st : gstate) (e : gevent) g' n : ginv st -> z_clones e = true -> g_step st e = (g', GX (XNode (Some n))) -> g' = st.
  Proof.
    intros I C E. destruct st as [m gs lo h]. unfold g_step in E. cbn [gs_hung] in E. destruct h; [discriminate|]. pose proof (gi_hung _ I) as Hp. cbn in Hp.
    destruct e as [e| | | |g i| | | |]; try discriminate C.
    - destruct e as [| | | | |c i| | | | |i|]; try discriminate C.
      + cbn [of_lost asks] in E. unfold g_pass, m_step, p_step in E. cbn [gs_m] in E. rewrite Hp in E. destruct (ctx_live _ c); [|discriminate].
        cbn in E. injection E as <- _. now destruct m.
      + cbn [of_lost asks] in E. destruct (locked _ _); [discriminate|]. unfold g_pass, m_step, p_step in E. cbn [gs_m] in E. rewrite Hp in E.
        destruct (guard_held _); [discriminate|]. cbn in E. injection E as <- _. now destruct m.
    - destruct (usable g _); [|discriminate]. congruence.
  Qed.

  Lemma zinv_step (st : zstate) e : zinv st -> zinv (fst (z_step st e)).
  Proof.
    intros I. pose proof (inside_lt st I) as Lt.
    assert (Fr : forall x, zinv (ZState (z_g st) (z_docs st ++ [x]) (z_mine st ++ [length (z_docs st)]))).
    { intros x. constructor; cbn.
      - apply I.
      - apply nodup_fresh; [apply I|exact Lt].
      - intros d K. rewrite app_length. cbn. apply in_app_iff in K as [K|[<-|[]]]; [apply (zi_mine _ I) in K|]; lia.
      - intros n K. destruct (zi_ids _ I n K) as (y & Y & E). exists y. split; [|exact E]. apply nth_snoc. auto. }
    destruct (z_step_change st e I) as [e Hh|e Hh _|i Hh|v Hh|d x Hh M X|d Hh M|e d ans x v Hh R X C|e d x v Hh R X C|e d x Hh R X C|e o o' st' Hh Y K]; auto.
    - constructor; cbn; try apply I.
      + pose proof (zi_one _ I) as N. apply NoDup_app_iff in N as (N1 & N2 & D). apply NoDup_app_iff. split; [now apply NoDup_filter|]. split; [exact N2|].
        intros x K. apply without_in in K. now apply D.
      + intros x K. apply without_in in K. now apply (zi_mine _ I).
    - constructor; cbn; try apply I.
      + unfold set_cell. rewrite alter_length. apply I.
      + intros n K. destruct (zi_ids _ I n K) as (y & Y & E). eexists. split; [apply nth_set; eauto|]. now destruct (Nat.eqb d (zn_doc n)).
    - assert (Gi : forall g' o, g_step (z_g st) e = (g', o) -> ginv g') by (intros g' o1 S; pose proof (ginv_step (z_g st) e (zi_g _ I)) as Q; now rewrite S in Q).
      assert (Id1 : forall g' o, g_step (z_g st) e = (g', o) -> forall n, In n (inside g') -> exists x, nth_error (z_docs st) (zn_doc n) = Some x /\ ld_id x = zn_id n).
      { intros g' o1 S n K1. destruct (proj2 (call_moves st e g' o1 I Y S) n (or_introl K1)) as [K2|[K2 _]]; [now apply (zi_ids _ I)|].
        now apply (proj1 (may_spec st e) Y). }
      assert (Mk : forall o d, In d (z_kept e o (z_mine st)) -> In d (z_mine st)).
      { intros o1 d K1. rewrite kept_accepted in K1. destruct (accepted o1); [|exact K1]. destruct (z_given e); [|exact K1]. now apply without_in in K1. }
      assert (Ns : forall g' o, g_step (z_g st) e = (g', o) -> NoDup (z_kept e o (z_mine st) ++ map zn_doc (inside g'))).
      { intros g' o1 S. pose proof (proj1 (call_moves st e g' o1 I Y S)) as N. rewrite !NoDup_app_iff in *. setoid_rewrite in_app_iff in N. intuition (eauto). }
      destruct K as [g' S|g' n x Cl S X F|g' n Cl S F|g' l S|g' o S Ho].
      + constructor; cbn [z_g z_docs z_mine]; eauto. intros d K. apply Mk in K. now apply (zi_mine _ I).
      + rewrite (read_state _ _ _ _ (zi_g _ I) Cl S). apply Fr.
      + pose proof (proj1 (call_moves st e g' _ I Y S)) as N.
        assert (B : given_back [e] [GX (XNode (Some n))] = [n]).
        { destruct (node_answers (z_g st) e (Some n) (zi_g _ I)) as [Q|[(c & -> & _)|(g & c & -> & _)]]; [now rewrite S|congruence|reflexivity|reflexivity]. }
        rewrite B in N. cbn [map] in N. constructor; cbn [z_g z_docs z_mine]; eauto.
        intros d K. apply in_app_iff in K as [K|[<-|[]]]; [apply Mk in K; now apply (zi_mine _ I)|]. apply Lt. apply in_app_iff. right. apply in_map. apply in_app_iff. auto.
      + constructor; cbn [z_g z_docs z_mine]; eauto. intros d K. apply Mk in K. now apply (zi_mine _ I).
      + constructor; cbn [z_g z_docs z_mine]; eauto. intros d K. apply Mk in K. now apply (zi_mine _ I).
  Qed.

  (** ** Histories *)

  Lemma nil_wf : g_wf ([] : graph).
  Proof. split; constructor. Qed.

  Lemma z_after_snoc (es : list zevent) e : z_after (es ++ [e]) = fst (z_step (z_after es) e).
  Proof. unfold z_after, z_run. now rewrite fold_left_app. Qed.

  Lemma zinv_after (es : list zevent) : zinv (z_after es).
  Proof.
    induction es as [|e es IH] using rev_ind; [|rewrite z_after_snoc; now apply zinv_step].
    constructor; cbn; [apply (ginv_after [] []), nil_wf|constructor|intros d []|intros n []].
  Qed.

  Lemma plain_app (es es' : list zevent) : plain (es ++ es') = plain es ++ plain_from es es'.
  Proof.
    unfold plain. change es with ([] ++ es) at 3. generalize (@nil zevent). induction es as [|e es IH]; intros e1; cbn; [now rewrite app_nil_r|].
    rewrite IH, <- !app_assoc. reflexivity.
  Qed.

  Lemma plain_snoc (es : list zevent) e : plain (es ++ [e]) = plain es ++ match e, z_says es e with
    | ZEvent _, ZInvalid => [] | ZEvent x, _ => [x] | _, _ => [] end.
  Proof. rewrite plain_app. cbn. now rewrite app_nil_r. Qed.

  Lemma g_after_nil (e : list gevent) : g_after [] ([] ++ e) = g_after [] e. Proof. reflexivity. Qed.

  Lemma z_after_g (es : list zevent) : z_g (z_after es) = g_after [] (plain es).
  Proof.
    induction es as [|e es IH] using rev_ind; [reflexivity|]. rewrite z_after_snoc, plain_snoc. pose proof (z_step_change (z_after es) e (zinv_after es)) as C.
    change (snd (z_step (z_after es) e)) with (z_says es e) in C. revert C.
    generalize (fst (z_step (z_after es) e)). intros st1. destruct e; intros C; rewrite ?app_nil_r; try rewrite <- IH;
      try (inversion C; subst; reflexivity).
    revert C. generalize (z_says es (ZEvent e)). intros o1 C. inversion C as [e' Hh|e' Hh K E1 E2 E3| | | | |e' ? ? ? ? ? R|e' ? ? ? ? R|e' ? ? ? R|e' o o' st' Hh Y K]; subst.
    - rewrite g_after_snoc, <- IH. unfold g_step. now rewrite Hh.
    - now rewrite app_nil_r.
    - destruct R as [[R _]|(g & w & R & _)]; discriminate.
    - destruct R as [[R _]|(g & w & R & _)]; discriminate.
    - destruct R as [[R _]|(g & w & R & _)]; discriminate.
    - destruct K as [g' S|g' n x Cl S X F|g' n Cl S F|g' l S|g' o S Ho]; rewrite g_after_snoc, <- IH, S; reflexivity.
  Qed.

  Lemma change_after (es : list zevent) e : zchange (z_after es) e (z_says es e) (z_after (es ++ [e])).
  Proof. rewrite z_after_snoc. apply z_step_change, zinv_after. Qed.

  Lemma gives_given (e : gevent) n : gives e n <-> z_given e = Some n.
  Proof. destruct e as [[| | | | | | | | | | |[]]| | | | | |? []| |]; cbn; split; try tauto; try congruence. Qed.

  (** ** Documents that user code owns *)

  Lemma mine_snoc (es : list zevent) e d : mine (es ++ [e]) d <-> z_says es e = ZDoc (Some d) \/ (mine es d /\ ~ parts_with es e d).
  Proof.
    split.
    - intros (e1 & x & e2 & E & S & N). destruct e2 as [|y e2 _] using rev_ind.
      + apply app_inj_tail in E as [-> ->]. auto.
      + right. rewrite app_comm_cons, app_assoc in E. apply app_inj_tail in E as [-> ->]. split.
        * exists e1, x, e2. split; [reflexivity|]. split; [exact S|]. intros e3 z e4 ->. apply (N e3 z (e4 ++ [y])). now rewrite <- app_assoc.
        * apply (N e2 y []). reflexivity.
    - intros [S|[(e1 & x & e2 & -> & S & N) P]].
      + exists es, e, []. split; [reflexivity|]. split; [exact S|]. intros e3 z e4 K. now destruct e3.
      + exists e1, x, (e2 ++ [e]). split; [now rewrite <- app_assoc|]. split; [exact S|]. intros e3 z e4 K.
        destruct e4 as [|y e4 _] using rev_ind.
        * apply app_inj_tail in K as [-> ->]. exact P.
        * rewrite app_comm_cons, app_assoc in K. apply app_inj_tail in K as [-> _]. now apply (N e3 z e4).
  Qed.

  Lemma mine_spec (es : list zevent) d : mine es d <-> In d (z_mine (z_after es)).
  Proof.
    induction es as [|e es IH] using rev_ind.
    { split; [intros (e1 & e & e2 & E & _); now destruct e1|intros []]. }
    rewrite mine_snoc, IH. pose proof (change_after es e) as C.
    assert (Np : z_says es e = ZInvalid \/ z_says es e = ZOut (GX XHang) -> ~ parts_with es e d) by (intros [K|K] (_ & P1 & P2); congruence).
    unfold parts_with in *. remember (z_says es e) as o eqn:So. remember (z_after (es ++ [e])) as st' eqn:St. clear St. pose proof (zinv_after es) as I.
    destruct C as [e Hh|e Hh K|i Hh|v Hh|d0 x Hh M X|d0 Hh M|e d0 ans x v Hh R X C|e d0 x v Hh R X C|e d0 x Hh R X C|e o o' st' Hh Y K]; cbn [z_mine].
    - split; [intros [K|[K _]]; [discriminate|exact K]|auto].
    - split; [intros [Q|[Q _]]; [discriminate|exact Q]|auto].
    - rewrite in_app_iff. cbn. split; [intros [[= <-]|[Q _]]; auto|intros [Q|[<-|[]]]; auto]. right. split; [exact Q|tauto].
    - rewrite in_app_iff. cbn. split; [intros [[= <-]|[Q _]]; auto|intros [Q|[<-|[]]]; auto]. right. split; [exact Q|tauto].
    - rewrite in_app_iff. cbn. split; [intros [[= <-]|[Q _]]; auto|intros [Q|[<-|[]]]; auto]. right. split; [exact Q|tauto].
    - rewrite without_in. split.
      + intros [Q|[Q1 Q2]]; [discriminate|]. split; [exact Q1|]. intros ->. apply Q2. repeat split; discriminate.
      + intros [Q1 Q2]. right. split; [exact Q1|]. intros [Q3 _]. congruence.
    - split; [intros [Q|[Q _]]; [discriminate|exact Q]|]. intros Q. right. split; [exact Q|]. destruct R as [[-> _]|(g & w & -> & _)]; tauto.
    - split; [intros [Q|[Q _]]; [discriminate|exact Q]|]. intros Q. right. split; [exact Q|]. destruct R as [[-> _]|(g & w & -> & _)]; tauto.
    - split; [intros [Q|[Q _]]; [discriminate|exact Q]|]. intros Q. right. split; [exact Q|]. destruct R as [[-> _]|(g & w & -> & _)]; tauto.
    - assert (Kp : forall o, accepted o = true -> forall P : Prop, P -> (In d (z_kept e o (z_mine (z_after es))) <-> In d (z_mine (z_after es)) /\ ~ ((exists i, gives e (ZNode i d)) /\ P))).
      { intros o1 A P HP. rewrite kept_accepted, A. destruct (z_given e) as [n|] eqn:G.
        - rewrite without_in. split.
          + intros [Q1 Q2]. split; [exact Q1|]. intros [[i Q3] _]. apply gives_given in Q3. rewrite G in Q3. injection Q3 as ->. now apply Q2.
          + intros [Q1 Q2]. split; [exact Q1|]. intros ->. apply Q2. split; [|exact HP]. exists (zn_id n). apply gives_given. rewrite G. now destruct n.
        - split; [|tauto]. intros Q. split; [exact Q|]. intros [[i Q3] _]. apply gives_given in Q3. congruence. }
      destruct K as [g' S|g' n x Cl S X F|g' n Cl S F|g' l S|g' o S Ho]; cbn [z_mine].
      + rewrite (Kp (GX (XNode None)) eq_refl (ZDoc (Id:=Id) (Doc:=Doc) None <> ZInvalid /\ ZDoc (Id:=Id) (Doc:=Doc) None <> ZOut (GX XHang))) by (split; discriminate).
        split; [intros [Q|Q]; [discriminate|exact Q]|auto].
      + rewrite in_app_iff. cbn. split; [intros [[= <-]|[Q _]]; auto|intros [Q|[<-|[]]]; auto]. right. split; [exact Q|]. intros [[i Q1] _].
        destruct e as [[]| | | | | | | |]; try discriminate Cl; destruct Q1.
      + rewrite in_app_iff. cbn [In]. rewrite (Kp (GX (XNode (Some n))) eq_refl (ZDoc (Id:=Id) (Doc:=Doc) (Some (zn_doc n)) <> ZInvalid /\ ZDoc (Id:=Id) (Doc:=Doc) (Some (zn_doc n)) <> ZOut (GX XHang))) by (split; discriminate).
        split; [intros [[= <-]|Q]; auto|intros [Q|[<-|[]]]; auto].
      + rewrite (Kp (GNodes l) eq_refl (ZAll (Id:=Id) (Doc:=Doc) (map zn_doc l) <> ZInvalid /\ ZAll (Id:=Id) (Doc:=Doc) (map zn_doc l) <> ZOut (GX XHang))) by (split; discriminate).
        split; [intros [Q|Q]; [discriminate|exact Q]|auto].
      + destruct (accepted o) eqn:A.
        * rewrite (Kp o A (ZOut (Id:=Id) (Doc:=Doc) o <> ZInvalid /\ ZOut (Id:=Id) (Doc:=Doc) o <> ZOut (GX XHang))); [|split; [discriminate|]; intros [= ->]; discriminate A].
          split; [intros [Q|Q]; [discriminate|exact Q]|auto].
        * rewrite kept_accepted, A. assert (o = GX XHang) as -> by (destruct o as [[]| |]; try discriminate A; try destruct Ho; reflexivity).
          split; [intros [Q|[Q _]]; [discriminate|exact Q]|]. intros Q. right. split; [exact Q|]. apply Np. auto.
  Qed.

  (** ** What documents are *)

  Lemma copied_snoc (es : list zevent) e d d' : copied (es ++ [e]) d d' <->
    z_says es e = ZDoc (Some d') /\ (e = ZClone d \/ exists x i, e = ZEvent x /\ is_read x /\ g_says [] (plain es) x = GX (XNode (Some (ZNode i d)))).
  Proof.
    split.
    - intros C. remember (es ++ [e]) as l eqn:L. destruct C as [es0 d d' S|es0 x i d d' R G S]; apply app_inj_tail in L as [-> <-]; split; eauto 7.
    - intros [S [->|(x & i & -> & R & G)]]; [now constructor|]. eapply copied_read; eauto.
  Qed.

  Lemma is_read_clones (e : gevent) : is_read e <-> z_clones e = true.
  Proof. destruct e as [[]| | | | | | | |]; cbn; split; try discriminate; tauto. Qed.

  Definition doc_at (es : list zevent) (d : nat) := nth_error (z_docs (z_after es)) d.

  (** What the last event did to document [d]. *)
  Inductive dchange (es : list zevent) (e : zevent) (d : nat) : Prop :=
  | dch_same : doc_at (es ++ [e]) d = doc_at es d -> (z_says es e = ZDoc (Some d) -> ~ exists d0, copied (es ++ [e]) d0 d) ->
      (forall v, e = ZNew v -> z_says es e <> ZDoc (Some d)) -> (forall i, e = ZBuild i -> z_says es e <> ZDoc (Some d)) ->
      (forall i v, z_says es e = ZContent (Some v) [i] -> e <> ZRead d (Some v) /\ forall g, e <> ZRef g d (Some v)) -> dchange es e d
  | dch_build i : doc_at es d = None -> e = ZBuild i -> z_says es e = ZDoc (Some d) -> doc_at (es ++ [e]) d = Some (LDoc i None) -> dchange es e d
  | dch_new v : doc_at es d = None -> e = ZNew v -> z_says es e = ZDoc (Some d) -> doc_at (es ++ [e]) d = Some (LDoc (id_of v) (Some v)) -> dchange es e d
  | dch_copy d0 x : doc_at es d = None -> copied (es ++ [e]) d0 d -> doc_at es d0 = Some x -> doc_at (es ++ [e]) d = Some x -> dchange es e d
  | dch_load v x : e = ZRead d (Some v) \/ (exists g, e = ZRef g d (Some v)) -> doc_at es d = Some x -> ld_cell x = None -> z_says es e = ZContent (Some v) [ld_id x] ->
      doc_at (es ++ [e]) d = Some (LDoc (ld_id x) (Some v)) -> dchange es e d.

  Lemma nth_at_length {A} (l : list A) x : nth_error (l ++ [x]) (length l) = Some x.
  Proof. rewrite nth_error_app2, Nat.sub_diag by lia. reflexivity. Qed.

  Lemma doc_change (es : list zevent) e d : dchange es e d.
  Proof.
    pose proof (change_after es e) as C. pose proof (zinv_after es) as I.
    assert (Sm : doc_at (es ++ [e]) d = doc_at es d -> z_says es e <> ZDoc (Some d) -> (forall i v, z_says es e <> ZContent (Some v) [i]) -> dchange es e d).
    { intros D N1 N2. apply dch_same; auto; try congruence. }
    assert (Old : nth_error (z_docs (z_after es)) (length (z_docs (z_after es))) = None) by (apply nth_error_None; lia).
    assert (Ol : forall x, d <> length (z_docs (z_after es)) -> nth_error (z_docs (z_after es) ++ [x]) d = nth_error (z_docs (z_after es)) d).
    { intros x N. destruct (lt_dec d (length (z_docs (z_after es)))); [now rewrite nth_error_app1|].
      rewrite (proj2 (nth_error_None _ _)) by (rewrite app_length; cbn; lia). symmetry. apply nth_error_None. lia. }
    assert (Ld : forall v x d0, reaches (z_after es) e d0 (Some v) -> nth_error (z_docs (z_after es)) d0 = Some x -> ld_cell x = None -> z_says es e = ZContent (Some v) [ld_id x] ->
      z_docs (z_after (es ++ [e])) = set_cell v d0 (z_docs (z_after es)) -> dchange es e d).
    { intros v x d0 R X Cx S D. assert (Ed : (e = ZRead d0 (Some v)) \/ exists g, e = ZRef g d0 (Some v)) by (destruct R as [[R _]|(g & w & R & _)]; eauto).
      destruct (Nat.eq_dec d0 d) as [->|N].
      - apply (dch_load es e d v x); auto. unfold doc_at. rewrite D. apply nth_set. exists x. now rewrite Nat.eqb_refl.
      - apply dch_same; try congruence.
        + unfold doc_at. rewrite D. unfold set_cell. rewrite nth_error_alter. apply Nat.eqb_neq in N. now rewrite N.
        + intros i v' S'. destruct Ed as [->|[g ->]]; split; [|intros g'| |intros g']; congruence. }
    remember (z_says es e) as o eqn:So. remember (z_after (es ++ [e])) as st' eqn:St.
    destruct C as [e Hh|e Hh K|i Hh|v Hh|d0 x Hh M X|d0 Hh M|e d0 ans x v Hh R X C|e d0 x v Hh R X C|e d0 x Hh R X C|e o o' st' Hh Y K].
    - apply Sm; try discriminate. unfold doc_at. now rewrite <- St.
    - apply Sm; try discriminate. unfold doc_at. now rewrite <- St.
    - destruct (Nat.eq_dec d (length (z_docs (z_after es)))) as [->|N].
      + apply dch_build with (i := i); auto. unfold doc_at. rewrite <- St. cbn [z_docs]. apply nth_at_length.
      + apply Sm; try congruence. unfold doc_at. rewrite <- St. now apply Ol.
    - destruct (Nat.eq_dec d (length (z_docs (z_after es)))) as [->|N].
      + apply dch_new with (v := v); auto. unfold doc_at. rewrite <- St. cbn [z_docs]. apply nth_at_length.
      + apply Sm; try congruence. unfold doc_at. rewrite <- St. now apply Ol.
    - destruct (Nat.eq_dec d (length (z_docs (z_after es)))) as [->|N].
      + apply dch_copy with (d0 := d0) (x := x); auto; [apply copied_snoc; auto|]. unfold doc_at. rewrite <- St. cbn [z_docs]. rewrite nth_at_length. now destruct x.
      + apply Sm; try congruence. unfold doc_at. rewrite <- St. now apply Ol.
    - apply Sm; try discriminate. unfold doc_at. now rewrite <- St.
    - apply dch_same; [unfold doc_at; now rewrite <- St|..]; rewrite <- So; try congruence; discriminate.
    - eapply Ld; eauto.
    - apply Sm; try discriminate. unfold doc_at. now rewrite <- St.
    - destruct K as [g' S|g' n x Cl S X F|g' n Cl S F|g' l S|g' o S Ho].
      + apply Sm; try discriminate. unfold doc_at. now rewrite <- St.
      + destruct (Nat.eq_dec d (length (z_docs (z_after es)))) as [->|N].
        * apply dch_copy with (d0 := zn_doc n) (x := x); auto.
          -- apply copied_snoc. split; [auto|]. right. exists e, (zn_id n). split; [reflexivity|]. split; [now apply is_read_clones|]. unfold g_says. rewrite <- z_after_g, S. now destruct n.
          -- unfold doc_at. rewrite <- St. cbn [z_docs]. rewrite nth_at_length. now destruct x.
        * apply Sm; try congruence. unfold doc_at. rewrite <- St. now apply Ol.
      + apply dch_same; [unfold doc_at; now rewrite <- St|..]; rewrite <- So; try discriminate.
        intros _ [d0 Cp]. apply copied_snoc in Cp as [_ [Q|(x & i & [= <-] & Q & _)]]; [discriminate|]. apply is_read_clones in Q. congruence.
      + apply Sm; try discriminate. unfold doc_at. now rewrite <- St.
      + apply Sm; try discriminate. unfold doc_at. now rewrite <- St.
  Qed.

  Lemma named_snoc (es : list zevent) e d i : named (es ++ [e]) d i <->
    (e = ZBuild i /\ z_says es e = ZDoc (Some d)) \/ (exists v, e = ZNew v /\ i = id_of v /\ z_says es e = ZDoc (Some d)) \/
    (exists d0, copied (es ++ [e]) d0 d /\ named es d0 i) \/ named es d i.
  Proof.
    split.
    - intros N. remember (es ++ [e]) as l eqn:L. destruct N as [es0 i d S|es0 v d S|es0 e0 d d' i C N|es0 e0 d i N]; apply app_inj_tail in L as [-> <-]; eauto 10.
    - intros [[-> S]|[(v & -> & -> & S)|[(d0 & C & N)|N]]]; [now apply named_build|now apply named_new|eapply named_copy; eauto|now apply named_still].
  Qed.

  Lemma knows_snoc (es : list zevent) e d v : knows (es ++ [e]) d v <->
    (e = ZNew v /\ z_says es e = ZDoc (Some d)) \/ (exists d0, copied (es ++ [e]) d0 d /\ knows es d0 v) \/
    ((e = ZRead d (Some v) \/ exists g, e = ZRef g d (Some v)) /\ exists i, z_says es e = ZContent (Some v) [i]) \/ knows es d v.
  Proof.
    split.
    - intros N. remember (es ++ [e]) as l eqn:L.
      destruct N as [es0 v d S|es0 e0 d d' v C N|es0 d v i S|es0 g d v i S|es0 e0 d v N]; apply app_inj_tail in L as [-> <-]; eauto 10.
    - intros [[-> S]|[(d0 & C & N)|[[[->|[g ->]] [i S]]|N]]];
        [now apply knows_new|eapply knows_copy; eauto|eapply knows_read; eauto|eapply knows_ref; eauto|now apply knows_still].
  Qed.

  Lemma copied_fun (es : list zevent) e d1 d2 d : copied (es ++ [e]) d1 d -> copied (es ++ [e]) d2 d -> d1 = d2.
  Proof.
    intros C1 C2. apply copied_snoc in C1 as [_ [->|(x & i & -> & _ & G)]]; apply copied_snoc in C2 as [_ [E|(x' & i' & E & _ & G')]]; congruence.
  Qed.

  Lemma doc_spec (es : list zevent) : forall d,
    (forall i, named es d i <-> exists x, doc_at es d = Some x /\ ld_id x = i) /\
    (forall v, knows es d v <-> exists x, doc_at es d = Some x /\ ld_cell x = Some v).
  Proof.
    induction es as [|e es IH] using rev_ind.
    { assert (E : forall d, doc_at [] d = None) by (intros d; unfold doc_at; now destruct d).
      intros d. rewrite (E d). split.
      - intros i. split; [|intros (x & X & _); discriminate]. intros N. remember [] as l eqn:L. destruct N; symmetry in L; now apply app_cons_not_nil in L.
      - intros v. split; [|intros (x & X & _); discriminate]. intros N. remember [] as l eqn:L. destruct N; symmetry in L; now apply app_cons_not_nil in L. }
    intros d. assert (New : doc_at es d = None -> (forall i, ~ named es d i) /\ (forall v, ~ knows es d v)).
    { intros D. destruct (IH d) as [N K]. split; intros x Q; [apply N in Q|apply K in Q]; destruct Q as (y & Y & _); congruence. }
    destruct (doc_change es e d) as [D Nc Nn Nb Nl|i Do -> S D|v Do -> S D|d0 x Do C X D|v x Ed Do Cx S D]; rewrite D.
    - destruct (IH d) as [N K]. split.
      + intros i. rewrite named_snoc, N. split; [|auto]. intros [[E S]|[(v & E & _ & S)|[(d0 & C & _)|Q]]]; [now apply (Nb _ E) in S|now apply (Nn _ E) in S| |exact Q].
        exfalso. apply (Nc (proj1 (proj1 (copied_snoc _ _ _ _) C))). eauto.
      + intros v. rewrite knows_snoc, K. split; [|auto]. intros [[E S]|[(d0 & C & _)|[[E [i S]]|Q]]]; [now apply (Nn _ E) in S| | |exact Q].
        * exfalso. apply (Nc (proj1 (proj1 (copied_snoc _ _ _ _) C))). eauto.
        * apply Nl in S as [N1 N2]. destruct E as [E|[g E]]; [contradiction|now apply N2 in E].
    - destruct (New Do) as [N K]. split.
      + intros j. rewrite named_snoc. split.
        * intros [[[= ->] _]|[(v & E & _)|[(d0 & C & _)|Q]]]; [eauto|discriminate| |now apply N in Q].
          apply copied_snoc in C as [_ [E|(x & j' & E & _)]]; discriminate.
        * intros (x & [= <-] & <-). auto.
      + intros v. rewrite knows_snoc. split; [|intros (x & [= <-] & Q); discriminate].
        intros [[E _]|[(d0 & C & _)|[[[E|[g E]] _]|Q]]]; try discriminate; [|now apply K in Q].
        apply copied_snoc in C as [_ [E|(x & j' & E & _)]]; discriminate.
    - destruct (New Do) as [N K]. split.
      + intros j. rewrite named_snoc. split.
        * intros [[E _]|[(v' & [= <-] & -> & _)|[(d0 & C & _)|Q]]]; [discriminate|eauto| |now apply N in Q].
          apply copied_snoc in C as [_ [E|(x & j' & E & _)]]; discriminate.
        * intros (x & [= <-] & <-). right. left. eauto.
      + intros v'. rewrite knows_snoc. split.
        * intros [[[= ->] _]|[(d0 & C & _)|[[[E|[g E]] _]|Q]]]; try discriminate; [eauto| |now apply K in Q].
          apply copied_snoc in C as [_ [E|(x & j' & E & _)]]; discriminate.
        * intros (x & [= <-] & [= <-]). auto.
    - destruct (New Do) as [N K]. destruct (IH d0) as [N0 K0]. pose proof (proj1 (copied_snoc _ _ _ _) C) as [S Ed]. split.
      + intros j. rewrite named_snoc. split.
        * intros [[E _]|[(v & E & _)|[(d1 & C1 & Q)|Q]]]; [destruct Ed as [->|(y & j' & -> & _)]; discriminate|destruct Ed as [->|(y & j' & -> & _)]; discriminate| |now apply N in Q].
          rewrite (copied_fun _ _ _ _ _ C1 C) in Q. apply N0 in Q as (y & Y & Q). exists y. split; [congruence|exact Q].
        * intros (y & [= <-] & Q). right. right. left. exists d0. split; [exact C|]. apply N0. eauto.
      + intros v. rewrite knows_snoc. split.
        * intros [[E _]|[(d1 & C1 & Q)|[[[E|[g E]] _]|Q]]]; try (destruct Ed as [->|(y & j' & -> & _)]; discriminate); [|now apply K in Q].
          rewrite (copied_fun _ _ _ _ _ C1 C) in Q. apply K0 in Q as (y & Y & Q). exists y. split; [congruence|exact Q].
        * intros (y & [= <-] & Q). right. left. exists d0. split; [exact C|]. apply K0. eauto.
    - destruct (IH d) as [N K]. split.
      + intros j. rewrite named_snoc, N. split.
        * intros [[E _]|[(v' & E & _)|[(d0 & C & _)|(y & Y & Q)]]]; try (destruct Ed as [->|[g ->]]; discriminate).
          -- apply copied_snoc in C as [S' _]. congruence.
          -- rewrite Do in Y. injection Y as <-. eauto.
        * intros (y & [= <-] & Q). right. right. right. eauto.
      + intros v'. rewrite knows_snoc, K. split.
        * intros [[E _]|[(d0 & C & _)|[[E _]|(y & Y & Q)]]]; [destruct Ed as [->|[g ->]]; discriminate| | |congruence].
          -- apply copied_snoc in C as [S' _]. congruence.
          -- assert (v' = v) as -> by (destruct Ed as [->|[g ->]], E as [E|[g' E]]; congruence). eauto.
        * intros (y & [= <-] & [= <-]). right. right. left. eauto.
  Qed.

  Lemma named_spec (es : list zevent) d i : named es d i <-> exists x, doc_at es d = Some x /\ ld_id x = i.
  Proof. apply doc_spec. Qed.
  Lemma knows_spec (es : list zevent) d v : knows es d v <-> exists x, doc_at es d = Some x /\ ld_cell x = Some v.
  Proof. apply doc_spec. Qed.

  (** ** Where documents are *)

  Lemma published_spec (es : list zevent) d : published es d <-> In d (map zn_doc (g_iter (graph_of (z_g (z_after es))))).
  Proof.
    unfold published, g_nodes. rewrite <- z_after_g, in_map_iff. split; [intros [i K]; now exists (ZNode i d)|]. intros ([i d'] & <- & K). eauto.
  Qed.

  Lemma waits_spec (es : list zevent) t d : waits_in es t d <-> exists n, kept_in (gs_m (z_g (z_after es))) t n /\ zn_doc n = d.
  Proof.
    unfold waits_in, kept_in. rewrite (CrashFacts.gathered_ops [] (plain es) t nil_wf), (th_end _ _ (txhist_after [] (plain es) nil_wf)). unfold txs_of. rewrite <- z_after_g.
    pose proof (mi_heap _ (gi_m _ (zi_g _ (zinv_after es)))) as L. set (m := gs_m (z_g (z_after es))) in *. split.
    - intros (E & i & K). apply in_map_iff in K as (o & Eo & K).
      assert (Lt : t < length (p_txs (m_proto m))).
      { rewrite <- L. unfold buf_ops in K. destruct (lt_dec t (length (s_heap (m_store m)))) as [Lt|Lt]; [exact Lt|]. rewrite nth_overflow in K by lia. destruct K. }
      apply nth_error_Some in Lt. destruct (nth_error (p_txs (m_proto m)) t) as [[par g o']|]; [|congruence].
      destruct o as [n|j]; cbn in Eo; [|discriminate]. injection Eo as Ei En. subst n. exists (ZNode i d). split; [|reflexivity]. eexists. split; [reflexivity|]. split.
      + destruct o'; [reflexivity|]. destruct E. eauto.
      + apply in_flat_map. eexists. split; [exact K|now left].
    - intros ([i d'] & (x & N & O & K) & <-). split.
      + rewrite N. intros (par & b & [= ->]). discriminate.
      + exists i. apply in_flat_map in K as (o & K & S). destruct o as [n|]; [|destruct S]. destruct S as [->|[]]. apply in_map_iff. now exists (OSave (ZNode i d')).
  Qed.

  (** ** The theorems *)

  Lemma may_give_spec (es : list zevent) e : may_give es e <-> z_may (z_after es) e = true.
  Proof.
    rewrite may_spec. unfold may_give. split; intros K n G; apply gives_given in G; apply K in G as [M N]; apply mine_spec in M; apply named_spec in N; auto.
  Qed.

  Lemma hung_spec (es : list zevent) : z_returns es <-> gs_hung (z_g (z_after es)) = false.
  Proof. unfold z_returns. rewrite z_after_g. symmetry. apply hung_returns, nil_wf. Qed.

  Lemma says_hung (es : list zevent) e : ~ z_returns es -> z_says es e = ZOut (GX XHang).
  Proof.
    intros N. rewrite hung_spec in N. unfold z_says, z_step. destruct (gs_hung (z_g (z_after es))); [reflexivity|]. now destruct N.
  Qed.

  Lemma inside_place (es : list zevent) n : In n (g_iter (graph_of (z_g (z_after es)))) \/ (exists t, kept_in (gs_m (z_g (z_after es))) t n) ->
    published es (zn_doc n) \/ exists t, waits_in es t (zn_doc n).
  Proof.
    intros [K|[t K]]; [left; apply published_spec; now apply in_map|right]. exists t. apply waits_spec. eauto.
  Qed.

  Lemma got_old (es : list zevent) d : (exists e1 e e2, es = e1 ++ e :: e2 /\ z_says e1 e = ZDoc (Some d)) -> exists x, doc_at es d = Some x.
  Proof.
    intros (e1 & e & e2 & -> & S). induction e2 as [|y e2 IH] using rev_ind.
    - assert (M : mine (e1 ++ [e]) d) by (apply mine_snoc; auto). apply mine_spec, (zi_mine _ (zinv_after _)), nth_error_Some in M.
      unfold doc_at. destruct (nth_error _ d); [eauto|congruence].
    - destruct IH as [x X]. rewrite app_comm_cons, app_assoc. destruct (doc_change (e1 ++ e :: e2) y d) as [D _ _ _ _|i Do _ _ _|v Do _ _ _|d0 z Do _ _ _|v z _ _ _ _ D]; try congruence; eauto.
      rewrite D. eauto.
  Qed.

  Lemma as_plain (es : list zevent) e : may_give es e -> shows es e (g_says [] (plain es) e) (z_says es (ZEvent e)).
  Proof.
    intros Y. destruct (gs_hung (z_g (z_after es))) eqn:Hh.
    { rewrite says_hung by (rewrite hung_spec; congruence). unfold g_says. rewrite <- z_after_g. unfold g_step. rewrite Hh. now apply shows_other. }
    apply may_give_spec in Y. pose proof (change_after es (ZEvent e)) as C. unfold g_says. rewrite <- z_after_g.
    assert (Mn : forall d, z_says es (ZEvent e) = ZDoc (Some d) -> mine (es ++ [ZEvent e]) d) by (intros d S; apply mine_snoc; auto).
    pose proof (doc_change es (ZEvent e) (length (z_docs (z_after es)))) as Dc.
    remember (z_says es (ZEvent e)) as o eqn:So. remember (z_after (es ++ [ZEvent e])) as st' eqn:St.
    inversion C as [? K|? _ K| | | | |? ? ? ? ? ? R|? ? ? ? ? R|? ? ? ? R|? o1 ? ? _ _ K]; subst; try congruence;
      try (destruct R as [[R _]|(g & w & R & _)]; discriminate).
    - destruct K as [K|K]; [congruence|]. rewrite K. constructor.
    - inversion K as [g' S|g' n x Cl S X F|g' n Cl S F|g' l S|g' o S Ho]; subst; rewrite S; cbn [snd]; try now constructor.
      + destruct n as [i d]. cbn [zn_doc] in *. pose proof (zi_ids _ (zinv_after es) _ F) as (x' & X' & Ei). cbn in X', Ei. rewrite X in X'. injection X' as <-.
        assert (Cp : copied (es ++ [ZEvent e]) d (length (z_docs (z_after es)))).
        { apply copied_snoc. split; [now symmetry|]. right. exists e, i. split; [reflexivity|]. split; [now apply is_read_clones|]. unfold g_says. now rewrite <- z_after_g, S. }
        constructor.
        * now apply is_read_clones.
        * apply (inside_place es (ZNode i d)). rewrite or_comm. apply (read_found _ e); [apply zinv_after|exact Cl|now rewrite S].
        * intros e1 e' e2 E S1. assert (D : exists x, doc_at es (length (z_docs (z_after es))) = Some x) by (apply got_old; eauto).
          destruct D as [y D]. assert (length (z_docs (z_after es)) < length (z_docs (z_after es))) by (apply nth_error_Some; unfold doc_at in D; congruence). lia.
        * now apply Mn.
        * intros v. rewrite !knows_spec. unfold doc_at. rewrite X. match goal with K : _ = z_after (es ++ [ZEvent e]) |- _ => rewrite <- K end. cbn [z_docs]. rewrite nth_at_length.
          split; intros (y & [= <-] & Q); eexists; (split; [reflexivity|exact Q]).
        * apply named_spec. unfold doc_at. match goal with K : _ = z_after (es ++ [ZEvent e]) |- _ => rewrite <- K end. cbn [z_docs]. rewrite nth_at_length. eexists. split; [reflexivity|exact Ei].
      + destruct n as [i d]. cbn [zn_doc] in *. apply shows_back.
        * intros R. apply is_read_clones in R. congruence.
        * apply published_spec. now apply (in_map zn_doc) in F.
        * now apply Mn.
        * apply named_spec. apply (zi_ids _ (zinv_after es) (ZNode i d)). apply in_app_iff. auto.
  Qed.

  Lemma not_given (es : list zevent) e : z_returns es -> ~ may_give es e -> z_says es (ZEvent e) = ZInvalid.
  Proof.
    intros R N. apply hung_spec in R. rewrite may_give_spec in N. unfold z_says, z_step. rewrite R. destruct (z_may (z_after es) e); [now destruct N|reflexivity].
  Qed.

  Lemma reaches_says (es : list zevent) e d ans : z_returns es -> reaches (z_after es) e d ans -> dereferenced es d ans (z_says es e).
  Proof.
    intros Rt R. apply hung_spec in Rt. pose proof (change_after es e) as C. destruct (reached_doc _ _ _ _ (zinv_after es) R) as [x X].
    assert (Uq : forall d' ans', reaches (z_after es) e d' ans' -> d' = d /\ ans' = ans).
    { intros d' ans' R'. destruct R as [[-> _]|(g & w & -> & _)], R' as [[R' _]|(g' & w' & R' & _)]; try discriminate; injection R'; auto. }
    assert (Kn : forall v, ld_cell x = Some v -> knows es d v) by (intros v Q; apply knows_spec; eauto).
    assert (Un : ld_cell x = None -> forall v, ~ knows es d v) by (intros Q v K; apply knows_spec in K as (y & Y & K); unfold doc_at in Y; congruence).
    assert (Nm : named es d (ld_id x)) by (apply named_spec; eauto).
    remember (z_says es e) as o eqn:So. remember (z_after (es ++ [e])) as st' eqn:St.
    destruct C as [e Hh|e Hh K|i Hh|v Hh|d0 y Hh M Y|d0 Hh M|e d0 ans0 y v Hh R0 Y C|e d0 y v Hh R0 Y C|e d0 y Hh R0 Y C|e o o' st' Hh Y K].
    - congruence.
    - destruct R as [[-> M]|(g & w & -> & U & M)]; destruct K; [left; auto|right; eauto 6].
    - destruct R as [[R _]|(g & w & R & _)]; discriminate.
    - destruct R as [[R _]|(g & w & R & _)]; discriminate.
    - destruct R as [[R _]|(g & w & R & _)]; discriminate.
    - destruct R as [[R _]|(g & w & R & _)]; discriminate.
    - destruct (Uq _ _ R0) as [-> ->]. rewrite X in Y. injection Y as <-. apply deref_known. auto.
    - destruct (Uq _ _ R0) as [-> <-]. rewrite X in Y. injection Y as <-. apply deref_unknown; auto.
    - destruct (Uq _ _ R0) as [-> <-]. rewrite X in Y. injection Y as <-. apply deref_unknown; auto.
    - destruct R as [[R _]|(g & w & R & _)]; discriminate.
  Qed.

  Lemma unreached_says (es : list zevent) e d ans : z_returns es -> (e = ZRead d ans \/ exists g, e = ZRef g d ans) -> ~ reaches (z_after es) e d ans -> z_says es e = ZInvalid.
  Proof.
    intros Rt E R. apply hung_spec in Rt. pose proof (change_after es e) as C. remember (z_says es e) as o eqn:So. remember (z_after (es ++ [e])) as st' eqn:St.
    destruct C as [e Hh|e Hh K|i Hh|v Hh|d0 y Hh M Y|d0 Hh M|e d0 ans0 y v Hh R0 Y C|e d0 y v Hh R0 Y C|e d0 y Hh R0 Y C|e o o' st' Hh Y K]; try reflexivity;
      try congruence; try (destruct E as [E|[g E]]; discriminate); exfalso; apply R.
    - destruct E as [->|[g ->]], R0 as [[R' R1]|(g' & w' & R' & R1)]; try discriminate; injection R'; intros; subst; [left|right]; eauto.
    - destruct E as [->|[g ->]], R0 as [[R' R1]|(g' & w' & R' & R1)]; try discriminate; injection R'; intros; subst; [left|right]; eauto.
    - destruct E as [->|[g ->]], R0 as [[R' R1]|(g' & w' & R' & R1)]; try discriminate; injection R'; intros; subst; [left|right]; eauto.
  Qed.

  Lemma iter_usable (es : list zevent) g : z_returns es -> (exists l, g_says [] (plain es) (GIter g) = GNodes l) <-> exists w, usable g (z_g (z_after es)) = Some w.
  Proof.
    intros R. apply hung_spec in R. unfold g_says. rewrite <- z_after_g. unfold g_step. rewrite R. destruct (usable g (z_g (z_after es))) as [w|]; cbn; split; intros [x K]; try discriminate; eauto.
  Qed.

  Lemma one_place (es : list zevent) : forall d, (mine es d -> ~ published es d) /\ (forall t, mine es d -> ~ waits_in es t d) /\ (forall t, published es d -> ~ waits_in es t d) /\
    (forall t t', waits_in es t d -> waits_in es t' d -> t = t').
  Proof.
    intros d. pose proof (zi_one _ (zinv_after es)) as N. unfold inside in N. rewrite map_app in N. apply NoDup_app_iff in N as (_ & N & D1).
    apply NoDup_app_iff in N as (Nw & Ng & D2).
    assert (Wt : forall t, waits_in es t d -> In d (map zn_doc (waiting (z_g (z_after es)) t)) /\ t < length (p_txs (m_proto (gs_m (z_g (z_after es)))))).
    { intros t K. apply waits_spec in K as (n & K & <-). split; [apply in_map; now apply kept_in_waiting|]. destruct K as (x & X & _). apply nth_error_Some. congruence. }
    assert (Wa : forall t, waits_in es t d -> In d (map zn_doc (all_waiting (z_g (z_after es))))).
    { intros t K. apply Wt in K as [K _]. apply in_map_iff in K as (n & <- & K). apply in_map. eapply waiting_inside, K. }
    split; [|split; [|split]].
    - rewrite mine_spec, published_spec. intros K1 K2. apply (D1 d K1). apply in_app_iff. auto.
    - intros t K1 K2. apply mine_spec in K1. apply (D1 d K1). apply in_app_iff. left. eauto.
    - intros t K1 K2. apply published_spec in K1. apply (D2 d); eauto.
    - intros t t' K1 K2. apply Wt in K1 as [K1 L1]. apply Wt in K2 as [K2 L2]. unfold all_waiting in Nw. destruct (Nat.eq_dec t t') as [E|E]; [exact E|exfalso].
      revert Nw L1 L2. generalize (length (p_txs (m_proto (gs_m (z_g (z_after es)))))). induction n as [|n IH]; [lia|]. rewrite seq_S, flat_map_app, map_app. cbn. rewrite app_nil_r.
      intros Nw L1 L2. apply NoDup_app_iff in Nw as (N1 & N2 & D).
      assert (In1 : forall u, u < n -> In d (map zn_doc (waiting (z_g (z_after es)) u)) -> In d (map zn_doc (flat_map (waiting (z_g (z_after es))) (seq 0 n)))).
      { intros u Lu K. apply in_map_iff in K as (x & <- & K). apply in_map. apply in_flat_map. exists u. split; [apply in_seq; lia|exact K]. }
      destruct (Nat.eq_dec t n) as [->|E1]; [apply (D d); [apply (In1 t'); [lia|exact K2]|exact K1]|].
      destruct (Nat.eq_dec t' n) as [->|E2]; [apply (D d); [apply (In1 t); [lia|exact K1]|exact K2]|]. apply IH; auto; lia.
  Qed.

  Lemma published_once (es : list zevent) : NoDup (map zn_doc (g_nodes [] (plain es))).
  Proof.
    pose proof (zi_one _ (zinv_after es)) as N. unfold inside in N. rewrite map_app in N. apply NoDup_app_iff in N as (_ & N & _).
    apply NoDup_app_iff in N as (_ & N & _). unfold g_nodes. now rewrite <- z_after_g.
  Qed.

  Lemma loaded_by (es : list zevent) e d v i : named es d i -> knows (es ++ [e]) d v -> ~ knows es d v ->
    (e = ZRead d (Some v) /\ mine es d) \/ (exists g, e = ZRef g d (Some v) /\ published es d /\ exists l, g_says [] (plain es) (GIter g) = GNodes l).
  Proof.
    intros Nm K Nk. apply named_spec in Nm as (x & X & _). rewrite knows_spec in K, Nk.
    destruct (doc_change es e d) as [D _ _ _ _|j Do _ _ _|w Do _ _ _|d0 z Do _ _ _|w z Ed _ _ S D]; [rewrite D in K; contradiction|congruence|congruence|congruence|].
    rewrite D in K. destruct K as (y & Y & Q). injection Y as <-. cbn in Q. injection Q as ->.
    assert (Rt : z_returns es). { apply hung_spec. unfold z_says, z_step in S. destruct (gs_hung _); [discriminate|reflexivity]. }
    assert (Ni : z_says es e <> ZInvalid) by congruence.
    destruct Ed as [->|[g ->]].
    - left. split; [reflexivity|]. apply mine_spec. destruct (in_dec Nat.eq_dec d (z_mine (z_after es))) as [K|K]; [exact K|]. destruct Ni.
      apply unreached_says with (d := d) (ans := Some v); auto. intros [[_ R]|(g & q & R & _)]; [contradiction|discriminate].
    - right. exists g. split; [reflexivity|]. rewrite published_spec, (iter_usable es g Rt).
      destruct (usable g (z_g (z_after es))) as [q|] eqn:U.
      + destruct (in_dec Nat.eq_dec d (map zn_doc (g_iter (graph_of (z_g (z_after es)))))) as [K|K]; [eauto|]. destruct Ni.
        apply unreached_says with (d := d) (ans := Some v); eauto. intros [[R _]|(g' & q' & _ & _ & R)]; [discriminate|contradiction].
      + destruct Ni. apply unreached_says with (d := d) (ans := Some v); eauto. intros [[R _]|(g' & q' & [= <-] & R & _)]; [discriminate|congruence].
  Qed.

  Lemma doc_returns (es : list zevent) e r : z_says es e = ZDoc r -> z_returns (es ++ [e]).
  Proof.
    intros S. apply hung_spec. pose proof (change_after es e) as C. rewrite S in C.
    assert (Cl : forall x g' o, gs_hung (z_g (z_after es)) = false -> g_step (z_g (z_after es)) x = (g', o) -> o <> GX XHang -> gs_hung g' = false).
    { intros x g' o Hh E N. destruct (gs_hung g') eqn:Q; [|reflexivity]. destruct (step_hung (z_g (z_after es)) x (zi_g _ (zinv_after es))) as [K _].
      rewrite E in K. cbn in K. apply K in Q. contradiction. }
    inversion C as [ | | | | | | | | |x o o' st' Hh Y K E1 E2]; try assumption.
    inversion K as [g' E|g' n y Cn E X F|g' n Cn E F|g' l E|g' o1 E Ho]; cbn; (eapply Cl; [exact Hh|exact E|discriminate]).
  Qed.

  (** What a read that finds document [d] gives. *)
  Lemma read_gives (es : list zevent) e i d : is_read e -> g_says [] (plain es) e = GX (XNode (Some (ZNode i d))) ->
    exists h, z_says es (ZEvent e) = ZDoc (Some h) /\ mine (es ++ [ZEvent e]) h /\ (forall v, knows (es ++ [ZEvent e]) h v <-> knows es d v) /\
      named (es ++ [ZEvent e]) h i /\ z_returns (es ++ [ZEvent e]) /\ (published es d \/ exists t, waits_in es t d) /\ h <> d.
  Proof.
    intros R G. assert (Y : may_give es e) by (intros n Gn; exfalso; destruct e as [[]| | | | | | | |]; destruct R; destruct Gn).
    pose proof (as_plain es e Y) as S. rewrite G in S. inversion S as [| |i' d' h _ P Fr M Kn Nm E1 E2|i' d' Nr _ _ _ E1 E2| |o Ho E1 E2]; subst; [|contradiction|destruct Ho].
    exists h. split; [reflexivity|]. repeat split; auto; try apply Kn; [now apply (doc_returns _ _ (Some h))|]. intros ->.
    assert (D : exists n, In n (inside (z_g (z_after es))) /\ zn_doc n = d).
    { destruct P as [P|[t P]].
      - apply published_spec, in_map_iff in P as (n & E & P). exists n. split; [apply in_app_iff; auto|exact E].
      - apply waits_spec in P as (n & P & E). exists n. split; [|exact E]. apply in_app_iff. left. eapply waiting_inside, kept_in_waiting, P. }
    destruct D as (n & D & <-). pose proof (doc_change es (ZEvent e) (zn_doc n)) as Dc. destruct (zi_ids _ (zinv_after es) n D) as (x & X & _).
    assert (Cp : copied (es ++ [ZEvent e]) (zn_doc n) (zn_doc n)) by (apply copied_snoc; split; [now symmetry|right; eauto 6]).
    destruct Dc as [Eq Nc _ _ _|j Do _ _ _|w Do _ _ _|d0 z Do _ _ _|w z [Ed|[g Ed]] _ _ _ _]; try discriminate; try (unfold doc_at in *; congruence).
    apply Nc; eauto.
  Qed.

  (** Documents that are new. *)
  Lemma fresh_doc (es : list zevent) : forall e1 e e2, es = e1 ++ e :: e2 -> z_says e1 e <> ZDoc (Some (length (z_docs (z_after es)))).
  Proof.
    intros e1 e e2 E S. destruct (got_old es (length (z_docs (z_after es)))) as [x X]; [eauto|].
    assert (length (z_docs (z_after es)) < length (z_docs (z_after es))) by (apply nth_error_Some; unfold doc_at in X; congruence). lia.
  Qed.
End Facts.
