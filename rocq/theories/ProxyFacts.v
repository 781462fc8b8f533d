(** Facts about node proxies. *)
From Coq Require Import List Bool Arith Lia.
From Verif Require Import Ord OrdFacts BTree Graph GraphFacts Tx TxMachine SpecTx TxFacts TxMachineFacts TxInv
  Proxy SpecProxy.
Import ListNotations.

Section Facts.
  Context {Id Node : Type} `{HO : OrdT Id} `{HI : Identify Node Id}.
  Variable edges : Node -> list Id.
  Notation pxevent := (@pxevent Id Node).
  Notation pxstate := (@pxstate Id Node).
  Notation source := (@source Id Node).
  Notation machine := (@machine Id Node).
  Notation proxy := (@proxy Id Node).
  Notation px_step := (px_step edges).
  Notation px_after := (px_after edges).
  Notation px_says := (px_says edges).
  Notation source_says := (source_says edges).

  Lemma px_after_snoc g es e : px_after g (es ++ [e]) = fst (px_step (px_after g es) e).
  Proof. unfold SpecProxy.px_after, px_run. now rewrite fold_left_app. Qed.

  Lemma src_get_says g es s i r :
    source_says g es s i r <-> src_get (xs_machine (px_after g es)) s i = Some r.
  Proof.
    destruct s as [gr|c]; cbn [SpecProxy.source_says src_get]; [split; congruence|].
    unfold SpecProxy.px_says. cbn [Proxy.px_step]. set (m := xs_machine _).
    destruct (m_step m (EGet c i)) as [m' o]; cbn.
    destruct o; split; intros E; try discriminate; congruence.
  Qed.

  (** ** Reads: [contains] agrees with [get]. *)
  Lemma ctx_contains_get h (g : graph Id Node) c i :
    ctx_contains h g c i = match ctx_get h g c i with Some _ => true | None => false end.
  Proof.
    induction c as [b t|p IH b t]; cbn; destruct (find_op _ i) as [[]|]; auto.
  Qed.

  Lemma src_contains_get (m : machine) s i r : src_get m s i = Some r ->
    src_contains m s i = Some (match r with Some _ => true | None => false end).
  Proof.
    destruct s as [g|c]; cbn.
    - intros [= <-]. reflexivity.
    - unfold m_step, p_step. destruct (p_hung (m_proto m)); cbn; [intros E; discriminate E|].
      destruct (ctx_live (m_proto m) c); cbn; [|intros E; discriminate E]. intros [= <-].
      now rewrite ctx_contains_get.
  Qed.

  (** ** What a step does to a proxy *)
  Definition keeps (e : pxevent) (k : nat) (p p' : proxy) : Prop :=
    px_source p' = px_source p /\ px_id p' = px_id p /\
    (px_value p' = px_value p \/ (px_value p = None /\ (e = PxDeref k \/ e = PxSuccessors k))).

  Lemma nth_error_alter {A} (f : A -> A) n (l : list A) k :
    nth_error (alter f n l) k = if Nat.eqb k n then option_map f (nth_error l k) else nth_error l k.
  Proof.
    revert n k. induction l as [|x l IH]; intros [|n] [|k]; cbn; auto; try (destruct (k =? n); reflexivity).
  Qed.

  Lemma px_deref_keeps (m : machine) p p' v : px_deref m p = Some (p', v) ->
    px_source p' = px_source p /\ px_id p' = px_id p /\ px_value p' = Some v /\
    (px_value p = Some v \/ (px_value p = None /\ src_get m (px_source p) (px_id p) = Some v)).
  Proof.
    unfold px_deref. destruct (px_value p) as [w|] eqn:E.
    - intros [= <- <-]. rewrite E. repeat split; auto.
    - destruct (src_get m (px_source p) (px_id p)) as [w|]; [|discriminate]. intros [= <- <-]. cbn. repeat split; auto.
  Qed.

  Lemma alter_len {A} (f : A -> A) n (l : list A) : length (alter f n l) = length l.
  Proof. revert n. induction l as [|x l IH]; intros [|n]; cbn; auto. Qed.

  Lemma px_step_keeps st e k p : nth_error (xs_proxies st) k = Some p ->
    exists p', nth_error (xs_proxies (fst (px_step st e))) k = Some p' /\ keeps e k p p'.
  Proof.
    intros N. assert (R : keeps e k p p) by (unfold keeps; auto).
    assert (L : k < length (xs_proxies st)) by (apply nth_error_Some; congruence).
    destruct e as [e|s i|j|j|j|j]; cbn [Proxy.px_step].
    - destruct (m_step _ e). cbn. eauto.
    - destruct (src_ok _ s); cbn; [|eauto]. rewrite nth_error_app1 by assumption. eauto.
    - destruct (nth_error (xs_proxies st) j) as [q|] eqn:Q; [|eauto].
      destruct (px_deref _ q) as [[q' v]|] eqn:D; [|eauto]. cbn. rewrite nth_error_alter.
      destruct (Nat.eqb k j) eqn:E; [|eauto]. apply Nat.eqb_eq in E. subst j. rewrite N. cbn.
      rewrite N in Q. injection Q as <-. exists q'. split; [reflexivity|].
      destruct (px_deref_keeps _ _ _ _ D) as (E1 & E2 & E3 & E4). unfold keeps.
      repeat split; auto. destruct E4 as [E4|[E4 _]]; [left; congruence|right; auto].
    - destruct (nth_error (xs_proxies st) j) as [q|] eqn:Q; [|eauto]. cbn.
      rewrite nth_error_app1 by assumption. eauto.
    - destruct (nth_error (xs_proxies st) j) as [q|] eqn:Q; [|eauto].
      destruct (px_virtual _ q); cbn; eauto.
    - destruct (nth_error (xs_proxies st) j) as [q|] eqn:Q; [|eauto].
      destruct (px_successors edges _ q) as [[q' qs]|] eqn:S; [|eauto]. cbn.
      rewrite nth_error_app1 by (rewrite alter_len; assumption). rewrite nth_error_alter.
      destruct (Nat.eqb k j) eqn:E; [|eauto]. apply Nat.eqb_eq in E. subst j. rewrite N. cbn.
      rewrite N in Q. injection Q as <-. exists q'. split; [reflexivity|].
      unfold px_successors in S. destruct (px_deref _ p) as [[p1 v]|] eqn:D; [|discriminate].
      assert (q' = p1) as -> by (destruct v; congruence).
      destruct (px_deref_keeps _ _ _ _ D) as (E1 & E2 & E3 & E4). unfold keeps.
      repeat split; auto. destruct E4 as [E4|[E4 _]]; [left; congruence|right; auto].
  Qed.

  (** ** Successors *)
  Lemma px_succ_deref g es j r : px_says g es (PxDeref j) = PxOut (XNode r) ->
    px_says g es (PxSuccessors j) =
      PxHandles (length (xs_proxies (px_after g es)))
                (match r with Some n => length (edges n) | None => 0 end) /\
    exists p, nth_error (xs_proxies (px_after g es)) j = Some p /\
    exists ps, length ps = length (xs_proxies (px_after g es)) /\
      xs_proxies (px_after g (es ++ [PxSuccessors j])) =
        ps ++ match r with Some n => map (px_new (px_source p)) (edges n) | None => [] end.
  Proof.
    rewrite px_after_snoc. unfold SpecProxy.px_says. cbn [Proxy.px_step]. set (st := px_after g es).
    destruct (nth_error (xs_proxies st) j) as [p|] eqn:N; [|discriminate].
    unfold px_successors. destruct (px_deref (xs_machine st) p) as [[p' v]|]; [|discriminate].
    cbn. intros [= ->]. destruct r as [n|]; cbn.
    - rewrite map_length. split; [reflexivity|]. exists p. split; [reflexivity|].
      exists (alter (fun _ => p') j (xs_proxies st)). split; [apply alter_len|reflexivity].
    - split; [reflexivity|]. exists p. split; [reflexivity|].
      exists (alter (fun _ => p') j (xs_proxies st)). split; [apply alter_len|reflexivity].
  Qed.

  Lemma px_succ_iff g es j f l : px_says g es (PxSuccessors j) = PxHandles f l ->
    exists r, px_says g es (PxDeref j) = PxOut (XNode r).
  Proof.
    unfold SpecProxy.px_says. cbn [Proxy.px_step]. set (st := px_after g es).
    destruct (nth_error (xs_proxies st) j) as [p|] eqn:N; [|discriminate].
    unfold px_successors. destruct (px_deref (xs_machine st) p) as [[p' v]|]; [|discriminate].
    intros _. exists v. reflexivity.
  Qed.

  Lemma px_one_new g es e k : (exists s i, e = PxNode s i) \/ (exists j, e = PxClone j) ->
    px_says g es e = PxHandles k 1 -> k = length (xs_proxies (px_after g es)).
  Proof.
    unfold SpecProxy.px_says. intros [(s & i & ->)|(j & ->)]; cbn [Proxy.px_step].
    - destruct (src_ok _ s); cbn; [congruence|discriminate].
    - destruct (nth_error _ j); cbn; [congruence|discriminate].
  Qed.

  Lemma px_node_new g es s i k : px_says g es (PxNode s i) = PxHandles k 1 ->
    nth_error (xs_proxies (px_after g (es ++ [PxNode s i]))) k = Some (px_new s i).
  Proof.
    intros E. pose proof (px_one_new g es _ k (or_introl (ex_intro _ s (ex_intro _ i eq_refl))) E) as ->.
    rewrite px_after_snoc. unfold SpecProxy.px_says in E. cbn [Proxy.px_step] in *.
    destruct (src_ok _ s); [|discriminate]. cbn. rewrite nth_error_app2, Nat.sub_diag by lia. reflexivity.
  Qed.

  Lemma px_clone_new g es j k : px_says g es (PxClone j) = PxHandles k 1 ->
    exists p, nth_error (xs_proxies (px_after g es)) j = Some p /\
      nth_error (xs_proxies (px_after g (es ++ [PxClone j]))) k = Some p.
  Proof.
    intros E. pose proof (px_one_new g es _ k (or_intror (ex_intro _ j eq_refl)) E) as ->.
    rewrite px_after_snoc. unfold SpecProxy.px_says in E. cbn [Proxy.px_step] in *.
    destruct (nth_error _ j) as [p|]; [|discriminate]. cbn. exists p. split; [reflexivity|].
    rewrite nth_error_app2, Nat.sub_diag by lia. now destruct p.
  Qed.

  Lemma stands_for_proxy g es k s i : stands_for edges g es k s i ->
    exists p, nth_error (xs_proxies (px_after g es)) k = Some p /\ px_source p = s /\ px_id p = i.
  Proof.
    induction 1 as [es s i k E|es s i j k S IH E|es s i j n f l d i' S IH D E N|es e s i k S IH].
    - exists (px_new s i). split; [now apply px_node_new|]. auto.
    - destruct (px_clone_new g es j k E) as (p & Nj & Nk). destruct IH as (p' & Np & Hp).
      exists p. split; [assumption|]. congruence.
    - destruct (px_succ_deref g es j (Some n) D) as (E' & p & Np & ps & L & Q).
      destruct IH as (p' & Np' & Hs & Hi). rewrite Np in Np'. injection Np' as <-.
      rewrite E in E'. injection E' as -> ->. rewrite Q.
      exists (px_new (px_source p) i'). split.
      + rewrite nth_error_app2 by lia. rewrite <- L.
        replace (length ps + d - length ps) with d by lia. rewrite nth_error_map, N. reflexivity.
      + cbn. auto.
    - destruct IH as (p & N & Hs & Hi). destruct (px_step_keeps _ e k p N) as (p' & N' & K1 & K2 & _).
      rewrite px_after_snoc. exists p'. split; [exact N'|]. split; congruence.
  Qed.

  Lemma pristine_proxy g es k : pristine edges g es k ->
    exists p, nth_error (xs_proxies (px_after g es)) k = Some p /\ px_value p = None.
  Proof.
    induction 1 as [es s i k E|es j k P IH E|es j f l d E L|es e k P IH N1 N2].
    - exists (px_new s i). split; [now apply px_node_new|reflexivity].
    - destruct (px_clone_new g es j k E) as (p & Nj & Nk). destruct IH as (p' & Np & Hp).
      exists p. split; [assumption|]. congruence.
    - destruct (px_succ_iff g es j f l E) as [r D].
      destruct (px_succ_deref g es j r D) as (E' & p & Np & ps & Lp & Q).
      rewrite E in E'. injection E' as -> ->. rewrite Q. destruct r as [n|]; [|lia].
      rewrite nth_error_app2 by lia. rewrite <- Lp.
      replace (length ps + d - length ps) with d by lia. rewrite nth_error_map.
      destruct (nth_error (edges n) d) as [i|] eqn:Ni; [|apply nth_error_None in Ni; lia].
      exists (px_new (px_source p) i). auto.
    - destruct IH as (p & N & V). destruct (px_step_keeps _ e k p N) as (p' & N' & _ & _ & K).
      rewrite px_after_snoc. exists p'. split; [exact N'|]. destruct K as [K|[_ [K|K]]]; congruence.
  Qed.

  Lemma px_says_virtual g es k s i r : stands_for edges g es k s i -> source_says g es s i r ->
    px_says g es (PxVirtual k) = PxOut (XBool (match r with None => true | Some _ => false end)).
  Proof.
    intros S R. apply src_get_says, src_contains_get in R.
    destruct (stands_for_proxy g es k s i S) as (p & N & Hs & Hi).
    unfold SpecProxy.px_says. cbn [Proxy.px_step]. rewrite N. unfold px_virtual. rewrite Hs, Hi, R.
    destruct r; reflexivity.
  Qed.

  Lemma src_get_contains (m : machine) s i b : src_contains m s i = Some b -> exists r, src_get m s i = Some r.
  Proof.
    destruct s as [g|c]; cbn; [eauto|]. unfold m_step, p_step.
    destruct (p_hung (m_proto m)); cbn; [intros E; discriminate E|].
    destruct (ctx_live (m_proto m) c); cbn; [eauto|intros E; discriminate E].
  Qed.

  Lemma px_virtual_says g es k s i b : stands_for edges g es k s i ->
    px_says g es (PxVirtual k) = PxOut (XBool b) -> exists r, source_says g es s i r.
  Proof.
    intros S V. destruct (stands_for_proxy g es k s i S) as (p & N & Hs & Hi).
    unfold SpecProxy.px_says in V. cbn [Proxy.px_step] in V. rewrite N in V. unfold px_virtual in V.
    rewrite Hs, Hi in V.
    destruct (src_contains (xs_machine (px_after g es)) s i) as [x|] eqn:C; [|discriminate].
    destruct (src_get_contains _ _ _ _ C) as [r R]. exists r. now apply src_get_says.
  Qed.

  Lemma first_deref g es k s i r : stands_for edges g es k s i -> pristine edges g es k ->
    px_says g es (PxDeref k) = PxOut (XNode r) <-> source_says g es s i r.
  Proof.
    intros S P. rewrite src_get_says. destruct (stands_for_proxy g es k s i S) as (p & N & Hs & Hi).
    destruct (pristine_proxy g es k P) as (p' & N' & V). rewrite N in N'. injection N' as <-.
    unfold SpecProxy.px_says. cbn [Proxy.px_step]. rewrite N. unfold px_deref. rewrite V, Hs, Hi.
    destruct (src_get _ s i) as [v|]; cbn; split; intros E; congruence.
  Qed.

  Lemma deref_stored g es k r : px_says g es (PxDeref k) = PxOut (XNode r) ->
    exists p, nth_error (xs_proxies (px_after g (es ++ [PxDeref k]))) k = Some p /\ px_value p = Some r.
  Proof.
    rewrite px_after_snoc. unfold SpecProxy.px_says. cbn [Proxy.px_step]. set (st := px_after g es).
    destruct (nth_error (xs_proxies st) k) as [p|] eqn:N; [|discriminate].
    destruct (px_deref (xs_machine st) p) as [[p' v]|] eqn:D; [|discriminate]. cbn. intros [= ->].
    exists p'. rewrite nth_error_alter, Nat.eqb_refl, N. split; [reflexivity|].
    now destruct (px_deref_keeps _ _ _ _ D) as (_ & _ & E & _).
  Qed.

  Lemma stored_says g es k p r : nth_error (xs_proxies (px_after g es)) k = Some p -> px_value p = Some r ->
    px_says g es (PxDeref k) = PxOut (XNode r).
  Proof.
    intros N V. unfold SpecProxy.px_says. cbn [Proxy.px_step]. rewrite N. unfold px_deref. now rewrite V.
  Qed.

  Lemma frozen_copies g es k r p : nth_error (xs_proxies (px_after g es)) k = Some p -> px_value p = Some r ->
    forall es' k', copy_of edges g es k es' k' ->
      exists p', nth_error (xs_proxies (px_after g (es ++ es'))) k' = Some p' /\ px_value p' = Some r.
  Proof.
    intros N V es' k' C. induction C as [|es' j k' C IH E|es' e k' C IH].
    - rewrite app_nil_r. eauto.
    - destruct IH as (q & Nq & Vq). rewrite app_assoc.
      destruct (px_clone_new g (es ++ es') j k' E) as (p' & Nj & Nk). exists p'. split; [assumption|]. congruence.
    - destruct IH as (q & Nq & Vq). rewrite app_assoc, px_after_snoc.
      destruct (px_step_keeps _ e k' q Nq) as (p' & N' & _ & _ & K). exists p'. split; [assumption|].
      destruct K as [K|[K _]]; congruence.
  Qed.

  (** ** Proxies over graphs *)
  Definition graph_inv (st : pxstate) : Prop :=
    forall k p gr v, nth_error (xs_proxies st) k = Some p -> px_source p = SGraph gr ->
      px_value p = Some v -> v = g_get gr (px_id p).

  Lemma graph_inv_step st e : graph_inv st -> graph_inv (fst (px_step st e)).
  Proof.
    intros G k p gr v N S V.
    destruct e as [e|s i|j|j|j|j]; cbn [Proxy.px_step] in N.
    - destruct (m_step _ e). cbn in N. eapply G; eassumption.
    - destruct (src_ok _ s); cbn in N; [|eapply G; eassumption].
      destruct (Nat.lt_ge_cases k (length (xs_proxies st))) as [L|L].
      + rewrite nth_error_app1 in N by assumption. eapply G; eassumption.
      + rewrite nth_error_app2 in N by assumption. destruct (k - _) as [|x]; cbn in N.
        * injection N as <-. discriminate.
        * destruct x; discriminate.
    - destruct (nth_error (xs_proxies st) j) as [q|] eqn:Q; [|eapply G; eassumption].
      destruct (px_deref _ q) as [[q' w]|] eqn:D; [|eapply G; eassumption]. cbn in N.
      rewrite nth_error_alter in N. destruct (Nat.eqb k j) eqn:E; [|eapply G; eassumption].
      apply Nat.eqb_eq in E. subst j. rewrite Q in N. cbn in N. injection N as ->.
      destruct (px_deref_keeps _ _ _ _ D) as (E1 & E2 & E3 & [E4|[E4 E5]]).
      + rewrite E2. eapply G; [exact Q|congruence|congruence].
      + rewrite <- E1, S in E5. cbn in E5. congruence.
    - destruct (nth_error (xs_proxies st) j) as [q|] eqn:Q; [|eapply G; eassumption]. cbn in N.
      destruct (Nat.lt_ge_cases k (length (xs_proxies st))) as [L|L].
      + rewrite nth_error_app1 in N by assumption. eapply G; eassumption.
      + rewrite nth_error_app2 in N by assumption. destruct (k - _) as [|x]; cbn in N.
        * injection N as <-. cbn in S, V |- *. eapply G; eassumption.
        * destruct x; discriminate.
    - destruct (nth_error (xs_proxies st) j) as [q|] eqn:Q; [|eapply G; eassumption].
      destruct (px_virtual _ q); cbn in N; eapply G; eassumption.
    - destruct (nth_error (xs_proxies st) j) as [q|] eqn:Q; [|eapply G; eassumption].
      destruct (px_successors edges _ q) as [[q' qs]|] eqn:U; [|eapply G; eassumption]. cbn in N.
      unfold px_successors in U. destruct (px_deref _ q) as [[p1 w]|] eqn:D; [|discriminate].
      assert (q' = p1 /\ forall x, In x qs -> px_value x = None) as [-> Nv].
      { destruct w; injection U as <- <-; split; auto; [|intros x []].
        intros x Ix. apply in_map_iff in Ix as (y & <- & _). reflexivity. }
      destruct (Nat.lt_ge_cases k (length (xs_proxies st))) as [L|L].
      + rewrite nth_error_app1 in N by (rewrite alter_len; assumption).
        rewrite nth_error_alter in N. destruct (Nat.eqb k j) eqn:E; [|eapply G; eassumption].
        apply Nat.eqb_eq in E. subst j. rewrite Q in N. cbn in N. injection N as ->.
        destruct (px_deref_keeps _ _ _ _ D) as (E1 & E2 & E3 & [E4|[E4 E5]]).
        * rewrite E2. eapply G; [exact Q|congruence|congruence].
        * rewrite <- E1, S in E5. cbn in E5. congruence.
      + rewrite nth_error_app2 in N by (rewrite alter_len; assumption).
        apply nth_error_In in N. rewrite (Nv p N) in V. discriminate.
  Qed.

  Lemma graph_inv_after g es : graph_inv (px_after g es).
  Proof.
    induction es as [|e es IH] using rev_ind.
    - intros k p gr v N. destruct k; discriminate.
    - rewrite px_after_snoc. now apply graph_inv_step.
  Qed.

  Lemma graph_deref g es k gr i : stands_for edges g es k (SGraph gr) i ->
    px_says g es (PxDeref k) = PxOut (XNode (g_get gr i)).
  Proof.
    intros S. destruct (stands_for_proxy g es k _ i S) as (p & N & Hs & Hi).
    unfold SpecProxy.px_says. cbn [Proxy.px_step]. rewrite N. unfold px_deref.
    destruct (px_value p) as [v|] eqn:V; cbn.
    - now rewrite (graph_inv_after g es k p gr v N Hs V), Hi.
    - rewrite Hs, Hi. reflexivity.
  Qed.

  (** ** The machine below the proxies *)
  Lemma api_events_app (es es' : list pxevent) : api_events (es ++ es') = api_events es ++ api_events es'.
  Proof. induction es as [|[] es IH]; cbn; auto. now rewrite IH. Qed.

  Lemma px_machine g es : xs_machine (px_after g es) = after g (api_events es).
  Proof.
    induction es as [|e es IH] using rev_ind; [reflexivity|].
    rewrite px_after_snoc, api_events_app.
    assert (E : xs_machine (fst (px_step (px_after g es) e)) =
      match e with PxEvent e => fst (m_step (xs_machine (px_after g es)) e) | _ => xs_machine (px_after g es) end).
    { destruct e as [e|s i|j|j|j|j]; cbn [Proxy.px_step].
      - now destruct (m_step _ e).
      - now destruct (src_ok _ s).
      - destruct (nth_error _ j); [|reflexivity]. now destruct (px_deref _ _) as [[]|].
      - now destruct (nth_error _ j).
      - destruct (nth_error _ j); [|reflexivity]. now destruct (px_virtual _ _).
      - destruct (nth_error _ j); [|reflexivity]. now destruct (px_successors _ _ _) as [[]|]. }
    rewrite E, IH. destruct e; cbn [api_events]; rewrite ?app_nil_r; auto. symmetry. apply after_snoc.
  Qed.

  Lemma says_ask g es c i r : source_says g es (SCtx c) i r <-> ask (after g (api_events es)) c i = XNode r.
  Proof.
    rewrite src_get_says, px_machine. cbn. unfold ask.
    destruct (snd (m_step (after g (api_events es)) (EGet c i))); split; congruence.
  Qed.

  (** ** Paths *)
  Lemma paths_iff (m : machine) s (get : Id -> option Node) :
    (forall i, src_get m s i = Some (get i)) ->
    forall i l, proxy_path edges m (px_new s i) l <-> edge_path edges get i l.
  Proof.
    intros G i l. split.
    - intros P. remember (px_new s i) as p eqn:Ep. revert i Ep.
      induction P as [p|p p' qs q l S Iq P IH]; intros i ->; [constructor|].
      unfold px_successors, px_deref in S. cbn in S. rewrite G in S.
      destruct (get i) as [n|] eqn:E.
      + injection S as <- <-. apply in_map_iff in Iq as (j & <- & Ij).
        cbn. eapply ep_step; [exact E|exact Ij|]. now apply IH.
      + injection S as <- <-. destruct Iq.
    - induction 1 as [i|i n j l E Ij P IH]; [exact (pp_here edges m (px_new s i))|].
      change i with (px_id (px_new s i)) at 2.
      eapply pp_step; [|apply (in_map (px_new s)); exact Ij|exact IH].
      unfold px_successors, px_deref. cbn. rewrite G, E. reflexivity.
  Qed.
End Facts.
