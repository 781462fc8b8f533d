(** Facts about graphs of lazy documents. *)
From Coq Require Import List Bool Arith Lia.
From Verif Require Import Ord OrdFacts BTree BTreeFacts Graph Tx Lazy SpecLazy LazyFacts LazyGraph SpecLazyGraph.
Import ListNotations.

Section Facts.
  Context {Id Doc : Type} `{OI : OrdT Id} `{HI : Identify Doc Id}.
  Notation label := (label Id Doc).
  Notation lstate := (lstate Id Doc).
  Notation ylabel := (ylabel Id Doc).
  Notation ystate := (ystate Id Doc).

  Lemma y_run_app (es1 es2 : list ylabel) (st : ystate) : y_run st (es1 ++ es2) = y_run (y_run st es1) es2.
  Proof. apply fold_left_app. Qed.

  Lemma y_after_app (es1 es2 : list ylabel) : y_after (es1 ++ es2) = y_run (y_after es1) es2.
  Proof. apply y_run_app. Qed.

  Lemma y_after_snoc (es : list ylabel) e : y_after (es ++ [e]) = fst (y_step (y_after es) e).
  Proof. now rewrite y_after_app. Qed.

  (** ** Cloning *)

  Lemma y_clone_spec d (ds : lstate) x : nth_error (l_docs ds) d = Some x ->
    y_clone d ds = (LState (l_docs ds ++ [ld_clone x]) (l_calls ds), Some (length (l_docs ds))).
  Proof. intros X. unfold y_clone. cbn. now rewrite X. Qed.

  Lemma y_clone_none d (ds : lstate) : nth_error (l_docs ds) d = None -> y_clone d ds = (ds, None).
  Proof. intros X. unfold y_clone. cbn. now rewrite X. Qed.

  (** ** What a step does to the documents *)

  Lemma y_clone_docs d (ds : lstate) : fst (y_clone d ds) = fst (l_step ds (LClone d)).
  Proof. unfold y_clone. destruct (l_step ds (LClone d)) as [ds' []]; reflexivity. Qed.

  Lemma y_step_docs (st : ystate) (e : ylabel) :
    y_docs (fst (y_step st e)) = y_docs st \/
    exists l, y_docs (fst (y_step st e)) = fst (l_step (y_docs st) l) /\ (e = YDocs l \/ exists d, l = LClone d).
  Proof.
    assert (G : forall i, fst (y_get st i) = y_docs st \/ exists l, fst (y_get st i) = fst (l_step (y_docs st) l) /\ exists d, l = LClone d).
    { intros i. unfold y_get. destruct (bt_get i (y_graph st)) as [d|]; [|now left]. right. exists (LClone d).
      split; [apply y_clone_docs|eauto]. }
    destruct e as [l|d|i|i|i| |i|p|p]; cbn.
    - right. exists l. destruct (l_step (y_docs st) l). cbn. auto.
    - left. destruct (existsb _ _); [reflexivity|]. now destruct (nth_error _ d).
    - now left.
    - specialize (G i). destruct (y_get st i) as [ds h]. cbn in *. destruct G as [G|(l & G & d & E)]; [now left|right; eauto].
    - now left.
    - now left.
    - now left.
    - destruct (nth_error _ p) as [[i [h|]]|]; [now left| |now left].
      specialize (G i). destruct (y_get st i) as [ds h]. cbn in *. destruct G as [G|(l & G & d & E)]; [now left|right; eauto].
    - destruct (nth_error _ p) as [[i [[d|]|]]|]; try now left.
      right. exists (LClone d). rewrite <- y_clone_docs. destruct (y_clone d (y_docs st)). cbn. eauto.
  Qed.

  Lemma y_run_docs (es : list ylabel) : forall st : ystate, exists ls : list label,
    y_docs (y_run st es) = fst (l_run (y_docs st) ls) /\ forall d, In (LCall d) ls -> In (YDocs (LCall d)) es.
  Proof.
    induction es as [|e es IH]; intros st; [exists []; split; [reflexivity|intros d []]|].
    change (y_run st (e :: es)) with (y_run (fst (y_step st e)) es).
    destruct (IH (fst (y_step st e))) as (ls & E & F). destruct (y_step_docs st e) as [D|(l & D & O)].
    - exists ls. rewrite D in E. split; [exact E|]. intros d I. right. now apply F.
    - exists (l :: ls). split.
      + rewrite E, D. cbn. destruct (l_step (y_docs st) l) as [s o]. cbn. now destruct (l_run s ls).
      + intros d [->|I]; [|right; now apply F]. left. now destruct O as [->|(d' & O)].
  Qed.

  Lemma y_after_docs (es : list ylabel) : exists ls : list label, y_docs (y_after es) = l_after ls.
  Proof. destruct (y_run_docs es y_init) as (ls & E & _). now exists ls. Qed.

  Lemma y_linv (es : list ylabel) : linv (y_docs (y_after es)).
  Proof. destruct (y_after_docs es) as [ls ->]. apply linv_after. Qed.

  Lemma y_run_doc (es : list ylabel) (st : ystate) d x : nth_error (l_docs (y_docs st)) d = Some x ->
    exists y, nth_error (l_docs (y_docs (y_run st es))) d = Some y /\ grows x y.
  Proof. intros X. destruct (y_run_docs es st) as (ls & -> & _). now apply l_run_doc. Qed.

  Lemma y_step_doc (st : ystate) e d x : nth_error (l_docs (y_docs st)) d = Some x ->
    exists y, nth_error (l_docs (y_docs (fst (y_step st e)))) d = Some y /\ grows x y.
  Proof. apply (y_run_doc [e]). Qed.

  (** A call is on a document it was made on. *)
  Lemma y_call_made (es : list ylabel) c d p : nth_error (l_calls (y_docs (y_after es))) c = Some (Call d p) -> In (YDocs (LCall d)) es.
  Proof.
    revert c p. induction es as [|e es IH] using rev_ind; intros c p N; [destruct c; discriminate|].
    rewrite y_after_snoc in N. apply in_or_app. destruct (y_step_docs (y_after es) e) as [D|(l & D & O)]; rewrite D in N; [left; eauto|].
    destruct (l_step_call _ l c d p N) as [[N0 _]|[(-> & _)|[(ans & q & x & _ & Q & _)|(ans & _ & Q & _)]]]; [left; eauto| |left; eauto|left; eauto].
    right. left. now destruct O as [->|(d' & O)].
  Qed.

  (** A document on which no call was made keeps its cell. *)
  Lemma y_uncalled (es1 es2 : list ylabel) d x : ~ In (YDocs (LCall d)) (es1 ++ es2) ->
    nth_error (l_docs (y_docs (y_after es1))) d = Some x -> nth_error (l_docs (y_docs (y_after (es1 ++ es2)))) d = Some x.
  Proof.
    revert x. induction es2 as [|e es2 IH] using rev_ind; intros x U X; [now rewrite app_nil_r|].
    rewrite app_assoc in *. assert (U' : ~ In (YDocs (LCall d)) (es1 ++ es2)) by (intros I; apply U, in_or_app; now left).
    specialize (IH x U' X). rewrite y_after_snoc. destruct (y_step_docs (y_after (es1 ++ es2)) e) as [D|(l & D & _)]; rewrite D; [exact IH|].
    destruct (l_step_doc _ l d x IH) as (y & Y & G1 & G2). rewrite Y. f_equal.
    assert (C : ld_cell y = ld_cell x).
    { destruct G2 as [G2|G2]; [exact G2|]. destruct (ld_cell y) as [v|] eqn:E; [|now rewrite G2].
      destruct (cell_changed _ l d x y IH Y) as (c & ans & p & _ & N); [congruence|]. exfalso. apply U', (y_call_made _ _ _ _ N). }
    destruct x, y; cbn in *; congruence.
  Qed.

  Lemma y_built (es : list ylabel) d i : built es d i -> exists x, nth_error (l_docs (y_docs (y_after es))) d = Some x /\ ld_id x = i.
  Proof.
    intros (e1 & e2 & -> & S). unfold y_says in S. cbn in S. injection S as <-.
    change (e1 ++ YDocs (LBuild i) :: e2) with (e1 ++ [YDocs (LBuild i)] ++ e2). rewrite app_assoc, y_after_app.
    destruct (y_run_doc e2 (y_after (e1 ++ [YDocs (LBuild i)])) (length (l_docs (y_docs (y_after e1)))) (ld_build i)) as (y & Y & G & _).
    - rewrite y_after_snoc. apply nth_snoc_new.
    - exists y. split; [exact Y|exact G].
  Qed.

  Lemma y_built_uncalled (es : list ylabel) d i : built es d i -> ~ In (YDocs (LCall d)) es ->
    nth_error (l_docs (y_docs (y_after es))) d = Some (LDoc i None).
  Proof.
    intros (e1 & e2 & -> & S) U. unfold y_says in S. cbn in S. injection S as <-.
    change (e1 ++ YDocs (LBuild i) :: e2) with (e1 ++ [YDocs (LBuild i)] ++ e2) in *. rewrite app_assoc in *.
    apply y_uncalled; [exact U|]. rewrite y_after_snoc. apply nth_snoc_new.
  Qed.

  Lemma y_made (es : list ylabel) d v : made es d v ->
    exists x, nth_error (l_docs (y_docs (y_after es))) d = Some x /\ ld_cell x = Some v.
  Proof.
    intros (e1 & e2 & -> & S). unfold y_says in S. cbn in S. injection S as <-.
    change (e1 ++ YDocs (LNew v) :: e2) with (e1 ++ [YDocs (LNew v)] ++ e2). rewrite app_assoc, y_after_app.
    destruct (y_run_doc e2 (y_after (e1 ++ [YDocs (LNew v)])) (length (l_docs (y_docs (y_after e1)))) (ld_new v)) as (y & Y & _ & G).
    - rewrite y_after_snoc. apply nth_snoc_new.
    - exists y. split; [exact Y|]. destruct G as [G|G]; [exact G|discriminate].
  Qed.

  (** ** The graph and the proxies *)

  Definition yinv (st : ystate) : Prop :=
    bt_sorted (y_graph st) /\
    (forall i d, In (i, d) (y_graph st) -> exists x, nth_error (l_docs (y_docs st)) d = Some x /\ ld_id x = i) /\
    (forall p i d, nth_error (y_proxies st) p = Some (i, Some (Some d)) ->
       (exists x, nth_error (l_docs (y_docs st)) d = Some x /\ ld_id x = i) /\
       ~ In d (bt_values (y_graph st)) /\
       forall q j, nth_error (y_proxies st) q = Some (j, Some (Some d)) -> q = p).

  Lemma In_insert (k : Id) (v : nat) m j u : In (j, u) (bt_insert k v m) -> (j, u) = (k, v) \/ In (j, u) m.
  Proof.
    revert m. induction m as [|[k' v'] m IH]; cbn; [intuition|]. destruct (cmp k k') eqn:C; cbn.
    - intros [E|I]; [|auto]. left. injection E as <- <-. f_equal. symmetry. now apply cmp_eq.
    - intuition.
    - intros [E|I]; auto. destruct (IH I); auto.
  Qed.

  Lemma In_remove (k : Id) m j (u : nat) : In (j, u) (bt_remove k m) -> In (j, u) m.
  Proof.
    induction m as [|[k' v'] m IH]; cbn; [auto|]. destruct (cmp k k'); cbn; [auto|auto|]. intros [E|I]; auto.
  Qed.

  Lemma In_values (m : btree Id nat) d : In d (bt_values m) <-> exists i, In (i, d) m.
  Proof.
    unfold bt_values. rewrite in_map_iff. split.
    - intros ([i d'] & E & I). cbn in E. subst. eauto.
    - intros (i & I). now exists (i, d).
  Qed.

  Lemma doc_lt (ds : lstate) d x : nth_error (l_docs ds) d = Some x -> d < length (l_docs ds).
  Proof. intros X. apply nth_error_Some. congruence. Qed.

  (** A new document, cloned from one with id [i], changes nothing for the others. *)
  Lemma yinv_docs (st : ystate) ds : yinv st ->
    (forall d x, nth_error (l_docs (y_docs st)) d = Some x -> exists y, nth_error (l_docs ds) d = Some y /\ grows x y) ->
    yinv (YState ds (y_graph st) (y_proxies st)).
  Proof.
    intros (S & G & P) K. split; [exact S|]. cbn. split.
    - intros i d I. destruct (G i d I) as (x & X & E). destruct (K d x X) as (y & Y & E' & _). exists y. split; [exact Y|congruence].
    - intros p i d N. destruct (P p i d N) as ((x & X & E) & U & D). split; [|auto].
      destruct (K d x X) as (y & Y & E' & _). exists y. split; [exact Y|congruence].
  Qed.

  Lemma y_get_spec (st : ystate) i : yinv st ->
    match bt_get i (y_graph st) with
    | None => y_get st i = (y_docs st, None)
    | Some d => exists x, nth_error (l_docs (y_docs st)) d = Some x /\ ld_id x = i /\
        y_get st i = (LState (l_docs (y_docs st) ++ [ld_clone x]) (l_calls (y_docs st)), Some (length (l_docs (y_docs st))))
    end.
  Proof.
    intros (S & G & _). unfold y_get. destruct (bt_get i (y_graph st)) as [d|] eqn:E; [|reflexivity].
    apply bt_get_in in E; [|exact S]. destruct (G i d E) as (x & X & Ex). exists x. split; [exact X|]. split; [exact Ex|].
    now apply y_clone_spec.
  Qed.

  Lemma y_get_docs (st : ystate) i d x : nth_error (l_docs (y_docs st)) d = Some x ->
    exists y, nth_error (l_docs (fst (y_get st i))) d = Some y /\ grows x y.
  Proof.
    intros X. unfold y_get. destruct (bt_get i (y_graph st)) as [d'|].
    - rewrite y_clone_docs. now apply l_step_doc.
    - exists x. split; [exact X|]. unfold grows. auto.
  Qed.

  Lemma yinv_step (st : ystate) e : yinv st -> yinv (fst (y_step st e)).
  Proof.
    intros I. assert (I' := I). destruct I' as (S & G & P). destruct e as [l|d|i|i|i| |i|p|p]; cbn; auto.
    - destruct (l_step (y_docs st) l) as [ds o] eqn:E. apply yinv_docs; [exact I|]. intros d x X.
      replace ds with (fst (l_step (y_docs st) l)) by now rewrite E. now apply l_step_doc.
    - destruct (existsb _ _) eqn:Eh; [exact I|]. destruct (nth_error _ d) as [x|] eqn:X; [|exact I].
      assert (U : ~ In d (y_held st)).
      { intros J. apply not_true_iff_false in Eh. apply Eh, existsb_exists. exists d. split; [exact J|apply Nat.eqb_refl]. }
      split; [now apply bt_insert_sorted|]. cbn. split.
      + intros j u J. apply In_insert in J as [J|J]; [|eauto]. injection J as -> ->. eauto.
      + intros p j u N. destruct (P p j u N) as (E & U' & D). split; [exact E|]. split; [|exact D].
        intros J. apply In_values in J as (k & J). apply In_insert in J as [J|J]; [|apply U', In_values; eauto].
        injection J as -> ->. apply U. unfold y_held. apply in_or_app. right. apply in_flat_map. exists (j, Some (Some d)).
        split; [now apply nth_error_In in N|now left].
    - split; [now apply bt_remove_sorted|]. cbn. split.
      + intros j u J. apply In_remove in J. eauto.
      + intros p j u N. destruct (P p j u N) as (E & U' & D). split; [exact E|]. split; [|exact D].
        intros J. apply In_values in J as (k & J). apply In_remove in J. apply U', In_values. eauto.
    - destruct (y_get st i) as [ds h] eqn:E. apply yinv_docs; [exact I|]. intros d x X.
      replace ds with (fst (y_get st i)) by now rewrite E. now apply y_get_docs.
    - split; [exact S|]. split; [exact G|]. cbn. intros p j u N. apply nth_snoc in N as [N|[_ N]]; [|discriminate].
      destruct (P p j u N) as (E & U' & D). split; [exact E|]. split; [exact U'|]. intros q k Nq.
      apply nth_snoc in Nq as [Nq|[_ Nq]]; [eauto|discriminate].
    - destruct (nth_error _ p) as [[i [h|]]|] eqn:N; [exact I| |exact I].
      pose proof (y_get_spec st i I) as Gs. destruct (bt_get i (y_graph st)) as [d|] eqn:Eg.
      2: { rewrite Gs. split; [exact S|]. split; [exact G|]. cbn. intros q j u Nq. rewrite nth_error_alter in Nq.
           destruct (q =? p); [destruct (nth_error _ q); discriminate|]. destruct (P q j u Nq) as (E & U' & D).
           split; [exact E|]. split; [exact U'|]. intros q' k Nq'. rewrite nth_error_alter in Nq'.
           destruct (q' =? p); [destruct (nth_error (y_proxies st) q'); discriminate|eauto]. }
      destruct Gs as (x & X & Ex & ->).
      assert (I2 : yinv (YState (LState (l_docs (y_docs st) ++ [ld_clone x]) (l_calls (y_docs st))) (y_graph st) (y_proxies st))).
      { apply yinv_docs; [exact I|]. intros d' x' X'. exists x'. split; [now apply nth_snoc_old|]. unfold grows. auto. }
      destruct I2 as (S2 & G2 & P2). split; [exact S2|]. split; [exact G2|]. cbn in *. clear S2 G2. intros q j u Nq.
      rewrite nth_error_alter in Nq. destruct (q =? p) eqn:Eq.
      + apply Nat.eqb_eq in Eq. subst q. rewrite N in Nq. injection Nq as <- <-. split; [|split].
        * exists (ld_clone x). split; [apply nth_snoc_new|exact Ex].
        * intros J. apply In_values in J as (k & J). destruct (G k _ J) as (y & Y & _). apply doc_lt in Y. lia.
        * intros q k Nq. rewrite nth_error_alter in Nq. destruct (q =? p) eqn:Eq; [now apply Nat.eqb_eq in Eq|].
          destruct (P q k _ Nq) as ((y & Y & _) & _). apply doc_lt in Y. lia.
      + destruct (P2 q j u Nq) as (E & U' & D). split; [exact E|]. split; [exact U'|]. intros q' k Nq'.
        rewrite nth_error_alter in Nq'. destruct (q' =? p) eqn:Eq'; [|eauto].
        apply Nat.eqb_eq in Eq'. subst q'. rewrite N in Nq'. injection Nq' as <- <-.
        destruct (P q j _ Nq) as ((y & Y & _) & _). apply doc_lt in Y. lia.
    - destruct (nth_error _ p) as [[i v]|] eqn:N; [|exact I].
      assert (K : (forall d, v <> Some (Some d)) -> yinv (YState (y_docs st) (y_graph st) (y_proxies st ++ [(i, v)]))).
      { intros V. split; [exact S|]. split; [exact G|]. cbn. intros q j u Nq. apply nth_snoc in Nq as [Nq|[_ Nq]]; [|exfalso; apply (V u); congruence].
        destruct (P q j u Nq) as (E & U' & D). split; [exact E|]. split; [exact U'|]. intros q' k Nq'.
        apply nth_snoc in Nq' as [Nq'|[_ Nq']]; [eauto|exfalso; apply (V u); congruence]. }
      destruct v as [[d|]|]; try (apply K; discriminate). clear K.
      destruct (P p i d N) as ((x & X & Ex) & _). rewrite (y_clone_spec d _ x X). cbn.
      split; [exact S|]. cbn. split.
      + intros j u J. destruct (G j u J) as (y & Y & E). exists y. split; [now apply nth_snoc_old|exact E].
      + intros q j u Nq. apply nth_snoc in Nq as [Nq|[-> Nq]].
        * destruct (P q j u Nq) as ((y & Y & E) & U' & D). split; [exists y; split; [now apply nth_snoc_old|exact E]|].
          split; [exact U'|]. intros q' k Nq'. apply nth_snoc in Nq' as [Nq'|[-> Nq']]; [eauto|].
          injection Nq' as -> ->. apply doc_lt in Y. lia.
        * injection Nq as -> ->. split; [exists (ld_clone x); split; [apply nth_snoc_new|exact Ex]|]. split.
          -- intros J. apply In_values in J as (k & J). destruct (G k _ J) as (y & Y & _). apply doc_lt in Y. lia.
          -- intros q' k Nq'. apply nth_snoc in Nq' as [Nq'|[-> _]]; [|reflexivity].
             destruct (P q' k _ Nq') as ((y & Y & _) & _). apply doc_lt in Y. lia.
  Qed.

  Lemma yinv_after (es : list ylabel) : yinv (y_after es).
  Proof.
    induction es as [|e es IH] using rev_ind; [|rewrite y_after_snoc; now apply yinv_step].
    split; [constructor|]. split; [intros i d []|intros [] i d N; discriminate].
  Qed.

  (** A proxy that has not been dereferenced. *)
  Lemma y_fresh_proxy (e1 e2 : list ylabel) i p : y_says e1 (YNode i) = YProxy p -> ~ In (YDeref p) e2 ->
    nth_error (y_proxies (y_after (e1 ++ YNode i :: e2))) p = Some (i, None).
  Proof.
    intros S. unfold y_says in S. cbn in S. injection S as <-. set (p := length (y_proxies (y_after e1))).
    change (e1 ++ YNode i :: e2) with (e1 ++ [YNode i] ++ e2). rewrite app_assoc.
    induction e2 as [|e e2 IH] using rev_ind; intros U.
    - rewrite app_nil_r, y_after_snoc. apply nth_snoc_new.
    - clearbody p. rewrite app_assoc, y_after_snoc.
      assert (N := IH (fun J => U (in_or_app _ _ _ (or_introl J)))). clear IH. set (st := y_after _) in *. clearbody st.
      destruct e as [l|d|j|j|j| |j|q|q]; cbn; auto.
      + destruct (l_step (y_docs st) l). exact N.
      + destruct (existsb _ _); [exact N|]. destruct (nth_error _ d); exact N.
      + destruct (y_get st j). exact N.
      + now apply nth_snoc_old.
      + assert (Ne : q <> p) by (intros ->; apply U, in_or_app; right; now left).
        destruct (nth_error (y_proxies st) q) as [[j [h|]]|] eqn:Nq; [exact N| |exact N].
        destruct (y_get st j) as [ds h]. cbn. rewrite nth_error_alter.
        apply not_eq_sym, Nat.eqb_neq in Ne. now rewrite Ne.
      + destruct (nth_error (y_proxies st) q) as [[j [[d|]|]]|] eqn:Nq; try exact N; try (now apply nth_snoc_old).
        destruct (y_clone d (y_docs st)). now apply nth_snoc_old.
  Qed.

  Lemma in_graph_iff (es : list ylabel) d : in_graph es d <-> In d (bt_values (y_graph (y_after es))).
  Proof.
    unfold in_graph, y_says. cbn. split; [intros (ds & E & J)|intros J; eauto]. injection E as <-. exact J.
  Qed.

  (** The copy has the content the document in the graph had. *)
  Lemma copied_spec (es : list ylabel) i e h : copied es i e h ->
    exists d x, bt_get i (y_graph (y_after es)) = Some d /\ nth_error (l_docs (y_docs (y_after es))) d = Some x /\ ld_id x = i /\
      h = length (l_docs (y_docs (y_after es))) /\
      y_docs (y_after (es ++ [e])) = LState (l_docs (y_docs (y_after es)) ++ [ld_clone x]) (l_calls (y_docs (y_after es))) /\
      y_graph (y_after (es ++ [e])) = y_graph (y_after es).
  Proof.
    intros C. pose proof (y_get_spec (y_after es) i (yinv_after es)) as G. rewrite y_after_snoc.
    destruct C as [h S|p h e1 e2 Ees Sn U S].
    - unfold y_says in S. cbn in S |- *. destruct (bt_get i (y_graph (y_after es))) as [d|] eqn:E.
      + destruct G as (x & X & Ex & Eg). rewrite Eg in S |- *. cbn in S |- *. injection S as <-. exists d, x. auto 10.
      + rewrite G in S. discriminate.
    - assert (N : nth_error (y_proxies (y_after es)) p = Some (i, None)) by (rewrite Ees; now apply y_fresh_proxy).
      unfold y_says in S. cbn in S |- *. rewrite N in S |- *. destruct (bt_get i (y_graph (y_after es))) as [d|] eqn:E.
      + destruct G as (x & X & Ex & Eg). rewrite Eg in S |- *. cbn in S |- *. injection S as <-. exists d, x. auto 10.
      + rewrite G in S. discriminate.
  Qed.

  (** ** Accesses *)

  Lemma asked_from_app (es1 es2 : list ylabel) c : forall e0, asked_from e0 (es1 ++ es2) c = asked_from e0 es1 c ++ asked_from (e0 ++ es1) es2 c.
  Proof.
    induction es1 as [|e es1 IH]; intros e0; cbn; [now rewrite app_nil_r|]. rewrite IH, <- !app_assoc. reflexivity.
  Qed.

  Lemma asked_snoc (es : list ylabel) e c : asked (es ++ [e]) c =
    asked es c ++ match e, y_says es e with
                  | YDocs (LStep c' _), YLazy (LConsulted i _) => if Nat.eqb c c' then [i] else []
                  | _, _ => []
                  end.
  Proof. unfold asked. rewrite asked_from_app. cbn. now rewrite app_nil_r. Qed.

  (** The repository is asked only by a call that has looked into the cell in vain. *)
  Lemma consulted_inv (st : ystate) c ans i a : snd (y_step st (YDocs (LStep c ans))) = YLazy (LConsulted i a) ->
    exists d x, nth_error (l_calls (y_docs st)) c = Some (Call d AtFind) /\ nth_error (l_docs (y_docs st)) d = Some x /\ i = ld_id x.
  Proof.
    cbn. destruct (nth_error (l_calls (y_docs st)) c) as [[d p]|] eqn:N; [|discriminate].
    destruct (is_done p) eqn:Dp; [discriminate|]. destruct (nth_error (l_docs (y_docs st)) d) as [x|] eqn:X; [|discriminate].
    destruct (deref_step x p ans) as [w p'] eqn:E. cbn. destruct p; try (destruct p'; discriminate).
    intros Eq. injection Eq as <- _. eauto.
  Qed.

  (** A call that has not begun has asked for nothing. *)
  Lemma y_calls_grow (st : ystate) e : length (l_calls (y_docs st)) <= length (l_calls (y_docs (fst (y_step st e)))).
  Proof.
    destruct (y_step_docs st e) as [->|(l & -> & _)]; [lia|]. destruct l as [i|v|d|d|c ans]; cbn; auto.
    - destruct (nth_error _ d); auto.
    - destruct (nth_error _ d); cbn; [rewrite app_length; cbn; lia|lia].
    - destruct (nth_error (l_calls (y_docs st)) c) as [[d p]|]; [|auto]. destruct (is_done p); [auto|].
      destruct (nth_error _ d) as [x|]; [|auto]. destruct (deref_step x p ans). cbn. unfold set_pc. rewrite alter_len. lia.
  Qed.

  Lemma asked_unborn (es : list ylabel) c : length (l_calls (y_docs (y_after es))) <= c -> asked es c = [].
  Proof.
    induction es as [|e es IH] using rev_ind; intros L; [reflexivity|]. rewrite asked_snoc. rewrite y_after_snoc in L.
    rewrite IH by (pose proof (y_calls_grow (y_after es) e); lia). cbn.
    destruct e as [[| | | |c' ans]| | | | | | | |]; try reflexivity. unfold y_says.
    destruct (snd (y_step (y_after es) (YDocs (LStep c' ans)))) as [|[| | |i a|]| | | |] eqn:S; try reflexivity.
    destruct (Nat.eqb_spec c c'); [|reflexivity]. subst c'.
    destruct (consulted_inv _ _ _ _ _ S) as (d & x & N & _). assert (N' : c < length (l_calls (y_docs (y_after es)))) by (apply nth_error_Some; congruence). pose proof (y_calls_grow (y_after es) (YDocs (LStep c ans))). lia.
  Qed.

  Lemma y_run_ydocs (ls : list label) : forall st : ystate,
    y_run st (map YDocs ls) = YState (fst (l_run (y_docs st) ls)) (y_graph st) (y_proxies st).
  Proof.
    induction ls as [|l ls IH]; intros st; [now destruct st|].
    change (y_run st (map YDocs (l :: ls))) with (y_run (fst (y_step st (YDocs l))) (map YDocs ls)). rewrite IH. cbn.
    destruct (l_step (y_docs st) l) as [s o]. cbn. now destruct (l_run s ls).
  Qed.

  Lemma asked_ydocs (ls : list label) c : (forall c' ans, In (LStep c' ans) ls -> c' = c) -> forall e0,
    asked_from e0 (map YDocs ls) c = consultations (snd (l_run (y_docs (y_after e0)) ls)).
  Proof.
    induction ls as [|l ls IH]; intros A e0; [reflexivity|]. cbn [map asked_from].
    rewrite IH by (intros c' ans J; apply (A c' ans); now right). rewrite y_after_snoc.
    cbn [l_run y_step]. destruct (l_step (y_docs (y_after e0)) l) as [s o] eqn:E. cbn [fst snd y_docs].
    assert (Es : y_says e0 (YDocs l) = YLazy o) by (unfold y_says; cbn [y_step]; now rewrite E).
    destruct (l_run s ls) as [s2 os]. cbn [snd]. destruct l as [i|v|d|d|c' ans].
    - cbn in E. injection E as _ <-. reflexivity.
    - cbn in E. injection E as _ <-. reflexivity.
    - cbn in E. destruct (nth_error _ d); injection E as _ <-; reflexivity.
    - cbn in E. destruct (nth_error _ d); injection E as _ <-; reflexivity.
    - rewrite Es, (A c' ans (or_introl eq_refl)), Nat.eqb_refl. now destruct o.
  Qed.

  Lemma access_docs (es : list ylabel) d ans : access es d ans =
    map YDocs (LCall d :: repeat (LStep (length (l_calls (y_docs (y_after es)))) ans) 4).
  Proof. reflexivity. Qed.

  Lemma access_state (es : list ylabel) d x ans : nth_error (l_docs (y_docs (y_after es))) d = Some x ->
    l_docs (y_docs (y_after (es ++ access es d ans))) =
      match ld_cell x, ans with None, Some v => set_cell v d (l_docs (y_docs (y_after es))) | _, _ => l_docs (y_docs (y_after es)) end /\
    y_graph (y_after (es ++ access es d ans)) = y_graph (y_after es) /\
    y_proxies (y_after (es ++ access es d ans)) = y_proxies (y_after es).
  Proof.
    intros X. rewrite y_after_app, access_docs, y_run_ydocs. cbn [y_docs y_graph y_proxies]. split; [|auto].
    destruct (access_spec (y_docs (y_after es)) d x ans X) as [_ E]. rewrite <- E. cbn [a_step].
    destruct (l_run _ _) as [s os]. cbn [fst]. destruct (nth_error (l_calls s) _) as [[? []]|]; reflexivity.
  Qed.

  Lemma answers_spec (es : list ylabel) d x ans : nth_error (l_docs (y_docs (y_after es))) d = Some x ->
    match ld_cell x with
    | Some v => answers es d ans (Some v) []
    | None => answers es d ans ans [ld_id x]
    end.
  Proof.
    intros X. destruct (access_spec (y_docs (y_after es)) d x ans X) as [E _]. cbn [a_step] in E.
    set (c := length (l_calls (y_docs (y_after es)))) in *.
    assert (A : asked (es ++ access es d ans) c = consultations (snd (l_run (y_docs (y_after es)) (LCall d :: repeat (LStep c ans) 4)))).
    { unfold asked. rewrite asked_from_app. fold (asked es c). rewrite asked_unborn by reflexivity. rewrite access_docs, asked_ydocs; [reflexivity|].
      intros c' ans' J. destruct J as [J|J]; [discriminate|]. apply repeat_spec in J. injection J as -> _. reflexivity. }
    assert (R : y_docs (y_after (es ++ access es d ans)) = fst (l_run (y_docs (y_after es)) (LCall d :: repeat (LStep c ans) 4))).
    { now rewrite y_after_app, access_docs, y_run_ydocs. }
    destruct (l_run (y_docs (y_after es)) _) as [s os]. cbn [fst snd] in *.
    unfold answers, y_returned. fold c. rewrite R, A. destruct (nth_error (l_calls s) c) as [[d' [| |v| |r]]|] eqn:N.
    1, 2, 3, 4, 6: destruct (ld_cell x); discriminate.
    assert (Ed : d' = d).
    { destruct (call_progress (repeat (LStep c ans) 4) (fst (l_step (y_docs (y_after es)) (LCall d))) c d AtGet) as (p & Np & _).
      - apply linv_step, y_linv.
      - cbn. rewrite X. apply nth_snoc_new.
      - revert R. rewrite y_after_app, access_docs, y_run_ydocs. cbn [y_docs]. fold c. cbn [l_run].
        destruct (l_step (y_docs (y_after es)) (LCall d)) as [s0 o0]. cbn [fst] in Np |- *. intros R.
        destruct (l_run s0 _) as [s1 o1]. cbn [fst] in *. subst s1. congruence. }
    subst d'. destruct (ld_cell x); injection E as <- <-; auto.
  Qed.

  (** ** Calls on a document that has its content *)

  Lemma y_loaded_calls (es1 es2 : list ylabel) d x v : nth_error (l_docs (y_docs (y_after es1))) d = Some x -> ld_cell x = Some v ->
    forall c p, length (l_calls (y_docs (y_after es1))) <= c ->
      nth_error (l_calls (y_docs (y_after (es1 ++ es2)))) c = Some (Call d p) ->
      (p = AtGet \/ p = Done (Some v)) /\ asked (es1 ++ es2) c = [].
  Proof.
    intros X C c p L N.
    assert (K : forall es p, nth_error (l_calls (y_docs (y_after (es1 ++ es)))) c = Some (Call d p) -> p = AtGet \/ p = Done (Some v)).
    { intros es q Nq. rewrite y_after_app in Nq. destruct (y_run_docs es (y_after es1)) as (ls & E & _). rewrite E in Nq.
      now apply (late_calls ls _ d x v X C c). }
    split; [eauto|].
    revert p N. induction es2 as [|e es2 IH] using rev_ind; intros p N.
    { rewrite app_nil_r in *. apply nth_error_None in L. congruence. }
    rewrite app_assoc in *. rewrite asked_snoc, y_after_snoc in *.
    assert (B : (exists q, nth_error (l_calls (y_docs (y_after (es1 ++ es2)))) c = Some (Call d q)) \/
                length (l_calls (y_docs (y_after (es1 ++ es2)))) <= c).
    { destruct (y_step_docs (y_after (es1 ++ es2)) e) as [D|(l & D & _)]; rewrite D in N; [eauto|].
      destruct (l_step_call _ l c d p N) as [[N0 _]|[(_ & -> & _)|[(ans & q & y & _ & Q & _)|(ans & _ & Q & _)]]]; eauto. }
    assert (A : asked (es1 ++ es2) c = []).
    { destruct B as [[q B]|B]; [eauto|now apply asked_unborn]. }
    rewrite A. cbn. destruct e as [[| | | |c' ans]| | | | | | | |]; try reflexivity. unfold y_says.
    destruct (snd (y_step (y_after (es1 ++ es2)) (YDocs (LStep c' ans)))) as [|[| | |i a|]| | | |] eqn:S; try reflexivity.
    destruct (Nat.eqb_spec c c'); [|reflexivity]. subst c'.
    destruct (consulted_inv _ _ _ _ _ S) as (d' & y & N' & _). exfalso. destruct B as [[q B]|B].
    - rewrite N' in B. injection B as -> <-. destruct (K es2 AtFind N'); discriminate.
    - apply nth_error_None in B. congruence.
  Qed.
End Facts.
