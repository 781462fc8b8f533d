(** Graphs of lazy documents: C115, C116. *)
From Coq Require Import List Bool Arith Lia.
From Verif Require Import Ord OrdFacts BTree BTreeFacts Graph Tx Lazy SpecLazy LazyFacts LazyGraph SpecLazyGraph LazyGraphFacts.
Import ListNotations.

Section Props.
  Context {Id Doc : Type} `{OI : OrdT Id} `{HI : Identify Doc Id}.
  Notation ylabel := (ylabel Id Doc).

  (** The document in the graph under its id. *)
  Lemma in_graph_get (es : list ylabel) d i : in_graph es d -> y_id es d i -> bt_get i (y_graph (y_after es)) = Some d.
  Proof.
    intros J (x & X & Ex). apply in_graph_iff, In_values in J as (k & J). destruct (yinv_after es) as (S & G & _).
    destruct (G k d J) as (y & Y & Ey). assert (Ek : k = i) by congruence. rewrite Ek in J. apply bt_get_in; assumption.
  Qed.

  Lemma in_graph_lt (es : list ylabel) d : in_graph es d -> d < length (l_docs (y_docs (y_after es))).
  Proof.
    intros J. apply in_graph_iff, In_values in J as (k & J). destruct (yinv_after es) as (_ & G & _).
    destruct (G k d J) as (x & X & _). exact (doc_lt _ _ _ X).
  Qed.

  Lemma built_id (es : list ylabel) d i : built es d i -> y_id es d i.
  Proof. apply y_built. Qed.

  (** C115.  As long as nobody dereferences the document in the graph itself, which only iterating the graph allows, each
      copy of it, by [get] or through a proxy, starts unloaded: reading it asks the repository again, and gives what it answers. *)
  Theorem C115_copies_start_unloaded :
    forall (es : list ylabel) d i e h, built es d i -> ~ In (YDocs (LCall d)) es -> in_graph es d -> copied es i e h ->
      forall ans, answers (es ++ [e]) h ans ans [i].
  Proof.
    intros es d i e h B U J C ans. destruct (copied_spec es i e h C) as (d' & x & Eg & X & _ & -> & Ed & _).
    rewrite (in_graph_get es d i J (built_id es d i B)) in Eg. injection Eg as <-.
    rewrite (y_built_uncalled es d i B U) in X. injection X as <-.
    apply (answers_spec (es ++ [e]) (length (l_docs (y_docs (y_after es)))) (ld_clone (LDoc i None)) ans).
    rewrite Ed. apply nth_snoc_new.
  Qed.

  (** C115.  Two readers of the same node, while nobody changes the graph, may read two different documents, one of them even none. *)
  Theorem C115_readers_may_disagree :
    forall (es : list ylabel) d i (a1 a2 : option Doc), built es d i -> ~ In (YDocs (LCall d)) es -> in_graph es d ->
      exists h1 h2,
        let es1 := es ++ [YGet i] in
        let es2 := es1 ++ access es1 h1 a1 in
        y_says es (YGet i) = YDoc (Some h1) /\ answers es1 h1 a1 a1 [i] /\
        y_says es2 (YGet i) = YDoc (Some h2) /\ answers (es2 ++ [YGet i]) h2 a2 a2 [i].
  Proof.
    intros es d i a1 a2 B U J. pose proof (in_graph_lt es d J) as Ld.
    assert (Get : forall es', in_graph es' d -> built es' d i -> exists h, y_says es' (YGet i) = YDoc (Some h) /\ h = length (l_docs (y_docs (y_after es')))).
    { intros es' J' B'. pose proof (y_get_spec (y_after es') i (yinv_after es')) as G.
      rewrite (in_graph_get es' d i J' (built_id es' d i B')) in G. destruct G as (x & _ & _ & G).
      eexists. split; [|reflexivity]. unfold y_says. cbn. now rewrite G. }
    destruct (Get es J B) as (h1 & S1 & E1). exists h1.
    assert (C1 := copied_get es i h1 S1). assert (A1 := C115_copies_start_unloaded es d i _ h1 B U J C1 a1).
    set (es1 := es ++ [YGet i]) in *. set (es2 := es1 ++ access es1 h1 a1).
    assert (B2 : built es2 d i).
    { destruct B as (e1 & e2 & -> & S). exists e1, (e2 ++ [YGet i] ++ access es1 h1 a1). split; [|exact S].
      unfold es2, es1. now rewrite <- !app_assoc. }
    assert (U2 : ~ In (YDocs (LCall d)) es2).
    { unfold es2, es1. intros K. apply in_app_or in K as [K|K]; [apply in_app_or in K as [K|K]; [auto|destruct K as [K|[]]; discriminate]|].
      unfold access in K. destruct K as [K|K]; [injection K as ->; lia|]. apply repeat_spec in K. discriminate. }
    assert (J2 : in_graph es2 d).
    { apply in_graph_iff. destruct (copied_spec es i _ h1 C1) as (d' & x & _ & _ & _ & Eh & Ed & Eg). fold es1 in Ed, Eg.
      destruct (access_state es1 h1 (ld_clone x) a1) as (_ & G & _).
      - rewrite Ed, Eh. apply nth_snoc_new.
      - unfold es2. rewrite G, Eg. now apply in_graph_iff. }
    destruct (Get es2 J2 B2) as (h2 & S2 & _). exists h2. cbn zeta. repeat split; auto; try apply A1.
    - apply (C115_copies_start_unloaded es2 d i _ h2 B2 U2 J2 (copied_get es2 i h2 S2) a2).
    - apply (C115_copies_start_unloaded es2 d i _ h2 B2 U2 J2 (copied_get es2 i h2 S2) a2).
  Qed.

  (** C115.  The document a proxy gives is its own: it is always the same one, it is never the one in the graph, whatever is done
      later, and no other proxy gives it. *)
  Theorem C115_a_proxy_has_its_own :
    forall (es : list ylabel) p h, y_says es (YDeref p) = YDoc (Some h) ->
      forall es2, let after := es ++ [YDeref p] ++ es2 in
        ~ in_graph after h /\ y_says after (YDeref p) = YDoc (Some h) /\
        forall q, y_says after (YDeref q) = YDoc (Some h) -> q = p.
  Proof.
    intros es p h S es2 after.
    assert (N : forall es2, exists i, nth_error (y_proxies (y_after (es ++ [YDeref p] ++ es2))) p = Some (i, Some (Some h))).
    { intros l. rewrite app_assoc. induction l as [|e l [i IH]] using rev_ind.
      - rewrite app_nil_r, y_after_snoc. unfold y_says in S. cbn in S |- *.
        destruct (nth_error _ p) as [[i [v|]]|] eqn:N; [|destruct (y_get (y_after es) i) as [ds v]|discriminate]; cbn in *; injection S as ->.
        + eauto.
        + exists i. now rewrite nth_error_alter, Nat.eqb_refl, N.
      - exists i. rewrite app_assoc, y_after_snoc. set (st := y_after _) in *. clearbody st.
        destruct e as [l0|d|j|j|j| |j|q|q]; cbn; auto.
        + now destruct (l_step (y_docs st) l0).
        + destruct (existsb _ _); [exact IH|]. now destruct (nth_error _ d).
        + now destruct (y_get st j).
        + now apply nth_snoc_old.
        + destruct (nth_error (y_proxies st) q) as [[j [v|]]|] eqn:Nq; [exact IH| |exact IH].
          destruct (y_get st j) as [ds v]. cbn. rewrite nth_error_alter. destruct (Nat.eqb_spec p q); [congruence|exact IH].
        + destruct (nth_error (y_proxies st) q) as [[j [[d|]|]]|] eqn:Nq; try exact IH; try (now apply nth_snoc_old).
          destruct (y_clone d (y_docs st)). now apply nth_snoc_old. }
    destruct (N es2) as [i Np]. fold after in Np. destruct (yinv_after after) as (_ & _ & P). destruct (P p i h Np) as ((x & X & _) & U & D).
    split; [now rewrite in_graph_iff|]. split; [unfold y_says; cbn; now rewrite Np|]. intros q Sq. unfold y_says in Sq. cbn in Sq.
    destruct (nth_error (y_proxies (y_after after)) q) as [[j [v|]]|] eqn:Nq; [| |discriminate].
    - cbn in Sq. injection Sq as ->. eauto.
    - exfalso. pose proof (y_get_spec (y_after after) j (yinv_after after)) as G. apply doc_lt in X.
      destruct (bt_get j (y_graph (y_after after))) as [d|]; [destruct G as (y & _ & _ & G)|]; rewrite G in Sq; cbn in Sq; [|discriminate].
      injection Sq as Sq. lia.
  Qed.

  (** C116.  Once the document in the graph itself has its content, from the start or because a call on it returned it, all later
      copies have it: every call on them, under any interleaving, answers that content, and never asks the repository. *)
  Theorem C116_loaded_for_all :
    forall (es : list ylabel) d v, made es d v \/ (exists c, y_returned es c d (Some v)) ->
      forall es2 i e h, in_graph (es ++ es2) d -> y_id (es ++ es2) d i -> copied (es ++ es2) i e h ->
      forall es3 c r, y_returned (es ++ es2 ++ [e] ++ es3) c h r ->
        r = Some v /\ asked (es ++ es2 ++ [e] ++ es3) c = [].
  Proof.
    intros es d v L es2 i e h J Di C es3 c r R.
    assert (X : exists x, nth_error (l_docs (y_docs (y_after es))) d = Some x /\ ld_cell x = Some v).
    { destruct L as [M|[c0 M]]; [now apply y_made|]. destruct (y_linv es c0 d _ M) as (x & X & K). eauto. }
    destruct X as (x & X & Cx). destruct (copied_spec _ i e h C) as (d' & y & Eg & Y & _ & -> & Ed & _).
    rewrite (in_graph_get _ d i J Di) in Eg. injection Eg as <-.
    assert (Cy : ld_cell y = Some v).
    { revert Y. rewrite y_after_app. destruct (y_run_doc es2 (y_after es) d x X) as (z & Z & _ & G). intros Y. rewrite Z in Y. injection Y as ->.
      destruct G as [G|G]; congruence. }
    revert R. rewrite !app_assoc. unfold y_returned. intros N.
    destruct (y_loaded_calls ((es ++ es2) ++ [e]) es3 (length (l_docs (y_docs (y_after (es ++ es2))))) (ld_clone y) v) with (c := c) (p := Done r) as [E A].
    - rewrite Ed. apply nth_snoc_new.
    - exact Cy.
    - (* a call on the copy was made after the copy *)
      rewrite Ed. cbn. destruct (Nat.le_gt_cases (length (l_calls (y_docs (y_after (es ++ es2))))) c) as [Lc|Lc]; [exact Lc|exfalso].
      apply nth_error_Some in Lc. destruct (nth_error (l_calls (y_docs (y_after (es ++ es2)))) c) as [[d' p]|] eqn:Nc; [clear Lc|congruence].
      destruct (y_linv (es ++ es2) c d' p Nc) as (z & Z & _). apply doc_lt in Z.
      destruct (y_run_docs (e :: es3) (y_after (es ++ es2))) as (ls & El & _).
      destruct (call_progress ls (y_docs (y_after (es ++ es2))) c d' p (y_linv _) Nc) as (p' & Np' & _).
      rewrite <- El, <- y_after_app in Np'. change (e :: es3) with ([e] ++ es3) in Np'. rewrite app_assoc in Np'.
      rewrite N in Np'. injection Np' as E' _. lia.
    - exact N.
    - split; [|exact A]. destruct E as [E|E]; [discriminate|now injection E].
  Qed.
End Props.

Print Assumptions C115_copies_start_unloaded.
Print Assumptions C115_readers_may_disagree.
Print Assumptions C115_a_proxy_has_its_own.
Print Assumptions C116_loaded_for_all.

(** ** Concrete cases *)
Section Cases.
  Local Instance id_doc : Identify (nat * nat) nat := {| id_of := fst |}.
  Notation ylabel := (ylabel nat (nat * nat)).

  (** Node 7 is built unloaded; two proxies read it while its file changes, and a third after the file is gone: one graph, one
      node, three answers.  Then the graph is iterated and the document read there: the copies made before stay as they are, the
      next one has the content although the file is gone. *)
  Definition story : list ylabel :=
    [YDocs (LBuild 7); YInsert 0; YNode 7; YNode 7; YNode 7; YDeref 0; YDeref 1; YDeref 2] ++
    [YDocs (LCall 1); YDocs (LStep 0 None); YDocs (LStep 0 (Some (7, 10))); YDocs (LStep 0 None); YDocs (LStep 0 None)] ++
    [YDocs (LCall 2); YDocs (LStep 1 None); YDocs (LStep 1 (Some (7, 20))); YDocs (LStep 1 None); YDocs (LStep 1 None)] ++
    [YDocs (LCall 3); YDocs (LStep 2 None); YDocs (LStep 2 None)].
  Definition iterated : list ylabel :=
    story ++ access story 0 (Some (7, 30)) ++ [YGet 7] ++
    [YDocs (LCall 4); YDocs (LStep 4 None)].

  Example C115_case :
    y_returned story 0 1 (Some (7, 10)) /\ y_returned story 1 2 (Some (7, 20)) /\ y_returned story 2 3 None /\
    map (asked story) [0; 1; 2] = [[7]; [7]; [7]] /\
    in_graph story 0 /\ built story 0 7 /\ y_says story (YDeref 1) = YDoc (Some 2) /\ y_says story (YGet 7) = YDoc (Some 4).
  Proof.
    repeat split; try (vm_compute; reflexivity).
    - exists [0]. split; [reflexivity|now left].
    - exists [], (tl story). split; reflexivity.
  Qed.

  Example C116_case :
    y_returned iterated 3 0 (Some (7, 30)) /\ y_returned iterated 4 4 (Some (7, 30)) /\ asked iterated 4 = [] /\
    y_says iterated (YDeref 0) = YDoc (Some 1) /\ answers iterated 1 None (Some (7, 10)) [].
  Proof. repeat split; vm_compute; reflexivity. Qed.
End Cases.
