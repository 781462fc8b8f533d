(** Facts about the command line. *)
From Coq Require Import List Bool Arith NArith Ascii Lia Sorted.
From Verif Require Import Ord OrdFacts BTree BTreeFacts Graph GraphFacts SpecGraph Tx TxMachine SpecTx Lazy Prog SpecProg ProgFacts
  Path PathOrd Cli SpecCli PathFacts P_Graph.
Import ListNotations.

Lemma ends_in_spec suffix s : ends_in suffix s = true <-> exists pre, s = pre ++ suffix.
Proof.
  split.
  - induction s as [|c s IH]; cbn [ends_in]; intros E.
    + destruct (cmp suffix []) eqn:C; try discriminate. apply cmp_eq in C as ->. exists []. reflexivity.
    + destruct (cmp suffix (c :: s)) eqn:C; try (destruct (IH E) as [pre ->]; exists (c :: pre); reflexivity).
      apply cmp_eq in C as ->. exists []. reflexivity.
  - intros [pre ->]. induction pre as [|c pre IH]; cbn [app].
    + destruct suffix; cbn [ends_in]; rewrite cmp_refl; reflexivity.
    + cbn [ends_in]. rewrite IH. now destruct (cmp suffix (c :: pre ++ suffix)).
Qed.

Lemma visible_pre pre ext : visible (pre ++ dot :: ext) -> visible pre.
Proof.
  intros [S (c & s & E & N)]. destruct pre as [|c' pre]; cbn in E.
  - injection E as <- _. contradiction.
  - injection E as -> _. split; [|eauto]. intros I. apply S. apply in_or_app. now left.
Qed.

Lemma visible_file pre ext : visible pre -> plain ext -> visible (pre ++ dot :: ext).
Proof.
  intros [S (c & s & -> & N)] (_ & _ & Sl). split; [|cbn; eauto]. intros I. apply in_app_or in I as [I|[I|I]]; auto. discriminate.
Qed.

Lemma visible_not_nil n : visible n -> n <> [].
Proof. intros [_ (c & s & -> & _)]. discriminate. Qed.

Section Plain.
  Variables (ctx : path) (ext : seg).
  Hypothesis Nc : ctx <> [].
  Let r := plain_repo ctx ext.

  (** The id of an entry whose name ends with the extension. *)
  Lemma entry_id_file d pre : plain ext -> Forall visible (file r d pre) -> entry_id r (file r d pre) = Some (d ++ [pre]).
  Proof.
    intros P V. unfold entry_id. assert (Ne : file r d pre <> []) by (unfold file; now destruct d).
    unfold entry_name. rewrite (entry_path_names r _ V Ne). unfold file in *. cbn [rp_context rp_ext r plain_repo rp_re] in *.
    rewrite file_name_snoc by auto. replace (ends_in (dot :: ext) (pre ++ dot :: ext)) with true by (symmetry; apply ends_in_spec; eauto).
    rewrite with_extension_snoc by auto. apply Forall_app in V as [Vd Vn]. inversion Vn as [|? ? Vn' _]; subst.
    apply visible_pre in Vn'. destruct P as (_ & Nd & _). rewrite stem_named, app_nil_r by (auto using visible_not_nil).
    apply strip_below; [exact Nc|]. apply Forall_app. auto.
  Qed.

  Lemma entry_id_below e i : plain ext -> Forall visible e -> e <> [] -> entry_id r e = Some i ->
    exists d pre, e = file r d pre /\ i = d ++ [pre].
  Proof.
    intros P V Ne E. pose proof E as E'. unfold entry_id in E. destruct (rp_re r (entry_name r e)) eqn:M; [|discriminate].
    destruct e as [|n d] using rev_ind; [contradiction|]. clear IHd. unfold entry_name in M. rewrite (entry_path_names r _ V Ne) in M.
    cbn [rp_context rp_re r plain_repo] in M. rewrite file_name_snoc in M by auto. apply ends_in_spec in M as [pre ->].
    exists d, pre. split; [reflexivity|]. change (d ++ [pre ++ dot :: ext]) with (file r d pre) in *.
    rewrite entry_id_file in E' by auto. congruence.
  Qed.

  Lemma file_name_inv p n : file_name p = Some n -> exists q t, p = q ++ n :: t /\ trim_end p = q ++ [n] /\ body t = [] /\
    parse_single n = Some (Normal n).
  Proof.
    intros F. unfold file_name in F. destruct (last (components p) RootDir) as [| | |m] eqn:L; try discriminate. injection F as ->.
    assert (B : exists l, body p = l ++ [Normal n]).
    { destruct (components p) as [|c cs] eqn:C using rev_ind; [discriminate|]. rewrite last_last in L. subst c. clear IHcs.
      unfold components in C. destruct (has_root p); [|destruct (leads_cur_dir p)]; [| |eauto].
      all: destruct cs as [|c cs]; [discriminate|]; injection C as _ ->; eauto. }
    clear L. revert B. induction p as [|s p IH] using rev_ind; intros [l B]; [destruct l; discriminate|].
    rewrite body_app in B. cbn [body] in B. unfold trim_end. rewrite rev_app_distr. cbn [rev app trim_start]. unfold skipped at 1.
    destruct (parse_single s) as [c|] eqn:P.
    - apply app_inj_tail in B as [_ ->].
      assert (s = n) as ->.
      { unfold parse_single in P. destruct s as [|a [|b [|e s]]]; try discriminate.
        - destruct (Ascii.eqb a dot); congruence.
        - destruct (Ascii.eqb a dot && Ascii.eqb b dot); congruence.
        - congruence. }
      exists p, []. cbn [rev]. rewrite rev_involutive. auto.
    - rewrite app_nil_r in B. destruct IH as (q & t & -> & T & Bt & Pn); [eauto|]. exists q, (t ++ [s]). rewrite <- app_assoc.
      split; [reflexivity|]. split; [exact T|]. split; [|exact Pn]. rewrite body_app, Bt. cbn. now rewrite P.
  Qed.

  Lemma last_seg_of_string p : p <> [] -> forall pre suf, unsplit p = pre ++ suf -> ~ In slash suf -> exists q x y, p = q ++ [x ++ suf] /\ y = x.
  Proof.
    induction p as [|s p IH]; [contradiction|]. intros _ pre suf E S. destruct p as [|t p].
    - cbn in E. exists [], pre, pre. now rewrite <- E.
    - cbn [unsplit] in E. change (unsplit (t :: p)) with (unsplit (t :: p)) in E.
      assert (X : exists pre', unsplit (t :: p) = pre' ++ suf).
      { change (match p with [] => t | _ :: _ => t ++ slash :: unsplit p end) with (unsplit (t :: p)) in E.
        revert pre E. induction s as [|c s IHs]; intros pre E; cbn [app] in E.
        - destruct pre as [|c pre]; cbn in E; [|injection E as _ E; eauto]. exfalso. apply S. rewrite <- E. now left.
        - destruct pre as [|c' pre]; cbn in E.
          + exfalso. apply S. rewrite <- E. right. apply in_or_app. right. now left.
          + injection E as _ E. eapply IHs; eauto. }
      destruct X as [pre' X]. destruct (IH ltac:(discriminate) pre' suf X S) as (q & x & y & -> & ->). exists (s :: q), x, x. auto.
  Qed.

  (** The context itself is listed only if it is a directory named like the extension. *)
  Lemma root_not_listed : plain ext -> file_name ctx <> Some (dot :: ext) -> entry_id r [] = None.
  Proof.
    intros (Ne & Nd & Ns) F. unfold entry_id, entry_name. cbn [entry_path fold_left rp_context rp_re r plain_repo].
    destruct (file_name ctx) as [n|] eqn:Fn.
    - destruct (ends_in (dot :: ext) n) eqn:M; [|reflexivity]. apply ends_in_spec in M as [pre ->].
      assert (Np : pre <> []) by (intros ->; now apply F). unfold strip_prefix.
      destruct (is_prefix (components ctx) (components (with_extension ctx []))) eqn:Pf; [|reflexivity]. exfalso.
      apply is_prefix_spec in Pf as [z Z]. unfold with_extension in Z. rewrite Fn in Z. rewrite stem_named, app_nil_r in Z by auto.
      destruct (file_name_inv _ _ Fn) as (q & t & Ec & Te & Bt & Pn). rewrite Te, removelast_last in Z. rewrite Ec in Z.
      assert (Lp : parse_single pre <> Some (Normal (pre ++ dot :: ext))).
      { intros X. unfold parse_single in X. assert (pre = pre ++ dot :: ext) as Y.
        { destruct pre as [|a [|b [|e s]]]; try discriminate.
          - destruct (Ascii.eqb a dot); congruence.
          - destruct (Ascii.eqb a dot && Ascii.eqb b dot); congruence.
          - congruence. }
        apply (f_equal (@length _)) in Y. rewrite app_length in Y. cbn in Y. lia. }
      assert (Bp : body (q ++ (pre ++ dot :: ext) :: t) = body q ++ [Normal (pre ++ dot :: ext)])
        by (rewrite body_app; cbn [body]; now rewrite Pn, Bt).
      assert (Bm : body (q ++ [pre]) = body q ++ match parse_single pre with Some c => [c] | None => [] end)
        by (rewrite body_app; cbn [body]; now destruct (parse_single pre)).
      assert (NoNormal : forall h, h ++ body q ++ match parse_single pre with Some c => [c] | None => [] end
                                   = (h ++ body q ++ [Normal (pre ++ dot :: ext)]) ++ z -> False).
      { intros h X. rewrite <- !app_assoc in X. apply app_inv_head in X. apply app_inv_head in X. cbn in X.
        destruct (parse_single pre) as [c|]; [|discriminate]. injection X as -> _. now apply Lp. }
      destruct q as [|s q].
      + cbn [app] in Z, Bp, Bm. destruct pre as [|a pre]; [contradiction|]. unfold components in Z. cbn [has_root app] in Z.
        assert (L : leads_cur_dir (((a :: pre) ++ dot :: ext) :: t) = false).
        { cbn. destruct pre; reflexivity. }
        cbn [app] in L, Bp. rewrite L, Bp in Z. destruct (leads_cur_dir [a :: pre]) eqn:L2.
        * cbn [app] in Z. destruct z; discriminate.
        * rewrite Bm in Z. apply (NoNormal []). exact Z.
      + unfold components in Z. cbn [app] in Z, Bp, Bm. rewrite Bp, Bm in Z.
        assert (R : has_root (s :: q ++ [pre]) = has_root (s :: q ++ (pre ++ dot :: ext) :: t)) by (destruct s; [destruct q|]; reflexivity).
        assert (L : leads_cur_dir (s :: q ++ [pre]) = leads_cur_dir (s :: q ++ (pre ++ dot :: ext) :: t)) by reflexivity.
        rewrite R, L in Z. destruct (has_root _); [exact (NoNormal [RootDir] Z)|]. destruct (leads_cur_dir _); [exact (NoNormal [CurDir] Z)|].
        exact (NoNormal [] Z).
    - destruct (ends_in (dot :: ext) (unsplit ctx)) eqn:M; [|reflexivity]. exfalso. apply ends_in_spec in M as [pre E].
      destruct (last_seg_of_string ctx Nc pre (dot :: ext) E) as (q & x & _ & -> & _).
      { intros [I|I]; [discriminate|auto]. }
      assert (P : parse_single (x ++ dot :: ext) = Some (Normal (x ++ dot :: ext))).
      { destruct ext as [|e ex]; [contradiction|]. unfold parse_single. destruct x as [|a [|b [|c x]]]; cbn [app]; try reflexivity.
        destruct ex as [|e' ex]; [|reflexivity]. destruct (Ascii.eqb_spec e dot) as [->|]; [destruct Nd; now left|].
        now rewrite andb_false_r. }
      unfold file_name, components in Fn. rewrite body_app in Fn. cbn [body] in Fn. rewrite P in Fn.
      destruct (has_root (q ++ [x ++ dot :: ext])); [|destruct (leads_cur_dir (q ++ [x ++ dot :: ext]))].
      + rewrite app_comm_cons, last_last in Fn. discriminate.
      + rewrite app_comm_cons, last_last in Fn. discriminate.
      + rewrite last_last in Fn. discriminate.
  Qed.

  Lemma lookup_file d pre : plain ext -> Forall visible (d ++ [pre]) -> lookup_path r (d ++ [pre]) = entry_path r (file r d (stem pre)).
  Proof.
    intros P V. unfold lookup_path.
    assert (Vp : visible pre) by (apply Forall_app in V as [_ V]; now inversion V).
    assert (Rt : has_root (d ++ [pre]) = false).
    { destruct d as [|n d]; cbn [app]; [now apply visible_head|]. inversion V; subst. now apply visible_head. }
    rewrite join_relative by exact Rt. rewrite with_extension_snoc by auto. cbn [rp_ext rp_context r plain_repo].
    rewrite entry_path_names.
    - unfold file. cbn [rp_ext r plain_repo rp_context]. destruct ext; [destruct P; contradiction|reflexivity].
    - unfold file. cbn [rp_ext r plain_repo]. apply Forall_app in V as [Vd _]. apply Forall_app. split; [exact Vd|]. constructor; [|constructor].
      apply visible_file; [now apply stem_visible|exact P].
    - unfold file. now destruct d.
  Qed.

  Lemma lookup_ext_nonempty : plain ext -> ext <> []. Proof. now intros []. Qed.
End Plain.

(** ** Running commands *)
Lemma filter_map_in {A B} (f : A -> option B) l y : In y (filter_map f l) <-> exists x, In x l /\ f x = Some y.
Proof.
  induction l as [|x l IH]; cbn; [split; [tauto|intros (? & [] & _)]|].
  destruct (f x) as [z|] eqn:E; cbn; rewrite IH; split.
  - intros [<-|(w & I & F)]; eauto.
  - intros (w & [<-|I] & F); [left; congruence|right; eauto].
  - intros (w & I & F). eauto.
  - intros (w & [<-|I] & F); [congruence|eauto].
Qed.

Lemma print_all_ends (sc : cli_schema) l : forall w : cli_world,
  ends sc w (print_all l) (World (w_graph w) (w_lock w) (w_poison w) (w_heap w) (w_leaked w) (w_cells w) (w_out w ++ l)) (ORet RUnit).
Proof.
  induction l as [|p l IH]; intros w.
  - exists 1. cbn. rewrite app_nil_r. now destruct w.
  - destruct (IH (emit p w)) as [fuel R]. exists (S fuel). cbn [print_all run]. rewrite R. cbn. now rewrite <- app_assoc.
Qed.

Definition listing (r : repo) (d : dir) : list path := map ld_id (g_iter (g_from_iter (all r (dr_walk d)))).

Lemma started_graph r d : w_graph (snd (started r d)) = g_from_iter (all r (dr_walk d)). Proof. reflexivity. Qed.

Lemma list_plot r d c : cm_sub c = CList -> plot r d c (ORet RUnit) (listing r d) d.
Proof.
  intros E. unfold plot, execute. rewrite E. eexists. split; [apply exec_run; eapply XRead; [reflexivity| |apply XRet]|split; [|reflexivity]].
  - apply XGraphIter; [exact I|]. apply (ends_exec _ _ _ _ (ORet RUnit) I). apply print_all_ends.
  - reflexivity.
Qed.

Lemma plot_det r d c o1 p1 d1 o2 p2 d2 : plot r d c o1 p1 d1 -> plot r d c o2 p2 d2 -> o1 = o2 /\ p1 = p2 /\ d1 = d2.
Proof. intros (w1 & E1 & -> & ->) (w2 & E2 & -> & ->). destruct (ends_det _ _ _ _ _ _ _ E1 E2) as [-> ->]. auto. Qed.

Lemma listing_in r d i : In i (listing r d) -> exists e, In e (dr_walk d) /\ entry_id r e = Some i.
Proof.
  unfold listing. intros I. apply in_map_iff in I as (n & <- & I).
  assert (R : g_reachable (g_from_iter (all r (dr_walk d)))) by constructor.
  apply g_iter_in in I; [|now apply g_reachable_wf].
  destruct (last_node_from_iter (all r (dr_walk d)) (id_of n)) as [(pre & m & post & El & _ & _ & Em)|[_ Em]]; [|congruence].
  rewrite I in Em. injection Em as <-. assert (J : In n (all r (dr_walk d))) by (rewrite El; apply in_or_app; right; now left).
  unfold all in J. apply in_map_iff in J as (j & <- & J). now apply filter_map_in.
Qed.

Lemma listing_has r d e i : In e (dr_walk d) -> entry_id r e = Some i -> exists j, In j (listing r d) /\ same_path j i.
Proof.
  intros I E. set (n := ld_build i : lazy_doc).
  assert (J : In n (all r (dr_walk d))) by (apply in_map; apply filter_map_in; eauto).
  assert (R : g_reachable (g_from_iter (all r (dr_walk d)))) by constructor.
  destruct (last_node_from_iter (all r (dr_walk d)) (id_of n)) as [(pre & m & post & El & Im & _ & Em)|[No _]]; [|now apply No in J].
  exists (ld_id m). split; [|exact Im]. apply in_map. apply g_iter_in; [now apply g_reachable_wf|]. now rewrite Im.
Qed.

Lemma earlier_lt {A} `{OrdT A} (less : A -> A -> Prop) : (forall x y, lt x y -> less x y) ->
  forall l m : list A, lt l m -> earlier less l m.
Proof.
  intros L. unfold lt in *. induction l as [|x l IH]; intros [|y m] E; cbn in E; try discriminate; [constructor|].
  destruct (cmp x y) eqn:C; try discriminate.
  - apply cmp_eq in C as ->. apply EarlierLater. now apply IH.
  - apply EarlierHere. now apply L.
Qed.

Lemma earlier_name_lt a b : lt a b -> earlier_name a b.
Proof.
  apply earlier_lt. intros x y L. unfold lt in L. cbn in L. unfold ascii_cmp in L. apply (proj1 (N.compare_lt_iff _ _)) in L. unfold nat_of_ascii. lia.
Qed.

Lemma earlier_components a b : Forall visible a -> Forall visible b -> a <> [] -> b <> [] ->
  lt (components a) (components b) -> earlier earlier_name a b.
Proof.
  intros Va Vb Na Nb L.
  assert (C : forall l, Forall visible l -> l <> [] -> components l = map Normal l)
    by (intros l V N; apply (components_below [[]] l); auto; discriminate).
  rewrite !C in L by assumption. apply (earlier_lt earlier_name earlier_name_lt). clear - L.
  unfold lt in *. revert b L. induction a as [|x a IH]; intros [|y b] L; try exact L.
  change (match cmp x y with Eq => cmp (map Normal a) (map Normal b) | c => c end = Lt) in L.
  change (match cmp x y with Eq => cmp a b | c => c end = Lt). destruct (cmp x y); auto.
Qed.

Lemma listing_ascending r d : (forall i, In i (listing r d) -> Forall visible i /\ i <> []) -> ascending (listing r d).
Proof.
  assert (R : g_reachable (g_from_iter (all r (dr_walk d)))) by constructor.
  destruct (C02_iteration_ascending_exact _ R) as (_ & S & _). unfold listing, ascending. intros V.
  induction S as [|n l S IH F]; cbn [map] in *; constructor; [apply IH; intros i I; apply V; now right|].
  rewrite Forall_map. rewrite Forall_forall in F |- *. intros m I.
  destruct (V (ld_id n) (or_introl Logic.eq_refl)) as [V1 N1]. destruct (V (ld_id m) (or_intror (in_map ld_id _ _ I))) as [V2 N2].
  apply earlier_components; auto. exact (F m I).
Qed.

(** ** Lookups *)
Lemma components_with_extension p ext n : plain ext -> file_name p = Some n ->
  exists l, components p = l ++ [Normal n] /\ components (with_extension p ext) = l ++ [Normal (stem n ++ dot :: ext)].
Proof.
  intros (Ne & Nd & _) F. unfold with_extension. rewrite F. destruct ext as [|e ext]; [contradiction|].
  destruct (file_name_inv _ _ F) as (q & t & -> & -> & Bt & Pn). rewrite removelast_last.
  set (m := stem n ++ dot :: e :: ext).
  assert (Pm : parse_single m = Some (Normal m)).
  { unfold m, parse_single. destruct (stem n) as [|a [|b [|c x]]]; cbn [app]; try reflexivity.
    destruct ext; [|reflexivity]. destruct (Ascii.eqb_spec e dot) as [->|]; [destruct Nd; now left|]. now rewrite andb_false_r. }
  assert (Bp : body (q ++ n :: t) = body q ++ [Normal n]) by (rewrite body_app; cbn [body]; now rewrite Pn, Bt).
  assert (Bm : body (q ++ [m]) = body q ++ [Normal m]) by (rewrite body_app; cbn [body]; now rewrite Pm).
  unfold components. rewrite Bp, Bm. destruct q as [|s q].
  - exists []. cbn [app body].
    assert (Hn : has_root (n :: t) = false) by (destruct n; [discriminate|reflexivity]).
    assert (Ln : leads_cur_dir (n :: t) = false).
    { destruct n as [|a [|b n]]; try reflexivity. cbn in Pn |- *. now destruct (Ascii.eqb a dot). }
    assert (Hm : has_root [m] = false) by (destruct m; reflexivity).
    assert (Lm : leads_cur_dir [m] = false).
    { destruct m as [|a [|b n']]; try reflexivity. cbn in Pm |- *. now destruct (Ascii.eqb a dot). }
    now rewrite Hn, Ln, Hm, Lm.
  - cbn [app].
    assert (R : has_root (s :: q ++ [m]) = has_root (s :: q ++ n :: t)) by (destruct s; [destruct q|]; reflexivity).
    assert (L : leads_cur_dir (s :: q ++ [m]) = leads_cur_dir (s :: q ++ n :: t)) by reflexivity.
    rewrite R, L. destruct (has_root (s :: q ++ n :: t)); [exists (RootDir :: body (s :: q)); auto|].
    destruct (leads_cur_dir (s :: q ++ n :: t)); [exists (CurDir :: body (s :: q)); auto|exists (body (s :: q)); auto].
Qed.

Lemma file_name_last p : match file_name p with
  | Some n => exists l, components p = l ++ [Normal n]
  | None => forall l n, components p <> l ++ [Normal n]
  end.
Proof.
  unfold file_name. destruct (components p) as [|c l _] using rev_ind.
  - intros l n. destruct l; discriminate.
  - rewrite last_last. destruct c; try (intros l' n E; apply app_inj_tail in E as [_ E]; discriminate). eauto.
Qed.

Lemma stays_below_rename l n m : forall k, stays_below k (l ++ [Normal n]) <-> stays_below k (l ++ [Normal m]).
Proof. induction l as [|c l IH]; intros k; cbn [app stays_below]; [tauto|]. destruct c; auto; [tauto|]. destruct k; [tauto|auto]. Qed.

Lemma stays_below_components p : has_root p = false -> forall k, stays_below k (components p) <-> stays_below k (body p).
Proof. intros R k. unfold components. rewrite R. destruct (leads_cur_dir p); cbn; tauto. Qed.

Lemma components_join ctx i : components ctx <> [] -> i <> [] -> has_root i = false -> components (join ctx i) = components ctx ++ body i.
Proof.
  intros Nc Ni R. rewrite join_relative by exact R. apply components_base; auto. intros ->. now apply Nc.
Qed.
