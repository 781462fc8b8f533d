(** Properties C113, C114: what is logged. *)
From Coq Require Import String.
From Coq Require Import List Bool Arith Ascii Lia.
From Verif Require Import Ord OrdFacts BTree BTreeFacts Graph GraphFacts Tx TxFacts Lazy SpecLazy LazyFacts Prog SpecProg ProgFacts
  Path PathOrd Cli SpecCli PathFacts CliFacts P_Cli Regex SpecRegex RegexFacts CliMain SpecMain P_Ops P_Regex P_Main Logs SpecLogs.
Import ListNotations.

(** ** The base directory *)
Lemma stem_cut n : stem n = n \/ extended n /\ (forall a e, n = a ++ dot :: e -> ~ In dot e -> stem n = a).
Proof.
  unfold stem. destruct (rsplit_dot n) as [[b a]|] eqn:E; [|now left]. apply rsplit_dot_some in E as [-> D].
  destruct b as [|c b]; [now left|]. right. split; [exists (c :: b), a; split; [reflexivity|]; split; [discriminate|exact D]|].
  intros x e Ex De. pose proof (rsplit_dot_app (c :: b) a (proj2 (rsplit_dot_none a) D)) as R1.
  rewrite Ex in R1. rewrite (rsplit_dot_app x e (proj2 (rsplit_dot_none e) De)) in R1. now injection R1.
Qed.

Lemma extended_stem n : extended n <-> stem n <> n.
Proof.
  split.
  - intros (a & e & -> & Na & De). rewrite stem_named by auto. intros X. apply (f_equal (@List.length _)) in X. rewrite app_length in X. cbn in X. lia.
  - intros N. destruct (stem_cut n) as [E|[E _]]; [contradiction|exact E].
Qed.

Lemma is_prefix_refl l : is_prefix l l = true.
Proof. apply is_prefix_spec. exists []. now rewrite app_nil_r. Qed.

Lemma parse_single_name s n : parse_single s = Some (Normal n) -> s = n.
Proof.
  unfold parse_single. intros X. destruct s as [|a [|b [|e s]]]; try discriminate.
  - destruct (Ascii.eqb a dot); congruence.
  - destruct (Ascii.eqb a dot && Ascii.eqb b dot); congruence.
  - congruence.
Qed.

(** The path without its extension is below itself unless there is one. *)
Lemma strip_self ctx : strip_prefix (with_extension ctx []) ctx = None <-> exists n, file_name ctx = Some n /\ extended n.
Proof.
  unfold strip_prefix. destruct (file_name ctx) as [n|] eqn:F.
  - destruct (file_name_inv _ _ F) as (q & t & Ec & Te & Bt & Pn).
    assert (W : with_extension ctx [] = q ++ [stem n]) by (unfold with_extension; rewrite F, Te, removelast_last, app_nil_r; reflexivity).
    rewrite W. destruct (extended_stem n) as [X1 X2]. destruct (stem_cut n) as [St|[Ex _]].
    + split; [|intros (m & [= <-] & Ex); now apply X1 in Ex]. rewrite St, Ec.
      assert (C : components (q ++ n :: t) = components (q ++ [n])).
      { unfold components. replace (has_root (q ++ n :: t)) with (has_root (q ++ [n])).
        - replace (leads_cur_dir (q ++ n :: t)) with (leads_cur_dir (q ++ [n])) by (destruct q; reflexivity).
          rewrite !body_app. cbn [body]. now rewrite Pn, Bt.
        - destruct q as [|s [|s' q]]; cbn; [destruct n; [discriminate|reflexivity]|reflexivity|reflexivity]. }
      rewrite C, is_prefix_refl. discriminate.
    + split; [eauto|]. intros _. destruct (is_prefix _ _) eqn:Pf; [|reflexivity]. exfalso.
      apply is_prefix_spec in Pf as [z Z]. apply X1 in Ex as Ns. rewrite Ec in Z.
      assert (Bn : body (q ++ n :: t) = body q ++ [Normal n]) by (rewrite body_app; cbn [body]; now rewrite Pn, Bt).
      assert (Lp : parse_single (stem n) <> Some (Normal n)) by (intros X; now apply parse_single_name in X).
      assert (Bs : body (q ++ [stem n]) = body q ++ match parse_single (stem n) with Some c => [c] | None => [] end)
        by (rewrite body_app; cbn [body]; now destruct (parse_single (stem n))).
      assert (No : forall h, h ++ body q ++ match parse_single (stem n) with Some c => [c] | None => [] end = (h ++ body q ++ [Normal n]) ++ z -> False).
      { intros h X. rewrite <- !app_assoc in X. apply app_inv_head in X. apply app_inv_head in X. cbn in X.
        destruct (parse_single (stem n)) as [c|]; [|discriminate]. injection X as -> _. now apply Lp. }
      assert (Ne : n <> []) by (intros ->; discriminate).
      assert (Nm : stem n <> []).
      { destruct Ex as (a & e & -> & Na & De). rewrite stem_named by auto. exact Na. }
      assert (Ln : leads_cur_dir (n :: t) = false).
      { destruct n as [|a [|b n]]; try reflexivity. cbn in Pn |- *. destruct (Ascii.eqb a dot); [discriminate|reflexivity]. }
      destruct q as [|s q].
      * cbn [app] in Z, Bn, Bs. unfold components in Z. rewrite Ln, Bn in Z.
        assert (R1 : has_root (n :: t) = false) by (destruct n; [contradiction|reflexivity]).
        assert (R2 : has_root [stem n] = false) by (destruct (stem n); reflexivity).
        rewrite R1, R2, Bs in Z. destruct (leads_cur_dir [stem n]) eqn:L2.
        { discriminate. }
        exact (No [] Z).
      * unfold components in Z. cbn [app] in Z, Bn, Bs. rewrite Bn, Bs in Z.
        assert (R : has_root (s :: q ++ [stem n]) = has_root (s :: q ++ n :: t)) by (destruct s; [destruct q|]; reflexivity).
        assert (L : leads_cur_dir (s :: q ++ [stem n]) = leads_cur_dir (s :: q ++ n :: t)) by reflexivity.
        rewrite R, L in Z. destruct (has_root _); [exact (No [RootDir] Z)|]. destruct (leads_cur_dir _); [exact (No [CurDir] Z)|].
        exact (No [] Z).
  - split; [|intros (n & E & _); discriminate]. unfold with_extension. rewrite F, is_prefix_refl. discriminate.
Qed.

Lemma met_in ws e : In e (met ws) <-> In (Met e) ws.
Proof.
  unfold met. rewrite filter_map_in. split; [|intros I; exists (Met e); auto].
  intros ([x|x] & I & E); [|discriminate]. now injection E as ->.
Qed.

Section Cli.
  Context (ctx : path) (ext : seg) (p : re).
  Hypothesis Nc : ctx <> [].
  Hypothesis W : pattern_of ext p.
  Let r := Repo ctx ext (found_in p).

  Lemma item_noted x : match x with Met e => Forall visible e | Unmet _ => True end -> noted ctx p x (item_log r x).
  Proof.
    destruct x as [e|err]; intros V; [|constructor]. unfold item_log. destruct e as [|n e] using rev_ind.
    - unfold entry_name. cbn [entry_path fold_left rp_re rp_context r]. fold (root_name ctx).
      destruct (strip_prefix (with_extension ctx []) ctx) as [i|] eqn:S.
      + replace (if found_in p (root_name ctx) then [] else []) with (@nil logged) by (now destruct (found_in _ _)).
        apply nt_base_quiet. intros (n & F & _ & E). assert (X : strip_prefix (with_extension ctx []) ctx = None) by (apply strip_self; eauto).
        congruence.
      + apply strip_self in S as (n & F & E). unfold root_name. rewrite F. destruct (found_in p n) eqn:M.
        * apply nt_base. exists n. split; [exact F|]. split; [now apply found_iff|exact E].
        * apply nt_base_quiet. intros (m & F' & O & _). rewrite F in F'. injection F' as <-. apply found_iff in O. congruence.
    - clear IHe. pose proof (entry_id_any ctx ext (found_in p) Nc e n V) as E. unfold entry_id in E. fold r in E.
      assert (Q : forall l, l = [] -> noted ctx p (Met (e ++ [n])) l) by (intros l ->; destruct e; constructor).
      apply Q. destruct (rp_re r (entry_name r (e ++ [n]))); [|reflexivity].
      assert (En : entry_name r (e ++ [n]) = n).
      { unfold entry_name. rewrite (entry_path_names r _ V) by (now destruct e). cbn [rp_context r]. now rewrite file_name_snoc. }
      destruct (strip_prefix _ _) eqn:S; [reflexivity|]. exfalso.
      assert (X : exists i, strip_prefix (with_extension (entry_path r (e ++ [n])) []) (rp_context r) = Some i).
      { rewrite (entry_path_names r _ V) by (now destruct e). cbn [rp_context r]. rewrite with_extension_snoc by auto. rewrite app_nil_r.
        eexists. apply strip_below; [exact Nc|]. apply Forall_app in V as [Vd Vn]. inversion Vn; subst. apply Forall_app.
        split; [exact Vd|]. constructor; [now apply stem_visible|constructor]. }
      destruct X as [i X]. congruence.
  Qed.

  Lemma all_noted ws : good_walk (met ws) -> exists notes, Forall2 (noted ctx p) ws notes /\ all_log r ws = concat notes.
  Proof.
    intros G. exists (map (item_log r) ws). split; [|unfold all_log; now rewrite flat_map_concat_map].
    assert (V : forall x, In x ws -> match x with Met e => Forall visible e | Unmet _ => True end).
    { intros [e|err] I; [|exact Logic.I]. unfold good_walk in G. rewrite Forall_forall in G. apply G. now apply met_in. }
    clear G. induction ws as [|x ws IH]; constructor.
    - apply item_noted, V. now left.
    - apply IH. intros y I. apply V. now right.
  Qed.

  Lemma command_warned ws fs c o printed d' :
    plot r (Dir (met ws) fs) c o printed d' -> warned c o (execute_log (snd (started r (Dir (met ws) fs))) c).
  Proof.
    intros Q. set (d := Dir (met ws) fs) in *. destruct c as [[i|] [| |content]]; unfold execute_log; cbn [cm_sub cm_id].
    - change (ctx_get _ _ _ _) with (g_get (w_graph (snd (started r d))) (components (split i))).
      destruct (g_get (w_graph (snd (started r d))) (components (split i))) as [n|] eqn:G.
      + apply wn_not. destruct (C25_delete_removes_exactly (fst (started r d)) (snd (started r d)) (components (split i)) n) as (w' & E & _ & _ & O);
          try reflexivity; [constructor|exact G|].
        assert (Q' : plot r d (Command (Some i) CDelete) (ORet RUnit) [] d) by (exists w'; rewrite O; auto).
        destruct (plot_det _ _ _ _ _ _ _ _ _ Q Q') as (-> & _). discriminate.
      + destruct (C25_delete_absent_is_noop (fst (started r d)) (snd (started r d)) (components (split i)) None) as (w' & E & _ & _ & _ & _ & O);
          try reflexivity; [exact G|].
        assert (Q' : plot r d (Command (Some i) CDelete) (ORet (RErr Noop)) [] d) by (exists w'; rewrite O; auto).
        destruct (plot_det _ _ _ _ _ _ _ _ _ Q Q') as (-> & _). constructor.
    - apply wn_not. destruct (plot_det _ _ _ _ _ _ _ _ _ Q (list_plot r d (Command (Some i) CList) eq_refl)) as (-> & _). discriminate.
    - apply wn_not. destruct (plot_det _ _ _ _ _ _ _ _ _ Q (save_plot r d i content)) as (-> & _). discriminate.
    - apply wn_not. apply (C47_missing_id r d CDelete) in Q as (-> & _). discriminate.
    - apply wn_not. destruct (plot_det _ _ _ _ _ _ _ _ _ Q (list_plot r d (Command None CList) eq_refl)) as (-> & _). discriminate.
    - apply wn_not. apply (C47_missing_id r d (CSave content)) in Q as (-> & _). discriminate.
  Qed.
End Cli.

(** C113.  A run logs, in this order: an error for each item of the walk that failed, and one for the base directory if it is met
    and named like a document; then a warning if the command is a deletion that finds nothing.  It logs nothing else. *)
Theorem C113_what_a_run_logs :
  forall ctx ext p ws fs c o printed d',
    ctx <> [] -> good_walk (met ws) -> pattern_of ext p -> main_run ctx ext (Dir (met ws) fs) c o printed d' ->
    exists notes warning, Forall2 (noted ctx p) ws notes /\ warned c o warning /\ main_log ctx ext ws fs c = concat notes ++ warning.
Proof.
  intros ctx ext p ws fs c o printed d' Nc G W Q. apply (main_run_pattern _ _ _ _ _ _ _ _ W) in Q.
  destruct (all_noted ctx ext p Nc ws G) as (notes & F & E). exists notes, (execute_log (snd (started (Repo ctx ext (found_in p)) (Dir (met ws) fs))) c).
  split; [exact F|]. split; [now apply (command_warned ctx ext p ws fs c o printed d')|].
  unfold main_log. now rewrite (repo_for_pattern ctx ext p W), E.
Qed.

(** C113.  With an extension that makes no regular expression, nothing is logged. *)
Theorem C113_a_panicking_run_logs_nothing :
  forall ctx ext ws fs c, (~ exists p, pattern_of ext p) -> main_log ctx ext ws fs c = [].
Proof.
  intros ctx ext ws fs c N. unfold main_log, repo_for. destruct (parse (pattern ext)) as [p| |] eqn:P; try reflexivity.
  exfalso. apply N. exists p. now apply pattern_parse.
Qed.

Section LazyLogs.
  Context {Id Doc : Type} `{HI : Identify Doc Id}.
  Notation label := (label Id Doc).
  Notation lstate := (lstate Id Doc).

  Lemma l_logs_app ls1 : forall (st : lstate) ls2, l_logs st (ls1 ++ ls2) = l_logs st ls1 ++ l_logs (fst (l_run st ls1)) ls2.
  Proof.
    induction ls1 as [|l ls1 IH]; intros st ls2; [reflexivity|]. cbn [app l_logs l_run]. rewrite IH, <- app_assoc. f_equal. f_equal.
    destruct (l_step st l) as [st1 o] eqn:E. cbn [fst]. destruct (l_run st1 ls1); reflexivity.
  Qed.

  Lemma logs_of_snoc c ls (l : label) :
    logs_of c (ls ++ [l]) = logs_of c ls ++ map snd (filter (fun x => Nat.eqb (fst x) c) (l_log (l_after ls) l)).
  Proof.
    unfold logs_of. rewrite l_logs_app. cbn [l_logs]. rewrite app_nil_r, filter_app, map_app. reflexivity.
  Qed.

  (** What the log of a call is, by where the call stands. *)
  Definition log_fits (ls : list label) (d : nat) (q : pc Doc) (g : list (lazy_log Id)) : Prop :=
    match q with
    | Done None => exists x, nth_error (l_docs (l_after ls)) d = Some x /\
        (g = [LogFind (ld_id x)] \/ g = [LogNotFound (ld_id x)] /\ ld_cell x <> None)
    | _ => g = []
    end.

  Lemma log_fits_later ls (l : label) d q g : log_fits ls d q g -> log_fits (ls ++ [l]) d q g.
  Proof.
    destruct q as [| |v| |[v|]]; auto. intros (x & X & G).
    destruct (l_step_doc (l_after ls) l d x X) as (y & Y & I & C). exists y. rewrite l_after_snoc. split; [exact Y|]. rewrite I.
    destruct G as [G|[G N]]; [now left|right; split; [exact G|]]. destruct C as [C|C]; [now rewrite C|contradiction].
  Qed.

  Lemma unborn_log c ls : calls_made ls <= c -> logs_of c ls = [].
  Proof.
    induction ls as [|l ls IH] using rev_ind; intros L; [reflexivity|]. rewrite logs_of_snoc.
    assert (Ls : calls_made ls <= c).
    { unfold calls_made in *. rewrite l_after_snoc in L. clear IH. destruct (l_after ls) as [docs calls]. cbn in *.
      destruct l as [i|v|j|j|c' ans]; cbn in *; auto.
      - destruct (nth_error docs j); auto.
      - destruct (nth_error docs j); cbn in *; [rewrite app_length in L; lia|auto].
      - destruct (nth_error calls c') as [[j q]|]; auto. destruct (is_done q); auto. destruct (nth_error docs j); auto.
        destruct (deref_step _ q ans). cbn in L. unfold set_pc in L. now rewrite alter_len in L. }
    rewrite (IH Ls). cbn [app]. destruct l as [i|v|j|j|c' ans]; try reflexivity. cbn [l_log].
    destruct (nth_error (l_calls (l_after ls)) c') as [[j q]|] eqn:N; [|reflexivity].
    assert (c' <> c) by (intros ->; assert (c < List.length (l_calls (l_after ls))) by (apply nth_error_Some; congruence); unfold calls_made in Ls; lia).
    destruct (nth_error (l_docs (l_after ls)) j) as [x|]; [|reflexivity]. destruct (deref_log x q ans); [|reflexivity]. cbn.
    destruct (Nat.eqb_spec c' c); [contradiction|reflexivity].
  Qed.

  Lemma log_invariant ls : forall c d q, nth_error (l_calls (l_after ls)) c = Some (Call d q) -> log_fits ls d q (logs_of c ls).
  Proof.
    induction ls as [|l ls IH] using rev_ind; intros c d q N; [destruct c; discriminate|].
    rewrite logs_of_snoc. rewrite l_after_snoc in N. destruct (l_step_call (l_after ls) l c d q N) as
      [[N0 Dn]|[(-> & -> & -> & x & X)|[(ans & q0 & x & -> & Q & Nd & X & Ep & Ed)|(ans & -> & Q & X)]]].
    - assert (E : filter (fun x => Nat.eqb (fst x) c) (l_log (l_after ls) l) = []).
      { destruct l as [i|v|j|j|c' ans]; try reflexivity. cbn [l_log].
        destruct (nth_error (l_calls (l_after ls)) c') as [[j q']|] eqn:N'; [|reflexivity].
        destruct (nth_error (l_docs (l_after ls)) j) as [x|]; [|reflexivity]. destruct (deref_log x q' ans) eqn:D; [|reflexivity]. cbn.
        destruct (Nat.eqb_spec c' c) as [->|]; [|reflexivity]. destruct (Dn ans eq_refl) as [r ->]. rewrite N0 in N'. injection N' as <- <-. discriminate. }
      rewrite E, app_nil_r. apply log_fits_later. now apply IH.
    - cbn [l_log filter map]. rewrite app_nil_r. cbn [log_fits]. now apply unborn_log.
    - cbn [l_log]. rewrite Q, X. specialize (IH c d q0 Q).
      assert (E0 : logs_of c ls = []) by (destruct q0 as [| |v| |r]; auto; exfalso; eapply Nd; reflexivity).
      rewrite E0. cbn [app]. clear IH. destruct (l_step_doc (l_after ls) (LStep c ans) d x X) as (y & Y & Gi & Gc). rewrite <- l_after_snoc in Y.
      destruct q0 as [| |v| |r]; cbn [deref_log deref_step] in *.
      + destruct (ld_cell x); subst q; reflexivity.
      + destruct ans as [v|]; subst q; [reflexivity|]. cbn. rewrite Nat.eqb_refl. cbn. exists y. split; [exact Y|]. left. now rewrite Gi.
      + destruct (ld_cell x) as [v'|] eqn:C; cbn in Ep; subst q; [|reflexivity]. cbn. rewrite Nat.eqb_refl. cbn. exists y. split; [exact Y|].
        right. rewrite Gi. split; [reflexivity|]. destruct Gc as [Gc|Gc]; [now rewrite Gc|discriminate].
      + pose proof (linv_after ls c d _ Q) as (x' & X' & K). rewrite X in X'. injection X' as <-. cbn in Ep. subst q.
        destruct (ld_cell x); [reflexivity|contradiction].
      + exfalso. eapply Nd; reflexivity.
    - destruct (linv_after ls c d _ Q) as (x & X' & _). congruence.
  Qed.

  (** C114.  No absence is silent, and each is logged once: with the repository's error if it did not find the document, and as
      "document not found" if it did, but another call was faster.  A call that answers a document logs nothing. *)
  Theorem C114_absences_are_logged :
    forall (ls : list label) c d r, returned ls c d r ->
      match r with
      | Some _ => logs_of c ls = []
      | None => exists i, id_is ls d i /\
          (logs_of c ls = [LogFind i] \/ logs_of c ls = [LogNotFound i] /\ exists v, has_content ls d v)
      end.
  Proof.
    intros ls c d r N. pose proof (log_invariant ls c d _ N) as F. destruct r as [v|]; [exact F|].
    destruct F as (x & X & G). exists (ld_id x). split; [now exists x|]. destruct G as [G|[G C]]; [now left|right]. split; [exact G|].
    destruct (ld_cell x) as [v|] eqn:Cx; [|contradiction]. exists v. intros ls2 c' r' L R. unfold returned in R. rewrite l_after_app in R.
    destruct (late_calls ls2 (l_after ls) d x v X Cx c' _ L R) as [E|E].
    - discriminate.
    - now injection E.
  Qed.

  (** C114.  A call that has not returned has logged nothing. *)
  Theorem C114_logs_when_it_returns :
    forall (ls : list label) c, (forall d r, ~ returned ls c d r) -> logs_of c ls = [].
  Proof.
    intros ls c N. destruct (nth_error (l_calls (l_after ls)) c) as [[d q]|] eqn:E.
    - pose proof (log_invariant ls c d q E) as F. destruct q as [| |v| |r]; auto. exfalso. exact (N d r E).
    - apply unborn_log. now apply nth_error_None.
  Qed.

  (** C114.  If the repository always finds the document, an absence is logged as "document not found". *)
  Theorem C114_not_found_means_found :
    forall (ls : list label) c d, always_found ls -> returned ls c d None -> exists i, logs_of c ls = [LogNotFound i].
  Proof.
    intros ls c d F N. destruct (C114_absences_are_logged ls c d None N) as (i & _ & [E|[E _]]); [|eauto]. exfalso.
    assert (K : forall ls0 : list label, always_found ls0 -> forall x, In x (l_logs l_init ls0) -> forall j, snd x <> LogFind j).
    { induction ls0 as [|l ls0 IH] using rev_ind; intros F0 x I j; [destruct I|]. rewrite l_logs_app in I. apply in_app_or in I as [I|I].
      - apply (IH (fun c' a J => F0 c' a (in_or_app _ _ _ (or_introl J))) x I).
      - cbn [l_logs] in I. rewrite app_nil_r in I. destruct l as [|?|?|?|c' ans]; try destruct I. cbn [l_log] in I.
        destruct (nth_error _ c') as [[dd q]|]; [|destruct I]. destruct (nth_error _ dd) as [y|]; [|destruct I].
        destruct q as [| |v| |rr]; cbn [deref_log] in I; try destruct I.
        + destruct ans as [v|]; [destruct I|]. exfalso. apply (F0 c' None); [apply in_or_app; right; now left|reflexivity].
        + destruct (ld_cell y); [|destruct I]. destruct I as [<-|[]]. discriminate. }
    assert (J : In (LogFind i) (logs_of c ls)) by (rewrite E; now left). unfold logs_of in J. apply in_map_iff in J as (x & Sx & J).
    apply filter_In in J as [J _]. exact (K ls F x J i Sx).
  Qed.
End LazyLogs.

Print Assumptions C113_what_a_run_logs.
Print Assumptions C113_a_panicking_run_logs_nothing.
Print Assumptions C114_absences_are_logged.
Print Assumptions C114_logs_when_it_returns.
Print Assumptions C114_not_found_means_found.

(** ** Concrete cases *)
Section Cases.
  Local Notation s := list_ascii_of_string.

  (** Deleting what is not there, in a directory "docs.md" that has a subdirectory one may not read. *)
  Example C113_case :
    main_log [s "docs.md"] (s "md") [Met []; Met [s "a.md"]; Unmet (s "denied"); Met [s "b.txt"]] (fun _ => None) (Command (Some (s "z")) CDelete) =
      [LogStrip [s "docs.md"]; LogWalk (s "denied"); LogAbsent [s "z"]] /\
    main_log [s "docs"] (s "md") [Met []; Met [s "a.md"]] (fun _ => None) (Command (Some (s "a")) CDelete) = [].
  Proof. split; reflexivity. Qed.

  (** A base directory that does not exist: an error is logged, nothing is listed, and the status is 0. *)
  Example C113_no_directory :
    main_log [s "nowhere"] (s "md") [Unmet (s "not found")] (fun _ => None) (Command None CList) = [LogWalk (s "not found")] /\
    main_run [s "nowhere"] (s "md") (Dir (met [Unmet (s "not found")]) (fun _ => None)) (Command None CList) (ORet RUnit) [] (Dir [] (fun _ => None)).
  Proof.
    split; [reflexivity|]. eapply main_run_pattern; [apply pattern_parse; reflexivity|]. apply (list_plot _ (Dir [] (fun _ => None))). reflexivity.
  Qed.
End Cases.

(** Two calls find the document; the slower one answers, and logs, that it is absent.  Then the repository fails, on a clone made before. *)
Definition race : list (label nat document) :=
  [LBuild 7; LClone 0; LCall 0; LCall 0; LStep 0 None; LStep 1 None; LStep 0 (Some (Document [] [])); LStep 1 (Some (Document [] []));
   LStep 0 None; LStep 1 None; LStep 0 None; LCall 1; LStep 2 None; LStep 2 None].
Example C114_case :
  map c_pc (l_calls (fst (@l_run _ _ {| id_of := fun _ => 7 |} l_init race))) = [Done (Some (Document [] [])); Done None; Done None] /\
  @l_logs _ _ {| id_of := fun _ => 7 |} l_init race = [(1, LogNotFound 7); (2, LogFind 7)].
Proof. split; reflexivity. Qed.
