(** Properties C41-C47: the command line. *)
From Coq Require Import String.
From Coq Require Import List Bool Arith Ascii Lia Sorted.
From Verif Require Import Ord OrdFacts BTree BTreeFacts Graph GraphFacts SpecGraph Tx TxMachine SpecTx Lazy Prog SpecProg ProgFacts
  Path PathOrd Cli SpecCli PathFacts CliFacts P_Graph P_Ops.
Import ListNotations.

Section Properties.
  (** The repository of the command line: any context (a path has at least one segment, possibly
      empty), an extension without characters special to regular expressions. *)
  Context (ctx : path) (ext : seg).
  Let r := plain_repo ctx ext.

  (** C41, what holds of it: files without a dot before the extension.  Missing: the others; then it is
      false (below, and C72). *)
  Theorem C41_listed_id_loads_its_file_partial :
    forall fs d pre i,
      ctx <> [] -> plain ext -> Forall visible (file r d pre) -> dotless pre ->
      entry_id r (file r d pre) = Some i ->
      find_by_id r fs i = option_map (Document (entry_path r (file r d pre))) (fs (entry_path r (file r d pre))).
  Proof.
    intros fs d pre i Nc P V D E. unfold r in *. rewrite (entry_id_file ctx ext Nc d pre P V) in E. injection E as <-.
    unfold file in V. apply Forall_app in V as [Vd Vn]. inversion Vn as [|? ? Vn' _]; subst. apply visible_pre in Vn'.
    unfold find_by_id. rewrite (lookup_file ctx ext Nc d pre P) by (apply Forall_app; auto).
    rewrite (proj2 (stem_fixed pre Vn') D). reflexivity.
  Qed.

  (** C72: which file is loaded for a listed id. *)
  Theorem C72_file_loaded_for_listed_id :
    forall fs d pre i,
      ctx <> [] -> plain ext -> Forall visible (file r d pre) -> entry_id r (file r d pre) = Some i ->
      (dotless pre <-> same_path (lookup_path r i) (entry_path r (file r d pre))) /\
      (forall a b, pre = a ++ dot :: b -> dotless b ->
         find_by_id r fs i = option_map (Document (entry_path r (file r d a))) (fs (entry_path r (file r d a)))).
  Proof.
    intros fs d pre i Nc P V E. unfold r in *. rewrite (entry_id_file ctx ext Nc d pre P V) in E. injection E as <-.
    assert (Ne : forall x, file (plain_repo ctx ext) d x <> []) by (intros x; unfold file; now destruct d).
    unfold file in V. apply Forall_app in V as [Vd Vn]. inversion Vn as [|? ? Vn' _]; subst. apply visible_pre in Vn'.
    assert (Lk : lookup_path (plain_repo ctx ext) (d ++ [pre]) = entry_path (plain_repo ctx ext) (file (plain_repo ctx ext) d (stem pre)))
      by (apply (lookup_file ctx ext Nc d pre P); apply Forall_app; auto).
    assert (Vf : forall x, visible x -> Forall visible (file (plain_repo ctx ext) d x))
      by (intros x Vx; apply Forall_app; split; [exact Vd|constructor; [now apply visible_file|constructor]]).
    split.
    - rewrite Lk. rewrite <- (stem_fixed pre Vn'). unfold same_path. split; [now intros ->|]. intros Q.
      rewrite !entry_path_names in Q by (auto using stem_visible). cbn [rp_context plain_repo] in Q.
      rewrite !components_below in Q by (auto using stem_visible). apply app_inv_head in Q. unfold file in Q.
      rewrite !map_app in Q. apply app_inv_head in Q. cbn in Q. injection Q as Q. now apply app_inv_tail in Q.
    - intros a b -> Db. unfold find_by_id. rewrite Lk. rewrite stem_named; auto.
      now apply visible_pre, visible_not_nil in Vn'.
  Qed.

  (** C42. *)
  Theorem C42_listing_exact_sorted :
    forall d c,
      ctx <> [] -> plain ext -> good_walk (dr_walk d) -> file_name ctx <> Some (dot :: ext) -> cm_sub c = CList ->
      exists printed, ascending printed /\
        (forall i, In i printed <-> exists dd pre, In (file r dd pre) (dr_walk d) /\ i = dd ++ [pre]) /\
        forall o out d', plot r d c o out d' <-> o = ORet RUnit /\ out = printed /\ d' = d.
  Proof.
    intros d c Nc P G F E. unfold r in *.
    assert (X : forall i e, In e (dr_walk d) -> entry_id (plain_repo ctx ext) e = Some i ->
                 exists dd pre, e = file (plain_repo ctx ext) dd pre /\ i = dd ++ [pre]).
    { intros i e I Ei. unfold good_walk in G. rewrite Forall_forall in G. pose proof (G e I) as Ve. destruct e as [|n e].
      - rewrite (root_not_listed ctx ext Nc P F) in Ei. discriminate.
      - apply (entry_id_below ctx ext Nc); auto. discriminate. }
    exists (listing (plain_repo ctx ext) d). split; [|split].
    - apply listing_ascending. intros i I. apply listing_in in I as (e & I & Ei). destruct (X i e I Ei) as (dd & pre & -> & ->).
      unfold good_walk in G. rewrite Forall_forall in G. pose proof (G _ I) as V. apply Forall_app in V as [Vd Vn].
      inversion Vn as [|? ? Vn' _]; subst. split; [|now destruct dd]. apply Forall_app. split; [exact Vd|].
      constructor; [now apply visible_pre in Vn'|constructor].
    - intros i. split.
      + intros I. apply listing_in in I as (e & I & Ei). destruct (X i e I Ei) as (dd & pre & -> & ->). eauto.
      + intros (dd & pre & I & ->). unfold good_walk in G. rewrite Forall_forall in G. pose proof (G _ I) as Ve.
        pose proof (entry_id_file ctx ext Nc dd pre P Ve) as Ei.
        destruct (listing_has _ d _ _ I Ei) as (j & J & S). apply listing_in in J as J'. destruct J' as (e & Ie & Ej).
        destruct (X j e Ie Ej) as (dd' & pre' & -> & ->). replace (dd ++ [pre]) with (dd' ++ [pre']); [exact J|].
        assert (Vs : forall dd pre, Forall visible (file (plain_repo ctx ext) dd pre) -> Forall visible (dd ++ [pre])).
        { intros dd0 pre0 V. apply Forall_app in V as [Vd Vn]. inversion Vn as [|? ? Vn' _]; subst. apply Forall_app. split; [exact Vd|].
          constructor; [now apply visible_pre in Vn'|constructor]. }
        pose proof (Vs _ _ Ve) as V1. pose proof (Vs _ _ (G _ Ie)) as V2.
        unfold same_path in S.
        assert (C : forall dd pre, Forall visible (dd ++ [pre]) -> components (dd ++ [pre]) = map Normal (dd ++ [pre])).
        { intros dd0 pre0 V. apply (components_below [[]] (dd0 ++ [pre0])); [discriminate|now destruct dd0|exact V]. }
        rewrite !C in S by assumption. clear - S. revert S. generalize (dd' ++ [pre']) (dd ++ [pre]).
        intros l1. induction l1 as [|x l1 IH]; intros [|y l2] S; try discriminate; auto. cbn in S. injection S as -> S. f_equal. auto.
    - intros o out d'. split.
      + intros Q. destruct (plot_det _ _ _ _ _ _ _ _ _ Q (list_plot _ d c E)) as (-> & -> & ->). auto.
      + intros (-> & -> & ->). now apply list_plot.
  Qed.

  (** C43. *)
  Theorem C43_different_files_different_ids :
    forall e1 e2 i1 i2,
      ctx <> [] -> plain ext -> file_name ctx <> Some (dot :: ext) -> Forall visible e1 -> Forall visible e2 ->
      entry_id r e1 = Some i1 -> entry_id r e2 = Some i2 -> same_path i1 i2 -> e1 = e2.
  Proof.
    intros e1 e2 i1 i2 Nc P F V1 V2 E1 E2 S. unfold r in *.
    assert (N : forall e i, entry_id (plain_repo ctx ext) e = Some i -> e <> []).
    { intros e i E ->. rewrite (root_not_listed ctx ext Nc P F) in E. discriminate. }
    destruct (entry_id_below ctx ext Nc e1 i1 P V1 (N _ _ E1) E1) as (d1 & p1 & -> & ->).
    destruct (entry_id_below ctx ext Nc e2 i2 P V2 (N _ _ E2) E2) as (d2 & p2 & -> & ->).
    assert (C : forall dd pre, Forall visible (file (plain_repo ctx ext) dd pre) -> components (dd ++ [pre]) = map Normal (dd ++ [pre])).
    { intros dd pre V. apply (components_below [[]] (dd ++ [pre])); [discriminate|now destruct dd|].
      apply Forall_app in V as [Vd Vn]. inversion Vn as [|? ? Vn' _]; subst. apply Forall_app. split; [exact Vd|].
      constructor; [now apply visible_pre in Vn'|constructor]. }
    unfold same_path in S. rewrite !C in S by assumption.
    assert (X : d1 ++ [p1] = d2 ++ [p2]).
    { clear - S. revert S. generalize (d1 ++ [p1]) (d2 ++ [p2]).
      intros l1. induction l1 as [|x l1 IH]; intros [|y l2] S; try discriminate; auto. cbn in S. injection S as -> S. f_equal. auto. }
    apply app_inj_tail in X as [-> ->]. reflexivity.
  Qed.
End Properties.

(** C44, what holds of it: until the process ends, the saved document is in the graph with its content.
    Missing: the next run; then it is false (below, and C73). *)
Theorem C44_saved_document_found_partial :
  forall r d c s content,
    cm_id c = Some s -> cm_sub c = CSave (Some content) ->
    exists w', ends (fst (started r d)) (snd (started r d)) (execute c) w' (ORet RUnit) /\
      g_get (w_graph w') (components (split s)) = Some (LDoc (split s) (Some (Document (split s) content))).
Proof.
  intros r d c s content I S. unfold execute, with_document_id. rewrite S, I.
  set (n := ld_new (Document (split s) content) : lazy_doc).
  destruct (C24_save_inserts_exactly (fst (started r d)) (snd (started r d)) n) as (w' & E & G & _); try reflexivity; [constructor|].
  exists w'. split; [exact E|]. rewrite G. unfold base_set. change (components (split s)) with (id_of n).
  unfold eqb. rewrite cmp_refl. reflexivity.
Qed.

(** C73: every run of a session answers what it would have answered first. *)
Theorem C73_no_command_has_a_lasting_effect :
  forall r d runs d', session r d runs d' ->
    d' = d /\ forall c o printed, In (c, o, printed) runs -> plot r d c o printed d.
Proof.
  intros r d runs d' S. induction S as [d|d c o printed d1 rest d2 Q S IH]; [split; [reflexivity|intros c o p []]|].
  assert (d1 = d) as -> by (destruct Q as (w & _ & _ & Q); exact Q). destruct IH as [-> IH]. split; [reflexivity|].
  intros c' o' p' [[= <- <- <-]|J]; auto.
Qed.

(** C47. *)
Theorem C47_delete_succeeds_iff_listed :
  forall r d c s,
    cm_id c = Some s -> cm_sub c = CDelete ->
    exists printed, plot r d (Command None CList) (ORet RUnit) printed d /\
      (forall o out d', plot r d c o out d' -> o = ORet RUnit \/ o = ORet (RErr Noop)) /\
      ((exists i, In i printed /\ same_path i (split s)) -> plot r d c (ORet RUnit) [] d) /\
      (~ (exists i, In i printed /\ same_path i (split s)) -> plot r d c (ORet (RErr Noop)) [] d).
Proof.
  intros r d c s I S. exists (listing r d). split; [now apply list_plot|].
  assert (R : g_reachable (g_from_iter (all r (dr_walk d)))) by constructor.
  assert (Iff : (exists i, In i (listing r d) /\ same_path i (split s)) <->
                exists n, g_get (g_from_iter (all r (dr_walk d))) (components (split s)) = Some n).
  { split.
    - intros (i & J & Sm). unfold listing in J. apply in_map_iff in J as (n & <- & J). apply g_iter_in in J; [|now apply g_reachable_wf].
      exists n. unfold same_path in Sm. rewrite <- Sm. exact J.
    - intros [n G]. exists (ld_id n). assert (En : id_of n = components (split s)).
      { now apply (g_get_id _ _ _ (g_reachable_wf _ R)) in G. }
      split; [|exact En]. unfold listing. apply in_map. apply g_iter_in; [now apply g_reachable_wf|]. now rewrite En. }
  assert (Ok : (exists i, In i (listing r d) /\ same_path i (split s)) -> plot r d c (ORet RUnit) [] d).
  { intros L. apply Iff in L as [n G]. unfold plot, execute, with_document_id. rewrite S, I.
    destruct (C25_delete_removes_exactly (fst (started r d)) (snd (started r d)) (components (split s)) n) as (w' & E & _ & _ & O);
      try reflexivity; [exact R|exact G|]. exists w'. rewrite O. auto. }
  assert (No : ~ (exists i, In i (listing r d) /\ same_path i (split s)) -> plot r d c (ORet (RErr Noop)) [] d).
  { intros L. unfold plot, execute, with_document_id. rewrite S, I.
    destruct (C25_delete_absent_is_noop (fst (started r d)) (snd (started r d)) (components (split s)) None) as (w' & E & _ & _ & _ & _ & O);
      try reflexivity.
    - change (w_graph (snd (started r d))) with (g_from_iter (all r (dr_walk d))).
      destruct (g_get (g_from_iter (all r (dr_walk d))) (components (split s))) eqn:G; [|reflexivity]. exfalso. apply L, Iff. eauto.
    - exists w'. rewrite O. auto. }
  split; [|split; [exact Ok|exact No]].
  intros o out d' Q. destruct (g_get (g_from_iter (all r (dr_walk d))) (components (split s))) as [n|] eqn:G.
  - left. destruct (plot_det _ _ _ _ _ _ _ _ _ Q (Ok (proj2 Iff (ex_intro _ n eq_refl)))) as (-> & _). reflexivity.
  - right. assert (L : ~ exists i, In i (listing r d) /\ same_path i (split s)).
    { intros L. apply Iff in L as [n L]. discriminate. }
    destruct (plot_det _ _ _ _ _ _ _ _ _ Q (No L)) as (-> & _). reflexivity.
Qed.

(** C47: without an id. *)
Theorem C47_missing_id :
  forall r d sub,
    match sub with
    | CList => forall s, execute (Command (Some s) CList) = execute (Command None CList)
    | _ => forall o out d', plot r d (Command None sub) o out d' <-> o = ORet (RErr id_must_be_set) /\ out = [] /\ d' = d
    end.
Proof.
  intros r d [| |content]; [|reflexivity|].
  - intros o out d'. assert (Q : plot r d (Command None CDelete) (ORet (RErr id_must_be_set)) [] d)
      by (exists (snd (started r d)); split; [exists 1; reflexivity|auto]).
    split; [|intros (-> & -> & ->); exact Q]. intros Q'. destruct (plot_det _ _ _ _ _ _ _ _ _ Q' Q) as (-> & -> & ->). auto.
  - intros o out d'. assert (Q : plot r d (Command None (CSave content)) (ORet (RErr id_must_be_set)) [] d)
      by (exists (snd (started r d)); split; [exists 1; reflexivity|auto]).
    split; [|intros (-> & -> & ->); exact Q]. intros Q'. destruct (plot_det _ _ _ _ _ _ _ _ _ Q' Q) as (-> & -> & ->). auto.
Qed.

(** C45, what holds of it: an id that is relative and whose [..] never climb above where it starts.
    Missing: the other ids; then it is false (below, and C74). *)
Theorem C45_lookups_stay_below_partial :
  forall r i,
    components (rp_context r) <> [] -> plain (rp_ext r) -> i <> [] ->
    has_root i = false -> stays_below 0 (components i) ->
    below (rp_context r) (lookup_path r i).
Proof.
  intros r i Nc P Ni R St. apply (stays_below_components i R) in St.
  pose proof (components_join (rp_context r) i Nc Ni R) as C. unfold below, lookup_path.
  destruct (body i) as [|c l _] eqn:B using rev_ind; [cbn in St; lia|].
  pose proof (file_name_last (join (rp_context r) i)) as F. destruct (file_name (join (rp_context r) i)) as [n|] eqn:Fn.
  - destruct F as [x F]. rewrite C, app_assoc in F. apply app_inj_tail in F as [_ ->].
    destruct (components_with_extension _ (rp_ext r) n P Fn) as (y & E1 & E2). rewrite C, app_assoc in E1.
    apply app_inj_tail in E1 as [<- _]. eexists. rewrite E2, <- app_assoc. split; [reflexivity|].
    now apply (stays_below_rename l n).
  - exists (l ++ [c]). split; [|exact St]. unfold with_extension. now rewrite Fn.
Qed.

(** C74: exactly which relative ids are looked up below the base directory; and an absolute id is
    looked up as it is, wherever the base directory is. *)
Theorem C74_lookups_below_exactly :
  forall r i,
    components (rp_context r) <> [] -> plain (rp_ext r) -> i <> [] ->
    (has_root i = false -> (below (rp_context r) (lookup_path r i) <-> stays_below 0 (components i))) /\
    (has_root i = true -> forall ctx', lookup_path r i = lookup_path (plain_repo ctx' (rp_ext r)) i).
Proof.
  intros r i Nc P Ni. split.
  - intros R. split; [|intros St; now apply C45_lookups_stay_below_partial].
    intros (rest & E & St). apply (stays_below_components i R).
    pose proof (components_join (rp_context r) i Nc Ni R) as C. unfold lookup_path in E.
    pose proof (file_name_last (join (rp_context r) i)) as F. destruct (file_name (join (rp_context r) i)) as [n|] eqn:Fn.
    + destruct (components_with_extension _ (rp_ext r) n P Fn) as (y & E1 & E2). rewrite C in E1. rewrite E2 in E.
      destruct (body i) as [|c l _] eqn:B using rev_ind.
      * rewrite app_nil_r in E1. rewrite E1 in E. apply (f_equal (@length _)) in E. rewrite !app_length in E. cbn in E.
        destruct rest; [cbn in St; lia|cbn in E; lia].
      * rewrite app_assoc in E1. apply app_inj_tail in E1 as [<- ->]. rewrite <- app_assoc in E. apply app_inv_head in E. subst rest.
        now apply (stays_below_rename l n) in St.
    + unfold with_extension in E. rewrite Fn, C in E. apply app_inv_head in E. now subst rest.
  - intros R ctx'. unfold lookup_path, join. cbn. now rewrite R.
Qed.

(** C46, what holds of it: an absolute id that already has the extension.  Missing: the listed ids,
    for which it is always false (C75). *)
Theorem C46_loaded_id_is_requested_id_partial :
  forall r fs q a x,
    plain (rp_ext r) -> a <> [] ->
    find_by_id r fs (([] : seg) :: q ++ [a ++ dot :: rp_ext r]) = Some x ->
    same_path (id_of x) (([] : seg) :: q ++ [a ++ dot :: rp_ext r]).
Proof.
  intros r fs q a x P Na F. unfold find_by_id in F. destruct (fs _) as [b|]; [|discriminate]. injection F as <-. cbn [id_of document_id doc_path].
  set (i := [] :: q ++ [a ++ dot :: rp_ext r]). unfold lookup_path, join.
  assert (R : has_root i = true) by (unfold i; destruct q; reflexivity). rewrite R.
  assert (Pn : parse_single (a ++ dot :: rp_ext r) = Some (Normal (a ++ dot :: rp_ext r))).
  { destruct P as (Ne & Nd & _). unfold parse_single. destruct (rp_ext r) as [|e ex]; [contradiction|].
    destruct a as [|u [|v [|w a]]]; cbn [app]; try reflexivity. contradiction. }
  assert (C : components i = (RootDir :: body ([] :: q)) ++ [Normal (a ++ dot :: rp_ext r)]).
  { unfold components. rewrite R. unfold i. change ([] :: q ++ [a ++ dot :: rp_ext r]) with (([] :: q) ++ [a ++ dot :: rp_ext r]).
    rewrite body_app. cbn [body]. rewrite Pn. reflexivity. }
  assert (Fn : file_name i = Some (a ++ dot :: rp_ext r)) by (unfold file_name; now rewrite C, last_last).
  destruct (components_with_extension _ _ _ P Fn) as (l & E1 & E2). unfold same_path. rewrite E2, E1. f_equal. f_equal. f_equal.
  destruct P as (_ & Nd & _). now rewrite stem_named.
Qed.

(** C75: the document loaded for a listed id never has that id. *)
Theorem C75_loaded_id_is_not_listed_id :
  forall ctx ext fs e i x,
    components ctx <> [] -> plain ext -> file_name ctx <> Some (dot :: ext) -> Forall visible e ->
    entry_id (plain_repo ctx ext) e = Some i -> find_by_id (plain_repo ctx ext) fs i = Some x ->
    id_of x = lookup_path (plain_repo ctx ext) i /\ ~ same_path (id_of x) i.
Proof.
  intros ctx ext fs e i x Cc P F V E Fd.
  assert (Nc : ctx <> []) by (intros ->; now apply Cc).
  unfold find_by_id in Fd. destruct (fs _) as [b|]; [|discriminate]. injection Fd as <-. split; [reflexivity|]. cbn [id_of document_id doc_path].
  assert (Ne : e <> []) by (intros ->; rewrite (root_not_listed ctx ext Nc P F) in E; discriminate).
  destruct (entry_id_below ctx ext Nc e i P V Ne E) as (d & pre & -> & ->).
  apply Forall_app in V as [Vd Vn]. inversion Vn as [|? ? Vn' _]; subst. apply visible_pre in Vn'.
  assert (V1 : Forall visible (d ++ [pre])) by (apply Forall_app; auto).
  rewrite (lookup_file ctx ext Nc d pre P V1). unfold same_path.
  assert (V2 : Forall visible (file (plain_repo ctx ext) d (stem pre))).
  { apply Forall_app. split; [exact Vd|]. constructor; [|constructor]. apply visible_file; [now apply stem_visible|exact P]. }
  assert (N2 : file (plain_repo ctx ext) d (stem pre) <> []) by (unfold file; now destruct d).
  rewrite entry_path_names by auto. cbn [rp_context plain_repo]. rewrite components_below by auto.
  rewrite (components_below [[]] (d ++ [pre]) ltac:(discriminate) ltac:(now destruct d) V1 : components (d ++ [pre]) = _).
  intros Q. apply (f_equal (@length _)) in Q. rewrite !app_length, !map_length in Q. unfold file in Q. rewrite !app_length in Q. cbn in Q.
  destruct (components ctx); [now apply Cc|]. cbn in Q. lia.
Qed.

Print Assumptions C41_listed_id_loads_its_file_partial.
Print Assumptions C42_listing_exact_sorted.
Print Assumptions C43_different_files_different_ids.
Print Assumptions C44_saved_document_found_partial.
Print Assumptions C45_lookups_stay_below_partial.
Print Assumptions C46_loaded_id_is_requested_id_partial.
Print Assumptions C47_delete_succeeds_iff_listed.
Print Assumptions C47_missing_id.
Print Assumptions C72_file_loaded_for_listed_id.
Print Assumptions C73_no_command_has_a_lasting_effect.
Print Assumptions C74_lookups_below_exactly.
Print Assumptions C75_loaded_id_is_not_listed_id.

(** ** Concrete cases *)
Definition b_ (s : string) : bytes := list_ascii_of_string s.
Definition p_ (s : string) : path := split (b_ s).

(** The directory /home/me/notes/ with a few files and a directory; ids are the files without ".md". *)
Definition home : repo := plain_repo (p_ "/home/me/notes/") (b_ "md").
Definition home_walk : list entry :=
  map p_ ["readme.txt"; "b.md"; "sub"; "sub/a.md"; "sub/c.d.md"; "sub/c.md"; "a.md"; "old.md"]%string ++ [[]].
Definition home_files : files := fun p =>
  bt_get (components p)
    (bt_from_iter (map (fun x => (components (p_ (fst x)), b_ (snd x)))
      [("/home/me/notes/a.md", "A"); ("/home/me/notes/b.md", "B"); ("/home/me/notes/sub/a.md", "SA");
       ("/home/me/notes/sub/c.md", "C"); ("/home/me/notes/sub/c.d.md", "CD"); ("/home/me/secret.md", "S")]%string)).
Definition home_dir : dir := Dir home_walk home_files.

Ltac see_visible := split; [vm_compute; intuition discriminate|do 2 eexists; split; [vm_compute; reflexivity|discriminate]].

Example home_good : rp_context home <> [] /\ components (rp_context home) <> [] /\ plain (rp_ext home) /\
  good_walk (dr_walk home_dir) /\ file_name (rp_context home) <> Some (dot :: rp_ext home).
Proof.
  split; [discriminate|]. split; [discriminate|]. split; [split; [discriminate|split; vm_compute; intuition discriminate]|].
  split; [|discriminate]. let w := eval vm_compute in (dr_walk home_dir) in change (good_walk w).
  unfold good_walk. repeat match goal with |- Forall _ _ => constructor end; see_visible.
Qed.

(** C42, C43. *)
Example C42_case :
  map (fun i => string_of_list_ascii (unsplit i)) (listing home home_dir)
  = ["a"; "b"; "old"; "sub/a"; "sub/c"; "sub/c.d"]%string.
Proof. reflexivity. Qed.

(** C41: a file without a dot before the extension; C72: one with. *)
Example C41_case :
  map (fun i => option_map (fun x => (string_of_list_ascii (unsplit (doc_path x)), string_of_list_ascii (doc_bytes x)))
                  (find_by_id home home_files (p_ i))) ["sub/a"; "sub/c.d"; "old"; "none"]%string
  = [Some ("/home/me/notes/sub/a.md", "SA"); Some ("/home/me/notes/sub/c.md", "C"); None; None]%string.
Proof. reflexivity. Qed.

(** C41 is false: the file [sub/c.d.md] is listed as [sub/c.d], for which [sub/c.md] is loaded. *)
Theorem C41_listed_id_loads_its_file_refuted :
  exists r d e i x content,
    good_walk (dr_walk d) /\ In e (dr_walk d) /\ entry_id r e = Some i /\ dr_files d (entry_path r e) = Some content /\
    find_by_id r (dr_files d) i = Some x /\ doc_bytes x <> content.
Proof.
  exists home, home_dir, (p_ "sub/c.d.md"), (p_ "sub/c.d"), (Document (p_ "/home/me/notes/sub/c.md") (b_ "C")), (b_ "CD").
  split; [apply home_good|]. split; [vm_compute; tauto|]. split; [reflexivity|]. split; [reflexivity|]. split; [reflexivity|discriminate].
Qed.

(** C44 is false: the document saved in a run is neither listed nor found by the next one. *)
Theorem C44_saved_document_found_refuted :
  exists r d c1 c2 d1 d2 s content printed,
    cm_id c1 = Some s /\ cm_sub c1 = CSave (Some content) /\ cm_sub c2 = CList /\
    session r d [(c1, ORet RUnit, []); (c2, ORet RUnit, printed)] d2 /\ plot r d c1 (ORet RUnit) [] d1 /\
    (forall i, In i printed -> ~ same_path i (split s)) /\ find_by_id r (dr_files d2) (split s) = None.
Proof.
  set (c1 := Command (Some (b_ "new")) (CSave (Some (b_ "N")))).
  assert (Q : plot home home_dir c1 (ORet RUnit) [] home_dir).
  { eexists. split; [exists 20; vm_compute; reflexivity|]. split; [reflexivity|reflexivity]. }
  exists home, home_dir, c1, (Command None CList), home_dir, home_dir, (b_ "new"), (b_ "N"), (listing home home_dir).
  split; [reflexivity|]. split; [reflexivity|]. split; [reflexivity|].
  split; [econstructor; [exact Q|]; econstructor; [now apply list_plot|constructor]|]. split; [exact Q|].
  split; [|reflexivity]. intros i I S. vm_compute in I. unfold same_path in S.
  repeat (destruct I as [<-|I]; [vm_compute in S; discriminate|]). destruct I.
Qed.

(** C45 is false: an id with [..] or an absolute one leads out of the base directory. *)
Theorem C45_lookups_stay_below_refuted :
  exists r fs i1 i2 x1 x2,
    components (rp_context r) <> [] /\ plain (rp_ext r) /\ has_root i1 = false /\ has_root i2 = true /\
    find_by_id r fs i1 = Some x1 /\ ~ below (rp_context r) (doc_path x1) /\
    find_by_id r fs i2 = Some x2 /\ ~ below (rp_context r) (doc_path x2).
Proof.
  exists home, (fun p => if is_prefix (components (p_ "/home/me")) (components p) then Some (b_ "S") else None), (p_ "../secret"), (p_ "/home/me/secret"),
    (Document (p_ "/home/me/notes/../secret.md") (b_ "S")), (Document (p_ "/home/me/secret.md") (b_ "S")).
  split; [apply home_good|]. split; [apply home_good|]. split; [reflexivity|]. split; [reflexivity|].
  split; [reflexivity|]. split; [|split; [reflexivity|]].
  - intros (rest & E & St). vm_compute in E. injection E as <-. exact St.
  - intros (rest & E & St). vm_compute in E. discriminate.
Qed.

Example C45_case :
  has_root (p_ "sub/../a") = false /\ stays_below 0 (components (p_ "sub/../a")) /\ ~ stays_below 0 (components (p_ "sub/../../a")) /\
  string_of_list_ascii (unsplit (lookup_path home (p_ "sub/../a"))) = "/home/me/notes/sub/../a.md"%string.
Proof. repeat split; cbn; auto. Qed.

(** C46 is false: the document loaded for the id [a] has the id /home/me/notes/a.md. *)
Theorem C46_loaded_id_is_requested_id_refuted :
  exists r d e i x,
    good_walk (dr_walk d) /\ In e (dr_walk d) /\ entry_id r e = Some i /\ find_by_id r (dr_files d) i = Some x /\ ~ same_path (id_of x) i.
Proof.
  exists home, home_dir, (p_ "a.md"), (p_ "a"), (Document (p_ "/home/me/notes/a.md") (b_ "A")).
  split; [apply home_good|]. split; [vm_compute; tauto|]. split; [reflexivity|]. split; [reflexivity|]. intros S. vm_compute in S. discriminate.
Qed.

Example C46_case :
  find_by_id home home_files (p_ "/home/me/secret.md") = Some (Document (p_ "/home/me/secret.md") (b_ "S")) /\
  p_ "/home/me/secret.md" = ([] : seg) :: map b_ ["home"; "me"]%string ++ [b_ "secret" ++ dot :: rp_ext home].
Proof. split; reflexivity. Qed.

(** C47: listed, differently spelled, not listed. *)
Example C47_case :
  map (fun s => snd (match run (fst (started home home_dir)) 20 (snd (started home home_dir)) (execute (Command (Some (b_ s)) CDelete)) with
                     | Some x => x | None => (snd (started home home_dir), OHang) end)) ["sub/a"; "sub//./a/"; "./a"; "sub"]%string
  = [ORet RUnit; ORet RUnit; ORet (RErr Noop); ORet (RErr Noop)].
Proof. reflexivity. Qed.

(** C43, C72, C75: two files with nearly the same name. *)
Example C43_case :
  let e1 := p_ "sub/c.md" in let e2 := p_ "sub/c.d.md" in
  Forall visible e1 /\ Forall visible e2 /\ entry_id home e1 = Some (p_ "sub/c") /\ entry_id home e2 = Some (p_ "sub/c.d") /\
  ~ same_path (p_ "sub/c") (p_ "sub/c.d").
Proof.
  pose proof (proj1 (proj2 (proj2 (proj2 home_good)))) as G. unfold good_walk in G. rewrite Forall_forall in G.
  split; [apply G; vm_compute; tauto|]. split; [apply G; vm_compute; tauto|].
  split; [reflexivity|]. split; [reflexivity|]. intros S. vm_compute in S. discriminate.
Qed.

(** C44: within its run, the saved document is there. *)
Example C44_case :
  option_map (fun x => (g_get (w_graph (fst x)) (components (p_ "sub/new")), snd x))
    (run (fst (started home home_dir)) 20 (snd (started home home_dir)) (execute (Command (Some (b_ "sub/new")) (CSave (Some (b_ "N"))))))
  = Some (Some (LDoc (p_ "sub/new") (Some (Document (p_ "sub/new") (b_ "N")))), ORet RUnit).
Proof. reflexivity. Qed.

(** C73: a document deleted in a run can be deleted again by the next ones, and one just saved cannot. *)
Example C73_case :
  session home home_dir
    [(Command (Some (b_ "a")) CDelete, ORet RUnit, []); (Command (Some (b_ "new")) (CSave None), ORet RUnit, []);
     (Command (Some (b_ "a")) CDelete, ORet RUnit, []); (Command (Some (b_ "new")) CDelete, ORet (RErr Noop), []);
     (Command None CList, ORet RUnit, map p_ ["a"; "b"; "old"; "sub/a"; "sub/c"; "sub/c.d"]%string)] home_dir.
Proof.
  repeat (econstructor; [eexists; split; [exists 20; vm_compute; reflexivity|split; reflexivity]|]). constructor.
Qed.

(** C74: one that comes back up, one that leaves, an absolute one. *)
Example C74_case :
  below (rp_context home) (lookup_path home (p_ "sub/../a")) /\
  ~ below (rp_context home) (lookup_path home (p_ "sub/../../a")) /\
  lookup_path home (p_ "/etc/passwd") = lookup_path (plain_repo (p_ "elsewhere") (b_ "md")) (p_ "/etc/passwd").
Proof.
  destruct home_good as (_ & Nc & P & _).
  assert (Q : forall i, i <> [] -> has_root i = false -> (below (rp_context home) (lookup_path home i) <-> stays_below 0 (components i)))
    by (intros i Ni; exact (proj1 (C74_lookups_below_exactly home i Nc P Ni))).
  split; [apply Q; [discriminate|reflexivity|cbn; auto]|]. split; [|reflexivity].
  intros B. apply Q in B; [|discriminate|reflexivity]. cbn in B. exact B.
Qed.

Example C75_case :
  entry_id home (p_ "sub/a.md") = Some (p_ "sub/a") /\
  option_map (fun x => string_of_list_ascii (unsplit (id_of x))) (find_by_id home home_files (p_ "sub/a"))
  = Some "/home/me/notes/sub/a.md"%string.
Proof. split; reflexivity. Qed.

Print Assumptions C41_listed_id_loads_its_file_refuted.
Print Assumptions C44_saved_document_found_refuted.
Print Assumptions C45_lookups_stay_below_refuted.
Print Assumptions C46_loaded_id_is_requested_id_refuted.
