(** Property C152: the strings that name a listed document. *)
From Coq Require Import String.
From Coq Require Import List Bool Arith Ascii.
From Verif Require Import Ord OrdFacts Prog Path PathOrd Cli SpecCli PathFacts CliFacts Utf8 Regex SpecRegex RegexFacts CliMain SpecSpelling
  P_Cli P_Regex.
Import ListNotations.

(** The rest of a path's string, after its first segment. *)
Definition tail_string (p : path) : bytes := flat_map (fun x => slash :: x) p.

Lemma unsplit_tail x p : unsplit (x :: p) = x ++ tail_string p.
Proof.
  revert x. induction p as [|y p IH]; intros x; [cbn; now rewrite app_nil_r|].
  change (unsplit (x :: y :: p)) with (x ++ slash :: unsplit (y :: p)). now rewrite IH.
Qed.

Lemma parse_none x : parse_single x = None -> x = [] \/ x = [dot].
Proof.
  destruct x as [|c [|d [|e x]]]; cbn; auto; try discriminate.
  - destruct (Ascii.eqb_spec c dot) as [->|]; [auto|discriminate].
  - destruct (Ascii.eqb c dot && Ascii.eqb d dot); discriminate.
Qed.

Lemma parse_name x n : parse_single x = Some (Normal n) -> x = n.
Proof.
  destruct x as [|c [|d [|e x]]]; cbn; try discriminate; try congruence.
  - destruct (Ascii.eqb c dot); congruence.
  - destruct (Ascii.eqb c dot && Ascii.eqb d dot); congruence.
Qed.

Lemma body_goes_on p : forall ns, body p = map Normal ns -> goes_on ns (tail_string p).
Proof.
  induction p as [|x p IH]; intros ns E; cbn [body] in E.
  - destruct ns; [constructor|discriminate].
  - change (tail_string (x :: p)) with (slash :: x ++ tail_string p). destruct (parse_single x) as [c|] eqn:P.
    + destruct ns as [|n ns]; [discriminate|]. cbn [map] in E. injection E as -> E. apply parse_name in P as ->. now constructor; apply IH.
    + apply parse_none in P as [->| ->]; cbn [app]; constructor; now apply IH.
Qed.

Lemma goes_on_body ns s : goes_on ns s -> Forall visible ns ->
  exists p, s = tail_string p /\ body p = map Normal ns /\ Forall (fun x => ~ In slash x) p.
Proof.
  induction 1 as [|ns s G IH|ns s G IH|n ns s G IH]; intros V.
  - exists []. repeat split. constructor.
  - destruct (IH V) as (p & -> & B & F). exists ([] :: p). repeat split; [exact B|]. constructor; [intros []|exact F].
  - destruct (IH V) as (p & -> & B & F). exists ([dot] :: p). repeat split; [exact B|]. constructor; [|exact F]. intros [X|[]]. discriminate X.
  - inversion V as [|? ? Vn Vr]; subst. destruct (IH Vr) as (p & -> & B & F). exists (n :: p). repeat split.
    + cbn [body map]. now rewrite (parse_visible n Vn), B.
    + constructor; [|exact F]. now destruct Vn.
Qed.

Lemma spelling_iff ns s : Forall visible ns -> ns <> [] -> (same_path ns (split s) <-> spelling ns s).
Proof.
  intros V N. unfold same_path. rewrite (visible_components ns V N). destruct ns as [|n ns]; [contradiction|]. inversion V as [|? ? Vn Vr]; subst. split.
  - intros E. pose proof (unsplit_split s) as S. destruct (split s) as [|x p]; [discriminate|]. rewrite unsplit_tail in S. subst s.
    unfold components in E. destruct (has_root (x :: p)) eqn:R; [discriminate|]. destruct (leads_cur_dir (x :: p)) eqn:L; [discriminate|].
    cbn [body map] in E. destruct (parse_single x) as [c|] eqn:P.
    + injection E as <- E. apply parse_name in P as ->. exists n, ns, (tail_string p). repeat split. now apply body_goes_on.
    + exfalso. apply parse_none in P as [->| ->]; [|discriminate L]. destruct p; [discriminate E|discriminate R].
  - intros (n' & ns' & t & E & -> & G). injection E as <- <-. destruct (goes_on_body ns t G Vr) as (p & -> & B & F).
    rewrite <- unsplit_tail, split_unsplit; [|discriminate|constructor; [now destruct Vn|exact F]].
    destruct (visible_head n p Vn) as (R & L & _). unfold components. rewrite R, L. cbn [body map]. now rewrite (parse_visible n Vn), B.
Qed.

Lemma same_path_decided (l : list path) q : (exists i, In i l /\ same_path i q) \/ ~ exists i, In i l /\ same_path i q.
Proof.
  induction l as [|i l IH]; [right; intros (i & [] & _)|].
  destruct (ord_eq_dec (components i) (components q)) as [E|N]; [left; exists i; split; [now left|exact E]|].
  destruct IH as [(j & J & S)|N']; [left; exists j; split; [now right|exact S]|].
  right. intros (j & [<-|J] & S); [now apply N|]. apply N'. eauto.
Qed.

(** C152. *)
Theorem C152_spellings_of_a_listed_id :
  forall ctx ext p d s,
    ctx <> [] -> good_walk (dr_walk d) -> pattern_of ext p -> ~ found p (root_name ctx) ->
    let named := exists dd n m, In (dd ++ [n]) (dr_walk d) /\ found p n /\ without_ext n m /\ spelling (dd ++ [m]) s in
    forall o out d', main_run ctx ext d (Command (Some s) CDelete) o out d' <->
      (named /\ o = ORet RUnit \/ ~ named /\ o = ORet (RErr Noop)) /\ out = [] /\ d' = d.
Proof.
  intros ctx ext p d s Nc G W Root named o out d'.
  destruct (C84_listing_by_pattern ctx ext p d (Command None CList) Nc G W Root Logic.eq_refl) as (printed & _ & In_ & L).
  assert (Iff : named <-> exists i, In i printed /\ same_path i (split s)).
  { assert (V : forall dd n m, In (dd ++ [n]) (dr_walk d) -> without_ext n m -> Forall visible (dd ++ [m])).
    { intros dd n m I X. unfold good_walk in G. rewrite Forall_forall in G. pose proof (G _ I) as V. apply Forall_app in V as [Vd Vn].
      inversion Vn as [|? ? Vn' _]; subst. apply without_ext_stem in X; [subst m|exact Vn']. apply Forall_app. split; [exact Vd|].
      constructor; [now apply stem_visible|constructor]. }
    split.
    - intros (dd & n & m & I & O & X & S). exists (dd ++ [m]). split; [apply In_; exists dd, n, m; auto|].
      apply spelling_iff; [now apply (V dd n)|now destruct dd|exact S].
    - intros (i & I & S). apply In_ in I as (dd & n & m & I & O & X & ->). exists dd, n, m. repeat split; auto.
      apply spelling_iff; [now apply (V dd n)|now destruct dd|exact S]. }
  rewrite (main_run_pattern ctx ext p) by exact W. set (r := Repo ctx ext (found_in p)) in *.
  destruct (C47_delete_succeeds_iff_listed r d (Command (Some s) CDelete) s Logic.eq_refl Logic.eq_refl) as (printed' & Q & _ & Yes & No).
  assert (printed' = printed) as ->.
  { apply (proj1 (L (ORet RUnit) printed' d)). apply (main_run_pattern ctx ext p); [exact W|exact Q]. }
  rewrite <- Iff in Yes, No. split.
  - intros P. assert (D : named \/ ~ named) by (rewrite Iff; apply same_path_decided).
    destruct D as [D|D].
    + destruct (plot_det _ _ _ _ _ _ _ _ _ P (Yes D)) as (-> & -> & ->). auto.
    + destruct (plot_det _ _ _ _ _ _ _ _ _ P (No D)) as (-> & -> & ->). auto.
  - intros ([(D & ->)|(D & ->)] & -> & ->); auto.
Qed.

Print Assumptions C152_spellings_of_a_listed_id.

(** The file "sub/a.md": five spellings of its id, and eight strings that are none. *)
Section Cases.
  Ltac see := split; [intros X; cbn in X; repeat (destruct X as [X|X]; [discriminate X|]); exact X
    |eexists _, _; split; [reflexivity|discriminate]].
  Let s := list_ascii_of_string.
  Let ctx : path := [s "docs"].
  Let d : dir := Dir [[]; [s "sub"]; [s "sub"; s "a.md"]] (fun _ => None).
  Let deletes (i : string) (o : outcome path) : Prop := main_run ctx (s "md") d (Command (Some (s i)) CDelete) o [] d.

  Let good : good_walk (dr_walk d).
  Proof. unfold good_walk. repeat (apply Forall_nil || apply Forall_cons); see. Qed.
  Let md : re := match parse (pattern (s "md")) with POk r => r | _ => REps end.
  Let is_md : pattern_of (s "md") md.
  Proof. apply pattern_parse. reflexivity. Qed.
  Let not_root : ~ found md (root_name ctx).
  Proof. rewrite <- found_iff. discriminate. Qed.

  Let Listed : listing (Repo ctx (s "md") (found_in md)) d = [[s "sub"; s "a"]].
  Proof. reflexivity. Qed.

  Let decides (i : string) :
    if eqb (components [s "sub"; s "a"]) (components (split (s i))) then deletes i (ORet RUnit) else deletes i (ORet (RErr Noop)).
  Proof.
    destruct (C47_delete_succeeds_iff_listed (Repo ctx (s "md") (found_in md)) d (Command (Some (s i)) CDelete) (s i) Logic.eq_refl Logic.eq_refl)
      as (ids & Q & _ & Yes & No).
    destruct (plot_det _ _ _ _ _ _ _ _ _ Q (list_plot _ d (Command None CList) Logic.eq_refl)) as (_ & -> & _). rewrite Listed in *.
    destruct (eqb _ _) eqn:E; apply (main_run_pattern ctx (s "md") md _ _ _ _ _ is_md).
    - apply Yes. exists [s "sub"; s "a"]. split; [now left|]. now apply eqb_eq in E.
    - apply No. intros (j & [<-|[]] & S). apply eqb_neq in E. now apply E.
  Qed.

  Example C152_case :
    good_walk (dr_walk d) /\ pattern_of (s "md") md /\ ~ found md (root_name ctx) /\
    Forall (fun i => deletes i (ORet RUnit)) ["sub/a"; "sub//a"; "sub/./a"; "sub/a/"; "sub/a/./."]%string /\
    Forall (fun i => deletes i (ORet (RErr Noop)))
      ["./sub/a"; "/sub/a"; "sub/../sub/a"; "sub"; "sub/a.md"; "suba"; "sub/A"; ""]%string.
  Proof.
    split; [exact good|]. split; [exact is_md|]. split; [exact not_root|].
    split; repeat constructor; match goal with |- deletes ?i _ => exact (decides i) end.
  Qed.

  (** The same strings by the grammar. *)
  Example C152_case_grammar :
    Forall (fun i => spelling [s "sub"; s "a"] (s i)) ["sub/a"; "sub//a"; "sub/./a"; "sub/a/"; "sub/a/./."]%string /\
    Forall (fun i => ~ spelling [s "sub"; s "a"] (s i))
      ["./sub/a"; "/sub/a"; "sub/../sub/a"; "sub"; "sub/a.md"; "suba"; "sub/A"; ""]%string.
  Proof.
    assert (V : Forall visible [s "sub"; s "a"]).
    { repeat (apply Forall_nil || apply Forall_cons); see. }
    split; repeat constructor; rewrite <- (spelling_iff _ _ V) by discriminate; try reflexivity; intros X; discriminate X.
  Qed.
End Cases.
