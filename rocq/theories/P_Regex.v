(** Properties C84-C88, C126-C128: the extension given to the command line is part of a regular expression. *)
From Coq Require Import String.
From Coq Require Import List Bool Arith NArith Ascii Lia Sorted.
From Verif Require Import Ord OrdFacts BTree BTreeFacts Graph GraphFacts SpecGraph Tx TxMachine SpecTx Lazy Prog SpecProg ProgFacts
  Path PathOrd Cli SpecCli PathFacts CliFacts P_Graph Utf8 SpecUtf8 Utf8Facts Regex SpecRegex RegexFacts CliMain.
Import ListNotations.

(** ** Ids of entries, whatever the regular expression *)
Lemma without_ext_stem n m : visible n -> without_ext n m <-> stem n = m.
Proof.
  intros V. split.
  - intros [(e & -> & D)|[D ->]].
    + apply stem_named; [|exact D]. intros ->. destruct V as [_ (c & s & E & N)]. injection E as <- _. contradiction.
    + now apply stem_fixed.
  - intros <-. unfold stem. destruct (rsplit_dot n) as [[a b]|] eqn:E.
    + apply rsplit_dot_some in E as [-> D]. destruct a as [|c a].
      * destruct V as [_ (c & s & E & N)]. injection E as <- _. contradiction.
      * left. eauto.
    + right. split; [now apply rsplit_dot_none|reflexivity].
Qed.

Section Any.
  Context (ctx : path) (ext : seg) (re : seg -> bool).
  Hypothesis Nc : ctx <> [].
  Let r := Repo ctx ext re.

  Lemma entry_id_any d n : Forall visible (d ++ [n]) -> entry_id r (d ++ [n]) = if re n then Some (d ++ [stem n]) else None.
  Proof.
    intros V. unfold entry_id, entry_name. assert (Ne : d ++ [n] <> []) by (now destruct d).
    rewrite (entry_path_names r _ V Ne). cbn [rp_context rp_re r]. rewrite file_name_snoc by auto. destruct (re n); [|reflexivity].
    rewrite with_extension_snoc by auto. rewrite app_nil_r. apply strip_below; [exact Nc|].
    apply Forall_app in V as [Vd Vn]. inversion Vn; subst. apply Forall_app. split; [exact Vd|]. constructor; [now apply stem_visible|constructor].
  Qed.

  Lemma visible_with n : ~ In slash ext -> visible n -> visible (n ++ dot :: ext).
  Proof.
    intros Sl [S (c & s & -> & N)]. split; [|cbn; eauto]. intros I. apply in_app_or in I as [I|[I|I]]; auto. discriminate.
  Qed.

  Lemma lookup_any d m : ext <> [] -> ~ In slash ext -> Forall visible (d ++ [m]) ->
    lookup_path r (d ++ [m]) = entry_path r (d ++ [stem m ++ dot :: ext]).
  Proof.
    intros Ne Sl V. unfold lookup_path. assert (Vp : visible m) by (apply Forall_app in V as [_ V]; now inversion V).
    assert (Rt : has_root (d ++ [m]) = false).
    { destruct d as [|n d]; cbn [app]; [now apply visible_head|]. inversion V; subst. now apply visible_head. }
    rewrite join_relative by exact Rt. rewrite with_extension_snoc by auto. cbn [rp_ext rp_context r].
    rewrite entry_path_names.
    - cbn [rp_context r]. destruct ext; [contradiction|reflexivity].
    - apply Forall_app in V as [Vd _]. apply Forall_app. split; [exact Vd|]. constructor; [|constructor].
      apply visible_with; [exact Sl|now apply stem_visible].
    - now destruct d.
  Qed.

  (** Which listed entries are those loaded by their ids. *)
  Lemma loads_own d n : ext <> [] -> ~ In slash ext -> Forall visible (d ++ [n]) ->
    (same_path (lookup_path r (d ++ [stem n])) (entry_path r (d ++ [n])) <-> n = stem (stem n) ++ dot :: ext).
  Proof.
    intros Ne Sl V. apply Forall_app in V as V'. destruct V' as [Vd Vn]. inversion Vn as [|? ? Vn' _]; subst.
    assert (Vs : Forall visible (d ++ [stem n])) by (apply Forall_app; split; [exact Vd|]; constructor; [now apply stem_visible|constructor]).
    rewrite lookup_any by assumption. unfold same_path.
    assert (Vl : Forall visible (d ++ [stem (stem n) ++ dot :: ext])).
    { apply Forall_app. split; [exact Vd|]. constructor; [|constructor]. apply visible_with; [exact Sl|]. now apply stem_visible, stem_visible. }
    assert (Nn : forall x : seg, d ++ [x] <> []) by (intros x; now destruct d).
    rewrite !entry_path_names by auto. cbn [rp_context r]. rewrite !components_below by auto. split.
    - intros E. apply app_inv_head in E. rewrite !map_app in E. apply app_inv_head in E. now injection E.
    - intros E. now rewrite <- E.
  Qed.
End Any.

Definition found_in (p : re) (n : seg) : bool := is_match p (lossy n).

Lemma found_iff p n : found_in p n = true <-> found p n.
Proof.
  unfold found_in, found. rewrite is_match_iff. split.
  - intros O. exists (lossy n). split; [now apply lossy_iff|exact O].
  - intros (t & S & O). apply lossy_iff in S as ->. exact O.
Qed.

Lemma found_shows p n t : shows n t -> (found p n <-> occurs p t).
Proof. intros S. split; [|intros O; now exists t]. intros (u & S' & O). now rewrite (shows_det n t u S S'). Qed.

Lemma pattern_parse ext p : pattern_of ext p <-> parse (pattern ext) = POk p.
Proof.
  unfold pattern_of, pattern. rewrite parse_iff. split.
  - intros (cs & S & W). apply lossy_iff in S as ->. exact W.
  - intros W. exists (lossy ext). split; [now apply lossy_iff|exact W].
Qed.

Lemma repo_for_pattern ctx ext p : pattern_of ext p -> repo_for ctx ext = POk (Repo ctx ext (found_in p)).
Proof. intros W. unfold repo_for. apply pattern_parse in W. now rewrite W. Qed.

Lemma main_run_pattern ctx ext p d c o printed d' : pattern_of ext p ->
  (main_run ctx ext d c o printed d' <-> plot (Repo ctx ext (found_in p)) d c o printed d').
Proof. intros W. unfold main_run. now rewrite (repo_for_pattern ctx ext p W). Qed.

Lemma visible_components l : Forall visible l -> l <> [] -> components l = map Normal l.
Proof. intros V N. apply (components_below [[]] l); auto. discriminate. Qed.

Lemma map_normal_inj l1 : forall l2, map Normal l1 = map Normal l2 -> l1 = l2.
Proof. induction l1 as [|x l1 IH]; intros [|y l2] E; try discriminate; auto. cbn in E. injection E as -> E. f_equal. auto. Qed.

(** C84. *)
Theorem C84_listing_by_pattern :
  forall ctx ext p d c,
    ctx <> [] -> good_walk (dr_walk d) -> pattern_of ext p -> ~ found p (root_name ctx) -> cm_sub c = CList ->
    exists printed, ascending printed /\
      (forall i, In i printed <-> exists dd n m, In (dd ++ [n]) (dr_walk d) /\ found p n /\ without_ext n m /\ i = dd ++ [m]) /\
      forall o out d', main_run ctx ext d c o out d' <-> o = ORet RUnit /\ out = printed /\ d' = d.
Proof.
  intros ctx ext p d c Nc G W Root E. set (r := Repo ctx ext (found_in p)).
  unfold good_walk in G. rewrite Forall_forall in G.
  assert (X : forall i e, In e (dr_walk d) -> entry_id r e = Some i ->
               exists dd n, e = dd ++ [n] /\ Forall visible (dd ++ [n]) /\ found p n /\ i = dd ++ [stem n]).
  { intros i e I Ei. pose proof (G e I) as Ve. destruct e as [|n e] using rev_ind.
    - exfalso. unfold entry_id, entry_name in Ei. cbn [entry_path fold_left rp_context rp_re r] in Ei. fold (root_name ctx) in Ei.
      destruct (found_in p (root_name ctx)) eqn:M; [|discriminate]. now apply found_iff in M.
    - clear IHe. unfold r in Ei. rewrite entry_id_any in Ei by auto. destruct (found_in p n) eqn:M; [|discriminate]. injection Ei as <-.
      apply found_iff in M. exists e, n. auto. }
  exists (listing r d). split; [|split].
  - apply listing_ascending. intros i I. apply listing_in in I as (e & I & Ei). destruct (X i e I Ei) as (dd & n & _ & V & _ & ->).
    apply Forall_app in V as [Vd Vn]. inversion Vn as [|? ? Vn' _]; subst. split; [|now destruct dd]. apply Forall_app.
    split; [exact Vd|]. constructor; [now apply stem_visible|constructor].
  - intros i. split.
    + intros I. apply listing_in in I as (e & I & Ei). destruct (X i e I Ei) as (dd & n & -> & V & O & ->).
      exists dd, n, (stem n). repeat split; auto. apply without_ext_stem; [|reflexivity]. apply Forall_app in V as [_ V]. now inversion V.
    + intros (dd & n & m & I & O & Wi & ->). pose proof (G _ I) as V. apply Forall_app in V as V'. destruct V' as [Vd Vn]. inversion Vn as [|? ? Vn' _]; subst.
      apply without_ext_stem in Wi; [subst m|exact Vn'].
      assert (Ei : entry_id r (dd ++ [n]) = Some (dd ++ [stem n])).
      { unfold r. rewrite entry_id_any by auto. apply found_iff in O. now rewrite O. }
      destruct (listing_has _ d _ _ I Ei) as (j & J & Sm). apply listing_in in J as J'. destruct J' as (e & Ie & Ej).
      destruct (X j e Ie Ej) as (dd' & n' & -> & V2 & _ & ->). replace (dd ++ [stem n]) with (dd' ++ [stem n']); [exact J|].
      assert (Vs : forall dd n, Forall visible (dd ++ [n]) -> Forall visible (dd ++ [stem n])).
      { intros dd0 n0 V0. apply Forall_app in V0 as [V0 V1]. inversion V1; subst. apply Forall_app. split; [exact V0|]. constructor; [now apply stem_visible|constructor]. }
      unfold same_path in Sm. rewrite !visible_components in Sm by (auto; now destruct dd, dd'). now apply map_normal_inj in Sm.
  - intros o out d'. rewrite (main_run_pattern ctx ext p) by exact W. split.
    + intros Q. destruct (plot_det _ _ _ _ _ _ _ _ _ Q (list_plot _ d c E)) as (-> & -> & ->). auto.
    + intros (-> & -> & ->). now apply list_plot.
Qed.

(** ** Extensions that stand for themselves *)
Lemma writes_dot : writes_seq [#"\"%char; #dot] (RSeq REps (RChar #dot)).
Proof. apply (ws_item [] [#"\"%char; #dot]); [constructor|]. apply item_atom. constructor. now apply escapable_spec. Qed.

Lemma matches_dot b x a : matches (RSeq REps (RChar #dot)) b x a <-> x = [#dot].
Proof.
  split.
  - intros M. apply matches_seq_inv in M as (y & z & -> & M1 & M2). apply matches_eps_inv in M1 as ->. now apply matches_char_inv in M2.
  - intros ->. apply (m_seq _ _ b [] [#dot] a); constructor.
Qed.

Lemma plain_pattern ext cs : shows ext cs -> Forall literal cs -> pattern_of ext (RSeq (in_a_row cs (RSeq REps (RChar #dot))) REnd).
Proof.
  intros S F. exists cs. split; [exact S|]. constructor.
  change (#"\"%char :: #"."%char :: cs ++ [#"$"%char]) with (([#"\"%char; #dot] ++ cs) ++ [#"$"%char]).
  constructor; [|apply item_atom; now constructor]. apply writes_in_a_row; [exact F|apply writes_dot].
Qed.

Lemma plain_occurs cs t : occurs (RSeq (in_a_row cs (RSeq REps (RChar #dot))) REnd) t <-> exists b, t = b ++ #dot :: cs.
Proof.
  split.
  - intros (b & x & a & -> & M). apply matches_seq_inv in M as (y & z & -> & M1 & M2). apply matches_end_inv in M2 as [-> ->].
    rewrite !app_nil_r in *. apply matches_in_a_row in M1 as (x' & -> & M1). apply matches_dot in M1 as ->. now exists b.
  - intros [b ->]. exists b, (#dot :: cs), []. split; [now rewrite app_nil_r|]. rewrite <- (app_nil_r (#dot :: cs)).
    apply m_seq; [|apply m_end]. apply matches_in_a_row. exists [#dot]. split; [reflexivity|]. now apply matches_dot.
Qed.

(** A dot, in bytes and in characters. *)
Lemma spells_dot : spells [dot] [#dot].
Proof. apply (spells_ascii [dot]). repeat constructor. Qed.

Lemma shows_dot n t : shows n (#dot :: t) <-> exists m, n = dot :: m /\ shows m t.
Proof.
  split.
  - intros S. apply (shows_split n [#dot] t) in S as (n1 & n2 & -> & S1 & S2). apply shows_exact in S1; [|intros [E|[]]; discriminate].
    rewrite (spells_det _ _ _ S1 spells_dot). now exists n2.
  - intros (m & -> & S). now apply (spells_then [dot] [#dot] m t spells_dot).
Qed.

Lemma shows_dotted pre l n t : shows pre l -> shows n t -> shows (pre ++ dot :: n) (l ++ #dot :: t).
Proof.
  intros S S'. apply shows_app; [exact S|apply shows_dot; eauto|reflexivity].
Qed.

Lemma plain_found cs n : found (RSeq (in_a_row cs (RSeq REps (RChar #dot))) REnd) n <-> exists pre m, n = pre ++ dot :: m /\ shows m cs.
Proof.
  split.
  - intros (t & S & O). apply plain_occurs in O as [b ->]. apply shows_split in S as (n1 & n2 & -> & _ & S). apply shows_dot in S as (m & -> & S). eauto.
  - intros (pre & m & -> & S). destruct (shows_exists pre) as [l Sl]. exists (l ++ #dot :: cs). split; [now apply shows_dotted|]. apply plain_occurs. eauto.
Qed.

Lemma plain_spells ext cs : shows ext cs -> ~ In replacement cs -> forall m, shows m cs <-> m = ext.
Proof.
  intros S N m. split; [|intros ->; exact S]. intros S'. apply shows_exact in S, S'; auto. now apply (spells_det m ext cs).
Qed.

Lemma filter_map_ext {A B} (f g : A -> option B) l : (forall x, f x = g x) -> filter_map f l = filter_map g l.
Proof. intros E. induction l as [|x l IH]; cbn; [reflexivity|]. now rewrite E, IH. Qed.

(** C85. *)
Theorem C85_literal_extension_is_a_suffix :
  forall ctx ext d c o printed d',
    plain_ext ext ->
    (main_run ctx ext d c o printed d' <-> plot (plain_repo ctx ext) d c o printed d').
Proof.
  intros ctx ext d c o printed d' (cs & S & F & N). rewrite (main_run_pattern _ _ _ _ _ _ _ _ (plain_pattern ext cs S F)).
  set (p := RSeq (in_a_row cs (RSeq REps (RChar #dot))) REnd).
  assert (E : forall n, found_in p n = ends_in (dot :: ext) n).
  { intros n. apply eq_true_iff_eq. rewrite found_iff, ends_in_spec. unfold p. rewrite plain_found. split.
    - intros (pre & m & -> & Sm). apply (plain_spells ext cs S N) in Sm as ->. now exists pre.
    - intros [pre ->]. exists pre, ext. auto. }
  assert (A : all (Repo ctx ext (found_in p)) (dr_walk d) = all (plain_repo ctx ext) (dr_walk d)).
  { unfold all. f_equal. apply filter_map_ext. intros e. unfold entry_id, plain_repo. cbn [rp_re rp_context]. now rewrite E. }
  unfold plot, started. now rewrite A.
Qed.

(** ** Alternatives *)
Lemma bar_pattern ea eb a b : shows (ea ++ "|"%char :: eb) (a ++ #"|"%char :: b) -> Forall literal a -> Forall literal b ->
  pattern_of (ea ++ "|"%char :: eb) (RAlt (in_a_row a (RSeq REps (RChar #dot))) (RSeq (in_a_row b REps) REnd)).
Proof.
  intros S Fa Fb. eexists. split; [exact S|].
  replace (#"\"%char :: #"."%char :: (a ++ #"|"%char :: b) ++ [#"$"%char]) with (([#"\"%char; #dot] ++ a) ++ #"|"%char :: (b ++ [#"$"%char]))
    by (cbn [app]; now rewrite <- app_assoc).
  apply w_alt.
  - constructor. apply writes_in_a_row; [exact Fa|apply writes_dot].
  - constructor; [|apply item_atom; now constructor]. apply (writes_in_a_row b Fb [] REps). constructor.
Qed.

Lemma bar_occurs a b n : occurs (RAlt (in_a_row a (RSeq REps (RChar #dot))) (RSeq (in_a_row b REps) REnd)) n <->
  (exists u v, n = u ++ (#dot :: a) ++ v) \/ exists u, n = u ++ b.
Proof.
  split.
  - intros (u & x & v & -> & M). inversion M as [| | | | | | | |? ? ? ? ? M1|? ? ? ? ? M1| | | |]; subst.
    + left. apply matches_in_a_row in M1 as (x' & -> & M1). apply matches_dot in M1 as ->. now exists u, v.
    + right. apply matches_seq_inv in M1 as (y & z & -> & M1 & M2). apply matches_end_inv in M2 as [-> ->].
      rewrite !app_nil_r in *. apply matches_in_a_row in M1 as (x' & -> & M1). apply matches_eps_inv in M1 as ->. now exists u.
  - intros [(u & v & ->)|(u & ->)].
    + exists u, (#dot :: a), v. split; [reflexivity|]. apply m_left. apply matches_in_a_row. exists [#dot]. split; [reflexivity|]. now apply matches_dot.
    + exists u, b, []. split; [now rewrite app_nil_r|]. apply m_right. rewrite <- (app_nil_r b) at 2. apply m_seq; [|apply m_end].
      apply matches_in_a_row. exists []. split; [reflexivity|]. constructor.
Qed.

(** A plain piece at the end of a name. *)
Lemma ends_shows e cs n t : spells e cs -> ~ In replacement cs -> shows n t -> ((exists u, t = u ++ cs) <-> ends_with e n).
Proof.
  intros S N Sn. split.
  - intros [u ->]. apply shows_split in Sn as (n1 & n2 & -> & _ & S2). apply shows_exact in S2; [|exact N].
    rewrite (spells_det n2 e cs S2 S). now exists n1.
  - intros [u ->]. destruct (shows_exists u) as [l Sl]. exists l. apply (shows_det _ _ _ Sn).
    destruct e as [|x e].
    + destruct S as [_ E]. destruct cs as [|c cs]; [now rewrite !app_nil_r|]. cbn in E. symmetry in E. apply app_eq_nil in E as [E _]. now apply encode_not_nil in E.
    + apply shows_app; [exact Sl|now apply spells_shows|]. rewrite <- (app_nil_r (x :: e)). now apply (spells_fresh (x :: e) cs []).
Qed.

(** A plain piece after a dot, anywhere in a name. *)
Lemma contains_shows e cs n t : spells e cs -> ~ In replacement cs -> shows n t ->
  ((exists u v, t = u ++ (#dot :: cs) ++ v) <-> contains (dot :: e) n).
Proof.
  intros S N Sn. split.
  - intros (u & v & ->). apply shows_split in Sn as (n1 & n2 & -> & _ & S2). apply shows_split in S2 as (n3 & n4 & -> & S3 & _).
    apply shows_dot in S3 as (m & -> & S3). apply shows_exact in S3; [|exact N]. rewrite (spells_det m e cs S3 S). now exists n1, n4.
  - intros (u & v & ->). destruct (shows_exists u) as [l Sl], (shows_exists v) as [k Sk]. exists l, k. apply (shows_det _ _ _ Sn).
    cbn [app]. apply shows_dotted; [exact Sl|]. now apply spells_then.
Qed.

Lemma literal_no_dot ext cs : spells ext cs -> Forall literal cs -> ~ In dot ext.
Proof.
  intros S F I. rewrite Forall_forall in F. apply (spells_in ext cs dot S) in I; [|reflexivity]. apply (F _ I). cbn. tauto.
Qed.

Lemma plain_ext_spells ext : plain_ext ext -> exists cs, spells ext cs /\ Forall literal cs /\ ~ In replacement cs.
Proof. intros (cs & S & F & N). exists cs. split; [now apply shows_exact|auto]. Qed.

(** C86. *)
Theorem C86_extension_with_a_bar :
  forall ctx a b,
    ctx <> [] -> plain_ext a -> plain_ext b -> ~ In slash a -> ~ In slash b ->
    exists r, repo_for ctx (a ++ "|"%char :: b) = POk r /\
      forall d n, Forall visible (d ++ [n]) ->
        ((exists i, entry_id r (d ++ [n]) = Some i) <-> contains (dot :: a) n \/ ends_with b n) /\
        forall i, entry_id r (d ++ [n]) = Some i ->
          (same_path (lookup_path r i) (entry_path r (d ++ [n])) <-> exists pre, dotless pre /\ n = pre ++ dot :: a ++ "|"%char :: b).
Proof.
  intros ctx a b Nc Pa Pb Sa Sb. apply plain_ext_spells in Pa as (ca & Ha & Fa & Na), Pb as (cb & Hb & Fb & Nb). eexists. split.
  { apply repo_for_pattern. apply (bar_pattern a b ca cb); auto. apply spells_shows. apply spells_app; [exact Ha|].
    apply (spells_app ["|"%char] b [#"|"%char] cb); [|exact Hb]. apply (spells_ascii ["|"%char]). repeat constructor. }
  intros d n V. rewrite entry_id_any by auto.
  assert (Vn : visible n) by (apply Forall_app in V as [_ V]; now inversion V).
  assert (Da : ~ In dot (a ++ "|"%char :: b)).
  { intros I. apply in_app_or in I as [I|[I|I]]; [now apply (literal_no_dot a ca)|discriminate|now apply (literal_no_dot b cb)]. }
  match goal with |- context [found_in ?q n] => set (p := q) end. split.
  - destruct (shows_exists n) as [t St]. rewrite <- (contains_shows a ca n t), <- (ends_shows b cb n t) by auto.
    rewrite <- bar_occurs. fold p. rewrite <- (found_shows p n t St), <- found_iff. destruct (found_in p n); split; intros H; try discriminate; eauto. now destruct H.
  - intros i Ei. destruct (found_in p n); [|discriminate]. injection Ei as <-.
    rewrite loads_own; auto; try (now destruct a).
    + split.
      * intros E. exists (stem (stem n)). split; [|exact E].
        assert (St : stem n = stem (stem n)).
        { rewrite E at 1. apply stem_named; [|exact Da]. apply visible_not_nil. now apply stem_visible, stem_visible. }
        apply stem_fixed; [now apply stem_visible, stem_visible|]. rewrite <- St. now symmetry.
      * intros (pre & D & ->). apply visible_pre in Vn as Vp.
        rewrite stem_named; [|now apply visible_not_nil|exact Da].
        now rewrite (proj2 (stem_fixed pre Vp) D).
    + intros I. apply in_app_or in I as [I|[I|I]]; auto. discriminate.
Qed.

(** ** A dot in the extension *)
Lemma dotted_pattern ea eb a b : shows (ea ++ dot :: eb) (a ++ #dot :: b) -> Forall literal a -> Forall literal b ->
  pattern_of (ea ++ dot :: eb) (RSeq (in_a_row b (RSeq (in_a_row a (RSeq REps (RChar #dot))) RAny)) REnd).
Proof.
  intros S Fa Fb. eexists. split; [exact S|]. constructor.
  replace (#"\"%char :: #"."%char :: (a ++ #dot :: b) ++ [#"$"%char]) with (((([#"\"%char; #dot] ++ a) ++ [#dot]) ++ b) ++ [#"$"%char])
    by (cbn [app]; now rewrite <- !app_assoc).
  constructor; [|apply item_atom; now constructor]. apply writes_in_a_row; [exact Fb|]. constructor; [|apply item_atom; now constructor].
  apply writes_in_a_row; [exact Fa|apply writes_dot].
Qed.

Lemma dotted_occurs a b n : occurs (RSeq (in_a_row b (RSeq (in_a_row a (RSeq REps (RChar #dot))) RAny)) REnd) n <->
  exists pre c, c <> #newline /\ n = pre ++ #dot :: a ++ c :: b.
Proof.
  split.
  - intros (u & x & v & -> & M). apply matches_seq_inv in M as (y & z & -> & M1 & M2). apply matches_end_inv in M2 as [-> ->].
    rewrite !app_nil_r in *. apply matches_in_a_row in M1 as (x' & -> & M1).
    apply matches_seq_inv in M1 as (y & z & -> & M1 & M2). apply matches_any_inv in M2 as (c & -> & N).
    apply matches_in_a_row in M1 as (x' & -> & M1). apply matches_dot in M1 as ->. exists u, c. split; [exact N|]. now rewrite <- !app_assoc.
  - intros (pre & c & N & ->). exists pre, (#dot :: a ++ c :: b), []. split; [now rewrite app_nil_r|].
    rewrite <- (app_nil_r (#dot :: a ++ c :: b)). apply m_seq; [|apply m_end]. apply matches_in_a_row. exists ((#dot :: a) ++ [c]).
    split; [cbn [app]; now rewrite <- app_assoc|]. apply m_seq; [|now apply m_any]. apply matches_in_a_row. exists [#dot]. split; [reflexivity|]. now apply matches_dot.
Qed.

(** Bytes, then a plain piece. *)
Lemma shows_plain n l e cs : shows n l -> spells e cs -> shows (n ++ e) (l ++ cs).
Proof.
  intros S S'. destruct e as [|x e].
  - destruct S' as [_ E]. destruct cs as [|c cs]; [now rewrite !app_nil_r|]. cbn in E. symmetry in E. apply app_eq_nil in E as [E _]. now apply encode_not_nil in E.
  - apply shows_app; [exact S|now apply spells_shows|]. rewrite <- (app_nil_r (x :: e)). now apply (spells_fresh (x :: e) cs []).
Qed.

Lemma dotted_found ea eb a b n : spells ea a -> spells eb b -> ~ In replacement a -> ~ In replacement b ->
  (found (RSeq (in_a_row b (RSeq (in_a_row a (RSeq REps (RChar #dot))) RAny)) REnd) n <->
   exists pre piece c, shows piece [c] /\ c <> #newline /\ n = pre ++ dot :: ea ++ piece ++ eb).
Proof.
  intros Sa Sb Na Nb. split.
  - intros (t & S & O). apply dotted_occurs in O as (pre & c & Nc & ->). apply shows_split in S as (n1 & n2 & -> & _ & S). apply shows_dot in S as (m & -> & S).
    apply shows_split in S as (m1 & m2 & -> & S1 & S2). apply (shows_split m2 [c] b) in S2 as (m3 & m4 & -> & S3 & S4).
    apply shows_exact in S1, S4; auto. rewrite (spells_det _ _ _ S1 Sa), (spells_det _ _ _ S4 Sb). exists n1, m3, c. auto.
  - intros (pre & piece & c & S & Nc & ->). destruct (shows_exists pre) as [l Sl]. exists (l ++ #dot :: a ++ [c] ++ b). split.
    + apply shows_dotted; [exact Sl|]. apply spells_then; [exact Sa|]. now apply shows_plain.
    + apply dotted_occurs. exists l, c. auto.
Qed.

(** C87. *)
Theorem C87_extension_with_a_dot :
  forall ctx a b,
    ctx <> [] -> plain_ext a -> plain_ext b -> ~ In slash a -> ~ In slash b ->
    exists r, repo_for ctx (a ++ dot :: b) = POk r /\
      forall d n, Forall visible (d ++ [n]) ->
        ((exists i, entry_id r (d ++ [n]) = Some i) <->
         exists pre piece c, shows piece [c] /\ c <> #newline /\ n = pre ++ dot :: a ++ piece ++ b) /\
        forall i, entry_id r (d ++ [n]) = Some i ->
          (same_path (lookup_path r i) (entry_path r (d ++ [n])) <-> ends_with (dot :: a ++ dot :: b) n).
Proof.
  intros ctx a b Nc Pa Pb Sa Sb. apply plain_ext_spells in Pa as (ca & Ha & Fa & Na), Pb as (cb & Hb & Fb & Nb). eexists. split.
  { apply repo_for_pattern. apply (dotted_pattern a b ca cb); auto. apply spells_shows. apply spells_app; [exact Ha|].
    apply (spells_app [dot] b [#dot] cb spells_dot Hb). }
  intros d n V. rewrite entry_id_any by auto.
  assert (Vn : visible n) by (apply Forall_app in V as [_ V]; now inversion V).
  rewrite <- (dotted_found a b ca cb n Ha Hb Na Nb).
  match goal with |- context [found_in ?q n] => set (p := q) end. split.
  - rewrite <- found_iff. destruct (found_in p n); split; intros H; try discriminate; eauto. now destruct H.
  - intros i Ei. destruct (found_in p n); [|discriminate]. injection Ei as <-.
    rewrite loads_own; auto; try (now destruct a).
    + split; [intros E; now exists (stem (stem n))|]. intros [q ->].
      apply visible_pre in Vn as Vq.
      replace (q ++ dot :: a ++ dot :: b) with ((q ++ dot :: a) ++ dot :: b) at 2 by (now rewrite <- app_assoc).
      rewrite stem_named; [|now destruct q|now apply (literal_no_dot b cb)].
      rewrite stem_named; [reflexivity|now apply visible_not_nil|now apply (literal_no_dot a ca)].
    + intros I. apply in_app_or in I as [I|[I|I]]; auto. discriminate.
Qed.

(** ** Patterns that are not valid *)
Lemma modelled_parse ext : modelled_ext ext -> parse (pattern ext) <> PUnsupported.
Proof.
  intros (cs & S & N1 & N3 & N4). unfold pattern. apply lossy_iff in S as ->. apply parse_modelled.
  - intros [I|[I|I]]; try discriminate. apply in_app_or in I as [I|[I|[]]]; [now apply N1|discriminate].
  - intros x e y E. destruct x as [|c x]; [cbn [app] in E; apply cons_inj in E as [_ E]; apply cons_inj in E as [<- _]; intros I; cbn in I; repeat (destruct I as [I|I]; [discriminate I|]); exact I|].
    cbn [app] in E. apply cons_inj in E as [_ E]. destruct x as [|c' x]; [discriminate|].
    cbn [app] in E. apply cons_inj in E as [_ E]. destruct y as [|z y _] using rev_ind.
    + change (x ++ [#"\"%char; e]) with (x ++ [#"\"%char] ++ [e]) in E. rewrite app_assoc in E. apply app_inj_tail in E as [_ <-].
      intros I. cbn in I. repeat (destruct I as [I|I]; [discriminate I|]). exact I.
    + change (x ++ #"\"%char :: e :: y ++ [z]) with (x ++ (#"\"%char :: e :: y) ++ [z]) in E. rewrite app_assoc in E.
      apply app_inj_tail in E as [E _]. exact (N3 x e y E).
  - intros x y E. destruct x as [|c x]; [discriminate|]. cbn [app] in E. apply cons_inj in E as [_ E]. destruct x as [|c' x]; [discriminate|].
    cbn [app] in E. apply cons_inj in E as [_ E].
    destruct y as [|e y] using rev_ind.
    + change (x ++ [#"("%char; #"?"%char]) with (x ++ [#"("%char] ++ [#"?"%char]) in E. rewrite app_assoc in E. apply app_inj_tail in E as [_ E]. discriminate.
    + clear IHy. change (x ++ #"("%char :: #"?"%char :: y ++ [e]) with (x ++ (#"("%char :: #"?"%char :: y) ++ [e]) in E. rewrite app_assoc in E.
      apply app_inj_tail in E as [E _]. destruct (N4 x y E) as [t ->]. now exists (t ++ [e]).
Qed.

(** C88. *)
Theorem C88_invalid_extension_panics :
  forall ctx ext d,
    modelled_ext ext ->
    ((~ exists p, pattern_of ext p) -> forall c o out d', main_run ctx ext d c o out d' <-> o = OPanic /\ out = [] /\ d' = d) /\
    ((exists p, pattern_of ext p) -> exists printed, main_run ctx ext d (Command None CList) (ORet RUnit) printed d).
Proof.
  intros ctx ext d M. split.
  - intros N c o out d'. unfold main_run, repo_for. pose proof (modelled_parse ext M) as P.
    destruct (parse (pattern ext)) as [p| |] eqn:E; [|reflexivity|contradiction]. exfalso. apply N. exists p. now apply pattern_parse.
  - intros [p W]. exists (listing (Repo ctx ext (found_in p)) d). apply (main_run_pattern ctx ext p); [exact W|]. now apply list_plot.
Qed.

(** ** Names that are not Unicode *)

(** C126. *)
Theorem C126_literal_extension_in_characters :
  forall ctx ext cs,
    ctx <> [] -> ext <> [] -> spells ext cs -> Forall literal cs -> ~ In slash ext ->
    exists r, repo_for ctx ext = POk r /\
      forall d n, Forall visible (d ++ [n]) ->
        ((exists i, entry_id r (d ++ [n]) = Some i) <-> exists pre m, n = pre ++ dot :: m /\ shows m cs) /\
        forall i, entry_id r (d ++ [n]) = Some i ->
          (same_path (lookup_path r i) (entry_path r (d ++ [n])) <-> exists pre, dotless pre /\ n = pre ++ dot :: ext).
Proof.
  intros ctx ext cs Nc Ne Sp F Sl. eexists. split; [apply repo_for_pattern, (plain_pattern ext cs); [now apply spells_shows|exact F]|].
  intros d n V. rewrite entry_id_any by auto. rewrite <- plain_found.
  assert (Vn : visible n) by (apply Forall_app in V as [_ V]; now inversion V).
  pose proof (literal_no_dot ext cs Sp F) as D.
  match goal with |- context [found_in ?q n] => set (p := q) end. split.
  - rewrite <- found_iff. destruct (found_in p n); split; intros H; try discriminate; eauto. now destruct H.
  - intros i Ei. destruct (found_in p n); [|discriminate]. injection Ei as <-. rewrite loads_own by auto. split.
    + intros E. exists (stem (stem n)). split; [|exact E].
      assert (St : stem n = stem (stem n)).
      { rewrite E at 1. apply stem_named; [|exact D]. apply visible_not_nil. now apply stem_visible, stem_visible. }
      apply stem_fixed; [now apply stem_visible, stem_visible|]. rewrite <- St. now symmetry.
    + intros (pre & Dl & ->). apply visible_pre in Vn as Vp. rewrite stem_named; [|now apply visible_not_nil|exact D].
      now rewrite (proj2 (stem_fixed pre Vp) Dl).
Qed.

(** ** Any extension *)

(** C127. *)
Theorem C127_listed_id_loads_its_file_iff :
  forall ctx ext p,
    ctx <> [] -> ext <> [] -> ~ In slash ext -> pattern_of ext p ->
    exists r, repo_for ctx ext = POk r /\
      forall d n, Forall visible (d ++ [n]) -> found p n ->
        exists m k, without_ext n m /\ without_ext m k /\ entry_id r (d ++ [n]) = Some (d ++ [m]) /\
          (same_path (lookup_path r (d ++ [m])) (entry_path r (d ++ [n])) <-> n = k ++ dot :: ext).
Proof.
  intros ctx ext p Nc Ne Sl W. exists (Repo ctx ext (found_in p)). split; [now apply (repo_for_pattern ctx ext p)|]. intros d n V O. apply found_iff in O.
  assert (Vn : visible n) by (apply Forall_app in V as [_ V]; now inversion V).
  exists (stem n), (stem (stem n)). split; [now apply without_ext_stem|]. split; [exact (proj2 (without_ext_stem _ _ (stem_visible _ Vn)) Logic.eq_refl)|].
  rewrite entry_id_any by auto. rewrite O. split; [reflexivity|]. now apply loads_own.
Qed.

(** ** Classes *)
Lemma class_pattern ext s l (neg : bool) : shows ext (#"["%char :: (if neg then [#"^"%char] else []) ++ s ++ [#"]"%char]) -> s <> [] -> writes_ranges s l ->
  pattern_of ext (RSeq (RSeq (RSeq REps (RChar #dot)) (RClass neg l)) REnd).
Proof.
  intros S N W. eexists. split; [exact S|]. constructor.
  set (w := #"["%char :: (if neg then [#"^"%char] else []) ++ s ++ [#"]"%char]).
  change (#"\"%char :: #"."%char :: w ++ [#"$"%char]) with (([#"\"%char; #dot] ++ w) ++ [#"$"%char]).
  constructor; [|apply item_atom; now constructor]. constructor; [apply writes_dot|]. apply item_atom. unfold w. destruct neg; now constructor.
Qed.

Lemma class_occurs neg l t : occurs (RSeq (RSeq (RSeq REps (RChar #dot)) (RClass neg l)) REnd) t <->
  exists b c, t = b ++ [#dot; c] /\ (if neg then ~ within c l else within c l).
Proof.
  split.
  - intros (b & x & a & -> & M). apply matches_seq_inv in M as (y & z & -> & M1 & M2). apply matches_end_inv in M2 as [-> ->].
    rewrite !app_nil_r in *. apply matches_seq_inv in M1 as (u & v & -> & M1 & M2). apply matches_dot in M1 as ->.
    inversion M2; subst; (exists b, c; split; [reflexivity|assumption]).
  - intros (b & c & -> & Wi). exists b, [#dot; c], []. split; [now rewrite app_nil_r|].
    rewrite <- (app_nil_r [#dot; c]). apply m_seq; [|apply m_end]. apply (m_seq _ _ b [#dot] [c] []); [now apply matches_dot|].
    destruct neg; now constructor.
Qed.

(** C128. *)
Theorem C128_extension_with_a_class :
  forall ctx ext s l (negated : bool),
    ctx <> [] -> spells ext (#"["%char :: (if negated then [#"^"%char] else []) ++ s ++ [#"]"%char]) -> s <> [] -> writes_ranges s l ->
    exists r, repo_for ctx ext = POk r /\
      forall d n, Forall visible (d ++ [n]) ->
        ((exists i, entry_id r (d ++ [n]) = Some i) <->
         exists pre piece c, n = pre ++ dot :: piece /\ shows piece [c] /\ (if negated then ~ within c l else within c l)).
Proof.
  intros ctx ext s l neg Nc S N W. eexists. split; [apply repo_for_pattern, (class_pattern ext s l neg); auto; now apply spells_shows|].
  intros d n V. rewrite entry_id_any by auto. match goal with |- context [found_in ?q n] => set (p := q) end.
  transitivity (found p n).
  - rewrite <- found_iff. destruct (found_in p n); split; intros H; try discriminate; eauto. now destruct H.
  - split.
    + intros (t & St & O). apply class_occurs in O as (b & c & -> & Wi). apply shows_split in St as (n1 & n2 & -> & _ & St).
      apply shows_dot in St as (m & -> & St). eauto 6.
    + intros (pre & piece & c & -> & Sc & Wi). destruct (shows_exists pre) as [k Sk]. exists (k ++ [#dot; c]). split; [now apply shows_dotted|].
      apply class_occurs. eauto.
Qed.

(** ** Cases *)
Section Cases.
  Let s := list_ascii_of_string.
  Let ctx : path := [s "docs"].
  Let here (names : list string) : dir := Dir ([] :: map (fun n => [s n]) names) (fun _ => None).
  (** Bytes by their values. *)
  Let b := map ascii_of_N.

  (** An extension that is a pattern: "m(d|kd)+". *)
  Let some_pattern : re := match parse (pattern (s "m(d|kd)+")) with POk r => r | _ => REps end.
  Example C84_case :
    pattern_of (s "m(d|kd)+") some_pattern /\ ~ found some_pattern (root_name ctx) /\
    found some_pattern (s "a.mkddkd") /\ ~ found some_pattern (s "a.mkdk") /\
    main_run ctx (s "m(d|kd)+") (here ["a.mkddkd"; "b.md"; "c.mkdk"; "a.md"]%string) (Command None CList) (ORet RUnit) [[s "a"]; [s "b"]]
      (here ["a.mkddkd"; "b.md"; "c.mkdk"; "a.md"]%string).
  Proof.
    assert (W : pattern_of (s "m(d|kd)+") some_pattern) by (apply pattern_parse; reflexivity).
    split; [exact W|]. rewrite <- !found_iff. split; [discriminate|]. split; [reflexivity|]. split; [discriminate|].
    apply (main_run_pattern _ _ _ _ _ _ _ _ W). apply list_plot. reflexivity.
  Qed.

  (** The default extension, and one that is not ASCII: U+E9, in two bytes. *)
  Example C85_case :
    plain_ext (s "md") /\ plain_ext (b [195; 169]%N) /\
    main_run ctx (s "md") (here ["a.md"; "b.txt"]%string) (Command None CList) (ORet RUnit) [[s "a"]] (here ["a.md"; "b.txt"]%string).
  Proof.
    assert (F : plain_ext (s "md")).
    { exists [109; 100]%N. split; [now apply lossy_iff|]. split; [repeat constructor|]; intros I; cbn in I; repeat (destruct I as [I|I]; [discriminate I|]); exact I. }
    split; [exact F|]. split.
    - exists [233%N]. split; [now apply lossy_iff|]. split; [repeat constructor|]; intros I; cbn in I; repeat (destruct I as [I|I]; [discriminate I|]); exact I.
    - apply C85_literal_extension_is_a_suffix; [exact F|]. apply list_plot. reflexivity.
  Qed.

  (** "md|txt": files with other extensions are listed, and even the directory itself would be if its
      name ended in "txt"; none of them is loaded by its id. *)
  Example C86_case :
    match repo_for ctx (s "md|txt") with
    | POk r =>
        map (fun n => entry_id r [s n]) ["notes.mdx"; "mytxt"; "a.rst"]%string = [Some [s "notes"]; Some [s "mytxt"]; None] /\
        lookup_path r [s "notes"] = [s "docs"; s "notes.md|txt"]
    | _ => False
    end.
  Proof. split; reflexivity. Qed.

  (** "tar.gz": "x.y.tar.gz" is loaded by its id though its name has other dots; "x.tar_gz" is listed,
      and loaded from "x.tar.gz".  The character may have more bytes than one, or be none at all. *)
  Example C87_case :
    match repo_for ctx (s "tar.gz") with
    | POk r =>
        map (fun n => entry_id r [s n]) ["x.y.tar.gz"; "x.tar_gz"; "x.targz"]%string = [Some [s "x.y.tar"]; Some [s "x"]; None] /\
        lookup_path r [s "x.y.tar"] = [s "docs"; s "x.y.tar.gz"] /\ lookup_path r [s "x"] = [s "docs"; s "x.tar.gz"] /\
        map (fun m => entry_id r [s "x.tar" ++ b m ++ s "gz"]) [[226; 130; 172]; [255]; [226; 130]; [130; 172]; [10]]%N =
          [Some [s "x"]; Some [s "x"]; Some [s "x"]; None; None]
    | _ => False
    end.
  Proof. repeat split; reflexivity. Qed.

  (** "(md" is not closed; ")", "|*" are not valid either; "*" is ("\.*$"), and lists every file and the directory itself, as the empty path. *)
  Example C88_case :
    map (fun e => parse (pattern (s e))) ["(md"; "md)"; "md|*"; "[z-a]"; "[a"]%string = [PInvalid; PInvalid; PInvalid; PInvalid; PInvalid] /\
    (~ exists p, pattern_of (s "(md") p) /\ modelled_ext (s "(md") /\
    main_run ctx (s "*") (here ["a"; "b.rs"]%string) (Command None CList) (ORet RUnit) [[[]]; [s "a"]; [s "b"]] (here ["a"; "b.rs"]%string).
  Proof.
    split; [reflexivity|]. split; [intros [p W]; apply pattern_parse in W; discriminate W|]. split.
    - exists [40; 109; 100]%N. split; [now apply lossy_iff|].
      unfold modelled. split; [intros I; cbn in I; repeat (destruct I as [I|I]; [discriminate I|]); destruct I|].
      split; [intros [|x [|y [|z [|w a]]]] c e E|intros [|x [|y [|z [|w a]]]] c E]; discriminate E.
    - eapply main_run_pattern; [apply pattern_parse; reflexivity|]. apply list_plot. reflexivity.
  Qed.

  (** U+FFFD as the extension: a name that ends in a byte that is no character is listed, and not the file its id loads. *)
  Example C126_case :
    spells (b [239; 191; 189]%N) [replacement] /\ literal replacement /\ shows (b [255]%N) [replacement] /\
    match repo_for ctx (b [239; 191; 189]%N) with
    | POk r =>
        map (fun m => entry_id r [s "a." ++ b m]) [[255]; [239; 191; 189]; [239; 191]; [255; 255]; [97]]%N =
          [Some [s "a"]; Some [s "a"]; Some [s "a"]; None; None] /\
        lookup_path r [s "a"] = [s "docs"; s "a." ++ b [239; 191; 189]%N]
    | _ => False
    end.
  Proof.
    split; [split; [repeat constructor; discriminate|reflexivity]|].
    split; [intros I; cbn in I; repeat (destruct I as [I|I]; [discriminate I|]); exact I|]. split; [now apply lossy_iff|]. split; reflexivity.
  Qed.

  (** "[A-z.]": the file named after the extension itself is listed, and loaded by its id; others are not. *)
  Example C127_case :
    match repo_for ctx (s "[A-z.]") with
    | POk r =>
        map (fun n => entry_id r [s n]) ["x.[A-z.]"; "x.c"; "x.md"]%string = [Some [s "x.[A-z"]; Some [s "x"]; None] /\
        lookup_path r [s "x.[A-z"] = [s "docs"; s "x.[A-z.]"] /\ lookup_path r [s "x"] = [s "docs"; s "x.[A-z.]"]
    | _ => False
    end.
  Proof. repeat split; reflexivity. Qed.

  (** Greek letters, and anything but them (newlines and what is not Unicode too). *)
  Example C128_case :
    let greek := [206; 177; 45; 207; 137]%N in
    writes_ranges [945; 45; 969]%N [(945, 969)]%N /\ within 955%N [(945, 969)]%N /\
    match repo_for ctx (s "[" ++ b greek ++ s "]"), repo_for ctx (s "[^" ++ b greek ++ s "]") with
    | POk r, POk q =>
        map (fun m => entry_id r [s "a." ++ b m]) [[206; 187]; [206; 145]; [108]; [206]; [10]]%N = [Some [s "a"]; None; None; None; None] /\
        map (fun m => entry_id q [s "a." ++ b m]) [[206; 187]; [206; 145]; [108]; [206]; [10]]%N = [None; Some [s "a"]; Some [s "a"]; Some [s "a"]; Some [s "a"]]
    | _, _ => False
    end.
  Proof.
    split.
    - apply (wr_range 945 969 [] []); try discriminate; try constructor; intros I; cbn in I; repeat (destruct I as [I|I]; [discriminate I|]); exact I.
    - split; [exists 945%N, 969%N; split; [now left|split; discriminate]|]. split; reflexivity.
  Qed.

  (** A range written backwards is an error, after other characters as well; a class that is not modelled is not one. *)
  Example C128_invalid :
    map (fun p => match repo_for ctx (s p) with POk _ => 0 | PInvalid => 1 | PUnsupported => 2 end)
      ["[z-a]"; "[bz-a]"; "[b-cz-a]"; "[^bz-a]"; "[b"; "[b[:alpha:]]"; "[b-c\d]"; "[bz]"]%string = [1; 1; 1; 1; 1; 2; 2; 0].
  Proof. reflexivity. Qed.
End Cases.

Print Assumptions C84_listing_by_pattern.
Print Assumptions C85_literal_extension_is_a_suffix.
Print Assumptions C86_extension_with_a_bar.
Print Assumptions C87_extension_with_a_dot.
Print Assumptions C88_invalid_extension_panics.
Print Assumptions C126_literal_extension_in_characters.
Print Assumptions C127_listed_id_loads_its_file_iff.
Print Assumptions C128_extension_with_a_class.
