(** Facts about the handlers of the interval plugin, call by call. *)
From Coq Require Import List Arith Bool Lia.
From Verif Require Import Ord OrdFacts BTree Graph Tx Interval IntervalFacts TreeCalls TreeCallsFacts TreePanicsFacts Plugin SpecPlugins PluginCalls SpecPluginCalls.
Import ListNotations.

Section Facts.
  Context {Id Node I B : Type} `{HId : OrdT Id} `{HN : Identify Node Id} `{HB : OrdT B} `{HI : Interval I B} `{HE : PartialEq I}.
  Notation ni := (node_interval Id I).
  Notation stree := (tree ni B).
  Notation pcall := (pcall Id Node I B).

  Lemma up_to_safe (bad : pcall -> bool) l : existsb bad l = false -> up_to bad l = l.
  Proof. induction l as [|u l IH]; cbn; [reflexivity|]. destruct (bad u); [discriminate|]. intros E. now rewrite IH. Qed.

  Lemma up_to_panics (bad : pcall -> bool) l : existsb bad l = true ->
    exists l1 u l2, l = l1 ++ u :: l2 /\ up_to bad l = l1 ++ [u] /\ bad u = true /\ safe bad l1.
  Proof.
    induction l as [|v l IH]; cbn; [discriminate|]. destruct (bad v) eqn:Bv; cbn.
    - intros _. exists [], v, l. repeat split; auto. intros u [].
    - intros E. destruct (IH E) as (l1 & u & l2 & -> & U & Bu & S). exists (v :: l1), u, l2. rewrite U. repeat split; auto.
      intros u' [<-|Iu]; auto.
  Qed.

  Lemma safe_iff (bad : pcall -> bool) l : safe bad l <-> existsb bad l = false.
  Proof.
    split.
    - intros S. destruct (existsb bad l) eqn:E; [|reflexivity]. apply existsb_exists in E. destruct E as (u & Iu & E). now rewrite (S u Iu) in E.
    - intros E u Iu. destruct (bad u) eqn:Bu; [|reflexivity]. assert (X : existsb bad l = true) by (apply existsb_exists; eauto). now rewrite X in E.
  Qed.

  (** ** The same as in Plugin.v *)
  Lemma writing_inserts (bad : pcall -> bool) i l : forall t : stree,
    inserting (FP := plugin_panics bad) t (map (NI i) l) =
    let '(ws, o) := writing XInsert i t l in if existsb bad ws then Broken None else match o with Some t' => Done (Some t') | None => Endless end.
  Proof.
    induction l as [|v l IH]; intros t; [reflexivity|]. cbn [map inserting].
    change (insert_panics t (NI i v)) with (existsb bad (QAgain i v :: flat_map behind (fst (c_insert t (NI i v))))).
    cbn [writing]. rewrite calls_insert. rewrite (IH (insert t (NI i v))). destruct (writing XInsert i (insert t (NI i v)) l) as [ws o].
    cbn [existsb]. rewrite existsb_app, !orb_assoc. destruct (bad (QAgain i v) || existsb bad (flat_map behind _)); reflexivity.
  Qed.

  Lemma writing_deletes (bad : pcall -> bool) i l : forall t : stree,
    deleting (FP := plugin_panics bad) t (map (NI i) l) =
    let '(ws, o) := writing XDelete i t l in if existsb bad ws then Broken None else match o with Some t' => Done (Some t') | None => Endless end.
  Proof.
    induction l as [|v l IH]; intros t; [reflexivity|]. cbn [map deleting].
    change (delete_panics t (NI i v)) with (existsb bad (QAgain i v :: flat_map behind (fst (c_delete (2 + count t) t (NI i v))))).
    cbn [writing]. rewrite calls_delete. unfold t_delete. destruct (delete (2 + count t) t (NI i v)) as [t'|].
    - rewrite (IH t'). destruct (writing XDelete i t' l) as [ws o].
      cbn [existsb]. rewrite existsb_app, !orb_assoc. destruct (bad (QAgain i v) || existsb bad (flat_map behind _)); reflexivity.
    - reflexivity.
  Qed.

  (** ** What is called *)
  Lemma behind_clones (us : list (ucall ni B)) : clones (flat_map behind us : list pcall) = [].
  Proof.
    induction us as [|u us IH]; [reflexivity|]. cbn [flat_map]. unfold clones in *. rewrite filter_app, IH, app_nil_r.
    destruct u; try reflexivity. cbn [behind]. destruct (eqb _ _); reflexivity.
  Qed.

  Lemma behind_other (u : pcall) (us : list (ucall ni B)) : In u (flat_map behind us : list pcall) -> match u with QAll _ | QId _ | QClone _ | QAgain _ _ => False | _ => True end.
  Proof.
    intros X. apply in_flat_map in X. destruct X as (c & _ & X). destruct c; cbn in X; try (destruct X as [<-|[]]; exact Logic.I).
    - destruct X as [<-|X]; [exact Logic.I|]. destruct (eqb _ _); [|destruct X]. destruct X as [<-|[]]; exact Logic.I.
    - destruct X.
  Qed.

  Lemma writing_clones f i l : forall (t : stree) ws o, writing (Node := Node) f i t l = (ws, o) ->
    exists l1 l2, l = l1 ++ l2 /\ clones ws = map (QAgain i) l1 /\ (o <> None -> l2 = []).
  Proof.
    induction l as [|v l IH]; intros t ws o; cbn [writing].
    - intros [= <- <-]. exists [], []. auto.
    - destruct (tree_calls _ _ _) as [us [o1 e]]. destruct o1 as [t'|].
      + destruct (writing f i t' l) as [rest o'] eqn:E. intros [= <- <-]. destruct (IH _ _ _ E) as (l1 & l2 & -> & C & N).
        exists (v :: l1), l2. split; [reflexivity|]. split; [|exact N]. cbn [map]. rewrite <- C. change (clones (?a :: ?b)) with (clones ([a] ++ b)).
        unfold clones at 1. rewrite !filter_app. cbn [filter app]. f_equal.
        pose proof (behind_clones us) as X. unfold clones in X. rewrite X. reflexivity.
      + intros [= <- <-]. exists [v], l. split; [reflexivity|]. split; [|intros N; now destruct N]. cbn [map].
        pose proof (behind_clones us) as X. unfold clones in *. cbn [filter]. now rewrite X.
  Qed.

  Lemma writing_calls f i l : forall (t : stree) ws o u, writing (Node := Node) f i t l = (ws, o) -> In u ws ->
    match u with QAll _ | QId _ | QClone _ => False | QAgain j v => j = i /\ In v l | _ => True end.
  Proof.
    induction l as [|v l IH]; intros t ws o u; cbn [writing].
    - intros [= <- <-] [].
    - destruct (tree_calls _ _ _) as [us [o1 e]]. destruct o1 as [t'|].
      + destruct (writing f i t' l) as [rest o'] eqn:E. intros [= <- <-] [<-|Iu]; [split; [reflexivity|now left]|].
        apply in_app_iff in Iu. destruct Iu as [Iu|Iu].
        * apply behind_other in Iu. destruct u; auto; destruct Iu.
        * specialize (IH _ _ _ u E Iu). destruct u; auto. destruct IH. split; [assumption|now right].
      + intros [= <- <-] [<-|Iu]; [split; [reflexivity|now left]|]. apply behind_other in Iu. destruct u; auto; destruct Iu.
  Qed.

  (** Insertions compare no [NodeInterval]s. *)
  Lemma insert_no_eq (t : stree) x u : In u (fst (c_insert t x)) -> match u with UEq _ _ | UVisit _ => False | _ => True end.
  Proof.
    induction t as [|l IHl v m r IHr]; cbn [c_insert].
    - unfold c_new. rewrite fst_bind. cbn. intros [<-|[]]. exact Logic.I.
    - repeat (rewrite fst_bind; cbn [fst snd c_lo c_hi c_lt]). rewrite !in_app_iff. cbn [In]. intros X.
      destruct X as [[<-|[]]|[[<-|[]]|[X|[[<-|[]]|[[<-|[]]|[[<-|[]]|X]]]]]]; try exact Logic.I.
      + destruct (ltb m _); cbn in X; [destruct X as [<-|[]]; exact Logic.I|destruct X].
      + destruct (ltb (lo x) (lo v)); rewrite fst_bind in X; apply in_app_iff in X; destruct X as [X|[]]; [exact (IHl X)|exact (IHr X)].
  Qed.

  (** Deletions compare [NodeInterval]s of the tree with the one deleted. *)
  Lemma delete_eq fuel (t : stree) x a b : In (UEq a b) (fst (c_delete fuel t x)) -> b = x.
  Proof.
    induction t as [|l IHl v m r IHr]; cbn [c_delete]; [intros []|].
    rewrite fst_bind. cbn [fst snd c_eq]. rewrite in_app_iff. intros [[E|[]]|X]; [now injection E|]. destruct (eqv v x).
    - exfalso. destruct l, r; try (now destruct X). unfold c_join in X. destruct (nth_error _ _); [|destruct X]. unfold c_new in X.
      rewrite !fst_bind in X. cbn in X. destruct X as [E|[]]. discriminate.
    - repeat (rewrite fst_bind in X; cbn [fst snd c_lo c_lt] in X). rewrite !in_app_iff in X. cbn [In] in X.
      destruct X as [[E|[]]|[[E|[]]|[[E|[]]|X]]]; try discriminate. destruct (ltb (lo x) (lo v)).
      + rewrite fst_bind in X. apply in_app_iff in X. destruct X as [X|[]]. auto.
      + repeat (rewrite fst_bind in X; cbn [fst snd c_lo c_gt] in X). rewrite !in_app_iff in X. cbn [In] in X.
        destruct X as [[E|[]]|[[E|[]]|[[E|[]]|X]]]; try discriminate. destruct (ltb (lo v) (lo x)); [|destruct X].
        rewrite fst_bind in X. apply in_app_iff in X. destruct X as [X|[]]. auto.
  Qed.

  Lemma behind_eq (us : list (ucall ni B)) (l1 : list pcall) v u l2 x : (forall a b, In (UEq a b) us -> b = x) ->
    flat_map behind us = l1 ++ QEq v u :: l2 -> u = ni_iv x /\ exists l0, l1 = l0 ++ [QIdEq (ni_id x) (ni_id x)].
  Proof.
    intros Ex. revert l1. induction us as [|c us IH]; intros l1; cbn [flat_map]; [destruct l1; discriminate|].
    assert (Ex' : forall a b, In (UEq a b) us -> b = x) by (intros a b X; apply (Ex a b); now right). specialize (IH Ex').
    assert (One : forall q, match q with QEq _ _ => False | _ => True end -> [q] ++ flat_map behind us = l1 ++ QEq v u :: l2 ->
      u = ni_iv x /\ exists l0, l1 = l0 ++ [QIdEq (ni_id x) (ni_id x)]).
    { intros q Nq Q. destruct l1 as [|q' l1]; cbn in Q; injection Q as Eq Q; [rewrite Eq in Nq; destruct Nq|]. rewrite <- Eq. destruct (IH _ Q) as (E & l0 & ->).
      split; [exact E|]. now exists (q :: l0). }
    destruct c as [a|a|a b|a b|a]; cbn [behind]; try (now apply One).
    - assert (b = x) by (apply (Ex a b); now left). subst b. destruct (eqb (ni_id a) (ni_id x)) eqn:E.
      + intros Q. cbn in Q. destruct l1 as [|q l1]; cbn in Q; [discriminate|]. injection Q as <- Q. apply eqb_eq in E. rewrite E in *.
        destruct l1 as [|q l1]; cbn in Q.
        * injection Q as _ <- _. split; [reflexivity|]. exists []. reflexivity.
        * injection Q as <- Q. destruct (IH _ Q) as (E1 & l0 & ->). split; [exact E1|]. eexists (_ :: _ :: l0). reflexivity.
      + now apply One.
    - cbn [app]. apply IH.
  Qed.

  Lemma writing_no_eq i l : forall (t : stree) ws o u, writing (Node := Node) XInsert i t l = (ws, o) -> In u ws -> ~ compares u.
  Proof.
    induction l as [|v l IH]; intros t ws o u; cbn [writing].
    - intros [= <- <-] [].
    - rewrite calls_insert. destruct (writing XInsert i (insert t (NI i v)) l) as [rest o'] eqn:E. intros [= <- <-] [<-|Iu]; [intros []|].
      apply in_app_iff in Iu. destruct Iu as [Iu|Iu]; [|now apply (IH _ _ _ u E)].
      apply in_flat_map in Iu. destruct Iu as (c & Ic & Iu). apply insert_no_eq in Ic.
      destruct c; try (now destruct Ic); cbn in Iu; destruct Iu as [<-|[]]; intros [].
  Qed.

  Lemma app_cons_split {A} (a b l1 l2 : list A) x : a ++ b = l1 ++ x :: l2 ->
    (exists c, a = l1 ++ x :: c /\ l2 = c ++ b) \/ (exists c, l1 = a ++ c /\ b = c ++ x :: l2).
  Proof.
    revert l1. induction a as [|y a IH]; intros l1 E; cbn in E.
    - right. exists l1. auto.
    - destruct l1 as [|z l1]; cbn in E; injection E as <- E.
      + left. exists a. auto.
      + destruct (IH _ E) as [(c & -> & ->)|(c & -> & ->)]; [left|right]; exists c; auto.
  Qed.

  Lemma writing_eq i l : forall (t : stree) ws o l1 v u l2, writing (Node := Node) XDelete i t l = (ws, o) -> ws = l1 ++ QEq v u :: l2 ->
    In u l /\ exists l0, l1 = l0 ++ [QIdEq i i].
  Proof.
    induction l as [|w l IH]; intros t ws o l1 v u l2; cbn [writing].
    - intros [= <- <-]. destruct l1; discriminate.
    - rewrite calls_delete. assert (Ex := delete_eq (2 + count t) t (NI i w)). set (us := fst (c_delete _ _ _)) in *. clearbody us.
      destruct (delete _ _ _) as [t'|].
      + destruct (writing XDelete i t' l) as [rest o'] eqn:E. intros [= <- <-] Q. destruct l1 as [|q l1]; cbn in Q; [discriminate|]. injection Q as <- Q.
        apply app_cons_split in Q. destruct Q as [(c & Q & _)|(c & -> & Q)].
        * destruct (behind_eq us l1 v u c _ Ex Q) as (-> & l0 & ->). split; [now left|]. eexists (_ :: l0). reflexivity.
        * destruct (IH _ _ _ _ _ _ _ E Q) as (Iu & l0 & ->). split; [now right|]. eexists (_ :: _ ++ l0). cbn. now rewrite app_assoc.
      + intros [= <- <-] Q. destruct l1 as [|q l1]; cbn in Q; [discriminate|]. injection Q as <- Q.
        destruct (behind_eq us l1 v u l2 _ Ex Q) as (-> & l0 & ->). split; [now left|]. eexists (_ :: l0). reflexivity.
  Qed.
End Facts.
