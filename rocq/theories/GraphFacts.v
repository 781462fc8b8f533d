(** Facts about the graph model. *)
From Coq Require Import List Sorted.
From Verif Require Import Ord OrdFacts BTree BTreeFacts Graph SpecGraph.
Import ListNotations.

Section Facts.
  Context {Id Node : Type} `{HO : OrdT Id} `{HI : Identify Node Id}.
  Notation graph := (graph Id Node).
  Notation gcall := (@gcall Id Node).

  (** Sorted, and every node is stored under its own id. *)
  Definition g_wf (g : graph) : Prop :=
    bt_sorted g /\ Forall (fun kv => fst kv = id_of (snd kv)) g.

  Lemma g_wf_default : g_wf g_default.
  Proof. split; constructor. Qed.

  Lemma g_wf_insert g n : g_wf g -> g_wf (bt_insert (id_of n) n g).
  Proof.
    intros [S F]. split; [now apply bt_insert_sorted|].
    apply Forall_insert; cbn; auto.
  Qed.

  Lemma g_wf_remove g i : g_wf g -> g_wf (bt_remove i g).
  Proof. intros [S F]. split; [now apply bt_remove_sorted|now apply Forall_remove]. Qed.

  Lemma g_wf_step g c : g_wf g -> g_wf (fst (g_step g c)).
  Proof.
    destruct c; cbn; unfold g_with_node; auto using g_wf_insert, g_wf_remove.
  Qed.

  Lemma g_wf_run cs : forall g, g_wf g -> g_wf (g_run g cs).
  Proof. induction cs as [|c cs IH]; intros g W; [exact W|]. apply IH, g_wf_step, W. Qed.

  Lemma g_from_iter_run nodes : g_from_iter nodes = g_run g_default (map GWithNode nodes).
  Proof.
    unfold g_from_iter, g_run, bt_from_iter, g_default.
    generalize (@nil (Id * Node)) as g. induction nodes as [|n nodes IH]; intros g; [reflexivity|].
    cbn. apply IH.
  Qed.

  Lemma g_wf_from_iter nodes : g_wf (g_from_iter nodes).
  Proof. rewrite g_from_iter_run. apply g_wf_run, g_wf_default. Qed.

  Lemma g_reachable_wf g : g_reachable g -> g_wf g.
  Proof. induction 1; auto using g_wf_default, g_wf_from_iter, g_wf_step. Qed.

  Lemma g_reachable_run cs : forall g, g_reachable g -> g_reachable (g_run g cs).
  Proof. induction cs as [|c cs IH]; intros g R; [exact R|]. apply IH. now constructor. Qed.

  Lemma about_dec (c : gcall) i : {about c i} + {~ about c i}.
  Proof. destruct c; cbn; apply ord_eq_dec. Qed.

  Lemma g_get_step g c i : g_wf g ->
    g_get (fst (g_step g c)) i = if about_dec c i then written c else g_get g i.
  Proof.
    intros [S _]. unfold g_get.
    destruct (about_dec c i) as [A|A]; destruct c; cbn in *; unfold g_with_node;
      rewrite ?bt_get_insert, ?bt_get_remove by assumption.
    1-3: subst; now rewrite eqb_refl.
    all: apply eqb_neq in A; now rewrite A.
  Qed.

  Lemma g_run_app g cs ds : g_run g (cs ++ ds) = g_run (g_run g cs) ds.
  Proof. apply fold_left_app. Qed.

  Lemma last_write_run g cs i : g_wf g ->
    last_write (g_get g) cs i (g_get (g_run g cs) i).
  Proof.
    intros W. induction cs as [|c cs IH] using rev_ind.
    - right. split; [intros c []|reflexivity].
    - rewrite g_run_app.
      change (g_run (g_run g cs) [c]) with (fst (g_step (g_run g cs) c)).
      rewrite g_get_step by now apply g_wf_run.
      destruct (about_dec c i) as [A|A].
      + left. exists cs, c, []. cbn. auto.
      + destruct IH as [(pre & c' & post & -> & A' & N & E)|[N E]].
        * left. exists pre, c', (post ++ [c]). rewrite <- app_assoc. cbn.
          repeat split; auto. intros d I. apply in_app_or in I as [I|[<-|[]]]; auto.
        * right. split; auto. intros d I. apply in_app_or in I as [I|[<-|[]]]; auto.
  Qed.

  Lemma last_write_fun before cs i r1 r2 :
    last_write (Node := Node) before cs i r1 -> last_write before cs i r2 -> r1 = r2.
  Proof.
    intros [(pre & c & post & E & A & N & ->)|[N ->]] [(pre' & c' & post' & E' & A' & N' & ->)|[N' ->]].
    - rewrite E in E'. clear E. revert pre' E'. induction pre as [|x pre IH]; intros [|y pre'] E.
      + cbn in E. now injection E as -> _.
      + cbn in E. injection E as -> E. exfalso. apply (N c'); [|assumption].
        rewrite E. apply in_or_app. right. now left.
      + cbn in E. injection E as -> E. exfalso. apply (N' c); [|assumption].
        rewrite <- E. apply in_or_app. right. now left.
      + cbn in E. injection E as _ E. eauto.
    - exfalso. apply (N' c); [|assumption]. rewrite E. apply in_or_app. right. now left.
    - exfalso. apply (N c'); [|assumption]. rewrite E'. apply in_or_app. right. now left.
    - reflexivity.
  Qed.

  Lemma g_iter_in g n : g_wf g -> (In n (g_iter g) <-> g_get g (id_of n) = Some n).
  Proof.
    intros [S F]. unfold g_get, g_iter, bt_values. rewrite (bt_get_in (id_of n) n g S).
    rewrite in_map_iff. split.
    - intros ([k m] & E & I). cbn in E. subst m. rewrite Forall_forall in F.
      pose proof (F _ I) as Ek. cbn in Ek. now subst k.
    - intros I. exists (id_of n, n). auto.
  Qed.

  Lemma g_iter_ids g : g_wf g -> map id_of (g_iter g) = map fst g.
  Proof.
    intros [_ F]. unfold g_iter, bt_values. rewrite map_map. apply map_ext_in.
    intros kv I. rewrite Forall_forall in F. symmetry. now apply F.
  Qed.

  Lemma g_iter_sorted g : g_wf g ->
    StronglySorted (fun a b => lt (id_of a) (id_of b)) (g_iter g).
  Proof.
    intros W. pose proof (g_iter_ids g W) as E. destruct W as [S _].
    unfold bt_sorted in S. rewrite <- E in S. clear E. induction (g_iter g) as [|n l IH]; constructor.
    - apply IH. cbn in S. now inversion S.
    - cbn in S. inversion S as [|? ? _ L]; subst. now rewrite Forall_map in L.
  Qed.

  Lemma g_get_id g i n : g_wf g -> g_get g i = Some n -> id_of n = i.
  Proof.
    intros [S F] G. apply bt_get_in in G; [|assumption].
    rewrite Forall_forall in F. symmetry. apply (F _ G).
  Qed.

  Lemma g_contains_get (g : graph) i : g_contains g i = true <-> exists n, g_get g i = Some n.
  Proof. apply bt_contains_key_get. Qed.

  Lemma g_ext (g1 g2 : graph) : g_wf g1 -> g_wf g2 -> (forall i, g_get g1 i = g_get g2 i) -> g1 = g2.
  Proof. intros [S1 _] [S2 _] E. now apply bt_ext. Qed.

  Lemma last_node_from_iter (nodes : list Node) i : last_node nodes i (g_get (g_from_iter nodes) i).
  Proof.
    rewrite g_from_iter_run.
    destruct (last_write_run g_default (map GWithNode nodes) i g_wf_default)
      as [(pre & c & post & E & A & N & ->)|[N ->]].
    - left. apply map_eq_app in E as (l1 & l2 & -> & <- & E).
      apply map_eq_cons in E as (n & l3 & -> & <- & <-).
      exists l1, n, l3. repeat split; auto.
      intros m I. apply (N (GWithNode m)). now apply in_map.
    - right. split; [|reflexivity]. intros m I. apply (N (GWithNode m)). now apply in_map.
  Qed.

  Lemma g_from_iter_inserts (nodes : list Node) :
    g_from_iter nodes = fold_left (fun g n => fst (g_insert g n)) nodes g_default.
  Proof.
    unfold g_from_iter, bt_from_iter, g_default.
    generalize (@nil (Id * Node)) as g. induction nodes as [|n nodes IH]; intros g; [reflexivity|].
    cbn. apply IH.
  Qed.

  Lemma g_iter_nodup (g : graph) : g_wf g -> NoDup (map id_of (g_iter g)).
  Proof.
    intros W. rewrite g_iter_ids by assumption. destruct W as [S _]. unfold bt_sorted in S.
    induction (map fst g) as [|k l IH]; constructor; inversion S as [|? ? S1 S2]; subst.
    - intros I. rewrite Forall_forall in S2. exact (lt_irrefl _ (S2 _ I)).
    - auto.
  Qed.

  Lemma g_iter_ext (g1 g2 : graph) : g_reachable g1 -> g_reachable g2 ->
    (forall i, g_get g1 i = g_get g2 i) -> g_iter g1 = g_iter g2.
  Proof.
    intros R1 R2 E. f_equal. apply g_ext; auto using g_reachable_wf.
  Qed.
End Facts.
