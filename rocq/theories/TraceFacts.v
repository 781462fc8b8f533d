(** Facts about traces. *)
From Coq Require Import List Bool Arith Lia Sorted.
From Verif Require Import Ord OrdFacts BTree BTreeFacts Graph SpecGraph GraphFacts Tx TxFacts TxMachine SpecTx Prog SpecProg ProgFacts
  ProgFrame ProgTx ProgTrace SpecTrace.
Import ListNotations.

Section Facts.
  Context {Id Node V U : Type} `{HO : OrdT Id} `{HI : Identify Node Id}.
  Notation prog := (prog Id Node V U).
  Notation world := (world Id Node V U).
  Notation schema := (schema Id Node V U).
  Notation outcome := (outcome V).
  Notation res := (res V).
  Notation happening := (happening Id Node).
  Notation cell := (cell Node U).

  Variable sc : schema.

  Definition prefix (l l' : list happening) : Prop := exists k, l' = l ++ k.

  Lemma prefix_refl l : prefix l l.
  Proof. exists []. now rewrite app_nil_r. Qed.

  Lemma prefix_nil l : prefix [] l.
  Proof. now exists l. Qed.

  Lemma prefix_app l l1 l2 : prefix l1 l2 -> prefix (l ++ l1) (l ++ l2).
  Proof. intros [k ->]. exists k. now rewrite app_assoc. Qed.

  Lemma prefix_cons h l1 l2 : prefix l1 l2 -> prefix (h :: l1) (h :: l2).
  Proof. apply (prefix_app [h]). Qed.

  Lemma prefix_app_nil l1 l2 l3 : prefix l1 l2 -> prefix (l1 ++ []) (l2 ++ l3).
  Proof. intros [k ->]. rewrite app_nil_r, <- app_assoc. eexists. reflexivity. Qed.

  (** ** More fuel: nothing changes if the run had ended, otherwise more happens *)
  Lemma trace_more fuel : forall (w : world) (p : prog) fuel', fuel <= fuel' ->
    prefix (trace sc fuel w p) (trace sc fuel' w p) /\
    (run sc fuel w p <> None -> trace sc fuel' w p = trace sc fuel w p).
  Proof.
    induction fuel as [|f IH]; intros w p fuel' L; [split; [apply prefix_nil|now intros []]|].
    destruct fuel' as [|f']; [lia|]. assert (L' : f <= f') by lia.
    assert (IH1 : forall (w : world) (p : prog), prefix (trace sc f w p) (trace sc f' w p)) by (intros; now apply IH).
    assert (IH2 : forall (w : world) (p : prog), run sc f w p <> None -> trace sc f' w p = trace sc f w p)
      by (intros; now apply IH).
    assert (M : forall (w : world) (p : prog) x, run sc f w p = Some x -> run sc f' w p = Some x)
      by (intros; eapply run_mono; eauto).
    assert (IH3 : forall (w : world) (p : prog) x, run sc f w p = Some x -> trace sc f' w p = trace sc f w p)
      by (intros w0 p0 x0 E0; apply IH2; congruence).
    clear IH L.
    destruct p; cbn [trace run];
      try (split; [apply IH1 | apply IH2]); try (split; [apply prefix_refl | reflexivity]).
    - destruct (run sc f w p) as [[w1 o]|] eqn:E.
      + rewrite (M _ _ _ E), (IH3 _ _ _ E). destruct o; try (split; [apply prefix_refl|reflexivity]).
        split; [apply prefix_app, IH1|]. intros N. now rewrite IH2.
      + split; [apply prefix_app_nil, IH1|now intros []].
    - destruct (run sc f w p) as [[w1 o]|] eqn:E.
      + rewrite (M _ _ _ E), (IH3 _ _ _ E). destruct o; try (split; [apply prefix_refl|reflexivity]);
        (split; [apply prefix_app, IH1|]; intros N; now rewrite IH2).
      + split; [apply prefix_app_nil, IH1|now intros []].
    - destruct t as [crash|c].
      + destruct (w_lock w); try (split; [apply prefix_refl | reflexivity]). cbn zeta.
        destruct (run sc f _ (body _)) as [[w1 o]|] eqn:E.
        * rewrite (M _ _ _ E), (IH3 _ _ _ E). destruct o; try (split; [apply prefix_refl|reflexivity]).
          destruct (is_ok r).
          -- destruct (bg_commit crash _ w1) as [w2 []]; [split; [apply prefix_refl|reflexivity]|].
             split; [apply prefix_app, prefix_app, prefix_app, IH1|]. intros N. now rewrite IH2.
          -- split; [apply prefix_app, prefix_app, IH1|]. intros N. now rewrite IH2.
        * split; [apply prefix_app, prefix_app_nil, IH1|now intros []].
      + destruct (run sc f _ (body _)) as [[w1 o]|] eqn:E.
        * rewrite (M _ _ _ E), (IH3 _ _ _ E). destruct o; try (split; [apply prefix_refl|reflexivity]).
          destruct (is_ok r).
          -- split; [apply prefix_app, prefix_app, IH1|]. intros N. now rewrite IH2.
          -- split; [apply prefix_app, IH1|]. intros N. now rewrite IH2.
        * split; [apply prefix_app_nil, IH1|now intros []].
    - destruct (run sc f w (select_execute _ c)) as [[w1 o]|] eqn:E.
      + rewrite (M _ _ _ E), (IH3 _ _ _ E). destruct o; try (split; [apply prefix_refl|reflexivity]).
        split; [apply prefix_app, IH1|]. intros N. now rewrite IH2.
      + split; [apply prefix_app_nil, IH1|now intros []].
    - destruct (glock_read (w_lock w)); [|split; [apply prefix_refl|reflexivity]].
      destruct (run sc f _ p) as [[w1 o]|] eqn:E.
      + rewrite (M _ _ _ E), (IH3 _ _ _ E). destruct o; try (split; [apply prefix_refl|reflexivity]).
        split; [apply prefix_app, prefix_app, IH1|]. intros N. now rewrite IH2.
      + split; [apply prefix_app, prefix_app_nil, IH1|now intros []].
    - destruct (w_lock w); try (split; [apply prefix_refl | reflexivity]).
      destruct (run sc f _ p) as [[w1 o]|] eqn:E.
      + rewrite (M _ _ _ E), (IH3 _ _ _ E). destruct o; try (split; [apply prefix_refl|reflexivity]).
        split; [apply prefix_app, prefix_app, IH1|]. intros N. now rewrite IH2.
      + split; [apply prefix_app, prefix_app_nil, IH1|now intros []].
    - destruct (w_lock w); try (split; [apply prefix_refl | reflexivity]);
        (split; [apply prefix_cons, IH1|]; intros N; now rewrite IH2).
    - destruct (w_lock w); try (split; [apply prefix_refl | reflexivity]);
        (split; [apply prefix_cons, IH1|]; intros N; now rewrite IH2).
    - destruct (w_lock w); try (split; [apply prefix_refl | reflexivity]). destruct (g_step _ c).
      split; [apply prefix_cons, IH1|]. intros N. now rewrite IH2.
    - destruct (acquire m hs (w_cells w)) as [cs held| |]; try (split; [apply prefix_refl | reflexivity]).
      destruct (deref_all cs hs held) as [vs|].
      + destruct (run sc f _ (body vs)) as [[w1 o]|] eqn:E.
        * rewrite (M _ _ _ E), (IH3 _ _ _ E). destruct o; try (split; [apply prefix_refl|reflexivity]).
          split; [apply prefix_app, prefix_app, IH1|]. intros N. now rewrite IH2.
        * split; [apply prefix_app, prefix_app_nil, IH1|now intros []].
      + split; [apply prefix_app, IH1|]. intros N. now rewrite IH2.
    - destruct (nth_error (w_cells w) a) as [x'|]; try (split; [apply prefix_refl | reflexivity]).
      destruct (c_lock x'); try (split; [apply prefix_refl | reflexivity]).
      destruct (ty_eqb _ _); [|split; [apply prefix_refl | reflexivity]]. split; [apply IH1|apply IH2].
  Qed.

  Lemma happened_ends (w : world) p w' o l : happened sc w p w' o l -> ends sc w p w' o.
  Proof. intros (f & R & _). now exists f. Qed.

  Lemma ends_happened (w : world) p w' o : ends sc w p w' o -> exists l, happened sc w p w' o l.
  Proof. intros (f & R). eexists. now exists f. Qed.

  Lemma happened_so_far (w : world) p w' o l : happened sc w p w' o l -> so_far sc w p l.
  Proof. intros (f & _ & T). now exists f. Qed.

  Lemma happened_fun (w : world) p w1 o1 l1 w2 o2 l2 : happened sc w p w1 o1 l1 -> happened sc w p w2 o2 l2 -> l1 = l2.
  Proof.
    intros (f1 & R1 & <-) (f2 & R2 & <-).
    rewrite <- (proj2 (trace_more f1 w p (f1 + f2) ltac:(lia)) ltac:(congruence)).
    now rewrite <- (proj2 (trace_more f2 w p (f1 + f2) ltac:(lia)) ltac:(congruence)).
  Qed.

  Lemma so_far_prefix (w : world) p w' o l l' : happened sc w p w' o l -> so_far sc w p l' -> prefix l' l.
  Proof.
    intros (f1 & R1 & <-) (f2 & <-).
    rewrite <- (proj2 (trace_more f1 w p (f1 + f2) ltac:(lia)) ltac:(congruence)).
    apply trace_more. lia.
  Qed.

  (** ** Histories, over graphs *)
  Definition gcommit (g : graph Id Node) (h : happening) : graph Id Node :=
    match h with
    | HPublish ops => apply_ops g ops
    | HCall c _ => fst (g_step g c)
    | _ => g
    end.

  Definition glegal (g : graph Id Node) (h : happening) : Prop :=
    match h with
    | HCall c r => r = snd (g_step g c)
    | HGet i r => r = g_get g i
    | HIter l => l = g_iter g
    | _ => True
    end.

  Fixpoint gafter (g : graph Id Node) (l : list happening) : graph Id Node :=
    match l with [] => g | h :: l => gafter (gcommit g h) l end.
  Fixpoint gserial (g : graph Id Node) (l : list happening) : Prop :=
    match l with [] => True | h :: l => glegal g h /\ gserial (gcommit g h) l end.

  Lemma gafter_app g l1 l2 : gafter g (l1 ++ l2) = gafter (gafter g l1) l2.
  Proof. revert g. induction l1 as [|h l1 IH]; intros g; cbn; auto. Qed.

  Lemma gserial_app g l1 l2 : gserial g (l1 ++ l2) <-> gserial g l1 /\ gserial (gafter g l1) l2.
  Proof. revert g. induction l1 as [|h l1 IH]; intros g; cbn; [tauto|]. rewrite IH. tauto. Qed.

  Definition gsound (g : graph Id Node) (l : list happening) (x : option (world * outcome)) : Prop :=
    gserial g l /\ forall w' o, x = Some (w', o) -> w_graph w' = gafter g l.

  Lemma gsound_app g l1 l2 x (w1 : world) : gserial g l1 -> w_graph w1 = gafter g l1 ->
    gsound (w_graph w1) l2 x -> gsound g (l1 ++ l2) x.
  Proof.
    intros S1 E [S2 A]. rewrite E in *. split; [now apply gserial_app|]. intros w' o X. rewrite gafter_app. eauto.
  Qed.

  Lemma gafter_notices g l : only_notices l -> gafter g l = g.
  Proof.
    induction l as [|h l IH]; intros N; cbn; [reflexivity|]. destruct (N h (or_introl eq_refl)) as [n ->]. cbn.
    apply IH. intros h' I. apply N. now right.
  Qed.

  Lemma gserial_notices g l : only_notices l -> gserial g l.
  Proof.
    induction l as [|h l IH]; intros N; cbn; [exact I|]. destruct (N h (or_introl eq_refl)) as [n ->]. cbn.
    split; [exact I|]. apply IH. intros h' J. apply N. now right.
  Qed.

  Lemma only_notices_app (l1 l2 : list happening) : only_notices l1 -> only_notices l2 -> only_notices (l1 ++ l2).
  Proof. intros A B h J. apply in_app_or in J as [J|J]; auto. Qed.

  Lemma guard_only (w : world) : only_notices (guard_notices w).
  Proof. unfold guard_notices. destruct (w_poison w); [intros h [<-|[]]; eauto|easy]. Qed.

  Lemma acquire_only m hs : forall (cs : list cell), only_notices (acquire_notices (Id := Id) m hs cs).
  Proof.
    induction hs as [|h hs IH]; intros cs; cbn; [easy|]. apply only_notices_app.
    - unfold acquire1_notices. destruct (h_addr h); [|easy]. destruct (nth_error cs n); [|easy].
      destruct (blocked _ _); [easy|]. destruct (c_poison c); [|easy]. intros x [<-|[]]. eauto.
    - destruct (acquire1 m h cs); [apply IH|easy|easy].
  Qed.

  Lemma gsound_notices g l1 l2 x : only_notices l1 -> gsound g l2 x -> gsound g (l1 ++ l2) x.
  Proof.
    intros N [S A]. split.
    - apply gserial_app. split; [now apply gserial_notices|]. now rewrite (gafter_notices g l1 N).
    - intros w' o X. rewrite gafter_app, (gafter_notices g l1 N). eauto.
  Qed.

  Lemma gsound_nil (w : world) o : gsound (w_graph w) [] (Some (w, o)).
  Proof. split; [exact I|]. now intros w' o' [= <- <-]. Qed.

  Lemma gsound_none g l : gserial g l -> gsound g l None.
  Proof. intros S. split; [exact S|discriminate]. Qed.

  Lemma commit_gsound crash b (w w2 : world) x : bg_commit crash b w = (w2, x) ->
    gserial (w_graph w) (commit_trace crash b w) /\ w_graph w2 = gafter (w_graph w) (commit_trace crash b w).
  Proof.
    unfold bg_commit, commit_trace. destruct (leaked w b); [intros [= <- <-]; cbn; auto|]. cbn zeta.
    destruct crash as [k|]; [destruct (crashes k (buf_ops (w_heap w) b)) eqn:Lt|]; intros [= <- <-]; cbn; auto.
    now rewrite crashes_not.
  Qed.

  Lemma trace_gsound fuel : forall (w : world) (p : prog), gsound (w_graph w) (trace sc fuel w p) (run sc fuel w p).
  Proof.
    induction fuel as [|f IH]; intros w p; [now apply gsound_none|].
    assert (IHg : forall g (w : world) p, g = w_graph w -> gsound g (trace sc f w p) (run sc f w p)) by (intros; subst; apply IH).
    destruct p; cbn [trace run]; try apply gsound_nil; try (now apply gsound_none); try (apply IHg; reflexivity).
    - destruct (IH w p) as [S A]. destruct (run sc f w p) as [[w1 o]|] eqn:E.
      + pose proof (A _ _ eq_refl) as A1. destruct o; try (rewrite app_nil_r; split; [exact S|exact A]).
        apply (gsound_app _ _ _ _ w1); auto.
      + rewrite app_nil_r. now apply gsound_none.
    - destruct (IH w p) as [S A]. destruct (run sc f w p) as [[w1 o]|] eqn:E.
      + pose proof (A _ _ eq_refl) as A1. destruct o; try (rewrite app_nil_r; split; [exact S|exact A]);
        apply (gsound_app _ _ _ _ w1); auto.
      + rewrite app_nil_r. now apply gsound_none.
    - destruct t as [crash|c].
      + destruct (w_lock w); try apply gsound_nil. cbn zeta. apply gsound_notices; [apply guard_only|].
        set (w0 := set_lock GTx _). destruct (IH w0 (body (CRoot (length (w_heap w)) None))) as [S A].
        change (w_graph w0) with (w_graph w) in *.
        destruct (run sc f w0 _) as [[w1 o]|] eqn:E; [|rewrite app_nil_r; now apply gsound_none].
        pose proof (A _ _ eq_refl) as A1.
        destruct o; try (rewrite app_nil_r; split; [exact S|now intros w' o' [= <- <-]]).
        apply (gsound_app _ _ _ _ w1); auto. destruct (is_ok r); [|apply IHg; reflexivity].
        destruct (bg_commit crash _ w1) as [w2 x] eqn:C. apply commit_gsound in C as [Cs Ca].
        apply (gsound_app _ _ _ _ w2); auto. destruct x; [split; [exact I|now intros w' o' [= <- <-]]|apply IHg; reflexivity].
      + cbn zeta. set (w0 := set_heap _ w). destruct (IH w0 (body (CSub c (length (w_heap w)) None))) as [S A].
        change (w_graph w0) with (w_graph w) in *.
        destruct (run sc f w0 _) as [[w1 o]|] eqn:E; [|rewrite app_nil_r; now apply gsound_none].
        pose proof (A _ _ eq_refl) as A1.
        destruct o; try (rewrite app_nil_r; split; [exact S|now intros w' o' [= <- <-]]).
        apply (gsound_app _ _ _ _ w1); auto. destruct (is_ok r); [|apply IHg; reflexivity].
        apply gsound_notices; [unfold merge_notices; destruct (leaked w1 _); [intros h [<-|[]]; eauto|easy]|].
        replace (w_graph w1) with (w_graph (close (length (w_heap w)) (fg_commit c (length (w_heap w)) w1)))
          by (unfold fg_commit; now destruct (leaked w1 _)). apply IHg; reflexivity.
    - destruct (IH w (select_execute (ts_select (sc_triggers sc) s) c)) as [S A].
      destruct (run sc f w (select_execute _ c)) as [[w1 o]|] eqn:E.
      + pose proof (A _ _ eq_refl) as A1. destruct o; try (rewrite app_nil_r; split; [exact S|exact A]).
        apply (gsound_app _ _ _ _ w1); auto.
      + rewrite app_nil_r. now apply gsound_none.
    - destruct (glock_read (w_lock w)) as [l|]; [|apply gsound_nil]. apply gsound_notices; [apply guard_only|].
      destruct (IH (set_lock l w) p) as [S A]. change (w_graph (set_lock l w)) with (w_graph w) in *.
      destruct (run sc f _ p) as [[w1 o]|] eqn:E; [|rewrite app_nil_r; now apply gsound_none].
      pose proof (A _ _ eq_refl) as A1.
      destruct o; try (rewrite app_nil_r; split; [exact S|now intros w' o' [= <- <-]]).
      apply (gsound_app _ _ _ _ w1); auto; apply IHg; reflexivity.
    - destruct (w_lock w); try apply gsound_nil. apply gsound_notices; [apply guard_only|].
      destruct (IH (set_lock GWrite w) p) as [S A]. change (w_graph (set_lock GWrite w)) with (w_graph w) in *.
      destruct (run sc f _ p) as [[w1 o]|] eqn:E; [|rewrite app_nil_r; now apply gsound_none].
      pose proof (A _ _ eq_refl) as A1.
      destruct o; try (rewrite app_nil_r; split; [exact S|now intros w' o' [= <- <-]]).
      apply (gsound_app _ _ _ _ w1); auto; apply IHg; reflexivity.
    - destruct (w_lock w); try apply gsound_nil; (apply (gsound_app _ [_] _ _ w); cbn; auto).
    - destruct (w_lock w); try apply gsound_nil; (apply (gsound_app _ [_] _ _ w); cbn; auto).
    - destruct (w_lock w); try apply gsound_nil. destruct (g_step (w_graph w) c) as [g r] eqn:G.
      apply (gsound_app _ [_] _ _ (set_graph g w)); cbn; rewrite ?G; cbn; auto.
    - apply gsound_notices; [apply acquire_only|].
      destruct (acquire m hs (w_cells w)) as [cs held| |]; try apply gsound_nil.
      destruct (deref_all cs hs held) as [vs|]; [|apply IHg; reflexivity].
      destruct (IH (set_cells cs w) (body vs)) as [S A]. change (w_graph (set_cells cs w)) with (w_graph w) in *.
      destruct (run sc f _ (body vs)) as [[w1 o]|] eqn:E; [|rewrite app_nil_r; now apply gsound_none].
      pose proof (A _ _ eq_refl) as A1.
      destruct o; try (rewrite app_nil_r; split; [exact S|now intros w' o' [= <- <-]]).
      apply (gsound_app _ _ _ _ w1); auto; apply IHg; reflexivity.
    - destruct (nth_error (w_cells w) a) as [x'|]; try apply gsound_nil.
      destruct (c_lock x'); try apply gsound_nil. destruct (ty_eqb _ _); [|apply gsound_nil].
      apply IHg; reflexivity.
  Qed.

  (** ** Histories, over maps *)
  Lemma replay_ext (l : list (@entry Id Node)) : forall (f g : Id -> option Node), (forall i, f i = g i) ->
    forall i, replay l f i = replay l g i.
  Proof.
    induction l as [|[j r] l IH]; intros f g E i; [apply E|]. unfold replay in *. cbn. apply IH.
    intros k. unfold base_set. now destruct (eqb j k).
  Qed.

  Lemma gcommit_wf g h : g_wf g -> g_wf (gcommit g h).
  Proof. destruct h; cbn; auto using apply_ops_wf, g_wf_step. Qed.

  Lemma get_step_set g c i : g_wf g -> g_get (fst (g_step g c)) i = base_set (call_id c) (written c) (g_get g) i.
  Proof.
    intros W. rewrite g_get_step by assumption. unfold base_set. destruct (about_dec c i) as [A|A].
    - destruct c; cbn in *; rewrite (proj2 (eqb_eq _ _) A); reflexivity.
    - destruct c; cbn in *; rewrite (proj2 (eqb_neq _ _) A); reflexivity.
  Qed.

  Lemma snd_step (g : graph Id Node) c : snd (g_step g c) = match c with GWithNode _ => None | _ => g_get g (call_id c) end.
  Proof. now destruct c. Qed.

  Lemma gserial_serial l : forall g (m : Id -> option Node), g_wf g -> (forall i, m i = g_get g i) -> gserial g l ->
    serial m l /\ forall i, after m l i = g_get (gafter g l) i.
  Proof.
    induction l as [|h l IH]; intros g m W E S; [now split|]. cbn [gserial] in S. destruct S as [Lg S].
    pose proof (gcommit_wf g h W) as W'.
    destruct h as [n|ops|c r|i r|ns]; cbn [serial after gafter]; cbn [gcommit glegal] in *.
    - now apply IH.
    - apply IH; auto. intros i. rewrite replay_apply_ops by assumption. now apply replay_ext.
    - subst r. rewrite snd_step. destruct (IH (fst (g_step g c)) (base_set (call_id c) (written c) m)) as [A B]; auto.
      + intros i. rewrite get_step_set by assumption. unfold base_set. now destruct (eqb _ i).
      + split; [|exact B]. split; [|exact A]. destruct c; auto; now rewrite E.
    - subst r. destruct (IH g m W E S) as [A B]. rewrite E. auto.
    - subst ns. destruct (IH g m W E S) as [A B]. split; [|exact B].
      split; [intros n; rewrite E; now apply g_iter_in|]. split; [now apply g_iter_sorted|exact A].
  Qed.

  (** ** Inside a transaction, only errors are logged; under a read guard, the graph is only read *)
  Lemma run_lock f (w : world) p w1 o : run sc f w p = Some (w1, o) -> comes_back o -> w_lock w1 = w_lock w.
  Proof. intros R C. apply (run_exec sc) in R; [|exact C]. apply (fr_lock _ _ (exec_framed _ _ _ _ _ R)). Qed.

  Lemma trace_inside fuel : forall (w : world) (p : prog), w_lock w = GTx -> only_notices (trace sc fuel w p).
  Proof.
    induction fuel as [|f IH]; intros w p L; [easy|].
    assert (Nil : only_notices (@nil happening)) by easy.
    assert (K : forall (w : world) p w1 o, w_lock w = GTx -> run sc f w p = Some (w1, o) -> comes_back o -> w_lock w1 = GTx).
    { intros w0 p0 w1 o L0 R C. rewrite (run_lock _ _ _ _ _ R C). exact L0. }
    destruct p; cbn [trace]; rewrite ?L; try easy; try (now apply IH).
    - apply only_notices_app; [now apply IH|]. destruct (run sc f w p) as [[w1 []]|] eqn:E; try easy.
      apply IH. eapply K; eauto. exact I.
    - apply only_notices_app; [now apply IH|]. destruct (run sc f w p) as [[w1 []]|] eqn:E; try easy;
      (apply IH; eapply K; eauto; exact I).
    - destruct t as [crash|c]; [easy|]. cbn zeta. apply only_notices_app; [now apply IH|].
      destruct (run sc f _ (body _)) as [[w1 []]|] eqn:E; try easy.
      assert (L1 : w_lock w1 = GTx) by (eapply K; [|exact E|exact I]; exact L).
      destruct (is_ok r); [|now apply IH]. apply only_notices_app.
      + unfold merge_notices. destruct (leaked w1 _); [|easy]. intros h [<-|[]]. eauto.
      + apply IH. unfold fg_commit. now destruct (leaked w1 _).
    - apply only_notices_app; [now apply IH|]. destruct (run sc f w _) as [[w1 []]|] eqn:E; try easy.
      apply IH. eapply K; eauto. exact I.
    - apply only_notices_app; [apply acquire_only|]. destruct (acquire m hs (w_cells w)) as [cs held| |]; try easy.
      destruct (deref_all cs hs held) as [vs|]; [|now apply IH]. apply only_notices_app; [now apply IH|].
      destruct (run sc f _ (body vs)) as [[w1 []]|] eqn:E; try easy.
      apply IH. eapply (K _ _ w1); [|exact E|exact I]. exact L.
    - destruct (nth_error (w_cells w) a) as [x'|]; try easy. destruct (c_lock x'); try easy.
      destruct (ty_eqb _ _); [|easy]. now apply IH.
  Qed.

  Lemma only_reads_app (l1 l2 : list happening) : only_reads l1 -> only_reads l2 -> only_reads (l1 ++ l2).
  Proof. intros A B h J. apply in_app_or in J as [J|J]; [apply (A h J)|apply (B h J)]. Qed.

  Lemma only_notices_reads (l : list happening) : only_notices l -> only_reads l.
  Proof. intros A h J. destruct (A h J) as [n ->]. exact I. Qed.

  Lemma only_reads_cons h (l : list happening) : only_reads [h] -> only_reads l -> only_reads (h :: l).
  Proof. apply (only_reads_app [h]). Qed.

  Lemma trace_reading fuel : forall (w : world) (p : prog) n, w_lock w = GReaders n -> only_reads (trace sc fuel w p).
  Proof.
    induction fuel as [|f IH]; intros w p n L; [easy|].
    assert (Nil : only_reads (@nil happening)) by easy.
    assert (K : forall (w : world) p w1 o n, w_lock w = GReaders n -> run sc f w p = Some (w1, o) -> comes_back o ->
      w_lock w1 = GReaders n).
    { intros w0 p0 w1 o n0 L0 R C. rewrite (run_lock _ _ _ _ _ R C). exact L0. }
    destruct p; cbn [trace]; rewrite ?L; try easy; try (now apply (IH _ _ n)).
    - apply only_reads_app; [now apply (IH _ _ n)|]. destruct (run sc f w p) as [[w1 []]|] eqn:E; try easy.
      apply (IH _ _ n). eapply K; eauto. exact I.
    - apply only_reads_app; [now apply (IH _ _ n)|]. destruct (run sc f w p) as [[w1 []]|] eqn:E; try easy;
      (apply (IH _ _ n); eapply K; eauto; exact I).
    - destruct t as [crash|c]; [easy|]. cbn zeta. apply only_reads_app; [now apply (IH _ _ n)|].
      destruct (run sc f _ (body _)) as [[w1 []]|] eqn:E; try easy.
      assert (L1 : w_lock w1 = GReaders n) by (eapply K; [|exact E|exact I]; exact L).
      destruct (is_ok r); [|now apply (IH _ _ n)]. apply only_reads_app.
      + unfold merge_notices. destruct (leaked w1 _); [|easy]. now intros h [<-|[]].
      + apply (IH _ _ n). unfold fg_commit. now destruct (leaked w1 _).
    - apply only_reads_app; [now apply (IH _ _ n)|]. destruct (run sc f w _) as [[w1 []]|] eqn:E; try easy.
      apply (IH _ _ n). eapply K; eauto. exact I.
    - cbn [glock_read]. apply only_reads_app; [apply only_notices_reads, guard_only|].
      apply only_reads_app; [now apply (IH _ _ (S n))|]. destruct (run sc f _ p) as [[w1 []]|] eqn:E; try easy.
      apply (IH _ _ n). cbn. rewrite (K (set_lock (GReaders (S n)) w) _ _ _ (S n) eq_refl E I). reflexivity.
    - apply only_reads_cons; [now intros h [<-|[]]|]. now apply (IH _ _ n).
    - apply only_reads_cons; [now intros h [<-|[]]|]. now apply (IH _ _ n).
    - apply only_reads_app; [apply only_notices_reads, acquire_only|]. destruct (acquire m hs (w_cells w)) as [cs held| |]; try easy.
      destruct (deref_all cs hs held) as [vs|]; [|now apply (IH _ _ n)]. apply only_reads_app; [now apply (IH _ _ n)|].
      destruct (run sc f _ (body vs)) as [[w1 []]|] eqn:E; try easy.
      apply (IH _ _ n). eapply (K _ _ w1); [|exact E|exact I]. exact L.
    - destruct (nth_error (w_cells w) a) as [x'|]; try easy. destruct (c_lock x'); try easy.
      destruct (ty_eqb _ _); [|easy]. now apply (IH _ _ n).
  Qed.
End Facts.
