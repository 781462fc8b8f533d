(** Save, Delete and triggers. *)
From Coq Require Import List Bool Arith Lia.
From Verif Require Import Ord OrdFacts BTree BTreeFacts Graph GraphFacts Tx TxMachine SpecTx TxFacts Prog SpecProg
  ProgFacts ProgFrame ProgTx.
Import ListNotations.

Section ProgOps.
  Context {Id Node V U : Type} `{HO : OrdT Id} `{HI : Identify Node Id}.
  Notation prog := (prog Id Node V U).
  Notation world := (world Id Node V U).
  Notation schema := (schema Id Node V U).
  Notation outcome := (outcome V).
  Notation res := (res V).
  Notation trigger := (trigger Id Node V U).

  Local Arguments buf_ops : simpl never.

  (** ** Executing triggers *)
  Lemma select_scheduled (sc : schema) s c :
    select_execute (ts_select (sc_triggers sc) s) c = try_for_each (scheduled sc s) c.
  Proof. unfold scheduled. destruct (ts_select _ s); reflexivity. Qed.

  Definition ran (sc : schema) (c : ctx) (ts : list trigger) (w w' : world) (r : res) : Prop :=
    (r = RUnit /\ all_succeed sc c ts w w') \/ (exists e, r = RErr e /\ first_failure sc c e ts w w').

  Lemma exec_try (sc : schema) c ts : forall (w w' : world) r,
    exec sc w (try_for_each ts c) w' (ORet r) <-> ran sc c ts w w' r.
  Proof.
    induction ts as [|t ts IH]; intros w w' r; cbn [try_for_each].
    - split.
      + intros E. inversion E; subst. left. split; [reflexivity|constructor].
      + intros [[-> A]|(e & _ & F)]; [inversion A; subst; constructor|inversion F].
    - split.
      + intros E. inversion E as [| | |? ? ? w1 r1 ? ? E1 E2| | | | | | | | | | | | | | | | | | | | | | | | | | | | | |]; subst.
        assert (K : forall r2, r1 = r2 -> (forall e, r2 <> RErr e) -> exec sc w1 (try_for_each ts c) w' (ORet r) ->
                    ran sc c (t :: ts) w w' r).
        { intros r2 -> N E3. apply IH in E3 as [[-> A]|(e & -> & F)].
          - left. split; [reflexivity|]. econstructor; [apply exec_run; exact E1|exact N|exact A].
          - right. exists e. split; [reflexivity|]. eapply ff_later; [apply exec_run; exact E1|exact N|exact F]. }
        destruct r1 as [|v|e]; [eapply K; [reflexivity|discriminate|exact E2]|eapply K; [reflexivity|discriminate|exact E2]|].
        inversion E2; subst. right. exists e. split; [reflexivity|]. apply ff_here. apply exec_run. exact E1.
      + intros [[-> A]|(e & -> & F)].
        * inversion A; subst. eapply XCall; [eapply ends_exec; [exact I|eassumption]|].
          assert (X : exec sc w1 (try_for_each ts c) w' (ORet RUnit)) by (apply IH; left; auto).
          destruct r as [|v|e]; auto. exfalso. match goal with K : forall _, RErr _ <> RErr _ |- _ => exact (K _ eq_refl) end.
        * inversion F; subst.
          -- eapply XCall; [eapply ends_exec; [exact I|eassumption]|constructor].
          -- eapply XCall; [eapply ends_exec; [exact I|eassumption]|].
             assert (X : exec sc w1 (try_for_each ts c) w' (ORet (RErr e))) by (apply IH; right; eauto).
             destruct r as [|v|e']; auto. exfalso. match goal with K : forall _, RErr _ <> RErr _ |- _ => exact (K _ eq_refl) end.
  Qed.

  Lemma ran_framed sc c ts (w w' : world) r : ran sc c ts w w' r -> framed w w'.
  Proof. intros R. apply exec_try in R. eapply exec_framed; exact R. Qed.

  Lemma all_framed sc c ts (w w' : world) : all_succeed sc c ts w w' -> framed w w'.
  Proof. intros A. apply (ran_framed sc c ts w w' RUnit). left. auto. Qed.

  Lemma fail_framed sc c e ts (w w' : world) : first_failure sc c e ts w w' -> framed w w'.
  Proof. intros A. apply (ran_framed sc c ts w w' (RErr e)). right. eauto. Qed.

  Lemma exec_triggers (sc : schema) s c k (w w' : world) o :
    exec sc w (PTriggers s c k) w' o <->
    (exists w1 r, ran sc c (scheduled sc s) w w1 r /\ exec sc w1 (k r) w' o) \/
    (o = OPanic /\ exec sc w (try_for_each (scheduled sc s) c) w' OPanic).
  Proof.
    split.
    - intros E. inversion E; subst.
      + left. exists w1, r. split; [|assumption]. apply exec_try. now rewrite <- select_scheduled.
      + right. split; [reflexivity|]. now rewrite <- select_scheduled.
    - intros [(w1 & r & R & E)|[-> E]].
      + apply exec_try in R. rewrite <- select_scheduled in R. eapply XTriggers; eassumption.
      + rewrite <- select_scheduled in E. now apply XTriggersPanic.
  Qed.

  (** ** Targets *)
  Lemma set_cells_same (w : world) : set_cells (w_cells w) w = w.
  Proof. now destruct w. Qed.

  Lemma alter_unlock_lock m (cs : list (cell Node U)) a x : nth_error cs a = Some x -> blocked m (c_lock x) = false ->
    alter (unlock_cell false) a (alter (lock_cell m) a cs) = cs.
  Proof.
    intros N B. rewrite alter_alter. apply alter_id. intros y N'. rewrite N in N'. injection N' as <-.
    unfold unlock_cell, lock_cell; cbn. rewrite unlock_lock by assumption. rewrite orb_false_r. now destruct x.
  Qed.

  (** The target of the operation is still there, unlocked, after the triggers. *)
  Lemma target_cell n (w w1 : world) : framed (with_target n w) w1 ->
    exists m p, nth_error (w_cells w1) (length (w_cells w)) = Some (Cell (DNode m) p Free).
  Proof.
    intros F. destruct (fr_cells _ _ F) as [K _].
    destruct (K (length (w_cells w)) (Cell (DNode n) false Free)) as ([d p l] & N & L & T & _).
    - unfold with_target; cbn. rewrite nth_error_app2, Nat.sub_diag by lia. reflexivity.
    - cbn in L, T. destruct d as [m|t u]; [|discriminate]. subst l. eauto.
  Qed.

  Definition save_step (c : ctx) (w : world) : world :=
    match reads w (target_of c) with
    | Some (DNode m) => set_heap (ctx_save (w_heap w) c m) w
    | _ => w
    end.

  Lemma exec_save_access (sc : schema) c (w : world) a m p k w' o :
    ctx_target c = Some a -> nth_error (w_cells w) a = Some (Cell (DNode m) p Free) ->
    exec sc w (PAccess Shared [target_of c] (fun vs =>
        match vs with [(_, DNode m)] => PSave c m (PRet RUnit) | _ => PPanic end) (fun _ => k)) w' o
    <-> exec sc (save_step c w) k w' o.
  Proof.
    intros T N. unfold save_step, reads, target_of. cbn [h_addr h_ty]. rewrite T, N.
    assert (A1 : acquire1 Shared (Handle (Some a) TyNode) (w_cells w) =
                 if p then AcqOk _ (w_cells w) None else AcqOk _ (alter (lock_cell Shared) a (w_cells w)) (Some a)).
    { unfold acquire1; cbn. rewrite N. reflexivity. }
    destruct p.
    - assert (A : acquire Shared [Handle (Some a) TyNode] (w_cells w) = AcqOk _ (w_cells w) [None]).
      { cbn [acquire]. now rewrite A1. }
      split.
      + intros E. inversion E; subst; rewrite A in *;
          match goal with H : AcqOk _ _ _ = AcqOk _ _ _ |- _ => injection H as <- <- end; try discriminate.
        cbn [release] in *. now rewrite set_cells_same in *.
      + intros E. eapply XAbsent; [exact A|reflexivity|]. cbn [release]. now rewrite set_cells_same.
    - assert (A : acquire Shared [Handle (Some a) TyNode] (w_cells w) =
                  AcqOk _ (alter (lock_cell Shared) a (w_cells w)) [Some a]).
      { cbn [acquire]. now rewrite A1. }
      assert (D : deref_all (alter (lock_cell Shared) a (w_cells w)) [Handle (Some a) TyNode] [Some a]
                  = Some [(a, DNode m)]).
      { cbn. rewrite nth_error_alter, Nat.eqb_refl, N. reflexivity. }
      assert (Rel : alter (unlock_cell false) a (alter (lock_cell Shared) a (w_cells w)) = w_cells w).
      { eapply alter_unlock_lock; [exact N|reflexivity]. }
      cbn [ty_eqb ty_of].
      split.
      + intros E. inversion E; subst; rewrite A in *;
          match goal with H : AcqOk _ _ _ = AcqOk _ _ _ |- _ => injection H as <- <- end; rewrite D in *; try discriminate.
        * match goal with H : Some [_] = Some ?vs |- _ => injection H as <- end.
          match goal with H : exec _ _ (PSave _ _ _) _ _ |- _ => inversion H; subst end.
          match goal with H : exec _ _ (PRet _) _ _ |- _ => inversion H; subst end.
          cbn in *. rewrite Rel in *. destruct w; exact H9.
        * match goal with H : Some [_] = Some ?vs |- _ => injection H as <- end.
          match goal with H : exec _ _ (PSave _ _ _) _ _ |- _ => inversion H; subst end.
          match goal with H : exec _ _ (PRet _) _ _ |- _ => inversion H end.
      + intros E. eapply XAccess; [exact A|exact D|apply XSave, XRet|]. cbn. rewrite Rel. destruct w; exact E.
  Qed.

  (** ** The closures of Save and Delete *)
  Definition after_target (c0 : ctx) (w : world) : ctx := ctx_with_target c0 (length (w_cells w)).

  Lemma target_of_after c0 (w : world) : ctx_target (after_target c0 w) = Some (length (w_cells w)).
  Proof. unfold after_target. destruct c0; reflexivity. Qed.

  Lemma ran_ok sc c ts (w w' : world) r : ran sc c ts w w' r -> (r = RUnit \/ exists e, r = RErr e).
  Proof. intros [[-> _]|(e & -> & _)]; eauto. Qed.

  Lemma exec_save_body (sc : schema) n c0 (w w' : world) r :
    exec sc w (save_body n c0) w' (ORet r) <->
    let c := after_target c0 w in
    (exists e, r = RErr e /\ first_failure sc c e (scheduled sc BeforeSave) (with_target n w) w') \/
    (exists w1, all_succeed sc c (scheduled sc BeforeSave) (with_target n w) w1 /\
       ran sc c (scheduled sc AfterSave) (save_step c w1) w' r).
  Proof.
    cbn zeta. set (c := after_target c0 w). unfold save_body.
    assert (X : exec sc w (PTarget c0 n (fun c =>
      PTriggers BeforeSave c (fun r => try_ r (
        PAccess Shared [target_of c] (fun vs =>
            match vs with
            | [(_, DNode m)] => PSave c m (PRet RUnit)
            | _ => PPanic
            end)
          (fun _ => PTriggers AfterSave c (fun r => try_ r (PRet RUnit))))))) w' (ORet r)
      <-> exec sc (with_target n w) (PTriggers BeforeSave c (fun r => try_ r (
        PAccess Shared [target_of c] (fun vs =>
            match vs with
            | [(_, DNode m)] => PSave c m (PRet RUnit)
            | _ => PPanic
            end)
          (fun _ => PTriggers AfterSave c (fun r => try_ r (PRet RUnit)))))) w' (ORet r)).
    { split; [intros E; inversion E; subst; assumption|intros E; now apply XTarget]. }
    rewrite X. clear X. rewrite exec_triggers. split.
    - intros [(w1 & r1 & R & E)|[D _]]; [|discriminate].
      destruct R as [[-> A]|(e & -> & F)].
      + right. exists w1. split; [exact A|]. cbn [try_] in E.
        destruct (target_cell n w w1 (all_framed _ _ _ _ _ A)) as (m & p & N).
        apply (exec_save_access sc c w1 _ m p _ _ _ (target_of_after c0 w) N) in E.
        apply exec_triggers in E as [(w2 & r2 & R2 & E2)|[D _]]; [|discriminate].
        destruct (ran_ok _ _ _ _ _ _ R2) as [-> |[e ->]]; cbn in E2; inversion E2; subst; exact R2.
      + left. cbn in E. inversion E; subst. eauto.
    - intros [(e & -> & F)|(w1 & A & R)].
      + left. exists w', (RErr e). split; [right; eauto|]. constructor.
      + left. exists w1, RUnit. split; [left; auto|]. cbn [try_].
        destruct (target_cell n w w1 (all_framed _ _ _ _ _ A)) as (m & p & N).
        apply (exec_save_access sc c w1 _ m p _ _ _ (target_of_after c0 w) N).
        apply exec_triggers. left. exists w', r. split; [exact R|].
        destruct (ran_ok _ _ _ _ _ _ R) as [-> |[e ->]]; constructor.
  Qed.

  Definition delete_step (c : ctx) (i : Id) (w : world) : world := set_heap (ctx_delete (w_heap w) c i) w.

  Lemma exec_delete_body (sc : schema) i c0 (w w' : world) r :
    exec sc w (delete_body i c0) w' (ORet r) <->
    match view w c0 i with
    | None => r = RErr Noop /\ w' = w
    | Some n =>
        let c := after_target c0 w in
        (exists e, r = RErr e /\ first_failure sc c e (scheduled sc BeforeDelete) (with_target n w) w') \/
        (exists w1, all_succeed sc c (scheduled sc BeforeDelete) (with_target n w) w1 /\
           ran sc c (scheduled sc AfterDelete) (delete_step c i w1) w' r)
    end.
  Proof.
    unfold delete_body, view.
    assert (X : forall k, exec sc w (PGet c0 i k) w' (ORet r) <-> exec sc w (k (ctx_get (w_heap w) (w_graph w) c0 i)) w' (ORet r)).
    { intros k. split; [intros E; now inversion E|apply XGet]. }
    rewrite X. clear X. destruct (ctx_get (w_heap w) (w_graph w) c0 i) as [n|].
    2: { split; [intros E; inversion E; auto|intros [-> ->]; constructor]. }
    cbn zeta. set (c := after_target c0 w).
    split.
    - intros E. inversion E as [| | | | | | | | | | | | | | | | | |? ? ? ? ? ? E1| | | | | | | | | | | | | | |]; subst.
      change (set_cells (w_cells w ++ [Cell (DNode n) false Free]) w) with (with_target n w) in E1.
      apply exec_triggers in E1 as [(w1 & r1 & R & E1)|[D _]]; [|discriminate].
      destruct R as [[-> A]|(e & -> & F)].
      + right. exists w1. split; [exact A|]. cbn [try_] in E1. inversion E1; subst.
        match goal with H : exec _ _ (PTriggers _ _ _) _ _ |- _ =>
          apply exec_triggers in H as [(w2 & r2 & R2 & E2)|[D _]]; [|discriminate] end.
        destruct (ran_ok _ _ _ _ _ _ R2) as [-> |[e ->]]; cbn in E2; inversion E2; subst; exact R2.
      + left. cbn in E1. inversion E1; subst. eauto.
    - intros [(e & -> & F)|(w1 & A & R)].
      + apply XTarget. apply exec_triggers. left. exists w', (RErr e). split; [right; eauto|]. constructor.
      + apply XTarget. apply exec_triggers. left. exists w1, RUnit. split; [left; auto|]. cbn [try_].
        apply XDelete. apply exec_triggers. left. exists w', r. split; [exact R|].
        destruct (ran_ok _ _ _ _ _ _ R) as [-> |[e ->]]; constructor.
  Qed.

  (** ** Leaks *)
  Lemma leaks_only_mono (p : prog) : forall own own' : nat -> Prop, (forall b, own b -> own' b) ->
    leaks_only own p -> leaks_only own' p.
  Proof.
    induction p as [r| | |v k IHk|body IHb k IHk|body IHb k IHk|t body IHb k IHk|c n k IHk|c i k IHk|c i k IHk|c i k IHk
      |c n k IHk|c k IHk|s c k IHk|body IHb k IHk|body IHb k IHk|i k IHk|k IHk|c k IHk|t k IHk|m hs body IHb k IHk
      |a d k IHk]; intros own own' Sub C; cbn [leaks_only] in *; try tauto; eauto;
      try (destruct C as [C1 C2]; split; eauto; fail).
    destruct t as [cr|c]; destruct C as [C1 C2]; (split; [|eauto]; intros b; eapply IHb; [|apply C1]; cbn; intuition).
  Qed.

  Lemma leaks_try (sc : schema) (s : nat) c (own : nat -> Prop) : triggers_borrow sc -> leaks_only own (try_for_each (scheduled sc s) c).
  Proof.
    intros T. specialize (T s). induction (scheduled sc s) as [|t ts IH]; [exact I|]. cbn. split.
    - eapply leaks_only_mono; [|apply T; now left]. intros b [].
    - intros [| |e]; try exact I; apply IH; intros t' c' I'; apply T; now right.
  Qed.

  Lemma exec_leaks (sc : schema) : triggers_borrow sc -> forall (w : world) (p : prog) w' o, exec sc w p w' o ->
    forall own, leaks_only own p -> forall b, ~ own b -> b < length (w_heap w) ->
    (In b (w_leaked w') <-> In b (w_leaked w)).
  Proof.
    intros T w p w' o E.
    induction E; intros own C b N Lb; cbn [leaks_only] in C; try reflexivity;
      try (eapply IHE; eassumption); try (exact (IHE _ (C _) b N Lb));
      try (destruct C as [C1 C2]; rewrite (IHE2 _ (C2 _) b N); [exact (IHE1 _ C1 b N Lb)|
             rewrite (framed_len_ext _ _ _ _ _ E1); exact Lb]);
      try (destruct C as [C1 C2]; exact (IHE _ C1 b N Lb)).
    - (* bg ok *) destruct C as [C1 C2].
      assert (F : length (w_heap w1) = S (length (w_heap w))).
      { rewrite (framed_len_ext _ _ _ _ _ E1). cbn. rewrite app_length. cbn. lia. }
      apply bg_commit_graph in H1 as [ops ->].
      rewrite (IHE2 _ (C2 _) b N); [|unfold close; cbn; rewrite firstn_length, F; lia].
      unfold close, set_leaked, set_heap. cbn [w_leaked]. rewrite filter_In, Nat.ltb_lt.
      rewrite (IHE1 _ (C1 _) b); [cbn; tauto|cbn; intros [O| ->]; [tauto|lia]|].
      cbn. rewrite app_length. cbn. lia.
    - destruct C as [C1 C2]. apply bg_commit_graph in H1 as [ops ->].
      unfold close, set_leaked, set_heap. cbn [w_leaked set_poison]. rewrite filter_In, Nat.ltb_lt.
      rewrite (IHE _ (C1 _) b); [cbn; tauto|cbn; intros [O| ->]; [tauto|lia]|].
      cbn. rewrite app_length. cbn. lia.
    - destruct C as [C1 C2].
      assert (F : length (w_heap w1) = S (length (w_heap w))).
      { rewrite (framed_len_ext _ _ _ _ _ E1). cbn. rewrite app_length. cbn. lia. }
      rewrite (IHE2 _ (C2 _) b N); [|unfold close; cbn; rewrite firstn_length, F; lia].
      unfold close, set_leaked, set_heap. cbn [w_leaked]. rewrite filter_In, Nat.ltb_lt.
      rewrite (IHE1 _ (C1 _) b); [cbn; tauto|cbn; intros [O| ->]; [tauto|lia]|].
      cbn. rewrite app_length. cbn. lia.
    - destruct C as [C1 C2].
      unfold close, set_leaked, set_heap. cbn [w_leaked]. rewrite filter_In, Nat.ltb_lt.
      rewrite (IHE _ (C1 _) b); [cbn; tauto|cbn; intros [O| ->]; [tauto|lia]|].
      cbn. rewrite app_length. cbn. lia.
    - destruct C as [C1 C2].
      assert (F : length (w_heap w1) = S (length (w_heap w))).
      { rewrite (framed_len_ext _ _ _ _ _ E1). cbn. rewrite app_length. cbn. lia. }
      rewrite (IHE2 _ (C2 _) b N).
      2: { unfold close, fg_commit, fg_extend; cbn. rewrite firstn_length. destruct (leaked w1 _); cbn;
             try rewrite alter_length; lia. }
      assert (Lk : w_leaked (fg_commit c (length (w_heap w)) w1) = w_leaked w1)
        by (unfold fg_commit; destruct (leaked w1 _); reflexivity).
      unfold close, set_leaked, set_heap. cbn [w_leaked]. rewrite filter_In, Nat.ltb_lt, Lk.
      rewrite (IHE1 _ (C1 _) b); [cbn; tauto|cbn; intros [O| ->]; [tauto|lia]|].
      cbn. rewrite app_length. cbn. lia.
    - destruct C as [C1 C2].
      assert (F : length (w_heap w1) = S (length (w_heap w))).
      { rewrite (framed_len_ext _ _ _ _ _ E1). cbn. rewrite app_length. cbn. lia. }
      rewrite (IHE2 _ (C2 _) b N); [|unfold close; cbn; rewrite firstn_length, F; lia].
      unfold close, set_leaked, set_heap. cbn [w_leaked]. rewrite filter_In, Nat.ltb_lt.
      rewrite (IHE1 _ (C1 _) b); [cbn; tauto|cbn; intros [O| ->]; [tauto|lia]|].
      cbn. rewrite app_length. cbn. lia.
    - destruct C as [C1 C2].
      unfold close, set_leaked, set_heap. cbn [w_leaked]. rewrite filter_In, Nat.ltb_lt.
      rewrite (IHE _ (C1 _) b); [cbn; tauto|cbn; intros [O| ->]; [tauto|lia]|].
      cbn. rewrite app_length. cbn. lia.
    - rewrite (IHE _ C b N); [reflexivity|]. cbn. unfold ctx_save, buf_push. now rewrite alter_length.
    - rewrite (IHE _ C b N); [reflexivity|]. cbn. unfold ctx_delete, buf_push. now rewrite alter_length.
    - destruct C as [C1 C2]. rewrite (IHE _ C2 b N Lb). cbn. split; [intros [<-|]; tauto|tauto].
    - rewrite (IHE2 _ (C _) b N); [|rewrite (framed_len_ext _ _ _ _ _ E1); exact Lb].
      rewrite select_scheduled in *. exact (IHE1 _ (leaks_try sc s c own T) b N Lb).
    - rewrite select_scheduled in *. exact (IHE _ (leaks_try sc s c own T) b N Lb).
    - destruct C as [C1 C2]. rewrite (IHE2 _ (C2 _) b N).
      + exact (IHE1 _ C1 b N Lb).
      + cbn. rewrite (framed_len_ext _ _ _ _ _ E1). exact Lb.
    - destruct C as [C1 C2]. rewrite (IHE2 _ (C2 _) b N).
      + exact (IHE1 _ C1 b N Lb).
      + cbn. rewrite (framed_len_ext _ _ _ _ _ E1). exact Lb.
    - destruct C as [C1 C2]. exact (IHE _ (C2 _) b N Lb).
    - destruct C as [C1 C2]. rewrite (IHE2 _ (C2 _) b N).
      + exact (IHE1 _ (C1 _) b N Lb).
      + cbn. rewrite (framed_len_ext _ _ _ _ _ E1). exact Lb.
    - destruct C as [C1 C2]. exact (IHE _ (C1 _) b N Lb).
  Qed.

  Lemma leaked_in (w : world) b : leaked w b = true <-> In b (w_leaked w).
  Proof.
    unfold leaked. rewrite existsb_exists. split.
    - intros (x & I & E). apply Nat.eqb_eq in E. now subst.
    - intros I. exists b. rewrite Nat.eqb_refl. auto.
  Qed.

  Lemma ran_leaked sc c s (w w' : world) r b : triggers_borrow sc -> ran sc c (scheduled sc s) w w' r ->
    b < length (w_heap w) -> leaked w' b = leaked w b.
  Proof.
    intros T R L. apply exec_try in R. apply eq_true_iff_eq. rewrite !leaked_in.
    eapply (exec_leaks sc T _ _ _ _ R (fun _ => False)); [now apply leaks_try|tauto|exact L].
  Qed.

  (** ** Building schemas *)

  Lemma scheduled_with_trigger (ts : trigger_set Id Node V U) s' t s : bt_sorted ts ->
    bt_sorted (ts_with_trigger ts s' t) /\
    match ts_select (ts_with_trigger ts s' t) s with Some l => l | None => [] end =
    match ts_select ts s with Some l => l | None => [] end ++ (if Nat.eqb s' s then [t] else []).
  Proof.
    intros S. unfold ts_with_trigger, ts_select. destruct (bt_get s' ts) as [l|] eqn:G;
      (split; [now apply bt_insert_sorted|]); rewrite bt_get_insert by assumption;
      (destruct (Nat.eqb_spec s' s) as [->|Ne]; [rewrite (proj2 (eqb_eq s s) eq_refl); now rewrite G|
       assert (E : eqb s' s = false) by (destruct (eqb s' s) eqn:E; [apply eqb_eq in E; contradiction|reflexivity]);
       rewrite E, app_nil_r; reflexivity]).
  Qed.

  Lemma triggers_for_app s (bs1 bs2 : list (@build Id Node V U)) :
    triggers_for s (bs1 ++ bs2) = triggers_for s bs1 ++ triggers_for s bs2.
  Proof.
    induction bs1 as [|b bs1 IH]; [reflexivity|]. destruct b as [t u|s' t]; cbn; [exact IH|].
    destruct (Nat.eqb s' s); cbn; now rewrite IH.
  Qed.

  Lemma built_triggers g bs s : bt_sorted (sc_triggers (fst (built g bs : schema * world))) /\
    scheduled (fst (built g bs : schema * world)) s = triggers_for s bs.
  Proof.
    induction bs as [|b bs [S IH]] using rev_ind; [split; [constructor|reflexivity]|].
    unfold built in *. rewrite fold_left_app. cbn [fold_left]. set (sw := fold_left build_step bs (sc_from g)) in *.
    rewrite triggers_for_app, <- IH. destruct sw as [sc w]. destruct b as [t u|s' t]; cbn [build_step].
    - cbn. rewrite app_nil_r. auto.
    - unfold sc_with_trigger, scheduled; cbn [fst sc_triggers].
      destruct (scheduled_with_trigger (sc_triggers sc) s' t s S) as [S' E]. split; [exact S'|].
      rewrite E. reflexivity.
  Qed.
End ProgOps.
