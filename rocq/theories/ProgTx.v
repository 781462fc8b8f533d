(** Transactions run by programs. *)
From Coq Require Import List Bool Arith Lia.
From Verif Require Import Ord OrdFacts BTree BTreeFacts Graph GraphFacts Tx TxMachine SpecTx TxFacts Prog SpecProg
  ProgFacts ProgFrame.
Import ListNotations.

Section ProgTx.
  Context {Id Node V U : Type} `{HO : OrdT Id} `{HI : Identify Node Id}.
  Notation prog := (prog Id Node V U).
  Notation world := (world Id Node V U).
  Notation schema := (schema Id Node V U).
  Notation outcome := (outcome V).
  Notation res := (res V).
  Notation trigger := (trigger Id Node V U).

  Local Arguments buf_ops : simpl never.

  (** ** Inversion of a whole transaction *)
  Lemma bg_inv sc (w : world) crash body w' r : ends sc w (PWith (TxBg crash) body PRet) w' (ORet r) ->
    w_lock w = GFree /\ exists w1, ends sc (bg_open w) (body (bg_ctx w)) w1 (ORet r) /\
      if is_ok r then exists w2, bg_commit crash (length (w_heap w)) w1 = (w2, false) /\
                                 w' = close (length (w_heap w)) (set_lock GFree w2)
      else w' = close (length (w_heap w)) (set_lock GFree w1).
  Proof.
    intros E. apply (ends_exec sc _ _ _ (ORet r) I) in E. inversion E; subst; split; auto.
    - match goal with H : exec _ _ (PRet _) _ _ |- _ => inversion H; subst end.
      exists w1. split; [now apply exec_run|]. match goal with K : is_ok _ = _ |- _ => rewrite K end. eauto.
    - match goal with H : exec _ _ (PRet _) _ _ |- _ => inversion H; subst end.
      exists w1. split; [now apply exec_run|]. match goal with K : is_ok _ = _ |- _ => now rewrite K end.
  Qed.

  Lemma bg_inv_panic sc (w : world) crash body k w1 w' : ends sc w (PWith (TxBg crash) body k) w' OPanic ->
    ends sc (bg_open w) (body (bg_ctx w)) w1 OPanic ->
    w_lock w = GFree /\ w' = close (length (w_heap w)) (set_lock GFree (set_poison w1)).
  Proof.
    intros E B. apply (ends_exec sc _ _ _ OPanic I) in E. inversion E; subst;
      match goal with H : exec _ (bg_open w) _ _ ?o |- _ => apply exec_run in H;
        destruct (ends_det _ _ _ _ _ _ _ H B) as [<- Eo]; try discriminate end.
    auto.
  Qed.

  Lemma fg_inv sc (w : world) c body w' r : ends sc w (PWith (TxFg c) body PRet) w' (ORet r) ->
    exists w1, ends sc (fg_open w) (body (fg_ctx w c)) w1 (ORet r) /\
      w' = close (length (w_heap w)) (if is_ok r then fg_commit c (length (w_heap w)) w1 else w1).
  Proof.
    intros E. apply (ends_exec sc _ _ _ (ORet r) I) in E. inversion E; subst;
      match goal with H : exec _ _ (PRet _) _ _ |- _ => inversion H; subst end;
      exists w1; (split; [now apply exec_run|]); match goal with K : is_ok _ = _ |- _ => now rewrite K end.
  Qed.

  Lemma fg_inv_panic sc (w : world) c body w' : ends sc w (PWith (TxFg c) body PRet) w' OPanic ->
    exists w1, ends sc (fg_open w) (body (fg_ctx w c)) w1 OPanic /\ w' = close (length (w_heap w)) w1.
  Proof.
    intros E. apply (ends_exec sc _ _ _ OPanic I) in E. inversion E; subst;
      try match goal with H : exec _ _ (PRet _) _ _ |- _ => inversion H end.
    exists w1. split; [now apply exec_run|reflexivity].
  Qed.

  (** ** What a closure cannot touch *)
  Lemma confined_mono (p : prog) : forall own own' : nat -> Prop, (forall b, own b -> own' b) ->
    confined own p -> confined own' p.
  Proof.
    induction p as [r| | |v k IHk|body IHb k IHk|body IHb k IHk|t body IHb k IHk|c n k IHk|c i k IHk|c i k IHk|c i k IHk
      |c n k IHk|c k IHk|s c k IHk|body IHb k IHk|body IHb k IHk|i k IHk|k IHk|c k IHk|t k IHk|m hs body IHb k IHk
      |a d k IHk]; intros own own' Sub C; cbn [confined] in *; try tauto; eauto;
      try (destruct C as [C1 C2]; split; eauto; fail).
    destruct t as [cr|c].
    - destruct C as [C1 C2]. split; [|eauto]. intros b. eapply IHb; [|apply C1]. cbn. intuition.
    - destruct C as (C0 & C1 & C2). repeat split; eauto. intros b. eapply IHb; [|apply C1]. cbn. intuition.
  Qed.

  Lemma confined_triggers (sc : schema) (s : nat) c (own : nat -> Prop) : triggers_mind_their_own sc -> own (ctx_buf c) ->
    confined own (select_execute (ts_select (sc_triggers sc) s) c).
  Proof.
    intros T O. specialize (T s). unfold scheduled in T.
    destruct (ts_select (sc_triggers sc) s) as [ts|]; [|exact I]. cbn.
    induction ts as [|t ts IH]; [exact I|]. cbn. split.
    - eapply confined_mono; [|apply (T t); now left]. intros b ->. exact O.
    - intros [| |e]; try exact I; apply IH; intros t' I'; apply T; now right.
  Qed.

  Lemma ctx_buf_with_target c a : ctx_buf (ctx_with_target c a) = ctx_buf c.
  Proof. destruct c; reflexivity. Qed.

  (** The closures of [Save] and [Delete] mind their own context. *)
  Lemma confined_save_body n c (own : nat -> Prop) : own (ctx_buf c) -> confined own (save_body n c : prog).
  Proof.
    intros O. cbn. intros a. rewrite ctx_buf_with_target. split; [exact O|].
    intros [| |e]; cbn; rewrite ?ctx_buf_with_target; auto;
      (split; [intros [|[? [?|? ?]] [|? ?]]; cbn; rewrite ?ctx_buf_with_target; auto|];
       intros _; split; [exact O|]; intros [| |?]; exact I).
  Qed.

  Lemma confined_delete_body i c (own : nat -> Prop) : own (ctx_buf c) -> confined own (delete_body i c : prog).
  Proof.
    intros O. cbn. intros [n|]; [|exact I]. cbn. intros a. rewrite ctx_buf_with_target. split; [exact O|].
    intros [| |e]; cbn; rewrite ?ctx_buf_with_target; auto;
      (split; [exact O|]; split; [exact O|]; intros [| |?]; exact I).
  Qed.

  (** [b] is as it was. *)
  Definition kept (b : nat) (w w' : world) : Prop :=
    b < length (w_heap w) -> buf_ops (w_heap w') b = buf_ops (w_heap w) b /\ (In b (w_leaked w') <-> In b (w_leaked w)).

  Lemma kept_trans b w1 w2 w3 : length (w_heap w2) = length (w_heap w1) -> kept b w1 w2 -> kept b w2 w3 -> kept b w1 w3.
  Proof.
    intros L A B K. destruct (A K) as [E1 I1]. destruct (B ltac:(lia)) as [E2 I2]. split; [congruence|tauto].
  Qed.

  Lemma kept_close b (w w1 : world) l :
    length (w_heap w) <= length (w_heap w1) ->
    kept b (set_lock l (set_heap (w_heap w ++ [[]]) w)) w1 ->
    kept b w (close (length (w_heap w)) w1).
  Proof.
    intros Le A K. unfold kept in A; cbn in A. rewrite app_length in A. destruct (A ltac:(cbn; lia)) as [E1 I1].
    unfold close, set_leaked, set_heap; cbn [w_heap w_leaked]. split.
    - rewrite buf_ops_firstn by assumption. rewrite E1. apply buf_ops_open.
    - rewrite filter_In, I1, Nat.ltb_lt. tauto.
  Qed.

  Lemma framed_len_ext sc (w : world) (p : prog) w' o : exec sc w p w' o -> length (w_heap w') = length (w_heap w).
  Proof. intros E. apply (fr_len _ _ (exec_framed _ _ _ _ _ E)). Qed.

  Lemma exec_kept sc : triggers_mind_their_own sc -> forall (w : world) (p : prog) w' o, exec sc w p w' o ->
    forall own, confined own p -> forall b, ~ own b -> kept b w w'.
  Proof.
    intros T w p w' o E.
    induction E; intros own C b N; cbn [confined] in C; try (intros K; split; reflexivity);
      try (eapply IHE; eassumption); try (exact (IHE _ (C _) b N)).
    - destruct C as [C1 C2]. eapply kept_trans; [eapply framed_len_ext; exact E1| |]; eauto.
    - destruct C as [C1 C2]. eauto.
    - destruct C as [C1 C2]. eapply kept_trans; [eapply framed_len_ext; exact E1| |]; eauto.
    - destruct C as [C1 C2]. eapply kept_trans; [eapply framed_len_ext; exact E1| |]; eauto.
    - destruct C as [C1 C2].
      assert (F : length (w_heap w1) = S (length (w_heap w))).
      { rewrite (framed_len_ext _ _ _ _ _ E1). cbn. rewrite app_length. cbn. lia. }
      eapply kept_trans; [| |eapply IHE2; [apply C2|exact N]].
      + apply bg_commit_graph in H1 as [ops ->]. unfold close; cbn. rewrite firstn_length, F. lia.
      + apply bg_commit_graph in H1 as [ops ->]. intros K.
        assert (Kc : kept b w (close (length (w_heap w)) w1)).
        { eapply kept_close; [lia|]. eapply IHE1; [apply C1|]. cbn. intros [O| ->]; [tauto|lia]. }
        destruct (Kc K) as [X Y]. split; [exact X|exact Y].
    - destruct C as [C1 C2].
      assert (F : length (w_heap w1) = S (length (w_heap w))).
      { rewrite (framed_len_ext _ _ _ _ _ E). cbn. rewrite app_length. cbn. lia. }
      apply bg_commit_graph in H1 as [ops ->]. intros K.
      assert (Kc : kept b w (close (length (w_heap w)) w1)).
      { eapply kept_close; [lia|]. eapply IHE; [apply C1|]. cbn. intros [O| ->]; [tauto|lia]. }
      destruct (Kc K) as [X Y]. split; [exact X|exact Y].
    - destruct C as [C1 C2].
      assert (F : length (w_heap w1) = S (length (w_heap w))).
      { rewrite (framed_len_ext _ _ _ _ _ E1). cbn. rewrite app_length. cbn. lia. }
      eapply kept_trans; [| |eapply IHE2; [apply C2|exact N]].
      + unfold close; cbn. rewrite firstn_length, F. lia.
      + intros K.
        assert (Kc : kept b w (close (length (w_heap w)) w1)).
        { eapply kept_close; [lia|]. eapply IHE1; [apply C1|]. cbn. intros [O| ->]; [tauto|lia]. }
        destruct (Kc K) as [X Y]. split; [exact X|exact Y].
    - destruct C as [C1 C2].
      assert (F : length (w_heap w1) = S (length (w_heap w))).
      { rewrite (framed_len_ext _ _ _ _ _ E). cbn. rewrite app_length. cbn. lia. }
      intros K.
      assert (Kc : kept b w (close (length (w_heap w)) w1)).
      { eapply kept_close; [lia|]. eapply IHE; [apply C1|]. cbn. intros [O| ->]; [tauto|lia]. }
      destruct (Kc K) as [X Y]. split; [exact X|exact Y].
    - (* fg ok *) destruct C as (C0 & C1 & C2).
      assert (F : length (w_heap w1) = S (length (w_heap w))).
      { rewrite (framed_len_ext _ _ _ _ _ E1). cbn. rewrite app_length. cbn. lia. }
      eapply kept_trans; [| |eapply IHE2; [apply C2|exact N]].
      + unfold close, fg_commit, fg_extend; cbn. rewrite firstn_length. destruct (leaked w1 _); cbn;
          try rewrite alter_length; lia.
      + intros K.
        assert (Kc : kept b w (close (length (w_heap w)) w1)).
        { eapply (kept_close b w w1 (w_lock w)); [lia|]. eapply IHE1; [apply C1|]. cbn. intros [O| ->]; [tauto|lia]. }
        destruct (Kc K) as [X Y]. unfold fg_commit. destruct (leaked w1 _); [now split|].
        split; [|exact Y]. rewrite <- X. unfold close; cbn. rewrite !buf_ops_firstn by assumption.
        unfold fg_extend, buf_ops at 1. rewrite nth_alter_ne; [reflexivity|]. intros <-. tauto.
    - destruct C as (C0 & C1 & C2).
      assert (F : length (w_heap w1) = S (length (w_heap w))).
      { rewrite (framed_len_ext _ _ _ _ _ E1). cbn. rewrite app_length. cbn. lia. }
      eapply kept_trans; [| |eapply IHE2; [apply C2|exact N]].
      + unfold close; cbn. rewrite firstn_length, F. lia.
      + intros K.
        assert (Kc : kept b w (close (length (w_heap w)) w1)).
        { eapply (kept_close b w w1 (w_lock w)); [lia|]. eapply IHE1; [apply C1|]. cbn. intros [O| ->]; [tauto|lia]. }
        destruct (Kc K) as [X Y]. split; [exact X|exact Y].
    - destruct C as (C0 & C1 & C2).
      assert (F : length (w_heap w1) = S (length (w_heap w))).
      { rewrite (framed_len_ext _ _ _ _ _ E). cbn. rewrite app_length. cbn. lia. }
      intros K.
      assert (Kc : kept b w (close (length (w_heap w)) w1)).
      { eapply (kept_close b w w1 (w_lock w)); [lia|]. eapply IHE; [apply C1|]. cbn. intros [O| ->]; [tauto|lia]. }
      destruct (Kc K) as [X Y]. split; [exact X|exact Y].
    - destruct C as [C0 C1]. eapply kept_trans; [| |eapply IHE; [apply C1|exact N]]; cbn.
      + apply alter_length.
      + intros K. split; [|reflexivity]. apply buf_ops_push_ne. intros <-. tauto.
    - destruct C as [C0 C1]. eapply kept_trans; [| |eapply IHE; [apply C1|exact N]]; cbn.
      + apply alter_length.
      + intros K. split; [|reflexivity]. apply buf_ops_push_ne. intros <-. tauto.
    - destruct C as [C0 C1]. eapply kept_trans; [| |eapply IHE; [apply C1|exact N]]; [reflexivity|].
      intros K. split; [reflexivity|]. cbn. split; [intros [<-|]; tauto|tauto].
    - destruct C as [C0 C1]. eapply kept_trans; [eapply framed_len_ext; exact E1| |eapply IHE2; [apply C1|exact N]].
      eapply IHE1; [apply confined_triggers; eauto|exact N].
    - destruct C as [C0 C1]. eapply IHE; [apply confined_triggers; eauto|exact N].
    - destruct C as [C1 C2]. eapply kept_trans; [|exact (IHE1 _ C1 b N)|eapply IHE2; [apply C2|exact N]].
      apply (framed_len_ext _ _ _ _ _ E1).
    - destruct C as [C1 C2]. exact (IHE _ C1 b N).
    - destruct C as [C1 C2]. eapply kept_trans; [|exact (IHE1 _ C1 b N)|eapply IHE2; [apply C2|exact N]].
      apply (framed_len_ext _ _ _ _ _ E1).
    - destruct C as [C1 C2]. exact (IHE _ C1 b N).
    - destruct C as [C1 C2]. exact (IHE _ (C2 _) b N).
    - destruct C as [C1 C2]. eapply kept_trans; [|exact (IHE1 _ (C1 _) b N)|eapply IHE2; [apply C2|exact N]].
      apply (framed_len_ext _ _ _ _ _ E1).
    - destruct C as [C1 C2]. exact (IHE _ (C1 _) b N).
  Qed.

  Lemma buf_ops_ext (h h' : heap Id Node) : length h = length h' ->
    (forall b, b < length h -> buf_ops h b = buf_ops h' b) -> h = h'.
  Proof. intros L E. apply (nth_ext h h' [] [] L). intros n K. apply (E n K). Qed.

  (** A confined sub-transaction that is not committed leaves the buffers as they were. *)
  Lemma uncommitted_heap sc (w w1 : world) c body o : triggers_mind_their_own sc ->
    confined (fun b => b = length (w_heap w)) (body (fg_ctx w c)) ->
    ends sc (fg_open w) (body (fg_ctx w c)) w1 o -> comes_back o ->
    w_heap (close (length (w_heap w)) w1) = w_heap w /\
    (forall b, b < length (w_heap w) -> leaked (close (length (w_heap w)) w1) b = leaked w b).
  Proof.
    intros T C E B. apply (ends_exec sc _ _ _ o B) in E.
    pose proof (framed_len_ext _ _ _ _ _ E) as L. cbn in L. rewrite app_length in L. cbn in L.
    assert (K : forall b, kept b w (close (length (w_heap w)) w1)).
    { intros b Kb. eapply (kept_close b w w1 (w_lock w)); [lia| |exact Kb].
      eapply (exec_kept sc T _ _ _ _ E); [exact C|]. intros ->. lia. }
    split.
    - unfold close in *; cbn in *. apply buf_ops_ext; [rewrite firstn_length; lia|].
      intros b Lb. rewrite firstn_length in Lb. destruct (K b ltac:(lia)) as [X _]. exact X.
    - intros b Lb. destruct (K b Lb) as [_ X]. unfold leaked.
      apply eq_true_iff_eq. rewrite !existsb_exists.
      split; intros (b' & I & Eb); apply Nat.eqb_eq in Eb; subst b'; exists b; rewrite Nat.eqb_refl; tauto.
  Qed.

  (** ** What a run does not depend on *)
  Record alike (o1 o2 : list V) (w1 w2 : world) : Prop := {
    al_graph : w_graph w2 = w_graph w1;
    al_lock : w_lock w2 = w_lock w1;
    al_heap : w_heap w2 = w_heap w1;
    al_leaked : w_leaked w2 = w_leaked w1;
    al_cells : w_cells w2 = w_cells w1;
    al_out : exists l, w_out w1 = o1 ++ l /\ w_out w2 = o2 ++ l
  }.

  Lemma alike_leaked o1 o2 w1 w2 b : alike o1 o2 w1 w2 -> leaked w2 b = leaked w1 b.
  Proof. intros A. unfold leaked. now rewrite (al_leaked _ _ _ _ A). Qed.

  Lemma run_alike sc o1 o2 fuel : forall (w1 w2 : world) (p : prog), alike o1 o2 w1 w2 ->
    match run sc fuel w1 p, run sc fuel w2 p with
    | Some (w1', r1), Some (w2', r2) => alike o1 o2 w1' w2' /\ r1 = r2
    | None, None => True
    | _, _ => False
    end.
  Proof.
    induction fuel as [|f IH]; intros w1 w2 p A; [exact I|].
    pose proof A as [Ag Al Ah Ak Ac Ao].
    assert (Same : forall w1 w2 (o : outcome), alike o1 o2 w1 w2 -> alike o1 o2 w1 w2 /\ o = o) by auto.
    assert (Emit : forall v, alike o1 o2 (emit v w1) (emit v w2)).
    { intros v. destruct Ao as (l & E1 & E2). constructor; cbn; auto. exists (l ++ [v]). rewrite E1, E2, !app_assoc. auto. }
    assert (SetL : forall l w1 w2, alike o1 o2 w1 w2 -> alike o1 o2 (set_lock l w1) (set_lock l w2))
      by (intros l ? ? []; constructor; auto).
    assert (SetH : forall h w1 w2, alike o1 o2 w1 w2 -> alike o1 o2 (set_heap h w1) (set_heap h w2))
      by (intros h ? ? []; constructor; auto).
    assert (SetG : forall h w1 w2, alike o1 o2 w1 w2 -> alike o1 o2 (set_graph h w1) (set_graph h w2))
      by (intros h ? ? []; constructor; auto).
    assert (SetK : forall h w1 w2, alike o1 o2 w1 w2 -> alike o1 o2 (set_leaked h w1) (set_leaked h w2))
      by (intros h ? ? []; constructor; auto).
    assert (SetC : forall h w1 w2, alike o1 o2 w1 w2 -> alike o1 o2 (set_cells h w1) (set_cells h w2))
      by (intros h ? ? []; constructor; auto).
    assert (SetP : forall w1 w2, alike o1 o2 w1 w2 -> alike o1 o2 (set_poison w1) (set_poison w2))
      by (intros ? ? []; constructor; auto).
    assert (Close : forall b w1 w2, alike o1 o2 w1 w2 -> alike o1 o2 (close b w1) (close b w2)).
    { intros b x1 x2 X. unfold close. rewrite (al_leaked _ _ _ _ X), (al_heap _ _ _ _ X). auto. }
    destruct p; cbn [run].
    - auto.
    - auto.
    - auto.
    - apply IH, Emit.
    - specialize (IH w1 w2 p A) as IHb. destruct (run sc f w1 p) as [[x1 r1]|], (run sc f w2 p) as [[x2 r2]|]; try tauto.
      destruct IHb as [X <-]. destruct r1; auto; apply IH; exact X.
    - specialize (IH w1 w2 p A) as IHb. destruct (run sc f w1 p) as [[x1 r1]|], (run sc f w2 p) as [[x2 r2]|]; try tauto.
      destruct IHb as [X <-]. destruct r1; auto; apply IH; exact X.
    - destruct t as [crash|c].
      + rewrite Al, Ah. destruct (w_lock w1); auto. cbn zeta.
        specialize (IH _ _ (body (CRoot (length (w_heap w1)) None)) (SetL GTx _ _ (SetH (w_heap w1 ++ [[]]) _ _ A))) as IHb.
        destruct (run sc f _ (body _)) as [[x1 r1]|], (run sc f _ (body _)) as [[x2 r2]|]; try tauto.
        destruct IHb as [X <-]. destruct r1; auto.
        * destruct (is_ok r); [|apply IH; auto].
          unfold bg_commit. rewrite (alike_leaked _ _ _ _ _ X), (al_heap _ _ _ _ X), (al_graph _ _ _ _ X).
          destruct (leaked x1 _); [apply IH; auto|].
          destruct crash as [k'|]; [destruct (crashes k' _)|]; [split; [|reflexivity]; auto 8|apply IH; auto|apply IH; auto].
      + rewrite Ah. cbn zeta.
        specialize (IH _ _ (body (CSub c (length (w_heap w1)) None)) (SetH (w_heap w1 ++ [[]]) _ _ A)) as IHb.
        destruct (run sc f _ (body _)) as [[x1 r1]|], (run sc f _ (body _)) as [[x2 r2]|]; try tauto.
        destruct IHb as [X <-]. destruct r1; auto.
        * destruct (is_ok r); [|apply IH; auto]. apply IH, Close.
          unfold fg_commit. rewrite (alike_leaked _ _ _ _ _ X), (al_heap _ _ _ _ X). destruct (leaked x1 _); auto.
    - rewrite Ah. apply IH; auto.
    - rewrite Ah. apply IH; auto.
    - rewrite Ah, Ag. apply IH; auto.
    - rewrite Ah, Ag. apply IH; auto.
    - rewrite Ac. apply IH; auto.
    - rewrite Ak. apply IH; auto.
    - specialize (IH w1 w2 (select_execute (ts_select (sc_triggers sc) s) c) A) as IHb.
      destruct (run sc f w1 _) as [[x1 r1]|], (run sc f w2 _) as [[x2 r2]|]; try tauto.
      destruct IHb as [X <-]. destruct r1; auto; apply IH; exact X.
    - rewrite Al. destruct (glock_read (w_lock w1)) as [l|]; auto.
      specialize (IH _ _ p (SetL l _ _ A)) as IHb.
      destruct (run sc f _ p) as [[x1 r1]|], (run sc f _ p) as [[x2 r2]|]; try tauto.
      destruct IHb as [X <-]. destruct r1; auto; rewrite (al_lock _ _ _ _ X); auto; apply IH; auto.
    - rewrite Al. destruct (w_lock w1); auto.
      specialize (IH _ _ p (SetL GWrite _ _ A)) as IHb.
      destruct (run sc f _ p) as [[x1 r1]|], (run sc f _ p) as [[x2 r2]|]; try tauto.
      destruct IHb as [X <-]. destruct r1; auto; apply IH; auto.
    - rewrite Al, Ag. destruct (w_lock w1); auto; apply IH; auto.
    - rewrite Al, Ag. destruct (w_lock w1); auto; apply IH; auto.
    - rewrite Al, Ag. destruct (w_lock w1); auto. destruct (g_step (w_graph w1) c). apply IH; auto.
    - apply IH; auto.
    - rewrite Ac. destruct (acquire m hs (w_cells w1)) as [cs held| |]; auto.
      destruct (deref_all cs hs held) as [vs|]; [|apply IH; auto].
      specialize (IH _ _ (body vs) (SetC cs _ _ A)) as IHb.
      destruct (run sc f _ (body vs)) as [[x1 r1]|], (run sc f _ (body vs)) as [[x2 r2]|]; try tauto.
      destruct IHb as [X <-]. destruct r1; auto; rewrite (al_cells _ _ _ _ X); auto; apply IH; auto.
    - rewrite Ac. destruct (nth_error (w_cells w1) a) as [x|]; auto. destruct (c_lock x); auto.
      destruct (ty_eqb _ _); auto. apply IH; auto.
  Qed.

  Lemma alike_same_runs sc (w1 w2 : world) : alike (w_out w1) (w_out w2) w1 w2 -> same_runs sc w1 w2.
  Proof.
    intros A q w1' o [f E]. pose proof (run_alike sc _ _ f w1 w2 q A) as R. rewrite E in R.
    destruct (run sc f w2 q) as [[w2' o']|] eqn:E2; [|tauto]. destruct R as [[Xg Xl Xh Xk Xc Xo] <-].
    exists w2'. repeat split; auto. now exists f.
  Qed.

  Lemma alike_indistinguishable sc (w1 w2 : world) :
    w_graph w2 = w_graph w1 -> w_lock w2 = w_lock w1 -> w_heap w2 = w_heap w1 ->
    w_leaked w2 = w_leaked w1 -> w_cells w2 = w_cells w1 -> indistinguishable sc w1 w2.
  Proof.
    intros. split; apply alike_same_runs; constructor; auto; exists []; now rewrite !app_nil_r.
  Qed.

  (** ** Views and replays *)
  Lemma replay_apply_ops (g : graph Id Node) ops i : g_wf g ->
    g_get (apply_ops g ops) i = replay (map op_entry ops) (g_get g) i.
  Proof.
    intros W. revert i. induction ops as [|o ops IH] using rev_ind; intros i; [reflexivity|].
    rewrite apply_ops_app, map_app. unfold replay. rewrite fold_left_app.
    change (apply_ops (apply_ops g ops) [o]) with (apply_op (apply_ops g ops) o).
    rewrite g_get_apply_op by now apply apply_ops_wf. rewrite IH.
    unfold base_set; cbn. destruct o; reflexivity.
  Qed.

  Lemma view_root (w : world) b t i : g_wf (w_graph w) ->
    view w (CRoot b t) i = g_get (apply_ops (w_graph w) (buf_ops (w_heap w) b)) i.
  Proof.
    intros W. unfold view. rewrite ctx_get_unfold, g_get_apply_ops by assumption. reflexivity.
  Qed.
End ProgTx.
