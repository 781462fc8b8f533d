(** Programs that do not ask for what they hold; what buffers gather. *)
From Coq Require Import List Bool Arith Lia.
From Verif Require Import Ord OrdFacts BTree BTreeFacts Graph GraphFacts Tx TxFacts Prog SpecProg ProgFacts ProgFrame ProgRes ProgEvents
  SpecEvents EventFacts.
Import ListNotations.

Section Progs.
  Context {Id Node V U : Type} `{HO : OrdT Id} `{HI : Identify Node Id}.
  Notation prog := (prog Id Node V U).
  Notation world := (world Id Node V U).
  Notation schema := (schema Id Node V U).
  Notation outcome := (outcome V).
  Notation res := (res V).
  Notation trigger := (trigger Id Node V U).
  Notation event := (event Id Node).
  Notation cell := (cell Node U).

  Local Arguments buf_ops : simpl never.

  (** ** Politeness *)
  Definition locks_in (cs : list cell) (held : list (nat * mode)) : Prop :=
    forall a x, nth_error cs a = Some x ->
      match c_lock x with Free => True | Readers _ => In (a, Shared) held | Writer => In (a, Excl) held end.

  Definition graph_in (l : glock) (g : graph_use) : Prop :=
    match g with Unused => l = GFree | Reading => exists n, l = GReaders n | Exclusive => True end.

  Record agrees (sc : schema) (w : world) (g : graph_use) (held : list (nat * mode)) (known : list nat) : Prop := {
    ag_graph : graph_in (w_lock w) g;
    ag_cells : locks_in (w_cells w) held;
    ag_known : forall a, In a known -> a < length (w_cells w);
    ag_res : incl (resource_cells sc) known
  }.

  Lemma locks_in_le (cs cs' : list cell) held : cells_le cs cs' -> locks_in cs held -> locks_in cs' held.
  Proof.
    intros [A B] L a y N. destruct (nth_error cs a) as [x|] eqn:Nx.
    - destruct (A a x Nx) as (y' & N' & El & _). rewrite N in N'. injection N' as <-. rewrite El. now apply L.
    - apply nth_error_None in Nx. rewrite (B a y Nx N). exact I.
  Qed.

  Lemma agrees_framed sc (w w' : world) g held known : framed w w' -> agrees sc w g held known -> agrees sc w' g held known.
  Proof.
    intros F [A B C D]. constructor; [rewrite (fr_lock _ _ F); exact A| | |exact D].
    - exact (locks_in_le _ _ _ (fr_cells _ _ F) B).
    - intros a I. pose proof (cells_le_length _ _ (fr_cells _ _ F)). specialize (C a I). lia.
  Qed.

  Lemma agrees_eq sc (w w' : world) g g' held known : w_cells w' = w_cells w -> graph_in (w_lock w') g' ->
    agrees sc w g held known -> agrees sc w' g' held known.
  Proof. intros E G [A B C D]. constructor; rewrite ?E; assumption. Qed.

  Lemma acquire_polite m hs : forall (cs : list cell) held, locks_in cs held ->
    (forall a, In a (addresses hs) -> compatible m a held) -> (m = Excl -> NoDup (addresses hs)) ->
    match acquire m hs cs with
    | AcqOk _ cs' l => locks_in cs' (map (fun a => (a, m)) (addresses hs) ++ held)
    | AcqHang _ => False
    | AcqStuck _ => True
    end.
  Proof.
    induction hs as [|h hs IH]; intros cs held L C D; cbn [acquire]; [exact L|].
    unfold acquire1. cbn [addresses flat_map] in *. destruct (h_addr h) as [a|].
    - destruct (nth_error cs a) as [x|] eqn:N; [|exact I].
      assert (Bl : blocked m (c_lock x) = false).
      { specialize (L a x N). specialize (C a (or_introl eq_refl)). unfold compatible in C.
        destruct (c_lock x); [now destruct m| |].
        - destruct (C _ L) as [-> _]. reflexivity.
        - destruct (C _ L) as [_ K]. discriminate. }
      rewrite Bl.
      assert (C' : forall a', In a' (addresses hs) -> compatible m a' ((a, m) :: held)).
      { intros a' I m' [E|J].
        - injection E as <- <-. destruct m; [auto|]. specialize (D eq_refl). inversion_clear D. contradiction.
        - apply (C a'); [now right|assumption]. }
      assert (D' : m = Excl -> NoDup (addresses hs)).
      { intros E. specialize (D E). now inversion_clear D. }
      destruct (c_poison x).
      + assert (Lw : locks_in cs ((a, m) :: held)).
        { intros a' x' N'. specialize (L a' x' N'). destruct (c_lock x'); [exact I|now right|now right]. }
        specialize (IH cs _ Lw C' D'). destruct (acquire m hs cs) as [cs2 l| |]; auto.
        intros a' x' N'. specialize (IH a' x' N'). destruct (c_lock x'); [exact I| |];
          (apply in_app_or in IH as [J|[J|J]]; [right; apply in_or_app; now left|now left|right; apply in_or_app; now right]).
      + assert (Lw : locks_in (alter (lock_cell m) a cs) ((a, m) :: held)).
        { intros a' x' N'. rewrite nth_error_alter in N'. destruct (Nat.eqb_spec a a') as [->|Ne].
          - rewrite N in N'. injection N' as <-. cbn. destruct m, (c_lock x); cbn; now left.
          - specialize (L a' x' N'). destruct (c_lock x'); [exact I|now right|now right]. }
        specialize (IH _ _ Lw C' D'). destruct (acquire m hs (alter (lock_cell m) a cs)) as [cs2 l| |]; auto.
        intros a' x' N'. specialize (IH a' x' N'). destruct (c_lock x'); [exact I| |];
          (apply in_app_or in IH as [J|[J|J]]; [right; apply in_or_app; now left|now left|right; apply in_or_app; now right]).
    - cbn [app] in *. specialize (IH cs held L C D). destruct (acquire m hs cs); exact IH.
  Qed.

  Lemma polite_try (sc : schema) known c (ts : list trigger) :
    (forall t, In t ts -> polite sc Exclusive [] known (t c)) -> polite sc Exclusive [] known (try_for_each ts c).
  Proof.
    induction ts as [|t ts IH]; intros A; cbn; [exact I|]. split; [apply A; now left|].
    intros r. assert (K : polite sc Exclusive [] known (try_for_each ts c)) by (apply IH; intros; apply A; now right).
    destruct r; [exact K|exact K|exact I].
  Qed.

  Lemma polite_select (sc : schema) known s c : polite_triggers sc -> incl (resource_cells sc) known ->
    (forall a, ctx_target c = Some a -> In a known) ->
    polite sc Exclusive [] known (select_execute (ts_select (sc_triggers sc) s) c).
  Proof.
    intros P R T. specialize (P s). unfold scheduled in P. unfold select_execute.
    destruct (ts_select _ s) as [ts|]; [|exact I]. apply polite_try. intros t J. now apply P.
  Qed.

  Lemma polite_never_hangs (sc : schema) : polite_triggers sc -> forall fuel (w : world) (p : prog) g held known w' o,
    agrees sc w g held known -> polite sc g held known p -> run sc fuel w p = Some (w', o) -> o <> OHang.
  Proof.
    intros PT. induction fuel as [|f IH]; intros w p g held known w' o A P R; [discriminate|].
    assert (Bk : forall (w : world) p w1 o1, run sc f w p = Some (w1, o1) -> comes_back o1 -> framed w w1).
    { intros v q w1 o1 E B. exact (ends_framed sc _ _ _ _ (ex_intro _ f E) B). }
    destruct p; cbn [run] in R; cbn [polite] in P.
    - now injection R as <- <-.
    - now injection R as <- <-.
    - discriminate.
    - eapply IH; [|exact P|exact R]. now apply (agrees_eq sc w _ g g); [|apply (ag_graph _ _ _ _ _ A)|].
    - destruct P as [P1 P2]. destruct (run sc f w p) as [[w1 o1]|] eqn:E; [|discriminate].
      pose proof (IH _ _ _ _ _ _ _ A P1 E) as N. destruct o1; try (injection R as <- <-; exact N).
      eapply IH; [|apply P2|exact R]. eapply agrees_framed; [|exact A]. now apply (Bk _ _ _ _ E).
    - destruct P as [P1 P2]. destruct (run sc f w p) as [[w1 o1]|] eqn:E; [|discriminate].
      pose proof (IH _ _ _ _ _ _ _ A P1 E) as N.
      destruct o1; try (injection R as <- <-; exact N);
        (eapply IH; [|apply P2|exact R]; eapply agrees_framed; [|exact A]; now apply (Bk _ _ _ _ E)).
    - destruct t as [crash|c].
      + destruct P as (-> & P1 & P2). pose proof (ag_graph _ _ _ _ _ A) as Lk. cbn in Lk. rewrite Lk in R. cbn zeta in R.
        set (w0 := set_lock GTx (set_heap (w_heap w ++ [[]]) w)) in *.
        assert (A0 : agrees sc w0 Exclusive held known) by now apply (agrees_eq sc w _ Unused).
        destruct (run sc f w0 _) as [[w1 o1]|] eqn:E; [|discriminate].
        pose proof (IH _ _ _ _ _ _ _ A0 (P1 _) E) as N. destruct o1; try (injection R as <- <-; exact N).
        * assert (A1 : agrees sc w1 Exclusive held known) by (eapply agrees_framed; [|exact A0]; now apply (Bk _ _ _ _ E)).
          destruct (is_ok r).
          -- destruct (bg_commit crash _ w1) as [w2 pk] eqn:C. apply bg_commit_graph in C as [ops ->].
             destruct pk; [now injection R as <- <-|].
             eapply IH; [|apply P2|exact R]. now apply (agrees_eq sc w1 _ Exclusive).
          -- eapply IH; [|apply P2|exact R]. now apply (agrees_eq sc w1 _ Exclusive).
      + destruct P as [P1 P2]. cbn zeta in R. set (w0 := set_heap (w_heap w ++ [[]]) w) in *.
        assert (A0 : agrees sc w0 g held known) by (apply (agrees_eq sc w _ g); auto; apply (ag_graph _ _ _ _ _ A)).
        destruct (run sc f w0 _) as [[w1 o1]|] eqn:E; [|discriminate].
        pose proof (IH _ _ _ _ _ _ _ A0 (P1 _) E) as N. destruct o1; try (injection R as <- <-; exact N).
        * assert (A1 : agrees sc w1 g held known) by (eapply agrees_framed; [|exact A0]; now apply (Bk _ _ _ _ E)).
          pose proof (ag_graph _ _ _ _ _ A1) as G1.
          destruct (is_ok r); (eapply IH; [|apply P2|exact R]); apply (agrees_eq sc w1 _ g); auto;
            unfold fg_commit; destruct (leaked w1 _); auto.
    - eapply IH; [|exact P|exact R]. now apply (agrees_eq sc w _ g g); [|apply (ag_graph _ _ _ _ _ A)|].
    - eapply IH; [|exact P|exact R]. now apply (agrees_eq sc w _ g g); [|apply (ag_graph _ _ _ _ _ A)|].
    - eapply IH; [exact A|apply P|exact R].
    - eapply IH; [exact A|apply P|exact R].
    - (* target *) eapply IH; [|apply (P (length (w_cells w)))|exact R].
      + constructor; cbn; [apply (ag_graph _ _ _ _ _ A)| | |].
        * eapply locks_in_le; [|apply (ag_cells _ _ _ _ _ A)]. now apply cells_le_snoc.
        * intros a [<-|J]; rewrite app_length; cbn; [lia|]. pose proof (ag_known _ _ _ _ _ A a J). lia.
        * intros a J. right. now apply (ag_res _ _ _ _ _ A).
      + intros J. pose proof (ag_known _ _ _ _ _ A _ J). lia.
    - eapply IH; [|exact P|exact R]. now apply (agrees_eq sc w _ g g); [|apply (ag_graph _ _ _ _ _ A)|].
    - (* triggers *) destruct P as (-> & PK & P2).
      assert (A0 : agrees sc w Exclusive [] known) by now apply (agrees_eq sc w _ g).
      destruct (run sc f w (select_execute _ c)) as [[w1 o1]|] eqn:E; [|discriminate].
      pose proof (IH _ _ _ _ _ _ _ A0 (polite_select sc known s c PT (ag_res _ _ _ _ _ A) PK) E) as N.
      destruct o1; try (injection R as <- <-; exact N).
      eapply IH; [|apply P2|exact R]. eapply agrees_framed; [|exact A]. now apply (Bk _ _ _ _ E).
    - (* read *) destruct P as (Ng & P1 & P2). pose proof (ag_graph _ _ _ _ _ A) as Lk.
      assert (exists l, glock_read (w_lock w) = Some l /\ exists n, l = GReaders n) as (l & El & n & Eln).
      { destruct g; cbn in Lk; [rewrite Lk; cbn; eauto| |congruence]. destruct Lk as [n ->]. cbn. eauto. }
      rewrite El in R.
      assert (A0 : agrees sc (set_lock l w) Reading held known) by (apply (agrees_eq sc w _ g); auto; cbn; eauto).
      destruct (run sc f (set_lock l w) p) as [[w1 o1]|] eqn:E; [|discriminate].
      pose proof (IH _ _ _ _ _ _ _ A0 P1 E) as N. destruct o1; try (injection R as <- <-; exact N).
      + pose proof (Bk _ _ _ _ E Logic.I) as F.
        assert (A1 : agrees sc w1 Reading held known) by (eapply agrees_framed; [exact F|exact A0]).
        eapply IH; [|apply P2|exact R]. apply (agrees_eq sc w1 _ Reading); auto. cbn.
        rewrite (fr_lock _ _ F). cbn. destruct (w_lock w); cbn in El; try discriminate; injection El as <-; exact Lk.
    - (* write *) destruct P as (-> & P1 & P2). pose proof (ag_graph _ _ _ _ _ A) as Lk. cbn in Lk. rewrite Lk in R.
      assert (A0 : agrees sc (set_lock GWrite w) Exclusive held known) by now apply (agrees_eq sc w _ Unused).
      destruct (run sc f (set_lock GWrite w) p) as [[w1 o1]|] eqn:E; [|discriminate].
      pose proof (IH _ _ _ _ _ _ _ A0 P1 E) as N. destruct o1; try (injection R as <- <-; exact N).
      + assert (A1 : agrees sc w1 Exclusive held known) by (eapply agrees_framed; [|exact A0]; now apply (Bk _ _ _ _ E)).
        eapply IH; [|apply P2|exact R]. now apply (agrees_eq sc w1 _ Exclusive).
    - destruct (w_lock w); try (now injection R as <- <-); (eapply IH; [exact A|apply P|exact R]).
    - destruct (w_lock w); try (now injection R as <- <-); (eapply IH; [exact A|apply P|exact R]).
    - destruct (w_lock w) eqn:Lk; try (now injection R as <- <-). destruct (g_step (w_graph w) c).
      eapply IH; [|apply P|exact R]. apply (agrees_eq sc w _ g); auto. apply (ag_graph _ _ _ _ _ A).
    - eapply IH; [exact A|apply P|exact R].
    - (* access *) destruct P as (P0 & PD & P1 & P2).
      pose proof (acquire_polite m hs (w_cells w) held (ag_cells _ _ _ _ _ A) P0 PD) as K.
      destruct (acquire m hs (w_cells w)) as [cs hl| |] eqn:Ac; [|destruct K|now injection R as <- <-].
      destruct (deref_all cs hs hl) as [vs|] eqn:D.
      + assert (A0 : agrees sc (set_cells cs w) g (map (fun a => (a, m)) (addresses hs) ++ held) known).
        { constructor; cbn; [apply (ag_graph _ _ _ _ _ A)|exact K| |apply (ag_res _ _ _ _ _ A)].
          intros a J. rewrite (acquire_length _ _ _ _ _ Ac). now apply (ag_known _ _ _ _ _ A). }
        destruct (run sc f (set_cells cs w) (body vs)) as [[w1 o1]|] eqn:E; [|discriminate].
        pose proof (IH _ _ _ _ _ _ _ A0 (P1 vs (deref_all_addrs _ _ _ _ _ _ _ Ac D)) E) as N.
        destruct o1; try (injection R as <- <-; exact N).
        * pose proof (Bk _ _ _ _ E Logic.I) as F. eapply IH; [|apply P2|exact R].
          pose proof (release_acquired m false hs _ _ _ Ac _ (fr_cells _ _ F)) as Le.
          constructor; cbn; [rewrite (fr_lock _ _ F); apply (ag_graph _ _ _ _ _ A)| | |apply (ag_res _ _ _ _ _ A)].
          -- eapply locks_in_le; [exact Le|apply (ag_cells _ _ _ _ _ A)].
          -- intros a J. pose proof (cells_le_length _ _ Le). pose proof (ag_known _ _ _ _ _ A a J). lia.
      + eapply IH; [|apply P2|exact R].
        pose proof (release_acquired m false hs _ _ _ Ac _ (cells_le_refl cs)) as Le.
        constructor; cbn; [apply (ag_graph _ _ _ _ _ A)| | |apply (ag_res _ _ _ _ _ A)].
        * eapply locks_in_le; [exact Le|apply (ag_cells _ _ _ _ _ A)].
        * intros a J. pose proof (cells_le_length _ _ Le). pose proof (ag_known _ _ _ _ _ A a J). lia.
    - destruct (nth_error (w_cells w) a) as [x|] eqn:N; [|now injection R as <- <-].
      destruct (c_lock x) eqn:Lk; try (now injection R as <- <-). destruct (ty_eqb _ _) eqn:T; [|now injection R as <- <-].
      eapply IH; [|exact P|exact R]. pose proof (cells_le_poke _ _ _ _ N T) as Le.
      constructor; cbn; [apply (ag_graph _ _ _ _ _ A)| | |apply (ag_res _ _ _ _ _ A)].
      + eapply locks_in_le; [exact Le|apply (ag_cells _ _ _ _ _ A)].
      + intros a' J. pose proof (cells_le_length _ _ Le). pose proof (ag_known _ _ _ _ _ A a' J). lia.
  Qed.

  Lemma ctx_target_with c a : ctx_target (ctx_with_target c a) = Some a.
  Proof. now destruct c. Qed.

  Lemma polite_question (sc : schema) g held known (r : res) (p : prog) : polite sc g held known p -> polite sc g held known (try_ r p).
  Proof. destruct r; cbn; auto. Qed.

  Lemma polite_save_body (sc : schema) g known n c0 : polite sc g [] known (save_body n c0).
  Proof.
    cbn [save_body polite]. intros a F. split; [reflexivity|]. split.
    { rewrite ctx_target_with. intros a' [= <-]. now left. }
    intros r. apply polite_question. cbn [polite]. split; [intros a' _ m' []|]. split; [discriminate|].
    split; [intros [|[a' [m|t u]] [|? ?]] _; exact I|]. intros _. split; [reflexivity|]. split.
    - rewrite ctx_target_with. intros a' [= <-]. now left.
    - intros r'. now apply polite_question.
  Qed.

  Lemma polite_delete_body (sc : schema) g known i c0 : polite sc g [] known (delete_body i c0).
  Proof.
    cbn [delete_body polite]. intros [n|]; [|exact I]. intros a F. split; [reflexivity|]. split.
    { rewrite ctx_target_with. intros a' [= <-]. now left. }
    intros r. apply polite_question. cbn [polite]. repeat split.
    - rewrite ctx_target_with. intros a' [= <-]. now left.
    - intros r'. now apply polite_question.
  Qed.

  (** ** What buffers gather *)
  Lemma gathered_app b (l1 l2 : list event) : gathered b (l1 ++ l2) = gathered b l1 ++ gathered b l2.
  Proof.
    induction l1 as [|e l1 IH]; [reflexivity|]. cbn. destruct e; auto; destruct (Nat.eqb _ _); cbn; rewrite IH; auto.
    now rewrite app_assoc.
  Qed.

  Lemma gathered_acquire b m hs : forall cs : list cell, gathered b (acquire_events m hs cs : list event) = [].
  Proof.
    induction hs as [|h hs IH]; intros cs; [reflexivity|]. cbn [acquire_events]. rewrite gathered_app.
    replace (gathered b (acquire1_events m h cs : list event)) with (@nil (op Id Node)).
    - cbn. destruct (acquire1 m h cs); auto.
    - unfold acquire1_events. destruct (h_addr h); [|reflexivity]. destruct (nth_error cs n) as [x|]; [|reflexivity].
      destruct (blocked _ _); [reflexivity|]. now destruct (c_poison x).
  Qed.

  Lemma gathered_release b m l : gathered b (release_events m l : list event) = [].
  Proof. induction l as [|[a|] l IH]; cbn; auto. now rewrite gathered_app, IH. Qed.

  Lemma buf_ops_push (h : heap Id Node) b' ops b : b < length h ->
    buf_ops (alter (fun o => o ++ ops) b' h) b = buf_ops h b ++ if Nat.eqb b' b then ops else [].
  Proof.
    intros L. unfold buf_ops. destruct (Nat.eqb_spec b' b) as [->|Ne].
    - now rewrite nth_alter_eq.
    - now rewrite nth_alter_ne, app_nil_r.
  Qed.

  Lemma run_gathers (sc : schema) fuel : forall (w : world) (p : prog) w' o b, run sc fuel w p = Some (w', o) -> comes_back o ->
    b < length (w_heap w) -> buf_ops (w_heap w') b = buf_ops (w_heap w) b ++ gathered b (events sc fuel w p).
  Proof.
    induction fuel as [|f IH]; intros w p w' o b R B L; [discriminate|].
    assert (Len : forall (v : world) q v1 o1, run sc f v q = Some (v1, o1) -> comes_back o1 -> length (w_heap v1) = length (w_heap v)).
    { intros v q v1 o1 E B1. apply (fr_len _ _ (ends_framed sc _ _ _ _ (ex_intro _ f E) B1)). }
    assert (Same : forall l, l = l ++ @nil (op Id Node)) by (intros; now rewrite app_nil_r).
    destruct p; cbn [run] in R; cbn [events].
    - injection R as <- <-. apply Same.
    - injection R as <- <-. apply Same.
    - discriminate.
    - now rewrite (IH _ _ _ _ b R B L).
    - destruct (run sc f w p) as [[w1 [r| | |]]|] eqn:E; try discriminate; try (injection R as <- <-; destruct B).
      + rewrite gathered_app, app_assoc, <- (IH _ _ _ _ b E Logic.I L). apply (IH _ _ _ _ b R B).
        now rewrite (Len _ _ _ _ E Logic.I).
      + rewrite app_nil_r. apply (IH _ _ _ _ b E Logic.I L).
    - destruct (run sc f w p) as [[w1 [r| | |]]|] eqn:E; try discriminate; try (injection R as <- <-; destruct B);
      (rewrite gathered_app, app_assoc, <- (IH _ _ _ _ b E Logic.I L); apply (IH _ _ _ _ b R B);
        now rewrite (Len _ _ _ _ E Logic.I)).
    - destruct t as [crash|c].
      + destruct (w_lock w) eqn:Lk; try (injection R as <- <-; destruct B). cbn zeta in *.
        set (w0 := set_lock GTx (set_heap (w_heap w ++ [[]]) w)) in *.
        assert (L0 : b < length (w_heap w0)) by (cbn; rewrite app_length; cbn; lia).
        assert (B0 : buf_ops (w_heap w0) b = buf_ops (w_heap w) b) by apply buf_ops_open.
        assert (Cl : forall (v : world) (x : world), length (w_heap x) = length (w_heap w0) ->
                  b < length (w_heap (close (length (w_heap w)) x))).
        { intros v x Lx. cbn. rewrite firstn_length, Lx. cbn. rewrite app_length. cbn. lia. }
        assert (Cb : forall x : world, buf_ops (w_heap (close (length (w_heap w)) x)) b = buf_ops (w_heap x) b).
        { intros x. cbn. now apply buf_ops_firstn. }
        cbn [gathered].
        destruct (run sc f w0 _) as [[w1 [r| | |]]|] eqn:E; try discriminate; try (injection R as <- <-; destruct B);
          rewrite gathered_app, app_assoc; pose proof (Len _ _ _ _ E Logic.I) as L1;
          rewrite <- B0, <- (IH _ _ _ _ b E Logic.I L0); cbn [gathered].
        * destruct (is_ok r).
          -- destruct (bg_commit crash _ w1) as [w2 pk] eqn:C. apply bg_commit_graph in C as [ops ->]. destruct pk.
             ++ injection R as <- <-. rewrite app_nil_r. apply (Cb w1).
             ++ rewrite (IH _ _ _ _ b R B); [|now apply (Cl w)]. now rewrite Cb.
          -- rewrite (IH _ _ _ _ b R B); [|now apply (Cl w)]. now rewrite Cb.
        * rewrite app_nil_r. apply (Cb w1).
      + cbn zeta in *. set (w0 := set_heap (w_heap w ++ [[]]) w) in *.
        assert (L0 : b < length (w_heap w0)) by (cbn; rewrite app_length; cbn; lia).
        assert (B0 : buf_ops (w_heap w0) b = buf_ops (w_heap w) b) by apply buf_ops_open.
        assert (Cl : forall x : world, length (w_heap x) = length (w_heap w0) ->
                  b < length (w_heap (close (length (w_heap w)) x))).
        { intros x Lx. cbn. rewrite firstn_length, Lx. cbn. rewrite app_length. cbn. lia. }
        assert (Cb : forall x : world, buf_ops (w_heap (close (length (w_heap w)) x)) b = buf_ops (w_heap x) b).
        { intros x. cbn. now apply buf_ops_firstn. }
        destruct (run sc f w0 _) as [[w1 [r| | |]]|] eqn:E; try discriminate; try (injection R as <- <-; destruct B);
          rewrite gathered_app, app_assoc; pose proof (Len _ _ _ _ E Logic.I) as L1;
          rewrite <- B0, <- (IH _ _ _ _ b E Logic.I L0).
        * destruct (is_ok r).
          -- rewrite gathered_app, app_assoc.
             assert (M : buf_ops (w_heap (fg_commit c (length (w_heap w)) w1)) b =
                         buf_ops (w_heap w1) b ++ gathered b (merge_events c (length (w_heap w)) w1)).
             { unfold fg_commit, merge_events. destruct (leaked w1 _); [apply Same|]. cbn. unfold fg_extend.
               rewrite buf_ops_push by lia. destruct (Nat.eqb _ b); rewrite ?app_nil_r; reflexivity. }
             rewrite <- M, <- (Cb (fg_commit c (length (w_heap w)) w1)). apply (IH _ _ _ _ b R B). apply Cl.
             unfold fg_commit. destruct (leaked w1 _); [exact L1|]. cbn. unfold fg_extend. rewrite alter_length. exact L1.
          -- rewrite (IH _ _ _ _ b R B); [|now apply Cl]. now rewrite Cb.
        * rewrite app_nil_r. apply Cb.
    - rewrite (IH _ _ _ _ b R B); [|cbn; unfold ctx_save, buf_push; now rewrite alter_length]. cbn. unfold ctx_save, buf_push.
      rewrite buf_ops_push by assumption. destruct (Nat.eqb _ b); rewrite ?app_nil_r; [now rewrite <- app_assoc|reflexivity].
    - rewrite (IH _ _ _ _ b R B); [|cbn; unfold ctx_delete, buf_push; now rewrite alter_length]. cbn. unfold ctx_delete, buf_push.
      rewrite buf_ops_push by assumption. destruct (Nat.eqb _ b); rewrite ?app_nil_r; [now rewrite <- app_assoc|reflexivity].
    - now rewrite (IH _ _ _ _ b R B).
    - now rewrite (IH _ _ _ _ b R B).
    - now rewrite (IH _ _ _ _ b R B).
    - now rewrite (IH _ _ _ _ b R B).
    - destruct (run sc f w (select_execute _ c)) as [[w1 [r| | |]]|] eqn:E; try discriminate; try (injection R as <- <-; destruct B).
      + rewrite gathered_app, app_assoc, <- (IH _ _ _ _ b E Logic.I L). apply (IH _ _ _ _ b R B).
        now rewrite (Len _ _ _ _ E Logic.I).
      + rewrite app_nil_r. apply (IH _ _ _ _ b E Logic.I L).
    - destruct (glock_read (w_lock w)) as [l|]; [|injection R as <- <-; destruct B]. cbn [gathered].
      destruct (run sc f (set_lock l w) p) as [[w1 [r| | |]]|] eqn:E; try discriminate; try (injection R as <- <-; destruct B);
        rewrite gathered_app, app_assoc; pose proof (Len _ _ _ _ E Logic.I) as L1; cbn in L1;
        pose proof (IH _ _ _ _ b E Logic.I L) as Eb; cbn in Eb; rewrite <- Eb; cbn [gathered].
      + rewrite (IH _ _ _ _ b R B); [reflexivity|]. cbn. lia.
      + apply Same.
    - destruct (w_lock w); try (injection R as <- <-; destruct B). cbn [gathered].
      destruct (run sc f (set_lock GWrite w) p) as [[w1 [r| | |]]|] eqn:E; try discriminate; try (injection R as <- <-; destruct B);
        rewrite gathered_app, app_assoc; pose proof (Len _ _ _ _ E Logic.I) as L1; cbn in L1;
        pose proof (IH _ _ _ _ b E Logic.I L) as Eb; cbn in Eb; rewrite <- Eb; cbn [gathered].
      + rewrite (IH _ _ _ _ b R B); [reflexivity|]. cbn. lia.
      + apply Same.
    - destruct (w_lock w); try (injection R as <- <-; destruct B); apply (IH _ _ _ _ b R B L).
    - destruct (w_lock w); try (injection R as <- <-; destruct B); apply (IH _ _ _ _ b R B L).
    - destruct (w_lock w); try (injection R as <- <-; destruct B). destruct (g_step (w_graph w) c).
      apply (IH _ _ _ _ b R B L).
    - apply (IH _ _ _ _ b R B L).
    - rewrite gathered_app, gathered_acquire. cbn [app].
      destruct (acquire m hs (w_cells w)) as [cs held| |] eqn:A; try (injection R as <- <-; destruct B).
      destruct (deref_all cs hs held) as [vs|] eqn:D.
      + destruct (run sc f (set_cells cs w) (body vs)) as [[w1 [r| | |]]|] eqn:E; try discriminate; try (injection R as <- <-; destruct B);
          rewrite gathered_app, app_assoc; pose proof (Len _ _ _ _ E Logic.I) as L1; cbn in L1;
          pose proof (IH _ _ _ _ b E Logic.I L) as Eb; cbn in Eb; rewrite <- Eb.
        * rewrite gathered_app, gathered_release. cbn [app]. rewrite (IH _ _ _ _ b R B); [reflexivity|]. cbn. lia.
        * rewrite gathered_release. apply Same.
      + rewrite gathered_app, gathered_release. cbn [app]. apply (IH _ _ _ _ b R B L).
    - destruct (nth_error (w_cells w) a) as [x|]; [|injection R as <- <-; destruct B].
      destruct (c_lock x); try (injection R as <- <-; destruct B).
      destruct (ty_eqb _ _); [|injection R as <- <-; destruct B]. apply (IH _ _ _ _ b R B L).
  Qed.

  (** ** Programs that register nothing themselves *)
  Lemma hands_off_select (sc : schema) b s c : triggers_hands_off sc -> hands_off b (select_execute (ts_select (sc_triggers sc) s) c).
  Proof.
    intros T. specialize (T s). unfold scheduled in T. unfold select_execute. destruct (ts_select _ s) as [ts|]; [|exact I].
    induction ts as [|t ts IH]; cbn; [exact I|]. split; [apply T; now left|]. intros r.
    assert (K : hands_off b (try_for_each ts c)) by (apply IH; intros; apply T; now right).
    destruct r; [exact K|exact K|exact I].
  Qed.

  Definition quiet (b : nat) (l : list event) : Prop := forall o, ~ In (ERegister b o) l.

  Lemma quiet_nil b : quiet b [].
  Proof. intros o []. Qed.

  Lemma quiet_app b l1 l2 : quiet b l1 -> quiet b l2 -> quiet b (l1 ++ l2).
  Proof. intros A B o J. apply in_app_or in J as [J|J]; [now apply (A o)|now apply (B o)]. Qed.

  Lemma quiet_cons b e l : (forall o, e <> ERegister b o) -> quiet b l -> quiet b (e :: l).
  Proof. intros A B o [J|J]; [now apply (A o)|now apply (B o)]. Qed.

  Lemma quiet_acquire b m hs : forall cs : list cell, quiet b (acquire_events m hs cs : list event).
  Proof.
    induction hs as [|h hs IH]; intros cs; [apply quiet_nil|]. cbn [acquire_events]. apply quiet_app.
    - unfold acquire1_events. destruct (h_addr h); [|apply quiet_nil]. destruct (nth_error cs n) as [x|]; [|apply quiet_nil].
      apply quiet_cons; [easy|]. destruct (blocked _ _); [apply quiet_nil|].
      destruct (c_poison x); (apply quiet_cons; [easy|apply quiet_nil]).
    - destruct (acquire1 m h cs); [apply IH|apply quiet_nil|apply quiet_nil].
  Qed.

  Lemma quiet_release b m l : quiet b (release_events m l : list event).
  Proof.
    induction l as [|[a|] l IH]; cbn; [apply quiet_nil| |exact IH]. apply quiet_app; [exact IH|]. apply quiet_cons; [easy|apply quiet_nil].
  Qed.

  Lemma quiet_merge b c b' (w : world) : quiet b (merge_events c b' w).
  Proof. unfold merge_events. destruct (leaked w b'); [apply quiet_nil|]. apply quiet_cons; [easy|apply quiet_nil]. Qed.

  Lemma run_quiet (sc : schema) : triggers_hands_off sc -> forall fuel (w : world) (p : prog) b, hands_off b p ->
    b < length (w_heap w) -> quiet b (events sc fuel w p).
  Proof.
    intros T. induction fuel as [|f IH]; intros w p b P L; [apply quiet_nil|].
    assert (Len : forall (v : world) q v1 o1, run sc f v q = Some (v1, o1) -> comes_back o1 -> length (w_heap v1) = length (w_heap v)).
    { intros v q v1 o1 E B1. apply (fr_len _ _ (ends_framed sc _ _ _ _ (ex_intro _ f E) B1)). }
    destruct p; cbn [events]; cbn [hands_off] in P; try apply quiet_nil; try (now apply IH).
    - destruct P as [P1 P2]. apply quiet_app; [now apply IH|].
      destruct (run sc f w p) as [[w1 [r| | |]]|] eqn:E; try apply quiet_nil.
      apply IH; [apply P2|]. now rewrite (Len _ _ _ _ E Logic.I).
    - destruct P as [P1 P2]. apply quiet_app; [now apply IH|].
      destruct (run sc f w p) as [[w1 [r| | |]]|] eqn:E; try apply quiet_nil;
      (apply IH; [apply P2|]; now rewrite (Len _ _ _ _ E Logic.I)).
    - destruct t as [crash|c].
      + destruct P as [P1 P2]. apply quiet_cons; [easy|]. destruct (w_lock w); try apply quiet_nil. cbn zeta.
        apply quiet_cons; [easy|]. set (w0 := set_lock GTx (set_heap (w_heap w ++ [[]]) w)).
        assert (L0 : b < length (w_heap w0)) by (cbn; rewrite app_length; cbn; lia).
        assert (Cl : forall x : world, length (w_heap x) = length (w_heap w0) ->
                  b < length (w_heap (close (length (w_heap w)) x))).
        { intros x Lx. cbn. rewrite firstn_length, Lx. cbn. rewrite app_length. cbn. lia. }
        apply quiet_app; [apply IH; [apply P1; lia|exact L0]|].
        destruct (run sc f w0 _) as [[w1 [r| | |]]|] eqn:E; try apply quiet_nil; (apply quiet_cons; [easy|]); [|apply quiet_nil].
        pose proof (Len _ _ _ _ E Logic.I) as L1. destruct (is_ok r).
        * destruct (bg_commit crash _ w1) as [w2 pk] eqn:C. apply bg_commit_graph in C as [ops ->].
          destruct pk; [apply quiet_nil|]. apply IH; [apply P2|now apply Cl].
        * apply IH; [apply P2|now apply Cl].
      + destruct P as [P1 P2]. cbn zeta. set (w0 := set_heap (w_heap w ++ [[]]) w).
        assert (L0 : b < length (w_heap w0)) by (cbn; rewrite app_length; cbn; lia).
        assert (Cl : forall x : world, length (w_heap x) = length (w_heap w0) ->
                  b < length (w_heap (close (length (w_heap w)) x))).
        { intros x Lx. cbn. rewrite firstn_length, Lx. cbn. rewrite app_length. cbn. lia. }
        apply quiet_app; [apply IH; [apply P1; lia|exact L0]|].
        destruct (run sc f w0 _) as [[w1 [r| | |]]|] eqn:E; try apply quiet_nil.
        pose proof (Len _ _ _ _ E Logic.I) as L1. destruct (is_ok r).
        * apply quiet_app; [apply quiet_merge|]. apply IH; [apply P2|]. apply Cl.
          unfold fg_commit. destruct (leaked w1 _); [exact L1|]. cbn. unfold fg_extend. rewrite alter_length. exact L1.
        * apply IH; [apply P2|now apply Cl].
    - destruct P as [P1 P2]. apply quiet_cons; [congruence|]. apply IH; [exact P2|]. cbn. unfold ctx_save, buf_push. now rewrite alter_length.
    - destruct P as [P1 P2]. apply quiet_cons; [congruence|]. apply IH; [exact P2|]. cbn. unfold ctx_delete, buf_push. now rewrite alter_length.
    - apply quiet_app; [apply IH; [now apply hands_off_select|exact L]|].
      destruct (run sc f w (select_execute _ c)) as [[w1 [r| | |]]|] eqn:E; try apply quiet_nil.
      apply IH; [apply P|]. now rewrite (Len _ _ _ _ E Logic.I).
    - destruct P as [P1 P2]. apply quiet_cons; [easy|]. destruct (glock_read (w_lock w)) as [l|]; [|apply quiet_nil].
      apply quiet_cons; [easy|]. apply quiet_app; [now apply IH|].
      destruct (run sc f (set_lock l w) p) as [[w1 [r| | |]]|] eqn:E; try apply quiet_nil; (apply quiet_cons; [easy|]); [|apply quiet_nil].
      apply IH; [apply P2|]. cbn. now rewrite (Len _ _ _ _ E Logic.I).
    - destruct P as [P1 P2]. apply quiet_cons; [easy|]. destruct (w_lock w); try apply quiet_nil.
      apply quiet_cons; [easy|]. apply quiet_app; [now apply IH|].
      destruct (run sc f (set_lock GWrite w) p) as [[w1 [r| | |]]|] eqn:E; try apply quiet_nil; (apply quiet_cons; [easy|]); [|apply quiet_nil].
      apply IH; [apply P2|]. cbn. now rewrite (Len _ _ _ _ E Logic.I).
    - destruct (w_lock w); try apply quiet_nil; now apply IH.
    - destruct (w_lock w); try apply quiet_nil; now apply IH.
    - destruct (w_lock w); try apply quiet_nil. destruct (g_step (w_graph w) c). now apply IH.
    - destruct P as [P1 P2]. apply quiet_app; [apply quiet_acquire|].
      destruct (acquire m hs (w_cells w)) as [cs held| |]; try apply quiet_nil.
      destruct (deref_all cs hs held) as [vs|].
      + apply quiet_app; [now apply IH|].
        destruct (run sc f (set_cells cs w) (body vs)) as [[w1 [r| | |]]|] eqn:E; try apply quiet_nil; [|apply quiet_release].
        apply quiet_app; [apply quiet_release|]. apply IH; [apply P2|]. cbn. now rewrite (Len _ _ _ _ E Logic.I).
      + apply quiet_app; [apply quiet_release|]. now apply IH.
    - destruct (nth_error (w_cells w) a) as [x|]; [|apply quiet_nil]. destruct (c_lock x); try apply quiet_nil.
      destruct (ty_eqb _ _); [|apply quiet_nil]. now apply IH.
  Qed.
End Progs.
