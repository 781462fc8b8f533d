(** Facts about events. *)
From Coq Require Import List Bool Arith Lia.
From Verif Require Import Ord OrdFacts BTree BTreeFacts Graph GraphFacts Tx TxFacts Prog SpecProg ProgFacts ProgFrame ProgEvents
  SpecEvents.
Import ListNotations.

Lemma lock_eqb_eq l l' : lock_eqb l l' = true <-> l = l'.
Proof. destruct l, l'; cbn; try (split; congruence). rewrite Nat.eqb_eq. split; congruence. Qed.

Lemma lock_eqb_refl l : lock_eqb l l = true.
Proof. now apply lock_eqb_eq. Qed.

Lemma mode_eqb_refl m : mode_eqb m m = true.
Proof. now destruct m. Qed.

Lemma put_same l ms g : put l ms g l = ms.
Proof. unfold put. now rewrite lock_eqb_refl. Qed.

Lemma put_other l l' ms g : l' <> l -> put l ms g l' = g l'.
Proof. intros N. unfold put. destruct (lock_eqb l l') eqn:E; [apply lock_eqb_eq in E; congruence|reflexivity]. Qed.

(** The guards that put a lock in a state. *)
Definition modes_of (l : rw) : list mode :=
  match l with Free => [] | Readers n => repeat Shared (S n) | Writer => [Excl] end.
Definition gmodes_of (l : glock) : list mode :=
  match l with GFree => [] | GReaders n => repeat Shared (S n) | GTx | GWrite => [Excl] end.

Lemma conflict_shared n : conflict Shared (repeat Shared n) = false.
Proof. induction n as [|n IH]; [reflexivity|exact IH]. Qed.

Lemma blocked_conflict m l : blocked m l = conflict m (modes_of l).
Proof. destruct m, l; try reflexivity. cbn. symmetry. apply conflict_shared. Qed.

Section Facts.
  Context {Id Node V U : Type} `{HO : OrdT Id} `{HI : Identify Node Id}.
  Notation prog := (prog Id Node V U).
  Notation world := (world Id Node V U).
  Notation schema := (schema Id Node V U).
  Notation outcome := (outcome V).
  Notation event := (event Id Node).
  Notation cell := (cell Node U).

  Local Arguments buf_ops : simpl never.

  Lemma lock_history_app s (l1 l2 : list event) :
    lock_history s (l1 ++ l2) = match lock_history s l1 with Some s => lock_history s l2 | None => None end.
  Proof. revert s. induction l1 as [|e l1 IH]; intros s; cbn; [reflexivity|]. destruct (lock_step s e); auto. Qed.

  (** The guards of cells match their locks. *)
  Definition cells_match (cs : list cell) (g : guards) : Prop :=
    forall a x, nth_error cs a = Some x -> g (LCell a) = modes_of (c_lock x).
  Definition cells_beyond (cs : list cell) (g : guards) : Prop :=
    forall a, length cs <= a -> g (LCell a) = [].
  Record matching (w : world) (g : guards) : Prop := {
    mt_graph : g LGraph = gmodes_of (w_lock w);
    mt_cells : cells_match (w_cells w) g;
    mt_beyond : cells_beyond (w_cells w) g
  }.

  Lemma ask_got l m g : conflict m (g l) = false ->
    lock_history (None, g) ([EAsk l m; EGot l m] : list event) = Some (None, put l (m :: g l) g).
  Proof. intros C. cbn. now rewrite lock_eqb_refl, mode_eqb_refl, C. Qed.

  Lemma ask_refused l m g : conflict m (g l) = false ->
    lock_history (None, g) ([EAsk l m; ERefused l m] : list event) = Some (None, g).
  Proof. intros C. cbn. now rewrite lock_eqb_refl, mode_eqb_refl, C. Qed.

  (** ** Acquiring *)
  Definition acquiring (m : mode) (cs : list cell) (g : guards) (r : acquired (list (option nat)))
      (l : list event) : Prop :=
    match r with
    | AcqOk _ cs' held => exists g', lock_history (None, g) l = Some (None, g') /\ g' LGraph = g LGraph /\
        cells_match cs' g' /\ cells_beyond cs' g'
    | AcqHang _ => exists lk g', lock_history (None, g) l = Some (Some (lk, m), g') /\ conflict m (g' lk) = true
    | AcqStuck _ => exists g', lock_history (None, g) l = Some (None, g')
    end.

  Lemma modes_lock m l : blocked m l = false -> modes_of (lock_rw m l) = m :: modes_of l.
  Proof. destruct m, l; cbn; try discriminate; reflexivity. Qed.

  Lemma acquire_history m hs : forall (cs : list cell) g, cells_match cs g -> cells_beyond cs g ->
    acquiring m cs g (acquire m hs cs) (acquire_events m hs cs).
  Proof.
    induction hs as [|h hs IH]; intros cs g M B; cbn [acquire acquire_events].
    - exists g. auto.
    - unfold acquire1, acquire1_events. destruct (h_addr h) as [a|].
      + destruct (nth_error cs a) as [x|] eqn:N; [|exists g; reflexivity].
        pose proof (blocked_conflict m (c_lock x)) as C. rewrite <- (M a x N) in C.
        destruct (blocked m (c_lock x)) eqn:Bl.
        { exists (LCell a), g. rewrite <- C. split; reflexivity. }
        assert (Go : forall cs1 (o : option nat) g1 (l1 : list event),
                  lock_history (None, g) l1 = Some (None, g1) -> g1 LGraph = g LGraph ->
                  cells_match cs1 g1 -> cells_beyond cs1 g1 ->
                  acquiring m cs g
                    match acquire m hs cs1 with
                    | AcqOk _ cs2 l => AcqOk _ cs2 (o :: l)
                    | AcqHang _ => AcqHang _
                    | AcqStuck _ => AcqStuck _
                    end (l1 ++ acquire_events m hs cs1)).
        { intros cs1 o g1 l1 H1 G1 M1 B1. specialize (IH cs1 g1 M1 B1). unfold acquiring in *.
          rewrite lock_history_app, H1.
          destruct (acquire m hs cs1); [|assumption|assumption].
          destruct IH as (g2 & H2 & G2 & M2 & B2). exists g2. repeat split; auto. congruence. }
        destruct (c_poison x).
        * apply (Go _ _ g); auto. apply ask_refused. congruence.
        * apply (Go _ _ (put (LCell a) (m :: g (LCell a)) g)).
          -- apply ask_got. congruence.
          -- apply put_other. discriminate.
          -- intros a' x' N'. rewrite nth_error_alter in N'. destruct (Nat.eqb_spec a a') as [->|Ne].
             ++ rewrite N in N'. injection N' as <-. rewrite put_same, (M a' x N). cbn. symmetry. now apply modes_lock.
             ++ rewrite put_other by congruence. now apply M.
          -- intros a' L. rewrite alter_length in L. rewrite put_other; [now apply B|].
             intros [= ->]. apply nth_error_None in L. congruence.
      + specialize (IH cs g M B). cbn [app].
        destruct (acquire m hs cs); exact IH.
  Qed.

  (** ** Releasing *)
  Lemma modes_unlock m l g : modes_of l = m :: g -> exists ms, remove_one m (modes_of l) = Some ms /\ ms = modes_of (unlock_rw l).
  Proof.
    destruct l as [|n|]; cbn; intros E; [discriminate| |].
    - injection E as <- _. cbn. eexists. split; [reflexivity|]. now destruct n.
    - injection E as <- _. cbn. eauto.
  Qed.

  (** Cells some of which are locked in mode [m] by an acquisition. *)
  Lemma release_history m p hs : forall (cs cs' : list cell) held, acquire m hs cs = AcqOk _ cs' held ->
    forall cs'' g, cells_le cs' cs'' -> cells_match cs'' g -> cells_beyond cs'' g ->
    exists g', lock_history (None, g) (release_events m held : list event) = Some (None, g') /\ g' LGraph = g LGraph /\
      cells_match (release p held cs'') g' /\ cells_beyond (release p held cs'') g'.
  Proof.
    induction hs as [|h hs IH]; intros cs cs' held A cs'' g Le M B; cbn in A.
    - injection A as <- <-. exists g. auto.
    - destruct (acquire1 m h cs) as [cs1 a| |] eqn:A1; try discriminate.
      destruct (acquire m hs cs1) as [cs2 l| |] eqn:A2; try discriminate. injection A as <- <-.
      destruct (IH _ _ _ A2 cs'' g Le M B) as (g1 & H1 & G1 & M1 & B1).
      pose proof (release_acquired m p hs _ _ _ A2 cs'' Le) as [K1 K2].
      destruct (acquire1_spec _ _ _ _ _ A1) as [[-> ->]|(n & x & -> & _ & N & Bl & P & ->)]; [exists g1; auto|].
      cbn [release release_events]. specialize (K1 n). rewrite nth_error_alter, Nat.eqb_refl, N in K1.
      destruct (K1 _ eq_refl) as (z & Nz & Lz & _).
      assert (Eg : g1 (LCell n) = modes_of (c_lock z)) by now apply M1.
      assert (Em : modes_of (c_lock z) = m :: modes_of (c_lock x)) by (rewrite Lz; cbn; now apply modes_lock).
      destruct (modes_unlock m _ _ Em) as (ms & R & Ems).
      exists (put (LCell n) ms g1). rewrite lock_history_app, H1. cbn [lock_history lock_step]. rewrite Eg, R. cbn [option_map]. repeat split.
      + rewrite put_other by discriminate. exact G1.
      + intros a y Na. rewrite nth_error_alter in Na. destruct (Nat.eqb_spec n a) as [->|Ne].
        * rewrite Nz in Na. injection Na as <-. rewrite put_same. exact Ems.
        * rewrite put_other by congruence. now apply M1.
      + intros a L. rewrite alter_length in L. rewrite put_other; [now apply B1|].
        intros [= ->]. apply nth_error_None in L. congruence.
  Qed.

  Variable sc : schema.

  (** ** The history of a run *)
  Definition locking (g : guards) (x : option (world * outcome)) (l : list event) : Prop :=
    match x with
    | Some (w', ORet _) | Some (w', OPanic) => exists g', lock_history (None, g) l = Some (None, g') /\ matching w' g'
    | Some (w', OHang) => exists lk m g', lock_history (None, g) l = Some (Some (lk, m), g') /\ conflict m (g' lk) = true
    | Some (_, OStuck) | None => exists g', lock_history (None, g) l = Some (None, g')
    end.

  Lemma locking_after g g1 x l1 l2 : lock_history (None, g) l1 = Some (None, g1) -> locking g1 x l2 -> locking g x (l1 ++ l2).
  Proof.
    intros H1. unfold locking. destruct x as [[w' []]|]; rewrite lock_history_app, H1; auto.
  Qed.

  Lemma locking_nil g x l : locking g x l -> locking g x (l ++ []).
  Proof. now rewrite app_nil_r. Qed.

  Lemma matching_eq (w w' : world) g : w_lock w' = w_lock w -> w_cells w' = w_cells w -> matching w g -> matching w' g.
  Proof. intros El Ec [A B C]. constructor; rewrite ?El, ?Ec; assumption. Qed.

  Lemma graph_put l (w : world) g ms : matching w g -> ms = gmodes_of l ->
    forall w' : world, w_lock w' = l -> w_cells w' = w_cells w -> matching w' (put LGraph ms g).
  Proof.
    intros [A B C] -> w' El Ec. constructor.
    - now rewrite put_same, El.
    - intros a x N. rewrite put_other by discriminate. rewrite Ec in N. now apply B.
    - intros a L. rewrite put_other by discriminate. rewrite Ec in L. now apply C.
  Qed.

  Lemma drop_graph m (w : world) g ms : remove_one m (gmodes_of (w_lock w)) = Some ms -> matching w g ->
    lock_history (None, g) ([EDrop LGraph m] : list event) = Some (None, put LGraph ms g).
  Proof. intros R [A _ _]. cbn. now rewrite A, R. Qed.

  Lemma gmodes_read l l' : glock_read l = Some l' -> gmodes_of l' = Shared :: gmodes_of l.
  Proof. destruct l; cbn; intros [= <-]; reflexivity. Qed.

  Lemma gmodes_read_none l : glock_read l = None -> gmodes_of l = [Excl].
  Proof. destruct l; cbn; congruence. Qed.

  Lemma gconflict_read l l' : glock_read l = Some l' -> conflict Shared (gmodes_of l) = false.
  Proof. destruct l; cbn; intros [= <-]; [reflexivity|]. apply (conflict_shared n). Qed.

  Lemma gunread l l' : glock_read l = Some l' -> remove_one Shared (gmodes_of l') = Some (gmodes_of (glock_unread l')).
  Proof. destruct l; cbn; intros [= <-]; reflexivity. Qed.

  Theorem run_locking fuel : forall (w : world) (p : prog) g, matching w g ->
    locking g (run sc fuel w p) (events sc fuel w p).
  Proof.
    induction fuel as [|f IH]; intros w p g M; [now exists g|].
    destruct p; cbn [run events].
    - exists g. auto.
    - exists g. auto.
    - now exists g.
    - apply IH. now apply (matching_eq w).
    - (* call *) pose proof (IH w p g M) as L. destruct (run sc f w p) as [[w1 [r| | |]]|]; try (now apply locking_nil).
      destruct L as (g1 & H1 & M1). eapply locking_after; [exact H1|]. now apply IH.
    - (* try *) pose proof (IH w p g M) as L. destruct (run sc f w p) as [[w1 [r| | |]]|]; try (now apply locking_nil);
      (destruct L as (g1 & H1 & M1); eapply locking_after; [exact H1|]; now apply IH).
    - destruct t as [crash|c].
      + destruct (w_lock w) eqn:Lk.
        2-4: exists LGraph, Excl, g; split; [reflexivity|]; rewrite (mt_graph _ _ M), Lk; reflexivity.
        cbn zeta.
        set (w0 := set_lock GTx (set_heap (w_heap w ++ [[]]) w)).
        assert (M0 : matching w0 (put LGraph [Excl] g)) by (now apply (graph_put GTx w g)).
        assert (H0 : lock_history (None, g) ([EAsk LGraph Excl; EGot LGraph Excl] : list event) = Some (None, put LGraph [Excl] g)).
        { rewrite ask_got; rewrite (mt_graph _ _ M), Lk; reflexivity. }
        specialize (IH w0 (body (CRoot (length (w_heap w)) None)) _ M0) as L.
        match goal with |- locking _ _ (EAsk LGraph Excl :: EGot LGraph Excl :: ?l) =>
          change (EAsk LGraph Excl :: EGot LGraph Excl :: l) with ([EAsk LGraph Excl; EGot LGraph Excl] ++ l) end.
        eapply locking_after; [exact H0|].
        destruct (run sc f w0 _) as [[w1 [r| | |]]|] eqn:E; try (now apply locking_nil).
        * destruct L as (g1 & H1 & M1). eapply locking_after; [exact H1|].
          assert (Lk1 : w_lock w1 = GTx).
          { rewrite (fr_lock _ _ (ends_framed sc _ _ _ _ (ex_intro _ f E) Logic.I)). reflexivity. }
          assert (D : lock_history (None, g1) ([EDrop LGraph Excl] : list event) = Some (None, put LGraph [] g1)).
          { eapply drop_graph; [|exact M1]. now rewrite Lk1. }
          match goal with |- locking _ _ (EDrop LGraph Excl :: ?l) =>
            change (EDrop LGraph Excl :: l) with ([EDrop LGraph Excl] ++ l) end.
          destruct (is_ok r).
          -- destruct (bg_commit crash _ w1) as [w2 pk] eqn:C.
             apply bg_commit_graph in C as [ops ->]. destruct pk.
             ++ exists (put LGraph [] g1). split; [exact D|]. now apply (graph_put GFree w1 g1).
             ++ eapply locking_after; [exact D|]. apply IH. now apply (graph_put GFree w1 g1).
          -- eapply locking_after; [exact D|]. apply IH. now apply (graph_put GFree w1 g1).
        * destruct L as (g1 & H1 & M1).
          assert (Lk1 : w_lock w1 = GTx).
          { rewrite (fr_lock _ _ (ends_framed sc _ _ _ _ (ex_intro _ f E) Logic.I)). reflexivity. }
          assert (D : lock_history (None, g1) ([EDrop LGraph Excl] : list event) = Some (None, put LGraph [] g1)).
          { eapply drop_graph; [|exact M1]. now rewrite Lk1. }
          exists (put LGraph [] g1). split; [now rewrite lock_history_app, H1|]. now apply (graph_put GFree w1 g1).
      + cbn zeta. set (w0 := set_heap (w_heap w ++ [[]]) w).
        assert (M0 : matching w0 g) by now apply (matching_eq w).
        specialize (IH w0 (body (CSub c (length (w_heap w)) None)) _ M0) as L.
        destruct (run sc f w0 _) as [[w1 [r| | |]]|] eqn:E; try (now apply locking_nil).
        * destruct L as (g1 & H1 & M1). eapply locking_after; [exact H1|]. destruct (is_ok r).
          -- eapply locking_after; [|apply IH; apply (matching_eq w1); [| |exact M1]].
             ++ unfold merge_events. now destruct (leaked w1 _).
             ++ unfold fg_commit. now destruct (leaked w1 _).
             ++ unfold fg_commit. now destruct (leaked w1 _).
          -- apply IH. now apply (matching_eq w1).
        * destruct L as (g1 & H1 & M1). exists g1. rewrite app_nil_r. split; [exact H1|]. now apply (matching_eq w1).
    - apply (locking_after g g _ [_]); [reflexivity|]. apply IH. now apply (matching_eq w).
    - apply (locking_after g g _ [_]); [reflexivity|]. apply IH. now apply (matching_eq w).
    - now apply IH.
    - now apply IH.
    - apply IH. destruct M as [A B C]. constructor; cbn.
      + exact A.
      + intros a x N. destruct (Nat.lt_ge_cases a (length (w_cells w))) as [L|L].
        * rewrite nth_error_app1 in N by assumption. now apply B.
        * rewrite C by assumption. rewrite nth_error_app2 in N by assumption.
          destruct (a - length (w_cells w)) as [|j]; cbn in N; [now injection N as <-|destruct j; discriminate].
      + intros a L. rewrite app_length in L. apply C. lia.
    - apply IH. now apply (matching_eq w).
    - pose proof (IH w (select_execute (ts_select (sc_triggers sc) s) c) g M) as L. cbn zeta.
      destruct (run sc f w (select_execute _ c)) as [[w1 [r| | |]]|]; try (now apply locking_nil).
      destruct L as (g1 & H1 & M1). eapply locking_after; [exact H1|]. now apply IH.
    - (* read *) destruct (glock_read (w_lock w)) as [l|] eqn:Lk.
      2: { exists LGraph, Shared, g. split; [reflexivity|]. now rewrite (mt_graph _ _ M), (gmodes_read_none _ Lk). }
      assert (M0 : matching (set_lock l w) (put LGraph (Shared :: g LGraph) g)).
      { apply (graph_put l w g); auto. now rewrite (mt_graph _ _ M), (gmodes_read _ _ Lk). }
      specialize (IH (set_lock l w) p _ M0) as L.
      match goal with |- locking _ _ (EAsk LGraph Shared :: EGot LGraph Shared :: ?l) =>
        change (EAsk LGraph Shared :: EGot LGraph Shared :: l) with ([EAsk LGraph Shared; EGot LGraph Shared] ++ l) end.
      eapply locking_after; [apply ask_got; rewrite (mt_graph _ _ M); apply (gconflict_read _ _ Lk)|].
      destruct (run sc f (set_lock l w) p) as [[w1 [r| | |]]|] eqn:E; try (now apply locking_nil).
      + destruct L as (g1 & H1 & M1). eapply locking_after; [exact H1|].
        assert (Lk1 : w_lock w1 = l).
        { rewrite (fr_lock _ _ (ends_framed sc _ _ _ _ (ex_intro _ f E) Logic.I)). reflexivity. }
        match goal with |- locking _ _ (EDrop LGraph Shared :: ?l) =>
          change (EDrop LGraph Shared :: l) with ([EDrop LGraph Shared] ++ l) end.
        eapply locking_after; [eapply drop_graph; [|exact M1]; rewrite Lk1; apply (gunread _ _ Lk)|].
        apply IH. rewrite Lk1. now apply (graph_put (glock_unread l) w1 g1).
      + destruct L as (g1 & H1 & M1).
        assert (Lk1 : w_lock w1 = l).
        { rewrite (fr_lock _ _ (ends_framed sc _ _ _ _ (ex_intro _ f E) Logic.I)). reflexivity. }
        exists (put LGraph (gmodes_of (glock_unread l)) g1). split.
        * rewrite lock_history_app, H1. eapply drop_graph; [|exact M1]. rewrite Lk1. apply (gunread _ _ Lk).
        * rewrite Lk1. now apply (graph_put (glock_unread l) w1 g1).
    - (* write *) destruct (w_lock w) eqn:Lk.
      2-4: exists LGraph, Excl, g; split; [reflexivity|]; rewrite (mt_graph _ _ M), Lk; reflexivity.
      assert (M0 : matching (set_lock GWrite w) (put LGraph [Excl] g)) by (now apply (graph_put GWrite w g)).
      assert (H0 : lock_history (None, g) ([EAsk LGraph Excl; EGot LGraph Excl] : list event) = Some (None, put LGraph [Excl] g)).
      { rewrite ask_got; rewrite (mt_graph _ _ M), Lk; reflexivity. }
      specialize (IH (set_lock GWrite w) p _ M0) as L.
      match goal with |- locking _ _ (EAsk LGraph Excl :: EGot LGraph Excl :: ?l) =>
        change (EAsk LGraph Excl :: EGot LGraph Excl :: l) with ([EAsk LGraph Excl; EGot LGraph Excl] ++ l) end.
      eapply locking_after; [exact H0|].
      destruct (run sc f (set_lock GWrite w) p) as [[w1 [r| | |]]|] eqn:E; try (now apply locking_nil).
      + destruct L as (g1 & H1 & M1). eapply locking_after; [exact H1|].
        assert (Lk1 : w_lock w1 = GWrite).
        { rewrite (fr_lock _ _ (ends_framed sc _ _ _ _ (ex_intro _ f E) Logic.I)). reflexivity. }
        match goal with |- locking _ _ (EDrop LGraph Excl :: ?l) =>
          change (EDrop LGraph Excl :: l) with ([EDrop LGraph Excl] ++ l) end.
        eapply locking_after; [eapply (drop_graph Excl w1 g1 []); [now rewrite Lk1|exact M1]|].
        apply IH. now apply (graph_put GFree w1 g1).
      + destruct L as (g1 & H1 & M1).
        assert (Lk1 : w_lock w1 = GWrite).
        { rewrite (fr_lock _ _ (ends_framed sc _ _ _ _ (ex_intro _ f E) Logic.I)). reflexivity. }
        exists (put LGraph [] g1). split.
        * rewrite lock_history_app, H1. apply (drop_graph Excl w1 g1 []); [now rewrite Lk1|exact M1].
        * now apply (graph_put GFree w1 g1).
    - destruct (w_lock w); try (now exists g); now apply IH.
    - destruct (w_lock w); try (now exists g); now apply IH.
    - destruct (w_lock w) eqn:Lk; try (now exists g). destruct (g_step (w_graph w) c). apply IH. now apply (matching_eq w).
    - now apply IH.
    - (* access *)
      pose proof (acquire_history m hs (w_cells w) g (mt_cells _ _ M) (mt_beyond _ _ M)) as A. unfold acquiring in A.
      destruct (acquire m hs (w_cells w)) as [cs held| |] eqn:Ac; rewrite ?app_nil_r.
      + destruct A as (g0 & H0 & G0 & C0 & B0). eapply locking_after; [exact H0|].
        assert (M0 : matching (set_cells cs w) g0) by (constructor; [rewrite G0; apply (mt_graph _ _ M)|exact C0|exact B0]).
        destruct (deref_all cs hs held) as [vs|] eqn:D.
        * pose proof (IH (set_cells cs w) (body vs) g0 M0) as L.
          destruct (run sc f (set_cells cs w) (body vs)) as [[w1 [r| | |]]|] eqn:E; try (now apply locking_nil).
          -- destruct L as (g1 & H1 & M1). eapply locking_after; [exact H1|].
             pose proof (fr_cells _ _ (ends_framed sc _ _ _ _ (ex_intro _ f E) Logic.I)) as Le. cbn in Le.
             destruct (release_history m false hs _ _ _ Ac _ g1 Le (mt_cells _ _ M1) (mt_beyond _ _ M1)) as (g2 & H2 & G2 & C2 & B2).
             eapply locking_after; [exact H2|]. apply IH.
             constructor; [rewrite G2; apply (mt_graph _ _ M1)|exact C2|exact B2].
          -- destruct L as (g1 & H1 & M1).
             pose proof (fr_cells _ _ (ends_framed sc _ _ _ _ (ex_intro _ f E) Logic.I)) as Le. cbn in Le.
             destruct (release_history m (match m with Excl => true | Shared => false end) hs _ _ _ Ac _ g1 Le (mt_cells _ _ M1)
                         (mt_beyond _ _ M1)) as (g2 & H2 & G2 & C2 & B2).
             exists g2. split; [now rewrite lock_history_app, H1|].
             constructor; [rewrite G2; apply (mt_graph _ _ M1)|exact C2|exact B2].
        * destruct (release_history m false hs _ _ _ Ac _ g0 (cells_le_refl cs) C0 B0) as (g2 & H2 & G2 & C2 & B2).
          eapply locking_after; [exact H2|]. apply IH.
          constructor; [rewrite G2, G0; apply (mt_graph _ _ M)|exact C2|exact B2].
      + destruct A as (lk & g' & H1 & C). now exists lk, m, g'.
      + destruct A as (g' & H1). now exists g'.
    - destruct (nth_error (w_cells w) a) as [x|] eqn:N; [|now exists g].
      destruct (c_lock x) eqn:Lk; try (now exists g). destruct (ty_eqb _ _); [|now exists g].
      apply IH. destruct M as [A B C]. constructor; cbn.
      + exact A.
      + intros a' x' N'. rewrite nth_error_alter in N'. destruct (Nat.eqb_spec a a') as [->|Ne].
        * rewrite N in N'. injection N' as <-. cbn. now apply B.
        * now apply B.
      + intros a' L. rewrite alter_length in L. now apply C.
  Qed.
End Facts.
