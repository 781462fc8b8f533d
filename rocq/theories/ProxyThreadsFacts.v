(** Facts about proxies shared between threads. *)
From Coq Require Import List Bool Arith Lia.
From Verif Require Import Ord BTree Graph Tx ProxyThreads SpecProxyThreads LazyFacts.
Import ListNotations.

Section Facts.
  Context {Id Node : Type} `{HO : OrdT Id} `{HI : Identify Node Id}.
  Notation label := (tlabel Id Node).
  Notation state := (tstate Id Node).

  Lemma tt_run_app (ls ls' : list label) : forall st,
    tt_run st (ls ++ ls') =
    let (st1, os) := tt_run st ls in let (st2, os') := tt_run st1 ls' in (st2, os ++ os').
  Proof.
    induction ls as [|l ls IH]; intros st; cbn.
    - destruct (tt_run st ls'). reflexivity.
    - destruct (t_step st l) as [st1 o]. rewrite IH. destruct (tt_run st1 ls) as [st2 os].
      destruct (tt_run st2 ls'). reflexivity.
  Qed.

  Lemma after_snoc (ls : list label) l : tt_after (ls ++ [l]) = fst (t_step (tt_after ls) l).
  Proof.
    unfold tt_after. rewrite tt_run_app. destruct (tt_run tt_init ls) as [st os]. cbn.
    destruct (t_step st l). reflexivity.
  Qed.

  Lemma outs_snoc (ls : list label) l : tt_outs (ls ++ [l]) = tt_outs ls ++ [tt_says ls l].
  Proof.
    unfold tt_outs, tt_says, tt_after. rewrite tt_run_app. destruct (tt_run tt_init ls) as [st os]. cbn.
    destruct (t_step st l). reflexivity.
  Qed.

  Lemma answers_app k (os os' : list (tout Node)) : answers k (os ++ os') = answers k os + answers k os'.
  Proof. induction os as [|o os IH]; cbn; [reflexivity|]. destruct o; rewrite ?IH; lia. Qed.

  (** ** The invariant *)

  Definition cell_of (st : state) (k : nat) : option (@tcell Node) := option_map tp_cell (nth_error (t_proxies st) k).
  Definition pc_of (st : state) (c : nat) : option (nat * @tpc Node) :=
    option_map (fun r => (tc_proxy r, tc_pc r)) (nth_error (t_calls st) c).

  Record tinv (st : state) (os : list (tout Node)) : Prop := {
    ti_running : forall k c, cell_of st k = Some (TRunning c) -> pc_of st c = Some (k, TInit);
    ti_init : forall k c, pc_of st c = Some (k, TInit) -> cell_of st k = Some (TRunning c);
    ti_done : forall k c r, pc_of st c = Some (k, TDone r) -> cell_of st k = Some (TFull r);
    ti_proxy : forall k c p, pc_of st c = Some (k, p) -> cell_of st k <> None;
    ti_graph : forall k g i v, nth_error (t_proxies st) k = Some (TProxy (TSGraph g) i (TFull v)) -> v = g_get g i;
    ti_once : forall k, answers k os <= match cell_of st k with Some (TFull _) => 1 | _ => 0 end
  }.

  Lemma cell_set (ps : list (tproxy Id Node)) cs x k k' : cell_of (TState (set_tcell x k ps) cs) k' =
    if Nat.eqb k' k then option_map (fun _ => x) (nth_error ps k') else option_map tp_cell (nth_error ps k').
  Proof.
    unfold cell_of, set_tcell; cbn. rewrite nth_error_alter. destruct (k' =? k); [|reflexivity].
    destruct (nth_error ps k'); reflexivity.
  Qed.

  Lemma pc_set (ps : list (tproxy Id Node)) (cs : list (@tcallr Node)) x c c' : pc_of (TState ps (set_tpc x c cs)) c' =
    if Nat.eqb c' c then option_map (fun r => (tc_proxy r, x)) (nth_error cs c')
    else option_map (fun r => (tc_proxy r, tc_pc r)) (nth_error cs c').
  Proof.
    unfold pc_of, set_tpc; cbn. rewrite nth_error_alter. destruct (c' =? c); [|reflexivity].
    destruct (nth_error cs c'); reflexivity.
  Qed.

  Lemma nth_snoc_eq {A} (l : list A) x k :
    nth_error (l ++ [x]) k = if Nat.eqb k (length l) then Some x else nth_error l k.
  Proof.
    destruct (k =? length l) eqn:E.
    - apply Nat.eqb_eq in E. subst. apply nth_snoc_new.
    - apply Nat.eqb_neq in E. destruct (Nat.lt_ge_cases k (length l)); [now rewrite nth_error_app1|].
      rewrite (proj2 (nth_error_None l k)) by lia. apply nth_error_None. rewrite app_length; cbn. lia.
  Qed.

  Lemma nth_len {A} (l : list A) : nth_error l (length l) = None.
  Proof. now apply nth_error_None. Qed.

  Lemma tinv_add_proxy (st : state) os p o h : tinv st os -> o = THandle h ->
    (forall c, tp_cell p <> TRunning c) ->
    (forall g i v, p = TProxy (TSGraph g) i (TFull v) -> v = g_get g i) ->
    tinv (TState (t_proxies st ++ [p]) (t_calls st)) (os ++ [o]).
  Proof.
    intros [I1 I2 I3 I4 I5 I6] -> NR GF.
    assert (C : forall k, cell_of (TState (t_proxies st ++ [p]) (t_calls st)) k =
      if Nat.eqb k (length (t_proxies st)) then Some (tp_cell p) else cell_of st k).
    { intros k. unfold cell_of; cbn. rewrite nth_snoc_eq. destruct (k =? _); reflexivity. }
    assert (Pc : forall c, pc_of (TState (t_proxies st ++ [p]) (t_calls st)) c = pc_of st c) by reflexivity.
    assert (N : cell_of st (length (t_proxies st)) = None) by (unfold cell_of; now rewrite nth_len).
    split.
    - intros k c. rewrite C, Pc. destruct (k =? _); [intros [= X]; destruct (NR c X)|auto].
    - intros k c. rewrite C, Pc. intros X. pose proof (I4 _ _ _ X). destruct (Nat.eqb_spec k (length (t_proxies st)));
        [subst; congruence|auto].
    - intros k c r. rewrite C, Pc. intros X. pose proof (I4 _ _ _ X). destruct (Nat.eqb_spec k (length (t_proxies st)));
        [subst; congruence|eauto].
    - intros k c q. rewrite C, Pc. intros X. pose proof (I4 _ _ _ X). destruct (k =? _); congruence.
    - intros k g i v; cbn. rewrite nth_snoc_eq. destruct (k =? _); [intros [= ->]; eapply GF; reflexivity|eauto].
    - intros k. rewrite answers_app, C; cbn. specialize (I6 k). destruct (Nat.eqb_spec k (length (t_proxies st))) as [->|];
        [rewrite N in I6; lia|lia].
  Qed.

  Lemma tinv_same (st : state) os o : tinv st os -> (forall k, answers k [o] = 0) -> tinv st (os ++ [o]).
  Proof. intros [I1 I2 I3 I4 I5 I6] A. split; auto. intros k. rewrite answers_app, A. specialize (I6 k). lia. Qed.

  Lemma tinv_step (st : state) os l : tinv st os -> tinv (fst (t_step st l)) (os ++ [snd (t_step st l)]).
  Proof.
    intros I. assert (Bad : tinv st (os ++ [TInvalid])) by (apply tinv_same; auto).
    destruct l as [s i|k|k|c ans]; cbn.
    - eapply tinv_add_proxy; eauto; cbn; congruence.
    - destruct (nth_error (t_proxies st) k) as [p|] eqn:E; [|exact Bad].
      cbn. eapply tinv_add_proxy; [exact I|reflexivity| |].
      + intros c X. unfold tp_clone in X; cbn in X. destruct (tp_cell p); discriminate.
      + intros g i v X. unfold tp_clone in X. destruct p as [s j c]; cbn in X. injection X as -> -> X.
        destruct c; try discriminate. injection X as ->. eapply ti_graph; eauto.
    - destruct (nth_error (t_proxies st) k) as [p|] eqn:E; [|exact Bad].
      destruct I as [I1 I2 I3 I4 I5 I6]. cbn.
      assert (Pc : forall c, pc_of (TState (t_proxies st) (t_calls st ++ [TCallr k TAtGet])) c =
        if Nat.eqb c (length (t_calls st)) then Some (k, TAtGet) else pc_of st c).
      { intros c. unfold pc_of; cbn. rewrite nth_snoc_eq. destruct (c =? _); reflexivity. }
      assert (C : forall k', cell_of (TState (t_proxies st) (t_calls st ++ [TCallr k TAtGet])) k' = cell_of st k') by reflexivity.
      assert (N : pc_of st (length (t_calls st)) = None) by (unfold pc_of; now rewrite nth_len).
      split.
      + intros k' c X. rewrite C in X. apply I1 in X. rewrite Pc.
        destruct (Nat.eqb_spec c (length (t_calls st))); [subst; congruence|auto].
      + intros k' c. rewrite Pc, C. destruct (c =? _); [discriminate|auto].
      + intros k' c r. rewrite Pc, C. destruct (c =? _); [discriminate|eauto].
      + intros k' c q. rewrite Pc, C. destruct (c =? _); [|eauto]. intros [= <- _]. unfold cell_of. now rewrite E.
      + exact I5.
      + intros k'. rewrite answers_app, C. cbn. specialize (I6 k'). lia.
    - destruct (nth_error (t_calls st) c) as [[k pc]|] eqn:E; [|exact Bad].
      destruct (nth_error (t_proxies st) k) as [p|] eqn:Ep; [|exact Bad].
      assert (Pc0 : pc_of st c = Some (k, pc)) by (unfold pc_of; now rewrite E).
      assert (C0 : cell_of st k = Some (tp_cell p)) by (unfold cell_of; now rewrite Ep).
      assert (PcS : forall ps x c', pc_of (TState ps (set_tpc x c (t_calls st))) c' =
        if Nat.eqb c' c then Some (k, x) else pc_of st c').
      { intros ps x c'. rewrite pc_set. destruct (Nat.eqb_spec c' c); [subst; now rewrite E|reflexivity]. }
      assert (CS : forall cs x k', cell_of (TState (set_tcell x k (t_proxies st)) cs) k' =
        if Nat.eqb k' k then Some x else cell_of st k').
      { intros cs x k'. rewrite cell_set. destruct (Nat.eqb_spec k' k); [subst; now rewrite Ep|reflexivity]. }
      assert (CN : forall cs k', cell_of (TState (t_proxies st) cs) k' = cell_of st k') by reflexivity.
      destruct pc as [| |r|]; try exact Bad.
      + destruct (tp_cell p) as [|c'|v] eqn:Cl; cbn.
        * destruct I as [I1 I2 I3 I4 I5 I6]. split.
          -- intros k' c'. rewrite CS, PcS. destruct (Nat.eqb_spec k' k); [subst; intros [= ->]; now rewrite Nat.eqb_refl|].
             intros X. apply I1 in X. destruct (Nat.eqb_spec c' c); [subst; congruence|auto].
          -- intros k' c'. rewrite CS, PcS. destruct (Nat.eqb_spec c' c); [intros [= <-]; subst; now rewrite Nat.eqb_refl|].
             intros X. apply I2 in X. destruct (Nat.eqb_spec k' k); [subst; congruence|auto].
          -- intros k' c' r. rewrite CS, PcS. destruct (Nat.eqb_spec c' c); [discriminate|].
             intros X. apply I3 in X. destruct (Nat.eqb_spec k' k); [subst; congruence|auto].
          -- intros k' c' q. rewrite CS, PcS. destruct (Nat.eqb_spec c' c); [intros [= <- _]; now rewrite Nat.eqb_refl|].
             intros X. apply I4 in X. destruct (k' =? k); congruence.
          -- intros k' g i v; cbn. unfold set_tcell. rewrite nth_error_alter. destruct (k' =? k); [|eauto].
             destruct (nth_error _ k'); discriminate.
          -- intros k'. rewrite answers_app, CS; cbn. specialize (I6 k'). destruct (Nat.eqb_spec k' k); [|lia].
             subst. rewrite C0 in I6. lia.
        * apply tinv_same; auto.
        * destruct I as [I1 I2 I3 I4 I5 I6]. split.
          -- intros k' c'. rewrite CN, PcS. intros X. apply I1 in X. destruct (Nat.eqb_spec c' c); [subst; congruence|auto].
          -- intros k' c'. rewrite CN, PcS. destruct (Nat.eqb_spec c' c); [discriminate|auto].
          -- intros k' c' r. rewrite CN, PcS. destruct (Nat.eqb_spec c' c); [intros [= <- <-]; exact C0|eauto].
          -- intros k' c' q. rewrite CN, PcS. destruct (Nat.eqb_spec c' c); [intros [= <- _]; congruence|eauto].
          -- exact I5.
          -- intros k'. rewrite answers_app, CN; cbn. specialize (I6 k'). lia.
      + destruct I as [I1 I2 I3 I4 I5 I6]. pose proof (I2 _ _ Pc0) as Run.
        destruct ans as [r|]; cbn.
        * split.
          -- intros k' c'. rewrite CS, PcS. destruct (Nat.eqb_spec k' k); [discriminate|].
             intros X. apply I1 in X. destruct (Nat.eqb_spec c' c); [subst; congruence|auto].
          -- intros k' c'. rewrite CS, PcS. destruct (Nat.eqb_spec c' c); [discriminate|].
             intros X. apply I2 in X. destruct (Nat.eqb_spec k' k); [subst; congruence|auto].
          -- intros k' c' r'. rewrite CS, PcS. destruct (Nat.eqb_spec c' c); [intros [= <- <-]; now rewrite Nat.eqb_refl|].
             intros X. apply I3 in X. destruct (Nat.eqb_spec k' k); [subst; congruence|auto].
          -- intros k' c' q. rewrite CS, PcS. destruct (Nat.eqb_spec c' c); [intros [= <- _]; now rewrite Nat.eqb_refl|].
             intros X. apply I4 in X. destruct (k' =? k); congruence.
          -- intros k' g i v; cbn. unfold set_tcell. rewrite nth_error_alter. destruct (Nat.eqb_spec k' k); [|eauto].
             subst. rewrite Ep. cbn. intros [= -> -> <-]. reflexivity.
          -- intros k'. rewrite answers_app, CS; cbn. specialize (I6 k'). destruct (Nat.eqb_spec k' k); [|lia].
             subst. rewrite Run in I6. lia.
        * split.
          -- intros k' c'. rewrite CS, PcS. destruct (Nat.eqb_spec k' k); [discriminate|].
             intros X. apply I1 in X. destruct (Nat.eqb_spec c' c); [subst; congruence|auto].
          -- intros k' c'. rewrite CS, PcS. destruct (Nat.eqb_spec c' c); [discriminate|].
             intros X. apply I2 in X. destruct (Nat.eqb_spec k' k); [subst; congruence|auto].
          -- intros k' c' r'. rewrite CS, PcS. destruct (Nat.eqb_spec c' c); [discriminate|].
             intros X. apply I3 in X. destruct (Nat.eqb_spec k' k); [subst; congruence|auto].
          -- intros k' c' q. rewrite CS, PcS. destruct (Nat.eqb_spec c' c); [intros [= <- _]; now rewrite Nat.eqb_refl|].
             intros X. apply I4 in X. destruct (k' =? k); congruence.
          -- intros k' g i v; cbn. unfold set_tcell. rewrite nth_error_alter. destruct (Nat.eqb_spec k' k); [|eauto].
             subst. rewrite Ep. discriminate.
          -- intros k'. rewrite answers_app, CS; cbn. specialize (I6 k'). destruct (Nat.eqb_spec k' k); [|lia].
             subst. rewrite Run in I6. lia.
  Qed.

  Lemma tinv_after (ls : list label) : tinv (tt_after ls) (tt_outs ls).
  Proof.
    induction ls as [|l ls IH] using rev_ind.
    - assert (N : forall {A} k, nth_error (@nil A) k = None) by (intros A []; reflexivity).
      split; unfold cell_of, pc_of; cbn; intros *; rewrite ?N; try discriminate. apply Nat.le_0_l.
    - rewrite after_snoc, outs_snoc. now apply tinv_step.
  Qed.

  (** ** Histories and states *)

  Lemma pc_grows (st : state) l c k p : pc_of st c = Some (k, p) ->
    exists p', pc_of (fst (t_step st l)) c = Some (k, p') /\ ((forall ans, l <> TStep c ans) -> p' = p) /\
      (forall r, p = TDone r -> p' = p) /\ (p = TPanicked -> p' = p).
  Proof.
    intros Pc. assert (Sm : exists p', pc_of st c = Some (k, p') /\ ((forall ans, l <> TStep c ans) -> p' = p) /\
      (forall r, p = TDone r -> p' = p) /\ (p = TPanicked -> p' = p)) by (exists p; auto).
    unfold pc_of in Pc. destruct (nth_error (t_calls st) c) as [[k0 p0]|] eqn:E; [|discriminate]. injection Pc as -> ->.
    destruct l as [s i|j|j|c' ans]; cbn.
    - exact Sm.
    - destruct (nth_error (t_proxies st) j); exact Sm.
    - destruct (nth_error (t_proxies st) j); [|exact Sm].
      exists p. split; [|auto]. unfold pc_of; cbn. rewrite nth_error_app1; [now rewrite E|]. apply nth_error_Some. congruence.
    - destruct (nth_error (t_calls st) c') as [[k' pc']|] eqn:E'; [|exact Sm].
      destruct (nth_error (t_proxies st) k') as [q|] eqn:Q; [|exact Sm].
      assert (Set_ : forall ps x, (c' = c -> p = TAtGet \/ p = TInit) -> exists p', pc_of (TState ps (set_tpc x c' (t_calls st))) c = Some (k, p') /\
        ((forall ans0, TStep (Id := Id) c' ans <> TStep c ans0) -> p' = p) /\ (forall r, p = TDone r -> p' = p) /\ (p = TPanicked -> p' = p)).
      { intros ps x D. rewrite pc_set. destruct (Nat.eqb_spec c c').
        - subst c'. rewrite E. cbn. exists x. split; [reflexivity|]. split; [intros N; destruct (N ans); reflexivity|].
          destruct (D eq_refl) as [-> | ->]; split; congruence.
        - rewrite E. cbn. exists p. auto. }
      destruct pc'; try exact Sm.
      + destruct (tp_cell q); [|exact Sm|]; cbn; apply Set_; intros ->; left; congruence.
      + destruct ans; cbn; apply Set_; intros ->; right; congruence.
  Qed.

  Lemma call_on_pc (ls : list label) c k : call_on ls c k -> exists p, pc_of (tt_after ls) c = Some (k, p).
  Proof.
    induction 1 as [ls k c S|ls l k c C [p IH]]; rewrite after_snoc.
    - unfold tt_says in S. cbn in *. destruct (nth_error (t_proxies (tt_after ls)) k); cbn in S; [|discriminate].
      injection S as <-. exists TAtGet. unfold pc_of; cbn. now rewrite nth_snoc_new.
    - destruct (pc_grows _ l _ _ _ IH) as (p' & E & _). eauto.
  Qed.

  Lemma gave_pc (ls : list label) c r : gave ls c r -> exists k, pc_of (tt_after ls) c = Some (k, TDone r).
  Proof.
    induction 1 as [ls c ans r S|ls c ans k r S|ls l c r G [k IH]]; rewrite after_snoc.
    - unfold tt_says in S. cbn in *. destruct (nth_error (t_calls (tt_after ls)) c) as [[k pc]|] eqn:E; [|discriminate].
      destruct (nth_error (t_proxies (tt_after ls)) k) as [q|]; [|discriminate].
      destruct pc; try discriminate; [|destruct ans; discriminate].
      destruct (tp_cell q); try discriminate. injection S as <-. cbn. exists k. rewrite pc_set, Nat.eqb_refl, E. reflexivity.
    - unfold tt_says in S. cbn in *. destruct (nth_error (t_calls (tt_after ls)) c) as [[k' pc]|] eqn:E; [|discriminate].
      destruct (nth_error (t_proxies (tt_after ls)) k') as [q|]; [|discriminate].
      destruct pc; try discriminate; [destruct (tp_cell q); discriminate|].
      destruct ans; try discriminate. injection S as _ <-. cbn. exists k'. rewrite pc_set, Nat.eqb_refl, E. reflexivity.
    - destruct (pc_grows _ l _ _ _ IH) as (p' & E & _ & D & _). exists k. now rewrite E, (D r).
  Qed.

  Lemma crashed_pc (ls : list label) c : crashed ls c -> exists k, pc_of (tt_after ls) c = Some (k, TPanicked).
  Proof.
    induction 1 as [ls c ans k S|ls l c G [k IH]]; rewrite after_snoc.
    - unfold tt_says in S. cbn in *. destruct (nth_error (t_calls (tt_after ls)) c) as [[k' pc]|] eqn:E; [|discriminate].
      destruct (nth_error (t_proxies (tt_after ls)) k') as [q|]; [|discriminate].
      destruct pc; try discriminate; [destruct (tp_cell q); discriminate|].
      destruct ans; try discriminate. cbn. exists k'. rewrite pc_set, Nat.eqb_refl, E. reflexivity.
    - destruct (pc_grows _ l _ _ _ IH) as (p' & E & _ & _ & D). exists k. now rewrite E, D.
  Qed.

  Lemma consulting_pc (ls : list label) c k : consulting ls c k -> pc_of (tt_after ls) c = Some (k, TInit).
  Proof.
    induction 1 as [ls c ans k S|ls l c k G IH N]; rewrite after_snoc.
    - unfold tt_says in S. cbn in *. destruct (nth_error (t_calls (tt_after ls)) c) as [[k' pc]|] eqn:E; [|discriminate].
      destruct (nth_error (t_proxies (tt_after ls)) k') as [q|]; [|discriminate].
      destruct pc; try discriminate; [|destruct ans; discriminate].
      destruct (tp_cell q); try discriminate. injection S as <-. cbn. rewrite pc_set, Nat.eqb_refl, E. reflexivity.
    - destruct (pc_grows _ l _ _ _ IH) as (p' & E & D & _). now rewrite E, D.
  Qed.

  (** Backwards: what a program point says about the past. *)
  Lemma pc_back (ls : list label) c k p : pc_of (tt_after ls) c = Some (k, p) ->
    call_on ls c k /\ match p with
                      | TAtGet => True | TInit => consulting ls c k | TDone r => gave ls c r | TPanicked => crashed ls c
                      end.
  Proof.
    revert c k p. induction ls as [|l ls IH] using rev_ind; intros c k p.
    - unfold pc_of. cbn. destruct c; discriminate.
    - rewrite after_snoc. intros E.
      assert (Old : pc_of (tt_after ls) c = Some (k, p) -> (forall ans, l <> TStep c ans) \/ p <> TInit ->
        call_on (ls ++ [l]) c k /\ match p with TAtGet => True | TInit => consulting (ls ++ [l]) c k
          | TDone r => gave (ls ++ [l]) c r | TPanicked => crashed (ls ++ [l]) c end).
      { intros X N. destruct (IH _ _ _ X) as [C P]. split; [now constructor|]. destruct p; try (now constructor).
        destruct N as [N|N]; [now apply cs_goes_on|congruence]. }
      destruct l as [s i|j|j|c' ans]; cbn in E.
      + apply Old; auto. left; congruence.
      + destruct (nth_error (t_proxies (tt_after ls)) j); apply Old; auto; left; congruence.
      + destruct (nth_error (t_proxies (tt_after ls)) j) as [q|] eqn:Q; [|apply Old; auto; left; congruence].
        unfold pc_of in E; cbn in E. rewrite nth_snoc_eq in E.
        destruct (Nat.eqb_spec c (length (t_calls (tt_after ls)))); [|apply Old; auto; left; congruence].
        cbn in E. injection E as <- <-. split; [|exact I]. apply co_call. unfold tt_says. cbn. rewrite Q. cbn. now subst.
      + destruct (nth_error (t_calls (tt_after ls)) c') as [[k' pc']|] eqn:E'.
        2: { apply Old; auto. left. intros ans' [= -> ->]. unfold pc_of in E. cbn in E. rewrite E' in E. discriminate. }
        destruct (nth_error (t_proxies (tt_after ls)) k') as [q|] eqn:Q.
        2: { exfalso. refine (ti_proxy _ _ (tinv_after ls) k' c' pc' _ _); unfold pc_of, cell_of; [rewrite E'|rewrite Q]; reflexivity. }
        assert (S : tt_says ls (TStep c' ans) = snd (t_step (tt_after ls) (TStep c' ans))) by reflexivity.
        cbn in S. rewrite E', Q in S.
        assert (On : call_on ls c' k') by (refine (proj1 (IH c' k' pc' _)); unfold pc_of; now rewrite E').
        assert (Stuck : pc_of (tt_after ls) c = Some (k, p) -> pc' <> TInit -> call_on (ls ++ [TStep c' ans]) c k /\
          match p with TAtGet => True | TInit => consulting (ls ++ [TStep c' ans]) c k
            | TDone r => gave (ls ++ [TStep c' ans]) c r | TPanicked => crashed (ls ++ [TStep c' ans]) c end).
        { intros X N. apply Old; auto. destruct (Nat.eq_dec c c'); [right|left; congruence].
          subst. unfold pc_of in X. rewrite E' in X. cbn in X. congruence. }
        destruct pc'.
        * destruct (tp_cell q) as [|c2|v]; cbn in E, S.
          -- rewrite pc_set in E. destruct (Nat.eqb_spec c c').
             ++ subst c'. rewrite E' in E. cbn in E. injection E as <- <-. split; [now constructor|]. econstructor; eauto.
             ++ apply Old; auto. left; congruence.
          -- apply Stuck; auto. discriminate.
          -- rewrite pc_set in E. destruct (Nat.eqb_spec c c').
             ++ subst c'. rewrite E' in E. cbn in E. injection E as <- <-. split; [now constructor|]. eapply gv_read; eauto.
             ++ apply Old; auto. left; congruence.
        * destruct ans as [r|]; cbn in E, S; rewrite pc_set in E; (destruct (Nat.eqb_spec c c'); [|apply Old; auto; left; congruence]);
            subst c'; rewrite E' in E; cbn in E; injection E as <- <-; (split; [now constructor|]).
          -- eapply gv_asked; eauto.
          -- eapply cr_now; eauto.
        * apply Stuck; auto. discriminate.
        * apply Stuck; auto. discriminate.
  Qed.

  Lemma cell_ids (st : state) l k p : nth_error (t_proxies st) k = Some p ->
    exists x, nth_error (t_proxies (fst (t_step st l))) k = Some (TProxy (tp_source p) (tp_id p) x).
  Proof.
    intros E. assert (Sm : exists x, nth_error (t_proxies st) k = Some (TProxy (tp_source p) (tp_id p) x))
      by (exists (tp_cell p); now destruct p).
    destruct Sm as [x0 Sm0]. assert (Sm : exists x, nth_error (t_proxies st) k = Some (TProxy (tp_source p) (tp_id p) x)) by eauto.
    assert (Snoc : forall q cs, exists x, nth_error (t_proxies (TState (t_proxies st ++ [q]) cs)) k = Some (TProxy (tp_source p) (tp_id p) x))
      by (intros q cs; exists x0; now apply nth_snoc_old).
    assert (St : forall x j cs, exists y, nth_error (t_proxies (TState (set_tcell x j (t_proxies st)) cs)) k = Some (TProxy (tp_source p) (tp_id p) y)).
    { intros x j cs. cbn. unfold set_tcell. rewrite nth_error_alter, E. destruct (k =? j); cbn; [eauto|]. exists (tp_cell p). now destruct p. }
    destruct l as [s i|j|j|c ans]; cbn.
    - apply (Snoc _ (t_calls st)).
    - destruct (nth_error (t_proxies st) j); [apply (Snoc _ (t_calls st))|exact Sm].
    - destruct (nth_error (t_proxies st) j); exact Sm.
    - destruct (nth_error (t_calls st) c) as [[k' pc]|]; [|exact Sm].
      destruct (nth_error (t_proxies st) k') as [q|]; [|exact Sm].
      destruct pc; [destruct (tp_cell q)|destruct ans| |]; cbn; try exact Sm; apply (St _ _ (t_calls st)).
  Qed.

  Lemma made_for_proxy (ls : list label) k s i : made_for ls k s i ->
    exists x, nth_error (t_proxies (tt_after ls)) k = Some (TProxy s i x).
  Proof.
    induction 1 as [ls s i k S|ls j k s i M [x IH] S|ls l k s i M [x IH]]; rewrite after_snoc.
    - unfold tt_says in S. cbn in *. injection S as <-. exists TEmpty. now rewrite nth_snoc_new.
    - unfold tt_says in S. cbn in *. rewrite IH in *. cbn in S. injection S as <-. eexists. cbn. now rewrite nth_snoc_new.
    - destruct (cell_ids _ l _ _ IH) as [y E]. exists y. exact E.
  Qed.
End Facts.
