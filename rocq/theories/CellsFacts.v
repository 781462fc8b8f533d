(** Facts about guards of cells with any lifetime. *)
From Coq Require Import List Bool Arith Lia.
From Verif Require Import Tx TxMachine TxFacts TxMachineFacts Cells SpecCells.
Import ListNotations.

Section Facts.
  Context {V : Type}.
  Notation kevent := (kevent V).
  Notation kout := (kout V).
  Notation kact := (kact V).
  Notation kstate := (kstate V).

  Lemma k_run_app (es1 es2 : list kevent) : forall st : kstate,
    k_run st (es1 ++ es2) = (fst (k_run (fst (k_run st es1)) es2), snd (k_run st es1) ++ snd (k_run (fst (k_run st es1)) es2)).
  Proof.
    induction es1 as [|e es1 IH]; intros st; cbn; [now destruct (k_run st es2)|].
    destruct (k_step st e) as [st1 o]. rewrite IH. destruct (k_run st1 es1). reflexivity.
  Qed.

  Lemma k_after_snoc (es : list kevent) e : k_after (es ++ [e]) = fst (k_step (k_after es) e).
  Proof. unfold k_after. rewrite k_run_app. cbn. now destruct (k_step _ e). Qed.

  Lemma k_answers_snoc (es : list kevent) e : k_answers (es ++ [e]) = k_answers es ++ [k_says es e].
  Proof. unfold k_answers, k_says. rewrite k_run_app. cbn. fold (k_after es). now destruct (k_step _ e). Qed.

  Lemma k_answers_length (es : list kevent) : length (k_answers es) = length es.
  Proof. induction es as [|e es IH] using rev_ind; [reflexivity|]. rewrite k_answers_snoc, !app_length, IH. reflexivity. Qed.

  Lemma given_app (es1 es2 : list kevent) : forall os1 os2, length es1 = length os1 -> given (es1 ++ es2) (os1 ++ os2) = given es1 os1 + given es2 os2.
  Proof.
    induction es1 as [|[t e] es1 IH]; intros [|o os1] os2 L; try discriminate; [reflexivity|]. injection L as L. cbn.
    destruct e; cbn; try (now apply IH). destruct o; cbn; try (now apply IH). now rewrite IH.
  Qed.

  Lemma values_snoc (es : list kevent) (e : kevent) : values (es ++ [e]) =
    match snd e, k_says es e with KSet _ _, KUnit => S (values es) | _, _ => values es end.
  Proof.
    unfold values. rewrite k_answers_snoc, given_app by now rewrite k_answers_length. destruct e as [t e]. cbn.
    destruct e; cbn; try lia. destruct (k_says es _); lia.
  Qed.

  Lemma depth_snoc t (es : list kevent) (e : kevent) : depth t (es ++ [e]) =
    match e with
    | (u, KPanic) => if Nat.eqb u t then S (depth t es) else depth t es
    | (u, KCatch) => if Nat.eqb u t then pred (depth t es) else depth t es
    | _ => depth t es
    end.
  Proof. unfold depth. rewrite fold_left_app. reflexivity. Qed.

  Lemma did_snoc (es : list kevent) ev t e o e1 e2 :
    did (es ++ [ev]) t e o e1 e2 <-> (exists e2', e2 = e2' ++ [ev] /\ did es t e o e1 e2') \/ (e1 = es /\ e2 = [] /\ ev = (t, e) /\ k_says es (t, e) = o).
  Proof.
    unfold did. split.
    - intros [E S]. induction e2 as [|x e2 _] using rev_ind.
      + apply app_inj_tail in E as [-> ->]. right. auto.
      + replace (e1 ++ (t, e) :: e2 ++ [x]) with ((e1 ++ (t, e) :: e2) ++ [x]) in E by now rewrite <- app_assoc.
        apply app_inj_tail in E as [-> ->]. left. exists e2. auto.
    - intros [(e2' & -> & -> & S)|(-> & -> & -> & S)]; split; auto. now rewrite <- app_assoc.
  Qed.

  Lemma done_snoc (es : list kevent) ev t e o : done (es ++ [ev]) t e o <-> done es t e o \/ (ev = (t, e) /\ k_says es (t, e) = o).
  Proof.
    unfold done. split.
    - intros (e1 & e2 & D). apply did_snoc in D as [(e2' & _ & D)|(_ & _ & E & S)]; eauto.
    - intros [(e1 & e2 & D)|[E S]]; [exists e1, (e2 ++ [ev])|exists es, []]; apply did_snoc; eauto.
  Qed.

  Lemma did_nil t (e : kact) o e1 e2 : ~ did [] t e o e1 e2.
  Proof. intros [E _]. destruct e1; discriminate. Qed.

  Lemma did_more (es : list kevent) ev t e o e1 e2 : did es t e o e1 e2 -> did (es ++ [ev]) t e o e1 (e2 ++ [ev]).
  Proof. intros D. apply did_snoc. eauto. Qed.

  Lemma taken_snoc (es : list kevent) ev t w g x e1 :
    taken (es ++ [ev]) t w g x e1 <-> taken es t w g x e1 \/ (e1 = es /\ exists h l, ev = (t, KOpen w h) /\ k_says es ev = KOpened g l /\ refers es h x).
  Proof.
    unfold taken. split.
    - intros (h & l & e2 & D & R). apply did_snoc in D as [(e2' & _ & D)|(-> & _ & -> & S)]; [left; eauto 6|right; eauto 8].
    - intros [(h & l & e2 & D & R)|(-> & h & l & -> & S & R)]; exists h, l; [exists (e2 ++ [ev])|exists []]; (split; [apply did_snoc; eauto 8|exact R]).
  Qed.

  Lemma dropped_snoc (es : list kevent) ev g : dropped (es ++ [ev]) g <-> dropped es g \/ exists t, ev = (t, KDrop g) /\ k_says es ev = KUnit.
  Proof.
    unfold dropped. split.
    - intros [t D]. apply done_snoc in D as [D|[-> S]]; eauto.
    - intros [[t D]|(t & -> & S)]; exists t; apply done_snoc; auto.
  Qed.

  Lemma leaked_snoc (es : list kevent) ev g : leaked_guard (es ++ [ev]) g <-> leaked_guard es g \/ exists t, ev = (t, KLeak g) /\ k_says es ev = KUnit.
  Proof.
    unfold leaked_guard. split.
    - intros [t D]. apply done_snoc in D as [D|[-> S]]; eauto.
    - intros [[t D]|(t & -> & S)]; exists t; apply done_snoc; auto.
  Qed.

  Lemma spoilt_snoc (es : list kevent) ev x : spoilt (es ++ [ev]) x <->
    spoilt es x \/ exists t g e1, ev = (t, KDrop g) /\ k_says es ev = KUnit /\ taken es t true g (Some x) e1 /\ depth t e1 = 0 /\ depth t es <> 0.
  Proof.
    unfold spoilt. split.
    - intros (t & g & e1 & e2 & e3 & D & T & Z & NZ). apply did_snoc in D as [(e3' & -> & D)|(-> & -> & -> & S)]; [left; eauto 12|].
      right. exists t, g, e1. auto.
    - intros [(t & g & e1 & e2 & e3 & D & T & Z & NZ)|(t & g & e1 & -> & S & T & Z & NZ)].
      + exists t, g, e1, e2, (e3 ++ [ev]). auto using did_more.
      + exists t, g, e1, es, []. repeat split; auto.
  Qed.

  Lemma refers_snoc (es : list kevent) ev h x : refers (es ++ [ev]) h x <->
    (exists t, ev = (t, KHandle) /\ k_says es ev = KHandleNo h /\ x = None) \/
    (exists t v, ev = (t, KSet h v) /\ k_says es ev = KUnit /\ x = Some (values es)) \/
    (exists t h0, ev = (t, KClone h0) /\ k_says es ev = KHandleNo h /\ refers es h0 x) \/
    (refers es h x /\ forall t v, ev = (t, KSet h v) -> k_says es ev <> KUnit).
  Proof.
    split.
    - intros R. remember (es ++ [ev]) as l eqn:El. destruct R; apply app_inj_tail in El as [-> <-].
      + left. eauto.
      + right. left. eauto.
      + right. right. left. eauto.
      + right. right. right. auto.
    - intros [(t & -> & S & ->)|[(t & v & -> & S & ->)|[(t & h0 & -> & S & R)|[R N]]]].
      + now apply ref_new.
      + now apply ref_set.
      + now apply ref_clone.
      + now apply ref_keep.
  Qed.

  Lemma refers_nil h x : ~ refers (V := V) [] h x.
  Proof. intros R. remember [] as l eqn:El. destruct R; destruct es; discriminate. Qed.

  (** ** What a step does *)

  Record kinv (st : kstate) : Prop := KInv {
    ki_handle : forall h c, nth_error (ks_handles st) h = Some (Some c) -> c < length (ks_cells st);
    ki_guard : forall g k c, nth_error (ks_guards st) g = Some k -> kg_cell k = Some c -> c < length (ks_cells st);
    ki_wr : forall g g' k k' c, nth_error (ks_guards st) g = Some k -> nth_error (ks_guards st) g' = Some k' ->
      kg_cell k = Some c -> kg_cell k' = Some c -> kg_status k <> Dropped -> kg_status k' <> Dropped -> kg_write k = true -> g = g';
    ki_spoilt : forall g k c x, nth_error (ks_guards st) g = Some k -> kg_cell k = Some c -> kg_status k <> Dropped ->
      nth_error (ks_cells st) c = Some x -> kc_poisoned x = false
  }.

  Definition cells_of (f : kcell V -> kcell V) (c : nat) (st : kstate) : kstate :=
    KState (alter f c (ks_cells st)) (ks_handles st) (ks_guards st) (ks_panicking st).
  Definition guards_of (s : status) (g : nat) (st : kstate) : kstate :=
    KState (ks_cells st) (ks_handles st) (set_status s g st) (ks_panicking st).

  Inductive kstep (st : kstate) : kevent -> kstate -> kout -> Prop :=
  | ks_invalid ev : (match snd ev with KHandle | KPanic => False | KCatch => panics (fst ev) st = false | KOpen _ h => nth_error (ks_handles st) h = None | _ => True end) -> kstep st ev st KInvalid
  | ks_wait t w h c : nth_error (ks_handles st) h = Some (Some c) -> busy c w st = true -> kstep st (t, KOpen w h) st KWait
  | ks_handle t : kstep st (t, KHandle) (KState (ks_cells st) (ks_handles st ++ [None]) (ks_guards st) (ks_panicking st)) (KHandleNo (length (ks_handles st)))
  | ks_set t h v y : nth_error (ks_handles st) h = Some y -> borrowed h st = false ->
      kstep st (t, KSet h v)
        (KState (ks_cells st ++ [KCell v false]) (alter (fun _ => Some (length (ks_cells st))) h (ks_handles st)) (ks_guards st) (ks_panicking st)) KUnit
  | ks_clone t h y : nth_error (ks_handles st) h = Some y ->
      kstep st (t, KClone h) (KState (ks_cells st) (ks_handles st ++ [y]) (ks_guards st) (ks_panicking st)) (KHandleNo (length (ks_handles st)))
  | ks_none t w h : nth_error (ks_handles st) h = Some None ->
      kstep st (t, KOpen w h) (with_guard st (KGuard h None w t (panics t st) Live)) (KOpened (length (ks_guards st)) false)
  | ks_poison t w h c v : nth_error (ks_handles st) h = Some (Some c) -> busy c w st = false -> nth_error (ks_cells st) c = Some (KCell v true) ->
      kstep st (t, KOpen w h) (with_guard st (KGuard h None w t (panics t st) Live)) (KOpened (length (ks_guards st)) true)
  | ks_open t w h c v : nth_error (ks_handles st) h = Some (Some c) -> busy c w st = false -> nth_error (ks_cells st) c = Some (KCell v false) ->
      kstep st (t, KOpen w h) (with_guard st (KGuard h (Some c) w t (panics t st) Live)) (KOpened (length (ks_guards st)) false)
  | ks_deref t g k : own st t g = Some k ->
      kstep st (t, KDeref g) st (KVal (match kg_cell k with Some c => cell_value st c | None => None end))
  | ks_mut t g v k c : own st t g = Some k -> kg_write k = true -> kg_cell k = Some c ->
      kstep st (t, KMut g v) (cells_of (fun x => KCell v (kc_poisoned x)) c st) (KVal (cell_value st c))
  | ks_mut0 t g v k : own st t g = Some k -> kg_write k = true -> kg_cell k = None -> kstep st (t, KMut g v) st (KVal None)
  | ks_drop_poison t g k c : own st t g = Some k -> kg_cell k = Some c -> kg_write k = true -> panics t st = true -> kg_panicking k = false ->
      kstep st (t, KDrop g) (guards_of Dropped g (cells_of (fun x => KCell (kc_value x) true) c st)) KUnit
  | ks_drop t g k : own st t g = Some k -> kg_cell k = None \/ kg_write k = false \/ panics t st = false \/ kg_panicking k = true ->
      kstep st (t, KDrop g) (guards_of Dropped g st) KUnit
  | ks_leak t g k : own st t g = Some k -> kstep st (t, KLeak g) (guards_of Leaked g st) KUnit
  | ks_panic t : kstep st (t, KPanic) (KState (ks_cells st) (ks_handles st) (ks_guards st) (t :: ks_panicking st)) KUnit
  | ks_catch t : panics t st = true ->
      kstep st (t, KCatch) (KState (ks_cells st) (ks_handles st) (ks_guards st) (remove_one t (ks_panicking st))) KUnit.

  Lemma k_step_kstep (st : kstate) (ev : kevent) : kinv st -> kstep st ev (fst (k_step st ev)) (snd (k_step st ev)).
  Proof.
    intros I. destruct ev as [t [|h v|h|w h|g|g v|g|g| |]]; cbn.
    - apply ks_handle.
    - destruct (nth_error (ks_handles st) h) as [y|] eqn:N; [|now apply ks_invalid]. destruct (borrowed h st) eqn:B; [now apply ks_invalid|].
      now apply ks_set with y.
    - destruct (nth_error (ks_handles st) h) as [y|] eqn:N; [now apply ks_clone|now apply ks_invalid].
    - unfold k_open. destruct (nth_error (ks_handles st) h) as [[c|]|] eqn:N; [|now apply ks_none|now apply ks_invalid].
      destruct (busy c w st) eqn:B; [now apply ks_wait with c|]. pose proof (ki_handle _ I _ _ N) as L. apply nth_error_Some in L.
      destruct (nth_error (ks_cells st) c) as [[v []]|] eqn:C; [now apply ks_poison with c v|now apply ks_open with v|congruence].
    - destruct (own st t g) as [k|] eqn:O; [now apply ks_deref|now apply ks_invalid].
    - destruct (own st t g) as [k|] eqn:O; [|now apply ks_invalid]. destruct (kg_write k) eqn:W; [|now apply ks_invalid].
      destruct (kg_cell k) as [c|] eqn:C; [now apply ks_mut with k|now apply ks_mut0 with k].
    - destruct (own st t g) as [k|] eqn:O; [|now apply ks_invalid]. unfold k_drop. destruct (kg_cell k) as [c|] eqn:C; [|now apply ks_drop with k; auto].
      destruct (kg_write k) eqn:W; [|now apply ks_drop with k; auto]. destruct (panics t st) eqn:P; [|now apply ks_drop with k; auto].
      destruct (kg_panicking k) eqn:Q; [now apply ks_drop with k; auto|]. now apply ks_drop_poison with k.
    - destruct (own st t g) as [k|] eqn:O; [now apply ks_leak with k|now apply ks_invalid].
    - apply ks_panic.
    - destruct (panics t st) eqn:P; [now apply ks_catch|now apply ks_invalid].
  Qed.

  Lemma own_spec (st : kstate) t g k : own st t g = Some k <-> nth_error (ks_guards st) g = Some k /\ kg_thread k = t /\ kg_status k = Live.
  Proof.
    unfold own. destruct (nth_error (ks_guards st) g) as [k'|]; [|split; [discriminate|intros [E _]; discriminate]].
    destruct (Nat.eqb_spec (kg_thread k') t) as [E|E]; cbn.
    - destruct (kg_status k') eqn:S; (split; [intros F; try discriminate F|intros (F & _ & G)]); try (injection F as ->); auto; congruence.
    - split; [discriminate|]. intros (F & G & _). congruence.
  Qed.

  Lemma busy_true c w (st : kstate) : busy c w st = true <->
    exists g k, nth_error (ks_guards st) g = Some k /\ kg_cell k = Some c /\ kg_status k <> Dropped /\ (kg_write k = true \/ w = true).
  Proof.
    assert (K : forall w', existsb (k_holds c w') (ks_guards st) = true <->
      exists g k, nth_error (ks_guards st) g = Some k /\ kg_cell k = Some c /\ kg_status k <> Dropped /\ kg_write k = w').
    { intros w'. rewrite existsb_exists. split.
      - intros (k & J & E). apply In_nth_error in J as [g N]. exists g, k. unfold k_holds in E. destruct (kg_cell k) as [c'|]; [|discriminate].
        apply andb_true_iff in E as [E E3]. apply andb_true_iff in E as [E1 E2]. apply Nat.eqb_eq in E1. apply eqb_prop in E2.
        repeat split; auto; try congruence. intros S. now rewrite S in E3.
      - intros (g & k & N & C & D & W). exists k. split; [exact (nth_error_In _ _ N)|]. unfold k_holds. rewrite C, Nat.eqb_refl, W, eqb_reflx.
        destruct (kg_status k); auto; contradiction. }
    unfold busy. rewrite orb_true_iff, andb_true_iff, !K. split.
    - intros [(g & k & N & C & D & W)|[Ew (g & k & N & C & D & W)]]; exists g, k; auto.
    - intros (g & k & N & C & D & [W|W]); [left; eauto 8|]. destruct (kg_write k) eqn:X; [left|right; split; [exact W|]]; eauto 8.
  Qed.

  Lemma busy_false c w (st : kstate) : busy c w st = false <->
    forall g k, nth_error (ks_guards st) g = Some k -> kg_cell k = Some c -> kg_status k <> Dropped -> kg_write k = false /\ w = false.
  Proof.
    rewrite <- not_true_iff_false, busy_true. split.
    - intros N g k G C D. split; [destruct (kg_write k) eqn:W; auto|destruct w; auto]; exfalso; apply N; eauto 8.
    - intros N (g & k & G & C & D & [W|W]); destruct (N g k G C D); congruence.
  Qed.

  Lemma kinv_init : kinv k_init.
  Proof. constructor; cbn; intros *; try (destruct h; discriminate); destruct g; discriminate. Qed.

  Lemma nth_status (st : kstate) s g u k' : nth_error (set_status s g st) u = Some k' ->
    exists k, nth_error (ks_guards st) u = Some k /\ kg_cell k' = kg_cell k /\ kg_write k' = kg_write k /\ kg_thread k' = kg_thread k /\
      kg_panicking k' = kg_panicking k /\ kg_status k' = if Nat.eqb g u then s else kg_status k.
  Proof.
    unfold set_status. rewrite nth_error_alter. destruct (Nat.eqb g u) eqn:E.
    - destruct (nth_error (ks_guards st) u) as [k|]; [|discriminate]. intros [= <-]. exists k. cbn. auto 8.
    - intros N. exists k'. auto 8.
  Qed.

  Lemma kinv_status (st : kstate) s t g k : kinv st -> own st t g = Some k -> kinv (guards_of s g st).
  Proof.
    intros [Hh Hg Hw Hs] O. apply own_spec in O as (N & _ & L). constructor; cbn.
    - exact Hh.
    - intros u k' c N' C. apply nth_status in N' as (k0 & N' & E & _). rewrite E in C. eauto.
    - intros u u' k1 k1' c N1 N1' C1 C1' D1 D1' W1. apply nth_status in N1 as (k0 & N1 & E1 & E2 & _ & _ & E3).
      apply nth_status in N1' as (k0' & N1' & F1 & F2 & _ & _ & F3). rewrite E1 in C1. rewrite F1 in C1'. rewrite E2 in W1.
      apply (Hw u u' k0 k0' c); auto.
      + destruct (Nat.eqb_spec g u) as [->|]; [|congruence]. assert (k0 = k) by congruence. subst. rewrite L. discriminate.
      + destruct (Nat.eqb_spec g u') as [->|]; [|congruence]. assert (k0' = k) by congruence. subst. rewrite L. discriminate.
    - intros u k1 c x N1 C1 D1 Nx. apply nth_status in N1 as (k0 & N1 & E1 & E2 & _ & _ & E3). rewrite E1 in C1.
      apply (Hs u k0 c x); auto. destruct (Nat.eqb_spec g u) as [->|]; [|congruence]. assert (k0 = k) by congruence. subst. rewrite L. discriminate.
  Qed.

  Lemma kinv_open (st : kstate) t w h k : kinv st ->
    (forall c, k = Some c -> busy c w st = false /\ exists v, nth_error (ks_cells st) c = Some (KCell v false)) ->
    kinv (with_guard st (KGuard h k w t (panics t st) Live)).
  Proof.
    intros [Hh Hg Hw Hs] K.
    assert (Bz : forall c g k', k = Some c -> nth_error (ks_guards st) g = Some k' -> kg_cell k' = Some c -> kg_status k' <> Dropped -> kg_write k' = false /\ w = false).
    { intros c g k' E N C D. destruct (K c E) as [B _]. now apply (proj1 (busy_false c w st) B g k'). }
    constructor; cbn.
    - exact Hh.
    - intros g k' c N C. apply nth_error_snoc in N as [N|[_ ->]]; [eauto|]. cbn in C. destruct (K c C) as (_ & v & Nv). apply nth_error_Some. congruence.
    - intros g g' k1 k2 c N1 N2 C1 C2 D1 D2 W1. apply nth_error_snoc in N1 as [N1|[-> ->]]; apply nth_error_snoc in N2 as [N2|[-> ->]]; cbn in *; auto.
      + eapply Hw; eauto.
      + destruct (Bz c g k1 C2 N1 C1 D1). congruence.
      + destruct (Bz c g' k2 C1 N2 C2 D2). congruence.
    - intros g k' c x N C D Nx. apply nth_error_snoc in N as [N|[_ ->]]; [eauto|]. cbn in C. destruct (K c C) as (_ & v & Nv). rewrite Nv in Nx. now injection Nx as <-.
  Qed.

  Lemma kinv_step (st : kstate) (ev : kevent) : kinv st -> kinv (fst (k_step st ev)).
  Proof.
    intros I. pose proof (k_step_kstep st ev I) as K.
    destruct K as [ev J|t w h c N B|t|t h v y N B|t h y N|t w h N|t w h c v N B C|t w h c v N B C|t g k O|t g v k c O W C|t g v k O W C|t g k c O C W P Q|t g k O J|t g k O|t|t P];
      try exact I.
    - destruct I as [Hh Hg Hw Hs]. constructor; cbn; auto. intros h c N. apply nth_error_snoc in N as [N|[_ E]]; [eauto|discriminate].
    - destruct I as [Hh Hg Hw Hs]. constructor; cbn; auto.
      + intros u c E. rewrite app_length. cbn. rewrite nth_error_alter in E. destruct (Nat.eqb h u).
        * destruct (nth_error (ks_handles st) u); [|discriminate]. injection E as <-. lia.
        * specialize (Hh _ _ E). lia.
      + intros g k c E C. rewrite app_length. specialize (Hg g k c E C). lia.
      + intros g k c x E C D Nx. pose proof (Hg g k c E C) as L. rewrite nth_error_app1 in Nx by exact L. eauto.
    - destruct I as [Hh Hg Hw Hs]. constructor; cbn; auto. intros u c E. apply nth_error_snoc in E as [E|[_ <-]]; eauto.
    - apply kinv_open; [exact I|discriminate].
    - apply kinv_open; [exact I|discriminate].
    - apply kinv_open; [exact I|]. intros c' [= <-]. eauto.
    - destruct I as [Hh Hg Hw Hs]. constructor; cbn; auto.
      + intros h c'. rewrite alter_length. apply Hh.
      + intros g' k' c'. rewrite alter_length. apply Hg.
      + intros g' k' c' x E F D Nx. rewrite nth_error_alter in Nx. destruct (Nat.eqb_spec c c') as [->|].
        * destruct (nth_error (ks_cells st) c') as [y|] eqn:Ny; [|discriminate]. injection Nx as <-. cbn. eauto.
        * eauto.
    - pose proof O as O'. apply own_spec in O' as (N & _ & L). pose proof (kinv_status st Dropped t g k I O) as [Hh Hg Hw Hs].
      constructor; cbn in *; auto.
      + intros h c'. rewrite alter_length. apply Hh.
      + intros g' k' c'. rewrite alter_length. apply Hg.
      + intros g' k' c' x E F D Nx. unfold set_status in Hs. cbn in *. rewrite nth_error_alter in Nx. destruct (Nat.eqb_spec c c') as [->|]; [|eauto].
        exfalso. apply nth_status in E as (k0 & N0 & E1 & E2 & _ & _ & E3). cbn in N0. rewrite E1 in F.
        destruct (Nat.eqb_spec g g') as [->|Dg]; [contradiction|]. apply Dg. apply (ki_wr st I g g' k k0 c'); auto; [rewrite L; discriminate|congruence].
    - now apply kinv_status with t k.
    - now apply kinv_status with t k.
    - destruct I as [Hh Hg Hw Hs]. now constructor.
    - destruct I as [Hh Hg Hw Hs]. now constructor.
  Qed.

  Lemma kinv_after (es : list kevent) : kinv (k_after es).
  Proof. induction es as [|e es IH] using rev_ind; [apply kinv_init|]. rewrite k_after_snoc. now apply kinv_step. Qed.

  (** ** Histories and states *)

  Lemma step_of (es : list kevent) ev : kstep (k_after es) ev (k_after (es ++ [ev])) (k_says es ev).
  Proof. rewrite k_after_snoc. apply k_step_kstep, kinv_after. Qed.

  Ltac steps es ev :=
    let S := fresh "S" in pose proof (step_of es ev) as S;
    remember (k_says es ev) as o eqn:So; remember (k_after (es ++ [ev])) as st' eqn:Est;
    destruct S as [ev J|t w h c N B|t|t h v y N B|t h y N|t w h N|t w h c v N B C|t w h c v N B C|t g k O|t g v k c O W C|t g v k O W C|t g k c O C W P Q|t g k O J|t g k O|t|t P].

  Lemma len_cells (es : list kevent) : length (ks_cells (k_after es)) = values es.
  Proof.
    induction es as [|ev es IH] using rev_ind; [reflexivity|]. rewrite values_snoc.
    steps es ev; cbn [snd ks_cells cells_of guards_of with_guard]; rewrite ?alter_length, ?app_length, ?IH; try reflexivity.
    - destruct ev as [t []]; reflexivity.
    - cbn. lia.
  Qed.

  Lemma count_remove t u (l : list nat) : count_occ Nat.eq_dec (remove_one t l) u = if Nat.eqb t u then pred (count_occ Nat.eq_dec l u) else count_occ Nat.eq_dec l u.
  Proof.
    induction l as [|x l IH]; cbn; [now destruct (Nat.eqb t u)|]. destruct (Nat.eqb_spec x t) as [->|D].
    - destruct (Nat.eq_dec t u) as [->|E]; [now rewrite Nat.eqb_refl|]. now rewrite (proj2 (Nat.eqb_neq t u) E).
    - cbn. rewrite IH. destruct (Nat.eq_dec x u) as [->|E]; [|reflexivity].
      destruct (Nat.eqb_spec t u) as [->|]; [congruence|reflexivity].
  Qed.

  Lemma count_depth (es : list kevent) th : count_occ Nat.eq_dec (ks_panicking (k_after es)) th = depth th es.
  Proof.
    induction es as [|ev es IH] using rev_ind; [reflexivity|]. rewrite depth_snoc.
    assert (Pn : panics th (k_after es) = false -> depth th es = 0).
    { intros P. rewrite <- IH. apply count_occ_not_In. intros J. unfold panics in P. rewrite <- not_true_iff_false in P. apply P.
      apply existsb_exists. exists th. split; [exact J|apply Nat.eqb_refl]. }
    steps es ev; cbn [ks_panicking cells_of guards_of with_guard]; try exact IH.
    - destruct ev as [u []]; try exact IH; cbn in J; [contradiction|]. destruct (Nat.eqb_spec u th) as [->|]; [|exact IH]. now rewrite IH, Pn.
    - cbn. rewrite IH. destruct (Nat.eq_dec t th) as [->|E]; [now rewrite Nat.eqb_refl|]. now rewrite (proj2 (Nat.eqb_neq t th) E).
    - rewrite count_remove, IH. reflexivity.
  Qed.

  Lemma panics_depth (es : list kevent) t : panics t (k_after es) = negb (Nat.eqb (depth t es) 0).
  Proof.
    rewrite <- count_depth. destruct (panics t (k_after es)) eqn:P.
    - unfold panics in P. apply existsb_exists in P as (u & J & E). apply Nat.eqb_eq in E. subst u.
      apply (count_occ_In Nat.eq_dec) in J. destruct (count_occ _ _ t); [lia|reflexivity].
    - replace (count_occ Nat.eq_dec (ks_panicking (k_after es)) t) with 0; [reflexivity|]. symmetry. apply count_occ_not_In. intros J.
      unfold panics in P. rewrite <- not_true_iff_false in P. apply P. apply existsb_exists. exists t. split; [exact J|apply Nat.eqb_refl].
  Qed.

  Lemma refers_spec (es : list kevent) : forall h x, refers es h x <-> nth_error (ks_handles (k_after es)) h = Some x.
  Proof.
    induction es as [|ev es IH] using rev_ind; intros h' x.
    { split; [intros R; now apply refers_nil in R|]. intros N. destruct h'; discriminate. }
    rewrite refers_snoc, (IH h' x).
    assert (F : forall (P1 P2 P3 P4 P5 : Prop), (~ P1 -> ~ P2 -> ~ P3 -> P5 -> (P1 \/ P2 \/ P3 \/ (P4 /\ P5)) <-> P4)) by tauto.
    steps es ev; cbn [ks_handles cells_of guards_of with_guard];
      try (apply F; [intros (? & E & _); discriminate|intros (? & ? & E & _); discriminate|intros (? & ? & E & _); discriminate|intros ? ? E; discriminate]).
    - destruct ev as [t e]. apply F; [intros (u & E & S & _)|intros (u & v & E & S & _)|intros (u & h0 & E & S & _)|intros u v _]; discriminate.
    - split.
      + intros [(u & E & [= <-] & ->)|[(u & v & E & _)|[(u & h0 & E & _)|[N _]]]]; try discriminate; apply nth_error_snoc; auto.
      + intros N. apply nth_error_snoc in N as [N|[-> ->]]; [|left; eauto]. right. right. right. split; [exact N|]. intros; discriminate.
    - rewrite nth_error_alter. destruct (Nat.eqb_spec h h') as [->|D].
      + rewrite N. cbn. split.
        * intros [(u & E & _)|[(u & w & E & _ & ->)|[(u & h0 & E & _)|[_ K]]]]; try discriminate; [now rewrite len_cells|].
          exfalso. eapply K; reflexivity.
        * intros [= <-]. right. left. exists t, v. now rewrite len_cells.
      + split.
        * intros [(u & E & _)|[(u & w & [= _ E _] & _)|[(u & h0 & E & _)|[K _]]]]; try discriminate; [congruence|exact K].
        * intros K. right. right. right. split; [exact K|]. intros u w [= _ E _]. congruence.
    - split.
      + intros [(u & E & _)|[(u & w & E & _)|[(u & h0 & [= -> ->] & [= <-] & R)|[K _]]]]; try discriminate; apply nth_error_snoc; auto.
        right. split; [reflexivity|]. apply IH in R. congruence.
      + intros K. apply nth_error_snoc in K as [K|[-> ->]].
        * right. right. right. split; [exact K|]. intros; discriminate.
        * right. right. left. exists t, h. repeat split. now apply IH.
  Qed.

  Lemma dropped_spec (es : list kevent) g0 : dropped es g0 <-> exists k, nth_error (ks_guards (k_after es)) g0 = Some k /\ kg_status k = Dropped.
  Proof.
    induction es as [|ev es IH] using rev_ind.
    { split; [intros (t & e1 & e2 & D); now apply did_nil in D|]. intros (k & N & _). destruct g0; discriminate. }
    rewrite dropped_snoc, IH.
    assert (F : forall (P Q : Prop), ~ Q -> (P \/ Q) <-> P) by tauto.
    assert (Dr : forall t g k, own (k_after es) t g = Some k ->
      ((exists k0, nth_error (ks_guards (k_after es)) g0 = Some k0 /\ kg_status k0 = Dropped) \/ (exists u, (t, KDrop (V := V) g) = (u, KDrop g0) /\ KUnit (V := V) = KUnit)) <->
      exists k0, nth_error (set_status Dropped g (k_after es)) g0 = Some k0 /\ kg_status k0 = Dropped).
    { intros t g k O. apply own_spec in O as (N & _ & L). unfold set_status. rewrite nth_error_alter. destruct (Nat.eqb_spec g g0) as [->|D].
      - rewrite N. cbn. split; [intros _; eexists; split; reflexivity|]. intros _. right. eauto.
      - split; [intros [K|(u & [= _ E] & _)]; [exact K|congruence]|auto]. }
    steps es ev; cbn [ks_guards cells_of guards_of with_guard]; try (apply F; intros (u & E & _); discriminate).
    - apply F. intros (u & _ & E). discriminate.
    - rewrite F by (intros (u & E & _); discriminate). split; intros (k & K & S); [exists k; split; [apply nth_error_snoc; auto|exact S]|].
      apply nth_error_snoc in K as [K|[-> ->]]; [eauto|discriminate].
    - rewrite F by (intros (u & E & _); discriminate). split; intros (k & K & S); [exists k; split; [apply nth_error_snoc; auto|exact S]|].
      apply nth_error_snoc in K as [K|[-> ->]]; [eauto|discriminate].
    - rewrite F by (intros (u & E & _); discriminate). split; intros (k & K & S); [exists k; split; [apply nth_error_snoc; auto|exact S]|].
      apply nth_error_snoc in K as [K|[-> ->]]; [eauto|discriminate].
    - apply (Dr t g k O).
    - apply (Dr t g k O).
    - rewrite F by (intros (u & E & _); discriminate). apply own_spec in O as (N & _ & L). unfold set_status. rewrite nth_error_alter.
      destruct (Nat.eqb_spec g g0) as [->|D]; [|reflexivity]. rewrite N. cbn. split; intros (k0 & K & S); [injection K as <-; congruence|].
      injection K as <-. discriminate.
  Qed.

  Lemma leaked_spec (es : list kevent) g0 : leaked_guard es g0 <-> exists k, nth_error (ks_guards (k_after es)) g0 = Some k /\ kg_status k = Leaked.
  Proof.
    induction es as [|ev es IH] using rev_ind.
    { split; [intros (t & e1 & e2 & D); now apply did_nil in D|]. intros (k & N & _). destruct g0; discriminate. }
    rewrite leaked_snoc, IH.
    assert (F : forall (P Q : Prop), ~ Q -> (P \/ Q) <-> P) by tauto.
    assert (Dr : forall t g k, own (k_after es) t g = Some k ->
      (exists k0, nth_error (ks_guards (k_after es)) g0 = Some k0 /\ kg_status k0 = Leaked) <->
      exists k0, nth_error (set_status Dropped g (k_after es)) g0 = Some k0 /\ kg_status k0 = Leaked).
    { intros t g k O. apply own_spec in O as (N & _ & L). unfold set_status. rewrite nth_error_alter. destruct (Nat.eqb_spec g g0) as [->|D]; [|reflexivity].
      rewrite N. cbn. split; intros (k0 & K & S); [injection K as <-; congruence|]. injection K as <-. discriminate. }
    steps es ev; cbn [ks_guards cells_of guards_of with_guard]; try (apply F; intros (u & E & _); discriminate).
    - apply F. intros (u & _ & E). discriminate.
    - rewrite F by (intros (u & E & _); discriminate). split; intros (k & K & S); [exists k; split; [apply nth_error_snoc; auto|exact S]|].
      apply nth_error_snoc in K as [K|[-> ->]]; [eauto|discriminate].
    - rewrite F by (intros (u & E & _); discriminate). split; intros (k & K & S); [exists k; split; [apply nth_error_snoc; auto|exact S]|].
      apply nth_error_snoc in K as [K|[-> ->]]; [eauto|discriminate].
    - rewrite F by (intros (u & E & _); discriminate). split; intros (k & K & S); [exists k; split; [apply nth_error_snoc; auto|exact S]|].
      apply nth_error_snoc in K as [K|[-> ->]]; [eauto|discriminate].
    - rewrite F by (intros (u & E & _); discriminate). apply (Dr t g k O).
    - rewrite F by (intros (u & E & _); discriminate). apply (Dr t g k O).
    - apply own_spec in O as (N & _ & L). unfold set_status. rewrite nth_error_alter. destruct (Nat.eqb_spec g g0) as [->|D].
      + rewrite N. cbn. split; [intros _; eexists; split; reflexivity|]. intros _. right. eauto.
      + split; [intros [K|(u & [= _ E] & _)]; [exact K|congruence]|auto].
  Qed.

  (** What was known of the value when the guard was taken decides what the guard gives. *)
  Definition cell_at (e1 : list kevent) (x k : option nat) : Prop :=
    match x with
    | None => k = None
    | Some c => (k = None /\ spoilt e1 c) \/ (k = Some c /\ ~ spoilt e1 c)
    end.

  Record ghist (es : list kevent) : Prop := GHist {
    gh_taken : forall t w g x e1, taken es t w g x e1 -> exists h k s,
      nth_error (ks_guards (k_after es)) g = Some (KGuard h k w t (negb (Nat.eqb (depth t e1) 0)) s) /\ cell_at e1 x k;
    gh_guard : forall g k, nth_error (ks_guards (k_after es)) g = Some k -> exists x e1, taken es (kg_thread k) (kg_write k) g x e1;
    gh_prefix : forall t w g x e1, taken es t w g x e1 -> exists e2, es = e1 ++ e2;
    gh_spoilt : forall x, spoilt es x <-> exists v, nth_error (ks_cells (k_after es)) x = Some (KCell v true)
  }.

  Lemma spoilt_app (es es' : list kevent) x : spoilt es x -> spoilt (es ++ es') x.
  Proof.
    intros K. induction es' as [|e es' IH] using rev_ind; [now rewrite app_nil_r|]. rewrite app_assoc. apply spoilt_snoc. now left.
  Qed.

  Lemma ghist_after (es : list kevent) : ghist es.
  Proof.
    induction es as [|ev es [Ht Hg Hp Hs]] using rev_ind.
    { constructor.
      - intros t w g x e1 (h & l & e2 & D & _). now apply did_nil in D.
      - intros [] k N; discriminate.
      - intros t w g x e1 (h & l & e2 & D & _). now apply did_nil in D.
      - intros x. split; [intros (t & g & e1 & e2 & e3 & D & _); now apply did_nil in D|]. intros (v & N). destruct x; discriminate. }
    constructor.
    - (* taken: the guard is there *)
      intros t0 w0 g0 x e1 T. apply taken_snoc in T as [T|(-> & h0 & l0 & -> & S & R)].
      + destruct (Ht _ _ _ _ _ T) as (h1 & k1 & s1 & N1 & C1).
        assert (St : forall s g, exists s', nth_error (set_status s g (k_after es)) g0 = Some (KGuard h1 k1 w0 t0 (negb (Nat.eqb (depth t0 e1) 0)) s')).
        { intros s g. unfold set_status. rewrite nth_error_alter, N1. destruct (Nat.eqb g g0); cbn; eauto. }
        steps es ev; cbn [ks_guards cells_of guards_of with_guard]; try (exists h1, k1, s1; split; [exact N1|exact C1]);
          try (exists h1, k1, s1; split; [apply nth_error_snoc; auto|exact C1]).
        * destruct (St Dropped g) as [s' N']. eauto.
        * destruct (St Dropped g) as [s' N']. eauto.
        * destruct (St Leaked g) as [s' N']. eauto.
      + apply refers_spec in R. pose proof (step_of es (t0, KOpen w0 h0)) as St. rewrite S in St.
        inversion St; subst; cbn [ks_guards with_guard]; rewrite <- panics_depth;
          (eexists; eexists; eexists; split; [apply nth_error_snoc; right; split; reflexivity|]).
        * assert (x = None) by congruence. subst x. reflexivity.
        * assert (x = Some c) by congruence. subst x. left. split; [reflexivity|]. apply Hs. eauto.
        * assert (x = Some c) by congruence. subst x. right. split; [reflexivity|]. intros K. apply Hs in K as [v' K]. congruence.
    - intros g0 k0 N0. setoid_rewrite taken_snoc.
      assert (Old : forall k1, nth_error (ks_guards (k_after es)) g0 = Some k1 -> kg_thread k0 = kg_thread k1 -> kg_write k0 = kg_write k1 ->
        exists x e1, taken es (kg_thread k0) (kg_write k0) g0 x e1 \/
          e1 = es /\ (exists h l, ev = (kg_thread k0, KOpen (kg_write k0) h) /\ k_says es ev = KOpened g0 l /\ refers es h x)).
      { intros k1 N1 -> ->. destruct (Hg _ _ N1) as (x & e1 & T). eauto. }
      steps es ev; cbn [ks_guards cells_of guards_of with_guard] in N0; eauto.
      + apply nth_error_snoc in N0 as [N0|[-> ->]]; [eauto|]. exists None, es. right. split; [reflexivity|]. exists h, false. repeat split. now apply refers_spec.
      + apply nth_error_snoc in N0 as [N0|[-> ->]]; [eauto|]. exists (Some c), es. right. split; [reflexivity|]. exists h, true. repeat split. now apply refers_spec.
      + apply nth_error_snoc in N0 as [N0|[-> ->]]; [eauto|]. exists (Some c), es. right. split; [reflexivity|]. exists h, false. repeat split. now apply refers_spec.
      + apply nth_status in N0 as (k1 & N1 & _ & E1 & E2 & _). eauto.
      + apply nth_status in N0 as (k1 & N1 & _ & E1 & E2 & _). eauto.
      + apply nth_status in N0 as (k1 & N1 & _ & E1 & E2 & _). eauto.
    - intros t w g x e1 T. apply taken_snoc in T as [T|(-> & _)]; [|eauto]. destruct (Hp _ _ _ _ _ T) as [e2 ->]. exists (e2 ++ [ev]). now rewrite app_assoc.
    - intros x. rewrite spoilt_snoc, Hs.
      assert (F : forall (P Q : Prop), ~ Q -> (P \/ Q) <-> P) by tauto.
      steps es ev; cbn [ks_cells cells_of guards_of with_guard]; try (apply F; intros (? & ? & ? & E & _); discriminate).
      + apply F. intros (? & ? & ? & _ & E & _). discriminate.
      + rewrite F by (intros (? & ? & ? & E & _); discriminate). split; intros (v' & K); exists v'; [apply nth_error_snoc; auto|].
        apply nth_error_snoc in K as [K|[_ K]]; [exact K|discriminate].
      + rewrite F by (intros (? & ? & ? & E & _); discriminate). rewrite nth_error_alter. destruct (Nat.eqb_spec c x) as [->|]; [|reflexivity].
        destruct (nth_error (ks_cells (k_after es)) x) as [[v0 p0]|]; cbn; split; intros (v' & K); try discriminate; injection K as _ ->; eauto.
      + rewrite nth_error_alter. pose proof O as O'. apply own_spec in O' as (N & Th & L). destruct (Nat.eqb_spec c x) as [->|D].
        * pose proof (ki_guard _ (kinv_after es) _ _ _ N C) as Lc. apply nth_error_Some in Lc.
          destruct (nth_error (ks_cells (k_after es)) x) as [y|] eqn:Ny; [|congruence]. cbn. split; [eauto|]. intros _.
          destruct (Hg _ _ N) as (x0 & e1 & T). rewrite Th, W in T. destruct (Ht _ _ _ _ _ T) as (h1 & k1 & s1 & N1 & C1).
          rewrite N in N1. injection N1 as ->. cbn in *. right. exists t, g, e1.
          assert (Ex : x0 = Some x). { subst k1. destruct x0 as [c0|]; cbn in C1; [|discriminate]. destruct C1 as [[E _]|[[= ->] _]]; [discriminate|reflexivity]. }
          rewrite panics_depth in P. repeat split; auto; [congruence| |].
          -- destruct (depth t e1); [reflexivity|discriminate].
          -- intros Z. rewrite Z in P. discriminate.
        * split; [|auto]. intros [K|(t1 & g1 & e1 & [= <- <-] & _ & T & Z & _)]; [exact K|]. exfalso.
          destruct (Ht _ _ _ _ _ T) as (h1 & k1 & s1 & N1 & C1). rewrite N in N1. injection N1 as ->. cbn in *.
          destruct C1 as [[E _]|[E _]]; congruence.
      + split; [|auto]. intros [K|(t1 & g1 & e1 & [= <- <-] & _ & T & Z & NZ)]; [exact K|]. apply own_spec in O as (N & Th & L).
        destruct (Ht _ _ _ _ _ T) as (h1 & k1 & s1 & N1 & C1). rewrite N in N1. injection N1 as ->. rewrite panics_depth in J. rewrite Z in J. cbn in J.
        destruct (Hp _ _ _ _ _ T) as [e2 ->]. apply Hs.
        destruct J as [->|[J|[J|J]]]; try discriminate.
        * destruct C1 as [[_ K]|[K _]]; [|discriminate]. now apply spoilt_app.
        * exfalso. apply NZ. destruct (depth t (e1 ++ e2)); [reflexivity|discriminate].
  Qed.

  Lemma gives_spec (es : list kevent) t w g x : gives es t w g x <->
    exists k, nth_error (ks_guards (k_after es)) g = Some k /\ kg_cell k = Some x /\ kg_write k = w /\ kg_thread k = t.
  Proof.
    destruct (ghist_after es) as [Ht Hg Hp Hs]. split.
    - intros (e1 & T & NS). destruct (Ht _ _ _ _ _ T) as (h & k & s & N & C). eexists. split; [exact N|]. cbn in *.
      destruct C as [[_ S]|[-> _]]; [contradiction|auto].
    - intros (k & N & C & <- & <-). destruct (Hg _ _ N) as (x0 & e1 & T). exists e1. destruct (Ht _ _ _ _ _ T) as (h & k1 & s & N1 & C1).
      apply (f_equal (fun o => match o with Some y => kg_cell y | None => None end)) in N1. rewrite N in N1. cbn in N1. rewrite C in N1. subst k1. destruct x0 as [c|]; cbn in C1; [|discriminate].
      destruct C1 as [[E _]|[[= ->] NS]]; [discriminate|auto].
  Qed.

  Lemma empty_spec (es : list kevent) g : empty_guard es g <-> exists k, nth_error (ks_guards (k_after es)) g = Some k /\ kg_cell k = None.
  Proof.
    destruct (ghist_after es) as [Ht Hg Hp Hs]. split.
    - intros (t & w & x & e1 & T & E). destruct (Ht _ _ _ _ _ T) as (h & k & s & N & C). eexists. split; [exact N|]. cbn.
      destruct E as [->|(c & -> & S)]; [exact C|]. destruct C as [[-> _]|[_ NS]]; [reflexivity|contradiction].
    - intros (k & N & C). destruct (Hg _ _ N) as (x0 & e1 & T). exists (kg_thread k), (kg_write k), x0, e1. split; [exact T|].
      destruct (Ht _ _ _ _ _ T) as (h & k1 & s & N1 & C1). apply (f_equal (fun o => match o with Some y => kg_cell y | None => None end)) in N1. rewrite N in N1. cbn in N1. rewrite C in N1. subst k1.
      destruct x0 as [c|]; [|auto]. destruct C1 as [[_ S]|[E _]]; [eauto|discriminate].
  Qed.

  Lemma holding_spec (es : list kevent) w g x : holding es w g x <->
    exists k, nth_error (ks_guards (k_after es)) g = Some k /\ kg_cell k = Some x /\ kg_write k = w /\ kg_status k <> Dropped.
  Proof.
    unfold holding. rewrite dropped_spec. split.
    - intros [[t G] D]. apply gives_spec in G as (k & N & C & W & _). exists k. repeat split; auto. intros S. apply D. eauto.
    - intros (k & N & C & W & S). split; [exists (kg_thread k); apply gives_spec; eauto|]. intros (k' & N' & S'). congruence.
  Qed.

  Lemma excluded_spec (es : list kevent) w x : excluded_from es w x <-> busy x w (k_after es) = true.
  Proof.
    rewrite busy_true. unfold excluded_from. split.
    - intros [[g K]|[-> [g K]]]; apply holding_spec in K as (k & N & C & W & S); exists g, k; auto 6.
    - intros (g & k & N & C & S & [W|W]).
      + left. exists g. apply holding_spec. eauto.
      + destruct (kg_write k) eqn:X; [left; exists g; apply holding_spec; eauto|]. right. split; [exact W|]. exists g. apply holding_spec. eauto.
  Qed.

  Lemma live_own (es : list kevent) t w g x : gives es t w g x -> ~ dropped es g -> ~ leaked_guard es g ->
    exists k, own (k_after es) t g = Some k /\ kg_cell k = Some x /\ kg_write k = w.
  Proof.
    intros G D L. apply gives_spec in G as (k & N & C & W & T). exists k. split; [|auto]. apply own_spec. repeat split; auto.
    destruct (kg_status k) eqn:S; [reflexivity| |]; exfalso; [apply D, dropped_spec|apply L, leaked_spec]; eauto.
  Qed.

  (** ** What is in a value *)

  Lemma put_snoc (es : list kevent) ev x v e1 e2 : put (es ++ [ev]) x v e1 e2 <->
    (exists e2', e2 = e2' ++ [ev] /\ put es x v e1 e2') \/
    (e1 = es /\ e2 = [] /\ exists t g old, ev = (t, KMut g v) /\ k_says es ev = KVal (Some old) /\ gives es t true g x).
  Proof.
    unfold put. split.
    - intros (t & g & old & D & G). apply did_snoc in D as [(e2' & -> & D)|(-> & -> & -> & S)]; [left; eauto 8|right; eauto 10].
    - intros [(e2' & -> & t & g & old & D & G)|(-> & -> & t & g & old & -> & S & G)]; exists t, g, old; (split; [|exact G]); apply did_snoc; [left; eauto|right; auto].
  Qed.

  Lemma put_length (es : list kevent) x v e1 e2 : put es x v e1 e2 -> length e1 < length es.
  Proof. intros (t & g & old & [-> _] & _). rewrite app_length. cbn. lia. Qed.

  Definition puts_now (es : list kevent) (ev : kevent) (x : nat) (v : V) : Prop :=
    exists t g old, ev = (t, KMut g v) /\ k_says es ev = KVal (Some old) /\ gives es t true g x.

  Lemma contains_put (es : list kevent) ev x v' v : puts_now es ev x v' -> contains_value (es ++ [ev]) x v <-> v = v'.
  Proof.
    intros P. assert (Pn : put (es ++ [ev]) x v' es []) by (apply put_snoc; right; auto). split.
    - intros [(e1 & e2 & P1 & M)|[N _]]; [|exfalso; eapply N; eassumption]. specialize (M _ _ _ Pn).
      apply put_snoc in P1 as [(e2' & -> & P1)|(-> & -> & t & g & old & E & _)]; [apply put_length in P1; lia|].
      destruct P as (t' & g' & old' & E' & _). congruence.
    - intros ->. left. exists es, []. split; [exact Pn|]. intros v0 e3 e4 P0. apply put_length in P0. rewrite app_length in P0. cbn in P0. lia.
  Qed.

  Lemma contains_other (es : list kevent) ev x v : (forall v', ~ puts_now es ev x v') ->
    (contains_value (es ++ [ev]) x v <-> contains_value es x v \/
      ((forall v' e3 e4, ~ put es x v' e3 e4) /\ exists t h, ev = (t, KSet h v) /\ k_says es ev = KUnit /\ values es = x)).
  Proof.
    intros NP.
    assert (Eq : forall v' e1 e2, put (es ++ [ev]) x v' e1 e2 <-> exists e2', e2 = e2' ++ [ev] /\ put es x v' e1 e2').
    { intros v' e1 e2. rewrite put_snoc. split; [intros [K|(-> & -> & K)]; [exact K|]|auto]. exfalso. now apply (NP v'). }
    unfold contains_value. split.
    - intros [(e1 & e2 & P & M)|(N & t & h & e1 & e2 & D & E)].
      + left. left. apply Eq in P as (e2' & -> & P). exists e1, e2'. split; [exact P|]. intros v' e3 e4 P'. apply (M v' e3 (e4 ++ [ev])). apply Eq. eauto.
      + assert (N' : forall v' e3 e4, ~ put es x v' e3 e4) by (intros v' e3 e4 P; apply (N v' e3 (e4 ++ [ev])); apply Eq; eauto).
        apply did_snoc in D as [(e2' & -> & D)|(-> & -> & -> & S)]; [left; right; eauto 8|right; eauto 8].
    - intros [[(e1 & e2 & P & M)|(N & t & h & e1 & e2 & D & E)]|(N & t & h & -> & S & E)].
      + left. exists e1, (e2 ++ [ev]). split; [apply Eq; eauto|]. intros v' e3 e4 P'. apply Eq in P' as (e4' & -> & P'). eauto.
      + right. split; [intros v' e3 e4 P; apply Eq in P as (e4' & -> & P); eapply N; eassumption|]. exists t, h, e1, (e2 ++ [ev]). split; [now apply did_more|exact E].
      + right. split; [intros v' e3 e4 P; apply Eq in P as (e4' & -> & P); eapply N; eassumption|]. exists t, h, es, []. split; [split; auto|exact E].
  Qed.

  Lemma gives_bound (es : list kevent) t w g x : gives es t w g x -> x < values es.
  Proof. intros G. apply gives_spec in G as (k & N & C & _). rewrite <- len_cells. exact (ki_guard _ (kinv_after es) _ _ _ N C). Qed.

  Lemma values_mono (es es' : list kevent) : values es <= values (es ++ es').
  Proof.
    induction es' as [|e es' IH] using rev_ind; [now rewrite app_nil_r|]. rewrite app_assoc, values_snoc. destruct (snd e), (k_says (es ++ es') e); lia.
  Qed.

  Lemma put_bound (es : list kevent) x v e1 e2 : put es x v e1 e2 -> x < values es.
  Proof. intros (t & g & old & [-> _] & G). apply gives_bound in G. pose proof (values_mono e1 ((t, KMut g v) :: e2)). lia. Qed.

  Lemma contains_bound (es : list kevent) x v : contains_value es x v -> x < values es.
  Proof.
    intros [(e1 & e2 & P & _)|(_ & t & h & e1 & e2 & [-> S] & <-)]; [now apply put_bound in P|].
    replace (e1 ++ (t, KSet h v) :: e2) with ((e1 ++ [(t, KSet h v)]) ++ e2) by now rewrite <- app_assoc.
    pose proof (values_mono (e1 ++ [(t, KSet h v)]) e2) as M. rewrite values_snoc, S in M. cbn in M. lia.
  Qed.

  Lemma says_mut (es : list kevent) t g v old : k_says es (t, KMut g v) = KVal (Some old) ->
    exists k c, own (k_after es) t g = Some k /\ kg_write k = true /\ kg_cell k = Some c /\ cell_value (k_after es) c = Some old /\
      k_after (es ++ [(t, KMut g v)]) = cells_of (fun x => KCell v (kc_poisoned x)) c (k_after es).
  Proof.
    rewrite k_after_snoc. unfold k_says. cbn. destruct (own (k_after es) t g) as [k|]; [|discriminate]. destruct (kg_write k) eqn:W; [|discriminate].
    destruct (kg_cell k) as [c|] eqn:C; [|discriminate]. intros [= E]. exists k, c. auto 8.
  Qed.

  Lemma contains_spec (es : list kevent) x v : contains_value es x v <-> cell_value (k_after es) x = Some v.
  Proof.
    revert x v. induction es as [|ev es IH] using rev_ind; intros x v0.
    { split; [intros K; apply contains_bound in K; cbn in K; lia|]. intros K. unfold cell_value in K. destruct x; discriminate. }
    assert (Dec : (exists v', puts_now es ev x v') \/ forall v', ~ puts_now es ev x v').
    { destruct ev as [t [|h v|h|w h|g|g v|g|g| |]]; try (right; intros v' (t' & g' & old & E & _); discriminate).
      destruct (k_says es (t, KMut g v)) as [| | | | |[old|]] eqn:S; try (right; intros v' (t' & g' & old' & _ & E & _); congruence).
      destruct (says_mut _ _ _ _ _ S) as (k & c & O & W & C & _). apply own_spec in O as (N & Th & L). destruct (Nat.eq_dec c x) as [->|D].
      - left. exists v, t, g, old. repeat split; auto. apply gives_spec. eauto.
      - right. intros v' (t' & g' & old' & [= <- <- <-] & _ & G). apply gives_spec in G as (k' & N' & C' & _). congruence. }
    destruct Dec as [[v' P]|NP].
    - rewrite (contains_put es ev x v' v0 P). destruct P as (t & g & old & -> & S & G). destruct (says_mut _ _ _ _ _ S) as (k & c & O & W & C & E & Ea).
      rewrite k_after_snoc in Ea |- *. rewrite Ea.
      apply gives_spec in G as (k' & N' & C' & _). apply own_spec in O as (N & Th & L). assert (c = x) as -> by congruence.
      unfold cell_value. cbn. rewrite nth_error_alter, Nat.eqb_refl. unfold cell_value in E. destruct (nth_error (ks_cells (k_after es)) x); [|discriminate].
      cbn. split; congruence.
    - rewrite (contains_other es ev x v0 NP), IH.
      assert (F : forall (P Q R : Prop), ~ R -> (P \/ (Q /\ R)) <-> P) by tauto.
      steps es ev; unfold cell_value; cbn [ks_cells cells_of guards_of with_guard];
        try (apply F; intros (? & ? & E & _); discriminate).
      + apply F. intros (? & ? & _ & E & _). discriminate.
      + destruct (Nat.lt_trichotomy x (length (ks_cells (k_after es)))) as [Lx|[->|Lx]].
        * rewrite nth_error_app1 by exact Lx. rewrite len_cells in Lx. apply F. intros (u & h' & _ & _ & E). lia.
        * rewrite nth_error_app2, Nat.sub_diag by lia. cbn. rewrite (proj2 (nth_error_None (ks_cells (k_after es)) (length (ks_cells (k_after es))))) by lia.
          split.
          -- intros [K|(_ & u & h' & [= _ _ ->] & _)]; [discriminate|reflexivity].
          -- intros [= ->]. right. split.
             ++ intros v' e3 e4 P. apply put_bound in P. rewrite len_cells in P. lia.
             ++ exists t, h. rewrite len_cells. auto.
        * rewrite (proj2 (nth_error_None (ks_cells (k_after es) ++ _) x)) by (rewrite app_length; cbn; lia).
          rewrite (proj2 (nth_error_None (ks_cells (k_after es)) x)) by lia. split; [|discriminate]. intros [K|(_ & u & h' & _ & _ & E)]; [discriminate|].
          rewrite len_cells in Lx. lia.
      + rewrite F by (intros (? & ? & E & _); discriminate). rewrite nth_error_alter. destruct (Nat.eqb_spec c x) as [->|]; [|reflexivity].
        destruct (nth_error (ks_cells (k_after es)) x) as [y|] eqn:Ny; [|reflexivity]. exfalso. apply (NP v). exists t, g, (kc_value y). split; [reflexivity|].
        split; [rewrite <- So; unfold cell_value; now rewrite Ny|]. apply own_spec in O as (N & Th & L). apply gives_spec. eauto.
      + rewrite F by (intros (? & ? & E & _); discriminate). rewrite nth_error_alter. destruct (Nat.eqb_spec c x) as [->|]; [|reflexivity].
        destruct (nth_error (ks_cells (k_after es)) x); reflexivity.
  Qed.

  Lemma did_app (es es' : list kevent) t e o e1 e2 : did es t e o e1 e2 -> did (es ++ es') t e o e1 (e2 ++ es').
  Proof. intros [-> S]. split; [now rewrite <- app_assoc|exact S]. Qed.

  Lemma gives_app (es es' : list kevent) t w g x : gives es t w g x -> gives (es ++ es') t w g x.
  Proof. intros (e1 & (h & l & e2 & D & R) & NS). exists e1. split; [|exact NS]. exists h, l, (e2 ++ es'). split; [now apply did_app|exact R]. Qed.

  Lemma dropped_app (es es' : list kevent) g : dropped es g -> dropped (es ++ es') g.
  Proof. intros (t & e1 & e2 & D). exists t, e1, (e2 ++ es'). now apply did_app. Qed.

  Lemma leaked_app (es es' : list kevent) g : leaked_guard es g -> leaked_guard (es ++ es') g.
  Proof. intros (t & e1 & e2 & D). exists t, e1, (e2 ++ es'). now apply did_app. Qed.

  (** A leaked guard is never dropped. *)
  Lemma leaked_not_dropped (es : list kevent) g : leaked_guard es g -> ~ dropped es g.
  Proof. rewrite leaked_spec, dropped_spec. intros (k & N & S) (k' & N' & S'). congruence. Qed.

  Lemma step_value (es : list kevent) ev x v0 : x < values es ->
    (contains_value (es ++ [ev]) x v0 <-> contains_value es x v0) \/
    exists t g v' k, ev = (t, KMut g v') /\ own (k_after es) t g = Some k /\ kg_cell k = Some x /\ kg_write k = true.
  Proof.
    intros L. rewrite !contains_spec. unfold cell_value.
    steps es ev; cbn [ks_cells cells_of guards_of with_guard]; try (left; reflexivity).
    - left. rewrite nth_error_app1 by now rewrite len_cells. reflexivity.
    - rewrite nth_error_alter. destruct (Nat.eqb_spec c x) as [->|]; [|left; reflexivity]. right. eauto 8.
    - left. rewrite nth_error_alter. destruct (Nat.eqb_spec c x) as [->|]; [|reflexivity]. destruct (nth_error (ks_cells (k_after es)) x); reflexivity.
  Qed.

  Lemma value_still (es es' : list kevent) w g x v : holding es w g x -> holding (es ++ es') w g x ->
    (w = true -> forall t v', ~ In (t, KMut g v') es') -> (contains_value (es ++ es') x v <-> contains_value es x v).
  Proof.
    intros A. induction es' as [|ev es' IH] using rev_ind; intros B N; [now rewrite app_nil_r|].
    assert (C : holding (es ++ es') w g x).
    { destruct A as [[t A] _]. destruct B as [_ B]. split; [exists t; now apply gives_app|]. intros D. apply B. rewrite app_assoc. now apply dropped_app. }
    rewrite <- IH; [|exact C|intros Ew t v' K; apply (N Ew t v'); apply in_or_app; auto]. rewrite app_assoc.
    assert (L : x < values (es ++ es')) by (destruct C as [[t C] _]; now apply gives_bound in C).
    destruct (step_value (es ++ es') ev x v L) as [E|(t & g' & v' & k' & -> & O & Ck & Wk)]; [exact E|]. exfalso.
    apply own_spec in O as (N' & Th & Lv). apply holding_spec in C as (k & Nk & Cx & Ww & S).
    assert (g' = g) as -> by (apply (ki_wr _ (kinv_after (es ++ es')) g' g k' k x); auto; rewrite Lv; discriminate).
    assert (k' = k) by congruence. subst k'. apply (N ltac:(congruence) t v'). apply in_or_app. right. now left.
  Qed.

  Lemma spoilt_free (es : list kevent) w g x : spoilt es x -> ~ holding es w g x.
  Proof.
    intros S Hd. apply (gh_spoilt _ (ghist_after es)) in S as [v Nv]. apply holding_spec in Hd as (k & N & C & W & D).
    pose proof (ki_spoilt _ (kinv_after es) _ _ _ _ N C D Nv) as E. discriminate.
  Qed.

  Lemma exclusive (es : list kevent) w g g' x : holding es true g x -> holding es w g' x -> g = g'.
  Proof.
    intros A B. apply holding_spec in A as (k & N & C & W & D). apply holding_spec in B as (k' & N' & C' & W' & D').
    eapply (ki_wr _ (kinv_after es)); eauto.
  Qed.

  Lemma waits_exactly (es : list kevent) t e : k_says es (t, e) = KWait <-> exists w h x, e = KOpen w h /\ refers es h (Some x) /\ excluded_from es w x.
  Proof.
    split.
    - intros S. pose proof (step_of es (t, e)) as St. rewrite S in St. inversion St; subst. exists w, h, c. split; [reflexivity|].
      split; [now apply refers_spec|now apply excluded_spec].
    - intros (w & h & x & -> & R & X). apply refers_spec in R. apply excluded_spec in X. unfold k_says. cbn. unfold k_open. now rewrite R, X.
  Qed.

  Lemma opens_logged (es : list kevent) t w h x g l : refers es h x -> k_says es (t, KOpen w h) = KOpened g l ->
    (l = true <-> exists c, x = Some c /\ spoilt es c).
  Proof.
    intros R S. apply refers_spec in R. pose proof (step_of es (t, KOpen w h)) as St. rewrite S in St.
    pose proof (gh_spoilt _ (ghist_after es)) as Hs. inversion St; subst.
    - assert (x = None) by congruence. subst x. split; [discriminate|]. intros (c & E & _). discriminate.
    - assert (x = Some c) by congruence. subst x. split; [|reflexivity]. intros _. exists c. split; [reflexivity|]. apply Hs. eauto.
    - assert (x = Some c) by congruence. subst x. split; [discriminate|]. intros (c' & [= <-] & K). apply Hs in K as [v' K]. congruence.
  Qed.

  Lemma deref_none (es : list kevent) t w g x e1 : taken es t w g x e1 -> ~ dropped es g -> ~ leaked_guard es g ->
    (k_says es (t, KDeref g) = KVal None <-> empty_guard es g) /\ (w = true -> forall v, k_says es (t, KMut g v) = KVal None <-> empty_guard es g).
  Proof.
    intros T D L. destruct (gh_taken _ (ghist_after es) _ _ _ _ _ T) as (h & k & s & N & C).
    assert (O : own (k_after es) t g = Some (KGuard h k w t (negb (Nat.eqb (depth t e1) 0)) s)).
    { apply own_spec. repeat split; auto. cbn. destruct s; [reflexivity| |]; exfalso; [apply D, dropped_spec|apply L, leaked_spec]; eauto. }
    assert (E : empty_guard es g <-> k = None).
    { rewrite empty_spec. split; [intros (k' & N' & C'); rewrite N in N'; injection N' as <-; exact C'|]. intros ->. eauto. }
    assert (V0 : forall c, k = Some c -> cell_value (k_after es) c <> None).
    { intros c ->. pose proof (ki_guard _ (kinv_after es) _ _ c N eq_refl) as Lc. apply nth_error_Some in Lc. unfold cell_value.
      destruct (nth_error (ks_cells (k_after es)) c); [discriminate|contradiction]. }
    rewrite E. unfold k_says. cbn. rewrite O. cbn. split.
    - destruct k as [c|]; [|tauto]. specialize (V0 c eq_refl). destruct (cell_value (k_after es) c); [|contradiction]. split; intros E0; discriminate E0.
    - intros -> v. rewrite ?E. destruct k as [c|]; cbn; [|tauto]. specialize (V0 c eq_refl). destruct (cell_value (k_after es) c); [|contradiction]. split; intros E0; discriminate E0.
  Qed.
End Facts.
