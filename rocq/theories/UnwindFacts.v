(** Facts about panics among guards and transactions of any lifetime. *)
From Coq Require Import List Bool Arith Lia.
From Verif Require Import Ord OrdFacts BTree BTreeFacts Graph GraphFacts SpecGraph Tx TxMachine SpecTx TxFacts TxMachineFacts TxInv
  Guards SpecGuards GuardsFacts Unwind SpecUnwind.
Import ListNotations.

Section Facts.
  Context {Id Node : Type} `{HO : OrdT Id} `{HI : Identify Node Id}.
  Notation graph := (graph Id Node).
  Notation ustate := (ustate Id Node).
  Notation uevent := (uevent Id Node).
  Notation gevent := (gevent Id Node).
  Notation gout := (gout Id Node).

  Lemma u_run_app (es1 es2 : list uevent) : forall st : ustate,
    u_run st (es1 ++ es2) = (fst (u_run (fst (u_run st es1)) es2), snd (u_run st es1) ++ snd (u_run (fst (u_run st es1)) es2)).
  Proof.
    induction es1 as [|e es1 IH]; intros st; cbn; [now destruct (u_run st es2)|].
    destruct (u_step st e) as [st1 o]. rewrite IH. destruct (u_run st1 es1). reflexivity.
  Qed.

  Lemma u_after_snoc g0 (es : list uevent) e : u_after g0 (es ++ [e]) = fst (u_step (u_after g0 es) e).
  Proof. unfold u_after. rewrite u_run_app. cbn. now destruct (u_step _ e). Qed.

  Lemma u_answers_snoc g0 (es : list uevent) e : u_answers g0 (es ++ [e]) = u_answers g0 es ++ [(u_says g0 es e, u_logs g0 es e)].
  Proof.
    unfold u_answers, u_says, u_logs. rewrite u_run_app. cbn. fold (u_after g0 es). destruct (u_step _ e) as [st [o l]]. reflexivity.
  Qed.

  Lemma calls_app (es1 es2 : list uevent) : calls (es1 ++ es2) = calls es1 ++ calls es2.
  Proof. induction es1 as [|[] es1 IH]; cbn; congruence. Qed.

  Lemma u_answers_length g0 (es : list uevent) : length (u_answers g0 es) = length es.
  Proof. induction es as [|e es IH] using rev_ind; [reflexivity|]. rewrite u_answers_snoc, !app_length, IH. reflexivity. Qed.

  Lemma combine_snoc {A B} (l : list A) (l' : list B) x y : length l = length l' -> combine (l ++ [x]) (l' ++ [y]) = combine l l' ++ [(x, y)].
  Proof. revert l'. induction l as [|a l IH]; intros [|b l'] E; try discriminate; [reflexivity|]. cbn. rewrite IH by (cbn in E; lia). reflexivity. Qed.

  Lemma depth_snoc g0 (es : list uevent) e : depth g0 (es ++ [e]) =
    match e with
    | UPanic => S (depth g0 es)
    | UCatch => pred (depth g0 es)
    | UEvent e => match u_says g0 es (UEvent e), e with GCrashed _, GCrash _ _ => S (depth g0 es) | _, _ => depth g0 es end
    end.
  Proof.
    unfold depth. rewrite u_answers_snoc, map_app. cbn [map fst]. rewrite combine_snoc by now rewrite map_length, u_answers_length.
    rewrite fold_left_app. cbn [fold_left]. destruct e as [e| |]; [|reflexivity..]. fold (u_says g0 es (UEvent e)). destruct (u_says g0 es (UEvent e)); destruct e; reflexivity.
  Qed.

  Lemma call_g (st : ustate) (e : gevent) : us_g (fst (u_call st e)) = fst (g_step (us_g st) e) /\ fst (snd (u_call st e)) = snd (g_step (us_g st) e).
  Proof. unfold u_call. destruct (g_step (us_g st) e) as [g' o]. destruct (returned o); auto. Qed.

  Lemma after_calls g0 (es : list uevent) : us_g (u_after g0 es) = g_after g0 (calls es).
  Proof.
    induction es as [|e es IH] using rev_ind; [reflexivity|]. rewrite u_after_snoc, calls_app. destruct e as [e| |]; cbn [calls].
    - rewrite g_after_snoc, <- IH. apply call_g.
    - rewrite app_nil_r, <- IH. cbn. now destruct (gs_hung _).
    - rewrite app_nil_r, <- IH. cbn. destruct (gs_hung _); [reflexivity|]. now destruct (us_panics _).
  Qed.

  Lemma says_calls g0 (es : list uevent) (e : gevent) : u_says g0 es (UEvent e) = g_says g0 (calls es) e.
  Proof. unfold u_says, g_says. rewrite <- after_calls. apply call_g. Qed.

  Lemma u_did_snoc g0 es (x : uevent) e o e1 e2 :
    u_did g0 (es ++ [x]) e o e1 e2 <->
    (exists e2', e2 = e2' ++ [x] /\ u_did g0 es e o e1 e2') \/ (x = UEvent e /\ e1 = es /\ e2 = [] /\ u_says g0 es x = o).
  Proof.
    unfold u_did. split.
    - intros [E S]. induction e2 as [|y e2 _] using rev_ind.
      + apply app_inj_tail in E as [-> ->]. right. auto.
      + replace (e1 ++ UEvent e :: e2 ++ [y]) with ((e1 ++ UEvent e :: e2) ++ [y]) in E by now rewrite <- app_assoc.
        apply app_inj_tail in E as [-> ->]. left. exists e2. auto.
    - intros [(e2' & -> & -> & S)|(-> & -> & -> & S)]; [|auto]. split; [now rewrite <- app_assoc|exact S].
  Qed.

  Lemma u_did_nil g0 (e : gevent) o e1 e2 : ~ u_did g0 [] e o e1 e2.
  Proof. intros [E _]. destruct e1; discriminate. Qed.

  (** The events of the history without panics. *)
  Lemma did_happened g0 es (e : gevent) o : (exists e1 e2, u_did g0 es e o e1 e2) <-> exists e2, happened g0 (calls es) e o e2.
  Proof.
    induction es as [|x es IH] using rev_ind.
    { split; [intros (e1 & e2 & K); now apply u_did_nil in K|intros K; now apply happened_nil in K]. }
    rewrite calls_app. transitivity ((exists e1 e2, u_did g0 es e o e1 e2) \/ (x = UEvent e /\ u_says g0 es x = o)).
    - split.
      + intros (e1 & e2 & K). apply u_did_snoc in K as [(e2' & -> & K)|(E & -> & -> & S)]; [left; eauto|now right].
      + intros [(e1 & e2 & K)|[E S]]; [exists e1, (e2 ++ [x])|exists es, []]; apply u_did_snoc; [left; eauto|right; auto].
    - rewrite IH. destruct x as [x| |]; cbn.
      + rewrite happened_snoc, says_calls. intuition (try congruence). all: right; split; [congruence|]. all: congruence.
      + rewrite app_nil_r. intuition discriminate.
      + rewrite app_nil_r. intuition discriminate.
  Qed.

  (** ** What the state tells of the history *)

  Definition calm_guard g0 es g : Prop := exists w e1 e2, u_did g0 es (GOpen w) (GX (XHandle g)) e1 e2 /\ depth g0 e1 = 0.
  Definition calm_tx g0 es t : Prop :=
    exists c e1 e2, background g0 (calls e1) t /\ ~ had_context g0 (calls e1) t /\ u_did g0 es (GEvent (EContext t)) (GX (XHandle c)) e1 e2 /\ depth g0 e1 = 0.

  Record uhist g0 (es : list uevent) : Prop := UHist {
    uh_depth : gs_hung (us_g (u_after g0 es)) = false -> us_panics (u_after g0 es) = depth g0 es;
    uh_len : length (us_calm (u_after g0 es)) = length (gs_guards (us_g (u_after g0 es)));
    uh_calm : forall g, nth g (us_calm (u_after g0 es)) false = true <-> calm_guard g0 es g;
    uh_txs : forall t, In t (us_calm_txs (u_after g0 es)) <-> calm_tx g0 es t;
    uh_poison : us_poisoned (u_after g0 es) = true <-> spoilt g0 es
  }.

  Lemma calm_guard_snoc g0 es x g : calm_guard g0 (es ++ [x]) g <->
    calm_guard g0 es g \/ exists w, x = UEvent (GOpen w) /\ u_says g0 es x = GX (XHandle g) /\ depth g0 es = 0.
  Proof.
    split.
    - intros (w & e1 & e2 & K & D). apply u_did_snoc in K as [(e2' & -> & K)|(-> & -> & -> & S)]; [left; exists w, e1, e2'; auto|right; eauto].
    - intros [(w & e1 & e2 & K & D)|(w & -> & S & D)]; [exists w, e1, (e2 ++ [x])|exists w, es, []]; (split; [apply u_did_snoc|exact D]); eauto.
  Qed.

  Lemma calm_tx_snoc g0 es x t : calm_tx g0 (es ++ [x]) t <->
    calm_tx g0 es t \/ (x = UEvent (GEvent (EContext t)) /\ background g0 (calls es) t /\ ~ had_context g0 (calls es) t /\ depth g0 es = 0 /\
                        exists c, u_says g0 es x = GX (XHandle c)).
  Proof.
    split.
    - intros (c & e1 & e2 & B & N & K & D). apply u_did_snoc in K as [(e2' & -> & K)|(-> & -> & -> & S)]; [left; exists c, e1, e2'; auto|right; eauto 6].
    - intros [(c & e1 & e2 & B & N & K & D)|(-> & B & N & D & c & S)]; [exists c, e1, (e2 ++ [x])|exists c, es, []];
        (split; [exact B|split; [exact N|split; [apply u_did_snoc|exact D]]]); eauto.
  Qed.

  Lemma spoilt_snoc g0 es x : spoilt g0 (es ++ [x]) <->
    spoilt g0 es \/
    (exists g, x = UEvent (GDrop g) /\ u_says g0 es x = GX XUnit /\ depth g0 es <> 0 /\
       exists e1 e2, u_did g0 es (GOpen true) (GX (XHandle g)) e1 e2 /\ depth g0 e1 = 0) \/
    (exists t b, x = UEvent (GEvent (EEnd t b)) /\ u_says g0 es x = GX XUnit /\ depth g0 es <> 0 /\ calm_tx g0 es t) \/
    (exists t k l, x = UEvent (GCrash t k) /\ u_says g0 es x = GCrashed l /\ calm_tx g0 es t).
  Proof.
    split.
    - intros (e1 & [(g & e1' & e2 & e2' & O & K & D2)|(t & c & e1' & e2 & e2' & B & N & O & [(b & K & D2)|(k & l & K)])] & D1).
      + apply u_did_snoc in K as [(e2'' & -> & K)|(-> & -> & -> & S)].
        * left. exists e1. split; [left; eauto 10|auto].
        * right. left. exists g. eauto 9.
      + apply u_did_snoc in K as [(e2'' & -> & K)|(-> & -> & -> & S)].
        * left. exists e1. split; [right; exists t, c, e1', e2, e2''; eauto 10|auto].
        * right. right. left. exists t, b. split; [reflexivity|]. split; [exact S|]. split; [exact D2|]. exists c, e1, e1'. auto.
      + apply u_did_snoc in K as [(e2'' & -> & K)|(-> & -> & -> & S)].
        * left. exists e1. split; [right; exists t, c, e1', e2, e2''; eauto 10|auto].
        * right. right. right. exists t, k, l. split; [reflexivity|]. split; [exact S|]. exists c, e1, e1'. auto.
    - intros [(e1 & K & D)|[(g & -> & S & D & e1 & e2 & O & D1)|[(t & b & -> & S & D & c & e1 & e2 & B & N & O & D1)|(t & k & l & -> & S & c & e1 & e2 & B & N & O & D1)]]].
      + exists e1. split; [|exact D]. destruct K as [(g & e1' & e2 & e2' & O & K & D2)|(t & c & e1' & e2 & e2' & B & N & O & K)].
        * left. exists g, e1', e2, (e2' ++ [x]). split; [exact O|]. split; [apply u_did_snoc; eauto|exact D2].
        * right. exists t, c, e1', e2, (e2' ++ [x]). repeat (split; [assumption|]).
          destruct K as [(b & K & D2)|(k & l & K)]; [left; exists b; split; [|exact D2]|right; exists k, l]; apply u_did_snoc; eauto.
      + exists e1. split; [|auto]. left. exists g, e2, es, []. split; [exact O|]. split; [apply u_did_snoc; right; auto|exact D].
      + exists e1. split; [|auto]. right. exists t, c, e2, es, []. repeat (split; [assumption|]). left. exists b. split; [apply u_did_snoc; right; auto|exact D].
      + exists e1. split; [|auto]. right. exists t, c, e2, es, []. repeat (split; [assumption|]). right. exists k, l. apply u_did_snoc. right. auto.
  Qed.

  Lemma returned_false (st : gstate Id Node) (e : gevent) : ginv st -> returned (snd (g_step st e)) = false ->
    snd (g_step st e) = GX XHang \/ snd (g_step st e) = GX XInvalid.
  Proof. intros _. destruct (snd (g_step st e)) as [[]| |]; cbn; auto; discriminate. Qed.

  Lemma pass_not_crashed (st : gstate Id Node) e l : snd (g_pass st e) <> GCrashed l.
  Proof. unfold g_pass. destruct (m_step _ _). cbn. discriminate. Qed.

  Lemma crashed_only (st : gstate Id Node) (e : gevent) l : snd (g_step st e) = GCrashed l -> exists t k, e = GCrash t k /\ crashing st t k.
  Proof.
    destruct e as [e|t|t k|w|g i|g|g c|g|g];
      [| |intros S; destruct (crash_cases st t k) as [[E|E]|[C E]]; rewrite E in S; try discriminate; eauto| | | | | |];
      unfold g_step; destruct (gs_hung st); try discriminate.
    - destruct (of_lost st e); [discriminate|]. destruct (asks st e) as [w|]; [destruct (locked w st); [discriminate|]|]; intros S; now apply pass_not_crashed in S.
    - destruct (lost t st); [discriminate|]. destruct (nth_error _ t) as [[[c|] [] []]|]; try discriminate; destruct (has_ctx _ t Live); discriminate.
    - destruct (locked w st); discriminate.
    - destruct (usable g st); discriminate.
    - destruct (usable g st); discriminate.
    - destruct (usable g st) as [[]|]; try discriminate. now destruct (Graph.g_step _ c).
    - destruct (usable g st); discriminate.
    - destruct (usable g st); discriminate.
  Qed.


  (** [EContext t] takes the lock exactly if it is the first context of a top-level transaction. *)
  Lemma takes_context g0 es t c : g_wf g0 -> g_says g0 es (GEvent (EContext t)) = GX (XHandle c) ->
    takes (g_after g0 es) (GEvent (EContext t)) = true <-> background g0 es t /\ ~ had_context g0 es t.
  Proof.
    intros W S. unfold takes. split.
    - destruct (asks _ _) as [w|] eqn:A; [|discriminate]. intros _. apply asks_wants in A; [|exact W]. inversion A; subst; auto.
    - intros [B N]. assert (K : wants g0 es (GEvent (EContext t)) true).
      { constructor; auto. intros E. pose proof (step_txs (g_after g0 es) (GEvent (EContext t)) (ginv_after g0 es W)) as T.
        fold (g_says g0 es (GEvent (EContext t))) in T. rewrite S in T. fold (txs_of g0 es) in T.
        apply (th_end _ _ (txhist_after g0 es W)) in E as (par & b & M). inversion T; subst; try congruence.
        match goal with K : of_tx _ _ |- _ => destruct K; discriminate end. }
      apply asks_wants in K; [|exact W]. now rewrite K.
  Qed.

  Lemma says_valid g0 es (e : gevent) o : g_says g0 es e = o -> returned o = true -> gs_hung (g_after g0 es) = false.
  Proof.
    intros S R. destruct (gs_hung (g_after g0 es)) eqn:E; [|reflexivity]. unfold g_says in S. rewrite step_stays_hung in S by exact E. subst o. discriminate.
  Qed.

  Lemma context_handle g0 es t o : g_wf g0 -> g_says g0 es (GEvent (EContext t)) = o -> returned o = true -> exists c, o = GX (XHandle c).
  Proof.
    intros W S R. pose proof (step_txs (g_after g0 es) (GEvent (EContext t)) (ginv_after g0 es W)) as T.
    fold (g_says g0 es (GEvent (EContext t))) in T. rewrite S in T. inversion T; subst; eauto.
    match goal with K : of_tx _ _ |- _ => destruct K as [K|K]; rewrite K in R; discriminate end.
  Qed.

  Lemma open_handle g0 es w o : g_says g0 es (GOpen w) = o -> returned o = true -> o = GX (XHandle (length (gs_guards (g_after g0 es)))).
  Proof.
    intros S R. pose proof (step_guards (g_after g0 es) (GOpen w)) as T. fold (g_says g0 es (GOpen w)) in T. rewrite S in T. inversion T; subst; auto.
    match goal with K : of_guard _ _ |- _ => cbn in K; rewrite K in R; discriminate end.
  Qed.

  Lemma uhist_after g0 es : g_wf g0 -> uhist g0 es.
  Proof.
    intros W. induction es as [|x es IH] using rev_ind.
    { constructor; cbn; auto.
      - intros g. split; [destruct g; discriminate|]. intros (w & e1 & e2 & K & _). now apply u_did_nil in K.
      - intros t. split; [intros []|]. intros (c & e1 & e2 & _ & _ & K & _). now apply u_did_nil in K.
      - split; [discriminate|]. intros (e1 & [(g & e1' & e2 & e2' & O & K & _)|(t & c & e1' & e2 & e2' & B & N & O & [(b & K & _)|(k & l & K)])] & _); now apply u_did_nil in K. }
    destruct IH as [Hd Hl Hc Ht Hp]. pose proof (after_calls g0 es) as Ag.
    assert (Hung : forall e o, u_says g0 es (UEvent e) = o -> returned o = true -> gs_hung (us_g (u_after g0 es)) = false).
    { intros e o S R. rewrite says_calls in S. rewrite Ag. now apply (says_valid _ _ _ _ S). }
    destruct x as [e| |].
    - pose proof (says_calls g0 es e) as Sc. constructor; rewrite u_after_snoc; cbn [u_step].
      + rewrite depth_snoc. intros Hh.
        assert (gs_hung (us_g (u_after g0 es)) = false).
        { destruct (gs_hung (us_g (u_after g0 es))) eqn:E; [|reflexivity]. rewrite (proj1 (call_g _ _)), step_stays_hung in Hh by exact E. cbn in Hh. congruence. }
        rewrite <- (Hd H). cbv beta iota. rewrite Sc. unfold g_says. rewrite <- Ag. pose proof (crashed_only (us_g (u_after g0 es)) e) as Co. unfold u_call.
        destruct (g_step _ e) as [g' o]. cbn [snd fst] in *. destruct o as [x|l|l]; cbn [returned].
        * destruct x; destruct e; reflexivity.
        * destruct e; reflexivity.
        * destruct (Co l eq_refl) as (t & k & -> & _). reflexivity.
      + rewrite (proj1 (call_g _ _)). pose proof (step_guards (us_g (u_after g0 es)) e) as T. unfold u_call.
        destruct (g_step (us_g (u_after g0 es)) e) as [g' o]. cbn [fst snd] in *. remember (gs_guards (us_g (u_after g0 es))) as gs. remember (gs_guards g') as gs'.
        destruct T; subst; cbn [returned fst us_calm]; rewrite ?app_length, ?alter_length, ?Hl; auto.
        destruct (returned o) eqn:R; [|exact Hl]. cbn. destruct e; auto. cbn in H. subst o. discriminate.
      + intros g. rewrite calm_guard_snoc, <- Hc. unfold u_says. cbn [u_step]. rewrite (proj2 (call_g _ _)).
        pose proof (open_handle g0 (calls es)) as Oh. unfold g_says in Oh. rewrite <- Ag in Oh.
        pose proof (fun o => Hung e o) as Hu. unfold u_says in Hu. cbn [u_step] in Hu. rewrite (proj2 (call_g _ _)) in Hu.
        unfold u_call. destruct (g_step (us_g (u_after g0 es)) e) as [g' o] eqn:G. cbn [fst snd] in *.
        destruct (returned o) eqn:R; cbn [fst us_calm].
        * specialize (Hu o eq_refl R). specialize (Hd Hu). destruct e; try (split; [auto|intros [K|(w' & E & _)]; [exact K|discriminate]]).
          specialize (Oh write o). rewrite G in Oh. specialize (Oh eq_refl R). subst o. rewrite Hd.
          destruct (Nat.lt_trichotomy g (length (us_calm (u_after g0 es)))) as [L|[->|L]].
          -- rewrite app_nth1 by exact L. split; [auto|]. intros [K|(w' & E & S & _)]; [exact K|]. exfalso. injection S as <-. lia.
          -- rewrite nth_middle, Nat.eqb_eq. split.
             ++ intros D. right. exists write. rewrite Hl. auto.
             ++ intros [K|(w' & E & _ & D)]; [|exact D]. rewrite nth_overflow in K by lia. discriminate.
          -- rewrite nth_overflow by (rewrite app_length; cbn; lia). split; [discriminate|].
             intros [K|(w' & E & S & _)]; [rewrite nth_overflow in K by lia; discriminate|]. injection S as <-. lia.
        * split; [auto|]. intros [K|(w' & E & S & _)]; [exact K|]. rewrite S in R. discriminate R.
      + intros t. rewrite calm_tx_snoc, <- Ht. rewrite Sc.
        pose proof (takes_context g0 (calls es) t) as Tc. pose proof (context_handle g0 (calls es) t) as Ch.
        pose proof (fun o => Hung e o) as Hu. rewrite Sc in Hu. unfold g_says in *. rewrite <- Ag in *.
        unfold u_call. destruct (g_step (us_g (u_after g0 es)) e) as [g' o] eqn:G. cbn [fst snd] in *.
        destruct (returned o) eqn:R; cbn [fst us_calm_txs].
        * specialize (Hu o eq_refl R). specialize (Hd Hu).
          destruct e as [[]| | | | | | | |]; try (split; [auto|intros [K|(E & _)]; [exact K|discriminate]]).
          rewrite Hd. destruct (Nat.eq_dec t0 t) as [->|Dt].
          -- destruct (Ch o W) as [c ->]; [now rewrite G|exact R|]. specialize (Tc c W). rewrite G in Tc. specialize (Tc eq_refl).
             destruct (takes (us_g (u_after g0 es)) (GEvent (EContext t))); cbn [andb].
             ++ destruct (Nat.eqb_spec (depth g0 es) 0) as [D|D].
                ** split; [|left; reflexivity]. intros _. right. destruct (proj1 Tc eq_refl). eauto 6.
                ** split; [auto|]. intros [K|(_ & _ & _ & D' & _)]; [exact K|contradiction].
             ++ split; [auto|]. intros [K|(_ & B & N & _)]; [exact K|]. discriminate (proj2 Tc (conj B N)).
          -- transitivity (In t (us_calm_txs (u_after g0 es))).
             ++ destruct (_ && _); [|reflexivity]. cbn. intuition.
             ++ split; [auto|]. intros [K|(E & _)]; [exact K|]. injection E as <-. congruence.
        * split; [auto|]. intros [K|(E & _ & _ & _ & c & S)]; [exact K|]. rewrite S in R. discriminate R.
      + rewrite spoilt_snoc, <- Hp. rewrite Sc.
        pose proof (fun o => Hung e o) as Hu. rewrite Sc in Hu. unfold g_says in *. rewrite <- Ag in *.
        unfold u_call. destruct (g_step (us_g (u_after g0 es)) e) as [g' o] eqn:G. cbn [fst snd] in *.
        destruct (returned o) eqn:R; cbn [fst us_poisoned].
        * specialize (Hu o eq_refl R). specialize (Hd Hu). rewrite orb_true_iff. unfold poisons. rewrite Hd.
          assert (P : forall P Q : Prop, (P <-> Q) -> forall A : Prop, A \/ P <-> A \/ Q) by tauto. apply P. clear P.
          assert (Dz : negb (Nat.eqb (depth g0 es) 0) = true <-> depth g0 es <> 0) by (rewrite negb_true_iff; apply Nat.eqb_neq).
          assert (Tx : forall t, existsb (Nat.eqb t) (us_calm_txs (u_after g0 es)) = true <-> calm_tx g0 es t).
          { intros t. rewrite existsb_exists, <- Ht. split; [intros (t' & I & E); apply Nat.eqb_eq in E; congruence|intros I; exists t; split; [exact I|apply Nat.eqb_refl]]. }
          destruct e as [[]| | | | | | | |]; try (split; [discriminate|intros [(? & E & _)|[(? & ? & E & _)|(? & ? & ? & E & _)]]; discriminate]).
          -- rewrite andb_true_iff, Dz, Tx. split.
             ++ intros [D K]. right. left. exists t, commit. split; [reflexivity|].
                split; [|split; [exact D|exact K]]. pose proof (step_txs (us_g (u_after g0 es)) (GEvent (EEnd t commit))) as T.
                rewrite G in T. rewrite Ag in T. specialize (T (ginv_after g0 _ W)). cbn [fst snd] in T. inversion T; subst; [|reflexivity].
                match goal with K : of_tx _ _ |- _ => destruct K as [K|K]; rewrite K in R; discriminate end.
             ++ intros [(? & E & _)|[(t' & b & E & _ & D & K)|(? & ? & ? & E & _)]]; try discriminate. injection E as <- _. auto.
          -- rewrite Tx. split.
             ++ intros K. right. right. destruct (crash_cases (us_g (u_after g0 es)) t k) as [[E|E]|[C E]]; rewrite G in E.
                ** injection E as _ ->. discriminate R.
                ** injection E as _ ->. discriminate R.
                ** injection E as _ ->. eauto 8.
             ++ intros [(? & E & _)|[(? & ? & E & _)|(t' & k' & l & E & _ & K)]]; try discriminate. injection E as <- _. exact K.
          -- pose proof (step_guards (us_g (u_after g0 es)) (GDrop g)) as T. rewrite G in T. cbn [fst snd] in T.
             assert (U : exists w, nth_error (gs_guards (us_g (u_after g0 es))) g = Some (SGuard w Live) /\ o = GX XUnit).
             { inversion T; subst; [|eauto].
               match goal with K : of_guard _ _ |- _ => destruct K as [K|K]; rewrite K in R; discriminate end. }
             destruct U as (w & N & ->). rewrite (proj2 (usable_spec g _ w) N), andb_true_iff, Dz.
             assert (Kw : forall w' e1 e2, u_did g0 es (GOpen w') (GX (XHandle g)) e1 e2 -> w' = w).
             { intros w' e1 e2 K. assert (exists e2, happened g0 (calls es) (GOpen w') (GX (XHandle g)) e2) as J by (apply did_happened; eauto).
               apply (GuardsFacts.uh_open _ _ (guhist_after g0 (calls es))) in J as [s J]. rewrite <- Ag in J. congruence. }
             split.
             ++ intros [D C]. destruct w; [|discriminate]. apply Hc in C as (w' & e1 & e2 & O & D1). left. exists g. rewrite (Kw _ _ _ O) in O. eauto 8.
             ++ intros [(g1 & E & _ & D & e1 & e2 & O & D1)|[(? & ? & E & _)|(? & ? & ? & E & _)]]; try discriminate. injection E as <-. split; [exact D|].
                rewrite <- (Kw _ _ _ O). apply Hc. exists true. eauto.
        * split; [auto|]. intros [K|[(? & E & S & _)|[(? & ? & E & S & _)|(? & ? & ? & E & S & _)]]]; [exact K| | |]; rewrite S in R; discriminate R.
    - constructor; rewrite u_after_snoc; cbn [u_step]; destruct (gs_hung (us_g (u_after g0 es))) eqn:Hh; cbn [fst us_g us_panics us_calm us_calm_txs us_poisoned]; auto;
        rewrite ?depth_snoc; try congruence; try (rewrite Hd by reflexivity; reflexivity);
        try (intros u; rewrite ?calm_guard_snoc, ?calm_tx_snoc, <- ?Hc, <- ?Ht; split; [auto|intros [K|K]; [exact K|]; destruct K as (? & ? & ?) || destruct K as (? & ?); discriminate]).
      + rewrite spoilt_snoc, <- Hp. split; [auto|]. intros [K|[(? & E & _)|[(? & ? & E & _)|(? & ? & ? & E & _)]]]; [exact K| | |]; discriminate.
      + rewrite spoilt_snoc, <- Hp. split; [auto|]. intros [K|[(? & E & _)|[(? & ? & E & _)|(? & ? & ? & E & _)]]]; [exact K| | |]; discriminate.
    - assert (Nc : forall u, calm_guard g0 (es ++ [UCatch]) u <-> calm_guard g0 es u).
      { intros u. rewrite calm_guard_snoc. split; [intros [K|(? & E & _)]; [exact K|discriminate]|auto]. }
      assert (Nt : forall u, calm_tx g0 (es ++ [UCatch]) u <-> calm_tx g0 es u).
      { intros u. rewrite calm_tx_snoc. split; [intros [K|(E & _)]; [exact K|discriminate]|auto]. }
      assert (Np : spoilt g0 (es ++ [UCatch]) <-> spoilt g0 es).
      { rewrite spoilt_snoc. split; [|auto]. intros [K|[(? & E & _)|[(? & ? & E & _)|(? & ? & ? & E & _)]]]; [exact K| | |]; discriminate. }
      constructor; rewrite u_after_snoc; cbn [u_step]; destruct (gs_hung (us_g (u_after g0 es))) eqn:Hh; cbn [fst us_g us_panics us_calm us_calm_txs us_poisoned];
        try (intros u; rewrite ?Nc, ?Nt, <- ?Hc, <- ?Ht); rewrite ?Np, <- ?Hp; try reflexivity; try exact Hl; try congruence;
        destruct (us_panics (u_after g0 es)) as [|n] eqn:Pn; cbn [fst us_g us_panics us_calm us_calm_txs us_poisoned]; try reflexivity; try exact Hl.
      all: rewrite depth_snoc, <- (Hd eq_refl); now rewrite ?Pn.
  Qed.

  (** ** Who reports a poisoned graph *)

  Lemma wants_takes g0 es (e : gevent) : g_wf g0 -> takes (g_after g0 es) e = true <-> exists w, wants g0 es e w.
  Proof.
    intros W. destruct e as [e| | | | | | | |]; cbn; try (split; [discriminate|intros [w K]; inversion K]).
    - destruct (asks _ e) as [w|] eqn:A.
      + split; [intros _; exists w; now apply asks_wants|reflexivity].
      + split; [discriminate|]. intros [w K]. apply asks_wants in K; [|exact W]. congruence.
    - split; [intros _; exists write; constructor|reflexivity].
  Qed.

  Lemma wants_valid g0 es (e : gevent) w : g_wf g0 -> wants g0 es e w -> g_says g0 es e <> GX XHang -> returned (g_says g0 es e) = true.
  Proof.
    intros W K N. unfold g_says in *. pose proof (ginv_after g0 es W) as I. unfold g_step in *. destruct (gs_hung _); [contradiction|].
    assert (P : forall e w, asks (g_after g0 es) e = Some w -> of_lost (g_after g0 es) e = false -> wants g0 es (GEvent e) w ->
      snd (if of_lost (g_after g0 es) e then (g_after g0 es, GX XInvalid) else match asks (g_after g0 es) e with
            | Some w => if locked w (g_after g0 es) then g_hang (g_after g0 es) else g_pass (g_after g0 es) e
            | None => g_pass (g_after g0 es) e end) <> GX XHang ->
      returned (snd (if of_lost (g_after g0 es) e then (g_after g0 es, GX XInvalid) else match asks (g_after g0 es) e with
            | Some w => if locked w (g_after g0 es) then g_hang (g_after g0 es) else g_pass (g_after g0 es) e
            | None => g_pass (g_after g0 es) e end)) = true).
    { clear w K N. intros e0 w A O Kw M. rewrite O, A in *. destruct (locked w (g_after g0 es)) eqn:L; [contradiction|].
      unfold locked in L. apply orb_false_iff in L as [L _]. apply orb_false_iff in L as [L _]. pose proof (gi_hung _ I) as Hh.
      unfold g_pass, m_step. destruct e0; try discriminate; cbn in A |- *; unfold p_step; rewrite Hh.
      - destruct (nth_error _ t) as [[[c|] [] []]|] eqn:Nt; try discriminate. rewrite L. reflexivity.
      - rewrite L. reflexivity.
      - rewrite L. reflexivity. }
    destruct K as [w|i|c|t B Nc Ne]; [|apply (P _ false); auto; constructor|apply (P _ true); auto; constructor|].
    - destruct (locked _ _); [contradiction|reflexivity].
    - assert (A : asks (g_after g0 es) (EContext t) = Some true) by (apply asks_wants; [exact W|now constructor]).
      apply (P _ true); [exact A| |now constructor|exact N]. cbn. destruct (lost t (g_after g0 es)) eqn:Lo; [|reflexivity]. apply lost_true in Lo.
      cbn in A. rewrite (gi_lost _ I _ Lo) in A. discriminate.
  Qed.

  Lemma end_no_take g0 es (e : gevent) : takes (g_after g0 es) e = true -> end_log (g_after g0 es) e = [].
  Proof. destruct e as [[]| | | | | | | |]; cbn; try reflexivity; discriminate. Qed.

  Lemma call_logs g0 (es : list uevent) (e : gevent) :
    u_logs g0 es (UEvent e) =
      if returned (u_says g0 es (UEvent e))
      then (if takes (g_after g0 (calls es)) e && us_poisoned (u_after g0 es) then [LPoisoned] else []) ++ end_log (g_after g0 (calls es)) e
      else [].
  Proof.
    unfold u_logs, u_says. cbn [u_step]. unfold u_call. rewrite after_calls. destruct (g_step _ e) as [g' o]. destruct (returned o) eqn:R; cbn; now rewrite R.
  Qed.

  Lemma reports g0 es (e : gevent) w : g_wf g0 -> wants g0 (calls es) e w -> u_says g0 es (UEvent e) <> GX XHang ->
    (spoilt g0 es /\ u_logs g0 es (UEvent e) = [LPoisoned]) \/ (~ spoilt g0 es /\ u_logs g0 es (UEvent e) = []).
  Proof.
    intros W K N. rewrite call_logs. rewrite says_calls in *. rewrite (wants_valid _ _ _ _ W K N).
    assert (T : takes (g_after g0 (calls es)) e = true) by (apply wants_takes; eauto). rewrite end_no_take, app_nil_r, T by exact T. cbn.
    pose proof (uh_poison _ _ (uhist_after g0 es W)) as P. destruct (us_poisoned _); [left|right]; split; auto.
    - now apply P.
    - intros S. apply P in S. discriminate.
  Qed.

  Lemma end_log_no_poison (st : gstate Id Node) e : ~ In LPoisoned (end_log st e).
  Proof.
    destruct e as [[]| | | | | | | |]; cbn; try tauto. destruct commit; [|intros []]. destruct (nth_error _ t) as [[[c|] [] o]|]; try destruct (has_ctx _ t Leaked); cbn; intuition discriminate.
  Qed.

  Lemma reported g0 es e : g_wf g0 -> In LPoisoned (u_logs g0 es e) ->
    spoilt g0 es /\ exists e' w, e = UEvent e' /\ wants g0 (calls es) e' w /\ u_says g0 es e <> GX XHang.
  Proof.
    intros W K. destruct e as [e| |].
    - rewrite call_logs in K. destruct (returned _) eqn:R; [|destruct K]. apply in_app_iff in K as [K|K]; [|now apply end_log_no_poison in K].
      destruct (takes _ e) eqn:T; [|destruct K]. destruct (us_poisoned _) eqn:P; [|destruct K]. split; [now apply (uh_poison _ _ (uhist_after g0 es W))|].
      apply wants_takes in T as [w T]; [|exact W]. exists e, w. split; [reflexivity|]. split; [exact T|]. intros E. rewrite E in R. discriminate.
    - unfold u_logs in K. cbn in K. destruct (gs_hung _); destruct K.
    - unfold u_logs in K. cbn in K. destruct (gs_hung _); [destruct K|]. destruct (us_panics _); destruct K.
  Qed.

  Lemma spoilt_app g0 es es' : spoilt g0 es -> spoilt g0 (es ++ es').
  Proof.
    intros S. induction es' as [|e es' IH] using rev_ind; [now rewrite app_nil_r|]. rewrite app_assoc. apply spoilt_snoc. now left.
  Qed.

  (** ** Contexts in the history are contexts in the state *)

  Definition of_ctx (e : gevent) (o : gout) : Prop :=
    match e with GEvent (EContext _ | ELeakCtx _ | EDropCtx _) => o = GX XInvalid \/ o = GX XHang | _ => True end.

  Inductive cchange (cs : list ctxrec) : gevent -> gout -> list ctxrec -> Prop :=
  | cc_same e o : of_ctx e o -> cchange cs e o cs
  | cc_new t : cchange cs (GEvent (EContext t)) (GX (XHandle (length cs))) (cs ++ [CtxRec t Live])
  | cc_drop c t : nth_error cs c = Some (CtxRec t Live) ->
      cchange cs (GEvent (EDropCtx c)) (GX XUnit) (alter (fun r => CtxRec (cr_tx r) Dropped) c cs)
  | cc_leak c t : nth_error cs c = Some (CtxRec t Live) ->
      cchange cs (GEvent (ELeakCtx c)) (GX XUnit) (alter (fun r => CtxRec (cr_tx r) Leaked) c cs).

  Lemma step_ctxs (st : gstate Id Node) (e : gevent) : ginv st ->
    cchange (p_ctxs (m_proto (gs_m st))) e (snd (g_step st e)) (p_ctxs (m_proto (gs_m (fst (g_step st e))))).
  Proof.
    intros I. unfold g_step. destruct (gs_hung st) eqn:Hg; [apply cc_same; destruct e as [[]| | | | | | | |]; cbn; auto|].
    assert (P : forall e, cchange (p_ctxs (m_proto (gs_m st))) (GEvent e) (snd (g_pass st e)) (p_ctxs (m_proto (gs_m (fst (g_pass st e)))))).
    { intros e0. pose proof (mi_ctxs _ (gi_m st I)) as Lh. unfold g_pass. rewrite m_step_fst. cbn [fst snd gs_m m_proto].
      destruct (p_step_pstep (m_proto (gs_m st)) e0); cbn [m_exec fst snd]; try (apply cc_same; exact Logic.I).
      - apply cc_same. destruct e0; cbn; auto.
      - apply cc_same. destruct e0; cbn; auto.
      - rewrite Lh. apply cc_new.
      - rewrite Lh. apply cc_new.
      - rewrite Lh. apply cc_new.
      - apply cc_same. destruct e0; cbn; auto.
      - eapply cc_drop. eassumption.
      - eapply cc_leak. eassumption. }
    destruct e as [e|t|t k|w|g i|g|g c|g|g].
    - destruct (of_lost st e); [apply cc_same; destruct e; cbn; auto|]. destruct (asks st e) as [w|] eqn:A; [|apply P].
      destruct (locked w st); [|apply P]. apply cc_same. destruct e; cbn; auto.
    - destruct (lost t st); [now apply cc_same|]. destruct (nth_error _ t) as [[[c|] [] []]|] eqn:N; try now apply cc_same.
      destruct (has_ctx _ t Live); now apply cc_same.
    - pose proof (crash_cases st t k) as K. unfold g_step in K. rewrite Hg in K. destruct K as [[K|K]|[_ K]]; rewrite K; now apply cc_same.
    - destruct (locked w st); now apply cc_same.
    - destruct (usable g st); now apply cc_same.
    - destruct (usable g st); now apply cc_same.
    - destruct (usable g st) as [[]|]; try now apply cc_same. destruct (Graph.g_step _ c). now apply cc_same.
    - destruct (usable g st); now apply cc_same.
    - destruct (usable g st); now apply cc_same.
  Qed.

  Notation ctxs_of g0 es := (p_ctxs (m_proto (gs_m (g_after g0 es)))).

  Record chist g0 (es : list gevent) : Prop := CHist {
    ch_new : forall t c, (exists e2, happened g0 es (GEvent (EContext t)) (GX (XHandle c)) e2) <-> exists s, nth_error (ctxs_of g0 es) c = Some (CtxRec t s);
    ch_leak : forall c, (exists e2, happened g0 es (GEvent (ELeakCtx c)) (GX XUnit) e2) <-> exists t, nth_error (ctxs_of g0 es) c = Some (CtxRec t Leaked);
    ch_drop : forall c, (exists e2, happened g0 es (GEvent (EDropCtx c)) (GX XUnit) e2) <-> exists t, nth_error (ctxs_of g0 es) c = Some (CtxRec t Dropped)
  }.

  Lemma chist_after g0 es : g_wf g0 -> chist g0 es.
  Proof.
    intros W. induction es as [|e es IH] using rev_ind.
    { constructor; cbn.
      - intros t c. split; [intros K; now apply happened_nil in K|]. intros (s & N). destruct c; discriminate.
      - intros c. split; [intros K; now apply happened_nil in K|]. intros (s & N). destruct c; discriminate.
      - intros c. split; [intros K; now apply happened_nil in K|]. intros (s & N). destruct c; discriminate. }
    pose proof (step_ctxs (g_after g0 es) e (ginv_after g0 es W)) as T. rewrite <- g_after_snoc in T. fold (g_says g0 es e) in T.
    remember (g_says g0 es e) as o eqn:So. remember (ctxs_of g0 (es ++ [e])) as cs' eqn:Et.
    remember (ctxs_of g0 es) as cs eqn:Es. destruct IH as [Hn Hl Hd]. rewrite <- Es in Hn, Hl, Hd.
    destruct T as [e o Oe|t|c t N|c t N]; constructor; rewrite <- Et; [intros t' u|intros u|intros u|intros t' u|intros u|intros u|intros t' u|intros u|intros u|intros t' u|intros u|intros u];
      rewrite happened_snoc.
    - rewrite Hn. split; [intros [K|[-> K]]; [exact K|]|auto]. rewrite <- So in K. cbn in Oe. destruct Oe; congruence.
    - rewrite Hl. split; [intros [K|[-> K]]; [exact K|]|auto]. rewrite <- So in K. cbn in Oe. destruct Oe; congruence.
    - rewrite Hd. split; [intros [K|[-> K]]; [exact K|]|auto]. rewrite <- So in K. cbn in Oe. destruct Oe; congruence.
    - rewrite Hn. split.
      + intros [(s & N)|[[= ->] K]]; [exists s; apply nth_error_snoc; auto|]. rewrite <- So in K. injection K as <-. exists Live.
        apply nth_error_snoc. auto.
      + intros (s & N). apply nth_error_snoc in N as [N|[-> [= -> ->]]]; [eauto|]. right. split; [reflexivity|]. now rewrite <- So.
    - rewrite Hl. split; [intros [(s & N)|[E K]]; [exists s; apply nth_error_snoc; auto|discriminate]|].
      intros (s & N). apply nth_error_snoc in N as [N|[-> [=]]]. eauto.
    - rewrite Hd. split; [intros [(s & N)|[E K]]; [exists s; apply nth_error_snoc; auto|discriminate]|].
      intros (s & N). apply nth_error_snoc in N as [N|[-> [=]]]. eauto.
    - rewrite Hn, nth_error_alter. destruct (Nat.eqb_spec c u) as [->|D].
      + rewrite N. cbn. split; [intros [(s & E)|[E _]]; [injection E as -> _; eauto|discriminate]|]. intros (s & E). injection E as -> _. eauto.
      + split; [intros [K|[E _]]; [exact K|discriminate]|auto].
    - rewrite Hl, nth_error_alter. destruct (Nat.eqb_spec c u) as [->|D].
      + rewrite N. cbn. split; [intros [(s & [=])|[E _]]; discriminate|]. intros (s & [=]).
      + split; [intros [K|[E _]]; [exact K|discriminate]|auto].
    - rewrite Hd, nth_error_alter. destruct (Nat.eqb_spec c u) as [->|D].
      + rewrite N. cbn. split; [eauto|]. intros _. right. split; [reflexivity|]. now rewrite <- So.
      + split; [intros [K|[[= ->] _]]; [exact K|congruence]|auto].
    - rewrite Hn, nth_error_alter. destruct (Nat.eqb_spec c u) as [->|D].
      + rewrite N. cbn. split; [intros [(s & E)|[E _]]; [injection E as -> _; eauto|discriminate]|]. intros (s & E). injection E as -> _. eauto.
      + split; [intros [K|[E _]]; [exact K|discriminate]|auto].
    - rewrite Hl, nth_error_alter. destruct (Nat.eqb_spec c u) as [->|D].
      + rewrite N. cbn. split; [eauto|]. intros _. right. split; [reflexivity|]. now rewrite <- So.
      + split; [intros [K|[[= ->] _]]; [exact K|congruence]|auto].
    - rewrite Hd, nth_error_alter. destruct (Nat.eqb_spec c u) as [->|D].
      + rewrite N. cbn. split; [intros [(s & [=])|[E _]]; discriminate|]. intros (s & [=]).
      + split; [intros [K|[E _]]; [exact K|discriminate]|auto].
  Qed.

  Lemma leaked_spec g0 es t : g_wf g0 -> has_ctx (m_proto (gs_m (g_after g0 (calls es)))) t Leaked = true <-> context_leaked g0 es t.
  Proof.
    intros W. destruct (chist_after g0 (calls es) W) as [Hn Hl _].
    transitivity (exists c, nth_error (ctxs_of g0 (calls es)) c = Some (CtxRec t Leaked)).
    - unfold has_ctx. rewrite existsb_exists. split.
      + intros ([t' s] & I & E). apply andb_true_iff in E as [E1 E2]. apply Nat.eqb_eq in E1. cbn in *. subst t'. apply In_nth_error in I as [c N].
        exists c. rewrite N. destruct s; try discriminate. reflexivity.
      + intros [c N]. exists (CtxRec t Leaked). split; [exact (nth_error_In _ _ N)|]. cbn. now rewrite Nat.eqb_refl.
    - split.
      + intros [c N]. destruct (proj2 (did_happened g0 es (GEvent (EContext t)) (GX (XHandle c)))) as (e1 & e1' & K1); [apply Hn; eauto|].
        destruct (proj2 (did_happened g0 es (GEvent (ELeakCtx c)) (GX XUnit))) as (e2 & e2' & K2); [apply Hl; eauto|].
        exists c, e1, e1', e2, e2'. auto.
      + intros (c & e1 & e1' & e2 & e2' & K1 & K2).
        assert (J1 : exists e, happened g0 (calls es) (GEvent (EContext t)) (GX (XHandle c)) e) by (apply did_happened; eauto).
        assert (J2 : exists e, happened g0 (calls es) (GEvent (ELeakCtx c)) (GX XUnit) e) by (apply did_happened; eauto).
        apply Hn in J1 as [s J1]. apply Hl in J2 as [t' J2]. exists c. congruence.
  Qed.

  (** ** Ends of transactions *)

  (** An end that returned, in the state. *)
  Lemma end_valid g0 es t b : g_wf g0 -> g_says g0 es (GEvent (EEnd t b)) = GX XUnit ->
    let st := g_after g0 es in
    gs_hung st = false /\ lost t st = false /\ has_ctx (m_proto (gs_m st)) t Live = false /\
    exists par g, nth_error (txs_of g0 es) t = Some (TxRec par g true).
  Proof.
    intros W S st. pose proof (ginv_after g0 es W) as I. pose proof (says_valid _ _ _ _ S eq_refl) as Hg. pose proof (gi_hung _ I) as Hh.
    pose proof (gi_hung _ I) as Hh'. unfold g_says, g_step in S. rewrite Hg in S. cbn [of_lost asks] in S. fold st in Hg, Hh, S |- *.
    destruct (lost t st) eqn:L; [discriminate|]. unfold g_pass, m_step, p_step in S. rewrite Hh in S. unfold txs_of. fold st.
    destruct (nth_error (p_txs (m_proto (gs_m st))) t) as [[par g []]|] eqn:N; try discriminate.
    destruct (has_ctx (m_proto (gs_m st)) t Live) eqn:Hl; [discriminate|]. eauto 6.
  Qed.

  Lemma end_step (st : gstate Id Node) t b par g : gs_hung st = false -> p_hung (m_proto (gs_m st)) = false -> lost t st = false ->
    has_ctx (m_proto (gs_m st)) t Live = false -> nth_error (p_txs (m_proto (gs_m st))) t = Some (TxRec par g true) ->
    g_step st (GEvent (EEnd t b)) =
      (GState (Machine (close_tx t (m_proto (gs_m st)))
        (if b then if has_ctx (m_proto (gs_m st)) t Leaked then m_store (gs_m st)
                   else match par with
                        | Some c => Store (s_graph (m_store (gs_m st))) (fg_extend (s_heap (m_store (gs_m st))) (ctx_value (m_store (gs_m st)) c) t) (s_ctxs (m_store (gs_m st)))
                        | None => if g then Store (apply_ops (s_graph (m_store (gs_m st))) (buf_ops (s_heap (m_store (gs_m st))) t)) (s_heap (m_store (gs_m st))) (s_ctxs (m_store (gs_m st)))
                                  else m_store (gs_m st)
                        end
         else m_store (gs_m st))) (gs_guards st) (gs_lost st) false, GX XUnit).
  Proof.
    intros Hg Hh L Hl N. unfold g_step. rewrite Hg. cbn [of_lost asks]. rewrite L. unfold g_pass, m_step, p_step. rewrite Hh, N, Hl, Hg.
    destruct b; cbn; [|reflexivity]. destruct (has_ctx _ t Leaked); [reflexivity|]. destruct par; [reflexivity|]. destruct g; reflexivity.
  Qed.

  Lemma leaked_had g0 es t : g_wf g0 -> context_leaked g0 es t -> had_context g0 (calls es) t.
  Proof. intros W (c & e1 & e1' & e2 & e2' & K1 & _). exists c. apply did_happened. eauto. Qed.

  Lemma end_logs g0 es t : g_wf g0 -> u_says g0 es (UEvent (GEvent (EEnd t true))) = GX XUnit ->
    (background g0 (calls es) t /\ ~ had_context g0 (calls es) t /\ u_logs g0 es (UEvent (GEvent (EEnd t true))) = [LUninitialized]) \/
    (context_leaked g0 es t /\ u_logs g0 es (UEvent (GEvent (EEnd t true))) = [LInUse]) \/
    ((background g0 (calls es) t -> had_context g0 (calls es) t) /\ ~ context_leaked g0 es t /\ u_logs g0 es (UEvent (GEvent (EEnd t true))) = []).
  Proof.
    intros W S. rewrite call_logs, S. rewrite says_calls in S. cbn [returned takes asks andb app end_log].
    destruct (end_valid _ _ _ _ W S) as (Hg & Lo & Hl & par & g & N). pose proof (leaked_spec g0 es t W) as Ls.
    destruct (txhist_after g0 (calls es) W) as [Hb He Hc Ho]. unfold txs_of in *. rewrite N.
    assert (K : (par = None -> g = true) ->
      (context_leaked g0 es t /\ (if has_ctx (m_proto (gs_m (g_after g0 (calls es)))) t Leaked then [LInUse] else []) = [LInUse]) \/
      ((background g0 (calls es) t -> had_context g0 (calls es) t) /\ ~ context_leaked g0 es t /\
       (if has_ctx (m_proto (gs_m (g_after g0 (calls es)))) t Leaked then [LInUse] else []) = [])).
    { intros G. destruct (has_ctx _ t Leaked); [left; split; [now apply Ls|reflexivity]|]. right. split; [|split; [|reflexivity]].
      - intros B. apply Hb in B as (g' & o & M). rewrite N in M. injection M as -> -> <-. apply (Ho t g' N). auto.
      - intros L. apply Ls in L. discriminate. }
    destruct par as [c|]; [right; apply K; discriminate|]. destruct g; [right; apply K; reflexivity|]. left.
    split; [apply Hb; eauto|]. split; [|reflexivity]. intros C. apply (Ho t false N) in C. discriminate.
  Qed.

  Lemma end_like_drop g0 es t : g_wf g0 -> u_says g0 es (UEvent (GEvent (EEnd t true))) = GX XUnit ->
    u_logs g0 es (UEvent (GEvent (EEnd t true))) <> [] ->
    u_after g0 (es ++ [UEvent (GEvent (EEnd t true))]) = u_after g0 (es ++ [UEvent (GEvent (EEnd t false))]) /\
    u_says g0 es (UEvent (GEvent (EEnd t false))) = GX XUnit.
  Proof.
    intros W S L. rewrite call_logs, S in L. rewrite says_calls in S. cbn [returned takes asks andb app end_log] in L.
    destruct (end_valid _ _ _ _ W S) as (Hg & Lo & Hl & par & g & N). pose proof (gi_hung _ (ginv_after g0 (calls es) W)) as Hh. unfold txs_of in N. rewrite N in L.
    pose proof (fun b => end_step _ t b par g Hg Hh Lo Hl N) as E. rewrite !u_after_snoc, says_calls. cbn [u_step]. unfold u_call, g_says. rewrite after_calls, !E.
    split; [|reflexivity]. cbn [returned fst]. f_equal. f_equal. f_equal.
    destruct (has_ctx _ t Leaked); [reflexivity|]. destruct par; [contradiction|]. destruct g; [contradiction|reflexivity].
  Qed.

  Lemma read_free (st : gstate Id Node) i : gs_hung st = false -> p_hung (m_proto (gs_m st)) = false -> locked false st = false ->
    snd (g_step st (GEvent (ERead i))) = GX (XNode (g_get (s_graph (m_store (gs_m st))) i)).
  Proof.
    intros Hg Hh L. unfold g_step. rewrite Hg. cbn [of_lost asks]. rewrite L. unfold g_pass, m_step, p_step. rewrite Hh.
    unfold locked in L. destruct (guard_held _); [discriminate|]. reflexivity.
  Qed.

  Lemma get_live (st : gstate Id Node) c i : gs_hung st = false -> p_hung (m_proto (gs_m st)) = false -> ctx_live (m_proto (gs_m st)) c = true ->
    snd (g_step st (GEvent (EGet c i))) = GX (XNode (ctx_get (s_heap (m_store (gs_m st))) (s_graph (m_store (gs_m st))) (ctx_value (m_store (gs_m st)) c) i)).
  Proof. intros Hg Hh L. unfold g_step. rewrite Hg. cbn [of_lost asks]. unfold g_pass, m_step, p_step. rewrite Hh, L. reflexivity. Qed.

  (** A context made just before the end of a top-level transaction saw what is published. *)
  Lemma end_publishes g0 es t : g_wf g0 -> background g0 (calls es) t -> u_says g0 es (UEvent (GEvent (EEnd t true))) = GX XUnit ->
    u_logs g0 es (UEvent (GEvent (EEnd t true))) = [] ->
    exists c, u_says g0 es (UEvent (GEvent (EContext t))) = GX (XHandle c) /\
      forall i, u_says g0 (es ++ [UEvent (GEvent (EEnd t true))]) (UEvent (GEvent (ERead i))) =
                u_says g0 (es ++ [UEvent (GEvent (EContext t))]) (UEvent (GEvent (EGet c i))).
  Proof.
    intros W B S L. rewrite call_logs, S in L. rewrite says_calls in S. cbn [returned takes asks andb app end_log] in L.
    destruct (end_valid _ _ _ _ W S) as (Hg & Lo & Hl & par & g & N). pose proof (ginv_after g0 (calls es) W) as I. pose proof (gi_hung _ I) as Hh.
    apply (th_bg _ _ (txhist_after g0 (calls es) W)) in B as (g' & o & M). unfold txs_of in *. rewrite N in M. injection M as -> -> <-. rewrite N in L.
    destruct g'; [|discriminate]. destruct (has_ctx _ t Leaked) eqn:Hk; [discriminate|].
    pose proof (end_step _ t true None true Hg Hh Lo Hl N) as E. rewrite Hk in E.
    assert (Gh : guard_held (m_proto (gs_m (g_after g0 (calls es)))) = true) by (apply guard_held_true; exists t, (TxRec None true true); auto).
    destruct (gi_excl _ I Gh) as [X1 X2].
    assert (C : g_step (g_after g0 (calls es)) (GEvent (EContext t)) =
      (GState (Machine (Proto (p_txs (m_proto (gs_m (g_after g0 (calls es))))) (p_ctxs (m_proto (gs_m (g_after g0 (calls es)))) ++ [CtxRec t Live]) false)
        (Store (s_graph (m_store (gs_m (g_after g0 (calls es))))) (s_heap (m_store (gs_m (g_after g0 (calls es))))) (s_ctxs (m_store (gs_m (g_after g0 (calls es)))) ++ [CRoot t None])))
        (gs_guards (g_after g0 (calls es))) (gs_lost (g_after g0 (calls es))) false, GX (XHandle (length (s_ctxs (m_store (gs_m (g_after g0 (calls es))))))))).
    { unfold g_step. rewrite Hg. cbn [of_lost asks]. rewrite Lo, N. unfold g_pass, m_step, p_step. rewrite Hh, N, Hg. reflexivity. }
    exists (length (s_ctxs (m_store (gs_m (g_after g0 (calls es)))))). split; [rewrite says_calls; unfold g_says; now rewrite C|].
    intros i. rewrite !says_calls, !calls_app. cbn [calls]. unfold g_says at 1 2. rewrite !g_after_snoc, E, C. cbn [fst].
    assert (G' : guard_held (close_tx t (m_proto (gs_m (g_after g0 (calls es))))) = false).
    { destruct (guard_held (close_tx _ _)) eqn:G'; [|reflexivity]. exfalso. apply guard_held_true in G' as (u & x & Nu & Gx). cbn in Nu.
      rewrite nth_error_alter in Nu. destruct (Nat.eqb_spec t u) as [->|Du].
      - rewrite N in Nu. injection Nu as <-. discriminate.
      - apply Du. eapply (pi_one _ (mi_p _ (gi_m _ I))); eauto. }
    rewrite read_free, get_live; cbn [gs_hung gs_m m_proto m_store s_graph s_heap p_hung]; auto.
    - unfold ctx_value. cbn [s_ctxs]. rewrite nth_middle, ctx_get_unfold, g_get_apply_ops by exact (mi_wf _ (gi_m _ I)). reflexivity.
    - unfold ctx_live. cbn [p_ctxs]. rewrite (mi_ctxs _ (gi_m _ I)), nth_error_app2, Nat.sub_diag by lia. reflexivity.
    - unfold locked. cbn [gs_m m_proto]. rewrite G'. cbn [orb andb]. rewrite orb_false_r. exact X1.
  Qed.
End Facts.
