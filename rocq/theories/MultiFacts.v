(** Facts about programs over several schemas. *)
From Coq Require Import List Bool Arith Lia.
From Verif Require Import Ord OrdFacts BTree BTreeFacts Graph Tx TxFacts Prog SpecProg ProgFacts Multi SpecMulti.
Import ListNotations.

Section Facts.
  Context {Id Node V U : Type} `{HO : OrdT Id} `{HI : Identify Node Id}.
  Notation prog := (prog Id Node V U).
  Notation world := (world Id Node V U).
  Notation schema := (schema Id Node V U).
  Notation mprog := (mprog Id Node V U).
  Notation mschema := (mschema Id Node V U).
  Notation outcome := (outcome V).

  Lemma nth_alter_same (f : world -> world) s ws w : nth_error ws s = Some w -> nth_error (alter f s ws) s = Some (f w).
  Proof. intros E. rewrite nth_error_alter, Nat.eqb_refl, E. reflexivity. Qed.

  Lemma nth_alter_other (f : world -> world) s t ws : s <> t -> nth_error (alter f s ws) t = nth_error ws t.
  Proof. intros N. rewrite nth_error_alter. now rewrite (proj2 (Nat.eqb_neq s t) N). Qed.

  Lemma nth_emit v s (ws : list world) w : nth_error ws s = Some w -> nth_error (map (emit v) ws) s = Some (emit v w).
  Proof. apply map_nth_error. Qed.

  (** ** Determinism *)
  Section Det.
    Variable scs : list mschema.

    Lemma mrun_mono fuel : forall (ws : list world) (p : mprog) x, mrun scs fuel ws p = Some x ->
      forall fuel', fuel <= fuel' -> mrun scs fuel' ws p = Some x.
    Proof.
      induction fuel as [|fuel IH]; intros ws p x E fuel' L; [discriminate|].
      destruct fuel' as [|fuel']; [lia|]. assert (L' : fuel <= fuel') by lia.
      assert (IH' : forall ws p x, mrun scs fuel ws p = Some x -> mrun scs fuel' ws p = Some x) by eauto.
      clear IH L. cbn [mrun] in *.
      assert (Seq : forall (ws : list world) (body : mprog) k1 k2 y,
        (forall ws1 o, match k1 ws1 o : option (list world * outcome) with Some z => k2 ws1 o = Some z | None => True end) ->
        match mrun scs fuel ws body with Some (ws1, o) => k1 ws1 o | None => None end = Some y ->
        match mrun scs fuel' ws body with Some (ws1, o) => k2 ws1 o | None => None end = Some y).
      { intros ws0 body k1 k2 y K Q. destruct (mrun scs fuel ws0 body) as [[ws1 o]|] eqn:R; [|discriminate].
        rewrite (IH' _ _ _ R). specialize (K ws1 o). rewrite Q in K. exact K. }
      destruct p; eauto.
      - destruct (mrun scs fuel ws p) as [[ws1 o]|] eqn:R; [|discriminate]. rewrite (IH' _ _ _ R). destruct o; eauto.
      - destruct (mrun scs fuel ws p) as [[ws1 o]|] eqn:R; [|discriminate]. rewrite (IH' _ _ _ R). destruct o; eauto.
      - destruct (nth_error ws s) as [w|]; auto. destruct (nth_error scs s); auto. destruct (do_call _ w c) as [[w1 a]|]; auto.
      - destruct t as [crash|c].
        + destruct (nth_error ws s) as [w|]; auto. destruct (w_lock w); auto.
          match type of E with match mrun scs fuel ?a ?b with _ => _ end = _ =>
            destruct (mrun scs fuel a b) as [[ws1 o]|] eqn:R; [|discriminate]; rewrite (IH' _ _ _ R) end.
          destruct o; auto. destruct (nth_error ws1 s); auto. destruct (is_ok r); auto. destruct (bg_commit _ _ _) as [w2 [|]]; auto.
        + destruct (nth_error ws s) as [w|]; auto.
          match type of E with match mrun scs fuel ?a ?b with _ => _ end = _ =>
            destruct (mrun scs fuel a b) as [[ws1 o]|] eqn:R; [|discriminate]; rewrite (IH' _ _ _ R) end.
          destruct o; auto. destruct (is_ok r); auto.
      - destruct (nth_error scs s); auto.
        match type of E with match mrun scs fuel ?a ?b with _ => _ end = _ =>
          destruct (mrun scs fuel a b) as [[ws1 o]|] eqn:R; [|discriminate]; rewrite (IH' _ _ _ R) end. destruct o; auto.
      - destruct (nth_error ws s) as [w|]; auto. destruct (glock_read (w_lock w)); auto.
        match type of E with match mrun scs fuel ?a ?b with _ => _ end = _ =>
          destruct (mrun scs fuel a b) as [[ws1 o]|] eqn:R; [|discriminate]; rewrite (IH' _ _ _ R) end. destruct o; auto.
      - destruct (nth_error ws s) as [w|]; auto. destruct (w_lock w); auto.
        match type of E with match mrun scs fuel ?a ?b with _ => _ end = _ =>
          destruct (mrun scs fuel a b) as [[ws1 o]|] eqn:R; [|discriminate]; rewrite (IH' _ _ _ R) end. destruct o; auto.
      - destruct (macquire m hs ws) as [ws0 held| |]; auto. destruct (mderef_all ws0 hs held) as [vs|]; auto.
        match type of E with match mrun scs fuel ?a ?b with _ => _ end = _ =>
          destruct (mrun scs fuel a b) as [[ws1 o]|] eqn:R; [|discriminate]; rewrite (IH' _ _ _ R) end. destruct o; auto.
    Qed.

    Lemma mrelease_length poison l (ws : list world) : length (mrelease poison l ws) = length ws.
    Proof. induction l as [|[t a] l IH]; [reflexivity|]. cbn [mrelease]. now rewrite alter_length. Qed.

    Lemma macquire_length m hs : forall (ws ws' : list world) held, macquire m hs ws = MAcqOk ws' held -> length ws' = length ws.
    Proof.
      induction hs as [|[t h] hs IH]; intros ws ws' held E; cbn [macquire] in E.
      - injection E as <- _. reflexivity.
      - destruct (nth_error ws t) as [wt|]; [|discriminate]. destruct (acquire1 m h (w_cells wt)) as [cs a| |]; try discriminate.
        destruct (macquire m hs (alter (set_cells cs) t ws)) as [ws2 l| |] eqn:M; try discriminate. injection E as <- _.
        rewrite (IH _ _ _ M). apply alter_length.
    Qed.

    Lemma mrun_length fuel : forall (ws : list world) (p : mprog) ws' o, mrun scs fuel ws p = Some (ws', o) -> length ws' = length ws.
    Proof.
      induction fuel as [|fuel IH]; intros ws p ws' o E; [discriminate|]. cbn [mrun] in E.
      assert (Len : forall (f : world -> world) s ws, length (alter f s ws) = length ws) by (intros; apply alter_length).
      destruct p as [r| | |v k|body k|body k|t c k|t x body k|t x c k|t body k|t body k|m hs body k];
        try (injection E as <- <-; reflexivity); try discriminate.
      - apply IH in E. now rewrite map_length in E.
      - destruct (mrun scs fuel ws body) as [[ws1 o1]|] eqn:R; [|discriminate]. apply IH in R.
        destruct o1; try (injection E as <- <-; exact R). apply IH in E. congruence.
      - destruct (mrun scs fuel ws body) as [[ws1 o1]|] eqn:R; [|discriminate]. apply IH in R.
        destruct o1; try (injection E as <- <-; exact R); apply IH in E; congruence.
      - destruct (nth_error ws t); [|injection E as <- <-; reflexivity]. destruct (nth_error scs t); [|injection E as <- <-; reflexivity].
        destruct (do_call _ _ c) as [[w1 a]|]; [|injection E as <- <-; reflexivity]. apply IH in E. now rewrite Len in E.
      - destruct x as [crash|c]; (destruct (nth_error ws t) as [w|]; [|injection E as <- <-; reflexivity]);
          [destruct (w_lock w); try (injection E as <- <-; reflexivity)|];
          (match type of E with match mrun scs fuel ?a ?b with _ => _ end = _ => destruct (mrun scs fuel a b) as [[ws1 o1]|] eqn:R; [|discriminate] end);
          apply IH in R; rewrite Len in R; (destruct o1; try (injection E as <- <-; rewrite ?Len; exact R)).
        + destruct (nth_error ws1 t); [|injection E as <- <-; exact R]. destruct (is_ok r).
          * destruct (bg_commit _ _ _) as [w2 [|]]; [injection E as <- <-; now rewrite Len|]. apply IH in E. rewrite Len in E. congruence.
          * apply IH in E. rewrite Len in E. congruence.
        + destruct (is_ok r); apply IH in E; rewrite Len in E; congruence.
      - destruct (nth_error scs t); [|injection E as <- <-; reflexivity].
        match type of E with match mrun scs fuel ?a ?b with _ => _ end = _ => destruct (mrun scs fuel a b) as [[ws1 o1]|] eqn:R; [|discriminate] end.
        apply IH in R. destruct o1; try (injection E as <- <-; exact R). apply IH in E. congruence.
      - destruct (nth_error ws t) as [w|]; [|injection E as <- <-; reflexivity]. destruct (glock_read (w_lock w)); [|injection E as <- <-; reflexivity].
        match type of E with match mrun scs fuel ?a ?b with _ => _ end = _ => destruct (mrun scs fuel a b) as [[ws1 o1]|] eqn:R; [|discriminate] end.
        apply IH in R. rewrite Len in R. destruct o1; try (injection E as <- <-; rewrite ?Len; exact R). apply IH in E. rewrite Len in E. congruence.
      - destruct (nth_error ws t) as [w|]; [|injection E as <- <-; reflexivity]. destruct (w_lock w); try (injection E as <- <-; reflexivity).
        match type of E with match mrun scs fuel ?a ?b with _ => _ end = _ => destruct (mrun scs fuel a b) as [[ws1 o1]|] eqn:R; [|discriminate] end.
        apply IH in R. rewrite Len in R. destruct o1; try (injection E as <- <-; rewrite ?Len; exact R). apply IH in E. rewrite Len in E. congruence.
      - destruct (macquire m hs ws) as [ws0 held| |] eqn:A; try (injection E as <- <-; reflexivity). apply macquire_length in A.
        destruct (mderef_all ws0 hs held) as [vs|].
        + match type of E with match mrun scs fuel ?a ?b with _ => _ end = _ => destruct (mrun scs fuel a b) as [[ws1 o1]|] eqn:R; [|discriminate] end.
          apply IH in R. destruct o1; try (injection E as <- <-; rewrite ?mrelease_length; congruence).
          apply IH in E. rewrite mrelease_length in E. congruence.
        + apply IH in E. rewrite mrelease_length in E. congruence.
    Qed.

    Lemma mends_det (ws : list world) (p : mprog) ws1 o1 ws2 o2 :
      mends scs ws p ws1 o1 -> mends scs ws p ws2 o2 -> ws1 = ws2 /\ o1 = o2.
    Proof.
      intros [f1 E1] [f2 E2].
      pose proof (mrun_mono _ _ _ _ E1 (f1 + f2) ltac:(lia)) as F1.
      pose proof (mrun_mono _ _ _ _ E2 (f1 + f2) ltac:(lia)) as F2.
      rewrite F1 in F2. injection F2 as -> ->. auto.
    Qed.
  End Det.

  (** ** Seen from one schema *)

  (** What concerns schema [s]. *)
  Definition mine {A} (s : nat) (l : list (nat * A)) : list A := map snd (filter (fun x => Nat.eqb (fst x) s) l).

  Lemma mine_cons {A} s t (a : A) l : mine s ((t, a) :: l) = if Nat.eqb t s then a :: mine s l else mine s l.
  Proof. unfold mine. cbn [filter fst]. destruct (Nat.eqb t s); reflexivity. Qed.

  Lemma macquire_mine m s hs : forall (ws : list world) w ws' held, nth_error ws s = Some w ->
    macquire m hs ws = MAcqOk ws' held ->
    exists cs, acquire m (mine s hs) (w_cells w) = AcqOk _ cs (mine s held) /\ nth_error ws' s = Some (set_cells cs w).
  Proof.
    induction hs as [|[t h] hs IH]; intros ws w ws' held N E.
    - cbn in E. injection E as <- <-. exists (w_cells w). split; [reflexivity|]. rewrite N. destruct w; reflexivity.
    - cbn [macquire] in E. destruct (nth_error ws t) as [wt|] eqn:Nt; [|discriminate].
      destruct (acquire1 m h (w_cells wt)) as [cs a| |] eqn:A; try discriminate.
      destruct (macquire m hs (alter (set_cells cs) t ws)) as [ws2 l| |] eqn:M; try discriminate. injection E as <- <-.
      rewrite !mine_cons. destruct (Nat.eqb_spec t s) as [->|Ne].
      + rewrite N in Nt. injection Nt as <-.
        destruct (IH _ (set_cells cs w) _ _ (nth_alter_same (set_cells cs) _ _ _ N) M) as (cs2 & A2 & N2).
        exists cs2. cbn [acquire]. rewrite A. cbn [w_cells set_cells] in A2. rewrite A2. split; [reflexivity|]. rewrite N2. reflexivity.
      + apply (IH (alter (set_cells cs) t ws) w _ _); [|exact M]. now rewrite nth_alter_other.
  Qed.

  Lemma macquire_shape m hs : forall (ws : list world) ws' held, macquire m hs ws = MAcqOk ws' held -> map fst held = map fst hs.
  Proof.
    induction hs as [|[t h] hs IH]; intros ws ws' held E.
    - cbn in E. injection E as _ <-. reflexivity.
    - cbn [macquire] in E. destruct (nth_error ws t) as [wt|]; [|discriminate].
      destruct (acquire1 m h (w_cells wt)) as [cs a| |]; try discriminate.
      destruct (macquire m hs (alter (set_cells cs) t ws)) as [ws2 l| |] eqn:M; try discriminate. injection E as _ <-.
      cbn. f_equal. exact (IH _ _ _ M).
  Qed.

  Lemma mderef_mine s hs : forall held (ws : list world) w vs, nth_error ws s = Some w -> map fst held = map fst hs ->
    mderef_all ws hs held = Some vs -> deref_all (w_cells w) (mine s hs) (mine s held) = Some (mine s vs).
  Proof.
    induction hs as [|[t h] hs IH]; intros [|[t' a] held] ws w vs N S E; try discriminate.
    - injection E as <-. reflexivity.
    - cbn in S. injection S as -> S. cbn [mderef_all] in E. destruct (nth_error ws t) as [wt|] eqn:Nt; [|discriminate].
      destruct (deref1 (w_cells wt) h a) as [v|] eqn:D; [|discriminate].
      destruct (mderef_all ws hs held) as [vs'|] eqn:Ds; [|discriminate]. injection E as <-.
      rewrite !mine_cons. destruct (Nat.eqb_spec t s) as [->|Ne].
      + rewrite N in Nt. injection Nt as <-. cbn [deref_all]. rewrite D, (IH _ _ _ _ N S Ds). reflexivity.
      + now apply (IH _ ws).
  Qed.

  Lemma release_cons poison a l cs : release poison (a :: l) cs = release poison [a] (release (U := U) (Node := Node) poison l cs).
  Proof. destruct a; reflexivity. Qed.

  Lemma mrelease_mine poison s l : forall (ws : list world) w, nth_error ws s = Some w ->
    nth_error (mrelease poison l ws) s = Some (set_cells (release poison (mine s l) (w_cells w)) w).
  Proof.
    induction l as [|[t a] l IH]; intros ws w N.
    - cbn. rewrite N. destruct w; reflexivity.
    - cbn [mrelease]. rewrite mine_cons. destruct (Nat.eqb_spec t s) as [->|Ne].
      + rewrite (nth_alter_same _ _ _ _ (IH _ _ N)). rewrite release_cons. reflexivity.
      + rewrite nth_alter_other by assumption. now apply IH.
  Qed.

  Section Seen.
    Variable scs : list mschema.
    Variable s : nat.
    Variable sc : mschema.
    Hypothesis Hs : nth_error scs s = Some sc.

    (** The schema on its own, without its triggers. *)
    Definition bare : schema := Schema (ms_resources sc) [].

    Lemma do_call_exec (w w1 w' : world) c a (q : prog) o :
      do_call (ms_resources sc) w c = Some (w1, a) -> exec bare w1 q w' o -> exists q', exec bare w q' w' o.
    Proof.
      intros E X. destruct c; cbn [do_call] in E.
      - injection E as <- <-. eexists. eapply XSave, X.
      - injection E as <- <-. eexists. eapply XDelete, X.
      - injection E as <- <-. eauto.
      - injection E as <- <-. eauto.
      - injection E as <- <-. exists (PTarget c n (fun _ => q)). apply XTarget, X.
      - injection E as <- <-. eexists. eapply XLeak, X.
      - destruct (w_lock w); try discriminate; injection E as <- <-; eauto.
      - destruct (w_lock w); try discriminate; injection E as <- <-; eauto.
      - destruct (w_lock w) eqn:L; try discriminate. destruct (g_step (w_graph w) c) as [g r] eqn:G. injection E as <- <-.
        exists (PGraphCall c (fun _ => q)). apply XGraphCall; [exact L|]. rewrite G. exact X.
      - injection E as <- <-. eauto.
      - destruct (nth_error (w_cells w) a0) as [[d' p l]|] eqn:N; [|discriminate]. destruct l; try discriminate.
        destruct (ty_eqb (ty_of d) (ty_of d')) eqn:T; [|discriminate]. injection E as <- <-.
        exists (PPoke a0 d q). eapply XPoke; [exact N|reflexivity|exact T|].
        replace (alter (fun x => Cell d (c_poison x) (c_lock x)) a0 (w_cells w)) with (alter (fun _ => Cell d p Writer) a0 (w_cells w)); [exact X|].
        apply alter_ext. intros x Nx. rewrite N in Nx. injection Nx as <-. reflexivity.
    Qed.

    (** A call whose continuation is only run after a return. *)
    Lemma exec_then (w w1 w' : world) (q1 q2 : prog) r o : exec bare w q1 w1 (ORet r) -> exec bare w1 q2 w' o ->
      exec bare w (PCall q1 (fun _ => q2)) w' o.
    Proof. intros A B. eapply XCall; [exact A|exact B]. Qed.

    Definition seen (w : world) (w' : world) (o : outcome) : Prop := exists q, exec bare w q w' o.

    Lemma seen_then (w w1 w' : world) r o : seen w w1 (ORet r) -> seen w1 w' o -> seen w w' o.
    Proof. intros [q1 A] [q2 B]. exists (PCall q1 (fun _ => q2)). eapply exec_then; eauto. Qed.

    Lemma seen_panics (w w1 : world) r : seen w w1 (ORet r) -> seen w w1 OPanic.
    Proof. intros A. eapply seen_then; [exact A|]. exists PPanic. constructor. Qed.

    Lemma mrun_seen fuel : forall (ws : list world) (p : mprog) ws' o w,
      mrun scs fuel ws p = Some (ws', o) -> comes_back o -> nth_error ws s = Some w ->
      exists w', nth_error ws' s = Some w' /\ seen w w' o.
    Proof.
      induction fuel as [|fuel IH]; intros ws p ws' o w E B N; [discriminate|]. cbn [mrun] in E.
      destruct p as [r| | |v k|body k|body k|t c k|t x body k|t x c k|t body k|t body k|m hs body k].
      - injection E as <- <-. exists w. split; [exact N|]. exists (PRet r). constructor.
      - injection E as <- <-. exists w. split; [exact N|]. exists PPanic. constructor.
      - discriminate.
      - destruct (IH _ _ _ _ _ E B (nth_emit v _ _ _ N)) as (w' & N' & q & X). exists w'. split; [exact N'|]. exists (PEmit v q). now constructor.
      - destruct (mrun scs fuel ws body) as [[ws1 o1]|] eqn:R; [|discriminate]. destruct o1 as [r| | |]; try (injection E as <- <-; destruct B; fail).
        + destruct (IH _ _ _ _ _ R I N) as (w1 & N1 & S1). destruct (IH _ _ _ _ _ E B N1) as (w' & N' & S'). eauto using seen_then.
        + injection E as <- <-. exact (IH _ _ _ _ _ R I N).
      - destruct (mrun scs fuel ws body) as [[ws1 o1]|] eqn:R; [|discriminate]. destruct o1 as [r| | |]; try (injection E as <- <-; destruct B; fail).
        + destruct (IH _ _ _ _ _ R I N) as (w1 & N1 & S1). destruct (IH _ _ _ _ _ E B N1) as (w' & N' & S'). eauto using seen_then.
        + destruct (IH _ _ _ _ _ R I N) as (w1 & N1 & q1 & X1). destruct (IH _ _ _ _ _ E B N1) as (w' & N' & q2 & X2).
          exists w'. split; [exact N'|]. exists (PTry q1 (fun _ => q2)). eapply XTryPanic; eauto.
      - destruct (nth_error ws t) as [wt|] eqn:Nt; [|injection E as <- <-; destruct B].
        destruct (nth_error scs t) as [sct|] eqn:St; [|injection E as <- <-; destruct B].
        destruct (do_call (ms_resources sct) wt c) as [[w1 a]|] eqn:D; [|injection E as <- <-; destruct B].
        destruct (Nat.eq_dec t s) as [->|Ne].
        + rewrite N in Nt. injection Nt as <-. rewrite Hs in St. injection St as <-.
          destruct (IH _ _ _ _ _ E B (nth_alter_same (fun _ => w1) _ _ _ N)) as (w' & N' & q & X). exists w'. split; [exact N'|].
          eapply do_call_exec; eauto.
        + apply (IH _ _ _ _ w E B). now rewrite nth_alter_other.
      - destruct x as [crash|c].
        + destruct (nth_error ws t) as [wt|] eqn:Nt; [|injection E as <- <-; destruct B].
          destruct (w_lock wt) eqn:L; try (injection E as <- <-; destruct B; fail).
          match type of E with match mrun scs fuel ?a ?b with _ => _ end = _ => destruct (mrun scs fuel a b) as [[ws1 o1]|] eqn:R; [|discriminate] end.
          destruct (Nat.eq_dec t s) as [->|Ne].
          * rewrite N in Nt. injection Nt as <-.
            destruct o1 as [r| | |]; try (injection E as <- <-; destruct B; fail).
            -- destruct (IH _ _ _ _ _ R I (nth_alter_same _ _ _ _ N)) as (w1 & N1 & q1 & X1). rewrite N1 in E.
               destruct (is_ok r) eqn:Ok.
               ++ destruct (bg_commit crash (length (w_heap w)) w1) as [w2 panicked] eqn:C. destruct panicked.
                  ** injection E as <- <-. eexists. split; [exact (nth_alter_same _ _ _ _ N1)|].
                     exists (PWith (TxBg crash) (fun _ => q1) PRet). eapply XBgCrash; eauto.
                  ** destruct (IH _ _ _ _ _ E B (nth_alter_same _ _ _ _ N1)) as (w' & N' & q2 & X2).
                     exists w'. split; [exact N'|]. exists (PWith (TxBg crash) (fun _ => q1) (fun _ => q2)). eapply XBgOk; eauto.
               ++ destruct (IH _ _ _ _ _ E B (nth_alter_same _ _ _ _ N1)) as (w' & N' & q2 & X2).
                  exists w'. split; [exact N'|]. exists (PWith (TxBg crash) (fun _ => q1) (fun _ => q2)). eapply XBgErr; eauto.
            -- injection E as <- <-. destruct (IH _ _ _ _ _ R I (nth_alter_same _ _ _ _ N)) as (w1 & N1 & q1 & X1).
               eexists. split; [exact (nth_alter_same _ _ _ _ N1)|]. exists (PWith (TxBg crash) (fun _ => q1) PRet). eapply XBgPanic; eauto.
          * assert (N0 : forall f, nth_error (alter f t ws) s = Some w) by (intros f; now rewrite nth_alter_other).
            destruct o1 as [r| | |]; try (injection E as <- <-; destruct B; fail).
            -- destruct (IH _ _ _ _ _ R I (N0 _)) as (w1 & N1 & S1).
               assert (N2 : forall f, nth_error (alter f t ws1) s = Some w1) by (intros f; now rewrite nth_alter_other).
               destruct (nth_error ws1 t) as [wt1|] eqn:Nt1; [|injection E as <- <-; destruct B].
               destruct (is_ok r).
               ++ destruct (bg_commit crash (length (w_heap wt)) wt1) as [w2 panicked]. destruct panicked.
                  ** injection E as <- <-. exists w1. split; [apply N2|]. eapply seen_panics; eauto.
                  ** destruct (IH _ _ _ _ _ E B (N2 _)) as (w' & N' & S'). eauto using seen_then.
               ++ destruct (IH _ _ _ _ _ E B (N2 _)) as (w' & N' & S'). eauto using seen_then.
            -- injection E as <- <-. destruct (IH _ _ _ _ _ R I (N0 _)) as (w1 & N1 & S1). exists w1. split; [now rewrite nth_alter_other|exact S1].
        + destruct (nth_error ws t) as [wt|] eqn:Nt; [|injection E as <- <-; destruct B].
          match type of E with match mrun scs fuel ?a ?b with _ => _ end = _ => destruct (mrun scs fuel a b) as [[ws1 o1]|] eqn:R; [|discriminate] end.
          destruct (Nat.eq_dec t s) as [->|Ne].
          * rewrite N in Nt. injection Nt as <-.
            destruct o1 as [r| | |]; try (injection E as <- <-; destruct B; fail).
            -- destruct (IH _ _ _ _ _ R I (nth_alter_same _ _ _ _ N)) as (w1 & N1 & q1 & X1).
               destruct (is_ok r) eqn:Ok; destruct (IH _ _ _ _ _ E B (nth_alter_same _ _ _ _ N1)) as (w' & N' & q2 & X2);
                 exists w'; (split; [exact N'|]); exists (PWith (TxFg c) (fun _ => q1) (fun _ => q2)); [eapply XFgOk|eapply XFgErr]; eauto.
            -- injection E as <- <-. destruct (IH _ _ _ _ _ R I (nth_alter_same _ _ _ _ N)) as (w1 & N1 & q1 & X1).
               eexists. split; [exact (nth_alter_same _ _ _ _ N1)|]. exists (PWith (TxFg c) (fun _ => q1) PRet). eapply XFgPanic; eauto.
          * assert (N0 : forall f, nth_error (alter f t ws) s = Some w) by (intros f; now rewrite nth_alter_other).
            destruct o1 as [r| | |]; try (injection E as <- <-; destruct B; fail).
            -- destruct (IH _ _ _ _ _ R I (N0 _)) as (w1 & N1 & S1).
               assert (N2 : forall f, nth_error (alter f t ws1) s = Some w1) by (intros f; now rewrite nth_alter_other).
               destruct (is_ok r); destruct (IH _ _ _ _ _ E B (N2 _)) as (w' & N' & S'); eauto using seen_then.
            -- injection E as <- <-. destruct (IH _ _ _ _ _ R I (N0 _)) as (w1 & N1 & S1). exists w1. split; [now rewrite nth_alter_other|exact S1].
      - destruct (nth_error scs t) as [sct|]; [|injection E as <- <-; destruct B].
        match type of E with match mrun scs fuel ?a ?b with _ => _ end = _ => destruct (mrun scs fuel a b) as [[ws1 o1]|] eqn:R; [|discriminate] end.
        destruct o1 as [r| | |]; try (injection E as <- <-; destruct B; fail).
        + destruct (IH _ _ _ _ _ R I N) as (w1 & N1 & S1). destruct (IH _ _ _ _ _ E B N1) as (w' & N' & S'). eauto using seen_then.
        + injection E as <- <-. exact (IH _ _ _ _ _ R I N).
      - destruct (nth_error ws t) as [wt|] eqn:Nt; [|injection E as <- <-; destruct B].
        destruct (glock_read (w_lock wt)) as [l|] eqn:L; [|injection E as <- <-; destruct B].
        match type of E with match mrun scs fuel ?a ?b with _ => _ end = _ => destruct (mrun scs fuel a b) as [[ws1 o1]|] eqn:R; [|discriminate] end.
        destruct (Nat.eq_dec t s) as [->|Ne].
        + rewrite N in Nt. injection Nt as <-.
          destruct o1 as [r| | |]; try (injection E as <- <-; destruct B; fail).
          * destruct (IH _ _ _ _ _ R I (nth_alter_same _ _ _ _ N)) as (w1 & N1 & q1 & X1).
            destruct (IH _ _ _ _ _ E B (nth_alter_same _ _ _ _ N1)) as (w' & N' & q2 & X2).
            exists w'. split; [exact N'|]. exists (PRead q1 (fun _ => q2)). eapply XRead; eauto.
          * injection E as <- <-. destruct (IH _ _ _ _ _ R I (nth_alter_same _ _ _ _ N)) as (w1 & N1 & q1 & X1).
            eexists. split; [exact (nth_alter_same _ _ _ _ N1)|]. exists (PRead q1 PRet). eapply XReadPanic; eauto.
        + assert (N0 : forall f, nth_error (alter f t ws) s = Some w) by (intros f; now rewrite nth_alter_other).
          destruct o1 as [r| | |]; try (injection E as <- <-; destruct B; fail).
          * destruct (IH _ _ _ _ _ R I (N0 _)) as (w1 & N1 & S1).
            assert (N2 : forall f, nth_error (alter f t ws1) s = Some w1) by (intros f; now rewrite nth_alter_other).
            destruct (IH _ _ _ _ _ E B (N2 _)) as (w' & N' & S'). eauto using seen_then.
          * injection E as <- <-. destruct (IH _ _ _ _ _ R I (N0 _)) as (w1 & N1 & S1). exists w1. split; [now rewrite nth_alter_other|exact S1].
      - destruct (nth_error ws t) as [wt|] eqn:Nt; [|injection E as <- <-; destruct B].
        destruct (w_lock wt) eqn:L; try (injection E as <- <-; destruct B; fail).
        match type of E with match mrun scs fuel ?a ?b with _ => _ end = _ => destruct (mrun scs fuel a b) as [[ws1 o1]|] eqn:R; [|discriminate] end.
        destruct (Nat.eq_dec t s) as [->|Ne].
        + rewrite N in Nt. injection Nt as <-.
          destruct o1 as [r| | |]; try (injection E as <- <-; destruct B; fail).
          * destruct (IH _ _ _ _ _ R I (nth_alter_same _ _ _ _ N)) as (w1 & N1 & q1 & X1).
            destruct (IH _ _ _ _ _ E B (nth_alter_same _ _ _ _ N1)) as (w' & N' & q2 & X2).
            exists w'. split; [exact N'|]. exists (PWrite q1 (fun _ => q2)). eapply XWrite; eauto.
          * injection E as <- <-. destruct (IH _ _ _ _ _ R I (nth_alter_same _ _ _ _ N)) as (w1 & N1 & q1 & X1).
            eexists. split; [exact (nth_alter_same _ _ _ _ N1)|]. exists (PWrite q1 PRet). eapply XWritePanic; eauto.
        + assert (N0 : forall f, nth_error (alter f t ws) s = Some w) by (intros f; now rewrite nth_alter_other).
          destruct o1 as [r| | |]; try (injection E as <- <-; destruct B; fail).
          * destruct (IH _ _ _ _ _ R I (N0 _)) as (w1 & N1 & S1).
            assert (N2 : forall f, nth_error (alter f t ws1) s = Some w1) by (intros f; now rewrite nth_alter_other).
            destruct (IH _ _ _ _ _ E B (N2 _)) as (w' & N' & S'). eauto using seen_then.
          * injection E as <- <-. destruct (IH _ _ _ _ _ R I (N0 _)) as (w1 & N1 & S1). exists w1. split; [now rewrite nth_alter_other|exact S1].
      - destruct (macquire m hs ws) as [ws0 held| |] eqn:A; try (injection E as <- <-; destruct B; fail).
        destruct (macquire_mine m s hs _ _ _ _ N A) as (cs & A' & N0).
        pose proof (macquire_shape _ _ _ _ _ A) as Sh.
        destruct (mderef_all ws0 hs held) as [vs|] eqn:D.
        + pose proof (mderef_mine s hs held _ _ _ N0 Sh D) as D'. cbn [w_cells set_cells] in D'.
          match type of E with match mrun scs fuel ?a ?b with _ => _ end = _ => destruct (mrun scs fuel a b) as [[ws1 o1]|] eqn:R; [|discriminate] end.
          destruct o1 as [r| | |]; try (injection E as <- <-; destruct B; fail).
          * destruct (IH _ _ _ _ _ R I N0) as (w1 & N1 & q1 & X1).
            destruct (IH _ _ _ _ _ E B (mrelease_mine false s held _ _ N1)) as (w' & N' & q2 & X2).
            exists w'. split; [exact N'|]. exists (PAccess m (mine s hs) (fun _ => q1) (fun _ => q2)). eapply XAccess; eauto.
          * injection E as <- <-. destruct (IH _ _ _ _ _ R I N0) as (w1 & N1 & q1 & X1).
            eexists. split; [exact (mrelease_mine _ s held _ _ N1)|].
            exists (PAccess m (mine s hs) (fun _ => q1) (fun _ => PPanic)). eapply XAccessPanic; eauto.
        + destruct (IH _ _ _ _ _ E B (mrelease_mine false s held _ _ N0)) as (w' & N' & q2 & X2).
          exists w'. split; [exact N'|]. exists (PAccess m (mine s hs) (fun _ => PRet RUnit) (fun _ => q2)).
          destruct (deref_all cs (mine s hs) (mine s held)) as [vs|] eqn:D'.
          * eapply XAccess; [exact A'|exact D'|apply XRet|exact X2].
          * eapply XAbsent; [exact A'|exact D'|exact X2].
    Qed.
  End Seen.

  (** ** A program over one schema, on one of many *)
  Section Embed.
    Variable s : nat.
    Variable sc : schema.
    Variable scs : list mschema.
    Hypothesis Hs : nth_error scs s = Some (schema_on s sc).

    (** All the schemas but [s] have only been told the values [l]. *)
    Definition elsewhere (l : list V) (ws ws' : list world) : Prop :=
      length ws' = length ws /\
      forall t, t <> s -> nth_error ws' t = option_map (fun w => fold_left (fun w v => emit v w) l w) (nth_error ws t).

    Lemma elsewhere_refl ws : elsewhere [] ws ws.
    Proof. split; [reflexivity|]. intros t _. destruct (nth_error ws t); reflexivity. Qed.

    Lemma elsewhere_alter f ws : elsewhere [] ws (alter f s ws).
    Proof.
      split; [apply alter_length|]. intros t Ne. rewrite nth_alter_other by auto. destruct (nth_error ws t); reflexivity.
    Qed.

    Lemma elsewhere_trans l1 l2 ws ws1 ws2 : elsewhere l1 ws ws1 -> elsewhere l2 ws1 ws2 -> elsewhere (l1 ++ l2) ws ws2.
    Proof.
      intros [L1 E1] [L2 E2]. split; [congruence|]. intros t Ne. rewrite E2, E1 by assumption.
      destruct (nth_error ws t); [|reflexivity]. cbn. now rewrite fold_left_app.
    Qed.

    (** What running [p] on [ws] does, [p] doing [x] on its own. *)
    Definition embeds (ws : list world) (w : world) (x : option (world * outcome)) (y : option (list world * outcome)) : Prop :=
      match x with
      | None => y = None
      | Some (w', o) => exists ws' l, y = Some (ws', o) /\ nth_error ws' s = Some w' /\ w_out w' = w_out w ++ l /\ elsewhere l ws ws'
      end.

    Lemma embeds_from ws w ws1 w1 x y l : elsewhere l ws ws1 -> w_out w1 = w_out w ++ l -> embeds ws1 w1 x y -> embeds ws w x y.
    Proof.
      intros El Eo X. destruct x as [[w' o]|]; [|exact X]. destruct X as (ws' & l' & -> & N & O & E). exists ws', (l ++ l').
      split; [reflexivity|]. split; [exact N|]. split; [rewrite O, Eo; now rewrite app_assoc|]. eapply elsewhere_trans; eauto.
    Qed.

    Lemma embeds_here ws w w' o ws' : nth_error ws' s = Some w' -> w_out w' = w_out w -> elsewhere [] ws ws' ->
      embeds ws w (Some (w', o)) (Some (ws', o)).
    Proof. intros N O E. exists ws', []. rewrite app_nil_r. auto. Qed.

    (** Continuing after a piece has been run. *)
    Lemma embeds_bind ws w x y (f : world -> outcome -> option (world * outcome)) (g : list world -> outcome -> option (list world * outcome)) :
      embeds ws w x y ->
      (forall w1 o ws1 l, nth_error ws1 s = Some w1 -> w_out w1 = w_out w ++ l -> elsewhere l ws ws1 -> embeds ws1 w1 (f w1 o) (g ws1 o)) ->
      embeds ws w (match x with Some (w1, o) => f w1 o | None => None end) (match y with Some (ws1, o) => g ws1 o | None => None end).
    Proof.
      intros X K. destruct x as [[w1 o]|]; [|rewrite X; reflexivity]. destruct X as (ws1 & l & -> & N & O & E).
      eapply embeds_from; [exact E|exact O|]. now apply K with (l := l).
    Qed.

    Lemma triggers_get t : bt_get t (ms_triggers (schema_on s sc)) =
      option_map (map (fun (t : trigger Id Node V U) c => on s (t c))) (bt_get t (sc_triggers sc)).
    Proof.
      unfold schema_on. cbn [ms_triggers]. induction (sc_triggers sc) as [|[k v] m IH]; [reflexivity|]. cbn.
      destruct (Nat.compare t k); auto.
    Qed.

    Lemma embed_triggers fuel : (forall fuel', fuel' < fuel -> forall p w ws, nth_error ws s = Some w ->
        embeds ws w (run sc fuel' w p) (mrun scs fuel' ws (on s p))) ->
      forall ts c w ws, nth_error ws s = Some w ->
        embeds ws w (run sc fuel w (try_for_each ts c)) (mrun scs fuel ws (mtry_for_each (map (fun (t : trigger Id Node V U) c => on s (t c)) ts) c)).
    Proof.
      intros IH ts. revert fuel IH. induction ts as [|t ts IHt]; intros [|fuel] IH c w ws N; try reflexivity.
      - apply embeds_here; auto. apply elsewhere_refl.
      - cbn [try_for_each map mtry_for_each run mrun].
        pose proof (IH fuel ltac:(lia) (t c) w ws N) as X. destruct (run sc fuel w (t c)) as [[w1 o]|]; [|rewrite X; reflexivity].
        destruct X as (ws1 & l & -> & N1 & O & E). eapply embeds_from; [exact E|exact O|].
        destruct o as [r| | |]; try (apply embeds_here; [assumption|reflexivity|apply elsewhere_refl]).
        assert (IH' : forall fuel', fuel' < fuel -> forall p w ws, nth_error ws s = Some w ->
          embeds ws w (run sc fuel' w p) (mrun scs fuel' ws (on s p))) by (intros; apply IH; auto).
        destruct r; [now apply IHt|now apply IHt|].
        destruct fuel; [reflexivity|]. apply embeds_here; [assumption|reflexivity|apply elsewhere_refl].
    Qed.

    Lemma macquire_on m hs : forall (ws : list world) w, nth_error ws s = Some w ->
      match acquire m hs (w_cells w) with
      | AcqOk _ cs held => macquire m (map (fun h => (s, h)) hs) ws = MAcqOk (alter (set_cells cs) s ws) (map (fun a => (s, a)) held)
      | AcqHang _ => macquire m (map (fun h => (s, h)) hs) ws = MAcqHang
      | AcqStuck _ => macquire m (map (fun h => (s, h)) hs) ws = MAcqStuck
      end.
    Proof.
      induction hs as [|h hs IH]; intros ws w N; cbn [acquire map macquire].
      - cbn. f_equal. symmetry. apply alter_id. intros x Nx. rewrite N in Nx. injection Nx as <-. destruct w; reflexivity.
      - rewrite N. destruct (acquire1 m h (w_cells w)) as [cs1 a| |]; auto.
        pose proof (IH _ _ (nth_alter_same (set_cells cs1) _ _ _ N)) as X. cbn [w_cells set_cells] in X.
        destruct (acquire m hs cs1) as [cs2 l| |]; rewrite X; auto. f_equal. rewrite alter_alter. apply alter_ext. reflexivity.
    Qed.

    Lemma mderef_on hs : forall (ws : list world) w held, nth_error ws s = Some w ->
      mderef_all ws (map (fun h => (s, h)) hs) (map (fun a => (s, a)) held) =
      option_map (map (fun v => (s, v))) (deref_all (w_cells w) hs held).
    Proof.
      induction hs as [|h hs IH]; intros ws w [|a held] N; cbn [deref_all map mderef_all]; try reflexivity.
      rewrite N. destruct (deref1 (w_cells w) h a); [|reflexivity]. rewrite (IH _ _ _ N). destruct (deref_all (w_cells w) hs held); reflexivity.
    Qed.

    Lemma mrelease_on poison held : forall (ws : list world),
      mrelease poison (map (fun a => (s, a)) held) ws = alter (fun w => set_cells (release poison held (w_cells w)) w) s ws.
    Proof.
      induction held as [|a held IH]; intros ws; cbn [map mrelease].
      - symmetry. apply alter_id. intros w _. destruct w; reflexivity.
      - rewrite IH, alter_alter. apply alter_ext. intros w _. rewrite (release_cons poison a held). reflexivity.
    Qed.

    Lemma do_call_on (c : call Id Node U) ws w (k : answer Node -> mprog) fuel : nth_error ws s = Some w ->
      mrun scs (S fuel) ws (MDo s c k) =
      match do_call (sc_resources sc) w c with
      | Some (w1, a) => mrun scs fuel (alter (fun _ => w1) s ws) (k a)
      | None => Some (ws, OStuck)
      end.
    Proof. intros N. cbn [mrun]. rewrite N, Hs. reflexivity. Qed.

    Lemma embed_prog fuel : forall p w ws, nth_error ws s = Some w -> embeds ws w (run sc fuel w p) (mrun scs fuel ws (on s p)).
    Proof.
      induction fuel as [fuel IHs] using lt_wf_ind. destruct fuel as [|fuel]; [reflexivity|]. intros p w ws N.
      assert (IH : forall p w ws, nth_error ws s = Some w -> embeds ws w (run sc fuel w p) (mrun scs fuel ws (on s p)))
        by (intros; apply IHs; [lia|assumption]).
      assert (Stop : forall o, embeds ws w (Some (w, o)) (Some (ws, o)))
        by (intros o; apply embeds_here; [assumption|reflexivity|apply elsewhere_refl]).
      assert (Go : forall w1 p, w_out w1 = w_out w -> embeds ws w (run sc fuel w1 p) (mrun scs fuel (alter (fun _ => w1) s ws) (on s p))).
      { intros w1 p1 O. eapply (embeds_from _ _ _ w1 _ _ []); [apply elsewhere_alter|rewrite app_nil_r; exact O|].
        apply IH. exact (nth_alter_same (fun _ => w1) _ _ _ N). }
      assert (Same : alter (fun _ => w) s ws = ws) by (apply alter_id; intros x Nx; congruence).
      (* a piece run after [f] has been applied to the state of [s] *)
      assert (Piece : forall (f : world -> world) body, w_out (f w) = w_out w ->
        embeds ws w (run sc fuel (f w) body) (mrun scs fuel (alter f s ws) (on s body))).
      { intros f body O. eapply (embeds_from _ _ _ (f w) _ _ []); [apply elsewhere_alter|rewrite app_nil_r; exact O|].
        apply IH. now apply nth_alter_same. }
      assert (AfterS : forall (f : world -> world) ws1 w1 o, nth_error ws1 s = Some w1 -> (forall x, w_out (f x) = w_out x) ->
        embeds ws1 w1 (Some (f w1, o)) (Some (alter f s ws1, o))).
      { intros f ws1 w1 o N1 O. apply embeds_here; [now apply nth_alter_same|apply O|apply elsewhere_alter]. }
      assert (AfterK : forall (f : world -> world) ws1 w1 k, nth_error ws1 s = Some w1 -> (forall x, w_out (f x) = w_out x) ->
        embeds ws1 w1 (run sc fuel (f w1) k) (mrun scs fuel (alter f s ws1) (on s k))).
      { intros f ws1 w1 k N1 O. eapply (embeds_from _ _ _ (f w1) _ _ []); [apply elsewhere_alter|rewrite app_nil_r; apply O|]. apply IH. now apply nth_alter_same. }
      assert (Halt : forall ws1 w1 o, nth_error ws1 s = Some w1 -> embeds ws1 w1 (Some (w1, o)) (Some (ws1, o)))
        by (intros ws1 w1 o N1; apply embeds_here; [assumption|reflexivity|apply elsewhere_refl]).
      destruct p as [r| | |v k|body k|body k|t body k|c n k|c i k|c i k|c i k|c n k|c k|t c k|body k|body k|i k|k|c k|t k|m hs body k|a d k];
        cbn [run on].
      - cbn [mrun]. apply Stop.
      - cbn [mrun]. apply Stop.
      - reflexivity.
      - cbn [mrun]. eapply (embeds_from _ _ _ (emit v w) _ _ [v]); [|reflexivity|apply IH; now apply nth_emit].
        split; [apply map_length|]. intros t Ne. rewrite nth_error_map. reflexivity.
      - cbn [mrun].
        pose proof (IH body w ws N) as X. destruct (run sc fuel w body) as [[w1 o]|]; [|rewrite X; reflexivity].
        destruct X as (ws1 & l & -> & N1 & O & E). eapply embeds_from; [exact E|exact O|]. destruct o; auto.
      - cbn [mrun].
        pose proof (IH body w ws N) as X. destruct (run sc fuel w body) as [[w1 o]|]; [|rewrite X; reflexivity].
        destruct X as (ws1 & l & -> & N1 & O & E). eapply embeds_from; [exact E|exact O|]. destruct o; auto.
      - destruct t as [crash|c]; cbn [mrun]; rewrite N.
        + destruct (w_lock w) eqn:L; try apply Stop.
          pose proof (Piece (fun w => set_lock GTx (set_heap (w_heap w ++ [[]]) w)) (body (CRoot (length (w_heap w)) None)) eq_refl) as X. cbv beta in X.
          destruct (run sc fuel _ (body (CRoot (length (w_heap w)) None))) as [[w1 o]|]; [|rewrite X; reflexivity].
          destruct X as (ws1 & l & -> & N1 & O & E). eapply embeds_from; [exact E|exact O|]. clear E O l.
          destruct o as [r| | |]; [| |now apply Halt|now apply Halt].
          * rewrite N1. destruct (is_ok r).
            -- assert (Ob : w_out (fst (bg_commit crash (length (w_heap w)) w1)) = w_out w1).
               { unfold bg_commit. destruct (leaked _ _); [reflexivity|]. destruct crash as [n|]; [|reflexivity]. destruct (crashes n _); reflexivity. }
               destruct (bg_commit crash (length (w_heap w)) w1) as [w2 panicked]. cbn [fst] in Ob. destruct panicked.
               ++ apply embeds_here; [exact (nth_alter_same (fun _ => _) _ _ _ N1)|exact Ob|apply elsewhere_alter].
               ++ eapply (embeds_from _ _ _ _ _ _ []); [apply elsewhere_alter| |apply IH; exact (nth_alter_same (fun _ => _) _ _ _ N1)].
                  rewrite app_nil_r. exact Ob.
            -- apply (AfterK (fun w0 => close (length (w_heap w)) (set_lock GFree w0)) ws1 w1 (k r) N1). reflexivity.
          * apply (AfterS (fun w0 => close (length (w_heap w)) (set_lock GFree (set_poison w0))) ws1 w1 OPanic N1). reflexivity.
        + pose proof (Piece (fun w => set_heap (w_heap w ++ [[]]) w) (body (CSub c (length (w_heap w)) None)) eq_refl) as X. cbv beta in X.
          destruct (run sc fuel _ (body (CSub c (length (w_heap w)) None))) as [[w1 o]|]; [|rewrite X; reflexivity].
          destruct X as (ws1 & l & -> & N1 & O & E). eapply embeds_from; [exact E|exact O|]. clear E O l.
          destruct o as [r| | |]; [| |now apply Halt|now apply Halt].
          * destruct (is_ok r).
            -- apply (AfterK (fun w0 => close (length (w_heap w)) (fg_commit c (length (w_heap w)) w0)) ws1 w1 (k r) N1).
               intros x. unfold fg_commit. destruct (leaked x _); reflexivity.
            -- apply (AfterK (close (length (w_heap w))) ws1 w1 (k r) N1). reflexivity.
          * apply (AfterS (close (length (w_heap w))) ws1 w1 OPanic N1). reflexivity.
      - rewrite (do_call_on _ _ _ _ _ N). cbn [do_call]. now apply Go.
      - rewrite (do_call_on _ _ _ _ _ N). cbn [do_call]. now apply Go.
      - rewrite (do_call_on _ _ _ _ _ N). cbn [do_call]. now apply Go.
      - rewrite (do_call_on _ _ _ _ _ N). cbn [do_call]. now apply Go.
      - rewrite (do_call_on _ _ _ _ _ N). cbn [do_call]. now apply Go.
      - rewrite (do_call_on _ _ _ _ _ N). cbn [do_call]. now apply Go.
      - cbn [mrun]. rewrite Hs, triggers_get. unfold ts_select.
        assert (X : embeds ws w (run sc fuel w (select_execute (bt_get t (sc_triggers sc)) c))
          (mrun scs fuel ws (mselect_execute (option_map (map (fun (t : trigger Id Node V U) c => on s (t c))) (bt_get t (sc_triggers sc))) c))).
        { destruct (bt_get t (sc_triggers sc)) as [ts|]; cbn [option_map select_execute mselect_execute].
          - apply embed_triggers; [|exact N]. intros fuel' Lf. apply IHs. lia.
          - exact (IH (PRet RUnit) w ws N). }
        destruct (run sc fuel w _) as [[w1 o]|]; [|rewrite X; reflexivity].
        destruct X as (ws1 & l & -> & N1 & O & E). eapply embeds_from; [exact E|exact O|]. destruct o; auto.
      - cbn [mrun]. rewrite N. destruct (glock_read (w_lock w)) as [l|]; [|apply Stop].
        pose proof (Piece (set_lock l) body eq_refl) as X.
        destruct (run sc fuel (set_lock l w) body) as [[w1 o]|]; [|rewrite X; reflexivity].
        destruct X as (ws1 & l1 & -> & N1 & O & E). eapply embeds_from; [exact E|exact O|].
        destruct o; [| |now apply Halt|now apply Halt]; [apply (AfterK (fun w => set_lock (glock_unread (w_lock w)) w) ws1 w1)|apply (AfterS (fun w => set_lock (glock_unread (w_lock w)) w) ws1 w1)]; auto.
      - cbn [mrun]. rewrite N. destruct (w_lock w); try apply Stop.
        pose proof (Piece (set_lock GWrite) body eq_refl) as X.
        destruct (run sc fuel (set_lock GWrite w) body) as [[w1 o]|]; [|rewrite X; reflexivity].
        destruct X as (ws1 & l1 & -> & N1 & O & E). eapply embeds_from; [exact E|exact O|].
        destruct o; [| |now apply Halt|now apply Halt]; [apply (AfterK (set_lock GFree) ws1 w1)|apply (AfterS (fun w => set_lock GFree (set_poison w)) ws1 w1)]; auto.
      - rewrite (do_call_on _ _ _ _ _ N). cbn [do_call]. destruct (w_lock w); try apply Stop; now apply Go.
      - rewrite (do_call_on _ _ _ _ _ N). cbn [do_call]. destruct (w_lock w); try apply Stop; now apply Go.
      - rewrite (do_call_on _ _ _ _ _ N). cbn [do_call]. destruct (w_lock w); try apply Stop.
        destruct (g_step (w_graph w) c) as [g r]. now apply Go.
      - rewrite (do_call_on _ _ _ _ _ N). cbn [do_call]. change (Handle (bt_get t (sc_resources sc)) (TyRes t)) with (res_from sc t). now apply Go.
      - cbn [mrun]. pose proof (macquire_on m hs ws w N) as A. destruct (acquire m hs (w_cells w)) as [cs held| |]; rewrite A; try apply Stop.
        rewrite (mderef_on hs _ _ held (nth_alter_same (set_cells cs) _ _ _ N)). cbn [w_cells set_cells].
        destruct (deref_all cs hs held) as [vs|]; cbn [option_map].
        + replace (map snd (map (fun v => (s, v)) vs)) with vs by (rewrite map_map; cbn; now rewrite map_id).
          pose proof (Piece (set_cells cs) (body vs) eq_refl) as X.
          destruct (run sc fuel (set_cells cs w) (body vs)) as [[w1 o]|]; [|rewrite X; reflexivity].
          destruct X as (ws1 & l1 & -> & N1 & O & E). eapply embeds_from; [exact E|exact O|].
          destruct o; [| |now apply Halt|now apply Halt]; rewrite mrelease_on;
            [apply (AfterK (fun w => set_cells (release false held (w_cells w)) w) ws1 w1)|
             apply (AfterS (fun w => set_cells (release (match m with Excl => true | Shared => false end) held (w_cells w)) w) ws1 w1)]; auto.
        + rewrite mrelease_on, alter_alter.
          apply (AfterK (fun w => set_cells (release false held (w_cells (set_cells cs w))) (set_cells cs w)) ws w (k None) N). reflexivity.
      - rewrite (do_call_on _ _ _ _ _ N). cbn [do_call]. destruct (nth_error (w_cells w) a) as [[d' p l]|] eqn:Na; [|apply Stop].
        cbn [c_lock c_val]. destruct l; try apply Stop. destruct (ty_eqb (ty_of d) (ty_of d')); [|apply Stop].
        replace (alter (fun x => Cell d (c_poison x) (c_lock x)) a (w_cells w)) with (alter (fun _ => Cell d p Writer) a (w_cells w)); [now apply Go|].
        apply alter_ext. intros x Nx. rewrite Na in Nx. injection Nx as <-. reflexivity.
    Qed.
  End Embed.

  (** ** Schemas that are not used *)
  Section Unused.
    Variable scs : list mschema.
    Variable ok : nat -> Prop.
    Hypothesis T : triggers_only_use ok scs.
    Variable u : nat.
    Hypothesis Nu : ~ ok u.

    Definition told (ws ws' : list world) : Prop :=
      forall w, nth_error ws u = Some w -> exists w' l, nth_error ws' u = Some w' /\ said l w w'.

    Lemma told_same ws ws' : nth_error ws' u = nth_error ws u -> told ws ws'.
    Proof.
      intros E w N. exists w, []. split; [congruence|]. unfold said. rewrite app_nil_r. destruct w; reflexivity.
    Qed.

    Lemma told_trans ws ws1 ws2 : told ws ws1 -> told ws1 ws2 -> told ws ws2.
    Proof.
      intros A B w N. destruct (A w N) as (w1 & l1 & N1 & ->). destruct (B _ N1) as (w2 & l2 & N2 & ->).
      exists (World (w_graph w) (w_lock w) (w_poison w) (w_heap w) (w_leaked w) (w_cells w) ((w_out w ++ l1) ++ l2)), (l1 ++ l2).
      split; [exact N2|]. unfold said. now rewrite app_assoc.
    Qed.

    Lemma told_alter f s ws : ok s -> told ws (alter f s ws).
    Proof. intros O. apply told_same. apply nth_alter_other. intros ->. now apply Nu. Qed.

    Lemma macquire_told m hs : (forall s h, In (s, h) hs -> ok s) -> forall (ws ws' : list world) held,
      macquire m hs ws = MAcqOk ws' held -> told ws ws' /\ (forall s a, In (s, a) held -> ok s).
    Proof.
      induction hs as [|[t h] hs IH]; intros Hh ws ws' held E; cbn [macquire] in E.
      - injection E as <- <-. split; [now apply told_same|]. intros s a [].
      - destruct (nth_error ws t) as [wt|]; [|discriminate]. destruct (acquire1 m h (w_cells wt)) as [cs a| |]; try discriminate.
        destruct (macquire m hs (alter (set_cells cs) t ws)) as [ws2 l| |] eqn:M; try discriminate. injection E as <- <-.
        assert (Ot : ok t) by (apply (Hh t h); now left).
        destruct (IH (fun s h0 J => Hh s h0 (or_intror J)) _ _ _ M) as [Q Hl]. split.
        + eapply told_trans; [apply (told_alter (set_cells cs) t ws Ot)|exact Q].
        + intros s b [J|J]; [injection J as <- _; exact Ot|eauto].
    Qed.

    Lemma mrelease_told poison held (ws : list world) : (forall s a, In (s, a) held -> ok s) -> told ws (mrelease poison held ws).
    Proof.
      induction held as [|[t a] held IH]; intros Hh; cbn [mrelease]; [now apply told_same|].
      eapply told_trans; [apply IH; intros s b J; apply (Hh s b); now right|]. apply told_alter. apply (Hh t a). now left.
    Qed.

    Lemma mtry_uses (ts : list (mtrigger Id Node V U)) c : (forall t, In t ts -> only_uses ok (t c)) -> only_uses ok (mtry_for_each ts c).
    Proof.
      induction ts as [|t ts IH]; intros Ht; [exact I|]. cbn. split; [apply Ht; now left|].
      intros [| |e]; try exact I; apply IH; intros t' J; apply Ht; now right.
    Qed.

    Lemma mrun_told fuel : forall (ws : list world) (p : mprog) ws' o, only_uses ok p -> mrun scs fuel ws p = Some (ws', o) -> told ws ws'.
    Proof.
      induction fuel as [|fuel IH]; intros ws p ws' o Up E; [discriminate|]. cbn [mrun] in E.
      assert (Same : told ws ws) by now apply told_same.
      destruct p as [r| | |v k|body k|body k|t c k|t x body k|t x c k|t body k|t body k|m hs body k]; cbn [only_uses] in Up;
        try (injection E as <- <-; exact Same); try discriminate.
      - apply (IH _ _ _ _ Up) in E. eapply told_trans; [|exact E]. intros w N. exists (emit v w), [v]. split; [now apply nth_emit|reflexivity].
      - destruct Up as [Ub Uk]. destruct (mrun scs fuel ws body) as [[ws1 o1]|] eqn:R; [|discriminate]. apply (IH _ _ _ _ Ub) in R.
        destruct o1; try (injection E as <- <-; exact R). apply (IH _ _ _ _ (Uk _)) in E. exact (told_trans _ _ _ R E).
      - destruct Up as [Ub Uk]. destruct (mrun scs fuel ws body) as [[ws1 o1]|] eqn:R; [|discriminate]. apply (IH _ _ _ _ Ub) in R.
        destruct o1; try (injection E as <- <-; exact R); apply (IH _ _ _ _ (Uk _)) in E; exact (told_trans _ _ _ R E).
      - destruct Up as [Ot Uk]. destruct (nth_error ws t); [|injection E as <- <-; exact Same]. destruct (nth_error scs t); [|injection E as <- <-; exact Same].
        destruct (do_call _ _ c) as [[w1 a]|]; [|injection E as <- <-; exact Same]. apply (IH _ _ _ _ (Uk _)) in E.
        exact (told_trans _ _ _ (told_alter (fun _ => w1) t ws Ot) E).
      - destruct Up as (Ot & Ub & Uk).
        destruct x as [crash|c]; (destruct (nth_error ws t) as [w|]; [|injection E as <- <-; exact Same]);
          [destruct (w_lock w); try (injection E as <- <-; exact Same)|];
          (match type of E with match mrun scs fuel ?a ?b with _ => _ end = _ => destruct (mrun scs fuel a b) as [[ws1 o1]|] eqn:R; [|discriminate] end);
          apply (IH _ _ _ _ (Ub _)) in R;
          (match type of R with told (alter ?f _ _) _ => pose proof (told_trans _ _ _ (told_alter f t ws Ot) R) as Q end);
          (destruct o1; try (injection E as <- <-; first [exact Q|eapply told_trans; [exact Q|exact (told_alter _ t _ Ot)]])).
        + destruct (nth_error ws1 t); [|injection E as <- <-; exact Q]. destruct (is_ok r).
          * destruct (bg_commit _ _ _) as [w2 [|]]; [injection E as <- <-; eapply told_trans; [exact Q|exact (told_alter _ t _ Ot)]|].
            apply (IH _ _ _ _ (Uk _)) in E. eapply told_trans; [exact Q|]. exact (told_trans _ _ _ (told_alter _ t _ Ot) E).
          * apply (IH _ _ _ _ (Uk _)) in E. eapply told_trans; [exact Q|]. exact (told_trans _ _ _ (told_alter _ t _ Ot) E).
        + destruct (is_ok r); apply (IH _ _ _ _ (Uk _)) in E; (eapply told_trans; [exact Q|]; exact (told_trans _ _ _ (told_alter _ t _ Ot) E)).
      - destruct Up as [Ot Uk]. destruct (nth_error scs t) as [sct|] eqn:St; [|injection E as <- <-; exact Same].
        match type of E with match mrun scs fuel ?a ?b with _ => _ end = _ => destruct (mrun scs fuel a b) as [[ws1 o1]|] eqn:R; [|discriminate] end.
        assert (Us : only_uses ok (mselect_execute (bt_get x (ms_triggers sct)) c)).
        { unfold mselect_execute. destruct (bt_get x (ms_triggers sct)) as [ts|] eqn:G; [|exact I]. apply mtry_uses. intros t' J.
          apply (T t sct x ts t' c Ot St); [|exact J]. clear - G. induction (ms_triggers sct) as [|[k v] m IHm]; [discriminate|]. cbn in G.
          destruct (Nat.compare_spec x k) as [->|?|?]; [injection G as ->; now left|discriminate|right; auto]. }
        apply (IH _ _ _ _ Us) in R. destruct o1; try (injection E as <- <-; exact R).
        apply (IH _ _ _ _ (Uk _)) in E. exact (told_trans _ _ _ R E).
      - destruct Up as (Ot & Ub & Uk). destruct (nth_error ws t) as [w|]; [|injection E as <- <-; exact Same].
        destruct (glock_read (w_lock w)) as [l|]; [|injection E as <- <-; exact Same].
        match type of E with match mrun scs fuel ?a ?b with _ => _ end = _ => destruct (mrun scs fuel a b) as [[ws1 o1]|] eqn:R; [|discriminate] end.
        apply (IH _ _ _ _ Ub) in R. pose proof (told_trans _ _ _ (told_alter (set_lock l) t ws Ot) R) as Q.
        destruct o1; try (injection E as <- <-; first [exact Q|eapply told_trans; [exact Q|exact (told_alter _ t _ Ot)]]).
        apply (IH _ _ _ _ (Uk _)) in E. eapply told_trans; [exact Q|]. exact (told_trans _ _ _ (told_alter _ t _ Ot) E).
      - destruct Up as (Ot & Ub & Uk). destruct (nth_error ws t) as [w|]; [|injection E as <- <-; exact Same].
        destruct (w_lock w); try (injection E as <- <-; exact Same).
        match type of E with match mrun scs fuel ?a ?b with _ => _ end = _ => destruct (mrun scs fuel a b) as [[ws1 o1]|] eqn:R; [|discriminate] end.
        apply (IH _ _ _ _ Ub) in R. pose proof (told_trans _ _ _ (told_alter (set_lock GWrite) t ws Ot) R) as Q.
        destruct o1; try (injection E as <- <-; first [exact Q|eapply told_trans; [exact Q|exact (told_alter _ t _ Ot)]]).
        apply (IH _ _ _ _ (Uk _)) in E. eapply told_trans; [exact Q|]. exact (told_trans _ _ _ (told_alter _ t _ Ot) E).
      - destruct Up as (Oh & Ub & Uk). destruct (macquire m hs ws) as [ws0 held| |] eqn:A; try (injection E as <- <-; exact Same).
        destruct (macquire_told m hs Oh _ _ _ A) as [Q Hl].
        destruct (mderef_all ws0 hs held) as [vs|].
        + match type of E with match mrun scs fuel ?a ?b with _ => _ end = _ => destruct (mrun scs fuel a b) as [[ws1 o1]|] eqn:R; [|discriminate] end.
          apply (IH _ _ _ _ (Ub _)) in R. pose proof (told_trans _ _ _ Q R) as Q1.
          destruct o1; try (injection E as <- <-; first [exact Q1|eapply told_trans; [exact Q1|now apply mrelease_told]]).
          apply (IH _ _ _ _ (Uk _)) in E. eapply told_trans; [exact Q1|]. eapply told_trans; [|exact E]. now apply mrelease_told.
        + apply (IH _ _ _ _ (Uk _)) in E. eapply told_trans; [exact Q|]. eapply told_trans; [|exact E]. now apply mrelease_told.
    Qed.
  End Unused.
End Facts.
