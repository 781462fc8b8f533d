(** Facts about the calls of programs: every run is a history of the machines of Unwind.v and Cells.v, and conversely. *)
From Coq Require Import List Bool Arith Lia.
From Verif Require Import Cells Ord OrdFacts BTree BTreeFacts Graph GraphFacts Tx TxFacts TxMachine TxMachineFacts Guards Unwind UnwindFacts Prog SpecProg ProgFacts ProgFrame ProgTrace SpecTrace TraceFacts SpecCalls CallsFacts CallsCells.
Import ListNotations.

Section Progs.
  Context {Id Node V U : Type} `{HO : OrdT Id} `{HI : Identify Node Id}.
  Notation prog := (prog Id Node V U).
  Notation world := (world Id Node V U).
  Notation schema := (schema Id Node V U).
  Notation outcome := (outcome V).
  Notation trigger := (trigger Id Node V U).
  Notation cell := (cell Node U).
  Notation happening := (happening Id Node).
  Notation ustate := (ustate Id Node).
  Notation uevent := (uevent Id Node).
  Notation gout := (gout Id Node).
  Notation made := (@made Id Node U).
  Notation kstate := (kstate (dyn Node U)).
  Notation state := (@state Id Node U).
  Notation env := (list (nat * nat)).

  (** ** Transactions *)
  Definition opened (t : tx) (w : world) : world := match t with TxBg _ => bg_open w | TxFg _ => fg_open w end.
  Definition inner (t : tx) (b : nat) : ctx := match t with TxBg _ => CRoot b None | TxFg c => CSub c b None end.
  Definition closed (t : tx) (d : nat) (ok : bool) (b : nat) (w : world) : world :=
    match t with
    | TxBg _ => close b (set_lock GFree (match d with 0 => if ok then fst (bg_commit None b w) else w | _ => set_poison w end))
    | TxFg c => close b (match d with 0 => if ok then fg_commit c b w else w | _ => w end)
    end.
  Definition fine (en : env) (st : ustate) (t : tx) : Prop :=
    match t with TxBg _ => True | TxFg c => bound en st c end.
  Definition parented (en : env) (st : ustate) (t : tx) (tx : nat) : Prop :=
    match t with
    | TxBg _ => en = []
    | TxFg c => exists tc hc x, nth_error en (ctx_buf c) = Some (tc, hc) /\ nth_error (p_txs (m_proto (gs_m (us_g st)))) tx = Some x /\ tx_parent x = Some hc
    end.
  Definition open_logs (t : tx) (w : world) : list ulog := match t with TxBg _ => if w_poison w then [LPoisoned] else [] | TxFg _ => [] end.

  Lemma opening_fun en t (e : @TxMachine.event Id Node) c0 : opening en t e c0 -> c0 = inner t (length en).
  Proof. now destruct 1. Qed.

  Lemma parented_grows en st st' t tx : grows st st' -> parented en st t tx -> parented en st' t tx.
  Proof.
    intros [_ G]. destruct t as [c|c]; cbn; [auto|]. intros (tc & hc & x & N & T & P). apply G in T as (x' & T & P').
    exists tc, hc, x'. repeat split; auto. congruence.
  Qed.

  Lemma open_event en gs (w : world) st t : rel en gs 0 w st -> fine en st t -> exists e : @TxMachine.event Id Node, opening en t e (inner t (length en)).
  Proof.
    intros R F. destruct t as [cr|c]; cbn in *; [exists EBackground; constructor|].
    destruct F as (tc & hc & mc & N & _). exists (EForeground hc). econstructor; exact N.
  Qed.

  Lemma open_with en gs w st t e c0 : rel en gs 0 w st -> fine en st t -> opening en t e c0 ->
    (match t with TxBg _ => w_lock w = GFree | TxFg _ => True end) ->
    exists tx h st1 st2, u_step st (UEvent (GEvent e)) = (st1, (GX (XHandle tx), [])) /\
      u_step st1 (UEvent (GEvent (EContext tx))) = (st2, (GX (XHandle h), open_logs t w)) /\
      rel (en ++ [(tx, h)]) gs 0 (opened t w) st2 /\ bound (en ++ [(tx, h)]) st2 (inner t (length en)) /\ parented en st2 t tx.
  Proof.
    intros R F O L. destruct O as [en cr|en c tc hc N].
    - destruct (open_bg _ _ _ _ R L) as (st2 & S & R' & V0). eexists _, _, _, st2. split; [exact (step_background _ _ _ _ R)|].
      split; [exact S|]. split; [exact R'|]. split.
      + eexists _, _, _. cbn [inner ctx_buf]. split; [apply nth_snoc_eq|]. split; [exact V0|]. cbn. eexists. apply nth_snoc_eq.
      + cbn. pose proof (r_lock _ _ _ _ _ R) as X. rewrite L in X. apply X.
    - destruct (open_fg _ _ _ _ _ _ _ R N) as (st2 & S & R' & V0). eexists _, _, _, st2. split; [exact (step_foreground _ _ _ _ _ _ _ R N)|].
      split; [exact S|]. split; [exact R'|]. split.
      + destruct F as (t' & h' & mc & N' & M & A). rewrite N in N'. injection N' as <- <-.
        eexists _, _, _. cbn [inner ctx_buf]. split; [apply nth_snoc_eq|]. split; [exact V0|]. cbn. split; [eexists; apply nth_snoc_eq|].
        apply names_app. unfold ctx_value. rewrite (nth_error_nth _ _ _ M). exact A.
      + cbn. exists tc, hc. pose proof (u_step_grows (began (Some hc) st) (UEvent (GEvent (EContext (length (p_txs (m_proto (gs_m (us_g st))))))))) as [_ G].
        rewrite S in G. cbn [fst] in G. destruct (G (length (p_txs (m_proto (gs_m (us_g st))))) (TxRec (Some hc) false true)) as (x & T & P).
        { unfold began, with_m. cbn [us_g gs_m m_proto p_txs]. apply nth_snoc_eq. }
        exists x. auto.
  Qed.

  Lemma close_with en gs d w st t tx h ok lg : rel (en ++ [(tx, h)]) gs d w st -> parented en st t tx ->
    (match d with 0 => True | _ => ok = false end) ->
    lg = (if ok && leaked w (length en) then [LInUse] else []) ->
    exists st3, u_step st (UEvent (GEvent (EDropCtx h))) = (dropped h st, (GX XUnit, [])) /\
      u_step (dropped h st) (UEvent (GEvent (EEnd tx ok))) = (st3, (GX XUnit, lg)) /\
      rel en gs d (closed t d ok (length en) w) st3.
  Proof.
    intros R P D ->. destruct ok; cbn [andb].
    - destruct d; [|discriminate]. destruct t as [cr|c]; cbn in P.
      + subst en. destruct (end_bg _ _ _ _ _ R) as (st3 & S & R'). exists st3. split; [exact (step_drop [] _ _ _ _ _ _ R)|]. split; [exact S|exact R'].
      + destruct P as (tc & hc & x & N & T & Px). destruct (end_fg _ _ _ _ _ _ _ _ _ _ R N T Px) as (st3 & S & R'). exists st3.
        split; [exact (step_drop _ _ _ _ _ _ _ R)|]. split; [exact S|exact R'].
    - destruct (end_without _ _ _ _ _ _ _ R) as (st3 & S & R'). exists st3. split; [exact (step_drop _ _ _ _ _ _ _ R)|]. split; [exact S|].
      cbn zeta in R'. destruct t as [cr|c]; cbn in P |- *.
      + subst en. destruct d; exact R'.
      + destruct P as (tc & hc & x & N & T & Px). destruct en; [destruct (ctx_buf c); discriminate|]. destruct d; exact R'.
  Qed.

  (** ** Triggers *)
  Lemma select_scheduled (sc : schema) s c : select_execute (ts_select (sc_triggers sc) s) c = try_for_each (scheduled sc s) c.
  Proof. unfold scheduled, select_execute. now destruct (ts_select _ s). Qed.

  Lemma scoped_mono : forall (p : prog) (own own' : ctx -> Prop), (forall x, own x -> own' x) -> scoped own p -> scoped own' p.
  Proof.
    induction p; intros own own' M; cbn; auto; try match goal with t : tx |- _ => destruct t as [cr|c] end; intuition eauto.
    all: match goal with K : _ , X : forall b, scoped _ _ |- _ => eapply K; [|apply X]; cbn; tauto || (intros ? []; auto) end.
  Qed.

  Lemma scoped_each (sc : schema) (s : type_id) (own : ctx -> Prop) c : scoped_schema sc -> (forall x, same_context c x -> own x) -> scoped own (try_for_each (scheduled sc s) c).
  Proof.
    intros S O. specialize (S s). induction (scheduled sc s) as [|t ts IH]; [exact I|]. cbn. split.
    - eapply scoped_mono; [exact O|]. apply S. now left.
    - intros r. destruct r; try (apply IH; intros; apply S; now right). exact I.
  Qed.

  (** ** Runs, transactions and guards of either kind alike *)
  Definition blocks (t : tx) (w : world) : bool := match t, w_lock w with TxBg _, GFree => false | TxBg _, _ => true | TxFg _, _ => false end.
  Definition open_trace (t : tx) (w : world) : list happening := match t with TxBg _ => guard_notices w | TxFg _ => [] end.
  Definition end_trace (t : tx) (ok : bool) (b : nat) (w : world) : list happening :=
    if ok then match t with TxBg cr => commit_trace cr b w | TxFg _ => merge_notices b w end else [].

  (** Does user code panic in the commit? *)
  Definition breaks (t : tx) (ok : bool) (b : nat) (w : world) : option nat :=
    match t with
    | TxBg (Some n) => if ok && (negb (leaked w b) && crashes n (buf_ops (w_heap w) b)) then Some n else None
    | _ => None
    end.

  Lemma run_with (sc : schema) f w t body k :
    run sc (S f) w (PWith t body k) =
    let b := length (w_heap w) in
    if blocks t w then Some (w, OHang)
    else match run sc f (opened t w) (body (inner t b)) with
         | Some (w1, ORet r) =>
             match breaks t (is_ok r) b w1 with
             | Some n => Some (broken n b w1, OPanic)
             | None => run sc f (closed t 0 (is_ok r) b w1) (k r)
             end
         | Some (w1, OPanic) => Some (closed t 1 false b w1, OPanic)
         | o => o
         end.
  Proof.
    destruct t as [cr|c]; cbn [run blocks opened inner closed].
    - destruct (w_lock w); try reflexivity. cbn zeta. unfold bg_open. destruct (run sc f _ _) as [[w1 [r| | |]]|]; try reflexivity.
      destruct (is_ok r); [|now destruct cr]. unfold breaks, bg_commit, broken. destruct (leaked w1 _); [now destruct cr|]. destruct cr as [n|]; [|reflexivity].
      cbn [andb negb]. now destruct (crashes n _).
    - cbn zeta. unfold fg_open. destruct (run sc f _ _) as [[w1 [r| | |]]|]; try reflexivity. cbn [breaks]. now destruct (is_ok r).
  Qed.

  Lemma trace_with (sc : schema) f w t body k :
    trace sc (S f) w (PWith t body k) =
    let b := length (w_heap w) in
    if blocks t w then []
    else open_trace t w ++ trace sc f (opened t w) (body (inner t b)) ++
         match run sc f (opened t w) (body (inner t b)) with
         | Some (w1, ORet r) => end_trace t (is_ok r) b w1 ++ match breaks t (is_ok r) b w1 with Some _ => [] | None => trace sc f (closed t 0 (is_ok r) b w1) (k r) end
         | _ => []
         end.
  Proof.
    destruct t as [cr|c]; cbn [trace blocks opened inner closed open_trace end_trace].
    - destruct (w_lock w); try reflexivity. cbn zeta. unfold bg_open. do 2 f_equal. destruct (run sc f _ _) as [[w1 [r| | |]]|]; try reflexivity.
      unfold end_trace. destruct (is_ok r); [|now destruct cr]. f_equal. unfold breaks, bg_commit. destruct (leaked w1 _); [now destruct cr|]. destruct cr as [n|]; [|reflexivity].
      cbn [andb negb]. now destruct (crashes n _).
    - cbn zeta. unfold fg_open. cbn [app]. f_equal. destruct (run sc f _ _) as [[w1 [r| | |]]|]; try reflexivity. cbn [breaks]. unfold end_trace. now destruct (is_ok r).
  Qed.

  Definition take (wr : bool) (l : glock) : option glock := if wr then match l with GFree => Some GWrite | _ => None end else glock_read l.
  Definition given (wr : bool) (d : nat) (w : world) : world :=
    if wr then set_lock GFree (match d with 0 => w | _ => set_poison w end) else set_lock (glock_unread (w_lock w)) w.

  Lemma run_guard (sc : schema) f w p wr body k : guarding p wr body k ->
    run sc (S f) w p =
    match take wr (w_lock w) with
    | None => Some (w, OHang)
    | Some l =>
        match run sc f (set_lock l w) body with
        | Some (w1, ORet r) => run sc f (given wr 0 w1) (k r)
        | Some (w1, OPanic) => Some (given wr 1 w1, OPanic)
        | o => o
        end
    end.
  Proof. intros [b k'|b k']; cbn [run take given]; [reflexivity|]. now destruct (w_lock w). Qed.

  Lemma trace_guard (sc : schema) f w p wr body k : guarding p wr body k ->
    trace sc (S f) w p =
    match take wr (w_lock w) with
    | None => []
    | Some l =>
        guard_notices w ++ trace sc f (set_lock l w) body ++
        match run sc f (set_lock l w) body with
        | Some (w1, ORet r) => trace sc f (given wr 0 w1) (k r)
        | _ => []
        end
    end.
  Proof. intros [b k'|b k']; cbn [trace take given]; [reflexivity|]. now destruct (w_lock w). Qed.

  Lemma take_guard en gs (w : world) st wr l : rel en gs 0 w st -> take wr (w_lock w) = Some l ->
    exists g st', u_step st (UEvent (GOpen wr)) = (st', (GX (XHandle g), if w_poison w then [LPoisoned] else [])) /\
      rel en (g :: gs) 0 (set_lock l w) st'.
  Proof.
    intros R T. apply (open_guard en gs w st wr l R). destruct wr; cbn in T; [|exact T]. destruct (w_lock w); try discriminate. injection T as <-. auto.
  Qed.

  Lemma no_take en gs (w : world) st wr : rel en gs 0 w st -> take wr (w_lock w) = None ->
    exists st', u_step st (UEvent (GOpen wr)) = (st', (GX XHang, [])) /\ s_graph (m_store (gs_m (us_g st'))) = w_graph w /\ us_poisoned st' = w_poison w.
  Proof.
    intros R T. apply (guard_blocked en gs w st wr R). destruct wr; cbn in T; [|exact T]. destruct (w_lock w); try discriminate; congruence.
  Qed.

  Lemma give_guard en g gs d (w : world) st wr l l0 : rel en (g :: gs) d w st -> take wr l0 = Some l -> w_lock w = l ->
    exists st', u_step st (UEvent (GDrop g)) = (st', (GX XUnit, [])) /\ rel en gs d (given wr d w) st'.
  Proof.
    intros R T L. destruct (drop_guard _ _ _ _ _ _ R) as (st' & S & R'). exists st'. split; [exact S|].
    rewrite L in R'. unfold given. destruct wr; cbn in T.
    - destruct l0; try discriminate. injection T as <-. exact R'.
    - rewrite L. destruct l0; try discriminate; cbn in T; injection T as <-; exact R'.
  Qed.

  Lemma run_lock (sc : schema) f (w : world) p w' o : run sc f w p = Some (w', o) -> comes_back o -> w_lock w' = w_lock w.
  Proof. intros E C. apply (fr_lock _ _ (exec_framed _ _ _ _ _ (run_exec _ _ _ _ _ _ E C))). Qed.

  (** ** Every run is a history *)
  Definition fits (en : env) (gs : list nat) (ho : list holding) (hd : list nat) (o : outcome) (w : world) (st : ustate) (ks : kstate) : Prop :=
    match o with
    | ORet _ => rel en gs 0 w st /\ krel hd ho 0 (w_cells w) ks
    | OPanic => rel en gs 1 w st /\ krel hd ho 1 (w_cells w) ks
    | OHang => s_graph (m_store (gs_m (us_g st))) = w_graph w /\ us_poisoned st = w_poison w /\ ks_cells ks = map kc (w_cells w)
    | OStuck => False
    end.

  Definition sim (sc : schema) (en : env) (gs : list nat) (ho : list holding) (hd : list nat) (w : world) (st : ustate) (ks : kstate) (p : prog) (w' : world) (o : outcome)
    (l : list happening) : Prop :=
    exists es vs hd' st' ks', plays sc en gs ho hd p es vs hd' o /\ told (st, ks) es (st', ks') /\ w_out w' = w_out w ++ vs /\
      seen es = of_calls l /\ fits en gs ho hd' o w' st' ks'.

  Lemma seen_app (a b : list made) : seen (a ++ b) = seen a ++ seen b.
  Proof. apply flat_map_app. Qed.
  Lemma seen_cons (x : made) l : seen (x :: l) = seen_in x ++ seen l.
  Proof. reflexivity. Qed.
  Lemma calls_app (a b : list happening) : of_calls (a ++ b) = of_calls a ++ of_calls b.
  Proof. apply filter_app. Qed.
  Lemma calls_graph (w : world) : of_calls (guard_notices w) = notices (if w_poison w then [LPoisoned] else []).
  Proof. unfold guard_notices. now destruct (w_poison w). Qed.
  Lemma calls_open t (w : world) : of_calls (open_trace t w) = notices (open_logs t w).
  Proof. destruct t; [apply calls_graph|reflexivity]. Qed.
  Lemma calls_end t ok b (w : world) : of_calls (end_trace t ok b w) = notices (if ok && leaked w b then [LInUse] else []).
  Proof. unfold end_trace, commit_trace, merge_notices. destruct ok, t, (leaked w b); reflexivity. Qed.
  Lemma calls_acquire m hs : forall cs : list cell, of_calls (acquire_notices (Id := Id) m hs cs) = acquire_notices m hs cs.
  Proof.
    induction hs as [|h hs IH]; intros cs; [reflexivity|]. cbn [acquire_notices]. rewrite calls_app.
    assert (E : of_calls (acquire1_notices (Id := Id) m h cs) = acquire1_notices m h cs).
    { unfold acquire1_notices. destruct (h_addr h) as [a|]; [|reflexivity]. destruct (nth_error cs a) as [x|]; [|reflexivity].
      destruct (blocked m (c_lock x)), (c_poison x); reflexivity. }
    rewrite E. f_equal. destruct (acquire1 m h cs); auto.
  Qed.

  Lemma told_step (st : ustate) (ks : kstate) e a st1 es st' : u_step st e = (st1, a) -> told (st1, ks) es st' -> told (st, ks) (OnGraph e a :: es) st'.
  Proof. intros E T. exists (st1, ks). cbn. auto. Qed.
  Lemma told_two (st : state) es1 st1 es2 st' : told st es1 st1 -> told st1 es2 st' -> told st (es1 ++ es2) st'.
  Proof. intros E T. apply told_app. eauto. Qed.
  Lemma told_grew (st : ustate) (ks : kstate) es st' ks' : told (st, ks) es (st', ks') -> grows st st'.
  Proof. exact (told_grows es (st, ks) (st', ks')). Qed.

  (** The end of a transaction whose closure returned. *)
  Definition end_logs (ok : bool) (b : nat) (w : world) : list happening := notices (if ok && leaked w b then [LInUse] else []).

  Lemma finish_with en gs (w : world) st (ks : kstate) t tx h ok : rel (en ++ [(tx, h)]) gs 0 w st -> parented en st t tx -> breaks t ok (length en) w = None ->
    exists fin st3, u_step st (UEvent (GEvent (EDropCtx h))) = (dropped h st, (GX XUnit, [])) /\ finishing t tx ok fin /\ told (dropped h st, ks) fin (st3, ks) /\
      rel en gs 0 (closed t 0 ok (length en) w) st3 /\ seen fin = end_logs ok (length en) w.
  Proof.
    intros R P B. destruct (close_with _ _ _ _ _ _ _ _ ok _ R P I eq_refl) as (st3 & G3 & G4 & R4).
    assert (Pl : (ok = true -> forall k, t <> TxBg (Some k)) -> exists fin st3, u_step st (UEvent (GEvent (EDropCtx h))) = (dropped h st, (GX XUnit, [])) /\ finishing t tx ok fin /\
      told (dropped h st, ks) fin (st3, ks) /\ rel en gs 0 (closed t 0 ok (length en) w) st3 /\ seen fin = end_logs ok (length en) w).
    { intros N. eexists _, st3. split; [exact G3|]. split; [now apply fi_plain|]. split; [eapply told_step; [exact G4|apply told_nil]|]. split; [exact R4|].
      unfold seen. cbn. now rewrite !app_nil_r. }
    destruct ok; [|apply Pl; discriminate]. destruct t as [[n|]|c]; [|apply Pl; discriminate|apply Pl; discriminate].
    cbn in P. subst en. cbn [breaks andb length] in B. pose proof (step_crash _ _ _ _ _ n R) as C.
    destruct (_ && _); [discriminate|]. eexists _, st3. split; [exact G3|]. split; [apply fi_tried|].
    split; [eapply told_step; [exact C|]; eapply told_step; [exact G4|apply told_nil]|]. split; [exact R4|]. unfold seen. cbn. now rewrite !app_nil_r.
  Qed.

  Lemma finish_crash en gs (w : world) st t tx h ok n : rel (en ++ [(tx, h)]) gs 0 w st -> parented en st t tx -> breaks t ok (length en) w = Some n ->
    t = TxBg (Some n) /\ ok = true /\ u_step st (UEvent (GEvent (EDropCtx h))) = (dropped h st, (GX XUnit, [])) /\
    exists l st3, u_step (dropped h st) (UEvent (GCrash tx n)) = (st3, (GCrashed l, [])) /\ rel en gs 1 (broken n (length en) w) st3.
  Proof.
    intros R P B. destruct t as [[n'|]|c]; [|discriminate|discriminate]. cbn [breaks] in B. destruct ok; [|discriminate]. cbn in P. subst en.
    pose proof (step_crash _ _ _ _ _ n' R) as C. cbn [andb length] in B. destruct (_ && _); [|discriminate]. injection B as ->.
    destruct C as (st' & l & C & R'). split; [reflexivity|]. split; [reflexivity|]. split; [exact (step_drop _ _ _ _ _ _ _ R)|]. eauto.
  Qed.

  Lemma step_grows (st : ustate) e st' a : u_step st e = (st', a) -> grows st st'.
  Proof. intros E. pose proof (u_step_grows st e) as G. now rewrite E in G. Qed.

  Lemma forward (sc : schema) : scoped_schema sc -> forall f own p en gs ho hd (w : world) st ks w' o,
    rel en gs 0 w st -> krel hd ho 0 (w_cells w) ks -> scoped own p -> (forall x, own x -> bound en st x) -> run sc f w p = Some (w', o) -> o <> OStuck ->
    sim sc en gs ho hd w st ks p w' o (trace sc f w p).
  Proof.
    intros SS. induction f as [|f IH]; intros own p en gs ho hd w st ks w' o R K Sc B E Ns; [discriminate|].
    assert (B' : forall st', grows st st' -> forall x, own x -> bound en st' x) by (intros st' G x X; eapply bound_grows; [exact G|auto]).
    assert (Bt : forall es st' ks', told (st, ks) es (st', ks') -> forall x, own x -> bound en st' x) by (intros es st' ks' G; apply B'; eapply told_grew; exact G).
    (* a body, then what follows *)
    assert (Guard : forall p wr body k, guarding p wr body k -> scoped own body -> (forall r, scoped own (k r)) ->
              run sc (S f) w p = Some (w', o) -> sim sc en gs ho hd w st ks p w' o (trace sc (S f) w p)).
    { intros q wr body k Gu S1 S2 Eq. rewrite (run_guard _ _ _ _ _ _ _ Gu) in Eq. rewrite (trace_guard _ _ _ _ _ _ _ Gu).
      destruct (take wr (w_lock w)) as [l|] eqn:Tk.
      - destruct (take_guard _ _ _ _ _ _ R Tk) as (g & st1 & G1 & R1). pose proof (step_grows _ _ _ _ G1) as Gr1.
        destruct (run sc f (set_lock l w) body) as [[w1 o1]|] eqn:E1; [|discriminate].
        assert (N1 : o1 <> OStuck) by (intros ->; injection Eq as <- <-; congruence).
        destruct (IH _ _ _ _ _ _ _ _ _ _ _ R1 K S1 (B' _ Gr1) E1 N1) as (es & vs & hd1 & st2 & ks1 & P & T & O & Se & F).
        destruct o1 as [r| | |]; [| | |congruence].
        + destruct F as [F KF]. pose proof (run_lock _ _ _ _ _ _ E1 I) as L1. destruct (give_guard _ _ _ _ _ _ _ _ _ F Tk L1) as (st3 & G3 & R3).
          assert (KF' : krel hd1 ho 0 (w_cells (given wr 0 w1)) ks1) by (destruct wr; exact KF).
          assert (Gr3 : grows st st3) by (eapply grows_trans; [exact Gr1|]; eapply grows_trans; [eapply told_grew; exact T|eapply step_grows; exact G3]).
          destruct (IH _ _ _ _ _ _ _ _ _ _ _ R3 (KF' : krel _ _ _ (w_cells (given wr 0 w1)) _) (S2 r) (B' _ Gr3) Eq Ns) as (es' & vs' & hd2 & st4 & ks2 & P' & T' & O' & Se' & F').
          eexists _, _, _, st4, _. split; [eapply pl_guard; [exact Gu|exact P|]|].
          { destruct wr; exact P'. }
          split; [eapply told_step; [exact G1|]; eapply told_two; [exact T|]; eapply told_step; [exact G3|exact T']|].
          split; [|split; [|exact F']].
          * rewrite O'. destruct wr; cbn [given set_lock w_out]; rewrite O; cbn [set_lock w_out]; now rewrite app_assoc.
          * rewrite !calls_app, seen_cons, seen_app, seen_cons, Se, Se', calls_graph. unfold seen_in. cbn [snd notices flat_map app]. now rewrite app_nil_r.
        + injection Eq as <- <-. destruct F as [F KF]. pose proof (run_lock _ _ _ _ _ _ E1 I) as L1. destruct (give_guard _ _ _ _ _ _ _ _ _ F Tk L1) as (st3 & G3 & R3).
          eexists _, _, _, st3, _. split; [|split; [eapply told_step; [exact G1|]; eapply told_two; [exact T|]; eapply told_step; [exact G3|apply told_nil]|]].
          { destruct wr; eapply pl_guard_panic; [exact Gu|exact P|exact Gu|exact P]. }
          split; [|split; [|split; [exact R3|destruct wr; exact KF]]].
          * destruct wr; exact O.
          * rewrite !calls_app, seen_cons, seen_app, Se, calls_graph. unfold seen_in. cbn. now rewrite !app_nil_r.
        + injection Eq as <- <-. eexists _, _, _, st2, _. split; [eapply pl_guard_hang; [exact Gu|exact P]|].
          split; [eapply told_step; [exact G1|exact T]|]. split; [exact O|]. split; [|exact F].
          rewrite !calls_app, seen_cons, Se, calls_graph. unfold seen_in. cbn. now rewrite !app_nil_r.
      - injection Eq as <- <-. destruct (no_take _ _ _ _ _ R Tk) as (st1 & G1 & F1).
        eexists _, _, _, st1, _. split; [eapply pl_guard_blocked; exact Gu|]. split; [eapply told_step; [exact G1|apply told_nil]|].
        rewrite app_nil_r. split; [reflexivity|]. split; [reflexivity|]. destruct F1 as [F1 F2]. split; [exact F1|]. split; [exact F2|apply K]. }
    destruct p as [r| | |v k|body k|body k|t body k|c n k|c i k|c i k|c i k|c n k|c k|s c k|body k|body k|i k|k|c k|t k|m hs body k|a d k].
    (* PRet *)
    - injection E as <- <-. eexists [], [], _, st, _. split; [constructor|]. split; [apply told_nil|]. rewrite app_nil_r. split; [reflexivity|]. split; [reflexivity|]. split; assumption.
    (* PPanic *)
    - injection E as <- <-. destruct (step_panic _ _ _ _ R) as (st1 & G1 & R1). destruct (kstep_panic _ _ _ _ K) as (ks1 & Gk & K1). eexists _, [], _, st1, _. split; [constructor|].
      split; [eapply told_step; [exact G1|]; eapply tell_cell; [exact Gk|apply told_nil]|]. rewrite app_nil_r. split; [reflexivity|]. split; [reflexivity|]. split; assumption.
    (* PLoop *)
    - discriminate.
    (* PEmit *)
    - cbn [run trace scoped] in *. destruct (IH _ _ _ _ _ _ _ _ _ _ _ (rel_emit _ _ _ _ _ v R) K Sc B E Ns) as (es & vs & hd1 & st' & ks1 & P & T & O & Se & F).
      eexists es, (v :: vs), _, st', _. split; [constructor; exact P|]. split; [exact T|]. split; [|auto]. rewrite O. cbn [emit w_out]. now rewrite <- app_assoc.
    (* PCall *)
    - cbn [run trace scoped] in *. destruct Sc as [S1 S2]. destruct (run sc f w body) as [[w1 o1]|] eqn:E1; [|discriminate].
      assert (N1 : o1 <> OStuck) by (intros ->; injection E as <- <-; congruence).
      destruct (IH _ _ _ _ _ _ _ _ _ _ _ R K S1 B E1 N1) as (es & vs & hd1 & st1 & ks1 & P & T & O & Se & F).
      assert (Not : (forall r, o1 <> ORet r) -> Some (w1, o1) = Some (w', o) -> sim sc en gs ho hd w st ks (PCall body k) w' o (trace sc f w body ++ [])).
      { intros Nr [= -> ->]. eexists es, vs, _, st1, _. split; [eapply pl_call_not; eassumption|]. rewrite app_nil_r. eauto. }
      destruct o1 as [r| | |]; try (apply Not; [intros; discriminate|exact E]).
      destruct F as [F KF]. destruct (IH _ _ _ _ _ _ _ _ _ _ _ F KF (S2 r) (Bt _ _ _ T) E Ns) as (es' & vs' & hd2 & st2 & ks2 & P' & T' & O' & Se' & F').
      eexists (es ++ es'), (vs ++ vs'), _, st2, _. split; [eapply pl_call; eassumption|]. split; [eapply told_two; eassumption|].
      rewrite O', O, app_assoc, seen_app, calls_app, Se, Se'. eauto.
    (* PTry *)
    - cbn [run trace scoped] in *. destruct Sc as [S1 S2]. destruct (run sc f w body) as [[w1 o1]|] eqn:E1; [|discriminate].
      assert (N1 : o1 <> OStuck) by (intros ->; injection E as <- <-; congruence).
      destruct (IH _ _ _ _ _ _ _ _ _ _ _ R K S1 B E1 N1) as (es & vs & hd1 & st1 & ks1 & P & T & O & Se & F).
      destruct o1 as [r| | |]; [| | |congruence].
      + destruct F as [F KF]. destruct (IH _ _ _ _ _ _ _ _ _ _ _ F KF (S2 (Some r)) (Bt _ _ _ T) E Ns) as (es' & vs' & hd2 & st2 & ks2 & P' & T' & O' & Se' & F').
        eexists (es ++ es'), (vs ++ vs'), _, st2, _. split; [eapply pl_try; eassumption|]. split; [eapply told_two; eassumption|].
        rewrite O', O, app_assoc, seen_app, calls_app, Se, Se'. eauto.
      + destruct F as [F KF]. destruct (step_catch _ _ _ _ F) as (st2 & G2 & R2). destruct (kstep_catch _ _ _ _ KF) as (ks3 & Gk & K2).
        assert (Gr : grows st st2) by (eapply grows_trans; [eapply told_grew; exact T|eapply step_grows; exact G2]).
        destruct (IH _ _ _ _ _ _ _ _ _ _ _ R2 K2 (S2 None) (B' _ Gr) E Ns) as (es' & vs' & hd2 & st3 & ks2 & P' & T' & O' & Se' & F').
        eexists _, (vs ++ vs'), _, st3, _. split; [eapply pl_try_panic; eassumption|].
        split; [eapply told_two; [exact T|]; eapply told_step; [exact G2|]; eapply tell_cell; [exact Gk|exact T']|].
        rewrite O', O, app_assoc, seen_app, calls_app, !seen_cons, Se, Se'. eauto.
      + injection E as <- <-. eexists es, vs, _, st1, _. split; [eapply pl_try_hang; eassumption|]. rewrite app_nil_r. eauto.
    (* PWith *)
    - rewrite run_with in E. rewrite trace_with. cbn zeta in *. rewrite (r_heap _ _ _ _ _ R) in *.
      assert (X : fine en st t /\ scoped (fun x => own x \/ same_context (inner t (length en)) x) (body (inner t (length en))) /\ forall r, scoped own (k r)).
      { cbn [scoped] in Sc. destruct t as [cr|c]; cbn [fine inner]; intuition. }
      destruct X as (Fi & S1 & S2). destruct (open_event _ _ _ _ _ R Fi) as [e Op].
      destruct (blocks t w) eqn:Bk.
      + injection E as <- <-. destruct t as [cr|c]; [|discriminate]. inversion Op; subst e; clear Op; subst.
        assert (L : w_lock w <> GFree) by (cbn in Bk; destruct (w_lock w); congruence).
        destruct (bg_blocked _ _ _ _ R L) as (st1 & G1 & F1). eexists _, [], _, st1, _. split; [eapply pl_with_blocked; constructor|].
        split; [eapply told_step; [exact (step_background _ _ _ _ R)|]; eapply told_step; [exact G1|apply told_nil]|].
        rewrite app_nil_r. split; [reflexivity|]. split; [reflexivity|]. destruct F1 as [F1 F2]. split; [exact F1|]. split; [exact F2|apply K].
      + assert (Fr : match t with TxBg _ => w_lock w = GFree | TxFg _ => True end) by (destruct t; [cbn in Bk; destruct (w_lock w); congruence|exact I]).
        destruct (open_with _ _ _ _ _ _ _ R Fi Op Fr) as (tx & h & st1 & st2 & G1 & G2 & R2 & Bi & Pa).
        assert (Gr2 : grows st st2) by (eapply grows_trans; eapply step_grows; eassumption).
        destruct (run sc f (opened t w) _) as [[w1 o1]|] eqn:E1; [|discriminate].
        assert (N1 : o1 <> OStuck) by (intros ->; injection E as <- <-; congruence).
        assert (B2 : forall x, own x \/ same_context (inner t (length en)) x -> bound (en ++ [(tx, h)]) st2 x).
        { intros x [X|X]; [apply bound_app; now apply B'|]. eapply bound_same; eassumption. }
        assert (Cw : w_cells (opened t w) = w_cells w) by (destruct t; reflexivity). assert (K2 := K). rewrite <- Cw in K2.
        destruct (IH _ _ _ _ _ _ _ _ _ _ _ R2 K2 S1 B2 E1 N1) as (es & vs & hd1 & st3 & ks1 & P & T & O & Se & F).
        assert (Ow : w_out (opened t w) = w_out w) by (destruct t; reflexivity).
        rewrite Ow in O.
        assert (Cc : forall d ok b, w_cells (closed t d ok b w1) = w_cells w1 /\ w_out (closed t d ok b w1) = w_out w1).
        { intros [|d] [|] b; destruct t; cbn [closed]; unfold bg_commit, fg_commit; try (destruct (leaked w1 b)); split; reflexivity. }
        pose proof (parented_grows _ _ _ _ _ (told_grew _ _ _ _ _ T) Pa) as Pa'.
        destruct o1 as [r| | |]; [| | |congruence].
        * destruct F as [F KF]. destruct (breaks t (is_ok r) (length en) w1) as [n|] eqn:Br.
          { injection E as <- <-. destruct (finish_crash _ _ _ _ _ _ _ _ _ F Pa' Br) as (-> & Ok & G3 & l & st4 & G4 & R4). destruct (kstep_panic _ _ _ _ KF) as (ks4 & Gk & K4).
            eexists _, vs, _, st4, _. split; [eapply pl_with_crash; [exact Op|exact P|exact Ok]|].
            split; [eapply told_step; [exact G1|]; eapply told_step; [exact G2|]; eapply told_two; [exact T|]; eapply told_step; [exact G3|]; eapply told_step; [exact G4|]; eapply tell_cell; [exact Gk|apply told_nil]|].
            split; [exact O|]. split; [|split; [exact R4|exact K4]].
            rewrite !calls_app, !seen_cons, seen_app, !seen_cons, Se, calls_open, calls_end. rewrite Ok. unfold breaks in Br. rewrite Ok in Br.
            destruct (leaked w1 (length en)); [discriminate|]. unfold seen_in. cbn. now rewrite !app_nil_r. }
          destruct (finish_with _ _ _ _ ks1 _ _ _ _ F Pa' Br) as (fin & st4 & G3 & Fin & G4 & R4 & Sf).
          destruct (Cc 0 (is_ok r) (length en)) as [C1 C2]. assert (K4 := KF). rewrite <- C1 in K4.
          assert (Gr4 : grows st st4).
          { eapply grows_trans; [exact Gr2|]. eapply grows_trans; [eapply told_grew; exact T|]. eapply grows_trans; [eapply step_grows; exact G3|eapply told_grew; exact G4]. }
          destruct (IH _ _ _ _ _ _ _ _ _ _ _ R4 K4 (S2 r) (B' _ Gr4) E Ns) as (es' & vs' & hd2 & st5 & ks2 & P' & T' & O' & Se' & F').
          rewrite C2 in O'.
          eexists _, (vs ++ vs'), _, st5, _. split; [eapply pl_with; [exact Op|exact P|exact Fin|exact P']|].
          split; [eapply told_step; [exact G1|]; eapply told_step; [exact G2|]; eapply told_two; [exact T|]; eapply told_step; [exact G3|]; eapply told_two; [exact G4|exact T']|].
          split; [now rewrite O', O, app_assoc|]. split; [|exact F'].
          rewrite !calls_app, !seen_cons, seen_app, !seen_cons, seen_app, Se, Se', Sf, calls_open, calls_end. unfold seen_in, end_logs. cbn [snd notices flat_map app]. now rewrite !app_nil_r.
        * injection E as <- <-. destruct F as [F KF]. destruct (close_with _ _ _ _ _ _ _ _ false _ F Pa' eq_refl eq_refl) as (st4 & G3 & G4 & R4).
          destruct (Cc 1 false (length en)) as [C1 C2].
          eexists _, vs, _, st4, _. rewrite C2. split; [eapply pl_with_panic; [exact Op|exact P]|].
          split; [eapply told_step; [exact G1|]; eapply told_step; [exact G2|]; eapply told_two; [exact T|]; eapply told_step; [exact G3|]; eapply told_step; [exact G4|apply told_nil]|].
          split; [exact O|]. split; [|split; [exact R4|rewrite C1; exact KF]].
          rewrite !calls_app, !seen_cons, seen_app, Se, calls_open. unfold seen_in. cbn. now rewrite !app_nil_r.
        * injection E as <- <-. eexists _, vs, _, st3, _. split; [eapply pl_with_hang; [exact Op|exact P]|].
          split; [eapply told_step; [exact G1|]; eapply told_step; [exact G2|exact T]|]. split; [exact O|]. split; [|exact F].
          rewrite !calls_app, !seen_cons, Se, calls_open. unfold seen_in. cbn. now rewrite !app_nil_r.
    (* PSave *)
    - cbn [run trace scoped] in *. destruct Sc as [Oc S2]. destruct (B _ Oc) as (tx & h & mc & N & _).
      destruct (step_save _ _ _ _ _ _ _ n R (B _ Oc) N) as (st1 & G1 & R1).
      destruct (IH _ _ _ _ _ _ _ _ _ _ _ R1 K S2 (B' _ (step_grows _ _ _ _ G1)) E Ns) as (es & vs & hd1 & st' & ks1 & P & T & O & Se & F).
      eexists _, vs, _, st', _. split; [eapply pl_save; [exact N|exact P]|]. split; [eapply told_step; [exact G1|exact T]|]. eauto.
    (* PDelete *)
    - cbn [run trace scoped] in *. destruct Sc as [Oc S2]. destruct (B _ Oc) as (tx & h & mc & N & _).
      destruct (step_delete _ _ _ _ _ _ _ i R (B _ Oc) N) as (st1 & G1 & R1).
      destruct (IH _ _ _ _ _ _ _ _ _ _ _ R1 K S2 (B' _ (step_grows _ _ _ _ G1)) E Ns) as (es & vs & hd1 & st' & ks1 & P & T & O & Se & F).
      eexists _, vs, _, st', _. split; [eapply pl_delete; [exact N|exact P]|]. split; [eapply told_step; [exact G1|exact T]|]. eauto.
    (* PGet *)
    - cbn [run trace scoped] in *. destruct Sc as [Oc S2]. destruct (B _ Oc) as (tx & h & mc & N & _).
      pose proof (step_get _ _ _ _ _ _ _ i R (B _ Oc) N) as G1.
      destruct (IH _ _ _ _ _ _ _ _ _ _ _ R K (S2 _) B E Ns) as (es & vs & hd1 & st' & ks1 & P & T & O & Se & F).
      eexists _, vs, _, st', _. split; [eapply pl_get; [exact N|exact P]|]. split; [eapply told_step; [exact G1|exact T]|]. eauto.
    (* PContains *)
    - cbn [run trace scoped] in *. destruct Sc as [Oc S2]. destruct (B _ Oc) as (tx & h & mc & N & _).
      pose proof (step_contains _ _ _ _ _ _ _ i R (B _ Oc) N) as G1.
      destruct (IH _ _ _ _ _ _ _ _ _ _ _ R K (S2 _) B E Ns) as (es & vs & hd1 & st' & ks1 & P & T & O & Se & F).
      eexists _, vs, _, st', _. split; [eapply pl_contains; [exact N|exact P]|]. split; [eapply told_step; [exact G1|exact T]|]. eauto.
    (* PTarget *)
    - cbn [run trace scoped] in *. destruct Sc as [Oc S2]. destruct (step_target _ _ _ _ n K) as (x & ks2 & ks3 & G1 & G2 & K3).
      destruct (IH _ _ _ _ _ _ _ _ _ _ _ (rel_cells _ _ _ _ _ (w_cells w ++ [Cell (DNode n) false Free]) R) K3 (S2 _) B E Ns) as (es & vs & hd1 & st' & ks1 & P & T & O & Se & F).
      rewrite <- (k_len _ _ _ _ _ K) in P.
      eexists _, vs, _, st', _. split; [eapply pl_target; exact P|]. split; [eapply tell_cell; [exact G1|]; eapply tell_cell; [exact G2|exact T]|]. eauto.
    (* PLeak *)
    - cbn [run trace scoped] in *. destruct Sc as [Oc S2]. destruct (B _ Oc) as (tx & h & mc & N & _).
      destruct (step_leak _ _ _ _ _ _ _ R N) as (h' & st1 & st2 & G1 & G2 & R1).
      assert (Gr : grows st st2) by (eapply grows_trans; eapply step_grows; eassumption).
      destruct (IH _ _ _ _ _ _ _ _ _ _ _ R1 K S2 (B' _ Gr) E Ns) as (es & vs & hd1 & st' & ks1 & P & T & O & Se & F).
      eexists _, vs, _, st', _. split; [eapply pl_leak; [exact N|exact P]|]. split; [eapply told_step; [exact G1|]; eapply told_step; [exact G2|exact T]|]. eauto.
    (* PTriggers *)
    - cbn [run trace scoped] in *. destruct Sc as [Oc S2]. cbn zeta. rewrite select_scheduled in *.
      destruct (run sc f w (try_for_each _ c)) as [[w1 o1]|] eqn:E1; [|discriminate].
      assert (N1 : o1 <> OStuck) by (intros ->; injection E as <- <-; congruence).
      assert (S1 : scoped (same_context c) (try_for_each (scheduled sc s) c)) by (apply scoped_each; auto).
      assert (B1 : forall x, same_context c x -> bound en st x) by (intros x X; eapply bound_same; [|exact X]; auto).
      destruct (IH _ _ _ _ _ _ _ _ _ _ _ R K S1 B1 E1 N1) as (es & vs & hd1 & st1 & ks1 & P & T & O & Se & F).
      assert (Not : (forall r, o1 <> ORet r) -> Some (w1, o1) = Some (w', o) -> sim sc en gs ho hd w st ks (PTriggers s c k) w' o (trace sc f w (try_for_each (scheduled sc s) c) ++ [])).
      { intros Nr [= -> ->]. eexists es, vs, _, st1, _. split; [eapply pl_triggers_not; eassumption|]. rewrite app_nil_r. eauto. }
      destruct o1 as [r| | |]; try (apply Not; [intros; discriminate|exact E]).
      destruct F as [F KF]. destruct (IH _ _ _ _ _ _ _ _ _ _ _ F KF (S2 r) (Bt _ _ _ T) E Ns) as (es' & vs' & hd2 & st2 & ks2 & P' & T' & O' & Se' & F').
      eexists (es ++ es'), (vs ++ vs'), _, st2, _. split; [eapply pl_triggers; eassumption|]. split; [eapply told_two; eassumption|].
      rewrite O', O, app_assoc, seen_app, calls_app, Se, Se'. eauto.
    (* PRead, PWrite *)
    - destruct Sc as [S1 S2]. apply (Guard _ _ _ _ (gu_read body k) S1 S2 E).
    - destruct Sc as [S1 S2]. apply (Guard _ _ _ _ (gu_write body k) S1 S2 E).
    (* PGraphGet *)
    - cbn [run trace scoped] in *. assert (X : exists g gs', gs = g :: gs' /\ run sc f w (k (g_get (w_graph w) i)) = Some (w', o)).
      { pose proof (r_lock _ _ _ _ _ R) as L. destruct (w_lock w); try (injection E as <- <-; congruence); (destruct gs; [destruct L; discriminate|eauto]). }
      destruct X as (g & gs' & -> & E').
      destruct (IH _ _ _ _ _ _ _ _ _ _ _ R K (Sc _) B E' Ns) as (es & vs & hd1 & st' & ks1 & P & T & O & Se & F).
      eexists _, vs, _, st', _. split; [eapply pl_graph_get; exact P|]. split; [eapply told_step; [exact (step_graph_get _ _ _ _ _ i R)|exact T]|].
      split; [exact O|]. split; [|exact F]. rewrite seen_cons, Se. pose proof (r_lock _ _ _ _ _ R) as L. destruct (w_lock w); try reflexivity; destruct L; discriminate.
    (* PGraphIter *)
    - cbn [run trace scoped] in *. assert (X : exists g gs', gs = g :: gs' /\ run sc f w (k (g_iter (w_graph w))) = Some (w', o)).
      { pose proof (r_lock _ _ _ _ _ R) as L. destruct (w_lock w); try (injection E as <- <-; congruence); (destruct gs; [destruct L; discriminate|eauto]). }
      destruct X as (g & gs' & -> & E').
      destruct (IH _ _ _ _ _ _ _ _ _ _ _ R K (Sc _) B E' Ns) as (es & vs & hd1 & st' & ks1 & P & T & O & Se & F).
      eexists _, vs, _, st', _. split; [eapply pl_graph_iter; exact P|]. split; [eapply told_step; [exact (step_graph_iter _ _ _ _ _ R)|exact T]|].
      split; [exact O|]. split; [|exact F]. rewrite seen_cons, Se. pose proof (r_lock _ _ _ _ _ R) as L. destruct (w_lock w); try reflexivity; destruct L; discriminate.
    (* PGraphCall *)
    - cbn [run trace scoped] in *. assert (Lk : w_lock w = GWrite) by (destruct (w_lock w); try (injection E as <- <-; congruence); reflexivity).
      assert (X : exists g gs', gs = g :: gs'). { pose proof (r_lock _ _ _ _ _ R) as L. rewrite Lk in L. destruct gs; [destruct L; discriminate|eauto]. }
      destruct X as (g & gs' & ->). rewrite Lk in *. destruct (step_graph_call _ _ _ _ _ c R Lk) as (st1 & G1 & R1).
      destruct (Graph.g_step (w_graph w) c) as [g' r]. cbn [fst snd] in *.
      destruct (IH _ _ _ _ _ _ _ _ _ _ _ R1 K (Sc _) (B' _ (step_grows _ _ _ _ G1)) E Ns) as (es & vs & hd1 & st' & ks1 & P & T & O & Se & F).
      eexists _, vs, _, st', _. split; [eapply pl_graph_call; exact P|]. split; [eapply told_step; [exact G1|exact T]|].
      split; [exact O|]. split; [|exact F]. now rewrite seen_cons, Se.
    (* PRes *)
    - cbn [run trace scoped] in *. destruct (IH _ _ _ _ _ _ _ _ _ _ _ R K (Sc _) B E Ns) as (es & vs & hd1 & st' & ks1 & P & T & O & Se & F).
      eexists es, vs, _, st', _. split; [eapply pl_res; exact P|]. eauto.
    (* PAccess *)
    - cbn [run trace scoped] in *. destruct Sc as [S1 S2]. pose proof (acquires st m hs _ _ _ _ K) as Aq.
      destruct (acquire m hs (w_cells w)) as [cs held| |] eqn:Ac; [|injection E as <- <-|injection E as <- <-; congruence].
      + destruct Aq as (es1 & l & ks1 & Op & T1 & K1 & <- & Se1).
        pose proof (opens_fits _ _ _ _ _ Op) as Fi. assert (In1 : forall x, In x l -> In x (rev l ++ ho)) by (intros x X; apply in_or_app; left; now apply in_rev in X).
        assert (Mo : forall x, In x l -> ho_mode x = m).
        { clear - Fi. induction Fi as [|h y hs l [_ M] Fi IH]; intros x []; [congruence|auto]. }
        destruct (finds st _ _ _ _ _ _ _ _ K1 Fi In1) as (es2 & D & T2 & Se2).
        destruct (deref_all cs hs (map ho_addr l)) as [ds|] eqn:De.
        * destruct (run sc f (set_cells cs w) (body ds)) as [[w1 o1]|] eqn:E1; [|discriminate].
          assert (N1 : o1 <> OStuck) by (intros ->; injection E as <- <-; congruence).
          destruct (IH _ _ _ _ _ _ _ _ _ _ _ (rel_cells _ _ _ _ _ cs R) (K1 : krel _ _ _ (w_cells (set_cells cs w)) _) (S1 ds) B E1 N1)
            as (es & vs & hd1 & st1 & ks2 & P & T & O & Se & F).
          destruct o1 as [r| | |]; [| | |congruence].
          -- destruct F as [F KF]. destruct (closes st1 _ _ _ _ _ _ _ KF Mo) as (ks3 & T3 & K3). rewrite andb_false_r in K3.
             assert (G : grows st st1) by (eapply told_grew; exact T).
             destruct (IH _ _ _ _ _ _ _ _ _ _ _ (rel_cells _ _ _ _ _ (release false (map ho_addr l) (w_cells w1)) F)
               (K3 : krel _ _ _ (w_cells (set_cells (release false (map ho_addr l) (w_cells w1)) w1)) _) (S2 (Some r)) (B' _ G) E Ns)
               as (es' & vs' & hd2 & st2 & ks4 & P' & T' & O' & Se' & F').
             eexists _, (vs ++ vs'), _, st2, _. split; [eapply pl_access; eassumption|].
             split; [eapply told_two; [exact T1|]; eapply told_two; [exact T2|]; eapply told_two; [exact T|]; eapply told_two; [exact T3|exact T']|].
             split; [|split; [|exact F']].
             ++ rewrite O'. cbn [set_cells w_out]. rewrite O. cbn [set_cells w_out]. now rewrite app_assoc.
             ++ rewrite !seen_app, !calls_app, calls_acquire, Se1, Se2, Se, seen_closing, Se'. reflexivity.
          -- injection E as <- <-. destruct F as [F KF]. destruct (closes st1 _ _ _ _ _ _ _ KF Mo) as (ks3 & T3 & K3). rewrite andb_true_r in K3.
             eexists _, vs, _, st1, _. split; [eapply pl_access_panic; eassumption|].
             split; [eapply told_two; [exact T1|]; eapply told_two; [exact T2|]; eapply told_two; [exact T|exact T3]|]. split; [exact O|].
             split; [|split; [apply rel_cells; exact F|destruct m; exact K3]].
             rewrite !seen_app, !calls_app, calls_acquire, Se1, Se2, Se, seen_closing. reflexivity.
          -- injection E as <- <-. eexists _, vs, _, st1, _. split; [eapply pl_access_hang; eassumption|].
             split; [eapply told_two; [exact T1|]; eapply told_two; [exact T2|exact T]|]. split; [exact O|].
             split; [|exact F]. rewrite !seen_app, !calls_app, calls_acquire, Se1, Se2, Se, app_nil_r. reflexivity.
        * destruct (closes st _ _ _ _ _ _ _ K1 Mo) as (ks3 & T3 & K3). rewrite andb_false_r in K3.
          destruct (IH _ _ _ _ _ _ _ _ _ _ _ (rel_cells _ _ _ _ _ (release false (map ho_addr l) cs) R)
            (K3 : krel _ _ _ (w_cells (set_cells (release false (map ho_addr l) cs) w)) _) (S2 None) B E Ns) as (es & vs & hd1 & st' & ks2 & P & T & O & Se & F).
          eexists _, vs, _, st', _. split; [eapply pl_absent; eassumption|].
          split; [eapply told_two; [exact T1|]; eapply told_two; [exact T2|]; eapply told_two; [exact T3|exact T]|]. split; [exact O|]. split; [|exact F].
          rewrite !seen_app, !calls_app, calls_acquire, Se1, Se2, seen_closing, Se. reflexivity.
      + destruct Aq as (es1 & ks1 & Wa & T1 & Kc & Se1). eexists _, [], _, st, _. split; [apply pl_access_blocked; exact Wa|]. split; [exact T1|].
        rewrite app_nil_r. split; [reflexivity|]. split; [now rewrite app_nil_r, calls_acquire|]. split; [apply R|]. split; [apply R|exact Kc].
    (* PPoke *)
    - cbn [run trace scoped] in *. destruct (nth_error (w_cells w) a) as [x|] eqn:N; [|injection E as <- <-; congruence].
      destruct (c_lock x) eqn:Lx; try (injection E as <- <-; congruence). destruct (ty_eqb _ _) eqn:Ty; [|injection E as <- <-; congruence].
      destruct (writer_held _ _ _ _ _ _ _ K N Lx) as (y & Hy & My). pose proof (step_poke _ _ _ _ _ _ _ d K Hy) as Po. rewrite My in Po.
      destruct Po as (x' & ks1 & N' & _ & G1 & K1). rewrite N in N'. injection N' as <-.
      match type of E with run _ _ (set_cells ?cs _) _ = _ =>
        destruct (IH _ _ _ _ _ _ _ _ _ _ _ (rel_cells _ _ _ _ _ cs R) (K1 : krel _ _ _ (w_cells (set_cells cs w)) _) Sc B E Ns) as (es & vs & hd1 & st' & ks2 & P & T & O & Se & F) end.
      eexists _, vs, _, st', _. split; [eapply pl_poke; [exact Hy|apply ty_eqb_eq; exact Ty|exact P]|]. split; [eapply tell_cell; [exact G1|exact T]|]. eauto.
  Qed.

  (** ** Every history is a run *)
  Definition does (sc : schema) (f : nat) (w : world) (p : prog) (w' : world) (o : outcome) (l : list happening) : Prop :=
    run sc f w p = Some (w', o) /\ trace sc f w p = l.

  Lemma does_more (sc : schema) f w p w' o l f' : does sc f w p w' o l -> f <= f' -> does sc f' w p w' o l.
  Proof.
    intros [E <-] L. split; [eapply run_mono; eassumption|]. pose proof (trace_more sc f w p f' L) as T. apply T. now rewrite E.
  Qed.

  Definition back (sc : schema) (en : env) (gs : list nat) (ho : list holding) (w : world) (p : prog) (es : list made) (vs : list V) (hd' : list nat) (o : outcome)
    (st' : ustate) (ks' : kstate) : Prop :=
    exists f w' l, does sc f w p w' o l /\ w_out w' = w_out w ++ vs /\ seen es = of_calls l /\ fits en gs ho hd' o w' st' ks'.

  Lemma told_inv (st : ustate) (ks : kstate) e a es st' : told (st, ks) (OnGraph e a :: es) st' -> exists st1, u_step st e = (st1, a) /\ told (st1, ks) es st'.
  Proof. intros ([st1 ks1] & [E Ek] & T). cbn in E, Ek. subst ks1. eauto. Qed.

  Lemma told_at (st : ustate) (ks : kstate) e a es st' st1 a1 : told (st, ks) (OnGraph e a :: es) st' -> u_step st e = (st1, a1) -> a = a1 /\ told (st1, ks) es st'.
  Proof. intros (s & E & T)%told_inv E'. rewrite E in E'. injection E' as -> ->. auto. Qed.

  Lemma opening_event en t (e e' : @TxMachine.event Id Node) c c' : opening en t e c -> opening en t e' c' -> e = e' /\ c = c'.
  Proof. intros O1 O2. destruct O1; inversion O2; subst; split; congruence. Qed.

  Lemma told_none (st st' : ustate) (ks ks' : kstate) : told (st, ks) [] (st', ks') -> st = st' /\ ks = ks'.
  Proof. cbn. intros [= -> ->]. auto. Qed.

  Lemma bound_more en (st st' : ustate) own : (forall x, own x -> bound en st x) -> grows st st' -> forall x : ctx, own x -> bound en st' x.
  Proof. intros B G x X. eapply bound_grows; [exact G|auto]. Qed.

  Lemma bound_told en (st : ustate) (ks : kstate) es st' ks' own : (forall x, own x -> bound en st x) -> told (st, ks) es (st', ks') -> forall x : ctx, own x -> bound en st' x.
  Proof. intros B T. eapply bound_more; [exact B|]. eapply told_grew. exact T. Qed.

  Lemma opened_cells t (w : world) : w_cells (opened t w) = w_cells w.
  Proof. now destruct t. Qed.
  Lemma opened_out t (w : world) : w_out (opened t w) = w_out w.
  Proof. now destruct t. Qed.
  Lemma closed_same t d ok b (w : world) : w_cells (closed t d ok b w) = w_cells w /\ w_out (closed t d ok b w) = w_out w.
  Proof. destruct d, ok, t; cbn [closed]; unfold bg_commit, fg_commit; try (destruct (leaked w b)); split; reflexivity. Qed.

  Lemma scoped_fine en (st : ustate) own t (body : ctx -> prog) k : scoped own (PWith t body k) -> (forall x, own x -> bound en st x) ->
    fine en st t /\ scoped (fun x => own x \/ same_context (inner t (length en)) x) (body (inner t (length en))) /\
    forall r, scoped own (k r).
  Proof. cbn [scoped]. intros Sc B. destruct t as [cr|c]; cbn [fine inner]; repeat split; intuition (congruence || auto). Qed.

  Lemma guarding_scoped own (p : prog) wr body k : guarding p wr body k -> scoped own p -> scoped own body /\ forall r, scoped own (k r).
  Proof. now intros []. Qed.

  Lemma told_open en gs (w : world) st (ks : kstate) t e c0 tx h lg1 lg2 es st' : rel en gs 0 w st -> fine en st t -> opening en t e c0 ->
    told (st, ks) (OnGraph (UEvent (GEvent e)) (GX (XHandle tx), lg1) :: OnGraph (UEvent (GEvent (EContext tx))) (GX (XHandle h), lg2) :: es) st' ->
    blocks t w = false /\ lg1 = [] /\ lg2 = open_logs t w /\
    exists st2, grows st st2 /\ rel (en ++ [(tx, h)]) gs 0 (opened t w) st2 /\ bound (en ++ [(tx, h)]) st2 (inner t (length en)) /\ parented en st2 t tx /\ told (st2, ks) es st'.
  Proof.
    intros R Fi Op T. destruct (blocks t w) eqn:Bk.
    - exfalso. destruct t as [cr|c]; [|discriminate]. inversion Op; subst.
      assert (L : w_lock w <> GFree) by (cbn in Bk; destruct (w_lock w); congruence).
      destruct (told_at _ _ _ _ _ _ _ _ T (step_background _ _ _ _ R)) as [[= -> ->] T1].
      destruct (bg_blocked _ _ _ _ R L) as (st1 & G1 & F1). destruct (told_at _ _ _ _ _ _ _ _ T1 G1) as [[=] _].
    - assert (Fr : match t with TxBg _ => w_lock w = GFree | TxFg _ => True end) by (destruct t; [cbn in Bk; destruct (w_lock w); congruence|exact I]).
      destruct (open_with _ _ _ _ _ _ _ R Fi Op Fr) as (tx' & h' & st1 & st2 & G1 & G2 & R2 & Bi & Pa).
      destruct (told_at _ _ _ _ _ _ _ _ T G1) as [[= -> ->] T1]. destruct (told_at _ _ _ _ _ _ _ _ T1 G2) as [[= -> ->] T2].
      split; [reflexivity|]. split; [reflexivity|]. split; [reflexivity|]. exists st2. split; [eapply grows_trans; eapply step_grows; eassumption|]. auto.
  Qed.

  Lemma finish_back en gs (w : world) st (ks : kstate) t tx h ok fin es st' : rel (en ++ [(tx, h)]) gs 0 w st -> parented en st t tx ->
    finishing t tx ok fin -> told (dropped h st, ks) (fin ++ es) st' ->
    breaks t ok (length en) w = None /\ exists st3, told (dropped h st, ks) fin (st3, ks) /\ told (st3, ks) es st' /\
      rel en gs 0 (closed t 0 ok (length en) w) st3 /\ seen fin = end_logs ok (length en) w.
  Proof.
    intros R P Fin T. destruct (close_with _ _ _ _ _ _ _ _ ok _ R P I eq_refl) as (st3 & G3 & G4 & R4). destruct Fin as [t tx ok lg N|n tx lg1 lg2].
    - cbn [app] in T. destruct (told_at _ _ _ _ _ _ _ _ T G4) as [[= ->] T5]. split.
      + destruct t as [[n|]|c]; try reflexivity. destruct ok; [|reflexivity]. exfalso. eapply N; reflexivity.
      + exists st3. split; [eapply told_step; [exact G4|apply told_nil]|]. split; [exact T5|]. split; [exact R4|]. unfold seen. cbn. now rewrite !app_nil_r.
    - cbn [app] in T. cbn in P. subst en. pose proof (step_crash _ _ _ _ _ n R) as C. cbn [breaks andb length].
      destruct (_ && crashes _ _); [destruct C as (st4 & l & C & _); destruct (told_at _ _ _ _ _ _ _ _ T C) as [[=] _]|].
      destruct (told_at _ _ _ _ _ _ _ _ T C) as [[= ->] T4]. destruct (told_at _ _ _ _ _ _ _ _ T4 G4) as [[= ->] T5].
      split; [reflexivity|]. exists st3. split; [eapply told_step; [exact C|]; eapply told_step; [exact G4|apply told_nil]|]. split; [exact T5|]. split; [exact R4|].
      unfold seen. cbn. now rewrite !app_nil_r.
  Qed.

  Lemma told_taken en gs (w : world) st (ks : kstate) wr g lg es st' : rel en gs 0 w st -> told (st, ks) (OnGraph (UEvent (GOpen wr)) (GX (XHandle g), lg) :: es) st' ->
    exists l st1, take wr (w_lock w) = Some l /\ lg = (if w_poison w then [LPoisoned] else []) /\ rel en (g :: gs) 0 (set_lock l w) st1 /\ grows st st1 /\ told (st1, ks) es st'.
  Proof.
    intros R T. destruct (take wr (w_lock w)) as [l|] eqn:Tk.
    - destruct (take_guard _ _ _ _ _ _ R Tk) as (g' & st1 & G1 & R1). destruct (told_at _ _ _ _ _ _ _ _ T G1) as [[= -> ->] T1].
      exists l, st1. split; [reflexivity|]. split; [reflexivity|]. split; [exact R1|]. split; [eapply step_grows; exact G1|exact T1].
    - destruct (no_take _ _ _ _ _ R Tk) as (st1 & G1 & F1). destruct (told_at _ _ _ _ _ _ _ _ T G1) as [[=] _].
  Qed.

  Lemma fits_mode m (hs : list handle) (l : list holding) :
    Forall2 (fun h x => (ho_addr x = None \/ ho_addr x = h_addr h) /\ ho_mode x = m) hs l -> forall x, In x l -> ho_mode x = m.
  Proof. induction 1 as [|h y hs l [_ M] Fi IH]; intros x []; [congruence|auto]. Qed.

  Lemma backward (sc : schema) : scoped_schema sc -> forall en gs ho hd p es vs hd' o, plays sc en gs ho hd p es vs hd' o ->
    forall own (w : world) st ks st' ks', rel en gs 0 w st -> krel hd ho 0 (w_cells w) ks -> scoped own p -> (forall x, own x -> bound en st x) ->
    told (st, ks) es (st', ks') -> back sc en gs ho w p es vs hd' o st' ks'.
  Proof.
    intros SS en gs ho hd p es vs hd' o P. induction P; intros own w st ks st' ks' R K Sc B T; cbn [scoped] in Sc; subst.
    (* pl_ret *)
    - apply told_none in T as [-> ->]. exists 1, w, []. rewrite app_nil_r. split; [split; reflexivity|]. split; [reflexivity|]. split; [reflexivity|]. split; assumption.
    (* pl_panic *)
    - destruct (step_panic _ _ _ _ R) as (st1 & G1 & R1). destruct (told_at _ _ _ _ _ _ _ _ T G1) as [[= ->] T1]. destruct (kstep_panic _ _ _ _ K) as (ks1 & Gk & K1).
      destruct (cell_told _ _ _ _ _ _ _ _ T1 Gk) as [_ T2]. apply told_none in T2 as [-> ->].
      exists 1, w, []. rewrite app_nil_r. split; [split; reflexivity|]. split; [reflexivity|]. split; [reflexivity|]. split; assumption.
    (* pl_emit *)
    - destruct (IHP own (emit v w) st ks st' ks' (rel_emit _ _ _ _ _ v R) K Sc B T) as (f & w' & l & [D1 D2] & O & Se & F).
      exists (S f), w', l. split; [split; [exact D1|exact D2]|]. split; [|auto]. rewrite O. cbn [emit w_out]. now rewrite <- app_assoc.
    (* pl_call *)
    - destruct Sc as [S1 S2]. apply told_app in T as ([st1 kt1] & T1 & T2).
      destruct (IHP1 own w st ks st1 _ R K S1 B T1) as (f1 & w1 & l1 & D1 & O1 & Se1 & [F1 K1]).
      destruct (IHP2 own w1 st1 _ st' ks' F1 K1 (S2 r) (bound_told _ _ _ _ _ _ _ B T1) T2) as (f2 & w' & l2 & D2 & O2 & Se2 & F2).
      apply (does_more _ _ _ _ _ _ _ (f1 + f2)) in D1 as [D1 D1']; [|lia]. apply (does_more _ _ _ _ _ _ _ (f1 + f2)) in D2 as [D2 D2']; [|lia].
      exists (S (f1 + f2)), w', (l1 ++ l2). split; [split; cbn [run trace]; rewrite D1; [exact D2|now rewrite D1', D2']|].
      split; [now rewrite O2, O1, app_assoc|]. split; [now rewrite seen_app, calls_app, Se1, Se2|exact F2].
    (* pl_call_not *)
    - destruct Sc as [S1 S2]. destruct (IHP own w st ks st' ks' R K S1 B T) as (f1 & w1 & l1 & [D1 D2] & O1 & Se1 & F1).
      exists (S f1), w1, l1. split; [|auto]. split; cbn [run trace]; rewrite D1, ?D2; destruct o as [r| | |]; try reflexivity; try apply app_nil_r; exfalso; eapply H; reflexivity.
    (* pl_try *)
    - destruct Sc as [S1 S2]. apply told_app in T as ([st1 kt1] & T1 & T2).
      destruct (IHP1 own w st ks st1 _ R K S1 B T1) as (f1 & w1 & l1 & D1 & O1 & Se1 & [F1 K1]).
      destruct (IHP2 own w1 st1 _ st' ks' F1 K1 (S2 (Some r)) (bound_told _ _ _ _ _ _ _ B T1) T2) as (f2 & w' & l2 & D2 & O2 & Se2 & F2).
      apply (does_more _ _ _ _ _ _ _ (f1 + f2)) in D1 as [D1 D1']; [|lia]. apply (does_more _ _ _ _ _ _ _ (f1 + f2)) in D2 as [D2 D2']; [|lia].
      exists (S (f1 + f2)), w', (l1 ++ l2). split; [split; cbn [run trace]; rewrite D1; [exact D2|now rewrite D1', D2']|].
      split; [now rewrite O2, O1, app_assoc|]. split; [now rewrite seen_app, calls_app, Se1, Se2|exact F2].
    (* pl_try_panic *)
    - destruct Sc as [S1 S2]. apply told_app in T as ([st1 kt1] & T1 & T2).
      destruct (IHP1 own w st ks st1 _ R K S1 B T1) as (f1 & w1 & l1 & D1 & O1 & Se1 & [F1 K1]).
      destruct (step_catch _ _ _ _ F1) as (st2 & G2 & R2). destruct (told_at _ _ _ _ _ _ _ _ T2 G2) as [[= ->] T3].
      destruct (kstep_catch _ _ _ _ K1) as (ks2 & Gk & K2). destruct (cell_told _ _ _ _ _ _ _ _ T3 Gk) as [_ T4].
      assert (Gr : grows st st2) by (eapply grows_trans; [eapply told_grew; exact T1|eapply step_grows; exact G2]).
      destruct (IHP2 own w1 st2 _ st' ks' R2 K2 (S2 None) (bound_more _ _ _ _ B Gr) T4) as (f2 & w' & l2 & D2 & O2 & Se2 & F2).
      apply (does_more _ _ _ _ _ _ _ (f1 + f2)) in D1 as [D1 D1']; [|lia]. apply (does_more _ _ _ _ _ _ _ (f1 + f2)) in D2 as [D2 D2']; [|lia].
      exists (S (f1 + f2)), w', (l1 ++ l2). split; [split; cbn [run trace]; rewrite D1; [exact D2|now rewrite D1', D2']|].
      split; [now rewrite O2, O1, app_assoc|]. split; [now rewrite seen_app, calls_app, !seen_cons, Se1, Se2|exact F2].
    (* pl_try_hang *)
    - destruct Sc as [S1 S2]. destruct (IHP own w st ks st' ks' R K S1 B T) as (f1 & w1 & l1 & [D1 D2] & O1 & Se1 & F1).
      exists (S f1), w1, l1. split; [|auto]. split; cbn [run trace]; rewrite D1, ?D2; [reflexivity|apply app_nil_r].
    (* pl_with *)
    - pose proof (scoped_fine _ _ _ _ _ _ Sc B) as (Fi & S1 & S2). pose proof (opening_fun _ _ _ _ H). subst c0.
      destruct (told_open _ _ _ _ _ _ _ _ _ _ _ _ _ _ R Fi H T) as (Bk & -> & -> & st2 & Gr2 & R2 & Bi & Pa & T2).
      apply told_app in T2 as ([st3 kt3] & T2 & T3).
      assert (K2 := K). rewrite <- (opened_cells t w) in K2.
      assert (B2 : forall x, own x \/ same_context (inner t (length txs)) x -> bound (txs ++ [(tx, c)]) st2 x).
      { intros x [X|X]; [apply bound_app; eapply bound_more; eassumption|]. eapply bound_same; eassumption. }
      destruct (IHP1 _ (opened t w) st2 _ st3 _ R2 K2 S1 B2 T2) as (f1 & w1 & l1 & D1 & O1 & Se1 & [F1 K1]).
      pose proof (parented_grows _ _ _ _ _ (told_grew _ _ _ _ _ T2) Pa) as Pa'.
      destruct (told_at _ _ _ _ _ _ _ _ T3 (step_drop _ _ _ _ _ _ _ F1)) as [[= ->] T4].
      destruct (finish_back _ _ _ _ _ _ _ _ _ _ _ _ F1 Pa' H0 T4) as (Br & st4 & G4 & T5 & R4 & Sf).
      assert (Gr4 : grows st st4).
      { eapply grows_trans; [exact Gr2|]. eapply grows_trans; [eapply told_grew; exact T2|].
        eapply grows_trans; [eapply step_grows; exact (step_drop _ _ _ _ _ _ _ F1)|eapply told_grew; exact G4]. }
      destruct (closed_same t 0 (is_ok r) (length txs) w1) as [Cc Co]. assert (K4 := K1). rewrite <- Cc in K4.
      destruct (IHP2 own _ st4 _ st' ks' R4 K4 (S2 r) (bound_more _ _ _ _ B Gr4) T5) as (f2 & w' & l2 & D2 & O2 & Se2 & F2).
      apply (does_more _ _ _ _ _ _ _ (f1 + f2)) in D1 as [D1 D1']; [|lia]. apply (does_more _ _ _ _ _ _ _ (f1 + f2)) in D2 as [D2 D2']; [|lia].
      exists (S (f1 + f2)), w', (open_trace t w ++ l1 ++ end_trace t (is_ok r) (length txs) w1 ++ l2).
      split; [split; [rewrite run_with|rewrite trace_with]; cbn zeta; rewrite (r_heap _ _ _ _ _ R), Bk, D1, Br; [exact D2|now rewrite D1', D2']|].
      split; [now rewrite O2, Co, O1, opened_out, app_assoc|]. split; [|exact F2].
      rewrite !calls_app, !seen_cons, seen_app, !seen_cons, seen_app, Se1, Se2, Sf, calls_open, calls_end. unfold seen_in, end_logs. cbn [snd notices flat_map app]. now rewrite !app_nil_r.
    (* pl_with_crash *)
    - pose proof (scoped_fine txs st own (TxBg (Some n)) body k Sc B) as (Fi & S1 & S2). pose proof (opening_fun _ _ _ _ H). subst c0.
      destruct (told_open _ _ _ _ _ _ _ _ _ _ _ _ _ _ R Fi H T) as (Bk & -> & -> & st2 & Gr2 & R2 & Bi & Pa & T2).
      apply told_app in T2 as ([st3 kt3] & T2 & T3). set (t := TxBg (Some n)) in *.
      assert (K2 := K). rewrite <- (opened_cells (TxBg (Some n)) w) in K2.
      assert (B2 : forall x, own x \/ same_context (inner t (length txs)) x -> bound (txs ++ [(tx, c)]) st2 x).
      { intros x [X|X]; [apply bound_app; eapply bound_more; eassumption|]. eapply bound_same; eassumption. }
      destruct (IHP _ (opened t w) st2 _ st3 _ R2 K2 S1 B2 T2) as (f1 & w1 & l1 & [D1 D1'] & O1 & Se1 & [F1 K1]).
      pose proof (parented_grows _ _ _ _ _ (told_grew _ _ _ _ _ T2) Pa) as Pa'. cbn in Pa'. subst txs. cbn [app length] in *.
      destruct (told_at _ _ _ _ _ _ _ _ T3 (step_drop [] _ _ _ _ _ _ F1)) as [[= ->] T4].
      pose proof (step_crash _ _ _ _ _ n F1) as C. destruct (_ && _) eqn:Cr; [|destruct (told_at _ _ _ _ _ _ _ _ T4 C) as [[=] _]].
      destruct C as (st4 & l' & G4 & R4). destruct (told_at _ _ _ _ _ _ _ _ T4 G4) as [[= -> ->] T5]. destruct (kstep_panic _ _ _ _ K1) as (ks4 & Gk & K4).
      destruct (cell_told _ _ _ _ _ _ _ _ T5 Gk) as [_ T6]. apply told_none in T6 as [-> ->].
      assert (Br : breaks t true 0 w1 = Some n) by (unfold t, breaks; cbn [andb]; now rewrite Cr).
      exists (S f1), (broken n 0 w1), (open_trace t w ++ l1 ++ end_trace t true 0 w1).
      split; [split; [rewrite run_with|rewrite trace_with]; cbn zeta; rewrite (r_heap _ _ _ _ _ R); fold t; rewrite Bk; cbn [length]; rewrite D1, H0, Br; [reflexivity|now rewrite D1', app_nil_r]|].
      split; [exact O1|]. split; [|split; [exact R4|exact K4]].
      rewrite !calls_app, !seen_cons, seen_app, !seen_cons, Se1, calls_open, calls_end. apply andb_true_iff in Cr as [Cr _]. apply negb_true_iff in Cr. rewrite Cr.
      unfold seen_in. cbn. now rewrite !app_nil_r.
    (* pl_with_panic *)
    - pose proof (scoped_fine _ _ _ _ _ _ Sc B) as (Fi & S1 & S2). pose proof (opening_fun _ _ _ _ H). subst c0.
      destruct (told_open _ _ _ _ _ _ _ _ _ _ _ _ _ _ R Fi H T) as (Bk & -> & -> & st2 & Gr2 & R2 & Bi & Pa & T2).
      apply told_app in T2 as ([st3 kt3] & T2 & T3).
      assert (K2 := K). rewrite <- (opened_cells t w) in K2.
      assert (B2 : forall x, own x \/ same_context (inner t (length txs)) x -> bound (txs ++ [(tx, c)]) st2 x).
      { intros x [X|X]; [apply bound_app; eapply bound_more; eassumption|]. eapply bound_same; eassumption. }
      destruct (IHP _ (opened t w) st2 _ st3 _ R2 K2 S1 B2 T2) as (f1 & w1 & l1 & [D1 D1'] & O1 & Se1 & [F1 K1]).
      pose proof (parented_grows _ _ _ _ _ (told_grew _ _ _ _ _ T2) Pa) as Pa'.
      destruct (close_with _ _ _ _ _ _ _ _ false _ F1 Pa' eq_refl eq_refl) as (st4 & G3 & G4 & R4).
      destruct (told_at _ _ _ _ _ _ _ _ T3 G3) as [[= ->] T4]. destruct (told_at _ _ _ _ _ _ _ _ T4 G4) as [[= ->] T5]. apply told_none in T5 as [-> ->].
      destruct (closed_same t 1 false (length txs) w1) as [Cc Co].
      exists (S f1), (closed t 1 false (length txs) w1), (open_trace t w ++ l1).
      split; [split; [rewrite run_with|rewrite trace_with]; cbn zeta; rewrite (r_heap _ _ _ _ _ R), Bk, D1; [reflexivity|now rewrite D1', app_nil_r]|].
      split; [now rewrite Co, O1, opened_out|]. split; [|split; [exact R4|rewrite Cc; exact K1]].
      rewrite !calls_app, !seen_cons, seen_app, !seen_cons, Se1, calls_open. unfold seen_in. cbn. now rewrite !app_nil_r.
    (* pl_with_hang *)
    - pose proof (scoped_fine _ _ _ _ _ _ Sc B) as (Fi & S1 & S2). pose proof (opening_fun _ _ _ _ H). subst c0.
      destruct (told_open _ _ _ _ _ _ _ _ _ _ _ _ _ _ R Fi H T) as (Bk & -> & -> & st2 & Gr2 & R2 & Bi & Pa & T2).
      assert (K2 := K). rewrite <- (opened_cells t w) in K2.
      assert (B2 : forall x, own x \/ same_context (inner t (length txs)) x -> bound (txs ++ [(tx, c)]) st2 x).
      { intros x [X|X]; [apply bound_app; eapply bound_more; eassumption|]. eapply bound_same; eassumption. }
      destruct (IHP _ (opened t w) st2 _ st' ks' R2 K2 S1 B2 T2) as (f1 & w1 & l1 & [D1 D1'] & O1 & Se1 & F1).
      exists (S f1), w1, (open_trace t w ++ l1).
      split; [split; [rewrite run_with|rewrite trace_with]; cbn zeta; rewrite (r_heap _ _ _ _ _ R), Bk, D1; [reflexivity|now rewrite D1', app_nil_r]|].
      split; [now rewrite O1, opened_out|]. split; [|exact F1].
      rewrite !calls_app, !seen_cons, Se1, calls_open. unfold seen_in. cbn. now rewrite !app_nil_r.
    (* pl_with_blocked *)
    - pose proof (scoped_fine _ _ _ _ _ _ Sc B) as (Fi & S1 & S2).
      destruct (blocks t w) eqn:Bk.
      + destruct t as [cr|c]; [|discriminate]. inversion H; subst.
        assert (L : w_lock w <> GFree) by (cbn in Bk; destruct (w_lock w); congruence).
        destruct (told_at _ _ _ _ _ _ _ _ T (step_background _ _ _ _ R)) as [[= -> ->] T1].
        destruct (bg_blocked _ _ _ _ R L) as (st1 & G1 & F1). destruct (told_at _ _ _ _ _ _ _ _ T1 G1) as [[= ->] T2]. apply told_none in T2 as [-> ->].
        exists 1, w, []. split; [|rewrite app_nil_r; split; [reflexivity|]; split; [reflexivity|]; destruct F1 as [F1 F2]; split; [exact F1|]; split; [exact F2|apply K]]. split; cbn [run trace]; destruct (w_lock w); congruence.
      + assert (Fr : match t with TxBg _ => w_lock w = GFree | TxFg _ => True end) by (destruct t; [cbn in Bk; destruct (w_lock w); congruence|exact I]).
        destruct (open_with _ _ _ _ _ _ _ R Fi H Fr) as (tx' & h & st1 & st2 & G1 & G2 & _).
        destruct (told_at _ _ _ _ _ _ _ _ T G1) as [[= -> ->] T1]. destruct (told_at _ _ _ _ _ _ _ _ T1 G2) as [[=] _].
    (* pl_save *)
    - destruct Sc as [Oc S2]. destruct (step_save _ _ _ _ _ _ _ n R (B _ Oc) H) as (st1 & G1 & R1).
      destruct (told_at _ _ _ _ _ _ _ _ T G1) as [[= ->] T1].
      destruct (IHP own _ st1 _ st' ks' R1 K S2 (bound_more _ _ _ _ B (step_grows _ _ _ _ G1)) T1) as (f & w' & l & [D1 D2] & O & Se & F).
      exists (S f), w', l. split; [split; assumption|]. auto.
    (* pl_delete *)
    - destruct Sc as [Oc S2]. destruct (step_delete _ _ _ _ _ _ _ i R (B _ Oc) H) as (st1 & G1 & R1).
      destruct (told_at _ _ _ _ _ _ _ _ T G1) as [[= ->] T1].
      destruct (IHP own _ st1 _ st' ks' R1 K S2 (bound_more _ _ _ _ B (step_grows _ _ _ _ G1)) T1) as (f & w' & l & [D1 D2] & O & Se & F).
      exists (S f), w', l. split; [split; assumption|]. auto.
    (* pl_get *)
    - destruct Sc as [Oc S2]. pose proof (step_get _ _ _ _ _ _ _ i R (B _ Oc) H) as G1.
      destruct (told_at _ _ _ _ _ _ _ _ T G1) as [[= -> ->] T1].
      destruct (IHP own w st ks st' ks' R K (S2 _) B T1) as (f & w' & l & [D1 D2] & O & Se & F).
      exists (S f), w', l. split; [split; assumption|]. auto.
    (* pl_contains *)
    - destruct Sc as [Oc S2]. pose proof (step_contains _ _ _ _ _ _ _ i R (B _ Oc) H) as G1.
      destruct (told_at _ _ _ _ _ _ _ _ T G1) as [[= -> ->] T1].
      destruct (IHP own w st ks st' ks' R K (S2 _) B T1) as (f & w' & l & [D1 D2] & O & Se & F).
      exists (S f), w', l. split; [split; assumption|]. auto.
    (* pl_target *)
    - destruct Sc as [Oc S2]. destruct (step_target _ _ _ _ n K) as (y & ks2 & ks3 & G1 & G2 & K3).
      destruct (cell_told _ _ _ _ _ _ _ _ T G1) as [[= ->] T1]. destruct (cell_told _ _ _ _ _ _ _ _ T1 G2) as [_ T2].
      rewrite (k_len _ _ _ _ _ K) in *.
      destruct (IHP own _ st ks3 st' ks' (rel_cells _ _ _ _ _ (w_cells w ++ [Cell (DNode n) false Free]) R) K3 (S2 _) B T2) as (f & w' & l & [D1 D2] & O & Se & F).
      exists (S f), w', l. split; [split; assumption|]. auto.
    (* pl_leak *)
    - destruct Sc as [Oc S2]. destruct (step_leak _ _ _ _ _ _ _ R H) as (h2 & st1 & st2 & G1 & G2 & R1).
      destruct (told_at _ _ _ _ _ _ _ _ T G1) as [[= -> ->] T1]. destruct (told_at _ _ _ _ _ _ _ _ T1 G2) as [[= ->] T2].
      assert (Gr : grows st st2) by (eapply grows_trans; eapply step_grows; eassumption).
      destruct (IHP own _ st2 _ st' ks' R1 K S2 (bound_more _ _ _ _ B Gr) T2) as (f & w' & l & [D1 D2] & O & Se & F).
      exists (S f), w', l. split; [split; assumption|]. auto.
    (* pl_triggers *)
    - destruct Sc as [Oc S2]. apply told_app in T as ([st1 kt1] & T1 & T2).
      assert (S1 : scoped (same_context c) (try_for_each (scheduled sc s) c)) by (apply scoped_each; auto).
      assert (B1 : forall x, same_context c x -> bound txs st x) by (intros x X; eapply bound_same; [|exact X]; auto).
      destruct (IHP1 _ w st ks st1 _ R K S1 B1 T1) as (f1 & w1 & l1 & D1 & O1 & Se1 & [F1 K1]).
      destruct (IHP2 own w1 st1 _ st' ks' F1 K1 (S2 r) (bound_told _ _ _ _ _ _ _ B T1) T2) as (f2 & w' & l2 & D2 & O2 & Se2 & F2).
      apply (does_more _ _ _ _ _ _ _ (f1 + f2)) in D1 as [D1 D1']; [|lia]. apply (does_more _ _ _ _ _ _ _ (f1 + f2)) in D2 as [D2 D2']; [|lia].
      exists (S (f1 + f2)), w', (l1 ++ l2). split; [split; cbn [run trace]; cbn zeta; rewrite select_scheduled, D1; [exact D2|now rewrite D1', D2']|].
      split; [now rewrite O2, O1, app_assoc|]. split; [now rewrite seen_app, calls_app, Se1, Se2|exact F2].
    (* pl_triggers_not *)
    - destruct Sc as [Oc S2].
      assert (S1 : scoped (same_context c) (try_for_each (scheduled sc s) c)) by (apply scoped_each; auto).
      assert (B1 : forall x, same_context c x -> bound txs st x) by (intros x X; eapply bound_same; [|exact X]; auto).
      destruct (IHP _ w st ks st' ks' R K S1 B1 T) as (f1 & w1 & l1 & [D1 D2] & O1 & Se1 & F1).
      exists (S f1), w1, l1. split; [|auto]. split; cbn [run trace]; cbn zeta; rewrite select_scheduled, D1, ?D2; destruct o as [r| | |]; try reflexivity; try apply app_nil_r; exfalso; eapply H; reflexivity.
    (* pl_guard *)
    - destruct (guarding_scoped _ _ _ _ _ H Sc) as [S1 S2]. destruct (told_taken _ _ _ _ _ _ _ _ _ _ R T) as (l & st1 & Tk & -> & R1 & Gr1 & T1).
      apply told_app in T1 as ([st2 kt2] & T1 & T2).
      destruct (IHP1 own (set_lock l w) st1 _ st2 _ R1 K S1 (bound_more _ _ _ _ B Gr1) T1) as (f1 & w1 & l1 & D1 & O1 & Se1 & [F1 K1]).
      pose proof (run_lock _ _ _ _ _ _ (proj1 D1) I) as L1. destruct (give_guard _ _ _ _ _ _ _ _ _ F1 Tk L1) as (st3 & G3 & R3).
      destruct (told_at _ _ _ _ _ _ _ _ T2 G3) as [[= ->] T3].
      assert (Gr3 : grows st st3) by (eapply grows_trans; [exact Gr1|]; eapply grows_trans; [eapply told_grew; exact T1|eapply step_grows; exact G3]).
      assert (Gc : w_cells (given wr 0 w1) = w_cells w1 /\ w_out (given wr 0 w1) = w_out w1) by (destruct wr; split; reflexivity). destruct Gc as [Gc Go]. assert (K3 := K1). rewrite <- Gc in K3.
      destruct (IHP2 own _ st3 _ st' ks' R3 K3 (S2 r) (bound_more _ _ _ _ B Gr3) T3) as (f2 & w' & l2 & D2 & O2 & Se2 & F2).
      apply (does_more _ _ _ _ _ _ _ (f1 + f2)) in D1 as [D1 D1']; [|lia]. apply (does_more _ _ _ _ _ _ _ (f1 + f2)) in D2 as [D2 D2']; [|lia].
      exists (S (f1 + f2)), w', (guard_notices w ++ l1 ++ l2).
      split; [split; [rewrite (run_guard _ _ _ _ _ _ _ H)|rewrite (trace_guard _ _ _ _ _ _ _ H)]; rewrite Tk, D1; [exact D2|now rewrite D1', D2']|].
      split; [rewrite O2, Go, O1; cbn [set_lock w_out]; now rewrite app_assoc|]. split; [|exact F2].
      rewrite !calls_app, seen_cons, seen_app, seen_cons, Se1, Se2, calls_graph. unfold seen_in. cbn [snd notices flat_map app]. now rewrite app_nil_r.
    (* pl_guard_panic *)
    - destruct (guarding_scoped _ _ _ _ _ H Sc) as [S1 S2]. destruct (told_taken _ _ _ _ _ _ _ _ _ _ R T) as (l & st1 & Tk & -> & R1 & Gr1 & T1).
      apply told_app in T1 as ([st2 kt2] & T1 & T2).
      destruct (IHP own (set_lock l w) st1 _ st2 _ R1 K S1 (bound_more _ _ _ _ B Gr1) T1) as (f1 & w1 & l1 & [D1 D1'] & O1 & Se1 & [F1 K1]).
      pose proof (run_lock _ _ _ _ _ _ D1 I) as L1. destruct (give_guard _ _ _ _ _ _ _ _ _ F1 Tk L1) as (st3 & G3 & R3).
      destruct (told_at _ _ _ _ _ _ _ _ T2 G3) as [[= ->] T3]. apply told_none in T3 as [-> ->].
      assert (Gc : w_cells (given wr 1 w1) = w_cells w1 /\ w_out (given wr 1 w1) = w_out w1) by (destruct wr; split; reflexivity). destruct Gc as [Gc Go].
      exists (S f1), (given wr 1 w1), (guard_notices w ++ l1).
      split; [split; [rewrite (run_guard _ _ _ _ _ _ _ H)|rewrite (trace_guard _ _ _ _ _ _ _ H)]; rewrite Tk, D1; [reflexivity|now rewrite D1', app_nil_r]|].
      split; [now rewrite Go, O1|]. split; [|split; [exact R3|rewrite Gc; exact K1]].
      rewrite !calls_app, seen_cons, seen_app, seen_cons, Se1, calls_graph. unfold seen_in. cbn. now rewrite !app_nil_r.
    (* pl_guard_hang *)
    - destruct (guarding_scoped _ _ _ _ _ H Sc) as [S1 S2]. destruct (told_taken _ _ _ _ _ _ _ _ _ _ R T) as (l & st1 & Tk & -> & R1 & Gr1 & T1).
      destruct (IHP own (set_lock l w) st1 _ st' ks' R1 K S1 (bound_more _ _ _ _ B Gr1) T1) as (f1 & w1 & l1 & [D1 D1'] & O1 & Se1 & F1).
      exists (S f1), w1, (guard_notices w ++ l1).
      split; [split; [rewrite (run_guard _ _ _ _ _ _ _ H)|rewrite (trace_guard _ _ _ _ _ _ _ H)]; rewrite Tk, D1; [reflexivity|now rewrite D1', app_nil_r]|].
      split; [exact O1|]. split; [|exact F1].
      rewrite !calls_app, seen_cons, Se1, calls_graph. unfold seen_in. cbn. now rewrite !app_nil_r.
    (* pl_guard_blocked *)
    - destruct (take wr (w_lock w)) as [l|] eqn:Tk.
      + destruct (take_guard _ _ _ _ _ _ R Tk) as (g & st1 & G1 & R1). destruct (told_at _ _ _ _ _ _ _ _ T G1) as [[=] _].
      + destruct (no_take _ _ _ _ _ R Tk) as (st1 & G1 & F1). destruct (told_at _ _ _ _ _ _ _ _ T G1) as [[= ->] T1]. apply told_none in T1 as [-> ->].
        exists 1, w, []. split; [|rewrite app_nil_r; split; [reflexivity|]; split; [reflexivity|]; destruct F1 as [F1 F2]; split; [exact F1|]; split; [exact F2|apply K]].
        split; [rewrite (run_guard _ _ _ _ _ _ _ H)|rewrite (trace_guard _ _ _ _ _ _ _ H)]; now rewrite Tk.
    (* pl_graph_get *)
    - destruct (told_at _ _ _ _ _ _ _ _ T (step_graph_get _ _ _ _ _ i R)) as [[= -> ->] T1].
      destruct (IHP own w st ks st' ks' R K (Sc _) B T1) as (f & w' & l & [D1 D2] & O & Se & F).
      exists (S f), w', (HGet i (g_get (w_graph w) i) :: l).
      assert (L : match w_lock w with GReaders _ | GWrite => True | _ => False end) by (pose proof (r_lock _ _ _ _ _ R) as L; destruct (w_lock w); auto; destruct L; discriminate).
      split; [split; cbn [run trace]; destruct (w_lock w); try contradiction; rewrite ?D2; auto|]. split; [exact O|]. split; [|exact F]. now rewrite seen_cons, Se.
    (* pl_graph_iter *)
    - destruct (told_at _ _ _ _ _ _ _ _ T (step_graph_iter _ _ _ _ _ R)) as [[= -> ->] T1].
      destruct (IHP own w st ks st' ks' R K (Sc _) B T1) as (f & w' & l' & [D1 D2] & O & Se & F).
      exists (S f), w', (HIter (g_iter (w_graph w)) :: l').
      assert (L : match w_lock w with GReaders _ | GWrite => True | _ => False end) by (pose proof (r_lock _ _ _ _ _ R) as L; destruct (w_lock w); auto; destruct L; discriminate).
      split; [split; cbn [run trace]; destruct (w_lock w); try contradiction; rewrite ?D2; auto|]. split; [exact O|]. split; [|exact F]. now rewrite seen_cons, Se.
    (* pl_graph_call *)
    - assert (Lk : w_lock w = GWrite).
      { destruct (w_lock w) eqn:Lk; try reflexivity; exfalso.
        - pose proof (r_lock _ _ _ _ _ R) as L. rewrite Lk in L. destruct L; discriminate.
        - apply told_inv in T as (st1 & G & _). unfold u_step, u_call, Guards.g_step in G. rewrite (r_hung1 _ _ _ _ _ R), (top_usable _ _ _ _ _ R), Lk in G. cbn in G. discriminate.
        - pose proof (r_lock _ _ _ _ _ R) as L. rewrite Lk in L. destruct L; discriminate. }
      destruct (step_graph_call _ _ _ _ _ c R Lk) as (st1 & G1 & R1). destruct (told_at _ _ _ _ _ _ _ _ T G1) as [[= -> ->] T1].
      destruct (IHP own _ st1 _ st' ks' R1 K (Sc _) (bound_more _ _ _ _ B (step_grows _ _ _ _ G1)) T1) as (f & w' & l & [D1 D2] & O & Se & F).
      exists (S f), w', (HCall c (snd (Graph.g_step (w_graph w) c)) :: l).
      split; [split; cbn [run trace]; rewrite Lk; destruct (Graph.g_step (w_graph w) c); cbn [fst snd] in *; [exact D1|now rewrite D2]|].
      split; [exact O|]. split; [|exact F]. now rewrite seen_cons, Se.
    (* pl_res *)
    - destruct (IHP own w st ks st' ks' R K (Sc _) B T) as (f & w' & l & [D1 D2] & O & Se & F).
      exists (S f), w', l. split; [split; assumption|]. auto.
    (* pl_absent *)
    - destruct Sc as [S1 S2]. destruct (opened_all st _ _ _ _ _ H _ _ _ _ _ K T) as (cs1 & ks1 & Ac & T1 & K1 & Se1).
      pose proof (opens_fits _ _ _ _ _ H) as Fi. assert (In1 : forall x, In x l -> In x (rev l ++ ho)) by (intros x X; apply in_or_app; left; now apply in_rev in X).
      pose proof (fits_mode _ _ _ Fi) as Mo.
      destruct (found st _ _ _ _ H0 _ _ _ _ _ _ _ _ K1 Fi In1 T1) as (De & T2 & Se2). symmetry in De.
      destruct (closed_all st _ _ _ _ _ _ _ _ _ K1 Mo T2) as (ks3 & T3 & K3). rewrite andb_false_r in K3.
      destruct (IHP own _ st ks3 st' ks' (rel_cells _ _ _ _ _ (release false (map ho_addr l) cs1) R) (K3 : krel _ _ _ (w_cells (set_cells _ w)) _) (S2 None) B T3)
        as (f & w' & l1 & [D1 D2] & O & Se & F).
      exists (S f), w', (acquire_notices m hs (w_cells w) ++ l1). split; [split; cbn [run trace]; rewrite Ac, De; [exact D1|now rewrite D2]|].
      split; [exact O|]. split; [|exact F]. now rewrite !seen_app, calls_app, calls_acquire, Se1, Se2, seen_closing, Se.
    (* pl_access *)
    - destruct Sc as [S1 S2]. destruct (opened_all st _ _ _ _ _ H _ _ _ _ _ K T) as (cs1 & ks1 & Ac & T1 & K1 & Se1).
      pose proof (opens_fits _ _ _ _ _ H) as Fi. assert (In1 : forall x, In x l -> In x (rev l ++ ho)) by (intros x X; apply in_or_app; left; now apply in_rev in X).
      pose proof (fits_mode _ _ _ Fi) as Mo.
      destruct (found st _ _ _ _ H0 _ _ _ _ _ _ _ _ K1 Fi In1 T1) as (De & T2 & Se2). symmetry in De.
      apply told_app in T2 as ([st2 ks2] & T2 & T3).
      destruct (IHP1 own (set_cells cs1 w) st ks1 st2 ks2 (rel_cells _ _ _ _ _ cs1 R) K1 (S1 ds) B T2) as (f1 & w1 & l1 & D1 & O1 & Se3 & [F1 K2]).
      destruct (closed_all st2 _ _ _ _ _ _ _ _ _ K2 Mo T3) as (ks3 & T4 & K3). rewrite andb_false_r in K3.
      destruct (IHP2 own _ st2 ks3 st' ks' (rel_cells _ _ _ _ _ (release false (map ho_addr l) (w_cells w1)) F1) (K3 : krel _ _ _ (w_cells (set_cells _ w1)) _) (S2 (Some r))
        (bound_told _ _ _ _ _ _ _ B T2) T4) as (f2 & w' & l2 & D2 & O2 & Se4 & F2).
      apply (does_more _ _ _ _ _ _ _ (f1 + f2)) in D1 as [D1 D1']; [|lia]. apply (does_more _ _ _ _ _ _ _ (f1 + f2)) in D2 as [D2 D2']; [|lia].
      exists (S (f1 + f2)), w', (acquire_notices m hs (w_cells w) ++ l1 ++ l2).
      split; [split; cbn [run trace]; rewrite Ac, De, D1; [exact D2|now rewrite D1', D2']|].
      split; [rewrite O2; cbn [set_cells w_out]; rewrite O1; cbn [set_cells w_out]; now rewrite app_assoc|].
      split; [now rewrite !seen_app, !calls_app, calls_acquire, Se1, Se2, Se3, seen_closing, Se4|exact F2].
    (* pl_access_panic *)
    - destruct Sc as [S1 S2]. destruct (opened_all st _ _ _ _ _ H _ _ _ _ _ K T) as (cs1 & ks1 & Ac & T1 & K1 & Se1).
      pose proof (opens_fits _ _ _ _ _ H) as Fi. assert (In1 : forall x, In x l -> In x (rev l ++ ho)) by (intros x X; apply in_or_app; left; now apply in_rev in X).
      pose proof (fits_mode _ _ _ Fi) as Mo.
      destruct (found st _ _ _ _ H0 _ _ _ _ _ _ _ _ K1 Fi In1 T1) as (De & T2 & Se2). symmetry in De.
      apply told_app in T2 as ([st2 ks2] & T2 & T3).
      destruct (IHP own (set_cells cs1 w) st ks1 st2 ks2 (rel_cells _ _ _ _ _ cs1 R) K1 (S1 ds) B T2) as (f1 & w1 & l1 & [D1 D1'] & O1 & Se3 & [F1 K2]).
      destruct (closes st2 _ _ _ _ _ _ _ K2 Mo) as (ks3 & T4 & K3). rewrite andb_true_r in K3.
      pose proof (told_fun _ _ _ _ T3 T4) as X. injection X as -> ->.
      exists (S f1). eexists _, (acquire_notices m hs (w_cells w) ++ l1).
      split; [split; cbn [run trace]; rewrite Ac, De, D1; [reflexivity|now rewrite D1', app_nil_r]|].
      split; [exact O1|]. split; [now rewrite !seen_app, !calls_app, calls_acquire, Se1, Se2, Se3, seen_closing, app_nil_r|].
      split; [apply rel_cells; exact F1|destruct m; exact K3].
    (* pl_access_hang *)
    - destruct Sc as [S1 S2]. destruct (opened_all st _ _ _ _ _ H _ _ _ _ _ K T) as (cs1 & ks1 & Ac & T1 & K1 & Se1).
      pose proof (opens_fits _ _ _ _ _ H) as Fi. assert (In1 : forall x, In x l -> In x (rev l ++ ho)) by (intros x X; apply in_or_app; left; now apply in_rev in X).
      pose proof (fits_mode _ _ _ Fi) as Mo.
      destruct (found st _ _ _ _ H0 _ _ _ _ _ _ _ _ K1 Fi In1 T1) as (De & T2 & Se2). symmetry in De.
      destruct (IHP own (set_cells cs1 w) st ks1 st' ks' (rel_cells _ _ _ _ _ cs1 R) K1 (S1 ds) B T2) as (f1 & w1 & l1 & [D1 D1'] & O1 & Se3 & F1).
      exists (S f1), w1, (acquire_notices m hs (w_cells w) ++ l1).
      split; [split; cbn [run trace]; rewrite Ac, De, D1; [reflexivity|now rewrite D1', app_nil_r]|].
      split; [exact O1|]. split; [now rewrite !seen_app, !calls_app, calls_acquire, Se1, Se2, Se3|exact F1].
    (* pl_access_blocked *)
    - destruct (waited st _ _ _ _ H _ _ _ _ K T) as (Ac & Eu & Ek & Se1). cbn [fst snd] in Eu, Ek. subst st'.
      exists 1, w, (acquire_notices m hs (w_cells w)).
      split; [split; cbn [run trace]; rewrite Ac; [reflexivity|apply app_nil_r]|]. rewrite app_nil_r, calls_acquire. split; [reflexivity|].
      split; [exact Se1|]. split; [apply R|]. split; [apply R|exact Ek].
    (* pl_poke *)
    - pose proof (step_poke _ _ _ _ _ _ _ d K H) as Po. destruct (ho_mode x).
      { destruct Po as [G1 _]. destruct (cell_told _ _ _ _ _ _ _ _ T G1) as [[=] _]. }
      destruct Po as (y & ks1 & Ny & Ly & G1 & K1). destruct (cell_told _ _ _ _ _ _ _ _ T G1) as [[= ->] T1].
      destruct (IHP own _ st ks1 st' ks' (rel_cells _ _ _ _ _ (alter (fun x => Cell d (c_poison x) (c_lock x)) a (w_cells w)) R) K1 Sc B T1) as (f & w' & l & [D1 D2] & O & Se & F).
      apply ty_eqb_eq in H0. exists (S f), w', l. split; [split; cbn [run trace]; rewrite Ny, Ly, H0; assumption|]. auto.
  Qed.
End Progs.
