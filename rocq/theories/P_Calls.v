(** Property C136: the calls of programs. *)
From Coq Require Import List Bool Arith Lia.
From Verif Require Import Cells Ord OrdFacts BTree BTreeFacts Graph GraphFacts Demo Tx TxFacts TxMachine TxMachineFacts Guards Unwind UnwindFacts Prog SpecProg
  ProgFacts ProgFrame P_Prog ProgTrace SpecTrace TraceFacts SpecCalls CallsFacts CallsCells CallsProgs CallsDet.
Import ListNotations.

Section Properties.
  Context {Id Node V U : Type} `{HO : OrdT Id} `{HI : Identify Node Id}.
  Notation prog := (prog Id Node V U).
  Notation world := (world Id Node V U).
  Notation schema := (schema Id Node V U).
  Notation outcome := (outcome V).
  Notation state := (@state Id Node U).

  Local Notation nobody := (fun _ : ctx => False).

  Lemma over_rel (w : world) hd d u k : rel [] [] d w u -> krel hd [] d (w_cells w) k -> over (u, k).
  Proof.
    intros R K. split; [|split; [|split; [|split; [|split; [|split]]]]]; try apply R.
    - intros t x N. destruct (tx_open x) eqn:O; [|reflexivity]. destruct (r_open _ _ _ _ _ R _ _ N O) as ([|b] & h & X); discriminate.
    - intros c [t s] N X. cbn in X. subst s. destruct (r_live _ _ _ _ _ R _ _ N) as [[|b] Y]; discriminate.
    - intros g x N. destruct (r_dropped _ _ _ _ _ R _ _ N) as [D|[]]. exact D.
    - intros g x N. destruct (k_rest _ _ _ _ _ K _ _ N) as [D|[]]. exact D.
  Qed.

  (** C136: every run of a program, of whatever outcome, is a history of the machines of single calls: the program makes these calls, one after the
      other, and the machines answer and log what the program sees, and leave the same graph, the same targets and the same resources. *)
  Theorem C136_runs_are_histories :
    forall (sc : schema) (w : world) (p : prog) w' o l,
      scoped_schema sc -> scoped nobody p -> at_rest w -> nothing_held w ->
      happened sc w p w' o l -> o <> OStuck ->
      exists es vs hd' st',
        plays sc [] [] [] (k_handles w) p es vs hd' o /\ told (start w, k_start w) es st' /\
        w_out w' = w_out w ++ vs /\ seen es = of_calls l /\
        s_graph (m_store (gs_m (us_g (fst st')))) = w_graph w' /\ us_poisoned (fst st') = w_poison w' /\
        ks_cells (snd st') = values w' /\
        (comes_back o -> over st').
  Proof.
    intros sc w p w' o l SS Sc A H (f & E & <-) Ns.
    destruct (forward sc SS f nobody p [] [] [] (k_handles w) w (start w) (k_start w) w' o (rel_start w A) (krel_start w H) Sc ltac:(intros x []) E Ns)
      as (es & vs & hd' & u & k & P & T & O & Se & F).
    exists es, vs, hd', (u, k). split; [exact P|]. split; [exact T|]. split; [exact O|]. split; [exact Se|]. cbn [fst snd].
    destruct o as [r| | |]; cbn in F.
    - destruct F as [F K]. split; [apply F|]. split; [apply F|]. split; [apply K|]. intros _. eapply over_rel; eassumption.
    - destruct F as [F K]. split; [apply F|]. split; [apply F|]. split; [apply K|]. intros _. eapply over_rel; eassumption.
    - destruct F as (F1 & F2 & F3). split; [exact F1|]. split; [exact F2|]. split; [exact F3|]. intros [].
    - congruence.
  Qed.

  (** And conversely: if the machines answer the calls of a program so, the program runs so. *)
  Theorem C136_histories_are_runs :
    forall (sc : schema) (w : world) (p : prog) es vs hd' o st',
      scoped_schema sc -> scoped nobody p -> at_rest w -> nothing_held w ->
      plays sc [] [] [] (k_handles w) p es vs hd' o -> told (start w, k_start w) es st' ->
      exists w' l,
        happened sc w p w' o l /\
        w_out w' = w_out w ++ vs /\ of_calls l = seen es /\
        w_graph w' = s_graph (m_store (gs_m (us_g (fst st')))) /\ w_poison w' = us_poisoned (fst st') /\
        values w' = ks_cells (snd st').
  Proof.
    intros sc w p es vs hd' o [u k] SS Sc A H P T.
    destruct (backward sc SS _ _ _ _ _ _ _ _ _ P nobody w (start w) (k_start w) u k (rel_start w A) (krel_start w H) Sc ltac:(intros x []) T)
      as (f & w' & l & [D1 D2] & O & Se & F).
    exists w', l. split; [exists f; auto|]. split; [exact O|]. split; [now symmetry|]. cbn [fst snd].
    destruct o as [r| | |]; cbn in F; try (destruct F as [F K]; split; [symmetry; apply F|]; split; [symmetry; apply F|symmetry; apply K]); [|destruct F].
    destruct F as (F1 & F2 & F3). auto.
  Qed.

  (** What a program calls next is determined by what it was answered: it has one history only. *)
  Theorem C136_one_history :
    forall (sc : schema) (p : prog) (hd : list nat) (st : state) es1 vs1 hd1 o1 st1 es2 vs2 hd2 o2 st2,
      plays sc [] [] [] hd p es1 vs1 hd1 o1 -> told st es1 st1 ->
      plays sc [] [] [] hd p es2 vs2 hd2 o2 -> told st es2 st2 ->
      es1 = es2 /\ vs1 = vs2 /\ hd1 = hd2 /\ o1 = o2 /\ st1 = st2.
  Proof.
    intros sc p hd st es1 vs1 hd1 o1 st1 es2 vs2 hd2 o2 st2 P1 T1 P2 T2.
    destruct (plays_det _ _ _ _ _ _ _ _ _ _ P1 _ _ _ _ P2 _ _ _ T1 T2) as (-> & -> & -> & ->). repeat split. eapply told_fun; eassumption.
  Qed.

  (** A program that never ends, or does what no program can, has no history. *)
  Theorem C136_no_history :
    forall (sc : schema) (w : world) (p : prog) es vs hd' o st',
      scoped_schema sc -> scoped nobody p -> at_rest w -> nothing_held w ->
      diverges sc w p \/ (exists w', ends sc w p w' OStuck) ->
      ~ (plays sc [] [] [] (k_handles w) p es vs hd' o /\ told (start w, k_start w) es st').
  Proof.
    intros sc w p es vs hd' o [u k] SS Sc A H D [P T].
    destruct (backward sc SS _ _ _ _ _ _ _ _ _ P nobody w (start w) (k_start w) u k (rel_start w A) (krel_start w H) Sc ltac:(intros x []) T)
      as (f & w' & l & [D1 D2] & O & Se & F).
    destruct D as [D|[w2 D]]; [rewrite D in D1; discriminate|].
    destruct (ends_det sc w p w2 OStuck w' o D (ex_intro _ f D1)) as [-> <-]. destruct F.
  Qed.

  (** [Save] and [Delete] are such programs. *)
  Theorem C136_operations :
    forall (own : ctx -> Prop) (t : tx) (k : res V -> prog),
      (forall c, t = TxFg c -> own c) -> (forall r, scoped own (k r)) ->
      (forall n, scoped own (p_save n t k)) /\ (forall i, scoped own (p_delete i t k)).
  Proof.
    intros own t k O K.
    assert (Sv : forall (own' : ctx -> Prop) c n, (forall x, same_context c x -> own' x) -> scoped own' (save_body n c : prog)).
    { intros own' c n S. cbn. split; [apply S; now left|]. intros a. assert (X : own' (ctx_with_target c a)) by (apply S; right; eauto).
      split; [exact X|]. intros r. destruct r; try exact I; cbn; (split;
        [intros [|[? [?|? ?]] [|? ?]]; cbn; auto|intros _; split; [exact X|]; intros r'; destruct r'; exact I]). }
    assert (De : forall (own' : ctx -> Prop) c i, (forall x, same_context c x -> own' x) -> scoped own' (delete_body i c : prog)).
    { intros own' c i S. cbn. split; [apply S; now left|]. intros [n|]; cbn; [|exact I]. split; [apply S; now left|]. intros a.
      assert (X : own' (ctx_with_target c a)) by (apply S; right; eauto).
      split; [exact X|]. intros r. destruct r; try exact I; cbn; (split; [exact X|]; split; [exact X|]; intros r'; destruct r'; exact I). }
    destruct t as [cr|c]; cbn [p_save p_delete scoped];
      (split; intros ?; (repeat (split; [first [now apply O|intros b; first [apply Sv|apply De]; intros x X; now right]|])); exact K).
  Qed.
End Properties.

(** A panic under a write guard, caught; then a save whose trigger saves another node in a sub-transaction. *)
Definition ex_calls : dprog :=
  PTry (PWrite (PGraphCall (GInsert (n_ 7 70)) (fun _ => PPanic)) PRet) (fun _ =>
    PWith (TxBg None) (fun c => PSave c (n_ 1 11) (PGet c 1 (fun r => match r with
      | Some _ => PLeak c (p_save (n_ 3 30) (TxFg c) PRet)
      | None => PRet RUnit
      end))) PRet).

Local Notation gr e a := (OnGraph (UEvent (GEvent e)) a).

Definition ex_made : list (@made nat dnode nat) :=
  let h x := GX (XHandle x) in let ok := GX XUnit in
  [OnGraph (UEvent (GOpen true)) (h 0, []); OnGraph (UEvent (GCall 0 (GInsert (n_ 7 70)))) (GX (XNode None), []);
   OnGraph UPanic (ok, []); OnCell KPanic KUnit; OnGraph (UEvent (GDrop 0)) (ok, []); OnGraph UCatch (ok, []); OnCell KCatch KUnit;
   gr EBackground (h 0, []); gr (EContext 0) (h 0, [LPoisoned]);
     gr (ESave 0 (n_ 1 11)) (ok, []); gr (EGet 0 1) (GX (XNode (Some (n_ 1 11))), []);
     gr (EContext 0) (h 1, []); gr (ELeakCtx 1) (ok, []);
     gr (EForeground 0) (h 1, []); gr (EContext 1) (h 2, []);
       OnCell KHandle (KHandleNo 1); OnCell (KSet 1 (DNode (n_ 3 30))) KUnit;
       OnCell (KClone 0) (KHandleNo 2); OnHandle (TyRes 7) true 2 (KOpened 0 false); OnCell (KDeref 0) (KVal (Some (DRes 7 0)));
       OnCell (KMut 0 (DRes 7 1)) (KVal (Some (DRes 7 0))); OnCell (KDrop 0) KUnit;
       gr (EForeground 2) (h 2, []); gr (EContext 2) (h 3, []);
         gr (ESave 3 (n_ 100 1)) (ok, []);
       gr (EDropCtx 3) (ok, []); gr (EEnd 2 true) (ok, []);
       OnCell (KClone 1) (KHandleNo 3); OnHandle TyNode false 3 (KOpened 1 false); OnCell (KDeref 1) (KVal (Some (DNode (n_ 3 30)))); OnCell (KDrop 1) KUnit;
       OnCell (KClone 1) (KHandleNo 4); OnHandle TyNode false 4 (KOpened 2 false); OnCell (KDeref 2) (KVal (Some (DNode (n_ 3 30))));
       gr (ESave 2 (n_ 3 30)) (ok, []);
       OnCell (KDrop 2) KUnit;
     gr (EDropCtx 2) (ok, []); gr (EEnd 1 true) (ok, []);
   gr (EDropCtx 0) (ok, []); gr (EEnd 0 true) (ok, [LInUse])].

Ltac tell_it :=
  repeat match goal with
  | |- told ?st (OnGraph ?e _ :: _) _ => let s := eval vm_compute in (fst (u_step (fst st) e), snd st) in exists s; split; [split; vm_compute; reflexivity|]
  | |- told ?st (OnCell ?e _ :: _) _ => let s := eval vm_compute in (fst st, fst (k_step (snd st) (0, e))) in exists s; split; [split; vm_compute; reflexivity|]
  | |- told ?st (OnHandle _ ?w ?h _ :: _) _ => let s := eval vm_compute in (fst st, fst (k_step (snd st) (0, KOpen w h))) in exists s; split; [split; vm_compute; reflexivity|]
  | |- told _ [] _ => reflexivity
  end.

Lemma ex_nothing_held : nothing_held ex_w.
Proof. intros x [<-|[]]. reflexivity. Qed.

Lemma ex_scoped : scoped_schema ex_sc.
Proof.
  intros s t I c. unfold scheduled, ts_select in I. cbn in I. destruct s as [|s]; cbn in I; [|destruct I].
  destruct I as [<-|[]]. cbn. split.
  - intros [|[a [n|x u]] [|v vs]]; cbn; auto.
  - intros _. split; [now left|]. split; [intros b; split; [right; now left|exact Logic.I]|]. intros _. split; [|intros r; exact Logic.I].
    intros [|[a [n|x u]] [|v vs]]; cbn; auto. now destruct (Nat.eqb (d_id n) 9).
Qed.

Example C136_case :
  scoped_schema ex_sc /\ scoped (fun _ => False) ex_calls /\ at_rest ex_w /\ nothing_held ex_w /\
  (exists es vs, es = ex_made /\ plays ex_sc [] [] [] (k_handles ex_w) ex_calls es vs [0; 1] (ORet RUnit)) /\
  (exists st', told (start ex_w, k_start ex_w) ex_made st' /\ g_iter (s_graph (m_store (gs_m (us_g (fst st'))))) = [n_ 1 10; n_ 2 20; n_ 7 70] /\
     us_poisoned (fst st') = true /\ ks_cells (snd st') = [KCell (DRes 7 1) false; KCell (DNode (n_ 3 30)) false]) /\
  seen ex_made = [HCall (GInsert (n_ 7 70)) None; HNotice NGraph; HNotice NInUse].
Proof.
  split; [exact ex_scoped|]. split.
  { split; [cbn; auto|]. intros r. split; [|intros r'; exact I]. intros b. split; [right; now left|]. split; [right; now left|].
    intros [n|]; [|exact I]. split; [right; now left|].
    eapply C136_operations; [intros c [= <-]; right; now left|intros; exact I]. }
  split; [apply ex_at_rest|]. split; [exact ex_nothing_held|]. split.
  { eexists _, _. split; [|].
    2: { eapply pl_try_panic.
      - eapply pl_guard_panic; [apply gu_write|]. eapply pl_graph_call. apply pl_panic.
      - eapply pl_with; [apply op_bg| |apply fi_plain; discriminate|apply pl_ret].
        eapply pl_save; [reflexivity|]. eapply pl_get with (r := Some (n_ 1 11)); [reflexivity|].
        eapply pl_leak; [reflexivity|]. eapply pl_with; [eapply op_fg; reflexivity| |apply fi_plain; discriminate|apply pl_ret].
        eapply pl_target with (x := 1). eapply pl_triggers.
        + cbn. eapply pl_call with (r := RUnit); [|apply pl_ret]. eapply pl_res. eapply pl_access with (ds := [(0, DRes 7 0)]).
          * eapply os_cons with (g := 0) (logged := false); [reflexivity|apply os_nil].
          * eapply (de_some _ _ _ _ _ _ _ (Some [])); [reflexivity|reflexivity|apply de_nil].
          * eapply pl_poke with (v := DRes 7 0); [reflexivity|reflexivity|apply pl_ret].
          * eapply pl_with; [eapply op_fg; reflexivity|eapply pl_save; [reflexivity|apply pl_ret]|apply fi_plain; discriminate|].
            eapply pl_access with (ds := [(1, DNode (n_ 3 30))]).
            -- eapply os_cons with (g := 1) (logged := false); [reflexivity|apply os_nil].
            -- eapply (de_some _ _ _ _ _ _ _ (Some [])); [reflexivity|reflexivity|apply de_nil].
            -- cbn. apply pl_ret.
            -- cbn. apply pl_ret.
        + cbn. eapply pl_access with (ds := [(1, DNode (n_ 3 30))]).
          * eapply os_cons with (g := 2) (logged := false); [reflexivity|apply os_nil].
          * eapply (de_some _ _ _ _ _ _ _ (Some [])); [reflexivity|reflexivity|apply de_nil].
          * cbn. eapply pl_save; [reflexivity|apply pl_ret].
          * eapply pl_triggers; [cbn; apply pl_ret|cbn; apply pl_ret]. }
    cbn [app]. unfold ex_made. cbn zeta. reflexivity. }
  split; [|reflexivity]. eexists. split; [unfold ex_made; cbn zeta; tell_it|]. vm_compute. auto.
Qed.

(** User code panics in a commit once one operation is applied; the panic is caught; in another commit it would, but there is nothing to commit. *)
Definition ex_crash : dprog :=
  PTry (PWith (TxBg (Some 1)) (fun c => PSave c (n_ 1 11) (PDelete c 2 (PRet RUnit))) PRet) (fun _ =>
    PWith (TxBg (Some 1)) (fun c => PGet c 2 (fun r => PRet RUnit)) PRet).

Definition ex_crash_made : list (@made nat dnode nat) :=
  let h x := GX (XHandle x) in let ok := GX XUnit in
  [gr EBackground (h 0, []); gr (EContext 0) (h 0, []); gr (ESave 0 (n_ 1 11)) (ok, []); gr (EDelete 0 2) (ok, []); gr (EDropCtx 0) (ok, []);
   OnGraph (UEvent (GCrash 0 1)) (GCrashed [(GInsert (n_ 1 11), Some (n_ 1 10))], []); OnCell KPanic KUnit; OnGraph UCatch (ok, []); OnCell KCatch KUnit;
   gr EBackground (h 1, []); gr (EContext 1) (h 1, [LPoisoned]); gr (EGet 1 2) (GX (XNode (Some (n_ 2 20))), []); gr (EDropCtx 1) (ok, []);
   OnGraph (UEvent (GCrash 1 1)) (GX XInvalid, []); gr (EEnd 1 true) (ok, [])].

Example C136_case_crash :
  scoped (fun _ => False) ex_crash /\
  (exists es vs hd', es = ex_crash_made /\ plays ex_sc [] [] [] (k_handles ex_w) ex_crash es vs hd' (ORet RUnit)) /\
  (exists st', told (start ex_w, k_start ex_w) ex_crash_made st' /\
     g_iter (s_graph (m_store (gs_m (us_g (fst st'))))) = [n_ 1 11; n_ 2 20] /\ us_poisoned (fst st') = true).
Proof.
  split.
  { split.
    - split; [|intros r; exact I]. intros b. split; [right; now left|]. split; [right; now left|exact I].
    - intros r. split; [|intros r'; exact I]. intros b. split; [right; now left|intros r'; exact I]. }
  split.
  { eexists _, _, _. split; [|].
    2: { eapply pl_try_panic.
      - eapply pl_with_crash with (r := RUnit); [apply op_bg| |reflexivity]. eapply pl_save; [reflexivity|]. eapply pl_delete; [reflexivity|]. apply pl_ret.
      - eapply pl_with with (r := RUnit); [apply op_bg| |apply fi_tried|apply pl_ret]. eapply pl_get with (r := Some (n_ 2 20)); [reflexivity|]. apply pl_ret. }
    cbn [app]. unfold ex_crash_made. cbn zeta. reflexivity. }
  eexists. split; [unfold ex_crash_made; cbn zeta; tell_it|]. vm_compute. auto.
Qed.

(** A resource is read, and for all that written: the thread waits for itself. *)
Definition ex_waits : dprog :=
  PRes 7 (fun h => PAccess Shared [h] (fun _ => PAccess Excl [h] (fun _ => PRet RUnit) (fun _ => PRet RUnit)) (fun _ => PRet RUnit)).

(** A panic while a resource is changed, caught; after that the resource is lost: an error is logged and nothing is found. *)
Definition ex_lost : dprog :=
  PTry (PRes 7 (fun h => PAccess Excl [h] (fun vs => PPoke 0 (DRes 7 5) PPanic) (fun _ => PRet RUnit))) (fun _ =>
    PRes 7 (fun h => PAccess Shared [h] (fun _ => PEmit 1 (PRet RUnit)) (fun r => PEmit (match r with Some _ => 2 | None => 3 end) ex_waits))).

Definition ex_lost_made : list (@made nat dnode nat) :=
  let ok := GX XUnit in
  [OnCell (KClone 0) (KHandleNo 1); OnHandle (TyRes 7) true 1 (KOpened 0 false); OnCell (KDeref 0) (KVal (Some (DRes 7 0)));
   OnCell (KMut 0 (DRes 7 5)) (KVal (Some (DRes 7 0))); OnGraph UPanic (ok, []); OnCell KPanic KUnit; OnCell (KDrop 0) KUnit; OnGraph UCatch (ok, []); OnCell KCatch KUnit;
   OnCell (KClone 0) (KHandleNo 2); OnHandle (TyRes 7) false 2 (KOpened 1 true); OnCell (KDeref 1) (KVal None); OnCell (KDrop 1) KUnit;
   OnCell (KClone 0) (KHandleNo 3); OnHandle (TyRes 7) false 3 (KOpened 2 true); OnCell (KDeref 2) (KVal None); OnCell (KDrop 2) KUnit].

Definition ex_waits_made : list (@made nat dnode nat) :=
  [OnCell (KClone 0) (KHandleNo 1); OnHandle (TyRes 7) false 1 (KOpened 0 false); OnCell (KDeref 0) (KVal (Some (DRes 7 0)));
   OnCell (KClone 0) (KHandleNo 2); OnHandle (TyRes 7) true 2 KWait].

Example C136_case_cells :
  (exists es, es = ex_lost_made /\ plays ex_sc [] [] [] (k_handles ex_w) ex_lost es [3] [0] (ORet RUnit)) /\
  (exists st', told (start ex_w, k_start ex_w) ex_lost_made st' /\ ks_cells (snd st') = [KCell (DRes 7 5) true]) /\
  seen ex_lost_made = [HNotice (NResource 7); HNotice (NResource 7)] /\
  (exists es, es = ex_waits_made /\ plays ex_sc [] [] [] (k_handles ex_w) ex_waits es [] [0] OHang) /\
  (exists st', told (start ex_w, k_start ex_w) ex_waits_made st').
Proof.
  split.
  { eexists. split; [|].
    2: { eapply pl_try_panic with (vs := []).
    - eapply pl_res. eapply pl_access_panic with (l := [Holding (Some 0) Excl 0]) (ds := [(0, DRes 7 0)]).
      + eapply os_cons with (g := 0) (logged := false); [reflexivity|apply os_nil].
      + eapply (de_some _ _ _ _ _ _ _ (Some [])); [reflexivity|reflexivity|apply de_nil].
      + eapply pl_poke with (x := Holding (Some 0) Excl 0) (v := DRes 7 0); [reflexivity|reflexivity|apply pl_panic].
    - eapply pl_res. eapply pl_absent with (l := [Holding None Shared 1]).
      + eapply os_cons with (g := 1) (logged := true); [reflexivity|apply os_nil].
      + apply (de_none _ _ _ _ None). intros d X. discriminate X.
      + eapply pl_emit. eapply pl_res. eapply pl_absent with (l := [Holding None Shared 2]).
        * eapply os_cons with (g := 2) (logged := true); [reflexivity|apply os_nil].
        * apply (de_none _ _ _ _ None). intros d X. discriminate X.
        * apply pl_ret. }
    cbn [app closing map rev]. unfold ex_lost_made. cbn zeta. reflexivity. }
  split; [eexists; split; [unfold ex_lost_made; cbn zeta; tell_it|]; vm_compute; auto|]. split; [reflexivity|].
  split; [|eexists; unfold ex_waits_made; tell_it].
  eexists. split; [|].
  2: { eapply pl_res. eapply pl_access_hang with (l := [Holding (Some 0) Shared 0]) (ds := [(0, DRes 7 0)]).
    - eapply os_cons with (g := 0) (logged := false); [reflexivity|apply os_nil].
    - eapply (de_some _ _ _ _ _ _ _ (Some [])); [reflexivity|reflexivity|apply de_nil].
    - eapply pl_access_blocked. apply wa_here. reflexivity. }
  reflexivity.
Qed.

Print Assumptions C136_runs_are_histories.
Print Assumptions C136_histories_are_runs.
Print Assumptions C136_one_history.
Print Assumptions C136_no_history.
Print Assumptions C136_operations.
