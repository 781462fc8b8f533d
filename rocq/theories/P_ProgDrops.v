(** Property C145: what becomes of the nodes of a program. *)
From Coq Require Import List Bool Arith Lia Permutation.
From Verif Require Import Cells Ord OrdFacts BTree BTreeFacts Graph GraphFacts Demo Tx TxMachine Guards SpecGuards GuardsFacts Unwind Prog SpecProg
  ProgFacts P_Prog ProgTrace SpecTrace SpecCalls Drops SpecDrops DropsFacts SpecProgDrops ProgDropsFacts P_Calls P_Drops.
Import ListNotations.

Section Properties.
  Context {Id Node V U : Type} `{HO : OrdT Id} `{HI : Identify Node Id}.
  Notation prog := (prog Id Node V U).
  Notation world := (world Id Node V U).
  Notation schema := (schema Id Node V U).

  Local Notation nobody := (fun _ : ctx => False).

  (** [es]: the calls that [p] makes, run from [w]; it ends with [o], leaving [w'] and the transactions of [st']. *)
  Definition history (sc : schema) (w : world) (p : prog) w' o es st' : Prop :=
    g_reachable (w_graph w) /\ scoped_schema sc /\ scoped nobody p /\ at_rest w /\ nothing_held w /\ ends sc w p w' o /\
    (exists vs hd', plays sc [] [] [] (k_handles w) p es vs hd' o) /\ told (start w, k_start w) es st'.

  (** C145: every run that ends, in whatever way, has such a history (but for what no program can do). *)
  Theorem C145_histories :
    forall (sc : schema) (w : world) (p : prog) w' o,
      g_reachable (w_graph w) -> scoped_schema sc -> scoped nobody p -> at_rest w -> nothing_held w -> ends sc w p w' o -> o <> OStuck ->
      exists es st', history sc w p w' o es st'.
  Proof.
    intros sc w p w' o R SS Sc A H [f E] Ns.
    destruct (C136_runs_are_histories sc w p w' o _ SS Sc A H (ex_intro _ f (conj E eq_refl)) Ns) as (es & vs & hd' & st' & P & T & _).
    exists es, st'. repeat split; auto; try apply A. - now exists f. - now exists vs, hd'.
  Qed.

  Lemma history_end sc w p w' o es st' : history sc w p w' o es st' ->
    s_graph (m_store (gs_m (us_g (fst st')))) = w_graph w' /\ (comes_back o -> over st').
  Proof.
    intros (R & SS & Sc & A & H & E & (vs & hd' & P) & T).
    destruct (C136_histories_are_runs sc w p es vs hd' o st' SS Sc A H P T) as (w2 & l & Hp & _ & _ & G & _).
    assert (Hp' := Hp). destruct Hp' as (f & Ef & _). destruct (ends_det _ _ _ _ _ _ _ E (ex_intro _ f Ef)) as [-> _]. split; [now symmetry|].
    intros Cb. assert (Ns : o <> OStuck) by (intros ->; destruct Cb).
    destruct (C136_runs_are_histories sc w p w2 o l SS Sc A H Hp Ns) as (es2 & vs2 & hd2 & st2 & P2 & T2 & _ & _ & _ & _ & _ & O).
    destruct (C136_one_history sc p _ _ _ _ _ _ _ _ _ _ _ _ P T P2 T2) as (_ & _ & _ & _ & ->). auto.
  Qed.

  (** C145: every node that was in the graph or that the program gave away is in exactly one place in the end: in the graph, dropped, given back to the program, or
      waiting in a transaction; nothing else is in any of them. *)
  Theorem C145_in_exactly_one_place :
    forall (sc : schema) (w : world) (p : prog) w' o es st', history sc w p w' o es st' ->
      Permutation (g_iter (w_graph w) ++ handed es)
        (g_iter (w_graph w') ++ all_waiting (us_g (fst st')) ++ map fst (dropped (w_graph w) es) ++ handed_back es).
  Proof.
    intros sc w p w' o es st' Hi. destruct (history_end _ _ _ _ _ _ _ Hi) as [G _]. destruct Hi as (R & _ & _ & _ & _ & _ & _ & T).
    destruct (told_history _ _ _ _ T) as [Ha Hn]. assert (P := C141_in_exactly_one_place (w_graph w) (map fst (on_graph es)) R).
    unfold g_nodes in P. rewrite Ha, Hn, G in P. exact P.
  Qed.

  (** C145: if the program comes back, by returning or by a panic, and has leaked no context, nothing waits. *)
  Theorem C145_nothing_is_lost :
    forall (sc : schema) (w : world) (p : prog) w' o es st', history sc w p w' o es st' -> comes_back o -> ~ leaks es ->
      Permutation (g_iter (w_graph w) ++ handed es) (g_iter (w_graph w') ++ map fst (dropped (w_graph w) es) ++ handed_back es).
  Proof.
    intros sc w p w' o es st' Hi Cb NL. assert (P := C145_in_exactly_one_place _ _ _ _ _ _ _ Hi).
    destruct (history_end _ _ _ _ _ _ _ Hi) as [_ O]. specialize (O Cb). destruct Hi as (R & _ & _ & _ & _ & _ & _ & T).
    destruct (told_history _ _ _ _ T) as [Ha _]. rewrite <- Ha, none_waiting_over in P; auto.
    - now apply g_reachable_wf.
    - intros c I. apply in_map_iff in I as ([e a] & E & I). cbn in E. subst e. apply NL. now exists c, a.
    - intros t x. rewrite Ha. apply O.
  Qed.

  (** C145: a node is dropped while the graph is locked, unless it is by the end of a top-level transaction whose closure failed or panicked. *)
  Theorem C145_locked_while_dropping :
    forall (sc : schema) (w : world) (p : prog) w' o es st' n, history sc w p w' o es st' -> In (n, false) (dropped (w_graph w) es) ->
      exists t a, In (GEvent (EEnd t false), a) (on_graph es) /\ In (GEvent EBackground, GX (XHandle t)) (on_graph es).
  Proof.
    intros sc w p w' o es st' n (R & _ & _ & _ & _ & _ & _ & T) D. destruct (told_history _ _ _ _ T) as [_ Hn].
    unfold dropped in D. apply all_drops_split in D as (e1 & e & e2 & E & I).
    destruct (proj1 (C141_locked_while_dropping (w_graph w) e1 e n false R I) eq_refl) as (t & -> & (e3 & e0 & -> & S)).
    assert (exists a, In (GEvent (EEnd t false), a) (on_graph es)) as [a Ia].
    { assert (X : In (GEvent (EEnd t false)) (map fst (on_graph es))) by (rewrite E, in_app_iff; right; now left).
      apply in_map_iff in X as ([x a] & X1 & X2). cbn in X1. subst x. now exists a. }
    exists t, a. split; [exact Ia|]. clear a Ia I. unfold g_says in S.
    assert (X : exists l1 a l2, on_graph es = l1 ++ (GEvent EBackground, a) :: l2 /\ map fst l1 = e0).
    { clear - E. revert E. generalize (on_graph es). induction e0 as [|x e0 IH]; intros [|[y a] l] E; try discriminate; cbn in E.
      - injection E as -> _. now exists [], a, l.
      - injection E as -> E. destruct (IH l E) as (l1 & b & l2 & -> & <-). now exists ((x, a) :: l1), b, l2. }
    destruct X as (l1 & a & l2 & El & <-). rewrite El, in_app_iff. right. left. f_equal.
    assert (A := told_graph _ _ _ T). rewrite El in A. cbn [fst start us_g] in A. revert A S. unfold g_after. generalize (@g_init Id Node (w_graph w)).
    clear. induction l1 as [|[x b] l1 IH]; intros g A S.
    - cbn in A, S. destruct A as [<- _]. exact S.
    - cbn in A, S. destruct A as [_ A]. apply (IH _ A). destruct (g_step g x) as [g1 o1]. cbn. now destruct (g_run g1 (map fst l1)).
  Qed.
End Properties.

(** The program of [C136_case]: a context is leaked, so that what its transaction gathered waits for ever; the write guard's node stays. And one whose
    user code panics in the commit. *)
Example C145_case :
  (handed ex_made = [n_ 7 70; n_ 1 11; n_ 100 1; n_ 3 30] /\ dropped (w_graph ex_w) ex_made = [] /\ handed_back ex_made = [] /\ leaks ex_made) /\
  (exists st', told (start ex_w, k_start ex_w) ex_made st' /\ all_waiting (us_g (fst st')) = [n_ 1 11; n_ 100 1; n_ 3 30]) /\
  (handed ex_crash_made = [n_ 1 11] /\ dropped (w_graph ex_w) ex_crash_made = [(n_ 1 10, true)] /\ handed_back ex_crash_made = [] /\ ~ leaks ex_crash_made).
Proof.
  split; [repeat split; try reflexivity; exists 1, (GX XUnit); cbn; tauto|]. split.
  - eexists. split; [unfold ex_made; cbn zeta; tell_it|]. vm_compute. reflexivity.
  - repeat split; try reflexivity. intros (c & a & I). cbn in I. repeat destruct I as [I|I]; try discriminate; exact I.
Qed.

(** A roll-back drops what was gathered once the graph is no longer locked. *)
Definition ex_failed : dprog :=
  PWith (TxBg None) (fun c => PSave c (n_ 1 11) (PWith (TxFg c) (fun d => PSave d (n_ 3 30) (PRet RUnit)) (fun _ => PRet (RErr Noop)))) PRet.
Definition ex_failed_made : list (@made nat dnode nat) :=
  let h x := GX (XHandle x) in let ok := GX XUnit in
  [OnGraph (UEvent (GEvent EBackground)) (h 0, []); OnGraph (UEvent (GEvent (EContext 0))) (h 0, []); OnGraph (UEvent (GEvent (ESave 0 (n_ 1 11)))) (ok, []);
   OnGraph (UEvent (GEvent (EForeground 0))) (h 1, []); OnGraph (UEvent (GEvent (EContext 1))) (h 1, []); OnGraph (UEvent (GEvent (ESave 1 (n_ 3 30)))) (ok, []);
   OnGraph (UEvent (GEvent (EDropCtx 1))) (ok, []); OnGraph (UEvent (GEvent (EEnd 1 true))) (ok, []);
   OnGraph (UEvent (GEvent (EDropCtx 0))) (ok, []); OnGraph (UEvent (GEvent (EEnd 0 false))) (ok, [])].

Example C145_case_failed :
  (exists es vs hd', es = ex_failed_made /\ plays ex_sc [] [] [] (k_handles ex_w) ex_failed es vs hd' (ORet (RErr Noop))) /\
  (exists st', told (start ex_w, k_start ex_w) ex_failed_made st' /\ all_waiting (us_g (fst st')) = []) /\
  handed ex_failed_made = [n_ 1 11; n_ 3 30] /\ dropped (w_graph ex_w) ex_failed_made = [(n_ 1 11, false); (n_ 3 30, false)].
Proof.
  split; [|split; [|split; reflexivity]].
  - eexists _, _, _. split; [|].
    2: { eapply pl_with with (r := (RErr Noop)); [apply op_bg| |apply fi_plain; discriminate|apply pl_ret]. eapply pl_save; [reflexivity|].
      eapply pl_with with (r := RUnit); [eapply op_fg; reflexivity|eapply pl_save; [reflexivity|apply pl_ret]|apply fi_plain; discriminate|apply pl_ret]. }
    cbn [app]. unfold ex_failed_made. cbn zeta. reflexivity.
  - eexists. split; [unfold ex_failed_made; cbn zeta; tell_it|]. vm_compute. reflexivity.
Qed.

Print Assumptions C145_histories.
Print Assumptions C145_in_exactly_one_place.
Print Assumptions C145_nothing_is_lost.
Print Assumptions C145_locked_while_dropping.
