(** Property C82: node proxies dereferenced by many threads. *)
From Coq Require Import List Bool Arith Lia.
From Verif Require Import Ord OrdFacts BTree Graph Tx ProxyThreads SpecProxyThreads ProxyThreadsFacts LazyFacts Demo.
Import ListNotations.

Section Properties.
  Context {Id Node : Type} `{HO : OrdT Id} `{HI : Identify Node Id}.
  Notation label := (tlabel Id Node).

  (** C82: all dereferences of a proxy that return, return the same. *)
  Theorem C82_one_value :
    forall (ls : list label) c c' k r r', call_on ls c k -> call_on ls c' k -> gave ls c r -> gave ls c' r' -> r = r'.
  Proof.
    intros ls c c' k r r' C C' G G'. destruct (tinv_after ls) as [_ _ D _ _ _].
    destruct (call_on_pc _ _ _ C) as [p E]. destruct (call_on_pc _ _ _ C') as [p' E'].
    destruct (gave_pc _ _ _ G) as [j F]. destruct (gave_pc _ _ _ G') as [j' F'].
    rewrite F in E. injection E as -> _. rewrite F' in E'. injection E' as -> _.
    apply D in F. apply D in F'. congruence.
  Qed.

  (** C82: over a graph they return the node of the graph. *)
  Theorem C82_graph_value :
    forall (ls : list label) c k g i r, made_for ls k (TSGraph g) i -> call_on ls c k -> gave ls c r -> r = g_get g i.
  Proof.
    intros ls c k g i r M C G. destruct (tinv_after ls) as [_ _ D _ Gr _].
    destruct (call_on_pc _ _ _ C) as [p E]. destruct (gave_pc _ _ _ G) as [j F].
    rewrite F in E. injection E as -> _. apply D in F. destruct (made_for_proxy _ _ _ _ M) as [x Px].
    unfold cell_of in F. rewrite Px in F. cbn in F. injection F as ->. eapply Gr; eauto.
  Qed.

  (** C82: the source answers at most once, and is never consulted by two calls at once. *)
  Theorem C82_asked_once :
    forall (ls : list label) k, answers k (tt_outs ls) <= 1 /\
      (forall c c', consulting ls c k -> consulting ls c' k -> c = c') /\
      (answers k (tt_outs ls) = 1 -> forall c, ~ consulting ls c k).
  Proof.
    intros ls k. destruct (tinv_after ls) as [_ Run _ _ _ Once]. specialize (Once k). split; [|split].
    - destruct (cell_of (tt_after ls) k) as [[]|]; lia.
    - intros c c' C C'. apply consulting_pc, Run in C. apply consulting_pc, Run in C'. congruence.
    - intros A c C. apply consulting_pc, Run in C. rewrite C in Once. lia.
  Qed.

  (** C82: a call waits only while another one consults the source; its next step starts the consultation or returns
      otherwise, and the step of the one consulting always ends it. *)
  Theorem C82_progress :
    forall (ls : list label) c k ans, call_on ls c k -> (forall r, ~ gave ls c r) -> ~ crashed ls c ->
      (tt_says ls (TStep c ans) = TBlocked /\ (exists c', c' <> c /\ consulting ls c' k)) \/
      (tt_says ls (TStep c ans) = TAsking k /\ ~ consulting ls c k /\ (forall c', ~ consulting ls c' k)) \/
      (exists r, tt_says ls (TStep c ans) = TReturned r /\ gave (ls ++ [TStep c ans]) c r) \/
      (consulting ls c k /\
       ((ans = None /\ tt_says ls (TStep c ans) = TAborted k /\ crashed (ls ++ [TStep c ans]) c) \/
        (exists r, tt_says ls (TStep c ans) = TAnswered k r /\ gave (ls ++ [TStep c ans]) c r))).
  Proof.
    intros ls c k ans C NG NC. pose proof (tinv_after ls) as [Ru In Do Pr _ _].
    destruct (call_on_pc _ _ _ C) as [p E]. pose proof (Pr _ _ _ E) as Np. destruct (pc_back _ _ _ _ E) as [_ B].
    assert (S : tt_says ls (TStep c ans) = snd (t_step (tt_after ls) (TStep c ans))) by reflexivity. cbn in S.
    pose proof E as E0. unfold pc_of in E. destruct (nth_error (t_calls (tt_after ls)) c) as [[k' p']|] eqn:Ec; [|discriminate].
    injection E as -> ->. unfold cell_of in Np. destruct (nth_error (t_proxies (tt_after ls)) k) as [q|] eqn:Q; [|now destruct Np].
    clear Np. destruct p as [| |r|]; [| |destruct (NG r B)|destruct (NC B)].
    - destruct (tp_cell q) as [|c'|v] eqn:Cl; cbn in S.
      + right; left. assert (X : forall c', ~ consulting ls c' k).
        { intros c' X. apply consulting_pc, In in X. unfold cell_of in X. rewrite Q in X. cbn in X. congruence. }
        auto.
      + left. split; [exact S|]. assert (X : pc_of (tt_after ls) c' = Some (k, TInit)).
        { apply Ru. unfold cell_of. rewrite Q. cbn. now rewrite Cl. }
        exists c'. split; [intros ->; congruence|]. exact (proj2 (pc_back _ _ _ _ X)).
      + right; right; left. exists v. split; [exact S|]. now apply gv_read.
    - right; right; right. split; [exact B|]. destruct ans as [r|]; cbn in S.
      + right. eexists. split; [exact S|]. eapply gv_asked; eauto.
      + left. split; [reflexivity|]. split; [exact S|]. eapply cr_now; eauto.
  Qed.

  (** C82: a panic of the source leaves the proxy as if it had never been dereferenced: unless it got its value
      before, the next call consults the source again. *)
  Theorem C82_retry_after_panic :
    forall (ls : list label) c c' k, consulting ls c k -> call_on ls c' k -> c' <> c ->
      (forall r, ~ gave ls c' r) -> ~ crashed ls c' ->
      tt_says (ls ++ [TStep c None]) (TStep c' None) = TAsking k.
  Proof.
    intros ls c c' k Cs C' Ne NG NC. assert (S : tt_says ls (TStep c None) = TAborted k).
    { pose proof (consulting_pc _ _ _ Cs) as E. pose proof (tinv_after ls) as [_ _ _ Pr _ _]. pose proof (Pr _ _ _ E) as Np.
      unfold tt_says. cbn. unfold pc_of in E. destruct (nth_error (t_calls (tt_after ls)) c) as [[k' p']|]; [|discriminate].
      injection E as -> ->. unfold cell_of in Np. destruct (nth_error (t_proxies (tt_after ls)) k); [reflexivity|now destruct Np]. }
    assert (On : call_on ls c k) by (exact (proj1 (pc_back _ _ _ _ (consulting_pc _ _ _ Cs)))).
    assert (Cell : cell_of (tt_after (ls ++ [TStep c None])) k = Some TEmpty).
    { pose proof (consulting_pc _ _ _ Cs) as E. pose proof (tinv_after ls) as [_ _ _ Pr _ _]. pose proof (Pr _ _ _ E) as Np.
      rewrite after_snoc. cbn. unfold pc_of in E. destruct (nth_error (t_calls (tt_after ls)) c) as [[k' p']|]; [|discriminate].
      injection E as -> ->. unfold cell_of in Np. destruct (nth_error (t_proxies (tt_after ls)) k) eqn:Q; [|now destruct Np].
      cbn. rewrite cell_set, Nat.eqb_refl, Q. reflexivity. }
    destruct (call_on_pc _ _ _ C') as [p' E']. assert (p' = TAtGet) as ->.
    { destruct p' as [| |r|]; auto; destruct (pc_back _ _ _ _ E') as [_ B].
      - destruct (C82_asked_once ls k) as (_ & U & _). destruct Ne. now apply U.
      - destruct (NG r B).
      - destruct (NC B). }
    destruct (pc_grows _ (TStep c None) _ _ _ E') as (p2 & E2 & Keep & _). rewrite Keep in E2 by congruence.
    rewrite <- after_snoc in E2. clear Keep. unfold tt_says. cbn.
    unfold pc_of in E2. destruct (nth_error (t_calls (tt_after (ls ++ [TStep c None]))) c') as [[k2 q2]|]; [|discriminate].
    injection E2 as -> ->. unfold cell_of in Cell.
    destruct (nth_error (t_proxies (tt_after (ls ++ [TStep c None]))) k) as [q|]; [|discriminate].
    injection Cell as ->. reflexivity.
  Qed.
End Properties.

(** ** Example: two threads; the first is consulting the graph when the second comes. *)
Definition th_graph : graph nat dnode := g_from_iter [DNode 1 2; DNode 2 1].
Definition th : list (tlabel nat dnode) :=
  [TNew (TSGraph th_graph) 1; TCall 0; TCall 0; TStep 0 None; TStep 1 None; TStep 0 (Some None); TStep 1 None].

Example C82_case :
  tt_outs th = [THandle 0; THandle 0; THandle 1; TAsking 0; TBlocked; TAnswered 0 (Some (DNode 1 2)); TReturned (Some (DNode 1 2))] /\
  made_for th 0 (TSGraph th_graph) 1 /\ call_on th 1 0 /\ gave th 1 (Some (DNode 1 2)).
Proof.
  split; [vm_compute; reflexivity|]. split; [|split].
  - apply (mf_later (firstn 6 th)), (mf_later (firstn 5 th)), (mf_later (firstn 4 th)), (mf_later (firstn 3 th)),
      (mf_later (firstn 2 th)), (mf_later (firstn 1 th)), (mf_new []). reflexivity.
  - apply (co_later (firstn 6 th)), (co_later (firstn 5 th)), (co_later (firstn 4 th)), (co_later (firstn 3 th)),
      (co_call (firstn 2 th)). vm_compute. reflexivity.
  - apply (gv_read (firstn 6 th) 1 None). vm_compute. reflexivity.
Qed.

Print Assumptions C82_one_value.
Print Assumptions C82_graph_value.
Print Assumptions C82_asked_once.
Print Assumptions C82_progress.
Print Assumptions C82_retry_after_panic.
