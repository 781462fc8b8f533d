(** Properties C102-C104: what a program does not look at. *)
From Coq Require Import List Bool Arith Lia.
From Verif Require Import Ord OrdFacts BTree BTreeFacts Graph SpecGraph GraphFacts Demo Tx TxFacts TxMachine SpecTx Prog SpecProg
  ProgFacts ProgFrame ProgTx ProgOps ProgTerm ProgRes ProgTrace SpecTrace P_Prog P_Ops P_Res ProgEvents SpecEvents SpecAvoid AvoidFacts.
Import ListNotations.

Section Properties.
  Context {Id Node V U : Type} `{HO : OrdT Id} `{HI : Identify Node Id}.
  Notation prog := (prog Id Node V U).
  Notation world := (world Id Node V U).
  Notation schema := (schema Id Node V U).
  Notation outcome := (outcome V).
  Notation hidden := (hidden Id).
  Notation trigger := (trigger Id Node V U).

  (** C102: from two states that differ at most in what the program (and the triggers it may execute) does not look at, it
      ends the same way or not at all, publishes, reads and logs the same, asks for the same locks and registers the same
      operations; the states it leaves differ at most there. *)
  Theorem C102_unseen_does_not_matter :
    forall (h : hidden) (sc1 sc2 : schema) (w1 w2 : world) (p : prog),
      same_but h sc1 sc2 -> triggers_avoid sc1 h -> similar h w1 w2 -> avoids sc1 h p ->
      (forall w1' o, ends sc1 w1 p w1' o -> exists w2', ends sc2 w2 p w2' o /\ similar h w1' w2') /\
      (forall w2' o, ends sc2 w2 p w2' o -> exists w1', ends sc1 w1 p w1' o /\ similar h w1' w2') /\
      (forall l, so_far sc1 w1 p l <-> so_far sc2 w2 p l) /\
      (forall l, doing sc1 w1 p l <-> doing sc2 w2 p l).
  Proof.
    intros h sc1 sc2 w1 w2 p SB TA S A.
    assert (K : forall f, same_end h (run sc1 f w1 p) (run sc2 f w2 p)) by (intros f; now apply run_similar).
    unfold same_end in K. split; [|split; [|split]].
    - intros w1' o [f E]. specialize (K f). rewrite E in K. destruct (run sc2 f w2 p) as [[w2' o2]|] eqn:E2; [|destruct K].
      destruct K as [<- S']. exists w2'. split; [now exists f|exact S'].
    - intros w2' o [f E]. specialize (K f). rewrite E in K. destruct (run sc1 f w1 p) as [[w1' o1]|] eqn:E1; [|destruct K].
      destruct K as [-> S']. exists w1'. split; [now exists f|exact S'].
    - intros l. split; intros [f E]; exists f; rewrite <- E; [symmetry|]; now apply trace_similar with (h := h).
    - intros l. split; intros [f E]; exists f; rewrite <- E; [symmetry|]; now apply events_similar with (h := h).
  Qed.

  Lemma unhidden_fresh (h : hidden) c a : ~ hd_cell h a -> unhidden h (ctx_with_target c a).
  Proof. intros N a'. destruct c; cbn; now intros [= <-]. Qed.

  Lemma avoids_question (sc : schema) h (r : res V) (p : prog) : avoids sc h p -> avoids sc h (try_ r p).
  Proof. destruct r; cbn [try_]; auto. intros _. exact I. Qed.

  Lemma avoids_save (sc : schema) (h : hidden) n t k : ~ hd_schedule h BeforeSave -> ~ hd_schedule h AfterSave ->
    (forall r, avoids sc h (k r)) -> avoids sc h (p_save n t k).
  Proof.
    intros N1 N2 K.
    assert (B : forall c, avoids sc h (save_body n c)).
    { intros c a Na. pose proof (unhidden_fresh h c a Na) as Un. split; [exact N1|]. split; [exact Un|]. intros r. apply avoids_question.
      cbn [avoids]. split; [intros x a' [<-|[]]; exact (Un a')|]. split.
      - intros [|[b [m|t' u]] [|v vs]] _; exact I.
      - intros _. split; [exact N2|]. split; [exact Un|]. intros r'. apply avoids_question. exact I. }
    destruct t as [o|c]; (split; [intros b; apply B|exact K]).
  Qed.

  Lemma avoids_delete (sc : schema) (h : hidden) i t k : ~ hd_schedule h BeforeDelete -> ~ hd_schedule h AfterDelete ->
    ~ hd_id h i -> (forall r, avoids sc h (k r)) -> avoids sc h (p_delete i t k).
  Proof.
    intros N1 N2 Ni K.
    assert (B : forall c, avoids sc h (delete_body i c)).
    { intros c. split; [exact Ni|]. intros [n|]; [|exact I]. intros a Na. pose proof (unhidden_fresh h c a Na) as Un.
      split; [exact N1|]. split; [exact Un|]. intros r. apply avoids_question.
      cbn [avoids]. split; [exact N2|]. split; [exact Un|]. intros r'. apply avoids_question. exact I. }
    destruct t as [o|c]; (split; [intros b; apply B|exact K]).
  Qed.

  Definition all_ids : hidden := Hidden (fun _ => False) (fun _ => True) (fun _ => False).
  Definition ids_but (i : Id) : hidden := Hidden (fun _ => False) (fun j => j <> i) (fun _ => False).

  (** Save looks at no node, Delete at no other than the one it deletes: if triggers do not either, they end the same way whatever
      the rest of the graph is. *)
  Theorem C102_save_looks_at_no_node :
    forall (sc : schema) (w : world) g n crash w' o,
      triggers_avoid sc all_ids -> g_reachable (w_graph w) -> g_reachable g ->
      ends sc w (p_save n (TxBg crash) PRet) w' o ->
      exists w2', ends sc (set_graph g w) (p_save n (TxBg crash) PRet) w2' o /\ w_cells w2' = w_cells w'.
  Proof.
    intros sc w g n crash w' o TA R R' E.
    destruct (C102_unseen_does_not_matter all_ids sc sc w (set_graph g w) (p_save n (TxBg crash) PRet)) as [K _].
    - now constructor.
    - exact TA.
    - constructor; auto; cbn; [now intros i []|intros a []].
    - apply avoids_save; [intros []|intros []|intros r; exact I].
    - destruct (K w' o E) as (w2' & E' & S). exists w2'. split; [exact E'|].
      apply list_ext. intros a. symmetry. apply (sm_cell _ _ _ S). intros [].
  Qed.

  Theorem C102_delete_looks_at_its_node :
    forall (sc : schema) (w : world) g i crash w' o,
      triggers_avoid sc (ids_but i) -> g_reachable (w_graph w) -> g_reachable g -> g_get g i = g_get (w_graph w) i ->
      ends sc w (p_delete i (TxBg crash) PRet) w' o ->
      exists w2', ends sc (set_graph g w) (p_delete i (TxBg crash) PRet) w2' o /\
        w_cells w2' = w_cells w' /\ g_get (w_graph w2') i = g_get (w_graph w') i.
  Proof.
    intros sc w g i crash w' o TA R R' G E.
    destruct (C102_unseen_does_not_matter (ids_but i) sc sc w (set_graph g w) (p_delete i (TxBg crash) PRet)) as [K _].
    - now constructor.
    - exact TA.
    - constructor; auto; cbn; [|intros a []]. intros j N. destruct (ord_eq_dec j i) as [->|Ne]; [now symmetry|now destruct N].
    - apply avoids_delete; [intros []|intros []|intros N; now apply N|intros r; exact I].
    - destruct (K w' o E) as (w2' & E' & S). exists w2'. split; [exact E'|]. split.
      + apply list_ext. intros a. symmetry. apply (sm_cell _ _ _ S). intros [].
      + symmetry. apply (sm_graph _ _ _ S). intros N. now apply N.
  Qed.

  (** ** C103 *)

  Definition only_schedule (s : type_id) : hidden := Hidden (fun _ => False) (fun _ => False) (fun s' => s' = s).

  Lemma similar_equal s (w1 w2 : world) : similar (only_schedule s) w1 w2 -> w1 = w2.
  Proof.
    intros [? ? G ? ? ? ? ? ? C ?]. destruct w1, w2. cbn in *. subst. f_equal.
    - apply g_ext; [now apply g_reachable_wf|now apply g_reachable_wf|]. intros i. apply G. intros [].
    - apply list_ext. intros a. apply C. intros [].
  Qed.

  Lemma lives_triggers (sc : schema) (w : world) : lives sc w -> bt_sorted (sc_triggers sc).
  Proof.
    induction 1 as [g|sc w b sc' w' L IH E|sc w p w' o L IH E B]; [constructor| |exact IH].
    destruct b as [t u|s t]; cbn in E; injection E as <- <-; [exact IH|]. cbn. unfold ts_with_trigger.
    destruct (bt_get s (sc_triggers sc)); now apply bt_insert_sorted.
  Qed.

  (** C103: registering a trigger changes nothing for programs that execute its schedule neither themselves nor by the
      triggers they execute. *)
  Theorem C103_trigger_of_a_schedule_never_executed :
    forall (sc sc' : schema) (w w' : world) s (t : trigger) (p : prog),
      lives sc w -> build_step (sc, w) (BTrigger s t) = (sc', w') ->
      g_reachable (w_graph w) -> triggers_avoid sc (only_schedule s) -> avoids sc (only_schedule s) p ->
      w' = w /\
      (forall w1 o, ends sc w p w1 o <-> ends sc' w p w1 o) /\
      (forall l, so_far sc w p l <-> so_far sc' w p l) /\ (forall l, doing sc w p l <-> doing sc' w p l).
  Proof.
    intros sc sc' w w' s t p L B R TA A. apply lives_triggers in L. cbn in B. injection B as <- <-. split; [reflexivity|].
    assert (SB : same_but (only_schedule s) sc (Schema (sc_resources sc) (ts_with_trigger (sc_triggers sc) s t))).
    { constructor; [reflexivity|]. intros s' N. cbn in N. unfold scheduled, ts_select, ts_with_trigger. cbn [sc_triggers].
      destruct (bt_get s (sc_triggers sc)); rewrite bt_get_insert by assumption;
        (destruct (eqb s s') eqn:Es; [apply eqb_eq in Es; now destruct N|reflexivity]). }
    assert (S : similar (only_schedule s) w w) by (constructor; auto; intros a []).
    destruct (C102_unseen_does_not_matter _ _ _ _ _ _ SB TA S A) as (K1 & K2 & K3 & K4). split; [|split; assumption].
    intros w1 o. split; intros E.
    - destruct (K1 w1 o E) as (w2 & E2 & S2). apply similar_equal in S2 as <-. exact E2.
    - destruct (K2 w1 o E) as (w2 & E2 & S2). apply similar_equal in S2 as ->. exact E2.
  Qed.

  (** ** C104 *)

  Definition only_cell (a : nat) : hidden := Hidden (fun a' => a' = a) (fun _ => False) (fun _ => False).

  Lemma avoids_leaves (sc : schema) a (p : prog) : avoids sc (only_cell a) p -> leaves_alone sc a p.
  Proof.
    assert (Q : forall c, unhidden (only_cell a) c -> ctx_target c <> Some a) by (intros c Un E; exact (Un a E eq_refl)).
    induction p as [r| | |v k IH|body IHb k IH|body IHb k IH|t body IHb k IH|c n k IH|c i k IH|c i k IH|c i k IH|c n k IH|c k IH|s c k IH
                   |body IHb k IH|body IHb k IH|i k IH|k IH|c k IH|t k IH|m hs body IHb k IH|a' d k IH];
      cbn [avoids leaves_alone]; try exact (fun x => x); auto.
    - intros [A1 A2]. split; auto.
    - intros [A1 A2]. split; auto.
    - destruct t; intros [A1 A2]; split; auto.
    - intros [_ A]; auto.
    - intros [_ A]; auto.
    - intros (_ & Un & A). split; [now apply Q|auto].
    - intros [A1 A2]. split; auto.
    - intros [A1 A2]. split; auto.
    - intros [_ A]; auto.
    - intros [_ A]; auto.
    - intros [_ A]; auto.
    - intros (N & A1 & A2). split; [intros _ x J E; exact (N x a J E eq_refl)|]. split; auto.
    - intros [N A]. split; auto.
  Qed.

  (** C104: an operation executed inside another one (in a sub-transaction of the context its triggers are given) has a target of
      its own: it does not change the one of the outer operation, and does the same whatever that one is, as long as triggers
      access no other target than the one of the context they are given. *)
  Theorem C104_target_is_not_changed :
    forall (sc : schema) (w : world) c a (p : prog) w' o,
      ctx_target c = Some a -> a < length (w_cells w) -> triggers_avoid sc (only_cell a) ->
      (exists n, p = p_save n (TxFg c) PRet) \/ (exists i, p = p_delete i (TxFg c) PRet) ->
      ends sc w p w' o -> comes_back o ->
      nth_error (w_cells w') a = nth_error (w_cells w) a /\ reads w' (target_of c) = reads w (target_of c).
  Proof.
    intros sc w c a p w' o Tc La TA Hp E B.
    assert (T : triggers_leave_alone sc a).
    { intros s t c' J N. apply avoids_leaves. apply (TA s); [exact J|intros []|]. intros a' Ea' ->. contradiction. }
    assert (P : leaves_alone sc a p).
    { destruct Hp as [[n ->]|[i ->]]; [apply leaves_save|apply leaves_delete]; intros r; exact I. }
    assert (K : nth_error (w_cells w') a = nth_error (w_cells w) a).
    { apply (exec_left_alone sc a T w p w' o); auto. now apply ends_exec. }
    split; [exact K|]. apply reads_cell. cbn. intros a' Ea'. rewrite Tc in Ea'. now injection Ea' as <-.
  Qed.

  Theorem C104_target_is_not_seen :
    forall (sc : schema) (w : world) c a (p : prog) x w' o,
      ctx_target c = Some a -> a < length (w_cells w) -> triggers_avoid sc (only_cell a) -> g_reachable (w_graph w) ->
      (exists n, p = p_save n (TxFg c) PRet) \/ (exists i, p = p_delete i (TxFg c) PRet) ->
      ends sc w p w' o ->
      exists w2', ends sc (set_cells (alter (fun _ => x) a (w_cells w)) w) p w2' o /\
        w_graph w2' = w_graph w' /\ w_heap w2' = w_heap w' /\
        forall a', a' <> a -> nth_error (w_cells w2') a' = nth_error (w_cells w') a'.
  Proof.
    intros sc w c a p x w' o Tc La TA R Hp E.
    destruct (C102_unseen_does_not_matter (only_cell a) sc sc w (set_cells (alter (fun _ => x) a (w_cells w)) w) p) as [K _].
    - now constructor.
    - exact TA.
    - constructor; auto; cbn.
      + now rewrite alter_length.
      + intros a' N. rewrite nth_error_alter. destruct (Nat.eqb_spec a a') as [->|_]; [now destruct N|reflexivity].
      + now intros a' ->.
    - destruct Hp as [[n ->]|[i ->]]; [apply avoids_save|apply avoids_delete]; intros r; try exact I;
        destruct r.
    - destruct (K w' o E) as (w2' & E' & S). exists w2'. split; [exact E'|]. split; [|split].
      + apply g_ext; [apply g_reachable_wf, (sm_graph2 _ _ _ S)|apply g_reachable_wf, (sm_graph1 _ _ _ S)|].
        intros i. symmetry. apply (sm_graph _ _ _ S). intros [].
      + symmetry. apply (sm_heap _ _ _ S).
      + intros a' N. symmetry. apply (sm_cell _ _ _ S). exact N.
  Qed.
End Properties.
Print Assumptions C102_unseen_does_not_matter.
Print Assumptions C102_save_looks_at_no_node.
Print Assumptions C102_delete_looks_at_its_node.
Print Assumptions C103_trigger_of_a_schedule_never_executed.
Print Assumptions C104_target_is_not_changed.
Print Assumptions C104_target_is_not_seen.

(** ** Concrete cases *)

(** The trigger of the example looks at the resource and at its own target only. *)
Lemma ex_avoids (h : hidden nat) : ~ hd_cell h 0 -> triggers_avoid ex_sc h.
Proof.
  intros N s t c J _ Un. unfold scheduled, ts_select in J. cbn in J. destruct s as [|s]; cbn in J; [|destruct J].
  destruct J as [<-|[]]. cbn. split; [intros x a [<-|[]]; cbn; intros [= <-]; exact N|].
  split; [intros [|[a [n|t u]] [|v vs]] E; try exact I; cbn in *; injection E as ->; split; [exact N|exact I]|].
  intros _. split; [intros b; exact I|]. intros _. split; [intros x a [<-|[]]; exact (Un a)|]. split; [|intros r; exact I].
  intros [|[a [n|t u]] [|v vs]] _; try exact I. destruct (Nat.eqb (d_id n) 9); exact I.
Qed.

(** C102: the same save on another graph. *)
Example C102_case :
  triggers_avoid ex_sc all_ids /\ g_reachable (w_graph ex_w) /\
  let p := p_save (n_ 3 30) (TxBg None) PRet in
  let w := set_graph (g_from_iter [n_ 3 0; n_ 7 70]) ex_w in
  snd (last_of ex_w (run ex_sc 100 ex_w p)) = ORet RUnit /\ snd (last_of ex_w (run ex_sc 100 w p)) = ORet RUnit /\
  g_iter (w_graph (fst (last_of ex_w (run ex_sc 100 w p)))) = [n_ 3 30; n_ 7 70; n_ 100 1] /\
  w_cells (fst (last_of ex_w (run ex_sc 100 w p))) = w_cells (fst (last_of ex_w (run ex_sc 100 ex_w p))).
Proof. split; [apply ex_avoids; intros []|]. split; [apply (gr_from_iter [n_ 1 10; n_ 2 20])|]. vm_compute. auto. Qed.

(** C103: a trigger that fails after deletions does not matter to saves. *)
Example C103_case :
  triggers_avoid ex_sc (only_schedule AfterDelete) /\
  avoids ex_sc (only_schedule AfterDelete) (p_save (n_ 3 30) (TxBg None) PRet : dprog) /\
  let sc := fst (build_step (ex_sc, ex_w) (BTrigger AfterDelete (fun _ => PRet (RErr oops)))) in
  run sc 100 ex_w (p_save (n_ 3 30) (TxBg None) PRet) = run ex_sc 100 ex_w (p_save (n_ 3 30) (TxBg None) PRet) /\
  snd (last_of ex_w (run sc 100 ex_w (p_delete 1 (TxBg None) PRet))) = ORet (RErr oops).
Proof.
  split; [apply ex_avoids; intros []|]. split; [apply avoids_save; [discriminate|discriminate|intros r; exact I]|].
  vm_compute. auto.
Qed.

(** C104: while node 9, which the trigger rejects, is being saved, a nested save of another node goes through. *)
Example C104_case :
  let w := set_cells [Cell (DRes 7 0) false Free; Cell (DNode (n_ 9 90)) false Free] (set_heap [[]] (set_lock GTx ex_w)) in
  let c := CRoot 0 (Some 1) in
  triggers_avoid ex_sc (only_cell 1) /\
  snd (last_of w (run ex_sc 100 w (p_save (n_ 3 30) (TxFg c) PRet))) = ORet RUnit /\
  nth_error (w_cells (fst (last_of w (run ex_sc 100 w (p_save (n_ 3 30) (TxFg c) PRet))))) 1 = Some (Cell (DNode (n_ 9 90)) false Free) /\
  snd (last_of w (run ex_sc 100 w (ex_trigger c))) = ORet (RErr oops).
Proof. split; [apply ex_avoids; discriminate|]. vm_compute. auto. Qed.
