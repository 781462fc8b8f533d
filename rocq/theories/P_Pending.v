(** Properties C106-C107: pending changes matter only by what they amount to; pieces of programs that can be replaced. *)
From Coq Require Import List Bool Arith Lia.
From Verif Require Import Ord OrdFacts BTree BTreeFacts Graph SpecGraph GraphFacts Demo Tx TxFacts TxMachine SpecTx Prog SpecProg
  ProgFacts ProgFrame ProgTx ProgOps ProgTerm ProgRes P_Prog P_Ops P_Res SpecPending PendingFacts RewriteFacts.
Import ListNotations.

Section Properties.
  Context {Id Node V U : Type} `{HO : OrdT Id} `{HI : Identify Node Id}.
  Notation prog := (prog Id Node V U).
  Notation world := (world Id Node V U).
  Notation schema := (schema Id Node V U).
  Notation outcome := (outcome V).
  Notation res := (res V).

  (** C106: what a context holds matters to programs only by what it amounts to for each identifier. *)
  Theorem C106_only_what_is_pending_matters :
    forall (sc : schema) (w1 w2 : world) (p : prog), steady_triggers sc -> steady p ->
      g_reachable (w_graph w1) -> same_pending w1 w2 ->
      (forall w1' o, ends sc w1 p w1' o -> exists w2', ends sc w2 p w2' o /\ same_pending w1' w2') /\
      (forall w2' o, ends sc w2 p w2' o -> exists w1', ends sc w1 p w1' o /\ same_pending w1' w2') /\
      (diverges sc w1 p <-> diverges sc w2 p).
  Proof.
    intros sc w1 w2 p ST A G S. apply (proj2 (rel_iff w1 w2 (g_reachable_wf _ G))) in S.
    assert (K : forall f, same_end (run sc f w1 p) (run sc f w2 p)) by (intros f; now apply run_same).
    unfold same_end in K. split; [|split].
    - intros w1' o [f E]. specialize (K f). rewrite E in K. destruct (run sc f w2 p) as [[w2' o2]|] eqn:E2; [|destruct K].
      destruct K as [<- S']. exists w2'. split; [now exists f|]. apply rel_iff; [apply (rl_wf _ _ S')|exact S'].
    - intros w2' o [f E]. specialize (K f). rewrite E in K. destruct (run sc f w1 p) as [[w1' o1]|] eqn:E1; [|destruct K].
      destruct K as [-> S']. exists w1'. split; [now exists f|]. apply rel_iff; [apply (rl_wf _ _ S')|exact S'].
    - split; intros D f; specialize (K f); rewrite (D f) in K; destruct (run sc f _ p) as [[? ?]|]; tauto.
  Qed.

  Lemma same_R (w : world) l : g_reachable (w_graph w) -> alive l w -> R w w /\ scope l w.
  Proof.
    intros G [A B]. split; [|exact A]. split; [|exact B]. apply rel_iff; [now apply g_reachable_wf|]. now constructor.
  Qed.

  Definition same_runs (w : world) (x y : schema * prog) : Prop :=
    (forall w1 o, ends (fst x) w (snd x) w1 o -> exists w2, ends (fst y) w (snd y) w2 o /\ same_pending w1 w2) /\
    (forall w2 o, ends (fst y) w (snd y) w2 o -> exists w1, ends (fst x) w (snd x) w1 o /\ same_pending w1 w2) /\
    (diverges (fst x) w (snd x) <-> diverges (fst y) w (snd y)).

  Lemma one_round (sc1 sc2 : schema) l (p q : prog) (w : world) : rewritten sc1 sc2 -> rewrites l p q ->
    g_reachable (w_graph w) -> alive l w -> same_runs w (sc1, p) (sc2, q).
  Proof.
    intros RT RW G A. unfold same_runs. cbn [fst snd]. destruct (same_R w l G A) as [S SC].
    assert (K1 : forall w1 o, ends sc1 w p w1 o -> exists w2, ends sc2 w q w2 o /\ same_pending w1 w2).
    { intros w1 o [f E]. destruct (simulation sc1 sc2 RT f l p q RW w w S SC w1 o E) as (w2 & E2 & [S2 _]).
      exists w2. split; [exact E2|]. apply rel_iff; [apply (rl_wf _ _ S2)|exact S2]. }
    assert (K2 : forall w2 o, ends sc2 w q w2 o -> exists w1, ends sc1 w p w1 o /\ same_pending w1 w2).
    { intros w2 o [f E].
      destruct (simulation sc2 sc1 (rewritten_sym _ _ RT) f l q p (rewrites_sym _ _ _ RW) w w S SC w2 o E) as (w1 & E1 & [S1 _]).
      exists w1. split; [exact E1|]. apply rel_iff in S1; [|apply (rl_wf _ _ S1)]. destruct S1. constructor; auto. }
    split; [exact K1|]. split; [exact K2|]. split; intros D f.
    - destruct (run sc2 f w q) as [[w2 o]|] eqn:E; [|reflexivity]. destruct (K2 w2 o) as (w1 & [f1 E1] & _); [now exists f|].
      now rewrite D in E1.
    - destruct (run sc1 f w p) as [[w1 o]|] eqn:E; [|reflexivity]. destruct (K1 w1 o) as (w2 & [f2 E2] & _); [now exists f|].
      now rewrite D in E2.
  Qed.

  Lemma same_pending_trans (w1 w2 w3 : world) : same_pending w1 w2 -> same_pending w2 w3 -> same_pending w1 w3.
  Proof. intros [] []. constructor; congruence. Qed.

  (** C107: replacing pieces of a program and of the triggers, according to the laws of [rewrites], changes neither how it
      ends nor anything it leaves behind. *)
  Theorem C107_pieces_can_be_replaced :
    forall (sc1 sc2 : schema) l (p q : prog) (w : world), replaced l (sc1, p) (sc2, q) ->
      g_reachable (w_graph w) -> alive l w ->
      (forall w1 o, ends sc1 w p w1 o -> exists w2, ends sc2 w q w2 o /\ same_pending w1 w2) /\
      (forall w2 o, ends sc2 w q w2 o -> exists w1, ends sc1 w p w1 o /\ same_pending w1 w2) /\
      (diverges sc1 w p <-> diverges sc2 w q).
  Proof.
    intros sc1 sc2 l p q w RP G A. 
    assert (K : same_runs w (sc1, p) (sc2, q)); [|exact K].
    generalize dependent (sc2, q). generalize (sc1, p). clear sc1 sc2 p q. intros x y RP.
    induction RP as [sc1' sc2' p' q' RT RW|x y z _ IH1 _ IH2].
    - now apply one_round with (l := l).
    - destruct IH1 as (A1 & B1 & D1), IH2 as (A2 & B2 & D2). split; [|split].
      + intros w1 o E. destruct (A1 w1 o E) as (w2 & E2 & S2). destruct (A2 w2 o E2) as (w3 & E3 & S3). exists w3.
        split; [exact E3|now apply same_pending_trans with w2].
      + intros w3 o E. destruct (B2 w3 o E) as (w2 & E2 & S2). destruct (B1 w2 o E2) as (w1 & E1 & S1). exists w1.
        split; [exact E1|now apply same_pending_trans with w2].
      + tauto.
  Qed.

  Lemma buf_with_target c a : ctx_buf (ctx_with_target c a) = ctx_buf c.
  Proof. now destruct c. Qed.

  Lemma rewrites_try_ l r (k k' : prog) : rewrites l k k' -> rewrites l (try_ r k) (try_ r k').
  Proof. intros K. destruct r; cbn; [exact K|exact K|apply rw_ret]. Qed.

  Lemma rewrites_save_body l n c : In (ctx_buf c) l -> rewrites l (save_body n c : prog) (save_body n c).
  Proof.
    intros J. apply rw_target. intros a. apply rw_triggers; [now rewrite buf_with_target|]. intros r. apply rewrites_try_.
    apply rw_access.
    - intros [|[h [m|t u]] [|v vs]]; try apply rw_panic. apply (rw_register l _ (OSave m)), rw_ret.
    - intros _. apply rw_triggers; [now rewrite buf_with_target|]. intros r'. apply rewrites_try_, rw_ret.
  Qed.

  (** In particular a [Save], whose triggers are so rewritten, returns the same and leaves the same graph and resources. *)
  Theorem C107_save_with_triggers_replaced :
    forall (sc1 sc2 : schema) (n : Node) (w w1 : world) (o : outcome), rewritten sc1 sc2 -> g_reachable (w_graph w) -> w_leaked w = [] ->
      ends sc1 w (p_save n (TxBg None) PRet) w1 o ->
      exists w2, ends sc2 w (p_save n (TxBg None) PRet) w2 o /\ w_graph w2 = w_graph w1 /\ w_cells w2 = w_cells w1.
  Proof.
    intros sc1 sc2 n w w1 o RT G L E.
    destruct (C107_pieces_can_be_replaced sc1 sc2 [] (p_save n (TxBg None) PRet) (p_save n (TxBg None) PRet) w) as [K _].
    - apply rp_one; [exact RT|]. apply rw_bg; [intros a; apply rewrites_save_body; now left|intros r; apply rw_ret].
    - exact G.
    - split; [now intros b []|]. rewrite L. now intros b [].
    - destruct (K w1 o E) as (w2 & E2 & S). exists w2. split; [exact E2|]. split; symmetry; apply S.
  Qed.
End Properties.
Print Assumptions C106_only_what_is_pending_matters.
Print Assumptions C107_pieces_can_be_replaced.
Print Assumptions C107_save_with_triggers_replaced.

(** ** Concrete cases *)

(** C106: a context in which node 5 was saved twice, and one in which it was saved once, are the same to everyone, unless a
    commit crashes half-way. *)
Definition twice : dworld := set_heap [[OSave (n_ 5 1); OSave (n_ 5 2)]] (set_lock GTx ex_w).
Definition once : dworld := set_heap [[OSave (n_ 5 2)]] (set_lock GTx ex_w).
Example C106_case :
  same_pending twice once /\ w_heap twice <> w_heap once /\
  steady (p_save (n_ 3 30) (TxFg (CRoot 0 None)) PRet : dprog) /\ steady_triggers ex_sc /\
  let p := PGet (CRoot 0 None) 5 (fun r => match r with Some n => PEmit (d_val n) (PRet RUnit) | None => PRet RUnit end) : dprog in
  steady p /\ w_out (fst (last_of ex_w (run ex_sc 100 twice p))) = [2] /\ w_out (fst (last_of ex_w (run ex_sc 100 once p))) = [2] /\
  g_iter (w_graph (fst (bg_commit (Some 1) 0 twice))) = [n_ 1 10; n_ 2 20; n_ 5 1] /\
  g_iter (w_graph (fst (bg_commit (Some 1) 0 once))) = [n_ 1 10; n_ 2 20; n_ 5 2].
Proof.
  split.
  { constructor; try reflexivity. intros [|[|b]] i; try reflexivity. cbn. unfold pending, ov_set, no_change. cbn [map fold_left op_entry fst snd].
    cbn [d_id]. destruct (eqb _ i); reflexivity. }
  split; [discriminate|]. split.
  { cbn. split; [|auto]. intros b a [| |e]; cbn; auto; (split; [intros [|[h [m|t u]] [|? ?]]; exact I|]); intros _ [| |e]; exact I. }
  split.
  { intros s t c J. unfold scheduled, ts_select in J. cbn in J. destruct s as [|s]; cbn in J; [|destruct J].
    destruct J as [<-|[]]. cbn. split; [intros [|[? [n|? ?]] [|? ?]]; exact I|]. intros _. split; [intros b; exact I|].
    intros _. split; [|intros r; exact I]. intros [|[? [n|? ?]] [|? ?]]; try exact I. destruct (Nat.eqb (d_id n) 9); exact I. }
  cbn zeta. split; [intros [n|]; exact I|]. vm_compute. auto.
Qed.

(** C107: a trigger that saves node 5 twice and then works in a sub-transaction, and one that does without. *)
Definition roundabout : trigger nat dnode nat nat := fun c =>
  PSave c (n_ 5 1) (PSave c (n_ 5 2) (PWith (TxFg c) (fun c' =>
    PGet c' 5 (fun r => PSave c' (n_ 6 (match r with Some n => d_val n | None => 0 end)) (PRet RUnit))) PRet)).
Definition halfway : trigger nat dnode nat nat := fun c =>
  PSave c (n_ 5 2) (PGet c 5 (fun r => PSave c (n_ 6 (match r with Some n => d_val n | None => 0 end)) (PRet RUnit))).
Definition direct : trigger nat dnode nat nat := fun c => PSave c (n_ 5 2) (PSave c (n_ 6 2) (PRet RUnit)).
Definition with_trigger (t : trigger nat dnode nat nat) : dschema := fst (built ex_graph [BResource 7 0; BTrigger AfterSave t]).

Lemma first_step c : rewrites [ctx_buf c] (roundabout c) (halfway c).
Proof.
  pose (s := CGet 5 (fun r => CRegister (OSave (n_ 6 (match r with Some n => d_val n | None => 0 end))) (CRet RUnit eq_refl)) : code (Id := nat) (Node := dnode) (V := nat)).
  apply (rw_overwritten [ctx_buf c] c (OSave (n_ 5 1)) (OSave (n_ 5 2))); [reflexivity|].
  apply (rw_inlined [ctx_buf c] c s); [now left|]. intros r. apply rw_ret.
Qed.
Lemma second_step c : rewrites [ctx_buf c] (halfway c) (direct c).
Proof.
  pose proof (rw_known (Id := nat) (V := nat) (U := nat) [ctx_buf c] c (OSave (n_ 5 2))
    (fun r => PSave c (n_ 6 (match r with Some n => d_val n | None => 0 end)) (PRet RUnit)) (PSave c (n_ 6 2) (PRet RUnit))) as K.
  unfold halfway, direct. cbn [register] in K. change (about (OSave (n_ 5 2))) with 5 in K.
  apply K; [now left|]. apply (rw_register [ctx_buf c] c (OSave (n_ 6 2))), rw_ret.
Qed.
Lemma with_trigger_rewritten t1 t2 : (forall c, rewrites [ctx_buf c] (t1 c) (t2 c)) -> rewritten (with_trigger t1) (with_trigger t2).
Proof.
  intros T. split; [reflexivity|]. intros s. unfold scheduled, ts_select. cbn. destruct s as [|[|s]]; cbn; try constructor; auto.
Qed.

Example C107_case :
  let p := p_save (n_ 3 30) (TxBg None) PRet : dprog in
  replaced [] (with_trigger roundabout, p) (with_trigger direct, p) /\ g_reachable (w_graph ex_w) /\ alive [] ex_w /\
  nodes_after (with_trigger roundabout) ex_w p = (ORet RUnit, [n_ 1 10; n_ 2 20; n_ 3 30; n_ 5 2; n_ 6 2]) /\
  nodes_after (with_trigger direct) ex_w p = (ORet RUnit, [n_ 1 10; n_ 2 20; n_ 3 30; n_ 5 2; n_ 6 2]).
Proof.
  cbn zeta. split.
  { assert (P : rewrites [] (p_save (n_ 3 30) (TxBg None) PRet : dprog) (p_save (n_ 3 30) (TxBg None) PRet)).
    { apply rw_bg; [intros a; apply rewrites_save_body; now left|intros r; apply rw_ret]. }
    apply rp_more with (with_trigger halfway, p_save (n_ 3 30) (TxBg None) PRet); apply rp_one; try exact P;
      apply with_trigger_rewritten; [exact first_step|exact second_step]. }
  split; [apply ex_at_rest|]. split; [split; now intros b []|]. vm_compute. auto.
Qed.

(** The laws do not hold across contexts: an operation on the outer context is not overwritten by one on the inner. *)
Example C107_not_across :
  let w := set_heap [[]] (set_lock GTx ex_w) in
  let after p := pending (nth 0 (w_heap (fst (last_of ex_w (run ex_sc 100 w p)))) []) 5 in
  after (PWith (TxFg (CRoot 0 None)) (fun c' => PSave (CRoot 0 None) (n_ 5 1) (PSave c' (n_ 5 2) (PRet (RErr oops)))) PRet : dprog) = Some (Some (n_ 5 1)) /\
  after (PWith (TxFg (CRoot 0 None)) (fun c' => PSave c' (n_ 5 2) (PRet (RErr oops))) PRet : dprog) = None.
Proof. vm_compute. auto. Qed.
