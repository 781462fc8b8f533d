(** Properties C99-C101: what blocks, and what operation buffers gather. *)
From Coq Require Import List Bool Arith Lia.
From Verif Require Import Ord OrdFacts BTree BTreeFacts Graph SpecGraph GraphFacts Demo Tx TxFacts TxMachine SpecTx Prog SpecProg
  ProgFacts ProgFrame ProgTx ProgOps ProgTerm ProgRes P_Prog P_Ops P_Res ProgEvents SpecEvents EventFacts EventProgs.
Import ListNotations.

Section Properties.
  Context {Id Node V U : Type} `{HO : OrdT Id} `{HI : Identify Node Id}.
  Notation prog := (prog Id Node V U).
  Notation world := (world Id Node V U).
  Notation schema := (schema Id Node V U).
  Notation outcome := (outcome V).
  Notation res := (res V).
  Notation event := (event Id Node).

  Local Arguments buf_ops : simpl never.

  Lemma unlocked_matching (w : world) : unlocked w -> matching w none_held.
  Proof.
    intros [L C]. constructor.
    - now rewrite L.
    - intros a x N. now rewrite (C a x N).
    - intros a _. reflexivity.
  Qed.

  (** C99: at any point of any run the requests and guards so far make a legal history, and a request left
      unanswered is one for a lock the thread holds. *)
  Theorem C99_requests_and_guards :
    forall (sc : schema) (w : world) (p : prog) l,
      unlocked w -> doing sc w p l ->
      exists q g, lock_history (None, none_held) l = Some (q, g) /\
        forall lk m, q = Some (lk, m) -> conflict m (g lk) = true.
  Proof.
    intros sc w p l Un [f <-]. pose proof (run_locking sc f w p _ (unlocked_matching w Un)) as K. unfold locking in K.
    destruct (run sc f w p) as [[w' [r| | |]]|].
    - destruct K as (g & -> & _). exists None, g. split; [reflexivity|discriminate].
    - destruct K as (g & -> & _). exists None, g. split; [reflexivity|discriminate].
    - destruct K as (lk & m & g & -> & C). exists (Some (lk, m)), g. split; [reflexivity|]. now intros ? ? [= <- <-].
    - destruct K as (g & ->). exists None, g. split; [reflexivity|discriminate].
    - destruct K as (g & ->). exists None, g. split; [reflexivity|discriminate].
  Qed.

  (** It blocks exactly when a request is left unanswered. *)
  Theorem C99_blocks_iff_unanswered :
    forall (sc : schema) (w : world) (p : prog),
      unlocked w ->
      ((exists w', ends sc w p w' OHang) <->
       exists l lk m g, doing sc w p l /\ lock_history (None, none_held) l = Some (Some (lk, m), g)).
  Proof.
    intros sc w p Un. split.
    - intros (w' & f & E). pose proof (run_locking sc f w p _ (unlocked_matching w Un)) as K. rewrite E in K. cbn in K.
      destruct K as (lk & m & g & K & _). exists (events sc f w p), lk, m, g. split; [now exists f|exact K].
    - intros (l & lk & m & g & [f <-] & K). pose proof (run_locking sc f w p _ (unlocked_matching w Un)) as K'.
      unfold locking in K'. destruct (run sc f w p) as [[w' [r| | |]]|] eqn:E.
      + destruct K' as (g' & K' & _). congruence.
      + destruct K' as (g' & K' & _). congruence.
      + exists w'. now exists f.
      + destruct K' as (g' & K'). congruence.
      + destruct K' as (g' & K'). congruence.
  Qed.

  (** A run that returns or panics has dropped every guard. *)
  Theorem C99_all_dropped :
    forall (sc : schema) (w : world) (p : prog) w' o l,
      unlocked w -> did sc w p w' o l -> comes_back o ->
      exists g, lock_history (None, none_held) l = Some (None, g) /\ forall lk, g lk = [].
  Proof.
    intros sc w p w' o l Un (f & E & <-) B. pose proof (run_locking sc f w p _ (unlocked_matching w Un)) as K. rewrite E in K.
    pose proof (ends_framed sc _ _ _ _ (ex_intro _ f E) B) as F. destruct Un as [L C].
    assert (K' : exists g, lock_history (None, none_held) (events sc f w p) = Some (None, g) /\ matching w' g)
      by (destruct o; try destruct B; exact K).
    destruct K' as (g & -> & M). exists g. split; [reflexivity|]. intros [|a].
    - rewrite (mt_graph _ _ M), (fr_lock _ _ F), L. reflexivity.
    - destruct (nth_error (w_cells w') a) as [y|] eqn:N.
      + rewrite (mt_cells _ _ M a y N). destruct (fr_cells _ _ F) as [K1 K2].
        destruct (nth_error (w_cells w) a) as [x|] eqn:Nx.
        * destruct (K1 a x Nx) as (z & Nz & Lz & _). rewrite N in Nz. injection Nz as <-. now rewrite Lz, (C a x Nx).
        * apply nth_error_None in Nx. now rewrite (K2 a y Nx N).
      + apply nth_error_None in N. now apply (mt_beyond _ _ M).
  Qed.

  (** ** C100 *)

  Lemma lives_agrees (sc : schema) (w : world) : lives sc w -> agrees sc w Unused [] (resource_cells sc).
  Proof.
    intros L. destruct (lives_inv sc w L) as (So & Fr & Ad). constructor.
    - cbn. clear So Fr Ad. induction L as [g|sc w b sc' w' L IH E|sc w p w' o L IH E B]; [reflexivity| |].
      + destruct b; cbn in E; injection E as <- <-; exact IH.
      + now rewrite (fr_lock _ _ (ends_framed sc _ _ _ _ E B)).
    - intros a x N. now rewrite (Fr x (nth_error_In _ _ N)).
    - intros a J. unfold resource_cells in J. apply in_map_iff in J as ([t a'] & <- & J). cbn. apply (Ad t).
      now apply (bt_get_in _ _ _ So).
    - intros a J. exact J.
  Qed.

  (** C100: on a schema whose triggers never ask for what an enclosing call holds, a program that does not either never blocks. *)
  Theorem C100_polite_never_blocks :
    forall (sc : schema) (w w' : world) (p : prog),
      lives sc w -> polite_triggers sc -> polite sc Unused [] (resource_cells sc) p -> ~ ends sc w p w' OHang.
  Proof.
    intros sc w w' p L T P [f E]. exact (polite_never_hangs sc T f w p _ _ _ w' OHang (lives_agrees sc w L) P E eq_refl).
  Qed.

  (** Save and Delete themselves do not: they block only if a trigger does. *)
  Theorem C100_save_delete_never_block :
    forall (sc : schema) (w w' : world) crash,
      lives sc w -> polite_triggers sc ->
      (forall n, ~ ends sc w (p_save n (TxBg crash) PRet) w' OHang) /\
      (forall i, ~ ends sc w (p_delete i (TxBg crash) PRet) w' OHang).
  Proof.
    intros sc w w' crash L T. split; intros x; apply C100_polite_never_blocks; auto; cbn [polite p_save p_delete];
      (split; [reflexivity|]; split; [|intros r; exact I]); intros b.
    - apply polite_save_body.
    - apply polite_delete_body.
  Qed.

  (** If moreover triggers are stratified (C70), Save and Delete come back, unless rustc rejects a trigger. *)
  Theorem C100_save_delete_come_back :
    forall rank (sc : schema) (w : world) crash,
      lives sc w -> polite_triggers sc -> stratified rank sc ->
      (forall n, exists w' o, ends sc w (p_save n (TxBg crash) PRet) w' o /\ (comes_back o \/ o = OStuck)) /\
      (forall i, exists w' o, ends sc w (p_delete i (TxBg crash) PRet) w' o /\ (comes_back o \/ o = OStuck)).
  Proof.
    intros rank sc w crash L T S. split; intros x.
    - destruct (C70_stratified_programs_terminate rank sc S w (p_save x (TxBg crash) PRet)) as (w' & o & E).
      { apply loop_free_save; now cbn. }
      exists w', o. split; [exact E|]. destruct (C100_save_delete_never_block sc w w' crash L T) as [N _].
      destruct o; [now left|now left|destruct (N x E)|now right].
    - destruct (C70_stratified_programs_terminate rank sc S w (p_delete x (TxBg crash) PRet)) as (w' & o & E).
      { apply loop_free_delete; now cbn. }
      exists w', o. split; [exact E|]. destruct (C100_save_delete_never_block sc w w' crash L T) as [_ N].
      destruct o; [now left|now left|destruct (N x E)|now right].
  Qed.

  (** ** C101 *)

  (** C101: what is pending in a context is what was pending and, in order, what was registered on it and what the
      sub-transactions committed into it brought. *)
  Theorem C101_pending_is_what_was_gathered :
    forall (sc : schema) (w : world) (p : prog) w' o l c,
      did sc w p w' o l -> comes_back o -> ctx_buf c < length (w_heap w) ->
      registered w' c = registered w c ++ gathered (ctx_buf c) l.
  Proof. intros sc w p w' o l c (f & E & <-) B L. exact (run_gathers sc f w p w' o (ctx_buf c) E B L). Qed.

  (** What a sub-transaction brings: if its closure succeeds (and leaks no context of it), all that its own context gathered;
      otherwise nothing. *)
  Theorem C101_what_a_sub_transaction_brings :
    forall (sc : schema) (w : world) c body k w' o l,
      did sc w (PWith (TxFg c) body k) w' o l -> comes_back o ->
      exists w1 o1 l1 brought rest,
        did sc (fg_open w) (body (fg_ctx w c)) w1 o1 l1 /\ comes_back o1 /\ l = l1 ++ brought ++ rest /\
        match o1 with
        | ORet (RErr _) | OPanic => brought = []
        | _ =>
            (leaked w1 (length (w_heap w)) = false -> brought = [EMerge (ctx_buf c) (gathered (length (w_heap w)) l1)]) /\
            (leaked w1 (length (w_heap w)) = true -> brought = [])
        end.
  Proof.
    intros sc w c body k w' o l (f & E & <-) B. destruct f as [|f]; [discriminate|]. cbn [run events] in *. cbn zeta in *.
    fold (fg_open w) in *. change (CSub c (length (w_heap w)) None) with (fg_ctx w c) in *.
    destruct (run sc f (fg_open w) (body (fg_ctx w c))) as [[w1 o1]|] eqn:E1; [|discriminate].
    assert (B1 : comes_back o1) by (destruct o1; try exact I; injection E as <- <-; exact B).
    exists w1, o1, (events sc f (fg_open w) (body (fg_ctx w c))).
    assert (G : buf_ops (w_heap w1) (length (w_heap w)) = gathered (length (w_heap w)) (events sc f (fg_open w) (body (fg_ctx w c)))).
    { rewrite (run_gathers sc f _ _ _ _ _ E1 B1); [|cbn; rewrite app_length; cbn; lia].
      cbn [fg_open w_heap set_heap]. rewrite buf_ops_open. unfold buf_ops at 1. now rewrite nth_overflow by lia. }
    destruct o1 as [r| | |]; try destruct B1.
    - destruct r as [|v|e]; cbn [is_ok];
        [exists (merge_events c (length (w_heap w)) w1); eexists| |
         exists []; eexists; (split; [now exists f|]; split; [exact I|]; split; [cbn; reflexivity|reflexivity])].
      + split; [now exists f|]. split; [exact I|]. split; [reflexivity|]. unfold merge_events. rewrite G.
        split; intros ->; reflexivity.
      + exists (merge_events c (length (w_heap w)) w1). eexists. split; [now exists f|]. split; [exact I|]. split; [reflexivity|].
        unfold merge_events. rewrite G. split; intros ->; reflexivity.
    - exists [], []. split; [now exists f|]. split; [exact I|]. split; [now rewrite !app_nil_r|reflexivity].
  Qed.

  (** What the sub-transactions of the context of buffer [b] brought, in order. *)
  Fixpoint brought (b : nat) (l : list event) : list (op Id Node) :=
    match l with
    | [] => []
    | EMerge b' ops :: l => (if Nat.eqb b' b then ops else []) ++ brought b l
    | _ :: l => brought b l
    end.

  Lemma gathered_brought b l : quiet b l -> gathered b l = brought b l.
  Proof.
    induction l as [|e l IH]; intros Q; [reflexivity|].
    assert (Q' : quiet b l) by (intros o J; apply (Q o); now right). specialize (IH Q').
    destruct e; cbn; auto.
    - destruct (Nat.eqb_spec b0 b) as [->|_]; [|exact IH]. destruct (Q o). now left.
    - rewrite IH. now destruct (Nat.eqb b0 b).
  Qed.

  (** A trigger that only has the [Ctx] (and [Res], [Target]) it is given adds to the transaction that runs it what the
      sub-transactions it commits bring, nothing else. *)
  Theorem C101_triggers_act_by_sub_transactions :
    forall (sc : schema) (w : world) s t c w' o l,
      triggers_hands_off sc -> In t (scheduled sc s) -> ctx_buf c < length (w_heap w) ->
      did sc w (t c) w' o l -> comes_back o ->
      registered w' c = registered w c ++ brought (ctx_buf c) l.
  Proof.
    intros sc w s t c w' o l T J L D B.
    rewrite (C101_pending_is_what_was_gathered sc w (t c) w' o l c D B L). f_equal. apply gathered_brought.
    destruct D as (f & _ & <-). apply run_quiet; auto. now apply (T s).
  Qed.

  (** If none of them commits into a context that was there, the run shows in none: whether it ends well or not, all that
      contexts show is as before. *)
  Theorem C101_no_commit_no_effect :
    forall (sc : schema) (w : world) s t c w' o l,
      triggers_hands_off sc -> In t (scheduled sc s) -> w_lock w = GTx ->
      did sc w (t c) w' o l -> comes_back o ->
      (forall b ops, In (EMerge b ops) l -> length (w_heap w) <= b) ->
      w_heap w' = w_heap w /\ forall c' i, view w' c' i = view w c' i.
  Proof.
    intros sc w s t c w' o l T J Lk (f & E & <-) B N.
    pose proof (ends_framed sc _ _ _ _ (ex_intro _ f E) B) as F.
    assert (G : w_graph w' = w_graph w) by (apply (fr_frozen _ _ F); rewrite Lk; exact I).
    assert (K : forall b, b < length (w_heap w) -> buf_ops (w_heap w') b = buf_ops (w_heap w) b).
    { intros b L. rewrite (run_gathers sc f _ _ _ _ b E B L).
      rewrite gathered_brought by (apply run_quiet; [exact T|now apply (T s)|exact L]).
      replace (brought b (events sc f w (t c))) with (@nil (op Id Node)); [now rewrite app_nil_r|].
      clear -N L. induction (events sc f w (t c)) as [|e l IH]; [reflexivity|].
      assert (IH' : [] = brought b l) by (apply IH; intros b' ops J; apply (N b' ops); now right).
      destruct e as [| | | | |b' ops]; try exact IH'. cbn. destruct (Nat.eqb_spec b' b) as [->|_]; [|exact IH'].
      specialize (N b ops (or_introl eq_refl)). lia. }
    assert (H : w_heap w' = w_heap w).
    { apply nth_ext with (d := []) (d' := []); [apply (fr_len _ _ F)|]. intros b L. rewrite (fr_len _ _ F) in L. now apply K. }
    split; [exact H|]. intros c' i. unfold view. now rewrite H, G.
  Qed.
End Properties.
Print Assumptions C99_requests_and_guards.
Print Assumptions C99_blocks_iff_unanswered.
Print Assumptions C99_all_dropped.
Print Assumptions C100_polite_never_blocks.
Print Assumptions C100_save_delete_never_block.
Print Assumptions C100_save_delete_come_back.
Print Assumptions C101_pending_is_what_was_gathered.
Print Assumptions C101_what_a_sub_transaction_brings.
Print Assumptions C101_triggers_act_by_sub_transactions.
Print Assumptions C101_no_commit_no_effect.

(** ** Concrete cases *)

Lemma ex_lives : lives ex_sc ex_w.
Proof. exact (built_lives ex_graph [BResource 7 0; BTrigger BeforeSave ex_trigger]). Qed.

Lemma ex_unlocked : unlocked ex_w.
Proof. split; [reflexivity|]. intros [|[|a]] x E; cbn in E; try discriminate. now injection E as <-. Qed.

(** C99: a save.  The graph, the resource, the target (read by the trigger, then by the save itself). *)
Example C99_case :
  events ex_sc 100 ex_w (p_save (n_ 3 30) (TxBg None) PRet) =
    [EAsk LGraph Excl; EGot LGraph Excl;
     EAsk (LCell 0) Excl; EGot (LCell 0) Excl; EDrop (LCell 0) Excl;
     ERegister 1 (OSave (n_ 100 1)); EMerge 0 [OSave (n_ 100 1)];
     EAsk (LCell 1) Shared; EGot (LCell 1) Shared; EDrop (LCell 1) Shared;
     EAsk (LCell 1) Shared; EGot (LCell 1) Shared; ERegister 0 (OSave (n_ 3 30)); EDrop (LCell 1) Shared;
     EDrop LGraph Excl] /\
  snd (last_of ex_w (run ex_sc 100 ex_w (p_save (n_ 3 30) (TxBg None) PRet))) = ORet RUnit.
Proof. vm_compute. auto. Qed.

(** Saving while reading waits for the guard of the reader, for ever. *)
Example C99_case_reader :
  let p := PRead (PGraphGet 1 (fun _ => p_save (n_ 3 30) (TxBg None) PRet)) PRet in
  snd (last_of ex_w (run ex_sc 100 ex_w p)) = OHang /\
  events ex_sc 100 ex_w p = [EAsk LGraph Shared; EGot LGraph Shared; EAsk LGraph Excl].
Proof. vm_compute. auto. Qed.

(** Asking for the same resource twice in a tuple: twice shared is granted, exclusive is not. *)
Example C99_case_twice :
  let p := fun m => PRes 7 (fun h => PAccess m [h; h] (fun _ => PRet RUnit) (fun _ => PRet RUnit)) in
  snd (last_of ex_w (run ex_sc 100 ex_w (p Shared))) = ORet RUnit /\
  events ex_sc 100 ex_w (p Shared) =
    [EAsk (LCell 0) Shared; EGot (LCell 0) Shared; EAsk (LCell 0) Shared; EGot (LCell 0) Shared;
     EDrop (LCell 0) Shared; EDrop (LCell 0) Shared] /\
  snd (last_of ex_w (run ex_sc 100 ex_w (p Excl))) = OHang /\
  events ex_sc 100 ex_w (p Excl) = [EAsk (LCell 0) Excl; EGot (LCell 0) Excl; EAsk (LCell 0) Excl].
Proof. vm_compute. auto 10. Qed.

(** C100: the trigger of the example is polite. *)
Example C100_case : lives ex_sc ex_w /\ polite_triggers ex_sc.
Proof.
  split; [exact ex_lives|]. intros s t c known J _ _. unfold scheduled, ts_select in J. cbn in J.
  destruct s as [|s]; cbn in J; [|destruct J]. destruct J as [<-|[]]. cbn. split; [intros a _ m []|]. split.
  { intros _. constructor; [intros []|constructor]. }
  split; [intros [|[a [n|t u]] [|v vs]] _; exact I|]. intros _. split; [intros b; exact I|]. intros _.
  split; [intros a _ m []|]. split; [discriminate|]. split; [|intros r; exact I].
  intros [|[a [n|t u]] [|v vs]] _; try exact I. destruct (Nat.eqb (d_id n) 9); exact I.
Qed.

(** One that opens a transaction of the schema is not, and the save that runs it blocks. *)
Definition ex_rude : trigger nat dnode nat nat := fun _ => PWith (TxBg None) (fun c => PDelete c 1 (PRet RUnit)) PRet.
Definition ex_rude_sc : dschema := fst (built ex_graph [BTrigger AfterSave ex_rude]).
Definition ex_rude_w : dworld := snd (built ex_graph [BTrigger AfterSave ex_rude]).
Example C100_case_rude :
  ~ polite_triggers ex_rude_sc /\
  snd (last_of ex_rude_w (run ex_rude_sc 100 ex_rude_w (p_save (n_ 3 30) (TxBg None) PRet))) = OHang.
Proof.
  split; [|reflexivity]. intros P. specialize (P AfterSave ex_rude (CRoot 0 None) []). cbn in P.
  destruct P as [P _]; [now left|intros a []|discriminate|discriminate].
Qed.

(** C101: two sub-transactions, one that fails; the context gathers what it saves and what the other commits. *)
Definition ex_two (c : ctx) : dprog :=
  PDelete c 2 (PWith (TxFg c) (fun c' => PSave c' (n_ 3 30) (PSave c' (n_ 3 31) (PRet RUnit))) (fun _ =>
    PWith (TxFg c) (fun c' => PSave c' (n_ 4 40) (PRet (RErr oops))) (fun _ => PSave c (n_ 5 50) (PRet RUnit)))).
Example C101_case :
  let w := set_heap [[ODelete 1]] (set_lock GTx ex_w) in
  let p := ex_two (CRoot 0 None) in
  events ex_sc 100 w p =
    [ERegister 0 (ODelete 2); ERegister 1 (OSave (n_ 3 30)); ERegister 1 (OSave (n_ 3 31));
     EMerge 0 [OSave (n_ 3 30); OSave (n_ 3 31)]; ERegister 1 (OSave (n_ 4 40)); ERegister 0 (OSave (n_ 5 50))] /\
  registered (fst (last_of w (run ex_sc 100 w p))) (CRoot 0 None) =
    [ODelete 1; ODelete 2; OSave (n_ 3 30); OSave (n_ 3 31); OSave (n_ 5 50)].
Proof. vm_compute. auto. Qed.

(** The trigger of the example has the [Ctx] only; so what it does to the transaction of the save it precedes is what its
    sub-transaction commits. *)
Example C101_case_trigger :
  triggers_hands_off ex_sc /\ In ex_trigger (scheduled ex_sc BeforeSave) /\
  let w := set_cells [Cell (DRes 7 0) false Free; Cell (DNode (n_ 9 90)) false Free] (set_heap [[ODelete 1]] (set_lock GTx ex_w)) in
  let c := CRoot 0 (Some 1) in
  snd (last_of w (run ex_sc 100 w (ex_trigger c))) = ORet (RErr oops) /\
  registered (fst (last_of w (run ex_sc 100 w (ex_trigger c)))) c = [ODelete 1; OSave (n_ 100 1)] /\
  brought 0 (events ex_sc 100 w (ex_trigger c)) = [OSave (n_ 100 1)].
Proof.
  split; [|split; [now left|vm_compute; auto]].
  intros s t c b J. unfold scheduled, ts_select in J. cbn in J. destruct s as [|s]; cbn in J; [|destruct J].
  destruct J as [<-|[]]. cbn. intros h. split; [intros [|[a [n|t u]] [|v vs]]; exact I|]. intros _. split.
  - intros b' Nb. split; [exact Nb|exact I].
  - intros _. split; [|intros r; exact I]. intros [|[a [n|t u]] [|v vs]]; try exact I.
    destruct (Nat.eqb (d_id n) 9); exact I.
Qed.
