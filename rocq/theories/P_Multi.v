(** Properties C109-C112: programs over several schemas. *)
From Coq Require Import List Bool Arith Lia.
From Coq Require String.
From Verif Require Import Ord OrdFacts BTree Graph GraphFacts Demo Tx TxMachine SpecTx TxFacts Prog SpecProg
  ProgFacts ProgFrame ProgTx P_Prog Multi SpecMulti MultiFacts.
Import ListNotations.

Section Properties.
  Context {Id Node V U : Type} `{HO : OrdT Id} `{HI : Identify Node Id}.
  Notation prog := (prog Id Node V U).
  Notation world := (world Id Node V U).
  Notation schema := (schema Id Node V U).
  Notation mprog := (mprog Id Node V U).
  Notation mschema := (mschema Id Node V U).

  (** C109: a program over one schema does to it, among many, what it does alone, and nothing to the others. *)
  Theorem C109_alone_among_many :
    forall (scs : list mschema) s (sc : schema) (ws : list world) (w : world) (p : prog),
      nth_error scs s = Some (schema_on s sc) -> state_of s ws w ->
      (forall w' o, ends sc w p w' o ->
         exists ws' l, mends scs ws (on s p) ws' o /\ state_of s ws' w' /\ w_out w' = w_out w ++ l /\ length ws' = length ws /\
           forall t wt, t <> s -> state_of t ws wt -> exists wt', state_of t ws' wt' /\ said l wt wt') /\
      (forall ws' o, mends scs ws (on s p) ws' o -> exists w', ends sc w p w' o /\ state_of s ws' w').
  Proof.
    intros scs s sc ws w p Hs N. split.
    - intros w' o [fuel E]. pose proof (embed_prog s sc scs Hs fuel p w ws N) as X. rewrite E in X.
      destruct X as (ws' & l & Em & N' & O & [Len El]). exists ws', l. split; [exists fuel; exact Em|]. split; [exact N'|].
      split; [exact O|]. split; [exact Len|]. intros t wt Ne Nt. unfold state_of in *. rewrite (El t Ne), Nt. eexists. split; [reflexivity|].
      unfold said. clear. revert wt. induction l as [|v l IH]; intros wt; cbn [fold_left].
      + rewrite app_nil_r. destruct wt; reflexivity.
      + rewrite IH. cbn. now rewrite <- app_assoc.
    - intros ws' o [fuel E]. pose proof (embed_prog s sc scs Hs fuel p w ws N) as X.
      destruct (run sc fuel w p) as [[w' o']|] eqn:R; [|cbn in X; congruence].
      destruct X as (ws2 & l & Em & N' & _). rewrite Em in E. injection E as <- <-. exists w'. split; [exists fuel; exact R|exact N'].
  Qed.

  (** C109: schemas that neither a program nor the triggers of those it uses use are left alone, however it ends. *)
  Theorem C109_unused_are_left_alone :
    forall (scs : list mschema) ok (ws ws' : list world) (p : mprog) o u (w : world),
      triggers_only_use ok scs -> only_uses ok p -> mends scs ws p ws' o -> ~ ok u -> state_of u ws w ->
      exists w' l, state_of u ws' w' /\ said l w w'.
  Proof. intros scs ok ws ws' p o u w T Up [fuel E] Nu N. exact (mrun_told scs ok T u Nu fuel ws p ws' o Up E w N). Qed.

  (** C110: seen from one schema, what any program over many does is what some program over that one, on its own and without triggers,
      does. *)
  Theorem C110_seen_from_one_schema :
    forall (scs : list mschema) s sc (ws ws' : list world) (w : world) (p : mprog) o,
      nth_error scs s = Some sc -> state_of s ws w -> mends scs ws p ws' o -> comes_back o ->
      exists (q : prog) w', ends (Schema (ms_resources sc) []) w q w' o /\ state_of s ws' w'.
  Proof.
    intros scs s sc ws ws' w p o Hs N [fuel E] B. destruct (mrun_seen scs s sc Hs fuel ws p ws' o w E B N) as (w' & N' & q & X).
    exists q, w'. split; [now apply exec_run|exact N'].
  Qed.

  (** C110: so all the locks of all the schemas are left as they were found. *)
  Theorem C110_all_locks_released :
    forall (scs : list mschema) s sc (ws ws' : list world) (w : world) (p : mprog) o,
      nth_error scs s = Some sc -> state_of s ws w -> mends scs ws p ws' o -> comes_back o ->
      exists w', state_of s ws' w' /\ w_lock w' = w_lock w /\ length (w_heap w') = length (w_heap w) /\
        (forall a x, nth_error (w_cells w) a = Some x -> exists y, nth_error (w_cells w') a = Some y /\ c_lock y = c_lock x) /\
        (forall a y, length (w_cells w) <= a -> nth_error (w_cells w') a = Some y -> c_lock y = Free).
  Proof.
    intros scs s sc ws ws' w p o Hs N E B.
    destruct (C110_seen_from_one_schema scs s sc ws ws' w p o Hs N E B) as (q & w' & X & N').
    destruct (C23_all_locks_released _ _ _ _ _ X B) as (L & C1 & C2). exists w'. split; [exact N'|]. split; [exact L|].
    split; [|split; assumption]. exact (fr_len _ _ (ends_framed _ _ _ _ _ X B)).
  Qed.

  (** The state of [s] alone is replaced. *)
  Lemma alter_put (f : world -> world) s ws w : nth_error ws s = Some w -> alter f s ws = put s (f w) ws.
  Proof.
    unfold put. revert s. induction ws as [|x ws IH]; intros [|s] N; try discriminate.
    - cbn in N. injection N as ->. reflexivity.
    - cbn in N. cbn [alter firstn skipn app]. f_equal. apply (IH s N).
  Qed.

  Lemma put_same s (w w1 : world) ws : state_of s ws w -> state_of s (put s w1 ws) w1.
  Proof. intros N. unfold state_of. rewrite <- (alter_put (fun _ => w1) s ws w N). exact (nth_alter_same (fun _ => w1) _ _ _ N). Qed.

  (** C111: a transaction on [s] whose closure fails or panics changes nothing in the graph of [s]; the other schemas are left as the
      closure left them: what it committed there stays. *)
  Theorem C111_failed_tx_undoes_its_schema_only :
    forall (scs : list mschema) s sc (ws ws1 : list world) (w : world) crash (body : ctx -> mprog) o,
      nth_error scs s = Some sc -> state_of s ws w -> w_lock w = GFree ->
      mends scs (put s (bg_open w) ws) (body (bg_ctx w)) ws1 o -> (exists e, o = ORet (RErr e)) \/ o = OPanic ->
      exists ws' w', mends scs ws (MWith s (TxBg crash) body MRet) ws' o /\
        state_of s ws' w' /\ w_graph w' = w_graph w /\ w_lock w' = GFree /\
        forall t, t <> s -> nth_error ws' t = nth_error ws1 t.
  Proof.
    intros scs s sc ws ws1 w crash body o Hs N L E O.
    assert (B : comes_back o) by (destruct O as [[e ->]| ->]; exact I).
    destruct (C110_seen_from_one_schema scs s sc _ ws1 (bg_open w) (body (bg_ctx w)) o Hs (put_same s w _ ws N) E B) as (q & w1 & X & N1).
    pose proof (fr_frozen _ _ (ends_framed _ _ _ _ _ X B) I) as G. cbn in G.
    destruct E as [fuel E]. rewrite <- (alter_put bg_open s ws w N) in E. destruct O as [[e ->]| ->].
    - exists (alter (fun w0 => close (length (w_heap w)) (set_lock GFree w0)) s ws1), (close (length (w_heap w)) (set_lock GFree w1)).
      split; [exists (S (S fuel))|split; [exact (nth_alter_same _ _ _ _ N1)|split; [exact G|split; [reflexivity|]]]].
      + cbn [mrun]. rewrite N, L. cbn [mrun].
        pose proof (mrun_mono scs _ _ _ _ E (S fuel) ltac:(lia)) as E'. unfold bg_ctx in E'. cbn [mrun] in E'. unfold bg_open in E'. rewrite E'. rewrite N1. reflexivity.
      + intros t Ne. apply nth_alter_other. auto.
    - exists (alter (fun w0 => close (length (w_heap w)) (set_lock GFree (set_poison w0))) s ws1), (close (length (w_heap w)) (set_lock GFree (set_poison w1))).
      split; [exists (S fuel)|split; [exact (nth_alter_same _ _ _ _ N1)|split; [exact G|split; [reflexivity|]]]].
      + cbn [mrun]. rewrite N, L. unfold bg_ctx, bg_open in E. rewrite E. reflexivity.
      + intros t Ne. apply nth_alter_other. auto.
  Qed.

  (** C111: when it succeeds, the graph of [s] is what the closure's context last showed, unless a context was leaked. *)
  Theorem C111_ok_publishes_in_its_schema :
    forall (scs : list mschema) s sc (ws ws1 : list world) (w w1 : world) (body : ctx -> mprog) r,
      nth_error scs s = Some sc -> state_of s ws w -> w_lock w = GFree -> g_reachable (w_graph w) ->
      mends scs (put s (bg_open w) ws) (body (bg_ctx w)) ws1 (ORet r) -> is_ok r = true -> state_of s ws1 w1 ->
      leaked w1 (length (w_heap w)) = false ->
      exists ws' w', mends scs ws (MWith s (TxBg None) body MRet) ws' (ORet r) /\
        state_of s ws' w' /\ w_lock w' = GFree /\ (forall i, g_get (w_graph w') i = view w1 (bg_ctx w) i) /\
        forall t, t <> s -> nth_error ws' t = nth_error ws1 t.
  Proof.
    intros scs s sc ws ws1 w w1 body r Hs N L R E Ok N1 Lk.
    destruct (C110_seen_from_one_schema scs s sc _ ws1 (bg_open w) (body (bg_ctx w)) (ORet r) Hs (put_same s w _ ws N) E I) as (q & w1' & X & N1').
    unfold state_of in N1, N1'. rewrite N1 in N1'. injection N1' as <-.
    pose proof (fr_frozen _ _ (ends_framed _ _ _ _ _ X I) I) as G. cbn in G.
    set (w3 := close (length (w_heap w)) (set_lock GFree (set_graph (apply_ops (w_graph w1) (buf_ops (w_heap w1) (length (w_heap w)))) w1))).
    destruct E as [fuel E]. rewrite <- (alter_put bg_open s ws w N) in E.
    exists (alter (fun _ => w3) s ws1), w3. split; [exists (S (S fuel))|split; [exact (nth_alter_same (fun _ => w3) _ _ _ N1)|split; [reflexivity|split]]].
    - cbn [mrun]. rewrite N, L.
      pose proof (mrun_mono scs _ _ _ _ E (S fuel) ltac:(lia)) as E'. unfold bg_ctx, bg_open in E'. cbn [mrun] in E'. rewrite E', N1, Ok.
      unfold bg_commit. rewrite Lk. reflexivity.
    - intros i. unfold bg_ctx. rewrite view_root by (rewrite G; now apply g_reachable_wf). reflexivity.
    - intros t Ne. apply nth_alter_other. auto.
  Qed.

  (** C112: starting a transaction, or asking for a guard, blocks because of that schema's own lock only: never because of what is
      open in the others. *)
  Theorem C112_blocks_on_its_own_schema_only :
    forall (scs : list mschema) s (ws : list world) (w : world), state_of s ws w ->
      (forall crash body,
         (w_lock w <> GFree -> mends scs ws (MWith s (TxBg crash) body MRet) ws OHang) /\
         (w_lock w = GFree -> forall ws1 o, mends scs (put s (bg_open w) ws) (body (bg_ctx w)) ws1 o -> comes_back o ->
            exists ws' o', mends scs ws (MWith s (TxBg crash) body MRet) ws' o' /\ comes_back o')) /\
      (forall body,
         (w_lock w <> GFree -> mends scs ws (MWrite s body MRet) ws OHang) /\
         (w_lock w = GFree -> forall ws1 o, mends scs (put s (set_lock GWrite w) ws) body ws1 o -> comes_back o ->
            exists ws', mends scs ws (MWrite s body MRet) ws' o)) /\
      (forall body,
         (w_lock w = GTx \/ w_lock w = GWrite -> mends scs ws (MRead s body MRet) ws OHang) /\
         (forall l, glock_read (w_lock w) = Some l -> forall ws1 o, mends scs (put s (set_lock l w) ws) body ws1 o -> comes_back o ->
            exists ws', mends scs ws (MRead s body MRet) ws' o)).
  Proof.
    intros scs s ws w N. unfold state_of in N. split; [|split].
    - intros crash body. split.
      + intros L. exists 1. cbn [mrun]. rewrite N. destruct (w_lock w); [contradiction|reflexivity..].
      + intros L ws1 o [fuel E] B. rewrite <- (alter_put bg_open s ws w N) in E.
        pose proof (mrun_length scs _ _ _ _ _ E) as Len. rewrite alter_length in Len.
        assert (N1 : exists w1, nth_error ws1 s = Some w1).
        { destruct (nth_error ws1 s) eqn:Q; [eauto|]. apply nth_error_None in Q. rewrite Len in Q. apply nth_error_None in Q. congruence. }
        destruct N1 as [w1 N1].
        pose proof (mrun_mono scs _ _ _ _ E (S fuel) ltac:(lia)) as E'. unfold bg_ctx, bg_open in E'.
        destruct o as [r| | |]; try destruct B.
        * destruct (is_ok r) eqn:Ok.
          -- destruct (bg_commit crash (length (w_heap w)) w1) as [w2 [|]] eqn:C.
             ++ eexists _, OPanic. split; [|exact I]. exists (S (S fuel)). cbn [mrun]. rewrite N, L. cbn [mrun] in E'. rewrite E', N1, Ok, C. reflexivity.
             ++ eexists _, (ORet r). split; [|exact I]. exists (S (S fuel)). cbn [mrun]. rewrite N, L. cbn [mrun] in E'. rewrite E', N1, Ok, C. reflexivity.
          -- eexists _, (ORet r). split; [|exact I]. exists (S (S fuel)). cbn [mrun]. rewrite N, L. cbn [mrun] in E'. rewrite E', N1, Ok. reflexivity.
        * eexists _, OPanic. split; [|exact I]. exists (S (S fuel)). cbn [mrun]. rewrite N, L. cbn [mrun] in E'. rewrite E'. reflexivity.
    - intros body. split.
      + intros L. exists 1. cbn [mrun]. rewrite N. destruct (w_lock w); [contradiction|reflexivity..].
      + intros L ws1 o [fuel E] B. rewrite <- (alter_put (set_lock GWrite) s ws w N) in E.
        pose proof (mrun_mono scs _ _ _ _ E (S fuel) ltac:(lia)) as E'.
        destruct o as [r| | |]; try destruct B; eexists; exists (S (S fuel)); cbn [mrun]; rewrite N, L; cbn [mrun] in E'; rewrite E'; reflexivity.
    - intros body. split.
      + intros L. exists 1. cbn [mrun]. rewrite N. destruct L as [-> | ->]; reflexivity.
      + intros l L ws1 o [fuel E] B. rewrite <- (alter_put (set_lock l) s ws w N) in E.
        pose proof (mrun_mono scs _ _ _ _ E (S fuel) ltac:(lia)) as E'.
        destruct o as [r| | |]; try destruct B; eexists; exists (S (S fuel)); cbn [mrun]; rewrite N, L; cbn [mrun] in E'; rewrite E'; reflexivity.
  Qed.
End Properties.

Print Assumptions C109_alone_among_many.
Print Assumptions C109_unused_are_left_alone.
Print Assumptions C110_seen_from_one_schema.
Print Assumptions C110_all_locks_released.
Print Assumptions C111_failed_tx_undoes_its_schema_only.
Print Assumptions C111_ok_publishes_in_its_schema.
Print Assumptions C112_blocks_on_its_own_schema_only.

(** ** Concrete cases *)
Notation mdschema := (mschema nat dnode nat nat).
Notation mdprog := (mprog nat dnode nat nat).

(** Schema 0 mirrors in schema 1 what is saved to it, before saving it, and rejects node 9; schema 1 has a trigger that announces. *)
Definition on_target_of (s : nat) (f : dnode -> mdprog) : mtrigger nat dnode nat nat := fun c =>
  MAccess Shared [(s, target_of c)] (fun vs => match vs with [(_, (_, DNode n))] => f n | _ => MPanic end)
    (fun r => match r with Some r => MRet r | None => MRet RUnit end).
Definition mirror (t : nat) : mtrigger nat dnode nat nat := on_target_of 0 (fun n => on t (p_save n (TxBg None) PRet)).
Definition reject9 : mtrigger nat dnode nat nat :=
  on_target_of 0 (fun n => if Nat.eqb (d_id n) 9 then MRet (RErr Noop) else MRet RUnit).
Definition announces : mtrigger nat dnode nat nat := on_target_of 1 (fun n => MEmit (d_id n) (MRet RUnit)).

Definition two : list mdschema := [MSchema [] [(BeforeSave, [mirror 1; reject9])]; MSchema [] [(AfterSave, [announces])]].
Definition two_w : list (world nat dnode nat nat) :=
  [World (g_from_iter [n_ 1 10]) GFree false [] [] [] []; World (g_from_iter [n_ 2 20]) GFree false [] [] [] []].

Definition seen_after (p : mdprog) : option (list (list dnode) * list (list nat) * outcome nat) :=
  option_map (fun x => (map (fun w => g_iter (w_graph w)) (fst x), map w_out (fst x), snd x)) (mrun two 100 two_w p).

(** C109: saving to schema 1 does not concern schema 0. *)
Example C109_case :
  seen_after (on 1 (p_save (n_ 3 30) (TxBg None) PRet)) = Some ([[n_ 1 10]; [n_ 2 20; n_ 3 30]], [[3]; [3]], ORet RUnit).
Proof. reflexivity. Qed.

Example C109_unused :
  triggers_only_use (fun s => s = 1) two /\ only_uses (fun s => s = 1) (on 1 (p_save (n_ 3 30) (TxBg None) PRet) : mdprog).
Proof.
  split.
  - intros s sc x ts t c -> E J K. injection E as <-. destruct J as [J|[]]. injection J as <- <-. destruct K as [<-|[]].
    cbn. split; [intros s h [J|[]]; now injection J|]. split; [|intros [r|]; exact I].
    intros [|[? [? [?|? ?]]] [|? ?]]; exact I.
  - cbn. split; [reflexivity|]. split; [|intros r; exact I]. intros c. split; [reflexivity|].
    intros [| | |c'| |]; cbn; auto. split; [reflexivity|]. intros [| |e]; cbn; auto.
    + split; [intros s h [J|[]]; now injection J|]. split; [intros [|[? [? [?|? ?]]] [|? ?]]; cbn; auto|].
      intros [r|]; (split; [reflexivity|]); intros [| |e]; exact I.
    + split; [intros s h [J|[]]; now injection J|]. split; [intros [|[? [? [?|? ?]]] [|? ?]]; cbn; auto|].
      intros [r|]; (split; [reflexivity|]); intros [| |e]; exact I.
Qed.

(** C110, C111: node 3 is saved to both; node 9 is rejected by schema 0, and its mirror stays. *)
Example C111_case :
  seen_after (on 0 (p_save (n_ 3 30) (TxBg None) PRet)) = Some ([[n_ 1 10; n_ 3 30]; [n_ 2 20; n_ 3 30]], [[3]; [3]], ORet RUnit) /\
  seen_after (on 0 (p_save (n_ 9 90) (TxBg None) PRet)) = Some ([[n_ 1 10]; [n_ 2 20; n_ 9 90]], [[9]; [9]], ORet (RErr Noop)).
Proof. split; reflexivity. Qed.

(** C111: a sub-transaction on the outer transaction's context is undone with it; one on another schema is not. *)
Example C111_nested :
  seen_after (MWith 0 (TxBg None) (fun c0 =>
      MCall (on 0 (p_save (n_ 4 40) (TxFg c0) PRet)) (fun _ =>
        MWith 1 (TxBg None) (fun c1 => MDo 1 (KSave c1 (n_ 5 50)) (fun _ => MRet RUnit)) (fun _ => MRet (RErr Noop)))) MRet) =
  Some ([[n_ 1 10]; [n_ 2 20; n_ 4 40; n_ 5 50]], [[4]; [4]], ORet (RErr Noop)).
Proof. reflexivity. Qed.

(** C112: nested in either order, two transactions do not block one another; two on the same schema do, and so does saving to 0
    inside a transaction of 1, which the trigger of 0 starts another one of. *)
Example C112_case :
  map (fun st => option_map snd (mrun two 100 two_w (MWith (fst st) (TxBg None) (fun _ => MWith (snd st) (TxBg None) (fun _ => MRet RUnit) MRet) MRet)))
    [(0, 1); (1, 0); (0, 0); (1, 1)] = [Some (ORet RUnit); Some (ORet RUnit); Some OHang; Some OHang] /\
  option_map snd (mrun two 100 two_w (MWith 1 (TxBg None) (fun _ => on 0 (p_save (n_ 3 30) (TxBg None) PRet)) MRet)) = Some OHang.
Proof. split; reflexivity. Qed.
