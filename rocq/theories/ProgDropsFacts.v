(** Facts about the nodes of programs. *)
From Coq Require Import List Bool Arith Lia Permutation.
From Verif Require Import Cells Ord OrdFacts BTree BTreeFacts Graph GraphFacts Tx TxMachine Guards SpecGuards GuardsFacts Unwind Prog SpecProg
  ProgFacts ProgTrace SpecTrace SpecCalls Drops SpecDrops DropsFacts SpecProgDrops.
From Verif Require TxMachineFacts.
Import ListNotations.

Section Facts.
  Context {Id Node V U : Type} `{HO : OrdT Id} `{HI : Identify Node Id}.
  Notation graph := (graph Id Node).
  Notation made := (@made Id Node U).
  Notation gevent := (gevent Id Node).
  Notation gout := (gout Id Node).
  Notation gstate := (gstate Id Node).
  Notation state := (@state Id Node U).

  (** The calls answered as they would on their own. *)
  Fixpoint answers_to (st : gstate) (l : list (gevent * gout)) (st' : gstate) : Prop :=
    match l with
    | [] => st = st'
    | (e, a) :: l => snd (g_step st e) = a /\ answers_to (fst (g_step st e)) l st'
    end.

  Lemma told_graph es : forall st st' : state, told st es st' -> answers_to (us_g (fst st)) (on_graph es) (us_g (fst st')).
  Proof.
    induction es as [|x es IH]; cbn [told]; intros st st' T.
    - now subst.
    - destruct T as (st1 & A & T). apply IH in T. destruct x as [e [a lg]|e a|t wr h a]; cbn in A |- *.
      + destruct A as [A _]. destruct e as [e| |]; cbn in A |- *.
        * unfold u_call in A. destruct (g_step (us_g (fst st)) e) as [g' o] eqn:E. cbn. 
          destruct (returned o); injection A as A1 A2; subst; rewrite <- A1 in T; cbn in T; auto.
        * destruct (gs_hung (us_g (fst st))); injection A as A1 A2; subst; rewrite <- A1 in T; cbn in T; auto.
        * destruct (gs_hung (us_g (fst st))); [injection A as A1 A2; subst; rewrite <- A1 in T; cbn in T; auto|].
          destruct (us_panics (fst st)); injection A as A1 A2; subst; rewrite <- A1 in T; cbn in T; auto.
      + destruct A as [_ A]. now rewrite A in T.
      + destruct A as [_ A]. now rewrite A in T.
  Qed.

  Lemma answers_run l : forall st st', answers_to st l st' -> g_run st (map fst l) = (st', map snd l).
  Proof.
    induction l as [|[e a] l IH]; cbn; intros st st' A; [now subst|].
    destruct A as [A1 A2]. destruct (g_step st e) as [st1 o] eqn:E. cbn in *. subst. now rewrite (IH _ _ A2).
  Qed.

  Lemma all_drops_split n b : forall es (st : gstate), In (n, b) (all_drops st es) ->
    exists e1 e e2, es = e1 ++ e :: e2 /\ In (n, b) (drops (fst (g_run st e1)) e).
  Proof.
    induction es as [|e es IH]; cbn [all_drops]; intros st I; [destruct I|]. apply in_app_iff in I as [I|I].
    - exists [], e, es. auto.
    - destruct (IH _ I) as (e1 & e' & e2 & -> & I'). exists (e :: e1), e', e2. split; [reflexivity|]. cbn.
      destruct (g_step st e) as [st1 o]. cbn in I'. now destruct (g_run st1 e1).
  Qed.

  Lemma none_waiting_over g0 (es : list gevent) : g_wf g0 -> (forall c, ~ In (GEvent (ELeakCtx c)) es) ->
    (forall t x, nth_error (p_txs (m_proto (gs_m (g_after g0 es)))) t = Some x -> tx_open x = false) ->
    all_waiting (g_after g0 es) = [].
  Proof.
    intros W NL Cl. unfold all_waiting. rewrite (flat_map_same (fun _ => [])).
    - induction (seq 0 _); [reflexivity|assumption].
    - intros t _. unfold waiting, allocated. destruct (nth_error _ t) as [r|] eqn:N; [|reflexivity]. rewrite (Cl _ _ N). cbn [orb].
      destruct (has_ctx _ t Leaked) eqn:K; [|reflexivity]. exfalso. apply TxMachineFacts.has_ctx_spec in K as [c K]. revert K. now apply no_leaked_ctx.
  Qed.

  Lemma told_history (w : world Id Node V U) (es : list made) k (st' : state) : told (start w, k) es st' ->
    g_after (w_graph w) (map fst (on_graph es)) = us_g (fst st') /\ g_answers (w_graph w) (map fst (on_graph es)) = map snd (on_graph es).
  Proof.
    intros T. apply told_graph in T. apply answers_run in T. unfold g_after, g_answers. cbn in T. now rewrite T.
  Qed.
End Facts.
