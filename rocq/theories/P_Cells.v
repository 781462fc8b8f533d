(** C120-C122: guards of targets and resources with any lifetime, in several threads (plotline/src/schema/resource.rs, transaction.rs 193-311). *)
From Coq Require Import List Bool Arith Lia.
From Verif Require Import Tx TxMachine Cells SpecCells CellsFacts.
Import ListNotations.

Section Cells.
  Context {V : Type}.
  Notation kevent := (kevent V).

  (** C120: through a guard that is not empty one sees what was last put there, or what was given. *)
  Theorem C120_sees_the_last_value :
    forall (es : list kevent) t w g x, gives es t w g x -> ~ dropped es g -> ~ leaked_guard es g ->
      exists v, contains_value es x v /\ (forall v', contains_value es x v' -> v' = v) /\ k_says es (t, KDeref g) = KVal (Some v) /\
        (w = true -> forall v', k_says es (t, KMut g v') = KVal (Some v) /\ contains_value (es ++ [(t, KMut g v')]) x v').
  Proof.
    intros es t w g x G D L. destruct (live_own es t w g x G D L) as (k & O & C & W). pose proof (gives_bound es t w g x G) as Lx.
    rewrite <- len_cells in Lx. apply nth_error_Some in Lx. destruct (nth_error (ks_cells (k_after es)) x) as [y|] eqn:Ny; [|contradiction].
    assert (E : cell_value (k_after es) x = Some (kc_value y)) by (unfold cell_value; now rewrite Ny).
    exists (kc_value y). split; [now apply contains_spec|]. split; [intros v' K; apply contains_spec in K; congruence|].
    split; [unfold k_says; cbn; now rewrite O, C, E|]. intros Ew v'. subst w.
    assert (S : k_says es (t, KMut g v') = KVal (Some (kc_value y))) by (unfold k_says; cbn; now rewrite O, Ew, C, E).
    split; [exact S|]. refine (proj2 (contains_put es (t, KMut g v') x v' v' _) eq_refl). exists t, g, (kc_value y). rewrite Ew in G. auto.
  Qed.

  (** While a guard is kept the value changes only through it, and through a read guard not at all. *)
  Theorem C120_held_still :
    forall (es es' : list kevent) w g x v, holding es w g x -> holding (es ++ es') w g x -> (w = true -> forall t v', ~ In (t, KMut g v') es') ->
      (contains_value (es ++ es') x v <-> contains_value es x v).
  Proof. exact value_still. Qed.

  (** C121: an error is logged exactly if the value is spoilt, and the guard is empty exactly if there is no value or it was spoilt by then. *)
  Theorem C121_logged_iff_spoilt :
    forall (es : list kevent) t w h x g l, refers es h x -> k_says es (t, KOpen w h) = KOpened g l ->
      (l = true <-> exists c, x = Some c /\ spoilt es c).
  Proof. exact opens_logged. Qed.

  Theorem C121_empty_exactly :
    forall (es : list kevent) t w g x e1, taken es t w g x e1 -> ~ dropped es g -> ~ leaked_guard es g ->
      (k_says es (t, KDeref g) = KVal None <-> empty_guard es g) /\
      (w = true -> forall v, k_says es (t, KMut g v) = KVal None <-> empty_guard es g).
  Proof. exact deref_none. Qed.

  (** Nobody holds a spoilt value. *)
  Theorem C121_spoilt_is_free : forall (es : list kevent) w g x, spoilt es x -> ~ holding es w g x.
  Proof. exact spoilt_free. Qed.

  (** C122: a request waits exactly while a guard that is not empty excludes it. *)
  Theorem C122_waits_exactly :
    forall (es : list kevent) t e, k_says es (t, e) = KWait <-> exists w h x, e = KOpen w h /\ refers es h (Some x) /\ excluded_from es w x.
  Proof. exact waits_exactly. Qed.

  Theorem C122_exclusive : forall (es : list kevent) w g g' x, holding es true g x -> holding es w g' x -> g = g'.
  Proof. exact exclusive. Qed.

  (** A leaked guard excludes for ever, and the value never changes again. *)
  Theorem C122_leaked_for_ever :
    forall (es es' : list kevent) t w g x, gives es t w g x -> leaked_guard es g ->
      (forall v, contains_value (es ++ es') x v <-> contains_value es x v) /\
      forall t' w' h, (w || w')%bool = true -> refers (es ++ es') h (Some x) -> k_says (es ++ es') (t', KOpen w' h) = KWait.
  Proof.
    intros es es' t w g x G L.
    assert (K : forall es', holding (es ++ es') w g x).
    { intros es0. split; [exists t; now apply gives_app|]. now apply leaked_not_dropped, leaked_app. }
    split.
    - intros v. induction es' as [|ev es' IH] using rev_ind; [now rewrite app_nil_r|]. rewrite <- IH, app_assoc.
      pose proof (K es') as Kh. pose proof Kh as [[t0 G0] _]. apply gives_bound in G0.
      destruct (step_value (es ++ es') ev x v G0) as [E|(t1 & g' & v' & k' & -> & O & Ck & Wk)]; [exact E|]. exfalso.
      apply own_spec in O as (N' & Th & Lv). apply holding_spec in Kh as (k & Nk & Cx & Ww & S).
      assert (g' = g) as -> by (apply (ki_wr _ (kinv_after (es ++ es')) g' g k' k x); auto; rewrite Lv; discriminate).
      assert (Ls : leaked_guard (es ++ es') g) by now apply leaked_app. apply leaked_spec in Ls as (k2 & N2 & S2). congruence.
    - intros t' w' h E R. apply waits_exactly. exists w', h, x. split; [reflexivity|]. split; [exact R|].
      destruct w; [left; exists g; apply K|]. cbn in E. right. split; [exact E|]. exists g. apply K.
  Qed.
End Cells.

(** ** Concrete cases *)

(** Thread 0 sets a target and clones it for thread 1.  Both read at once; a writer waits; then it writes, and a reader sees that. *)
Example C120_case :
  k_answers (V := nat) [(0, KHandle); (0, KSet 0 7); (0, KClone 0); (0, KOpen false 0); (1, KOpen false 1); (0, KOpen true 0); (0, KDeref 0);
                        (0, KDrop 0); (1, KDrop 1); (0, KOpen true 0); (0, KMut 2 8); (1, KOpen false 1); (0, KDrop 2); (1, KOpen false 1); (1, KDeref 3)] =
    [KHandleNo 0; KUnit; KHandleNo 1; KOpened 0 false; KOpened 1 false; KWait; KVal (Some 7);
     KUnit; KUnit; KOpened 2 false; KVal (Some 7); KWait; KUnit; KOpened 3 false; KVal (Some 8)].
Proof. reflexivity. Qed.

(** A write guard dropped by a panic spoils the value: later guards are empty, with an error logged.  One taken and dropped while panicking
    does not; nor does a read guard.  Setting the target anew gives a new value. *)
Example C121_case :
  k_answers (V := nat) [(0, KHandle); (0, KOpen false 0); (0, KDeref 0); (0, KDrop 0); (0, KSet 0 7);
                        (0, KPanic); (0, KOpen true 0); (0, KDrop 1); (0, KCatch); (0, KOpen false 0); (0, KPanic); (0, KDrop 2); (0, KCatch);
                        (0, KOpen true 0); (0, KMut 3 9); (0, KPanic); (0, KDrop 3); (0, KCatch); (0, KOpen false 0); (0, KDeref 4); (0, KDrop 4);
                        (0, KSet 0 1); (0, KOpen false 0); (0, KDeref 5)] =
    [KHandleNo 0; KOpened 0 false; KVal None; KUnit; KUnit;
     KUnit; KOpened 1 false; KUnit; KUnit; KOpened 2 false; KUnit; KUnit; KUnit;
     KOpened 3 false; KVal (Some 7); KUnit; KUnit; KUnit; KOpened 4 true; KVal None; KUnit;
     KUnit; KOpened 5 false; KVal (Some 1)].
Proof. reflexivity. Qed.

(** A leaked reader lets readers in and makes writers wait; an empty guard excludes nobody. *)
Example C122_case :
  k_answers (V := nat) [(0, KHandle); (0, KOpen true 0); (0, KOpen true 0); (0, KDrop 0); (0, KDrop 1); (0, KSet 0 7); (0, KOpen false 0); (0, KLeak 2);
                        (1, KOpen false 0); (1, KDeref 3); (1, KDrop 3); (1, KOpen true 0)] =
    [KHandleNo 0; KOpened 0 false; KOpened 1 false; KUnit; KUnit; KUnit; KOpened 2 false; KUnit;
     KOpened 3 false; KVal (Some 7); KUnit; KWait].
Proof. reflexivity. Qed.

Print Assumptions C120_sees_the_last_value.
Print Assumptions C120_held_still.
Print Assumptions C121_logged_iff_spoilt.
Print Assumptions C121_empty_exactly.
Print Assumptions C121_spoilt_is_free.
Print Assumptions C122_waits_exactly.
Print Assumptions C122_exclusive.
Print Assumptions C122_leaked_for_ever.
