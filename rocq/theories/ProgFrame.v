(** What every program that comes back preserves. *)
From Coq Require Import List Bool Arith Lia.
From Verif Require Import Ord OrdFacts BTree BTreeFacts Graph GraphFacts Tx TxFacts Prog SpecProg ProgFacts.
Import ListNotations.

Section Frame.
  Context {Id Node V U : Type} `{HO : OrdT Id} `{HI : Identify Node Id}.
  Notation prog := (prog Id Node V U).
  Notation world := (world Id Node V U).
  Notation schema := (schema Id Node V U).
  Notation outcome := (outcome V).
  Notation res := (res V).
  Notation trigger := (trigger Id Node V U).
  Notation dyn := (dyn Node U).
  Notation cell := (cell Node U).

  Local Arguments buf_ops : simpl never.

  (** ** Cells *)

  Lemma ty_eqb_eq s t : ty_eqb s t = true <-> s = t.
  Proof.
    destruct s, t; cbn; try (split; congruence). rewrite Nat.eqb_eq. split; congruence.
  Qed.

  Lemma ty_eqb_refl t : ty_eqb t t = true.
  Proof. now apply ty_eqb_eq. Qed.

  Definition cell_le (x y : cell) : Prop :=
    c_lock y = c_lock x /\ ty_of (c_val y) = ty_of (c_val x) /\ (c_poison x = true -> c_poison y = true).

  Definition cells_le (cs cs' : list cell) : Prop :=
    (forall a x, nth_error cs a = Some x -> exists y, nth_error cs' a = Some y /\ cell_le x y) /\
    (forall a y, length cs <= a -> nth_error cs' a = Some y -> c_lock y = Free).

  Lemma cell_le_refl x : cell_le x x.
  Proof. unfold cell_le. auto. Qed.

  Lemma cells_le_refl cs : cells_le cs cs.
  Proof.
    split; [intros a x N; exists x; auto using cell_le_refl|].
    intros a y L N. apply nth_error_None in L. congruence.
  Qed.

  Lemma cells_le_trans cs1 cs2 cs3 : cells_le cs1 cs2 -> cells_le cs2 cs3 -> cells_le cs1 cs3.
  Proof.
    intros [A1 B1] [A2 B2]. split.
    - intros a x N. destruct (A1 a x N) as (y & N2 & L1 & T1 & P1).
      destruct (A2 a y N2) as (z & N3 & L2 & T2 & P2). exists z. split; [assumption|].
      repeat split; try congruence. auto.
    - intros a z L N. destruct (nth_error cs2 a) as [y|] eqn:N2.
      + destruct (A2 a y N2) as (z' & N3 & L2 & _). rewrite N in N3. injection N3 as <-.
        rewrite L2. now apply (B1 a).
      + apply nth_error_None in N2. now apply (B2 a).
  Qed.

  Lemma cells_le_length cs cs' : cells_le cs cs' -> length cs <= length cs'.
  Proof.
    intros [A _]. destruct (Nat.le_gt_cases (length cs) (length cs')) as [L|L]; [assumption|].
    destruct (nth_error cs (length cs')) as [x|] eqn:N; [|apply nth_error_None in N; lia].
    destruct (A _ x N) as (y & N' & _).
    assert (length cs' < length cs') by (apply nth_error_Some; congruence). lia.
  Qed.

  Lemma cells_le_snoc cs x : c_lock x = Free -> cells_le cs (cs ++ [x]).
  Proof.
    intros F. split.
    - intros a y N. exists y. split; [|apply cell_le_refl]. rewrite nth_error_app1; [assumption|].
      apply nth_error_Some. congruence.
    - intros a y L N. rewrite nth_error_app2 in N by assumption.
      destruct (a - length cs) as [|k]; cbn in N; [congruence|destruct k; discriminate].
  Qed.

  Lemma cells_le_poke cs a x d : nth_error cs a = Some x -> ty_eqb (ty_of d) (ty_of (c_val x)) = true ->
    cells_le cs (alter (fun x => Cell d (c_poison x) (c_lock x)) a cs).
  Proof.
    intros N T. apply ty_eqb_eq in T. split.
    - intros a' y N'. rewrite nth_error_alter. destruct (Nat.eqb_spec a a') as [->|Ne].
      + rewrite N' in *. injection N as ->. cbn. eexists. split; [reflexivity|]. repeat split; auto.
      + exists y. auto using cell_le_refl.
    - intros a' y L N'. rewrite nth_error_alter in N'. apply nth_error_None in L. rewrite L in N'.
      destruct (Nat.eqb a a'); discriminate.
  Qed.

  Lemma unlock_lock m l : blocked m l = false -> unlock_rw (lock_rw m l) = l.
  Proof. destruct m, l; cbn; congruence. Qed.

  Lemma acquire_length m hs : forall (cs cs' : list cell) held, acquire m hs cs = AcqOk _ cs' held -> length cs' = length cs.
  Proof.
    induction hs as [|h hs IH]; intros cs cs' held A; cbn in A; [injection A as <- <-; reflexivity|].
    destruct (acquire1 m h cs) as [cs1 a| |] eqn:A1; try discriminate.
    destruct (acquire m hs cs1) as [cs2 l| |] eqn:A2; try discriminate. injection A as <- <-.
    rewrite (IH _ _ _ A2). unfold acquire1 in A1. destruct (h_addr h) as [a'|]; [|congruence].
    destruct (nth_error cs a') as [x|]; [|discriminate]. destruct (blocked m (c_lock x)); [discriminate|].
    destruct (c_poison x); injection A1 as <- <-; [reflexivity|apply alter_length].
  Qed.

  (** What [acquire1] does. *)
  Lemma acquire1_spec m h (cs cs1 : list cell) a : acquire1 m h cs = AcqOk _ cs1 a ->
    (a = None /\ cs1 = cs) \/
    (exists n x, a = Some n /\ h_addr h = Some n /\ nth_error cs n = Some x /\ blocked m (c_lock x) = false /\
       c_poison x = false /\ cs1 = alter (lock_cell m) n cs).
  Proof.
    unfold acquire1. destruct (h_addr h) as [n|]; [|intros [= <- <-]; auto].
    destruct (nth_error cs n) as [x|] eqn:N; [|discriminate].
    destruct (blocked m (c_lock x)) eqn:B; [discriminate|].
    destruct (c_poison x) eqn:P; intros [= <- <-]; [now left|]. right. exists n, x. auto 8.
  Qed.

  (** Releasing what was acquired restores the locks, whatever happened meanwhile. *)
  Lemma release_acquired m p hs : forall (cs cs' : list cell) held, acquire m hs cs = AcqOk _ cs' held ->
    forall cs'', cells_le cs' cs'' -> cells_le cs (release p held cs'').
  Proof.
    induction hs as [|h hs IH]; intros cs cs' held A cs'' Le; cbn in A.
    - injection A as <- <-. exact Le.
    - destruct (acquire1 m h cs) as [cs1 a| |] eqn:A1; try discriminate.
      destruct (acquire m hs cs1) as [cs2 l| |] eqn:A2; try discriminate. injection A as <- <-.
      specialize (IH _ _ _ A2 cs'' Le).
      destruct (acquire1_spec _ _ _ _ _ A1) as [[-> ->]|(n & x & -> & _ & N & B & P & ->)]; [exact IH|].
      cbn [release]. destruct IH as [K1 K2]. split.
      + intros a y Na. rewrite nth_error_alter. specialize (K1 a). rewrite nth_error_alter in K1.
        destruct (Nat.eqb_spec n a) as [->|Ne].
        * rewrite Na in *. injection N as ->. cbn in K1. destruct (K1 _ eq_refl) as (z & Nz & Lz & Tz & Pz).
          rewrite Nz. cbn. eexists. split; [reflexivity|]. unfold cell_le, unlock_cell; cbn in *.
          rewrite Lz. repeat split; auto using unlock_lock. intros E. rewrite Pz by assumption. reflexivity.
        * destruct (K1 y Na) as (z & Nz & Lz). exists z. auto.
      + intros a y La Na. rewrite nth_error_alter in Na. destruct (Nat.eqb_spec n a) as [->|Ne].
        * apply nth_error_None in La. congruence.
        * apply (K2 a); [now rewrite alter_length|assumption].
  Qed.

  (** ** The frame *)
  Definition frozen (l : glock) : Prop := match l with GTx | GReaders _ => True | _ => False end.

  Record framed (w w' : world) : Prop := {
    fr_lock : w_lock w' = w_lock w;
    fr_len : length (w_heap w') = length (w_heap w);
    fr_ops : forall b, exists l, buf_ops (w_heap w') b = buf_ops (w_heap w) b ++ l;
    fr_frozen : frozen (w_lock w) -> w_graph w' = w_graph w;
    fr_wf : g_wf (w_graph w) -> g_wf (w_graph w');
    fr_out : exists l, w_out w' = w_out w ++ l;
    fr_cells : cells_le (w_cells w) (w_cells w');
    fr_leaked : forall b, b < length (w_heap w) -> In b (w_leaked w) -> In b (w_leaked w');
    fr_poison : w_poison w = true -> w_poison w' = true
  }.

  Lemma framed_refl w : framed w w.
  Proof.
    constructor; auto using cells_le_refl.
    - intros b. exists []. now rewrite app_nil_r.
    - exists []. now rewrite app_nil_r.
  Qed.

  Lemma framed_trans w1 w2 w3 : framed w1 w2 -> framed w2 w3 -> framed w1 w3.
  Proof.
    intros A B. constructor.
    - rewrite (fr_lock _ _ B). apply (fr_lock _ _ A).
    - rewrite (fr_len _ _ B). apply (fr_len _ _ A).
    - intros b. destruct (fr_ops _ _ A b) as [l1 E1], (fr_ops _ _ B b) as [l2 E2]. exists (l1 ++ l2).
      now rewrite E2, E1, app_assoc.
    - intros F. rewrite (fr_frozen _ _ B), (fr_frozen _ _ A); auto. now rewrite (fr_lock _ _ A).
    - intros W. apply (fr_wf _ _ B), (fr_wf _ _ A), W.
    - destruct (fr_out _ _ A) as [l1 E1], (fr_out _ _ B) as [l2 E2]. exists (l1 ++ l2). now rewrite E2, E1, app_assoc.
    - eapply cells_le_trans; [apply (fr_cells _ _ A)|apply (fr_cells _ _ B)].
    - intros b L I. apply (fr_leaked _ _ B); [now rewrite (fr_len _ _ A)|]. now apply (fr_leaked _ _ A).
    - intros P. apply (fr_poison _ _ B), (fr_poison _ _ A), P.
  Qed.

  Lemma buf_ops_alter_app (h : heap Id Node) b' l b : exists l', buf_ops (alter (fun o => o ++ l) b' h) b = buf_ops h b ++ l'.
  Proof.
    unfold buf_ops. destruct (Nat.eq_dec b' b) as [->|Ne].
    - destruct (Nat.lt_ge_cases b (length h)) as [L|L].
      + rewrite nth_alter_eq by assumption. eauto.
      + rewrite alter_oob by assumption. exists []. now rewrite app_nil_r.
    - rewrite nth_alter_ne by assumption. exists []. now rewrite app_nil_r.
  Qed.

  Lemma framed_push w b l : framed w (set_heap (alter (fun o => o ++ l) b (w_heap w)) w).
  Proof.
    constructor; cbn; auto using cells_le_refl.
    - apply alter_length.
    - intros b'. apply buf_ops_alter_app.
    - exists []. now rewrite app_nil_r.
  Qed.

  Lemma buf_ops_open (h : heap Id Node) b : buf_ops (h ++ [[]]) b = buf_ops h b.
  Proof.
    unfold buf_ops. destruct (Nat.lt_ge_cases b (length h)) as [L|L]; [now rewrite app_nth1|].
    rewrite app_nth2, (nth_overflow h) by assumption. destruct (b - length h) as [|[|k]]; reflexivity.
  Qed.

  Lemma buf_ops_firstn (h : heap Id Node) n b : b < n -> buf_ops (firstn n h) b = buf_ops h b.
  Proof.
    revert h b. induction n as [|n IH]; intros h b L; [lia|]. destruct h as [|x h]; [reflexivity|].
    destruct b as [|b]; [reflexivity|]. cbn. apply (IH h b). lia.
  Qed.

  (** End of a transaction: what it did to the world inside, with its buffer dropped. *)
  Lemma framed_close w w1 l' (p' : bool) g' h' :
    framed (set_lock l' (set_heap (w_heap w ++ [[]]) w)) w1 ->
    length h' = length (w_heap w1) ->
    (forall b, b < length (w_heap w) -> exists l, buf_ops h' b = buf_ops (w_heap w1) b ++ l) ->
    (frozen (w_lock w) -> g' = w_graph w) ->
    (g_wf (w_graph w) -> g_wf g') ->
    (w_poison w1 = true -> p' = true) ->
    framed w (World g' (w_lock w) p' (firstn (length (w_heap w)) h')
                    (filter (fun b => b <? length (w_heap w)) (w_leaked w1)) (w_cells w1) (w_out w1)).
  Proof.
    intros F Lh Ops Fz Wf Po. destruct F as [Fl Fn Fo Ff Fw Fu Fc Fk Fp]; cbn in *.
    assert (Len : length (firstn (length (w_heap w)) h') = length (w_heap w)).
    { rewrite firstn_length, Lh, Fn, app_length; cbn; lia. }
    constructor; cbn; auto.
    - intros b. destruct (Nat.lt_ge_cases b (length (w_heap w))) as [L|L].
      + rewrite buf_ops_firstn by assumption. destruct (Ops b L) as [l1 ->]. destruct (Fo b) as [l2 ->].
        rewrite buf_ops_open. exists (l2 ++ l1). now rewrite app_assoc.
      + exists []. rewrite app_nil_r. unfold buf_ops. rewrite !nth_overflow; auto. now rewrite Len.
    - intros b L I. apply filter_In. split; [apply Fk; [rewrite app_length; cbn; lia|assumption]|].
      now apply Nat.ltb_lt.
  Qed.

  Lemma crashes_iff k (ops : list (op Id Node)) : crashes k ops = true <-> 0 < length ops /\ k <= length ops.
  Proof. unfold crashes. now rewrite andb_true_iff, Nat.ltb_lt, Nat.leb_le. Qed.

  Lemma crashes_not k (ops : list (op Id Node)) : crashes k ops = false -> firstn k ops = ops.
  Proof.
    unfold crashes. destruct ops as [|x ops]; [intros _; apply firstn_nil|]. cbn [length Nat.ltb Nat.leb andb].
    intros L. apply firstn_all2. destruct k as [|k]; [discriminate|]. apply Nat.leb_gt in L. cbn in *. lia.
  Qed.

  Lemma bg_commit_graph crash b (w w2 : world) x : bg_commit crash b w = (w2, x) ->
    exists ops, w2 = set_graph (apply_ops (w_graph w) ops) w.
  Proof.
    unfold bg_commit. destruct (leaked w b); [intros [= <- <-]; exists []; now destruct w|].
    destruct crash as [k|]; [destruct (crashes k _)|]; intros [= <- <-]; eauto.
  Qed.

  Lemma framed_open w l : framed (set_lock l (set_heap (w_heap w ++ [[]]) w)) (set_lock l (set_heap (w_heap w ++ [[]]) w)).
  Proof. apply framed_refl. Qed.

  Theorem exec_framed sc (w : world) (p : prog) w' o : exec sc w p w' o -> framed w w'.
  Proof.
    induction 1; try apply framed_refl; try assumption.
    - (* emit *) eapply framed_trans; [|exact IHexec]. constructor; cbn; auto using cells_le_refl.
      + intros b. exists []. now rewrite app_nil_r.
      + eauto.
    - eapply framed_trans; eassumption.
    - eapply framed_trans; eassumption.
    - eapply framed_trans; eassumption.
    - (* bg ok *) eapply framed_trans; [|exact IHexec2]. apply bg_commit_graph in H2 as [ops ->].
      unfold close, set_leaked, set_heap, set_lock, set_graph; cbn. rewrite <- H.
      eapply framed_close; [exact IHexec1| | | | |]; auto.
      + intros b L. exists []. now rewrite app_nil_r.
      + rewrite H. intros [].
      + intros W. apply apply_ops_wf, (fr_wf _ _ IHexec1), W.
    - (* bg crash *) apply bg_commit_graph in H2 as [ops ->].
      unfold close, set_poison, set_leaked, set_heap, set_lock, set_graph; cbn. rewrite <- H.
      eapply framed_close; [exact IHexec| | | | |]; auto.
      + intros b L. exists []. now rewrite app_nil_r.
      + rewrite H. intros [].
      + intros W. apply apply_ops_wf, (fr_wf _ _ IHexec), W.
    - (* bg err *) eapply framed_trans; [|exact IHexec2].
      unfold close, set_leaked, set_heap, set_lock, set_graph; cbn. rewrite <- H.
      eapply framed_close; [exact IHexec1| | | | |]; auto.
      + intros b L. exists []. now rewrite app_nil_r.
      + rewrite H. intros [].
      + intros W. apply (fr_wf _ _ IHexec1), W.
    - (* bg panic *)
      unfold close, set_poison, set_leaked, set_heap, set_lock, set_graph; cbn. rewrite <- H.
      eapply framed_close; [exact IHexec| | | | |]; auto.
      + intros b L. exists []. now rewrite app_nil_r.
      + rewrite H. intros [].
      + intros W. apply (fr_wf _ _ IHexec), W.
    - (* fg ok *) eapply framed_trans; [|exact IHexec2]. unfold fg_open in IHexec1.
      assert (K : framed (set_lock (w_lock w) (set_heap (w_heap w ++ [[]]) w)) w1) by exact IHexec1.
      unfold close, fg_commit. pose proof (fr_lock _ _ K) as El. cbn in El.
      destruct (leaked w1 (length (w_heap w))); unfold set_leaked, set_heap; cbn; rewrite El;
        (eapply framed_close; [exact K| | | | |]; auto).
      + intros b L. exists []. now rewrite app_nil_r.
      + intros F. apply (fr_frozen _ _ K), F.
      + intros W. apply (fr_wf _ _ K), W.
      + unfold fg_extend. apply alter_length.
      + intros b L. apply buf_ops_alter_app.
      + intros F. apply (fr_frozen _ _ K), F.
      + intros W. apply (fr_wf _ _ K), W.
    - (* fg err *) eapply framed_trans; [|exact IHexec2].
      assert (K : framed (set_lock (w_lock w) (set_heap (w_heap w ++ [[]]) w)) w1) by exact IHexec1.
      unfold close, set_leaked, set_heap; cbn. pose proof (fr_lock _ _ K) as El. cbn in El. rewrite El.
      eapply framed_close; [exact K| | | | |]; auto.
      + intros b L. exists []. now rewrite app_nil_r.
      + intros F. apply (fr_frozen _ _ K), F.
      + intros W. apply (fr_wf _ _ K), W.
    - (* fg panic *)
      assert (K : framed (set_lock (w_lock w) (set_heap (w_heap w ++ [[]]) w)) w1) by exact IHexec.
      unfold close, set_leaked, set_heap; cbn. pose proof (fr_lock _ _ K) as El. cbn in El. rewrite El.
      eapply framed_close; [exact K| | | | |]; auto.
      + intros b L. exists []. now rewrite app_nil_r.
      + intros F. apply (fr_frozen _ _ K), F.
      + intros W. apply (fr_wf _ _ K), W.
    - eapply framed_trans; [|exact IHexec]. apply framed_push.
    - eapply framed_trans; [|exact IHexec]. apply framed_push.
    - (* target *) eapply framed_trans; [|exact IHexec]. constructor; cbn; auto using cells_le_snoc.
      + intros b. exists []. now rewrite app_nil_r.
      + exists []. now rewrite app_nil_r.
    - (* leak *) eapply framed_trans; [|exact IHexec]. constructor; cbn; auto using cells_le_refl.
      + intros b. exists []. now rewrite app_nil_r.
      + exists []. now rewrite app_nil_r.
    - eapply framed_trans; eassumption.
    - (* read *) eapply framed_trans; [|exact IHexec2]. destruct IHexec1 as [Fl Fn Fo Ff Fw Fu Fc Fk Fp]; cbn in *.
      constructor; cbn; auto.
      + rewrite Fl. destruct (w_lock w); cbn in H; try discriminate; injection H as <-; reflexivity.
      + intros F. apply Ff. destruct (w_lock w); cbn in H; try discriminate; injection H as <-; exact I.
    - destruct IHexec as [Fl Fn Fo Ff Fw Fu Fc Fk Fp]; cbn in *.
      constructor; cbn; auto.
      + rewrite Fl. destruct (w_lock w); cbn in H; try discriminate; injection H as <-; reflexivity.
      + intros F. apply Ff. destruct (w_lock w); cbn in H; try discriminate; injection H as <-; exact I.
    - (* write *) eapply framed_trans; [|exact IHexec2]. destruct IHexec1 as [Fl Fn Fo Ff Fw Fu Fc Fk Fp]; cbn in *.
      constructor; cbn; auto. rewrite H. intros [].
    - destruct IHexec as [Fl Fn Fo Ff Fw Fu Fc Fk Fp]; cbn in *.
      constructor; cbn; auto. rewrite H. intros [].
    - (* graph call *) eapply framed_trans; [|exact IHexec]. constructor; cbn; auto using cells_le_refl, g_wf_step.
      + intros b. exists []. now rewrite app_nil_r.
      + rewrite H. intros [].
      + exists []. now rewrite app_nil_r.
    - (* absent *) eapply framed_trans; [|exact IHexec]. constructor; cbn; auto.
      + intros b. exists []. now rewrite app_nil_r.
      + exists []. now rewrite app_nil_r.
      + eapply release_acquired; [exact H|apply cells_le_refl].
    - (* access *) eapply framed_trans; [|exact IHexec2]. destruct IHexec1 as [Fl Fn Fo Ff Fw Fu Fc Fk Fp]; cbn in *.
      constructor; cbn; auto. eapply release_acquired; [exact H|exact Fc].
    - destruct IHexec as [Fl Fn Fo Ff Fw Fu Fc Fk Fp]; cbn in *.
      constructor; cbn; auto. eapply release_acquired; [exact H|exact Fc].
    - (* poke *) eapply framed_trans; [|exact IHexec]. constructor; cbn; auto.
      + intros b. exists []. now rewrite app_nil_r.
      + exists []. now rewrite app_nil_r.
      + eapply cells_le_poke; eassumption.
  Qed.

  Corollary ends_framed sc (w : world) (p : prog) w' o : ends sc w p w' o -> comes_back o -> framed w w'.
  Proof. intros E B. apply (ends_exec sc w p w' o B) in E. eapply exec_framed; exact E. Qed.
End Frame.
