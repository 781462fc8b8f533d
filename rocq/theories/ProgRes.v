(** Facts about accesses to resources and targets. *)
From Coq Require Import List Bool Arith Lia.
From Verif Require Import Ord OrdFacts BTree BTreeFacts Graph GraphFacts Tx TxMachine SpecTx TxFacts Prog SpecProg
  ProgFacts ProgFrame ProgTx ProgOps.
Import ListNotations.

Section Res.
  Context {Id Node V U : Type} `{HO : OrdT Id} `{HI : Identify Node Id}.
  Notation prog := (prog Id Node V U).
  Notation world := (world Id Node V U).
  Notation schema := (schema Id Node V U).
  Notation outcome := (outcome V).
  Notation trigger := (trigger Id Node V U).
  Notation dyn := (dyn Node U).
  Notation cell := (cell Node U).

  (** ** One cell through acquiring and releasing *)

  Lemma unlock_lock_cell m (x : cell) : blocked m (c_lock x) = false -> unlock_cell false (lock_cell m x) = x.
  Proof. intros B. destruct x as [v p l]. unfold unlock_cell, lock_cell; cbn in *. now rewrite unlock_lock, orb_false_r. Qed.

  Lemma release_untouched p held : forall (cs : list cell) a, ~ In (Some a) held -> nth_error (release p held cs) a = nth_error cs a.
  Proof.
    induction held as [|[n|] held IH]; intros cs a N; cbn; [reflexivity| |apply IH; intros I; apply N; now right].
    rewrite nth_error_alter. destruct (Nat.eqb_spec n a) as [->|_]; [exfalso; apply N; now left|].
    apply IH. intros I. apply N. now right.
  Qed.

  Lemma acquire_untouched m hs : forall (cs cs' : list cell) held a, acquire m hs cs = AcqOk _ cs' held ->
    ~ In (Some a) held -> nth_error cs' a = nth_error cs a.
  Proof.
    induction hs as [|h hs IH]; intros cs cs' held a A N; cbn in A; [injection A as <- <-; reflexivity|].
    destruct (acquire1 m h cs) as [cs1 o| |] eqn:A1; try discriminate.
    destruct (acquire m hs cs1) as [cs2 l| |] eqn:A2; try discriminate. injection A as <- <-.
    rewrite (IH _ _ _ a A2) by (intros I; apply N; now right).
    destruct (acquire1_spec _ _ _ _ _ A1) as [[-> ->]|(n & x & -> & _ & Nn & B & P & ->)]; [reflexivity|].
    rewrite nth_error_alter. destruct (Nat.eqb_spec n a) as [->|_]; [|reflexivity]. exfalso. apply N. now left.
  Qed.

  Lemma acquire_held m hs : forall (cs cs' : list cell) held a, acquire m hs cs = AcqOk _ cs' held ->
    In (Some a) held -> exists h, In h hs /\ h_addr h = Some a.
  Proof.
    induction hs as [|h hs IH]; intros cs cs' held a A N; cbn in A; [injection A as <- <-; destruct N|].
    destruct (acquire1 m h cs) as [cs1 o| |] eqn:A1; try discriminate.
    destruct (acquire m hs cs1) as [cs2 l| |] eqn:A2; try discriminate. injection A as <- <-.
    destruct N as [->|N].
    - destruct (acquire1_spec _ _ _ _ _ A1) as [[? _]|(n & x & E & Hh & _)]; [discriminate|].
      injection E as <-. exists h. split; [now left|assumption].
    - destruct (IH _ _ _ _ A2 N) as (h' & I & E). exists h'. split; [now right|assumption].
  Qed.

  (** Releasing without poisoning gives the cell back as it was, if nothing happened to it meanwhile. *)
  Lemma release_same m hs : forall (cs cs' : list cell) held, acquire m hs cs = AcqOk _ cs' held ->
    forall cs'' a, nth_error cs'' a = nth_error cs' a -> nth_error (release false held cs'') a = nth_error cs a.
  Proof.
    induction hs as [|h hs IH]; intros cs cs' held A cs'' a E; cbn in A; [injection A as <- <-; exact E|].
    destruct (acquire1 m h cs) as [cs1 o| |] eqn:A1; try discriminate.
    destruct (acquire m hs cs1) as [cs2 l| |] eqn:A2; try discriminate. injection A as <- <-.
    specialize (IH _ _ _ A2 cs'' a E).
    destruct (acquire1_spec _ _ _ _ _ A1) as [[-> ->]|(n & x & -> & _ & Nn & B & P & ->)]; [exact IH|].
    cbn [release]. rewrite nth_error_alter in IH |- *. destruct (Nat.eqb_spec n a) as [->|_]; [|exact IH].
    rewrite IH, Nn. cbn. f_equal. now apply unlock_lock_cell.
  Qed.

  (** A cell being read cannot be taken exclusively, and is still being read when taken again. *)
  Lemma acquire_readers m hs : forall (cs cs' : list cell) held a x n, acquire m hs cs = AcqOk _ cs' held ->
    nth_error cs a = Some x -> c_lock x = Readers n ->
    (exists n', nth_error cs' a = Some (Cell (c_val x) (c_poison x) (Readers n'))) /\
    (m = Excl -> ~ In (Some a) held).
  Proof.
    induction hs as [|h hs IH]; intros cs cs' held a x n A N L; cbn in A.
    - injection A as <- <-. split; [exists n; rewrite N; destruct x; cbn in *; congruence|intros _ []].
    - destruct (acquire1 m h cs) as [cs1 o| |] eqn:A1; try discriminate.
      destruct (acquire m hs cs1) as [cs2 l| |] eqn:A2; try discriminate. injection A as <- <-.
      destruct (acquire1_spec _ _ _ _ _ A1) as [[-> ->]|(n' & x' & -> & _ & Nn & B & P & ->)].
      + destruct (IH _ _ _ _ _ _ A2 N L) as [E H]. split; [exact E|]. intros M [D|I]; [discriminate|]. now apply H in I.
      + destruct (Nat.eq_dec n' a) as [->|Ne].
        * rewrite N in Nn. injection Nn as <-. rewrite L in B. destruct m; [|discriminate].
          assert (N1 : nth_error (alter (lock_cell Shared) a cs) a = Some (lock_cell Shared x))
            by (rewrite nth_error_alter, Nat.eqb_refl, N; reflexivity).
          destruct (IH _ _ _ _ _ (S n) A2 N1) as [[n2 E] _]; [unfold lock_cell; cbn; now rewrite L|].
          split; [exists n2; exact E|discriminate].
        * assert (N1 : nth_error (alter (lock_cell m) n' cs) a = Some x)
            by (rewrite nth_error_alter; destruct (Nat.eqb_spec n' a); [contradiction|exact N]).
          destruct (IH _ _ _ _ _ n A2 N1 L) as [E H]. split; [exact E|]. intros M [D|I]; [congruence|]. now apply H in I.
  Qed.

  (** A Shared access releases without poisoning. *)
  Lemma release_mode m hs (cs cs' : list cell) held : acquire m hs cs = AcqOk _ cs' held ->
    forall cs'' a, (m = Excl -> ~ In (Some a) held) -> nth_error cs'' a = nth_error cs' a ->
      nth_error (release (poisons m) held cs'') a = nth_error cs a.
  Proof.
    intros A cs'' a N E. destruct m; cbn [poisons]; [now apply (release_same Shared hs cs cs')|].
    rewrite release_untouched by auto. rewrite E. apply (acquire_untouched Excl hs cs cs' held); auto.
  Qed.

  (** ** A cell being read never changes *)
  Lemma exec_readers sc (w : world) (p : prog) w' o : exec sc w p w' o ->
    forall a x n, nth_error (w_cells w) a = Some x -> c_lock x = Readers n -> nth_error (w_cells w') a = Some x.
  Proof.
    induction 1; intros a0 x0 n0 N L; try assumption;
      try (eapply IHexec2; [eapply IHexec1; [exact N|exact L]|exact L]);
      try (eapply IHexec; [exact N|exact L]).
    - (* bg ok *) apply bg_commit_graph in H2 as [ops ->]. eapply IHexec2; [|exact L]. cbn. eapply IHexec1; [exact N|exact L].
    - apply bg_commit_graph in H2 as [ops ->]. cbn. eapply IHexec; [exact N|exact L].
    - eapply IHexec2; [|exact L]. unfold close, fg_commit.
      destruct (leaked w1 (length (w_heap w))); cbn; (eapply IHexec1; [exact N|exact L]).
    - (* target *) eapply IHexec; [|exact L]. cbn. rewrite nth_error_app1; [exact N|]. apply nth_error_Some. congruence.
    - (* absent *) eapply IHexec; [|exact L]. cbn. rewrite (release_same _ _ _ _ _ H); auto.
    - (* access *) eapply IHexec2; [|exact L]. cbn.
      destruct (acquire_readers _ _ _ _ _ _ _ _ H N L) as [[n' E] _].
      rewrite (release_same _ _ _ _ _ H); [exact N|]. rewrite E. eapply IHexec1; [exact E|reflexivity].
    - destruct (acquire_readers _ _ _ _ _ _ _ _ H N L) as [[n' E] X]. cbn.
      rewrite (release_mode _ _ _ _ _ H); [exact N|exact X|]. rewrite E. eapply IHexec; [exact E|reflexivity].
    - (* poke *) eapply IHexec; [|exact L]. cbn. rewrite nth_error_alter.
      destruct (Nat.eqb_spec a a0) as [->|_]; [congruence|exact N].
  Qed.

  (** ** A cell that is left alone never changes *)
  Lemma leaves_try (sc : schema) a c (ts : list trigger) :
    (forall t, In t ts -> leaves_alone sc a (t c)) -> leaves_alone sc a (try_for_each ts c).
  Proof.
    induction ts as [|t ts IH]; intros T; cbn; [exact I|]. split; [apply T; now left|].
    assert (R : leaves_alone sc a (try_for_each ts c)) by (apply IH; intros; apply T; now right).
    intros [| |e]; cbn; auto.
  Qed.

  Lemma leaves_select (sc : schema) a s c : triggers_leave_alone sc a -> ctx_target c <> Some a ->
    leaves_alone sc a (select_execute (ts_select (sc_triggers sc) s) c).
  Proof.
    intros T C. specialize (T s). unfold scheduled in T.
    destruct (ts_select (sc_triggers sc) s) as [l|]; [|exact I]. cbn [select_execute]. apply leaves_try. intros t J. now apply T.
  Qed.

  Lemma deref_all_addrs m hs : forall (cs cs' c : list cell) held vs, acquire m hs cs = AcqOk _ cs' held -> deref_all c hs held = Some vs ->
    map (fun v => Some (fst v)) vs = map h_addr hs.
  Proof.
    induction hs as [|h0 hs IH]; intros cs cs' c held vs A D; cbn in A; [injection A as <- <-; injection D as <-; reflexivity|].
    destruct (acquire1 m h0 cs) as [cs1 o| |] eqn:A1; try discriminate.
    destruct (acquire m hs cs1) as [cs2 l| |] eqn:A2; try discriminate. injection A as <- <-. cbn in D.
    destruct (deref1 c h0 o) as [v|] eqn:D1; [|discriminate]. destruct (deref_all c hs l) as [vs'|] eqn:D2; [|discriminate].
    injection D as <-. cbn [map]. f_equal; [|eapply IH; eauto].
    destruct (acquire1_spec _ _ _ _ _ A1) as [[-> _]|(n & x & -> & -> & _)]; [discriminate|].
    unfold deref1 in D1. destruct (nth_error c n) as [y|]; [|discriminate]. destruct (ty_eqb _ _); [|discriminate].
    now injection D1 as <-.
  Qed.

  Lemma exec_left_alone (sc : schema) a : triggers_leave_alone sc a -> forall (w : world) (p : prog) w' o, exec sc w p w' o ->
    leaves_alone sc a p -> a < length (w_cells w) -> nth_error (w_cells w') a = nth_error (w_cells w) a.
  Proof.
    intros T. induction 1; intros LA Lt; cbn [leaves_alone] in LA; try reflexivity;
      try (apply IHexec; [exact LA || exact (LA _)|exact Lt]);
      try (destruct LA as [LA1 LA2]);
      try (assert (E1 : nth_error (w_cells w1) a = nth_error (w_cells w) a) by
             (apply IHexec1; [exact LA1 || exact (LA1 _)|exact Lt]);
           assert (L1 : a < length (w_cells w1)) by (apply nth_error_Some; rewrite E1; now apply nth_error_Some);
           rewrite <- E1; apply IHexec2; [exact (LA2 _)|exact L1]);
      try (apply IHexec; [exact LA1 || exact (LA1 _) || exact LA2|exact Lt]).
    - (* bg ok *) apply bg_commit_graph in H2 as [ops ->].
      assert (E1 : nth_error (w_cells w1) a = nth_error (w_cells w) a) by (apply IHexec1; [exact (LA1 _)|exact Lt]).
      assert (L1 : a < length (w_cells w1)) by (apply nth_error_Some; rewrite E1; now apply nth_error_Some).
      rewrite <- E1. apply IHexec2; [exact (LA2 _)|exact L1].
    - apply bg_commit_graph in H2 as [ops ->]. cbn. apply IHexec; [exact (LA1 _)|exact Lt].
    - (* fg ok *)
      assert (E1 : nth_error (w_cells w1) a = nth_error (w_cells w) a) by (apply IHexec1; [exact (LA1 _)|exact Lt]).
      assert (L1 : a < length (w_cells w1)) by (apply nth_error_Some; rewrite E1; now apply nth_error_Some).
      assert (C : w_cells (close (length (w_heap w)) (fg_commit c (length (w_heap w)) w1)) = w_cells w1)
        by (unfold close, fg_commit; destruct (leaked w1 _); reflexivity).
      rewrite <- E1, <- C. apply IHexec2; [exact (LA2 _)|now rewrite C].
    - (* target *)
      assert (E : nth_error (w_cells w ++ [Cell (DNode n) false Free]) a = nth_error (w_cells w) a)
        by (now rewrite nth_error_app1).
      rewrite <- E. apply IHexec; [apply LA; lia|]. cbn. rewrite app_length. lia.
    - (* triggers *)
      assert (E1 : nth_error (w_cells w1) a = nth_error (w_cells w) a)
        by (apply IHexec1; [now apply leaves_select|exact Lt]).
      assert (L1 : a < length (w_cells w1)) by (apply nth_error_Some; rewrite E1; now apply nth_error_Some).
      rewrite <- E1. apply IHexec2; [exact (LA2 _)|exact L1].
    - apply IHexec; [now apply leaves_select|exact Lt].
    - (* absent *) destruct LA2 as [_ LA2].
      assert (E : nth_error (release false held cs) a = nth_error (w_cells w) a) by (eapply release_same; eauto).
      rewrite <- E. apply IHexec; [exact (LA2 _)|]. cbn. apply nth_error_Some. rewrite E. now apply nth_error_Some.
    - (* access *) destruct LA2 as [LB LA2].
      assert (Lc : a < length cs) by (now rewrite (acquire_length _ _ _ _ _ H)).
      assert (E1 : nth_error (w_cells w1) a = nth_error cs a) by (apply IHexec1; [apply LB; eapply deref_all_addrs; eauto|exact Lc]).
      assert (E : nth_error (release false held (w_cells w1)) a = nth_error (w_cells w) a) by (eapply release_same; eauto).
      rewrite <- E. apply IHexec2; [exact (LA2 _)|]. cbn. apply nth_error_Some. rewrite E. now apply nth_error_Some.
    - destruct LA2 as [LB LA2]. cbn.
      assert (Lc : a < length cs) by (now rewrite (acquire_length _ _ _ _ _ H)).
      assert (E1 : nth_error (w_cells w1) a = nth_error cs a) by (apply IHexec; [apply LB; eapply deref_all_addrs; eauto|exact Lc]).
      eapply release_mode; [exact H| |exact E1]. intros M I. destruct (acquire_held _ _ _ _ _ _ H I) as (h & Ih & Eh).
      exact (LA1 M h Ih Eh).
    - (* poke *)
      assert (E : nth_error (alter (fun x => Cell d (c_poison x) (c_lock x)) a0 (w_cells w)) a = nth_error (w_cells w) a).
      { rewrite nth_error_alter. destruct (Nat.eqb_spec a0 a); [contradiction|reflexivity]. }
      rewrite <- E. apply IHexec; [exact LA2|]. cbn. now rewrite alter_length.
  Qed.

  Lemma leaves_question (sc : schema) a (r : res V) (p : prog) : leaves_alone sc a p -> leaves_alone sc a (try_ r p).
  Proof. destruct r; cbn [try_]; auto. intros _. exact I. Qed.

  Lemma leaves_save (sc : schema) a n t k : (forall r, leaves_alone sc a (k r)) -> leaves_alone sc a (p_save n t k).
  Proof.
    intros K.
    assert (B : forall c, leaves_alone sc a (save_body n c)).
    { intros c a' Ne. assert (T : ctx_target (ctx_with_target c a') <> Some a) by (destruct c; cbn; congruence).
      split; [exact T|]. intros r. apply leaves_question. cbn [leaves_alone]. split; [discriminate|]. split.
      - intros [|[b [m|t' u]] [|v vs]] _; exact I.
      - intros _. split; [exact T|]. intros r'. apply leaves_question. exact I. }
    destruct t as [o|c]; (split; [intros b; apply B|exact K]).
  Qed.

  Lemma leaves_delete (sc : schema) a i t k : (forall r, leaves_alone sc a (k r)) -> leaves_alone sc a (p_delete i t k).
  Proof.
    intros K.
    assert (B : forall c, leaves_alone sc a (delete_body i c)).
    { intros c [n|]; [|exact I]. intros a' Ne. assert (T : ctx_target (ctx_with_target c a') <> Some a) by (destruct c; cbn; congruence).
      split; [exact T|]. intros r. apply leaves_question. cbn [leaves_alone]. split; [exact T|]. intros r'. apply leaves_question. exact I. }
    destruct t as [o|c]; (split; [intros b; apply B|exact K]).
  Qed.

  Lemma reads_cell (w w' : world) h : (forall a, h_addr h = Some a -> nth_error (w_cells w') a = nth_error (w_cells w) a) ->
    reads w' h = reads w h.
  Proof. intros E. unfold reads. destruct (h_addr h) as [a|]; [|reflexivity]. now rewrite E. Qed.

  (** ** What an access does *)
  Definition sig (x : cell) := (c_val x, c_poison x).

  Lemma sig_alter m a (cs : list cell) : map sig (alter (lock_cell m) a cs) = map sig cs.
  Proof. revert a. induction cs as [|x cs IH]; intros [|a]; cbn; auto. now rewrite IH. Qed.

  Lemma sig_release held : forall cs : list cell, map sig (release false held cs) = map sig cs.
  Proof.
    assert (X : forall (cs : list cell) n, map sig (alter (unlock_cell false) n cs) = map sig cs).
    { induction cs as [|x cs IH]; intros [|n]; cbn [alter map]; auto; [|now rewrite IH].
      f_equal. unfold sig, unlock_cell; cbn. now rewrite orb_false_r. }
    induction held as [|[n|] held IH]; intros cs; cbn [release]; auto. now rewrite X.
  Qed.

  Lemma sig_acquire m hs : forall (cs cs' : list cell) held, acquire m hs cs = AcqOk _ cs' held -> map sig cs' = map sig cs.
  Proof.
    induction hs as [|h hs IH]; intros c cs held A; cbn in A; [injection A as <- <-; reflexivity|].
    destruct (acquire1 m h c) as [cs1 o| |] eqn:A1; try discriminate.
    destruct (acquire m hs cs1) as [cs2 l| |] eqn:A2; try discriminate. injection A as <- <-.
    rewrite (IH _ _ _ A2). destruct (acquire1_spec _ _ _ _ _ A1) as [[_ ->]|(n & x & _ & _ & _ & _ & _ & ->)]; [reflexivity|].
    apply sig_alter.
  Qed.

  Definition hold (cs : list cell) (h : handle) : option nat :=
    match h_addr h with
    | Some a => match nth_error cs a with Some (Cell _ false _) => Some a | _ => None end
    | None => None
    end.

  Definition somes (l : list (option nat)) : list nat := flat_map (fun o => match o with Some a => [a] | None => [] end) l.

  Lemma hold_sig (cs cs' : list cell) h : map sig cs' = map sig cs -> hold cs' h = hold cs h.
  Proof.
    intros E. unfold hold. destruct (h_addr h) as [a|]; [|reflexivity].
    assert (X : option_map sig (nth_error cs' a) = option_map sig (nth_error cs a)) by (rewrite <- !nth_error_map; now rewrite E).
    destruct (nth_error cs' a) as [[v p l]|], (nth_error cs a) as [[v' p' l']|]; cbn in X; try discriminate; auto.
    injection X as _ ->. reflexivity.
  Qed.

  Lemma live_somes (w : world) hs : live w hs = somes (map (hold (w_cells w)) hs).
  Proof.
    induction hs as [|h hs IH]; cbn; [reflexivity|]. unfold live in IH. rewrite IH. f_equal. unfold hold.
    destruct (h_addr h) as [a|]; [|reflexivity]. destruct (nth_error (w_cells w) a) as [[v [] l]|]; reflexivity.
  Qed.

  Lemma acquire_available m hs : forall (cs : list cell),
    (forall h a, In h hs -> h_addr h = Some a -> exists x, nth_error cs a = Some x /\
       (c_poison x = true -> blocked m (c_lock x) = false) /\
       (c_poison x = false -> blocked m (c_lock x) = false)) ->
    (m = Excl -> NoDup (somes (map (hold cs) hs))) ->
    exists cs', acquire m hs cs = AcqOk _ cs' (map (hold cs) hs) /\ map sig cs' = map sig cs.
  Proof.
    induction hs as [|h hs IH]; intros cs Av Nd; [exists cs; auto|].
    cbn [acquire map]. unfold acquire1. destruct (h_addr h) as [a|] eqn:Eh.
    - destruct (Av h a (or_introl eq_refl) Eh) as (x & N & B1 & B2). rewrite N.
      assert (B : blocked m (c_lock x) = false) by (destruct (c_poison x); auto). rewrite B.
      destruct x as [v [] l]; cbn [c_poison] in *.
      + destruct (IH cs) as (cs' & A & E); [intros; eapply Av; eauto; now right| |].
        * intros M. specialize (Nd M). cbn in Nd. unfold hold at 1 in Nd. rewrite Eh, N in Nd. exact Nd.
        * rewrite A. exists cs'. unfold hold at 2. rewrite Eh, N. auto.
      + set (cs1 := alter (lock_cell m) a cs).
        assert (Sg : map sig cs1 = map sig cs) by apply sig_alter.
        assert (Hd : map (hold cs1) hs = map (hold cs) hs) by (apply map_ext; intros; now apply hold_sig).
        destruct (IH cs1) as (cs' & A & E).
        * intros h' a' I Eh'. destruct (Av h' a' (or_intror I) Eh') as (y & Ny & C1 & C2). unfold cs1.
          rewrite nth_error_alter. destruct (Nat.eqb_spec a a') as [<-|Ne]; [|exists y; auto].
          rewrite Ny. cbn. eexists. split; [reflexivity|]. rewrite N in Ny. injection Ny as <-. cbn [c_poison c_lock lock_cell].
          split; [discriminate|]. intros _. destruct m; [destruct l; cbn in *; congruence|].
          exfalso. specialize (Nd eq_refl). cbn in Nd. unfold hold at 1 in Nd. rewrite Eh, N in Nd. cbn in Nd.
          apply NoDup_cons_iff in Nd as [Nd _]. apply Nd. apply in_flat_map. exists (Some a). split; [|now left].
          apply in_map_iff. exists h'. split; [|exact I]. unfold hold. now rewrite Eh', N.
        * intros M. rewrite Hd. specialize (Nd M). cbn in Nd. unfold hold at 1 in Nd. rewrite Eh, N in Nd. cbn in Nd.
          now apply NoDup_cons_iff in Nd as [_ Nd].
        * unfold cs1 in A. fold cs1 in A. rewrite Hd in A. rewrite A. exists cs'. unfold hold at 2. rewrite Eh, N. split; [reflexivity|congruence].
    - destruct (IH cs) as (cs' & A & E); [intros; eapply Av; eauto; now right| |].
      + intros M. specialize (Nd M). cbn in Nd. unfold hold at 1 in Nd. rewrite Eh in Nd. exact Nd.
      + rewrite A. exists cs'. unfold hold at 2. rewrite Eh. auto.
  Qed.

  (** Taking one cell twice exclusively blocks. *)
  Lemma acquire_twice hs : forall (cs : list cell),
    (forall h a, In h hs -> h_addr h = Some a -> a < length cs) ->
    ~ NoDup (somes (map (hold cs) hs)) \/
      (exists h a x, In h hs /\ h_addr h = Some a /\ nth_error cs a = Some x /\ c_lock x = Writer) ->
    acquire Excl hs cs = AcqHang _.
  Proof.
    induction hs as [|h hs IH]; intros cs Av D.
    - destruct D as [D|(h & a & x & [] & _)]. exfalso. apply D. constructor.
    - cbn [acquire]. unfold acquire1. destruct (h_addr h) as [a|] eqn:Eh.
      + pose proof (Av h a (or_introl eq_refl) Eh) as La. destruct (nth_error cs a) as [x|] eqn:N; [|apply nth_error_None in N; lia].
        destruct (blocked Excl (c_lock x)) eqn:B; [reflexivity|].
        assert (Fx : c_lock x = Free) by (destruct (c_lock x); cbn in B; congruence).
        destruct (c_poison x) eqn:P.
        * rewrite IH; [reflexivity|intros; eapply Av; eauto; now right|]. destruct D as [D|(h' & a' & x' & [<-|I] & E' & N' & W)].
          -- left. intros K. apply D. cbn. unfold hold at 1. rewrite Eh, N. destruct x as [v [] l]; [exact K|discriminate].
          -- congruence.
          -- right. eauto 8.
        * rewrite IH; [reflexivity|intros; rewrite alter_length; eapply Av; eauto; now right|].
          assert (Hd : map (hold (alter (lock_cell Excl) a cs)) hs = map (hold cs) hs)
            by (apply map_ext; intros; apply hold_sig, sig_alter).
          rewrite Hd.
          destruct (in_dec Nat.eq_dec a (somes (map (hold cs) hs))) as [I|NI].
          -- right. apply in_flat_map in I as (o & Io & Ia). destruct o as [a'|]; [|destruct Ia]. destruct Ia as [->|[]].
             apply in_map_iff in Io as (h' & Ho & Ih). unfold hold in Ho. destruct (h_addr h') as [a'|] eqn:E'; [|discriminate].
             assert (a' = a) as -> by (destruct (nth_error cs a') as [[? [] ?]|]; congruence).
             exists h', a. eexists. split; [exact Ih|]. split; [exact E'|]. rewrite nth_error_alter, Nat.eqb_refl, N. cbn.
             split; reflexivity.
          -- destruct D as [D|(h' & a' & x' & [<-|I] & E' & N' & W)]; [|congruence|].
             ++ left. intros K. apply D. cbn. unfold hold at 1. rewrite Eh, N. destruct x as [v [] l]; [discriminate|].
                cbn. constructor; assumption.
             ++ right. exists h', a'. destruct (Nat.eq_dec a a') as [<-|Ne]; [congruence|].
                exists x'. rewrite nth_error_alter. destruct (Nat.eqb_spec a a'); [contradiction|]. auto.
      + rewrite IH; [reflexivity|intros; eapply Av; eauto; now right|]. destruct D as [D|(h' & a' & x' & [<-|I] & E' & N' & W)].
        * left. intros K. apply D. cbn. unfold hold at 1. rewrite Eh. exact K.
        * congruence.
        * right. eauto 8.
  Qed.

  Lemma deref1_reads (w : world) cs h : map sig cs = map sig (w_cells w) ->
    deref1 cs h (hold (w_cells w) h) = match h_addr h, reads w h with Some a, Some d => Some (a, d) | _, _ => None end.
  Proof.
    intros E. unfold hold, reads. destruct (h_addr h) as [a|]; [|reflexivity].
    assert (X : option_map sig (nth_error cs a) = option_map sig (nth_error (w_cells w) a)) by (rewrite <- !nth_error_map; now rewrite E).
    destruct (nth_error (w_cells w) a) as [[v [] l]|]; cbn [deref1]; auto.
    destruct (nth_error cs a) as [[v' p' l']|]; cbn in X; [|discriminate]. injection X as -> ->. cbn [c_val].
    destruct (ty_eqb (ty_of v) (h_ty h)); reflexivity.
  Qed.

  Lemma deref_all_reads (w : world) cs hs : map sig cs = map sig (w_cells w) ->
    (forall ds, map (reads w) hs = map Some ds ->
       exists l, map h_addr hs = map Some l /\ deref_all cs hs (map (hold (w_cells w)) hs) = Some (combine l ds)) /\
    ((exists h, In h hs /\ reads w h = None) -> deref_all cs hs (map (hold (w_cells w)) hs) = None).
  Proof.
    intros E. induction hs as [|h hs IH].
    - split; [intros [|d ds] M; [exists []; auto|discriminate]|intros (h & [] & _)].
    - destruct IH as [IH1 IH2]. cbn [map deref_all]. rewrite (deref1_reads w cs h E). split.
      + intros [|d ds] M; [discriminate|]. injection M as Rh M. destruct (IH1 ds M) as (l & El & D).
        rewrite Rh, D. assert (exists a, h_addr h = Some a) as [a Ea] by (unfold reads in Rh; destruct (h_addr h); eauto; discriminate).
        exists (a :: l). rewrite Ea, El. auto.
      + intros (h' & [->|I] & R).
        * rewrite R. now destruct (h_addr h').
        * rewrite IH2 by eauto. destruct (h_addr h), (reads w h); reflexivity.
  Qed.

  (** ** Building *)
  Lemma built_snoc g bs b : built g (bs ++ [b]) = @build_step Id Node V U (built g bs) b.
  Proof. unfold built. now rewrite fold_left_app. Qed.

  Lemma last_resource_snoc t (bs : list (@build Id Node V U)) b : last_resource t (bs ++ [b]) =
    match b with BResource t' u => if Nat.eqb t' t then Some u else last_resource t bs | _ => last_resource t bs end.
  Proof.
    induction bs as [|b' bs IH]; cbn.
    - destruct b; [destruct (Nat.eqb t0 t)|]; reflexivity.
    - rewrite IH. destruct b' as [t' u'|s' t']; destruct b as [t'' u''|s'' t'']; auto.
      destruct (Nat.eqb t'' t); auto.
  Qed.

  Lemma built_resources g bs : let sw := @built Id Node V U g bs in
    bt_sorted (sc_resources (fst sw)) /\
    (forall x, In x (w_cells (snd sw)) -> c_poison x = false /\ c_lock x = Free) /\
    (forall t, reads (snd sw) (res_from (fst sw) t) = option_map (DRes t) (last_resource t bs)) /\
    (forall t a, bt_get t (sc_resources (fst sw)) = Some a -> a < length (w_cells (snd sw))) /\
    (forall t, bt_get t (sc_resources (fst sw)) = None <-> last_resource t bs = None) /\
    (forall t t' a, bt_get t (sc_resources (fst sw)) = Some a -> bt_get t' (sc_resources (fst sw)) = Some a -> t = t').
  Proof.
    cbn zeta. induction bs as [|b bs IH] using rev_ind.
    - cbn. repeat split; try constructor; try tauto; try discriminate.
    - rewrite built_snoc. destruct (built g bs) as [s w]; cbn [fst snd] in IH |- *.
      destruct IH as (So & Cl & Rd & Ad & No & In_).
      destruct b as [t0 u|s0 tr]; cbn [build_step sc_with_resource sc_with_trigger fst snd sc_resources w_cells set_cells].
      + split; [now apply bt_insert_sorted|]. split; [|split; [|split; [|split]]].
        * intros x I. apply in_app_or in I as [I|[<-|[]]]; [auto|split; reflexivity].
        * intros t. rewrite last_resource_snoc. unfold res_from, reads. cbn [h_addr h_ty sc_resources w_cells set_cells].
          rewrite (bt_get_insert _ _ _ _ So). specialize (Rd t). unfold reads, res_from in Rd. cbn [h_addr h_ty] in Rd.
          destruct (Nat.eqb_spec t0 t) as [->|Ne].
          -- rewrite (proj2 (eqb_eq t t) eq_refl). rewrite nth_error_app2, Nat.sub_diag by lia. cbn. now rewrite Nat.eqb_refl.
          -- replace (eqb t0 t) with false by (symmetry; destruct (eqb t0 t) eqn:E; [apply eqb_eq in E; congruence|reflexivity]).
             destruct (bt_get t (sc_resources s)) as [a|] eqn:Ga; [|exact Rd].
             rewrite nth_error_app1 by (eapply Ad; eauto). exact Rd.
        * intros t a. rewrite (bt_get_insert _ _ _ _ So), app_length. cbn. destruct (eqb t0 t); [intros [= <-]; lia|].
          intros E. apply Ad in E. lia.
        * intros t. rewrite (bt_get_insert _ _ _ _ So), last_resource_snoc. destruct (Nat.eqb_spec t0 t) as [->|Ne].
          -- rewrite (proj2 (eqb_eq t t) eq_refl). split; discriminate.
          -- replace (eqb t0 t) with false by (symmetry; destruct (eqb t0 t) eqn:E; [apply eqb_eq in E; congruence|reflexivity]).
             apply No.
        * intros t t' a. rewrite !(bt_get_insert _ _ _ _ So).
          destruct (eqb t0 t) eqn:E1, (eqb t0 t') eqn:E2; try (apply eqb_eq in E1); try (apply eqb_eq in E2); try congruence.
          -- intros [= <-] G. apply Ad in G. lia.
          -- intros G [= <-]. apply Ad in G. lia.
          -- apply In_.
      + split; [exact So|]. split; [exact Cl|]. split; [|split; [exact Ad|split; [|exact In_]]].
        * intros t. rewrite last_resource_snoc. exact (Rd t).
        * intros t. rewrite last_resource_snoc. apply No.
  Qed.
End Res.
