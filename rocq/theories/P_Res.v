(** Properties C33-C37, C71, C83: resources and accesses. *)
From Coq Require Import List Bool Arith Lia.
From Coq Require String.
From Verif Require Import Ord OrdFacts BTree BTreeFacts Graph GraphFacts Demo Tx TxMachine SpecTx TxFacts Prog SpecProg
  ProgFacts ProgFrame ProgTx ProgOps ProgRes P_Prog.
Import ListNotations.

Section Properties.
  Context {Id Node V U : Type} `{HO : OrdT Id} `{HI : Identify Node Id}.
  Notation prog := (prog Id Node V U).
  Notation world := (world Id Node V U).
  Notation schema := (schema Id Node V U).
  Notation outcome := (outcome V).
  Notation trigger := (trigger Id Node V U).
  Notation dyn := (dyn Node U).
  Notation cell := (cell Node U).

  (** C33. *)
  Theorem C33_last_resource_found :
    forall g (bs : list (@build Id Node V U)) t,
      let sc := fst (built g bs) in
      reads (snd (built g bs)) (res_from sc t) = option_map (DRes t) (last_resource t bs).
  Proof. intros g bs t. destruct (built_resources g bs) as (_ & _ & R & _). apply R. Qed.

  (** C33: whatever ran before, the handle still finds a value of that type, unless it was poisoned. *)
  Theorem C33_found_ever_after :
    forall g (bs : list (@build Id Node V U)) p (w' : world) o t,
      let sc := fst (built g bs) in
      ends sc (snd (built g bs)) p w' o -> comes_back o ->
      (last_resource t bs = None -> reads w' (res_from sc t) = None) /\
      (last_resource t bs <> None ->
         (poisoned w' (res_from sc t) /\ reads w' (res_from sc t) = None) \/
         (~ poisoned w' (res_from sc t) /\ exists u, reads w' (res_from sc t) = Some (DRes t u))).
  Proof.
    intros g bs p w' o t sc E B. destruct (built_resources g bs) as (_ & _ & R & Ad & No & _).
    fold sc in R, Ad, No. pose proof (fr_cells _ _ (ends_framed sc _ _ _ _ E B)) as [Le _].
    specialize (R t). unfold reads, poisoned, res_from in *. cbn [h_addr h_ty] in *. specialize (No t). specialize (Ad t).
    destruct (bt_get t (sc_resources sc)) as [a|].
    - split; [intros X; apply No in X; discriminate|]. intros _.
      destruct (nth_error (w_cells (snd (built g bs))) a) as [x|] eqn:N; [|specialize (Ad _ eq_refl); apply nth_error_None in N; lia].
      destruct (Le a x N) as ([v q l] & N' & _ & Ty & _). rewrite N'. destruct q.
      + left. split; [|reflexivity]. exists a, (Cell v true l). auto.
      + right. split; [intros (a' & x' & [= <-] & N2 & P); rewrite N' in N2; injection N2 as <-; discriminate|].
        destruct (last_resource t bs) as [u|] eqn:Lr; [|destruct No as [_ No]; discriminate (No eq_refl)].
        destruct x as [v0 [] l0]; cbn in *; [discriminate|].
        destruct (ty_eqb (ty_of v0) (TyRes t)) eqn:T0; [|discriminate]. apply ty_eqb_eq in T0. rewrite Ty, T0, ty_eqb_refl.
        rewrite T0 in Ty. destruct v as [n|t' u']; cbn in Ty; [discriminate|]. injection Ty as ->. eauto.
    - split; [reflexivity|]. intros X. exfalso. apply X, No. reflexivity.
  Qed.

  Lemma list_ext (l1 : list cell) : forall l2, (forall a, nth_error l1 a = nth_error l2 a) -> l1 = l2.
  Proof.
    induction l1 as [|x l1 IH]; intros [|y l2] E; auto.
    - discriminate (E 0).
    - discriminate (E 0).
    - f_equal; [injection (E 0); auto|]. apply IH. intros a. exact (E (S a)).
  Qed.

  Lemma release_all m hs (cs cs' : list cell) held : acquire m hs cs = AcqOk _ cs' held -> release false held cs' = cs.
  Proof. intros A. apply list_ext. intros a. now apply (release_same m hs cs cs' held A). Qed.

  Lemma set_cells_id (w : world) cs : cs = w_cells w -> set_cells cs w = w.
  Proof. intros ->. now destruct w. Qed.

  Lemma available_acquire m (w : world) hs : available m w hs -> (m = Excl -> NoDup (live w hs)) ->
    exists cs, acquire m hs (w_cells w) = AcqOk _ cs (map (hold (w_cells w)) hs) /\ map sig cs = map sig (w_cells w).
  Proof.
    intros Av Nd. apply acquire_available.
    - intros h a I E. destruct (Av h a I E) as (x & N & L). exists x. split; [exact N|].
      assert (B : blocked m (c_lock x) = false) by (destruct m, (c_lock x); cbn; congruence). auto.
    - rewrite <- live_somes. exact Nd.
  Qed.

  (** C35: the closure is run, once, on the current values, with the cells held; then the rest of the
      program, with the cells no longer held. *)
  Theorem C35_runs_once_on_current_values :
    forall (sc : schema) m (w : world) hs ds,
      available m w hs -> (m = Excl -> NoDup (live w hs)) -> map (reads w) hs = map Some ds ->
      exists l wl, map h_addr hs = map Some l /\ same_but_locks w wl /\
        forall body k,
          (forall w1 r, ends sc wl (body (combine l ds)) w1 (ORet r) ->
             exists w2, same_but_locks w1 w2 /\
               (forall a x, nth_error (w_cells w) a = Some x ->
                  exists y, nth_error (w_cells w2) a = Some y /\ c_lock y = c_lock x) /\
               forall w' o, ends sc w (PAccess m hs body k) w' o <-> ends sc w2 (k (Some r)) w' o) /\
          (forall w1, ends sc wl (body (combine l ds)) w1 OPanic -> exists w', ends sc w (PAccess m hs body k) w' OPanic).
  Proof.
    intros sc m w hs ds Av Nd Rd. destruct (available_acquire m w hs Av Nd) as (cs & A & Sg).
    destruct (proj1 (deref_all_reads w cs hs Sg) ds Rd) as (l & El & D).
    exists l, (set_cells cs w). split; [exact El|]. split; [repeat split; exact Sg|]. intros body k. split.
    - intros w1 r E. exists (set_cells (release false (map (hold (w_cells w)) hs) (w_cells w1)) w1). split; [|split].
      + repeat split. apply sig_release.
      + intros a x N. cbn. pose proof (ends_framed sc _ _ _ _ E I) as F.
        destruct (release_acquired m false hs _ _ _ A _ (fr_cells _ _ F)) as [Le _].
        destruct (Le a x N) as (y & Ny & Ly & _). exists y. auto.
      + intros w' o. split.
        * intros [fuel R]. destruct fuel as [|fuel]; [discriminate|]. cbn [run] in R. rewrite A, D in R.
          destruct (run sc fuel (set_cells cs w) (body (combine l ds))) as [[w1' o1]|] eqn:R1; [|discriminate].
          destruct (ends_det _ _ _ _ _ _ _ E (ex_intro _ fuel R1)) as [<- <-]. exists fuel. exact R.
        * intros [f2 R2]. destruct E as [f1 R1]. exists (S (f1 + f2)). cbn [run]. rewrite A, D.
          rewrite (run_mono _ _ _ _ _ R1 (f1 + f2)) by lia. apply (run_mono _ _ _ _ _ R2). lia.
    - intros w1 [f R]. eexists. exists (S f). cbn [run]. rewrite A, D, R. reflexivity.
  Qed.

  (** C35: otherwise the closure is not run and nothing changes. *)
  Theorem C35_absent_does_nothing :
    forall (sc : schema) m (w : world) hs body k w' o,
      available m w hs -> (m = Excl -> NoDup (live w hs)) ->
      (exists h, In h hs /\ reads w h = None) ->
      (ends sc w (PAccess m hs body k) w' o <-> ends sc w (k None) w' o).
  Proof.
    intros sc m w hs body k w' o Av Nd Ex. destruct (available_acquire m w hs Av Nd) as (cs & A & Sg).
    pose proof (proj2 (deref_all_reads w cs hs Sg) Ex) as D.
    pose proof (set_cells_id w _ (release_all _ _ _ _ _ A)) as Eq. split.
    - intros [fuel R]. destruct fuel as [|fuel]; [discriminate|]. cbn [run] in R. rewrite A, D, Eq in R. exists fuel. exact R.
    - intros [fuel R]. exists (S fuel). cbn [run]. rewrite A, D, Eq. exact R.
  Qed.

  (** C35: the same resource twice with [with_mut]. *)
  Theorem C35_same_twice_never_returns :
    forall (sc : schema) (w : world) hs body k,
      available Excl w hs -> ~ NoDup (live w hs) ->
      ends sc w (PAccess Excl hs body k) w OHang.
  Proof.
    intros sc w hs body k Av Nd. exists 1. cbn [run]. rewrite acquire_twice; [reflexivity| |left; now rewrite <- live_somes].
    intros h a I E. destruct (Av h a I E) as (x & N & _). apply nth_error_Some. congruence.
  Qed.

  (** C33: [exists()]. *)
  Theorem C33_exists :
    forall g (bs : list (@build Id Node V U)) p (w : world) o t,
      let sc := fst (built g bs) in
      ends sc (snd (built g bs)) p w o -> comes_back o ->
      exists b, (b = true <-> last_resource t bs <> None /\ ~ poisoned w (res_from sc t)) /\
        forall k w' o', ends sc w (p_exists (res_from sc t) k) w' o' <-> ends sc w (k b) w' o'.
  Proof.
    intros g bs p w o t sc E B. set (h := res_from sc t).
    destruct (built_resources g bs) as (_ & Fr & _ & Ad & _ & _). fold sc in Ad.
    pose proof (fr_cells _ _ (ends_framed sc _ _ _ _ E B)) as [Le _].
    assert (Av : available Shared w [h]).
    { intros h' a [<-|[]] Eh. apply Ad in Eh. destruct (nth_error (w_cells (snd (built g bs))) a) as [x|] eqn:N.
      - destruct (Le a x N) as (y & Ny & Ly & _). exists y. split; [exact Ny|]. rewrite Ly.
        destruct (Fr x (nth_error_In _ _ N)) as [_ ->]. discriminate.
      - apply nth_error_None in N. lia. }
    destruct (C33_found_ever_after g bs p w o t E B) as [Fnone Fsome]. fold sc h in Fnone, Fsome.
    destruct (reads w h) as [d|] eqn:Rd.
    - exists true. split.
      + split; [intros _|reflexivity]. destruct (last_resource t bs) eqn:Lr; [|discriminate (Fnone eq_refl)].
        split; [discriminate|]. destruct Fsome as [[_ X]|[X _]]; [discriminate|discriminate|exact X].
      + intros k w' o'.
        assert (Rd' : map (reads w) [h] = map Some [d]) by (cbn; now rewrite Rd).
        destruct (C35_runs_once_on_current_values sc Shared w [h] [d] Av ltac:(discriminate) Rd') as (l & wl & _ & Sl & R).
        destruct (R (fun _ => PRet RUnit) (fun r => k (match r with Some _ => true | None => false end))) as [R1 _].
        destruct (R1 wl RUnit (ex_intro _ 1 eq_refl)) as (w2 & S2 & Lk & Iff). replace w with w2 at 2; [exact (Iff w' o')|].
        destruct w2 as [g2 l2 p2 h2 k2 c2 o2], w as [g0 l0 p0 h0 k0 c0 o0]. unfold same_but_locks in *. cbn in *.
        destruct S2 as (C2 & -> & -> & -> & -> & -> & ->). destruct Sl as (Cl & -> & -> & -> & -> & -> & ->). f_equal.
        apply list_ext. intros a. rewrite Cl in C2.
        assert (Sg : option_map sig (nth_error c2 a) = option_map sig (nth_error c0 a)) by (rewrite <- !nth_error_map; unfold sig; now rewrite C2).
        destruct (nth_error c0 a) as [[v0 q0 k1]|] eqn:N0.
        * destruct (Lk a _ N0) as ([v1 q1 k2'] & N1 & Ek). rewrite N1 in *. cbn in *. injection Sg as -> ->. now subst.
        * destruct (nth_error c2 a); [discriminate|reflexivity].
    - exists false. split.
      + split; [discriminate|]. intros [Lr Np]. destruct (Fsome Lr) as [[X _]|[_ [u X]]]; [contradiction|discriminate].
      + intros k w' o'. unfold p_exists. apply C35_absent_does_nothing; auto; [discriminate|]. exists h. split; [now left|exact Rd].
  Qed.

  (** C33: different types are different resources. *)
  Theorem C33_types_apart :
    forall g (bs : list (@build Id Node V U)) t t' a,
      let sc := fst (built g bs) in
      h_addr (res_from sc t) = Some a -> h_addr (res_from sc t') = Some a -> t = t'.
  Proof. intros g bs t t' a sc. destruct (built_resources g bs) as (_ & _ & _ & _ & _ & X). apply X. Qed.

  (** C34: what [with_mut] wrote is what every handle to that resource reads, and nothing else changed. *)
  Theorem C34_with_mut_visible :
    forall (sc : schema) (w : world) h a d f,
      h_addr h = Some a -> reads w h = Some d -> ty_of (f d) = ty_of d -> available Excl w [h] ->
      exists w', ends sc w (modify h f) w' (ORet RUnit) /\
        (forall h', h_addr h' = Some a -> h_ty h' = h_ty h -> reads w' h' = Some (f d)) /\
        (forall h', h_addr h' <> Some a -> reads w' h' = reads w h') /\
        w_graph w' = w_graph w /\ w_heap w' = w_heap w /\ w_out w' = w_out w /\ w_lock w' = w_lock w.
  Proof.
    intros sc w h a d f Ea Rd Ty Av.
    assert (N : nth_error (w_cells w) a = Some (Cell d false Free) /\ ty_of d = h_ty h).
    { destruct (Av h a (or_introl eq_refl) Ea) as (x & N & L). unfold reads in Rd. rewrite Ea, N in Rd.
      destruct x as [v [] l]; [discriminate|]. destruct (ty_eqb (ty_of v) (h_ty h)) eqn:T; [|discriminate].
      apply ty_eqb_eq in T. cbn in L. injection Rd as <-. subst l. auto. }
    destruct N as [N Td].
    set (cs := alter (lock_cell Excl) a (w_cells w)).
    assert (Ncs : nth_error cs a = Some (Cell d false Writer)) by (unfold cs; rewrite nth_error_alter, Nat.eqb_refl, N; reflexivity).
    assert (A : acquire Excl [h] (w_cells w) = AcqOk _ cs [Some a]).
    { cbn. unfold acquire1. rewrite Ea, N. reflexivity. }
    assert (D : deref_all cs [h] [Some a] = Some [(a, d)]).
    { cbn. rewrite Ncs. cbn. rewrite Td, ty_eqb_refl. reflexivity. }
    eexists. split.
    - exists 3. unfold modify. cbn [run]. rewrite A, D. cbn [w_cells set_cells run]. rewrite Ncs. cbn [c_lock c_val].
      rewrite Ty, ty_eqb_refl. cbn [run]. reflexivity.
    - cbn [w_cells w_graph w_heap w_out w_lock set_cells]. split; [|split; [|auto]].
      + intros h' Eh' Th'. unfold reads. rewrite Eh'. cbn [w_cells set_cells release].
        rewrite !nth_error_alter, !Nat.eqb_refl, Ncs. cbn. rewrite Th', Ty, Td, ty_eqb_refl. reflexivity.
      + intros h' Eh'. unfold reads. destruct (h_addr h') as [a'|]; [|reflexivity]. cbn [w_cells set_cells release].
        unfold cs. rewrite !nth_error_alter. destruct (Nat.eqb_spec a a') as [->|_]; [congruence|reflexivity].
  Qed.

  (** C34: until the next [with_mut] on it, whatever runs meanwhile, with all the triggers this executes. *)
  Theorem C34_until_next_with_mut :
    forall (sc : schema) (w w' : world) p o h a,
      h_addr h = Some a -> a < length (w_cells w) ->
      triggers_leave_alone sc a -> leaves_alone sc a p ->
      ends sc w p w' o -> comes_back o ->
      reads w' h = reads w h /\ (poisoned w' h <-> poisoned w h).
  Proof.
    intros sc w w' p o h a Ea La T P E B. apply (ends_exec sc _ _ _ o B) in E.
    pose proof (exec_left_alone sc a T w p w' o E P La) as X. split.
    - apply reads_cell. intros a' Ea'. rewrite Ea in Ea'. injection Ea' as <-. exact X.
    - unfold poisoned. rewrite Ea. split; intros (a' & x & [= <-] & N & Q); exists a, x; (split; [reflexivity|]); split; auto; congruence.
  Qed.

  (** C34: while a resource is being read, nothing that runs changes it. *)
  Theorem C34_being_read_never_changes :
    forall (sc : schema) (w w' : world) p o a x n,
      nth_error (w_cells w) a = Some x -> c_lock x = Readers n ->
      ends sc w p w' o -> comes_back o -> nth_error (w_cells w') a = Some x.
  Proof.
    intros sc w w' p o a x n N L E B. apply (ends_exec sc _ _ _ o B) in E. eapply exec_readers; eauto.
  Qed.

  Lemma acquired_readers hs : forall (cs cs' : list cell) held a, acquire Shared hs cs = AcqOk _ cs' held -> In (Some a) held ->
    exists x n, nth_error cs' a = Some x /\ c_lock x = Readers n.
  Proof.
    induction hs as [|h hs IH]; intros cs cs' held a A J; cbn in A; [injection A as <- <-; destruct J|].
    destruct (acquire1 Shared h cs) as [cs1 o| |] eqn:A1; try discriminate.
    destruct (acquire Shared hs cs1) as [cs2 l| |] eqn:A2; try discriminate. injection A as <- <-.
    destruct J as [->|J]; [|eapply IH; eauto].
    destruct (acquire1_spec _ _ _ _ _ A1) as [[? _]|(n & x & E & _ & N & B & P & ->)]; [discriminate|]. injection E as <-.
    assert (N1 : nth_error (alter (lock_cell Shared) a cs) a = Some (lock_cell Shared x)).
    { rewrite nth_error_alter, Nat.eqb_refl, N. reflexivity. }
    assert (L1 : exists m, c_lock (lock_cell Shared x) = Readers m) by (destruct x as [v p [|n|]]; cbn in *; eauto; discriminate).
    destruct L1 as [m L1]. destruct (acquire_readers _ _ _ _ _ _ _ _ A2 N1 L1) as [[n' En] _]. eexists. exists n'. split; [exact En|reflexivity].
  Qed.

  Lemma deref_all_held cs hs : forall held (vs : list (nat * dyn)) h, deref_all cs hs held = Some vs -> In h hs ->
    exists a, In (Some a) held.
  Proof.
    induction hs as [|h0 hs IH]; intros [|o held] vs h D J; try discriminate; try destruct J as [->|J]; cbn in D; try contradiction;
      destruct (deref1 cs _ o) as [v|] eqn:D1; try discriminate; destruct (deref_all cs hs held) as [vs'|] eqn:D2; try discriminate.
    - destruct o as [a|]; [|discriminate]. exists a. now left.
    - destruct (IH _ _ _ D2 J) as [a Ia]. exists a. now right.
  Qed.

  Lemma deref_held_addr m hs : forall (cs cs' c : list cell) held vs h a, acquire m hs cs = AcqOk _ cs' held -> deref_all c hs held = Some vs ->
    In h hs -> h_addr h = Some a -> In (Some a) held.
  Proof.
    induction hs as [|h0 hs IH]; intros cs cs' c held vs h a A D J E; [destruct J|]. cbn in A.
    destruct (acquire1 m h0 cs) as [cs1 o| |] eqn:A1; try discriminate.
    destruct (acquire m hs cs1) as [cs2 l| |] eqn:A2; try discriminate. injection A as <- <-. cbn in D.
    destruct (deref1 c h0 o) as [v|] eqn:D1; [|discriminate]. destruct (deref_all c hs l) as [vs'|] eqn:D2; [|discriminate].
    destruct J as [->|J]; [|right; eapply IH; eauto].
    destruct (acquire1_spec _ _ _ _ _ A1) as [[-> _]|(n & x & -> & En & _)]; [discriminate|]. left. congruence.
  Qed.

  Lemma deref_held_some m hs : forall (cs cs' c : list cell) held vs h, acquire m hs cs = AcqOk _ cs' held -> deref_all c hs held = Some vs ->
    In h hs -> exists a, h_addr h = Some a /\ In (Some a) held.
  Proof.
    induction hs as [|h0 hs IH]; intros cs cs' c held vs h A D J; [destruct J|]. cbn in A.
    destruct (acquire1 m h0 cs) as [cs1 o| |] eqn:A1; try discriminate.
    destruct (acquire m hs cs1) as [cs2 l| |] eqn:A2; try discriminate. injection A as <- <-. cbn in D.
    destruct (deref1 c h0 o) as [v|] eqn:D1; [|discriminate]. destruct (deref_all c hs l) as [vs'|] eqn:D2; [|discriminate].
    destruct J as [->|J].
    - destruct (acquire1_spec _ _ _ _ _ A1) as [[-> _]|(n & x & -> & En & _)]; [discriminate|]. exists n. split; [exact En|now left].
    - destruct (IH _ _ _ _ _ _ A2 D2 J) as (a & Ea & Ia). exists a. split; [exact Ea|now right].
  Qed.

  Lemma held_in_range m hs : forall (cs cs' : list cell) held a, acquire m hs cs = AcqOk _ cs' held -> In (Some a) held -> a < length cs.
  Proof.
    induction hs as [|h0 hs IH]; intros c cs held a A Ih; cbn in A; [injection A as <- <-; destruct Ih|].
    destruct (acquire1 m h0 c) as [cs1 o| |] eqn:A1; try discriminate.
    destruct (acquire m hs cs1) as [cs2 l| |] eqn:A2; try discriminate. injection A as <- <-.
    destruct (acquire1_spec _ _ _ _ _ A1) as [[-> ->]|(n & x & -> & En & N & _ & _ & ->)].
    - destruct Ih as [D|Ih]; [discriminate|]. eapply IH; eauto.
    - destruct Ih as [[= ->]|Ih]; [apply nth_error_Some; congruence|]. rewrite <- (alter_length (lock_cell m) n c). eapply IH; eauto.
  Qed.

  (** C34: [with] changes none of the resources it reads, whatever its closure does, even by panicking. *)
  Theorem C34_with_never_modifies :
    forall (sc : schema) (w w' : world) hs body o h,
      ends sc w (PAccess Shared hs body (fun _ => PRet RUnit)) w' o -> comes_back o -> In h hs ->
      reads w' h = reads w h /\ (poisoned w' h <-> poisoned w h).
  Proof.
    intros sc w w' hs body o h E B J. apply (ends_exec sc _ _ _ o B) in E.
    assert (X : forall a, h_addr h = Some a -> nth_error (w_cells w') a = nth_error (w_cells w) a).
    { intros a Ea. inversion E; subst;
      match goal with K : acquire _ _ _ = _ |- _ => rename K into HA end; match goal with K : deref_all _ _ _ = _ |- _ => rename K into HD end;
      try (match goal with K : exec _ _ (body _) _ _ |- _ => rename K into HX end).
      - match goal with K : exec _ _ (PRet _) _ _ |- _ => inversion K; subst end. cbn.
        eapply release_same; eauto.
      - match goal with K : exec _ _ (PRet _) _ _ |- _ => inversion K; subst end. cbn.
        eapply release_same; [eassumption|].
        assert (Ih : In (Some a) held) by (eapply deref_held_addr; eauto).
        destruct (acquired_readers hs _ _ _ a HA Ih) as (x & n & N & L). rewrite N. eapply exec_readers; eauto.
      - cbn. eapply (release_same Shared); [eassumption|].
        assert (Ih : In (Some a) held) by (eapply deref_held_addr; eauto).
        destruct (acquired_readers hs _ _ _ a HA Ih) as (x & n & N & L). rewrite N. eapply exec_readers; eauto. }
    split; [now apply reads_cell|]. unfold poisoned. destruct (h_addr h) as [a|]; [|split; intros (? & ? & ? & _); discriminate].
    specialize (X a eq_refl). split; intros (a' & x & [= <-] & N & Q); exists a, x; (split; [reflexivity|]); split; auto; congruence.
  Qed.

  (** C36, what holds of it: a resource not accessed with [with_mut] by the transaction or the triggers it
      executes.  Missing: resources that are; then it is false (below, and C71). *)
  Theorem C36_rolls_back_partial :
    forall (sc : schema) (w w' : world) t body o h a,
      h_addr h = Some a -> a < length (w_cells w) ->
      triggers_leave_alone sc a -> leaves_alone sc a (PWith t body PRet) ->
      ends sc w (PWith t body PRet) w' o -> (exists e, o = ORet (RErr e)) \/ o = OPanic ->
      reads w' h = reads w h.
  Proof.
    intros sc w w' t body o h a Ea La T P E [[e ->]| ->]; now apply (C34_until_next_with_mut sc w w' _ _ h a Ea La T P E I).
  Qed.

  (** C71: the resources after a transaction are those its closure left, whether it failed or not. *)
  Theorem C71_resources_not_transactional :
    forall (sc : schema) (w w' : world) t body o,
      ends sc w (PWith t body PRet) w' o -> comes_back o ->
      exists w1 o1, match t with
        | TxBg _ => ends sc (bg_open w) (body (bg_ctx w)) w1 o1
        | TxFg c => ends sc (fg_open w) (body (fg_ctx w c)) w1 o1
        end /\ comes_back o1 /\ w_cells w' = w_cells w1.
  Proof.
    intros sc w w' t body o E B. apply (ends_exec sc _ _ _ o B) in E.
    inversion E; subst; try (match goal with K : exec _ _ (PRet _) _ _ |- _ => inversion K; subst; clear K end);
      try (match goal with K : bg_commit _ _ _ = _ |- _ => apply bg_commit_graph in K as [ops ->] end);
      (eexists; eexists; split; [apply exec_run; eassumption|split; [exact I|]]); try reflexivity.
    unfold close, fg_commit. destruct (leaked _ _); reflexivity.
  Qed.

  Lemma poisoned_cell (w w' : world) h :
    (forall a, h_addr h = Some a -> nth_error (w_cells w') a = nth_error (w_cells w) a) -> (poisoned w' h <-> poisoned w h).
  Proof.
    intros X. unfold poisoned. destruct (h_addr h) as [a|]; [|split; intros (? & ? & ? & _); discriminate].
    specialize (X a eq_refl). split; intros (a' & x & [= <-] & N & Q); exists a, x; (split; [reflexivity|]); split; auto; congruence.
  Qed.

  Lemma release_poisons held : forall (cs : list cell) a x, In (Some a) held -> nth_error cs a = Some x ->
    exists y, nth_error (release true held cs) a = Some y /\ c_poison y = true.
  Proof.
    assert (Ex : forall held (cs : list cell) a x, nth_error cs a = Some x -> exists y, nth_error (release true held cs) a = Some y).
    { clear. induction held as [|[n|] held IH]; intros cs a x N; cbn; eauto. rewrite nth_error_alter.
      destruct (IH cs a x N) as [y Ey]. rewrite Ey. destruct (Nat.eqb n a); cbn; eauto. }
    induction held as [|o held IH]; intros cs a x J N; [destruct J|]. destruct o as [n|]; cbn [release].
    - rewrite nth_error_alter. destruct (Nat.eqb_spec n a) as [->|Ne].
      + destruct (Ex held cs a x N) as [y ->]. cbn. eexists. split; [reflexivity|]. cbn. apply orb_true_r.
      + destruct J as [[= ->]|J]; [contradiction|]. eapply IH; eauto.
    - destruct J as [J|J]; [discriminate|]. eapply IH; eauto.
  Qed.

  (** C37: the closure of [with_mut] panics, in the state [w1]. *)
  Theorem C37_panic_disables_exactly_those :
    forall (sc : schema) (w w' : world) hs body f,
      ends sc w (PAccess Excl hs body (fun r => PRet (f r))) w' OPanic ->
      exists wl vs w1, same_but_locks w wl /\ ends sc wl (body vs) w1 OPanic /\
        (forall h, In h hs -> poisoned w' h) /\
        (forall h, (forall h', In h' hs -> h_addr h' <> h_addr h) ->
           reads w' h = reads w1 h /\ (poisoned w' h <-> poisoned w1 h)).
  Proof.
    intros sc w w' hs body f E. apply (ends_exec sc _ _ _ OPanic I) in E. inversion E; subst;
      try (match goal with K : exec _ _ (PRet _) _ OPanic |- _ => inversion K end).
    match goal with K : acquire _ _ _ = _ |- _ => rename K into HA end; match goal with K : deref_all _ _ _ = _ |- _ => rename K into HD end;
      try (match goal with K : exec _ _ (body _) _ _ |- _ => rename K into HX end).
    exists (set_cells cs w), vs, w1. split.
    { repeat split. eapply sig_acquire; eassumption. }
    split; [apply exec_run; assumption|]. split.
    - intros h J.
      destruct (deref_held_some Excl hs _ _ _ _ _ h HA HD J) as (a & Ea & Ih).
      assert (La : a < length (w_cells w1)).
      { assert (Lc : a < length cs) by (rewrite (acquire_length _ _ _ _ _ HA); exact (held_in_range Excl hs _ _ _ a HA Ih)).
        eapply Nat.lt_le_trans; [exact Lc|]. apply (cells_le_length cs). exact (fr_cells _ _ (exec_framed _ _ _ _ _ HX)). }
      destruct (nth_error (w_cells w1) a) as [x|] eqn:N; [|apply nth_error_None in N; lia].
      destruct (release_poisons held (w_cells w1) a x Ih N) as (y & Ny & Py). exists a, y. auto.
    - intros h Far.
      assert (X : forall a, h_addr h = Some a -> nth_error (release true held (w_cells w1)) a = nth_error (w_cells w1) a).
      { intros a Ea. apply release_untouched. intros J. destruct (acquire_held _ _ _ _ _ _ HA J) as (h' & I' & E').
        apply (Far h' I'). congruence. }
      split; [now apply reads_cell|now apply poisoned_cell].
  Qed.

  (** C37: for ever. *)
  Theorem C37_stays_disabled :
    forall (sc : schema) (w w' : world) p o h,
      poisoned w h -> ends sc w p w' o -> comes_back o -> poisoned w' h /\ reads w' h = None.
  Proof.
    intros sc w w' p o h (a & x & Ea & N & P) E B. destruct (fr_cells _ _ (ends_framed sc _ _ _ _ E B)) as [Le _].
    destruct (Le a x N) as ([v q l] & N' & _ & _ & Pq). cbn in Pq. rewrite (Pq P) in N'. split; [exists a; eauto|].
    unfold reads. rewrite Ea, N'. reflexivity.
  Qed.

  (** C37: a panic in [with] disables nothing: in the state in which its closure panicked, and in the end, the
      same resources are disabled, none of them being among those it reads. *)
  Theorem C37_shared_panic_disables_nothing :
    forall (sc : schema) (w w' : world) hs body f,
      ends sc w (PAccess Shared hs body (fun r => PRet (f r))) w' OPanic ->
      exists wl vs w1, same_but_locks w wl /\ ends sc wl (body vs) w1 OPanic /\
        (forall h, reads w' h = reads w1 h /\ (poisoned w' h <-> poisoned w1 h)) /\
        (forall h, In h hs -> ~ poisoned w' h).
  Proof.
    intros sc w w' hs body f E. apply (ends_exec sc _ _ _ OPanic I) in E. inversion E; subst;
      try (match goal with K : exec _ _ (PRet _) _ OPanic |- _ => inversion K end).
    match goal with K : acquire _ _ _ = _ |- _ => rename K into HA end; match goal with K : deref_all _ _ _ = _ |- _ => rename K into HD end;
      try (match goal with K : exec _ _ (body _) _ _ |- _ => rename K into HX end).
    exists (set_cells cs w), vs, w1. split.
    { repeat split. eapply sig_acquire; eassumption. }
    split; [apply exec_run; assumption|].
    assert (Sig : map sig (release false held (w_cells w1)) = map sig (w_cells w1)).
    { apply sig_release. }
    assert (Same : forall a, option_map sig (nth_error (release false held (w_cells w1)) a) = option_map sig (nth_error (w_cells w1) a)).
    { intros a. rewrite <- !nth_error_map. now rewrite Sig. }
    split.
    - intros h. cbn [poisons]. unfold reads, poisoned. cbn [w_cells set_cells]. destruct (h_addr h) as [a|];
        [|split; [reflexivity|split; intros (? & ? & ? & _); discriminate]].
      specialize (Same a). destruct (nth_error (release false held (w_cells w1)) a) as [[v p l]|] eqn:N0, (nth_error (w_cells w1) a) as [[v' p' l']|] eqn:N1;
        cbn in Same; try discriminate.
      2:{ split; [reflexivity|]. split; intros (a' & x' & Ea' & N & _); injection Ea' as <-; congruence. }
      injection Same as -> ->. split; [reflexivity|].
      split; intros (a' & x & Ea' & N & Q); injection Ea' as <-.
      + rewrite N0 in N. injection N as <-. exists a, (Cell v' p' l'). auto.
      + rewrite N1 in N. injection N as <-. exists a, (Cell v' p' l). auto.
    - intros h J. intros (a & y & Ea & Ny & Py). cbn in Ny.
      assert (Ih : In (Some a) held) by (eapply deref_held_addr; eauto).
      destruct (acquired_readers hs _ _ _ a HA Ih) as (x & n & N & L).
      pose proof (exec_readers _ _ _ _ _ HX a x n N L) as N1.
      assert (N2 : nth_error (release false held (w_cells w1)) a = nth_error (w_cells w) a)
        by (apply (release_same Shared hs _ _ _ HA); rewrite N1, N; reflexivity).
      rewrite Ny in N2. symmetry in N2. clear - HA Ih N2 Py. revert HA Ih N2. generalize (w_cells w). intros c. revert c cs held.
      induction hs as [|h0 hs IH]; intros c cs held A Ih N; cbn in A; [injection A as <- <-; destruct Ih|].
      destruct (acquire1 Shared h0 c) as [cs1 o| |] eqn:A1; try discriminate.
      destruct (acquire Shared hs cs1) as [cs2 l| |] eqn:A2; try discriminate. injection A as <- <-.
      destruct (acquire1_spec _ _ _ _ _ A1) as [[-> ->]|(n & x & -> & En & N' & _ & P & ->)].
      + destruct Ih as [D|Ih]; [discriminate|]. eapply IH; eauto.
      + destruct (Nat.eq_dec n a) as [->|Ne]; [congruence|]. destruct Ih as [[= ->]|Ih]; [contradiction|].
        apply (IH _ _ _ A2 Ih). rewrite nth_error_alter. destruct (Nat.eqb_spec n a); [contradiction|exact N].
  Qed.

  (** ** Registering a resource again *)

  Lemma lives_inv (sc : schema) (w : world) : lives sc w ->
    bt_sorted (sc_resources sc) /\ (forall x, In x (w_cells w) -> c_lock x = Free) /\
    (forall t a, bt_get t (sc_resources sc) = Some a -> a < length (w_cells w)).
  Proof.
    induction 1 as [g|sc w b sc' w' L (So & Fr & Ad) E|sc w p w' o L (So & Fr & Ad) E B].
    - cbn. split; [constructor|]. split; [intros x []|discriminate].
    - destruct b as [t u|s f]; cbn in E; injection E as <- <-; cbn.
      + split; [now apply bt_insert_sorted|]. split.
        * intros x I. apply in_app_or in I as [I|[<-|[]]]; auto.
        * intros t' a. rewrite (bt_get_insert _ _ _ _ So), app_length. cbn.
          destruct (eqb t t'); [intros [= <-]; lia|]. intros G. apply Ad in G. lia.
      + auto.
    - pose proof (ends_framed sc _ _ _ _ E B) as F. destruct (fr_cells _ _ F) as [Le Fresh]. split; [exact So|]. split.
      + intros x I. apply In_nth_error in I as [a N]. destruct (nth_error (w_cells w) a) as [y|] eqn:Ny.
        * destruct (Le a y Ny) as (z & Nz & Lz & _). rewrite N in Nz. injection Nz as <-. rewrite Lz. apply Fr. eapply nth_error_In; eauto.
        * apply nth_error_None in Ny. eapply Fresh; eauto.
      + intros t a G. apply Ad in G. eapply Nat.lt_le_trans; [exact G|]. apply (cells_le_length (w_cells w)). exact (fr_cells _ _ F).
  Qed.

  Lemma built_lives g bs : let sw := @built Id Node V U g bs in lives (fst sw) (snd sw).
  Proof.
    cbn zeta. induction bs as [|b bs IH] using rev_ind; [apply lv_from|].
    rewrite built_snoc. apply lv_build with (b := b) (1 := IH). rewrite <- !surjective_pairing. reflexivity.
  Qed.

  (** C83: the handles taken before keep the old resource, those taken after get the new one, and what is done to one of
      them does not show in the other. *)
  Theorem C83_registered_again :
    forall (sc sc' : schema) (w w' : world) t u,
      lives sc w -> sc_with_resource t u (sc, w) = (sc', w') ->
      let new := res_from sc' t in
      reads w' new = Some (DRes t u) /\
      (forall t', t' <> t -> res_from sc' t' = res_from sc t') /\
      (forall t', held w (res_from sc t')) /\
      (forall h, held w h -> reads w' h = reads w h /\ (poisoned w' h <-> poisoned w h)) /\
      (forall h d f, held w h -> reads w h = Some d -> ty_of (f d) = ty_of d ->
         exists w2, ends sc' w' (modify h f) w2 (ORet RUnit) /\ reads w2 h = Some (f d) /\ reads w2 new = Some (DRes t u)) /\
      (forall u', exists w2, ends sc' w' (modify new (fun _ => DRes t u')) w2 (ORet RUnit) /\ reads w2 new = Some (DRes t u') /\
         forall h, held w h -> reads w2 h = reads w h).
  Proof.
    intros sc sc' w w' t u L E new. destruct (lives_inv sc w L) as (So & Fr & Ad). cbn in E. injection E as <- <-.
    set (sc' := Schema (bt_insert t (length (w_cells w)) (sc_resources sc)) (sc_triggers sc)) in *.
    set (w' := set_cells (w_cells w ++ [Cell (DRes t u) false Free]) w) in *.
    assert (An : h_addr new = Some (length (w_cells w))).
    { unfold new, res_from, sc'; cbn. rewrite (bt_get_insert _ _ _ _ So), (proj2 (eqb_eq t t) eq_refl). reflexivity. }
    assert (Rn : reads w' new = Some (DRes t u)).
    { unfold reads. rewrite An. unfold w'; cbn [w_cells set_cells]. rewrite nth_error_app2, Nat.sub_diag by lia. cbn. now rewrite Nat.eqb_refl. }
    assert (Old : forall h a, held w h -> h_addr h = Some a -> nth_error (w_cells w') a = nth_error (w_cells w) a).
    { intros h a Hh Ea. unfold w'; cbn. apply nth_error_app1. now apply Hh. }
    assert (Free_ : forall a x, nth_error (w_cells w') a = Some x -> c_lock x = Free).
    { intros a x N. apply nth_error_In in N. unfold w' in N; cbn in N. apply in_app_or in N as [N|[<-|[]]]; auto. }
    split; [exact Rn|]. split; [|split; [|split; [|split]]].
    - intros t' Ne. unfold res_from, sc'; cbn. rewrite (bt_get_insert _ _ _ _ So).
      destruct (eqb t t') eqn:Eb; [apply eqb_eq in Eb; congruence|reflexivity].
    - intros t' a Ea. exact (Ad t' a Ea).
    - intros h Hh. split; [apply reads_cell; eauto|apply poisoned_cell; eauto].
    - intros h d f Hh Rd Ty. destruct (h_addr h) as [a|] eqn:Ea; [|unfold reads in Rd; rewrite Ea in Rd; discriminate].
      assert (Rd' : reads w' h = Some d) by (rewrite <- Rd; apply reads_cell; eauto).
      assert (Av : available Excl w' [h]).
      { intros h' a' [<-|[]] Ea'. rewrite Ea in Ea'. injection Ea' as <-.
        destruct (nth_error (w_cells w') a) as [x|] eqn:N; [exists x; split; [reflexivity|eauto]|].
        exfalso. unfold reads in Rd'. rewrite Ea, N in Rd'. discriminate. }
      destruct (C34_with_mut_visible sc' w' h a d f Ea Rd' Ty Av) as (w2 & E2 & R2 & O2 & _).
      exists w2. split; [exact E2|]. split; [now apply R2|]. rewrite O2; [exact Rn|]. rewrite An. specialize (Hh a Ea). intros [= X]. lia.
    - intros u'.
      assert (Av : available Excl w' [new]).
      { intros h' a' [<-|[]] Ea'. rewrite An in Ea'. injection Ea' as <-. eexists. split; [unfold w'; cbn; rewrite nth_error_app2, Nat.sub_diag by lia; reflexivity|reflexivity]. }
      destruct (C34_with_mut_visible sc' w' new _ _ (fun _ => DRes t u') An Rn eq_refl Av) as (w2 & E2 & R2 & O2 & _).
      exists w2. split; [exact E2|]. split; [now apply R2|]. intros h Hh.
      rewrite O2; [apply reads_cell; eauto|]. intros X. apply Hh in X. lia.
  Qed.
End Properties.

Print Assumptions C33_last_resource_found.
Print Assumptions C33_found_ever_after.
Print Assumptions C33_exists.
Print Assumptions C33_types_apart.
Print Assumptions C34_with_mut_visible.
Print Assumptions C34_until_next_with_mut.
Print Assumptions C34_being_read_never_changes.
Print Assumptions C34_with_never_modifies.
Print Assumptions C35_runs_once_on_current_values.
Print Assumptions C35_absent_does_nothing.
Print Assumptions C35_same_twice_never_returns.
Print Assumptions C36_rolls_back_partial.
Print Assumptions C37_panic_disables_exactly_those.
Print Assumptions C37_stays_disabled.
Print Assumptions C37_shared_panic_disables_nothing.
Print Assumptions C71_resources_not_transactional.
Print Assumptions C83_registered_again.

(** ** Concrete cases *)

(** Three resources, one of them registered twice, and the trigger of P_Prog that counts in resource 7. *)
Definition rs_bs : list (@build nat dnode nat nat) :=
  [BResource 7 0; BResource 4 1; BTrigger BeforeSave ex_trigger; BResource 5 2; BResource 4 3].
Definition rs_sc : dschema := fst (built ex_graph rs_bs).
Definition rs_w : dworld := snd (built ex_graph rs_bs).
Definition incr (d : dyn dnode nat) : dyn dnode nat := match d with DRes t u => DRes t (S u) | DNode n => DNode n end.
Definition rs (t : nat) : handle := res_from rs_sc t.
Definition rs_vals (w : dworld) := map (fun t => reads w (rs t)) [4; 5; 6; 7].
Definition rs_run (p : dprog) : dworld * outcome nat := last_of rs_w (run rs_sc 100 rs_w p).

Example C33_case :
  rs_vals rs_w = [Some (DRes 4 3); Some (DRes 5 2); None; Some (DRes 7 0)] /\
  map (fun t => last_resource t rs_bs) [4; 5; 6; 7] = [Some 3; Some 2; None; Some 0].
Proof. now vm_compute. Qed.

(** C34: [with_mut] on 4, then a save whose trigger counts in 7: 4 keeps what was written. *)
Example C34_case :
  available Excl rs_w [rs 4] /\ h_addr (rs 4) = Some 3 /\ reads rs_w (rs 4) = Some (DRes 4 3) /\
  rs_vals (fst (rs_run (modify (rs 4) incr))) = [Some (DRes 4 4); Some (DRes 5 2); None; Some (DRes 7 0)] /\
  rs_vals (fst (rs_run (PTry (modify (rs 4) incr) (fun _ => p_save (n_ 3 30) (TxBg None) PRet))))
    = [Some (DRes 4 4); Some (DRes 5 2); None; Some (DRes 7 1)].
Proof.
  split; [|vm_compute; repeat split]. intros h a [<-|[]] E. injection E as <-. exists (Cell (DRes 4 3) false Free). split; reflexivity.
Qed.

(** The hypotheses of C34_until_next_with_mut and C36_rolls_back_partial for resource 4 (address 3). *)
Lemma rs_leaves_alone : triggers_leave_alone rs_sc 3 /\ leaves_alone rs_sc 3 (p_save (n_ 9 90) (TxBg None) PRet).
Proof.
  split.
  - intros s t c I. unfold scheduled, ts_select in I. cbn in I. destruct s as [|s]; cbn in I; [|destruct I].
    destruct I as [<-|[]]. intros T. cbn. split; [intros _ h [<-|[]]; discriminate|].
    split; [intros [|[a [n|t u]] [|v vs]]; cbn; auto; intros [= ->]; split; [discriminate|exact I]|].
    intros _. split; [intros _; exact I|]. intros _.
    split; [discriminate|]. split; [|intros r; exact I].
    intros [|[a [n|t u]] [|v vs]]; cbn; auto. intros _. destruct (Nat.eqb (d_id n) 9); exact I.
  - apply leaves_save. intros r. exact I.
Qed.

(** C35: accesses to two resources, to the same one twice, and to one that is missing. *)
Definition swap (vs : list (nat * dyn dnode nat)) : dprog :=
  match vs with
  | [(a, DRes s x); (b, DRes t y)] => PPoke a (DRes s y) (PPoke b (DRes t x) (PRet RUnit))
  | _ => PPanic
  end.
Definition swapped (hs : list handle) := rs_run (PAccess Excl hs swap (fun r => match r with Some r => PRet r | None => PRet (RErr Noop) end)).

Example C35_case :
  available Excl rs_w [rs 4; rs 5] /\ live rs_w [rs 4; rs 5] = [3; 2] /\ live rs_w [rs 4; rs 4] = [3; 3] /\
  snd (swapped [rs 4; rs 5]) = ORet RUnit /\
  rs_vals (fst (swapped [rs 4; rs 5])) = [Some (DRes 4 2); Some (DRes 5 3); None; Some (DRes 7 0)] /\
  swapped [rs 4; rs 6] = (rs_w, ORet (RErr Noop)) /\
  swapped [rs 4; rs 4] = (rs_w, OHang).
Proof.
  split; [|vm_compute; repeat split].
  intros h a [<-|[<-|[]]] E; injection E as <-;
    [exists (Cell (DRes 4 3) false Free)|exists (Cell (DRes 5 2) false Free)]; split; reflexivity.
Qed.

(** C36 is false: saving node 9 fails, rejected by the trigger; the count in resource 7 stays. *)
Theorem C36_rolls_back_refuted :
  exists (sc : dschema) (w w' : dworld) body e t,
    at_rest w /\ g_reachable (w_graph w) /\
    ends sc w (PWith (TxBg None) body PRet) w' (ORet (RErr e)) /\
    w_graph w' = w_graph w /\ reads w' (res_from sc t) <> reads w (res_from sc t).
Proof.
  exists ex_sc, ex_w, (fst (last_of ex_w (run ex_sc 100 ex_w (PWith (TxBg None) ex_sub PRet)))), ex_sub, oops, 7.
  split; [repeat split|]. split; [constructor|]. split; [exists 100; vm_compute; reflexivity|].
  split; [vm_compute; reflexivity|]. vm_compute. discriminate.
Qed.
Print Assumptions C36_rolls_back_refuted.

(** C37: a caught panic while mutating 4 and 5; a panic while reading both; a panic while mutating 7 and reading 4. *)
Example C37_case :
  let x := rs_run (PTry (PAccess Excl [rs 4; rs 5] (fun _ => PPanic) (fun _ => PRet RUnit)) (fun _ => PRet RUnit)) in
  map (reads (fst x)) [rs 4; rs 5; rs 7] = [None; None; Some (DRes 7 0)] /\
  rs_run (PAccess Shared [rs 4; rs 5] (fun _ => PPanic) (fun _ => PRet RUnit)) = (rs_w, OPanic) /\
  let y := rs_run (PAccess Shared [rs 4] (fun _ => PAccess Excl [rs 7] (fun _ => PPanic) (fun _ => PRet RUnit)) (fun _ => PRet RUnit)) in
  snd y = OPanic /\ map (reads (fst y)) [rs 4; rs 5; rs 7] = [Some (DRes 4 3); Some (DRes 5 2); None].
Proof. vm_compute. repeat split. Qed.

(** C71: the counts of the triggers of a transaction that panics. *)
Example C71_case :
  let x := last_of ex_w (run ex_sc 100 ex_w (PWith (TxBg None) ex_panics PRet)) in
  snd x = OPanic /\ w_graph (fst x) = ex_graph /\ reads (fst x) (res_from ex_sc 7) = Some (DRes 7 1).
Proof. vm_compute. repeat split. Qed.

(** C83: resource 4, disabled by a panic, is registered again; the old handle finds it disabled, the new one does not. *)
Example C83_case :
  let w1 := fst (rs_run (PTry (PAccess Excl [rs 4] (fun _ => PPanic) (fun _ => PRet RUnit)) (fun _ => PRet RUnit))) in
  let '(sc2, w2) := sc_with_resource 4 8 (rs_sc, w1) in
  lives rs_sc w1 /\ reads w2 (rs 4) = None /\ reads w2 (res_from sc2 4) = Some (DRes 4 8) /\ reads w2 (res_from sc2 5) = Some (DRes 5 2).
Proof.
  cbn beta iota zeta delta [sc_with_resource]. split; [|vm_compute; repeat split].
  apply lv_run with (w := rs_w) (p := PTry (PAccess Excl [rs 4] (fun _ => PPanic) (fun _ => PRet RUnit)) (fun _ => PRet RUnit)) (o := ORet RUnit).
  - exact (built_lives ex_graph rs_bs).
  - exists 100. vm_compute. reflexivity.
  - exact I.
Qed.
