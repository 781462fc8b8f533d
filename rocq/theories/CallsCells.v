(** Facts about the calls of programs: the cells of Prog.v and the states of Cells.v go together. *)
From Coq Require Import List Bool Arith Lia.
From Verif Require Import Cells Ord OrdFacts BTree Graph Tx TxFacts TxMachine TxMachineFacts Guards Unwind Prog SpecProg ProgFacts ProgFrame ProgTrace SpecCalls CallsFacts.
Import ListNotations.

Section Facts.
  Context {Id Node V U : Type} `{HO : OrdT Id} `{HI : Identify Node Id}.
  Notation cell := (cell Node U).
  Notation dyn := (dyn Node U).
  Notation happening := (happening Id Node).
  Notation ustate := (ustate Id Node).
  Notation made := (@made Id Node U).
  Notation kstate := (kstate dyn).
  Notation state := (@state Id Node U).

  Definition kc (x : cell) : kcell dyn := KCell (c_val x) (c_poison x).

  (** ** Told, cell by cell *)
  Lemma tell_cell (u : ustate) (st : kstate) e a st1 es st' : k_step st (0, e) = (st1, a) -> told (u, st1) es st' -> told (u, st) (OnCell e a :: es) st'.
  Proof. intros E T. exists (u, st1). cbn. auto. Qed.

  Lemma tell_handle (u : ustate) (st : kstate) t w h a st1 es st' :
    k_step st (0, KOpen w h) = (st1, a) -> told (u, st1) es st' -> told (u, st) (OnHandle t w h a :: es) st'.
  Proof. intros E T. exists (u, st1). cbn. auto. Qed.

  Lemma cell_told (u : ustate) (st : kstate) e a st1 b es st' : told (u, st) (OnCell e a :: es) st' -> k_step st (0, e) = (st1, b) -> a = b /\ told (u, st1) es st'.
  Proof. intros ([u1 s1] & [E F] & T) E'. cbn in *. subst u1. rewrite E in E'. injection E' as -> ->. auto. Qed.

  Lemma handle_told (u : ustate) (st : kstate) t w h a st1 b es st' : told (u, st) (OnHandle t w h a :: es) st' ->
    k_step st (0, KOpen w h) = (st1, b) -> a = b /\ told (u, st1) es st'.
  Proof. intros ([u1 s1] & [E F] & T) E'. cbn in *. subst u1. rewrite E in E'. injection E' as -> ->. auto. Qed.

  (** ** Locks *)
  Definition of_cell (a : nat) (x : holding) : bool := match ho_addr x with Some b => Nat.eqb a b | None => false end.

  Fixpoint lock_for (a : nat) (ho : list holding) : rw :=
    match ho with
    | [] => Free
    | x :: ho => if of_cell a x then lock_rw (ho_mode x) (lock_for a ho) else lock_for a ho
    end.

  Fixpoint legal (ho : list holding) : Prop :=
    match ho with
    | [] => True
    | x :: ho => (forall a, ho_addr x = Some a -> blocked (ho_mode x) (lock_for a ho) = false) /\ legal ho
    end.

  Definition entry (a : nat) (w : bool) (x : holding) : bool := of_cell a x && Bool.eqb (writing (ho_mode x)) w.

  Lemma of_cell_true a x : of_cell a x = true <-> ho_addr x = Some a.
  Proof.
    unfold of_cell. destruct (ho_addr x) as [b|]; [|split; discriminate]. rewrite Nat.eqb_eq. split; [now intros ->|congruence].
  Qed.

  Lemma blocked_for m a ho : legal ho -> blocked m (lock_for a ho) = existsb (entry a true) ho || (writing m && existsb (entry a false) ho).
  Proof.
    revert m. induction ho as [|x ho IH]; intros m L; [now destruct m|]. destruct L as [Lx L]. assert (IH' := fun m => IH m L). clear IH. rename IH' into IH. cbn [lock_for existsb].
    unfold entry at 1 3. destruct (of_cell a x) eqn:O; cbn [andb orb]; [|apply IH].
    apply of_cell_true in O. apply Lx in O. rewrite IH in O. apply orb_false_iff in O as [O1 O2].
    destruct (ho_mode x); cbn [lock_rw writing Bool.eqb andb orb] in *.
    - rewrite O1. destruct m, (lock_for a ho); reflexivity.
    - destruct m; reflexivity.
  Qed.

  (** ** Cells and states *)
  Record krel (hd : list nat) (ho : list holding) (d : nat) (cs : list cell) (st : kstate) : Prop := {
    k_cells : ks_cells st = map kc cs;
    k_len : length hd = length cs;
    k_hd : forall a h, nth_error hd a = Some h -> nth_error (ks_handles st) h = Some (Some a);
    k_panic : ks_panicking st = repeat 0 d;
    k_lock : forall a x, nth_error cs a = Some x -> c_lock x = lock_for a ho;
    k_legal : legal ho;
    k_live : forall x, In x ho -> exists h, nth_error (ks_guards st) (ho_guard x) = Some (KGuard h (ho_addr x) (writing (ho_mode x)) 0 false Live);
    k_bound : forall x a, In x ho -> ho_addr x = Some a -> a < length cs;
    k_rest : forall g k, nth_error (ks_guards st) g = Some k -> kg_status k = Dropped \/ In g (map ho_guard ho);
    k_nodup : NoDup (map ho_guard ho);
    k_handle : forall g k, nth_error (ks_guards st) g = Some k -> kg_handle k < length (ks_handles st)
  }.

  Lemma krel_start (w : world Id Node V U) : nothing_held w -> krel (k_handles w) [] 0 (w_cells w) (k_start w).
  Proof.
    intros F. unfold k_handles, k_start. constructor; cbn; auto; try (intros [|g] k; discriminate); try tauto.
    - now rewrite seq_length.
    - intros a h N. assert (L : a < length (w_cells w)) by (rewrite <- (seq_length (length (w_cells w)) 0); apply nth_error_Some; congruence).
      assert (h = a) as ->. { rewrite (nth_error_nth' _ 0) in N by now rewrite seq_length. rewrite seq_nth in N by assumption. cbn in N. congruence. }
      now rewrite nth_error_map, N.
    - intros a x N. apply F. eapply nth_error_In; exact N.
    - constructor.
  Qed.

  Lemma own_live (st : kstate) g h c w : nth_error (ks_guards st) g = Some (KGuard h c w 0 false Live) -> own st 0 g = Some (KGuard h c w 0 false Live).
  Proof. intros N. unfold own. now rewrite N. Qed.

  Lemma holds_entries hd ho d cs st a w : krel hd ho d cs st -> existsb (k_holds a w) (ks_guards st) = existsb (entry a w) ho.
  Proof.
    intros R. apply eq_true_iff_eq. rewrite !existsb_exists. split.
    - intros (k & I & Hk). apply In_nth_error in I as [g N]. destruct (k_rest _ _ _ _ _ R _ _ N) as [D|I].
      + unfold k_holds in Hk. rewrite D in Hk. destruct (kg_cell k); [|discriminate]. rewrite andb_false_r in Hk. discriminate.
      + apply in_map_iff in I as (x & <- & I). exists x. split; [assumption|]. destruct (k_live _ _ _ _ _ R _ I) as [h N'].
        rewrite N in N'. injection N' as ->. unfold k_holds in Hk. cbn in Hk. unfold entry, of_cell. destruct (ho_addr x) as [b|]; [|discriminate].
        rewrite andb_true_r in Hk. now rewrite Nat.eqb_sym.
    - intros (x & I & Hx). destruct (k_live _ _ _ _ _ R _ I) as [h N]. eexists. split; [eapply nth_error_In; exact N|].
      unfold entry, of_cell in Hx. unfold k_holds. cbn. destruct (ho_addr x) as [b|]; [|discriminate]. now rewrite andb_true_r, Nat.eqb_sym.
  Qed.

  Lemma busy_lock hd ho d cs st a m : krel hd ho d cs st -> busy a (writing m) st = blocked m (lock_for a ho).
  Proof. intros R. unfold busy. rewrite !(holds_entries _ _ _ _ _ _ _ R). now rewrite (blocked_for m a ho (k_legal _ _ _ _ _ R)). Qed.

  Lemma panics_krel hd ho d cs st : krel hd ho d cs st -> panics 0 st = match d with 0 => false | _ => true end.
  Proof. intros R. unfold panics. rewrite (k_panic _ _ _ _ _ R). now destruct d. Qed.

  Lemma fresh hd ho d cs st : krel hd ho d cs st -> ~ In (length (ks_guards st)) (map ho_guard ho).
  Proof.
    intros R I. apply in_map_iff in I as (x & E & I). destruct (k_live _ _ _ _ _ R _ I) as [h N].
    assert (ho_guard x < length (ks_guards st)) by (apply nth_error_Some; congruence). lia.
  Qed.

  (** ** Handles *)
  Lemma step_obtain hd ho d cs st h e : krel hd ho d cs st -> obtaining hd h = Some e ->
    exists x st1, k_step st (0, e) = (st1, KHandleNo x) /\ krel hd ho d cs st1 /\ nth_error (ks_handles st1) x = Some (h_addr h).
  Proof.
    intros R Ob. assert (S : k_step st (0, e) = (KState (ks_cells st) (ks_handles st ++ [h_addr h]) (ks_guards st) (ks_panicking st), KHandleNo (length (ks_handles st)))).
    { unfold obtaining in Ob. destruct (h_addr h) as [a|]; [|now injection Ob as <-].
      destruct (nth_error hd a) as [y|] eqn:N; [|discriminate]. cbn in Ob. injection Ob as <-. cbn [k_step]. now rewrite (k_hd _ _ _ _ _ R _ _ N). }
    eexists _, _. split; [exact S|]. split; [|cbn; now rewrite nth_error_app2, Nat.sub_diag by lia].
    destruct R. constructor; cbn; auto.
    - intros a y N. apply k_hd0 in N. rewrite nth_error_app1; [assumption|]. apply nth_error_Some. congruence.
    - intros g k N. apply k_handle0 in N. rewrite app_length. lia.
  Qed.

  Lemma krel_guard hd ho d cs cs1 st x h : krel hd ho d cs st -> d = 0 -> h < length (ks_handles st) -> ho_guard x = length (ks_guards st) ->
    map kc cs1 = map kc cs -> (forall a y, nth_error cs1 a = Some y -> c_lock y = lock_for a (x :: ho)) ->
    (forall a, ho_addr x = Some a -> blocked (ho_mode x) (lock_for a ho) = false /\ a < length cs) ->
    krel hd (x :: ho) d cs1 (with_guard st (KGuard h (ho_addr x) (writing (ho_mode x)) 0 false Live)).
  Proof.
    intros R -> Lh Eg Mc Lk Lg. pose proof (fresh _ _ _ _ _ R) as Fr.
    assert (Len : length cs1 = length cs) by (apply (f_equal (@length _)) in Mc; now rewrite !map_length in Mc).
    destruct R. constructor; cbn [with_guard ks_cells ks_handles ks_guards ks_panicking]; auto.
    - congruence.
    - congruence.
    - split; [intros a E; now apply Lg|assumption].
    - intros y [<-|I].
      + exists h. now rewrite Eg, nth_error_app2, Nat.sub_diag by lia.
      + destruct (k_live0 _ I) as [h' N]. exists h'. rewrite nth_error_app1; [assumption|]. apply nth_error_Some. congruence.
    - rewrite Len. intros y a [<-|I] E; [now apply Lg|eauto].
    - intros g k N. apply nth_error_snoc in N as [N|[-> ->]].
      + destruct (k_rest0 _ _ N) as [D|I]; [now left|right; now right].
      + right. left. exact Eg.
    - cbn [map]. constructor; [now rewrite Eg|assumption].
    - intros g k N. apply nth_error_snoc in N as [N|[-> ->]]; [eauto|assumption].
  Qed.

  (** [read()] or [write()]. *)
  Lemma step_open hd ho cs st m h x : krel hd ho 0 cs st -> nth_error (ks_handles st) x = Some (h_addr h) ->
    match acquire1 m h cs with
    | AcqOk _ cs1 oa =>
        exists g lg st1, k_step st (0, KOpen (writing m) x) = (st1, KOpened g lg) /\ krel hd (Holding oa m g :: ho) 0 cs1 st1 /\
          oa = (if lg then None else h_addr h) /\ acquire1_notices (Id := Id) m h cs = if lg then [HNotice (handle_notice h)] else []
    | AcqHang _ => k_step st (0, KOpen (writing m) x) = (st, KWait) /\ acquire1_notices (Id := Id) m h cs = []
    | AcqStuck _ => obtaining (Node := Node) (U := U) hd h = None
    end.
  Proof.
    intros R N. assert (Lx : x < length (ks_handles st)) by (apply nth_error_Some; congruence).
    pose proof (panics_krel _ _ _ _ _ R) as Pn. unfold acquire1, acquire1_notices. cbn [k_step]. unfold k_open. rewrite N, Pn.
    assert (Empty : krel hd (Holding None m (length (ks_guards st)) :: ho) 0 cs (with_guard st (KGuard x None (writing m) 0 false Live))).
    { apply (krel_guard _ _ _ _ _ _ (Holding None m (length (ks_guards st))) _ R); cbn [ho_addr ho_mode ho_guard]; auto; [|discriminate].
      intros a y Na. cbn. eapply k_lock; eassumption. }
    destruct (h_addr h) as [a|] eqn:A; [|eexists _, _, _; split; [reflexivity|]; auto].
    rewrite (busy_lock _ _ _ _ _ a m R), (k_cells _ _ _ _ _ R), nth_error_map.
    destruct (nth_error cs a) as [y|] eqn:Na; cbn [option_map].
    - rewrite (k_lock _ _ _ _ _ R _ _ Na). destruct (blocked m (lock_for a ho)) eqn:Bl; [auto|]. unfold kc.
      destruct (c_poison y) eqn:Po; [eexists _, true, _; split; [reflexivity|]; auto|].
      eexists _, false, _. split; [reflexivity|]. split; [|auto].
      apply (krel_guard _ _ _ _ _ _ (Holding (Some a) m (length (ks_guards st))) _ R); cbn [ho_addr ho_mode ho_guard]; auto.
      + clear. revert a. induction cs as [|y cs IH]; intros [|a]; cbn; auto. now rewrite IH.
      + intros b z Nb. cbn [lock_for]. unfold of_cell. cbn [ho_addr ho_mode]. rewrite nth_error_alter in Nb. rewrite (Nat.eqb_sym b a). destruct (Nat.eqb_spec a b) as [<-|Ne].
        * rewrite Na in Nb. injection Nb as <-. cbn. f_equal. eapply k_lock; eassumption.
        * eapply k_lock; eassumption.
      + intros b [= <-]. split; [assumption|]. apply nth_error_Some. congruence.
    - unfold obtaining. rewrite A. assert (nth_error hd a = None) as ->; [|reflexivity].
      apply nth_error_None. rewrite (k_len _ _ _ _ _ R). now apply nth_error_None.
  Qed.

  (** ** All the guards of an access *)
  Lemma acquires (u : ustate) m hs : forall hd ho cs st, krel hd ho 0 cs st ->
    match acquire m hs cs with
    | AcqOk _ cs1 l0 =>
        exists es l st1, opens hd m hs es l /\ told (u, st) es (u, st1) /\ krel hd (rev l ++ ho) 0 cs1 st1 /\ map ho_addr l = l0 /\
          seen es = acquire_notices (Id := Id) m hs cs
    | AcqHang _ => exists es st1, waits hd m hs es /\ told (u, st) es (u, st1) /\ ks_cells st1 = map kc cs /\ seen es = acquire_notices (Id := Id) m hs cs
    | AcqStuck _ => True
    end.
  Proof.
    induction hs as [|h hs IH]; intros hd ho cs st R; cbn [acquire acquire_notices].
    - exists [], [], st. split; [constructor|]. split; [reflexivity|]. auto.
    - destruct (obtaining (Node := Node) (U := U) hd h) as [e|] eqn:Ob.
      2: { unfold acquire1. unfold obtaining in Ob. destruct (h_addr h) as [a|]; [|discriminate]. destruct (nth_error hd a) as [y|] eqn:N; [discriminate|].
           apply nth_error_None in N. rewrite (k_len _ _ _ _ _ R) in N. apply nth_error_None in N. now rewrite N. }
      destruct (step_obtain _ _ _ _ _ _ _ R Ob) as (x & s1 & S1 & R1 & Nx). pose proof (step_open _ _ _ _ m _ _ R1 Nx) as Op.
      destruct (acquire1 m h cs) as [cs1 oa| |]; [| |exact I].
      + destruct Op as (g & lg & s2 & S2 & R2 & Eo & Nt). specialize (IH _ _ _ _ R2). rewrite Nt.
        destruct (acquire m hs cs1) as [cs2 l0| |]; [| |exact I].
        * destruct IH as (es & l & s3 & O3 & T3 & R3 & E3 & Se). eexists _, _, s3. split; [eapply os_cons; eassumption|].
          split; [eapply tell_cell; [exact S1|]; eapply tell_handle; [exact S2|exact T3]|].
          split; [cbn [rev]; rewrite <- app_assoc; cbn; now rewrite Eo in R3|]. split; [cbn; congruence|].
          change (seen (?a :: ?b :: es)) with (seen_in a ++ seen_in b ++ seen es). rewrite Se. destruct lg; [|reflexivity]. unfold handle_notice. cbn. now destruct (h_ty h).
        * destruct IH as (es & s3 & W3 & T3 & E3 & Se). eexists _, s3. split; [eapply wa_later; eassumption|].
          split; [eapply tell_cell; [exact S1|]; eapply tell_handle; [exact S2|exact T3]|]. split.
          -- rewrite E3, <- (k_cells _ _ _ _ _ R2). cbn [k_step] in S2. unfold k_open in S2. clear - S2 R1.
             rewrite <- (k_cells _ _ _ _ _ R1). destruct (nth_error (ks_handles s1) x) as [[c|]|]; try discriminate; [|now injection S2 as <- _ _].
             destruct (busy c _ s1); [discriminate|]. destruct (nth_error (ks_cells s1) c) as [[v []]|]; injection S2 as <- _ _; reflexivity.
          -- change (seen (?a :: ?b :: es)) with (seen_in a ++ seen_in b ++ seen es). rewrite Se. destruct lg; [|reflexivity]. unfold handle_notice. cbn. now destruct (h_ty h).
      + destruct Op as [S2 Nt]. eexists _, s1. split; [eapply wa_here; exact Ob|].
        split; [eapply tell_cell; [exact S1|]; eapply tell_handle; [exact S2|reflexivity]|]. split; [apply R1|]. now rewrite Nt.
  Qed.

  Lemma opened_all (u : ustate) hd m hs es l : opens hd m hs es l -> forall ho cs st es' st', krel hd ho 0 cs st -> told (u, st) (es ++ es') st' ->
    exists cs1 st1, acquire m hs cs = AcqOk _ cs1 (map ho_addr l) /\ told (u, st1) es' st' /\ krel hd (rev l ++ ho) 0 cs1 st1 /\
      seen es = acquire_notices (Id := Id) m hs cs.
  Proof.
    induction 1 as [|h hs e x g lg es l Ob Os IH]; intros ho cs st es' st' R T; cbn [acquire acquire_notices app].
    - exists cs, st. auto.
    - destruct (step_obtain _ _ _ _ _ _ _ R Ob) as (y & s1 & S1 & R1 & Ny). destruct (cell_told _ _ _ _ _ _ _ _ T S1) as [[= ->] T1].
      pose proof (step_open _ _ _ _ m _ _ R1 Ny) as Op. destruct (acquire1 m h cs) as [cs1 oa| |]; [| |congruence].
      + destruct Op as (g' & lg' & s2 & S2 & R2 & Eo & Nt). destruct (handle_told _ _ _ _ _ _ _ _ _ _ T1 S2) as [[= -> ->] T2].
        destruct (IH _ _ _ _ _ R2 T2) as (cs2 & s3 & Ac & T3 & R3 & Se). rewrite Ac, Nt. exists cs2, s3. split; [cbn; now rewrite Eo|]. split; [exact T3|].
        split; [cbn [rev]; rewrite <- app_assoc; cbn; now rewrite Eo in R3|].
        change (seen (?a :: ?b :: es)) with (seen_in a ++ seen_in b ++ seen es). rewrite Se. destruct lg'; [|reflexivity]. unfold handle_notice. cbn. now destruct (h_ty h).
      + destruct Op as [S2 _]. destruct (handle_told _ _ _ _ _ _ _ _ _ _ T1 S2) as [[=] _].
  Qed.

  Lemma waited (u : ustate) hd m hs es : waits hd m hs es -> forall ho cs st st', krel hd ho 0 cs st -> told (u, st) es st' ->
    acquire m hs cs = AcqHang _ /\ fst st' = u /\ ks_cells (snd st') = map kc cs /\ seen es = acquire_notices (Id := Id) m hs cs.
  Proof.
    assert (Kc : forall s1 s2 : kstate, forall w x g lg, k_step s1 (0, KOpen w x) = (s2, KOpened g lg) -> ks_cells s2 = ks_cells s1).
    { intros s1 s2 w x g lg S2. cbn [k_step] in S2. unfold k_open in S2. destruct (nth_error (ks_handles s1) x) as [[c|]|]; try discriminate; [|now injection S2 as <- _ _].
      destruct (busy c _ s1); [discriminate|]. destruct (nth_error (ks_cells s1) c) as [[v []]|]; injection S2 as <- _ _; reflexivity. }
    induction 1 as [h hs e x Ob|h hs e x g lg es Ob Os IH]; intros ho cs st st' R T; cbn [acquire acquire_notices].
    - destruct (step_obtain _ _ _ _ _ _ _ R Ob) as (y & s1 & S1 & R1 & Ny). destruct (cell_told _ _ _ _ _ _ _ _ T S1) as [[= ->] T1].
      pose proof (step_open _ _ _ _ m _ _ R1 Ny) as Op. destruct (acquire1 m h cs) as [cs1 oa| |]; [| |congruence].
      + destruct Op as (g' & lg' & s2 & S2 & _). destruct (handle_told _ _ _ _ _ _ _ _ _ _ T1 S2) as [[=] _].
      + destruct Op as [S2 Nt]. destruct (handle_told _ _ _ _ _ _ _ _ _ _ T1 S2) as [_ T2]. cbn in T2. subst st'. rewrite Nt. repeat split. apply R1.
    - destruct (step_obtain _ _ _ _ _ _ _ R Ob) as (y & s1 & S1 & R1 & Ny). destruct (cell_told _ _ _ _ _ _ _ _ T S1) as [[= ->] T1].
      pose proof (step_open _ _ _ _ m _ _ R1 Ny) as Op. destruct (acquire1 m h cs) as [cs1 oa| |]; [| |congruence].
      + destruct Op as (g' & lg' & s2 & S2 & R2 & Eo & Nt). destruct (handle_told _ _ _ _ _ _ _ _ _ _ T1 S2) as [[= -> ->] T2].
        destruct (IH _ _ _ _ R2 T2) as (Ac & Eu & Ek & Se). rewrite Ac, Nt. split; [reflexivity|]. split; [exact Eu|]. split.
        * rewrite Ek, <- (k_cells _ _ _ _ _ R2), (Kc _ _ _ _ _ _ S2). apply R1.
        * change (seen (?a :: ?b :: es)) with (seen_in a ++ seen_in b ++ seen es). rewrite Se. destruct lg'; [|reflexivity]. unfold handle_notice. cbn. now destruct (h_ty h).
      + destruct Op as [S2 _]. destruct (handle_told _ _ _ _ _ _ _ _ _ _ T1 S2) as [[=] _].
  Qed.

  Lemma opens_fits hd m hs (es : list made) l : opens hd m hs es l -> Forall2 (fun h x => (ho_addr x = None \/ ho_addr x = h_addr h) /\ ho_mode x = m) hs l.
  Proof. induction 1 as [|h hs e x g lg es l Ob Os IH]; constructor; [|exact IH]. cbn. destruct lg; auto. Qed.

  (** ** What is found *)
  Lemma step_deref hd ho d cs st x : krel hd ho d cs st -> In x ho ->
    k_step st (0, KDeref (ho_guard x)) = (st, KVal (match ho_addr x with Some a => option_map (@c_val Node U) (nth_error cs a) | None => None end)).
  Proof.
    intros R I. destruct (k_live _ _ _ _ _ R _ I) as [h N]. cbn [k_step]. rewrite (own_live _ _ _ _ _ N). cbn [kg_cell]. f_equal. f_equal.
    destruct (ho_addr x) as [a|]; [|reflexivity]. unfold cell_value. rewrite (k_cells _ _ _ _ _ R), nth_error_map. now destruct (nth_error cs a).
  Qed.

  Lemma deref1_eq (cs : list cell) h x : ho_addr x = None \/ ho_addr x = h_addr h ->
    match ho_addr x with Some a => option_map (@c_val Node U) (nth_error cs a) | None => None end = None /\ deref1 cs h (ho_addr x) = None \/
    exists d, match ho_addr x with Some a => option_map (@c_val Node U) (nth_error cs a) | None => None end = Some d /\
      ((ty_of d <> h_ty h /\ deref1 cs h (ho_addr x) = None) \/ exists a, h_addr h = Some a /\ ty_of d = h_ty h /\ deref1 cs h (ho_addr x) = Some (a, d)).
  Proof.
    intros E. unfold deref1. destruct (ho_addr x) as [a|]; [|auto]. destruct E as [|E]; [discriminate|].
    destruct (nth_error cs a) as [y|]; cbn [option_map]; [|auto]. right. exists (c_val y). split; [reflexivity|].
    destruct (ty_eqb (ty_of (c_val y)) (h_ty h)) eqn:T.
    - right. exists a. split; [now symmetry|]. split; [now apply ty_eqb_eq|reflexivity].
    - left. split; [|reflexivity]. intros X. apply ty_eqb_eq in X. congruence.
  Qed.

  Lemma finds (u : ustate) hd ho d cs st m hs l : krel hd ho d cs st ->
    Forall2 (fun h x => (ho_addr x = None \/ ho_addr x = h_addr h) /\ ho_mode x = m) hs l -> (forall x, In x l -> In x ho) ->
    exists es, derefs hs l es (deref_all cs hs (map ho_addr l)) /\ told (u, st) es (u, st) /\ seen es = [].
  Proof.
    intros R F. induction F as [|h x hs l [E _] F IH]; intros I.
    - exists []. split; [constructor|]. split; reflexivity.
    - destruct IH as (es & D & T & Se); [intros y Y; apply I; now right|].
      pose proof (step_deref _ _ _ _ _ _ R (I x (or_introl eq_refl))) as S. cbn [map deref_all].
      destruct (deref1_eq cs h x E) as [[Ev Dr]|(v & Ev & [[Ty Dr]|(a & A & Ty & Dr)])]; rewrite Dr, Ev in *.
      + eexists. split; [apply (de_none _ _ _ _ None); intros d' X; discriminate X|]. split; [eapply tell_cell; [exact S|reflexivity]|reflexivity].
      + eexists. split; [apply (de_none _ _ _ _ (Some v)); intros d' X; injection X as <-; exact Ty|]. split; [eapply tell_cell; [exact S|reflexivity]|reflexivity].
      + eexists. split; [|split; [eapply tell_cell; [exact S|exact T]|exact Se]].
        destruct (deref_all cs hs (map ho_addr l)) as [r|]; eapply (de_some _ _ _ _ _ _ _ (Some _)) || eapply (de_some _ _ _ _ _ _ _ None); eassumption.
  Qed.

  Lemma found (u : ustate) hs l (es : list made) r : derefs hs l es r -> forall hd ho d cs st m es' st', krel hd ho d cs st ->
    Forall2 (fun h x => (ho_addr x = None \/ ho_addr x = h_addr h) /\ ho_mode x = m) hs l -> (forall x, In x l -> In x ho) ->
    told (u, st) (es ++ es') st' -> r = deref_all cs hs (map ho_addr l) /\ told (u, st) es' st' /\ seen (es : list made) = [].
  Proof.
    induction 1 as [|h hs x l v Nv|h hs x l a v es r A Ty D IH]; intros hd ho d cs st m es' st' R F I T.
    - auto.
    - pose proof (step_deref _ _ _ _ _ _ R (I x (or_introl eq_refl))) as S. inversion F as [|? ? ? ? [E _] F']; subst. cbn [map deref_all app] in *.
      destruct (cell_told _ _ _ _ _ _ _ _ T S) as [[= Ev] T1].
      destruct (deref1_eq cs h x E) as [[_ Dr]|(v' & Ev' & [[_ Dr]|(a & A & Ty & Dr)])]; rewrite Dr; auto. exfalso. eapply Nv; [|exact Ty]. congruence.
    - pose proof (step_deref _ _ _ _ _ _ R (I x (or_introl eq_refl))) as S. inversion F as [|? ? ? ? [E _] F']; subst. cbn [map deref_all app] in *.
      destruct (cell_told _ _ _ _ _ _ _ _ T S) as [[= Ev] T1].
      destruct (IH _ _ _ _ _ _ _ _ R F' (fun y Y => I y (or_intror Y)) T1) as (-> & T2 & Se). split; [|split; [exact T2|exact Se]].
      destruct (deref1_eq cs h x E) as [[Ev' Dr]|(v' & Ev' & [[Ty' Dr]|(a' & A' & Ty' & Dr)])]; [congruence|congruence|]. rewrite Dr. assert (v' = v) as -> by congruence.
      assert (a' = a) as -> by congruence. now destruct (deref_all _ _ _).
  Qed.

  (** ** Guards are dropped *)
  Lemma unlock_lock m l : blocked m l = false -> unlock_rw (lock_rw m l) = l.
  Proof. destruct m, l as [|[|n]|]; cbn; congruence. Qed.

  Lemma step_close hd x ho d cs st : krel hd (x :: ho) d cs st -> exists st1, k_step st (0, KDrop (ho_guard x)) = (st1, KUnit) /\
    krel hd ho d (release (writing (ho_mode x) && match d with 0 => false | _ => true end) [ho_addr x] cs) st1.
  Proof.
    intros R. destruct (k_live _ _ _ _ _ R x (or_introl eq_refl)) as [h N]. cbn [k_step]. rewrite (own_live _ _ _ _ _ N).
    eexists. split; [reflexivity|]. unfold k_drop. cbn [kg_cell kg_write kg_panicking]. rewrite (panics_krel _ _ _ _ _ R), andb_true_r.
    set (po := writing (ho_mode x) && match d with 0 => false | _ => true end).
    assert (Len : length (release po [ho_addr x] cs) = length cs) by (cbn; destruct (ho_addr x); [now rewrite alter_length|reflexivity]).
    destruct R. constructor; cbn [ks_cells ks_handles ks_guards ks_panicking]; auto.
    - rewrite k_cells0. cbn [release]. destruct (ho_addr x) as [a|]; [|reflexivity]. clear. revert a.
      assert (X : forall y : cell, kc (unlock_cell po y) = if po then KCell (kc_value (kc y)) true else kc y).
      { intros y. unfold kc, unlock_cell. cbn. destruct po; [now rewrite orb_true_r|now rewrite orb_false_r]. }
      induction cs as [|y cs IH]; intros [|a]; cbn; try (destruct po; reflexivity).
      + rewrite X. destruct po; reflexivity.
      + rewrite <- IH. destruct po; reflexivity.
    - congruence.
    - intros a y Ny. cbn [release] in Ny. destruct k_legal0 as [Lx _]. destruct (ho_addr x) as [b|] eqn:A.
      + rewrite nth_error_alter in Ny. destruct (Nat.eqb_spec b a) as [->|Ne].
        * destruct (nth_error cs a) as [z|] eqn:Nz; [|discriminate]. injection Ny as <-. cbn. rewrite (k_lock0 _ _ Nz). cbn [lock_for]. unfold of_cell. rewrite A, Nat.eqb_refl.
          apply unlock_lock. now apply Lx.
        * rewrite (k_lock0 _ _ Ny). cbn [lock_for]. unfold of_cell. rewrite A. destruct (Nat.eqb_spec a b); [congruence|reflexivity].
      + rewrite (k_lock0 _ _ Ny). cbn [lock_for]. unfold of_cell. now rewrite A.
    - apply k_legal0.
    - intros y I. destruct (k_live0 y (or_intror I)) as [h' N']. exists h'. unfold Cells.set_status. rewrite nth_error_alter.
      destruct (Nat.eqb_spec (ho_guard x) (ho_guard y)) as [E|Ne]; [|exact N']. exfalso. cbn in k_nodup0. inversion k_nodup0 as [|? ? Ni _]. subst. apply Ni. rewrite E. now apply in_map.
    - rewrite Len. intros y a I. apply k_bound0. now right.
    - intros g k Ng. unfold Cells.set_status in Ng. rewrite nth_error_alter in Ng. destruct (Nat.eqb_spec (ho_guard x) g) as [<-|Ne].
      + rewrite N in Ng. injection Ng as <-. now left.
      + destruct (k_rest0 _ _ Ng) as [D|[E|I]]; [now left|congruence|now right].
    - cbn in k_nodup0. now inversion k_nodup0.
    - intros g k Ng. unfold Cells.set_status in Ng. rewrite nth_error_alter in Ng. destruct (Nat.eqb_spec (ho_guard x) g) as [<-|Ne]; [|eauto].
      rewrite N in Ng. injection Ng as <-. apply (k_handle0 _ _ N).
  Qed.

  Lemma release_app po l1 l2 (cs : list cell) : release po (l1 ++ l2) cs = release po l1 (release po l2 cs).
  Proof. induction l1 as [|[a|] l1 IH]; cbn; congruence. Qed.

  Lemma closes (u : ustate) hd d m l : forall ho cs st, krel hd (rev l ++ ho) d cs st -> (forall x, In x l -> ho_mode x = m) ->
    exists st1, told (u, st) (closing l) (u, st1) /\ krel hd ho d (release (writing m && match d with 0 => false | _ => true end) (map ho_addr l) cs) st1.
  Proof.
    induction l as [|x l IH] using rev_ind; intros ho cs st R M.
    - exists st. split; [reflexivity|exact R].
    - unfold closing. rewrite rev_app_distr in *. cbn [rev app map] in *. destruct (step_close _ _ _ _ _ _ R) as (s1 & S1 & R1).
      destruct (IH _ _ _ R1) as (s2 & T2 & R2); [intros y Y; apply M, in_or_app; now left|].
      exists s2. split; [eapply tell_cell; [exact S1|exact T2]|]. rewrite map_app, release_app. cbn [map].
      assert (E : ho_mode x = m) by (apply M, in_or_app; right; now left). rewrite E in R2. exact R2.
  Qed.

  Lemma closed_all (u : ustate) hd d m l ho cs st es' st' : krel hd (rev l ++ ho) d cs st -> (forall x, In x l -> ho_mode x = m) -> told (u, st) (closing l ++ es') st' ->
    exists st1, told (u, st1) es' st' /\ krel hd ho d (release (writing m && match d with 0 => false | _ => true end) (map ho_addr l) cs) st1.
  Proof.
    intros R M T. destruct (closes u _ _ _ _ _ _ _ R M) as (s1 & T1 & R1). apply told_app in T as (s & T & T'). rewrite (told_fun _ _ _ _ T T1) in T'. eauto.
  Qed.

  Lemma seen_closing l : seen (closing l : list made) = [].
  Proof. unfold closing. induction (rev l) as [|x r IH]; [reflexivity|]. exact IH. Qed.

  (** ** Panics *)
  Lemma kstep_panic hd ho cs st : krel hd ho 0 cs st -> exists st1, k_step st (0, KPanic) = (st1, KUnit) /\ krel hd ho 1 cs st1.
  Proof. intros R. eexists. split; [reflexivity|]. destruct R. constructor; cbn; auto. now rewrite k_panic0. Qed.

  Lemma kstep_catch hd ho cs st : krel hd ho 1 cs st -> exists st1, k_step st (0, KCatch) = (st1, KUnit) /\ krel hd ho 0 cs st1.
  Proof.
    intros R. cbn [k_step]. rewrite (panics_krel _ _ _ _ _ R). eexists. split; [reflexivity|]. destruct R. constructor; cbn; auto. rewrite k_panic0. reflexivity.
  Qed.

  (** ** Targets *)
  Lemma lock_unused a ho : (forall x, In x ho -> ho_addr x <> Some a) -> lock_for a ho = Free.
  Proof.
    induction ho as [|x ho IH]; intros N; [reflexivity|]. cbn [lock_for]. destruct (of_cell a x) eqn:O.
    - apply of_cell_true in O. exfalso. eapply N; [now left|exact O].
    - apply IH. intros y Y. apply N. now right.
  Qed.

  Lemma step_target hd ho cs st (n : Node) : krel hd ho 0 cs st -> exists x st1 st2,
    k_step st (0, KHandle) = (st1, KHandleNo x) /\ k_step st1 (0, KSet x (DNode n)) = (st2, KUnit) /\
    krel (hd ++ [x]) ho 0 (cs ++ [Cell (DNode n) false Free]) st2.
  Proof.
    intros R. eexists _, _, (KState (ks_cells st ++ [KCell (DNode n) false]) (ks_handles st ++ [Some (length (ks_cells st))]) (ks_guards st) (ks_panicking st)). split; [reflexivity|]. split.
    - cbn [k_step ks_handles ks_cells ks_guards ks_panicking]. rewrite nth_error_app2, Nat.sub_diag by lia. cbn [nth_error].
      assert (Nb : borrowed (length (ks_handles st)) (KState (ks_cells st) (ks_handles st ++ [None]) (ks_guards st) (ks_panicking st)) = false).
      { unfold borrowed. cbn [ks_guards]. destruct (existsb _ _) eqn:E; [|reflexivity]. apply existsb_exists in E as (k & I & B). apply In_nth_error in I as [g N].
        apply (k_handle _ _ _ _ _ R) in N. apply andb_true_iff in B as [B _]. apply Nat.eqb_eq in B. lia. }
      rewrite Nb. now rewrite alter_snoc.
    - assert (Lc : length (ks_cells st) = length cs) by (rewrite (k_cells _ _ _ _ _ R); apply map_length).
      destruct R. constructor; cbn [ks_cells ks_handles ks_guards ks_panicking]; auto.
      + now rewrite k_cells0, map_app.
      + now rewrite !app_length, k_len0.
      + intros a h N. apply nth_error_snoc in N as [N|[-> ->]].
        * apply k_hd0 in N. rewrite nth_error_app1; [assumption|]. apply nth_error_Some. congruence.
        * rewrite nth_error_app2, Nat.sub_diag by lia. cbn. congruence.
      + intros a y N. apply nth_error_snoc in N as [N|[-> ->]]; [eauto|]. symmetry. apply lock_unused. intros x I E. apply k_bound0 in E; [lia|assumption].
      + intros x a I E. rewrite app_length. apply k_bound0 in E; [lia|assumption].
      + intros g k N. rewrite app_length. apply k_handle0 in N. lia.
  Qed.

  (** ** Assignments *)
  Lemma held_lock a ho : lock_for a ho = match held_at a ho with
    | Some x => match ho_mode x with Excl => Writer | Shared => lock_for a ho end
    | None => Free
    end.
  Proof.
    induction ho as [|x ho IH]; [reflexivity|]. unfold held_at in *. cbn [find lock_for]. fold (of_cell a x).
    destruct (of_cell a x); [|exact IH]. now destruct (ho_mode x).
  Qed.

  Lemma held_at_in a ho x : held_at a ho = Some x -> In x ho /\ ho_addr x = Some a.
  Proof. intros E. unfold held_at in E. apply find_some in E as [I O]. split; [assumption|]. now apply of_cell_true. Qed.

  Lemma shared_lock a ho x : held_at a ho = Some x -> ho_mode x = Shared -> lock_for a ho <> Writer.
  Proof.
    induction ho as [|y ho IH]; [discriminate|]. unfold held_at in *. cbn [find lock_for]. fold (of_cell a y).
    destruct (of_cell a y); [|exact IH]. intros [= ->] ->. destruct (lock_for a ho); discriminate.
  Qed.

  Lemma step_poke hd ho d cs st a x v : krel hd ho d cs st -> held_at a ho = Some x ->
    match ho_mode x with
    | Excl => exists y st1, nth_error cs a = Some y /\ c_lock y = Writer /\ k_step st (0, KMut (ho_guard x) v) = (st1, KVal (Some (c_val y))) /\
        krel hd ho d (alter (fun x => Cell v (c_poison x) (c_lock x)) a cs) st1
    | Shared => k_step st (0, KMut (ho_guard x) v) = (st, KInvalid) /\ forall y, nth_error cs a = Some y -> c_lock y <> Writer
    end.
  Proof.
    intros R Hx. destruct (held_at_in _ _ _ Hx) as [I A]. destruct (k_live _ _ _ _ _ R _ I) as [h N]. cbn [k_step]. rewrite (own_live _ _ _ _ _ N). cbn [kg_write kg_cell].
    destruct (ho_mode x) eqn:M; cbn [writing].
    - split; [reflexivity|]. intros y Ny. rewrite (k_lock _ _ _ _ _ R _ _ Ny). eapply shared_lock; eassumption.
    - rewrite A. pose proof (k_bound _ _ _ _ _ R _ _ I A) as L. destruct (nth_error cs a) as [y|] eqn:Ny; [|apply nth_error_None in Ny; lia].
      exists y. eexists. split; [reflexivity|]. split.
      { rewrite (k_lock _ _ _ _ _ R _ _ Ny). rewrite held_lock, Hx, M. reflexivity. }
      split; [unfold cell_value; rewrite (k_cells _ _ _ _ _ R), nth_error_map, Ny; reflexivity|].
      destruct R. constructor; cbn [ks_cells ks_handles ks_guards ks_panicking]; auto.
      + clear. revert a. induction cs as [|y cs IH]; intros [|a]; cbn; auto. now rewrite IH.
      + now rewrite alter_length.
      + intros b z Nz. rewrite nth_error_alter in Nz. destruct (Nat.eqb_spec a b) as [<-|Ne]; [|eauto]. rewrite Ny in Nz. injection Nz as <-. cbn. eauto.
      + intros z b. rewrite alter_length. eauto.
  Qed.

  Lemma writer_held hd ho d cs st a y : krel hd ho d cs st -> nth_error cs a = Some y -> c_lock y = Writer -> exists x, held_at a ho = Some x /\ ho_mode x = Excl.
  Proof.
    intros R N L. rewrite (k_lock _ _ _ _ _ R _ _ N) in L. pose proof (held_lock a ho) as E. destruct (held_at a ho) as [x|] eqn:Hx; [|congruence].
    exists x. split; [reflexivity|]. destruct (ho_mode x) eqn:M; [|reflexivity]. exfalso. eapply shared_lock; eassumption.
  Qed.
End Facts.
