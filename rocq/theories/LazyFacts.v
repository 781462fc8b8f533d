(** Facts about lazy documents. *)
From Coq Require Import List Bool Arith Lia.
From Verif Require Import Graph Tx Lazy SpecLazy.
Import ListNotations.

Section Facts.
  Context {Id Doc : Type} `{HI : Identify Doc Id}.
  Notation label := (label Id Doc).
  Notation lstate := (lstate Id Doc).
  Notation act := (@act Id Doc).
  Notation ldoc := (ldoc Id Doc).

  Lemma nth_error_alter {A} (f : A -> A) n (l : list A) k :
    nth_error (alter f n l) k = if Nat.eqb k n then option_map f (nth_error l k) else nth_error l k.
  Proof.
    revert n k. induction l as [|x l IH]; intros [|n] [|k]; cbn; auto; try (destruct (k =? n); reflexivity).
  Qed.

  Lemma alter_len {A} (f : A -> A) n (l : list A) : length (alter f n l) = length l.
  Proof. revert n. induction l as [|x l IH]; intros [|n]; cbn; auto. Qed.

  Lemma nth_snoc {A} (l : list A) x k y : nth_error (l ++ [x]) k = Some y ->
    nth_error l k = Some y \/ (k = length l /\ y = x).
  Proof.
    destruct (Nat.lt_ge_cases k (length l)) as [L|L].
    - rewrite nth_error_app1 by assumption. auto.
    - rewrite nth_error_app2 by assumption. destruct (k - length l) as [|m] eqn:E; cbn.
      + intros [= <-]. right. split; [lia|reflexivity].
      + destruct m; discriminate.
  Qed.

  Lemma nth_snoc_old {A} (l : list A) x k y : nth_error l k = Some y -> nth_error (l ++ [x]) k = Some y.
  Proof. intros E. rewrite nth_error_app1; [assumption|]. apply nth_error_Some. congruence. Qed.

  Lemma nth_snoc_new {A} (l : list A) x : nth_error (l ++ [x]) (length l) = Some x.
  Proof. rewrite nth_error_app2, Nat.sub_diag by lia. reflexivity. Qed.

  (** ** What a step does to documents and calls *)

  Definition grows (x y : ldoc) : Prop := ld_id y = ld_id x /\ (ld_cell y = ld_cell x \/ ld_cell x = None).

  Lemma l_step_doc (st : lstate) (l : label) d x : nth_error (l_docs st) d = Some x ->
    exists y, nth_error (l_docs (fst (l_step st l))) d = Some y /\ grows x y.
  Proof.
    intros N. assert (R : grows x x) by (unfold grows; auto).
    destruct l as [i|v|j|j|c ans]; cbn.
    - exists x. split; [now apply nth_snoc_old|assumption].
    - exists x. split; [now apply nth_snoc_old|assumption].
    - destruct (nth_error (l_docs st) j); cbn; [|eauto]. exists x. split; [now apply nth_snoc_old|assumption].
    - destruct (nth_error (l_docs st) j); cbn; eauto.
    - destruct (nth_error (l_calls st) c) as [[j p]|]; [|eauto].
      destruct (is_done p); [eauto|].
      destruct (nth_error (l_docs st) j) as [z|] eqn:Z; [|eauto].
      destruct (deref_step z p ans) as [[v|] p'] eqn:D; cbn; [|eauto].
      unfold set_cell. rewrite nth_error_alter. destruct (Nat.eqb d j) eqn:E; [|eauto].
      apply Nat.eqb_eq in E. subst j. rewrite N in Z |- *. injection Z as <-. cbn.
      eexists. split; [reflexivity|]. unfold grows; cbn. split; [reflexivity|].
      unfold deref_step in D. destruct p; try (destruct (ld_cell x); [congruence|auto; congruence]); try congruence.
      destruct ans; congruence.
  Qed.

  Lemma l_run_doc (ls : list label) : forall (st : lstate) d x, nth_error (l_docs st) d = Some x ->
    exists y, nth_error (l_docs (fst (l_run st ls))) d = Some y /\ grows x y.
  Proof.
    induction ls as [|l ls IH]; intros st d x N.
    - exists x. split; [exact N|]. unfold grows; auto.
    - cbn. destruct (l_step_doc st l d x N) as (y & Ny & G1 & G2).
      destruct (l_step st l) as [st1 o]. cbn in Ny. destruct (IH st1 d y Ny) as (z & Nz & G3 & G4).
      destruct (l_run st1 ls) as [st2 os]. cbn in Nz |- *. exists z. split; [assumption|].
      split; [congruence|]. destruct G2 as [G2|G2], G4 as [G4|G4]; auto; [left|right]; congruence.
  Qed.

  Lemma l_run_app (ls1 : list label) : forall (st : lstate) ls2,
    fst (l_run st (ls1 ++ ls2)) = fst (l_run (fst (l_run st ls1)) ls2).
  Proof.
    induction ls1 as [|l ls1 IH]; intros st ls2; [reflexivity|]. cbn.
    destruct (l_step st l) as [st1 o]. specialize (IH st1 ls2).
    destruct (l_run st1 (ls1 ++ ls2)), (l_run st1 ls1). exact IH.
  Qed.

  Lemma l_after_app (ls1 ls2 : list label) : l_after (ls1 ++ ls2) = fst (l_run (l_after ls1) ls2).
  Proof. apply l_run_app. Qed.

  Lemma l_after_snoc (ls : list label) l : l_after (ls ++ [l]) = fst (l_step (l_after ls) l).
  Proof. rewrite l_after_app. cbn. destruct (l_step _ l). reflexivity. Qed.

  Lemma l_step_call (st : lstate) (l : label) c d p :
    nth_error (l_calls (fst (l_step st l))) c = Some (Call d p) ->
    (* untouched *)
    (nth_error (l_calls st) c = Some (Call d p) /\ forall ans, l = LStep c ans -> exists r, p = Done r) \/
    (* started *)
    (l = LCall d /\ c = length (l_calls st) /\ p = AtGet /\ exists x, nth_error (l_docs st) d = Some x) \/
    (* stepped *)
    (exists ans q x, l = LStep c ans /\ nth_error (l_calls st) c = Some (Call d q) /\ (forall r, q <> Done r) /\
       nth_error (l_docs st) d = Some x /\ p = snd (deref_step x q ans) /\
       l_docs (fst (l_step st l)) = match fst (deref_step x q ans) with
                                    | Some v => set_cell v d (l_docs st) | None => l_docs st end) \/
    (* invalid document: never happens *)
    (exists ans, l = LStep c ans /\ nth_error (l_calls st) c = Some (Call d p) /\ nth_error (l_docs st) d = None).
  Proof.
    destruct l as [i|v|j|j|c' ans]; cbn; intros N.
    - left. split; [assumption|discriminate].
    - left. split; [assumption|discriminate].
    - left. destruct (nth_error (l_docs st) j); cbn in N; (split; [assumption|discriminate]).
    - destruct (nth_error (l_docs st) j) as [x|] eqn:X; cbn in N; [|left; split; [assumption|discriminate]].
      apply nth_snoc in N as [N|[-> [= -> ->]]]; [left; split; [assumption|discriminate]|].
      right; left. repeat split; auto. eauto.
    - destruct (nth_error (l_calls st) c') as [[j q]|] eqn:Q.
      2: { cbn in N. left. split; [assumption|]. intros a [= -> ->]. congruence. }
      destruct (is_done q) eqn:K.
      { cbn in N. left. split; [assumption|]. intros a [= -> ->]. rewrite N in Q. injection Q as -> ->.
        destruct q; try discriminate. eauto. }
      destruct (nth_error (l_docs st) j) as [x|] eqn:X.
      + destruct (deref_step x q ans) as [w p'] eqn:D. cbn in N. unfold set_pc in N.
        rewrite nth_error_alter in N. destruct (Nat.eqb c c') eqn:Ec.
        * apply Nat.eqb_eq in Ec. subst c'. rewrite Q in N. cbn in N. injection N as -> ->.
          right; right; left. exists ans, q, x. rewrite D. cbn [fst snd]. repeat split; auto.
          intros r ->. discriminate.
        * left. split; [assumption|]. intros a [= -> ->]. rewrite Nat.eqb_refl in Ec. discriminate.
      + cbn in N. destruct (Nat.eq_dec c c') as [->|Nc].
        * rewrite Q in N. injection N as -> ->. right; right; right. exists ans. repeat split; auto.
        * left. split; [assumption|]. intros a [= -> ->]. congruence.
  Qed.

  (** ** Invariants of schedules *)

  Definition linv (st : lstate) : Prop :=
    forall c d p, nth_error (l_calls st) c = Some (Call d p) ->
      exists x, nth_error (l_docs st) d = Some x /\
        match p with
        | Done (Some v) => ld_cell x = Some v
        | AtReread => ld_cell x <> None
        | _ => True
        end.

  Lemma linv_step (st : lstate) (l : label) : linv st -> linv (fst (l_step st l)).
  Proof.
    intros L c d p N. destruct (l_step_call st l c d p N) as
      [[N0 _]|[(-> & -> & -> & x & X)|[(ans & q & x & -> & Q & Nd & X & Ep & Ed)|(ans & -> & Q & X)]]].
    - destruct (L c d p N0) as (x & X & K). destruct (l_step_doc st l d x X) as (y & Y & G1 & G2).
      exists y. split; [assumption|]. destruct p as [| |v| |[v|]]; auto.
      + destruct G2 as [G2|G2]; congruence.
      + destruct G2 as [G2|G2]; congruence.
    - destruct (l_step_doc st (LCall d) d x X) as (y & Y & _). exists y. auto.
    - destruct (l_step_doc st (LStep c ans) d x X) as (y & Y & G). exists y. split; [assumption|].
      rewrite Ed in Y. subst p. destruct (L c d q Q) as (x' & X' & K). rewrite X in X'. injection X' as <-.
      destruct q as [| |v| |r]; cbn in *.
      + destruct (ld_cell x) as [v|] eqn:C; cbn in *; [|exact Logic.I]. congruence.
      + destruct ans; exact Logic.I.
      + destruct (ld_cell x) as [w|] eqn:C; cbn in *; [exact Logic.I|].
        unfold set_cell in Y. rewrite nth_error_alter, Nat.eqb_refl, X in Y. injection Y as <-. discriminate.
      + rewrite X in Y. injection Y as <-. destruct (ld_cell x); [reflexivity|congruence].
      + exfalso. eapply Nd; reflexivity.
    - destruct (L c d p Q) as (x & X' & _). congruence.
  Qed.

  Lemma linv_after ls : linv (l_after ls).
  Proof.
    induction ls as [|l ls IH] using rev_ind; [intros [] d p N; discriminate|].
    rewrite l_after_snoc. now apply linv_step.
  Qed.

  (** Once the cell is set, calls started afterwards return it at their first step. *)
  Lemma late_calls (ls : list label) : forall (st : lstate) d x v, nth_error (l_docs st) d = Some x -> ld_cell x = Some v ->
    forall c p, length (l_calls st) <= c ->
      nth_error (l_calls (fst (l_run st ls))) c = Some (Call d p) -> p = AtGet \/ p = Done (Some v).
  Proof.
    intros st d x v X C. induction ls as [|l ls IH] using rev_ind; intros c p Lc N.
    - cbn in N. assert (c < length (l_calls st)) by (apply nth_error_Some; congruence). lia.
    - rewrite l_run_app in N. cbn in N. specialize (IH c).
      destruct (l_run_doc ls st d x X) as (y & Y & _ & G).
      assert (Cy : ld_cell y = Some v) by (destruct G; congruence).
      set (st1 := fst (l_run st ls)) in *.
      assert (N' : nth_error (l_calls (fst (l_step st1 l))) c = Some (Call d p)).
      { destruct (l_step st1 l). exact N. }
      destruct (l_step_call st1 l c d p N') as
        [[N0 _]|[(-> & -> & -> & _)|[(ans & q & z & -> & Q & Nd & Z & Ep & Ed)|(ans & -> & Q & Z)]]].
      + now apply IH.
      + now left.
      + rewrite Y in Z. injection Z as <-. destruct (IH q Lc Q) as [-> | ->].
        * cbn in Ep. rewrite Cy in Ep. now right.
        * exfalso. eapply Nd; reflexivity.
      + congruence.
  Qed.

  (** With a repository that always finds the document, an absent answer means the cell is set. *)
  Lemma absent_means_set ls : always_found ls -> forall c d,
    nth_error (l_calls (l_after ls)) c = Some (Call d (Done None)) ->
    exists x v, nth_error (l_docs (l_after ls)) d = Some x /\ ld_cell x = Some v.
  Proof.
    induction ls as [|l ls IH] using rev_ind; intros F c d N; [destruct c; discriminate|].
    assert (F' : always_found ls) by (intros c' ans Ia; apply (F c' ans), in_or_app; auto).
    rewrite l_after_snoc in *. pose proof (linv_after ls) as L. set (st := l_after ls) in *.
    destruct (l_step_call st l c d _ N) as
      [[N0 _]|[(_ & _ & E & _)|[(ans & q & x & -> & Q & Nd & X & Ep & Ed)|(ans & -> & Q & X)]]].
    - destruct (IH F' c d N0) as (x & v & X & C). destruct (l_step_doc st l d x X) as (y & Y & _ & G).
      exists y, v. split; [assumption|]. destruct G; congruence.
    - discriminate.
    - destruct (l_step_doc st (LStep c ans) d x X) as (y & Y & _ & G). destruct q as [| |w| |r]; cbn in Ep.
      + destruct (ld_cell x); discriminate.
      + destruct ans; [discriminate|]. exfalso. apply (F c None); [apply in_or_app; cbn; auto|reflexivity].
      + destruct (ld_cell x) as [v|] eqn:C; [|discriminate]. exists y, v. split; [assumption|]. destruct G; congruence.
      + destruct (L c d _ Q) as (x' & X' & K). rewrite X in X'. injection X' as <-. injection Ep as Ep. congruence.
      + exfalso. eapply Nd; reflexivity.
    - destruct (L c d _ Q) as (x & X' & _). congruence.
  Qed.

  (** A call that runs alone on its document. *)
  Definition solo (x : ldoc) (p : pc Doc) : Prop :=
    match p with
    | AtGet => True
    | AtFind | AtSet _ => ld_cell x = None
    | AtReread => ld_cell x <> None
    | Done r => r <> None
    end.

  (** Cells only change through a step of a call on that document. *)
  Lemma cell_changed (st : lstate) (l : label) d x y : nth_error (l_docs st) d = Some x ->
    nth_error (l_docs (fst (l_step st l))) d = Some y -> ld_cell y <> ld_cell x ->
    exists c ans p, l = LStep c ans /\ nth_error (l_calls st) c = Some (Call d p).
  Proof.
    intros X Y Ne. destruct l as [i|v|j|j|c ans]; cbn in Y.
    - rewrite (nth_snoc_old _ _ _ _ X) in Y. congruence.
    - rewrite (nth_snoc_old _ _ _ _ X) in Y. congruence.
    - destruct (nth_error (l_docs st) j); cbn in Y; [rewrite (nth_snoc_old _ _ _ _ X) in Y|]; congruence.
    - destruct (nth_error (l_docs st) j); cbn in Y; congruence.
    - destruct (nth_error (l_calls st) c) as [[j p]|] eqn:Q; [|cbn in Y; congruence].
      destruct (is_done p); [cbn in Y; congruence|].
      destruct (nth_error (l_docs st) j) as [z|]; [|cbn in Y; congruence].
      destruct (deref_step z p ans) as [[v|] p']; cbn in Y; [|congruence].
      unfold set_cell in Y. rewrite nth_error_alter in Y. destruct (Nat.eqb d j) eqn:E; [|congruence].
      apply Nat.eqb_eq in E. subst j. exists c, ans, p. auto.
  Qed.

  Lemma solo_step (st : lstate) (l : label) c d p x :
    (forall c' ans q, l = LStep c' ans -> nth_error (l_calls st) c' = Some (Call d q) -> c' = c) ->
    (forall ans, l = LStep c ans -> ans <> None) ->
    nth_error (l_calls st) c = Some (Call d p) -> nth_error (l_docs st) d = Some x -> solo x p ->
    exists p' x', nth_error (l_calls (fst (l_step st l))) c = Some (Call d p') /\
      nth_error (l_docs (fst (l_step st l))) d = Some x' /\ solo x' p'.
  Proof.
    intros A F N X S. destruct (l_step_doc st l d x X) as (y & Y & G).
    assert (exists p', nth_error (l_calls (fst (l_step st l))) c = Some (Call d p')) as [p' N'].
    { assert (c < length (l_calls st)) as Lc by (apply nth_error_Some; congruence).
      destruct l as [i|v|j|j|c' ans]; cbn; eauto.
      - destruct (nth_error (l_docs st) j); cbn; eauto.
      - destruct (nth_error (l_docs st) j); cbn; [|eauto]. exists p. now apply nth_snoc_old.
      - destruct (nth_error (l_calls st) c') as [[j q]|]; [|eauto]. destruct (is_done q); [eauto|].
        destruct (nth_error (l_docs st) j); [|eauto]. destruct (deref_step _ q ans). cbn. unfold set_pc.
        rewrite nth_error_alter. destruct (Nat.eqb c c'); [rewrite N; cbn; eauto|eauto]. }
    exists p', y. split; [assumption|]. split; [assumption|].
    destruct (l_step_call st l c d p' N') as
      [[N0 K]|[(_ & -> & _)|[(ans & q & z & -> & Q & Nd & Z & Ep & Ed)|(ans & -> & Q & Z)]]].
    - rewrite N in N0. injection N0 as <-.
      assert (E : ld_cell y = ld_cell x \/ exists r, p = Done r).
      { destruct (ld_cell y) as [w|] eqn:Cy.
        - destruct (ld_cell x) as [v|] eqn:Cx; [destruct G as [_ [G|G]]; [left|]; congruence|].
          assert (Ne : ld_cell y <> ld_cell x) by congruence.
          destruct (cell_changed st l d x y X Y Ne) as (c' & ans & q & -> & Q).
          rewrite (A c' ans q eq_refl Q) in *. right. now apply (K ans).
        - destruct G as [_ [G|G]]; left; congruence. }
      destruct E as [E|[r ->]]; [|exact S]. destruct p; cbn in *; congruence.
    - assert (length (l_calls st) < length (l_calls st)) by (apply nth_error_Some; congruence). lia.
    - rewrite N in Q. injection Q as <-. rewrite X in Z. injection Z as <-. rewrite Ed in Y. subst p'.
      destruct p as [| |v| |r]; cbn in *.
      + destruct (ld_cell x) eqn:C; cbn in *; [discriminate|congruence].
      + destruct ans as [v|]; cbn in *; [congruence|]. exfalso. now apply (F None).
      + rewrite S in *. cbn in *. unfold set_cell in Y. rewrite nth_error_alter, Nat.eqb_refl, X in Y.
        injection Y as <-. discriminate.
      + assumption.
      + exfalso. eapply Nd; reflexivity.
    - congruence.
  Qed.

  Lemma solo_run ls1 d c ls2 : c = calls_made ls1 -> d < length (l_docs (l_after ls1)) ->
    alone (ls1 ++ [LCall d]) ls2 c d -> always_found ls2 ->
    exists p x, nth_error (l_calls (l_after (ls1 ++ [LCall d] ++ ls2))) c = Some (Call d p) /\
      nth_error (l_docs (l_after (ls1 ++ [LCall d] ++ ls2))) d = Some x /\ solo x p.
  Proof.
    intros -> Ld. induction ls2 as [|l ls2 IH] using rev_ind; intros A F.
    - rewrite app_nil_r, l_after_snoc. cbn. unfold calls_made.
      destruct (nth_error (l_docs (l_after ls1)) d) as [x|] eqn:X; [|apply nth_error_None in X; lia].
      exists AtGet, x. cbn. rewrite nth_snoc_new. repeat split; auto.
    - destruct IH as (p & x & N & X & S).
      { intros l1 c' ans l2 E q Q. apply (A l1 c' ans (l2 ++ [l])) with (p := q); [|exact Q].
        rewrite E, <- app_assoc. reflexivity. }
      { intros c' ans Ia. apply (F c' ans), in_or_app; auto. }
      rewrite app_assoc, app_assoc, l_after_snoc. rewrite app_assoc in N, X.
      eapply solo_step; eauto.
      + intros c' ans q -> Q. apply (A ls2 c' ans []) with (p := q); [reflexivity|exact Q].
      + intros ans ->. apply (F (calls_made ls1) ans), in_or_app; cbn; auto.
  Qed.

  (** ** Progress: a call returns after at most four steps of its own. *)
  Definition todo (p : pc Doc) : nat :=
    match p with AtGet => 4 | AtFind => 3 | AtSet _ => 2 | AtReread => 1 | Done _ => 0 end.

  Lemma call_progress (ls : list label) : forall (st : lstate) c d p, linv st ->
    nth_error (l_calls st) c = Some (Call d p) ->
    exists p', nth_error (l_calls (fst (l_run st ls))) c = Some (Call d p') /\
      todo p' <= todo p - steps_of c ls.
  Proof.
    induction ls as [|l ls IH]; intros st c d p L N.
    - exists p. cbn. split; [assumption|lia].
    - assert (exists p1, nth_error (l_calls (fst (l_step st l))) c = Some (Call d p1) /\
        todo p1 <= todo p - match l with LStep c' _ => if Nat.eqb c c' then 1 else 0 | _ => 0 end) as (p1 & N1 & T1).
      { destruct l as [i|v|j|j|c' ans].
        - exists p. split; [assumption|lia].
        - exists p. split; [assumption|lia].
        - exists p. cbn. split; [destruct (nth_error (l_docs st) j); assumption|lia].
        - exists p. cbn. split; [destruct (nth_error (l_docs st) j); cbn; [now apply nth_snoc_old|assumption]|lia].
        - cbn. destruct (Nat.eqb c c') eqn:E.
          + apply Nat.eqb_eq in E. subst c'. rewrite N. destruct (is_done p) eqn:D.
            * exists p. split; [assumption|]. destruct p; try discriminate. cbn; lia.
            * destruct (L c d p N) as (x & X & _). rewrite X.
              destruct (deref_step x p ans) as [w p'] eqn:Q. exists p'. cbn. unfold set_pc.
              rewrite nth_error_alter, Nat.eqb_refl, N. split; [reflexivity|].
              destruct p; cbn in *; try (destruct (ld_cell x)); try (destruct ans);
                injection Q as <- <-; cbn; lia.
          + destruct (nth_error (l_calls st) c') as [[j q]|]; [|exists p; split; [assumption|lia]].
            destruct (is_done q); [exists p; split; [assumption|lia]|].
            destruct (nth_error (l_docs st) j); [|exists p; split; [assumption|lia]].
            destruct (deref_step _ q ans). exists p. cbn. unfold set_pc. rewrite nth_error_alter, E.
            split; [assumption|lia]. }
      destruct (IH (fst (l_step st l)) c d p1) as (p2 & N2 & T2); [now apply linv_step|assumption|].
      exists p2. cbn. destruct (l_step st l) as [st1 o]. cbn in *.
      destruct (l_run st1 ls). cbn in *. split; [assumption|].
      destruct l; cbn in *; lia.
  Qed.

  (** ** Accesses one at a time *)

  Lemma l_step_eq (st : lstate) c ans d p x : nth_error (l_calls st) c = Some (Call d p) -> is_done p = false ->
    nth_error (l_docs st) d = Some x ->
    l_step st (LStep c ans) =
      (LState (match fst (deref_step x p ans) with Some v => set_cell v d (l_docs st) | None => l_docs st end)
              (set_pc (snd (deref_step x p ans)) c (l_calls st)),
       match p, snd (deref_step x p ans) with
       | AtFind, _ => LConsulted (ld_id x) ans
       | _, Done r => LReturned r
       | _, _ => LRunning
       end).
  Proof. intros N D X. unfold l_step. rewrite N, D, X. destruct p; cbn; try (destruct (ld_cell x)); try (destruct ans); reflexivity. Qed.

  Lemma l_step_done (st : lstate) c ans d r : nth_error (l_calls st) c = Some (Call d (Done r)) ->
    l_step st (LStep c ans) = (st, LInvalid).
  Proof. intros N. cbn. now rewrite N. Qed.

  Lemma l_run_done n : forall (st : lstate) c ans d r, nth_error (l_calls st) c = Some (Call d (Done r)) ->
    exists os, l_run st (repeat (LStep c ans) n) = (st, os) /\ consultations os = [].
  Proof.
    induction n as [|n IH]; intros st c ans d r N; [exists []; auto|].
    cbn [repeat l_run]. rewrite (l_step_done st c ans d r N).
    destruct (IH st c ans d r N) as (os & -> & E). eexists. split; [reflexivity|exact E].
  Qed.

  Lemma set_pc_same (calls : list (@call Doc)) c d p q : nth_error calls c = Some (Call d p) ->
    nth_error (set_pc q c calls) c = Some (Call d q).
  Proof. intros N. unfold set_pc. rewrite nth_error_alter, Nat.eqb_refl, N. reflexivity. Qed.

  Lemma access_spec (st : lstate) d x ans : nth_error (l_docs st) d = Some x ->
    snd (a_step st (AAccess d ans)) =
      match ld_cell x with Some v => AAnswer (Some v) [] | None => AAnswer ans [ld_id x] end /\
    l_docs (fst (a_step st (AAccess d ans))) =
      match ld_cell x, ans with None, Some v => set_cell v d (l_docs st) | _, _ => l_docs st end.
  Proof.
    intros X. cbn [a_step]. set (c := length (l_calls st)).
    assert (E0 : l_step st (LCall d) = (LState (l_docs st) (l_calls st ++ [Call d AtGet]), LHandle c)).
    { cbn. now rewrite X. }
    cbn [l_run]. rewrite E0. clear E0. set (st0 := LState _ _).
    assert (N0 : nth_error (l_calls st0) c = Some (Call d AtGet)) by apply nth_snoc_new.
    assert (D0 : l_docs st0 = l_docs st) by reflexivity. clearbody st0.
    change (repeat (@LStep Id Doc c ans) 4) with (@LStep Id Doc c ans :: repeat (@LStep Id Doc c ans) 3). cbn [l_run].
    rewrite (l_step_eq st0 c ans d AtGet x) by (auto; congruence). cbn [deref_step].
    destruct (ld_cell x) as [v|] eqn:C; cbn [fst snd].
    { set (st1 := LState _ _).
      assert (N1 : nth_error (l_calls st1) c = Some (Call d (Done (Some v)))) by (eapply set_pc_same; exact N0).
      destruct (l_run_done 3 st1 c ans d _ N1) as (os & -> & E). rewrite N1. cbn. rewrite E, D0. auto. }
    set (st1 := LState _ _).
    assert (N1 : nth_error (l_calls st1) c = Some (Call d AtFind)) by (eapply set_pc_same; exact N0).
    assert (D1 : l_docs st1 = l_docs st) by exact D0. clearbody st1.
    change (repeat (@LStep Id Doc c ans) 3) with (@LStep Id Doc c ans :: repeat (@LStep Id Doc c ans) 2). cbn [l_run].
    rewrite (l_step_eq st1 c ans d AtFind x) by (auto; congruence). cbn [deref_step].
    destruct ans as [w|]; cbn [fst snd].
    2: { set (st2 := LState _ _).
      assert (N2 : nth_error (l_calls st2) c = Some (Call d (Done None))) by (eapply set_pc_same; exact N1).
      destruct (l_run_done 2 st2 c None d _ N2) as (os & -> & E). rewrite N2. cbn. rewrite E, D1. auto. }
    set (st2 := LState _ _).
    assert (N2 : nth_error (l_calls st2) c = Some (Call d (AtSet w))) by (eapply set_pc_same; exact N1).
    assert (D2 : l_docs st2 = l_docs st) by exact D1. clearbody st2.
    change (repeat (@LStep Id Doc c (Some w)) 2) with (@LStep Id Doc c (Some w) :: repeat (@LStep Id Doc c (Some w)) 1). cbn [l_run].
    rewrite (l_step_eq st2 c (Some w) d (AtSet w) x) by (auto; congruence). cbn [deref_step]. rewrite C.
    cbn [fst snd]. set (st3 := LState _ _).
    assert (N3 : nth_error (l_calls st3) c = Some (Call d AtReread)) by (eapply set_pc_same; exact N2).
    assert (D3 : l_docs st3 = set_cell w d (l_docs st)) by (unfold st3; cbn; now rewrite D2). clearbody st3.
    change (repeat (@LStep Id Doc c (Some w)) 1) with [@LStep Id Doc c (Some w)]. cbn [l_run].
    assert (X3 : nth_error (l_docs st3) d = Some (LDoc (ld_id x) (Some w))).
    { rewrite D3. unfold set_cell. rewrite nth_error_alter, Nat.eqb_refl, X. reflexivity. }
    rewrite (l_step_eq st3 c (Some w) d AtReread _ N3 eq_refl X3). cbn [deref_step fst snd ld_cell l_calls].
    rewrite (set_pc_same _ c d _ _ N3). cbn. now rewrite D3.
  Qed.

  Lemma run_bad n : forall (st : lstate) c ans, nth_error (l_calls st) c = None ->
    exists os, l_run st (repeat (LStep c ans) n) = (st, os).
  Proof.
    induction n as [|n IH]; intros st c ans N; [exists []; reflexivity|].
    cbn [repeat l_run l_step]. rewrite N. destruct (IH st c ans N) as [os ->]. eauto.
  Qed.

  Lemma access_invalid (st : lstate) d ans : nth_error (l_docs st) d = None ->
    a_step st (AAccess d ans) = (st, ABad).
  Proof.
    intros X. cbn [a_step]. set (c := length (l_calls st)). cbn [l_run]. cbn [l_step]. rewrite X.
    assert (N : nth_error (l_calls st) c = None) by (apply nth_error_None; reflexivity).
    destruct (run_bad 4 st c ans N) as [os ->]. now rewrite N.
  Qed.

  Lemma access_docs_bad (st : lstate) d ans : nth_error (l_docs st) d = None ->
    l_docs (fst (a_step st (AAccess d ans))) = l_docs st.
  Proof. intros X. now rewrite access_invalid. Qed.

  Lemma access_bad (st : lstate) d ans : nth_error (l_docs st) d = None ->
    forall r cs, snd (a_step st (AAccess d ans)) <> AAnswer r cs.
  Proof.
    intros X r cs. rewrite access_invalid by assumption. discriminate.
  Qed.

  Lemma a_after_snoc (hs : list act) a : a_after (hs ++ [a]) = fst (a_step (a_after hs) a).
  Proof. unfold a_after. now rewrite fold_left_app. Qed.

  (** Every document of a state before an action is still there after it. *)
  Lemma a_step_doc (st : lstate) (a : act) d x : nth_error (l_docs st) d = Some x ->
    exists y, nth_error (l_docs (fst (a_step st a))) d = Some y /\ grows x y.
  Proof.
    intros X. destruct a as [i|v|j|j ans]; cbn [a_step].
    - destruct (l_step_doc st (LBuild i) d x X) as (y & Y & G). destruct (l_step st (LBuild i)). eauto.
    - destruct (l_step_doc st (LNew v) d x X) as (y & Y & G). destruct (l_step st (LNew v)). eauto.
    - destruct (l_step_doc st (LClone j) d x X) as (y & Y & G). destruct (l_step st (LClone j)). eauto.
    - destruct (l_run_doc (LCall j :: repeat (LStep (length (l_calls st)) ans) 4) st d x X) as (y & Y & G).
      destruct (l_run st _) as [st' os]. exists y. split; [|exact G].
      destruct (nth_error (l_calls st') _) as [[d' []]|]; exact Y.
  Qed.

  Lemma a_step_other (st : lstate) (a : act) d x : nth_error (l_docs st) d = Some x ->
    (forall ans, a <> AAccess d ans) -> nth_error (l_docs (fst (a_step st a))) d = Some x.
  Proof.
    intros X Na. destruct a as [i|v|j|j ans].
    - cbn. now apply nth_snoc_old.
    - cbn. now apply nth_snoc_old.
    - cbn. destruct (nth_error (l_docs st) j); cbn; [now apply nth_snoc_old|assumption].
    - assert (d <> j) by (intros ->; now apply (Na ans)).
      destruct (nth_error (l_docs st) j) as [z|] eqn:Z.
      + destruct (access_spec st j z ans Z) as [_ ->]. destruct (ld_cell z), ans; auto.
        unfold set_cell. rewrite nth_error_alter. destruct (Nat.eqb d j) eqn:E; [apply Nat.eqb_eq in E; congruence|assumption].
      + now rewrite access_docs_bad.
  Qed.

  Lemma new_handle (hs : list act) (a : act) d : a_says hs a = AHandle d ->
    d = length (l_docs (a_after hs)).
  Proof.
    unfold a_says. destruct a as [i|v|j|j ans].
    - cbn. congruence.
    - cbn. congruence.
    - cbn. destruct (nth_error _ j); cbn; congruence.
    - intros E. exfalso. destruct (nth_error (l_docs (a_after hs)) j) as [x|] eqn:X.
      + destruct (access_spec _ j x ans X) as [A _]. rewrite A in E. destruct (ld_cell x); discriminate.
      + rewrite access_invalid in E by assumption. discriminate.
  Qed.

  Lemma clone_doc (hs : list act) j d : a_says hs (AClone j) = AHandle d ->
    exists x, nth_error (l_docs (a_after hs)) j = Some x /\ nth_error (l_docs (a_after (hs ++ [AClone j]))) d = Some x.
  Proof.
    intros E. pose proof (new_handle hs _ d E) as ->.
    rewrite a_after_snoc. unfold a_says in E. cbn in *.
    destruct (nth_error (l_docs (a_after hs)) j) as [x|]; [|discriminate]. exists x. cbn.
    rewrite nth_snoc_new. now destruct x.
  Qed.

  Lemma has_id_doc (hs : list act) d i : has_id hs d i ->
    exists x, nth_error (l_docs (a_after hs)) d = Some x /\ ld_id x = i.
  Proof.
    induction 1 as [hs i d E|hs v d E|hs j d i S IH E|hs a d i S IH].
    - pose proof (new_handle hs _ d E) as ->. rewrite a_after_snoc. cbn.
      rewrite nth_snoc_new. eauto.
    - pose proof (new_handle hs _ d E) as ->. rewrite a_after_snoc. cbn.
      rewrite nth_snoc_new. eauto.
    - destruct (clone_doc hs j d E) as (x & X & Y). destruct IH as (y & Z & Ei). exists x. split; [assumption|]. congruence.
    - destruct IH as (x & X & Ei). rewrite a_after_snoc. destruct (a_step_doc _ a d x X) as (y & Y & G & _).
      exists y. split; [assumption|]. congruence.
  Qed.

  Lemma loaded_doc (hs : list act) d v : loaded hs d v ->
    exists x, nth_error (l_docs (a_after hs)) d = Some x /\ ld_cell x = Some v.
  Proof.
    induction 1 as [hs v d E|hs d ans v cs E|hs j d v S IH E|hs a d v S IH].
    - pose proof (new_handle hs _ d E) as ->. rewrite a_after_snoc. cbn.
      rewrite nth_snoc_new. eauto.
    - rewrite a_after_snoc. unfold a_says in E.
      destruct (nth_error (l_docs (a_after hs)) d) as [x|] eqn:X.
      + destruct (access_spec _ d x ans X) as [A B]. rewrite B. rewrite A in E.
        destruct (ld_cell x) as [w|] eqn:C.
        * exists x. split; [assumption|]. congruence.
        * injection E as -> <-. exists (LDoc (ld_id x) (Some v)). split; [|reflexivity].
          unfold set_cell. now rewrite nth_error_alter, Nat.eqb_refl, X.
      + exfalso. eapply access_bad; eassumption.
    - destruct (clone_doc hs j d E) as (x & X & Y). destruct IH as (y & Z & Ei). exists x. split; [assumption|]. congruence.
    - destruct IH as (x & X & C). rewrite a_after_snoc. destruct (a_step_doc _ a d x X) as (y & Y & _ & G).
      exists y. split; [assumption|]. destruct G; congruence.
  Qed.

  Lemma unloaded_doc (hs : list act) d : unloaded hs d ->
    exists x, nth_error (l_docs (a_after hs)) d = Some x /\ ld_cell x = None.
  Proof.
    induction 1 as [hs i d E|hs j d S IH E|hs d ans cs S IH E|hs a d S IH Na].
    - pose proof (new_handle hs _ d E) as ->. rewrite a_after_snoc. cbn.
      rewrite nth_snoc_new. eauto.
    - destruct (clone_doc hs j d E) as (x & X & Y). destruct IH as (y & Z & Ei). exists x. split; [assumption|]. congruence.
    - destruct IH as (x & X & C). rewrite a_after_snoc. unfold a_says in E.
      destruct (access_spec _ d x ans X) as [A B]. rewrite A, C in E. injection E as ->. rewrite B, C. eauto.
    - destruct IH as (x & X & C). rewrite a_after_snoc. exists x. split; [|assumption]. now apply a_step_other.
  Qed.

  Lemma doc_dichotomy (hs : list act) : forall d, d < length (l_docs (a_after hs)) ->
    (exists i, has_id hs d i) /\ ((exists v, loaded hs d v) \/ unloaded hs d).
  Proof.
    induction hs as [|a hs IH] using rev_ind; intros d L; [cbn in L; lia|].
    destruct (Nat.lt_ge_cases d (length (l_docs (a_after hs)))) as [Ld|Ld].
    - destruct (IH d Ld) as ([i Hi] & K). split; [exists i; now apply hi_later|].
      destruct K as [[v K]|K]; [left; exists v; now apply lo_later|].
      destruct a as [i'|v|j|j ans]; try (right; apply un_later; [assumption|discriminate]).
      destruct (Nat.eq_dec j d) as [->|Nj]; [|right; apply un_later; [assumption|congruence]].
      destruct (unloaded_doc hs d K) as (x & X & C).
      destruct (access_spec _ d x ans X) as [A B]. rewrite C in A.
      destruct ans as [v|].
      + left. exists v. eapply lo_access. exact A.
      + right. eapply un_failed; [assumption|exact A].
    - rewrite a_after_snoc in L. destruct a as [i|v|j|j ans].
      + cbn in L. rewrite app_length in L. cbn in L. assert (d = length (l_docs (a_after hs))) as -> by lia.
        split; [exists i; now apply hi_build|right; now apply (un_build _ i)].
      + cbn in L. rewrite app_length in L. cbn in L. assert (d = length (l_docs (a_after hs))) as -> by lia.
        split; [exists (id_of v); now apply hi_new|left; exists v; now apply lo_new].
      + cbn in L. destruct (nth_error (l_docs (a_after hs)) j) as [x|] eqn:X; cbn in L; [|lia].
        rewrite app_length in L. cbn in L. assert (d = length (l_docs (a_after hs))) as -> by lia.
        assert (E : a_says hs (AClone j) = AHandle (length (l_docs (a_after hs)))).
        { unfold a_says. cbn. now rewrite X. }
        destruct (IH j) as ([i Hi] & K); [apply nth_error_Some; congruence|].
        split; [exists i; eapply hi_clone; eauto|].
        destruct K as [[v K]|K]; [left; exists v; eapply lo_clone; eauto|right; eapply un_clone; eauto].
      + exfalso. destruct (nth_error (l_docs (a_after hs)) j) as [x|] eqn:X.
        * destruct (access_spec _ j x ans X) as [_ B]. rewrite B in L.
          destruct (ld_cell x), ans; try lia. unfold set_cell in L. rewrite alter_len in L. lia.
        * rewrite (access_docs_bad _ j ans X) in L. lia.
  Qed.
End Facts.
