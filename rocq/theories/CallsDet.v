(** Facts about the calls of programs: what a program calls is determined by what it is answered. *)
From Coq Require Import List Bool Arith Lia.
From Verif Require Import Cells Ord OrdFacts BTree BTreeFacts Graph GraphFacts Tx TxFacts TxMachine TxMachineFacts Guards Unwind UnwindFacts Prog SpecProg ProgFacts ProgFrame ProgTrace SpecTrace SpecCalls CallsFacts CallsCells CallsProgs.
Import ListNotations.

Section Det.
  Context {Id Node V U : Type} `{HO : OrdT Id} `{HI : Identify Node Id}.
  Notation prog := (prog Id Node V U).
  Notation schema := (schema Id Node V U).
  Notation made := (@made Id Node U).
  Notation state := (@state Id Node U).

  (** The same call on the same state is answered the same. *)
  Lemma told_same (st : state) x y es1 es2 s1 s2 : told st (x :: es1) s1 -> told st (y :: es2) s2 ->
    match x, y with
    | OnGraph e a, OnGraph e' b => e = e' -> a = b /\ exists s, told s es1 s1 /\ told s es2 s2
    | OnCell e a, OnCell e' b => e = e' -> a = b /\ exists s, told s es1 s1 /\ told s es2 s2
    | OnHandle _ w h a, OnHandle _ w' h' b => w = w' -> h = h' -> a = b /\ exists s, told s es1 s1 /\ told s es2 s2
    | _, _ => True
    end.
  Proof.
    intros ([u k] & A & T) ([u' k'] & A' & T'). destruct x, y; try exact Logic.I; cbn [answered fst snd] in A, A'; destruct A as [E F], A' as [E' F'].
    - intros <-. rewrite E in E'. injection E' as -> ->. subst. eauto.
    - intros <-. rewrite E in E'. injection E' as -> ->. subst. eauto.
    - intros <- <-. rewrite E in E'. injection E' as -> ->. subst. eauto.
  Qed.

  Lemma same_graph (st : state) e a b es1 es2 s1 s2 : told st (OnGraph e a :: es1) s1 -> told st (OnGraph e b :: es2) s2 ->
    a = b /\ exists s, told s es1 s1 /\ told s es2 s2.
  Proof. intros T T'. exact (told_same _ _ _ _ _ _ _ T T' eq_refl). Qed.
  Lemma same_cell (st : state) e a b es1 es2 s1 s2 : told st (OnCell e a :: es1) s1 -> told st (OnCell e b :: es2) s2 ->
    a = b /\ exists s, told s es1 s1 /\ told s es2 s2.
  Proof. intros T T'. exact (told_same _ _ _ _ _ _ _ T T' eq_refl). Qed.
  Lemma same_handle (st : state) t t' w h a b es1 es2 s1 s2 : told st (OnHandle t w h a :: es1) s1 -> told st (OnHandle t' w h b :: es2) s2 ->
    a = b /\ exists s, told s es1 s1 /\ told s es2 s2.
  Proof. intros T T'. exact (told_same _ _ _ _ _ _ _ T T' eq_refl eq_refl). Qed.

  Lemma opens_det hd m hs (es1 : list made) l1 : opens hd m hs es1 l1 -> forall es2 l2, opens hd m hs es2 l2 -> forall (st : state) r1 r2 s1 s2,
    told st (es1 ++ r1) s1 -> told st (es2 ++ r2) s2 -> es1 = es2 /\ l1 = l2 /\ exists s, told s r1 s1 /\ told s r2 s2.
  Proof.
    induction 1 as [|h hs e x g lg es l Ob Os IH]; intros es2 l2 Q st r1 r2 s1 s2 T1 T2; inversion Q; subst; cbn [app] in *.
    - eauto.
    - match goal with O : obtaining hd h = Some ?e' |- _ => assert (e' = e) as -> by congruence end.
      destruct (same_cell _ _ _ _ _ _ _ _ T1 T2) as [[= ->] (s & T3 & T4)].
      destruct (same_handle _ _ _ _ _ _ _ _ _ _ _ T3 T4) as [[= -> ->] (s' & T5 & T6)].
      match goal with O : opens hd m hs _ _ |- _ => destruct (IH _ _ O _ _ _ _ _ T5 T6) as (-> & -> & E) end. auto.
  Qed.

  Lemma opens_waits hd m hs (es1 : list made) l1 : opens hd m hs es1 l1 -> forall es2, waits hd m hs es2 -> forall (st : state) r1 s1 s2,
    told st (es1 ++ r1) s1 -> told st es2 s2 -> False.
  Proof.
    induction 1 as [|h hs e x g lg es l Ob Os IH]; intros es2 Q st r1 s1 s2 T1 T2; inversion Q; subst; cbn [app] in *;
      (match goal with O : obtaining hd h = Some ?e' |- _ => assert (e' = e) as -> by congruence end);
      destruct (same_cell _ _ _ _ _ _ _ _ T1 T2) as [[= ->] (s & T3 & T4)];
      destruct (same_handle _ _ _ _ _ _ _ _ _ _ _ T3 T4) as [X (s' & T5 & T6)]; [discriminate X|]. eauto.
  Qed.

  Lemma waits_det hd m hs (es1 : list made) : waits hd m hs es1 -> forall es2, waits hd m hs es2 -> forall (st : state) s1 s2,
    told st es1 s1 -> told st es2 s2 -> es1 = es2.
  Proof.
    induction 1 as [h hs e x Ob|h hs e x g lg es Ob Os IH]; intros es2 Q st s1 s2 T1 T2; inversion Q; subst;
      (match goal with O : obtaining hd h = Some ?e' |- _ => assert (e' = e) as -> by congruence end);
      destruct (same_cell _ _ _ _ _ _ _ _ T1 T2) as [[= ->] (s & T3 & T4)];
      destruct (same_handle _ _ _ _ _ _ _ _ _ _ _ T3 T4) as [X (s' & T5 & T6)]; try discriminate X; [reflexivity|].
    injection X as -> ->. f_equal. f_equal. eauto.
  Qed.

  Lemma derefs_det hs l (es1 : list made) o1 : derefs hs l es1 o1 -> forall es2 o2, derefs hs l es2 o2 -> forall (st : state) r1 r2 s1 s2,
    told st (es1 ++ r1) s1 -> told st (es2 ++ r2) s2 -> es1 = es2 /\ o1 = o2 /\ exists s, told s r1 s1 /\ told s r2 s2.
  Proof.
    induction 1 as [|h hs x l v Nv|h hs x l a v es r A Ty D IH]; intros es2 o2 Q st r1 r2 s1 s2 T1 T2; inversion Q; subst; cbn [app] in *.
    - eauto.
    - destruct (same_cell _ _ _ _ _ _ _ _ T1 T2) as [[= ->] E]. auto.
    - destruct (same_cell _ _ _ _ _ _ _ _ T1 T2) as [[= ->] E]. exfalso. eapply Nv; [reflexivity|assumption].
    - destruct (same_cell _ _ _ _ _ _ _ _ T1 T2) as [[= <-] E]. exfalso. match goal with N : forall d, Some v = Some d -> _ |- _ => eapply N; [reflexivity|assumption] end.
    - destruct (same_cell _ _ _ _ _ _ _ _ T1 T2) as [[= ->] (s & T3 & T4)].
      match goal with O : derefs hs l _ _ |- _ => destruct (IH _ _ O _ _ _ _ _ T3 T4) as (-> & -> & E) end.
      match goal with O : h_addr h = Some ?b |- _ => assert (b = a) as -> by congruence end. auto.
  Qed.

  Lemma guarding_fun (p : prog) wr body k wr' body' k' : guarding p wr body k -> guarding p wr' body' k' -> wr = wr' /\ body = body' /\ k = k'.
  Proof. intros [] G; inversion G; auto. Qed.

  Ltac tell :=
    repeat match goal with
    | A : told ?s ?es ?u, B : told ?s ?es ?v |- _ => pose proof (told_fun _ _ _ _ A B); subst; clear B
    | O1 : opening ?x ?t ?e ?c, O2 : opening ?x ?t ?e' ?c' |- _ => destruct (opening_event _ _ _ _ _ _ O1 O2) as [<- <-]; clear O2
    | G1 : guarding ?p ?w ?b ?k, G2 : guarding ?p ?w' ?b' ?k' |- _ => destruct (guarding_fun _ _ _ _ _ _ _ G1 G2) as (<- & <- & <-); clear G2
    | N1 : ?x = Some (?a, ?b), N2 : ?x = Some (?c, ?d) |- _ => rewrite N1 in N2; injection N2; intros; subst; clear N2
    | N1 : ?x = Some ?a, N2 : ?x = Some ?c |- _ => rewrite N1 in N2; injection N2; intros; subst; clear N2
    | N1 : ?x = Some ?a, N2 : ?x = None |- _ => rewrite N1 in N2; discriminate
    | T1 : told ?s (OnGraph ?e ?a :: _) _, T2 : told ?s (OnGraph ?e ?b :: _) _ |- _ =>
        let X := fresh "X" in destruct (same_graph _ _ _ _ _ _ _ _ T1 T2) as [X (? & ? & ?)]; clear T1 T2; try discriminate X; injection X; intros; subst; try clear X
    | T1 : told ?s (OnCell ?e ?a :: _) _, T2 : told ?s (OnCell ?e ?b :: _) _ |- _ =>
        let X := fresh "X" in destruct (same_cell _ _ _ _ _ _ _ _ T1 T2) as [X (? & ? & ?)]; clear T1 T2; try discriminate X; try (injection X; intros); subst; try clear X
    | O1 : opens ?hd ?m ?hs ?es1 _, O2 : opens ?hd ?m ?hs ?es2 _, T1 : told ?s (?es1 ++ _) _, T2 : told ?s (?es2 ++ _) _ |- _ =>
        destruct (opens_det _ _ _ _ _ O1 _ _ O2 _ _ _ _ _ T1 T2) as (? & ? & ? & ? & ?); clear O2 T1 T2; subst
    | O1 : opens ?hd ?m ?hs ?es1 _, O2 : waits ?hd ?m ?hs ?es2, T1 : told ?s (?es1 ++ _) _, T2 : told ?s ?es2 _ |- _ =>
        destruct (opens_waits _ _ _ _ _ O1 _ O2 _ _ _ _ T1 T2)
    | O1 : waits ?hd ?m ?hs ?es1, O2 : waits ?hd ?m ?hs ?es2, T1 : told ?s ?es1 _, T2 : told ?s ?es2 _ |- _ =>
        pose proof (waits_det _ _ _ _ O1 _ O2 _ _ _ T1 T2); clear O2; subst
    | O1 : derefs ?hs ?l ?es1 _, O2 : derefs ?hs ?l ?es2 _, T1 : told ?s (?es1 ++ _) _, T2 : told ?s (?es2 ++ _) _ |- _ =>
        let X := fresh "X" in destruct (derefs_det _ _ _ _ O1 _ _ O2 _ _ _ _ _ T1 T2) as (? & X & ? & ? & ?); clear O2 T1 T2; try discriminate X; try (injection X; intros); subst; try clear X
    | F : finishing _ _ _ _ |- _ => inversion F; clear F; subst; cbn [app] in *
    | T1 : told _ (_ ++ _) _ |- _ => apply told_app in T1 as (? & ? & ?)
    | IH : forall es2 vs2 hd2 o2, plays _ _ _ _ _ ?b es2 vs2 hd2 o2 -> forall st st1 st2, told st ?es st1 -> _,
      P : plays _ _ _ _ _ ?b ?es' _ _ _, T1 : told ?s ?es _, T2 : told ?s ?es' _ |- _ =>
        let X := fresh "X" in destruct (IH _ _ _ _ P _ _ _ T1 T2) as (? & ? & ? & X); clear IH P; try discriminate X; try (injection X; intros); subst; try clear X
    end.

  Lemma plays_det (sc : schema) en gs ho hd p es vs hd1 o : plays sc en gs ho hd p es vs hd1 o ->
    forall es2 vs2 hd2 o2, plays sc en gs ho hd p es2 vs2 hd2 o2 -> forall (st st1 st2 : state), told st es st1 -> told st es2 st2 ->
    es = es2 /\ vs = vs2 /\ hd1 = hd2 /\ o = o2.
  Proof.
    induction 1; intros esq vsq hdq oq Q st st1 st2 T1 T2;
      inversion Q; subst; try (match goal with G : guarding _ _ _ _ |- _ => solve [inversion G] end); tell;
      try (match goal with N : forall r, ORet ?x <> ORet r |- _ => now destruct (N x) end);
      try (match goal with N : is_ok ?r = true -> forall k, TxBg (Some ?n) <> TxBg (Some k) |- _ => exfalso; apply (N ltac:(congruence) n); reflexivity end);
      auto.
  Qed.
End Det.
