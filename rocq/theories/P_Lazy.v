(** Properties C38-C40, C65, C66: lazy documents. *)
From Coq Require Import List Bool Arith Lia.
From Verif Require Import Graph Tx Lazy SpecLazy LazyFacts.
Import ListNotations.

Section Properties.
  Context {Id Doc : Type} `{HI : Identify Doc Id}.
  Notation label := (label Id Doc).
  Notation act := (@act Id Doc).

  (** C38: once a document has content, by construction or by a successful access, every access
      answers it and the repository is not consulted, whatever it would answer. *)
  Theorem C38_loaded_never_changes :
    forall (hs : list act) d v, loaded hs d v -> forall ans, a_says hs (AAccess d ans) = AAnswer (Some v) [].
  Proof.
    intros hs d v L ans. destruct (loaded_doc hs d v L) as (x & X & C).
    unfold a_says. destruct (access_spec _ d x ans X) as [-> _]. now rewrite C.
  Qed.

  (** C38: until then every access consults the repository, once and for the id of the document, and
      answers what it answers; failures are not remembered. *)
  Theorem C38_unloaded_consults :
    forall (hs : list act) d i, unloaded hs d -> has_id hs d i ->
      forall ans, a_says hs (AAccess d ans) = AAnswer ans [i].
  Proof.
    intros hs d i U Hi ans. destruct (unloaded_doc hs d U) as (x & X & C).
    destruct (has_id_doc hs d i Hi) as (y & Y & <-). rewrite X in Y. injection Y as <-.
    unfold a_says. destruct (access_spec _ d x ans X) as [-> _]. now rewrite C.
  Qed.

  (** C38: the two cases above are all there is: a handle that was given out has exactly one id,
      kept for ever, and is either loaded, with one content, or unloaded. *)
  Theorem C38_loaded_or_unloaded :
    forall (hs : list act) d,
      (forall a, a_says hs a = AHandle d -> exists i, has_id (hs ++ [a]) d i) /\
      ((exists i, has_id hs d i) -> (exists v, loaded hs d v) \/ unloaded hs d) /\
      (forall i j, has_id hs d i -> has_id hs d j -> i = j) /\
      (forall v w, loaded hs d v -> loaded hs d w -> v = w) /\
      (forall v, loaded hs d v -> ~ unloaded hs d).
  Proof.
    intros hs d. split; [|split; [|split; [|split]]].
    - intros a E. destruct (doc_dichotomy (hs ++ [a]) d) as [K _]; [|exact K].
      pose proof (new_handle hs a d E) as ->. rewrite a_after_snoc.
      unfold a_says in E. destruct a as [i|v|j|j ans].
      + cbn. rewrite app_length. cbn. lia.
      + cbn. rewrite app_length. cbn. lia.
      + cbn in *. destruct (nth_error _ j); cbn in *; [rewrite app_length; cbn; lia|discriminate].
      + exfalso. destruct (nth_error (l_docs (a_after hs)) j) as [x|] eqn:X.
        * destruct (access_spec _ j x ans X) as [A _]. rewrite A in E. destruct (ld_cell x); discriminate.
        * rewrite access_invalid in E by assumption. discriminate.
    - intros [i Hi]. destruct (has_id_doc hs d i Hi) as (x & X & _).
      apply doc_dichotomy. apply nth_error_Some. congruence.
    - intros i j A B. destruct (has_id_doc hs d i A) as (x & X & <-), (has_id_doc hs d j B) as (y & Y & <-). congruence.
    - intros v w A B. destruct (loaded_doc hs d v A) as (x & X & C), (loaded_doc hs d w B) as (y & Y & D). congruence.
    - intros v A B. destruct (loaded_doc hs d v A) as (x & X & C), (unloaded_doc hs d B) as (y & Y & D). congruence.
  Qed.

  (** C39: two calls on one document that both return a document return the same one. *)
  Theorem C39_one_document :
    forall (ls : list label) c1 c2 d v1 v2,
      returned ls c1 d (Some v1) -> returned ls c2 d (Some v2) -> v1 = v2.
  Proof.
    intros ls c1 c2 d v1 v2 A B. pose proof (linv_after ls) as L.
    destruct (L _ _ _ A) as (x & X & C), (L _ _ _ B) as (y & Y & D). congruence.
  Qed.

  (** C39: a call started after one returned a document returns that document. *)
  Theorem C39_later_calls_agree :
    forall (ls ls' : list label) c d v, returned ls c d (Some v) ->
      forall c' r, calls_made ls <= c' -> returned (ls ++ ls') c' d r -> r = Some v.
  Proof.
    intros ls ls' c d v A c' r Lc B. destruct (linv_after ls _ _ _ A) as (x & X & C).
    unfold returned in B. rewrite l_after_app in B.
    destruct (late_calls ls' (l_after ls) d x v X C c' _ Lc B) as [E|E]; congruence.
  Qed.

  (** C40 is false, see [C40_never_absent_refuted]. Missing from the full statement: calls that
      overlap with a step of another call on the same document. *)
  Theorem C40_never_absent_partial :
    forall (ls1 ls2 : list label) d r, d < length (l_docs (l_after ls1)) ->
      alone (ls1 ++ [LCall d]) ls2 (calls_made ls1) d -> always_found ls2 ->
      returned (ls1 ++ [LCall d] ++ ls2) (calls_made ls1) d r -> r <> None.
  Proof.
    intros ls1 ls2 d r Ld A F R. destruct (solo_run ls1 d _ ls2 eq_refl Ld A F) as (p & x & N & X & S).
    unfold returned in R. rewrite R in N. injection N as <-. exact S.
  Qed.

  (** C65: when the repository always finds the document, an absent answer is given only once the
      document is loaded: every call started afterwards returns a document, the same for all. *)
  Theorem C65_absent_only_once_raced :
    forall (ls : list label) c d, always_found ls -> returned ls c d None ->
      exists v, forall ls' c' r, calls_made ls <= c' -> returned (ls ++ ls') c' d r -> r = Some v.
  Proof.
    intros ls c d F A. destruct (absent_means_set ls F c d A) as (x & v & X & C).
    exists v. intros ls' c' r Lc B. unfold returned in B. rewrite l_after_app in B.
    destruct (late_calls ls' (l_after ls) d x v X C c' _ Lc B) as [E|E]; congruence.
  Qed.

  (** C66: in any schedule a call returns by its fourth step. *)
  Theorem C66_wait_free :
    forall (ls1 ls2 : list label) d, d < length (l_docs (l_after ls1)) ->
      4 <= steps_of (calls_made ls1) ls2 ->
      exists r, returned (ls1 ++ [LCall d] ++ ls2) (calls_made ls1) d r.
  Proof.
    intros ls1 ls2 d Ld K. destruct (nth_error (l_docs (l_after ls1)) d) as [x|] eqn:X; [|apply nth_error_None in X; lia].
    assert (N : nth_error (l_calls (l_after (ls1 ++ [LCall d]))) (calls_made ls1) = Some (Call d AtGet)).
    { rewrite l_after_snoc. cbn. rewrite X. apply nth_snoc_new. }
    destruct (call_progress ls2 _ _ _ _ (linv_after _) N) as (p & N' & T).
    rewrite <- l_after_app, <- app_assoc in N'.
    destruct p as [| | | |r]; cbn [todo] in T; try lia. exists r. exact N'.
  Qed.
End Properties.

(** ** Examples *)
Section Examples.
  (* a document is its id and a text *)
  #[local] Instance pair_id : Identify (nat * nat) nat := { id_of := fst }.
  Notation label := (label nat (nat * nat)).

  (** C38: a failing access, a clone, a success, a clone, other answers; then a built one. *)
  Definition d_acts : list (@act nat (nat * nat)) :=
    [ABuild 7; AAccess 0 None; AClone 0; AAccess 0 (Some (7, 1)); AClone 0; ANew (9, 5)].

  Example C38_case :
    loaded d_acts 0 (7, 1) /\ unloaded d_acts 1 /\ has_id d_acts 1 7 /\ loaded d_acts 2 (7, 1) /\
    loaded d_acts 3 (9, 5) /\ has_id d_acts 3 9 /\
    a_says d_acts (AAccess 0 (Some (7, 2))) = AAnswer (Some (7, 1)) [] /\
    a_says d_acts (AAccess 1 (Some (7, 2))) = AAnswer (Some (7, 2)) [7].
  Proof.
    assert (L : loaded ([ABuild 7; AAccess 0 None; AClone 0] ++ [AAccess 0 (Some (7, 1))]) 0 (7, 1)).
    { eapply lo_access. vm_compute. reflexivity. }
    assert (U : unloaded ([ABuild 7; AAccess 0 None] ++ [AClone 0]) 1).
    { apply un_clone; [|reflexivity]. eapply (un_failed [ABuild 7]); [|vm_compute; reflexivity].
      now apply (un_build []). }
    assert (Hi : has_id ([ABuild 7; AAccess 0 None] ++ [AClone 0]) 1 7).
    { eapply hi_clone; [|reflexivity]. apply (hi_later [ABuild 7]). now apply (hi_build []). }
    repeat split.
    - apply (lo_later (firstn 5 d_acts)), (lo_later (firstn 4 d_acts)). exact L.
    - apply (un_later (firstn 5 d_acts)); [|discriminate]. apply (un_later (firstn 4 d_acts)); [|discriminate].
      apply (un_later (firstn 3 d_acts)); [exact U|discriminate].
    - apply (hi_later (firstn 5 d_acts)), (hi_later (firstn 4 d_acts)), (hi_later (firstn 3 d_acts)). exact Hi.
    - apply (lo_later (firstn 5 d_acts)). eapply (lo_clone (firstn 4 d_acts)); [exact L|reflexivity].
    - now apply (lo_new (firstn 5 d_acts)).
    - exact (hi_new (firstn 5 d_acts) (9, 5) 3 eq_refl).
  Qed.

  (** Two calls find the document before either sets it. *)
  Definition d_race : list label :=
    [LBuild 7; LCall 0; LCall 0; LStep 0 (Some (7, 1)); LStep 1 (Some (7, 2));
     LStep 0 (Some (7, 1)); LStep 1 (Some (7, 2)); LStep 0 (Some (7, 1)); LStep 0 (Some (7, 1))].

  (** C40: the call that loses the race answers that the document is absent, although the
      repository found it every time. *)
  Theorem C40_never_absent_refuted :
    ~ (forall (ls : list label) c d r, always_found ls -> returned ls c d r -> r <> None).
  Proof.
    intros K. apply (K (d_race ++ [LStep 1 (Some (7, 2))]) 1 0 None); [|reflexivity|reflexivity].
    intros c ans I. cbn in I.
    repeat (destruct I as [I|I]; [congruence|]). destruct I.
  Qed.

  Example C39_case :
    let ls := d_race ++ [LCall 0] in
    returned ls 0 0 (Some (7, 1)) /\ returned (ls ++ [LStep 2 (Some (7, 3))]) 2 0 (Some (7, 1)) /\ calls_made d_race = 2.
  Proof. repeat split. Qed.

  Example C40_case :
    let ls1 := [LBuild 7; LBuild 8; LCall 1] : list label in
    let ls2 := [LStep 1 (Some (7, 1)); LStep 0 (Some (8, 1)); LStep 1 (Some (7, 1)); LStep 0 (Some (8, 1));
                LStep 1 (Some (7, 1)); LStep 1 (Some (7, 1))] in
    alone (ls1 ++ [LCall 0]) ls2 1 0 /\ always_found ls2 /\
    returned (ls1 ++ [LCall 0] ++ ls2) 1 0 (Some (7, 1)).
  Proof.
    repeat split.
    - intros l1 c' ans l2 E p N.
      do 6 (destruct l1 as [|? l1]; [injection E as E1 E2; subst; vm_compute in N; congruence|
            injection E as <- E]).
      destruct l1; discriminate.
    - intros c ans I. cbn in I. repeat (destruct I as [I|I]; [congruence|]). destruct I.
  Qed.

  Example C65_case :
    let ls := d_race ++ [LStep 1 (Some (7, 2))] in
    returned ls 1 0 None /\ returned (ls ++ [LCall 0; LStep 2 (Some (7, 9))]) 2 0 (Some (7, 1)).
  Proof. repeat split. Qed.

  Example C66_case : steps_of 0 d_race = 4 /\ returned d_race 0 0 (Some (7, 1)).
  Proof. repeat split. Qed.
End Examples.

Print Assumptions C38_loaded_never_changes.
Print Assumptions C38_unloaded_consults.
Print Assumptions C38_loaded_or_unloaded.
Print Assumptions C39_one_document.
Print Assumptions C39_later_calls_agree.
Print Assumptions C40_never_absent_partial.
Print Assumptions C40_never_absent_refuted.
Print Assumptions C65_absent_only_once_raced.
Print Assumptions C66_wait_free.
