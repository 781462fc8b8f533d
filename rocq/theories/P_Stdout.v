(** Property C146: a standard output that fails. *)
From Coq Require Import String.
From Coq Require Import List Bool Arith NArith Ascii Lia.
From Verif Require Import Ord BTree Graph Tx Lazy Prog SpecProg Path Cli SpecCli CliFacts Utf8 Regex CliMain Utf8Facts Stdout SpecStdout StdoutFacts P_Cli P_Regex P_Main.
Import ListNotations.

Lemma text_of quotes shown lines printed : Forall2 (fun ps i => concat ps = debug quotes shown (unsplit i) ++ [newline]) lines printed ->
  concat (map (@concat _) lines) = stdout quotes shown printed.
Proof. intros X. induction X as [|ps i lines printed E X IH]; cbn [map concat]; [reflexivity|]. rewrite IH, E. reflexivity. Qed.

Lemma some_lines quotes shown printed :
  exists lines : list (list bytes), Forall2 (fun ps i => concat ps = debug quotes shown (unsplit i) ++ [newline]) lines printed.
Proof.
  induction printed as [|i printed [lines IH]]; [exists []; constructor|].
  exists ([debug quotes shown (unsplit i) ++ [newline]] :: lines). constructor; [apply app_nil_r|exact IH].
Qed.

Lemma text_ends quotes shown printed : stdout quotes shown printed = [] \/ exists x, stdout quotes shown printed = x ++ [newline].
Proof.
  destruct printed as [|i l _] using rev_ind; [now left|]. right. unfold stdout. rewrite flat_map_app. cbn [flat_map]. rewrite app_nil_r.
  eexists. now rewrite app_assoc.
Qed.

Lemma tidy_start : tidy ([], []). Proof. intros _. reflexivity. Qed.

Lemma flush_nothing dev h s' ok : flush dev (h, []) s' ok -> s' = (h, []) /\ ok = true.
Proof.
  intros X. inversion X as [h0 b0 h' rest ok0 P E1 E2]. subst. inversion P; subst; try congruence. auto.
Qed.

Section End.
  Variables (dev : device) (cap : nat) (quotes : bool) (shown : char -> bool) (printed : list path) (lines : list (list bytes)).
  Hypothesis F : Forall2 (fun ps i => concat ps = debug quotes shown (unsplit i) ++ [newline]) lines printed.
  Notation text := (stdout quotes shown printed).

  Lemma listing_end s ok s' ok' : writable dev -> 0 < cap -> Stdout.listing dev cap ([], []) lines s ok -> flush dev s s' ok' ->
    if ok then reached (fst s') = text else tot s' = tot s /\ short ([], []) text s.
  Proof.
    intros W C L E. destruct (listing_split dev cap W C _ _ _ _ L tidy_start) as [T Ti]. rewrite (text_of _ _ _ _ F) in T.
    destruct ok; [|apply (flush_split dev W) in E as [E O]; now split].
    unfold wrote in T. change (tot s = text) in T. assert (B : snd s = []) by (apply Ti; [reflexivity|]; rewrite T; apply text_ends).
    destruct s as [h b]. cbn [snd] in B. subst b. apply flush_nothing in E as [-> _]. rewrite <- T. unfold tot. symmetry. apply app_nil_r.
  Qed.

  Lemma listing_room N s ok s' ok' : room_for N dev -> 0 < cap -> Stdout.listing dev cap ([], []) lines s ok -> flush dev s s' ok' ->
    reached (fst s') = firstn N text /\ ok = (length text <=? N).
  Proof.
    intros R C L E.
    assert (W : writable dev).
    { intros h b Nb. destruct (R h b Nb) as [R1 R2]. destruct (le_lt_dec N (length (reached h))) as [K|K]; [rewrite (R2 K)|destruct (R1 K) as (n & _ & _ & _ & ->)]; discriminate. }
    assert (Up : forall h b, b <> [] -> length (reached h) <= N -> length (reached (h ++ [(b, dev h b)])) <= N).
    { intros h b Nb K. destruct (R h b Nb) as [R1 R2]. destruct (le_lt_dec N (length (reached h))) as [J|J].
      - rewrite (R2 J), reached_other by discriminate. exact K.
      - destruct (R1 J) as (n & _ & Ln & Le & ->). rewrite reached_took, app_length, firstn_length. lia. }
    assert (Mo : forall h b, b <> [] -> N <= length (reached h) -> N <= length (reached (h ++ [(b, dev h b)]))).
    { intros h b Nb K. rewrite reached_app, app_length. lia. }
    assert (Fl : forall h b h' rest, puts dev h b h' rest false -> N <= length (reached h')).
    { intros h b h' rest P. remember false as ok0 eqn:Ok. induction P; try discriminate; auto.
      - destruct (R h b H) as [R1 R2]. destruct (le_lt_dec N (length (reached h))) as [J|J]; [rewrite (R2 J) in H0; discriminate|].
        destruct (R1 J) as (n & Z & _ & _ & D). rewrite D in H0. injection H0 as ->. lia.
      - destruct (R h b H) as [R1 R2]. destruct (le_lt_dec N (length (reached h))) as [J|J]; [now rewrite reached_other by discriminate|].
        destruct (R1 J) as (n & Z & _ & _ & D). rewrite D in H0. discriminate. }
    assert (Le : length (reached (fst s')) <= N).
    { apply (flush_kept dev _ Up _ _ _ E). apply (listing_kept dev cap _ Up _ _ _ _ L). cbn. lia. }
    pose proof (listing_end _ _ _ _ W C L E) as Z. destruct ok.
    - rewrite Z in Le. rewrite Z. split; [now rewrite firstn_all2|]. symmetry. now apply Nat.leb_le.
    - assert (Ge : N <= length (reached (fst s))) by (now apply (listing_failed dev cap _ Fl) in L).
      assert (Ge' : N <= length (reached (fst s'))) by (now apply (flush_kept dev _ Mo _ _ _ E)).
      destruct Z as [T (q & r & Tx & T' & O)]. change (tot s = q) in T'. assert (T2 : text = reached (fst s') ++ snd s' ++ r).
      { rewrite Tx, <- T', <- T. unfold tot. now rewrite app_assoc. }
      split.
      + rewrite T2, firstn_app. replace (N - length (reached (fst s'))) with 0 by lia. cbn. now rewrite app_nil_r, firstn_all2.
      + symmetry. apply Nat.leb_gt. rewrite Tx, app_length, <- T'. unfold tot. rewrite app_length. destruct O as [O|O]; [destruct r|destruct (snd s)]; try congruence; cbn; lia.
  Qed.
End End.

(** C146: what reaches a standard output open for writing is the beginning of what the run writes where nothing fails, and all of it unless the run
    panics; the disk is the same. *)
Theorem C146_the_beginning :
  forall dev cap quotes shown ctx ext d c o out d', writable dev -> 0 < cap -> main_to dev cap quotes shown ctx ext d c o out d' ->
    exists o' text, main_output quotes shown ctx ext d c o' text d' /\ begins out text /\ (o = o' /\ out = text \/ o = OPanic).
Proof.
  intros dev cap quotes shown ctx ext d c o out d' W C X. destruct X as [o printed d' lines s ok s' ok' R F L E].
  exists o, (stdout quotes shown printed). split; [now exists printed|].
  pose proof (listing_end _ _ _ _ _ _ F _ _ _ _ W C L E) as Z. destruct ok.
  - rewrite Z. split; [exists []; symmetry; apply app_nil_r|now left].
  - split; [|now right]. destruct Z as [T (q & r & -> & T' & _)]. change (tot s = q) in T'. exists (snd s' ++ r). rewrite app_assoc. f_equal.
    now rewrite <- T', <- T.
Qed.

Lemma willing_puts dev h b h' rest ok : willing dev -> puts dev h b h' rest ok -> ok = true.
Proof.
  intros W X. induction X; auto; destruct (W h b H) as [K|(n' & P & K)]; try congruence. rewrite H0 in K. injection K as <-. lia.
Qed.

(** C146: with a file that always takes something, however little at a time and however often interrupted, a run that ends does so as without failures and all is written. *)
Theorem C146_partial_writes_are_harmless :
  forall dev cap quotes shown ctx ext d c o out d', willing dev -> 0 < cap -> main_to dev cap quotes shown ctx ext d c o out d' ->
    main_output quotes shown ctx ext d c o out d'.
Proof.
  intros dev cap quotes shown ctx ext d c o out d' Wi C X. destruct X as [o printed d' lines s ok s' ok' R F L E].
  assert (W : writable dev) by (intros h b Nb; destruct (Wi h b Nb) as [K|(n & _ & K)]; rewrite K; discriminate).
  pose proof (listing_end _ _ _ _ _ _ F _ _ _ _ W C L E) as Z. destruct ok.
  - rewrite Z. now exists printed.
  - exfalso. apply (listing_failed dev cap (fun _ => False)) in L; auto. intros h b h' rest P. apply willing_puts in P; auto. discriminate.
Qed.

(** C146: where [N] bytes find room exactly those are written, whatever the pieces in which std formats and the size of its buffer; the run panics if the text is longer. *)
Theorem C146_no_more_room :
  forall N dev cap quotes shown ctx ext d c, room_for N dev -> 0 < cap ->
    (forall o text d', main_output quotes shown ctx ext d c o text d' ->
       main_to dev cap quotes shown ctx ext d c (if length text <=? N then o else OPanic) (firstn N text) d') /\
    (forall o2 out d', main_to dev cap quotes shown ctx ext d c o2 out d' ->
       exists o text, main_output quotes shown ctx ext d c o text d' /\ out = firstn N text /\ o2 = if length text <=? N then o else OPanic).
Proof.
  intros N dev cap quotes shown ctx ext d c R C. split.
  - intros o text d' (printed & M & ->). destruct (some_lines quotes shown printed) as [lines F].
    assert (U : uninterrupted dev).
    { intros h b Nb. destruct (R h b Nb) as [R1 R2]. destruct (le_lt_dec N (length (reached h))) as [K|K]; [rewrite (R2 K)|destruct (R1 K) as (n & _ & _ & _ & ->)]; discriminate. }
    destruct (listing_total dev cap (puts_total dev U) lines ([], [])) as (s & ok & L). destruct (flush_total dev (puts_total dev U) s) as (s' & ok' & E).
    destruct (listing_room _ _ _ _ _ _ F _ _ _ _ _ R C L E) as [E1 E2]. rewrite <- E1, <- E2. econstructor; eauto.
  - intros o2 out d' X. destruct X as [o printed d' lines s ok s' ok' M F L E]. exists o, (stdout quotes shown printed). split; [now exists printed|].
    destruct (listing_room _ _ _ _ _ _ F _ _ _ _ _ R C L E) as [-> ->]. auto.
Qed.

(** C146: a standard output that is not open for writing takes nothing, and nobody is told. *)
Theorem C146_not_open_unnoticed :
  forall dev cap quotes shown ctx ext d c, read_only dev ->
    forall o out d', main_to dev cap quotes shown ctx ext d c o out d' <-> out = [] /\ exists text, main_output quotes shown ctx ext d c o text d'.
Proof.
  intros dev cap quotes shown ctx ext d c RO.
  assert (U : uninterrupted dev) by (intros h b Nb; rewrite (RO h b Nb); discriminate).
  assert (K : forall h b, b <> [] -> reached h = [] -> reached (h ++ [(b, dev h b)]) = []).
  { intros h b Nb K. rewrite (RO h b Nb), reached_other by discriminate. exact K. }
  assert (Fl : forall h b h' rest, puts dev h b h' rest false -> False).
  { intros h b h' rest P. remember false as ok0 eqn:Ok. induction P; try discriminate; auto; rewrite (RO h b H) in H0; discriminate. }
  assert (G : forall lines s ok s' ok', Stdout.listing dev cap ([], []) lines s ok -> flush dev s s' ok' -> ok = true /\ reached (fst s') = []).
  { intros lines s ok s' ok' L E. split.
    - destruct ok; [reflexivity|]. exfalso. now apply (listing_failed dev cap (fun _ => False) Fl) in L.
    - apply (flush_kept dev _ K _ _ _ E). apply (listing_kept dev cap _ K _ _ _ _ L). reflexivity. }
  intros o out d'. split.
  - intros X. destruct X as [o printed d' lines s ok s' ok' M F L E]. destruct (G _ _ _ _ _ L E) as [-> ->]. split; [reflexivity|].
    exists (stdout quotes shown printed), printed. auto.
  - intros (-> & text & printed & M & ->). destruct (some_lines quotes shown printed) as [lines F].
    destruct (listing_total dev cap (puts_total dev U) lines ([], [])) as (s & ok & L). destruct (flush_total dev (puts_total dev U) s) as (s' & ok' & E).
    destruct (G _ _ _ _ _ L E) as [-> <-]. exact (to_stdout dev cap quotes shown ctx ext d c o printed d' lines s true s' ok' M F L E).
Qed.

Lemma silent ctx ext d c o printed d' : cm_sub c <> CList -> main_run ctx ext d c o printed d' -> printed = [].
Proof.
  unfold main_run. intros N R. destruct (repo_for ctx ext) as [r| |]; [|now destruct R as (_ & -> & _)|destruct R].
  assert (X : exists o0 d0, plot r d c o0 [] d0).
  { destruct c as [[i|] [| |content]]; cbn in N; try congruence.
    - destruct (C47_delete_succeeds_iff_listed r d (Command (Some i) CDelete) i eq_refl eq_refl) as (ids & _ & _ & Yes & No).
      destruct (same_path_dec ids (split i)) as [(j & J & S)|Not].
      + eexists _, _. apply Yes. eauto.
      + eexists _, _. apply No. intros (j & J & S). exact (Not j J S).
    - eexists _, _. apply save_plot.
    - eexists _, _. now apply (C47_missing_id r d CDelete).
    - eexists _, _. now apply (C47_missing_id r d (CSave content)). }
  destruct X as (o0 & d0 & X). destruct (plot_det _ _ _ _ _ _ _ _ _ R X) as (_ & E & _). exact E.
Qed.

(** C146: commands other than list write nothing, so that they end in the same way whatever the standard output. *)
Theorem C146_silent_commands :
  forall dev cap quotes shown ctx ext d c, cm_sub c <> CList ->
    forall o out d', main_to dev cap quotes shown ctx ext d c o out d' <-> out = [] /\ main_output quotes shown ctx ext d c o [] d'.
Proof.
  intros dev cap quotes shown ctx ext d c N o out d'. split.
  - intros X. destruct X as [o printed d' lines s ok s' ok' M F L E]. assert (P := silent _ _ _ _ _ _ _ N M). subst printed. inversion F; subst. inversion L; subst.
    apply flush_nothing in E as [-> _]. split; [reflexivity|]. now exists [].
  - intros (-> & printed & M & _). assert (P := silent _ _ _ _ _ _ _ N M). subst printed.
    apply (to_stdout dev cap quotes shown ctx ext d c o [] d' [] ([], []) true ([], []) true M); constructor. constructor.
Qed.

(** ** Cases *)
Section Cases.
  Let s := list_ascii_of_string.
  Let ctx : path := [s "docs"].
  Let two : dir := Dir [[s "a.md"]; [s "b.md"]] (fun _ => None).
  Let list : command := Command None CList.
  Let shown (c : char) : bool := true.
  Let text : bytes := s """a""" ++ [newline] ++ s """b""" ++ [newline].

  (** A disk with room for [N] bytes, that takes at most three at a time. *)
  Let disk (N : nat) : device := fun h b => match Nat.min (Nat.min 3 (length b)) (N - length (reached h)) with 0 => Fails | n => Took n end.

  Let wrote_there : main_output true shown ctx (s "md") two list (ORet RUnit) text two.
  Proof.
    exists [[s "a"]; [s "b"]]. split; [|vm_compute; reflexivity]. apply C85_literal_extension_is_a_suffix.
    - exists [109; 100]%N. split; [now apply lossy_iff|].
      split; [repeat constructor|]; intros I; cbn in I; repeat (destruct I as [I|I]; [discriminate I|]); exact I.
    - apply list_plot. reflexivity.
  Qed.

  Example C146_case :
    main_to (disk 5) 1024 true shown ctx (s "md") two list OPanic (s """a""" ++ [newline] ++ s """") two /\
    main_to (disk 8) 1024 true shown ctx (s "md") two list (ORet RUnit) text two.
  Proof.
    assert (R : forall N, room_for N (disk N)).
    { intros N h b Nb. unfold disk. destruct b as [|x b]; [congruence|]. cbn [length]. split; intros L.
      - destruct (Nat.min (Nat.min 3 (S (length b))) (N - length (reached h))) as [|n] eqn:E; [lia|]. exists (S n). repeat split; lia.
      - replace (N - length (reached h)) with 0 by lia. now rewrite Nat.min_0_r. }
    split.
    - exact (proj1 (C146_no_more_room 5 _ 1024 true shown ctx (s "md") two list (R 5) ltac:(lia)) _ _ _ wrote_there).
    - exact (proj1 (C146_no_more_room 8 _ 1024 true shown ctx (s "md") two list (R 8) ltac:(lia)) _ _ _ wrote_there).
  Qed.

  (** An error that is over before the process ends: the run panics and yet all was written, for the end of the process flushes once more.
      Here the first call fails and a name is formatted as its quote, its letter, its quote and the newline. *)
  Let one : dir := Dir [[s "a.md"]] (fun _ => None).
  Let once : device := fun h b => match h with [] => Fails | _ => Took (length b) end.
  Theorem C146_written_by_the_end :
    main_to once 1024 true shown ctx (s "md") one list OPanic (s """a""" ++ [newline]) one /\
    main_output true shown ctx (s "md") one list (ORet RUnit) (s """a""" ++ [newline]) one.
  Proof.
    assert (M : main_run ctx (s "md") one list (ORet RUnit) [[s "a"]] one).
    { apply C85_literal_extension_is_a_suffix.
      - exists [109; 100]%N. split; [now apply lossy_iff|].
        split; [repeat constructor|]; intros I; cbn in I; repeat (destruct I as [I|I]; [discriminate I|]); exact I.
      - apply list_plot. reflexivity. }
    split; [|exists [[s "a"]]; split; [exact M|vm_compute; reflexivity]].
    refine (to_stdout once 1024 true shown ctx (s "md") one list (ORet RUnit) [[s "a"]] one
      [[s """"; s "a"; s """"; [newline]]] ([(s """a""" ++ [newline], Fails)], s """a""" ++ [newline]) false
      ([(s """a""" ++ [newline], Fails); (s """a""" ++ [newline], Took 4)], []) true M _ _ _).
    - constructor; [vm_compute; reflexivity|constructor].
    - apply li_error.
      assert (Fits : forall b p, length b + length p < 1024 -> lines_of p = None -> (forall b', b <> b' ++ [newline]) ->
        line_write once 1024 ([], b) p ([], b ++ p) true).
      { intros b p Lt No Nl. eapply lw_none; [exact No|now apply complete_not|]. apply bw_fits. lia. }
      assert (Q : forall b c, c <> newline -> forall b', b ++ [c] <> b' ++ [newline]).
      { intros b c Ne b' E. apply app_inj_tail in E as [_ E]. congruence. }
      eapply wf_next; [apply Fits; [cbn; lia|reflexivity|intros [|x b']; discriminate]|]. cbn [app].
      eapply wf_next; [apply Fits; [cbn; lia|reflexivity|apply (Q [] """"%char); discriminate]|].
      eapply wf_next; [apply Fits; [cbn; lia|reflexivity|apply (Q (s """") "a"%char); discriminate]|].
      apply wf_error. eapply lw_more_flush with (l := [newline]) (t := []); [discriminate|reflexivity|apply bw_fits; cbn; lia|].
      apply flush_buf. apply (puts_fails once []); [discriminate|reflexivity].
    - apply flush_buf. eapply puts_took with (n := 3); [discriminate|reflexivity|]. apply puts_done.
  Qed.
End Cases.

Print Assumptions C146_the_beginning.
Print Assumptions C146_partial_writes_are_harmless.
Print Assumptions C146_no_more_room.
Print Assumptions C146_not_open_unnoticed.
Print Assumptions C146_silent_commands.
Print Assumptions C146_written_by_the_end.
