(** Properties C130-C133: the arguments of the command line. *)
From Coq Require Import String.
From Coq Require Import List Bool Arith NArith Ascii Lia.
From Verif Require Import Ord OrdFacts BTree Graph Tx Lazy Prog SpecProg ProgFacts P_Ops Path PathOrd Cli SpecCli PathFacts CliFacts P_Cli
  Utf8 SpecUtf8 Utf8Facts Regex SpecRegex RegexFacts CliMain SpecMain P_Regex P_Main Args SpecArgs ArgsFacts.
Import ListNotations.

(** C130. *)
Theorem C130_arguments_mean_what_the_grammar_says :
  forall quotes shown cwd args disk o out disk',
    process quotes shown (Some cwd) args disk o out disk' <->
    (exists c o', command_line args c /\ o = Some o' /\
       let context := split match cl_context c with Some s => s | None => cwd end in
       let ext := match cl_extension c with Some s => s | None => lit "md" end in
       main_output quotes shown context ext (disk context) (cl_command c) o' out (disk' context) /\
       forall p, p <> context -> disk' p = disk p) \/
    (~ (exists c, command_line args c) /\ o = None /\ disk' = disk).
Proof.
  intros. unfold process. cbn [default_context]. destruct (parse_args args) as [c|] eqn:P.
  - pose proof (proj1 (parse_args_iff _ _) P) as L. split.
    + intros (o' & -> & M). left. exists c, o'. auto.
    + intros [(c' & o' & L' & -> & M)|(N & _)]; [|now destruct N; exists c].
      apply parse_args_iff in L'. rewrite P in L'. injection L' as <-. exists o'. auto.
  - split.
    + intros E. right. split; [|exact E]. intros [c L]. apply parse_args_iff in L. congruence.
    + intros [(c & o' & L & _)|(_ & E)]; [|exact E]. apply parse_args_iff in L. congruence.
Qed.

(** C130: a command line means one thing at most. *)
Theorem C130_arguments_unambiguous :
  forall args c c', command_line args c -> command_line args c' -> c = c'.
Proof. intros args c c' A B. apply parse_args_iff in A, B. congruence. Qed.

(** ** What can be asked for *)
Lemma written_values f p c e i ws : written f p c e i ws ->
  c <> Some [] /\ (forall v, e = Some v -> text v) /\ (forall v, i = Some v -> text v /\ p v).
Proof.
  intros W. induction W as [|v e i ws us W IH N G|v c i ws us W IH N G|v c e ws W IH T Po].
  - repeat split; discriminate.
  - destruct IH as (A & B & C). repeat split; auto; try (now apply C); congruence.
  - destruct IH as (A & B & C). repeat split; auto; try (now apply C). intros w E. now injection E as <-.
  - destruct IH as (A & B & C). repeat split; auto; injection H as <-; auto.
Qed.

Lemma written_last_values q c e i ws : written_last q c e i ws -> c <> Some [] /\ (forall v, e = Some v -> text v) /\ (forall v, i = Some v -> text v).
Proof.
  intros W. destruct W as [c e i ws W|c e i ws W|c e v ws W Po T]; apply written_values in W; destruct W as (A & B & C); repeat split; auto;
    try (intros v' E; now apply C in E). intros w E. now injection E as <-.
Qed.

Lemma last_of_in l v x : last_of l v -> v = Some x -> In (Some x) l.
Proof. intros L ->. destruct L as (a & b & -> & _). apply in_or_app. right. now left. Qed.

Definition option_words (c e : option bytes) : list bytes :=
  match c with Some v => [lit "--" ++ lit "context" ++ lit "=" ++ v] | None => [] end ++
  match e with Some v => [lit "--" ++ lit "extension" ++ lit "=" ++ v] | None => [] end.

Lemma option_words_written f p c e : c <> Some [] -> (forall v, e = Some v -> text v) -> written f p c e None (option_words c e).
Proof.
  intros C E.
  assert (W : written f p c None None match c with Some v => [lit "--" ++ lit "context" ++ lit "=" ++ v] | None => [] end).
  { destruct c as [v|]; [|constructor]. apply (wr_context f p v None None [] [_]); [constructor|congruence|constructor]. }
  unfold option_words. destruct e as [v|]; [|now rewrite app_nil_r]. apply wr_extension; [exact W|now apply E|constructor].
Qed.

(** C131. *)
Theorem C131_commands_that_can_be_written :
  forall c e i s,
    (exists args, command_line args (Cli c e (Command i s))) <->
    c <> Some [] /\ (forall v, e = Some v -> text v) /\
    (forall v, i = Some v -> text v /\ id_word v) /\
    (forall v, s = CSave (Some v) -> text v).
Proof.
  intros c e i s. split.
  - intros [args L]. inversion L as [c1 e1 w1 c2 e2 j w2 name c3 e3 w3 sub c' e' W1 W2 A Lc Le]; subst.
    apply written_values in W1, W2. destruct W1 as (A1 & B1 & _), W2 as (A2 & B2 & C2).
    assert (X : c3 <> Some [] /\ (forall v, e3 = Some v -> text v) /\ (forall v, s = CSave (Some v) -> text v)).
    { destruct A as [c3 e3 ws W|c3 e3 ws W|c3 e3 ws W|c3 e3 p ws W]; apply written_last_values in W; destruct W as (P & Q & R); repeat split; auto; try discriminate.
      intros v E. injection E as ->. now apply R. }
    destruct X as (A3 & B3 & C3). split; [|split; [|split; [exact C2|exact C3]]].
    + intros ->. pose proof (last_of_in _ _ _ Lc Logic.eq_refl) as I. destruct I as [I|[I|[I|[]]]]; contradiction.
    + intros v ->. pose proof (last_of_in _ _ _ Le Logic.eq_refl) as I. destruct I as [I|[I|[I|[]]]]; auto.
  - intros (C & E & I & S).
    assert (W2 : exists w2, written id_word id_word None None i w2).
    { destruct i as [v|]; [|exists []; constructor]. exists ([] ++ [v]). apply wr_positional; [constructor|now apply I..]. }
    destruct W2 as [w2 W2].
    assert (A : exists name w3, action name None None w3 s).
    { destruct s as [| |[v|]].
      - exists (lit "delete"), []. constructor. apply wl_plain. constructor.
      - exists (lit "list"), []. constructor. apply wl_plain. constructor.
      - exists (lit "save"), ([] ++ [lit "--"; v]). constructor. apply wl_value; [constructor|exact Logic.I|now apply S].
      - exists (lit "save"), []. constructor. apply wl_plain. constructor. }
    destruct A as (name & w3 & A).
    eexists. eapply (cl_line c e (option_words c e) None None i w2 name None None w3); [now apply option_words_written|exact W2|exact A| |].
    + destruct c as [c|]; [exists [], [None; None]; auto|repeat constructor].
    + destruct e as [e|]; [exists [], [None; None]; auto|repeat constructor].
Qed.

(** ** Documents within reach *)
Lemma text_ascii n : Forall (fun a => (N_of_ascii a < 128)%N) n -> text n.
Proof. intros F. exists (map N_of_ascii n). now apply spells_ascii. Qed.
Lemma text_app n m : text n -> text m -> text (n ++ m).
Proof. intros [l A] [k B]. exists (l ++ k). now apply spells_app. Qed.

Lemma split_prefix m n : ~ In slash m -> split (m ++ n) = match split n with x :: xs => (m ++ x) :: xs | [] => [m] end.
Proof.
  induction m as [|a m IH]; intros N; [cbn; now destruct (split n) eqn:E; [destruct (split_not_nil n)|]|].
  cbn [app split]. destruct (Ascii.eqb_spec a slash) as [->|Na]; [exfalso; apply N; now left|]. rewrite IH by (intros I; apply N; now right).
  destruct (split n); reflexivity.
Qed.

Lemma text_split l : Forall scalar l -> forall n, map N_of_ascii n = flat_map encode l -> Forall text (split n).
Proof.
  intros Sc. induction Sc as [|c l S Sc IH]; intros n E.
  - destruct n; [|discriminate]. repeat constructor. exists []. split; [constructor|reflexivity].
  - cbn [flat_map] in E. apply map_split in E. destruct E as (n1 & n2 & -> & E1 & E2). specialize (IH n2 E2).
    assert (T : spells n1 [c]) by (split; [auto|]; cbn [flat_map]; now rewrite app_nil_r).
    destruct (N.eq_dec c (N_of_ascii slash)) as [->|N].
    + assert (X : n1 = [slash]) by now apply bytes_inj. subst n1. cbn [app split]. rewrite Ascii.eqb_refl.
      constructor; [exists []; split; [constructor|reflexivity]|exact IH].
    + rewrite split_prefix.
      * destruct (split n2) as [|x xs] eqn:Sp; [now destruct (split_not_nil n2)|]. inversion IH as [|? ? Tx F]; subst. constructor; [|exact F].
        apply text_app; [exists [c]; exact T|exact Tx].
      * intros I. apply (spells_in _ _ slash T) in I; [|reflexivity]. destruct I as [I|[]]. now apply N.
Qed.

Lemma text_unsplit p : Forall text p -> text (unsplit p).
Proof.
  intros F. induction F as [|x p T F IH]; [apply text_ascii; constructor|]. cbn [unsplit]. destruct p as [|y p]; [exact T|].
  apply text_app; [exact T|]. change (slash :: ?x) with ([slash] ++ x). apply (text_app [slash]); [|exact IH]. apply text_ascii. repeat constructor.
Qed.

Lemma parse_single_normal s n : parse_single s = Some (Normal n) -> s = n.
Proof.
  unfold parse_single. destruct s as [|a [|b [|c s]]]; try discriminate.
  - destruct (Ascii.eqb a dot); [discriminate|]. now intros [= <-].
  - destruct (Ascii.eqb a dot && Ascii.eqb b dot); [discriminate|]. now intros [= <-].
  - now intros [= <-].
Qed.

Lemma body_names p n : In (Normal n) (body p) -> In n p.
Proof.
  induction p as [|s p IH]; cbn [body]; [auto|]. destruct (parse_single s) as [c|] eqn:P; [|intros I; right; now apply IH].
  intros [E|I]; [|right; now apply IH]. subst c. apply parse_single_normal in P. now left.
Qed.

Lemma components_names p n : In (Normal n) (components p) -> In n p.
Proof.
  unfold components. destruct (has_root p); [|destruct (leads_cur_dir p)]; intros I; try (destruct I as [I|I]; [discriminate|]); now apply body_names.
Qed.

Lemma names_texts p : (forall n, In (Normal n) (components p) -> text n) -> Forall text p.
Proof.
  intros T. apply Forall_forall. intros s I. destruct (parse_single s) as [[| | |n]|] eqn:P.
  - unfold parse_single in P. destruct s as [|a [|b [|c s]]]; try discriminate; destruct (_ : bool); discriminate.
  - unfold parse_single in P. destruct s as [|a [|b [|c s]]]; try discriminate; destruct (_ : bool); discriminate.
  - apply text_ascii. unfold parse_single in P. destruct s as [|a [|b [|c s]]]; try discriminate.
    + destruct (Ascii.eqb a dot); discriminate.
    + destruct (Ascii.eqb_spec a dot) as [->|]; [|discriminate]. destruct (Ascii.eqb_spec b dot) as [->|]; [|discriminate]. repeat constructor.
  - pose proof (parse_single_normal _ _ P). subst n. apply T. unfold components.
    assert (B : In (Normal s) (body p)).
    { clear T. induction p as [|x p IH]; [destruct I|]. destruct I as [->|I]; cbn [body]; [rewrite P; now left|].
      destruct (parse_single x); [right|]; now apply IH. }
    destruct (has_root p); [now right|]. destruct (leads_cur_dir p); [now right|exact B].
  - apply text_ascii. unfold parse_single in P. destruct s as [|a [|b [|c s]]]; try discriminate; [constructor| |].
    + destruct (Ascii.eqb_spec a dot) as [->|]; [|discriminate]. repeat constructor.
    + destruct (_ && _); discriminate.
Qed.

(** What a path beginning with a name begins with. *)
Lemma components_first s n r : components (split s) = Normal n :: r -> exists t, s = n ++ t /\ (t = [] -> r = []).
Proof.
  intros C. pose proof (unsplit_split s) as U. destruct (split s) as [|x xs] eqn:Sp; [now destruct (split_not_nil s)|].
  unfold components in C. destruct (has_root (x :: xs)) eqn:R; [discriminate|]. destruct (leads_cur_dir (x :: xs)) eqn:L; [discriminate|]. cbn [body] in C.
  destruct (parse_single x) as [c|] eqn:P.
  - injection C as -> C. apply parse_single_normal in P. subst x. destruct xs as [|y ys].
    + exists []. cbn in U, C. rewrite app_nil_r. split; [now symmetry|intros _; now symmetry].
    + exists (slash :: unsplit (y :: ys)). cbn [unsplit] in U. split; [now symmetry|discriminate].
  - exfalso. destruct x as [|a [|b [|c x]]]; try discriminate P.
    + destruct xs; [discriminate C|discriminate R].
    + cbn in L, P. rewrite L in P. discriminate P.
    + cbn in P. destruct (_ && _); discriminate P.
Qed.

Lemma reserved_slash s : In s reserved -> same_path (split (s ++ lit "/")) (split s) /\ word (s ++ lit "/") /\ ~ In (s ++ lit "/") reserved /\ text (s ++ lit "/").
Proof.
  intros [<-|[<-|[<-|[<-|[<-|[]]]]]]; (split; [reflexivity|]); (split; [right; intros r E; discriminate E|]); (split; [|apply text_ascii; repeat constructor]);
    intros [E|[E|[E|[E|[E|[]]]]]]; discriminate E.
Qed.

(** Which paths an id can name. *)
Lemma nameable_iff s : (exists i, text i /\ id_word i /\ same_path (split i) (split s)) <-> nameable (split s).
Proof.
  unfold same_path. split.
  - intros (i & [l [Sc T]] & [W _] & E). unfold nameable. rewrite <- E. split.
    + intros n I. apply components_names in I. pose proof (text_split l Sc i T) as F. rewrite Forall_forall in F. now apply F.
    + intros n r C. destruct (components_first i _ _ C) as (t & -> & Ht). rewrite <- app_assoc in W. destruct W as [W|W]; [|now destruct (W (n ++ t))].
      injection W as W. apply app_eq_nil in W. destruct W as [-> ->]. auto.
  - intros [T D].
    assert (Ts : text s) by (rewrite <- (unsplit_split s); apply text_unsplit, names_texts, T).
    destruct s as [|a s].
    + exists []. split; [exact Ts|]. split; [|reflexivity]. split; [right; intros r E; discriminate E|]. intros [E|[E|[E|[E|[E|[]]]]]]; discriminate E.
    + destruct (ascii_dec a "-") as [->|N].
      * destruct (split ("-"%char :: s)) as [|x xs] eqn:Sp; [now destruct (split_not_nil ("-"%char :: s))|].
        assert (X : exists y, x = "-"%char :: y).
        { cbn [split] in Sp. change (Ascii.eqb "-" slash) with false in Sp. cbn match in Sp. destruct (split s); injection Sp as <- <-; eauto. }
        destruct X as [y ->].
        assert (P : parse_single ("-"%char :: y) = Some (Normal ("-"%char :: y))) by (destruct y as [|b [|c y]]; reflexivity).
        assert (Co : components (("-"%char :: y) :: xs) = Normal ("-"%char :: y) :: body xs).
        { unfold components. replace (has_root _) with false by reflexivity. replace (leads_cur_dir _) with false by (now destruct y). cbn [body]. now rewrite P. }
        destruct (D y (body xs) Co) as [-> B]. exists (lit "-"). split; [apply text_ascii; repeat constructor|].
        split; [split; [now left|]; intros [E|[E|[E|[E|[E|[]]]]]]; discriminate E|]. rewrite Co, B. reflexivity.
      * assert (W : word (a :: s)) by (right; intros r E; injection E as E _; contradiction).
        destruct (in_dec (list_eq_dec ascii_dec) (a :: s) reserved) as [I|NI].
        -- destruct (reserved_slash _ I) as (E & W' & NR & T'). exists ((a :: s) ++ lit "/"). split; [exact T'|]. split; [now split|exact E].
        -- exists (a :: s). split; [exact Ts|]. split; [now split|reflexivity].
Qed.

(** *** Listed ids are strings *)
Notation cut := (Forall (fun s => ~ In slash s)).
Lemma cut_split s : cut (split s).
Proof.
  induction s as [|a s IH]; cbn [split]; [repeat constructor; intros []|]. destruct (Ascii.eqb_spec a slash) as [->|N].
  - constructor; [intros []|exact IH].
  - destruct (split s) as [|x xs]; [constructor; [intros [E|[]]; now apply N|constructor]|]. inversion IH; subst. constructor; [|assumption].
    intros [E|I]; [now apply N|contradiction].
Qed.
Lemma cut_trim_start p : cut p -> cut (trim_start p).
Proof. intros F. induction F as [|x p N F IH]; [constructor|]. cbn [trim_start]. destruct (skipped x); [exact IH|now constructor]. Qed.
Lemma cut_trim_end p : cut p -> cut (trim_end p).
Proof. intros F. unfold trim_end. apply Forall_rev, cut_trim_start, Forall_rev, F. Qed.
Lemma cut_removelast p : cut p -> cut (removelast p).
Proof. intros F. induction F as [|x p N F IH]; [constructor|]. cbn [removelast]. destruct p; [constructor|now constructor]. Qed.
Lemma cut_drop n : forall p, cut p -> cut (drop_comps n p).
Proof.
  induction n as [|n IH]; intros p F; [exact F|]. cbn [drop_comps]. apply cut_trim_start in F. destruct (trim_start p); [constructor|]. inversion F; subst. now apply IH.
Qed.
Lemma cut_or_empty p : cut p -> cut (or_empty p) /\ or_empty p <> [].
Proof. intros F. destruct p; (split; [|discriminate]); [repeat constructor; intros []|exact F]. Qed.
Lemma cut_strip p b q : cut p -> strip_prefix p b = Some q -> cut q /\ q <> [].
Proof.
  intros F. unfold strip_prefix. destruct (is_prefix _ _); [|discriminate]. intros E. injection E as <-.
  assert (Tl : cut (tl p)) by (destruct F; [constructor|assumption]).
  pose proof (cut_or_empty _ (cut_trim_end _ (cut_trim_start _ (cut_drop (length (components b)) p F)))) as K.
  destruct (components b) as [|[| | |n] cs]; try exact K; try (apply cut_or_empty, cut_trim_end, cut_trim_start, cut_drop; assumption). clear K.
  unfold trim_whole. destruct p as [|s r]; [split; [repeat constructor; intros []|discriminate]|]. inversion F as [|? ? Ns Fr]; subst.
  destruct (has_root (s :: r)).
  - split; [|discriminate]. constructor; [exact Ns|]. now apply cut_or_empty, cut_trim_end.
  - destruct (leads_cur_dir (s :: r)); [split; [|discriminate]; constructor; [exact Ns|now apply cut_trim_end]|]. now apply cut_or_empty, cut_trim_end.
Qed.
Lemma stem_slash n : ~ In slash n -> ~ In slash (stem n).
Proof.
  intros N. unfold stem. destruct (rsplit_dot n) as [[[|a x] b]|] eqn:E; auto. apply rsplit_dot_some in E. destruct E as [-> _]. intros I. apply N.
  apply in_or_app. now left.
Qed.
Lemma cut_with_extension p : cut p -> cut (with_extension p []).
Proof.
  intros F. unfold with_extension. destruct (file_name p) as [n|] eqn:E; [|exact F]. rewrite app_nil_r. apply Forall_app. split; [now apply cut_removelast, cut_trim_end|].
  constructor; [|constructor]. apply stem_slash.
  unfold file_name in E. destruct (last (components p) RootDir) as [| | |m] eqn:L; try discriminate. injection E as ->.
  assert (I : In n p).
  { apply components_names. destruct (components p) as [|x xs]; [discriminate|]. rewrite <- L.
    clear. revert x. induction xs as [|y xs IH]; intros x; [now left|]. right. apply IH. }
  rewrite Forall_forall in F. now apply F.
Qed.
Lemma cut_entry r e : cut (rp_context r) -> Forall visible e -> cut (entry_path r e).
Proof.
  intros F V. unfold entry_path. revert F. generalize (rp_context r). induction V as [|n e [N _] V IH]; intros p F; [exact F|]. cbn [fold_left]. apply IH.
  unfold join. destruct (has_root [n]); [now repeat constructor|].
  destruct (ends_with_slash p); apply Forall_app; split; auto using cut_removelast.
Qed.
Lemma listed_string r d j : cut (rp_context r) -> good_walk (dr_walk d) -> In j (listing r d) -> split (unsplit j) = j.
Proof.
  intros F G I. apply listing_in in I. destruct I as (e & I & E). unfold entry_id in E. destruct (rp_re r _); [|discriminate].
  unfold good_walk in G. rewrite Forall_forall in G. apply cut_strip in E; [|now apply cut_with_extension, cut_entry; [|apply G]]. destruct E. now apply split_unsplit.
Qed.

(** C132. *)
Theorem C132_listed_documents_within_reach :
  forall context ext d ids,
    context <> [] -> text ext -> good_walk (dr_walk d) ->
    main_run (split context) ext d (Command None CList) (ORet RUnit) ids d ->
    forall j, In j ids ->
      ((exists args i, command_line args (Cli (Some context) (Some ext) (Command (Some i) CDelete)) /\ same_path (split i) j) <-> nameable j) /\
      (forall args i, command_line args (Cli (Some context) (Some ext) (Command (Some i) CDelete)) -> same_path (split i) j ->
         main_run (split context) ext d (Command (Some i) CDelete) (ORet RUnit) [] d).
Proof.
  intros context ext d ids Nc Te G L j J. unfold main_run in *. destruct (repo_for (split context) ext) as [r| |] eqn:R; [|destruct L; discriminate|destruct L].
  assert (C : rp_context r = split context) by (unfold repo_for in R; destruct (Regex.parse _); try discriminate; now injection R as <-).
  pose proof (list_plot r d (Command None CList) Logic.eq_refl) as L'. destruct (plot_det _ _ _ _ _ _ _ _ _ L L') as (_ & -> & _).
  assert (Sj : split (unsplit j) = j) by (apply (listed_string r d); [rewrite C; apply cut_split|assumption..]).
  split.
  - rewrite <- Sj, <- nameable_iff. split.
    + intros (args & i & A & E). assert (X : exists args, command_line args (Cli (Some context) (Some ext) (Command (Some i) CDelete))) by eauto.
      apply C131_commands_that_can_be_written in X. destruct X as (_ & _ & X & _). destruct (X i Logic.eq_refl). eauto.
    + intros (i & T & W & E).
      assert (X : exists args, command_line args (Cli (Some context) (Some ext) (Command (Some i) CDelete))).
      { apply C131_commands_that_can_be_written. split; [congruence|]. split; [intros v [= <-]; exact Te|]. split; [intros v [= <-]; auto|discriminate]. }
      destruct X as [args X]. exists args, i. auto.
  - intros args i A E. destruct (C47_delete_succeeds_iff_listed r d (Command (Some i) CDelete) i Logic.eq_refl Logic.eq_refl) as (ids & Q & _ & Yes & _).
    destruct (plot_det _ _ _ _ _ _ _ _ _ Q L') as (_ & -> & _). apply Yes. exists j. split; [exact J|now symmetry].
Qed.

(** C133. *)
Theorem C133_no_run_without_a_working_directory :
  (forall quotes shown args disk o out disk',
     process quotes shown None args disk o out disk' <-> o = Some OPanic /\ out = [] /\ disk' = disk) /\
  (forall quotes shown args disk o out disk' cwd cwd' c,
     command_line args c -> cl_context c <> None ->
     process quotes shown (Some cwd) args disk o out disk' -> process quotes shown (Some cwd') args disk o out disk').
Proof.
  split; [reflexivity|]. intros quotes shown args disk o out disk' cwd cwd' c L N. apply parse_args_iff in L. unfold process. cbn [default_context]. rewrite L.
  destruct (cl_context c); [auto|contradiction].
Qed.

Print Assumptions C130_arguments_mean_what_the_grammar_says.
Print Assumptions C130_arguments_unambiguous.
Print Assumptions C131_commands_that_can_be_written.
Print Assumptions C132_listed_documents_within_reach.
Print Assumptions C133_no_run_without_a_working_directory.

(** ** Concrete cases *)
Local Definition words (l : list string) : list bytes := map lit l.

(** C130: options of all forms, at every command, the innermost ones holding. *)
Example C130_case :
  map (fun l => parse_args (words l)) [
    ["-C"; "doc"; "doc"; "-e=txt"; "notes/a"; "save"; "--context=x"; "--"; "--text"];
    ["--extension"; "md"; "doc"; "list/"; "delete"; "-Cx=y"; "--"];
    ["doc"; "ls"];
    ["doc"; ""; "list"; "-e="]]%string
  = [ Some (Cli (Some (lit "x")) (Some (lit "txt")) (Command (Some (lit "notes/a")) (CSave (Some (lit "--text")))));
      Some (Cli (Some (lit "x=y")) (Some (lit "md")) (Command (Some (lit "list/")) CDelete));
      Some (Cli None None (Command None CList));
      Some (Cli None (Some []) (Command (Some []) CList)) ].
Proof. reflexivity. Qed.

(** Not accepted: no subcommand; one after two dashes; an option twice, without a value, with a value that is a subcommand or
    looks like an option, with an empty path; two ids; an id that looks like an option. *)
Example C130_refused :
  map (fun l => parse_args (words l)) [
    ["doc"; "a"];
    ["doc"; "--"; "a"; "delete"];
    ["-C"; "a"; "-C"; "b"; "doc"; "ls"];
    ["doc"; "ls"; "-C"];
    ["doc"; "-C"; "list"; "list"];
    ["-e"; "-x"; "doc"; "ls"];
    ["--context="; "doc"; "ls"];
    ["doc"; "a"; "b"; "ls"];
    ["doc"; "-a"; "delete"];
    ["doc"; "list"; "delete"];
    ["help"; "doc"];
    ["doc"; "a"; "save"; "b"; "--"; "c"]]%string
  = repeat None 12.
Proof. reflexivity. Qed.

(** C131: an empty id and two dashes as content can be written; [-a], [help], a lone byte 255, the empty context cannot. *)
Example C131_case :
  (exists args, command_line args (Cli (Some ["255"%char]) (Some []) (Command (Some []) (CSave (Some (lit "--")))))) /\
  (forall c e s, ~ exists args, command_line args (Cli c e (Command (Some (lit "-a")) s))) /\
  (forall c e s, ~ exists args, command_line args (Cli c e (Command (Some (lit "help")) s))) /\
  (forall c e s, ~ exists args, command_line args (Cli c e (Command (Some ["255"%char]) s))) /\
  (forall e i s, ~ exists args, command_line args (Cli (Some []) e (Command i s))).
Proof.
  split; [|split; [|split; [|split]]].
  - exists [lit "--context"; ["255"%char]; lit "doc"; lit "--extension="; []; lit "save"; lit "--"; lit "--"]. now apply parse_args_iff.
  - intros c e s X. apply C131_commands_that_can_be_written in X. destruct X as (_ & _ & X & _). destruct (X _ Logic.eq_refl) as [_ [[E|E] _]]; [discriminate E|now destruct (E (lit "a"))].
  - intros c e s X. apply C131_commands_that_can_be_written in X. destruct X as (_ & _ & X & _). destruct (X _ Logic.eq_refl) as [_ [_ N]]. apply N. vm_compute. auto 6.
  - intros c e s X. apply C131_commands_that_can_be_written in X. destruct X as (_ & _ & X & _). destruct (X _ Logic.eq_refl) as [T _]. apply is_utf8_iff in T. discriminate T.
  - intros e i s X. apply C131_commands_that_can_be_written in X. now destruct X as (N & _).
Qed.

(** C132: of these four files the first two can be deleted, [list] as [list/]. *)
Local Definition files_ : dir := Dir [[lit "a.md"]; [lit "list.md"]; [lit "-x.md"]; [["255"%char; "."%char; "m"%char; "d"%char]]] (fun _ => None).
Example C132_case :
  main_run (split (lit "/base")) (lit "md") files_ (Command None CList) (ORet RUnit) [[lit "-x"]; [lit "a"]; [lit "list"]; [["255"%char]]] files_ /\
  nameable [lit "a"] /\ nameable [lit "list"] /\ ~ nameable [lit "-x"] /\ ~ nameable [["255"%char]] /\
  command_line (words ["--context=/base"; "--extension=md"; "doc"; "list/"; "delete"]%string)
    (Cli (Some (lit "/base")) (Some (lit "md")) (Command (Some (lit "list/")) CDelete)) /\
  same_path (split (lit "list/")) [lit "list"].
Proof.
  split; [|split; [|split; [|split; [|split; [|split]]]]].
  - unfold main_run. destruct (repo_for _ _) as [r| |] eqn:R; [|discriminate R|discriminate R].
    pose proof (list_plot r files_ (Command None CList) Logic.eq_refl) as L.
    injection R as <-. exact L.
  - apply (nameable_iff (lit "a")). exists (lit "a"). split; [apply text_ascii; repeat constructor|]. split; [|reflexivity].
    split; [right; intros r E; discriminate E|]. intros [E|[E|[E|[E|[E|[]]]]]]; discriminate E.
  - apply (nameable_iff (lit "list")). exists (lit "list/"). split; [apply text_ascii; repeat constructor|]. split; [|reflexivity].
    split; [right; intros r E; discriminate E|]. intros [E|[E|[E|[E|[E|[]]]]]]; discriminate E.
  - intros [_ D]. destruct (D (lit "x") [] Logic.eq_refl) as [E _]. discriminate E.
  - intros [T _]. specialize (T ["255"%char] (or_introl Logic.eq_refl)). apply is_utf8_iff in T. discriminate T.
  - now apply parse_args_iff.
  - reflexivity.
Qed.

(** C133: even [--context] does not help. *)
Example C133_case :
  forall disk, process true (fun _ => true) None (words ["doc"; "ls"; "--context=/base"]%string) disk (Some OPanic) [] disk /\
    command_line (words ["doc"; "ls"; "--context=/base"]%string) (Cli (Some (lit "/base")) None (Command None CList)).
Proof. intros disk. split; [now cbn|]. now apply parse_args_iff. Qed.
