(** Property C150: the whole process of the command line. *)
From Coq Require Import String.
From Coq Require Import List Bool Arith NArith Ascii Lia.
From Verif Require Import Ord OrdFacts BTree Graph Tx Lazy Prog SpecProg ProgFacts P_Ops Path PathOrd Cli SpecCli PathFacts CliFacts P_Cli
  Utf8 SpecUtf8 Utf8Facts Regex SpecRegex RegexFacts CliMain SpecMain P_Regex P_Main Args SpecArgs ArgsFacts P_Args Stdout SpecStdout StdoutFacts P_Stdout Process.
Import ListNotations.

(** C150. *)
Theorem C150_from_arguments_to_exit :
  forall N dev cap quotes shown cwd args disk c,
    room_for N dev -> 0 < cap -> command_line args c ->
    let context := split match cl_context c with Some s => s | None => cwd end in
    let ext := match cl_extension c with Some s => s | None => lit "md" end in
    let valid := exists p, pattern_of ext p in
    modelled_ext ext ->
    exists ids full o status message,
      (valid -> main_run context ext (disk context) (Command None CList) (ORet RUnit) ids (disk context)) /\
      (valid /\ cm_sub (cl_command c) = CList -> exists lines, has_lines full lines /\ Forall2 (literal shown) (map unsplit ids) lines) /\
      (~ (valid /\ cm_sub (cl_command c) = CList) -> full = []) /\
      exit_of o = Some (status, message) /\
      (length full <= N -> ends_with_status valid ids (cl_command c) status message) /\
      (N < length full -> status = 101 /\ message = None) /\
      forall o' out disk', process_to dev cap quotes shown (Some cwd) args disk o' out disk' <->
        o' = Some o /\ out = firstn N full /\ forall p, disk' p = disk p.
Proof.
  intros N dev cap quotes shown cwd args disk c R C L context ext valid M.
  destruct (C92_exit_status context ext (disk context) (cl_command c) M) as (o & printed & ids & status & message & Run & Ex & Ls & Es & Silent).
  set (full := stdout quotes shown printed).
  assert (Out : forall o' text d', main_output quotes shown context ext (disk context) (cl_command c) o' text d' <-> o' = o /\ text = full /\ d' = disk context).
  { intros o' text d'. unfold main_output. split.
    - intros (pr & X & ->). apply Run in X as (-> & -> & ->). auto.
    - intros (-> & -> & ->). exists printed. split; [now apply Run|reflexivity]. }
  destruct (C146_no_more_room N dev cap quotes shown context ext (disk context) (cl_command c) R C) as [To From].
  assert (Tot : forall o' out d', main_to dev cap quotes shown context ext (disk context) (cl_command c) o' out d' <->
    o' = (if length full <=? N then o else OPanic) /\ out = firstn N full /\ d' = disk context).
  { intros o' out d'. split.
    - intros X. destruct (From _ _ _ X) as (o2 & text & Y & -> & ->). apply Out in Y as (-> & -> & ->). auto.
    - intros (-> & -> & ->). apply To, Out. auto. }
  exists ids, full, (if length full <=? N then o else OPanic),
    (if length full <=? N then status else 101), (if length full <=? N then message else None).
  split; [exact Ls|]. split; [|split; [|split; [|split; [|split]]]].
  - intros [V S]. specialize (Ls V). destruct V as [p V]. apply (main_run_pattern context ext p _ _ _ _ _ V) in Ls.
    assert (Q : main_run context ext (disk context) (cl_command c) (ORet RUnit) ids (disk context)).
    { apply (main_run_pattern context ext p _ _ _ _ _ V).
      destruct (plot_det _ _ _ _ _ _ _ _ _ Ls (list_plot _ (disk context) (Command None CList) Logic.eq_refl)) as (_ & -> & _). now apply list_plot. }
    apply Run in Q as (_ & -> & _). assert (X : main_output quotes shown context ext (disk context) (cl_command c) o full (disk context)) by (now apply Out).
    destruct (C108_lines_are_literals _ _ _ _ _ _ _ _ _ X) as (pr & lines & Y & H1 & H2). apply Run in Y as (_ & -> & _). eauto.
  - intros Nv. assert (E : printed = []); [|unfold full; now rewrite E].
    destruct (cm_sub (cl_command c)) eqn:S; [apply Silent; discriminate| |apply Silent; discriminate].
    destruct (C88_invalid_extension_panics context ext (disk context) M) as [Bad _].
    assert (X : main_run context ext (disk context) (cl_command c) o printed (disk context)) by (now apply Run).
    apply Bad in X as (_ & -> & _); [reflexivity|]. intros V. apply Nv. auto.
  - destruct (length full <=? N); [exact Ex|reflexivity].
  - intros Le. apply Nat.leb_le in Le. now rewrite Le.
  - intros Lt. apply Nat.leb_gt in Lt. now rewrite Lt.
  - intros o' out disk'. unfold process_to. cbn [default_context]. rewrite (proj2 (parse_args_iff _ _) L). change default_extension with (lit "md").
    fold context ext. split.
    + intros (o2 & -> & X & Else). apply Tot in X as (-> & -> & D). split; [reflexivity|]. split; [reflexivity|]. intros p.
      destruct (list_eq_dec (list_eq_dec ascii_dec) p context) as [->|Np]; [exact D|now apply Else].
    + intros (-> & -> & D). eexists. split; [reflexivity|]. split; [|intros p _; apply D]. apply Tot. split; [reflexivity|]. split; [reflexivity|]. apply D.
Qed.

(** C150: with a standard output that takes everything, the process leaves what [process] says. *)
Theorem C150_where_nothing_fails :
  forall dev cap quotes shown cwd args disk o out disk',
    willing dev -> 0 < cap -> process_to dev cap quotes shown cwd args disk o out disk' -> process quotes shown cwd args disk o out disk'.
Proof.
  intros dev cap quotes shown cwd args disk o out disk' W C X. unfold process_to in X. unfold process. destruct (default_context cwd) as [w|]; [|exact X].
  destruct (parse_args args) as [c|]; [|exact X]. destruct X as (o' & -> & X & E). exists o'. split; [reflexivity|]. split; [|exact E].
  now apply (C146_partial_writes_are_harmless dev cap).
Qed.

(** C150: what is in the files makes no difference, nor does any file outside the context. *)
Theorem C150_no_document_is_read :
  forall dev cap quotes shown cwd args c disk disk2 o out disk',
    command_line args c ->
    let context := split match cl_context c with Some s => s | None => cwd end in
    dr_walk (disk context) = dr_walk (disk2 context) ->
    process_to dev cap quotes shown (Some cwd) args disk o out disk' -> process_to dev cap quotes shown (Some cwd) args disk2 o out disk2.
Proof.
  intros dev cap quotes shown cwd args c disk disk2 o out disk' L context W X. unfold process_to in *. cbn [default_context] in *.
  rewrite (proj2 (parse_args_iff _ _) L) in X |- *. fold context in X |- *. destruct X as (o' & -> & X & _). exists o'. split; [reflexivity|]. split; [|reflexivity].
  set (ext := match cl_extension c with Some s => s | None => default_extension end) in X |- *.
  destruct X as [o printed d' lines s ok s' ok' M F E1 E2]. apply (to_stdout dev cap quotes shown context ext _ _ o printed _ lines s ok s' ok'); auto.
  unfold main_run in *. destruct (repo_for context ext) as [r| |]; [|now destruct M as (-> & -> & _)|exact M].
  destruct M as (w' & M & P & _). exists w'. unfold started in *. rewrite <- W. auto.
Qed.

(** ** Cases *)
Section Cases.
  Let shown (c : char) : bool := true.
  Let disk (p : path) : dir := Dir [[lit "a.md"]; [lit "b.md"]] (fun _ => None).
  Let words (l : list string) : list bytes := map lit l.
  Let quote : ascii := """"%char.
  Let text : bytes := [quote; "a"%char; quote; newline; quote; "b"%char; quote; newline].
  (** Room for [N] bytes, one at a time. *)
  Let one (N : nat) : device := fun h b => if length (reached h) <? N then Took 1 else Fails.

  Let one_room N : room_for N (one N).
  Proof.
    intros h [|x b] Nb; [congruence|]. unfold one. split; intros L.
    - exists 1. apply Nat.ltb_lt in L as L'. rewrite L'. cbn. repeat split; lia.
    - apply Nat.ltb_ge in L. now rewrite L.
  Qed.

  (** Listing with room for all, with room for five bytes, and deleting a document that is there. *)
  Example C150_case :
    command_line (words ["doc"; "ls"; "-C"; "docs"]%string) (Cli (Some (lit "docs")) None (Command None CList)) /\ modelled_ext (lit "md") /\
    process_to (one 8) 1024 true shown (Some (lit "/")) (words ["doc"; "ls"; "-C"; "docs"]%string) disk (Some (ORet RUnit)) text disk /\
    process_to (one 5) 1024 true shown (Some (lit "/")) (words ["doc"; "ls"; "-C"; "docs"]%string) disk (Some OPanic) (firstn 5 text) disk /\
    process_to (one 0) 1024 true shown (Some (lit "/")) (words ["doc"; "b"; "delete"; "-C"; "docs"]%string) disk (Some (ORet RUnit)) [] disk.
  Proof.
    assert (P : plain_ext (lit "md")).
    { exists [109; 100]%N. split; [now apply lossy_iff|]. split; [repeat constructor|]; intros I; cbn in I; repeat (destruct I as [I|I]; [discriminate I|]); exact I. }
    assert (W : main_output true shown [lit "docs"] (lit "md") (disk [lit "docs"]%string) (Command None CList) (ORet RUnit) text (disk [lit "docs"])).
    { exists [[lit "a"]; [lit "b"]]. split; [|vm_compute; reflexivity]. apply C85_literal_extension_is_a_suffix; [exact P|]. apply list_plot. reflexivity. }
    split; [apply parse_args_iff; reflexivity|]. split.
    { exists [109; 100]%N. split; [now apply lossy_iff|]. unfold modelled. split; [intros I; cbn in I; repeat (destruct I as [I|I]; [discriminate I|]); destruct I|].
      split; [intros [|x [|y [|z a]]] c b E|intros [|x [|y [|z a]]] b E]; discriminate E. }
    split; [|split].
    - eexists. split; [reflexivity|]. split; [|reflexivity].
      exact (proj1 (C146_no_more_room 8 _ 1024 true shown [lit "docs"] (lit "md") _ (Command None CList) (one_room 8) ltac:(lia)) _ _ _ W).
    - eexists. split; [reflexivity|]. split; [|reflexivity].
      exact (proj1 (C146_no_more_room 5 _ 1024 true shown [lit "docs"] (lit "md") _ (Command None CList) (one_room 5) ltac:(lia)) _ _ _ W).
    - eexists. split; [reflexivity|]. split; [|reflexivity]. apply C146_silent_commands; [discriminate|]. split; [reflexivity|].
      exists []. split; [|reflexivity]. apply C85_literal_extension_is_a_suffix; [exact P|].
      destruct (C47_delete_succeeds_iff_listed (plain_repo [lit "docs"] (lit "md")) (disk [lit "docs"]%string) (Command (Some (lit "b")) CDelete) (lit "b") Logic.eq_refl Logic.eq_refl)
        as (ids & Q & _ & Yes & _). apply Yes. exists [lit "b"]. split; [|reflexivity].
      destruct (plot_det _ _ _ _ _ _ _ _ _ Q (list_plot _ (disk [lit "docs"]%string) (Command None CList) Logic.eq_refl)) as (_ & -> & _). vm_compute. auto.
  Qed.
End Cases.

Print Assumptions C150_from_arguments_to_exit.
Print Assumptions C150_where_nothing_fails.
Print Assumptions C150_no_document_is_read.
