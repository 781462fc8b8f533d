(** The process of plotline-cli from its arguments to what reaches its standard output: [process] of Args.v with the writers of Stdout.v.
    Source: plotline-cli/src/main.rs 55-81. *)
From Coq Require Import List Bool Arith Ascii.
From Verif Require Import Ord Prog Path Cli Utf8 Regex CliMain Args Stdout.
Import ListNotations.

(** As [process]; [dev]: what the calls of [write(2)] on the standard output answer, [cap]: the size of std's buffer. *)
Definition process_to (dev : device) (cap : nat) (quotes : bool) (shown : char -> bool) (cwd : option bytes) (args : list bytes) (disk : path -> dir)
    (o : option (outcome path)) (out : bytes) (disk' : path -> dir) : Prop :=
  match default_context cwd with
  | None => o = Some OPanic /\ out = [] /\ disk' = disk
  | Some cwd =>
      match parse_args args with
      | None => o = None /\ disk' = disk
      | Some c =>
          let context := split match cl_context c with Some s => s | None => cwd end in
          let ext := match cl_extension c with Some s => s | None => default_extension end in
          exists o', o = Some o' /\
            main_to dev cap quotes shown context ext (disk context) (cl_command c) o' out (disk' context) /\
            forall p, p <> context -> disk' p = disk p
      end
  end.
