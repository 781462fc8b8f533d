(** Model of the parsing of plotline-cli's arguments.  Sources: plotline-cli/src/main.rs 14-56,
    lib.rs 7-10, document.rs 36-62: the attributes the parser is derived from.

    The parser is clap's (4.5, not part of /repo); these definitions follow its documentation and its
    [Parser::get_matches_with].  A command line that is not accepted -- an error, or a request for help or
    for the version -- ends the process there, with nothing else done; these ends are not told apart. *)
From Coq Require Import String.
From Coq Require Import List Bool Arith NArith Ascii.
From Verif Require Import Ord OrdFacts Prog Path Cli Utf8 Regex CliMain.
Import ListNotations.

Definition lit (s : string) : bytes := list_ascii_of_string s.
Definition bytes_eqb (a b : bytes) : bool := match cmp a b with Eq => true | _ => false end.

(** [OsStr::to_str]: are these bytes a string? *)
Definition is_utf8 (s : bytes) : bool :=
  forallb (fun x => match x with Char _ _ => true | Broken _ => false end) (decode (map N_of_ascii s)).

(** main.rs 33-51: the options, which are [global]: they may be given to every subcommand. *)
Inductive option_name := OContext | OExtension.

(** main.rs 38-39 and 48-49: [long], [short = 'C'] and [short]. *)
Definition find_long (s : bytes) : option option_name :=
  if bytes_eqb s (lit "context") then Some OContext
  else if bytes_eqb s (lit "extension") then Some OExtension
  else None.
Definition find_short (c : ascii) : option option_name :=
  if Ascii.eqb c "C" then Some OContext
  else if Ascii.eqb c "e" then Some OExtension
  else None.

(** How an argument looks like ([clap_lex::ParsedArg]). *)
Inductive looks :=
| LEscape                                          (* -- *)
| LLong (name : bytes) (value : option bytes)      (* --name or --name=value *)
| LShort (c : ascii) (rest : bytes)                (* -c, -cvalue or -c=value *)
| LPlain.                                          (* anything else, also - alone *)

(** [split_once("=")]. *)
Fixpoint split_equals (s : bytes) : bytes * option bytes :=
  match s with
  | [] => ([], None)
  | c :: s =>
      if Ascii.eqb c "=" then ([], Some s)
      else let (a, b) := split_equals s in (c :: a, b)
  end.

(** [ParsedArg::is_escape], [to_long] and [to_short]. *)
Definition look (a : bytes) : looks :=
  match a with
  | c :: d :: rest =>
      if Ascii.eqb c "-" then
        if Ascii.eqb d "-" then
          match rest with
          | [] => LEscape
          | _ => let (name, value) := split_equals rest in LLong name value
          end
        else LShort d rest
      else LPlain
  | _ => LPlain
  end.

(** The value attached to a short option ([Parser::parse_short_arg]). *)
Definition attached (rest : bytes) : option bytes :=
  match rest with
  | [] => None
  | c :: v => if Ascii.eqb c "=" then Some v else Some rest
  end.

(** What has been given to a command so far. *)
Record given := Given { gv_context : option bytes; gv_extension : option bytes; gv_positional : option bytes }.
Definition nothing : given := Given None None None.

(** A value for an option: at most once for a command ([ArgAction::Set]); a [PathBuf] (main.rs 41) is not
    empty, a [String] (main.rs 51) is characters. *)
Definition set_option (o : option_name) (v : bytes) (g : given) : option given :=
  match o with
  | OContext =>
      match gv_context g, v with
      | None, _ :: _ => Some (Given (Some v) (gv_extension g) (gv_positional g))
      | _, _ => None
      end
  | OExtension =>
      match gv_extension g with
      | None => if is_utf8 v then Some (Given (gv_context g) (Some v) (gv_positional g)) else None
      | Some _ => None
      end
  end.

(** The subcommands of a command, whether they are preferred to values
    ([subcommand_precedence_over_arg]), whether it has a positional argument. *)
Record syntax := Syntax { sy_subcommands : list bytes; sy_precedence : bool; sy_positional : bool }.

(** A positional argument, an optional [String] (document.rs 39 and 58). *)
Definition set_positional (sy : syntax) (v : bytes) (g : given) : option given :=
  if sy_positional sy && is_utf8 v then
    match gv_positional g with
    | None => Some (Given (gv_context g) (gv_extension g) (Some v))
    | Some _ => None
    end
  else None.

(** After a [--], positional arguments only. *)
Fixpoint trailing (sy : syntax) (g : given) (args : list bytes) : option given :=
  match args with
  | [] => Some g
  | a :: args => match set_positional sy a g with Some g => trailing sy g args | None => None end
  end.

(** [Parser::get_matches_with], for one command: up to its end or to the name of a subcommand, which is
    returned with what follows.  [pending] is an option waiting for its value; every option takes
    exactly one ([num_args] is not given, so [default_missing_value], main.rs 36 and 46, has no
    effect). *)
Fixpoint matches (sy : syntax) (g : given) (pending : option option_name) (args : list bytes) :
    option (given * option (bytes * list bytes)) :=
  match args with
  | [] => match pending with None => Some (g, None) | Some _ => None end
  | a :: args =>
      if (sy_precedence sy || match pending with None => true | Some _ => false end) &&
         existsb (bytes_eqb a) (sy_subcommands sy)
      then match pending with None => Some (g, Some (a, args)) | Some _ => None end
      else match look a, pending with
      | LPlain, Some o => match set_option o a g with Some g => matches sy g None args | None => None end
      | LPlain, None => match set_positional sy a g with Some g => matches sy g None args | None => None end
      | _, Some _ => None                                (* its value is missing *)
      | LEscape, None => option_map (fun g => (g, None)) (trailing sy g args)
      | LLong name value, None =>
          match find_long name, value with
          | None, _ => None
          | Some o, Some v => match set_option o v g with Some g => matches sy g None args | None => None end
          | Some o, None => matches sy g (Some o) args
          end
      | LShort c rest, None =>
          match find_short c, attached rest with
          | None, _ => None
          | Some o, Some v => match set_option o v g with Some g => matches sy g None args | None => None end
          | Some o, None => matches sy g (Some o) args
          end
      end
  end.

(** lib.rs 7-10 and main.rs 30-31; every command with subcommands has [help]. *)
Definition root_syntax : syntax := Syntax [lit "doc"; lit "help"] false false.

(** document.rs 42-62: the attributes of the enumeration (line 43) are those of the command it belongs to. *)
Definition doc_syntax : syntax := Syntax [lit "delete"; lit "list"; lit "ls"; lit "save"; lit "help"] true true.

(** document.rs 46, 48-49, 51 and 36-40. *)
Definition leaf_syntax (positional : bool) : syntax := Syntax [] false positional.

(** The arguments, parsed: main.rs 29-52. *)
Record cli := Cli { cl_context : option bytes; cl_extension : option bytes; cl_command : command }.

(** Global options are those of the innermost command they were given to ([propagate_globals]). *)
Definition innermost (a b : option bytes) : option bytes := match b with Some _ => b | None => a end.

(** document.rs 44-53. *)
Definition parse_action (name : bytes) (args : list bytes) : option (given * subcommand) :=
  let leaf positional (k : given -> subcommand) :=
    match matches (leaf_syntax positional) nothing None args with
    | Some (g, None) => Some (g, k g)
    | _ => None
    end in
  if bytes_eqb name (lit "delete") then leaf false (fun _ => CDelete)
  else if bytes_eqb name (lit "list") || bytes_eqb name (lit "ls") then leaf false (fun _ => CList)
  else if bytes_eqb name (lit "save") then leaf true (fun g => CSave (gv_positional g))
  else None.

(** main.rs 56: [Cli::parse]; subcommands are required.  [None]: not accepted. *)
Definition parse_args (args : list bytes) : option cli :=
  match matches root_syntax nothing None args with
  | Some (g, Some (name, args)) =>
      if bytes_eqb name (lit "doc") then
        match matches doc_syntax nothing None args with
        | Some (h, Some (name, args)) =>
            match parse_action name args with
            | Some (i, s) =>
                Some (Cli (innermost (innermost (gv_context g) (gv_context h)) (gv_context i))
                          (innermost (innermost (gv_extension g) (gv_extension h)) (gv_extension i))
                          (Command (gv_positional h) s))
            | None => None
            end
        | _ => None
        end
      else None
  | _ => None
  end.

(** main.rs 14: [DEFAULT_EXTENSION]. *)
Definition default_extension : bytes := lit "md".

(** main.rs 16-20 and 35: [DEFAULT_CONTEXT]: the working directory, which the parser is built with whether or
    not it is needed. *)
Definition default_context (cwd : option bytes) : option bytes := cwd.

(** main.rs 55-81: the process run in working directory [cwd] ([None]: there is none, which panics) with
    arguments [args]; [None] in the place of an outcome: the arguments were not accepted.  [disk]: what is
    at every path, as seen from the working directory.  See [main_output] for the other parameters.
    Simplification: as everywhere, the context [-] is not read as the standard input. *)
Definition process (quotes : bool) (shown : char -> bool) (cwd : option bytes) (args : list bytes) (disk : path -> dir)
    (o : option (outcome path)) (text : bytes) (disk' : path -> dir) : Prop :=
  match default_context cwd with
  | None => o = Some OPanic /\ text = [] /\ disk' = disk
  | Some cwd =>
      match parse_args args with
      | None => o = None /\ disk' = disk
      | Some c =>
          let context := split match cl_context c with Some s => s | None => cwd end in
          let ext := match cl_extension c with Some s => s | None => default_extension end in
          exists o', o = Some o' /\
            main_output quotes shown context ext (disk context) (cl_command c) o' text (disk' context) /\
            forall p, p <> context -> disk' p = disk p
      end
  end.
