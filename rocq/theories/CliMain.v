(** Model of plotline-cli's [main] from the parsed arguments on.  Source: plotline-cli/src/main.rs 63-81. *)
From Coq Require Import String.
From Coq Require Import List Bool Arith NArith Ascii.
From Verif Require Import Ord OrdFacts BTree Graph Tx Lazy Prog SpecProg Path PathOrd Cli Utf8 Regex.
Import ListNotations.

(** repository.rs 57: the pattern, with the extension as it was given (a [String], line 18: its bytes are those of characters). *)
Definition pattern (ext : seg) : text := #"\"%char :: #dot :: lossy ext ++ [#"$"%char].

(** repository.rs 57-61: a repository with its regular expression, or a panic (line 58) raised when
    [all] is called (main.rs 70), before the command is looked at.  Names are compared as characters
    (line 61). *)
Definition repo_for (context : path) (ext : seg) : parsed repo :=
  match parse (pattern ext) with
  | POk r => POk (Repo context ext (fun n => is_match r (lossy n)))
  | PInvalid => PInvalid
  | PUnsupported => PUnsupported
  end.

(** main.rs 65-80: a run of the command line.  With a pattern that is not modelled, no run is. *)
Definition main_run (context : path) (ext : seg) (d : dir) (c : command) (o : outcome path) (printed : list path) (d' : dir) : Prop :=
  match repo_for context ext with
  | POk r => plot r d c o printed d'
  | PInvalid => o = OPanic /\ printed = [] /\ d' = d
  | PUnsupported => False
  end.

(** plotline/src/schema/error.rs 8-14: the text of an [Error] (derived by thiserror). *)
Definition display (e : error) : string :=
  match e with Noop => "nothing to apply"%string | Msg s => s end.

(** main.rs 56 and 79: what becomes of a process when [main] returns: exit status and, for an error, the
    text left on the standard error, [Error: ] and the error ([Debug] of an [anyhow::Error] without a
    cause).  A panic exits with 101; its text is not modelled.  [None]: the process does not end. *)
Definition exit_of (o : outcome path) : option (nat * option string) :=
  match o with
  | ORet (RErr e) => Some (1, Some (append "Error: " (display e)))
  | ORet _ => Some (0, None)
  | OPanic => Some (101, None)
  | OHang | OStuck => None
  end.

Local Open Scope N_scope.
Local Open Scope char_scope.

(** [char::escape_unicode] (std): hexadecimal digits without leading zeros. *)
Definition hex_digit (upper : bool) (n : N) : N := if N.ltb n 10 then 48 + n else (if upper then 55 else 87) + n.
Fixpoint hex (fuel : nat) (n : N) : list N :=
  match fuel with
  | O => []
  | S fuel => if N.ltb n 16 then [hex_digit false n] else hex fuel (n / 16) ++ [hex_digit false (n mod 16)]
  end.
Definition escape_unicode (c : char) : list N := #"\" :: #"u" :: #"{" :: hex 8 c ++ [#"}"].

(** [char::escape_debug] (std) of a character with the bytes [p]; whether a single quote is escaped depends on the
    version of std.  [shown]: which of the characters that are not ASCII are printable and do not extend the one
    before them, by the tables of std (not modelled: any). *)
Definition debug_char (quotes : bool) (shown : char -> bool) (p : list N) (c : char) : list N :=
  let esc e := [#"\"; #e] in
  if N.eqb c 0 then esc "0"
  else if N.eqb c 9 then esc "t"
  else if N.eqb c 10 then esc "n"
  else if N.eqb c 13 then esc "r"
  else if N.eqb c 34 then esc """"
  else if N.eqb c 39 then if quotes then esc "'" else p
  else if N.eqb c 92 then esc "\"
  else if if N.ltb c 128 then N.ltb c 32 || N.eqb c 127 else negb (shown c) then escape_unicode c
  else p.

(** [Debug] of a [PathBuf] (std, [Utf8Chunks::debug]): its text, escaped, between double quotes; bytes that are no
    character are written by their values. *)
Definition debug_piece (quotes : bool) (shown : char -> bool) (x : piece) : list N :=
  match x with
  | Char p c => debug_char quotes shown p c
  | Broken p => flat_map (fun b => [#"\"; #"x"; hex_digit true (b / 16); hex_digit true (b mod 16)]) p
  end.
Definition debug (quotes : bool) (shown : char -> bool) (s : bytes) : bytes :=
  map ascii_of_N (#"""" :: flat_map (debug_piece quotes shown) (decode (map N_of_ascii s)) ++ [#""""]).

(** document.rs 94-100: what listing writes on the standard output. *)
Definition stdout (quotes : bool) (shown : char -> bool) (printed : list path) : bytes :=
  flat_map (fun i => debug quotes shown (unsplit i) ++ [newline]) printed.

(** main.rs 55-81: a run, with the text it writes on the standard output. *)
Definition main_output (quotes : bool) (shown : char -> bool) (context : path) (ext : seg) (d : dir) (c : command) (o : outcome path)
    (text : bytes) (d' : dir) : Prop :=
  exists printed, main_run context ext d c o printed d' /\ text = stdout quotes shown printed.
