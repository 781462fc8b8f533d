(** Specification vocabulary for what a run of the command line shows to its caller. *)
From Coq Require Import String.
From Coq Require Import List Bool Arith NArith Ascii.
From Verif Require Import Ord Prog Path Cli SpecCli Utf8 SpecUtf8 Regex SpecRegex.
Import ListNotations.

(** How a command has to end: [ids] are the documents there are, [valid] says whether the extension
    makes a regular expression. *)
Inductive ends_with_status (valid : Prop) (ids : list path) : command -> nat -> option string -> Prop :=
| es_panic : forall c, ~ valid -> ends_with_status valid ids c 101 None
| es_list : forall i, valid -> ends_with_status valid ids (Command i CList) 0 None
| es_save : forall i content, valid -> ends_with_status valid ids (Command (Some i) (CSave content)) 0 None
| es_save_what : forall content, valid ->
    ends_with_status valid ids (Command None (CSave content)) 1 (Some "Error: node id must be set"%string)
| es_delete : forall i j, valid -> In j ids -> same_path j (split i) ->
    ends_with_status valid ids (Command (Some i) CDelete) 0 None
| es_delete_none : forall i, valid -> (forall j, In j ids -> ~ same_path j (split i)) ->
    ends_with_status valid ids (Command (Some i) CDelete) 1 (Some "Error: nothing to apply"%string)
| es_delete_what : valid ->
    ends_with_status valid ids (Command None CDelete) 1 (Some "Error: node id must be set"%string).

(** A text made of these lines, each ended by a newline. *)
Definition has_lines (text : bytes) (lines : list bytes) : Prop :=
  text = flat_map (fun l => l ++ [newline]) lines /\ Forall (fun l => ~ In newline l) lines.

(** Neither a control character nor a delete. *)
Definition printable (c : ascii) : Prop := 32 <= nat_of_ascii c /\ nat_of_ascii c <> 127.

(** ** String literals, as in the Rust reference *)
Local Open Scope char_scope.

(** [e] after a backslash stands for [c]. *)
Inductive short_escape : ascii -> char -> Prop :=
| se_nul : short_escape "0" 0
| se_tab : short_escape "t" 9
| se_line : short_escape "n" 10
| se_return : short_escape "r" 13
| se_double : short_escape """" #""""
| se_single : short_escape "'" #"'"
| se_backslash : short_escape "\" #"\".

(** The number written by these hexadecimal digits, without a leading zero. *)
Definition digits : list N := map N_of_ascii (list_ascii_of_string "0123456789abcdef").
Inductive hexadecimal : list N -> N -> Prop :=
| hx_one : forall d n, nth_error digits n = Some d -> hexadecimal [d] (N.of_nat n)
| hx_more : forall ds n d k, hexadecimal ds n -> n <> 0%N -> nth_error digits k = Some d -> hexadecimal (ds ++ [d]) (16 * n + N.of_nat k).

(** The byte written by two upper-case hexadecimal digits. *)
Definition capitals : list N := map N_of_ascii (list_ascii_of_string "0123456789ABCDEF").
Inductive byte_escape : N -> list N -> Prop :=
| be : forall h l i j, nth_error capitals i = Some h -> nth_error capitals j = Some l ->
    byte_escape (16 * N.of_nat i + N.of_nat j) [#"\"; #"x"; h; l].

(** Characters that are written as they are: ASCII ones that are no control characters, and others by a table. *)
Definition plain (shown : char -> bool) (c : char) : Prop := if (c <? 128)%N then (32 <= c < 127)%N else shown c = true.

(** A character of a string, as it stands in a literal; nothing is escaped that need not be, but for single quotes, and the
    long form is for characters that have no short one.  Bytes that are no character are given one by one. *)
Inductive in_literal (shown : char -> bool) : piece -> list N -> Prop :=
| il_plain : forall c, plain shown c -> c <> #"""" -> c <> #"\" -> in_literal shown (Char (encode c) c) (encode c)
| il_short : forall e c, short_escape e c -> in_literal shown (Char (encode c) c) [#"\"; #e]
| il_long : forall c ds, ~ plain shown c -> (forall e, ~ short_escape e c) -> hexadecimal ds c ->
    in_literal shown (Char (encode c) c) (#"\" :: #"u" :: #"{" :: ds ++ [#"}"])
| il_broken : forall p parts, Forall2 byte_escape p parts -> in_literal shown (Broken p) (concat parts).

(** A literal of the bytes [s]. *)
Definition literal (shown : char -> bool) (s t : bytes) : Prop :=
  exists ps parts, reads_as (map N_of_ascii s) ps /\ Forall2 (in_literal shown) ps parts /\
    map N_of_ascii t = #"""" :: concat parts ++ [#""""].
