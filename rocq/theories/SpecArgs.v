(** Specification vocabulary for command lines: a grammar of what may be written and what it means. *)
From Coq Require Import String.
From Coq Require Import List Bool Arith NArith Ascii.
From Verif Require Import Ord Prog Path Cli SpecCli Utf8 SpecUtf8 Args.
Import ListNotations.

(** Bytes that are characters. *)
Definition text (s : bytes) : Prop := exists l, spells s l.

(** A word that is no option: it does not begin with a dash, or is one. *)
Definition word (s : bytes) : Prop := s = lit "-" \/ forall r, s <> lit "-" ++ r.

(** The ways to give the value [v] to an option called [long] and [short]; [free]: the words that may be
    a value on their own. *)
Inductive gives (free : bytes -> Prop) (long short : bytes) (v : bytes) : list bytes -> Prop :=
| gs_long : free v -> gives free long short v [lit "--" ++ long; v]
| gs_long_eq : gives free long short v [lit "--" ++ long ++ lit "=" ++ v]
| gs_short : free v -> gives free long short v [lit "-" ++ short; v]
| gs_short_eq : gives free long short v [lit "-" ++ short ++ lit "=" ++ v]
| gs_short_glued : v <> [] -> (forall r, v <> lit "=" ++ r) -> gives free long short v [lit "-" ++ short ++ v].

(** What is written after the name of a command: its options, at most once each, and its positional
    argument, if any, in any order.  [free]: as above; [positional]: the words that may be a positional
    argument. *)
Inductive written (free positional : bytes -> Prop) : option bytes -> option bytes -> option bytes -> list bytes -> Prop :=
| wr_nothing : written free positional None None None []
| wr_context : forall v e p ws us, written free positional None e p ws -> v <> [] -> gives free (lit "context") (lit "C") v us ->
    written free positional (Some v) e p (ws ++ us)
| wr_extension : forall v c p ws us, written free positional c None p ws -> text v -> gives free (lit "extension") (lit "e") v us ->
    written free positional c (Some v) p (ws ++ us)
| wr_positional : forall v c e ws, written free positional c e None ws -> text v -> positional v ->
    written free positional c e (Some v) (ws ++ [v]).

(** The same, of a command without subcommands; after two dashes everything is positional. *)
Inductive written_last (positional : Prop) : option bytes -> option bytes -> option bytes -> list bytes -> Prop :=
| wl_plain : forall c e p ws, written word (fun v => positional /\ word v) c e p ws -> written_last positional c e p ws
| wl_dashes : forall c e p ws, written word (fun v => positional /\ word v) c e p ws ->
    written_last positional c e p (ws ++ [lit "--"])
| wl_value : forall c e v ws, written word (fun v => positional /\ word v) c e None ws -> positional -> text v ->
    written_last positional c e (Some v) (ws ++ [lit "--"; v]).

(** Words that are taken for subcommands of [doc]. *)
Definition reserved : list bytes := map lit ["delete"; "list"; "ls"; "save"; "help"]%string.
Definition id_word (s : bytes) : Prop := word s /\ ~ In s reserved.

(** Actions. *)
Inductive action : bytes -> option bytes -> option bytes -> list bytes -> subcommand -> Prop :=
| ac_delete : forall c e ws, written_last False c e None ws -> action (lit "delete") c e ws CDelete
| ac_list : forall c e ws, written_last False c e None ws -> action (lit "list") c e ws CList
| ac_ls : forall c e ws, written_last False c e None ws -> action (lit "ls") c e ws CList
| ac_save : forall c e p ws, written_last True c e p ws -> action (lit "save") c e ws (CSave p).

(** The last of these that there is. *)
Definition last_of (l : list (option bytes)) (v : option bytes) : Prop :=
  match v with
  | Some _ => exists a b, l = a ++ v :: b /\ Forall (eq None) b
  | None => Forall (eq None) l
  end.

(** Command lines. *)
Inductive command_line : list bytes -> cli -> Prop :=
| cl_line : forall c1 e1 w1 c2 e2 i w2 name c3 e3 w3 sub c e,
    written word (fun _ => False) c1 e1 None w1 ->
    written id_word id_word c2 e2 i w2 ->
    action name c3 e3 w3 sub ->
    last_of [c1; c2; c3] c -> last_of [e1; e2; e3] e ->
    command_line (w1 ++ [lit "doc"] ++ w2 ++ [name] ++ w3) (Cli c e (Command i sub)).

(** Paths that can be written as the id of a document: their names are texts, and the first does not begin with
    a dash, unless it is all there is. *)
Definition nameable (p : path) : Prop :=
  (forall n, In (Normal n) (components p) -> text n) /\
  (forall n r, components p = Normal (lit "-" ++ n) :: r -> n = [] /\ r = []).
