(** Model of plotline-cli: the local repository of documents and the [doc] command.
    Sources: plotline-cli/src/{main,repository,document}.rs. *)
From Coq Require Import String.
From Coq Require Import List Bool Arith Ascii.
From Verif Require Import Ord OrdFacts BTree Graph Tx Lazy Prog SpecProg Path PathOrd.
Import ListNotations.

(** plotline-cli/src/document.rs 21-34: [Document]. *)
Record document := Document { doc_path : path; doc_bytes : bytes }.
#[global] Instance document_id : Identify document path := { id_of := doc_path }.

(** The nodes of the schema (main.rs 70): lazy documents.  Ids are [PathBuf]s, which are compared by
    their components, so for the graph the id of a node is the components of its path. *)
Notation lazy_doc := (@ldoc path document).
#[global] Instance lazy_doc_id : Identify lazy_doc (list comp) := { id_of := fun d => components (ld_id d) }.

(** repository.rs 13-18: [LocalDocumentRepository].  [rp_re] is the regular expression of lines 57-58
    together with the conversion of line 61; here any predicate on names, [CliMain.repo_for] gives it. *)
Record repo := Repo { rp_context : path; rp_ext : seg; rp_re : seg -> bool }.

(** The extensions without characters special to regular expressions: the file names that match are
    those that end with a dot and the extension. *)
Fixpoint ends_in (suffix s : bytes) : bool :=
  match cmp suffix s with
  | Eq => true
  | _ => match s with [] => false | _ :: s => ends_in suffix s end
  end.
Definition plain_repo (context : path) (ext : seg) : repo := Repo context ext (ends_in (dot :: ext)).

(** An entry met by [Walk] (repository.rs 44), which is not part of /repo: its names from the context
    on, empty for the context itself; entries in error (45-55) are left out.  Files and directories are
    both met. *)
Notation entry := (list (list ascii)).

(** [DirEntry::path]: every directory joined with the name. *)
Definition entry_path (r : repo) (e : entry) : path := fold_left (fun p n => join p [n]) e (rp_context r).

(** [DirEntry::file_name]: the whole path when it has none. *)
Definition entry_name (r : repo) (e : entry) : seg :=
  match file_name (entry_path r e) with Some n => n | None => unsplit (entry_path r e) end.

(** repository.rs 56-84. *)
Definition entry_id (r : repo) (e : entry) : option path :=
  if rp_re r (entry_name r e) then strip_prefix (with_extension (entry_path r e) []) (rp_context r) else None.

Fixpoint filter_map {A B} (f : A -> option B) (l : list A) : list B :=
  match l with
  | [] => []
  | x :: l => match f x with Some y => y :: filter_map f l | None => filter_map f l end
  end.

(** repository.rs 43-86: [all], given the entries walked. *)
Definition all (r : repo) (walk : list entry) : list lazy_doc := map ld_build (filter_map (entry_id r) walk).

(** repository.rs 24: the path looked up. *)
Definition lookup_path (r : repo) (i : path) : path := with_extension (join (rp_context r) i) (rp_ext r).

(** What [fs::read] answers ([None]: any error). *)
Definition files := path -> option bytes.

(** repository.rs 23-38: [find_by_id]. *)
Definition find_by_id (r : repo) (fs : files) (i : path) : option document :=
  option_map (Document (lookup_path r i)) (fs (lookup_path r i)).

(** document.rs 36-62: the command line, parsed. *)
Inductive subcommand := CDelete | CList | CSave (content : option bytes).
Record command := Command { cm_id : option bytes; cm_sub : subcommand }.

Notation cli_prog := (prog (list comp) lazy_doc path unit).
Notation cli_world := (world (list comp) lazy_doc path unit).
Notation cli_schema := (schema (list comp) lazy_doc path unit).

Definition id_must_be_set : error := Msg "node id must be set"%string.

(** document.rs 81-88: the id asked for, or an error. *)
Definition with_document_id (c : command) (k : path -> cli_prog) : cli_prog :=
  match cm_id c with
  | Some s => k (split s)
  | None => PRet (RErr id_must_be_set)
  end.

Fixpoint print_all (l : list path) : cli_prog :=
  match l with [] => PRet RUnit | p :: l => PEmit p (print_all l) end.

(** document.rs 80-114: [execute].  Printing (line 99) emits the id; an error of the standard output,
    which panics, is not modelled. *)
Definition execute (c : command) : cli_prog :=
  match cm_sub c with
  | CDelete => with_document_id c (fun i => p_delete (components i) (TxBg None) PRet)
  | CList => PRead (PGraphIter (fun l => print_all (map ld_id l))) PRet
  | CSave content =>
      with_document_id c (fun i =>
        p_save (ld_new (Document i match content with Some s => s | None => [] end)) (TxBg None) PRet)
  end.

(** What is on the disk below the context: the entries a walk meets and what files hold. *)
Record dir := Dir { dr_walk : list entry; dr_files : files }.

(** main.rs 70-71: the schema of a process. *)
Definition started (r : repo) (d : dir) : cli_schema * cli_world := sc_from (g_from_iter (all r (dr_walk d))).

(** main.rs 55-81: [plot r d c o printed d']: the command is run on directory [d] and leaves directory
    [d'].  Nothing in /repo writes to the disk. *)
Definition plot (r : repo) (d : dir) (c : command) (o : outcome path) (printed : list path) (d' : dir) : Prop :=
  exists w', ends (fst (started r d)) (snd (started r d)) (execute c) w' o /\ printed = w_out w' /\ d' = d.
