(** What is logged (crate [tracing], at the level of main.rs 62-66: warnings and errors) by the command line and by lazy
    documents.  Sources: plotline-cli/src/{main,repository}.rs, plotline/src/document/lazy.rs,
    plotline/src/schema/ops/delete.rs.  The order is that of the calls; texts are given by what they are about. *)
From Coq Require Import String.
From Coq Require Import List Bool Arith Ascii.
From Verif Require Import Ord OrdFacts BTree Graph Tx Lazy Prog Path PathOrd Cli Regex CliMain.
Import ListNotations.

(** ** The command line *)

(** What [Walk] yields (repository.rs 44-45): an entry, or an error, of which only the text is used. *)
Inductive walked := Met (e : entry) | Unmet (err : bytes).

Inductive logged :=
| LogWalk (err : bytes)            (* "walking base directory" *)
| LogStrip (p : path)              (* "stripping context from path" *)
| LogAbsent (i : path).            (* "node does not exist" *)

(** repository.rs 45-55: the entries that are kept. *)
Definition met (ws : list walked) : list entry := filter_map (fun x => match x with Met e => Some e | Unmet _ => None end) ws.

(** repository.rs 45-84: what is logged about one item on its way through the iterator. *)
Definition item_log (r : repo) (x : walked) : list logged :=
  match x with
  | Unmet err => [LogWalk err]                                                       (* 46-52 *)
  | Met e =>
      if rp_re r (entry_name r e) then                                               (* 56-66 *)
        match strip_prefix (with_extension (entry_path r e) []) (rp_context r) with  (* 68-72 *)
        | Some _ => []
        | None => [LogStrip (entry_path r e)]                                        (* 74-81 *)
        end
      else []
  end.

(** repository.rs 43-86, driven to its end by main.rs 70. *)
Definition all_log (r : repo) (ws : list walked) : list logged := flat_map (item_log r) ws.

(** delete.rs 34-37 and document.rs 90-93: a deletion looks the node up on its fresh context. *)
Definition execute_log (w : cli_world) (c : command) : list logged :=
  match cm_sub c, cm_id c with
  | CDelete, Some s =>
      let b := length (w_heap w) in
      match ctx_get (w_heap w ++ [[]]) (w_graph w) (CRoot b None) (components (split s)) with
      | Some _ => []
      | None => [LogAbsent (split s)]
      end
  | _, _ => []
  end.

(** main.rs 55-81.  A pattern that is not valid panics (repository.rs 58) before the first item is asked for. *)
Definition main_log (context : path) (ext : seg) (ws : list walked) (fs : files) (c : command) : list logged :=
  match repo_for context ext with
  | POk r => all_log r ws ++ execute_log (snd (started r (Dir (met ws) fs))) c
  | PInvalid | PUnsupported => []
  end.

(** ** Lazy documents *)
Section Lazy.
  Context {Id Doc : Type} `{Identify Doc Id}.
  Notation ldoc := (ldoc Id Doc).
  Notation lstate := (lstate Id Doc).
  Notation label := (label Id Doc).

  Inductive lazy_log :=
  | LogFind (i : Id)               (* repository.rs 27-35: "finding document by id" *)
  | LogNotFound (i : Id).          (* lazy.rs 68: "document not found" *)

  (** What one step of a call on a document holding [x] logs, the repository being a [LocalDocumentRepository]: it logs
      every failure to find a document. *)
  Definition deref_log (x : ldoc) (p : pc Doc) (ans : option Doc) : option lazy_log :=
    match p with
    | AtFind => match ans with None => Some (LogFind (ld_id x)) | Some _ => None end
    | AtSet _ => match ld_cell x with Some _ => Some (LogNotFound (ld_id x)) | None => None end
    | _ => None
    end.

  (** With the number of the call that logs. *)
  Definition l_log (st : lstate) (l : label) : list (nat * lazy_log) :=
    match l with
    | LStep c ans =>
        match nth_error (l_calls st) c with
        | Some (Call d p) =>
            match nth_error (l_docs st) d with
            | Some x => match deref_log x p ans with Some g => [(c, g)] | None => [] end
            | None => []
            end
        | None => []
        end
    | _ => []
    end.

  Fixpoint l_logs (st : lstate) (ls : list label) : list (nat * lazy_log) :=
    match ls with
    | [] => []
    | l :: ls => l_log st l ++ l_logs (fst (l_step st l)) ls
    end.
End Lazy.
Arguments lazy_log : clear implicits.
