(** Specification vocabulary for what is logged. *)
From Coq Require Import List Bool Arith Ascii.
From Verif Require Import Ord Graph Prog Tx Lazy SpecLazy Path Cli SpecCli Regex SpecRegex Logs.
Import ListNotations.

(** A name with an extension: something, a dot, something without dots. *)
Definition extended (n : seg) : Prop := exists a e, n = a ++ dot :: e /\ a <> [] /\ ~ In dot e.

(** The base directory is itself named like a document. *)
Definition base_like_document (context : path) (p : re) : Prop :=
  exists n, file_name context = Some n /\ found p n /\ extended n.

(** What each item of the walk has to leave in the log. *)
Inductive noted (context : path) (p : re) : walked -> list logged -> Prop :=
| nt_error : forall err, noted context p (Unmet err) [LogWalk err]
| nt_base : base_like_document context p -> noted context p (Met []) [LogStrip context]
| nt_base_quiet : ~ base_like_document context p -> noted context p (Met []) []
| nt_below : forall n e, noted context p (Met (n :: e)) [].

(** What the command itself has to leave, given how it ends. *)
Inductive warned : command -> outcome path -> list logged -> Prop :=
| wn_absent : forall i, warned (Command (Some i) CDelete) (ORet (RErr Noop)) [LogAbsent (split i)]
| wn_not : forall c o, o <> ORet (RErr Noop) -> warned c o [].

Section Lazy.
  Context {Id Doc : Type} `{Identify Doc Id}.
  (** What call [c] logs in a schedule. *)
  Definition logs_of (c : nat) (ls : list (label Id Doc)) : list (lazy_log Id) :=
    map snd (filter (fun x => Nat.eqb (fst x) c) (l_logs l_init ls)).
  Definition id_is (ls : list (label Id Doc)) (d : nat) (i : Id) : Prop :=
    exists x, nth_error (l_docs (l_after ls)) d = Some x /\ ld_id x = i.
  (** Every access made after [ls] to the document answers [v]. *)
  Definition has_content (ls : list (label Id Doc)) (d : nat) (v : Doc) : Prop :=
    forall ls2 c r, calls_made ls <= c -> returned (ls ++ ls2) c d r -> r = Some v.
End Lazy.
