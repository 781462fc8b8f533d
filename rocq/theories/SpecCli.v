(** Specification vocabulary for the command line. *)
From Coq Require Import List Bool Arith Ascii Sorted.
From Verif Require Import Ord OrdFacts Prog Path PathOrd Cli.
Import ListNotations.

(** The names a walk meets below its root: not empty, without ['/'], not hidden. *)
Definition visible (n : seg) : Prop := ~ In slash n /\ exists c s, n = c :: s /\ c <> dot.
Definition good_walk (walk : list entry) : Prop := Forall (Forall visible) walk.

(** An extension like "md": at least one character; no dot or ['/'] in it. *)
Definition plain (ext : seg) : Prop := ext <> [] /\ ~ In dot ext /\ ~ In slash ext.

(** The entry in directory [d] named [pre] with the extension. *)
Definition file (r : repo) (d : list seg) (pre : seg) : entry := d ++ [pre ++ dot :: rp_ext r].

(** Without dots. *)
Definition dotless (pre : seg) : Prop := ~ In dot pre.

(** Two strings naming the same path. *)
Definition same_path (p q : path) : Prop := components p = components q.

(** The order of a dictionary: what ends first, or what has the lesser item where they first differ, comes first. *)
Inductive earlier {A} (less : A -> A -> Prop) : list A -> list A -> Prop :=
| EarlierEnd : forall y l, earlier less [] (y :: l)
| EarlierHere : forall x y l m, less x y -> earlier less (x :: l) (y :: m)
| EarlierLater : forall x l m, earlier less l m -> earlier less (x :: l) (x :: m).

(** Names are compared byte by byte, paths of such names name by name. *)
Definition earlier_name : seg -> seg -> Prop := earlier (fun a b => nat_of_ascii a < nat_of_ascii b).
Definition ascending (l : list path) : Prop := StronglySorted (earlier earlier_name) l.

(** Following the components, one never leaves the directory one started from, and ends below it. *)
Fixpoint stays_below (depth : nat) (l : list comp) : Prop :=
  match l with
  | [] => depth > 0
  | Normal _ :: l => stays_below (S depth) l
  | CurDir :: l => stays_below depth l
  | ParentDir :: l => match depth with 0 => False | S depth => stays_below depth l end
  | RootDir :: _ => False
  end.

(** The path leads below [base]: from [base], without going back through it. *)
Definition below (base p : path) : Prop :=
  exists rest, components p = components base ++ rest /\ stays_below 0 rest.

(** A sequence of runs, each on the directory left by the previous one. *)
Inductive session (r : repo) : dir -> list (command * outcome path * list path) -> dir -> Prop :=
| SDone : forall d, session r d [] d
| SRun : forall d c o printed d1 rest d2,
    plot r d c o printed d1 -> session r d1 rest d2 -> session r d ((c, o, printed) :: rest) d2.
