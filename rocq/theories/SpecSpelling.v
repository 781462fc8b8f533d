(** Specification vocabulary: the strings that name a document. *)
From Coq Require Import List Ascii.
From Verif Require Import Path.
Import ListNotations.

(** What may follow a name of an id, given the names that are left: slashes and dots on their own count for nothing. *)
Inductive goes_on : list seg -> bytes -> Prop :=
| go_end : goes_on [] []
| go_slash : forall ns s, goes_on ns s -> goes_on ns (slash :: s)
| go_dot : forall ns s, goes_on ns s -> goes_on ns (slash :: dot :: s)
| go_name : forall n ns s, goes_on ns s -> goes_on (n :: ns) (slash :: n ++ s).

(** [s] spells the id with these names: it begins with the first of them. *)
Definition spelling (ns : list seg) (s : bytes) : Prop :=
  exists n rest t, ns = n :: rest /\ s = n ++ t /\ goes_on rest t.
