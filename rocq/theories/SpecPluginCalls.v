(** Specification vocabulary for the calls made by the handlers of the interval plugin. *)
From Coq Require Import List Arith Bool.
From Verif Require Import Ord Interval Plugin PluginCalls.
Import ListNotations.

Section Spec.
  Context {Id Node I B : Type}.
  Notation pcall := (pcall Id Node I B).

  (** No call of the list panics. *)
  Definition safe (bad : pcall -> bool) (l : list pcall) : Prop := forall u, In u l -> bad u = false.

  (** The calls of a list that are clones of the clone of an id. *)
  Definition clones (l : list pcall) : list pcall := filter (fun u => match u with QAgain _ _ => true | _ => false end) l.

  (** Neither ids nor intervals are compared, and bounds may be. *)
  Definition compares (u : pcall) : Prop := match u with QIdEq _ _ | QEq _ _ => True | _ => False end.
End Spec.
