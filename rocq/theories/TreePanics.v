(** Panics of the code of users while the interval plugin writes its search tree, by the calls that panic.
    Source: plugins/interval/src/plugin.rs 83-85, 118-120, and what TreeCalls.v cites. *)
From Coq Require Import List Arith Bool.
From Verif Require Import Ord Interval TreeCalls Plugin.
Import ListNotations.

(** [bad u]: the call [u] of user code panics.  An insertion, or a deletion, panics iff it makes such a call: up to the first of them
    it is as if there were none.  Simplification: clones of ids do not panic here, and a comparison of two [NodeInterval]s (plugin.rs 22) is
    one call; PluginCalls.v has both. *)
Definition panics_at {A B : Type} `{OrdT B} `{Interval A B} `{PartialEq A} (bad : ucall A B -> bool) : Panics A B :=
  {| insert_panics := fun t x => existsb bad (fst (c_insert t x));
     delete_panics := fun t x => existsb bad (fst (c_delete (2 + count t) t x)) |}.
