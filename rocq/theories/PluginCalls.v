(** The handlers of the interval plugin, by the calls they make of the code of users: of the extractor, of [Identify::id], of clones and
    comparisons of ids, of the intervals and their bounds; and panics of that code.
    Source: plugins/interval/src/plugin.rs 16-48, 64-89, 99-124, and what TreeCalls.v cites. *)
From Coq Require Import List Arith Bool.
From Verif Require Import Ord OrdFacts BTree Graph Tx Interval TreeCalls Plugin SpecPlugins.
Import ListNotations.

Section Calls.
  Context {Id Node I B : Type} `{OrdT Id} `{Identify Node Id} `{OrdT B} `{Interval I B} `{PartialEq I}.
  Notation ni := (node_interval Id I).
  Notation stree := (tree ni B).
  Notation ucall := (ucall ni B).

  (** Calls of user code.  [QCmp a b] is any of [a < b], [a <= b] and [a > b].  A clone of a clone may panic though the clone did
      not.  Simplification: destructors are not among them. *)
  Inductive pcall :=
  | QAll (n : Node)                                (* [Extractor::all] *)
  | QId (n : Node)                                 (* [Identify::id] *)
  | QClone (i : Id)                                (* [Clone::clone] of the id of the node *)
  | QAgain (i : Id) (v : I)                        (* [Clone::clone] of that clone, for the interval [v] *)
  | QIdEq (i j : Id)                               (* [i == j], of ids *)
  | QEq (v u : I)                                  (* [v == u], of intervals *)
  | QLo (v : I)
  | QHi (v : I)
  | QCmp (a b : B).

  (** plugin.rs 21-23, 32-38: the calls behind a call of [NodeInterval]s.  [PartialEq::eq] compares the intervals only if the ids are
      equal.  The search trees visit nothing while written. *)
  Definition behind (u : ucall) : list pcall :=
    match u with
    | ULo x => [QLo (ni_iv x)]
    | UHi x => [QHi (ni_iv x)]
    | UCmp a b => [QCmp a b]
    | UEq x y => QIdEq (ni_id x) (ni_id y) :: (if eqb (ni_id x) (ni_id y) then [QEq (ni_iv x) (ni_iv y)] else [])
    | UVisit _ => []
    end.

  (** The calls up to the first that panics. *)
  Fixpoint up_to (bad : pcall -> bool) (l : list pcall) : list pcall :=
    match l with
    | [] => []
    | u :: l => u :: (if bad u then [] else up_to bad l)
    end.

  (** plugin.rs 71-77, 106-112: [all] of the target, and a clone of its id for the closure of [map]. *)
  Definition reading (n : Node) : list pcall := [QAll n; QId n; QClone (id_of n)].

  (** plugin.rs 73-76 and 83-85, 108-111 and 118-120: the iterator is lazy, hence each [NodeInterval] is made, with a clone of the id, just
      before it is written by the call [f] of the tree.  With what is made of the tree; [None]: a call never returns. *)
  Fixpoint writing (f : ni -> tree_call ni) (i : Id) (t : stree) (l : list I) : list pcall * option stree :=
    match l with
    | [] => ([], Some t)
    | v :: l =>
        let '(us, (o, _)) := tree_calls (2 + count t) t (f (NI i v)) in
        match o with
        | Some t' => let (rest, o') := writing f i t' l in (QAgain i v :: flat_map behind us ++ rest, o')
        | None => (QAgain i v :: flat_map behind us, None)
        end
    end.

  (** plugin.rs 70-86, 105-121: a handler, for a search tree that is there, or not ([None]: lost, or not installed).  The calls it makes and
      what becomes of the tree: it is lost if a call panics while it is written (tree.rs 30, 48: poisoned, its root taken). *)
  Definition handler (bad : pcall -> bool) (f : ni -> tree_call ni) (all : Node -> list I) (n : Node) (x : option stree) :
      list pcall * stage (option stree) :=
    let '(ws, o) := match x with Some t => writing f (id_of n) t (all n) | None => ([], Some Leaf) end in
    if existsb bad (reading n) then (up_to bad (reading n), Broken x)
    else if existsb bad ws then (reading n ++ up_to bad ws, Broken None)
    else (reading n ++ ws, match x, o with None, _ => Done None | Some _, Some t => Done (Some t) | Some _, None => Endless end).

  (** The same panics, for Plugin.v. *)
  Definition plugin_panics (bad : pcall -> bool) : Panics ni B :=
    {| insert_panics := fun t x => existsb bad (QAgain (ni_id x) (ni_iv x) :: flat_map behind (fst (c_insert t x)));
       delete_panics := fun t x => existsb bad (QAgain (ni_id x) (ni_iv x) :: flat_map behind (fst (c_delete (2 + count t) t x))) |}.
  Definition plugin_reads (bad : pcall -> bool) (all : Node -> list I) (n : Node) : option (list I) :=
    if existsb bad (reading n) then None else Some (all n).
End Calls.
Arguments pcall : clear implicits.
