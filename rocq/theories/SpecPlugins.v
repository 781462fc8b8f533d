(** Specification vocabulary for several interval plugins on one schema, and for their panics. *)
From Coq Require Import List Bool Arith.
From Verif Require Import Ord BTree Graph Tx SpecTx Interval SpecInterval Prog SpecProg Plugin SpecPlugin.
Import ListNotations.

(** A plugin, by the types of its extractor and of its search tree. *)
Record plug := Plug { pg_extr : type_id; pg_tree : type_id }.

Section Spec.
  Context {Id Node I B O W : Type} `{OrdT Id} `{Identify Node Id} `{OrdT B} `{Interval I B} `{PartialEq I} {FP : Panics (node_interval Id I) B}.
  Notation ni := (node_interval Id I).
  Notation stree := (tree ni B).
  Notation value := (value Id I W).
  Notation resource := (resource Id Node I B O).
  Notation world := (world Id Node value resource).
  Notation schema := (schema Id Node value resource).
  Notation script := (@script Id Node I W).

  (** The search trees, by type; [None]: there is none, or it is lost. *)
  Definition trees := type_id -> option stree.
  Definition put (ty : type_id) (o : option stree) (x : trees) : trees := fun u => if Nat.eqb u ty then o else x u.

  (** The extractors, by type; [None]: panics. *)
  Definition extractors := type_id -> Node -> option (list I).

  (** The plugins [ps] are installed, in this order, and there are no other triggers of the same schedules; the search trees are [x]; no
      resource is being accessed. *)
  Record fitted (ps : list plug) (ex : extractors) (sc : schema) (w : world) (x : trees) : Prop := {
    ft_before_save : scheduled sc BeforeSave = [];
    ft_after_save : scheduled sc AfterSave = map (fun p => on_save (pg_extr p) (pg_tree p)) ps;
    ft_before_delete : scheduled sc BeforeDelete = [];
    ft_after_delete : scheduled sc AfterDelete = map (fun p => on_delete (pg_extr p) (pg_tree p)) ps;
    ft_extr : forall p, In p ps -> reads w (res_from sc (pg_extr p)) = Some (DRes (pg_extr p) (RExtr (ex (pg_extr p))));
    ft_tree : forall p, In p ps -> reads w (res_from sc (pg_tree p)) = option_map (fun t => DRes (pg_tree p) (RTree t)) (x (pg_tree p));
    ft_idle : forall a y, nth_error (w_cells w) a = Some y -> c_lock y = Free;
    ft_known : forall ty a, h_addr (res_from sc ty) = Some a -> a < length (w_cells w)
  }.

  (** What becomes of one tree, or of all. *)
  Inductive stage (A : Type) := Done (x : A) | Broken (x : A) | Endless.
  Arguments Done {A}. Arguments Broken {A}. Arguments Endless {A}.

  (** The intervals inserted, or deleted, one after the other, until user code panics: then the tree is lost. *)
  Fixpoint inserting (t : stree) (l : list ni) : stage (option stree) :=
    match l with
    | [] => Done (Some t)
    | x :: l => if insert_panics t x then Broken None else inserting (insert t x) l
    end.
  Fixpoint deleting (t : stree) (l : list ni) : stage (option stree) :=
    match l with
    | [] => Done (Some t)
    | x :: l => if delete_panics t x then Broken None else match t_delete t x with Some t => deleting t l | None => Endless end
    end.

  (** What one plugin does about a node. *)
  Definition plugin_does (ex : extractors) (change : stree -> list ni -> stage (option stree)) (n : Node) (p : plug) (x : trees) : stage trees :=
    match ex (pg_extr p) n with
    | None => Broken x
    | Some l =>
        match x (pg_tree p) with
        | None => Done x
        | Some t =>
            match change t (map (fun i => NI (id_of n) i) l) with
            | Done t => Done (put (pg_tree p) t x)
            | Broken t => Broken (put (pg_tree p) t x)
            | Endless => Endless
            end
        end
    end.

  (** One plugin after the other, until one panics. *)
  Fixpoint plugins_do (ex : extractors) (change : stree -> list ni -> stage (option stree)) (n : Node) (ps : list plug) (x : trees) : stage trees :=
    match ps with
    | [] => Done x
    | p :: ps =>
        match plugin_does ex change n p x with
        | Done x => plugins_do ex change n ps x
        | s => s
        end
    end.

  Definition succeeded (r : res value) : bool := match r with RErr _ => false | _ => true end.

  (** Run on a map [v] and search trees, a script leaves a map and search trees and ends so; [None]: it never ends. *)
  Fixpoint play (ps : list plug) (ex : extractors) (s : script) (v : @base Id Node) (x : trees) :
      option (@base Id Node * trees * outcome value) :=
    match s with
    | Finish r => Some (v, x, ORet r)
    | Panicking => Some (v, x, OPanic)
    | Look i k => play ps ex (k (v i)) v x
    | Saving n k =>
        match plugins_do ex inserting n ps x with
        | Done x => play ps ex (k RUnit) (base_set (id_of n) (Some n) v) x
        | Broken x => Some (v, x, OPanic)
        | Endless => None
        end
    | Deleting i k =>
        match v i with
        | None => play ps ex (k (RErr Noop)) v x
        | Some n =>
            match plugins_do ex deleting n ps x with
            | Done x => play ps ex (k RUnit) (base_set i None v) x
            | Broken x => Some (v, x, OPanic)
            | Endless => None
            end
        end
    | RawSaving n k => play ps ex k (base_set (id_of n) (Some n) v) x
    | RawDeleting i k => play ps ex k (base_set i None v) x
    | Nested body k =>
        match play ps ex body v x with
        | Some (v1, x1, ORet r) => play ps ex (k (Some r)) (if succeeded r then v1 else v) x1
        | Some (_, x1, _) => play ps ex (k None) v x1
        | None => None
        end
    end.

  (** Top-level transactions one after the other. *)
  Fixpoint play_all (ps : list plug) (ex : extractors) (ss : list script) (v : @base Id Node) (x : trees) : option (@base Id Node * trees) :=
    match ss with
    | [] => Some (v, x)
    | s :: ss =>
        match play ps ex s v x with
        | Some (v1, x1, ORet r) => play_all ps ex ss (if succeeded r then v1 else v) x1
        | Some (_, x1, _) => play_all ps ex ss v x1
        | None => None
        end
    end.

  (** The intervals of a node that belong in the trees of a type. *)
  Definition of_type (ps : list plug) (ex : type_id -> Node -> list I) (ty : type_id) (n : Node) : list I :=
    flat_map (fun p => if Nat.eqb (pg_tree p) ty then ex (pg_extr p) n else []) ps.
End Spec.
Arguments Done {A}. Arguments Broken {A}. Arguments Endless {A}.
