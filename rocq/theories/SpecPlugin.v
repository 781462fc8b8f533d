(** Specification vocabulary for the interval plugin. *)
From Coq Require Import List Bool Arith Permutation.
From Verif Require Import Ord BTree Graph Tx SpecTx Interval SpecInterval Prog SpecProg Plugin.
Import ListNotations.

Section Spec.
  Context {Id Node I B O W : Type} `{OrdT Id} `{Identify Node Id} `{OrdT B} `{Interval I B} `{PartialEq I}.
  Notation ni := (node_interval Id I).
  Notation value := (value Id I W).
  Notation resource := (resource Id Node I B O).
  Notation world := (world Id Node value resource).
  Notation schema := (schema Id Node value resource).
  Variables ty_extr ty_tree_id ty_tree_node : type_id.

  (** The intervals stored in the search tree the triggers of the plugin use, if there is one. *)
  Definition index (sc : schema) (w : world) : option (list ni) :=
    match reads w (res_from sc ty_tree_id) with
    | Some (DRes _ (RTree t)) => Some (contents t)
    | _ => None
    end.

  (** The node-intervals of a list of nodes. *)
  Definition all_intervals (all : Node -> list I) (ns : list Node) : list ni :=
    flat_map (fun n => map (fun x => NI (id_of n) x) (all n)) ns.

  (** No trigger is scheduled but those of one installed plugin, which finds its resources, and no
      resource is being accessed. *)
  Record plugged (all : Node -> list I) (sc : schema) (w : world) : Prop := {
    pl_before_save : scheduled sc BeforeSave = [];
    pl_after_save : scheduled sc AfterSave = [on_save ty_extr ty_tree_id];
    pl_before_delete : scheduled sc BeforeDelete = [];
    pl_after_delete : scheduled sc AfterDelete = [on_delete ty_extr ty_tree_id];
    pl_extr : reads w (res_from sc ty_extr) = Some (DRes ty_extr (RExtr (fun n => Some (all n))));
    pl_tree : exists t, reads w (res_from sc ty_tree_id) = Some (DRes ty_tree_id (RTree t)) /\ sorted_lo (contents t);
    pl_idle : forall a x, nth_error (w_cells w) a = Some x -> c_lock x = Free
  }.

  (** Saves and deletes at top level. *)
  Inductive hcall := HSave (n : Node) | HDelete (i : Id).

  (** A history of such calls that have returned, none of the saves overwriting a node. *)
  Inductive fresh_history (sc : schema) : world -> list hcall -> world -> Prop :=
  | fh_nil : forall w, fresh_history sc w [] w
  | fh_save : forall w w1 w2 n r cs, g_get (w_graph w) (id_of n) = None ->
      ends sc w (p_save n (TxBg None) PRet) w1 (ORet r) -> fresh_history sc w1 cs w2 ->
      fresh_history sc w (HSave n :: cs) w2
  | fh_delete : forall w w1 w2 i r cs,
      ends sc w (p_delete i (TxBg None) PRet) w1 (ORet r) -> fresh_history sc w1 cs w2 ->
      fresh_history sc w (HDelete i :: cs) w2.

  (** A history of such calls that have returned, and the insertions and deletions they amount to in a tree: those of the
      intervals of every node saved, and of the node found by every delete. *)
  Inductive replayed (all : Node -> list I) (sc : schema) : world -> list hcall -> list (@tcall ni) -> world -> Prop :=
  | rp_nil : forall w, replayed all sc w [] [] w
  | rp_save : forall w w1 w2 n r cs es,
      ends sc w (p_save n (TxBg None) PRet) w1 (ORet r) -> replayed all sc w1 cs es w2 ->
      replayed all sc w (HSave n :: cs) (map TInsert (all_intervals all [n]) ++ es) w2
  | rp_delete : forall w w1 w2 i n r cs es, g_get (w_graph w) i = Some n ->
      ends sc w (p_delete i (TxBg None) PRet) w1 (ORet r) -> replayed all sc w1 cs es w2 ->
      replayed all sc w (HDelete i :: cs) (map TDelete (all_intervals all [n]) ++ es) w2
  | rp_delete_absent : forall w w1 w2 i r cs es, g_get (w_graph w) i = None ->
      ends sc w (p_delete i (TxBg None) PRet) w1 (ORet r) -> replayed all sc w1 cs es w2 ->
      replayed all sc w (HDelete i :: cs) es w2.

  (** The nodes saved in a history. *)
  Fixpoint saved (cs : list hcall) : list Node :=
    match cs with
    | [] => []
    | HSave n :: cs => n :: saved cs
    | HDelete _ :: cs => saved cs
    end.

  (** A lower bound determines the node and the interval. *)
  Definition distinct_lo (l : list ni) : Prop := forall x y, In x l -> In y l -> lo x = lo y -> x = y.

  (** ** Transactions *)
  Notation res := (res value).
  Notation prog := (prog Id Node value resource).

  (** What the closure of a transaction does: it reads, applies [Save] and [Delete] to its context, calls [Context::save]
      and [Context::delete] themselves, runs nested transactions, catching their panics, returns or panics.  What
      comes next may depend on all the answers. *)
  Inductive script :=
  | Finish (r : res)
  | Panicking
  | Look (i : Id) (k : option Node -> script)
  | Saving (n : Node) (k : res -> script)
  | Deleting (i : Id) (k : res -> script)
  | RawSaving (n : Node) (k : script)
  | RawDeleting (i : Id) (k : script)
  | Nested (body : script) (k : option res -> script).

  Fixpoint compiled (s : script) (c : ctx) : prog :=
    match s with
    | Finish r => PRet r
    | Panicking => PPanic
    | Look i k => PGet c i (fun x => compiled (k x) c)
    | Saving n k => p_save n (TxFg c) (fun r => compiled (k r) c)
    | Deleting i k => p_delete i (TxFg c) (fun r => compiled (k r) c)
    | RawSaving n k => PSave c n (compiled k c)
    | RawDeleting i k => PDelete c i (compiled k c)
    | Nested body k => PTry (PWith (TxFg c) (compiled body) PRet) (fun x => compiled (k x) c)
    end.

  (** Run on a map [v], the script leaves the map [v'] and ends with [o]; [es]: the insertions of the intervals of every node
      given to [Save] and the deletions of those of every node found by [Delete], in order, whether or not the
      nested transaction they were made in was kept. *)
  Inductive does (all : Node -> list I) : script -> @base Id Node -> list (@tcall ni) -> @base Id Node -> outcome value -> Prop :=
  | do_finish : forall r v, does all (Finish r) v [] v (ORet r)
  | do_panic : forall v, does all Panicking v [] v OPanic
  | do_look : forall i k v es v' o, does all (k (v i)) v es v' o -> does all (Look i k) v es v' o
  | do_save : forall n k v es v' o, does all (k RUnit) (base_set (id_of n) (Some n) v) es v' o ->
      does all (Saving n k) v (map TInsert (all_intervals all [n]) ++ es) v' o
  | do_delete : forall i n k v es v' o, v i = Some n -> does all (k RUnit) (base_set i None v) es v' o ->
      does all (Deleting i k) v (map TDelete (all_intervals all [n]) ++ es) v' o
  | do_absent : forall i k v es v' o, v i = None -> does all (k (RErr Noop)) v es v' o -> does all (Deleting i k) v es v' o
  | do_raw_save : forall n k v es v' o, does all k (base_set (id_of n) (Some n) v) es v' o -> does all (RawSaving n k) v es v' o
  | do_raw_delete : forall i k v es v' o, does all k (base_set i None v) es v' o -> does all (RawDeleting i k) v es v' o
  | do_kept : forall body k v es v1 r es' v' o, does all body v es v1 (ORet r) -> (forall e, r <> RErr e) ->
      does all (k (Some r)) v1 es' v' o -> does all (Nested body k) v (es ++ es') v' o
  | do_failed : forall body k v es v1 e es' v' o, does all body v es v1 (ORet (RErr e)) ->
      does all (k (Some (RErr e))) v es' v' o -> does all (Nested body k) v (es ++ es') v' o
  | do_panicked : forall body k v es v1 es' v' o, does all body v es v1 OPanic ->
      does all (k None) v es' v' o -> does all (Nested body k) v (es ++ es') v' o.

  (** Top-level transactions one after the other, their panics caught. *)
  Fixpoint session (ss : list script) : prog :=
    match ss with
    | [] => PRet RUnit
    | s :: ss => PTry (PWith (TxBg None) (compiled s) PRet) (fun _ => session ss)
    end.
  Inductive all_do (all : Node -> list I) : list script -> @base Id Node -> list (@tcall ni) -> @base Id Node -> Prop :=
  | ad_nil : forall v, all_do all [] v [] v
  | ad_kept : forall s ss v es v1 r es' v', does all s v es v1 (ORet r) -> (forall e, r <> RErr e) ->
      all_do all ss v1 es' v' -> all_do all (s :: ss) v (es ++ es') v'
  | ad_failed : forall s ss v es v1 e es' v', does all s v es v1 (ORet (RErr e)) ->
      all_do all ss v es' v' -> all_do all (s :: ss) v (es ++ es') v'
  | ad_panicked : forall s ss v es v1 es' v', does all s v es v1 OPanic ->
      all_do all ss v es' v' -> all_do all (s :: ss) v (es ++ es') v'.
End Spec.
