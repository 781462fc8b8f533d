(** The repository's own unit tests, run on the model: a check of the model, not of the program.
    Every [#[test]] of /repo is here, in order, under its own name.  [assert!], [expect] and
    [unwrap] panic when they fail, so a test passes when its program ends without a panic. *)
From Coq Require Import List Bool Arith.
From Verif Require Import Ord OrdFacts BTree Graph Tx TxMachine Proxy Demo DemoInterval Interval Prog SpecProg.
Import ListNotations.

Local Notation program := (prog nat dnode nat nat).
Local Notation n_ := Demo.DNode.

Definition assert_ (b : bool) (k : program) : program := if b then k else PPanic.

(** [result.expect(..)], [result.unwrap()]. *)
Definition expect_ (r : res nat) (k : program) : program := if is_ok r then k else PPanic.

Definition expect_err (r : res nat) (k : program) : program := if is_ok r then PPanic else k.

(** A test: a schema, and the program run on it. *)
Definition passes (sw : schema nat dnode nat nat * world nat dnode nat nat) (p : program) : Prop :=
  option_map snd (run (fst sw) 100 (snd sw) p) = Some (ORet RUnit).

(** [fake_node!(1)] (graph/mod.rs 164-172) has no edges. *)
Definition with_node_1 := built (V := nat) (U := nat) (g_from_iter [n_ 1 0]) [].
Definition empty := built (V := nat) (U := nat) (g_from_iter ([] : list dnode)) [].

(** plotline/src/schema/transaction.rs 535-557. *)
Example context_should_overwrite_original_state :
  passes with_node_1
    (PWith (TxBg None)
      (fun ctx =>
        PDelete ctx 1 (
        PContains ctx 1 (fun b => assert_ (negb b) (
        PSave ctx (n_ 2 0) (
        PContains ctx 2 (fun b => assert_ b (
        PRet RUnit)))))))
      (fun r => expect_ r (PRet RUnit))).
Proof. reflexivity. Qed.

(** transaction.rs 559-581. *)
Example uncommited_transaction_should_not_apply_changes :
  passes with_node_1
    (PWith (TxBg None)
      (fun ctx =>
        PDelete ctx 1 (PSave ctx (n_ 2 0) (PRet (RErr (Msg String.EmptyString)))))
      (fun r => expect_err r (
        PRead (PGraphGet 1 (fun n => assert_ (match n with Some _ => true | None => false end) (PRet RUnit))) (fun _ =>
        PRead (PGraphGet 2 (fun n => assert_ (match n with Some _ => false | None => true end) (PRet RUnit))) PRet)))).
Proof. reflexivity. Qed.

(** transaction.rs 583-606. *)
Example commited_transaction_should_apply_changes :
  passes with_node_1
    (PWith (TxBg None)
      (fun ctx => PDelete ctx 1 (PSave ctx (n_ 2 0) (PRet RUnit)))
      (fun r => expect_ r (
        PRead (PGraphGet 1 (fun n => assert_ (match n with Some _ => false | None => true end) (PRet RUnit))) (fun _ =>
        PRead (PGraphGet 2 (fun n => assert_ (match n with Some _ => true | None => false end) (PRet RUnit))) PRet)))).
Proof. reflexivity. Qed.

(** transaction.rs 608-649: transactions and contexts held side by side, so a history of the event
    machine; the outputs are in the order of the calls. *)
Example subtransactions_should_be_independent :
  skipn 8 (snd (m_run (m_init (g_from_iter [n_ 1 0])) [
    EBackground; EContext 0;            (* tx_1, ctx_1 *)
    EForeground 0; EContext 1;          (* tx_2, ctx_2 *)
    EDelete 1 1;
    EForeground 0; EContext 2;          (* tx_3, ctx_3 *)
    ESave 2 (n_ 2 0);
    EContains 0 1; EContains 0 2;
    EContains 1 1; EContains 1 2;
    EContains 2 1; EContains 2 2]))
  = map (fun b => XBool b) [true; false; false; false; true; true].
Proof. reflexivity. Qed.

(** transaction.rs 651-674. *)
Example committed_subtransaction_should_apply_on_parent_context :
  passes with_node_1
    (PWith (TxBg None)
      (fun ctx_1 =>
        PWith (TxFg ctx_1) (fun ctx_2 => PDelete ctx_2 1 (PRet RUnit)) (fun r =>
        expect_ r (
        PContains ctx_1 1 (fun b => assert_ (negb b) (PRet RUnit)))))
      (fun r => expect_ r (PRet RUnit))).
Proof. reflexivity. Qed.

(** transaction.rs 676-698. *)
Example parent_changes_should_be_visible_from_subtransactions :
  passes empty
    (PWith (TxBg None)
      (fun ctx_1 =>
        PSave ctx_1 (n_ 1 0) (
        PWith (TxFg ctx_1) (fun ctx_2 => PContains ctx_2 1 (fun b => assert_ b (PRet RUnit))) (fun r =>
        expect_ r (PRet RUnit))))
      (fun r => expect_ r (PRet RUnit))).
Proof. reflexivity. Qed.

(** schema/trigger.rs 172-232: the counter is the number of values emitted. [Foo] and [Bar] are built
    from the context without looking at it. *)
Definition a_trigger : trigger nat dnode nat nat := fun _ => PEmit 1 (PRet RUnit).
Definition another_trigger : trigger nat dnode nat nat := fun _ => PEmit 1 (PRet RUnit).
Definition Schedule1 := 11.
Definition Schedule2 := 12.
Example triggers_downcasting :
  let sw := built (g_from_iter ([] : list dnode))
    [BTrigger Schedule1 a_trigger; BTrigger Schedule1 another_trigger; BTrigger Schedule2 another_trigger] in
  map (fun schedule =>
    option_map (fun x => (length (w_out (fst x)), snd x))
      (run (fst sw) 100 (snd sw)
        (PWith (TxBg None) (fun ctx => PTriggers schedule ctx PRet) (fun r => expect_ r (PRet RUnit)))))
    [Schedule1; Schedule2]
  = [Some (2, ORet RUnit); Some (1, ORet RUnit)].
Proof. reflexivity. Qed.

(** schema/resource.rs 161-163: [exists]. *)
Definition exists_ (h : handle) (k : bool -> program) : program :=
  PAccess Shared [h] (fun _ => PRet (RVal 1)) (fun r =>
  k match r with Some (RVal 1) => true | _ => false end).

(** schema/resource.rs 197-210. *)
Definition Foo := 21.
Definition Bar := 22.
Example resource_exists :
  passes (built (g_from_iter ([] : list dnode)) [BResource Foo 0])
    (PRes Foo (fun res => exists_ res (fun b => assert_ b (
     PRes Bar (fun no_res => exists_ no_res (fun b => assert_ (negb b) (PRet RUnit))))))).
Proof. reflexivity. Qed.

(** schema/resource.rs 212-231. *)
Example resource_read_write :
  passes (built (g_from_iter ([] : list dnode)) [BResource Foo 0])
    (PRes Foo (fun res =>
     PAccess Excl [res]
       (fun foo => match foo with [(a, _)] => PPoke a (DRes Foo 1) (PRet RUnit) | _ => PPanic end)
       (fun r => match r with
         | None => PPanic
         | Some _ =>
             PAccess Shared [res]
               (fun foo => match foo with [(_, DRes _ 1)] => PRet RUnit | _ => PPanic end)
               (fun r => match r with None => PPanic | Some _ => PRet RUnit end)
         end))).
Proof. reflexivity. Qed.

(** graph/proxy.rs 133-166; the value of a node is its only edge. *)
Definition fake_edges (n : dnode) : list nat := [d_val n].
Definition idle (g : graph nat dnode) := @m_init nat dnode g.

Example non_existent_nodes_must_be_virtual :
  let graph := g_from_iter ([] : list dnode) in
  px_virtual (idle graph) (px_new (SGraph graph) 0) = Some true.
Proof. reflexivity. Qed.

Example existent_nodes_must_be_non_virtual :
  let graph := g_with_node (g_from_iter []) (n_ 0 0) in
  px_virtual (idle graph) (px_new (SGraph graph) 0) = Some false.
Proof. reflexivity. Qed.

Example graph_must_be_traversable :
  let graph := g_from_iter [n_ 1 2; n_ 2 1] in
  match px_successors fake_edges (idle graph) (px_new (SGraph graph) 1) with
  | Some (_, [edge_1]) =>
      px_id edge_1 = 2 /\
      match px_successors fake_edges (idle graph) edge_1 with
      | Some (_, [edge_2]) => px_id edge_2 = 1
      | _ => False
      end
  | _ => False
  end.
Proof. split; reflexivity. Qed.

(** plugins/interval/src/tree.rs 83-143: tree, query, [intersects]. *)
Example intersects_with_tree :
  Forall (fun t : list (nat * nat) * (nat * nat) * bool =>
    let '(tree, query, intersects) := t in
    t_intersects (fold_left with_interval tree t_default) query = intersects)
  [ ([(0, 2)], (3, 3), false);
    ([(0, 2)], (1, 3), true);
    ([(2, 4)], (0, 3), true);
    ([(0, 3)], (1, 2), true);
    ([(1, 2)], (0, 3), true);
    ([(5, 6); (0, 4); (2, 6); (7, 9)], (1, 2), true) ].
Proof. repeat constructor. Qed.

(** plugins/interval/src/tree.rs 145-202: tree, query, output. *)
Example for_each_intersection_in_tree :
  Forall (fun t : list (nat * nat) * (nat * nat) * list (nat * nat) =>
    let '(tree, query, output) := t in
    let intervals := for_each (fold_left with_interval tree t_default) query in
    length intervals = length output /\
    forallb (fun i => existsb (eqv i) intervals) output = true)
  [ ([(1, 2)], (0, 0), []);
    ([(5, 6); (0, 2); (3, 3); (5, 9); (6, 6)], (3, 5), [(5, 6); (3, 3); (5, 9)]) ].
Proof. repeat constructor. Qed.
