(** Specification vocabulary for what a program does not look at. *)
From Coq Require Import List Bool Arith.
From Verif Require Import Ord OrdFacts BTree Graph SpecGraph Tx Prog SpecProg.
Import ListNotations.

Section Spec.
  Context {Id Node V U : Type} `{OrdT Id} `{Identify Node Id}.
  Notation prog := (prog Id Node V U).
  Notation world := (world Id Node V U).
  Notation schema := (schema Id Node V U).

  (** What is hidden: targets and resources (by the address of their lock), ids of nodes, schedules. *)
  Record hidden := Hidden { hd_cell : nat -> Prop; hd_id : Id -> Prop; hd_schedule : type_id -> Prop }.

  (** Whether the answer of a call on the write guard tells about a node. *)
  Definition asks (c : @gcall Id Node) (i : Id) : Prop :=
    match c with GWithNode _ => False | GInsert n => id_of n = i | GRemove j => j = i end.

  (** The context has no hidden target. *)
  Definition unhidden (h : hidden) (c : ctx) : Prop := forall a, ctx_target c = Some a -> ~ hd_cell h a.

  (** The program accesses no hidden target or resource, asks for no hidden node and executes no hidden schedule.
      It may write hidden nodes. *)
  Fixpoint avoids (sc : schema) (h : hidden) (p : prog) : Prop :=
    match p with
    | PRet _ | PPanic | PLoop => True
    | PEmit _ k => avoids sc h k
    | PCall body k => avoids sc h body /\ forall r, avoids sc h (k r)
    | PTry body k => avoids sc h body /\ forall r, avoids sc h (k r)
    | PWith (TxBg _) body k => (forall b, avoids sc h (body (CRoot b None))) /\ forall r, avoids sc h (k r)
    | PWith (TxFg c) body k => (forall b, avoids sc h (body (CSub c b None))) /\ forall r, avoids sc h (k r)
    | PSave _ _ k => avoids sc h k
    | PDelete _ _ k => avoids sc h k
    | PGet _ i k => ~ hd_id h i /\ forall r, avoids sc h (k r)
    | PContains _ i k => ~ hd_id h i /\ forall r, avoids sc h (k r)
    | PTarget c _ k => forall a, ~ hd_cell h a -> avoids sc h (k (ctx_with_target c a))
    | PLeak _ k => avoids sc h k
    | PTriggers s c k => ~ hd_schedule h s /\ unhidden h c /\ forall r, avoids sc h (k r)
    | PRead body k => avoids sc h body /\ forall r, avoids sc h (k r)
    | PWrite body k => avoids sc h body /\ forall r, avoids sc h (k r)
    | PGraphGet i k => ~ hd_id h i /\ forall r, avoids sc h (k r)
    | PGraphIter k => (forall i, ~ hd_id h i) /\ forall r, avoids sc h (k r)
    | PGraphCall c k => (forall i, asks c i -> ~ hd_id h i) /\ forall r, avoids sc h (k r)
    | PRes t k => avoids sc h (k (res_from sc t))
    | PAccess _ hs body k =>
        (forall x a, In x hs -> h_addr x = Some a -> ~ hd_cell h a) /\
        (forall vs, map (fun v => Some (fst v)) vs = map h_addr hs -> avoids sc h (body vs)) /\
        forall r, avoids sc h (k r)
    | PPoke a _ k => ~ hd_cell h a /\ avoids sc h k
    end.

  (** So do the triggers of the other schedules. *)
  Definition triggers_avoid (sc : schema) (h : hidden) : Prop :=
    forall s t c, In t (scheduled sc s) -> ~ hd_schedule h s -> unhidden h c -> avoids sc h (t c).

  (** Two states that differ at most in what is hidden. *)
  Record similar (h : hidden) (w1 w2 : world) : Prop := {
    sm_graph1 : g_reachable (w_graph w1);
    sm_graph2 : g_reachable (w_graph w2);
    sm_graph : forall i, ~ hd_id h i -> g_get (w_graph w1) i = g_get (w_graph w2) i;
    sm_lock : w_lock w1 = w_lock w2;
    sm_poison : w_poison w1 = w_poison w2;
    sm_heap : w_heap w1 = w_heap w2;
    sm_leaked : w_leaked w1 = w_leaked w2;
    sm_out : w_out w1 = w_out w2;
    sm_cells : length (w_cells w1) = length (w_cells w2);
    sm_cell : forall a, ~ hd_cell h a -> nth_error (w_cells w1) a = nth_error (w_cells w2) a;
    sm_known : forall a, hd_cell h a -> a < length (w_cells w1)
  }.

  (** Two schemas that differ at most in the triggers of hidden schedules. *)
  Record same_but (h : hidden) (sc1 sc2 : schema) : Prop := {
    sb_resources : sc_resources sc1 = sc_resources sc2;
    sb_triggers : forall s, ~ hd_schedule h s -> scheduled sc1 s = scheduled sc2 s
  }.
End Spec.
Arguments hidden : clear implicits.
