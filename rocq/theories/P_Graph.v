(** Properties C01-C05: graphs. *)
From Coq Require Import List Sorted.
From Verif Require Import Ord OrdFacts BTree Graph SpecGraph GraphFacts Demo.
Import ListNotations.

Section Properties.
  Context {Id Node : Type} `{HO : OrdT Id} `{HI : Identify Node Id}.

  (** C01. *)
  Theorem C01_graph_last_write_wins :
    forall (g : graph Id Node) (cs : list gcall), g_reachable g ->
      (* every later read *)
      (forall i, last_write (g_get g) cs i (g_get (g_run g cs) i)) /\
      (* what the next insert / remove returns *)
      (forall n, last_write (g_get g) cs (id_of n) (snd (g_insert (g_run g cs) n))) /\
      (forall i, last_write (g_get g) cs i (snd (g_remove (g_run g cs) i))).
  Proof.
    intros g cs R. apply g_reachable_wf in R.
    split; [|split]; intros; apply last_write_run; assumption.
  Qed.

  (** C01: [last_write] determines the answer. *)
  Theorem C01_last_write_deterministic :
    forall (before : Id -> option Node) cs i r1 r2,
      last_write before cs i r1 -> last_write before cs i r2 -> r1 = r2.
  Proof. exact last_write_fun. Qed.

  (** C02. *)
  Theorem C02_iteration_ascending_exact :
    forall g : graph Id Node, g_reachable g ->
      (forall n, In n (g_iter g) <-> g_get g (id_of n) = Some n) /\
      StronglySorted (fun a b => lt (id_of a) (id_of b)) (g_iter g) /\
      NoDup (map id_of (g_iter g)).
  Proof.
    intros g R. apply g_reachable_wf in R.
    split; [intros n; now apply g_iter_in|].
    split; [now apply g_iter_sorted|now apply g_iter_nodup].
  Qed.

  (** C03. *)
  Theorem C03_get_contains_agree :
    forall (g : graph Id Node) i, g_reachable g ->
      (g_contains g i = true <-> exists n, g_get g i = Some n) /\
      (forall n, g_get g i = Some n -> id_of n = i).
  Proof.
    intros g i R. apply g_reachable_wf in R. split.
    - apply g_contains_get.
    - intros n. now apply g_get_id.
  Qed.

  (** C04. *)
  Theorem C04_from_iter_keeps_last :
    forall nodes : list Node,
      (forall i, last_node nodes i (g_get (g_from_iter nodes) i)) /\
      g_from_iter nodes = fold_left (fun g n => fst (g_insert g n)) nodes g_default.
  Proof. intros nodes. split; [intros i; apply last_node_from_iter|apply g_from_iter_inserts]. Qed.

  (** C05. *)
  Theorem C05_iteration_history_independent :
    forall g1 g2 : graph Id Node, g_reachable g1 -> g_reachable g2 ->
      (forall i, g_get g1 i = g_get g2 i) -> g_iter g1 = g_iter g2.
  Proof. exact g_iter_ext. Qed.
End Properties.

Print Assumptions C01_graph_last_write_wins.
Print Assumptions C01_last_write_deterministic.
Print Assumptions C02_iteration_ascending_exact.
Print Assumptions C03_get_contains_agree.
Print Assumptions C04_from_iter_keeps_last.
Print Assumptions C05_iteration_history_independent.

(** Concrete cases meeting the hypotheses. *)
Definition ex_history : list (@gcall nat dnode) :=
  [GInsert (DNode 7 1); GInsert (DNode 3 1); GWithNode (DNode 7 2); GRemove 3; GInsert (DNode 1 5)].

Example ex_reachable : g_reachable (g_run (g_from_iter [DNode 3 9; DNode 2 2; DNode 3 8]) ex_history).
Proof. repeat constructor. Qed.

(** C01, C02, C03, C04. *)
Example ex_values :
  g_iter (g_run (g_from_iter [DNode 3 9; DNode 2 2; DNode 3 8]) ex_history)
  = [DNode 1 5; DNode 2 2; DNode 7 2].
Proof. reflexivity. Qed.

(** C05. *)
Example ex_same_answers :
  let g1 := g_run g_default [GInsert (DNode 2 2); GInsert (DNode 1 1)] in
  let g2 := g_from_iter [DNode 1 1; DNode 2 7; DNode 2 2] in
  g_reachable g1 /\ g_reachable g2 /\ g_iter g1 = g_iter g2 /\ g_iter g1 = [DNode 1 1; DNode 2 2].
Proof.
  cbn zeta. split; [apply g_reachable_run; constructor|].
  split; [constructor|]. split; reflexivity.
Qed.
