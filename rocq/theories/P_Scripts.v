(** Property C129: the interval plugin and whole transactions. *)
From Coq Require Import List Bool Arith Lia.
From Verif Require Import Ord OrdFacts BTree BTreeFacts Graph GraphFacts Tx SpecTx TxFacts Interval SpecInterval IntervalFacts
  DemoInterval Prog SpecProg ProgFacts Plugin SpecPlugin PluginFacts PluginScripts P_Plugin.
Import ListNotations.

Section Properties.
  Context {Id Node I B O W : Type} `{HO : OrdT Id} `{HI : Identify Node Id} `{HB : OrdT B} `{HV : Interval I B} `{HP : PartialEq I}.
  Notation ni := (node_interval Id I).
  Notation value := (value Id I W).
  Notation resource := (resource Id Node I B O).
  Notation world := (world Id Node value resource).
  Notation schema := (schema Id Node value resource).
  Notation script := (@script Id Node I W).
  Variables ty_extr ty_tree_id : type_id.
  Notation plugged := (SpecPlugin.plugged (O := O) (W := W) ty_extr ty_tree_id).
  Notation session := (SpecPlugin.session (B := B) (O := O)).

  (** C129: the tree is the one obtained by the insertions and deletions alone, the nodes are those of the transactions kept;
      if one of the deletions never returns, neither does the session. *)
  Theorem C129_index_records_everything_done :
    forall (all : Node -> list I) (sc : schema) (w : world) (ss : list script) es v' t,
      plugged all sc w -> at_rest w -> g_reachable (w_graph w) ->
      reads w (res_from sc ty_tree_id) = Some (DRes ty_tree_id (RTree t)) ->
      all_do all ss (g_get (w_graph w)) es v' ->
      (forall fuel t', t_run fuel t es = Some t' ->
        exists w', ends sc w (session ss) w' (ORet RUnit) /\
          reads w' (res_from sc ty_tree_id) = Some (DRes ty_tree_id (RTree t')) /\
          (forall i, g_get (w_graph w') i = v' i) /\ plugged all sc w' /\ at_rest w') /\
      ((forall fuel, t_run fuel t es = None) -> diverges sc w (session ss)).
  Proof.
    intros all sc w ss es v' t P Ar R Rt A.
    assert (Re : resting ty_extr ty_tree_id all sc w (g_get (w_graph w)) t).
    { constructor; auto. now apply g_reachable_wf. }
    pose proof (session_runs ty_extr ty_tree_id all sc ss _ es v' A w t Re) as X. split.
    - intros fuel t' Rn. rewrite (t_run_fuel es t fuel 0) in Rn. rewrite Rn in X.
      destruct X as (w' & E & [P' R' A' W' V']). exists w'. split; [now apply exec_run|]. auto.
    - intros D. rewrite D in X. exact X.
  Qed.

  (** The above says something of every session. *)
  Theorem C129_every_session :
    forall (all : Node -> list I) (ss : list script) v, exists es v', all_do all ss v es v'.
  Proof. exact (fun all ss => all_do_total all ss). Qed.
End Properties.
Print Assumptions C129_index_records_everything_done.
Print Assumptions C129_every_session.

(** C129: 5 is saved, then 7 in a nested transaction that fails; 9 is saved without [Save].  Then 5 is deleted and 2 is saved
    by a transaction that panics. *)
Local Existing Instance nat_self.
Definition sc_first : @script nat nat (nat * nat) unit :=
  Saving 5 (fun _ => Nested (Saving 7 (fun _ => Finish (RErr Noop))) (fun _ => RawSaving 9 (Finish RUnit))).
Definition sc_second : @script nat nat (nat * nat) unit :=
  Deleting 4 (fun _ => Deleting 5 (fun _ => Look 5 (fun o => Saving (match o with Some _ => 3 | None => 2 end) (fun _ => Panicking)))).
Example C129_case :
  let w := pn_run (snd pn) (session [sc_first; sc_second]) in
  (exists v, all_do pn_all [sc_first; sc_second] (g_get (w_graph (snd pn)))
     [TInsert (NI 5 (5, 8)); TInsert (NI 7 (7, 10)); TDelete (NI 5 (5, 8)); TInsert (NI 2 (2, 5))] v /\
     v 5 = Some 5 /\ v 9 = Some 9 /\ v 2 = None /\ v 7 = None) /\
  index 1 (fst pn) w = Some [NI 2 (2, 5); NI 7 (7, 10)] /\ g_iter (w_graph w) = [5; 9].
Proof.
  cbn zeta. split; [|vm_compute; repeat split]. eexists. split.
  - eapply (ad_kept pn_all sc_first [sc_second] _ [TInsert (NI 5 (5, 8)); TInsert (NI 7 (7, 10))] _ RUnit [TDelete (NI 5 (5, 8)); TInsert (NI 2 (2, 5))]);
      [|discriminate|].
    + unfold sc_first. eapply (do_save (H0 := nat_self) pn_all 5 _ _ [TInsert (NI 7 (7, 10))]).
      eapply (do_failed pn_all _ _ _ [TInsert (NI 7 (7, 10))] _ Noop []).
      * eapply (do_save (H0 := nat_self) pn_all 7 _ _ []). constructor.
      * constructor. constructor.
    + eapply (ad_panicked pn_all sc_second [] _ [TDelete (NI 5 (5, 8)); TInsert (NI 2 (2, 5))] _ []); [|constructor].
      unfold sc_second. eapply do_absent; [reflexivity|]. eapply (do_delete (H0 := nat_self) pn_all 5 5 _ _ [TInsert (NI 2 (2, 5))]); [reflexivity|].
      constructor. eapply (do_save (H0 := nat_self) pn_all 2 _ _ []). constructor.
  - repeat split.
Qed.

(** A deletion that never returns, in a transaction whose failure would have been caught. *)
Example C129_diverging :
  let s := Saving 5 (fun _ => Saving 3 (fun _ => Saving 7 (fun _ => Nested (Deleting 5 (fun _ => Finish (RErr Noop))) (fun _ => Finish RUnit)))) in
  diverges (fst pn) (snd pn) (session [s : @script nat nat (nat * nat) unit]).
Proof.
  cbn zeta. set (s := Saving 5 _).
  pose proof (C129_index_records_everything_done (O := unit) (W := unit) 0 1 pn_all (fst pn) (snd pn) [s]) as X.
  destruct C59_case as (P & _ & _ & G & _).
  edestruct X as [_ Y]; [exact P|repeat split|exact G|reflexivity| |apply Y].
  - unfold s. eapply (ad_kept pn_all _ [] _ [TInsert (NI 5 (5, 8)); TInsert (NI 3 (3, 6)); TInsert (NI 7 (7, 10)); TDelete (NI 5 (5, 8))] _ RUnit []);
      [|discriminate|constructor].
    eapply (do_save (H0 := nat_self) pn_all 5 _ _ [TInsert (NI 3 (3, 6)); TInsert (NI 7 (7, 10)); TDelete (NI 5 (5, 8))]).
    eapply (do_save (H0 := nat_self) pn_all 3 _ _ [TInsert (NI 7 (7, 10)); TDelete (NI 5 (5, 8))]).
    eapply (do_save (H0 := nat_self) pn_all 7 _ _ [TDelete (NI 5 (5, 8))]).
    eapply (do_failed pn_all _ _ _ [TDelete (NI 5 (5, 8))] _ Noop []); [|constructor].
    eapply (do_delete (H0 := nat_self) pn_all 5 5 _ _ []); [reflexivity|constructor].
  - intros fuel. rewrite (t_run_fuel _ _ fuel 0). vm_compute. reflexivity.
Qed.
