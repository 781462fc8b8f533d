(** Property C144: the calls of user code that calls on a schema make, panics of that code, and the locks of the lists of operations. *)
From Coq Require Import List Bool Lia.
From Verif Require Import Ord OrdFacts BTree Graph GraphFacts Tx TxFacts UserCalls SpecUserCalls UserCallsFacts Demo.
Import ListNotations.

Section Properties.
  Context {Id Node : Type} `{HO : OrdT Id} `{HI : Identify Node Id}.
  Notation graph := (graph Id Node).
  Notation op := (op Id Node).
  Notation ucall := (ucall Id Node).
  Variable probes : graph -> Id -> list Id.
  Variable panics : list ucall -> ucall -> bool.

  (** The state after a history. *)
  Notation after g l := (s_run probes panics (u_init g) l).

  (** C144: whatever panics, the lock of a list of operations is never poisoned, and no commit logs that one is. *)
  Theorem C144_never_poisoned :
    forall (g : graph) (l : list (scall Id Node)),
      (forall x, In x (u_bufs (after g l)) -> b_poison x = false) /\
      (forall x, In x (u_log (after g l)) -> ~ about_poison x).
  Proof.
    intros g l. split.
    - apply Forall_forall. apply (clean_run probes panics l). apply clean_init.
    - assert (X : forall st, clean st -> (forall x, In x (u_log st) -> ~ about_poison x) ->
        forall x, In x (u_log (s_run probes panics st l)) -> ~ about_poison x).
      { induction l as [|s l IH]; intros st C L; cbn; [exact L|]. destruct (s_call probes panics st s) as [st' a] eqn:E. cbn.
        destruct (one_call probes panics st s st' a C E) as (us & m & p & _ & _ & _ & _ & _ & C' & G & _). apply IH; auto.
        intros x. rewrite G. rewrite in_app_iff. intros [I|I]; [auto|]. destruct s as [| | | | | | |? ? []|? []]; cbn in I; try tauto; destruct I as [<-|[]]; cbn; tauto. }
      apply X; [apply clean_init|intros x []].
  Qed.

  (** C144: a call makes the calls of user code planned for it, one after the other, up to the first that panics; it panics exactly then, and otherwise
      answers what it has to. *)
  Theorem C144_calls :
    forall (g : graph) (l : list (scall Id Node)) s st' a, s_call probes panics (after g l) s = (st', a) ->
      exists us made p,
        planned probes (after g l) s us /\ performed panics (u_made (after g l)) us made p /\ u_made st' = u_made (after g l) ++ made /\
        (if p then a = APanic else answers probes (after g l) s a /\ a <> APanic).
  Proof.
    intros g l s st' a E. destruct (one_call probes panics _ s st' a (clean_run probes panics l _ (clean_init g)) E) as (us & m & p & P & F & M & A1 & A2 & _).
    exists us, m, p. repeat split; auto. destruct p; auto. split; [auto|]. specialize (A2 eq_refl). intros ->. inversion A2.
  Qed.

  (** C144: which calls are planned is determined by the lists and the graph; so is the answer. *)
  Theorem C144_one_plan :
    forall (st : ustate Id Node) s us1 us2 a1 a2,
      (planned probes st s us1 -> planned probes st s us2 -> us1 = us2) /\
      (answers probes st s a1 -> answers probes st s a2 -> a1 = a2).
  Proof.
    intros st s us1 us2 a1 a2. split.
    - intros P1 P2. destruct P1 as [|c i us r R|c i us r R| | | |c i us n R|c i us R| |b k R|]; inversion P2 as [|? ? us' r' R'|? ? us' r' R'| | | |? ? us' n' R'|? ? us' R'| |? k' R'|];
        subst; try reflexivity; try (apply reads_fun in R; apply reads_fun in R'; congruence).
      apply publishes_fun in R, R'. now subst.
    - intros P1 P2. destruct P1 as [c i us r R|c i us r R|c i us r R|s S]; inversion P2 as [? ? us' r' R'|? ? us' r' R'|? ? us' r' R'|? S']; subst; cbn in *; try tauto;
        apply reads_fun in R; apply reads_fun in R'; assert (r = r') by congruence; now subst.
  Qed.

  (** C144: the lists of operations change as in calls without locks, and not at all when user code panics; of the errors only those about contexts in use are logged; the lock of the graph
      is poisoned by panics in commits only. *)
  Theorem C144_effects :
    forall (g : graph) (l : list (scall Id Node)) s st' a, s_call probes panics (after g l) s = (st', a) ->
      lists st' = (match a with APanic => lists (after g l) | _ => next_lists (lists (after g l)) s end) /\
      u_log st' = u_log (after g l) ++ (match s with SSub _ b false | STop b false => [ContextsInUse b] | _ => [] end) /\
      (u_gpoison st' = true <-> u_gpoison (after g l) = true \/ (exists b, s = STop b true) /\ a = APanic) /\
      ((forall b, s <> STop b true) -> u_graph st' = u_graph (after g l)).
  Proof.
    intros g l s st' a E. destruct (one_call probes panics _ s st' a (clean_run probes panics l _ (clean_init g)) E) as (us & m & p & P & F & M & A1 & A2 & _ & L & G & Ls & Gr).
    assert (Ap : a = APanic <-> p = true). { destruct p; [split; auto|]. specialize (A2 eq_refl). split; [intros ->; inversion A2|discriminate]. }
    split; [|split; [exact L|split]].
    - rewrite Ls. destruct p; [now rewrite (A1 eq_refl)|]. destruct a; auto. discriminate (proj1 Ap eq_refl).
    - rewrite G, orb_true_iff, andb_true_iff, Ap. split; (intros [X|[X Y]]; [now left|right; split; [|exact Y]]).
      + destruct s; try discriminate. destruct alone; [eauto|discriminate].
      + destruct X as [b ->]. reflexivity.
    - intros N. destruct s; auto. destruct alone; auto. now destruct (N b).
  Qed.

  (** C144: a commit makes the planned calls and changes the graph in between; when a call panics, exactly the changes before it have been made. *)
  Theorem C144_commit :
    forall (g : graph) (l : list (scall Id Node)) b st' a, s_call probes panics (after g l) (STop b true) = (st', a) ->
      exists made p, u_made st' = u_made (after g l) ++ made /\ (a = APanic <-> p = true) /\
        published probes (u_graph (after g l)) (nth b (lists (after g l)) []) made p (u_graph st') /\
        exists k, u_graph st' = apply_ops (u_graph (after g l)) (firstn k (nth b (lists (after g l)) [])) /\
          (p = false -> k = length (nth b (lists (after g l)) [])).
  Proof.
    intros g l b st' a E. destruct (one_call probes panics _ _ st' a (clean_run probes panics l _ (clean_init g)) E) as (us & m & p & P & F & M & A1 & A2 & _ & L & G & Ls & Gr).
    exists m, p. split; [exact M|]. split.
    { destruct p; [split; auto|]. specialize (A2 eq_refl). split; [intros ->; inversion A2|discriminate]. }
    split; [exact Gr|]. destruct Gr as (k & bf & af & Pb & Ek & _ & -> & La). apply publishes_fun in Pb.
    assert (D := steps_does probes (nth b (lists (after g l)) []) (u_graph (after g l))). rewrite <- Pb, Ek, does_of_app in D.
    exists (length (does_of bf)). rewrite <- D. split.
    - now rewrite firstn_app, firstn_all, PeanoNat.Nat.sub_diag, app_nil_r.
    - intros ->. rewrite La. now rewrite app_nil_r.
  Qed.

  (** C144: the answers are those of reads without locks. *)
  Theorem C144_reads :
    forall copy (h : list (list op)) (g : graph) c i us r, reads probes copy h g c i us r -> r = ctx_get h g c i.
  Proof. intros copy h g c i us r R. apply reads_fun in R. rewrite <- (plan_get probes copy), R. reflexivity. Qed.

  Definition is_eq (u : ucall) : bool := match u with UEq _ _ => true | _ => false end.
  Definition is_clone (u : ucall) : bool := match u with UClone _ => true | _ => false end.
  Definition is_drop (u : ucall) : bool := match u with UDrop _ | UDropId _ => true | _ => false end.

  (** C144: a read compares its id with each pending operation at most once; it copies the node it answers and no other; a test for presence copies none; neither drops anything. *)
  Theorem C144_counts :
    forall copy (h : list (list op)) (g : graph) c i us r, reads probes copy h g c i us r ->
      length (filter is_eq us) <= length (newest_first h c) /\
      filter is_clone us = (if copy then match r with Some n => [UClone n] | None => [] end else []) /\
      filter is_drop us = [].
  Proof.
    intros copy h g c i us r R.
    assert (X : forall s o, until i (newest_first h c) s o ->
      let l := concat (map (looks_at i) s) in length (filter is_eq l) <= length (newest_first h c) /\ filter is_clone l = [] /\ filter is_drop l = []).
    { intros s o U l. assert (Ln := until_length _ _ _ _ U).
      assert (length (filter is_eq l) = length s /\ filter is_clone l = [] /\ filter is_drop l = []) as (-> & -> & ->); [|auto].
      subst l. clear. induction s as [|[n|j] s (A & B & C)]; cbn; auto. }
    assert (Y : filter is_eq (map (UCmp i) (probes g i)) = [] /\ filter is_clone (map (UCmp i) (probes g i)) = [] /\ filter is_drop (map (UCmp i) (probes g i)) = []).
    { induction (probes g i); cbn; auto. }
    destruct Y as (Y1 & Y2 & Y3).
    destruct R as [s n U|s j U|s n U E|s U E]; destruct (X _ _ U) as (A & B & C); cbv zeta in *; rewrite ?filter_app, ?app_length, ?Y1, ?Y2, ?Y3, ?B, ?C;
      destruct copy; cbn; repeat split; auto; lia.
  Qed.
End Properties.

(** A history with a transaction in a transaction, whose user code panics: every copy of node 1, and the drop of node (2, 20). *)
Definition uc_probes (g : graph nat dnode) (i : nat) : list nat := map fst g.
Definition uc_panics (made : list (ucall nat dnode)) (u : ucall nat dnode) : bool :=
  match u with UClone (DNode 1 _) => true | UDrop (DNode 2 20) => true | _ => false end.
Notation uc_root := (CRoot 0 None).
Notation uc_sub := (CSub (CRoot 0 None) 1 None).
Definition uc_graph : graph nat dnode := g_from_iter [DNode 2 20; DNode 3 30].
Definition uc_open : list (scall nat dnode) :=
  [SOpen; SSave uc_root (DNode 1 10); SOpen; SSave uc_sub (DNode 2 21); SDelete uc_sub 3].
Definition uc_says (l : list (scall nat dnode)) (s : scall nat dnode) : list (ucall nat dnode) * answer dnode :=
  let st := s_run uc_probes uc_panics (u_init uc_graph) l in
  let (st', a) := s_call uc_probes uc_panics st s in (skipn (length (u_made st)) (u_made st'), a).
Definition uc_end : list (scall nat dnode) := uc_open ++ [SGet uc_sub 1; SSub uc_root 1 true; STop 0 true].

Example C144_case :
  uc_says uc_open (SGet uc_sub 1) = ([UEq 3 1; UId (DNode 2 21); UEq 2 1; UId (DNode 1 10); UEq 1 1; UClone (DNode 1 10)], APanic) /\
  uc_says uc_open (SContains uc_sub 1) = ([UEq 3 1; UId (DNode 2 21); UEq 2 1; UId (DNode 1 10); UEq 1 1], ABool true) /\
  uc_says uc_open (SGet uc_sub 3) = ([UEq 3 3], ANode None) /\
  uc_says uc_open (SGet uc_root 3) = ([UId (DNode 1 10); UEq 1 3; UCmp 3 2; UCmp 3 3; UClone (DNode 3 30)], ANode (Some (DNode 3 30))) /\
  uc_says (uc_open ++ [SGet uc_sub 1]) (SSub uc_root 1 true) = ([], AUnit) /\
  uc_says (uc_open ++ [SGet uc_sub 1; SSub uc_root 1 true]) (STop 0 true) =
    ([UId (DNode 1 10); UCloneId 1; UCmp 1 2; UCmp 1 3; UId (DNode 2 21); UCloneId 2; UCmp 2 1; UCmp 2 2; UCmp 2 3; UDropId 2; UDrop (DNode 2 20)], APanic) /\
  u_graph (s_run uc_probes uc_panics (u_init uc_graph) uc_end) = g_from_iter [DNode 1 10; DNode 2 21; DNode 3 30] /\
  map b_poison (u_bufs (s_run uc_probes uc_panics (u_init uc_graph) uc_end)) = [false; false] /\
  u_gpoison (s_run uc_probes uc_panics (u_init uc_graph) uc_end) = true.
Proof. repeat split; reflexivity. Qed.

Print Assumptions C144_never_poisoned.
Print Assumptions C144_calls.
Print Assumptions C144_one_plan.
Print Assumptions C144_effects.
Print Assumptions C144_commit.
Print Assumptions C144_reads.
Print Assumptions C144_counts.
