(** Property C147: the handlers of the interval plugin, by the calls they make of the code of users, and panics of each of these. *)
From Coq Require Import List Arith Bool Lia.
From Verif Require Import Ord OrdFacts BTree Graph GraphFacts Tx SpecTx Interval SpecInterval IntervalFacts
  Prog SpecProg ProgFacts Plugin PluginFacts SpecPlugin SpecPlugins PluginsFacts PluginScripts P_Plugin P_Res P_Plugins TreeCalls TreeCallsFacts TreePanicsFacts
  PluginCalls SpecPluginCalls PluginCallsFacts DemoInterval.
Import ListNotations.

Section Properties.
  Context {Id Node I B O W : Type} `{HId : OrdT Id} `{HN : Identify Node Id} `{HB : OrdT B} `{HI : Interval I B} `{HE : PartialEq I}.
  Notation ni := (node_interval Id I).
  Notation stree := (tree ni B).
  Notation value := (value Id I W).
  Notation resource := (resource Id Node I B O).
  Notation world := (world Id Node value resource).
  Notation schema := (schema Id Node value resource).
  Notation script := (@script Id Node I W).
  Notation extractors := (extractors (Node := Node) (I := I)).
  Notation trees := (@trees Id I B).
  Notation pcall := (pcall Id Node I B).

  (** The search tree of a plugin, as read from outside. *)
  Definition shows (sc : schema) (w : world) (p : plug) (x : option stree) : Prop :=
    reads w (res_from sc (pg_tree p)) = option_map (fun t => DRes (pg_tree p) (RTree t)) x.

  (** What the plugin does in programs (Plugin.v) is what its handler does call by call. *)
  Lemma does_by_calls (bad : pcall -> bool) f change p (ex : extractors) all n (x : trees) :
    (forall m, ex (pg_extr p) m = plugin_reads bad all m) ->
    (forall i l (t : stree), change t (map (NI i) l) =
      let '(ws, o) := writing f i t l in if existsb bad ws then Broken None else match o with Some t' => Done (Some t') | None => Endless end) ->
    match plugins_do ex change n [p] x, snd (handler bad f all n (x (pg_tree p))) with
    | Done x', Done t | Broken x', Broken t => x' (pg_tree p) = t
    | Endless, Endless => True
    | _, _ => False
    end.
  Proof.
    intros Ex Ch. cbn [plugins_do]. unfold plugin_does, handler. rewrite Ex. unfold plugin_reads. destruct (x (pg_tree p)) as [t|] eqn:X.
    - destruct (writing f (id_of n) t (all n)) as [ws o] eqn:Wr.
      destruct (existsb bad (reading n)); [exact X|]. change (fun i => NI (id_of n) i) with (@NI Id I (id_of n)). rewrite Ch, Wr.
      destruct (existsb bad ws); [unfold put; cbn [snd]; now rewrite Nat.eqb_refl|].
      destruct o; cbn [snd]; [unfold put; now rewrite Nat.eqb_refl|exact Logic.I].
    - destruct (existsb bad (reading n)); exact X.
  Qed.

  (** C147: saving a node, in a transaction of its own, is what the handler of the plugin does call by call. *)
  Theorem C147_saving :
    forall (bad : pcall -> bool) p (ex : extractors) all (sc : schema) (w : world) x n y,
      fitted (FP := plugin_panics bad) [p] ex sc w x -> at_rest w -> g_reachable (w_graph w) ->
      (forall m, ex (pg_extr p) m = plugin_reads bad all m) -> shows sc w p y ->
      match snd (handler bad XInsert all n y) with
      | Done y' =>
          exists w', ends sc w (PWith (TxBg None) (compiled (Saving n Finish : script)) PRet) w' (ORet RUnit) /\ shows sc w' p y' /\
            forall i, g_get (w_graph w') i = base_set (id_of n) (Some n) (g_get (w_graph w)) i
      | Broken y' =>
          exists w', ends sc w (PWith (TxBg None) (compiled (Saving n Finish : script)) PRet) w' OPanic /\ shows sc w' p y' /\
            forall i, g_get (w_graph w') i = g_get (w_graph w) i
      | Endless => diverges sc w (PWith (TxBg None) (compiled (Saving n Finish : script)) PRet)
      end.
  Proof.
    intros bad p ex all sc w x n y F A R Ex Sh.
    assert (Xy : x (pg_tree p) = y).
    { unfold shows in Sh. rewrite (ft_tree _ _ _ _ _ F p (or_introl eq_refl)) in Sh. destruct (x (pg_tree p)), y; try discriminate; [|reflexivity]. now injection Sh as ->. }
    pose proof (does_by_calls bad XInsert (inserting (FP := plugin_panics bad)) p ex all n x Ex (fun i l t => writing_inserts bad i l t)) as D.
    rewrite Xy in D. pose proof (C135_transaction_with_panics (FP := plugin_panics bad) [p] ex sc w x (Saving n Finish : script) F A R) as T.
    cbn [play] in T. destruct (plugins_do ex inserting n [p] x) as [x'|x'|] eqn:Pd; destruct (snd (handler _ _ _ _ _)) as [y'|y'|] eqn:Hd; try destruct D.
    - cbn [play] in T. destruct T as (w' & E & F' & _ & G). exists w'. split; [exact E|]. split; [|exact G].
      unfold shows. now rewrite (ft_tree _ _ _ _ _ F' p (or_introl eq_refl)).
    - destruct T as (w' & E & F' & _ & G). exists w'. split; [exact E|]. split; [|exact G].
      unfold shows. now rewrite (ft_tree _ _ _ _ _ F' p (or_introl eq_refl)).
    - exact T.
  Qed.

  (** C147: so is deleting one. *)
  Theorem C147_deleting :
    forall (bad : pcall -> bool) p (ex : extractors) all (sc : schema) (w : world) x i n y,
      fitted (FP := plugin_panics bad) [p] ex sc w x -> at_rest w -> g_reachable (w_graph w) ->
      (forall m, ex (pg_extr p) m = plugin_reads bad all m) -> shows sc w p y -> g_get (w_graph w) i = Some n ->
      match snd (handler bad XDelete all n y) with
      | Done y' =>
          exists w', ends sc w (PWith (TxBg None) (compiled (Deleting i Finish : script)) PRet) w' (ORet RUnit) /\ shows sc w' p y' /\
            forall j, g_get (w_graph w') j = base_set i None (g_get (w_graph w)) j
      | Broken y' =>
          exists w', ends sc w (PWith (TxBg None) (compiled (Deleting i Finish : script)) PRet) w' OPanic /\ shows sc w' p y' /\
            forall j, g_get (w_graph w') j = g_get (w_graph w) j
      | Endless => diverges sc w (PWith (TxBg None) (compiled (Deleting i Finish : script)) PRet)
      end.
  Proof.
    intros bad p ex all sc w x i n y F A R Ex Sh Gi.
    assert (Xy : x (pg_tree p) = y).
    { unfold shows in Sh. rewrite (ft_tree _ _ _ _ _ F p (or_introl eq_refl)) in Sh. destruct (x (pg_tree p)), y; try discriminate; [|reflexivity]. now injection Sh as ->. }
    pose proof (does_by_calls bad XDelete (deleting (FP := plugin_panics bad)) p ex all n x Ex (fun i l t => writing_deletes bad i l t)) as D.
    rewrite Xy in D. pose proof (C135_transaction_with_panics (FP := plugin_panics bad) [p] ex sc w x (Deleting i Finish : script) F A R) as T.
    cbn [play] in T. rewrite Gi in T.
    destruct (plugins_do ex deleting n [p] x) as [x'|x'|] eqn:Pd; destruct (snd (handler _ _ _ _ _)) as [y'|y'|] eqn:Hd; try destruct D.
    - cbn [play] in T. destruct T as (w' & E & F' & _ & G). exists w'. split; [exact E|]. split; [|exact G].
      unfold shows. now rewrite (ft_tree _ _ _ _ _ F' p (or_introl eq_refl)).
    - destruct T as (w' & E & F' & _ & G). exists w'. split; [exact E|]. split; [|exact G].
      unfold shows. now rewrite (ft_tree _ _ _ _ _ F' p (or_introl eq_refl)).
    - exact T.
  Qed.

  (** C147: the calls are those made when none panics, up to the first that panics; the plugin panics iff one does. *)
  Theorem C147_up_to_the_first_panic :
    forall (bad : pcall -> bool) f all n (y : option stree),
      let '(made, s) := handler bad f all n y in
      let '(calls, s0) := handler (fun _ => false) f all n y in
      match s with
      | Broken _ => exists l1 u l2, made = l1 ++ [u] /\ calls = l1 ++ u :: l2 /\ bad u = true /\ safe bad l1
      | _ => made = calls /\ s = s0 /\ safe bad calls
      end.
  Proof.
    intros bad f all n y. unfold handler. destruct (match y with Some t => _ | None => _ end) as [ws o].
    assert (N : forall l : list pcall, existsb (fun _ => false) l = false) by (induction l; auto). rewrite !N.
    destruct (existsb bad (reading n)) eqn:Er.
    - destruct (up_to_panics _ _ Er) as (l1 & u & l2 & E & -> & Bu & S). exists l1, u, (l2 ++ ws). rewrite E, <- app_assoc. auto.
    - destruct (existsb bad ws) eqn:Ew.
      + destruct (up_to_panics _ _ Ew) as (l1 & u & l2 & E & -> & Bu & S). exists (reading n ++ l1), u, l2. rewrite E, <- !app_assoc. repeat split; auto.
        intros v Iv. apply in_app_iff in Iv. destruct Iv as [Iv|Iv]; [|now apply S]. now apply (proj2 (safe_iff bad (reading n)) Er).
      + assert (S : safe bad (reading n ++ ws)) by (apply safe_iff; rewrite existsb_app, Er, Ew; reflexivity).
        destruct y, o; auto.
  Qed.

  (** C147: [all], [id] and the clone of the id come first, and a panic there costs nothing but the transaction; any later one
      costs the search tree.  If that is lost already, or was never installed, nothing is called later. *)
  Theorem C147_what_a_panic_costs :
    forall (bad : pcall -> bool) f all n (y : option stree) made s,
      handler bad f all n y = (made, s) ->
      (exists rest, fst (handler (fun _ => false) f all n y) = QAll n :: QId n :: QClone (id_of n) :: rest /\ (y = None -> rest = [])) /\
      forall y', s = Broken y' -> if length made <=? 3 then y' = y else y' = None /\ y <> None.
  Proof.
    intros bad f all n y made s E. split.
    - unfold handler. assert (N : forall l : list pcall, existsb (fun _ => false) l = false) by (induction l; auto).
      destruct y as [t|].
      + destruct (writing f (id_of n) t (all n)) as [ws o]. rewrite !N. exists ws. split; [reflexivity|discriminate].
      + rewrite !N. exists []. auto.
    - intros y' ->. unfold handler in E. destruct (match y with Some t => _ | None => _ end) as [ws o] eqn:Wo.
      destruct (existsb bad (reading n)) eqn:Er.
      + pose proof (f_equal fst E) as E1. pose proof (f_equal snd E) as E2. cbn [fst snd] in E1, E2. injection E2 as <-.
        clear E. destruct (up_to_panics _ _ Er) as (l1 & u & l2 & E & U & _). rewrite <- E1, U. apply (f_equal (@length _)) in E.
        rewrite app_length in E. cbn in E. rewrite app_length. cbn [length]. replace (length l1 + 1 <=? 3) with true; [reflexivity|]. symmetry. apply Nat.leb_le. lia.
      + destruct (existsb bad ws) eqn:Ew.
        * pose proof (f_equal fst E) as E1. pose proof (f_equal snd E) as E2. cbn [fst snd] in E1, E2. injection E2 as <-.
          clear E. destruct (up_to_panics _ _ Ew) as (l1 & u & l2 & -> & U & _). rewrite <- E1, U, !app_length. cbn [length reading].
          replace (3 + (length l1 + 1) <=? 3) with false by (symmetry; apply Nat.leb_gt; lia). split; [reflexivity|]. intros ->.
          injection Wo as Wo _. destruct l1; discriminate.
        * destruct y, o; discriminate.
  Qed.

  (** C147: the id of the node is cloned at most once, and its clone at most once for each interval, in order: for every one of them if the
      handler ends with the search tree, for none if that was not there; nothing else is cloned. *)
  Theorem C147_clones :
    forall (bad : pcall -> bool) f all n (y : option stree) made s,
      handler bad f all n y = (made, s) ->
      (exists l1 l2, all n = l1 ++ l2 /\ clones made = map (QAgain (id_of n)) l1 /\ (forall t, s = Done (Some t) -> l2 = []) /\ (y = None -> l1 = [])) /\
      forall a j b, made = a ++ QClone j :: b -> j = id_of n /\ a = [QAll n; QId n].
  Proof.
    intros bad f all n y made s E.
    assert (Wr : forall (ws : list pcall) o, match y with Some t => writing f (id_of n) t (all n) | None => ([], Some Leaf) end = (ws, o) ->
      (exists l1 l2, all n = l1 ++ l2 /\ clones ws = map (QAgain (id_of n)) l1 /\ (y <> None -> o <> None -> l2 = []) /\ (y = None -> l1 = [])) /\
      forall u, In u ws -> match u with QAll _ | QId _ | QClone _ => False | _ => True end).
    { intros ws o Wo. destruct y as [t|].
      - split.
        + destruct (writing_clones f (id_of n) (all n) t ws o Wo) as (l1 & l2 & A & C & N). exists l1, l2. repeat split; auto. discriminate.
        + intros u Iu. pose proof (writing_calls f (id_of n) (all n) t ws o u Wo Iu) as X. destruct u; auto.
      - injection Wo as <- <-. split; [|intros u []]. exists [], (all n). repeat split; auto. intros X; now destruct X. }
    unfold handler in E. destruct (match y with Some t => _ | None => _ end) as [ws o] eqn:Wo. specialize (Wr _ _ eq_refl). destruct Wr as [(l1 & l2 & A & C & N & M) Q].
    assert (Fin : forall ws' l1' l2', made = reading n ++ ws' -> (exists r, ws = ws' ++ r) -> all n = l1' ++ l2' -> clones ws' = map (QAgain (id_of n)) l1' ->
      (forall t, s = Done (Some t) -> l2' = []) -> (y = None -> l1' = []) ->
      (exists l1 l2, all n = l1 ++ l2 /\ clones made = map (QAgain (id_of n)) l1 /\ (forall t, s = Done (Some t) -> l2 = []) /\ (y = None -> l1 = [])) /\
      forall a j b, made = a ++ QClone j :: b -> j = id_of n /\ a = [QAll n; QId n]).
    { intros ws' l1' l2' -> [r Er] A' C' N' M'. split; [exists l1', l2'; auto|]. intros a j b Ea.
      apply app_cons_split in Ea. destruct Ea as [(c & Ea & _)|(c & -> & Ea)].
      - unfold reading in Ea. destruct a as [|q1 [|q2 [|q3 a]]]; cbn in Ea; try discriminate.
        + injection Ea as <- <- <- _. auto.
        + injection Ea as _ _ _ Ea. destruct a; discriminate.
      - exfalso. apply (Q (QClone j)). rewrite Er, Ea. apply in_app_iff. left. apply in_app_iff. right. now left. }
    destruct (existsb bad (reading n)) eqn:Er.
    - pose proof (f_equal fst E) as E1. pose proof (f_equal snd E) as E2. cbn [fst snd] in E1, E2. clear E. split.
      + exists [], (all n). split; [reflexivity|]. split; [|split; [intros t Et; rewrite <- E2 in Et; discriminate|reflexivity]].
        rewrite <- E1. cbn. destruct (bad (QAll n)); [reflexivity|]. destruct (bad (QId n)); [reflexivity|]. destruct (bad (QClone (id_of n))); reflexivity.
      + intros a j b Ea. rewrite Ea in E1. clear - E1. unfold reading in E1. cbn in E1. destruct (bad (QAll n)).
        { destruct a as [|q [|q' a]]; discriminate. }
        destruct (bad (QId n)). { destruct a as [|q [|q' [|q'' a]]]; discriminate. }
        assert (E2 : [QAll n; QId n; QClone (id_of n)] = a ++ QClone j :: b) by (destruct (bad (QClone (id_of n))); exact E1). clear E1.
        destruct a as [|q1 [|q2 [|q3 a]]]; cbn in E2; try discriminate.
        * injection E2 as <- <- <- _. auto.
        * injection E2 as _ _ _ E2. destruct a; discriminate.
    - destruct (existsb bad ws) eqn:Ew.
      + destruct (up_to_panics _ _ Ew) as (c1 & u & c2 & Ec & U & _).
        pose proof (f_equal fst E) as E1. pose proof (f_equal snd E) as E2. cbn [fst snd] in E1, E2. clear E. rewrite U in E1.
        assert (Ec' : ws = (c1 ++ [u]) ++ c2) by (rewrite Ec, <- app_assoc; reflexivity).
        assert (X : exists la lb, l1 = la ++ lb /\ clones (c1 ++ [u]) = map (QAgain (id_of n)) la).
        { rewrite Ec' in C. unfold clones in C. rewrite filter_app in C. symmetry in C. apply map_eq_app in C. destruct C as (la & lb & -> & C & _). exists la, lb. split; [reflexivity|]. now symmetry. }
        destruct X as (la & lb & -> & X). apply (Fin (c1 ++ [u]) la (lb ++ l2)); auto.
        * exists c2. exact Ec'.
        * now rewrite app_assoc.
        * intros t Et. rewrite <- E2 in Et. discriminate.
        * intros Y. specialize (M Y). now apply app_eq_nil in M.
      + pose proof (f_equal fst E) as E1. pose proof (f_equal snd E) as E2. cbn [fst snd] in E1, E2. clear E. apply (Fin ws l1 l2); auto.
        * exists []. now rewrite app_nil_r.
        * intros t Et. rewrite <- E2 in Et. destruct y as [t0|]; [|discriminate]. destruct o; [|discriminate]. apply N; discriminate.
  Qed.

  Lemma handler_calls (bad : pcall -> bool) f all n (y : option stree) made s : handler bad f all n y = (made, s) ->
    (exists r, reading n = made ++ r) \/ exists ws r o t, y = Some t /\ writing f (id_of n) t (all n) = (ws ++ r, o) /\ made = reading n ++ ws.
  Proof.
    unfold handler. destruct y as [t|].
    - destruct (writing f (id_of n) t (all n)) as [ws o] eqn:Wo. destruct (existsb bad (reading n)) eqn:Er; [|destruct (existsb bad ws) eqn:Ew]; intros E;
        pose proof (f_equal fst E) as E1; cbn [fst] in E1; clear E.
      + left. destruct (up_to_panics _ _ Er) as (l1 & u & l2 & E & U & _). exists l2. rewrite <- E1, U, <- app_assoc. exact E.
      + right. destruct (up_to_panics _ _ Ew) as (l1 & u & l2 & E & U & _). rewrite U in E1. exists (l1 ++ [u]), l2, o, t. split; [reflexivity|]. split; [|now symmetry].
        rewrite Wo, E, <- app_assoc. reflexivity.
      + right. exists ws, [], o, t. rewrite app_nil_r. auto.
    - cbn [existsb]. destruct (existsb bad (reading n)) eqn:Er; intros E; pose proof (f_equal fst E) as E1; cbn [fst] in E1; clear E; left.
      + destruct (up_to_panics _ _ Er) as (l1 & u & l2 & E & U & _). exists l2. rewrite <- E1, U, <- app_assoc. exact E.
      + exists []. rewrite app_nil_r in *. exact E1.
  Qed.

  Lemma writing_snoc f i v l : forall (t : stree) (ws : list pcall) t', writing f i t l = (ws, Some t') ->
    writing f i t (l ++ [v]) = (ws ++ QAgain i v :: flat_map behind (fst (tree_calls (2 + count t') t' (f (NI i v)))), fst (snd (tree_calls (2 + count t') t' (f (NI i v))))).
  Proof.
    induction l as [|u l IH]; intros t ws t' E; cbn [writing app] in *.
    - injection E as <- <-. destruct (tree_calls _ _ _) as [us [o e]]. cbn [fst snd app]. destruct o; [|reflexivity]. now rewrite app_nil_r.
    - destruct (tree_calls (2 + count t) t (f (NI i u))) as [us [o e]]. destruct o as [t1|]; [|discriminate].
      destruct (writing f i t1 l) as [rest o'] eqn:Wr. injection E as <- ->. rewrite (IH _ _ _ Wr). cbn [app]. now rewrite <- app_assoc.
  Qed.

  (** C147: one interval more: after all the calls about those before, the id is cloned and then the interval is written. *)
  Theorem C147_interval_by_interval :
    forall (bad : pcall -> bool) f n l v (t t' : stree) calls,
      handler bad f (fun _ => l) n (Some t) = (calls, Done (Some t')) ->
      let '(us, (o, _)) := tree_calls (2 + count t') t' (f (NI (id_of n) v)) in
      handler (fun _ => false) f (fun _ => l ++ [v]) n (Some t) =
        (calls ++ QAgain (id_of n) v :: flat_map behind us, match o with Some t'' => Done (Some t'') | None => Endless end) /\
      (safe bad (QAgain (id_of n) v :: flat_map behind us) ->
        handler bad f (fun _ => l ++ [v]) n (Some t) = handler (fun _ => false) f (fun _ => l ++ [v]) n (Some t)).
  Proof.
    intros bad f n l v t t' calls E. unfold handler in *. destruct (writing f (id_of n) t l) as [ws o] eqn:Wr.
    destruct (existsb bad (reading n)) eqn:Er; [discriminate|]. destruct (existsb bad ws) eqn:Ew; [discriminate|]. destruct o as [t1|]; [|discriminate].
    pose proof (f_equal fst E) as E1. pose proof (f_equal snd E) as E2. cbn [fst snd] in E1, E2. injection E2 as ->. clear E.
    pose proof (writing_snoc f (id_of n) v l t ws t' Wr) as Ws. destruct (tree_calls (2 + count t') t' (f (NI (id_of n) v))) as [us [o e]]. cbn [fst snd] in Ws. rewrite Ws.
    assert (N : forall l : list pcall, existsb (fun _ => false) l = false) by (induction l0; auto). rewrite !N. split.
    - rewrite <- E1, <- app_assoc. reflexivity.
    - intros S. apply safe_iff in S. rewrite existsb_app, Ew, S. reflexivity.
  Qed.

  (** C147: saves compare neither ids nor intervals. *)
  Theorem C147_saves_do_not_compare :
    forall (bad : pcall -> bool) all n (y : option stree) u,
      In u (fst (handler bad XInsert all n y)) -> ~ compares u.
  Proof.
    intros bad all n y u Iu. destruct (handler bad XInsert all n y) as [made s] eqn:E. cbn [fst] in Iu.
    assert (Rd : In u (reading n) -> ~ compares u) by (intros [<-|[<-|[<-|[]]]] []).
    apply handler_calls in E. destruct E as [[r E]|(ws & r & o & t & _ & Wr & ->)].
    - apply Rd. rewrite E. apply in_app_iff. now left.
    - apply in_app_iff in Iu. destruct Iu as [Iu|Iu]; [now apply Rd|].
      eapply writing_no_eq; [exact Wr|]. apply in_app_iff. now left.
  Qed.

  (** C147: deletions compare an interval of the tree only with an interval of the node deleted, and only after its id has been
      found to be that of the node. *)
  Theorem C147_ids_are_compared_first :
    forall (bad : pcall -> bool) all n (y : option stree) l1 v u l2,
      fst (handler bad XDelete all n y) = l1 ++ QEq v u :: l2 ->
      In u (all n) /\ exists l0, l1 = l0 ++ [QIdEq (id_of n) (id_of n)].
  Proof.
    intros bad all n y l1 v u l2 Q. destruct (handler bad XDelete all n y) as [made s] eqn:E. cbn [fst] in Q. subst made.
    apply handler_calls in E. destruct E as [[r E]|(ws & r & o & t & _ & Wr & E)].
    - exfalso. assert (Iq : In (QEq v u) (reading n)) by (rewrite E; apply in_app_iff; left; apply in_app_iff; right; now left).
      destruct Iq as [X|[X|[X|[]]]]; discriminate.
    - symmetry in E. apply app_cons_split in E. destruct E as [(c & E & _)|(c & -> & ->)].
      + exfalso. assert (Iq : In (QEq v u) (reading n)) by (rewrite E; apply in_app_iff; right; now left).
        destruct Iq as [X|[X|[X|[]]]]; discriminate.
      + rewrite <- app_assoc in Wr. destruct (writing_eq _ _ _ _ _ _ _ _ _ Wr eq_refl) as (Iu & l0 & ->). split; [exact Iu|].
        exists (reading n ++ l0). now rewrite app_assoc.
  Qed.
End Properties.

(** ** Concrete case: a plugin on numbers, whose extractor gives [n] the intervals of [pn_all]; the second clone of the id 5 panics, and so
    does the extractor of 6. *)
#[local] Existing Instance nat_self.
Definition qp_bad (u : pcall nat nat (nat * nat) nat) : bool :=
  match u with QAgain i _ => Nat.eqb i 5 | QAll n => Nat.eqb n 6 | _ => false end.
Definition qp : pn_schema * pn_world :=
  install (O := unit) (W := unit) (FP := plugin_panics qp_bad) 0 1 1 (plugin_reads qp_bad pn_all) (built g_default []).
Definition qp_ex (u : type_id) : nat -> option (list (nat * nat)) := plugin_reads qp_bad pn_all.

Lemma qp_fitted : fitted (W := unit) (O := unit) (FP := plugin_panics qp_bad) [Plug 0 1] qp_ex (fst qp) (snd qp) (put 1 (Some t_default) ps_none) /\
  at_rest (snd qp) /\ g_reachable (w_graph (snd qp)) /\ shows (fst qp) (snd qp) (Plug 0 1) (Some t_default).
Proof.
  pose proof (built_lives (V := value nat (nat * nat) unit) (U := resource nat nat (nat * nat) nat unit) (g_default : graph nat nat) []) as L.
  assert (F := C134_none_installed (FP := plugin_panics qp_bad) qp_ex _ _ ps_none L
    ltac:(intros s Is; cbn in Is; decompose [or] Is; try contradiction; subst s; reflexivity)).
  destruct (C134_installed (FP := plugin_panics qp_bad) [] _ _ (fst qp) _ (snd qp) ps_none (Plug 0 1) (plugin_reads qp_bad pn_all) 1 L F) as (L' & _ & _ & F').
  - reflexivity.
  - discriminate.
  - discriminate.
  - intros q [].
  - reflexivity.
  - split; [|split; [repeat split|split; [constructor|reflexivity]]]. destruct F' as [G1 G2 G3 G4 G5 G6 G7 G8]. constructor; auto.
    intros p [<-|[]]. exact (G5 _ (or_introl eq_refl)).
Qed.

(** 7 is indexed; the panic about 6 loses its own save only; that about 5 loses the search tree; 8 is then saved and not indexed.
    The deletion of 7 compares its id and its interval. *)
Example C147_case :
  let s := fun n => Saving n Finish : @script nat nat (nat * nat) unit in
  let t7 := insert t_default (NI 7 (7, 10)) : tree (node_interval nat (nat * nat)) nat in
  let w1 := left_by (snd qp) (run (fst qp) 200 (snd qp) (session [s 7; s 6])) in
  let w2 := left_by (snd qp) (run (fst qp) 200 w1 (session [s 5; s 8])) in
  g_iter (w_graph w1) = [7] /\ index 1 (fst qp) w1 = Some [NI 7 (7, 10)] /\
  g_iter (w_graph w2) = [7; 8] /\ index 1 (fst qp) w2 = None /\
  handler qp_bad XInsert pn_all 7 (Some t_default) = ([QAll 7; QId 7; QClone 7; QAgain 7 (7, 10); QHi (7, 10)], Done (Some t7)) /\
  handler qp_bad XInsert pn_all 6 (Some t7) = ([QAll 6], Broken (Some t7)) /\
  handler qp_bad XInsert pn_all 5 (Some t7) = ([QAll 5; QId 5; QClone 5; QAgain 5 (5, 8)], Broken None) /\
  handler qp_bad XInsert pn_all 8 None = ([QAll 8; QId 8; QClone 8], Done None) /\
  handler qp_bad XDelete pn_all 7 (Some t7) = ([QAll 7; QId 7; QClone 7; QAgain 7 (7, 10); QIdEq 7 7; QEq (7, 10) (7, 10)], Done (Some Leaf)).
Proof. vm_compute. repeat split. Qed.

Print Assumptions C147_saving.
Print Assumptions C147_deleting.
Print Assumptions C147_up_to_the_first_panic.
Print Assumptions C147_what_a_panic_costs.
Print Assumptions C147_clones.
Print Assumptions C147_interval_by_interval.
Print Assumptions C147_saves_do_not_compare.
Print Assumptions C147_ids_are_compared_first.
