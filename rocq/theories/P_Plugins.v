(** Properties C134 and C135: several interval plugins on one schema, and panics of user code in them. *)
From Coq Require Import List Bool Arith Lia.
From Verif Require Import Ord OrdFacts BTree BTreeFacts Graph GraphFacts Tx SpecTx TxFacts Interval SpecInterval IntervalFacts
  DemoInterval Prog SpecProg ProgFacts ProgRes P_Res P_Avoid Plugin SpecPlugin PluginFacts PluginScripts P_Plugin SpecPlugins PluginsFacts.
Import ListNotations.

(** ** Panics *)
Section Panicking.
  Context {Id Node I B O W : Type} `{HO : OrdT Id} `{HI : Identify Node Id} `{HB : OrdT B} `{HV : Interval I B} `{HP : PartialEq I} {FP : Panics (node_interval Id I) B}.
  Notation ni := (node_interval Id I).
  Notation stree := (tree ni B).
  Notation value := (value Id I W).
  Notation resource := (resource Id Node I B O).
  Notation world := (world Id Node value resource).
  Notation schema := (schema Id Node value resource).
  Notation script := (@script Id Node I W).
  Notation trees := (@trees Id I B).
  Notation extractors := (@extractors Node I).
  Notation fitted := (SpecPlugins.fitted (O := O) (W := W)).
  Notation compiled := (SpecPlugin.compiled (B := B) (O := O)).
  Notation session := (SpecPlugin.session (B := B) (O := O)).

  (** C135: one transaction. *)
  Theorem C135_transaction_with_panics :
    forall ps (ex : extractors) (sc : schema) (w : world) x (s : script),
      fitted ps ex sc w x -> at_rest w -> g_reachable (w_graph w) ->
      match play ps ex s (g_get (w_graph w)) x with
      | Some (v, x', o) =>
          exists w', ends sc w (PWith (TxBg None) (compiled s) PRet) w' o /\ fitted ps ex sc w' x' /\ at_rest w' /\
            forall i, g_get (w_graph w') i = match o with ORet (RErr _) | OPanic => g_get (w_graph w) i | _ => v i end
      | None => diverges sc w (PWith (TxBg None) (compiled s) PRet)
      end.
  Proof.
    intros ps ex sc w x s F A R.
    assert (S : settled ps ex sc w (g_get (w_graph w)) x) by (constructor; auto; now apply g_reachable_wf).
    pose proof (bg_played ps ex sc s w _ x S) as X. pose proof (play_back ps ex s (g_get (w_graph w)) x) as Bk.
    destruct (play ps ex s (g_get (w_graph w)) x) as [[[v x'] o]|]; [|exact X].
    destruct X as (w' & E & [F' A' _ V']). exists w'. split; [now apply exec_run|]. split; [exact F'|]. split; [exact A'|].
    intros i. rewrite V'. destruct (Bk _ _ _ eq_refl) as [[[| |e] ->] | ->]; reflexivity.
  Qed.

  (** C135: any sequence of them. *)
  Theorem C135_session_with_panics :
    forall ps (ex : extractors) (sc : schema) (w : world) x (ss : list script),
      fitted ps ex sc w x -> at_rest w -> g_reachable (w_graph w) ->
      match play_all ps ex ss (g_get (w_graph w)) x with
      | Some (v, x') =>
          exists w', ends sc w (session ss) w' (ORet RUnit) /\ fitted ps ex sc w' x' /\ at_rest w' /\
            forall i, g_get (w_graph w') i = v i
      | None => diverges sc w (session ss)
      end.
  Proof.
    intros ps ex sc w x ss F A R.
    assert (S : settled ps ex sc w (g_get (w_graph w)) x) by (constructor; auto; now apply g_reachable_wf).
    pose proof (session_played ps ex sc ss w _ x S) as X.
    destruct (play_all ps ex ss (g_get (w_graph w)) x) as [[v x']|]; [|exact X].
    destruct X as (w' & E & [F' A' _ V']). exists w'. split; [now apply exec_run|]. auto.
  Qed.

  (** *** What is lost *)
  Lemma put_at ty o (x : trees) u : put ty o x u = if Nat.eqb u ty then o else x u.
  Proof. reflexivity. Qed.

  (** A property of one tree, kept by the plugins. *)
  Section Kept.
    Variables (ty : type_id) (Q : option stree -> Prop).

    Lemma plugins_keep (ex : extractors) change n : (forall t l, Q (Some t) -> match change t l with Done o | Broken o => Q o | Endless => True end) ->
      forall ps x, Q (x ty) -> match plugins_do ex change n ps x with Done x' | Broken x' => Q (x' ty) | Endless => True end.
    Proof.
      intros Ch. induction ps as [|p ps IH]; intros x Qx; cbn [plugins_do]; [exact Qx|].
      assert (X : match plugin_does ex change n p x with Done x' | Broken x' => Q (x' ty) | Endless => True end).
      { unfold plugin_does. destruct (ex (pg_extr p) n) as [l|]; [|exact Qx]. destruct (x (pg_tree p)) as [t|] eqn:Et; [|exact Qx].
        set (l' := map _ l). destruct (Nat.eqb_spec ty (pg_tree p)) as [E|Ne].
        - subst ty. rewrite Et in Qx. specialize (Ch t l' Qx). destruct (change t l'); try exact Logic.I; unfold put; now rewrite Nat.eqb_refl.
        - apply Nat.eqb_neq in Ne. destruct (change t l'); try exact Logic.I; unfold put; now rewrite Ne. }
      destruct (plugin_does ex change n p x) as [x1|x1|]; [apply IH; exact X|exact X|exact Logic.I].
    Qed.

    Hypothesis Ins : forall t l, Q (Some t) -> match inserting t l with Done o | Broken o => Q o | Endless => True end.
    Hypothesis Del : forall t l, Q (Some t) -> match deleting t l with Done o | Broken o => Q o | Endless => True end.

    Lemma play_keeps ps (ex : extractors) (s : script) : forall v x, Q (x ty) ->
      match play ps ex s v x with Some (_, x', _) => Q (x' ty) | None => True end.
    Proof.
      induction s as [r| |i k IH|n k IH|i k IH|n s IH|i s IH|body IHb k IHk]; intros v x Qx; cbn [play].
      1,2: exact Qx. 1: now apply IH. 3,4: now apply IH.
      - pose proof (plugins_keep ex inserting n Ins ps x Qx) as X. destruct (plugins_do ex inserting n ps x); [now apply IH|exact X|exact Logic.I].
      - destruct (v i) as [n|]; [|now apply IH]. pose proof (plugins_keep ex deleting n Del ps x Qx) as X. destruct (plugins_do ex deleting n ps x); [now apply IH|exact X|exact Logic.I].
      - specialize (IHb v x Qx). destruct (play ps ex body v x) as [[[v1 x1] [r| | |]]|]; try exact Logic.I; now apply IHk.
    Qed.

    Lemma play_all_keeps ps (ex : extractors) (ss : list script) : forall v x, Q (x ty) ->
      match play_all ps ex ss v x with Some (_, x') => Q (x' ty) | None => True end.
    Proof.
      induction ss as [|s ss IH]; intros v x Qx; cbn [play_all]; [exact Qx|].
      pose proof (play_keeps ps ex s v x Qx) as X. destruct (play ps ex s v x) as [[[v1 x1] [r| | |]]|]; try exact Logic.I; now apply IH.
    Qed.
  End Kept.

  (** C135: a search tree whose writing panicked, or that is not there, is never found again. *)
  Theorem C135_lost_for_ever :
    forall ps (ex : extractors) (sc : schema) (w : world) x (ss : list script) p w' o,
      fitted ps ex sc w x -> at_rest w -> g_reachable (w_graph w) -> In p ps ->
      reads w (res_from sc (pg_tree p)) = None -> ends sc w (session ss) w' o -> reads w' (res_from sc (pg_tree p)) = None.
  Proof.
    intros ps ex sc w x ss p w' o F A R Ip Rd E.
    rewrite (ft_tree _ _ _ _ _ F p Ip) in Rd. assert (Xp : x (pg_tree p) = None) by (destruct (x (pg_tree p)); [discriminate|reflexivity]).
    pose proof (C135_session_with_panics ps ex sc w x ss F A R) as S.
    pose proof (play_all_keeps (pg_tree p) (fun o => o = None)) as K.
    specialize (K ltac:(discriminate) ltac:(discriminate) ps ex ss (g_get (w_graph w)) x Xp).
    destruct (play_all ps ex ss (g_get (w_graph w)) x) as [[v x']|].
    - destruct S as (w1 & E1 & F1 & _). destruct (ends_det _ _ _ _ _ _ _ E1 E) as [<- _]. rewrite (ft_tree _ _ _ _ _ F1 p Ip), K. reflexivity.
    - destruct E as [fuel E]. rewrite (S fuel) in E. discriminate.
  Qed.

  (** C135: only panics while a search tree is written lose it: those of extractors do not. *)
  Theorem C135_not_lost_otherwise :
    forall ps (ex : extractors) (sc : schema) (w : world) x (ss : list script) p w' o,
      (forall t y, insert_panics t y = false) -> (forall t y, delete_panics t y = false) ->
      fitted ps ex sc w x -> at_rest w -> g_reachable (w_graph w) -> In p ps ->
      reads w (res_from sc (pg_tree p)) <> None -> ends sc w (session ss) w' o -> reads w' (res_from sc (pg_tree p)) <> None.
  Proof.
    intros ps ex sc w x ss p w' o Ni Nd F A R Ip Rd E.
    rewrite (ft_tree _ _ _ _ _ F p Ip) in Rd. assert (Xp : x (pg_tree p) <> None) by (destruct (x (pg_tree p)); [discriminate|now destruct Rd]).
    pose proof (C135_session_with_panics ps ex sc w x ss F A R) as S.
    assert (Ki : forall l (t : stree), match inserting t l with Done o | Broken o => o <> None | Endless => True end).
    { induction l as [|y l IH]; intros t; cbn; [discriminate|]. rewrite Ni. apply IH. }
    assert (Kd : forall l (t : stree), match deleting t l with Done o | Broken o => o <> None | Endless => True end).
    { induction l as [|y l IH]; intros t; cbn; [discriminate|]. rewrite Nd. destruct (t_delete t y); [apply IH|exact Logic.I]. }
    pose proof (play_all_keeps (pg_tree p) (fun o => o <> None) (fun t l _ => Ki l t) (fun t l _ => Kd l t) ps ex ss (g_get (w_graph w)) x Xp) as K.
    destruct (play_all ps ex ss (g_get (w_graph w)) x) as [[v x']|].
    - destruct S as (w1 & E1 & F1 & _). destruct (ends_det _ _ _ _ _ _ _ E1 E) as [<- _]. rewrite (ft_tree _ _ _ _ _ F1 p Ip).
      destruct (x' (pg_tree p)); [discriminate|now destruct K].
    - destruct E as [fuel E]. rewrite (S fuel) in E. discriminate.
  Qed.

  (** *** All trees lost *)
  Lemma plugins_idle (ex : extractors) change n (x : trees) : forall ps, (forall p, In p ps -> x (pg_tree p) = None) ->
    (forall p m, In p ps -> ex (pg_extr p) m <> None) -> plugins_do ex change n ps x = Done x.
  Proof.
    induction ps as [|p ps IH]; intros Lo Ex; [reflexivity|]. cbn [plugins_do]. unfold plugin_does.
    pose proof (Ex p n (or_introl eq_refl)) as Ep. destruct (ex (pg_extr p) n) as [l|]; [|congruence].
    rewrite (Lo p (or_introl eq_refl)). apply IH; [|intros q m Iq]; intros; [apply Lo|apply Ex]; now right.
  Qed.

  Section Idle.
    Variables (ps : list plug) (ex : extractors) (x : trees).
    Hypothesis Lo : forall p, In p ps -> x (pg_tree p) = None.
    Hypothesis Ex : forall p m, In p ps -> ex (pg_extr p) m <> None.

    Lemma play_idle (s : script) v es v' o : does (fun _ => []) s v es v' o -> play ps ex s v x = Some (v', x, o).
    Proof.
      induction 1 as [r v|v|i k v es v' o D IH|n k v es v' o D IH|i n k v es v' o Vi D IH|i k v es v' o Vi D IH
                     |n k v es v' o D IH|i k v es v' o D IH|body k v es v1 r es' v' o D1 IH1 Ok D2 IH2
                     |body k v es v1 e es' v' o D1 IH1 D2 IH2|body k v es v1 es' v' o D1 IH1 D2 IH2]; cbn [play]; auto.
      - now rewrite plugins_idle.
      - rewrite Vi. now rewrite plugins_idle.
      - now rewrite Vi.
      - rewrite IH1. destruct r as [| |e]; cbn; [exact IH2|exact IH2|]. exfalso. now apply (Ok e).
      - rewrite IH1. exact IH2.
      - rewrite IH1. exact IH2.
    Qed.

    Lemma play_all_idle (ss : list script) v es v' : all_do (fun _ => []) ss v es v' -> play_all ps ex ss v x = Some (v', x).
    Proof.
      induction 1 as [v|s ss v es v1 r es' v' D Ok A IH|s ss v es v1 e es' v' D A IH|s ss v es v1 es' v' D A IH]; cbn [play_all]; auto;
        rewrite (play_idle _ _ _ _ _ D); auto.
      destruct r as [| |e]; cbn; auto. exfalso. now apply (Ok e).
    Qed.
  End Idle.

  (** C135: once all search trees are lost, transactions do what they do without plugins; none runs for ever. *)
  Theorem C135_without_trees_as_without_plugins :
    forall ps (ex : extractors) (sc : schema) (w : world) x (ss : list script) es v',
      fitted ps ex sc w x -> at_rest w -> g_reachable (w_graph w) ->
      (forall p, In p ps -> reads w (res_from sc (pg_tree p)) = None) ->
      (forall p n, In p ps -> ex (pg_extr p) n <> None) ->
      all_do (fun _ => []) ss (g_get (w_graph w)) es v' ->
      exists w', ends sc w (session ss) w' (ORet RUnit) /\ at_rest w' /\ forall i, g_get (w_graph w') i = v' i.
  Proof.
    intros ps ex sc w x ss es v' F A R Lo Ex D.
    pose proof (C135_session_with_panics ps ex sc w x ss F A R) as S.
    assert (Lx : forall p, In p ps -> x (pg_tree p) = None).
    { intros p Ip. specialize (Lo p Ip). rewrite (ft_tree _ _ _ _ _ F p Ip) in Lo. destruct (x (pg_tree p)); [discriminate|reflexivity]. }
    rewrite (play_all_idle ps ex x Lx Ex ss _ _ _ D) in S. destruct S as (w' & E & _ & A' & V). eauto.
  Qed.

  (** ** Installing *)
  Lemma scheduled_more (sc : schema) s (f : trigger Id Node value resource) s' : bt_sorted (sc_triggers sc) ->
    scheduled (Schema (sc_resources sc) (ts_with_trigger (sc_triggers sc) s f)) s' =
    scheduled sc s' ++ (if Nat.eqb s s' then [f] else []).
  Proof.
    intros So. unfold scheduled, ts_select, ts_with_trigger. cbn [sc_triggers]. destruct (bt_get s (sc_triggers sc)) as [l|] eqn:G;
      rewrite bt_get_insert by exact So; change (eqb s s') with (match cmp s s' with Eq => true | _ => false end);
      destruct (Nat.eqb_spec s s') as [<-|Ne].
    - rewrite cmp_refl, G. reflexivity.
    - destruct (cmp s s') eqn:C; [apply cmp_eq in C; congruence|..]; now rewrite app_nil_r.
    - rewrite cmp_refl, G. reflexivity.
    - destruct (cmp s s') eqn:C; [apply cmp_eq in C; congruence|..]; now rewrite app_nil_r.
  Qed.

  Lemma reads_more (sc sc' : schema) (w w' : world) t u : lives sc w -> sc_with_resource t u (sc, w) = (sc', w') ->
    forall t', reads w' (res_from sc' t') = if Nat.eqb t' t then Some (DRes t u) else reads w (res_from sc t').
  Proof.
    intros L E t'. destruct (lives_inv _ _ L) as (So & _ & Ad). cbn in E. injection E as <- <-.
    unfold reads, res_from. cbn [h_addr h_ty sc_resources w_cells set_cells]. rewrite bt_get_insert by exact So.
    change (eqb t t') with (match cmp t t' with Eq => true | _ => false end). destruct (Nat.eqb_spec t' t) as [-> |Ne].
    - rewrite cmp_refl, nth_error_app2, Nat.sub_diag by lia. cbn. now rewrite Nat.eqb_refl.
    - destruct (cmp t t') eqn:C; [apply cmp_eq in C; congruence| |];
        (destruct (bt_get t' (sc_resources sc)) as [a|] eqn:G; [|reflexivity]; rewrite nth_error_app1 by (eapply Ad; eauto); reflexivity).
  Qed.

  (** C134: before any is installed. *)
  Theorem C134_none_installed :
    forall (ex : extractors) (sc : schema) (w : world) x,
      lives sc w -> (forall s, In s [BeforeSave; AfterSave; BeforeDelete; AfterDelete] -> scheduled sc s = []) -> fitted [] ex sc w x.
  Proof.
    intros ex sc w x L N. destruct (lives_inv _ _ L) as (_ & Fr & Ad).
    constructor; try (apply N; cbn; tauto).
    1,2: intros p [].
    - intros a y Na. apply Fr. eapply nth_error_In; eauto.
    - intros t a Ea. eapply Ad. exact Ea.
  Qed.

  (** C134: installing a plugin: a new search tree, in the place of the one of the same type, the extractor likewise. *)
  Theorem C134_installed :
    forall ps (ex : extractors) (sc sc' : schema) (w w' : world) x p all ty_node,
      lives sc w -> fitted ps ex sc w x ->
      reads w (res_from sc (pg_tree p)) = option_map (fun t => DRes (pg_tree p) (RTree t)) (x (pg_tree p)) ->
      ty_node <> pg_extr p -> pg_tree p <> pg_extr p ->
      (forall q, In q ps -> pg_extr q <> ty_node /\ pg_tree q <> pg_extr p) ->
      install (pg_extr p) (pg_tree p) ty_node all (sc, w) = (sc', w') ->
      lives sc' w' /\ w_graph w' = w_graph w /\ (at_rest w -> at_rest w') /\
      fitted (ps ++ [p]) (fun u => if Nat.eqb u (pg_extr p) then all else ex u) sc' w' (put ty_node (Some t_default) x).
  Proof.
    intros ps ex sc sc' w w' x p all ty_node L F Rp N1 N2 Nq E.
    unfold install in E.
    destruct (sc_with_resource (pg_extr p) (RExtr all) (sc, w)) as [sc1 w1] eqn:E1.
    destruct (sc_with_resource ty_node (RTree t_default) (sc1, w1)) as [sc2 w2] eqn:E2.
    destruct (sc_with_trigger AfterSave (on_save (pg_extr p) (pg_tree p)) (sc2, w2)) as [sc3 w3] eqn:E3.
    assert (L1 : lives sc1 w1) by (eapply lv_build with (b := BResource (pg_extr p) (RExtr all)); [exact L|exact E1]).
    assert (L2 : lives sc2 w2) by (eapply lv_build with (b := BResource ty_node (RTree t_default)); [exact L1|exact E2]).
    assert (L3 : lives sc3 w3) by (eapply lv_build with (b := BTrigger AfterSave _); [exact L2|exact E3]).
    assert (L4 : lives sc' w') by (eapply lv_build with (b := BTrigger AfterDelete _); [exact L3|exact E]).
    pose proof (reads_more _ _ _ _ _ _ L E1) as R1. pose proof (reads_more _ _ _ _ _ _ L1 E2) as R2.
    assert (R4 : forall t, reads w' (res_from sc' t) =
      if Nat.eqb t ty_node then Some (DRes ty_node (RTree t_default)) else if Nat.eqb t (pg_extr p) then Some (DRes (pg_extr p) (RExtr all)) else reads w (res_from sc t)).
    { intros t. cbn in E3. injection E3 as <- <-. cbn in E. injection E as <- <-. rewrite <- R1, <- R2. reflexivity. }
    assert (Tr : forall s, scheduled sc' s = (scheduled sc s ++ (if Nat.eqb AfterSave s then [on_save (pg_extr p) (pg_tree p)] else [])) ++
       (if Nat.eqb AfterDelete s then [on_delete (pg_extr p) (pg_tree p)] else [])).
    { intros s. cbn in E. injection E as <- <-. rewrite scheduled_more by (eapply lives_triggers; exact L3). f_equal.
      cbn in E3. injection E3 as <- <-. rewrite scheduled_more by (eapply lives_triggers; exact L2). f_equal.
      cbn in E2. injection E2 as <- <-. cbn in E1. injection E1 as <- <-. reflexivity. }
    destruct (lives_inv _ _ L4) as (_ & Fr & Ad).
    split; [exact L4|]. split; [|split].
    - cbn in E. injection E as _ <-. cbn in E3. injection E3 as _ <-. cbn in E2. injection E2 as _ <-. cbn in E1. injection E1 as _ <-. reflexivity.
    - intros A. cbn in E. injection E as _ <-. cbn in E3. injection E3 as _ <-. cbn in E2. injection E2 as _ <-. cbn in E1. injection E1 as _ <-. exact A.
    - constructor.
      + rewrite Tr, (ft_before_save _ _ _ _ _ F). reflexivity.
      + rewrite Tr, (ft_after_save _ _ _ _ _ F), map_app. cbn. now rewrite app_nil_r.
      + rewrite Tr, (ft_before_delete _ _ _ _ _ F). reflexivity.
      + rewrite Tr, (ft_after_delete _ _ _ _ _ F), map_app. cbn. now rewrite app_nil_r.
      + intros q Iq. rewrite R4. apply in_app_or in Iq as [Iq|[<-|[]]].
        * destruct (Nq q Iq) as [Nq1 Nq2]. destruct (Nat.eqb_spec (pg_extr q) ty_node); [contradiction|].
          destruct (Nat.eqb_spec (pg_extr q) (pg_extr p)) as [Eq|_]; [now rewrite Eq|]. now apply F.
        * destruct (Nat.eqb_spec (pg_extr p) ty_node); [congruence|]. now rewrite Nat.eqb_refl.
      + intros q Iq. rewrite R4. unfold put. destruct (Nat.eqb_spec (pg_tree q) ty_node) as [Eq|_]; [now rewrite Eq|].
        apply in_app_or in Iq as [Iq|[<-|[]]].
        * destruct (Nq q Iq) as [_ Nq2]. destruct (Nat.eqb_spec (pg_tree q) (pg_extr p)); [contradiction|]. now apply F.
        * destruct (Nat.eqb_spec (pg_tree p) (pg_extr p)); [contradiction|]. exact Rp.
      + intros a y N. apply Fr. eapply nth_error_In; eauto.
      + intros t a Ea. eapply Ad. exact Ea.
  Qed.
End Panicking.
Print Assumptions C134_none_installed.
Print Assumptions C134_installed.
Print Assumptions C135_transaction_with_panics.
Print Assumptions C135_session_with_panics.
Print Assumptions C135_lost_for_ever.
Print Assumptions C135_not_lost_otherwise.
Print Assumptions C135_without_trees_as_without_plugins.

(** ** Several plugins, without panics *)
Section Calm.
  Context {Id Node I B O W : Type} `{HO : OrdT Id} `{HI : Identify Node Id} `{HB : OrdT B} `{HV : Interval I B} `{HP : PartialEq I}.
  Notation ni := (node_interval Id I).
  Notation stree := (tree ni B).
  Notation value := (value Id I W).
  Notation resource := (resource Id Node I B O).
  Notation world := (world Id Node value resource).
  Notation schema := (schema Id Node value resource).
  Notation script := (@script Id Node I W).
  Notation trees := (@trees Id I B).
  Notation fitted := (SpecPlugins.fitted (O := O) (W := W)).
  Notation session := (SpecPlugin.session (B := B) (O := O)).
  Variables (ps : list plug) (e : type_id -> Node -> list I).
  Notation ex := (fun u n => Some (e u n)).
  Notation owed := (of_type ps e).
  Notation nis n l := (map (NI (id_of n)) l).

  Lemma insert_all_app (a b : list ni) : forall t : stree, insert_all t (a ++ b) = insert_all (insert_all t a) b.
  Proof. intros t. unfold insert_all. apply fold_left_app. Qed.
  Lemma delete_all_app (a b : list ni) : forall t : stree,
    delete_all t (a ++ b) = match delete_all t a with Some t1 => delete_all t1 b | None => None end.
  Proof. induction a as [|y a IH]; intros t; [reflexivity|]. cbn. destruct (t_delete t y); [apply IH|reflexivity]. Qed.

  Lemma calm_inserting (l : list ni) (t : stree) : inserting t l = Done (Some (insert_all t l)).
  Proof. now rewrite inserting_all, no_insert_panics. Qed.
  Lemma calm_deleting (l : list ni) (t : stree) : deleting t l = match delete_all t l with Some t' => Done (Some t') | None => Endless end.
  Proof. now rewrite deleting_all, no_delete_panics. Qed.

  Lemma calm_inserts n : forall qs (x : trees), exists x', plugins_do ex inserting n qs x = Done x' /\
    forall ty, x' ty = option_map (fun t => insert_all t (nis n (of_type qs e ty n))) (x ty).
  Proof.
    induction qs as [|p qs IH]; intros x.
    - exists x. split; [reflexivity|]. intros ty. cbn. now destruct (x ty).
    - cbn [plugins_do]. unfold plugin_does. destruct (x (pg_tree p)) as [t|] eqn:Et.
      + rewrite calm_inserting. destruct (IH (put (pg_tree p) (Some (insert_all t (nis n (e (pg_extr p) n)))) x)) as (x' & E & X).
        exists x'. split; [exact E|]. intros ty. rewrite X. unfold put. cbn [of_type flat_map]. rewrite (Nat.eqb_sym ty).
        destruct (Nat.eqb_spec (pg_tree p) ty) as [<-|_]; [|reflexivity]. rewrite Et. cbn. now rewrite map_app, insert_all_app.
      + destruct (IH x) as (x' & E & X). exists x'. split; [exact E|]. intros ty. rewrite X. cbn [of_type flat_map].
        destruct (Nat.eqb_spec (pg_tree p) ty) as [<-|_]; [|reflexivity]. now rewrite Et.
  Qed.

  Lemma calm_deletes n : forall qs (x : trees),
    (exists x', plugins_do ex deleting n qs x = Done x' /\
      forall ty, match x ty with
        | Some t => exists t', delete_all t (nis n (of_type qs e ty n)) = Some t' /\ x' ty = Some t'
        | None => x' ty = None
        end) \/
    (plugins_do ex deleting n qs x = Endless /\
      exists p t, In p qs /\ x (pg_tree p) = Some t /\ delete_all t (nis n (of_type qs e (pg_tree p) n)) = None).
  Proof.
    induction qs as [|p qs IH]; intros x.
    - left. exists x. split; [reflexivity|]. intros ty. destruct (x ty) as [t|] eqn:Et; [|reflexivity]. exists t. auto.
    - cbn [plugins_do]. unfold plugin_does. destruct (x (pg_tree p)) as [t|] eqn:Et.
      + rewrite calm_deleting. change (map (fun i => NI (id_of n) i) ?l) with (nis n l).
        destruct (delete_all t (nis n (e (pg_extr p) n))) as [t1|] eqn:D.
        * destruct (IH (put (pg_tree p) (Some t1) x)) as [(x' & E & X)|(E & q & t2 & Iq & Eq & Dq)].
          -- left. exists x'. split; [exact E|]. intros ty. specialize (X ty). unfold put in X. rewrite (Nat.eqb_sym ty) in X. cbn [of_type flat_map]. revert X.
             destruct (Nat.eqb_spec (pg_tree p) ty) as [Ep|_]; [subst ty|exact (fun X => X)]. rewrite Et, map_app, delete_all_app, D. exact (fun X => X).
          -- right. split; [exact E|]. unfold put in Eq. cbn [of_type flat_map]. rewrite (Nat.eqb_sym (pg_tree q)) in Eq. revert Eq.
             destruct (Nat.eqb_spec (pg_tree p) (pg_tree q)) as [Ep|Np].
             ++ intros [= ->]. exists q, t. split; [now right|]. split; [now rewrite <- Ep|]. apply Nat.eqb_eq in Ep. rewrite Ep.
                rewrite map_app, delete_all_app, D. exact Dq.
             ++ intros Eq. exists q, t2. split; [now right|]. split; [exact Eq|]. apply Nat.eqb_neq in Np. now rewrite Np.
        * right. split; [reflexivity|]. exists p, t. split; [now left|]. split; [exact Et|]. cbn [of_type flat_map].
          rewrite Nat.eqb_refl, map_app, delete_all_app, D. reflexivity.
      + destruct (IH x) as [(x' & E & X)|(E & q & t2 & Iq & Eq & Dq)].
        * left. exists x'. split; [exact E|]. intros ty. specialize (X ty). cbn [of_type flat_map].
          destruct (Nat.eqb_spec (pg_tree p) ty) as [<-|_]; [|exact X]. rewrite Et in *. exact X.
        * right. split; [exact E|]. exists q, t2. split; [now right|]. split; [exact Eq|]. cbn [of_type flat_map].
          destruct (Nat.eqb_spec (pg_tree p) (pg_tree q)) as [Ep|Np]; [|exact Dq]. rewrite <- Ep, Et in Eq. discriminate.
  Qed.

  (** What becomes of the tree of one type. *)
  Definition advances (es : list (@tcall ni)) (o o' : option stree) : Prop :=
    match o with Some t => exists t', t_run 0 t es = Some t' /\ o' = Some t' | None => o' = None end.

  Lemma advances_app es es' o1 o2 o3 : advances es o1 o2 -> advances es' o2 o3 -> advances (es ++ es') o1 o3.
  Proof.
    unfold advances. destruct o1 as [t|]; [|intros ->; auto]. intros (t' & E & ->) (t2 & E2 & ->). exists t2. split; [|reflexivity].
    now rewrite t_run_app, E.
  Qed.

  Lemma advances_nil o : advances [] o o.
  Proof. destruct o as [t|]; cbn; eauto. Qed.

  Lemma advances_insert n ty (x x' : trees) : x' ty = option_map (fun t => insert_all t (nis n (owed ty n))) (x ty) ->
    advances (map TInsert (all_intervals (owed ty) [n])) (x ty) (x' ty).
  Proof. intros ->. unfold advances. destruct (x ty) as [t|]; [|reflexivity]. rewrite intervals_single, t_run_inserts_all. cbn. eauto. Qed.

  Lemma calm_play ty (s : script) v es v' o : does (owed ty) s v es v' o -> forall x v1 x1 o1,
    play ps ex s v x = Some (v1, x1, o1) -> v1 = v' /\ o1 = o /\ advances es (x ty) (x1 ty).
  Proof.
    induction 1 as [r v|v|i k v es v' o D IH|n k v es v' o D IH|i n k v es v' o Vi D IH|i k v es v' o Vi D IH
                   |n k v es v' o D IH|i k v es v' o D IH|body k v es v1 r es' v' o D1 IH1 Ok D2 IH2
                   |body k v es v1 er es' v' o D1 IH1 D2 IH2|body k v es v1 es' v' o D1 IH1 D2 IH2]; intros x u1 x1 o1; cbn [play].
    - intros [= <- <- <-]. auto using advances_nil.
    - intros [= <- <- <-]. auto using advances_nil.
    - apply IH.
    - destruct (calm_inserts n ps x) as (x' & -> & X). intros P. destruct (IH _ _ _ _ P) as (? & ? & A). split; [assumption|]. split; [assumption|].
      eapply advances_app; [|exact A]. apply advances_insert, X.
    - rewrite Vi. destruct (calm_deletes n ps x) as [(x' & -> & X)|[-> _]]; [|discriminate]. intros P. destruct (IH _ _ _ _ P) as (? & ? & A).
      split; [assumption|]. split; [assumption|]. eapply advances_app; [|exact A]. specialize (X ty). unfold advances.
      destruct (x ty) as [t|]; [|exact X]. now rewrite intervals_single, t_run_deletes_all.
    - rewrite Vi. apply IH.
    - apply IH.
    - apply IH.
    - destruct (play ps ex body v x) as [[[vb xb] ob]|] eqn:Pb; [|discriminate]. destruct (IH1 _ _ _ _ Pb) as (-> & -> & A1).
      assert (Su : succeeded r = true) by (rewrite succeeded_ok; now apply is_ok_true). rewrite Su. intros P.
      destruct (IH2 _ _ _ _ P) as (? & ? & A). split; [assumption|]. split; [assumption|]. eapply advances_app; eauto.
    - destruct (play ps ex body v x) as [[[vb xb] ob]|] eqn:Pb; [|discriminate]. destruct (IH1 _ _ _ _ Pb) as (-> & -> & A1).
      cbn [succeeded]. intros P. destruct (IH2 _ _ _ _ P) as (? & ? & A). split; [assumption|]. split; [assumption|]. eapply advances_app; eauto.
    - destruct (play ps ex body v x) as [[[vb xb] ob]|] eqn:Pb; [|discriminate]. destruct (IH1 _ _ _ _ Pb) as (-> & -> & A1).
      intros P. destruct (IH2 _ _ _ _ P) as (? & ? & A). split; [assumption|]. split; [assumption|]. eapply advances_app; eauto.
  Qed.

  (** A tree whose replay does not end. *)
  Definition stalls (x : trees) (replay : (Node -> list I) -> list (@tcall ni) -> Prop) : Prop :=
    exists p t es, In p ps /\ x (pg_tree p) = Some t /\ replay (owed (pg_tree p)) es /\ t_run 0 t es = None.

  Lemma stalls_later (x x1 : trees) (r1 r2 : (Node -> list I) -> list (@tcall ni) -> Prop) :
    (forall ty, exists es, r1 (owed ty) es /\ advances es (x ty) (x1 ty)) ->
    stalls x1 r2 -> stalls x (fun all es => exists es1 es2, r1 all es1 /\ r2 all es2 /\ es = es1 ++ es2).
  Proof.
    intros H1 (p & t & es & Ip & Ep & R2 & T). destruct (H1 (pg_tree p)) as (es1 & R1 & A). unfold advances in A.
    destruct (x (pg_tree p)) as [t0|] eqn:E0; [|congruence]. destruct A as (t' & T' & E'). rewrite Ep in E'. injection E' as <-.
    exists p, t0, (es1 ++ es). split; [exact Ip|]. split; [exact E0|]. split; [eauto|]. now rewrite t_run_app, T'.
  Qed.

  Lemma stalls_mono (x : trees) (r1 r2 : (Node -> list I) -> list (@tcall ni) -> Prop) :
    (forall all es, r1 all es -> r2 all es) -> stalls x r1 -> stalls x r2.
  Proof. intros H (p & t & es & A & C & D & E). exists p, t, es. auto. Qed.

  Lemma calm_endless (s : script) : forall v x, play ps ex s v x = None -> stalls x (fun all es => exists v' o, does all s v es v' o).
  Proof.
    induction s as [r| |i k IH|n k IH|i k IH|n s IH|i s IH|body IHb k IHk]; intros v x; cbn [play]; try discriminate.
    - intros P. eapply stalls_mono; [|apply (IH _ _ _ P)]. intros all es (v' & o & D). do 2 eexists. constructor. exact D.
    - destruct (calm_inserts n ps x) as (x' & -> & X). intros P.
      eapply stalls_mono; [|apply (stalls_later x x' (fun all es => es = map TInsert (all_intervals all [n])) _ ltac:(intros ty; eexists; split; [reflexivity|apply advances_insert, X]) (IH _ _ _ P))].
      intros all es (es1 & es2 & -> & (v' & o & D) & ->). do 2 eexists. constructor. exact D.
    - destruct (v i) as [n|] eqn:Vi.
      + destruct (calm_deletes n ps x) as [(x' & -> & X)|[-> (p & t & Ip & Ep & D)]].
        * intros P. eapply stalls_mono; [|eapply (stalls_later x x' (fun all es => es = map TDelete (all_intervals all [n]))); [|exact (IH _ _ _ P)]].
          -- intros all es (es1 & es2 & -> & (v' & o & D) & ->). do 2 eexists. eapply do_delete; [exact Vi|exact D].
          -- intros ty. eexists. split; [reflexivity|]. specialize (X ty). unfold advances. destruct (x ty) as [t|]; [|exact X].
             now rewrite intervals_single, t_run_deletes_all.
        * intros _. destruct (does_total (owed (pg_tree p)) (k RUnit) (base_set i None v)) as (es & v' & o & Dk).
          exists p, t, (map TDelete (all_intervals (owed (pg_tree p)) [n]) ++ es). split; [exact Ip|]. split; [exact Ep|]. split.
          -- do 2 eexists. eapply do_delete; [exact Vi|exact Dk].
          -- rewrite t_run_app, intervals_single, t_run_deletes_all. unfold intervals_of. now rewrite D.
      + intros P. eapply stalls_mono; [|apply (IH _ _ _ P)]. intros all es (v' & o & D). do 2 eexists. eapply do_absent; [exact Vi|exact D].
    - intros P. eapply stalls_mono; [|apply (IH _ _ P)]. intros all es (v' & o & D). do 2 eexists. constructor. exact D.
    - intros P. eapply stalls_mono; [|apply (IH _ _ P)]. intros all es (v' & o & D). do 2 eexists. constructor. exact D.
    - destruct (play ps ex body v x) as [[[v1 x1] o1]|] eqn:Pb.
      + assert (Ad : forall ty, exists es, does (owed ty) body v es v1 o1 /\ advances es (x ty) (x1 ty)).
        { intros ty. destruct (does_total (owed ty) body v) as (es & v' & o & D). destruct (calm_play ty body _ _ _ _ D _ _ _ _ Pb) as (-> & -> & A). eauto. }
        destruct o1 as [r| | |].
        * intros P. eapply stalls_mono; [|eapply (stalls_later x x1 (fun all es => does all body v es v1 (ORet r)) _ Ad (IHk _ _ _ P))].
          intros all es (es1 & es2 & D1 & (v' & o & D2) & ->). destruct r as [|z|er]; cbn [succeeded] in D2.
          -- do 2 eexists. eapply do_kept; [exact D1|discriminate|exact D2].
          -- do 2 eexists. eapply do_kept; [exact D1|discriminate|exact D2].
          -- do 2 eexists. eapply do_failed; [exact D1|exact D2].
        * intros P. eapply stalls_mono; [|eapply (stalls_later x x1 (fun all es => does all body v es v1 OPanic) _ Ad (IHk _ _ _ P))].
          intros all es (es1 & es2 & D1 & (v' & o & D2) & ->). do 2 eexists. eapply do_panicked; [exact D1|exact D2].
        * destruct (play_back ps ex body _ _ _ _ _ Pb) as [[? X]|X]; discriminate.
        * destruct (play_back ps ex body _ _ _ _ _ Pb) as [[? X]|X]; discriminate.
      + intros _. destruct (IHb _ _ Pb) as (p & t & es & Ip & Ep & (v' & o & D) & T).
        assert (Dn : exists es' v2 o2, does (owed (pg_tree p)) (Nested body k) v (es ++ es') v2 o2).
        { destruct (does_back _ _ _ _ _ _ D) as [[[|z|er] ->] | ->].
          - destruct (does_total (owed (pg_tree p)) (k (Some RUnit)) v') as (es' & v2 & o2 & D2). exists es'. do 2 eexists. eapply do_kept; [exact D|discriminate|exact D2].
          - destruct (does_total (owed (pg_tree p)) (k (Some (RVal z))) v') as (es' & v2 & o2 & D2). exists es'. do 2 eexists. eapply do_kept; [exact D|discriminate|exact D2].
          - destruct (does_total (owed (pg_tree p)) (k (Some (RErr er))) v) as (es' & v2 & o2 & D2). exists es'. do 2 eexists. eapply do_failed; [exact D|exact D2].
          - destruct (does_total (owed (pg_tree p)) (k None) v) as (es' & v2 & o2 & D2). exists es'. do 2 eexists. eapply do_panicked; [exact D|exact D2]. }
        destruct Dn as (es' & v2 & o2 & Dn). exists p, t, (es ++ es'). split; [exact Ip|]. split; [exact Ep|]. split; [eauto|].
        now rewrite t_run_app, T.
  Qed.

  Lemma calm_play_all ty (ss : list script) v es v' : all_do (owed ty) ss v es v' -> forall x v1 x1,
    play_all ps ex ss v x = Some (v1, x1) -> v1 = v' /\ advances es (x ty) (x1 ty).
  Proof.
    induction 1 as [v|s ss v es v1 r es' v' D Ok A IH|s ss v es v1 er es' v' D A IH|s ss v es v1 es' v' D A IH]; intros x u1 x1; cbn [play_all].
    - intros [= <- <-]. auto using advances_nil.
    - destruct (play ps ex s v x) as [[[vb xb] ob]|] eqn:Pb; [|discriminate]. destruct (calm_play ty s _ _ _ _ D _ _ _ _ Pb) as (-> & -> & A1).
      assert (Su : succeeded r = true) by (rewrite succeeded_ok; now apply is_ok_true). rewrite Su. intros P.
      destruct (IH _ _ _ P) as (? & A2). split; [assumption|]. eapply advances_app; eauto.
    - destruct (play ps ex s v x) as [[[vb xb] ob]|] eqn:Pb; [|discriminate]. destruct (calm_play ty s _ _ _ _ D _ _ _ _ Pb) as (-> & -> & A1).
      intros P. destruct (IH _ _ _ P) as (? & A2). split; [assumption|]. eapply advances_app; eauto.
    - destruct (play ps ex s v x) as [[[vb xb] ob]|] eqn:Pb; [|discriminate]. destruct (calm_play ty s _ _ _ _ D _ _ _ _ Pb) as (-> & -> & A1).
      intros P. destruct (IH _ _ _ P) as (? & A2). split; [assumption|]. eapply advances_app; eauto.
  Qed.

  Lemma all_do_app all (s : script) ss v es v1 o es' v' : does all s v es v1 o ->
    all_do all ss (match o with ORet r => if succeeded r then v1 else v | _ => v end) es' v' -> all_do all (s :: ss) v (es ++ es') v'.
  Proof.
    intros D A. destruct (does_back _ _ _ _ _ _ D) as [[[|z|er] ->] | ->]; cbn [succeeded] in A.
    - eapply ad_kept; [exact D|discriminate|exact A].
    - eapply ad_kept; [exact D|discriminate|exact A].
    - eapply ad_failed; [exact D|exact A].
    - eapply ad_panicked; [exact D|exact A].
  Qed.

  Lemma calm_endless_all (ss : list script) : forall v x, play_all ps ex ss v x = None -> stalls x (fun all es => exists v', all_do all ss v es v').
  Proof.
    induction ss as [|s ss IH]; intros v x; cbn [play_all]; [discriminate|].
    destruct (play ps ex s v x) as [[[v1 x1] o1]|] eqn:Pb.
    - assert (Ad : forall ty, exists es, does (owed ty) s v es v1 o1 /\ advances es (x ty) (x1 ty)).
      { intros ty. destruct (does_total (owed ty) s v) as (es & v' & o & D). destruct (calm_play ty s _ _ _ _ D _ _ _ _ Pb) as (-> & -> & A). eauto. }
      intros P. assert (P' : play_all ps ex ss (match o1 with ORet r => if succeeded r then v1 else v | _ => v end) x1 = None) by (destruct o1; exact P).
      eapply stalls_mono; [|eapply (stalls_later x x1 (fun all es => does all s v es v1 o1) _ Ad (IH _ _ P'))].
      intros all es (es1 & es2 & D1 & (v' & A) & ->). eexists. eapply all_do_app; eauto.
    - intros _. destruct (calm_endless s _ _ Pb) as (p & t & es & Ip & Ep & (v1 & o & D) & T).
      destruct (all_do_total (owed (pg_tree p)) ss (match o with ORet r => if succeeded r then v1 else v | _ => v end)) as (es' & v' & A).
      exists p, t, (es ++ es'). split; [exact Ip|]. split; [exact Ep|]. split; [eexists; eapply all_do_app; eauto|]. now rewrite t_run_app, T.
  Qed.

  (** C134: every search tree records everything done, with the intervals of all plugins that use it. *)
  Theorem C134_trees_record_everything_done :
    forall (sc : schema) (w w' : world) x (ss : list script) o p t es v',
      fitted ps ex sc w x -> at_rest w -> g_reachable (w_graph w) -> In p ps ->
      reads w (res_from sc (pg_tree p)) = Some (DRes (pg_tree p) (RTree t)) ->
      all_do (of_type ps e (pg_tree p)) ss (g_get (w_graph w)) es v' ->
      ends sc w (session ss) w' o ->
      o = ORet RUnit /\ at_rest w' /\ (forall i, g_get (w_graph w') i = v' i) /\ (exists x', fitted ps ex sc w' x') /\
      exists t', (forall fuel, t_run fuel t es = Some t') /\ reads w' (res_from sc (pg_tree p)) = Some (DRes (pg_tree p) (RTree t')).
  Proof.
    intros sc w w' x ss o p t es v' F A R Ip Rp D E.
    pose proof (C135_session_with_panics ps ex sc w x ss F A R) as S.
    rewrite (ft_tree _ _ _ _ _ F p Ip) in Rp. destruct (x (pg_tree p)) as [t0|] eqn:Et; [|discriminate]. injection Rp as ->.
    destruct (play_all ps ex ss (g_get (w_graph w)) x) as [[v x']|] eqn:P.
    - destruct S as (w1 & E1 & F1 & A1 & V1). destruct (ends_det _ _ _ _ _ _ _ E1 E) as [<- <-].
      destruct (calm_play_all (pg_tree p) ss _ _ _ D _ _ _ P) as (-> & Ad). rewrite Et in Ad. destruct Ad as (t' & T & E').
      split; [reflexivity|]. split; [exact A1|]. split; [exact V1|]. split; [eauto|]. exists t'. split; [intros fuel; now rewrite (t_run_fuel es t fuel 0)|].
      now rewrite (ft_tree _ _ _ _ _ F1 p Ip), E'.
    - destruct E as [fuel E]. rewrite (S fuel) in E. discriminate.
  Qed.

  (** C134: it ends, unless the replay of one of the trees does not. *)
  Theorem C134_ends_unless_a_tree_does_not :
    forall (sc : schema) (w : world) x (ss : list script),
      fitted ps ex sc w x -> at_rest w -> g_reachable (w_graph w) ->
      (exists w', ends sc w (session ss) w' (ORet RUnit)) \/
      (diverges sc w (session ss) /\
       exists p t es v', In p ps /\ reads w (res_from sc (pg_tree p)) = Some (DRes (pg_tree p) (RTree t)) /\
         all_do (of_type ps e (pg_tree p)) ss (g_get (w_graph w)) es v' /\ forall fuel, t_run fuel t es = None).
  Proof.
    intros sc w x ss F A R. pose proof (C135_session_with_panics ps ex sc w x ss F A R) as S.
    destruct (play_all ps ex ss (g_get (w_graph w)) x) as [[v x']|] eqn:P.
    - destruct S as (w1 & E1 & _). eauto.
    - right. split; [exact S|]. destruct (calm_endless_all ss _ _ P) as (p & t & es & Ip & Ep & (v' & D) & T).
      exists p, t, es, v'. split; [exact Ip|]. split; [now rewrite (ft_tree _ _ _ _ _ F p Ip), Ep|]. split; [exact D|].
      intros fuel. now rewrite (t_run_fuel es t fuel 0).
  Qed.
End Calm.
Print Assumptions C134_trees_record_everything_done.
Print Assumptions C134_ends_unless_a_tree_does_not.

(** ** Cases *)
(** Extractors of the types 0 and 2, for the intervals [n, n + 3] and [n + 1, n + 2]; nodes that are their own ids, so that
    the search tree installed is the one used (see C58). *)
Local Existing Instance nat_self.
Definition ps_near (n : nat) : list (nat * nat) := [(n + 1, n + 2)].
Definition ps_ex (u n : nat) : list (nat * nat) := if Nat.eqb u 0 then pn_all n else if Nat.eqb u 2 then ps_near n else [].
Definition ps_none (u : nat) : option (tree (node_interval nat (nat * nat)) nat) := None.

(** Two plugins with one type of intervals, and the first of them again with another type. *)
Definition ps_shared : pn_schema * pn_world := install (O := unit) (W := unit) 2 1 1 (fun n => Some (ps_near n)) pn.
Definition ps_apart : pn_schema * pn_world := install (O := unit) (W := unit) 2 3 3 (fun n => Some (ps_near n)) pn.
Definition ps_twice : pn_schema * pn_world := install (O := unit) (W := unit) 0 1 1 (fun n => Some (pn_all n)) pn.
Definition ps_run (sw : pn_schema * pn_world) (ss : list (@script nat nat (nat * nat) unit)) : pn_world :=
  left_by (snd sw) (run (fst sw) 200 (snd sw) (session ss)).

Lemma ps_pn : lives (fst pn) (snd pn) /\ fitted (W := unit) (O := unit) [Plug 0 1] (fun u n => Some (ps_ex u n)) (fst pn) (snd pn) (put 1 (Some t_default) ps_none).
Proof.
  pose proof (built_lives (V := value nat (nat * nat) unit) (U := resource nat nat (nat * nat) nat unit) (g_default : graph nat nat) []) as L.
  assert (F := C134_none_installed (fun u n => Some (ps_ex u n)) _ _ ps_none L
    ltac:(intros s Is; cbn in Is; decompose [or] Is; try contradiction; subst s; reflexivity)).
  destruct (C134_installed [] _ _ (fst pn) _ (snd pn) ps_none (Plug 0 1) (fun n => Some (pn_all n)) 1 L F) as (L' & _ & _ & F').
  - reflexivity.
  - discriminate.
  - discriminate.
  - intros q [].
  - reflexivity.
  - split; [exact L'|]. destruct F' as [F1 F2 F3 F4 F5 F6 F7 F8]. constructor; auto.
    intros p [<-|[]]. exact (F5 _ (or_introl eq_refl)).
Qed.

Lemma ps_shared_fitted : fitted (W := unit) (O := unit) [Plug 0 1; Plug 2 1] (fun u n => Some (ps_ex u n)) (fst ps_shared) (snd ps_shared)
    (put 1 (Some t_default) (put 1 (Some t_default) ps_none)) /\ at_rest (snd ps_shared) /\ g_reachable (w_graph (snd ps_shared)).
Proof.
  destruct ps_pn as [L F].
  destruct (C134_installed [Plug 0 1] _ _ (fst ps_shared) _ (snd ps_shared) _ (Plug 2 1) (fun n => Some (ps_near n)) 1 L F) as (L' & _ & _ & F').
  - reflexivity.
  - discriminate.
  - discriminate.
  - intros q [<-|[]]. split; discriminate.
  - reflexivity.
  - split; [|split; [repeat split|constructor]]. destruct F' as [F1 F2 F3 F4 F5 F6 F7 F8]. constructor; auto.
    intros p [<-|[<-|[]]]; [exact (F5 _ (or_introl eq_refl))|exact (F5 _ (or_intror (or_introl eq_refl)))].
Qed.

(** Nodes 5 and 9, the former deleted in a transaction that fails; a second plugin shares the tree, has its own, or is the first one again. *)
Definition ps_script : list (@script nat nat (nat * nat) unit) :=
  [Saving 5 (fun _ => Saving 9 (fun _ => Finish RUnit)); Deleting 5 (fun _ => Finish (RErr Noop))].
Example C134_case :
  (fitted (W := unit) (O := unit) [Plug 0 1; Plug 2 1] (fun u n => Some (ps_ex u n)) (fst ps_shared) (snd ps_shared)
     (put 1 (Some t_default) (put 1 (Some t_default) ps_none)) /\ at_rest (snd ps_shared) /\ g_reachable (w_graph (snd ps_shared))) /\
  (exists v, all_do (of_type [Plug 0 1; Plug 2 1] ps_ex 1) ps_script (g_get (w_graph (snd ps_shared)))
     [TInsert (NI 5 (5, 8)); TInsert (NI 5 (6, 7)); TInsert (NI 9 (9, 12)); TInsert (NI 9 (10, 11)); TDelete (NI 5 (5, 8)); TDelete (NI 5 (6, 7))] v) /\
  index 1 (fst ps_shared) (ps_run ps_shared ps_script) = Some [NI 9 (9, 12); NI 9 (10, 11)] /\
  g_iter (w_graph (ps_run ps_shared ps_script)) = [5; 9] /\
  index 1 (fst ps_apart) (ps_run ps_apart ps_script) = Some [NI 9 (9, 12)] /\
  index 3 (fst ps_apart) (ps_run ps_apart ps_script) = Some [NI 9 (10, 11)] /\
  index 1 (fst ps_twice) (ps_run ps_twice ps_script) = Some [NI 9 (9, 12); NI 9 (9, 12)].
Proof.
  split; [apply ps_shared_fitted|]. split; [|vm_compute; repeat split]. eexists.
  set (all := of_type _ _ _). unfold ps_script.
  eapply (ad_kept all _ _ _ [TInsert (NI 5 (5, 8)); TInsert (NI 5 (6, 7)); TInsert (NI 9 (9, 12)); TInsert (NI 9 (10, 11))] _ RUnit [TDelete (NI 5 (5, 8)); TDelete (NI 5 (6, 7))]);
    [|discriminate|].
  - eapply (do_save (H0 := nat_self) all 5 _ _ [TInsert (NI 9 (9, 12)); TInsert (NI 9 (10, 11))]).
    eapply (do_save (H0 := nat_self) all 9 _ _ []). constructor.
  - eapply (ad_failed all _ [] _ [TDelete (NI 5 (5, 8)); TDelete (NI 5 (6, 7))] _ Noop []); [|constructor].
    eapply (do_delete (H0 := nat_self) all 5 5 _ _ []); [reflexivity|constructor].
Qed.

(** One plugin, then two that share the tree; the deletion of an interval between two others never ends. *)
Example C134_diverging :
  run (fst ps_shared) 2000 (snd ps_shared) (session [Saving 5 (fun _ => Saving 0 (fun _ => Saving 9 (fun _ => Deleting 5 (fun _ => Finish RUnit))))]) = None.
Proof. vm_compute. reflexivity. Qed.

(** ** Panics: of the extractor of type 0 for the node 13, and of the insertion of the node 7. *)
Definition pb_panics : Panics (node_interval nat (nat * nat)) nat :=
  {| insert_panics := fun _ x => Nat.eqb (ni_id x) 7; delete_panics := fun _ _ => false |}.
Definition pb_all (n : nat) : option (list (nat * nat)) := if Nat.eqb n 13 then None else Some (pn_all n).
Definition pb : pn_schema * pn_world :=
  install (O := unit) (W := unit) (FP := pb_panics) 2 3 3 (fun n => Some (ps_near n))
    (install (O := unit) (W := unit) (FP := pb_panics) 0 1 1 pb_all (built g_default [])).
Definition pb_ex (u : type_id) : nat -> option (list (nat * nat)) := if Nat.eqb u 0 then pb_all else fun n => Some (ps_near n).

Lemma pb_fitted : fitted (W := unit) (O := unit) (FP := pb_panics) [Plug 0 1; Plug 2 3] pb_ex (fst pb) (snd pb)
    (put 3 (Some t_default) (put 1 (Some t_default) ps_none)) /\ at_rest (snd pb) /\ g_reachable (w_graph (snd pb)).
Proof.
  pose proof (built_lives (V := value nat (nat * nat) unit) (U := resource nat nat (nat * nat) nat unit) (g_default : graph nat nat) []) as L.
  assert (F := C134_none_installed (FP := pb_panics) pb_ex _ _ ps_none L
    ltac:(intros s Is; cbn in Is; decompose [or] Is; try contradiction; subst s; reflexivity)).
  set (sw := install (O := unit) (W := unit) (FP := pb_panics) 0 1 1 pb_all (built g_default [])).
  destruct (C134_installed (FP := pb_panics) [] _ _ (fst sw) _ (snd sw) ps_none (Plug 0 1) pb_all 1 L F) as (L' & _ & _ & F').
  - reflexivity.
  - discriminate.
  - discriminate.
  - intros q [].
  - reflexivity.
  - destruct (C134_installed (FP := pb_panics) [Plug 0 1] _ _ (fst pb) _ (snd pb) _ (Plug 2 3) (fun n => Some (ps_near n)) 3 L' F') as (_ & _ & _ & F2).
    + reflexivity.
    + discriminate.
    + discriminate.
    + intros q [<-|[]]. split; discriminate.
    + reflexivity.
    + split; [|split; [repeat split|constructor]]. destruct F2 as [G1 G2 G3 G4 G5 G6 G7 G8]. constructor; auto.
      intros p [<-|[<-|[]]]; [exact (G5 _ (or_introl eq_refl))|exact (G5 _ (or_intror (or_introl eq_refl)))].
Qed.

(** 5 is indexed twice; the extractor panics for 13, which loses the save and no tree; then the writing of the first tree panics for 7:
    the second plugin is not asked any more, the node is not saved, and 8 is indexed by the second plugin alone; the first tree is
    lost. *)
Example C135_case :
  let s := fun n => Saving n (fun _ => Finish RUnit) : @script nat nat (nat * nat) unit in
  let w1 := left_by (snd pb) (run (fst pb) 200 (snd pb) (session [s 5; s 13])) in
  let w2 := left_by (snd pb) (run (fst pb) 200 w1 (session [s 7; s 8])) in
  let w3 := left_by (snd pb) (run (fst pb) 200 w2 (session [s 13; s 14])) in
  (fitted (W := unit) (O := unit) (FP := pb_panics) [Plug 0 1; Plug 2 3] pb_ex (fst pb) (snd pb)
    (put 3 (Some t_default) (put 1 (Some t_default) ps_none)) /\ at_rest (snd pb) /\ g_reachable (w_graph (snd pb))) /\
  g_iter (w_graph w1) = [5] /\ index 1 (fst pb) w1 = Some [NI 5 (5, 8)] /\ index 3 (fst pb) w1 = Some [NI 5 (6, 7)] /\
  g_iter (w_graph w2) = [5; 8] /\ index 1 (fst pb) w2 = None /\ index 3 (fst pb) w2 = Some [NI 5 (6, 7); NI 8 (9, 10)] /\
  g_iter (w_graph w3) = [5; 8; 14] /\ index 1 (fst pb) w3 = None /\
  index 3 (fst pb) w3 = Some [NI 5 (6, 7); NI 8 (9, 10); NI 14 (15, 16)].
Proof. cbn zeta. split; [apply pb_fitted|]. vm_compute. repeat split. Qed.
