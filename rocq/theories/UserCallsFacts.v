(** Facts about [UserCalls]. *)
From Coq Require Import List Bool Lia.
From Verif Require Import Ord OrdFacts BTree Graph GraphFacts Tx TxFacts UserCalls SpecUserCalls.
Import ListNotations.

Section Facts.
  Context {Id Node : Type} `{HO : OrdT Id} `{HI : Identify Node Id}.
  Notation graph := (graph Id Node).
  Notation op := (op Id Node).
  Notation ucall := (ucall Id Node).
  Notation ustate := (ustate Id Node).
  Notation code A := (@code Id Node A).
  Variable probes : graph -> Id -> list Id.
  Variable panics : list ucall -> ucall -> bool.
  Notation call := (call panics).
  Notation calls := (calls panics).
  Notation search := (search probes panics).
  Notation performed := (performed panics).
  Notation s_call := (s_call probes panics).
  Notation s_run := (s_run probes panics).

  (** A state with other calls made before. *)
  Definition with_made (st : ustate) (m : list ucall) : ustate :=
    UState (u_bufs st) (u_graph st) (u_gpoison st) m (u_log st).

  Lemma with_made_same st : with_made st (u_made st) = st.
  Proof. now destruct st. Qed.

  (** [performed] as a function. *)
  Fixpoint perform (before us : list ucall) : list ucall * bool :=
    match us with
    | [] => ([], false)
    | u :: us' => if panics before u then ([u], true) else let (m, p) := perform (before ++ [u]) us' in (u :: m, p)
    end.

  Lemma perform_spec us : forall before m p, perform before us = (m, p) -> performed before us m p.
  Proof.
    induction us as [|u us IH]; cbn; intros before m p E.
    - injection E as <- <-. constructor.
    - destruct (panics before u) eqn:Pu.
      + injection E as <- <-. now constructor.
      + destruct (perform (before ++ [u]) us) as [m' p'] eqn:E'. injection E as <- <-. constructor; auto.
  Qed.

  Lemma perform_app us : forall before vs,
    perform before (us ++ vs) =
    let (m, p) := perform before us in
    if p then (m, true) else let (m', p') := perform (before ++ m) vs in (m ++ m', p').
  Proof.
    induction us as [|u us IH]; cbn; intros before vs.
    - rewrite app_nil_r. now destruct (perform before vs).
    - destruct (panics before u) eqn:Pu; [reflexivity|]. rewrite IH.
      destruct (perform (before ++ [u]) us) as [m [|]]; [reflexivity|]. rewrite <- app_assoc. cbn.
      now destruct (perform (before ++ u :: m) vs).
  Qed.

  (** Code that only makes calls of user code, [us], and gives [a] at the end. *)
  Definition only {A} (st : ustate) (m : code A) (us : list ucall) (a : A) : Prop :=
    forall made, m (with_made st made) =
      let (x, p) := perform made us in (with_made st (made ++ x), if p then Panic else Done a).

  Lemma only_ret {A} st (a : A) : only st (ret a) [] a.
  Proof. intros made. unfold ret, with_made. cbn. now rewrite app_nil_r. Qed.

  Lemma only_call st u : only st (call u) [u] tt.
  Proof. intros made. unfold UserCalls.call, with_made. cbn. now destruct (panics made u). Qed.

  Lemma only_bind {A B} st (m : code A) (k : A -> code B) us a vs b :
    only st m us a -> only st (k a) vs b -> only st (bind m k) (us ++ vs) b.
  Proof.
    intros M K made. unfold bind. rewrite M, perform_app. destruct (perform made us) as [x [|]]; [reflexivity|].
    rewrite K. destruct (perform (made ++ x) vs) as [y q]. now rewrite app_assoc.
  Qed.

  Lemma only_calls st us : only st (calls us) us tt.
  Proof.
    induction us as [|u us IH]; [apply only_ret|].
    cbn [UserCalls.calls]. change (u :: us) with ([u] ++ us). eapply only_bind; [apply only_call|exact IH].
  Qed.

  Lemma only_search st i : only st (search i) (map (UCmp i) (probes (u_graph st) i)) tt.
  Proof. intros made. unfold UserCalls.search. apply only_calls. Qed.

  (** Code that depends on the state. *)
  Lemma only_look {A} st (m : ustate -> code A) us a :
    (forall made, only st (m (with_made st made)) us a) -> only st (fun s => m s s) us a.
  Proof. intros M made. apply M. Qed.

  Lemma only_eq {A} st (m : code A) us vs a b : only st m us a -> us = vs -> a = b -> only st m vs b.
  Proof. now intros M -> ->. Qed.

  Lemma only_op_id st (o : op) i :
    only st (bind (op_id_call panics o) (fun x => call (UEq x i))) (looks_at i o) tt.
  Proof.
    destruct o as [n|j]; cbn.
    - change (only st (bind (bind (call (UId n)) (fun _ => ret (id_of n))) (fun x => call (UEq x i))) (([UId n] ++ []) ++ [UEq (id_of n) i]) tt).
      eapply only_bind; [eapply only_bind; [apply only_call|apply only_ret]|apply only_call].
    - change (only st (bind (ret j) (fun x => call (UEq x i))) ([] ++ [UEq j i]) tt).
      eapply only_bind; [apply only_ret|apply only_call].
  Qed.

  (** The operation found, and those looked at. *)
  Fixpoint scan (i : Id) (l : list op) : list op * option op :=
    match l with
    | [] => ([], None)
    | o :: l' => if eqb (op_id o) i then ([o], Some o) else let (s, r) := scan i l' in (o :: s, r)
    end.

  Lemma scan_spec i l : until i l (fst (scan i l)) (snd (scan i l)).
  Proof.
    induction l as [|o l IH]; cbn; [constructor|].
    destruct (eqb (op_id o) i) eqn:E.
    - apply eqb_eq in E. now constructor.
    - apply eqb_neq in E. destruct (scan i l) as [s r]. cbn in *. now constructor.
  Qed.

  Lemma until_fun i l s r : until i l s r -> scan i l = (s, r).
  Proof.
    induction 1; cbn; [reflexivity| |].
    - now rewrite (proj2 (eqb_eq _ _) H).
    - now rewrite (proj2 (eqb_neq _ _) H), IHuntil.
  Qed.

  Lemma scan_app i l k : scan i (l ++ k) =
    match scan i l with
    | (s, Some o) => (s, Some o)
    | (s, None) => let (s', r) := scan i k in (s ++ s', r)
    end.
  Proof.
    induction l as [|o l IH]; cbn; [now destruct (scan i k)|].
    destruct (eqb (op_id o) i); [reflexivity|]. rewrite IH.
    destruct (scan i l) as [s [x|]]; [reflexivity|]. now destruct (scan i k).
  Qed.

  Definition looked (i : Id) (s : list op) : list ucall := concat (map (looks_at i) s).

  Lemma only_find st i l : only st (find_call panics l i) (looked i (fst (scan i l))) (snd (scan i l)).
  Proof.
    induction l as [|o l IH]; [apply only_ret|].
    assert (E : forall s, find_call panics (o :: l) i s =
      bind (bind (op_id_call panics o) (fun x => call (UEq x i))) (fun _ => if eqb (op_id o) i then ret (Some o) else find_call panics l i) s).
    { intros s. destruct o as [n|j]; cbn; unfold bind; cbn; [destruct (panics (u_made s) (UId n)); [reflexivity|]; cbn|];
        match goal with |- context [panics ?m ?u] => destruct (panics m u) end; reflexivity. }
    intros made. rewrite E. revert made. cbn [scan]. destruct (eqb (op_id o) i) eqn:Eq.
    - cbn. unfold looked. cbn. eapply only_bind; [apply only_op_id|apply only_ret].
    - destruct (scan i l) as [s r]. cbn in *. unfold looked. cbn. eapply only_bind; [apply only_op_id|exact IH].
  Qed.

  Definition copied (copy : bool) (n : Node) : list ucall := if copy then [UClone n] else [].

  (** What a read does and answers. *)
  Definition plan (copy : bool) (h : list (list op)) (g : graph) (c : ctx) (i : Id) : list ucall * option Node :=
    let (s, r) := scan i (newest_first h c) in
    match r with
    | Some (OSave n) => (looked i s ++ copied copy n, Some n)
    | Some (ODelete _) => (looked i s, None)
    | None => match g_get g i with
              | Some n => (looked i s ++ map (UCmp i) (probes g i) ++ copied copy n, Some n)
              | None => (looked i s ++ map (UCmp i) (probes g i), None)
              end
    end.

  Lemma plan_reads copy h g c i : reads probes copy h g c i (fst (plan copy h g c i)) (snd (plan copy h g c i)).
  Proof.
    unfold plan. assert (U := scan_spec i (newest_first h c)). destruct (scan i (newest_first h c)) as [s [[n|j]|]]; cbn in *.
    - now apply reads_saved.
    - now apply reads_deleted with j.
    - destruct (g_get g i) as [n|] eqn:E; cbn; [now apply reads_stored|now apply reads_absent].
  Qed.

  Lemma reads_fun copy h g c i us r : reads probes copy h g c i us r -> plan copy h g c i = (us, r).
  Proof.
    intros R. unfold plan. destruct R as [s n U|s j U|s n U E|s U E]; rewrite (until_fun _ _ _ _ U); try rewrite E; reflexivity.
  Qed.

  Lemma nth_lists (st : ustate) b : b_ops (nth b (u_bufs st) no_buf) = nth b (lists st) [].
  Proof. unfold lists. change [] with (b_ops (@no_buf Id Node)). now rewrite map_nth. Qed.

  Definition opt_map {A B} (f : A -> B) (o : option A) : option B := match o with Some a => Some (f a) | None => None end.

  Lemma plan_eq copy h g c i :
    plan copy h g c i =
    let (s, r) := scan i (rev (nth (ctx_buf c) h [])) in
    match r with
    | Some (OSave n) => (looked i s ++ copied copy n, Some n)
    | Some (ODelete _) => (looked i s, None)
    | None =>
        match c with
        | CRoot _ _ => match g_get g i with
                       | Some n => (looked i s ++ map (UCmp i) (probes g i) ++ copied copy n, Some n)
                       | None => (looked i s ++ map (UCmp i) (probes g i), None)
                       end
        | CSub p _ _ => (looked i s ++ fst (plan copy h g p i), snd (plan copy h g p i))
        end
    end.
  Proof.
    unfold plan at 1. destruct c as [b t|p b t]; cbn [newest_first ctx_buf].
    - rewrite app_nil_r. reflexivity.
    - rewrite scan_app. destruct (scan i (rev (nth b h []))) as [s [[n|j]|]]; try reflexivity.
      unfold plan. destruct (scan i (newest_first h p)) as [s' [[n|j]|]]; cbn; try destruct (g_get g i); cbn;
        unfold looked; now rewrite ?map_app, ?concat_app, <- ?app_assoc.
  Qed.

  Lemma only_graph_get st i :
    only st (graph_get_call probes panics i)
      (map (UCmp i) (probes (u_graph st) i) ++ match g_get (u_graph st) i with Some n => [UClone n] | None => [] end) (g_get (u_graph st) i).
  Proof.
    unfold graph_get_call. eapply only_bind; [apply only_search|]. intros mm. cbn [with_made u_graph].
    destruct (g_get (u_graph st) i) as [n|]; [|apply (only_ret st (@None Node))].
    apply (only_bind st (call (UClone n)) (fun _ => ret (Some n)) [UClone n] tt [] (Some n) (only_call st (UClone n)) (only_ret st (Some n))).
  Qed.

  Lemma only_graph_contains st i :
    only st (graph_contains_call probes panics i) (map (UCmp i) (probes (u_graph st) i)) (g_contains (u_graph st) i).
  Proof.
    unfold graph_contains_call. rewrite <- (app_nil_r (map _ _)). eapply only_bind; [apply only_search|]. intros mm. cbn [with_made u_graph].
    apply (only_ret st).
  Qed.

  Lemma only_reading {A} st b (f : buf Id Node -> code A) us a :
    only st (f (nth b (u_bufs st) no_buf)) us a -> only st (reading b f) us a.
  Proof. intros M made. apply M. Qed.

  Lemma only_get st i c :
    only st (get_call probes panics c i) (fst (plan true (lists st) (u_graph st) c i)) (snd (plan true (lists st) (u_graph st) c i)).
  Proof.
    induction c as [b t|p IH b t]; rewrite plan_eq; cbn [get_call ctx_buf]; apply only_reading; rewrite nth_lists;
      assert (F := only_find st i (rev (nth b (lists st) [])));
      destruct (scan i (rev (nth b (lists st) []))) as [s [[n|j]|]]; cbn [fst snd] in F |- *.
    - eapply only_eq; [eapply only_bind; [exact F|]; cbv beta iota; eapply only_bind; [apply only_call|apply only_ret]|reflexivity|reflexivity].
    - eapply only_eq; [eapply only_bind; [exact F|]; apply only_ret|apply app_nil_r|reflexivity].
    - eapply only_eq.
      + eapply only_bind; [exact F|]. cbv beta iota. apply only_graph_get.
      + destruct (g_get (u_graph st) i); cbn; [reflexivity|now rewrite app_nil_r].
      + now destruct (g_get (u_graph st) i).
    - eapply only_eq; [eapply only_bind; [exact F|]; cbv beta iota; eapply only_bind; [apply only_call|apply only_ret]|reflexivity|reflexivity].
    - eapply only_eq; [eapply only_bind; [exact F|]; apply only_ret|apply app_nil_r|reflexivity].
    - eapply only_eq; [eapply only_bind; [exact F|exact IH]|reflexivity|reflexivity].
  Qed.

  Definition some {A} (o : option A) : bool := match o with Some _ => true | None => false end.

  Lemma only_contains st i c :
    only st (contains_call probes panics c i) (fst (plan false (lists st) (u_graph st) c i)) (some (snd (plan false (lists st) (u_graph st) c i))).
  Proof.
    induction c as [b t|p IH b t]; rewrite plan_eq; cbn [contains_call ctx_buf]; apply only_reading; rewrite nth_lists;
      assert (F := only_find st i (rev (nth b (lists st) [])));
      destruct (scan i (rev (nth b (lists st) []))) as [s [[n|j]|]]; cbn [fst snd] in F |- *.
    - eapply only_eq; [eapply only_bind; [exact F|]; apply only_ret|reflexivity|reflexivity].
    - eapply only_eq; [eapply only_bind; [exact F|]; apply only_ret|apply app_nil_r|reflexivity].
    - eapply only_eq.
      + eapply only_bind; [exact F|]. cbv beta iota. apply only_graph_contains.
      + destruct (g_get (u_graph st) i); cbn; now rewrite ?app_nil_r.
      + unfold g_contains, bt_contains_key, g_get. now destruct (bt_get i (u_graph st)).
    - eapply only_eq; [eapply only_bind; [exact F|]; apply only_ret|reflexivity|reflexivity].
    - eapply only_eq; [eapply only_bind; [exact F|]; apply only_ret|apply app_nil_r|reflexivity].
    - eapply only_eq; [eapply only_bind; [exact F|exact IH]|reflexivity|reflexivity].
  Qed.

  Lemma only_lookup st i c :
    only st (lookup_call probes panics c i)
      (UCloneId i :: fst (plan true (lists st) (u_graph st) c i) ++
       match snd (plan true (lists st) (u_graph st) c i) with Some n => [UClone n; UDropId i; UDrop n] | None => [UDropId i] end)
      (snd (plan true (lists st) (u_graph st) c i)).
  Proof.
    unfold lookup_call.
    assert (G := only_get st i c). destruct (plan true (lists st) (u_graph st) c i) as [us r]. cbn [fst snd] in *.
    eapply only_eq; [eapply only_bind; [apply only_call|]; eapply only_bind; [exact G|]; cbv beta|reflexivity|reflexivity].
    destruct r as [n|].
    - change ([UClone n; UDropId i; UDrop n]) with ([UClone n : ucall] ++ [UDropId i] ++ [UDrop n] ++ []).
      repeat (eapply only_bind; [apply only_call|]). apply only_ret.
    - change ([UDropId i : ucall]) with ([UDropId i : ucall] ++ []).
      repeat (eapply only_bind; [apply only_call|]). apply only_ret.
  Qed.

  (** ** Commits *)

  (** The steps of a commit. *)
  Fixpoint steps (g : graph) (ops : list op) : list (@cstep Id Node) :=
    match ops with
    | [] => []
    | OSave n :: ops' =>
        [Runs (UId n); Runs (UCloneId (id_of n))] ++ lookup_steps probes g (id_of n) ++
        match g_get g (id_of n) with
        | Some old => [Does (OSave n); Runs (UDropId (id_of n)); Runs (UDrop old)]
        | None => [Does (OSave n)]
        end ++ steps (fst (g_insert g n)) ops'
    | ODelete i :: ops' =>
        lookup_steps probes g i ++
        match g_get g i with
        | Some old => [Does (ODelete i); Runs (UDropId i); Runs (UDrop old); Runs (UDropId i)]
        | None => [Does (ODelete i); Runs (UDropId i)]
        end ++ steps (fst (g_remove g i)) ops'
    end.

  Lemma steps_spec ops : forall g, publishes probes g ops (steps g ops).
  Proof.
    induction ops as [|[n|i] ops IH]; intros g; cbn [steps]; [constructor| |].
    - destruct (g_get g (id_of n)) eqn:E; [apply pb_replace|apply pb_new]; auto.
    - destruct (g_get g i) eqn:E; [apply pb_remove|apply pb_missing]; auto.
  Qed.

  Lemma publishes_fun g ops l : publishes probes g ops l -> l = steps g ops.
  Proof. induction 1 as [|g n ops l E P IH|g n old ops l E P IH|g i old ops l E P IH|g i ops l E P IH]; cbn [steps]; rewrite ?E; now rewrite <- ?IH. Qed.

  (** Doing steps: the calls made, whether one panicked, the graph. *)
  Fixpoint do_steps (made : list ucall) (g : graph) (l : list (@cstep Id Node)) : list ucall * bool * graph :=
    match l with
    | [] => (made, false, g)
    | Runs u :: l' => if panics made u then (made ++ [u], true, g) else do_steps (made ++ [u]) g l'
    | Does o :: l' => do_steps made (apply_op g o) l'
    end.

  Definition with_graph (st : ustate) (g : graph) : ustate :=
    UState (u_bufs st) g (u_gpoison st) (u_made st) (u_log st).

  (** Code that does steps. *)
  Definition stepping (st : ustate) (m : code unit) (g : graph) (l : list cstep) : Prop :=
    forall made, m (with_made (with_graph st g) made) =
      match do_steps made g l with (made', p, g') => (with_made (with_graph st g') made', if p then Panic else Done tt) end.

  Lemma do_steps_app l : forall made g k,
    do_steps made g (l ++ k) = match do_steps made g l with (made', true, g') => (made', true, g') | (made', false, g') => do_steps made' g' k end.
  Proof.
    induction l as [|[u|o] l IH]; cbn; intros made g k; auto. destruct (panics made u); auto.
  Qed.

  Lemma do_steps_graph l : forall made g m' g', do_steps made g l = (m', false, g') -> g' = apply_ops g (does_of l).
  Proof.
    induction l as [|[u|o] l IH]; cbn; intros made g m' g' E.
    - now injection E.
    - destruct (panics made u); [discriminate|]. eauto.
    - apply IH in E. exact E.
  Qed.

  Lemma stepping_bind st m k g l l' g1 :
    stepping st m g l -> g1 = apply_ops g (does_of l) -> stepping st k g1 l' -> stepping st (bind m (fun _ => k)) g (l ++ l').
  Proof.
    intros M -> K made. unfold bind. rewrite M, do_steps_app. destruct (do_steps made g l) as [[m' [|]] g'] eqn:E; [reflexivity|].
    rewrite (do_steps_graph _ _ _ _ _ E). apply K.
  Qed.

  Lemma stepping_only st m g us : only (with_graph st g) m us tt -> stepping st m g (map Runs us).
  Proof.
    intros O made. rewrite O. clear O. revert made.
    assert (forall us made, do_steps made g (map Runs us) = let (x, p) := perform made us in (made ++ x, p, g)) as X.
    { clear. induction us as [|u us IH]; cbn; intros made; [now rewrite app_nil_r|]. destruct (panics made u); [reflexivity|].
      rewrite IH. destruct (perform (made ++ [u]) us). now rewrite <- app_assoc. }
    intros made. rewrite X. destruct (perform made us). reflexivity.
  Qed.

  Lemma stepping_ret st g : stepping st (ret tt) g [].
  Proof. intros made. reflexivity. Qed.

  Lemma stepping_call st g u : stepping st (call u) g [Runs u].
  Proof. apply (stepping_only st (call u) g [u]), only_call. Qed.

  Lemma stepping_set st g g' o : g' = apply_op g o -> stepping st (set_graph g') g [Does o].
  Proof. intros -> made. reflexivity. Qed.

  Lemma stepping_search st g i : stepping st (search i) g (lookup_steps probes g i).
  Proof.
    unfold lookup_steps. rewrite <- (map_map (UCmp i) Runs). apply stepping_only. apply only_search.
  Qed.

  Lemma stepping_look st (m : ustate -> code unit) g l :
    (forall made, stepping st (m (with_made (with_graph st g) made)) g l) -> stepping st (fun s => m s s) g l.
  Proof. intros M made. apply M. Qed.

  Lemma does_of_app (l k : list (@cstep Id Node)) : does_of (l ++ k) = does_of l ++ does_of k.
  Proof. unfold does_of. now rewrite flat_map_app. Qed.
  Lemma runs_of_app (l k : list (@cstep Id Node)) : runs_of (l ++ k) = runs_of l ++ runs_of k.
  Proof. unfold runs_of. now rewrite flat_map_app. Qed.

  Lemma does_of_lookup g i : does_of (lookup_steps probes g i) = [].
  Proof. unfold lookup_steps, does_of. induction (probes g i); auto. Qed.

  Lemma stepping_apply st o ops : forall g,
    stepping st (apply_calls probes panics ops) (apply_op g o) (steps (apply_op g o) ops) ->
    stepping st (apply_calls probes panics (o :: ops)) g (steps g (o :: ops)).
  Proof.
    intros g R.
    assert (exists l, steps g (o :: ops) = l ++ steps (apply_op g o) ops /\ does_of l = [o] /\ stepping st (apply_call probes panics o) g l) as (l & -> & D & S).
    2: { cbn [apply_calls]. eapply stepping_bind; [exact S|reflexivity|]. rewrite D. exact R. }
    clear R. destruct o as [n|i]; cbn [steps apply_op apply_call].
    - destruct (g_get g (id_of n)) as [old|] eqn:E.
      + exists ([Runs (UId n)] ++ [Runs (UCloneId (id_of n))] ++ lookup_steps probes g (id_of n) ++ [Does (OSave n)] ++ [Runs (UDropId (id_of n))] ++ [Runs (UDrop old)]).
        split; [cbn; now rewrite <- app_assoc|]. split; [rewrite !does_of_app, does_of_lookup; reflexivity|].
        repeat (eapply stepping_bind; [apply stepping_call|reflexivity|]). eapply stepping_bind; [apply stepping_search|reflexivity|].
        rewrite does_of_lookup. cbn [does_of flat_map apply_ops fold_left app].
        intros made. cbn [with_made with_graph u_graph]. unfold g_insert.
        change (bt_get (id_of n) g) with (g_get g (id_of n)). rewrite E.
        refine (stepping_bind st (set_graph _) _ g [Does _] _ _ _ eq_refl _ made); [apply stepping_set; reflexivity|]. refine (stepping_bind st (call _) _ _ [Runs _] [Runs _] _ _ eq_refl _); [apply stepping_call|]. apply stepping_call.
      + exists ([Runs (UId n)] ++ [Runs (UCloneId (id_of n))] ++ lookup_steps probes g (id_of n) ++ [Does (OSave n)] ++ []).
        split; [cbn; now rewrite <- app_assoc|]. split; [rewrite !does_of_app, does_of_lookup; reflexivity|].
        repeat (eapply stepping_bind; [apply stepping_call|reflexivity|]). eapply stepping_bind; [apply stepping_search|reflexivity|].
        rewrite does_of_lookup. cbn [does_of flat_map apply_ops fold_left app].
        intros made. cbn [with_made with_graph u_graph]. unfold g_insert.
        change (bt_get (id_of n) g) with (g_get g (id_of n)). rewrite E.
        refine (stepping_bind st (set_graph _) (ret tt) g [Does (OSave n)] [] _ _ eq_refl _ made); [apply stepping_set; reflexivity|]. apply stepping_ret.
    - destruct (g_get g i) as [old|] eqn:E.
      + exists (lookup_steps probes g i ++ [Does (ODelete i)] ++ ([Runs (UDropId i)] ++ [Runs (UDrop old)]) ++ [Runs (UDropId i)]).
        split; [now rewrite <- app_assoc|]. split; [rewrite !does_of_app, does_of_lookup; reflexivity|].
        eapply stepping_bind; [apply stepping_search|reflexivity|]. rewrite does_of_lookup. cbn [apply_ops fold_left].
        intros made. cbn [with_made with_graph u_graph]. unfold g_remove.
        change (bt_get i g) with (g_get g i). rewrite E.
        refine (stepping_bind st (set_graph _) _ g [Does _] _ _ _ eq_refl _ made); [apply stepping_set; reflexivity|]. refine (stepping_bind st _ (call _) _ [Runs _; Runs _] [Runs _] _ _ eq_refl _); [|apply stepping_call].
        refine (stepping_bind st (call _) _ _ [Runs _] [Runs _] _ _ eq_refl _); apply stepping_call.
      + exists (lookup_steps probes g i ++ [Does (ODelete i)] ++ [] ++ [Runs (UDropId i)]).
        split; [now rewrite <- app_assoc|]. split; [rewrite !does_of_app, does_of_lookup; reflexivity|].
        eapply stepping_bind; [apply stepping_search|reflexivity|]. rewrite does_of_lookup. cbn [apply_ops fold_left].
        intros made. cbn [with_made with_graph u_graph]. unfold g_remove.
        change (bt_get i g) with (g_get g i). rewrite E.
        refine (stepping_bind st (set_graph _) _ g [Does _] _ _ _ eq_refl _ made); [apply stepping_set; reflexivity|]. refine (stepping_bind st (ret tt) (call _) _ [] [Runs _] _ _ eq_refl _); [apply stepping_ret|apply stepping_call].
  Qed.

  Lemma stepping_ops st ops : forall g, stepping st (apply_calls probes panics ops) g (steps g ops).
  Proof.
    induction ops as [|o ops IH]; intros g; [apply stepping_ret|]. apply stepping_apply, IH.
  Qed.

  (** Steps done are the first ones. *)
  Lemma do_steps_first l : forall made g made' p g', do_steps made g l = (made', p, g') ->
    exists before after x, l = before ++ after /\ runs_of before = x /\ made' = made ++ x /\ g' = apply_ops g (does_of before) /\
      performed made (runs_of l) x p /\ (if p then exists rest u, before = rest ++ [Runs u] else after = []).
  Proof.
    induction l as [|[u|o] l IH]; cbn [do_steps]; intros made g made' p g' E.
    - injection E as <- <- <-. exists [], [], []. rewrite (app_nil_r made). repeat split. constructor.
    - destruct (panics made u) eqn:Pu.
      + injection E as <- <- <-. exists [Runs u], l, [u]. repeat split; [now constructor|]. now exists [], u.
      + destruct (IH _ _ _ _ _ E) as (b & a & x & -> & R & -> & G & Pf & La).
        exists (Runs u :: b), a, (u :: x). repeat split; auto.
        * change (u :: runs_of b = u :: x). now rewrite R.
        * now rewrite <- app_assoc.
        * change (performed made (u :: runs_of (b ++ a)) (u :: x) p). constructor; auto.
        * destruct p; auto. destruct La as (rest & v & ->). now exists (Runs u :: rest), v.
    - destruct (IH _ _ _ _ _ E) as (b & a & x & -> & R & -> & G & Pf & La).
      exists (Does o :: b), a, x. repeat split; auto.
      destruct p; auto. destruct La as (rest & v & ->). now exists (Does o :: rest), v.
  Qed.

  Lemma steps_does ops : forall g, does_of (steps g ops) = ops.
  Proof.
    induction ops as [|[n|i] ops IH]; intros g; cbn [steps]; [reflexivity| |]; rewrite !does_of_app, does_of_lookup, IH.
    - now destruct (g_get g (id_of n)).
    - now destruct (g_get g i).
  Qed.

  (** ** One call *)

  Definition clean (st : ustate) : Prop := Forall (fun b => b_poison b = false) (u_bufs st).

  Lemma clean_alter (f : buf Id Node -> buf Id Node) b l :
    (forall x, b_poison (f x) = b_poison x) -> Forall (fun b => b_poison b = false) l -> Forall (fun b => b_poison b = false) (alter f b l).
  Proof.
    intros Hf C. revert b. induction C as [|x l Hx C IH]; intros [|b]; cbn; constructor; auto. now rewrite Hf.
  Qed.

  Lemma clean_nth st b : clean st -> b_poison (nth b (u_bufs st) no_buf) = false.
  Proof.
    intros C. destruct (nth_in_or_default b (u_bufs st) no_buf) as [X|E0]; [|now rewrite E0].
    now apply (proj1 (Forall_forall _ _) C) in X.
  Qed.

  Lemma lists_alter (f : buf Id Node -> buf Id Node) k b l :
    (forall x, b_ops (f x) = k (b_ops x)) -> map b_ops (alter f b l) = alter k b (map b_ops l).
  Proof. intros Hf. revert b. induction l as [|x l IH]; intros [|b]; cbn; auto; [now rewrite Hf|now rewrite IH]. Qed.

  Definition logged (s : scall Id Node) : list message :=
    match s with SSub _ b false | STop b false => [ContextsInUse b] | _ => [] end.

  Definition commits (s : scall Id Node) : bool := match s with STop _ true => true | _ => false end.

  (** Everything about one call. *)
  Lemma one_call st s st' a : clean st -> s_call st s = (st', a) ->
    exists us m p,
      planned probes st s us /\ performed (u_made st) us m p /\ u_made st' = u_made st ++ m /\
      (p = true -> a = APanic) /\ (p = false -> answers probes st s a) /\ clean st' /\
      u_log st' = u_log st ++ logged s /\
      u_gpoison st' = u_gpoison st || (commits s && p) /\
      lists st' = (if p then lists st else next_lists (lists st) s) /\
      match s with STop b true => published probes (u_graph st) (nth b (lists st) []) m p (u_graph st') | _ => u_graph st' = u_graph st end.
  Proof.
    intros C E.
    assert (R : forall A (m : code A) us x (f : A -> answer Node), only st m us x -> answered f (m st) = (st', a) ->
      exists m p, performed (u_made st) us m p /\ st' = with_made st (u_made st ++ m) /\ a = if p then APanic else f x).
    { intros A m us x f O Ea. specialize (O (u_made st)). rewrite with_made_same in O. rewrite O in Ea.
      destruct (perform (u_made st) us) as [y p] eqn:Ep. cbn in Ea. injection Ea as <- <-. exists y, p. split; [now apply perform_spec|]. split; auto. now destruct p. }
    destruct s as [|c i|c i|c n|c i|c n|c i|p0 b alone|b alone]; cbn [UserCalls.s_call] in E.
    - injection E as <- <-. exists [], [], false. cbn. rewrite !app_nil_r, orb_false_r. repeat split; try constructor; try discriminate; auto.
      + apply Forall_app. split; [exact C|now repeat constructor].
      + unfold lists. cbn. now rewrite map_app.
    - destruct (R _ _ _ _ _ (only_get st i c) E) as (m & p & P & -> & ->).
      eexists _, m, p. split; [econstructor; apply plan_reads|]. split; [exact P|]. cbn. rewrite app_nil_r, orb_false_r.
      destruct p; repeat split; auto; try discriminate. intros _. econstructor. apply plan_reads.
    - destruct (R _ _ _ _ _ (only_contains st i c) E) as (m & p & P & -> & ->).
      eexists _, m, p. split; [econstructor; apply plan_reads|]. split; [exact P|]. cbn. rewrite app_nil_r, orb_false_r.
      destruct p; repeat split; auto; try discriminate. intros _. eapply an_contains. apply plan_reads.
    - injection E as <- <-. exists [], [], false. cbn. rewrite !app_nil_r, orb_false_r. repeat split; try constructor; try discriminate; auto.
      + now apply clean_alter.
      + unfold lists. cbn. now apply lists_alter.
    - injection E as <- <-. exists [], [], false. cbn. rewrite !app_nil_r, orb_false_r. repeat split; try constructor; try discriminate; auto.
      + now apply clean_alter.
      + unfold lists. cbn. now apply lists_alter.
    - unfold save_clone_call, bind in E. cbn in E. destruct (panics (u_made st) (UClone n)) eqn:Pn; cbn in E; injection E as <- <-.
      + exists [UClone n], [UClone n], true. cbn. rewrite !app_nil_r, orb_false_r. repeat split; try discriminate; auto; now constructor.
      + exists [UClone n], [UClone n], false. cbn. rewrite !app_nil_r, orb_false_r. repeat split; try discriminate; auto; try now constructor.
        * constructor; auto. constructor.
        * now apply clean_alter.
        * unfold lists. cbn. now apply lists_alter.
    - destruct (R _ _ _ _ _ (only_lookup st i c) E) as (m & p & P & -> & ->).
      eexists _, m, p. split; [|split; [exact P|]].
      + assert (X := plan_reads true (lists st) (u_graph st) c i). destruct (plan true (lists st) (u_graph st) c i) as [us [n|]]; cbn in *; now constructor.
      + cbn. rewrite app_nil_r, orb_false_r. destruct p; repeat split; auto; try discriminate. intros _. econstructor. apply plan_reads.
    - unfold sub_commit in E. destruct alone.
      + rewrite (clean_nth st b C) in E. unfold writing in E. rewrite (clean_nth st (ctx_buf p0) C) in E. cbn in E. injection E as <- <-.
        exists [], [], false. cbn. rewrite !app_nil_r, orb_false_r. repeat split; try constructor; try discriminate; auto.
        * now apply clean_alter.
        * unfold lists at 1. cbn. rewrite nth_lists. now apply lists_alter.
      + cbn in E. injection E as <- <-. exists [], [], false. cbn. rewrite !app_nil_r, orb_false_r. repeat split; try constructor; try discriminate; auto.
    - unfold top_commit in E. destruct alone.
      + rewrite (clean_nth st b C), nth_lists in E.
        assert (S := stepping_ops st (nth b (lists st) []) (u_graph st) (u_made st)).
        replace (with_made (with_graph st (u_graph st)) (u_made st)) with st in S by now destruct st. rewrite S in E.
        destruct (do_steps (u_made st) (u_graph st) (steps (u_graph st) (nth b (lists st) []))) as [[made' p] g'] eqn:Ed.
        destruct (do_steps_first _ _ _ _ _ _ Ed) as (bf & af & x & Eb & Rx & -> & -> & Pf & La).
        exists (runs_of (steps (u_graph st) (nth b (lists st) []))), x, p.
        split; [constructor; apply steps_spec|]. split; [exact Pf|].
        assert (G : published probes (u_graph st) (nth b (lists st) []) x p (apply_ops (u_graph st) (does_of bf))).
        { exists (steps (u_graph st) (nth b (lists st) [])), bf, af. repeat split; auto. apply steps_spec. }
        destruct p; cbn in E; injection E as <- <-; cbn; rewrite app_nil_r, ?orb_true_r, ?orb_false_r; repeat split; auto; try discriminate; now constructor.
      + cbn in E. injection E as <- <-. exists [], [], false. cbn. rewrite !app_nil_r, orb_false_r. repeat split; try constructor; try discriminate; auto.
  Qed.

  Lemma clean_run l : forall st, clean st -> clean (s_run st l).
  Proof.
    induction l as [|s l IH]; cbn; intros st C; auto. apply IH. destruct (s_call st s) as [st' a] eqn:E. cbn.
    destruct (one_call st s st' a C E) as (us & m & p & X). tauto.
  Qed.

  Lemma clean_init g : clean (u_init g).
  Proof. constructor. Qed.

  (** ** Reads, as in [Tx.v] *)
  Lemma find_scan (l : list op) i : find (fun o => eqb (op_id o) i) l = snd (scan i l).
  Proof. induction l as [|o l IH]; cbn; auto. destruct (eqb (op_id o) i); auto. rewrite IH. now destruct (scan i l). Qed.

  Lemma plan_get copy h g c i : snd (plan copy h g c i) = ctx_get h g c i.
  Proof.
    induction c as [b t|p IH b t]; rewrite plan_eq; cbn [ctx_get ctx_buf]; unfold find_op, buf_ops; rewrite find_scan;
      destruct (scan i (rev (nth b h []))) as [s [[n|j]|]]; cbn; auto. now destruct (g_get g i).
  Qed.

  (** ** Counting *)
  Lemma until_length i l s r : until i l s r -> length s <= length l.
  Proof. induction 1; cbn; lia. Qed.
End Facts.
