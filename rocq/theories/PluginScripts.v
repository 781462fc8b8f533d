(** Facts about whole transactions under the interval plugin. *)
From Coq Require Import List Bool Arith Lia Permutation.
From Verif Require Import Ord OrdFacts BTree BTreeFacts Graph GraphFacts Tx SpecTx TxFacts Interval SpecInterval IntervalFacts
  Prog SpecProg ProgFacts ProgFrame ProgTx ProgOps ProgRes P_Res P_Ops Plugin SpecPlugin PluginFacts.
Import ListNotations.

Section Facts.
  Context {Id Node I B O W : Type} `{HO : OrdT Id} `{HI : Identify Node Id} `{HB : OrdT B} `{HV : Interval I B} `{HP : PartialEq I}.
  Notation ni := (node_interval Id I).
  Notation stree := (tree ni B).
  Notation value := (value Id I W).
  Notation resource := (resource Id Node I B O).
  Notation world := (world Id Node value resource).
  Notation schema := (schema Id Node value resource).
  Notation prog := (prog Id Node value resource).
  Notation script := (@script Id Node I W).
  Variables ty_extr ty_tree_id : type_id.
  Notation on_save := (Plugin.on_save (O := O) (W := W) ty_extr ty_tree_id).
  Notation on_delete := (Plugin.on_delete (O := O) (W := W) ty_extr ty_tree_id).
  Notation plugged := (SpecPlugin.plugged (O := O) (W := W) ty_extr ty_tree_id).
  Notation compiled := (SpecPlugin.compiled (B := B) (O := O)).
  Notation session := (SpecPlugin.session (B := B) (O := O)).

  (** ** Scripts *)
  Lemma does_total (all : Node -> list I) (s : script) : forall v, exists es v' o, does all s v es v' o.
  Proof.
    induction s as [r| |i k IH|n k IH|i k IH|n s IH|i s IH|body IHb k IHk]; intros v.
    - repeat eexists; constructor.
    - repeat eexists; constructor.
    - destruct (IH (v i) v) as (es & v' & o & D). repeat eexists. constructor. exact D.
    - destruct (IH RUnit (base_set (id_of n) (Some n) v)) as (es & v' & o & D). repeat eexists. constructor. exact D.
    - destruct (v i) as [n|] eqn:E.
      + destruct (IH RUnit (base_set i None v)) as (es & v' & o & D). repeat eexists. eapply do_delete; [exact E|exact D].
      + destruct (IH (RErr Noop) v) as (es & v' & o & D). repeat eexists. eapply do_absent; [exact E|exact D].
    - destruct (IH (base_set (id_of n) (Some n) v)) as (es & v' & o & D). repeat eexists. constructor. exact D.
    - destruct (IH (base_set i None v)) as (es & v' & o & D). repeat eexists. constructor. exact D.
    - destruct (IHb v) as (es & v1 & o1 & D1).
      assert (Cb : (exists r, o1 = ORet r) \/ o1 = OPanic) by (clear -D1; induction D1; eauto).
      destruct Cb as [[r ->] | ->].
      + destruct r as [| x | e].
        * destruct (IHk (Some RUnit) v1) as (es' & v' & o & D). repeat eexists. eapply do_kept; [exact D1|discriminate|exact D].
        * destruct (IHk (Some (RVal x)) v1) as (es' & v' & o & D). repeat eexists. eapply do_kept; [exact D1|discriminate|exact D].
        * destruct (IHk (Some (RErr e)) v) as (es' & v' & o & D). repeat eexists. eapply do_failed; [exact D1|exact D].
      + destruct (IHk None v) as (es' & v' & o & D). repeat eexists. eapply do_panicked; [exact D1|exact D].
  Qed.

  Lemma does_back (all : Node -> list I) (s : script) v es v' o : does all s v es v' o -> (exists r, o = ORet r) \/ o = OPanic.
  Proof. induction 1; eauto. Qed.

  Lemma all_do_total (all : Node -> list I) (ss : list script) : forall v, exists es v', all_do all ss v es v'.
  Proof.
    induction ss as [|s ss IH]; intros v; [repeat eexists; constructor|].
    destruct (does_total all s v) as (es & v1 & o & D). destruct (does_back _ _ _ _ _ _ D) as [[r ->] | ->].
    - destruct r as [| x | e].
      + destruct (IH v1) as (es' & v' & A). repeat eexists. eapply ad_kept; [exact D|discriminate|exact A].
      + destruct (IH v1) as (es' & v' & A). repeat eexists. eapply ad_kept; [exact D|discriminate|exact A].
      + destruct (IH v) as (es' & v' & A). repeat eexists. eapply ad_failed; [exact D|exact A].
    - destruct (IH v) as (es' & v' & A). repeat eexists. eapply ad_panicked; [exact D|exact A].
  Qed.

  (** ** Trees *)
  Lemma t_run_app fuel (a b : list (@tcall ni)) : forall t : stree,
    t_run fuel t (a ++ b) = match t_run fuel t a with Some t1 => t_run fuel t1 b | None => None end.
  Proof.
    induction a as [|[x|x] a IH]; intros t; cbn; [reflexivity|apply IH|]. destruct (delete fuel t x); [apply IH|reflexivity].
  Qed.

  Lemma t_run_inserts_all (l : list ni) : forall (t : stree) fuel, t_run fuel t (map TInsert l) = Some (insert_all t l).
  Proof. induction l as [|x l IH]; intros t fuel; [reflexivity|]. cbn. apply IH. Qed.

  Lemma t_run_deletes_all (l : list ni) : forall (t : stree) fuel, t_run fuel t (map TDelete l) = delete_all t l.
  Proof.
    induction l as [|x l IH]; intros t fuel; cbn; [reflexivity|].
    unfold t_delete. destruct (delete (2 + count t) t x) as [t1|] eqn:D.
    - rewrite (delete_fuel_irrelevant _ _ _ _ D fuel). apply IH.
    - destruct (delete fuel t x) as [t1|] eqn:D1; [|reflexivity].
      rewrite (delete_fuel_irrelevant _ _ _ _ D1 (2 + count t)) in D. discriminate.
  Qed.

  Lemma t_run_fuel (es : list (@tcall ni)) : forall (t : stree) f f', t_run f t es = t_run f' t es.
  Proof.
    induction es as [|[x|x] es IH]; intros t f f'; cbn; [reflexivity|apply IH|].
    destruct (delete f t x) as [t1|] eqn:D.
    - rewrite (delete_fuel_irrelevant _ _ _ _ D f'). apply IH.
    - destruct (delete f' t x) as [t1|] eqn:D1; [|reflexivity].
      rewrite (delete_fuel_irrelevant _ _ _ _ D1 f) in D. discriminate.
  Qed.

  Lemma intervals_single (all : Node -> list I) (n : Node) : all_intervals all [n] = intervals_of all n.
  Proof. unfold all_intervals, intervals_of. cbn. now rewrite app_nil_r. Qed.

  (** ** Programs that do not come back *)
  Section Diverging.
    Variable sc : schema.

    Lemma diverges_fg_body (w : world) c body k : diverges sc (fg_open w) (body (fg_ctx w c)) -> diverges sc w (PWith (TxFg c) body k).
    Proof. intros D [|f]; [reflexivity|]. cbn [run]. specialize (D f). unfold fg_open, fg_ctx in D. now rewrite D. Qed.

    Lemma diverges_fg_after (w : world) c body k w1 r : exec sc (fg_open w) (body (fg_ctx w c)) w1 (ORet r) ->
      diverges sc (close (length (w_heap w)) (if is_ok r then fg_commit c (length (w_heap w)) w1 else w1)) (k r) ->
      diverges sc w (PWith (TxFg c) body k).
    Proof.
      intros E D [|f]; [reflexivity|]. cbn [run]. cbn zeta.
      destruct (run sc f (set_heap (w_heap w ++ [[]]) w) (body (CSub c (length (w_heap w)) None))) as [[w1' o]|] eqn:R; [|reflexivity].
      destruct (ends_det _ _ _ _ _ _ _ (exec_run _ _ _ _ _ E) (ex_intro _ f R)) as [<- <-].
      destruct (is_ok r); apply D.
    Qed.

    Lemma diverges_try (w : world) body k : diverges sc w body -> diverges sc w (PTry body k).
    Proof. intros D [|f]; [reflexivity|]. cbn [run]. now rewrite D. Qed.

    Lemma diverges_try_after (w : world) body k w1 o : exec sc w body w1 o ->
      diverges sc w1 (k match o with ORet r => Some r | _ => None end) -> diverges sc w (PTry body k).
    Proof.
      intros E D [|f]; [reflexivity|]. cbn [run]. destruct (run sc f w body) as [[w1' o']|] eqn:R; [|reflexivity].
      destruct (ends_det _ _ _ _ _ _ _ (exec_run _ _ _ _ _ E) (ex_intro _ f R)) as [<- <-].
      pose proof (exec_comes_back _ _ _ _ _ E). destruct o; cbn in *; try tauto; apply D.
    Qed.
  End Diverging.

  (** ** The state of a transaction's closure *)
  Record inside (all : Node -> list I) (sc : schema) (w : world) (c : ctx) (v : Id -> option Node) (t : stree) : Prop := {
    in_plugged : plugged all sc w;
    in_tree : reads w (res_from sc ty_tree_id) = Some (DRes ty_tree_id (RTree t));
    in_leaked : w_leaked w = [];
    in_view : forall i, view w c i = v i;
    in_chain : Forall (fun b => b < length (w_heap w)) (ctx_chain c);
    in_nodup : NoDup (ctx_chain c)
  }.

  (** What running something on [c] leaves alone. *)
  Record apart (c : ctx) (w w' : world) : Prop := {
    ap_graph : w_graph w' = w_graph w;
    ap_lock : w_lock w' = w_lock w;
    ap_length : length (w_heap w') = length (w_heap w);
    ap_bufs : forall b, b <> ctx_buf c -> buf_ops (w_heap w') b = buf_ops (w_heap w) b
  }.

  Lemma apart_refl c (w : world) : apart c w w.
  Proof. constructor; reflexivity. Qed.

  Lemma apart_trans c (w1 w2 w3 : world) : apart c w1 w2 -> apart c w2 w3 -> apart c w1 w3.
  Proof.
    intros [] []. constructor; try congruence. intros b Nb. rewrite ap_bufs1, ap_bufs0 by exact Nb. reflexivity.
  Qed.

  Lemma plugged_cells all (sc : schema) (w w' : world) : w_cells w' = w_cells w -> plugged all sc w -> plugged all sc w'.
  Proof.
    intros E P. assert (Rw : forall h, reads w' h = reads w h) by (intros h; unfold reads; now rewrite E).
    destruct P. constructor; auto; [now rewrite Rw|rewrite Rw; auto|now rewrite E].
  Qed.

  Lemma reads_cells (w w' : world) h : w_cells w' = w_cells w -> reads w' h = reads w h.
  Proof. intros E. unfold reads. now rewrite E. Qed.

  (** Operations added to the buffer of [c]. *)
  Lemma view_push (w w' : world) c ops : w_graph w' = w_graph w -> length (w_heap w') = length (w_heap w) ->
    NoDup (ctx_chain c) -> (forall b, b <> ctx_buf c -> buf_ops (w_heap w') b = buf_ops (w_heap w) b) ->
    buf_ops (w_heap w') (ctx_buf c) = buf_ops (w_heap w) (ctx_buf c) ++ ops ->
    forall i, view w' c i = match ops_overlay ops i with Some r => r | None => view w c i end.
  Proof.
    intros G L Nd Fr Bf i. unfold view. rewrite G, (ctx_get_unfold (w_heap w')), (ctx_get_unfold (w_heap w)), Bf, ops_overlay_app.
    destruct (ops_overlay ops i); [reflexivity|]. destruct (ops_overlay _ i); [reflexivity|].
    destruct c as [b t|p b t]; [reflexivity|]. cbn in *. inversion Nd; subst. apply ctx_get_frame. intros b' Ib. apply Fr. intros ->. auto.
  Qed.

  Lemma chain_with_target c a : ctx_chain (ctx_with_target c a) = ctx_chain c.
  Proof. destruct c; reflexivity. Qed.

  (** Opening a nested transaction. *)
  Lemma inside_open all (sc : schema) (w : world) c v t : inside all sc w c v t -> inside all sc (fg_open w) (fg_ctx w c) v t.
  Proof.
    intros [P R L V C N]. constructor.
    - eapply plugged_cells; [|exact P]. reflexivity.
    - rewrite <- R. now apply reads_cells.
    - exact L.
    - intros i. unfold view. rewrite ctx_get_unfold. cbn [ctx_buf fg_ctx fg_open w_heap set_heap w_graph].
      rewrite buf_ops_open. unfold buf_ops at 1. rewrite nth_overflow by lia. cbn.
      rewrite <- V. unfold view. apply ctx_get_frame. intros b _. apply buf_ops_open.
    - cbn. rewrite app_length; cbn. constructor; [lia|]. eapply Forall_impl; [|exact C]. cbn. intros; lia.
    - cbn. constructor; [|exact N]. intros J. rewrite Forall_forall in C. apply C in J. lia.
  Qed.

  Lemma ctx_buf_in c : In (ctx_buf c) (ctx_chain c).
  Proof. destruct (ctx_chain_hd c) as [l ->]. now left. Qed.

  (** Closing it, its operations kept or not. *)
  Lemma inside_close all (sc : schema) (w w1 : world) c v v1 t t1 (ok : bool) : inside all sc w c v t ->
    inside all sc w1 (fg_ctx w c) v1 t1 -> apart (fg_ctx w c) (fg_open w) w1 ->
    let w2 := close (length (w_heap w)) (if ok then fg_commit c (length (w_heap w)) w1 else w1) in
    inside all sc w2 c (if ok then v1 else v) t1 /\ apart c w w2.
  Proof.
    intros [P R L V C N] [P1 R1 L1 V1 C1 N1] [G1 Lo1 Le1 B1]. cbn zeta.
    assert (Le : length (w_heap w1) = S (length (w_heap w))) by (rewrite Le1; cbn; rewrite app_length; cbn; lia).
    assert (Lb : ctx_buf c < length (w_heap w)) by (rewrite Forall_forall in C; apply C, ctx_buf_in).
    assert (Bw : forall b, b <> length (w_heap w) -> buf_ops (w_heap w1) b = buf_ops (w_heap w) b).
    { intros b Nb. rewrite B1 by exact Nb. cbn. apply buf_ops_open. }
    destruct ok.
    - set (ops := buf_ops (w_heap w1) (length (w_heap w))).
      assert (Cm : fg_commit c (length (w_heap w)) w1 = set_heap (alter (fun l => l ++ ops) (ctx_buf c) (w_heap w1)) w1).
      { unfold fg_commit, leaked. now rewrite L1. }
      rewrite Cm. set (w2 := close _ _).
      assert (Hw : w_heap w2 = firstn (length (w_heap w)) (alter (fun l => l ++ ops) (ctx_buf c) (w_heap w1))) by reflexivity.
      assert (A : apart c w w2).
      { constructor; [exact G1|exact Lo1| |].
        - rewrite Hw, firstn_length, alter_length, Le. lia.
        - intros b Nb. rewrite Hw. destruct (Nat.lt_ge_cases b (length (w_heap w))) as [Lt|Ge].
          + rewrite buf_ops_firstn by exact Lt. unfold buf_ops at 1. rewrite nth_alter_ne by congruence. apply Bw. lia.
          + unfold buf_ops. rewrite !nth_overflow; [reflexivity|exact Ge|rewrite firstn_length; lia]. }
      split; [|exact A]. constructor.
      + eapply plugged_cells; [|exact P1]. reflexivity.
      + rewrite <- R1. now apply reads_cells.
      + cbn. now rewrite L1.
      + intros i. rewrite (view_push w w2 c ops (ap_graph _ _ _ A) (ap_length _ _ _ A) N (ap_bufs _ _ _ A)).
        * rewrite <- (V1 i). unfold view at 2. rewrite ctx_get_unfold. cbn [ctx_buf fg_ctx]. fold ops.
          destruct (ops_overlay ops i); [reflexivity|]. unfold view. rewrite G1. symmetry.
          apply ctx_get_frame. intros b Ib. apply Bw. rewrite Forall_forall in C. apply C in Ib. lia.
        * rewrite Hw, buf_ops_firstn by exact Lb. unfold buf_ops at 1. rewrite nth_alter_eq by lia. f_equal. apply Bw. lia.
      + rewrite (ap_length _ _ _ A). exact C.
      + exact N.
    - set (w2 := close _ _).
      assert (Hw : w_heap w2 = firstn (length (w_heap w)) (w_heap w1)) by reflexivity.
      assert (A : apart c w w2).
      { constructor; [exact G1|exact Lo1| |].
        - rewrite Hw, firstn_length, Le. lia.
        - intros b Nb. rewrite Hw. destruct (Nat.lt_ge_cases b (length (w_heap w))) as [Lt|Ge].
          + rewrite buf_ops_firstn by exact Lt. apply Bw. lia.
          + unfold buf_ops. rewrite !nth_overflow; [reflexivity|exact Ge|rewrite firstn_length; lia]. }
      split; [|exact A]. constructor.
      + eapply plugged_cells; [|exact P1]. reflexivity.
      + rewrite <- R1. now apply reads_cells.
      + cbn. now rewrite L1.
      + intros i. rewrite <- V. unfold view. rewrite (ap_graph _ _ _ A). apply ctx_get_frame. intros b Ib. rewrite Hw.
        rewrite Forall_forall in C. apply C in Ib. rewrite buf_ops_firstn by exact Ib. apply Bw. lia.
      + rewrite (ap_length _ _ _ A). exact C.
      + exact N.
  Qed.

  (** One operation registered in [c]. *)
  Lemma inside_push all (sc : schema) (w : world) c v t o : inside all sc w c v t ->
    let w' := set_heap (buf_push (w_heap w) (ctx_buf c) o) w in
    inside all sc w' c (base_set (fst (op_entry o)) (snd (op_entry o)) v) t /\ apart c w w'.
  Proof.
    intros [P R L V C N] w'.
    assert (Lb : ctx_buf c < length (w_heap w)) by (rewrite Forall_forall in C; apply C, ctx_buf_in).
    assert (A : apart c w w').
    { constructor; try reflexivity; [apply alter_length|]. intros b Nb. apply buf_ops_push_ne. congruence. }
    split; [|exact A]. constructor.
    - eapply plugged_cells; [|exact P]. reflexivity.
    - rewrite <- R. now apply reads_cells.
    - exact L.
    - intros i. rewrite (view_push w w' c [o] eq_refl (ap_length _ _ _ A) N (ap_bufs _ _ _ A) (buf_ops_push_eq _ _ _ Lb)).
      rewrite ops_overlay_one. unfold base_set. destruct o as [n|j]; cbn; destruct (eqb _ i); auto.
    - rewrite (ap_length _ _ _ A). exact C.
    - exact N.
  Qed.

  (** The closure of [Save]. *)
  Lemma save_body_inside all (sc : schema) (w : world) n c v t : inside all sc w c v t ->
    exists w', exec sc w (save_body n c) w' (ORet RUnit) /\
      inside all sc w' c (base_set (id_of n) (Some n) v) (insert_all t (intervals_of all n)) /\ apart c w w'.
  Proof.
    intros In. pose proof (in_plugged _ _ _ _ _ _ In) as P. pose proof (in_tree _ _ _ _ _ _ In) as R.
    set (c1 := after_target c w). set (w1 := with_target n w). set (w2 := set_heap (ctx_save (w_heap w1) c1 n) w1).
    assert (Rt1 : reads w1 (target_of c1) = Some (DNode n)).
    { unfold reads, w1, with_target, target_of. cbn [h_addr]. unfold c1. rewrite target_of_after.
      cbn. rewrite nth_error_app2, Nat.sub_diag by lia. reflexivity. }
    destruct (reads_addr _ _ _ R) as (a & x & Ea & N & Px & Vx & Tx).
    assert (Ec2 : w_cells w2 = w_cells (with_target n w)) by reflexivity.
    destruct (plugged_ready _ _ all sc w n c1 P (target_of_after c w) w2 Ec2) as (Rdy & Rt & Re & Rd). specialize (Rd t R).
    set (t' := insert_all t (intervals_of all n)). exists (set_tree a ty_tree_id t' w2). split.
    - apply exec_save_body. right. exists w1. rewrite (pl_before_save _ _ _ _ _ P). split; [constructor|].
      rewrite (pl_after_save _ _ _ _ _ P). left. split; [reflexivity|].
      fold c1. unfold save_step. rewrite Rt1. fold w2.
      apply (as_cons sc c1 _ [] w2 (set_tree a ty_tree_id t' w2) _ RUnit); [|discriminate|constructor].
      apply (on_save_exact _ _ sc w2 c1 n ty_extr all ty_tree_id t a Rdy Rt Re Ea Rd). split; reflexivity.
    - destruct (pl_tree _ _ _ _ _ P) as (t0 & R0 & S). rewrite R in R0. injection R0 as <-.
      destruct (plugged_set _ _ all sc w w2 (set_tree a ty_tree_id t' w2) n a t' P Ea Ec2 eq_refl (insert_all_sorted _ _ S)) as (P' & Ix & _).
      destruct (inside_push all sc w c v t (OSave n) In) as [[_ _ L3 V3 C3 N3] [G3 K3 H3 B3]].
      assert (Hp : w_heap w2 = buf_push (w_heap w) (ctx_buf c) (OSave n)).
      { cbn. unfold ctx_save, c1, after_target. now rewrite ctx_buf_with_target. }
      split.
      + constructor; auto.
        * intros i. specialize (V3 i). unfold view in *. cbn [set_tree w_heap w_graph set_cells]. rewrite Hp. exact V3.
        * cbn [set_tree w_heap set_cells]. rewrite Hp. exact C3.
      + constructor; auto; cbn [set_tree w_heap set_cells]; rewrite Hp; assumption.
  Qed.

  (** The closure of [Delete]. *)
  Lemma delete_body_inside all (sc : schema) (w : world) i n c v t : inside all sc w c v t -> v i = Some n ->
    match delete_all t (intervals_of all n) with
    | Some t' => exists w', exec sc w (delete_body i c) w' (ORet RUnit) /\ inside all sc w' c (base_set i None v) t' /\ apart c w w'
    | None => diverges sc w (delete_body i c)
    end.
  Proof.
    intros In Vi. pose proof (in_plugged _ _ _ _ _ _ In) as P. pose proof (in_tree _ _ _ _ _ _ In) as R.
    rewrite <- (in_view _ _ _ _ _ _ In) in Vi.
    set (c1 := after_target c w). set (w1 := with_target n w). set (w2 := set_heap (ctx_delete (w_heap w1) c1 i) w1).
    destruct (reads_addr _ _ _ R) as (a & x & Ea & N & Px & Vx & Tx).
    assert (Ec2 : w_cells w2 = w_cells (with_target n w)) by reflexivity.
    destruct (plugged_ready _ _ all sc w n c1 P (target_of_after c w) w2 Ec2) as (Rdy & Rt & Re & Rd). specialize (Rd t R).
    pose proof (on_delete_exact _ _ sc w2 c1 n ty_extr all ty_tree_id t a Rdy Rt Re Ea Rd) as OD.
    destruct (pl_tree _ _ _ _ _ P) as (t0 & R0 & S). rewrite R in R0. injection R0 as <-.
    destruct (delete_all t (intervals_of all n)) as [t'|] eqn:D.
    - exists (set_tree a ty_tree_id t' w2). split.
      + apply exec_delete_body. rewrite Vi. right. exists w1. rewrite (pl_before_delete _ _ _ _ _ P). split; [constructor|].
        rewrite (pl_after_delete _ _ _ _ _ P). left. split; [reflexivity|]. fold c1. change (delete_step c1 i w1) with w2.
        apply (as_cons sc c1 _ [] w2 (set_tree a ty_tree_id t' w2) _ RUnit); [|discriminate|constructor]. apply OD. split; reflexivity.
      + destruct (plugged_set _ _ all sc w w2 (set_tree a ty_tree_id t' w2) n a t' P Ea Ec2 eq_refl (delete_all_sorted _ _ _ D S)) as (P' & Ix & _).
        destruct (inside_push all sc w c v t (ODelete i) In) as [[_ _ L3 V3 C3 N3] [G3 K3 H3 B3]].
        assert (Hp : w_heap w2 = buf_push (w_heap w) (ctx_buf c) (ODelete i)).
        { cbn. unfold ctx_delete, c1, after_target. now rewrite ctx_buf_with_target. }
        split.
        * constructor; auto.
          -- intros j. specialize (V3 j). unfold view in *. cbn [set_tree w_heap w_graph set_cells]. rewrite Hp. exact V3.
          -- cbn [set_tree w_heap set_cells]. rewrite Hp. exact C3.
        * constructor; auto; cbn [set_tree w_heap set_cells]; rewrite Hp; assumption.
    - intros [|fuel]; [reflexivity|]. unfold delete_body. cbn [run]. unfold view in Vi. rewrite Vi.
      destruct fuel as [|fuel]; [reflexivity|]. cbn [run].
      change (ctx_with_target c (length (w_cells w))) with c1.
      change (set_cells (w_cells w ++ [Cell (DNode n) false Free]) w) with w1.
      destruct fuel as [|fuel]; [reflexivity|]. cbn [run]. rewrite select_scheduled, (pl_before_delete _ _ _ _ _ P).
      destruct fuel as [|fuel]; [reflexivity|]. cbn [run try_for_each try_].
      destruct fuel as [|fuel]; [reflexivity|]. cbn [run]. change (set_heap _ w1) with w2.
      rewrite select_scheduled, (pl_after_delete _ _ _ _ _ P).
      destruct fuel as [|fuel]; [reflexivity|]. cbn [run try_for_each]. rewrite OD. reflexivity.
  Qed.

  Lemma is_ok_true (r : res value) : is_ok r = true <-> forall e, r <> RErr e.
  Proof. destruct r as [| |e]; cbn; split; intros X; try discriminate; try reflexivity. exfalso. now apply (X e). Qed.

  (** A script, run on a context. *)
  Lemma compiled_does all (sc : schema) (s : script) v es v' o : does all s v es v' o ->
    forall (w : world) c t, inside all sc w c v t ->
    match t_run 0 t es with
    | Some t' => exists w', exec sc w (compiled s c) w' o /\ inside all sc w' c v' t' /\ apart c w w'
    | None => diverges sc w (compiled s c)
    end.
  Proof.
    induction 1 as [r v|v|i k v es v' o D IH|n k v es v' o D IH|i n k v es v' o Vi D IH|i k v es v' o Vi D IH
                   |n k v es v' o D IH|i k v es v' o D IH|body k v es v1 r es' v' o D1 IH1 Ok D2 IH2
                   |body k v es v1 e es' v' o D1 IH1 D2 IH2|body k v es v1 es' v' o D1 IH1 D2 IH2]; intros w c t In.
    - exists w. split; [constructor|]. split; [exact In|apply apart_refl].
    - exists w. split; [constructor|]. split; [exact In|apply apart_refl].
    - specialize (IH w c t In). cbn [SpecPlugin.compiled].
      pose proof (in_view _ _ _ _ _ _ In i) as Vi. unfold view in Vi.
      destruct (t_run 0 t es) as [t'|].
      + destruct IH as (w' & E & X). exists w'. split; [|exact X]. apply XGet. now rewrite Vi.
      + intros [|f]; [reflexivity|]. cbn [run]. rewrite Vi. apply IH.
    - rewrite t_run_app, t_run_inserts_all, intervals_single.
      destruct (save_body_inside all sc (fg_open w) n (fg_ctx w c) v t (inside_open _ _ _ _ _ _ In)) as (w1 & E & In1 & A1).
      destruct (inside_close all sc w w1 c _ _ _ _ true In In1 A1) as [In2 A2]. cbv beta iota in In2, A2.
      specialize (IH _ _ _ In2). cbn [SpecPlugin.compiled]. unfold p_save.
      destruct (t_run 0 (insert_all t (intervals_of all n)) es) as [t'|].
      + destruct IH as (w' & E' & In' & A'). exists w'. split; [eapply XFgOk; [exact E|reflexivity|exact E']|].
        split; [exact In'|]. eapply apart_trans; eauto.
      + eapply diverges_fg_after; [exact E|exact IH].
    - rewrite t_run_app, t_run_deletes_all, intervals_single.
      pose proof (delete_body_inside all sc (fg_open w) i n (fg_ctx w c) v t (inside_open _ _ _ _ _ _ In) Vi) as X.
      cbn [SpecPlugin.compiled]. unfold p_delete.
      destruct (delete_all t (intervals_of all n)) as [t1|]; [|now apply diverges_fg_body].
      destruct X as (w1 & E & In1 & A1).
      destruct (inside_close all sc w w1 c _ _ _ _ true In In1 A1) as [In2 A2]. cbv beta iota in In2, A2.
      specialize (IH _ _ _ In2).
      destruct (t_run 0 t1 es) as [t'|].
      + destruct IH as (w' & E' & In' & A'). exists w'. split; [eapply XFgOk; [exact E|reflexivity|exact E']|].
        split; [exact In'|]. eapply apart_trans; eauto.
      + eapply diverges_fg_after; [exact E|exact IH].
    - assert (E : exec sc (fg_open w) (delete_body i (fg_ctx w c)) (fg_open w) (ORet (RErr Noop))).
      { apply exec_delete_body. rewrite (in_view _ _ _ _ _ _ (inside_open _ _ _ _ _ _ In)), Vi. auto. }
      destruct (inside_close all sc w _ c _ _ _ _ false In (inside_open _ _ _ _ _ _ In) (apart_refl _ _)) as [In2 A2]. cbv beta iota in In2, A2.
      specialize (IH _ _ _ In2). cbn [SpecPlugin.compiled]. unfold p_delete.
      destruct (t_run 0 t es) as [t'|].
      + destruct IH as (w' & E' & In' & A'). exists w'. split; [eapply XFgErr; [exact E|reflexivity|exact E']|].
        split; [exact In'|]. eapply apart_trans; eauto.
      + eapply diverges_fg_after; [exact E|exact IH].
    - destruct (inside_push all sc w c v t (OSave n) In) as [In2 A2]. specialize (IH _ _ _ In2). cbn [SpecPlugin.compiled].
      destruct (t_run 0 t es) as [t'|].
      + destruct IH as (w' & E' & In' & A'). exists w'. split; [apply XSave; exact E'|].
        split; [exact In'|]. eapply apart_trans; eauto.
      + intros [|f]; [reflexivity|]. apply IH.
    - destruct (inside_push all sc w c v t (ODelete i) In) as [In2 A2]. specialize (IH _ _ _ In2). cbn [SpecPlugin.compiled].
      destruct (t_run 0 t es) as [t'|].
      + destruct IH as (w' & E' & In' & A'). exists w'. split; [apply XDelete; exact E'|].
        split; [exact In'|]. eapply apart_trans; eauto.
      + intros [|f]; [reflexivity|]. apply IH.
    - rewrite t_run_app. cbn [SpecPlugin.compiled]. specialize (IH1 _ _ _ (inside_open _ _ _ _ _ _ In)). apply is_ok_true in Ok.
      destruct (t_run 0 t es) as [t1|]; [|apply diverges_try, diverges_fg_body, IH1].
      destruct IH1 as (w1 & E & In1 & A1).
      destruct (inside_close all sc w w1 c _ _ _ _ true In In1 A1) as [In2 A2]. cbv beta iota in In2, A2.
      specialize (IH2 _ _ _ In2).
      assert (Ew : exec sc w (PWith (TxFg c) (compiled body) PRet) (close (length (w_heap w)) (fg_commit c (length (w_heap w)) w1)) (ORet r)).
      { eapply XFgOk; [exact E|exact Ok|apply XRet]. }
      destruct (t_run 0 t1 es') as [t'|].
      + destruct IH2 as (w' & E' & In' & A'). exists w'. split; [eapply XTry; [exact Ew|exact E']|].
        split; [exact In'|]. eapply apart_trans; eauto.
      + eapply diverges_try_after; [exact Ew|exact IH2].
    - rewrite t_run_app. cbn [SpecPlugin.compiled]. specialize (IH1 _ _ _ (inside_open _ _ _ _ _ _ In)).
      destruct (t_run 0 t es) as [t1|]; [|apply diverges_try, diverges_fg_body, IH1].
      destruct IH1 as (w1 & E & In1 & A1).
      destruct (inside_close all sc w w1 c _ _ _ _ false In In1 A1) as [In2 A2]. cbv beta iota in In2, A2.
      specialize (IH2 _ _ _ In2).
      assert (Ew : exec sc w (PWith (TxFg c) (compiled body) PRet) (close (length (w_heap w)) w1) (ORet (RErr e))).
      { eapply XFgErr; [exact E|reflexivity|apply XRet]. }
      destruct (t_run 0 t1 es') as [t'|].
      + destruct IH2 as (w' & E' & In' & A'). exists w'. split; [eapply XTry; [exact Ew|exact E']|].
        split; [exact In'|]. eapply apart_trans; eauto.
      + eapply diverges_try_after; [exact Ew|exact IH2].
    - rewrite t_run_app. cbn [SpecPlugin.compiled]. specialize (IH1 _ _ _ (inside_open _ _ _ _ _ _ In)).
      destruct (t_run 0 t es) as [t1|]; [|apply diverges_try, diverges_fg_body, IH1].
      destruct IH1 as (w1 & E & In1 & A1).
      destruct (inside_close all sc w w1 c _ _ _ _ false In In1 A1) as [In2 A2]. cbv beta iota in In2, A2.
      specialize (IH2 _ _ _ In2).
      assert (Ew : exec sc w (PWith (TxFg c) (compiled body) PRet) (close (length (w_heap w)) w1) OPanic).
      { eapply XFgPanic. exact E. }
      destruct (t_run 0 t1 es') as [t'|].
      + destruct IH2 as (w' & E' & In' & A'). exists w'. split; [eapply XTryPanic; [exact Ew|exact E']|].
        split; [exact In'|]. eapply apart_trans; eauto.
      + eapply diverges_try_after; [exact Ew|exact IH2].
  Qed.

  (** ** Top level *)
  Record resting (all : Node -> list I) (sc : schema) (w : world) (v : Id -> option Node) (t : stree) : Prop := {
    re_plugged : plugged all sc w;
    re_tree : reads w (res_from sc ty_tree_id) = Some (DRes ty_tree_id (RTree t));
    re_rest : at_rest w;
    re_wf : g_wf (w_graph w);
    re_view : forall i, g_get (w_graph w) i = v i
  }.

  Lemma bg_runs all (sc : schema) (s : script) v es v' o : does all s v es v' o ->
    forall (w : world) t, resting all sc w v t ->
    match t_run 0 t es with
    | Some t' => exists w', exec sc w (PWith (TxBg None) (compiled s) PRet) w' o /\
        resting all sc w' (match o with ORet r => if is_ok r then v' else v | _ => v end) t'
    | None => diverges sc w (PWith (TxBg None) (compiled s) PRet)
    end.
  Proof.
    intros D w t [P R (L & Hp & Lk) Wf V].
    assert (In : inside all sc (bg_open w) (bg_ctx w) v t).
    { constructor.
      - eapply plugged_cells; [|exact P]. reflexivity.
      - rewrite <- R. now apply reads_cells.
      - exact Lk.
      - intros i. rewrite open_view_root. apply V.
      - cbn. rewrite Hp. cbn. constructor; [lia|constructor].
      - cbn. constructor; [intros []|constructor]. }
    pose proof (compiled_does all sc s v es v' o D _ _ _ In) as X.
    destruct (t_run 0 t es) as [t'|].
    2: { intros [|f]; [reflexivity|]. cbn [run]. rewrite L. cbn zeta. specialize (X f). unfold bg_open, bg_ctx in X. now rewrite X. }
    destruct X as (w1 & E & [P1 R1 L1 V1 C1 N1] & [G1 Lo1 Le1 B1]). cbn in G1, Lo1, Le1.
    assert (Hl : forall p : bool, filter (fun b' => b' <? length (w_heap w)) (w_leaked w1) = []) by (intros _; now rewrite L1).
    assert (Fin : forall w2 : world, w_cells w2 = w_cells w1 -> w_lock w2 = GFree -> g_wf (w_graph w2) -> w_leaked w2 = [] -> w_heap w2 = [] ->
      forall u, (forall i, g_get (w_graph w2) i = u i) -> resting all sc w2 u t').
    { intros w2 Ec El Ew Ek Eh u Eu. constructor; [eapply plugged_cells; eauto| |repeat split; assumption|exact Ew|exact Eu].
      rewrite <- R1. now apply reads_cells. }
    destruct (does_back _ _ _ _ _ _ D) as [[r ->] | ->].
    - destruct (is_ok r) eqn:Ok.
      + eexists. split.
        { eapply XBgOk; [exact L|exact E|exact Ok| |apply XRet]. unfold bg_commit, leaked. rewrite L1. cbn. reflexivity. }
        apply Fin; try reflexivity.
        * cbn. rewrite G1. now apply apply_ops_wf.
        * cbn. now rewrite L1.
        * cbn. now rewrite Hp.
        * intros i. rewrite <- V1. cbn [close set_leaked set_heap set_lock w_graph set_graph]. symmetry. apply view_root. now rewrite G1.
      + eexists. split; [eapply XBgErr; [exact L|exact E|exact Ok|apply XRet]|].
        apply Fin; try reflexivity.
        * cbn. now rewrite G1.
        * cbn. now rewrite L1.
        * cbn. now rewrite Hp.
        * intros i. cbn. rewrite G1. apply V.
    - eexists. split; [eapply XBgPanic; [exact L|exact E]|].
      apply Fin; try reflexivity.
      * cbn. now rewrite G1.
      * cbn. now rewrite L1.
      * cbn. now rewrite Hp.
      * intros i. cbn. rewrite G1. apply V.
  Qed.

  Lemma session_runs all (sc : schema) ss v es v' : all_do all ss v es v' ->
    forall (w : world) t, resting all sc w v t ->
    match t_run 0 t es with
    | Some t' => exists w', exec sc w (session ss) w' (ORet RUnit) /\ resting all sc w' v' t'
    | None => diverges sc w (session ss)
    end.
  Proof.
    induction 1 as [v|s ss v es v1 r es' v' D Ok A IH|s ss v es v1 e es' v' D A IH|s ss v es v1 es' v' D A IH]; intros w t Re.
    - exists w. split; [constructor|exact Re].
    - rewrite t_run_app. pose proof (bg_runs all sc s _ _ _ _ D w t Re) as X. cbn [SpecPlugin.session].
      destruct (t_run 0 t es) as [t1|]; [|now apply diverges_try]. apply is_ok_true in Ok. rewrite Ok in X.
      destruct X as (w1 & E & Re1). specialize (IH _ _ Re1). destruct (t_run 0 t1 es') as [t'|].
      + destruct IH as (w' & E' & Re'). exists w'. split; [eapply XTry; [exact E|exact E']|exact Re'].
      + eapply diverges_try_after; [exact E|exact IH].
    - rewrite t_run_app. pose proof (bg_runs all sc s _ _ _ _ D w t Re) as X. cbn [SpecPlugin.session].
      destruct (t_run 0 t es) as [t1|]; [|now apply diverges_try]. cbn [is_ok] in X.
      destruct X as (w1 & E & Re1). specialize (IH _ _ Re1). destruct (t_run 0 t1 es') as [t'|].
      + destruct IH as (w' & E' & Re'). exists w'. split; [eapply XTry; [exact E|exact E']|exact Re'].
      + eapply diverges_try_after; [exact E|exact IH].
    - rewrite t_run_app. pose proof (bg_runs all sc s _ _ _ _ D w t Re) as X. cbn [SpecPlugin.session].
      destruct (t_run 0 t es) as [t1|]; [|now apply diverges_try]. 
      destruct X as (w1 & E & Re1). specialize (IH _ _ Re1). destruct (t_run 0 t1 es') as [t'|].
      + destruct IH as (w' & E' & Re'). exists w'. split; [eapply XTryPanic; [exact E|exact E']|exact Re'].
      + eapply diverges_try_after; [exact E|exact IH].
  Qed.
End Facts.
