(** Facts about buffers, contexts and commits. *)
From Coq Require Import List Bool Arith Lia.
From Verif Require Import Ord OrdFacts BTree BTreeFacts Graph GraphFacts Tx SpecTx.
Import ListNotations.

(** ** [alter] *)
Section Alter.
  Context {A : Type}.
  Implicit Types (l : list A) (f : A -> A) (n : nat).

  Lemma alter_length f n l : length (alter f n l) = length l.
  Proof. revert n. induction l; intros [|n]; cbn; auto. Qed.

  Lemma nth_error_alter f n l m :
    nth_error (alter f n l) m =
    if Nat.eqb n m then option_map f (nth_error l m) else nth_error l m.
  Proof.
    revert n m. induction l as [|x l IH]; intros [|n] [|m]; cbn; auto.
    destruct (Nat.eqb n m); reflexivity.
  Qed.

  Lemma nth_alter_eq f n l d : n < length l -> nth n (alter f n l) d = f (nth n l d).
  Proof. revert n. induction l; intros [|n] L; cbn in *; try lia; auto. apply IHl. lia. Qed.

  Lemma nth_alter_ne f n m l d : n <> m -> nth m (alter f n l) d = nth m l d.
  Proof.
    revert n m. induction l; intros [|n] [|m] L; cbn in *; auto; try lia.
  Qed.

  Lemma alter_oob f n l : length l <= n -> alter f n l = l.
  Proof. revert n. induction l; intros [|n] L; cbn in *; auto; try lia. f_equal. apply IHl. lia. Qed.

  Lemma alter_ext f f' n l : (forall x, nth_error l n = Some x -> f x = f' x) -> alter f n l = alter f' n l.
  Proof.
    revert n. induction l as [|x l IH]; intros [|n] E; cbn; auto.
    - f_equal. now apply E.
    - f_equal. now apply IH.
  Qed.

  Lemma alter_alter f f' n l : alter f n (alter f' n l) = alter (fun x => f (f' x)) n l.
  Proof. revert n. induction l as [|x l IH]; intros [|n]; cbn; f_equal; auto. Qed.

  Lemma alter_id f n l : (forall x, nth_error l n = Some x -> f x = x) -> alter f n l = l.
  Proof.
    revert n. induction l as [|x l IH]; intros [|n] E; cbn; auto; f_equal; auto.
  Qed.

  Lemma alter_app_l f n l k : n < length l -> alter f n (l ++ k) = alter f n l ++ k.
  Proof.
    revert n. induction l as [|x l IH]; intros [|n] L; cbn in *; try lia; auto.
    f_equal. apply IH. lia.
  Qed.
End Alter.

Section Facts.
  Context {Id Node : Type} `{HO : OrdT Id} `{HI : Identify Node Id}.
  Notation graph := (graph Id Node).
  Notation op := (op Id Node).
  Notation heap := (heap Id Node).

  (** The overlay denoted by an operation list. *)
  Definition ops_overlay (ops : list op) (i : Id) : option (option Node) :=
    match find_op ops i with
    | Some (OSave n) => Some (Some n)
    | Some (ODelete _) => Some None
    | None => None
    end.

  Definition op_result (o : op) : option Node :=
    match o with OSave n => Some n | ODelete _ => None end.

  Lemma find_op_app ops1 ops2 i :
    find_op (ops1 ++ ops2) i =
    match find_op ops2 i with Some o => Some o | None => find_op ops1 i end.
  Proof.
    unfold find_op. rewrite rev_app_distr.
    induction (rev ops2) as [|o l IH]; cbn; [reflexivity|].
    destruct (eqb (op_id o) i); auto.
  Qed.

  Lemma ops_overlay_nil i : ops_overlay [] i = None.
  Proof. reflexivity. Qed.

  Lemma ops_overlay_app ops1 ops2 i :
    ops_overlay (ops1 ++ ops2) i =
    match ops_overlay ops2 i with Some r => Some r | None => ops_overlay ops1 i end.
  Proof.
    unfold ops_overlay. rewrite find_op_app. destruct (find_op ops2 i) as [[|]|]; reflexivity.
  Qed.

  Lemma ops_overlay_one o i :
    ops_overlay [o] i = if eqb (op_id o) i then Some (op_result o) else None.
  Proof.
    unfold ops_overlay, find_op; cbn. destruct (eqb (op_id o) i); destruct o; reflexivity.
  Qed.

  Lemma ops_overlay_none ops i : ops_overlay ops i = None <-> (forall o, In o ops -> op_id o <> i).
  Proof.
    induction ops as [|o ops IH] using rev_ind.
    - split; [intros _ o []|reflexivity].
    - rewrite ops_overlay_app, ops_overlay_one. destruct (eqb (op_id o) i) eqn:E.
      + split; [discriminate|]. intros N. apply eqb_eq in E. exfalso.
        apply (N o); [apply in_or_app; right; now left|assumption].
      + apply eqb_neq in E. rewrite IH. split.
        * intros N o' I. apply in_app_or in I as [I|[<-|[]]]; auto.
        * intros N o' I. apply N, in_or_app. now left.
  Qed.

  Lemma apply_op_wf g o : g_wf g -> g_wf (apply_op g o).
  Proof. destruct o; cbn; auto using g_wf_insert, g_wf_remove. Qed.

  Lemma apply_ops_wf ops : forall g, g_wf g -> g_wf (apply_ops g ops).
  Proof. induction ops as [|o ops IH]; intros g W; [exact W|]. apply IH, apply_op_wf, W. Qed.

  Lemma g_get_apply_op g o i : g_wf g ->
    g_get (apply_op g o) i = if eqb (op_id o) i then op_result o else g_get g i.
  Proof.
    intros [S _]. unfold g_get. destruct o; cbn; [apply bt_get_insert|apply bt_get_remove]; assumption.
  Qed.

  Lemma apply_ops_app g ops1 ops2 : apply_ops g (ops1 ++ ops2) = apply_ops (apply_ops g ops1) ops2.
  Proof. apply fold_left_app. Qed.

  Lemma g_get_apply_ops g ops i : g_wf g ->
    g_get (apply_ops g ops) i =
    match ops_overlay ops i with Some r => r | None => g_get g i end.
  Proof.
    intros W. induction ops as [|o ops IH] using rev_ind; [reflexivity|].
    rewrite apply_ops_app. change (apply_ops (apply_ops g ops) [o]) with (apply_op (apply_ops g ops) o).
    rewrite g_get_apply_op by now apply apply_ops_wf.
    rewrite ops_overlay_app, ops_overlay_one. destruct (eqb (op_id o) i); auto.
  Qed.

  (** ** Contexts *)

  Fixpoint ctx_chain (c : ctx) : list nat :=
    match c with
    | CRoot b _ => [b]
    | CSub p b _ => b :: ctx_chain p
    end.

  Lemma ctx_chain_hd c : exists l, ctx_chain c = ctx_buf c :: l.
  Proof. destruct c; cbn; eauto. Qed.

  Lemma ctx_get_unfold h (g : graph) c i :
    ctx_get h g c i =
    match ops_overlay (buf_ops h (ctx_buf c)) i with
    | Some r => r
    | None => match c with CRoot _ _ => g_get g i | CSub p _ _ => ctx_get h g p i end
    end.
  Proof.
    unfold ops_overlay. destruct c; cbn; destruct (find_op _ i) as [[|]|]; reflexivity.
  Qed.

  Lemma ctx_get_view h (g : graph) c i :
    ctx_get h g c i =
    ov_view (map (fun b => ops_overlay (buf_ops h b)) (ctx_chain c)) (g_get g) i.
  Proof.
    induction c as [b t|p IH b t]; rewrite ctx_get_unfold; cbn [ctx_chain map ov_view ctx_buf].
    - destruct (ops_overlay (buf_ops h b) i); reflexivity.
    - rewrite IH. destruct (ops_overlay (buf_ops h b) i); reflexivity.
  Qed.

  Lemma ctx_contains_get h (g : graph) c i :
    ctx_contains h g c i = match ctx_get h g c i with Some _ => true | None => false end.
  Proof.
    induction c as [b t|p IH b t]; cbn; destruct (find_op _ i) as [[|]|]; auto.
  Qed.

  (** Reads depend only on the buffers of the chain. *)
  Lemma ctx_get_frame h h' (g : graph) c i :
    (forall b, In b (ctx_chain c) -> buf_ops h' b = buf_ops h b) ->
    ctx_get h' g c i = ctx_get h g c i.
  Proof.
    induction c as [b t|p IH b t]; intros E; rewrite (ctx_get_unfold h'), (ctx_get_unfold h); cbn in *.
    - rewrite E by auto. reflexivity.
    - rewrite (E b) by auto. destruct (ops_overlay _ i); auto.
  Qed.

  Lemma ctx_get_with_target h (g : graph) c t i :
    ctx_get h g (ctx_with_target c t) i = ctx_get h g c i.
  Proof. destruct c; reflexivity. Qed.

  Lemma ctx_contains_with_target h (g : graph) c t i :
    ctx_contains h g (ctx_with_target c t) i = ctx_contains h g c i.
  Proof. destruct c; reflexivity. Qed.

  Lemma buf_ops_push_eq (h : heap) b o : b < length h -> buf_ops (buf_push h b o) b = buf_ops h b ++ [o].
  Proof. intros L. unfold buf_ops, buf_push. now rewrite nth_alter_eq. Qed.

  Lemma buf_ops_push_ne (h : heap) b b' o : b <> b' -> buf_ops (buf_push h b o) b' = buf_ops h b'.
  Proof. intros L. unfold buf_ops, buf_push. now rewrite nth_alter_ne. Qed.
End Facts.
