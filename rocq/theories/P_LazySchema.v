(** C143: schemas of lazy documents. *)
From Coq Require Import List Bool Arith.
From Verif Require Import Ord BTree Graph Tx TxMachine SpecTx Guards SpecGuards SpecCrash Drops SpecDrops Lazy LazySchema SpecLazySchema LazySchemaFacts Demo.
Import ListNotations.

Section C143.
  Context {Id Doc : Type} `{HO : OrdT Id} `{HI : Identify Doc Id}.
  Notation zevent := (zevent Id Doc).
  Notation gevent := (gevent Id (znode Id)).

  (** A schema of lazy documents answers as one of plain nodes; a read gives a copy of the document that it finds, with the content that one has then. *)
  Theorem C143_as_plain_nodes :
    forall (es : list zevent) (e : gevent),
      (may_give es e -> shows es e (g_says [] (plain es) e) (z_says es (ZEvent e))) /\
      (z_returns es -> ~ may_give es e -> z_says es (ZEvent e) = ZInvalid) /\
      (~ z_returns es -> forall e' : zevent, z_says es e' = ZOut (GX XHang)).
  Proof.
    intros es e. split; [apply as_plain|]. split; [apply not_given|]. intros N e'. now apply says_hung.
  Qed.

  (** Building, making and cloning documents gives new ones; one clones and drops what one owns. *)
  Theorem C143_documents :
    forall (es : list zevent), z_returns es ->
      exists h, (forall e1 e e2, es = e1 ++ e :: e2 -> z_says e1 e <> ZDoc (Some h)) /\
        (forall i, z_says es (ZBuild i) = ZDoc (Some h)) /\ (forall v, z_says es (ZNew v) = ZDoc (Some h)) /\
        forall d, (mine es d -> z_says es (ZClone d) = ZDoc (Some h) /\ z_says es (ZDrop d) = ZDoc None) /\
                  (~ mine es d -> z_says es (ZClone d) = ZInvalid /\ z_says es (ZDrop d) = ZInvalid).
  Proof.
    intros es R. apply hung_spec in R. exists (length (z_docs (z_after es))). split; [apply fresh_doc|]. unfold z_says, z_step. rewrite R.
    split; [reflexivity|]. split; [reflexivity|]. intros d. rewrite mine_spec, <- owns_spec. split; intros M.
    - rewrite M. split; [|reflexivity]. apply owns_spec, (zi_mine _ (zinv_after es)), nth_error_Some in M. destruct (nth_error _ d); [reflexivity|congruence].
    - destruct (z_owns _ d); [congruence|]. split; [|reflexivity]. now destruct (nth_error _ d).
  Qed.

  (** Every document is in one place only: with user code, in a transaction or in the graph. *)
  Theorem C143_one_place :
    forall (es : list zevent) (d : nat),
      (mine es d -> ~ published es d) /\ (forall t, mine es d -> ~ waits_in es t d) /\ (forall t, published es d -> ~ waits_in es t d) /\
      (forall t t', waits_in es t d -> waits_in es t' d -> t = t') /\ NoDup (map zn_doc (g_nodes [] (plain es))).
  Proof.
    intros es d. destruct (one_place es d) as (A & B & C & D). repeat split; auto. apply published_once.
  Qed.

  (** What dereferencing gives, and when the repository is asked: by who owns the document, and through references into the graph. *)
  Theorem C143_dereferenced :
    forall (es : list zevent) (d : nat) (ans : option Doc), z_returns es ->
      (mine es d -> dereferenced es d ans (z_says es (ZRead d ans))) /\
      (~ mine es d -> z_says es (ZRead d ans) = ZInvalid) /\
      forall g, let referenced := (exists l, g_says [] (plain es) (GIter g) = GNodes l) /\ published es d in
        (referenced -> dereferenced es d ans (z_says es (ZRef g d ans))) /\ (~ referenced -> z_says es (ZRef g d ans) = ZInvalid).
  Proof.
    intros es d ans R. split; [|split].
    - intros M. apply reaches_says; [exact R|]. left. split; [reflexivity|]. now apply mine_spec.
    - intros M. apply unreached_says with (d := d) (ans := ans); auto. intros [[_ K]|(g & w & K & _)]; [|discriminate]. apply M. now apply mine_spec.
    - intros g. cbn zeta. rewrite (iter_usable es g R), published_spec. split.
      + intros [[w U] P]. apply reaches_says; [exact R|]. right. eauto.
      + intros N. apply unreached_says with (d := d) (ans := ans); eauto. intros [[K _]|(g' & w & [= <-] & U & P)]; [discriminate|]. apply N. eauto.
  Qed.

  (** A document has one id and at most one content, for good. *)
  Theorem C143_one_content :
    forall (es : list zevent) (d : nat),
      (forall i i', named es d i -> named es d i' -> i = i') /\ (forall v v', knows es d v -> knows es d v' -> v = v').
  Proof.
    intros es d. split.
    - intros i i' N N'. apply named_spec in N as (x & X & <-). apply named_spec in N' as (x' & X' & <-). congruence.
    - intros v v' K K'. apply knows_spec in K as (x & X & E). apply knows_spec in K' as (x' & X' & E'). congruence.
  Qed.

  (** A document that exists gets content only when its owner dereferences it, or when it is dereferenced in the graph through a guard; so one that waits in
      a transaction gets none. *)
  Theorem C143_loaded_by :
    forall (es : list zevent) (e : zevent) (d : nat) (i : Id) (v : Doc), named es d i -> knows (es ++ [e]) d v -> ~ knows es d v ->
      (e = ZRead d (Some v) /\ mine es d) \/ (exists g, e = ZRef g d (Some v) /\ published es d /\ exists l, g_says [] (plain es) (GIter g) = GNodes l).
  Proof. intros es e d i v N K Nk. eapply loaded_by; eassumption. Qed.

  Theorem C143_not_loaded_while_waiting :
    forall (es : list zevent) (e : zevent) (t d : nat) (v : Doc), waits_in es t d -> (knows (es ++ [e]) d v <-> knows es d v).
  Proof.
    intros es e t d v W. split; [|apply knows_still]. intros K.
    destruct (proj1 (waits_spec es t d) W) as (n & Kn & <-).
    assert (F : In n (inside (z_g (z_after es)))) by (apply in_app_iff; left; eapply waiting_inside, kept_in_waiting, Kn).
    destruct (zi_ids _ (zinv_after es) n F) as (x & X & Ei).
    assert (D : knows es (zn_doc n) v \/ ~ knows es (zn_doc n) v).
    { rewrite knows_spec. unfold doc_at. rewrite X. destruct (ld_cell x) as [w|] eqn:C.
      - rewrite knows_spec in K. destruct K as (y & Y & K). destruct (proj1 (knows_spec (es ++ [e]) (zn_doc n) w) (knows_still _ _ _ _ (proj2 (knows_spec es (zn_doc n) w) (ex_intro _ x (conj X C))))) as (y' & Y' & K').
        left. exists x. split; [reflexivity|]. congruence.
      - right. intros (y & [= <-] & Q). congruence. }
    destruct D as [D|D]; [exact D|]. destruct (one_place es (zn_doc n)) as (_ & M & P & _).
    destruct (loaded_by es e (zn_doc n) v (zn_id n)) as [[_ Q]|(g & _ & Q & _)]; auto.
    - apply named_spec. eauto.
    - now destruct (M t Q).
    - now destruct (P t Q).
  Qed.

  (** Once a document has content, whatever the schema gives as a copy of it has that content, and the repository is not asked. *)
  Theorem C143_content_stays :
    forall (es es' : list zevent) (e : gevent) (i : Id) (d : nat) (v : Doc),
      knows es d v -> is_read e -> g_says [] (plain (es ++ es')) e = GX (XNode (Some (ZNode i d))) ->
      exists h, z_says (es ++ es') (ZEvent e) = ZDoc (Some h) /\ forall ans, z_says ((es ++ es') ++ [ZEvent e]) (ZRead h ans) = ZContent (Some v) [].
  Proof.
    intros es es' e i d v K R G.
    assert (K' : knows (es ++ es') d v) by (clear G; induction es' as [|x es' IH] using rev_ind; [now rewrite app_nil_r|rewrite app_assoc; now apply knows_still]).
    destruct (read_gives (es ++ es') e i d R G) as (h & S & M & Kn & _ & Rt & _). exists h. split; [exact S|]. intros ans.
    destruct (C143_dereferenced _ h ans Rt) as [D _]. specialize (D M). apply Kn in K'.
    destruct D as [w K2|j N _]; [|now destruct (N v)]. now rewrite (proj2 (C143_one_content _ _) w v K2 K').
  Qed.

  (** As long as a document has none, each copy that the schema gives asks the repository on its own: loading a copy loads neither the document nor the
      copies to come. *)
  Theorem C143_copies_ask_again :
    forall (es es' : list zevent) (e : gevent) (i : Id) (d : nat),
      (forall v, ~ knows es d v) -> (exists j, named es d j) -> (forall x, In x es' -> match x with ZRead d' _ | ZRef _ d' _ => d' <> d | _ => True end) ->
      is_read e -> g_says [] (plain (es ++ es')) e = GX (XNode (Some (ZNode i d))) ->
      exists h, z_says (es ++ es') (ZEvent e) = ZDoc (Some h) /\ forall ans, z_says ((es ++ es') ++ [ZEvent e]) (ZRead h ans) = ZContent ans [i].
  Proof.
    intros es es' e i d Nk [j Nm] Nd R G.
    assert (K' : (forall v, ~ knows (es ++ es') d v) /\ named (es ++ es') d j).
    { clear G. revert Nd. induction es' as [|x es' IH] using rev_ind; intros Nd; [now rewrite app_nil_r|]. rewrite app_assoc.
      destruct IH as [IH1 IH2]; [intros y Y; apply Nd, in_app_iff; auto|]. split; [|now apply named_still]. intros v K.
      assert (Nx : In x (es' ++ [x])) by (apply in_app_iff; right; now left). apply Nd in Nx.
      destruct (loaded_by _ x d v j IH2 K (IH1 v)) as [[-> _]|(g & -> & _)]; now apply Nx. }
    destruct (read_gives (es ++ es') e i d R G) as (h & S & M & Kn & Ni & Rt & _). exists h. split; [exact S|]. intros ans.
    destruct (C143_dereferenced _ h ans Rt) as [D _]. specialize (D M).
    destruct D as [w K2|j' N Nj]; [apply Kn in K2; now apply (proj1 K') in K2|]. now rewrite (proj1 (C143_one_content _ _) j' i Nj Ni).
  Qed.
End C143.

(** ** A concrete case *)

Definition zev (e : @event nat (znode nat)) : zevent nat dnode := ZEvent (GEvent e).

(** Document 0 is new with content, document 1 is of the repository; both are saved.  Document 2 is a copy of 1 read in the transaction, which asks. *)
Definition ls_saved : list (zevent nat dnode) :=
  [ZNew (DNode 1 10); ZBuild 2; zev EBackground; zev (EContext 0); zev (ESave 0 (ZNode 1 0)); zev (ESave 0 (ZNode 2 1)); zev (EGet 0 2);
   ZRead 2 (Some (DNode 2 20))].
(** After the commit documents 3 and 4 are read; then document 1 is loaded in the graph, and 5 is read. *)
Definition ls_read : list (zevent nat dnode) :=
  ls_saved ++ [zev (EDropCtx 0); zev (EEnd 0 true); zev (ERead 1); zev (ERead 2)].
Definition ls_loaded : list (zevent nat dnode) := ls_read ++ [ZEvent (GOpen false); ZRef 0 1 (Some (DNode 2 22)); ZEvent (GGet 0 2)].

Example C143_case :
  (z_says (firstn 4 ls_saved) (zev (ESave 0 (ZNode 2 0))) = ZInvalid /\ z_says (firstn 5 ls_saved) (zev (ESave 0 (ZNode 1 0))) = ZInvalid /\
   z_says (firstn 5 ls_saved) (ZRead 0 None) = ZInvalid /\
   z_says (firstn 6 ls_saved) (zev (EGet 0 2)) = ZDoc (Some 2) /\ z_says (firstn 7 ls_saved) (ZRead 2 (Some (DNode 2 20))) = ZContent (Some (DNode 2 20)) [2] /\
   z_says ls_saved (ZRead 2 None) = ZContent (Some (DNode 2 20)) [] /\ z_says ls_saved (ZRead 1 None) = ZInvalid) /\
  (z_says ls_read (ZRead 3 None) = ZContent (Some (DNode 1 10)) [] /\ z_says ls_read (ZRead 4 None) = ZContent None [2] /\
   z_says ls_read (ZRead 4 (Some (DNode 2 21))) = ZContent (Some (DNode 2 21)) [2] /\ z_says ls_read (ZEvent (GIter 0)) = ZInvalid) /\
  (z_says ls_loaded (ZEvent (GIter 0)) = ZAll [0; 1] /\ z_says ls_loaded (ZRead 5 None) = ZContent (Some (DNode 2 22)) [] /\
   z_says ls_loaded (ZRead 4 None) = ZContent None [2]) /\
  (z_says ls_read (zev (EWrite (GRemove 2))) = ZDoc (Some 1) /\ z_says (ls_read ++ [zev (EWrite (GRemove 2))]) (ZRead 1 None) = ZContent None [2] /\
   z_says ls_loaded (zev (EWrite (GRemove 2))) = ZOut (GX XHang)) /\
  plain ls_saved = [GEvent EBackground; GEvent (EContext 0); GEvent (ESave 0 (ZNode 1 0)); GEvent (ESave 0 (ZNode 2 1)); GEvent (EGet 0 2)].
Proof. repeat split; reflexivity. Qed.

Print Assumptions C143_as_plain_nodes.
Print Assumptions C143_documents.
Print Assumptions C143_one_place.
Print Assumptions C143_dereferenced.
Print Assumptions C143_one_content.
Print Assumptions C143_loaded_by.
Print Assumptions C143_not_loaded_while_waiting.
Print Assumptions C143_content_stays.
Print Assumptions C143_copies_ask_again.
