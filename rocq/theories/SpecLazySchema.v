(** Specification vocabulary for schemas of lazy documents: what user code has done and was answered, after any history. *)
From Coq Require Import List Bool Arith.
From Verif Require Import Ord BTree Graph Tx TxMachine SpecTx Guards SpecGuards SpecCrash Lazy LazySchema.
Import ListNotations.

Section Spec.
  Context {Id Doc : Type} `{OrdT Id} `{Identify Doc Id}.
  Notation znode := (znode Id).
  Notation gevent := (gevent Id znode).
  Notation gout := (gout Id znode).
  Notation zevent := (zevent Id Doc).
  Notation zout := (zout Id Doc).

  Definition z_after (es : list zevent) : zstate Id Doc := z_run z_init es.
  Definition z_says (es : list zevent) (e : zevent) : zout := snd (z_step (z_after es) e).

  (** [e] happened in [es], and answered [o]. *)
  Definition z_happened (es : list zevent) (e : zevent) (o : zout) (e2 : list zevent) : Prop :=
    exists e1, es = e1 ++ e :: e2 /\ z_says e1 e = o.

  (** The calls on the schema that rustc did not reject, in order: to the schema, documents are nodes like any other. *)
  Fixpoint plain_from (e1 es : list zevent) : list gevent :=
    match es with
    | [] => []
    | e :: es =>
        match e, z_says e1 e with
        | ZEvent _, ZInvalid => []
        | ZEvent x, _ => [x]
        | _, _ => []
        end ++ plain_from (e1 ++ [e]) es
    end.
  Definition plain (es : list zevent) : list gevent := plain_from [] es.

  (** Nothing waits for ever. *)
  Definition z_returns (es : list zevent) : Prop := returns [] (plain es).

  (** ** Where documents are *)

  (** The document that a call takes. *)
  Definition gives (e : gevent) (n : znode) : Prop :=
    match e with
    | GEvent (ESave _ m) | GEvent (EWrite (GInsert m)) | GEvent (EWrite (GWithNode m)) | GCall _ (GInsert m) | GCall _ (GWithNode m) => m = n
    | _ => False
    end.

  (** User code got document [d], and neither dropped it nor gave it to the schema since. *)
  Definition parts_with (es : list zevent) (e : zevent) (d : nat) : Prop :=
    match e with
    | ZDrop d' => d' = d
    | ZEvent e => exists i, gives e (ZNode i d)
    | _ => False
    end /\ z_says es e <> ZInvalid /\ z_says es e <> ZOut (GX XHang).
  Definition mine (es : list zevent) (d : nat) : Prop :=
    exists e1 e e2, es = e1 ++ e :: e2 /\ z_says e1 e = ZDoc (Some d) /\
      forall e3 e' e4, e2 = e3 ++ e' :: e4 -> ~ parts_with (e1 ++ e :: e3) e' d.

  (** It is in the graph; it waits in transaction [t], to be published when that is committed. *)
  Definition published (es : list zevent) (d : nat) : Prop := exists i, In (ZNode i d) (g_nodes [] (plain es)).
  Definition waits_in (es : list zevent) (t d : nat) : Prop :=
    ~ ended [] (plain es) t /\ exists i, In (i, Some (ZNode i d)) (gathered [] (plain es) t).

  (** ** What documents are *)

  (** A read: [Context::get], or [Graph::get] through a guard that is kept or not. *)
  Definition is_read (e : gevent) : Prop :=
    match e with GEvent (EGet _ _) | GEvent (ERead _) | GGet _ _ => True | _ => False end.

  (** Document [d'] was got as a copy of [d], by the last event. *)
  Inductive copied : list zevent -> nat -> nat -> Prop :=
  | copied_clone es d d' : z_says es (ZClone d) = ZDoc (Some d') -> copied (es ++ [ZClone d]) d d'
  | copied_read es e i d d' : is_read e -> g_says [] (plain es) e = GX (XNode (Some (ZNode i d))) -> z_says es (ZEvent e) = ZDoc (Some d') ->
      copied (es ++ [ZEvent e]) d d'.

  (** Document [d] has id [i]. *)
  Inductive named : list zevent -> nat -> Id -> Prop :=
  | named_build es i d : z_says es (ZBuild i) = ZDoc (Some d) -> named (es ++ [ZBuild i]) d i
  | named_new es v d : z_says es (ZNew v) = ZDoc (Some d) -> named (es ++ [ZNew v]) d (id_of v)
  | named_copy es e d d' i : copied (es ++ [e]) d d' -> named es d i -> named (es ++ [e]) d' i
  | named_still es e d i : named es d i -> named (es ++ [e]) d i.

  (** Document [d] was made with content [v], or is a copy of one that had it by then, or was loaded with it. *)
  Inductive knows : list zevent -> nat -> Doc -> Prop :=
  | knows_new es v d : z_says es (ZNew v) = ZDoc (Some d) -> knows (es ++ [ZNew v]) d v
  | knows_copy es e d d' v : copied (es ++ [e]) d d' -> knows es d v -> knows (es ++ [e]) d' v
  | knows_read es d v i : z_says es (ZRead d (Some v)) = ZContent (Some v) [i] -> knows (es ++ [ZRead d (Some v)]) d v
  | knows_ref es g d v i : z_says es (ZRef g d (Some v)) = ZContent (Some v) [i] -> knows (es ++ [ZRef g d (Some v)]) d v
  | knows_still es e d v : knows es d v -> knows (es ++ [e]) d v.

  (** What dereferencing document [d] gives when the repository has [ans] for it. *)
  Inductive dereferenced (es : list zevent) (d : nat) (ans : option Doc) : zout -> Prop :=
  | deref_known v : knows es d v -> dereferenced es d ans (ZContent (Some v) [])
  | deref_unknown i : (forall v, ~ knows es d v) -> named es d i -> dereferenced es d ans (ZContent ans [i]).

  (** ** What calls on the schema give *)

  (** Given what a schema answers of which the documents are plain nodes: a read gives a new document, copied from the one found; a document that the
      graph gives back is that one; iterating gives references. *)
  Inductive shows (es : list zevent) (e : gevent) : gout -> zout -> Prop :=
  | shows_invalid : shows es e (GX XInvalid) ZInvalid
  | shows_none : shows es e (GX (XNode None)) (ZDoc None)
  | shows_copy i d h : is_read e -> (published es d \/ exists t, waits_in es t d) ->
      (forall e1 e' e2, es = e1 ++ e' :: e2 -> z_says e1 e' <> ZDoc (Some h)) -> mine (es ++ [ZEvent e]) h ->
      (forall v, knows (es ++ [ZEvent e]) h v <-> knows es d v) -> named (es ++ [ZEvent e]) h i ->
      shows es e (GX (XNode (Some (ZNode i d)))) (ZDoc (Some h))
  | shows_back i d : ~ is_read e -> published es d -> mine (es ++ [ZEvent e]) d -> named es d i ->
      shows es e (GX (XNode (Some (ZNode i d)))) (ZDoc (Some d))
  | shows_all l : shows es e (GNodes l) (ZAll (map zn_doc l))
  | shows_other o : match o with GX (XNode _) | GX XInvalid | GNodes _ => False | _ => True end -> shows es e o (ZOut o).

  (** What a call takes is a document that one owns; its node has its id. *)
  Definition may_give (es : list zevent) (e : gevent) : Prop := forall n, gives e n -> mine es (zn_doc n) /\ named es (zn_doc n) (zn_id n).
End Spec.
