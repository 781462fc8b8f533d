(** Model of a schema of lazy documents: plotline/src/schema/*.rs and plotline/src/graph/mod.rs with plotline/src/document/lazy.rs as the node type,
    which is what the command line has (plotline-cli/src/document.rs 69).  Lazy documents have interior mutability and [clone] copies their cell, so
    documents are named by handles; the nodes of Guards.v are handles with the id of their document.

    Simplifications: a call of [try_deref] is one step (Lazy.v is about several at once); the repository is not stored, what it answers is part of each
    history. *)
From Coq Require Import List Bool Arith.
From Verif Require Import Ord BTree Graph Tx TxMachine Guards Lazy.
Import ListNotations.

Record znode (Id : Type) := ZNode { zn_id : Id; zn_doc : nat }.
Arguments ZNode {Id}. Arguments zn_id {Id}. Arguments zn_doc {Id}.

(** lazy.rs 40-49: the id of a lazy document. *)
#[global] Instance znode_identify {Id} : Identify (znode Id) Id := { id_of := zn_id }.

Section LazySchema.
  Context {Id Doc : Type} `{OrdT Id} `{Identify Doc Id}.
  Notation znode := (znode Id).
  Notation gevent := (gevent Id znode).
  Notation gout := (gout Id znode).
  Notation ldoc := (@ldoc Id Doc).

  (** [z_mine]: the documents that user code owns; the others are in the schema, or were dropped. *)
  Record zstate := ZState { z_g : gstate Id znode; z_docs : list ldoc; z_mine : list nat }.

  Inductive zevent :=
  | ZBuild (i : Id)                              (* the builder's closure                    lazy.rs 82-93 *)
  | ZNew (v : Doc)                               (* LazyDocument::new                        lazy.rs 102-115 *)
  | ZClone (d : nat)                             (* clone of a document one owns             lazy.rs 31-37 *)
  | ZDrop (d : nat)
  | ZRead (d : nat) (ans : option Doc)           (* try_deref of a document one owns; [ans]: what the repository has      lazy.rs 58-73 *)
  | ZRef (g : nat) (d : nat) (ans : option Doc)  (* the same of one in the graph, met when iterating over guard [g]       graph/mod.rs 44-55 *)
  | ZEvent (e : gevent).                         (* a call on the schema *)

  Inductive zout :=
  | ZInvalid                                     (* rejected by rustc *)
  | ZDoc (d : option nat)                        (* a document one owns from now on *)
  | ZContent (r : option Doc) (asked : list Id)  (* what try_deref gives, and what the repository was asked for *)
  | ZAll (ds : list nat)                         (* references to these *)
  | ZOut (o : gout).                             (* no document *)

  Definition z_init : zstate := ZState (g_init []) [] [].

  (** lazy.rs 58-73, with nobody else. *)
  Definition z_deref (d : nat) (ans : option Doc) (docs : list ldoc) : list ldoc * zout :=
    match nth_error docs d with
    | None => (docs, ZInvalid)
    | Some x =>
        match ld_cell x with
        | Some v => (docs, ZContent (Some v) [])
        | None =>
            match ans with
            | Some v => (set_cell v d docs, ZContent (Some v) [ld_id x])
            | None => (docs, ZContent None [ld_id x])
            end
        end
    end.

  Definition z_owns (st : zstate) (d : nat) : bool := existsb (Nat.eqb d) (z_mine st).
  Definition z_without (d : nat) (ds : list nat) : list nat := filter (fun x => negb (Nat.eqb d x)) ds.

  (** The document a call takes: by value, so that one has to own it. *)
  Definition z_given (e : gevent) : option znode :=
    match e with
    | GEvent (ESave _ n) | GEvent (EWrite (GInsert n)) | GEvent (EWrite (GWithNode n)) | GCall _ (GInsert n) | GCall _ (GWithNode n) => Some n
    | _ => None
    end.
  Definition z_may (st : zstate) (e : gevent) : bool :=
    match z_given e with
    | Some n => z_owns st (zn_doc n) && match nth_error (z_docs st) (zn_doc n) with Some x => eqb (ld_id x) (zn_id n) | None => false end
    | None => true
    end.

  (** What the caller keeps of the documents they own, given what was answered. *)
  Definition z_kept (e : gevent) (o : gout) (ds : list nat) : list nat :=
    match o, z_given e with
    | (GX XInvalid | GX XHang), _ => ds
    | _, Some n => z_without (zn_doc n) ds
    | _, None => ds
    end.

  (** Context::get (transaction.rs 370-384) and Graph::get (graph/mod.rs 64-66) give clones. *)
  Definition z_clones (e : gevent) : bool :=
    match e with GEvent (EGet _ _) | GEvent (ERead _) | GGet _ _ => true | _ => false end.

  Definition z_step (st : zstate) (e : zevent) : zstate * zout :=
    if gs_hung (z_g st) then (st, ZOut (GX XHang)) else
    let fresh := length (z_docs st) in
    match e with
    | ZBuild i => (ZState (z_g st) (z_docs st ++ [ld_build i]) (z_mine st ++ [fresh]), ZDoc (Some fresh))
    | ZNew v => (ZState (z_g st) (z_docs st ++ [ld_new v]) (z_mine st ++ [fresh]), ZDoc (Some fresh))
    | ZClone d =>
        match nth_error (z_docs st) d with
        | Some x =>
            if z_owns st d then (ZState (z_g st) (z_docs st ++ [ld_clone x]) (z_mine st ++ [fresh]), ZDoc (Some fresh)) else (st, ZInvalid)
        | None => (st, ZInvalid)
        end
    | ZDrop d => if z_owns st d then (ZState (z_g st) (z_docs st) (z_without d (z_mine st)), ZDoc None) else (st, ZInvalid)
    | ZRead d ans =>
        if z_owns st d then let (docs, o) := z_deref d ans (z_docs st) in (ZState (z_g st) docs (z_mine st), o) else (st, ZInvalid)
    | ZRef g d ans =>
        match snd (g_step (z_g st) (GIter g)) with
        | GNodes l =>
            if existsb (fun n => Nat.eqb d (zn_doc n)) l
            then let (docs, o) := z_deref d ans (z_docs st) in (ZState (z_g st) docs (z_mine st), o) else (st, ZInvalid)
        | _ => (st, ZInvalid)
        end
    | ZEvent e =>
        if negb (z_may st e) then (st, ZInvalid) else
        let (g', o) := g_step (z_g st) e in
        let mine := z_kept e o (z_mine st) in
        match o with
        | GX XInvalid => (st, ZInvalid)
        | GX (XNode None) => (ZState g' (z_docs st) mine, ZDoc None)
        | GX (XNode (Some n)) =>
            if z_clones e then
              match nth_error (z_docs st) (zn_doc n) with
              | Some x => (ZState g' (z_docs st ++ [ld_clone x]) (mine ++ [fresh]), ZDoc (Some fresh))
              | None => (st, ZInvalid)
              end
            else (ZState g' (z_docs st) (mine ++ [zn_doc n]), ZDoc (Some (zn_doc n)))       (* given back: graph/mod.rs 85-87, 107-109 *)
        | GNodes l => (ZState g' (z_docs st) mine, ZAll (map zn_doc l))
        | _ => (ZState g' (z_docs st) mine, ZOut o)
        end
    end.

  Definition z_run (st : zstate) (es : list zevent) : zstate := fold_left (fun st e => fst (z_step st e)) es st.
End LazySchema.
Arguments zstate : clear implicits.
Arguments zevent : clear implicits.
Arguments zout : clear implicits.
