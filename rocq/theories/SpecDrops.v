(** Specification vocabulary for what becomes of nodes: where each of them is owned, in terms of the history. *)
From Coq Require Import List Bool Arith.
From Verif Require Import Ord BTree Graph Tx TxMachine SpecTx Guards SpecGuards.
Import ListNotations.

Section Spec.
  Context {Id Node : Type} `{OrdT Id} `{Identify Node Id}.
  Notation gevent := (gevent Id Node).
  Notation gout := (gout Id Node).

  (** The node a call gives away. *)
  Definition argument (e : gevent) : list Node :=
    match e with
    | GEvent (ESave _ n) | GEvent (EWrite (GInsert n)) | GEvent (EWrite (GWithNode n)) | GCall _ (GInsert n) | GCall _ (GWithNode n) => [n]
    | _ => []
    end.

  (** Was the call carried out? *)
  Definition accepted (o : gout) : bool :=
    match o with GX XInvalid | GX XHang => false | _ => true end.

  (** The nodes given to the schema, by calls that were carried out. *)
  Fixpoint given (es : list gevent) (os : list gout) : list Node :=
    match es, os with
    | e :: es, o :: os => (if accepted o then argument e else []) ++ given es os
    | _, _ => []
    end.

  (** The nodes that the graph gave back to callers: those that [insert] replaced and that [remove] removed. *)
  Fixpoint given_back (es : list gevent) (os : list gout) : list Node :=
    match es, os with
    | GEvent (EWrite _) :: es, GX (XNode (Some n)) :: os => n :: given_back es os
    | GCall _ _ :: es, GX (XNode (Some n)) :: os => n :: given_back es os
    | _ :: es, _ :: os => given_back es os
    | _, _ => []
    end.

  (** Transaction [t] was begun. *)
  Definition begun (g0 : graph Id Node) (es : list gevent) (t : nat) : Prop :=
    background g0 es t \/ exists c e2, happened g0 es (GEvent (EForeground c)) (GX (XHandle t)) e2.

  (** The nodes in a list of changes, and those that the changes take out of a map when they are made one after the other. *)
  Definition entry_nodes (l : list (@entry Id Node)) : list Node := flat_map (fun e => match snd e with Some n => [n] | None => [] end) l.
  Fixpoint replaced (l : list (@entry Id Node)) (m : Id -> option Node) : list Node :=
    match l with
    | [] => []
    | e :: l => match m (fst e) with Some n => [n] | None => [] end ++ replaced l (base_set (fst e) (snd e) m)
    end.
End Spec.
