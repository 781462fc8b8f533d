(** Specification vocabulary for graphs: what a history of calls means, without
    reference to how the graph is stored. *)
From Coq Require Import List.
From Verif Require Import Ord BTree Graph.
Import ListNotations.

Section Spec.
  Context {Id Node : Type} `{OrdT Id} `{Identify Node Id}.

  (** The call concerns id [i]. *)
  Definition about (c : gcall) (i : Id) : Prop :=
    match c with
    | GWithNode n | GInsert n => id_of n = i
    | GRemove j => j = i
    end.

  (** What the call leaves under its id. *)
  Definition written (c : gcall (Id := Id) (Node := Node)) : option Node :=
    match c with
    | GWithNode n | GInsert n => Some n
    | GRemove _ => None
    end.

  (** [answer before cs i r]: after the calls [cs], id [i] holds [r]: what the
      last call about [i] left, or [before i] when no call was about [i]. *)
  Definition last_write (before : Id -> option Node) (cs : list gcall) (i : Id)
      (r : option Node) : Prop :=
    (exists pre c post, cs = pre ++ c :: post /\ about c i /\
        (forall c', In c' post -> ~ about c' i) /\ r = written c)
    \/ ((forall c, In c cs -> ~ about c i) /\ r = before i).

  (** [last_node l i r]: [r] is the last node of [l] whose id is [i], if any. *)
  Definition last_node (l : list Node) (i : Id) (r : option Node) : Prop :=
    (exists pre n post, l = pre ++ n :: post /\ id_of n = i /\
        (forall m, In m post -> id_of m <> i) /\ r = Some n)
    \/ ((forall m, In m l -> id_of m <> i) /\ r = None).
End Spec.
