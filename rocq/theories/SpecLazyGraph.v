(** Specification vocabulary for graphs of lazy documents: what can be seen from outside, after any history. *)
From Coq Require Import List Bool Arith.
From Verif Require Import Ord BTree Graph Tx Lazy LazyGraph.
Import ListNotations.

Section Spec.
  Context {Id Doc : Type} `{OrdT Id} `{Identify Doc Id}.
  Notation ylabel := (ylabel Id Doc).
  Notation yout := (yout Id Doc).

  Definition y_after (es : list ylabel) : ystate Id Doc := y_run y_init es.
  Definition y_says (es : list ylabel) (e : ylabel) : yout := snd (y_step (y_after es) e).

  (** Document [d] was made by the builder for id [i]. *)
  Definition built (es : list ylabel) (d : nat) (i : Id) : Prop :=
    exists e1 e2, es = e1 ++ YDocs (LBuild i) :: e2 /\ y_says e1 (YDocs (LBuild i)) = YLazy (LHandle d).

  (** Document [d] was made with content [v]. *)
  Definition made (es : list ylabel) (d : nat) (v : Doc) : Prop :=
    exists e1 e2, es = e1 ++ YDocs (LNew v) :: e2 /\ y_says e1 (YDocs (LNew v)) = YLazy (LHandle d).

  (** [d] is among the documents met when iterating the graph. *)
  Definition in_graph (es : list ylabel) (d : nat) : Prop := exists ds, y_says es YIter = YAll ds /\ In d ds.

  (** Document [d] has id [i] (lazy.rs 46-48). *)
  Definition y_id (es : list ylabel) (d : nat) (i : Id) : Prop :=
    exists x, nth_error (l_docs (y_docs (y_after es))) d = Some x /\ ld_id x = i.

  (** Call [c], on document [d], has returned [r]. *)
  Definition y_returned (es : list ylabel) (c d : nat) (r : option Doc) : Prop :=
    nth_error (l_calls (y_docs (y_after es))) c = Some (Call d (Done r)).

  (** The ids the repository was asked for by call [c]. *)
  Fixpoint asked_from (e1 es : list ylabel) (c : nat) : list Id :=
    match es with
    | [] => []
    | e :: es =>
        match e, y_says e1 e with
        | YDocs (LStep c' _), YLazy (LConsulted i _) => if Nat.eqb c c' then [i] else []
        | _, _ => []
        end ++ asked_from (e1 ++ [e]) es c
    end.
  Definition asked (es : list ylabel) (c : nat) : list Id := asked_from [] es c.

  (** A complete call of [try_deref] on document [d], with nothing happening meanwhile, while the repository would answer [ans]. *)
  Definition access (es : list ylabel) (d : nat) (ans : option Doc) : list ylabel :=
    YDocs (LCall d) :: repeat (YDocs (LStep (length (l_calls (y_docs (y_after es)))) ans)) 4.

  (** Such a call answers [r], having asked the repository for [is]. *)
  Definition answers (es : list ylabel) (d : nat) (ans r : option Doc) (is : list Id) : Prop :=
    let c := length (l_calls (y_docs (y_after es))) in
    y_returned (es ++ access es d ans) c d r /\ asked (es ++ access es d ans) c = is.

  (** Document [h] is a copy, made at the end of [es], of the node with id [i]: by [get], or by dereferencing a proxy that had not
      been dereferenced; [e] is the call that made it. *)
  Inductive copied (es : list ylabel) (i : Id) : ylabel -> nat -> Prop :=
  | copied_get h : y_says es (YGet i) = YDoc (Some h) -> copied es i (YGet i) h
  | copied_deref p h e1 e2 :
      es = e1 ++ YNode i :: e2 -> y_says e1 (YNode i) = YProxy p -> ~ In (YDeref p) e2 -> 
      y_says es (YDeref p) = YDoc (Some h) -> copied es i (YDeref p) h.
End Spec.
