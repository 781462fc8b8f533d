(** Specification vocabulary for what runs leave to be seen: histories over a plain map. *)
From Coq Require Import List Bool Arith Sorted.
From Verif Require Import Ord OrdFacts BTree Graph SpecGraph Tx TxMachine SpecTx Prog SpecProg ProgTrace.
Import ListNotations.

Section Spec.
  Context {Id Node V U : Type} `{OrdT Id} `{Identify Node Id}.
  Notation prog := (prog Id Node V U).
  Notation world := (world Id Node V U).
  Notation schema := (schema Id Node V U).
  Notation outcome := (outcome V).
  Notation happening := (happening Id Node).

  (** Run from [w], program [p] ends with outcome [o], leaving [w'], and [l] is all that happened. *)
  Definition happened (sc : schema) (w : world) (p : prog) (w' : world) (o : outcome) (l : list happening) : Prop :=
    exists fuel, run sc fuel w p = Some (w', o) /\ trace sc fuel w p = l.

  (** At some point of the run, that is what has happened so far; the run may never end. *)
  Definition so_far (sc : schema) (w : world) (p : prog) (l : list happening) : Prop :=
    exists fuel, trace sc fuel w p = l.

  (** The id a call on the write guard is about. *)
  Definition call_id (c : @gcall Id Node) : Id :=
    match c with GWithNode n | GInsert n => id_of n | GRemove i => i end.

  (** What a history leaves in a map. *)
  Fixpoint after (m : Id -> option Node) (l : list happening) : Id -> option Node :=
    match l with
    | [] => m
    | HPublish ops :: l => after (replay (map op_entry ops) m) l
    | HCall c _ :: l => after (base_set (call_id c) (written c) m) l
    | (HNotice _ | HGet _ _ | HIter _) :: l => after m l
    end.

  (** Every answer in the history is the one of the map at that point. *)
  Fixpoint serial (m : Id -> option Node) (l : list happening) : Prop :=
    match l with
    | [] => True
    | HNotice _ :: l => serial m l
    | HPublish ops :: l => serial (replay (map op_entry ops) m) l
    | HCall c r :: l =>
        r = match c with GWithNode _ => None | _ => m (call_id c) end /\ serial (base_set (call_id c) (written c) m) l
    | HGet i r :: l => r = m i /\ serial m l
    | HIter ns :: l =>
        (forall n, In n ns <-> m (id_of n) = Some n) /\ StronglySorted (fun a b => lt (id_of a) (id_of b)) ns /\ serial m l
    end.

  (** Nothing but errors logged. *)
  Definition only_notices (l : list happening) : Prop := forall h, In h l -> exists n, h = HNotice n.

  (** Nothing but errors logged and reads. *)
  Definition only_reads (l : list happening) : Prop :=
    forall h, In h l -> match h with HNotice _ | HGet _ _ | HIter _ => True | HPublish _ | HCall _ _ => False end.

  (** What is logged for a handle when it is accessed in [w]: an error if a panic disabled it. *)
  Definition logged (w : world) (h : handle) : list happening :=
    match h_addr h with
    | Some a =>
        match nth_error (w_cells w) a with
        | Some (Cell _ true _) => [HNotice (match h_ty h with TyNode => NTarget | TyRes t => NResource t end)]
        | _ => []
        end
    | None => []
    end.

  (** The handle is of something that was there when it was made: it has a cell holding a value of its type. *)
  Definition present (w : world) (h : handle) : Prop :=
    exists a x, h_addr h = Some a /\ nth_error (w_cells w) a = Some x /\ ty_of (c_val x) = h_ty h.

  (** ** Programs without leaks *)

  (** [q] is [p] without its [mem::forget]. *)
  Fixpoint unleaked (p q : prog) {struct p} : Prop :=
    match p, q with
    | PLeak _ k, _ => unleaked k q
    | PRet r, PRet r' => r' = r
    | PPanic, PPanic => True
    | PLoop, PLoop => True
    | PEmit v k, PEmit v' k' => v' = v /\ unleaked k k'
    | PCall body k, PCall body' k' => unleaked body body' /\ forall r, unleaked (k r) (k' r)
    | PTry body k, PTry body' k' => unleaked body body' /\ forall r, unleaked (k r) (k' r)
    | PWith t body k, PWith t' body' k' =>
        t' = t /\ (forall c, unleaked (body c) (body' c)) /\ forall r, unleaked (k r) (k' r)
    | PSave c n k, PSave c' n' k' => c' = c /\ n' = n /\ unleaked k k'
    | PDelete c i k, PDelete c' i' k' => c' = c /\ i' = i /\ unleaked k k'
    | PGet c i k, PGet c' i' k' => c' = c /\ i' = i /\ forall r, unleaked (k r) (k' r)
    | PContains c i k, PContains c' i' k' => c' = c /\ i' = i /\ forall r, unleaked (k r) (k' r)
    | PTarget c n k, PTarget c' n' k' => c' = c /\ n' = n /\ forall d, unleaked (k d) (k' d)
    | PTriggers s c k, PTriggers s' c' k' => s' = s /\ c' = c /\ forall r, unleaked (k r) (k' r)
    | PRead body k, PRead body' k' => unleaked body body' /\ forall r, unleaked (k r) (k' r)
    | PWrite body k, PWrite body' k' => unleaked body body' /\ forall r, unleaked (k r) (k' r)
    | PGraphGet i k, PGraphGet i' k' => i' = i /\ forall r, unleaked (k r) (k' r)
    | PGraphIter k, PGraphIter k' => forall r, unleaked (k r) (k' r)
    | PGraphCall c k, PGraphCall c' k' => c' = c /\ forall r, unleaked (k r) (k' r)
    | PRes t k, PRes t' k' => t' = t /\ forall h, unleaked (k h) (k' h)
    | PAccess m hs body k, PAccess m' hs' body' k' =>
        m' = m /\ hs' = hs /\ (forall vs, unleaked (body vs) (body' vs)) /\ forall r, unleaked (k r) (k' r)
    | PPoke a d k, PPoke a' d' k' => a' = a /\ d' = d /\ unleaked k k'
    | _, _ => False
    end.

  (** The same schema, its triggers without theirs. *)
  Definition unleaked_schema (sc sc' : schema) : Prop :=
    sc_resources sc' = sc_resources sc /\
    forall s, Forall2 (fun t t' => forall c, unleaked (t c) (t' c)) (scheduled sc s) (scheduled sc' s).
End Spec.
