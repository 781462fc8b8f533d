(** Specification vocabulary for locks: what a history of requests and guards allows. *)
From Coq Require Import List Bool Arith.
From Verif Require Import Ord OrdFacts BTree Graph Tx Prog SpecProg ProgEvents.
Import ListNotations.

Definition lock_eqb (l l' : lock) : bool :=
  match l, l' with
  | LGraph, LGraph => true
  | LCell a, LCell a' => Nat.eqb a a'
  | _, _ => false
  end.

Definition mode_eqb (m m' : mode) : bool := match m, m' with Shared, Shared | Excl, Excl => true | _, _ => false end.

(** A thread that already holds guards [ms] of a lock and asks for one more waits for ever, unless all are shared. *)
Definition conflict (m : mode) (ms : list mode) : bool :=
  match m with
  | Excl => match ms with [] => false | _ => true end
  | Shared => existsb (mode_eqb Excl) ms
  end.

(** The guards held of each lock. *)
Definition guards := lock -> list mode.
Definition none_held : guards := fun _ => [].
Definition put (l : lock) (ms : list mode) (g : guards) : guards := fun l' => if lock_eqb l l' then ms else g l'.

Fixpoint remove_one (m : mode) (ms : list mode) : option (list mode) :=
  match ms with
  | [] => None
  | m' :: ms => if mode_eqb m m' then Some ms else option_map (cons m') (remove_one m ms)
  end.

Section Spec.
  Context {Id Node V U : Type} `{OrdT Id} `{Identify Node Id}.
  Notation prog := (prog Id Node V U).
  Notation world := (world Id Node V U).
  Notation schema := (schema Id Node V U).
  Notation outcome := (outcome V).
  Notation event := (event Id Node).

  (** Run from [w], program [p] ends with outcome [o], leaving [w'], and [l] is all it did. *)
  Definition did (sc : schema) (w : world) (p : prog) (w' : world) (o : outcome) (l : list event) : Prop :=
    exists fuel, run sc fuel w p = Some (w', o) /\ events sc fuel w p = l.

  (** At some point of the run, that is what it has done so far; the run may never end. *)
  Definition doing (sc : schema) (w : world) (p : prog) (l : list event) : Prop :=
    exists fuel, events sc fuel w p = l.

  (** A history of a thread, from the guards it holds: at most one request is unanswered (the last one), a request is
      answered before anything else happens, it is not answered if it conflicts with the guards held, and only guards held are
      dropped.  [Some (q, g)]: such a history leaves request [q] unanswered and guards [g] held. *)
  Definition lock_step (s : option (lock * mode) * guards) (e : event) : option (option (lock * mode) * guards) :=
    match e, s with
    | EAsk l m, (None, g) => Some (Some (l, m), g)
    | EGot l m, (Some (l', m'), g) =>
        if lock_eqb l l' && mode_eqb m m' && negb (conflict m (g l)) then Some (None, put l (m :: g l) g) else None
    | ERefused l m, (Some (l', m'), g) =>
        if lock_eqb l l' && mode_eqb m m' && negb (conflict m (g l)) then Some (None, g) else None
    | EDrop l m, (None, g) => option_map (fun ms => (None, put l ms g)) (remove_one m (g l))
    | ERegister _ _, (None, g) | EMerge _ _, (None, g) => Some (None, g)
    | _, _ => None
    end.

  Fixpoint lock_history (s : option (lock * mode) * guards) (l : list event) : option (option (lock * mode) * guards) :=
    match l with
    | [] => Some s
    | e :: l => match lock_step s e with Some s => lock_history s l | None => None end
    end.

  (** Nothing is locked. *)
  Definition unlocked (w : world) : Prop :=
    w_lock w = GFree /\ forall a x, nth_error (w_cells w) a = Some x -> c_lock x = Free.

  (** What a history adds to a buffer. *)
  Fixpoint gathered (b : nat) (l : list event) : list (op Id Node) :=
    match l with
    | [] => []
    | ERegister b' o :: l => if Nat.eqb b' b then o :: gathered b l else gathered b l
    | EMerge b' ops :: l => if Nat.eqb b' b then ops ++ gathered b l else gathered b l
    | _ :: l => gathered b l
    end.

  (** ** Programs that do not ask for what they hold *)

  Inductive graph_use := Unused | Reading | Exclusive.

  (** A request of kind [m] for cell [a] when [held] are. *)
  Definition compatible (m : mode) (a : nat) (held : list (nat * mode)) : Prop :=
    forall m', In (a, m') held -> m = Shared /\ m' = Shared.

  Definition addresses (hs : list handle) : list nat :=
    flat_map (fun h => match h_addr h with Some a => [a] | None => [] end) hs.

  (** Inside calls that use the graph as [g] and hold the cells [held], [known] being the cells there are: no call asks for
      the graph or a cell in a way that conflicts with an enclosing one or, for a tuple, with another component.  Triggers are only
      executed while no cell is held. *)
  Fixpoint polite (sc : schema) (g : graph_use) (held : list (nat * mode)) (known : list nat) (p : prog) : Prop :=
    match p with
    | PRet _ | PPanic | PLoop => True
    | PEmit _ k => polite sc g held known k
    | PCall body k => polite sc g held known body /\ forall r, polite sc g held known (k r)
    | PTry body k => polite sc g held known body /\ forall r, polite sc g held known (k r)
    | PWith (TxBg _) body k =>
        g = Unused /\ (forall b, polite sc Exclusive held known (body (CRoot b None))) /\
        forall r, polite sc g held known (k r)
    | PWith (TxFg c) body k =>
        (forall b, polite sc g held known (body (CSub c b None))) /\ forall r, polite sc g held known (k r)
    | PSave _ _ k => polite sc g held known k
    | PDelete _ _ k => polite sc g held known k
    | PGet _ _ k => forall r, polite sc g held known (k r)
    | PContains _ _ k => forall r, polite sc g held known (k r)
    | PTarget c _ k => forall a, ~ In a known -> polite sc g held (a :: known) (k (ctx_with_target c a))
    | PLeak _ k => polite sc g held known k
    | PTriggers _ c k =>
        held = [] /\ (forall a, ctx_target c = Some a -> In a known) /\ forall r, polite sc g held known (k r)
    | PRead body k =>
        g <> Exclusive /\ polite sc Reading held known body /\ forall r, polite sc g held known (k r)
    | PWrite body k =>
        g = Unused /\ polite sc Exclusive held known body /\ forall r, polite sc g held known (k r)
    | PGraphGet _ k => forall r, polite sc g held known (k r)
    | PGraphIter k => forall r, polite sc g held known (k r)
    | PGraphCall _ k => forall r, polite sc g held known (k r)
    | PRes t k => polite sc g held known (k (res_from sc t))
    | PAccess m hs body k =>
        (forall a, In a (addresses hs) -> compatible m a held) /\ (m = Excl -> NoDup (addresses hs)) /\
        (forall vs, map (fun v => Some (fst v)) vs = map h_addr hs ->
           polite sc g (map (fun a => (a, m)) (addresses hs) ++ held) known (body vs)) /\
        forall r, polite sc g held known (k r)
    | PPoke _ _ k => polite sc g held known k
    end.

  (** The cells of the resources of the schema. *)
  Definition resource_cells (sc : schema) : list nat := map snd (sc_resources sc).

  (** Triggers are polite on any context, inside a transaction. *)
  Definition polite_triggers (sc : schema) : Prop :=
    forall s t c known, In t (scheduled sc s) -> incl (resource_cells sc) known ->
      (forall a, ctx_target c = Some a -> In a known) -> polite sc Exclusive [] known (t c).

  (** ** Programs given only the right to open sub-transactions *)

  (** The program calls neither [save] nor [delete] on the context of buffer [b] (trigger.rs 26, transaction.rs 497-514: a
      trigger is given a [Ctx], which has [transaction] only). *)
  Fixpoint hands_off (b : nat) (p : prog) : Prop :=
    match p with
    | PRet _ | PPanic | PLoop => True
    | PEmit _ k => hands_off b k
    | PCall body k => hands_off b body /\ forall r, hands_off b (k r)
    | PTry body k => hands_off b body /\ forall r, hands_off b (k r)
    | PWith (TxBg _) body k =>
        (forall b', b' <> b -> hands_off b (body (CRoot b' None))) /\ forall r, hands_off b (k r)
    | PWith (TxFg c) body k =>
        (forall b', b' <> b -> hands_off b (body (CSub c b' None))) /\ forall r, hands_off b (k r)
    | PSave c _ k => ctx_buf c <> b /\ hands_off b k
    | PDelete c _ k => ctx_buf c <> b /\ hands_off b k
    | PGet _ _ k => forall r, hands_off b (k r)
    | PContains _ _ k => forall r, hands_off b (k r)
    | PTarget c _ k => forall a, hands_off b (k (ctx_with_target c a))
    | PLeak _ k => hands_off b k
    | PTriggers _ _ k => forall r, hands_off b (k r)
    | PRead body k => hands_off b body /\ forall r, hands_off b (k r)
    | PWrite body k => hands_off b body /\ forall r, hands_off b (k r)
    | PGraphGet _ k => forall r, hands_off b (k r)
    | PGraphIter k => forall r, hands_off b (k r)
    | PGraphCall _ k => forall r, hands_off b (k r)
    | PRes _ k => forall h, hands_off b (k h)
    | PAccess _ _ body k => (forall vs, hands_off b (body vs)) /\ forall r, hands_off b (k r)
    | PPoke _ _ k => hands_off b k
    end.

  (** Every trigger only opens sub-transactions of the context it is given, and reaches no other. *)
  Definition triggers_hands_off (sc : schema) : Prop :=
    forall s t c b, In t (scheduled sc s) -> hands_off b (t c).
End Spec.
