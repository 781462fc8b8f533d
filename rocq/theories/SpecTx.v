(** Specification of transactions: every transaction is an overlay, a partial
    map saying which ids it pends and with what, on top of the committed graph,
    which is a plain map.  No operation lists, no trees. *)
From Coq Require Import List Bool Arith.
From Verif Require Import Ord BTree Graph Tx TxMachine.
Import ListNotations.

Section Spec.
  Context {Id Node : Type} `{OrdT Id} `{Identify Node Id}.

  Notation event := (@event Id Node).
  Notation machine := (@machine Id Node).
  Notation output := (@output Node).

  (** Committed state: a map. *)
  Definition base := Id -> option Node.

  (** Pending state: [None] = nothing pending on that id, [Some None] = pending
      deletion, [Some (Some n)] = pending save of [n]. *)
  Definition overlay := Id -> option (option Node).

  Definition no_change : overlay := fun _ => None.

  (** Set the entry of one id. *)
  Definition ov_set (i : Id) (r : option Node) (o : overlay) : overlay :=
    fun j => if eqb i j then Some r else o j.

  (** Merge an overlay onto another: the upper one wins. *)
  Definition ov_merge (upper lower : overlay) : overlay :=
    fun j => match upper j with Some r => Some r | None => lower j end.

  (** Merge an overlay onto the committed state. *)
  Definition ov_publish (upper : overlay) (b : base) : base :=
    fun j => match upper j with Some r => r | None => b j end.

  Definition base_set (i : Id) (r : option Node) (b : base) : base :=
    fun j => if eqb i j then r else b j.

  (** Read through a stack of overlays, innermost first. *)
  Fixpoint ov_view (stack : list overlay) (b : base) (i : Id) : option Node :=
    match stack with
    | [] => b i
    | o :: rest => match o i with Some r => r | None => ov_view rest b i end
    end.

  (** Specification state: the committed map, one overlay per transaction, and
      for each context the transactions it is nested in, innermost first. *)
  Record sstore := SStore {
    sp_base : base;
    sp_over : list overlay;
    sp_chain : list (list nat)
  }.

  Definition over_of (s : sstore) (t : nat) : overlay := nth t (sp_over s) no_change.
  Definition chain_of (s : sstore) (c : nat) : list nat := nth c (sp_chain s) [0].
  Definition innermost (s : sstore) (c : nat) : nat := hd 0 (chain_of s c).

  (** What context [c] shows for id [i]. *)
  Definition sp_view (s : sstore) (c : nat) (i : Id) : option Node :=
    ov_view (map (over_of s) (chain_of s c)) (sp_base s) i.

  Definition sp_exec (s : sstore) (a : @action Id Node) : sstore * output :=
    match a with
    | AInvalid => (s, XInvalid)
    | AHang => (s, XHang)
    | ANewTx =>
        (SStore (sp_base s) (sp_over s ++ [no_change]) (sp_chain s),
         XHandle (length (sp_over s)))
    | ANewCtx t parent =>
        let outer := match parent with None => [] | Some p => chain_of s p end in
        (SStore (sp_base s) (sp_over s) (sp_chain s ++ [t :: outer]),
         XHandle (length (sp_chain s)))
    | ASave c n =>
        (SStore (sp_base s) (alter (ov_set (id_of n) (Some n)) (innermost s c) (sp_over s))
                (sp_chain s), XUnit)
    | ADelete c i =>
        (SStore (sp_base s) (alter (ov_set i None) (innermost s c) (sp_over s))
                (sp_chain s), XUnit)
    | AGet c i => (s, XNode (sp_view s c i))
    | AContains c i =>
        (s, XBool (match sp_view s c i with Some _ => true | None => false end))
    | AMerge t c =>
        (SStore (sp_base s) (alter (ov_merge (over_of s t)) (innermost s c) (sp_over s))
                (sp_chain s), XUnit)
    | APublish t =>
        (SStore (ov_publish (over_of s t) (sp_base s)) (sp_over s) (sp_chain s), XUnit)
    | ANone => (s, XUnit)
    | ARead i => (s, XNode (sp_base s i))
    | AWrite (GWithNode n) =>
        (SStore (base_set (id_of n) (Some n) (sp_base s)) (sp_over s) (sp_chain s), XNode None)
    | AWrite (GInsert n) =>
        (SStore (base_set (id_of n) (Some n) (sp_base s)) (sp_over s) (sp_chain s),
         XNode (sp_base s (id_of n)))
    | AWrite (GRemove i) =>
        (SStore (base_set i None (sp_base s)) (sp_over s) (sp_chain s), XNode (sp_base s i))
    end.

  (** The specification runs under the same handle and lock protocol. *)
  Record smachine := SMachine { sm_proto : proto; sm_store : sstore }.

  Definition sm_init (b : base) : smachine := SMachine (Proto [] [] false) (SStore b [] []).

  Definition sm_step (m : smachine) (e : event) : smachine * output :=
    let (p, a) := p_step (sm_proto m) e in
    let (s, o) := sp_exec (sm_store m) a in
    (SMachine p s, o).

  Fixpoint sm_run (m : smachine) (es : list event) : smachine * list output :=
    match es with
    | [] => (m, [])
    | e :: es =>
        let (m1, o) := sm_step m e in
        let (m2, os) := sm_run m1 es in
        (m2, o :: os)
    end.

  (** ** Vocabulary of the properties about histories *)

  (** A state reached by some history on a schema whose graph is [g]. *)
  Definition after (g : graph Id Node) (es : list event) : machine := fst (m_run (m_init g) es).

  (** What context [c] answers for id [i] in state [m], as seen by a caller. *)
  Definition ask (m : machine) (c : nat) (i : Id) : output := snd (m_step m (EGet c i)).
  Definition ask_contains (m : machine) (c : nat) (i : Id) : output :=
    snd (m_step m (EContains c i)).

  (** The transaction context [c] was created from. *)
  Definition made_from (p : proto) (c t : nat) : Prop :=
    exists s, nth_error (p_ctxs p) c = Some (CtxRec t s).

  (** Transaction [t] was opened on context [c]. *)
  Definition opened_on (p : proto) (t c : nat) : Prop :=
    exists g o, nth_error (p_txs p) t = Some (TxRec (Some c) g o).

  (** Transaction [t] is a top-level one. *)
  Definition top_level (p : proto) (t : nat) : Prop :=
    exists g o, nth_error (p_txs p) t = Some (TxRec None g o).

  (** Context [d] belongs to transaction [t], or is nested in it. *)
  Inductive within (p : proto) (d t : nat) : Prop :=
  | within_own : made_from p d t -> within p d t
  | within_outer : forall u c, made_from p d u -> opened_on p u c -> within p c t -> within p d t.

  (** The event registers operations in transaction [t]: a save or a delete through one of
      its contexts, or the commit of a sub-transaction opened on one of its contexts. *)
  Inductive registers_in (p : proto) (t : nat) : event -> Prop :=
  | reg_save : forall c n, made_from p c t -> registers_in p t (ESave c n)
  | reg_delete : forall c i, made_from p c t -> registers_in p t (EDelete c i)
  | reg_commit : forall u c, opened_on p u c -> made_from p c t -> registers_in p t (EEnd u true).

  (** Context [c] exists and has been neither dropped nor leaked. *)
  Definition alive (p : proto) (c : nat) : Prop :=
    exists t, nth_error (p_ctxs p) c = Some (CtxRec t Live).

  (** No event of [es], run from [m], registers operations in a transaction context [d]
      belongs to or is nested in. *)
  Definition never_registers_around (m : machine) (d : nat) (es : list event) : Prop :=
    forall es1 e es2, es = es1 ++ e :: es2 ->
      forall t, registers_in (m_proto (fst (m_run m es1))) t e ->
                ~ within (m_proto (fst (m_run m es1))) d t.

  (** Events of [es], run from [m], register operations only in transactions opened after [m]. *)
  Definition only_new (m : machine) (es : list event) : Prop :=
    forall es1 e es2, es = es1 ++ e :: es2 ->
      forall t, registers_in (m_proto (fst (m_run m es1))) t e -> length (p_txs (m_proto m)) <= t.

  (** [history_pends g es t i]: in the history [es] an operation about id [i] was
      registered in transaction [t], directly or by committing a sub-transaction. *)
  Inductive history_pends (g : graph Id Node) : list event -> nat -> Id -> Prop :=
  | pends_save : forall es c n t,
      snd (m_step (after g es) (ESave c n)) = XUnit -> made_from (m_proto (after g es)) c t ->
      history_pends g (es ++ [ESave c n]) t (id_of n)
  | pends_delete : forall es c i t,
      snd (m_step (after g es) (EDelete c i)) = XUnit -> made_from (m_proto (after g es)) c t ->
      history_pends g (es ++ [EDelete c i]) t i
  | pends_commit : forall es u c t i,
      snd (m_step (after g es) (EEnd u true)) = XUnit -> opened_on (m_proto (after g es)) u c ->
      made_from (m_proto (after g es)) c t ->
      (forall d, nth_error (p_ctxs (m_proto (after g es))) d <> Some (CtxRec u Leaked)) ->
      history_pends g es u i -> history_pends g (es ++ [EEnd u true]) t i
  | pends_later : forall es e t i, history_pends g es t i -> history_pends g (es ++ [e]) t i.

  (** ** Serial replay: what a history commits, from its events alone. *)

  (** A registered operation: an id and what it maps to ([None]: deletion). *)
  Definition entry := (Id * option Node)%type.

  Definition replay (l : list entry) (b : base) : base :=
    fold_left (fun b e => base_set (fst e) (snd e) b) l b.

  (** Journal of a history: entries registered per transaction, and entries
      published so far. *)
  Record journal := Journal { j_tx : nat -> list entry; j_pub : list entry }.

  Definition j_add (t : nat) (l : list entry) (j : journal) : journal :=
    Journal (fun u => if Nat.eqb u t then j_tx j u ++ l else j_tx j u) (j_pub j).

  Definition owner (p : proto) (c : nat) : nat :=
    match nth_error (p_ctxs p) c with Some r => cr_tx r | None => 0 end.

  (** [out] is what the event returned: events that were rejected or never
      returned journal nothing. *)
  Definition j_step (p : proto) (e : event) (out : output) (j : journal) : journal :=
    match out with
    | XInvalid | XHang => j
    | _ =>
      match e with
      | ESave c n => j_add (owner p c) [(id_of n, Some n)] j
      | EDelete c i => j_add (owner p c) [(i, None)] j
      | EEnd t true =>
          if has_ctx p t Leaked then j else
          match nth_error (p_txs p) t with
          | Some (TxRec (Some c) _ _) => j_add (owner p c) (j_tx j t) j
          | Some (TxRec None _ _) => Journal (j_tx j) (j_pub j ++ j_tx j t)
          | None => j
          end
      | EWrite (GWithNode n) | EWrite (GInsert n) =>
          Journal (j_tx j) (j_pub j ++ [(id_of n, Some n)])
      | EWrite (GRemove i) => Journal (j_tx j) (j_pub j ++ [(i, None)])
      | _ => j
      end
    end.

  Fixpoint j_run (m : machine) (es : list event) (j : journal) : journal :=
    match es with
    | [] => j
    | e :: es =>
        let (m', o) := m_step m e in
        j_run m' es (j_step (m_proto m) e o j)
    end.

  (** Entries published by a history, in publication order. *)
  Definition published (g : graph Id Node) (es : list event) : list entry :=
    j_pub (j_run (m_init g) es (Journal (fun _ => []) [])).

  (** ** Nested scripts *)

  (** A sequence of operations, some of them grouped in committed sub-transactions. *)
  Inductive script :=
  | SNil
  | SSave (n : Node) (rest : script)
  | SDelete (i : Id) (rest : script)
  | SSub (inner : script) (rest : script).

  Fixpoint flatten (s : script) : script :=
    match s with
    | SNil => SNil
    | SSave n rest => SSave n (flatten rest)
    | SDelete i rest => SDelete i (flatten rest)
    | SSub inner rest =>
        (fix app (a : script) : script :=
          match a with
          | SNil => flatten rest
          | SSave n a' => SSave n (app a')
          | SDelete i a' => SDelete i (app a')
          | SSub x a' => SSub x (app a')
          end) (flatten inner)
    end.

  (** The operations of a script in the order they are registered. *)
  Fixpoint entries (s : script) : list entry :=
    match s with
    | SNil => []
    | SSave n rest => (id_of n, Some n) :: entries rest
    | SDelete i rest => (i, None) :: entries rest
    | SSub inner rest => entries inner ++ entries rest
    end.

  (** Execute a script through context [c]. A sub-transaction is opened on [c], gets
      a context, executes the inner script, drops its context and commits. *)
  Fixpoint play (s : script) (m : machine) (c : nat) : machine :=
    match s with
    | SNil => m
    | SSave n rest => play rest (fst (m_step m (ESave c n))) c
    | SDelete i rest => play rest (fst (m_step m (EDelete c i))) c
    | SSub inner rest =>
        match m_step m (EForeground c) with
        | (m1, XHandle t) =>
            match m_step m1 (EContext t) with
            | (m2, XHandle d) =>
                let m3 := play inner m2 d in
                play rest (fst (m_step (fst (m_step m3 (EDropCtx d))) (EEnd t true))) c
            | (m2, _) => m2
            end
        | (m1, _) => m1
        end
    end.
End Spec.
