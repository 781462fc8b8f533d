(** Specification vocabulary for the calls a program makes: the events of Unwind.v, with what they answer and log, and the events of Cells.v, with
    what they answer.  The worlds of Prog.v do not occur here, but for where a history starts. *)
From Coq Require Import List Bool Arith.
From Verif Require Import Cells Ord BTree Graph Tx TxMachine Guards Unwind Prog SpecProg ProgTrace.
Import ListNotations.

Section Spec.
  Context {Id Node V U : Type} `{OrdT Id} `{Identify Node Id}.
  Notation prog := (prog Id Node V U).
  Notation world := (world Id Node V U).
  Notation schema := (schema Id Node V U).
  Notation outcome := (outcome V).
  Notation trigger := (trigger Id Node V U).
  Notation dyn := (dyn Node U).
  Notation kstate := (kstate dyn).
  Notation happening := (happening Id Node).
  Notation ustate := (ustate Id Node).
  Notation uevent := (uevent Id Node).
  Notation gout := (gout Id Node).

  (** A call, and what it answers (and logs): on transactions, contexts and guards of the graph (Unwind.v); on targets and resources (Cells.v), by
      the only thread there is.  [OnHandle t]: [read()] or [write()] of a [Target] or [Res] of type [t]. *)
  Inductive made :=
  | OnGraph (e : uevent) (a : gout * list ulog)
  | OnCell (e : kact dyn) (a : kout dyn)
  | OnHandle (t : ty) (write : bool) (h : nat) (a : kout dyn).

  (** The states of both machines. *)
  Definition state : Type := ustate * kstate.

  Definition answered (st : state) (x : made) (st' : state) : Prop :=
    match x with
    | OnGraph e a => u_step (fst st) e = (fst st', a) /\ snd st' = snd st
    | OnCell e a => k_step (snd st) (0, e) = (snd st', a) /\ fst st' = fst st
    | OnHandle _ write h a => k_step (snd st) (0, KOpen write h) = (snd st', a) /\ fst st' = fst st
    end.

  (** These calls, one after the other, answer and log that. *)
  Fixpoint told (st : state) (es : list made) (st' : state) : Prop :=
    match es with
    | [] => st = st'
    | x :: es => exists st1, answered st x st1 /\ told st1 es st'
    end.

  (** The graph of [w], poisoned or not, that nobody uses: no transaction, no context, no guard yet. *)
  Definition start (w : world) : ustate := UState (g_init (w_graph w)) 0 (w_poison w) [] [].

  (** The values of the cells of [w], poisoned or not, each with one handle and no guard. *)
  Definition values (w : world) : list (kcell dyn) := map (fun x => KCell (c_val x) (c_poison x)) (w_cells w).
  Definition k_start (w : world) : kstate := KState (values w) (map Some (seq 0 (length (w_cells w)))) [] [].
  Definition k_handles (w : world) : list nat := seq 0 (length (w_cells w)).

  (** No target or resource is in use. *)
  Definition nothing_held (w : world) : Prop := forall x, In x (w_cells w) -> c_lock x = Free.

  (** Every transaction, context and guard there was is at its end, but for the contexts leaked; nothing is blocked. *)
  Definition over (st : state) : Prop :=
    (forall t x, nth_error (p_txs (m_proto (gs_m (us_g (fst st))))) t = Some x -> tx_open x = false) /\
    (forall c x, nth_error (p_ctxs (m_proto (gs_m (us_g (fst st))))) c = Some x -> cr_status x <> Live) /\
    (forall g x, nth_error (gs_guards (us_g (fst st))) g = Some x -> sg_status x = Dropped) /\
    gs_lost (us_g (fst st)) = [] /\ gs_hung (us_g (fst st)) = false /\ p_hung (m_proto (gs_m (us_g (fst st)))) = false /\
    (forall g x, nth_error (ks_guards (snd st)) g = Some x -> kg_status x = Dropped).

  (** ** Programs that use only the contexts they are given *)

  (** [x] is [c], or [c] with a target. *)
  Definition same_context (c x : ctx) : Prop := x = c \/ exists a, x = ctx_with_target c a.

  (** Every call of [p] is made on a context of [own], or on the one given to the closure of a transaction around it. *)
  Fixpoint scoped (own : ctx -> Prop) (p : prog) : Prop :=
    match p with
    | PRet _ | PPanic | PLoop => True
    | PEmit _ k => scoped own k
    | PCall body k => scoped own body /\ forall r, scoped own (k r)
    | PTry body k => scoped own body /\ forall r, scoped own (k r)
    | PWith (TxBg _) body k =>
        (forall b, scoped (fun x => own x \/ same_context (CRoot b None) x) (body (CRoot b None))) /\ forall r, scoped own (k r)
    | PWith (TxFg c) body k =>
        own c /\ (forall b, scoped (fun x => own x \/ same_context (CSub c b None) x) (body (CSub c b None))) /\ forall r, scoped own (k r)
    | PSave c _ k => own c /\ scoped own k
    | PDelete c _ k => own c /\ scoped own k
    | PGet c _ k => own c /\ forall r, scoped own (k r)
    | PContains c _ k => own c /\ forall r, scoped own (k r)
    | PTarget c _ k => own c /\ forall a, scoped own (k (ctx_with_target c a))
    | PLeak c k => own c /\ scoped own k
    | PTriggers _ c k => own c /\ forall r, scoped own (k r)
    | PRead body k => scoped own body /\ forall r, scoped own (k r)
    | PWrite body k => scoped own body /\ forall r, scoped own (k r)
    | PGraphGet _ k => forall r, scoped own (k r)
    | PGraphIter k => forall r, scoped own (k r)
    | PGraphCall _ k => forall r, scoped own (k r)
    | PRes _ k => forall h, scoped own (k h)
    | PAccess _ _ body k => (forall vs, scoped own (body vs)) /\ forall r, scoped own (k r)
    | PPoke _ _ k => scoped own k
    end.

  (** So do the triggers of the schema. *)
  Definition scoped_schema (sc : schema) : Prop :=
    forall s t, In t (scheduled sc s) -> forall c, scoped (same_context c) (t c).

  (** ** What a program calls *)

  (** The event by which a transaction begins, and the context its closure gets. *)
  Inductive opening : list (nat * nat) -> tx -> @TxMachine.event Id Node -> ctx -> Prop :=
  | op_bg : forall txs crash, opening txs (TxBg crash) EBackground (CRoot (length txs) None)
  | op_fg : forall txs c tx h, nth_error txs (ctx_buf c) = Some (tx, h) -> opening txs (TxFg c) (EForeground h) (CSub c (length txs) None).

  (** The calls by which transaction [tx] ends, if the commit does not panic, [ok] being whether its closure succeeded.  If user code is to panic once
      [k] operations are applied, that was tried, and there were not as many, or nothing to commit. *)
  Inductive finishing : tx -> nat -> bool -> list made -> Prop :=
  | fi_plain : forall t tx ok lg, (ok = true -> forall k, t <> TxBg (Some k)) ->
      finishing t tx ok [OnGraph (UEvent (GEvent (EEnd tx ok))) (GX XUnit, lg)]
  | fi_tried : forall k tx lg1 lg2,
      finishing (TxBg (Some k)) tx true [OnGraph (UEvent (GCrash tx k)) (GX XInvalid, lg1); OnGraph (UEvent (GEvent (EEnd tx true))) (GX XUnit, lg2)].

  (** [schema.read()] or [schema.write()], what is done with the guard, what comes next. *)
  Inductive guarding : prog -> bool -> prog -> (res V -> prog) -> Prop :=
  | gu_read : forall body k, guarding (PRead body k) false body k
  | gu_write : forall body k, guarding (PWrite body k) true body k.

  (** ** Targets and resources *)

  (** A guard of a cell that is held: the address of the cell, if it is not empty, the kind of access, the handle of the guard. *)
  Record holding := Holding { ho_addr : option nat; ho_mode : mode; ho_guard : nat }.

  Definition writing (m : mode) : bool := match m with Excl => true | Shared => false end.

  (** Which event makes the [Target] or [Res] that is [h]; [hd]: a handle for each address. *)
  Definition obtaining (hd : list nat) (h : handle) : option (kact dyn) :=
    match h_addr h with
    | None => Some KHandle
    | Some a => option_map KClone (nth_error hd a)
    end.

  (** The guards, in order. *)
  Inductive opens (hd : list nat) (m : mode) : list handle -> list made -> list holding -> Prop :=
  | os_nil : opens hd m [] [] []
  | os_cons : forall h hs e x g logged es l, obtaining hd h = Some e -> opens hd m hs es l ->
      opens hd m (h :: hs) (OnCell e (KHandleNo x) :: OnHandle (h_ty h) (writing m) x (KOpened g logged) :: es)
        (Holding (if logged then None else h_addr h) m g :: l).

  (** One of them has to be waited for. *)
  Inductive waits (hd : list nat) (m : mode) : list handle -> list made -> Prop :=
  | wa_here : forall h hs e x, obtaining hd h = Some e ->
      waits hd m (h :: hs) [OnCell e (KHandleNo x); OnHandle (h_ty h) (writing m) x KWait]
  | wa_later : forall h hs e x g logged es, obtaining hd h = Some e -> waits hd m hs es ->
      waits hd m (h :: hs) (OnCell e (KHandleNo x) :: OnHandle (h_ty h) (writing m) x (KOpened g logged) :: es).

  (** [try_deref()] or [try_deref_mut()] of each, up to the first that gives nothing, or not the type asked for. *)
  Inductive derefs : list handle -> list holding -> list made -> option (list (nat * dyn)) -> Prop :=
  | de_nil : derefs [] [] [] (Some [])
  | de_none : forall h hs x l v, (forall d, v = Some d -> ty_of d <> h_ty h) ->
      derefs (h :: hs) (x :: l) [OnCell (KDeref (ho_guard x)) (KVal v)] None
  | de_some : forall h hs x l a d es r, h_addr h = Some a -> ty_of d = h_ty h -> derefs hs l es r ->
      derefs (h :: hs) (x :: l) (OnCell (KDeref (ho_guard x)) (KVal (Some d)) :: es) (option_map (cons (a, d)) r).

  (** The guards are dropped, the last one first. *)
  Definition closing (l : list holding) : list made := map (fun x => OnCell (KDrop (ho_guard x)) KUnit) (rev l).

  (** The innermost guard of the cell at [a]. *)
  Definition held_at (a : nat) (held : list holding) : option holding :=
    find (fun x => match ho_addr x with Some b => Nat.eqb a b | None => false end) held.

  (** ** Programs *)

  (** [txs]: the transactions around, outermost first: the handles of each and of its context.  [gs]: the guards of the graph around, innermost first.
      [held]: the guards of cells, innermost first.  [hd]: a handle for each address.
      Given the answers in [es], the program makes the calls of [es], emits [vs], has handles [hd'] for addresses then, and ends with [o]. *)
  Inductive plays (sc : schema) :
    list (nat * nat) -> list nat -> list holding -> list nat -> prog -> list made -> list V -> list nat -> outcome -> Prop :=
  | pl_ret : forall txs gs ho hd r, plays sc txs gs ho hd (PRet r) [] [] hd (ORet r)
  | pl_panic : forall txs gs ho hd lg, plays sc txs gs ho hd PPanic [OnGraph UPanic (GX XUnit, lg); OnCell KPanic KUnit] [] hd OPanic
  | pl_emit : forall txs gs ho hd v k es vs hd' o,
      plays sc txs gs ho hd k es vs hd' o -> plays sc txs gs ho hd (PEmit v k) es (v :: vs) hd' o
  | pl_call : forall txs gs ho hd body k es vs hd1 r es' vs' hd' o,
      plays sc txs gs ho hd body es vs hd1 (ORet r) -> plays sc txs gs ho hd1 (k r) es' vs' hd' o ->
      plays sc txs gs ho hd (PCall body k) (es ++ es') (vs ++ vs') hd' o
  | pl_call_not : forall txs gs ho hd body k es vs hd1 o,
      plays sc txs gs ho hd body es vs hd1 o -> (forall r, o <> ORet r) -> plays sc txs gs ho hd (PCall body k) es vs hd1 o
  | pl_try : forall txs gs ho hd body k es vs hd1 r es' vs' hd' o,
      plays sc txs gs ho hd body es vs hd1 (ORet r) -> plays sc txs gs ho hd1 (k (Some r)) es' vs' hd' o ->
      plays sc txs gs ho hd (PTry body k) (es ++ es') (vs ++ vs') hd' o
  | pl_try_panic : forall txs gs ho hd body k es vs hd1 lg es' vs' hd' o,
      plays sc txs gs ho hd body es vs hd1 OPanic -> plays sc txs gs ho hd1 (k None) es' vs' hd' o ->
      plays sc txs gs ho hd (PTry body k) (es ++ OnGraph UCatch (GX XUnit, lg) :: OnCell KCatch KUnit :: es') (vs ++ vs') hd' o
  | pl_try_hang : forall txs gs ho hd body k es vs hd1,
      plays sc txs gs ho hd body es vs hd1 OHang -> plays sc txs gs ho hd (PTry body k) es vs hd1 OHang
  (* [transaction.with(body)]: a transaction, its context, the body, the end of the context, the end of the transaction *)
  | pl_with : forall txs gs ho hd t body k e c0 tx c lg1 lg2 es vs hd1 r lg3 fin es' vs' hd' o,
      opening txs t e c0 -> plays sc (txs ++ [(tx, c)]) gs ho hd (body c0) es vs hd1 (ORet r) -> finishing t tx (is_ok r) fin ->
      plays sc txs gs ho hd1 (k r) es' vs' hd' o ->
      plays sc txs gs ho hd (PWith t body k)
        (OnGraph (UEvent (GEvent e)) (GX (XHandle tx), lg1) :: OnGraph (UEvent (GEvent (EContext tx))) (GX (XHandle c), lg2) :: es ++
         OnGraph (UEvent (GEvent (EDropCtx c))) (GX XUnit, lg3) :: fin ++ es') (vs ++ vs') hd' o
  | pl_with_crash : forall txs gs ho hd n body k e c0 tx c lg1 lg2 es vs hd1 r lg3 l lg4,
      opening txs (TxBg (Some n)) e c0 -> plays sc (txs ++ [(tx, c)]) gs ho hd (body c0) es vs hd1 (ORet r) -> is_ok r = true ->
      plays sc txs gs ho hd (PWith (TxBg (Some n)) body k)
        (OnGraph (UEvent (GEvent e)) (GX (XHandle tx), lg1) :: OnGraph (UEvent (GEvent (EContext tx))) (GX (XHandle c), lg2) :: es ++
         [OnGraph (UEvent (GEvent (EDropCtx c))) (GX XUnit, lg3); OnGraph (UEvent (GCrash tx n)) (GCrashed l, lg4); OnCell KPanic KUnit]) vs hd1 OPanic
  | pl_with_panic : forall txs gs ho hd t body k e c0 tx c lg1 lg2 es vs hd1 lg3 lg4,
      opening txs t e c0 -> plays sc (txs ++ [(tx, c)]) gs ho hd (body c0) es vs hd1 OPanic ->
      plays sc txs gs ho hd (PWith t body k)
        (OnGraph (UEvent (GEvent e)) (GX (XHandle tx), lg1) :: OnGraph (UEvent (GEvent (EContext tx))) (GX (XHandle c), lg2) :: es ++
         [OnGraph (UEvent (GEvent (EDropCtx c))) (GX XUnit, lg3); OnGraph (UEvent (GEvent (EEnd tx false))) (GX XUnit, lg4)]) vs hd1 OPanic
  | pl_with_hang : forall txs gs ho hd t body k e c0 tx c lg1 lg2 es vs hd1,
      opening txs t e c0 -> plays sc (txs ++ [(tx, c)]) gs ho hd (body c0) es vs hd1 OHang ->
      plays sc txs gs ho hd (PWith t body k)
        (OnGraph (UEvent (GEvent e)) (GX (XHandle tx), lg1) :: OnGraph (UEvent (GEvent (EContext tx))) (GX (XHandle c), lg2) :: es) vs hd1 OHang
  | pl_with_blocked : forall txs gs ho hd t body k e c0 tx lg1 lg2, opening txs t e c0 ->
      plays sc txs gs ho hd (PWith t body k)
        [OnGraph (UEvent (GEvent e)) (GX (XHandle tx), lg1); OnGraph (UEvent (GEvent (EContext tx))) (GX XHang, lg2)] [] hd OHang
  (* calls on contexts *)
  | pl_save : forall txs gs ho hd c n k tx h lg es vs hd' o, nth_error txs (ctx_buf c) = Some (tx, h) -> plays sc txs gs ho hd k es vs hd' o ->
      plays sc txs gs ho hd (PSave c n k) (OnGraph (UEvent (GEvent (ESave h n))) (GX XUnit, lg) :: es) vs hd' o
  | pl_delete : forall txs gs ho hd c i k tx h lg es vs hd' o, nth_error txs (ctx_buf c) = Some (tx, h) -> plays sc txs gs ho hd k es vs hd' o ->
      plays sc txs gs ho hd (PDelete c i k) (OnGraph (UEvent (GEvent (EDelete h i))) (GX XUnit, lg) :: es) vs hd' o
  | pl_get : forall txs gs ho hd c i k tx h r lg es vs hd' o, nth_error txs (ctx_buf c) = Some (tx, h) -> plays sc txs gs ho hd (k r) es vs hd' o ->
      plays sc txs gs ho hd (PGet c i k) (OnGraph (UEvent (GEvent (EGet h i))) (GX (XNode r), lg) :: es) vs hd' o
  | pl_contains : forall txs gs ho hd c i k tx h r lg es vs hd' o, nth_error txs (ctx_buf c) = Some (tx, h) -> plays sc txs gs ho hd (k r) es vs hd' o ->
      plays sc txs gs ho hd (PContains c i k) (OnGraph (UEvent (GEvent (EContains h i))) (GX (XBool r), lg) :: es) vs hd' o
  | pl_target : forall txs gs ho hd c n k x es vs hd' o,
      plays sc txs gs ho (hd ++ [x]) (k (ctx_with_target c (length hd))) es vs hd' o ->
      plays sc txs gs ho hd (PTarget c n k) (OnCell KHandle (KHandleNo x) :: OnCell (KSet x (DNode n)) KUnit :: es) vs hd' o
  (* the leaked context is one more of the same transaction, for the program may go on to use the one it has *)
  | pl_leak : forall txs gs ho hd c k tx h h' lg1 lg2 es vs hd' o, nth_error txs (ctx_buf c) = Some (tx, h) -> plays sc txs gs ho hd k es vs hd' o ->
      plays sc txs gs ho hd (PLeak c k)
        (OnGraph (UEvent (GEvent (EContext tx))) (GX (XHandle h'), lg1) :: OnGraph (UEvent (GEvent (ELeakCtx h'))) (GX XUnit, lg2) :: es) vs hd' o
  | pl_triggers : forall txs gs ho hd s c k es vs hd1 r es' vs' hd' o,
      plays sc txs gs ho hd (try_for_each (scheduled sc s) c) es vs hd1 (ORet r) -> plays sc txs gs ho hd1 (k r) es' vs' hd' o ->
      plays sc txs gs ho hd (PTriggers s c k) (es ++ es') (vs ++ vs') hd' o
  | pl_triggers_not : forall txs gs ho hd s c k es vs hd1 o,
      plays sc txs gs ho hd (try_for_each (scheduled sc s) c) es vs hd1 o -> (forall r, o <> ORet r) ->
      plays sc txs gs ho hd (PTriggers s c k) es vs hd1 o
  (* guards *)
  | pl_guard : forall txs gs ho hd p wr body k g lg1 es vs hd1 r lg2 es' vs' hd' o, guarding p wr body k ->
      plays sc txs (g :: gs) ho hd body es vs hd1 (ORet r) -> plays sc txs gs ho hd1 (k r) es' vs' hd' o ->
      plays sc txs gs ho hd p (OnGraph (UEvent (GOpen wr)) (GX (XHandle g), lg1) :: es ++ OnGraph (UEvent (GDrop g)) (GX XUnit, lg2) :: es') (vs ++ vs') hd' o
  | pl_guard_panic : forall txs gs ho hd p wr body k g lg1 es vs hd1 lg2, guarding p wr body k ->
      plays sc txs (g :: gs) ho hd body es vs hd1 OPanic ->
      plays sc txs gs ho hd p (OnGraph (UEvent (GOpen wr)) (GX (XHandle g), lg1) :: es ++ [OnGraph (UEvent (GDrop g)) (GX XUnit, lg2)]) vs hd1 OPanic
  | pl_guard_hang : forall txs gs ho hd p wr body k g lg1 es vs hd1, guarding p wr body k ->
      plays sc txs (g :: gs) ho hd body es vs hd1 OHang ->
      plays sc txs gs ho hd p (OnGraph (UEvent (GOpen wr)) (GX (XHandle g), lg1) :: es) vs hd1 OHang
  | pl_guard_blocked : forall txs gs ho hd p wr body k lg, guarding p wr body k ->
      plays sc txs gs ho hd p [OnGraph (UEvent (GOpen wr)) (GX XHang, lg)] [] hd OHang
  | pl_graph_get : forall txs g gs ho hd i k r lg es vs hd' o, plays sc txs (g :: gs) ho hd (k r) es vs hd' o ->
      plays sc txs (g :: gs) ho hd (PGraphGet i k) (OnGraph (UEvent (GGet g i)) (GX (XNode r), lg) :: es) vs hd' o
  | pl_graph_iter : forall txs g gs ho hd k l lg es vs hd' o, plays sc txs (g :: gs) ho hd (k l) es vs hd' o ->
      plays sc txs (g :: gs) ho hd (PGraphIter k) (OnGraph (UEvent (GIter g)) (GNodes l, lg) :: es) vs hd' o
  | pl_graph_call : forall txs g gs ho hd c k r lg es vs hd' o, plays sc txs (g :: gs) ho hd (k r) es vs hd' o ->
      plays sc txs (g :: gs) ho hd (PGraphCall c k) (OnGraph (UEvent (GCall g c)) (GX (XNode r), lg) :: es) vs hd' o
  (* targets and resources *)
  | pl_res : forall txs gs ho hd t k es vs hd' o, plays sc txs gs ho hd (k (res_from sc t)) es vs hd' o -> plays sc txs gs ho hd (PRes t k) es vs hd' o
  | pl_absent : forall txs gs ho hd m hs body k es1 l es2 es vs hd' o, opens hd m hs es1 l -> derefs hs l es2 None ->
      plays sc txs gs ho hd (k None) es vs hd' o ->
      plays sc txs gs ho hd (PAccess m hs body k) (es1 ++ es2 ++ closing l ++ es) vs hd' o
  | pl_access : forall txs gs ho hd m hs body k es1 l es2 ds es vs hd1 r es' vs' hd' o, opens hd m hs es1 l -> derefs hs l es2 (Some ds) ->
      plays sc txs gs (rev l ++ ho) hd (body ds) es vs hd1 (ORet r) -> plays sc txs gs ho hd1 (k (Some r)) es' vs' hd' o ->
      plays sc txs gs ho hd (PAccess m hs body k) (es1 ++ es2 ++ es ++ closing l ++ es') (vs ++ vs') hd' o
  | pl_access_panic : forall txs gs ho hd m hs body k es1 l es2 ds es vs hd1, opens hd m hs es1 l -> derefs hs l es2 (Some ds) ->
      plays sc txs gs (rev l ++ ho) hd (body ds) es vs hd1 OPanic ->
      plays sc txs gs ho hd (PAccess m hs body k) (es1 ++ es2 ++ es ++ closing l) vs hd1 OPanic
  | pl_access_hang : forall txs gs ho hd m hs body k es1 l es2 ds es vs hd1, opens hd m hs es1 l -> derefs hs l es2 (Some ds) ->
      plays sc txs gs (rev l ++ ho) hd (body ds) es vs hd1 OHang -> plays sc txs gs ho hd (PAccess m hs body k) (es1 ++ es2 ++ es) vs hd1 OHang
  | pl_access_blocked : forall txs gs ho hd m hs body k es, waits hd m hs es -> plays sc txs gs ho hd (PAccess m hs body k) es [] hd OHang
  | pl_poke : forall txs gs ho hd a d k x v es vs hd' o, held_at a ho = Some x -> ty_of d = ty_of v ->
      plays sc txs gs ho hd k es vs hd' o ->
      plays sc txs gs ho hd (PPoke a d k) (OnCell (KMut (ho_guard x) d) (KVal (Some v)) :: es) vs hd' o.

  (** ** What of them is to be seen from outside *)

  (** As in ProgTrace.v. *)
  Definition notices (lg : list ulog) : list happening :=
    flat_map (fun x => match x with LPoisoned => [HNotice NGraph] | LInUse => [HNotice NInUse] | LUninitialized => [] end) lg.
  Definition seen_in (x : made) : list happening :=
    match x with
    | OnGraph e (a, lg) =>
        notices lg ++
        match e, a with
        | UEvent (GGet _ i), GX (XNode r) => [HGet i r]
        | UEvent (GIter _), GNodes l => [HIter l]
        | UEvent (GCall _ c), GX (XNode r) => [HCall c r]
        | _, _ => []
        end
    | OnHandle t _ _ (KOpened _ true) => [HNotice match t with TyNode => NTarget | TyRes t => NResource t end]
    | _ => []
    end.
  Definition seen (es : list made) : list happening := flat_map seen_in es.

  (** All that happened, but for what commits publish. *)
  Definition of_calls (l : list happening) : list happening :=
    filter (fun h => match h with HPublish _ => false | _ => true end) l.
End Spec.
