(** Programs over several schemas.
    Sources: as Prog.v; nothing in plotline/src/schema/ keeps a program, or a trigger, from using other schemas it has
    references to.

    Schemas are numbered, and each has a state of its own (a [world] of Prog.v).  Simplification: they all have the same types of
    ids, nodes and resources.  What is emitted is emitted once; every world has its copy of it. *)
From Coq Require Import List Bool Arith.
From Verif Require Import Ord OrdFacts BTree Graph Tx Prog.
Import ListNotations.

Section Multi.
  Context {Id Node V U : Type} `{OrdT Id} `{Identify Node Id}.
  Notation world := (world Id Node V U).
  Notation outcome := (outcome V).
  Notation res := (res V).
  Notation dyn := (dyn Node U).

  (** Calls that run no closure: those of Prog.v from [PSave] to [PLeak], [PGraphGet] to [PRes] and [PPoke], on one schema. *)
  Inductive call :=
  | KSave (c : ctx) (n : Node)
  | KDelete (c : ctx) (i : Id)
  | KGet (c : ctx) (i : Id)
  | KContains (c : ctx) (i : Id)
  | KTarget (c : ctx) (n : Node)
  | KLeak (c : ctx)
  | KGraphGet (i : Id)
  | KGraphIter
  | KGraphCall (c : @gcall Id Node)
  | KRes (t : type_id)
  | KPoke (a : nat) (d : dyn).

  (** What they answer. *)
  Inductive answer :=
  | AUnit
  | ANode (n : option Node)
  | ABool (b : bool)
  | ACtx (c : ctx)
  | ANodes (l : list Node)
  | AHandle (h : handle).

  (** As [prog] (Prog.v), each call, transaction, guard or handle being of the schema with that number.  An access is to a tuple
      of handles of any schemas (deref.rs 94-139). *)
  Inductive mprog :=
  | MRet (r : res)
  | MPanic
  | MLoop
  | MEmit (v : V) (k : mprog)
  | MCall (body : mprog) (k : res -> mprog)
  | MTry (body : mprog) (k : option res -> mprog)
  | MDo (s : nat) (c : call) (k : answer -> mprog)
  | MWith (s : nat) (t : tx) (body : ctx -> mprog) (k : res -> mprog)
  | MTriggers (s : nat) (t : type_id) (c : ctx) (k : res -> mprog)
  | MRead (s : nat) (body : mprog) (k : res -> mprog)
  | MWrite (s : nat) (body : mprog) (k : res -> mprog)
  | MAccess (m : mode) (hs : list (nat * handle)) (body : list (nat * (nat * dyn)) -> mprog) (k : option res -> mprog).

  (** trigger.rs 13-19. *)
  Definition mtrigger := ctx -> mprog.

  (** schema/mod.rs 23-33. *)
  Record mschema := MSchema { ms_resources : resource_set; ms_triggers : btree type_id (list mtrigger) }.

  (** trigger.rs 71: [try_for_each]. *)
  Fixpoint mtry_for_each (ts : list mtrigger) (c : ctx) : mprog :=
    match ts with
    | [] => MRet RUnit
    | t :: ts => MCall (t c) (fun r => match r with
        | RErr e => MRet (RErr e)
        | _ => mtry_for_each ts c
        end)
    end.

  (** trigger.rs 62-73: [TriggerSelect::execute]. *)
  Definition mselect_execute (sel : option (list mtrigger)) (c : ctx) : mprog :=
    match sel with
    | None => MRet RUnit
    | Some ts => mtry_for_each ts c
    end.

  (** A call on a schema with these resources; [None]: rustc rejects the program. *)
  Definition do_call (rs : resource_set) (w : world) (c : call) : option (world * answer) :=
    match c with
    | KSave c n => Some (set_heap (ctx_save (w_heap w) c n) w, AUnit)
    | KDelete c i => Some (set_heap (ctx_delete (w_heap w) c i) w, AUnit)
    | KGet c i => Some (w, ANode (ctx_get (w_heap w) (w_graph w) c i))
    | KContains c i => Some (w, ABool (ctx_contains (w_heap w) (w_graph w) c i))
    | KTarget c n =>
        Some (set_cells (w_cells w ++ [Cell (DNode n) false Free]) w, ACtx (ctx_with_target c (length (w_cells w))))
    | KLeak c => Some (set_leaked (ctx_buf c :: w_leaked w) w, AUnit)
    | KGraphGet i =>
        match w_lock w with GReaders _ | GWrite => Some (w, ANode (g_get (w_graph w) i)) | _ => None end
    | KGraphIter =>
        match w_lock w with GReaders _ | GWrite => Some (w, ANodes (g_iter (w_graph w))) | _ => None end
    | KGraphCall c =>
        match w_lock w with
        | GWrite => let (g, r) := g_step (w_graph w) c in Some (set_graph g w, ANode r)
        | _ => None
        end
    | KRes t => Some (w, AHandle (Handle (bt_get t rs) (TyRes t)))
    | KPoke a d =>
        match nth_error (w_cells w) a with
        | Some (Cell d' p Writer) =>
            if ty_eqb (ty_of d) (ty_of d') then Some (set_cells (alter (fun _ => Cell d p Writer) a (w_cells w)) w, AUnit)
            else None
        | _ => None
        end
    end.

  (** ** Accesses to tuples: deref.rs 94-139 *)

  (** All the guards, in order (deref.rs 102, 123); the guards are told by the schema and the address of the lock. *)
  Inductive macquired := MAcqOk (ws : list world) (held : list (nat * option nat)) | MAcqHang | MAcqStuck.

  Fixpoint macquire (m : mode) (hs : list (nat * handle)) (ws : list world) : macquired :=
    match hs with
    | [] => MAcqOk ws []
    | (s, h) :: hs =>
        match nth_error ws s with
        | None => MAcqStuck
        | Some w =>
            match acquire1 m h (w_cells w) with
            | AcqOk _ cs a =>
                match macquire m hs (alter (set_cells cs) s ws) with
                | MAcqOk ws' l => MAcqOk ws' ((s, a) :: l)
                | o => o
                end
            | AcqHang _ => MAcqHang
            | AcqStuck _ => MAcqStuck
            end
        end
    end.

  (** All the values, or [None] (deref.rs 104-106, 125-127). *)
  Fixpoint mderef_all (ws : list world) (hs : list (nat * handle)) (l : list (nat * option nat)) : option (list (nat * (nat * dyn))) :=
    match hs, l with
    | [], [] => Some []
    | (s, h) :: hs, (_, a) :: l =>
        match nth_error ws s with
        | None => None
        | Some w =>
            match deref1 (w_cells w) h a, mderef_all ws hs l with
            | Some v, Some vs => Some ((s, v) :: vs)
            | _, _ => None
            end
        end
    | _, _ => None
    end.

  (** Dropping the guards. *)
  Fixpoint mrelease (poison : bool) (l : list (nat * option nat)) (ws : list world) : list world :=
    match l with
    | [] => ws
    | (s, a) :: l => alter (fun w => set_cells (release poison [a] (w_cells w)) w) s (mrelease poison l ws)
    end.

  Variable scs : list mschema.

  (** As [run] (Prog.v). *)
  Fixpoint mrun (fuel : nat) (ws : list world) (p : mprog) : option (list world * outcome) :=
    match fuel with
    | O => None
    | S fuel =>
        match p with
        | MRet r => Some (ws, ORet r)
        | MPanic => Some (ws, OPanic)
        | MLoop => None
        | MEmit v k => mrun fuel (map (emit v) ws) k
        | MCall body k =>
            match mrun fuel ws body with
            | Some (ws1, ORet r) => mrun fuel ws1 (k r)
            | o => o
            end
        | MTry body k =>
            match mrun fuel ws body with
            | Some (ws1, ORet r) => mrun fuel ws1 (k (Some r))
            | Some (ws1, OPanic) => mrun fuel ws1 (k None)
            | o => o
            end
        | MDo s c k =>
            match nth_error ws s, nth_error scs s with
            | Some w, Some sc =>
                match do_call (ms_resources sc) w c with
                | Some (w1, a) => mrun fuel (alter (fun _ => w1) s ws) (k a)
                | None => Some (ws, OStuck)
                end
            | _, _ => Some (ws, OStuck)
            end
        | MWith s (TxBg crash) body k =>           (* transaction.rs 54-61 *)
            match nth_error ws s with
            | None => Some (ws, OStuck)
            | Some w =>
                match w_lock w with
                | GFree =>
                    let b := length (w_heap w) in
                    match mrun fuel (alter (fun w => set_lock GTx (set_heap (w_heap w ++ [[]]) w)) s ws) (body (CRoot b None)) with
                    | Some (ws1, ORet r) =>
                        match nth_error ws1 s with
                        | None => Some (ws1, OStuck)
                        | Some w1 =>
                            if is_ok r then
                              let (w2, panicked) := bg_commit crash b w1 in
                              let w3 := close b (set_lock GFree w2) in
                              if panicked then Some (alter (fun _ => set_poison w3) s ws1, OPanic)
                              else mrun fuel (alter (fun _ => w3) s ws1) (k r)
                            else mrun fuel (alter (fun w => close b (set_lock GFree w)) s ws1) (k r)
                        end
                    | Some (ws1, OPanic) => Some (alter (fun w => close b (set_lock GFree (set_poison w))) s ws1, OPanic)
                    | o => o
                    end
                | _ => Some (ws, OHang)
                end
            end
        | MWith s (TxFg c) body k =>               (* transaction.rs 126-133 *)
            match nth_error ws s with
            | None => Some (ws, OStuck)
            | Some w =>
                let b := length (w_heap w) in
                match mrun fuel (alter (fun w => set_heap (w_heap w ++ [[]]) w) s ws) (body (CSub c b None)) with
                | Some (ws1, ORet r) =>
                    if is_ok r then mrun fuel (alter (fun w => close b (fg_commit c b w)) s ws1) (k r)
                    else mrun fuel (alter (close b) s ws1) (k r)
                | Some (ws1, OPanic) => Some (alter (close b) s ws1, OPanic)
                | o => o
                end
            end
        | MTriggers s t c k =>
            match nth_error scs s with
            | None => Some (ws, OStuck)
            | Some sc =>
                match mrun fuel ws (mselect_execute (bt_get t (ms_triggers sc)) c) with
                | Some (ws1, ORet r) => mrun fuel ws1 (k r)
                | o => o
                end
            end
        | MRead s body k =>                        (* guard.rs 35-45 *)
            match nth_error ws s with
            | None => Some (ws, OStuck)
            | Some w =>
                match glock_read (w_lock w) with
                | Some l =>
                    match mrun fuel (alter (set_lock l) s ws) body with
                    | Some (ws1, ORet r) => mrun fuel (alter (fun w => set_lock (glock_unread (w_lock w)) w) s ws1) (k r)
                    | Some (ws1, OPanic) => Some (alter (fun w => set_lock (glock_unread (w_lock w)) w) s ws1, OPanic)
                    | o => o
                    end
                | None => Some (ws, OHang)
                end
            end
        | MWrite s body k =>                       (* guard.rs 80-90 *)
            match nth_error ws s with
            | None => Some (ws, OStuck)
            | Some w =>
                match w_lock w with
                | GFree =>
                    match mrun fuel (alter (set_lock GWrite) s ws) body with
                    | Some (ws1, ORet r) => mrun fuel (alter (set_lock GFree) s ws1) (k r)
                    | Some (ws1, OPanic) => Some (alter (fun w => set_lock GFree (set_poison w)) s ws1, OPanic)
                    | o => o
                    end
                | _ => Some (ws, OHang)
                end
            end
        | MAccess m hs body k =>
            match macquire m hs ws with
            | MAcqHang => Some (ws, OHang)
            | MAcqStuck => Some (ws, OStuck)
            | MAcqOk ws0 held =>
                match mderef_all ws0 hs held with
                | None => mrun fuel (mrelease false held ws0) (k None)
                | Some vs =>
                    match mrun fuel ws0 (body vs) with
                    | Some (ws1, ORet r) => mrun fuel (mrelease false held ws1) (k (Some r))
                    | Some (ws1, OPanic) =>
                        Some (mrelease (match m with Excl => true | Shared => false end) held ws1, OPanic)
                    | o => o
                    end
                end
            end
        end
    end.
End Multi.
Arguments mprog : clear implicits.
Arguments mschema : clear implicits.
Arguments mtrigger : clear implicits.
Arguments call : clear implicits.
Arguments answer : clear implicits.
