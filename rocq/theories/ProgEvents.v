(** What a run does to locks and to operation buffers, in order.
    Sources: plotline/src/schema/{transaction,guard,resource}.rs, plotline/src/deref.rs.

    The recursion is that of [Prog.run], which gives the states in between. *)
From Coq Require Import List Bool Arith.
From Verif Require Import Ord OrdFacts BTree Graph Tx Prog.
Import ListNotations.

(** The [RwLock]s user code can wait for: the graph's (schema/mod.rs 28), those of targets (transaction.rs 194) and
    resources (resource.rs 20).  No user code runs under the guards of operation buffers, which are left out. *)
Inductive lock := LGraph | LCell (a : nat).

Section Events.
  Context {Id Node V U : Type} `{OrdT Id} `{Identify Node Id}.
  Notation prog := (prog Id Node V U).
  Notation world := (world Id Node V U).
  Notation schema := (schema Id Node V U).
  Notation cell := (cell Node U).

  Inductive event :=
  | EAsk (l : lock) (m : mode)                  (* [RwLock::read] or [RwLock::write] is called *)
  | EGot (l : lock) (m : mode)                  (* it returns a guard *)
  | ERefused (l : lock) (m : mode)              (* it returns an error whose guard is dropped: transaction.rs 249-252,
                                                   299-302; resource.rs 88-91, 148-151 *)
  | EDrop (l : lock) (m : mode)                 (* a guard is dropped *)
  | ERegister (b : nat) (o : op Id Node)        (* transaction.rs 455-472: [save], [delete] *)
  | EMerge (b : nat) (ops : list (op Id Node)). (* transaction.rs 165: the operations of a sub-transaction are appended *)

  (** transaction.rs 242-254, 292-304; resource.rs 78-93, 138-153. *)
  Definition acquire1_events (m : mode) (h : handle) (cs : list cell) : list event :=
    match h_addr h with
    | None => []
    | Some a =>
        match nth_error cs a with
        | None => []
        | Some x =>
            EAsk (LCell a) m ::
            if blocked m (c_lock x) then [] else if c_poison x then [ERefused (LCell a) m] else [EGot (LCell a) m]
        end
    end.

  (** deref.rs 102, 123: one after the other, until one blocks. *)
  Fixpoint acquire_events (m : mode) (hs : list handle) (cs : list cell) : list event :=
    match hs with
    | [] => []
    | h :: hs =>
        acquire1_events m h cs ++
        match acquire1 m h cs with AcqOk _ cs1 _ => acquire_events m hs cs1 | _ => [] end
    end.

  (** deref.rs 96-118: the guards go out of scope. *)
  Fixpoint release_events (m : mode) (l : list (option nat)) : list event :=
    match l with
    | [] => []
    | None :: l => release_events m l
    | Some a :: l => release_events m l ++ [EDrop (LCell a) m]
    end.

  (** transaction.rs 140-166: the end of a sub-transaction of [c]. *)
  Definition merge_events (c : ctx) (b : nat) (w : world) : list event :=
    if leaked w b then [] else [EMerge (ctx_buf c) (buf_ops (w_heap w) b)].

  Variable sc : schema.

  (** What has been done after [fuel] nested steps. *)
  Fixpoint events (fuel : nat) (w : world) (p : prog) : list event :=
    match fuel with
    | O => []
    | S fuel =>
        match p with
        | PRet _ | PPanic | PLoop => []
        | PEmit v k => events fuel (emit v w) k
        | PCall body k =>
            events fuel w body ++
            match run sc fuel w body with
            | Some (w1, ORet r) => events fuel w1 (k r)
            | _ => []
            end
        | PTry body k =>
            events fuel w body ++
            match run sc fuel w body with
            | Some (w1, ORet r) => events fuel w1 (k (Some r))
            | Some (w1, OPanic) => events fuel w1 (k None)
            | _ => []
            end
        | PWith (TxBg crash) body k =>             (* transaction.rs 410: the guard; 70, 96: dropped by the commit *)
            EAsk LGraph Excl ::
            match w_lock w with
            | GFree =>
                let b := length (w_heap w) in
                let w0 := set_lock GTx (set_heap (w_heap w ++ [[]]) w) in
                EGot LGraph Excl :: events fuel w0 (body (CRoot b None)) ++
                match run sc fuel w0 (body (CRoot b None)) with
                | Some (w1, ORet r) =>
                    EDrop LGraph Excl ::
                    if is_ok r then
                      let (w2, panicked) := bg_commit crash b w1 in
                      if panicked then [] else events fuel (close b (set_lock GFree w2)) (k r)
                    else events fuel (close b (set_lock GFree w1)) (k r)
                | Some (w1, OPanic) => [EDrop LGraph Excl]
                | _ => []
                end
            | _ => []
            end
        | PWith (TxFg c) body k =>
            let b := length (w_heap w) in
            let w0 := set_heap (w_heap w ++ [[]]) w in
            events fuel w0 (body (CSub c b None)) ++
            match run sc fuel w0 (body (CSub c b None)) with
            | Some (w1, ORet r) =>
                if is_ok r then merge_events c b w1 ++ events fuel (close b (fg_commit c b w1)) (k r)
                else events fuel (close b w1) (k r)
            | _ => []
            end
        | PSave c n k => ERegister (ctx_buf c) (OSave n) :: events fuel (set_heap (ctx_save (w_heap w) c n) w) k
        | PDelete c i k => ERegister (ctx_buf c) (ODelete i) :: events fuel (set_heap (ctx_delete (w_heap w) c i) w) k
        | PGet c i k => events fuel w (k (ctx_get (w_heap w) (w_graph w) c i))
        | PContains c i k => events fuel w (k (ctx_contains (w_heap w) (w_graph w) c i))
        | PTarget c n k =>
            events fuel (set_cells (w_cells w ++ [Cell (DNode n) false Free]) w) (k (ctx_with_target c (length (w_cells w))))
        | PLeak c k => events fuel (set_leaked (ctx_buf c :: w_leaked w) w) k
        | PTriggers s c k =>
            let p := select_execute (ts_select (sc_triggers sc) s) c in
            events fuel w p ++
            match run sc fuel w p with
            | Some (w1, ORet r) => events fuel w1 (k r)
            | _ => []
            end
        | PRead body k =>                          (* guard.rs 37 *)
            EAsk LGraph Shared ::
            match glock_read (w_lock w) with
            | Some l =>
                EGot LGraph Shared :: events fuel (set_lock l w) body ++
                match run sc fuel (set_lock l w) body with
                | Some (w1, ORet r) =>
                    EDrop LGraph Shared :: events fuel (set_lock (glock_unread (w_lock w1)) w1) (k r)
                | Some (w1, OPanic) => [EDrop LGraph Shared]
                | _ => []
                end
            | None => []
            end
        | PWrite body k =>                         (* guard.rs 82 *)
            EAsk LGraph Excl ::
            match w_lock w with
            | GFree =>
                EGot LGraph Excl :: events fuel (set_lock GWrite w) body ++
                match run sc fuel (set_lock GWrite w) body with
                | Some (w1, ORet r) => EDrop LGraph Excl :: events fuel (set_lock GFree w1) (k r)
                | Some (w1, OPanic) => [EDrop LGraph Excl]
                | _ => []
                end
            | _ => []
            end
        | PGraphGet i k =>
            match w_lock w with
            | GReaders _ | GWrite => events fuel w (k (g_get (w_graph w) i))
            | _ => []
            end
        | PGraphIter k =>
            match w_lock w with
            | GReaders _ | GWrite => events fuel w (k (g_iter (w_graph w)))
            | _ => []
            end
        | PGraphCall c k =>
            match w_lock w with
            | GWrite => let (g, r) := g_step (w_graph w) c in events fuel (set_graph g w) (k r)
            | _ => []
            end
        | PRes t k => events fuel w (k (res_from sc t))
        | PAccess m hs body k =>
            acquire_events m hs (w_cells w) ++
            match acquire m hs (w_cells w) with
            | AcqOk _ cs held =>
                match deref_all cs hs held with
                | None => release_events m held ++ events fuel (set_cells (release false held cs) w) (k None)
                | Some vs =>
                    events fuel (set_cells cs w) (body vs) ++
                    match run sc fuel (set_cells cs w) (body vs) with
                    | Some (w1, ORet r) =>
                        release_events m held ++ events fuel (set_cells (release false held (w_cells w1)) w1) (k (Some r))
                    | Some (w1, OPanic) => release_events m held
                    | _ => []
                    end
                end
            | _ => []
            end
        | PPoke a d k =>
            match nth_error (w_cells w) a with
            | Some x =>
                match c_lock x with
                | Writer =>
                    if ty_eqb (ty_of d) (ty_of (c_val x))
                    then events fuel (set_cells (alter (fun x => Cell d (c_poison x) (c_lock x)) a (w_cells w)) w) k
                    else []
                | _ => []
                end
            | None => []
            end
        end
    end.
End Events.
Arguments event : clear implicits.
