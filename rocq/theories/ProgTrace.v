(** What a run leaves to be seen from outside, in order: what is published in the graph, the calls on guards, and the
    errors logged by [tracing::error!].  Sources: plotline/src/schema/{transaction,guard,resource}.rs.

    The recursion is that of [Prog.run], which gives the states in between. *)
From Coq Require Import List Bool Arith.
From Verif Require Import Ord OrdFacts BTree Graph Tx Prog.
Import ListNotations.

(** The errors logged.  Those of transaction.rs 71 (a transaction without context is not run by [with]) and 83, 149, 157
    (buffers of operations are never poisoned) do not occur.  The warning of delete.rs 35 is left out: the error
    returned tells as much. *)
Inductive notice :=
| NInUse                        (* transaction.rs 76, 142: "commiting transaction with contexts yet in use" *)
| NGraph                        (* guard.rs 40, 85: "posioned graph" *)
| NTarget                       (* transaction.rs 250, 300: "accessing transaction target" *)
| NResource (t : type_id).      (* resource.rs 89, 149: "accessing resource" *)

Section Trace.
  Context {Id Node V U : Type} `{OrdT Id} `{Identify Node Id}.
  Notation prog := (prog Id Node V U).
  Notation world := (world Id Node V U).
  Notation schema := (schema Id Node V U).
  Notation cell := (cell Node U).

  Inductive happening :=
  | HNotice (n : notice)
  | HPublish (ops : list (op Id Node))                      (* operations applied by a commit *)
  | HCall (c : @gcall Id Node) (r : option Node)            (* a call on [schema.write()] and its answer *)
  | HGet (i : Id) (r : option Node)                         (* [get] on a guard *)
  | HIter (l : list Node).                                  (* iteration of a guard *)

  (** guard.rs 36-44, 81-89: taking a guard of the graph. *)
  Definition guard_notices (w : world) : list happening := if w_poison w then [HNotice NGraph] else [].

  (** transaction.rs 75-95: a commit, up to a crash. *)
  Definition commit_trace (crash : option nat) (b : nat) (w : world) : list happening :=
    if leaked w b then [HNotice NInUse]
    else [HPublish (match crash with Some k => firstn k (buf_ops (w_heap w) b) | None => buf_ops (w_heap w) b end)].

  (** transaction.rs 141-144. *)
  Definition merge_notices (b : nat) (w : world) : list happening := if leaked w b then [HNotice NInUse] else [].

  (** transaction.rs 247-252, 297-302; resource.rs 83-92, 143-152: a poisoned lock. *)
  Definition handle_notice (h : handle) : notice := match h_ty h with TyNode => NTarget | TyRes t => NResource t end.
  Definition acquire1_notices (m : mode) (h : handle) (cs : list cell) : list happening :=
    match h_addr h with
    | None => []
    | Some a =>
        match nth_error cs a with
        | None => []
        | Some x => if blocked m (c_lock x) then [] else if c_poison x then [HNotice (handle_notice h)] else []
        end
    end.

  (** deref.rs 102, 123: one after the other, until one blocks. *)
  Fixpoint acquire_notices (m : mode) (hs : list handle) (cs : list cell) : list happening :=
    match hs with
    | [] => []
    | h :: hs =>
        acquire1_notices m h cs ++
        match acquire1 m h cs with AcqOk _ cs1 _ => acquire_notices m hs cs1 | _ => [] end
    end.

  Variable sc : schema.

  (** What has happened after [fuel] nested steps. *)
  Fixpoint trace (fuel : nat) (w : world) (p : prog) : list happening :=
    match fuel with
    | O => []
    | S fuel =>
        match p with
        | PRet _ | PPanic | PLoop => []
        | PEmit v k => trace fuel (emit v w) k
        | PCall body k =>
            trace fuel w body ++
            match run sc fuel w body with
            | Some (w1, ORet r) => trace fuel w1 (k r)
            | _ => []
            end
        | PTry body k =>
            trace fuel w body ++
            match run sc fuel w body with
            | Some (w1, ORet r) => trace fuel w1 (k (Some r))
            | Some (w1, OPanic) => trace fuel w1 (k None)
            | _ => []
            end
        | PWith (TxBg crash) body k =>
            match w_lock w with
            | GFree =>
                let b := length (w_heap w) in
                let w0 := set_lock GTx (set_heap (w_heap w ++ [[]]) w) in
                guard_notices w ++ trace fuel w0 (body (CRoot b None)) ++
                match run sc fuel w0 (body (CRoot b None)) with
                | Some (w1, ORet r) =>
                    if is_ok r then
                      commit_trace crash b w1 ++
                      let (w2, panicked) := bg_commit crash b w1 in
                      if panicked then [] else trace fuel (close b (set_lock GFree w2)) (k r)
                    else trace fuel (close b (set_lock GFree w1)) (k r)
                | _ => []
                end
            | _ => []
            end
        | PWith (TxFg c) body k =>
            let b := length (w_heap w) in
            let w0 := set_heap (w_heap w ++ [[]]) w in
            trace fuel w0 (body (CSub c b None)) ++
            match run sc fuel w0 (body (CSub c b None)) with
            | Some (w1, ORet r) =>
                if is_ok r then merge_notices b w1 ++ trace fuel (close b (fg_commit c b w1)) (k r)
                else trace fuel (close b w1) (k r)
            | _ => []
            end
        | PSave c n k => trace fuel (set_heap (ctx_save (w_heap w) c n) w) k
        | PDelete c i k => trace fuel (set_heap (ctx_delete (w_heap w) c i) w) k
        | PGet c i k => trace fuel w (k (ctx_get (w_heap w) (w_graph w) c i))
        | PContains c i k => trace fuel w (k (ctx_contains (w_heap w) (w_graph w) c i))
        | PTarget c n k =>
            trace fuel (set_cells (w_cells w ++ [Cell (DNode n) false Free]) w) (k (ctx_with_target c (length (w_cells w))))
        | PLeak c k => trace fuel (set_leaked (ctx_buf c :: w_leaked w) w) k
        | PTriggers s c k =>
            let p := select_execute (ts_select (sc_triggers sc) s) c in
            trace fuel w p ++
            match run sc fuel w p with
            | Some (w1, ORet r) => trace fuel w1 (k r)
            | _ => []
            end
        | PRead body k =>
            match glock_read (w_lock w) with
            | Some l =>
                guard_notices w ++ trace fuel (set_lock l w) body ++
                match run sc fuel (set_lock l w) body with
                | Some (w1, ORet r) => trace fuel (set_lock (glock_unread (w_lock w1)) w1) (k r)
                | _ => []
                end
            | None => []
            end
        | PWrite body k =>
            match w_lock w with
            | GFree =>
                guard_notices w ++ trace fuel (set_lock GWrite w) body ++
                match run sc fuel (set_lock GWrite w) body with
                | Some (w1, ORet r) => trace fuel (set_lock GFree w1) (k r)
                | _ => []
                end
            | _ => []
            end
        | PGraphGet i k =>
            match w_lock w with
            | GReaders _ | GWrite => HGet i (g_get (w_graph w) i) :: trace fuel w (k (g_get (w_graph w) i))
            | _ => []
            end
        | PGraphIter k =>
            match w_lock w with
            | GReaders _ | GWrite => HIter (g_iter (w_graph w)) :: trace fuel w (k (g_iter (w_graph w)))
            | _ => []
            end
        | PGraphCall c k =>
            match w_lock w with
            | GWrite => let (g, r) := g_step (w_graph w) c in HCall c r :: trace fuel (set_graph g w) (k r)
            | _ => []
            end
        | PRes t k => trace fuel w (k (res_from sc t))
        | PAccess m hs body k =>
            acquire_notices m hs (w_cells w) ++
            match acquire m hs (w_cells w) with
            | AcqOk _ cs held =>
                match deref_all cs hs held with
                | None => trace fuel (set_cells (release false held cs) w) (k None)
                | Some vs =>
                    trace fuel (set_cells cs w) (body vs) ++
                    match run sc fuel (set_cells cs w) (body vs) with
                    | Some (w1, ORet r) => trace fuel (set_cells (release false held (w_cells w1)) w1) (k (Some r))
                    | _ => []
                    end
                end
            | _ => []
            end
        | PPoke a d k =>
            match nth_error (w_cells w) a with
            | Some x =>
                match c_lock x with
                | Writer =>
                    if ty_eqb (ty_of d) (ty_of (c_val x))
                    then trace fuel (set_cells (alter (fun x => Cell d (c_poison x) (c_lock x)) a (w_cells w)) w) k
                    else []
                | _ => []
                end
            | None => []
            end
        end
    end.
End Trace.
Arguments happening : clear implicits.
