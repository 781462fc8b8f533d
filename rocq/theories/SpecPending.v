(** Specification vocabulary for pending changes that no program can tell apart, and for replacing a piece of a program by
    another. *)
From Coq Require Import List Bool Arith.
From Verif Require Import Ord OrdFacts BTree Graph Tx SpecTx Prog SpecProg.
Import ListNotations.

Section Spec.
  Context {Id Node V U : Type} `{OrdT Id} `{Identify Node Id}.
  Notation prog := (prog Id Node V U).
  Notation world := (world Id Node V U).
  Notation schema := (schema Id Node V U).
  Notation res := (res V).
  Notation op := (op Id Node).

  (** No user code panics while a transaction of the program is being committed. *)
  Fixpoint steady (p : prog) : Prop :=
    match p with
    | PRet _ | PPanic | PLoop => True
    | PEmit _ k => steady k
    | PCall body k => steady body /\ forall r, steady (k r)
    | PTry body k => steady body /\ forall r, steady (k r)
    | PWith (TxBg crash) body k => crash = None /\ (forall b, steady (body (CRoot b None))) /\ forall r, steady (k r)
    | PWith (TxFg c) body k => (forall b, steady (body (CSub c b None))) /\ forall r, steady (k r)
    | PSave _ _ k => steady k
    | PDelete _ _ k => steady k
    | PGet _ _ k => forall r, steady (k r)
    | PContains _ _ k => forall r, steady (k r)
    | PTarget c _ k => forall a, steady (k (ctx_with_target c a))
    | PLeak _ k => steady k
    | PTriggers _ _ k => forall r, steady (k r)
    | PRead body k => steady body /\ forall r, steady (k r)
    | PWrite body k => steady body /\ forall r, steady (k r)
    | PGraphGet _ k => forall r, steady (k r)
    | PGraphIter k => forall r, steady (k r)
    | PGraphCall _ k => forall r, steady (k r)
    | PRes _ k => forall h, steady (k h)
    | PAccess _ _ body k => (forall vs, steady (body vs)) /\ forall r, steady (k r)
    | PPoke _ _ k => steady k
    end.

  Definition steady_triggers (sc : schema) : Prop := forall s t c, In t (scheduled sc s) -> steady (t c).

  (** What a list of operations amounts to. *)
  Definition pending (ops : list op) : @overlay Id Node :=
    fold_left (fun o e => ov_set (fst e) (snd e) o) (map op_entry ops) no_change.

  (** Two states that differ at most in how the changes pending in each context were arrived at. *)
  Record same_pending (w1 w2 : world) : Prop := {
    sp_graph : w_graph w1 = w_graph w2;
    sp_lock : w_lock w1 = w_lock w2;
    sp_poison : w_poison w1 = w_poison w2;
    sp_leaked : w_leaked w1 = w_leaked w2;
    sp_cells : w_cells w1 = w_cells w2;
    sp_out : w_out w1 = w_out w2;
    sp_heap : length (w_heap w1) = length (w_heap w2);
    sp_pending : forall b i, pending (nth b (w_heap w1) []) i = pending (nth b (w_heap w2) []) i
  }.

  (** [c.save(n)] or [c.delete(i)], then [k]; several of them. *)
  Definition register (c : ctx) (o : op) (k : prog) : prog :=
    match o with OSave n => PSave c n k | ODelete i => PDelete c i k end.
  Definition registers_all (c : ctx) (ops : list op) (k : prog) : prog := fold_right (register c) k ops.

  (** The node an operation is about, and what it leaves of it. *)
  Definition about (o : op) : Id := fst (op_entry o).
  Definition leaves (o : op) : option Node := snd (op_entry o).

  (** ** Code that uses one context *)

  (** Any code whose API calls are those of one context, opening no transaction, that returns [Ok]. *)
  Inductive code :=
  | CRet (r : res) (ok : is_ok r = true)
  | CEmit (v : V) (s : code)
  | CRegister (o : op) (s : code)
  | CGet (i : Id) (s : option Node -> code)
  | CContains (i : Id) (s : bool -> code).

  (** That code on context [c], then [k]. *)
  Fixpoint on (c : ctx) (s : code) (k : res -> prog) : prog :=
    match s with
    | CRet r _ => k r
    | CEmit v s => PEmit v (on c s k)
    | CRegister o s => register c o (on c s k)
    | CGet i s => PGet c i (fun r => on c (s r) k)
    | CContains i s => PContains c i (fun r => on c (s r) k)
    end.

  (** ** Rewriting programs *)

  (** [rewrites scope p q]: [q] is [p] with some pieces replaced, anywhere, according to the laws below. [scope]: the
      buffers of the contexts in scope, which are alive.  No user code panics during a commit. *)
  Inductive rewrites : list nat -> prog -> prog -> Prop :=
  (* Laws. *)
  | rw_overwritten : forall l c o1 o2 k k', about o1 = about o2 -> rewrites l k k' ->
      rewrites l (register c o1 (register c o2 k)) (register c o2 k')
  | rw_overwritten' : forall l c o1 o2 k k', about o1 = about o2 -> rewrites l k k' ->
      rewrites l (register c o2 k) (register c o1 (register c o2 k'))
  | rw_swapped : forall l c o1 o2 k k', about o1 <> about o2 -> rewrites l k k' ->
      rewrites l (register c o1 (register c o2 k)) (register c o2 (register c o1 k'))
  | rw_inlined : forall l c s k k', In (ctx_buf c) l -> (forall r, rewrites l (k r) (k' r)) ->
      rewrites l (PWith (TxFg c) (fun c' => on c' s PRet) k) (on c s k')
  | rw_inlined' : forall l c s k k', In (ctx_buf c) l -> (forall r, rewrites l (k r) (k' r)) ->
      rewrites l (on c s k) (PWith (TxFg c) (fun c' => on c' s PRet) k')
  | rw_abandoned : forall l c ops e k k', rewrites l (k (RErr e)) k' ->
      rewrites l (PWith (TxFg c) (fun c' => registers_all c' ops (PRet (RErr e))) k) k'
  | rw_abandoned' : forall l c ops e k k', rewrites l k (k' (RErr e)) ->
      rewrites l k (PWith (TxFg c) (fun c' => registers_all c' ops (PRet (RErr e))) k')
  | rw_known : forall l c o k k', In (ctx_buf c) l -> rewrites l (k (leaves o)) k' ->
      rewrites l (register c o (PGet c (about o) k)) (register c o k')
  | rw_known' : forall l c o k k', In (ctx_buf c) l -> rewrites l k (k' (leaves o)) ->
      rewrites l (register c o k) (register c o (PGet c (about o) k'))
  | rw_reread : forall l c i k k', (forall r, rewrites l (k r r) (k' r)) ->
      rewrites l (PGet c i (fun r => PGet c i (k r))) (PGet c i k')
  | rw_reread' : forall l c i k k', (forall r, rewrites l (k r) (k' r r)) ->
      rewrites l (PGet c i k) (PGet c i (fun r => PGet c i (k' r)))
  | rw_unused : forall l c i k k', rewrites l k k' -> rewrites l (PGet c i (fun _ => k)) k'
  | rw_unused' : forall l c i k k', rewrites l k k' -> rewrites l k (PGet c i (fun _ => k'))
  (* Anywhere. *)
  | rw_ret : forall l r, rewrites l (PRet r) (PRet r)
  | rw_panic : forall l, rewrites l PPanic PPanic
  | rw_loop : forall l, rewrites l PLoop PLoop
  | rw_emit : forall l v k k', rewrites l k k' -> rewrites l (PEmit v k) (PEmit v k')
  | rw_call : forall l b b' k k', rewrites l b b' -> (forall r, rewrites l (k r) (k' r)) -> rewrites l (PCall b k) (PCall b' k')
  | rw_try : forall l b b' k k', rewrites l b b' -> (forall r, rewrites l (k r) (k' r)) -> rewrites l (PTry b k) (PTry b' k')
  | rw_bg : forall l b b' k k', (forall a, rewrites (a :: l) (b (CRoot a None)) (b' (CRoot a None))) ->
      (forall r, rewrites l (k r) (k' r)) -> rewrites l (PWith (TxBg None) b k) (PWith (TxBg None) b' k')
  | rw_fg : forall l c b b' k k', (forall a, rewrites (a :: l) (b (CSub c a None)) (b' (CSub c a None))) ->
      (forall r, rewrites l (k r) (k' r)) -> rewrites l (PWith (TxFg c) b k) (PWith (TxFg c) b' k')
  | rw_register : forall l c o k k', rewrites l k k' -> rewrites l (register c o k) (register c o k')
  | rw_get : forall l c i k k', (forall r, rewrites l (k r) (k' r)) -> rewrites l (PGet c i k) (PGet c i k')
  | rw_contains : forall l c i k k', (forall r, rewrites l (k r) (k' r)) -> rewrites l (PContains c i k) (PContains c i k')
  | rw_target : forall l c n k k', (forall a, rewrites l (k (ctx_with_target c a)) (k' (ctx_with_target c a))) ->
      rewrites l (PTarget c n k) (PTarget c n k')
  | rw_leak : forall l c k k', In (ctx_buf c) l -> rewrites l k k' -> rewrites l (PLeak c k) (PLeak c k')
  | rw_triggers : forall l s c k k', In (ctx_buf c) l -> (forall r, rewrites l (k r) (k' r)) ->
      rewrites l (PTriggers s c k) (PTriggers s c k')
  | rw_read : forall l b b' k k', rewrites l b b' -> (forall r, rewrites l (k r) (k' r)) -> rewrites l (PRead b k) (PRead b' k')
  | rw_write : forall l b b' k k', rewrites l b b' -> (forall r, rewrites l (k r) (k' r)) -> rewrites l (PWrite b k) (PWrite b' k')
  | rw_graph_get : forall l i k k', (forall r, rewrites l (k r) (k' r)) -> rewrites l (PGraphGet i k) (PGraphGet i k')
  | rw_graph_iter : forall l k k', (forall r, rewrites l (k r) (k' r)) -> rewrites l (PGraphIter k) (PGraphIter k')
  | rw_graph_call : forall l c k k', (forall r, rewrites l (k r) (k' r)) -> rewrites l (PGraphCall c k) (PGraphCall c k')
  | rw_res : forall l t k k', (forall h, rewrites l (k h) (k' h)) -> rewrites l (PRes t k) (PRes t k')
  | rw_access : forall l m hs b b' k k', (forall vs, rewrites l (b vs) (b' vs)) -> (forall r, rewrites l (k r) (k' r)) ->
      rewrites l (PAccess m hs b k) (PAccess m hs b' k')
  | rw_poke : forall l a d k k', rewrites l k k' -> rewrites l (PPoke a d k) (PPoke a d k').

  (** The same schema, but for pieces of its triggers so replaced. *)
  Record rewritten (sc1 sc2 : schema) : Prop := {
    rt_resources : sc_resources sc1 = sc_resources sc2;
    rt_triggers : forall s, Forall2 (fun t1 t2 => forall c, rewrites [ctx_buf c] (t1 c) (t2 c)) (scheduled sc1 s) (scheduled sc2 s)
  }.

  (** A schema and a program of it, and what they become by replacing pieces any number of times. *)
  Inductive replaced (l : list nat) : schema * prog -> schema * prog -> Prop :=
  | rp_one : forall sc1 sc2 p q, rewritten sc1 sc2 -> rewrites l p q -> replaced l (sc1, p) (sc2, q)
  | rp_more : forall x y z, replaced l x y -> replaced l y z -> replaced l x z.

  (** The contexts with these buffers are alive, and so are the leaked ones. *)
  Definition alive (l : list nat) (w : world) : Prop :=
    (forall b, In b l -> b < length (w_heap w)) /\ (forall b, In b (w_leaked w) -> b < length (w_heap w)).
End Spec.
