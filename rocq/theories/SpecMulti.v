(** Specification vocabulary for programs over several schemas. *)
From Coq Require Import List Bool Arith.
From Verif Require Import Ord OrdFacts BTree Graph Tx Prog SpecProg Multi.
Import ListNotations.

Section Spec.
  Context {Id Node V U : Type} `{OrdT Id} `{Identify Node Id}.
  Notation prog := (prog Id Node V U).
  Notation world := (world Id Node V U).
  Notation schema := (schema Id Node V U).
  Notation mprog := (mprog Id Node V U).
  Notation mschema := (mschema Id Node V U).
  Notation outcome := (outcome V).

  (** Run from the states [ws] of the schemas, [p] ends with outcome [o], leaving [ws']. *)
  Definition mends (scs : list mschema) (ws : list world) (p : mprog) (ws' : list world) (o : outcome) : Prop :=
    exists fuel, mrun scs fuel ws p = Some (ws', o).

  (** The state of the schema number [s] is [w]. *)
  Definition state_of (s : nat) (ws : list world) (w : world) : Prop := nth_error ws s = Some w.

  (** The same states, but for the schema [s]. *)
  Definition put (s : nat) (w : world) (ws : list world) : list world := firstn s ws ++ w :: skipn (S s) ws.

  (** Only the values [l] have been emitted. *)
  Definition said (l : list V) (w w' : world) : Prop :=
    w' = World (w_graph w) (w_lock w) (w_poison w) (w_heap w) (w_leaked w) (w_cells w) (w_out w ++ l).

  (** The same program, on the schema number [s] of many; so [on s (p_save n t PRet)] is [Save] executed on a transaction of [s]. *)
  Fixpoint on (s : nat) (p : prog) : mprog :=
    match p with
    | PRet r => MRet r
    | PPanic => MPanic
    | PLoop => MLoop
    | PEmit v k => MEmit v (on s k)
    | PCall body k => MCall (on s body) (fun r => on s (k r))
    | PTry body k => MTry (on s body) (fun r => on s (k r))
    | PWith t body k => MWith s t (fun c => on s (body c)) (fun r => on s (k r))
    | PSave c n k => MDo s (KSave c n) (fun _ => on s k)
    | PDelete c i k => MDo s (KDelete c i) (fun _ => on s k)
    | PGet c i k => MDo s (KGet c i) (fun a => match a with ANode n => on s (k n) | _ => MPanic end)
    | PContains c i k => MDo s (KContains c i) (fun a => match a with ABool b => on s (k b) | _ => MPanic end)
    | PTarget c n k => MDo s (KTarget c n) (fun a => match a with ACtx c => on s (k c) | _ => MPanic end)
    | PLeak c k => MDo s (KLeak c) (fun _ => on s k)
    | PTriggers t c k => MTriggers s t c (fun r => on s (k r))
    | PRead body k => MRead s (on s body) (fun r => on s (k r))
    | PWrite body k => MWrite s (on s body) (fun r => on s (k r))
    | PGraphGet i k => MDo s (KGraphGet i) (fun a => match a with ANode n => on s (k n) | _ => MPanic end)
    | PGraphIter k => MDo s KGraphIter (fun a => match a with ANodes l => on s (k l) | _ => MPanic end)
    | PGraphCall c k => MDo s (KGraphCall c) (fun a => match a with ANode n => on s (k n) | _ => MPanic end)
    | PRes t k => MDo s (KRes t) (fun a => match a with AHandle h => on s (k h) | _ => MPanic end)
    | PAccess m hs body k =>
        MAccess m (map (fun h => (s, h)) hs) (fun vs => on s (body (map snd vs))) (fun r => on s (k r))
    | PPoke a d k => MDo s (KPoke a d) (fun _ => on s k)
    end.

  (** The same schema, as number [s] of many. *)
  Definition schema_on (s : nat) (sc : schema) : mschema :=
    MSchema (sc_resources sc) (map (fun x => (fst x, map (fun t c => on s (t c)) (snd x))) (sc_triggers sc)).

  (** The program only uses schemas satisfying [ok]. *)
  Fixpoint only_uses (ok : nat -> Prop) (p : mprog) : Prop :=
    match p with
    | MRet _ | MPanic | MLoop => True
    | MEmit _ k => only_uses ok k
    | MCall body k => only_uses ok body /\ forall r, only_uses ok (k r)
    | MTry body k => only_uses ok body /\ forall r, only_uses ok (k r)
    | MDo s _ k => ok s /\ forall a, only_uses ok (k a)
    | MWith s _ body k => ok s /\ (forall c, only_uses ok (body c)) /\ forall r, only_uses ok (k r)
    | MTriggers s _ _ k => ok s /\ forall r, only_uses ok (k r)
    | MRead s body k => ok s /\ only_uses ok body /\ forall r, only_uses ok (k r)
    | MWrite s body k => ok s /\ only_uses ok body /\ forall r, only_uses ok (k r)
    | MAccess _ hs body k => (forall s h, In (s, h) hs -> ok s) /\ (forall vs, only_uses ok (body vs)) /\ forall r, only_uses ok (k r)
    end.

  (** So do the triggers of those schemas. *)
  Definition triggers_only_use (ok : nat -> Prop) (scs : list mschema) : Prop :=
    forall s sc x ts t c, ok s -> nth_error scs s = Some sc -> In (x, ts) (ms_triggers sc) -> In t ts -> only_uses ok (t c).
End Spec.
