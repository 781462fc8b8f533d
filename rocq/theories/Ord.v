(** Model of the Rust traits [Ord]/[Eq] as used by the code: a three-way
    comparison with its laws.  plotline is generic over id and bound types that
    implement [Ord] (plotline/src/graph/mod.rs 31, 60, 76, 93, 104;
    plugins/interval/src/lib.rs 12).  Simplification: [Ordering::Equal]
    coincides with equality of values (lawful [Ord]/[Eq]). *)

Class OrdT (A : Type) := {
  cmp : A -> A -> comparison;
  cmp_eq : forall x y, cmp x y = Eq <-> x = y;
  cmp_sym : forall x y, cmp y x = CompOpp (cmp x y);
  cmp_lt_trans : forall x y z, cmp x y = Lt -> cmp y z = Lt -> cmp x z = Lt
}.

(** [<], [<=], [==] on an [Ord] type (std). *)
Definition ltb {A} `{OrdT A} (x y : A) : bool :=
  match cmp x y with Lt => true | _ => false end.
Definition leb {A} `{OrdT A} (x y : A) : bool :=
  match cmp x y with Gt => false | _ => true end.
Definition eqb {A} `{OrdT A} (x y : A) : bool :=
  match cmp x y with Eq => true | _ => false end.

(** [Ord::max] (std): returns the second argument when they compare equal. *)
Definition ord_max {A} `{OrdT A} (x y : A) : A :=
  if leb x y then y else x.

Definition lt {A} `{OrdT A} (x y : A) : Prop := cmp x y = Lt.
Definition le {A} `{OrdT A} (x y : A) : Prop := cmp x y <> Gt.
