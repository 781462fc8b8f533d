(** A concrete node type used by the non-vacuity examples: a numeric id, a
    payload, and nothing else. *)
From Verif Require Import Ord OrdFacts Graph.

Record dnode := DNode { d_id : nat; d_val : nat }.
#[global] Instance dnode_identify : Identify dnode nat := { id_of := d_id }.
