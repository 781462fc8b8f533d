(** Properties C56-C58: dates. *)
From Coq Require Import List Arith.
From Verif Require Import Ord OrdFacts Interval SpecInterval IntervalFacts Date DateFacts.
Import ListNotations.

Section Properties.
  Context {T : Type} `{HT : OrdT T}.

  (** C56. *)
  Theorem C56_dates_totally_ordered :
    forall e N (x y z : date e N T),
      (date_cmp x y = Eq <-> components x = components y) /\
      (date_eq x y = true <-> date_cmp x y = Eq) /\
      date_cmp x x = Eq /\
      (date_cmp x y = Lt <-> date_cmp y x = Gt) /\
      (date_cmp x y = Lt -> date_cmp y z = Lt -> date_cmp x z = Lt) /\
      (date_cmp x y = Lt \/ components x = components y \/ date_cmp y x = Lt).
  Proof.
    intros e N x y z.
    split; [rewrite date_cmp_eq; split; [congruence|apply date_ext]|].
    split; [now rewrite date_eq_eq, date_cmp_eq|].
    split; [now apply date_cmp_eq|].
    split; [rewrite (date_cmp_sym x y); destruct (date_cmp x y); cbn; split; congruence|].
    split; [apply date_cmp_trans|].
    rewrite (date_cmp_sym x y). destruct (date_cmp x y) eqn:C; cbn; auto.
    right; left. apply date_cmp_eq in C. congruence.
  Qed.

  (** C57. *)
  Theorem C57_endianness :
    (forall N (x y : date LittleEndian N T) (x' y' : date BigEndian N T),
      components x' = rev (components x) -> components y' = rev (components y) ->
      date_cmp x y = date_cmp x' y') /\
    (forall N (x y : date BigEndian N T) o, o <> Eq ->
      (date_cmp x y = o <-> exists k a b,
        firstn k (components x) = firstn k (components y) /\
        nth_error (components x) k = Some a /\ nth_error (components y) k = Some b /\ cmp a b = o)).
  Proof.
    split.
    - intros N x y x' y' Ex Ey. rewrite !date_cmp_lex. cbn. now rewrite Ex, Ey.
    - intros N x y o No. rewrite date_cmp_lex. apply lex_first; [|assumption].
      cbn. now rewrite !components_len.
  Qed.

  (** C58. *)
  Theorem C58_date_overlaps_only_itself :
    forall e N (x y : date e N T), iv_intersects x y = true <-> x = y.
  Proof.
    intros e N x y. rewrite iv_intersects_overlap by apply le_refl. unfold overlap, within; cbn. split.
    - intros (d & [A1 A2] & [B1 B2]). transitivity d; [now apply le_antisym|symmetry; now apply le_antisym].
    - intros ->. exists y. repeat split; apply le_refl.
  Qed.
End Properties.

(** ** Non-vacuity *)

Definition d1 : date LittleEndian 3 nat := Date [31; 12; 1999] eq_refl.
Definition d2 : date LittleEndian 3 nat := Date [1; 1; 2000] eq_refl.
Definition d3 : date BigEndian 3 nat := Date [1999; 12; 31] eq_refl.
Definition d4 : date BigEndian 3 nat := Date [2000; 1; 1] eq_refl.

Example C56_case : date_cmp d1 d2 = Lt /\ date_cmp d4 d3 = Gt /\ date_eq d1 d2 = false.
Proof. repeat split; vm_compute; reflexivity. Qed.
Example C57_case : components d3 = rev (components d1) /\ components d4 = rev (components d2) /\ date_cmp d1 d2 = Lt.
Proof. repeat split; vm_compute; reflexivity. Qed.
Example C58_case : iv_intersects d1 d1 = true /\ iv_intersects d1 d2 = false.
Proof. split; vm_compute; reflexivity. Qed.

Print Assumptions C56_dates_totally_ordered.
Print Assumptions C57_endianness.
Print Assumptions C58_date_overlaps_only_itself.
