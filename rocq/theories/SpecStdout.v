(** Specification vocabulary for a standard output that may fail. *)
From Coq Require Import List Bool Arith Ascii.
From Verif Require Import Path Stdout.
Import ListNotations.

(** [a] is the beginning of [b]. *)
Definition begins (a b : bytes) : Prop := exists c, b = a ++ c.

(** A file open for writing. *)
Definition writable (dev : device) : Prop := forall h b, b <> [] -> dev h b <> NotOpen.

(** A file open for reading only. *)
Definition read_only (dev : device) : Prop := forall h b, b <> [] -> dev h b = NotOpen.

(** A file that takes something at every call that is not interrupted. *)
Definition willing (dev : device) : Prop := forall h b, b <> [] -> dev h b = Interrupted \/ exists n, 0 < n /\ dev h b = Took n.

(** No call is interrupted. *)
Definition uninterrupted (dev : device) : Prop := forall h b, b <> [] -> dev h b <> Interrupted.

(** A disk that has room for [N] more bytes, a pipe whose reader leaves after [N] bytes: these are taken, as many at a time as the file
    likes, and nothing more. *)
Definition room_for (N : nat) (dev : device) : Prop :=
  forall h b, b <> [] ->
    (length (reached h) < N -> exists n, 0 < n /\ n <= length b /\ length (reached h) + n <= N /\ dev h b = Took n) /\
    (N <= length (reached h) -> dev h b = Fails).
