(** Specification vocabulary for characters in bytes: UTF-8 as the Unicode standard has it, read in one direction only. *)
From Coq Require Import List Bool NArith Ascii.
From Verif Require Import Path Utf8.
Import ListNotations.
Local Open Scope N_scope.

(** Code points that are characters: not surrogates. *)
Definition scalar (c : char) : Prop := c < 55296 \/ 57344 <= c < 1114112.

Definition encode (c : char) : list N :=
  if c <? 128 then [c]
  else if c <? 2048 then [192 + c / 64; 128 + c mod 64]
  else if c <? 65536 then [224 + c / 4096; 128 + (c / 64) mod 64; 128 + c mod 64]
  else [240 + c / 262144; 128 + (c / 4096) mod 64; 128 + (c / 64) mod 64; 128 + c mod 64].

(** [p] begins a character, without being one. *)
Definition begins (p : list N) : Prop := exists c q, scalar c /\ encode c = p ++ q /\ p <> [] /\ q <> [].

(** [p], followed by [s], is replaced as a whole: no character begins there, and [p] is the longest piece that begins one, or a single
    byte. *)
Definition broken (p s : list N) : Prop :=
  (forall c r, scalar c -> p ++ s <> encode c ++ r) /\
  (begins p /\ (forall b s', s = b :: s' -> ~ begins (p ++ [b])) \/ (exists b, p = [b]) /\ ~ begins p).

(** How bytes are read. *)
Inductive reads_as : list N -> list piece -> Prop :=
| ra_nil : reads_as [] []
| ra_char : forall c s l, scalar c -> reads_as s l -> reads_as (encode c ++ s) (Char (encode c) c :: l)
| ra_broken : forall p s l, broken p s -> reads_as s l -> reads_as (p ++ s) (Broken p :: l).

(** The characters a name shows. *)
Inductive shows_as : list piece -> list char -> Prop :=
| sa_nil : shows_as [] []
| sa_char : forall p c ps l, shows_as ps l -> shows_as (Char p c :: ps) (c :: l)
| sa_broken : forall p ps l, shows_as ps l -> shows_as (Broken p :: ps) (replacement :: l).
Definition shows (n : bytes) (l : list char) : Prop := exists ps, reads_as (map N_of_ascii n) ps /\ shows_as ps l.

(** A string: bytes that are the characters [l]. *)
Definition spells (n : bytes) (l : list char) : Prop := Forall scalar l /\ map N_of_ascii n = flat_map encode l.
