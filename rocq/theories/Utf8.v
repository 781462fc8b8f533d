(** Model of [Utf8Chunks] of std (not part of /repo): bytes as characters and pieces that are none.  It is used in
    plotline-cli/src/repository.rs 61 ([to_string_lossy]): the characters a file name is compared as; and in
    plotline-cli/src/document.rs 98 (see CliMain.v).  A [String], like the extension (repository.rs 18), is bytes that are valid,
    of which this gives the characters. *)
From Coq Require Import List Bool NArith Ascii.
From Verif Require Import Path.
Import ListNotations.
Local Open Scope N_scope.

(** A character is given by its code point. *)
Notation char := N (only parsing).

(** U+FFFD, put in the place of bytes that are no character. *)
Definition replacement : char := 65533.

Definition between (lo hi b : N) : bool := (lo <=? b) && (b <=? hi).

(** The bytes after the first, and those that may come second, given the first (the table in std's [core::str::lossy]). *)
Definition cont : N -> bool := between 128 191.
Definition second (a b : N) : bool :=
  if a =? 224 then between 160 191 b
  else if a =? 237 then between 128 159 b
  else if a =? 240 then between 144 191 b
  else if a =? 244 then between 128 143 b
  else between 194 244 a && cont b.

(** A character, with its bytes; or bytes that are no character. *)
Inductive piece := Char (p : list N) (c : char) | Broken (p : list N).

(** [Utf8Chunks]: the longest piece that could have begun a character is left out as a whole. *)
Fixpoint decode (s : list N) : list piece :=
  match s with
  | [] => []
  | a :: s1 =>
      if a <? 128 then Char [a] a :: decode s1 else
      match s1 with
      | [] => [Broken [a]]
      | b :: s2 =>
          if negb (second a b) then Broken [a] :: decode s1 else
          if a <? 224 then Char [a; b] ((a - 192) * 64 + (b - 128)) :: decode s2 else
          match s2 with
          | [] => [Broken [a; b]]
          | c :: s3 =>
              if negb (cont c) then Broken [a; b] :: decode s2 else
              if a <? 240 then Char [a; b; c] ((a - 224) * 4096 + (b - 128) * 64 + (c - 128)) :: decode s3 else
              match s3 with
              | [] => [Broken [a; b; c]]
              | d :: s4 =>
                  if negb (cont d) then Broken [a; b; c] :: decode s3 else
                  Char [a; b; c; d] ((a - 240) * 262144 + (b - 128) * 4096 + (c - 128) * 64 + (d - 128)) :: decode s4
              end
          end
      end
  end.

(** [from_utf8_lossy]. *)
Definition as_char (x : piece) : char := match x with Char _ c => c | Broken _ => replacement end.
Definition lossy (n : bytes) : list char := map as_char (decode (map N_of_ascii n)).
