(** Model of the regular expressions used by plotline-cli.  Source: the [regex] crate (1.11), which is
    not part of /repo, as used in plotline-cli/src/repository.rs 57-61: [Regex::new], [is_match].

    Simplifications.  Of classes, lists of characters and ranges are modelled, maybe negated ("[a-z_]",
    "[^0-9]"), with none of "[ ] \ & - ~ ^" among the characters; the others ("\d", "[[:alpha:]]", ...),
    groups starting with "(?" other than "(?:", and escaped letters that mean
    something ("\n", "\b") are recognised but not modelled ([PUnsupported]).  The limits of the crate on the size of a pattern, and of the
    numbers in it, are left out.  Lazy repetitions ("a+?") accept what the others do: the "?" has no effect. *)
From Coq Require Import List Bool Arith NArith Ascii.
From Verif Require Import Ord Path Utf8.
Import ListNotations.
Local Open Scope char_scope.

Notation text := (list N) (only parsing).

(** The code point of an ASCII character. *)
Notation "# c" := (N_of_ascii c) (at level 1, format "# c").

(** A pattern, parsed.  A class: negated or not, and its ranges. *)
Inductive re :=
| REps
| RChar (c : char)
| RAny
| RClass (negated : bool) (l : list (char * char))
| RBegin
| REnd
| RSeq (r s : re)
| RAlt (r s : re)
| RStar (r : re)
| RRepeat (r : re) (least : nat) (most : option nat).   (* [None]: any number *)

Definition newline : ascii := Ascii.ascii_of_nat 10.

(** The characters that stand for themselves after a backslash ([regex_syntax::is_escapeable_character]). *)
Definition from_to (x y : ascii) (c : char) : bool := N.leb #x c && N.leb c #y.
Definition escapable (c : char) : bool :=
  if N.ltb 127 c then false else
  if from_to "0" "9" c || from_to "A" "Z" c || from_to "a" "z" c then false else
  negb (N.eqb c #"<" || N.eqb c #">").

(** Those that mean something else after a backslash: characters by name or number, assertions, classes. *)
Definition escapes : text :=
  map N_of_ascii ["a"; "f"; "t"; "n"; "r"; "v"; "x"; "u"; "U"; "A"; "z"; "b"; "B"; "<"; ">"; "p"; "P"; "d"; "D"; "s"; "S"; "w"; "W"].

(** What the parser answers: a pattern, an error ([Regex::new] fails), or not modelled. *)
Inductive parsed (A : Type) := POk (a : A) | PInvalid | PUnsupported.
Arguments POk {A}. Arguments PInvalid {A}. Arguments PUnsupported {A}.

(** What a character of a pattern is for. *)
Inductive kind := KLiteral | KStar | KPlus | KOption | KBar | KOpen | KClose | KAny | KBegin | KEnd | KEscape | KClass | KCount.
Definition kind_of (c : char) : kind :=
  if N.ltb 127 c then KLiteral else
  match ascii_of_N c with
  | "*" => KStar | "+" => KPlus | "?" => KOption | "|" => KBar | "(" => KOpen | ")" => KClose
  | "." => KAny | "^" => KBegin | "$" => KEnd | "\" => KEscape | "[" => KClass | "{" => KCount
  | _ => KLiteral
  end.

(** Classes, after the opening bracket: the characters that are never special there, ranges, the rest after the closing bracket. *)
Definition class_metas : text := map N_of_ascii ["["; "]"; "\"; "&"; "-"; "~"; "^"].
Definition in_class (c : char) : bool := negb (existsb (N.eqb c) class_metas).
Definition add_range (x : char * char) (p : parsed (list (char * char) * text)) : parsed (list (char * char) * text) :=
  match p with POk (l, s) => POk (x :: l, s) | PInvalid => PInvalid | PUnsupported => PUnsupported end.
Fixpoint ranges (s : text) : parsed (list (char * char) * text) :=
  match s with
  | [] => PInvalid
  | c :: t =>
      if N.eqb c #"]" then POk ([], t) else
      if negb (in_class c) then PUnsupported else
      match t with
      | d :: e :: u =>
          if negb (N.eqb d #"-") then add_range (c, c) (ranges t) else
          if negb (in_class e) then PUnsupported else
          if N.ltb e c then PInvalid else add_range (c, e) (ranges u)
      | _ => add_range (c, c) (ranges t)
      end
  end.
(** A closing bracket that comes first is a character of the class, which is not modelled. *)
Definition nonempty (negated : bool) (p : parsed (list (char * char) * text)) : parsed (re * text) :=
  match p with
  | POk ([], _) => PUnsupported
  | POk (l, s) => POk (RClass negated l, s)
  | PInvalid => PInvalid
  | PUnsupported => PUnsupported
  end.
Definition class (s : text) : parsed (re * text) :=
  match s with
  | [] => PInvalid
  | c :: t => if N.eqb c #"^" then nonempty true (ranges t) else nonempty false (ranges s)
  end.

(** The number written at the start of a text, in decimal; [acc]: of the digits before, if there are any. *)
Definition digit (c : char) : option nat :=
  if N.leb #"0" c && N.leb c #"9" then Some (N.to_nat (c - #"0")) else None.
Fixpoint number (acc : option nat) (s : text) : option nat * text :=
  match s with
  | [] => (acc, s)
  | c :: t =>
      match digit c with
      | Some d => number (Some (10 * match acc with Some n => n | None => 0 end + d)) t
      | None => (acc, s)
      end
  end.

(** [char::is_whitespace]. *)
Definition blanks : list (N * N) :=
  [(9, 13); (32, 32); (133, 133); (160, 160); (5760, 5760); (8192, 8202); (8232, 8233); (8239, 8239); (8287, 8287); (12288, 12288)]%N.
Definition blank (c : char) : bool := existsb (fun x => N.leb (fst x) c && N.leb c (snd x)) blanks.
Fixpoint skip_blanks (s : text) : text :=
  match s with [] => [] | c :: t => if blank c then skip_blanks t else s end.

(** A number, with blanks around it. *)
Definition decimal (s : text) : option nat * text :=
  let (n, t) := number None (skip_blanks s) in (n, skip_blanks t).

(** A counted repetition, after the opening brace: "n}", "n,}" or "n,m}" with n <= m. *)
Definition bounds (s : text) : parsed (nat * option nat * text) :=
  match decimal s with
  | (Some n, c :: t) =>
      if N.eqb c #"}" then POk (n, Some n, t) else
      if negb (N.eqb c #",") then PInvalid else
      match t with
      | [] => PInvalid
      | d :: u =>
          if N.eqb d #"}" then POk (n, None, u) else
          match decimal t with
          | (Some m, e :: v) => if negb (N.eqb e #"}") then PInvalid else if Nat.ltb m n then PInvalid else POk (n, Some m, v)
          | _ => PInvalid
          end
      end
  | _ => PInvalid
  end.

(** The repetition operator at the start of a text, if there is one. *)
Definition operator (s : text) : option (parsed ((re -> re) * text)) :=
  match s with
  | [] => None
  | c :: t =>
      match kind_of c with
      | KStar => Some (POk (RStar, t))
      | KPlus => Some (POk (fun a => RSeq a (RStar a), t))
      | KOption => Some (POk (fun a => RAlt a REps, t))
      | KCount => Some match bounds t with
                       | POk (n, m, t) => POk (fun a => RRepeat a n m, t)
                       | PInvalid => PInvalid
                       | PUnsupported => PUnsupported
                       end
      | _ => None
      end
  end.

(** The mark of a lazy repetition, after an operator, is skipped. *)
Definition skip_lazy (s : text) : text :=
  match s with [] => [] | c :: t => match kind_of c with KOption => t | _ => s end end.

(** The repetition operators after an item.  [fuel]: the length of the text is enough. *)
Fixpoint operators (fuel : nat) (a : re) (s : text) : parsed (re * text) :=
  match operator s with
  | None => POk (a, s)
  | Some (POk (op, t)) => match fuel with 0 => PUnsupported | S fuel => operators fuel (op a) (skip_lazy t) end
  | Some PInvalid => PInvalid
  | Some PUnsupported => PUnsupported
  end.
Definition postfix (a : re) (s : text) : parsed (re * text) := operators (length s) a s.

(** The alternatives before the current one, and the current one. *)
Definition close (alt : option re) (acc : re) : re :=
  match alt with Some a => RAlt a acc | None => acc end.

(** After an opening parenthesis: "?:" is skipped, other uses of "?" (flags and the like) are not modelled. *)
Definition opened (s : text) : option text :=
  match s with
  | [] => Some []
  | c :: t =>
      match kind_of c with
      | KOption => match t with e :: u => if N.eqb e #":" then Some u else None | [] => None end
      | _ => Some s
      end
  end.

(** The rest, after the closing parenthesis. *)
Definition closed (s : text) : option text :=
  match s with [] => None | c :: s => match kind_of c with KClose => Some s | _ => None end end.

(** Parses up to the end or to a closing parenthesis that was not opened here.  [fuel]: more than the
    length of the pattern is enough. *)
Fixpoint parse_until (fuel : nat) (s : text) (alt : option re) (acc : re) : parsed (re * text) :=
  match fuel with
  | 0 => PUnsupported
  | S fuel =>
      let item a s :=
        match postfix a s with
        | POk (a, s) => parse_until fuel s alt (RSeq acc a)
        | PInvalid => PInvalid
        | PUnsupported => PUnsupported
        end in
      match s with
      | [] => POk (close alt acc, [])
      | c :: t =>
          match kind_of c with
          | KLiteral => item (RChar c) t
          | KAny => item RAny t
          | KBegin => item RBegin t
          | KEnd => item REnd t
          | KEscape =>
              match t with
              | [] => PInvalid
              | e :: t =>
                  if escapable e then item (RChar e) t else
                  if existsb (N.eqb e) escapes then PUnsupported else PInvalid
              end
          | KOpen =>
              match opened t with
              | None => PUnsupported
              | Some t =>
                  match parse_until fuel t None REps with
                  | POk (r, t) => match closed t with Some t => item r t | None => PInvalid end
                  | PInvalid => PInvalid
                  | PUnsupported => PUnsupported
                  end
              end
          | KClose => POk (close alt acc, s)
          | KBar => parse_until fuel t (Some (close alt acc)) REps
          | KStar | KPlus | KOption | KCount => PInvalid
          | KClass =>
              match class t with
              | POk (r, t) => item r t
              | PInvalid => PInvalid
              | PUnsupported => PUnsupported
              end
          end
      end
  end.

(** [Regex::new]. *)
Definition parse (s : text) : parsed re :=
  match parse_until (S (length s)) s None REps with
  | POk (r, []) => POk r
  | POk _ => PInvalid
  | PInvalid => PInvalid
  | PUnsupported => PUnsupported
  end.

(** Every position reached by repeating [f] at most [n] times from [l]. *)
Fixpoint repeated (f : nat -> list nat) (n : nat) (l : list nat) : list nat :=
  match n with
  | 0 => l
  | S n => repeated f n (nodup Nat.eq_dec (l ++ flat_map f l))
  end.

(** Every position reached by repeating [f] exactly [n] times from [l]. *)
Fixpoint exactly (f : nat -> list nat) (n : nat) (l : list nat) : list nat :=
  match n with
  | 0 => l
  | S n => exactly f n (nodup Nat.eq_dec (flat_map f l))
  end.

(** Where matches of [r] in [name] that start at position [i] end. *)
Fixpoint match_ends (name : text) (r : re) (i : nat) : list nat :=
  match r with
  | REps => [i]
  | RChar c => match nth_error name i with Some e => if N.eqb c e then [S i] else [] | None => [] end
  | RAny => match nth_error name i with Some e => if N.eqb #newline e then [] else [S i] | None => [] end
  | RClass negated l =>
      match nth_error name i with
      | Some e => if Bool.eqb negated (existsb (fun x => N.leb (fst x) e && N.leb e (snd x)) l) then [] else [S i]
      | None => []
      end
  | RBegin => if Nat.eqb i 0 then [i] else []
  | REnd => if Nat.eqb i (length name) then [i] else []
  | RSeq r s => flat_map (match_ends name s) (match_ends name r i)
  | RAlt r s => match_ends name r i ++ match_ends name s i
  | RStar r => repeated (match_ends name r) (length name) [i]
  | RRepeat r n (Some m) => if Nat.ltb m n then [] else repeated (match_ends name r) (m - n) (exactly (match_ends name r) n [i])
  | RRepeat r n None => repeated (match_ends name r) (length name) (exactly (match_ends name r) n [i])
  end.

(** [Regex::is_match]: a match anywhere in the name. *)
Definition is_match (r : re) (name : text) : bool :=
  existsb (fun i => match match_ends name r i with [] => false | _ => true end) (seq 0 (S (length name))).
