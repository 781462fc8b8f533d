(** Specification vocabulary for regular expressions: what a pattern written out means, without a
    parser and without an algorithm. *)
From Coq Require Import List Bool Arith NArith Ascii.
From Verif Require Import Ord Path Utf8 SpecUtf8 Regex.
Import ListNotations.
Local Open Scope char_scope.

(** Characters that stand for themselves. *)
Definition literal (c : char) : Prop :=
  ~ In c (map N_of_ascii ["\"; "."; "+"; "*"; "?"; "("; ")"; "|"; "["; "{"; "^"; "$"]).

(** Those that stand for themselves after a backslash: of ASCII, all but letters, digits, "<" and ">". *)
Definition alphanumeric (c : char) : Prop := (#"0" <= c <= #"9" \/ #"A" <= c <= #"Z" \/ #"a" <= c <= #"z")%N.
Definition punctuation (c : char) : Prop := (c < 128)%N /\ ~ alphanumeric c /\ c <> #"<" /\ c <> #">".

(** Characters that stand for themselves in a class. *)
Definition class_literal (c : char) : Prop := ~ In c (map N_of_ascii ["["; "]"; "\"; "&"; "-"; "~"; "^"]).

(** What is written between brackets. *)
Inductive writes_ranges : text -> list (char * char) -> Prop :=
| wr_nil : writes_ranges [] []
| wr_char : forall c s l, class_literal c -> writes_ranges s l -> writes_ranges (c :: s) ((c, c) :: l)
| wr_range : forall c d s l, class_literal c -> class_literal d -> (c <= d)%N -> writes_ranges s l ->
    writes_ranges (c :: #"-" :: d :: s) ((c, d) :: l).

(** Numbers, in decimal. *)
Definition is_digit (c : char) (d : nat) : Prop := d < 10 /\ c = (#"0" + N.of_nat d)%N.
Inductive is_number : text -> nat -> Prop :=
| num_one : forall c d, is_digit c d -> is_number [c] d
| num_more : forall s n c d, is_number s n -> is_digit c d -> is_number (s ++ [c]) (10 * n + d).

(** Blanks, and numbers with blanks around them. *)
Definition is_blank (c : char) : Prop :=
  In c [9; 10; 11; 12; 13; 32; 133; 160; 5760; 8192; 8193; 8194; 8195; 8196; 8197; 8198; 8199; 8200; 8201; 8202; 8232; 8233; 8239; 8287; 12288]%N.
Inductive is_count : text -> nat -> Prop :=
| cnt : forall a s b n, Forall is_blank a -> is_number s n -> Forall is_blank b -> is_count (a ++ s ++ b) n.

(** Repetition operators. *)
Inductive writes_op : text -> (re -> re) -> Prop :=
| wo_star : writes_op [#"*"] RStar
| wo_plus : writes_op [#"+"] (fun r => RSeq r (RStar r))
| wo_opt : writes_op [#"?"] (fun r => RAlt r REps)
| wo_exactly : forall s n, is_count s n -> writes_op (#"{" :: s ++ [#"}"]) (fun r => RRepeat r n (Some n))
| wo_at_least : forall s n, is_count s n -> writes_op (#"{" :: s ++ [#","; #"}"]) (fun r => RRepeat r n None)
| wo_between : forall s n t m, is_count s n -> is_count t m -> n <= m -> writes_op (#"{" :: s ++ #"," :: t ++ [#"}"]) (fun r => RRepeat r n (Some m)).

(** Any number of them.  A question mark right after an operator makes it lazy, which is no other repetition. *)
Inductive writes_ops : re -> text -> re -> Prop :=
| wp_nil : forall r, writes_ops r [] r
| wp_op : forall r o f s q, writes_op o f -> (forall t, s <> #"?" :: t) -> writes_ops (f r) s q -> writes_ops r (o ++ s) q
| wp_lazy : forall r o f s q, writes_op o f -> writes_ops (f r) s q -> writes_ops r (o ++ #"?" :: s) q.

(** How a pattern is written: alternatives separated by bars, each a sequence of items, each an atom
    followed by repetition operators. *)
Inductive writes_atom : text -> re -> Prop :=
| wa_literal : forall c, literal c -> writes_atom [c] (RChar c)
| wa_escaped : forall c, punctuation c -> writes_atom [#"\"; c] (RChar c)
| wa_any : writes_atom [#"."] RAny
| wa_begin : writes_atom [#"^"] RBegin
| wa_end : writes_atom [#"$"] REnd
| wa_class : forall s l, s <> [] -> writes_ranges s l -> writes_atom (#"[" :: s ++ [#"]"]) (RClass false l)
| wa_negated : forall s l, s <> [] -> writes_ranges s l -> writes_atom (#"[" :: #"^" :: s ++ [#"]"]) (RClass true l)
| wa_group : forall s r, writes s r -> writes_atom (#"(" :: s ++ [#")"]) r
| wa_plain_group : forall s r, writes s r -> writes_atom (#"(" :: #"?" :: #":" :: s ++ [#")"]) r
with writes_item : text -> re -> Prop :=
| wi_item : forall s r ops q, writes_atom s r -> writes_ops r ops q -> writes_item (s ++ ops) q
with writes_seq : text -> re -> Prop :=
| ws_nil : writes_seq [] REps
| ws_item : forall s t r q, writes_seq s r -> writes_item t q -> writes_seq (s ++ t) (RSeq r q)
with writes : text -> re -> Prop :=
| w_seq : forall s r, writes_seq s r -> writes s r
| w_alt : forall s t r q, writes s r -> writes_seq t q -> writes (s ++ #"|" :: t) (RAlt r q).

(** A character in one of the ranges. *)
Definition within (c : char) (l : list (char * char)) : Prop := exists x y, In (x, y) l /\ (x <= c <= y)%N.

(** [matches r before x after]: [r] matches the piece [x] of the text [before ++ x ++ after]. *)
Inductive matches : re -> text -> text -> text -> Prop :=
| m_eps : forall b a, matches REps b [] a
| m_char : forall c b a, matches (RChar c) b [c] a
| m_any : forall c b a, c <> #newline -> matches RAny b [c] a
| m_class : forall c l b a, within c l -> matches (RClass false l) b [c] a
| m_negated : forall c l b a, ~ within c l -> matches (RClass true l) b [c] a
| m_begin : forall a, matches RBegin [] [] a
| m_end : forall b, matches REnd b [] []
| m_seq : forall r s b x y a, matches r b x (y ++ a) -> matches s (b ++ x) y a -> matches (RSeq r s) b (x ++ y) a
| m_left : forall r s b x a, matches r b x a -> matches (RAlt r s) b x a
| m_right : forall r s b x a, matches s b x a -> matches (RAlt r s) b x a
| m_done : forall r b a, matches (RStar r) b [] a
| m_more : forall r b x y a, matches r b x (y ++ a) -> matches (RStar r) (b ++ x) y a -> matches (RStar r) b (x ++ y) a
| m_enough : forall r m b a, matches (RRepeat r 0 m) b [] a
| m_once : forall r n m b x y a, matches r b x (y ++ a) -> m <> Some 0 ->
    matches (RRepeat r (pred n) (option_map pred m)) (b ++ x) y a -> matches (RRepeat r n m) b (x ++ y) a.

(** There is a match somewhere in the text. *)
Definition occurs (r : re) (t : text) : Prop := exists b x a, t = b ++ x ++ a /\ matches r b x a.

(** There is a match somewhere in the name, read as characters. *)
Definition found (r : re) (n : bytes) : Prop := exists t, shows n t /\ occurs r t.

(** Patterns that use only what is modelled, and no classes: of those with
    backslashes, the ones where none is followed by a character that means something else then. *)
Definition modelled (s : text) : Prop :=
  ~ In #"[" s /\
  (forall a c b, s = a ++ #"\" :: c :: b ->
     ~ In c (map N_of_ascii ["a"; "f"; "t"; "n"; "r"; "v"; "x"; "u"; "U"; "A"; "z"; "b"; "B"; "<"; ">"; "p"; "P"; "d"; "D"; "s"; "S"; "w"; "W"])) /\
  forall a b, s = a ++ #"(" :: #"?" :: b -> exists t, b = #":" :: t.
Definition modelled_ext (ext : seg) : Prop := exists cs, shows ext cs /\ modelled cs.

(** The pattern built for an extension, given by the characters of the latter. *)
Definition pattern_of (ext : seg) (r : re) : Prop := exists cs, shows ext cs /\ writes (#"\" :: #"." :: cs ++ [#"$"]) r.

(** An extension all of whose characters stand for themselves, and for nothing but themselves. *)
Definition plain_ext (ext : seg) : Prop := exists cs, shows ext cs /\ Forall literal cs /\ ~ In replacement cs.

(** The text has the given piece. *)
Definition contains (piece text : bytes) : Prop := exists b a, text = b ++ piece ++ a.
Definition ends_with (piece text : bytes) : Prop := exists b, text = b ++ piece.

(** The name of the directory walked: its file name or, if it has none (as in ".."), the path itself. *)
Definition root_name (context : path) : bytes :=
  match file_name context with Some n => n | None => unsplit context end.

(** The name without the last dot and what follows it. *)
Definition without_ext (n m : bytes) : Prop :=
  (exists e, n = m ++ dot :: e /\ ~ In dot e) \/ (~ In dot n /\ m = n).

(** [escaped e t]: [e] is [t] with a backslash before each special character, and maybe before others. *)
Inductive escaped : text -> text -> Prop :=
| esc_nil : escaped [] []
| esc_plain : forall c e t, literal c -> escaped e t -> escaped (c :: e) (c :: t)
| esc_char : forall c e t, punctuation c -> escaped e t -> escaped (#"\" :: c :: e) (c :: t).

(** How many times an operator lets something be repeated: at least, and at most ([None]: any number). *)
Inductive allows : text -> nat -> option nat -> Prop :=
| al_star : allows [#"*"] 0 None
| al_plus : allows [#"+"] 1 None
| al_opt : allows [#"?"] 0 (Some 1)
| al_exactly : forall s n, is_count s n -> allows (#"{" :: s ++ [#"}"]) n (Some n)
| al_at_least : forall s n, is_count s n -> allows (#"{" :: s ++ [#","; #"}"]) n None
| al_between : forall s n t m, is_count s n -> is_count t m -> n <= m -> allows (#"{" :: s ++ #"," :: t ++ [#"}"]) n (Some m).
Definition at_most (k : nat) (m : option nat) : Prop := match m with Some m => k <= m | None => True end.
