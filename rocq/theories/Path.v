(** Model of the part of std::path (Unix) that plotline-cli uses (plotline-cli/src/repository.rs
    24, 68-72; plotline-cli/src/document.rs 84).  std is not part of /repo; these definitions follow its
    documentation.

    A path is a byte string; it is represented by the segments obtained by cutting it at every ['/'],
    which loses nothing ([split], [unsplit]).  Simplification: extensions contain no ['/']. *)
From Coq Require Import List Bool Arith Ascii.
From Verif Require Import Ord OrdFacts.
Import ListNotations.

Notation bytes := (list ascii).
Definition slash : ascii := "/"%char.
Definition dot : ascii := "."%char.

(** A piece of a path between two ['/']. *)
Notation seg := (list ascii).
Notation path := (list (list ascii)).

(** The segments of a string: [PathBuf::from_str] (document.rs 84), which never fails. *)
Fixpoint split (s : bytes) : path :=
  match s with
  | [] => [[]]
  | c :: s =>
      if Ascii.eqb c slash then [] :: split s
      else match split s with
           | x :: xs => (c :: x) :: xs
           | [] => [[c]]
           end
  end.

(** The string of a path: [Path::as_os_str]. *)
Fixpoint unsplit (p : path) : bytes :=
  match p with
  | [] => []
  | [x] => x
  | x :: p => x ++ slash :: unsplit p
  end.

(** [std::path::Component] and its derived order (no prefixes on Unix). *)
Inductive comp := RootDir | CurDir | ParentDir | Normal (s : seg).

Definition comp_rank (c : comp) : nat :=
  match c with RootDir => 0 | CurDir => 1 | ParentDir => 2 | Normal _ => 3 end.
Definition comp_name (c : comp) : seg := match c with Normal s => s | _ => [] end.
Definition comp_cmp (c d : comp) : comparison :=
  match cmp (comp_rank c) (comp_rank d) with
  | Eq => cmp (comp_name c) (comp_name d)
  | r => r
  end.

(** [Components::parse_single_component]: [""] and ["."] are skipped. *)
Definition parse_single (s : seg) : option comp :=
  match s with
  | [] => None
  | [c] => if Ascii.eqb c dot then None else Some (Normal s)
  | [c; d] => if Ascii.eqb c dot && Ascii.eqb d dot then Some ParentDir else Some (Normal s)
  | _ => Some (Normal s)
  end.

Definition skipped (s : seg) : bool := match parse_single s with None => true | Some _ => false end.

(** The components after the root or the leading ["."]. *)
Fixpoint body (p : path) : list comp :=
  match p with
  | [] => []
  | s :: p => match parse_single s with Some c => c :: body p | None => body p end
  end.

(** [Path::has_root]; on Unix also [Path::is_absolute]. *)
Definition has_root (p : path) : bool := match p with [] :: _ :: _ => true | _ => false end.

(** [Components::include_cur_dir]. *)
Definition leads_cur_dir (p : path) : bool :=
  match p with [c] :: _ => Ascii.eqb c dot | _ => false end.

(** [Path::components].  [PathBuf]'s [Eq] and [Ord] compare components lexicographically. *)
Definition components (p : path) : list comp :=
  if has_root p then RootDir :: body p
  else if leads_cur_dir p then CurDir :: body p
  else body p.

Definition ends_with_slash (p : path) : bool := match last p [] with [] => true | _ => false end.

(** [Path::join], i.e. [PathBuf::push]: an absolute path replaces; otherwise a ['/'] is added between
    the two, unless the first is empty or ends with one. *)
Definition join (a b : path) : path :=
  if has_root b then b else if ends_with_slash a then removelast a ++ b else a ++ b.

(** [Path::file_name]: the last component if it is a name. *)
Definition file_name (p : path) : option seg :=
  match last (components p) RootDir with Normal s => Some s | _ => None end.

(** Cut at the last dot ([rsplitn(2, '.')] of [rsplit_file_at_dot]). *)
Fixpoint rsplit_dot (s : seg) : option (seg * seg) :=
  match s with
  | [] => None
  | c :: s =>
      match rsplit_dot s with
      | Some (b, a) => Some (c :: b, a)
      | None => if Ascii.eqb c dot then Some ([], s) else None
      end
  end.

(** [Path::file_stem], of a file name: what precedes the last dot, unless it is the first character. *)
Definition stem (name : seg) : seg :=
  match rsplit_dot name with
  | None | Some ([], _) => name
  | Some (b, _) => b
  end.

Fixpoint trim_start (p : path) : path :=
  match p with
  | [] => []
  | s :: q => if skipped s then trim_start q else p
  end.
Definition trim_end (p : path) : path := rev (trim_start (rev p)).
Definition or_empty (p : path) : path := match p with [] => [[]] | _ => p end.

(** [Path::with_extension], i.e. [PathBuf::set_extension]: everything after the file stem is cut, then
    the extension added unless it is empty; nothing happens without a file name. *)
Definition with_extension (p : path) (ext : seg) : path :=
  match file_name p with
  | None => p
  | Some name => removelast (trim_end p) ++ [stem name ++ match ext with [] => [] | _ => dot :: ext end]
  end.

Fixpoint is_prefix (a b : list comp) : bool :=
  match a, b with
  | [], _ => true
  | x :: a, y :: b => match comp_cmp x y with Eq => is_prefix a b | _ => false end
  | _, [] => false
  end.

(** Skips the segments of the first [n] components. *)
Fixpoint drop_comps (n : nat) (p : path) : path :=
  match n with
  | 0 => p
  | S n => match trim_start p with [] => [] | _ :: p => drop_comps n p end
  end.

(** [Components::as_path] on a path nothing was taken from. *)
Definition trim_whole (p : path) : path :=
  match p with
  | [] => [[]]
  | s :: r =>
      if has_root p then s :: or_empty (trim_end r)
      else if leads_cur_dir p then s :: trim_end r
      else or_empty (trim_end p)
  end.

(** [Path::strip_prefix]: component by component; the rest without ["."] or ['/'] at its ends. *)
Definition strip_prefix (p base : path) : option path :=
  if is_prefix (components base) (components p) then
    Some (match components base with
          | [] => trim_whole p
          | RootDir :: cs | CurDir :: cs => or_empty (trim_end (trim_start (drop_comps (length cs) (tl p))))
          | cs => or_empty (trim_end (trim_start (drop_comps (length cs) p)))
          end)
  else None.
