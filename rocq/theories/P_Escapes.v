(** Property C151: extensions with backslashes. *)
From Coq Require Import String.
From Coq Require Import List Bool Arith NArith Ascii Lia.
From Verif Require Import Ord OrdFacts BTree BTreeFacts Graph GraphFacts SpecGraph Tx TxMachine SpecTx Lazy Prog SpecProg ProgFacts
  Path PathOrd Cli SpecCli PathFacts CliFacts Utf8 SpecUtf8 Utf8Facts Regex SpecRegex RegexFacts CliMain P_Regex P_Counts.
Import ListNotations.

Lemma writes_escaped e t : escaped e t -> forall s acc, writes_seq s acc -> writes_seq (s ++ e) (in_a_row t acc).
Proof.
  intros E. induction E as [|c e t L E IH|c e t P E IH]; intros s acc W; cbn [in_a_row fold_left].
  - now rewrite app_nil_r.
  - replace (s ++ c :: e) with ((s ++ [c]) ++ e) by (now rewrite <- app_assoc). apply IH. constructor; [exact W|]. apply item_atom. now constructor.
  - replace (s ++ #"\"%char :: c :: e) with ((s ++ [#"\"%char; c]) ++ e) by (now rewrite <- app_assoc). apply IH. constructor; [exact W|]. apply item_atom. now constructor.
Qed.

Lemma escaped_app e t : escaped e t -> forall e' t', escaped e' t' -> escaped (e ++ e') (t ++ t').
Proof. intros E. induction E; intros e' t' E'; cbn [app]; [exact E'|constructor; auto..]. Qed.

Lemma escaped_length e t : escaped e t -> length t <= length e.
Proof. intros E. induction E; cbn [length]; lia. Qed.

Lemma escaped_nil t : escaped [] t -> t = [].
Proof. intros E. now inversion E. Qed.

(** A special character other than the backslash itself, in an escaped text, is an escaped one. *)
Lemma escaped_at c : c <> #"\"%char -> ~ literal c -> forall e t, escaped e t -> forall w x, e = w ++ c :: x ->
  exists w' t1 t2, w = w' ++ [#"\"%char] /\ t = t1 ++ c :: t2 /\ escaped w' t1 /\ escaped x t2.
Proof.
  intros Nc Sp e t E. induction E as [|b e t L E IH|b e t P E IH]; intros w x Eq.
  - now destruct w.
  - destruct w as [|b' w]; cbn [app] in Eq; injection Eq as -> Eq; [contradiction|].
    destruct (IH w x Eq) as (w' & t1 & t2 & -> & -> & E1 & E2). exists (b' :: w'), (b' :: t1), t2. repeat split; auto. now constructor.
  - destruct w as [|b' w]; cbn [app] in Eq; [injection Eq as Eq _; now symmetry in Eq|]. apply cons_inj in Eq as [<- Eq].
    destruct w as [|b2 w]; cbn [app] in Eq; apply cons_inj in Eq as [-> Eq].
    + subst e. exists [], [], t. repeat split; auto. constructor.
    + destruct (IH w x Eq) as (w' & t1 & t2 & -> & -> & E1 & E2). exists (#"\"%char :: b2 :: w'), (b2 :: t1), t2. repeat split; auto. now constructor.
Qed.

Lemma special c : In c (map N_of_ascii ["\"; "."; "+"; "*"; "?"; "("; ")"; "|"; "["; "{"; "^"; "$"]%char) -> ~ literal c.
Proof. intros I L. now apply L. Qed.

(** An escaped text does not end in a dot and the text. *)
Lemma escaped_no_end k : forall e t w, length t <= k -> escaped e t -> e <> w ++ #dot :: t.
Proof.
  induction k as [|k IH]; intros e t w L E Eq.
  - destruct t; [|cbn in L; lia]. inversion E; subst. now destruct w.
  - destruct (escaped_at #dot ltac:(discriminate) ltac:(apply special; cbn; tauto) e t E w t Eq) as (w' & t1 & t2 & -> & Et & _ & E2).
    apply (IH t t2 t1); [|exact E2|exact Et]. rewrite Et, app_length in L. cbn in L. lia.
Qed.

(** ... and does not start with the text and a dollar sign. *)
Lemma escaped_no_start k : forall e t x, length e <= k -> escaped e t -> e <> t ++ #"$"%char :: x.
Proof.
  induction k as [|k IH]; intros e t x L E Eq.
  - destruct e; [|cbn in L; lia]. now destruct t.
  - destruct (escaped_at #"$"%char ltac:(discriminate) ltac:(apply special; cbn; tauto) e t E t x Eq) as (w' & t1 & t2 & Et & Et' & E1 & E2).
    pose proof (escaped_length _ _ E1) as Le. rewrite Et in Et'.
    (* w' ++ [\] = t1 ++ $ :: t2, with t1 no longer than w' *)
    destruct t2 as [|z t2 _] using rev_ind.
    + apply app_inj_tail in Et' as [_ Z]. discriminate.
    + rewrite app_comm_cons, app_assoc in Et'. apply app_inj_tail in Et' as [-> _].
      apply (IH (t1 ++ #"$"%char :: t2) t1 t2); [|exact E1|reflexivity]. rewrite Eq, Et in L. rewrite !app_length in *. cbn in *. lia.
Qed.

Lemma suffixes (u v a b : text) : u ++ a = v ++ b -> length a <= length b -> exists w, b = w ++ a.
Proof.
  revert v. induction u as [|x u IH]; intros [|y v] E L; cbn [app] in E.
  - exists []. now subst.
  - exists []. subst a. cbn in L. rewrite app_length in L. lia.
  - exists (x :: u). now subst b.
  - injection E as -> E. now apply (IH v).
Qed.

Lemma escaped_pattern ext e t : shows ext e -> escaped e t -> pattern_of ext (RSeq (in_a_row t (RSeq REps (RChar #dot))) REnd).
Proof.
  intros S E. exists e. split; [exact S|]. constructor.
  change (#"\"%char :: #"."%char :: e ++ [#"$"%char]) with (([#"\"%char; #dot] ++ e) ++ [#"$"%char]).
  constructor; [|apply item_atom; now constructor]. apply writes_escaped; [exact E|apply writes_dot].
Qed.

(** C151. *)
Theorem C151_escaped_extension :
  forall ctx ext e want t,
    ctx <> [] -> ~ In slash ext -> spells ext e -> spells want t -> ~ In replacement t -> escaped e t ->
    exists r, repo_for ctx ext = POk r /\
      forall d n, Forall visible (d ++ [n]) ->
        ((exists i, entry_id r (d ++ [n]) = Some i) <-> ends_with (dot :: want) n) /\
        (ext <> want -> forall i, entry_id r (d ++ [n]) = Some i -> ~ same_path (lookup_path r i) (entry_path r (d ++ [n]))).
Proof.
  intros ctx ext e want t Nc Sl Se Sw Nr E. set (p := RSeq (in_a_row t (RSeq REps (RChar #dot))) REnd).
  eexists. split; [apply (repo_for_pattern ctx ext p), (escaped_pattern ext e t); [now apply spells_shows|exact E]|]. intros d n V.
  assert (L : found p n <-> ends_with (dot :: want) n).
  { destruct (shows_exists n) as [u Su]. rewrite (found_shows p n u Su). unfold p. rewrite plain_occurs.
    apply (ends_shows (dot :: want) (#dot :: t)); [apply (spells_app [dot] want [#dot] t spells_dot Sw)| |exact Su].
    intros [I|I]; [discriminate|contradiction]. }
  split; [rewrite entry_listed by auto; exact L|]. intros Ne i Ei.
  assert (O : found p n) by (apply (entry_listed ctx ext p d n); eauto). apply L in O.
  rewrite entry_id_any in Ei by auto. destruct (found_in p n); [|discriminate]. injection Ei as <-.
  assert (Nx : ext <> []).
  { intros ->. apply Ne. destruct e as [|c e].
    - apply escaped_nil in E as ->. apply (spells_det _ _ [] Se Sw).
    - destruct Se as [_ Z]. cbn in Z. symmetry in Z. apply app_eq_nil in Z as [Z _]. now apply encode_not_nil in Z. }
  rewrite loads_own by auto. intros Q. destruct (shows_exists (stem (stem n))) as [k Sk].
  assert (Sn : shows n (k ++ #dot :: e)) by (rewrite Q; apply shows_dotted; [exact Sk|now apply spells_shows]).
  assert (Nd : ~ In replacement (#dot :: t)) by (intros [I|I]; [discriminate|contradiction]).
  destruct (proj2 (ends_shows (dot :: want) (#dot :: t) n _ (spells_app [dot] want [#dot] t spells_dot Sw) Nd Sn) O) as [u Eu].
  assert (Lt : length t < length e).
  { pose proof (escaped_length _ _ E). destruct (Nat.eq_dec (length t) (length e)) as [Z|Z]; [|lia]. exfalso. apply Ne.
    assert (X : e = t).
    { clear -E Z. induction E as [|c e t L E IH|c e t P E IH]; [reflexivity|cbn in Z; f_equal; apply IH; lia|].
      apply escaped_length in E. cbn in Z. lia. }
    subst t. now apply (spells_det _ _ e). }
  assert (Eq : u ++ #dot :: t = (k ++ [#dot]) ++ e) by (rewrite <- app_assoc; now symmetry).
  destruct (suffixes _ _ _ _ Eq) as [w Ew]; [cbn; lia|]. now apply (escaped_no_end (length t) e t w).
Qed.

(** Every name has an extension that lists exactly the files with it. *)
Theorem C151_any_ending_can_be_listed :
  forall ctx want t,
    ctx <> [] -> ~ In slash want -> spells want t -> ~ In replacement t ->
    exists ext r, repo_for ctx ext = POk r /\
      forall d n, Forall visible (d ++ [n]) -> ((exists i, entry_id r (d ++ [n]) = Some i) <-> ends_with (dot :: want) n).
Proof.
  intros ctx want t Nc Sl Sw Nr.
  assert (X : forall w k, spells w k -> ~ In slash w -> exists ext e, spells ext e /\ ~ In slash ext /\ escaped e k).
  { clear. intros w k. revert w. induction k as [|c k IH]; intros w S Sl.
    - exists [], []. split; [split; [constructor|reflexivity]|]. split; [intros []|constructor].
    - assert (S' := S). destruct S' as [F Q]. inversion F as [|? ? Sc Fk]; subst. cbn [flat_map] in Q.
      apply map_split in Q as (w1 & w2 & -> & Q1 & Q2).
      assert (S2 : spells w2 k) by (split; [exact Fk|exact Q2]).
      assert (S1 : spells w1 [c]) by (split; [now constructor|cbn [flat_map]; now rewrite app_nil_r]).
      destruct (IH w2 S2) as (ext & e & Se & Sl' & E); [intros I; apply Sl, in_or_app; now right|].
      destruct (in_dec N.eq_dec c (map N_of_ascii ["\"; "."; "+"; "*"; "?"; "("; ")"; "|"; "["; "{"; "^"; "$"]%char)) as [I|I].
      + exists ("\"%char :: w1 ++ ext), (#"\"%char :: c :: e). split.
        * apply (spells_app ["\"%char] (w1 ++ ext) [#"\"%char] (c :: e)); [apply (spells_ascii ["\"%char]); repeat constructor|].
          now apply (spells_app w1 ext [c] e).
        * split; [intros [J|J]; [discriminate|]; apply in_app_or in J as [J|J]; [apply Sl, in_or_app; now left|contradiction]|].
          apply esc_char; [|exact E]. apply escapable_spec. cbn in I. repeat (destruct I as [<-|I]; [reflexivity|]). destruct I.
      + exists (w1 ++ ext), (c :: e). split; [now apply (spells_app w1 ext [c] e)|].
        split; [intros J; apply in_app_or in J as [J|J]; [apply Sl, in_or_app; now left|contradiction]|]. now constructor. }
  destruct (X want t Sw Sl) as (ext & e & Se & Sl' & E). destruct (C151_escaped_extension ctx ext e want t Nc Sl' Se Sw Nr E) as (r & R & L).
  exists ext, r. split; [exact R|]. intros d n V. now apply L.
Qed.

(** A backslash at the end escapes the end of the pattern: what is listed need not end in the extension. *)
Theorem C151_backslash_at_the_end :
  forall ctx ext e want t,
    ctx <> [] -> ~ In slash ext -> spells ext e -> spells want t -> ~ In replacement t -> escaped e t ->
    exists r, repo_for ctx (ext ++ ["\"%char]) = POk r /\
      forall d n, Forall visible (d ++ [n]) ->
        ((exists i, entry_id r (d ++ [n]) = Some i) <-> contains (dot :: want ++ ["$"%char]) n) /\
        (dotless want -> forall i, entry_id r (d ++ [n]) = Some i -> ~ same_path (lookup_path r i) (entry_path r (d ++ [n]))).
Proof.
  intros ctx ext e want t Nc Sl Se Sw Nr E. set (p := in_a_row (t ++ [#"$"%char]) (RSeq REps (RChar #dot))).
  assert (Sd : spells ["$"%char] [#"$"%char]) by (apply (spells_ascii ["$"%char]); repeat constructor).
  assert (Sb : spells ["\"%char] [#"\"%char]) by (apply (spells_ascii ["\"%char]); repeat constructor).
  assert (Nr' : ~ In replacement (t ++ [#"$"%char])) by (intros I; apply in_app_or in I as [I|[I|[]]]; [contradiction|discriminate]).
  assert (P : pattern_of (ext ++ ["\"%char]) p).
  { exists (e ++ [#"\"%char]). split; [apply spells_shows; now apply spells_app|]. constructor.
    replace (#"\"%char :: #"."%char :: (e ++ [#"\"%char]) ++ [#"$"%char]) with ([#"\"%char; #dot] ++ (e ++ [#"\"%char; #"$"%char])) by (cbn [app]; now rewrite <- app_assoc).
    apply writes_escaped; [|apply writes_dot]. apply escaped_app; [exact E|]. apply esc_char; [now apply escapable_spec|constructor]. }
  eexists. split; [exact (repo_for_pattern _ _ _ P)|]. intros d n V.
  assert (L : found p n <-> contains (dot :: want ++ ["$"%char]) n).
  { destruct (shows_exists n) as [u Su]. rewrite (found_shows p n u Su).
    rewrite <- (contains_shows (want ++ ["$"%char]) (t ++ [#"$"%char]) n u (spells_app _ _ _ _ Sw Sd) Nr' Su). unfold p. split.
    - intros (b & x & a & -> & M). apply matches_in_a_row in M as (x' & -> & M). apply matches_dot in M as ->. now exists b, a.
    - intros (b & a & ->). exists b, (#dot :: t ++ [#"$"%char]), a. split; [reflexivity|]. apply matches_in_a_row. exists [#dot]. split; [reflexivity|]. now apply matches_dot. }
  split; [rewrite entry_listed by auto; exact L|]. intros D i Ei.
  assert (O : found p n) by (apply (entry_listed ctx (ext ++ ["\"%char]) p d n); eauto). apply L in O.
  rewrite entry_id_any in Ei by auto. destruct (found_in p n); [|discriminate]. injection Ei as <-.
  assert (Vn : visible n) by (apply Forall_app in V as [_ V']; now inversion V').
  assert (De : ~ In dot ext).
  { intros I. apply (spells_in ext e dot Se) in I; [|reflexivity]. apply in_split in I as (w & x & Ew).
    destruct (escaped_at #dot ltac:(discriminate) ltac:(apply special; cbn; tauto) e t E w x Ew) as (_ & t1 & t2 & _ & -> & _).
    apply D. destruct Sw as [Fw Qw]. rewrite flat_map_app in Qw. apply map_split in Qw as (n1 & n2 & -> & _ & Qw).
    cbn [flat_map] in Qw. change (encode #dot) with [#dot] in Qw. destruct n2 as [|c n2]; [discriminate|]. cbn [map app] in Qw. injection Qw as Qw _.
    apply in_or_app. right. left. rewrite <- (ascii_N_embedding c), Qw. reflexivity. }
  assert (De' : ~ In dot (ext ++ ["\"%char])) by (intros I; apply in_app_or in I as [I|[I|[]]]; [contradiction|discriminate]).
  rewrite loads_own; [|exact Nc|now destruct ext| |exact V].
  2: { intros I. apply in_app_or in I as [I|[I|[]]]; [contradiction|discriminate]. }
  intros Q.
  assert (St : stem n = stem (stem n)).
  { rewrite Q at 1. apply stem_named; [|exact De']. apply visible_not_nil. now apply stem_visible, stem_visible. }
  assert (Dl : dotless (stem (stem n))) by (apply stem_fixed; [now apply stem_visible, stem_visible|rewrite <- St; now symmetry]).
  destruct O as (b & a & O). rewrite Q in O.
  (* the only dot is the one before the extension *)
  assert (X : ext ++ ["\"%char] = (want ++ ["$"%char]) ++ a).
  { clear -O Dl De'. generalize dependent (stem (stem n)). intros q O Dl. revert q O Dl. induction b as [|x b IH]; intros q O Dl.
    - cbn [app] in O. destruct q as [|y q]; cbn [app] in O; apply cons_inj in O as [O1 O2]; [exact O2|]. exfalso. apply Dl. now left.
    - destruct q as [|y q]; cbn [app] in O; apply cons_inj in O as [O1 O2].
      + exfalso. apply De'. rewrite O2. apply in_or_app. right. now left.
      + apply (IH q O2). intros I. apply Dl. now right. }
  destruct a as [|z a _] using rev_ind.
  - rewrite app_nil_r in X. apply app_inj_tail in X as [_ X]. discriminate.
  - rewrite app_assoc in X. apply app_inj_tail in X as [X _].
    assert (Sx : shows ext ((t ++ [#"$"%char]) ++ lossy a)).
    { rewrite X. apply spells_then; [now apply spells_app|now apply lossy_iff]. }
    pose proof (shows_det _ _ _ Sx (spells_shows _ _ Se)) as Z. rewrite <- app_assoc in Z. symmetry in Z. now apply (escaped_no_start (length e) e t (lossy a)).
Qed.

(** A backslash before anything that is not known is an error: every run panics. *)
Theorem C151_unknown_escape_panics :
  forall ctx ext e t c rest d cmd o out d',
    shows ext (e ++ #"\"%char :: c :: rest) -> escaped e t -> ~ punctuation c ->
    ~ In c (map N_of_ascii ["a"; "f"; "t"; "n"; "r"; "v"; "x"; "u"; "U"; "A"; "z"; "b"; "B"; "<"; ">"; "p"; "P"; "d"; "D"; "s"; "S"; "w"; "W"]%char) ->
    (main_run ctx ext d cmd o out d' <-> o = OPanic /\ out = [] /\ d' = d).
Proof.
  intros ctx ext e t c rest d cmd o out d' S E Np Ne.
  assert (P : parse (pattern ext) = PInvalid).
  { unfold pattern. apply lossy_iff in S as ->. unfold parse.
    replace (#"\"%char :: #dot :: (e ++ #"\"%char :: c :: rest) ++ [#"$"%char]) with (([#"\"%char; #dot] ++ e) ++ #"\"%char :: c :: rest ++ [#"$"%char])
      by (cbn [app]; now rewrite <- app_assoc).
    destruct parser_complete as (_ & _ & C & _).
    pose proof (C _ _ (writes_escaped e t E _ _ writes_dot) (#"\"%char :: c :: rest ++ [#"$"%char]) None Logic.eq_refl) as Q. unfold parser at 1 in Q. rewrite Q.
    unfold parser. cbn [length parse_until]. change (kind_of #"\"%char) with KEscape. cbn iota beta.
    destruct (escapable c) eqn:Ec; [now apply escapable_spec in Ec|]. destruct (existsb (N.eqb c) escapes) eqn:Ex; [now apply escapes_spec in Ex|reflexivity]. }
  unfold main_run, repo_for. now rewrite P.
Qed.

(** ** Cases *)
Section Cases.
  Let s := list_ascii_of_string.
  Let ctx : path := [s "docs"].
  Let listed (ext : string) (names : list string) : option (list (option path)) :=
    match repo_for ctx (s ext) with POk r => Some (map (fun n => entry_id r [s n]) names) | _ => None end.

  (** "tar\.gz" lists what "tar.gz" should, but opens none of it; "md\" lists names with ".md$" in them. *)
  Example C151_case :
    escaped (map N_of_ascii (s "c\+\+")) (map N_of_ascii (s "c++")) /\
    listed "c\+\+" ["a.c++"; "a.c"; "a.ccc"; "a.c\+\+"]%string = Some [Some [s "a"]; None; None; None] /\
    listed "tar\.gz" ["x.tar.gz"; "x.tar_gz"]%string = Some [Some [s "x.tar"]; None] /\
    match repo_for ctx (s "tar\.gz") with POk r => lookup_path r [s "x.tar"] = [s "docs"; s "x.tar\.gz"] | _ => False end /\
    listed "m\-d" ["a.m-d"; "a.m\-d"; "a.md"]%string = Some [Some [s "a"]; None; None] /\
    listed "md\" ["a.md"; "a.md$"; "a.md$.txt"; "a.md\"]%string = Some [None; Some [s "a"]; Some [s "a.md$"]; None] /\
    map (fun p => match repo_for ctx (s p) with POk _ => 0 | PInvalid => 1 | PUnsupported => 2 end)
      ["\md"; "\1"; "\.\y"; "m\d"; "\n"; "m\\d"; "\_"]%string = [1; 1; 1; 2; 2; 0; 0] /\
    modelled_ext (s "\md") /\ ~ (exists p, pattern_of (s "\md") p).
  Proof.
    split.
    { cbn. apply esc_plain; [intros I; cbn in I; repeat (destruct I as [I|I]; [discriminate I|]); exact I|]. repeat (apply esc_char; [now apply escapable_spec|]). constructor. }
    repeat (split; [reflexivity|]). split.
    - exists [92; 109; 100]%N. split; [now apply lossy_iff|]. unfold modelled. split; [intros I; cbn in I; repeat (destruct I as [I|I]; [discriminate I|]); destruct I|].
      split; [|intros [|x [|y [|z [|w a]]]] c E; discriminate E].
      intros [|x [|y [|z [|w a]]]] c e E; try discriminate E. injection E as <- _. intros I. cbn in I. repeat (destruct I as [I|I]; [discriminate I|]). exact I.
    - intros [p W]. apply pattern_parse in W. discriminate W.
  Qed.
End Cases.

Print Assumptions C151_escaped_extension.
Print Assumptions C151_any_ending_can_be_listed.
Print Assumptions C151_backslash_at_the_end.
Print Assumptions C151_unknown_escape_panics.
