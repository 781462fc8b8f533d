(** Properties C148, C149: extensions with repetitions, and with groups. *)
From Coq Require Import String.
From Coq Require Import List Bool Arith NArith Ascii Lia.
From Verif Require Import Ord OrdFacts BTree BTreeFacts Graph GraphFacts SpecGraph Tx TxMachine SpecTx Lazy Prog SpecProg ProgFacts
  Path PathOrd Cli SpecCli PathFacts CliFacts Utf8 SpecUtf8 Utf8Facts Regex SpecRegex RegexFacts CliMain P_Regex.
Import ListNotations.

(** ** Repetitions of a class *)
Section Class.
  Context (neg : bool) (l : list (char * char)).
  Let ok (c : char) : Prop := if neg then ~ within c l else within c l.

  Lemma matches_class b x a : matches (RClass neg l) b x a <-> exists c, x = [c] /\ ok c.
  Proof.
    unfold ok. split.
    - intros M. inversion M; subst; eauto.
    - intros (c & -> & O). destruct neg; now constructor.
  Qed.

  Lemma matches_star_class b x a : matches (RStar (RClass neg l)) b x a <-> Forall ok x.
  Proof.
    split.
    - intros M. remember (RStar (RClass neg l)) as r eqn:E. induction M; try discriminate; [constructor|].
      injection E as ->. apply matches_class in M1 as (c & -> & O). constructor; auto.
    - revert b. induction x as [|c x IH]; intros b F; [constructor|]. inversion F; subst.
      apply (m_more _ b [c] x a); [|auto]. apply matches_class. eauto.
  Qed.

  Lemma matches_repeat_class b x a : forall n m, at_most n m ->
    (matches (RRepeat (RClass neg l) n m) b x a <-> Forall ok x /\ n <= length x /\ at_most (length x) m).
  Proof.
    revert b. induction x as [|c x IH]; intros b n m L.
    - split.
      + intros M. inversion M as [| | | | | | | | | | | |? ? ? ?|? ? ? ? y z ? M1 Z M2]; subst.
        * repeat split; [constructor|auto|destruct m; cbn; auto with arith].
        * exfalso. apply matches_class in M1 as (c & -> & _). discriminate.
      + intros (_ & Z & _). cbn in Z. replace n with 0 by lia. constructor.
    - split.
      + intros M. inversion M as [| | | | | | | | | | | |? ? ? ?|? ? ? ? y z ? M1 Z M2]; subst.
        apply matches_class in M1 as (c' & -> & O). cbn [app] in *. match goal with H : _ :: _ = _ :: _ |- _ => injection H as <- <- end.
        apply IH in M2 as (F & A & B); [|destruct m as [[|m]|]; cbn in *; [congruence|lia|exact I]].
        repeat split; [now constructor|cbn; lia|]. destruct m as [[|m]|]; cbn in *; [congruence|lia|exact I].
      + intros (F & A & B). inversion F; subst. apply (m_once _ n m b [c] x a); [apply matches_class; eauto| |].
        * intros ->. cbn in B. lia.
        * apply IH; [destruct m as [[|m]|]; cbn in *; [lia|lia|exact I]|]. cbn in A. repeat split; [assumption|lia|].
          destruct m as [[|m]|]; cbn in *; [lia|lia|exact I].
  Qed.

  Lemma allows_op o n m : allows o n m -> exists f, writes_op o f /\
    forall b x a, matches (f (RClass neg l)) b x a <-> Forall ok x /\ n <= length x /\ at_most (length x) m.
  Proof.
    intros A. inversion A; subst.
    - exists RStar. split; [constructor|]. intros b x a. rewrite matches_star_class. cbn. intuition lia.
    - eexists. split; [constructor|]. intros b x a. cbn beta. split.
      + intros M. apply matches_seq_inv in M as (y & z & -> & M1 & M2). apply matches_class in M1 as (c & -> & O).
        apply matches_star_class in M2. cbn. repeat split; [now constructor|lia].
      + intros (F & L & _). destruct x as [|c x]; [cbn in L; lia|]. inversion F; subst.
        apply (m_seq _ _ b [c] x a); [apply matches_class; eauto|now apply matches_star_class].
    - eexists. split; [constructor|]. intros b x a. cbn beta. split.
      + intros M. inversion M as [| | | | | | | |? ? ? ? ? M1|? ? ? ? ? M1| | | |]; subst.
        * apply matches_class in M1 as (c & -> & O). cbn. repeat split; [now repeat constructor|lia|lia].
        * apply matches_eps_inv in M1 as ->. cbn. repeat split; [constructor|lia|lia].
      + intros (F & _ & L). destruct x as [|c [|c' x]]; [apply m_right; constructor| |cbn in L; lia].
        apply m_left, matches_class. inversion F; subst. eauto.
    - eexists. split; [apply wo_exactly; eassumption|]. intros b x a. apply matches_repeat_class. cbn. lia.
    - eexists. split; [apply wo_at_least; eassumption|]. intros b x a. now apply matches_repeat_class.
    - eexists. split; [apply wo_between; eassumption|]. intros b x a. now apply matches_repeat_class.
  Qed.
End Class.

Lemma writes_ops_one r o f (lazy : bool) : writes_op o f -> writes_ops r (o ++ if lazy then [#"?"%char] else []) (f r).
Proof. intros W. destruct lazy; [apply (wp_lazy r o f [] (f r) W); constructor|apply (wp_op r o f [] (f r) W); [discriminate|constructor]]. Qed.

Lemma entry_listed ctx ext p d n : ctx <> [] -> Forall visible (d ++ [n]) ->
  ((exists i, entry_id (Repo ctx ext (found_in p)) (d ++ [n]) = Some i) <-> found p n).
Proof.
  intros Nc V. rewrite entry_id_any by auto. rewrite <- found_iff. destruct (found_in p n); split; intros H; try discriminate; eauto. now destruct H.
Qed.

(** C148. *)
Theorem C148_repeated_class :
  forall ctx ext s l (negated lazy : bool) op n m,
    ctx <> [] ->
    spells ext (#"["%char :: (if negated then [#"^"%char] else []) ++ s ++ #"]"%char :: op ++ if lazy then [#"?"%char] else []) ->
    s <> [] -> writes_ranges s l -> allows op n m ->
    exists r, repo_for ctx ext = POk r /\
      forall d name, Forall visible (d ++ [name]) ->
        ((exists i, entry_id r (d ++ [name]) = Some i) <->
         exists pre piece cs, name = pre ++ dot :: piece /\ shows piece cs /\
           Forall (fun c => if negated then ~ within c l else within c l) cs /\ n <= length cs /\ at_most (length cs) m).
Proof.
  intros ctx ext s l neg lazy op n m Nc S N W A. destruct (allows_op neg l op n m A) as (f & Wo & Mo).
  set (p := RSeq (RSeq (RSeq REps (RChar #dot)) (f (RClass neg l))) REnd).
  assert (P : pattern_of ext p).
  { eexists. split; [apply spells_shows; exact S|]. constructor. unfold p.
    set (w := #"["%char :: (if neg then [#"^"%char] else []) ++ s ++ [#"]"%char]). set (ops := op ++ if lazy then [#"?"%char] else []).
    replace (#"\"%char :: #"."%char :: (#"["%char :: (if neg then [#"^"%char] else []) ++ s ++ #"]"%char :: ops) ++ [#"$"%char])
      with (([#"\"%char; #dot] ++ w ++ ops) ++ [#"$"%char]) by (unfold w; cbn [app]; now rewrite <- !app_assoc).
    constructor; [|apply item_atom; now constructor]. constructor; [apply writes_dot|].
    apply (wi_item w (RClass neg l)); [unfold w; destruct neg; [now apply wa_negated|now apply wa_class]|]. now apply writes_ops_one. }
  eexists. split; [exact (repo_for_pattern _ _ _ P)|]. intros d name V. rewrite entry_listed by auto. split.
  - intros (t & St & (b & x & a & -> & M)). unfold p in M. apply matches_seq_inv in M as (y & z & -> & M1 & M2). apply matches_end_inv in M2 as [-> ->].
    rewrite !app_nil_r in *. apply matches_seq_inv in M1 as (u & v & -> & M1 & M2). apply matches_dot in M1 as ->. apply Mo in M2.
    apply shows_split in St as (n1 & n2 & -> & _ & St). apply (shows_dot n2 v) in St as (k & -> & St). exists n1, k, v. tauto.
  - intros (pre & piece & cs & -> & Sc & F). destruct (shows_exists pre) as [k Sk]. exists (k ++ #dot :: cs). split; [now apply shows_dotted|].
    exists k, (#dot :: cs), []. split; [now rewrite app_nil_r|]. unfold p. rewrite <- (app_nil_r (#dot :: cs)). apply m_seq; [|apply m_end].
    apply (m_seq _ _ k [#dot] cs []); [now apply matches_dot|]. now apply Mo.
Qed.

(** A repetition marked as lazy lists what the other does. *)
Theorem C148_lazy_mark_lists_the_same :
  forall ctx ext ext' before atom op after q r f,
    writes_seq before q -> writes_atom atom r -> writes_op op f -> Forall literal after ->
    shows ext ((before ++ atom ++ op) ++ after) -> shows ext' ((before ++ atom ++ op) ++ #"?"%char :: after) ->
    exists repo repo', repo_for ctx ext = POk repo /\ repo_for ctx ext' = POk repo' /\
      forall e, entry_id repo e = entry_id repo' e.
Proof.
  intros ctx ext ext' before atom op after q r f Wb Wa Wo Fl S S'.
  assert (Pre : forall t k, writes_seq t k -> exists k', writes_seq ([#"\"%char; #dot] ++ t) k').
  { intros t k Wt. induction Wt as [|s t k i Ws IH Wi]; [eexists; rewrite app_nil_r; apply writes_dot|].
    destruct IH as [k' IH]. eexists. rewrite app_assoc. constructor; [exact IH|exact Wi]. }
  destruct (Pre before q Wb) as [q' Wq].
  set (p := RSeq (in_a_row after (RSeq q' (f r))) REnd).
  assert (X : forall e (lazy : bool), shows e ((before ++ atom ++ op) ++ (if lazy then [#"?"%char] else []) ++ after) -> pattern_of e p).
  { intros e lazy Se. eexists. split; [exact Se|]. constructor. unfold p.
    replace (#"\"%char :: #"."%char :: ((before ++ atom ++ op) ++ (if lazy then [#"?"%char] else []) ++ after) ++ [#"$"%char])
      with (((([#"\"%char; #dot] ++ before) ++ atom ++ op ++ if lazy then [#"?"%char] else []) ++ after) ++ [#"$"%char])
      by (cbn [app]; now rewrite <- !app_assoc).
    constructor; [|apply item_atom; now constructor]. apply writes_in_a_row; [exact Fl|]. constructor; [exact Wq|].
    apply (wi_item atom r); [exact Wa|]. now apply writes_ops_one. }
  do 2 eexists. split; [apply (repo_for_pattern ctx ext p), (X ext false S)|]. split; [apply (repo_for_pattern ctx ext' p), (X ext' true S')|].
  intros e. reflexivity.
Qed.

(** ** Groups *)
Definition group_of (plain : bool) (a b : seg) : seg :=
  "("%char :: (if plain then ["?"; ":"]%char else []) ++ a ++ "|"%char :: b ++ [")"%char].

Lemma seq_all l : Forall literal l -> writes_seq l (in_a_row l REps).
Proof. intros F. apply (writes_in_a_row l F [] REps). constructor. Qed.

(** C149. *)
Theorem C149_group_of_two_extensions :
  forall ctx a b (plain : bool),
    ctx <> [] -> plain_ext a -> plain_ext b -> ~ In slash a -> ~ In slash b ->
    exists r, repo_for ctx (group_of plain a b) = POk r /\
      forall d n, Forall visible (d ++ [n]) ->
        ((exists i, entry_id r (d ++ [n]) = Some i) <-> ends_with (dot :: a) n \/ ends_with (dot :: b) n) /\
        forall i, entry_id r (d ++ [n]) = Some i -> ~ same_path (lookup_path r i) (entry_path r (d ++ [n])).
Proof.
  intros ctx a b plain Nc Pa Pb Sa Sb. apply plain_ext_spells in Pa as (ca & Ha & Fa & Na), Pb as (cb & Hb & Fb & Nb).
  set (p := RSeq (RSeq (RSeq REps (RChar #dot)) (RAlt (in_a_row ca REps) (in_a_row cb REps))) REnd).
  assert (P : pattern_of (group_of plain a b) p).
  { exists (#"("%char :: (if plain then [#"?"%char; #":"%char] else []) ++ (ca ++ #"|"%char :: cb) ++ [#")"%char]). split.
    - apply spells_shows. unfold group_of.
      assert (A : forall c, N.ltb #c 128 = true -> spells [c] [#c]).
      { intros c L. apply (spells_ascii [c]). constructor; [|constructor]. now apply N.ltb_lt. }
      apply (spells_app ["("%char] _ [#"("%char]); [now apply A|]. apply spells_app.
      + destruct plain; [apply (spells_ascii ["?"; ":"]%char); repeat constructor|split; [constructor|reflexivity]].
      + rewrite <- app_assoc. apply spells_app; [exact Ha|]. apply (spells_app ["|"%char] _ [#"|"%char]); [now apply A|].
        apply spells_app; [exact Hb|now apply A].
    - constructor. unfold p. match goal with |- writes_seq (_ :: _ :: ?w ++ [_]) _ => set (g := w);
        change (#"\"%char :: #"."%char :: g ++ [#"$"%char]) with (([#"\"%char; #dot] ++ g) ++ [#"$"%char]) end.
      constructor; [|apply item_atom; now constructor]. constructor; [apply writes_dot|]. apply item_atom. unfold g.
      assert (W : writes (ca ++ #"|"%char :: cb) (RAlt (in_a_row ca REps) (in_a_row cb REps))).
      { apply w_alt; [constructor|]; now apply seq_all. }
      destruct plain; now constructor. }
  eexists. split; [exact (repo_for_pattern _ _ _ P)|]. intros d n V.
  assert (L : found p n <-> ends_with (dot :: a) n \/ ends_with (dot :: b) n).
  { destruct (shows_exists n) as [t St]. rewrite (found_shows p n t St).
    assert (E : forall e cs, spells e cs -> ~ In replacement cs -> ((exists u, t = u ++ #dot :: cs) <-> ends_with (dot :: e) n)).
    { intros e cs Se Ne. apply (ends_shows (dot :: e) (#dot :: cs)); [apply (spells_app [dot] e [#dot] cs spells_dot Se)| |exact St].
      intros [I|I]; [discriminate|contradiction]. }
    rewrite <- (E a ca Ha Na), <- (E b cb Hb Nb). clear E. split.
    - intros (u & x & v & -> & M). unfold p in M. apply matches_seq_inv in M as (y & z & -> & M1 & M2). apply matches_end_inv in M2 as [-> ->].
      rewrite !app_nil_r in *. apply matches_seq_inv in M1 as (y1 & z1 & -> & M1 & M2). apply matches_dot in M1 as ->.
      inversion M2 as [| | | | | | | |? ? ? ? ? M3|? ? ? ? ? M3| | | |]; subst;
        apply matches_in_a_row in M3 as (x' & -> & M3); apply matches_eps_inv in M3 as ->; [left|right]; now exists u.
    - assert (M : forall u cs, (forall b0 a0, matches (RAlt (in_a_row ca REps) (in_a_row cb REps)) b0 cs a0) -> occurs p (u ++ #dot :: cs)).
      { intros u cs M. exists u, (#dot :: cs), []. split; [now rewrite app_nil_r|]. unfold p. rewrite <- (app_nil_r (#dot :: cs)).
        apply m_seq; [|apply m_end]. apply (m_seq _ _ u [#dot] cs []); [now apply matches_dot|apply M]. }
      intros [[u ->]|[u ->]]; apply M; intros b0 a0; [apply m_left|apply m_right]; apply matches_in_a_row; exists []; (split; [reflexivity|constructor]). }
  split; [rewrite entry_listed by auto; exact L|]. intros i Ei.
  assert (O : found p n) by (apply (entry_listed ctx (group_of plain a b) p d n); eauto). apply L in O.
  rewrite entry_id_any in Ei by auto. destruct (found_in p n); [|discriminate]. injection Ei as <-.
  rewrite loads_own; [|exact Nc|discriminate| |exact V].
  - intros E. assert (Last : forall e cs, spells e cs -> Forall literal cs -> ~ ends_with (dot :: e) n).
    { intros e cs Se Fe [u Eu]. rewrite E in Eu.
      assert (Z : exists x z, dot :: e = x ++ [z] /\ z <> ")"%char).
      { destruct e as [|c e _] using rev_ind; [exists [], dot; split; [reflexivity|discriminate]|].
        exists (dot :: e), c. split; [reflexivity|]. intros ->. rewrite Forall_forall in Fe.
        apply (Fe #")"%char); [|cbn; tauto]. apply (spells_in _ _ ")"%char Se); [reflexivity|]. apply in_or_app. right. now left. }
      destruct Z as (x & z & Ez & Nz). rewrite Ez in Eu.
      replace (stem (stem n) ++ dot :: group_of plain a b) with ((stem (stem n) ++ dot :: "("%char :: (if plain then ["?"; ":"]%char else []) ++ a ++ "|"%char :: b) ++ [")"%char]) in Eu.
      - rewrite (app_assoc u x [z]) in Eu. apply app_inj_tail in Eu as [_ Eu]. now symmetry in Eu.
      - unfold group_of. rewrite <- !app_assoc. cbn [app]. rewrite <- !app_assoc. reflexivity. }
    destruct O as [O|O]; [now apply (Last a ca)|now apply (Last b cb)].
  - unfold group_of. intros [I|I]; [discriminate|]. apply in_app_or in I as [I|I]; [destruct plain; cbn in I; repeat (destruct I as [I|I]; [discriminate I|]); exact I|].
    apply in_app_or in I as [I|[I|I]]; [contradiction|discriminate|]. apply in_app_or in I as [I|[I|[]]]; [contradiction|discriminate].
Qed.

(** "(a|b)" and "(?:a|b)" list the same. *)
Theorem C149_plain_groups_list_the_same :
  forall ctx a b d n,
    ctx <> [] -> plain_ext a -> plain_ext b -> ~ In slash a -> ~ In slash b -> Forall visible (d ++ [n]) ->
    exists r r', repo_for ctx (group_of false a b) = POk r /\ repo_for ctx (group_of true a b) = POk r' /\
      entry_id r (d ++ [n]) = entry_id r' (d ++ [n]).
Proof.
  intros ctx a b d n Nc Pa Pb Sa Sb V.
  destruct (C149_group_of_two_extensions ctx a b false Nc Pa Pb Sa Sb) as (r & R & X).
  destruct (C149_group_of_two_extensions ctx a b true Nc Pa Pb Sa Sb) as (r' & R' & X').
  exists r, r'. split; [exact R|]. split; [exact R'|]. destruct (X d n V) as [L _]. destruct (X' d n V) as [L' _].
  assert (I : forall ext q, repo_for ctx ext = POk q -> exists re, q = Repo ctx ext re).
  { intros ext q. unfold repo_for. destruct (parse (pattern ext)); try discriminate. intros Q. injection Q as <-. eauto. }
  destruct (I _ _ R) as [g ->], (I _ _ R') as [g' ->]. rewrite !entry_id_any in * by auto.
  destruct (g n), (g' n); try reflexivity; exfalso.
  - assert (H : exists i : path, @None path = Some i) by (apply L', L; eauto). destruct H. discriminate.
  - assert (H : exists i : path, @None path = Some i) by (apply L, L'; eauto). destruct H. discriminate.
Qed.

(** ** Cases *)
Section Cases.
  Let s := list_ascii_of_string.
  Let ctx : path := [s "docs"].
  Let listed (ext : string) (names : list string) : option (list (option path)) :=
    match repo_for ctx (s ext) with POk r => Some (map (fun n => entry_id r [s n]) names) | _ => None end.

  (** Two or three letters; "md+?" needs its "d", though "md+" followed by an optional nothing would not list less. *)
  Example C148_case :
    allows (map N_of_ascii (s "{2,3}")) 2 (Some 3) /\ writes_ranges (map N_of_ascii (s "a-z")) [(97, 122)]%N /\
    listed "[a-z]{2,3}" ["a.c"; "a.md"; "a.txt"; "a.html"; "a.MD"]%string = Some [None; Some [s "a"]; Some [s "a"]; None; None] /\
    listed "[a-z]{2}" ["a.c"; "a.md"; "a.txt"]%string = Some [None; Some [s "a"]; None] /\
    listed "[a-z]{ 2 , 3 }" ["a.c"; "a.md"; "a.txt"; "a.html"]%string = Some [None; Some [s "a"]; Some [s "a"]; None] /\
    listed "[a-z]{2,}?" ["a.c"; "a.md"; "a.html"]%string = Some [None; Some [s "a"]; Some [s "a"]] /\
    listed "[^a-z]{0}" ["a."; "a.c"; "a"]%string = Some [Some [s "a"]; None; None] /\
    listed "md+?" ["a.m"; "a.md"; "a.mdd"]%string = Some [None; Some [s "a"]; Some [s "a"]] /\
    listed "md+" ["a.m"; "a.md"; "a.mdd"]%string = Some [None; Some [s "a"]; Some [s "a"]] /\
    listed "md??" ["a.m"; "a.md"; "a.mdd"]%string = Some [Some [s "a"]; Some [s "a"]; None] /\
    listed "md*??" ["a.m"; "a.mdd"; "a.x"]%string = Some [Some [s "a"]; Some [s "a"]; None].
  Proof.
    split.
    { assert (C : forall c d, is_digit c d -> is_count [c] d) by (intros c d D; apply (cnt [] [c] []); [constructor|now constructor|constructor]).
      apply (al_between [50%N] 2 [51%N] 3); [apply C; split; [lia|reflexivity]..|lia]. }
    split.
    { apply (wr_range 97 122 [] []); try discriminate; try constructor; intros I; cbn in I; repeat (destruct I as [I|I]; [discriminate I|]); exact I. }
    repeat split; reflexivity.
  Qed.

  (** Counts that are not valid: nothing to repeat, no number, bounds the wrong way round, not closed, a blank that is not around a number. *)
  Example C148_invalid :
    map (fun p => match repo_for ctx (s p) with POk _ => 0 | PInvalid => 1 | PUnsupported => 2 end)
      ["md|{2}"; "m{}"; "m{,2}"; "m{3,2}"; "m{2"; "m{2,"; "m{2,3"; "m{2, }"; "m{2 2}"; "m{2}{3}"; "m}"; "m{10,11}"]%string = [1; 1; 1; 1; 1; 1; 1; 1; 1; 0; 0; 0].
  Proof. reflexivity. Qed.

  Example C149_case :
    plain_ext (s "md") /\ plain_ext (s "txt") /\ group_of true (s "md") (s "txt") = s "(?:md|txt)" /\
    listed "(md|txt)" ["a.md"; "b.txt"; "notes.mdx"; "mytxt"]%string = Some [Some [s "a"]; Some [s "b"]; None; None] /\
    listed "(?:md|txt)" ["a.md"; "b.txt"; "notes.mdx"; "mytxt"]%string = Some [Some [s "a"]; Some [s "b"]; None; None] /\
    match repo_for ctx (s "(md|txt)") with POk r => lookup_path r [s "a"] = [s "docs"; s "a.(md|txt)"] | _ => False end.
  Proof.
    assert (P : forall e : string, (e = "md" \/ e = "txt")%string -> plain_ext (s e)).
    { intros e [-> | ->]; eexists; (split; [now apply lossy_iff|]; split; [repeat constructor|]; intros I; cbn in I; repeat (destruct I as [I|I]; [discriminate I|]); exact I). }
    split; [auto|]. split; [auto|]. repeat split; reflexivity.
  Qed.
End Cases.

Print Assumptions C148_repeated_class.
Print Assumptions C148_lazy_mark_lists_the_same.
Print Assumptions C149_group_of_two_extensions.
Print Assumptions C149_plain_groups_list_the_same.
