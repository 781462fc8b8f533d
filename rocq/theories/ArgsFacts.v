(** The parser of the command line against the grammar. *)
From Coq Require Import String.
From Coq Require Import List Bool Arith NArith Ascii Lia.
From Verif Require Import Ord OrdFacts Prog Path Cli SpecCli PathFacts Utf8 SpecUtf8 Utf8Facts Regex CliMain Args SpecArgs.
Import ListNotations.

Lemma bytes_eqb_eq a b : bytes_eqb a b = true <-> a = b.
Proof.
  unfold bytes_eqb. rewrite <- (cmp_eq a b). destruct (cmp a b); split; intros H; try discriminate; auto.
Qed.
Lemma bytes_eqb_refl a : bytes_eqb a a = true.
Proof. now apply bytes_eqb_eq. Qed.
Lemma in_existsb a l : existsb (bytes_eqb a) l = true <-> In a l.
Proof.
  rewrite existsb_exists. split; [intros (x & I & E); apply bytes_eqb_eq in E; now subst|]. intros I. exists a. split; [exact I|apply bytes_eqb_refl].
Qed.

(** ** Texts *)
Lemma is_utf8_iff s : is_utf8 s = true <-> text s.
Proof.
  unfold is_utf8, text, spells. pose proof (proj1 (decode_iff (map N_of_ascii s) _) Logic.eq_refl) as R.
  set (ps := decode (map N_of_ascii s)) in *. clearbody ps. set (n := map N_of_ascii s) in *. clearbody n. split.
  - intros F. induction R as [|c n l S R IH|p n l B R IH]; cbn [forallb] in F.
    + exists []. split; [constructor|reflexivity].
    + destruct (IH F) as (cs & Sc & ->). exists (c :: cs). split; [now constructor|reflexivity].
    + discriminate F.
  - intros (cs & Sc & ->). pose proof (reads_encoded cs Sc [] [] ra_nil) as R'. rewrite !app_nil_r in R'.
    rewrite (reads_as_det _ _ R _ R'). clear. induction cs as [|c cs IH]; [reflexivity|exact IH].
Qed.

(** ** Words *)
Lemma split_equals_some s : forall a v, split_equals s = (a, Some v) -> s = a ++ lit "=" ++ v /\ ~ In "="%char a.
Proof.
  induction s as [|c s IH]; intros a v E; cbn [split_equals] in E; [discriminate|].
  destruct (Ascii.eqb_spec c "=") as [->|N].
  - injection E as <- <-. split; [reflexivity|intros []].
  - destruct (split_equals s) as [a' v'] eqn:S. injection E as <- ->. destruct (IH a' v Logic.eq_refl) as [-> I].
    split; [reflexivity|]. intros [X|X]; [now apply N|now apply I].
Qed.
Lemma split_equals_none s : forall a, split_equals s = (a, None) -> s = a.
Proof.
  induction s as [|c s IH]; intros a E; cbn [split_equals] in E; [now injection E|].
  destruct (Ascii.eqb c "="); [discriminate|]. destruct (split_equals s) as [a' v'] eqn:S. injection E as <- ->. f_equal. now apply IH.
Qed.
Lemma split_equals_at a v : ~ In "="%char a -> split_equals (a ++ lit "=" ++ v) = (a, Some v).
Proof.
  induction a as [|c a IH]; intros I; [reflexivity|]. cbn [app split_equals]. destruct (Ascii.eqb_spec c "=") as [->|N]; [exfalso; apply I; now left|].
  change (a ++ "="%char :: v) with (a ++ lit "=" ++ v). rewrite IH; [reflexivity|]. intros X. apply I. now right.
Qed.
Lemma split_equals_not a : ~ In "="%char a -> split_equals a = (a, None).
Proof.
  induction a as [|c a IH]; intros I; [reflexivity|]. cbn [split_equals]. destruct (Ascii.eqb_spec c "=") as [->|N]; [exfalso; apply I; now left|].
  rewrite IH; [reflexivity|]. intros X. apply I. now right.
Qed.

Lemma look_plain a : look a = LPlain <-> word a.
Proof.
  unfold look, word. destruct a as [|c [|d rest]].
  - split; [|reflexivity]. intros _. right. intros r E. discriminate E.
  - split; [|reflexivity]. intros _. destruct (ascii_dec c "-") as [->|N]; [now left|]. right. intros r E. injection E as E _. now apply N.
  - destruct (Ascii.eqb_spec c "-") as [->|N].
    + split.
      * destruct (Ascii.eqb d "-"); [|discriminate]. destruct rest; [discriminate|]. destruct (split_equals _); discriminate.
      * intros [E|E]; [discriminate E|]. now destruct (E (d :: rest)).
    + split; [|reflexivity]. intros _. right. intros r E. injection E as E _. now apply N.
Qed.
Lemma look_escape a : look a = LEscape <-> a = lit "--".
Proof.
  split; [|intros ->; reflexivity]. unfold look. destruct a as [|c [|d rest]]; try discriminate.
  destruct (Ascii.eqb_spec c "-") as [->|N]; [|discriminate]. destruct (Ascii.eqb_spec d "-") as [->|N]; [|discriminate].
  destruct rest; [reflexivity|]. destruct (split_equals _); discriminate.
Qed.
Lemma look_long a n v : look a = LLong n v -> a = lit "--" ++ n ++ match v with Some v => lit "=" ++ v | None => [] end.
Proof.
  unfold look. destruct a as [|c [|d rest]]; try discriminate.
  destruct (Ascii.eqb_spec c "-") as [->|N]; [|discriminate]. destruct (Ascii.eqb_spec d "-") as [->|N]; [|discriminate].
  destruct rest as [|c rest]; [discriminate|]. destruct (split_equals (c :: rest)) as [a [w|]] eqn:S; intros E; injection E as <- <-.
  - apply split_equals_some in S. destruct S as [-> _]. reflexivity.
  - apply split_equals_none in S. rewrite S. now rewrite app_nil_r.
Qed.
Lemma look_short a c rest : look a = LShort c rest -> a = lit "-" ++ [c] ++ rest.
Proof.
  unfold look. destruct a as [|x [|d r]]; try discriminate.
  destruct (Ascii.eqb_spec x "-") as [->|N]; [|discriminate]. destruct (Ascii.eqb_spec d "-") as [->|N].
  - destruct r; [discriminate|]. destruct (split_equals _); discriminate.
  - intros E. injection E as <- <-. reflexivity.
Qed.

(** ** Options *)
Definition long_of (o : option_name) : bytes := match o with OContext => lit "context" | OExtension => lit "extension" end.
Definition short_of (o : option_name) : bytes := match o with OContext => lit "C" | OExtension => lit "e" end.
Definition ok_value (o : option_name) (v : bytes) : Prop := match o with OContext => v <> [] | OExtension => text v end.
Definition unset (o : option_name) (g : given) : Prop := match o with OContext => gv_context g = None | OExtension => gv_extension g = None end.
Definition put (o : option_name) (v : bytes) (g : given) : given :=
  match o with
  | OContext => Given (Some v) (gv_extension g) (gv_positional g)
  | OExtension => Given (gv_context g) (Some v) (gv_positional g)
  end.

Lemma set_option_iff o v g g' : set_option o v g = Some g' <-> unset o g /\ ok_value o v /\ g' = put o v g.
Proof.
  destruct o; cbn.
  - destruct (gv_context g), v; (split; [intros E|intros (E & N & ->)]); try discriminate; try (now destruct N); try reflexivity.
    injection E as <-. repeat split; discriminate.
  - destruct (gv_extension g); [split; [intros E|intros (E & _)]; discriminate|]. rewrite <- is_utf8_iff.
    destruct (is_utf8 v); (split; [intros E|intros (E & N & ->)]); try discriminate; try reflexivity. injection E as <-. auto.
Qed.

Lemma set_positional_iff sy v g g' :
  set_positional sy v g = Some g' <-> sy_positional sy = true /\ text v /\ gv_positional g = None /\ g' = Given (gv_context g) (gv_extension g) (Some v).
Proof.
  unfold set_positional. rewrite <- is_utf8_iff.
  destruct (sy_positional sy), (is_utf8 v), (gv_positional g); cbn; (split; [intros E|intros (E1 & E2 & E3 & ->)]); try discriminate; try reflexivity.
  injection E as <-. auto.
Qed.

Lemma find_long_iff n o : find_long n = Some o <-> n = long_of o.
Proof.
  unfold find_long. destruct (bytes_eqb n (lit "context")) eqn:E1.
  - apply bytes_eqb_eq in E1. subst n. destruct o; cbn; split; intros E; auto; discriminate.
  - destruct (bytes_eqb n (lit "extension")) eqn:E2.
    + apply bytes_eqb_eq in E2. subst n. destruct o; cbn; split; intros E; auto; discriminate.
    + split; [discriminate|]. intros ->. destruct o; discriminate.
Qed.
Lemma find_short_iff c o : find_short c = Some o <-> [c] = short_of o.
Proof.
  unfold find_short. destruct (Ascii.eqb_spec c "C") as [->|N1].
  - destruct o; cbn; split; intros E; auto; discriminate.
  - destruct (Ascii.eqb_spec c "e") as [->|N2]; [destruct o; cbn; split; intros E; auto; discriminate|].
    split; [discriminate|]. destruct o; cbn; intros E; injection E as E; contradiction.
Qed.

(** ** What is written for one command *)
Section Level.
  Variable sy : syntax.

  Definition free v := word v /\ (sy_precedence sy = true -> ~ In v (sy_subcommands sy)).
  Definition positional v := sy_positional sy = true /\ word v /\ ~ In v (sy_subcommands sy).
  Notation wr g ws := (written free positional (gv_context g) (gv_extension g) (gv_positional g) ws).

  (** Nothing that looks like an option is a subcommand. *)
  Definition plain_names := Forall word (sy_subcommands sy).

  Lemma wr_put o v g ws us : unset o g -> ok_value o v -> wr g ws -> gives free (long_of o) (short_of o) v us -> wr (put o v g) (ws ++ us).
  Proof.
    destruct o; cbn; intros U V W G.
    - rewrite U in W. now constructor.
    - rewrite U in W. now constructor.
  Qed.

  Lemma not_sub (P : plain_names) a : ~ word a -> existsb (bytes_eqb a) (sy_subcommands sy) = false.
  Proof.
    intros N. destruct (existsb _ _) eqn:E; [|reflexivity]. apply in_existsb in E. unfold plain_names in P. rewrite Forall_forall in P. now destruct N; apply P.
  Qed.

  Lemma matches_dashed (P : plain_names) a g args : ~ word a ->
    matches sy g None (a :: args) =
      match look a with
      | LEscape => option_map (fun g => (g, None)) (trailing sy g args)
      | LLong name value =>
          match find_long name, value with
          | None, _ => None
          | Some o, Some v => match set_option o v g with Some g => matches sy g None args | None => None end
          | Some o, None => matches sy g (Some o) args
          end
      | LShort c rest =>
          match find_short c, attached rest with
          | None, _ => None
          | Some o, Some v => match set_option o v g with Some g => matches sy g None args | None => None end
          | Some o, None => matches sy g (Some o) args
          end
      | LPlain => None
      end.
  Proof.
    intros N. cbn [matches]. rewrite (not_sub P a N), andb_false_r. pose proof (look_plain a) as L.
    destruct (look a); try reflexivity. now destruct N; apply L.
  Qed.

  Lemma matches_pending o v g args : free v ->
    matches sy g (Some o) (v :: args) = match set_option o v g with Some g => matches sy g None args | None => None end.
  Proof.
    intros [W N]. cbn [matches]. apply look_plain in W. rewrite W, orb_false_r. destruct (sy_precedence sy); [|reflexivity].
    destruct (existsb _ _) eqn:E; [|reflexivity]. apply in_existsb in E. now destruct (N Logic.eq_refl).
  Qed.

  Lemma matches_positional v g args : word v -> ~ In v (sy_subcommands sy) ->
    matches sy g None (v :: args) = match set_positional sy v g with Some g => matches sy g None args | None => None end.
  Proof.
    intros W N. cbn [matches]. apply look_plain in W. rewrite W. destruct (existsb _ _) eqn:E; [|now rewrite andb_false_r]. apply in_existsb in E. now destruct N.
  Qed.

  Lemma matches_sub v g args : In v (sy_subcommands sy) -> matches sy g None (v :: args) = Some (g, Some (v, args)).
  Proof. intros I. cbn [matches]. apply in_existsb in I. now rewrite I, orb_true_r. Qed.

  Lemma dashed r : r <> [] -> ~ word (lit "-" ++ r).
  Proof. intros N [E|E]; [injection E as E; contradiction|now destruct (E r)]. Qed.

  Lemma matches_gives (P : plain_names) o v us : gives free (long_of o) (short_of o) v us ->
    forall g rest, matches sy g None (us ++ rest) = match set_option o v g with Some g => matches sy g None rest | None => None end.
  Proof.
    intros G g rest. destruct G as [F| |F| |N1 N2]; cbn [app].
    - rewrite matches_dashed; [|exact P|destruct o; now apply (dashed ("-"%char :: _))].
      replace (look _) with (LLong (long_of o) None) by (now destruct o). rewrite (proj2 (find_long_iff _ o) Logic.eq_refl).
      now apply matches_pending.
    - rewrite matches_dashed; [|exact P|destruct o; now apply (dashed ("-"%char :: _))].
      replace (look _) with (LLong (long_of o) (Some v)) by (now destruct o). now rewrite (proj2 (find_long_iff _ o) Logic.eq_refl).
    - rewrite matches_dashed; [|exact P|destruct o; now apply dashed].
      destruct o; cbn [short_of app lit list_ascii_of_string look Ascii.eqb Bool.eqb find_short attached]; now apply matches_pending.
    - rewrite matches_dashed; [|exact P|destruct o; now apply dashed]. destruct o; reflexivity.
    - rewrite matches_dashed; [|exact P|destruct o; now apply dashed].
      assert (A : attached v = Some v).
      { destruct v as [|c v]; [contradiction|]. cbn [attached]. destruct (Ascii.eqb_spec c "=") as [->|N]; [|reflexivity]. now destruct (N2 v). }
      destruct o; cbn [short_of app lit list_ascii_of_string look Ascii.eqb Bool.eqb find_short]; now rewrite A.
  Qed.

  (** What is written is read. *)
  Lemma matches_written (P : plain_names) c e p ws : written free positional c e p ws ->
    forall rest, matches sy nothing None (ws ++ rest) = matches sy (Given c e p) None rest.
  Proof.
    intros W. induction W as [|v e p ws us W IH N G|v c p ws us W IH N G|v c e ws W IH T Po]; intros rest.
    - reflexivity.
    - rewrite <- app_assoc, IH, (matches_gives P OContext v us G).
      replace (set_option _ _ _) with (Some (Given (Some v) e p)); [reflexivity|]. symmetry. now apply set_option_iff.
    - rewrite <- app_assoc, IH, (matches_gives P OExtension v us G).
      replace (set_option _ _ _) with (Some (Given c (Some v) p)); [reflexivity|]. symmetry. now apply set_option_iff.
    - rewrite <- app_assoc, IH. cbn [app]. destruct Po as (Q & W' & N). rewrite matches_positional by assumption.
      replace (set_positional _ _ _) with (Some (Given c e (Some v))); [reflexivity|]. symmetry. now apply set_positional_iff.
  Qed.

  (** What follows: nothing, the name of a subcommand, or two dashes and what is only positional. *)
  Inductive rest_of (g : given) : given -> list bytes -> option (bytes * list bytes) -> Prop :=
  | ro_end : rest_of g g [] None
  | ro_sub : forall name args, In name (sy_subcommands sy) -> rest_of g g (name :: args) (Some (name, args))
  | ro_dashes : forall args g', trailing sy g args = Some g' -> rest_of g g' (lit "--" :: args) None.

  (** What is read was written. *)
  Lemma matches_inv (P : plain_names) n : forall args g g' r ws0, length args <= n -> wr g ws0 ->
    matches sy g None args = Some (g', r) ->
    exists ws tail g1, args = ws ++ tail /\ wr g1 (ws0 ++ ws) /\ rest_of g1 g' tail r.
  Proof.
    induction n as [|n IH]; intros args g g' r ws0 L W E.
    - destruct args; [|cbn in L; lia]. cbn in E. injection E as <- <-. exists [], [], g. rewrite (app_nil_r ws0). split; [reflexivity|]. split; [exact W|constructor].
    - destruct args as [|a args]; [cbn in E; injection E as <- <-; exists [], [], g; rewrite (app_nil_r ws0); split; [reflexivity|]; split; [exact W|constructor]|].
      cbn [length] in L.
      assert (Go : forall us o v rest, a :: args = us ++ rest -> length rest <= n -> gives free (long_of o) (short_of o) v us ->
        match set_option o v g with Some g => matches sy g None rest | None => None end = Some (g', r) ->
        exists ws tail g1, a :: args = ws ++ tail /\ wr g1 (ws0 ++ ws) /\ rest_of g1 g' tail r).
      { intros us o v rest A Lr G M. destruct (set_option o v g) as [g2|] eqn:S; [|discriminate]. apply set_option_iff in S. destruct S as (U & V & ->).
        destruct (IH rest _ _ _ (ws0 ++ us) Lr (wr_put o v g ws0 us U V W G) M) as (ws & tail & g1 & -> & W1 & R).
        exists (us ++ ws), tail, g1. rewrite A, !app_assoc in *. auto. }
      assert (Wait : forall o us0, [a] = us0 -> (forall v, free v -> gives free (long_of o) (short_of o) v (us0 ++ [v])) -> matches sy g (Some o) args = Some (g', r) ->
        exists ws tail g1, a :: args = ws ++ tail /\ wr g1 (ws0 ++ ws) /\ rest_of g1 g' tail r).
      { intros o us0 <- G M. destruct args as [|v rest]; [discriminate M|]. 
        assert (F : free v).
        { cbn [matches] in M. rewrite orb_false_r in M. destruct (sy_precedence sy && _) eqn:Pr; [discriminate|]. destruct (look v) eqn:Lo; try discriminate M. 
          apply look_plain in Lo. split; [exact Lo|]. intros Y I. apply in_existsb in I. now rewrite Y, I in Pr. }
        rewrite matches_pending in M by exact F. apply (Go [a; v] o v rest Logic.eq_refl); [cbn in L; lia|now apply G|exact M]. }
      destruct (look a) as [|name value|c rest|] eqn:Lo.
      + apply look_escape in Lo. subst a. rewrite matches_dashed in E; [|exact P|now apply (dashed ["-"%char])]. cbn [look lit list_ascii_of_string Ascii.eqb Bool.eqb] in E.
        destruct (trailing sy g args) as [g2|] eqn:T; [|discriminate]. injection E as <- <-.
        exists [], (lit "--" :: args), g. rewrite (app_nil_r ws0). split; [reflexivity|]. split; [exact W|now constructor].
      + assert (D : ~ word a) by (rewrite <- look_plain, Lo; discriminate). rewrite matches_dashed in E by assumption. rewrite Lo in E.
        destruct (find_long name) as [o|] eqn:F; [|discriminate]. apply find_long_iff in F. subst name. apply look_long in Lo. subst a. destruct value as [v|].
        * apply (Go [lit "--" ++ long_of o ++ lit "=" ++ v] o v args Logic.eq_refl); [lia|constructor|exact E].
        * rewrite app_nil_r in *. eapply Wait; [reflexivity| |exact E]. intros v Fv. now constructor.
      + assert (D : ~ word a) by (rewrite <- look_plain, Lo; discriminate). rewrite matches_dashed in E by assumption. rewrite Lo in E.
        destruct (find_short c) as [o|] eqn:F; [|discriminate]. apply find_short_iff in F. apply look_short in Lo. rewrite F in Lo. subst a. destruct rest as [|x v]; cbn [attached] in E.
        * rewrite app_nil_r in *. eapply Wait; [reflexivity| |exact E]. intros v Fv. now constructor.
        * destruct (Ascii.eqb_spec x "=") as [->|N].
          -- apply (Go [lit "-" ++ short_of o ++ lit "=" ++ v] o v args Logic.eq_refl); [lia|constructor|exact E].
          -- apply (Go [lit "-" ++ short_of o ++ x :: v] o (x :: v) args Logic.eq_refl); [lia|constructor; [discriminate|]|exact E].
             intros r' X. injection X as X _. now apply N.
      + apply look_plain in Lo. destruct (existsb (bytes_eqb a) (sy_subcommands sy)) eqn:Sub.
        * apply in_existsb in Sub. rewrite matches_sub in E by exact Sub. injection E as <- <-. exists [], (a :: args), g. rewrite (app_nil_r ws0). split; [reflexivity|]. split; [exact W|now constructor].
        * assert (N : ~ In a (sy_subcommands sy)) by (rewrite <- in_existsb, Sub; discriminate). rewrite matches_positional in E by assumption.
          destruct (set_positional sy a g) as [g2|] eqn:S; [|discriminate]. apply set_positional_iff in S. destruct S as (Po & T & U & ->).
          assert (W2 : wr (Given (gv_context g) (gv_extension g) (Some a)) (ws0 ++ [a])).
          { rewrite U in W. cbn. constructor; [exact W|exact T|repeat split; assumption]. }
          destruct (IH args _ _ _ _ ltac:(lia) W2 E) as (ws & tail & g1 & -> & W1 & R). exists (a :: ws), tail, g1. rewrite <- app_assoc in W1. auto.
  Qed.

  Lemma trailing_iff args : forall g g', trailing sy g args = Some g' <->
    args = [] /\ g' = g \/ exists v, args = [v] /\ sy_positional sy = true /\ text v /\ gv_positional g = None /\ g' = Given (gv_context g) (gv_extension g) (Some v).
  Proof.
    intros g g'. destruct args as [|v [|w args]]; cbn [trailing].
    - split; [intros E; injection E as <-; auto|]. intros [(_ & ->)|(v & E & _)]; [reflexivity|discriminate].
    - destruct (set_positional sy v g) as [g2|] eqn:S.
      + apply set_positional_iff in S. destruct S as (Po & T & U & ->). split.
        * intros E. injection E as <-. right. exists v. auto.
        * intros [(E & _)|(v' & E & _ & _ & _ & ->)]; [discriminate|]. injection E as <-. reflexivity.
      + split; [discriminate|]. intros [(E & _)|(v' & E & Po & T & U & ->)]; [discriminate|]. injection E as <-.
        rewrite (proj2 (set_positional_iff sy v g _) (conj Po (conj T (conj U Logic.eq_refl)))) in S. discriminate S.
    - split.
      + destruct (set_positional sy v g) as [g2|] eqn:S; [|discriminate]. apply set_positional_iff in S. destruct S as (Po & T & U & ->).
        unfold set_positional. cbn. destruct (sy_positional sy && is_utf8 w); discriminate.
      + intros [(E & _)|(v' & E & _)]; discriminate.
  Qed.

  Lemma matches_iff (P : plain_names) args g' r : matches sy nothing None args = Some (g', r) <->
    exists ws tail g1, args = ws ++ tail /\ wr g1 ws /\ rest_of g1 g' tail r.
  Proof.
    split.
    - intros E. destruct (matches_inv P (length args) args nothing g' r [] (le_n _) (wr_nothing _ _) E) as (ws & tail & g1 & A & W & R). exists ws, tail, g1. auto.
    - intros (ws & tail & [c e p] & -> & W & R). rewrite (matches_written P _ _ _ _ W). cbn [gv_context gv_extension gv_positional].
      destruct R as [|name args I|args g' T].
      + reflexivity.
      + now apply matches_sub.
      + rewrite matches_dashed; [|exact P|now apply (dashed ["-"%char])]. cbn [look lit list_ascii_of_string Ascii.eqb Bool.eqb]. now rewrite T.
  Qed.
End Level.

Lemma gives_mono (f g : bytes -> Prop) long short v us : (forall v, f v -> g v) -> gives f long short v us -> gives g long short v us.
Proof. intros I G. destruct G; constructor; auto. Qed.
Lemma written_mono (f g p q : bytes -> Prop) c e i ws : (forall v, f v -> g v) -> (forall v, p v -> q v) -> written f p c e i ws -> written g q c e i ws.
Proof.
  intros F P W. induction W; [constructor| | |]; constructor; auto; eapply gives_mono; eauto.
Qed.

Lemma innermost_last a b c v : innermost (innermost a b) c = v <-> last_of [a; b; c] v.
Proof.
  unfold last_of. split.
  - intros <-. destruct c as [c|]; cbn.
    + exists [a; b], []. auto.
    + destruct b as [b|]; cbn; [exists [a], [None]; auto|]. destruct a as [a|]; [exists [], [None; None]; auto|auto].
  - destruct v as [v|].
    + intros (x & y & E & F). destruct x as [|x1 [|x2 [|x3 x]]]; cbn in E; injection E; intros; subst; cbn.
      * inversion F as [|? ? E1 F1]; subst. inversion F1 as [|? ? E2 F2]; subst. reflexivity.
      * inversion F as [|? ? E1 F1]; subst. reflexivity.
      * reflexivity.
      * destruct x; discriminate.
    + intros F. inversion F as [|? ? E1 F1]; subst. inversion F1 as [|? ? E2 F2]; subst. inversion F2 as [|? ? E3 F3]; subst. reflexivity.
Qed.

Lemma lit_word s : match lit s with "-"%char :: _ => false | _ => true end = true -> word (lit s).
Proof. intros N. right. intros r E. rewrite E in N. discriminate N. Qed.

Lemma root_plain : plain_names root_syntax.
Proof. repeat (apply Forall_cons; [now apply lit_word|]). apply Forall_nil. Qed.
Lemma doc_plain : plain_names doc_syntax.
Proof. repeat (apply Forall_cons; [now apply lit_word|]). apply Forall_nil. Qed.
Lemma leaf_plain b : plain_names (leaf_syntax b).
Proof. constructor. Qed.

(** ** Each command *)
Lemma written_no_positional f (p : bytes -> Prop) c e i ws : (forall v, ~ p v) -> written f p c e i ws -> i = None.
Proof. intros N W. induction W; auto. now destruct (N v). Qed.

Lemma matches_root args g name rest : matches root_syntax nothing None args = Some (g, Some (name, rest)) <->
  gv_positional g = None /\ In name [lit "doc"; lit "help"] /\
  exists ws, args = ws ++ name :: rest /\ written word (fun _ => False) (gv_context g) (gv_extension g) None ws.
Proof.
  rewrite (matches_iff _ root_plain). split.
  - intros (ws & tail & g1 & -> & W & R). remember (Some (name, rest)) as r eqn:Q. destruct R as [|n a I|]; try discriminate. injection Q as -> ->.
    assert (N : gv_positional g1 = None) by (eapply written_no_positional; [|exact W]; intros v (X & _); discriminate X).
    split; [exact N|]. split; [exact I|]. exists ws. split; [reflexivity|]. rewrite N in W. eapply written_mono; [| |exact W]; [intros v (X & _); exact X|].
    intros v (X & _). discriminate X.
  - intros (N & I & ws & -> & W). exists ws, (name :: rest), g. split; [reflexivity|]. rewrite N. split; [|now constructor].
    eapply written_mono; [| |exact W]; [intros v X; split; [exact X|discriminate]|intros v []].
Qed.

Lemma matches_doc args g name rest : matches doc_syntax nothing None args = Some (g, Some (name, rest)) <->
  In name reserved /\
  exists ws, args = ws ++ name :: rest /\ written id_word id_word (gv_context g) (gv_extension g) (gv_positional g) ws.
Proof.
  rewrite (matches_iff _ doc_plain). split.
  - intros (ws & tail & g1 & -> & W & R). remember (Some (name, rest)) as r eqn:Q. destruct R as [|n a I|]; try discriminate. injection Q as -> ->.
    split; [exact I|]. exists ws. split; [reflexivity|]. eapply written_mono; [| |exact W]; [intros v (X & Y); split; [exact X|now apply Y]|].
    intros v (_ & X & Y). now split.
  - intros (I & ws & -> & W). exists ws, (name :: rest), g. split; [reflexivity|]. split; [|now constructor].
    eapply written_mono; [| |exact W]; [intros v [X Y]; split; [exact X|intros _; exact Y]|intros v [X Y]; repeat split; assumption].
Qed.

Lemma matches_leaf b args g : matches (leaf_syntax b) nothing None args = Some (g, None) <->
  written_last (b = true) (gv_context g) (gv_extension g) (gv_positional g) args.
Proof.
  assert (M : forall c e i ws, written (free (leaf_syntax b)) (positional (leaf_syntax b)) c e i ws <-> written word (fun v => b = true /\ word v) c e i ws).
  { intros c e i ws. split; apply written_mono.
    - intros v [X _]. exact X.
    - intros v (X & Y & _). now split.
    - intros v X. split; [exact X|discriminate].
    - intros v [X Y]. split; [exact X|]. split; [exact Y|intros []]. }
  rewrite (matches_iff _ (leaf_plain b)). split.
  - intros (ws & tail & g1 & -> & W & R). remember None as r eqn:Q. apply M in W. destruct R as [| |a g' T]; try discriminate.
    + rewrite app_nil_r. now constructor.
    + apply trailing_iff in T. destruct T as [(-> & ->)|(v & -> & Po & T & U & ->)]; [now constructor|]. rewrite U in W. cbn. now constructor.
  - intros W. destruct g as [gc ge gp]. cbn in W. remember gc as c. remember ge as e. remember gp as p. destruct W as [c e p ws W|c e p ws W|c e v ws W Po T].
    + exists ws, [], (Given c e p). rewrite app_nil_r. split; [reflexivity|]. split; [now apply M|]. subst. constructor.
    + exists ws, [lit "--"], (Given c e p). split; [reflexivity|]. split; [now apply M|]. subst. apply ro_dashes, trailing_iff. auto.
    + exists ws, [lit "--"; v], (Given c e None). split; [reflexivity|]. split; [now apply M|]. subst. apply ro_dashes, trailing_iff. right. exists v. auto.
Qed.

Lemma written_last_iff (p q : Prop) c e i ws : (p <-> q) -> written_last p c e i ws -> written_last q c e i ws.
Proof.
  intros I W. destruct W as [c e i ws W|c e i ws W|c e v ws W Po T]; constructor; auto; try (now apply I);
    (eapply written_mono; [| |exact W]; [auto|intros w [X Y]; split; [now apply I|exact Y]]).
Qed.
Lemma last_no_positional c e i ws : written_last False c e i ws -> i = None.
Proof.
  intros W. destruct W as [c e i ws W|c e i ws W|c e v ws W Po T]; [..|contradiction]; (eapply written_no_positional; [|exact W]; intros w [[] _]).
Qed.

Lemma parse_action_iff name args c e s : In name reserved ->
  (exists p, parse_action name args = Some (Given c e p, s)) <-> action name c e args s.
Proof.
  assert (T : true = true <-> True) by (split; auto). assert (F : false = true <-> False) by (split; [discriminate|intros []]).
  assert (No : forall k, (exists p, match matches (leaf_syntax false) nothing None args with Some (g, None) => Some (g, k) | _ => None end = Some (Given c e p, s)) <->
    written_last False c e None args /\ s = k).
  { intros k. split.
    - intros [p E]. destruct (matches _ nothing None args) as [[g [x|]]|] eqn:M; try discriminate. injection E as -> <-. apply matches_leaf in M.
      apply (written_last_iff _ _ _ _ _ _ F) in M. cbn in M. pose proof (last_no_positional _ _ _ _ M). subst p. auto.
    - intros [W ->]. exists None. rewrite (proj2 (matches_leaf false args (Given c e None))); [reflexivity|]. cbn. eapply written_last_iff; [|exact W]. now apply iff_sym. }
  intros [<-|[<-|[<-|[<-|[<-|[]]]]]]; cbn [parse_action].
  - change (parse_action _ _) with (match matches (leaf_syntax false) nothing None args with Some (g, None) => Some (g, CDelete) | _ => None end).
    rewrite No. split; [intros [W ->]; now constructor|]. intros A. inversion A; subst. auto.
  - change (parse_action _ _) with (match matches (leaf_syntax false) nothing None args with Some (g, None) => Some (g, CList) | _ => None end).
    rewrite No. split; [intros [W ->]; now constructor|]. intros A. inversion A; subst. auto.
  - change (parse_action _ _) with (match matches (leaf_syntax false) nothing None args with Some (g, None) => Some (g, CList) | _ => None end).
    rewrite No. split; [intros [W ->]; now constructor|]. intros A. inversion A; subst. auto.
  - change (parse_action _ _) with (match matches (leaf_syntax true) nothing None args with Some (g, None) => Some (g, CSave (gv_positional g)) | _ => None end).
    split.
    + intros [p E]. destruct (matches (leaf_syntax true) nothing None args) as [[g [x|]]|] eqn:M; try discriminate. injection E as -> <-. apply matches_leaf in M.
      constructor. eapply written_last_iff; [exact T|exact M].
    + intros A. inversion A; subst. exists p. rewrite (proj2 (matches_leaf true args (Given c e p))); [reflexivity|]. cbn. eapply written_last_iff; [|eassumption]. now apply iff_sym.
  - split; [intros [p E]; discriminate E|]. intros A. inversion A.
Qed.

Lemma action_reserved name c e args s : action name c e args s -> In name reserved.
Proof. intros A. destruct A; unfold reserved; cbn [map In]; auto. Qed.

(** The parser accepts the grammar, with its meaning. *)
Lemma parse_args_iff args x : parse_args args = Some x <-> command_line args x.
Proof.
  unfold parse_args. split.
  - intros E. destruct (matches root_syntax nothing None args) as [[g [[name rest]|]]|] eqn:M; try discriminate. apply matches_root in M. destruct M as (N1 & _ & w1 & -> & W1).
    destruct (bytes_eqb name (lit "doc")) eqn:D; [|discriminate]. apply bytes_eqb_eq in D. subst name.
    destruct (matches doc_syntax nothing None rest) as [[h [[name args]|]]|] eqn:M; try discriminate. apply matches_doc in M. destruct M as (I & w2 & -> & W2).
    destruct (parse_action name args) as [[k s]|] eqn:M; [|discriminate]. injection E as <-. destruct k as [c3 e3 p3].
    assert (A : action name c3 e3 args s) by (apply parse_action_iff; eauto).
    eapply (cl_line _ _ w1 _ _ _ w2 name c3 e3 args); [exact W1|exact W2|exact A|now apply innermost_last..].
  - intros C. destruct C as [c1 e1 w1 c2 e2 i w2 name c3 e3 w3 sub c e W1 W2 A Lc Le]. cbn [app].
    assert (M1 : matches root_syntax nothing None (w1 ++ lit "doc" :: w2 ++ name :: w3) = Some (Given c1 e1 None, Some (lit "doc", w2 ++ name :: w3))).
    { apply matches_root. cbn. split; [reflexivity|]. split; [now left|]. eauto. }
    pose proof (action_reserved _ _ _ _ _ A) as R.
    assert (M2 : matches doc_syntax nothing None (w2 ++ name :: w3) = Some (Given c2 e2 i, Some (name, w3))).
    { apply matches_doc. split; [exact R|]. cbn. eauto. }
    apply (parse_action_iff name w3 c3 e3 sub R) in A. destruct A as [p A].
    apply innermost_last in Lc, Le. rewrite M1, bytes_eqb_refl, M2, A. cbn [gv_context gv_extension gv_positional]. now rewrite Lc, Le.
Qed.
