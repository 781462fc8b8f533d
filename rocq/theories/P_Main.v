(** Properties C92, C93: what a run of the command line shows to its caller. *)
From Coq Require Import String.
From Coq Require Import List Bool Arith NArith Ascii Lia.
From Verif Require Import Ord OrdFacts BTree Graph Tx Lazy Prog SpecProg ProgFacts P_Ops Path PathOrd Cli SpecCli PathFacts CliFacts P_Cli
  Utf8 SpecUtf8 Utf8Facts Regex SpecRegex RegexFacts CliMain SpecMain P_Regex.
Import ListNotations.

(** ** How runs end *)
Lemma save_plot r d i content : plot r d (Command (Some i) (CSave content)) (ORet RUnit) [] d.
Proof.
  unfold plot, execute, with_document_id. cbn [cm_sub cm_id].
  destruct (C24_save_inserts_exactly (fst (started r d)) (snd (started r d))
    (ld_new (Document (split i) match content with Some s => s | None => [] end) : lazy_doc))
    as (w' & E & _ & _ & _ & O & _); try reflexivity; [constructor|]. exists w'. rewrite O. auto.
Qed.

Lemma same_path_dec (ids : list path) i : (exists j, In j ids /\ same_path j i) \/ forall j, In j ids -> ~ same_path j i.
Proof.
  induction ids as [|j ids IH]; [right; intros j []|].
  destruct (ord_eq_dec (components j) (components i)) as [E|N].
  - left. exists j. split; [now left|exact E].
  - destruct IH as [(k & I & S)|IH]; [left; exists k; split; [now right|exact S]|].
    right. intros k [<-|I]; [exact N|now apply IH].
Qed.

(** C92. *)
Theorem C92_exit_status :
  forall ctx ext d c, modelled_ext ext ->
    exists o printed ids status message,
      (forall o' printed' d', main_run ctx ext d c o' printed' d' <-> o' = o /\ printed' = printed /\ d' = d) /\
      exit_of o = Some (status, message) /\
      ((exists p, pattern_of ext p) -> main_run ctx ext d (Command None CList) (ORet RUnit) ids d) /\
      ends_with_status (exists p, pattern_of ext p) ids c status message /\
      (cm_sub c <> CList -> printed = []).
Proof.
  intros ctx ext d c M. destruct (C88_invalid_extension_panics ctx ext d M) as [C _].
  pose proof (modelled_parse ext M) as N.
  destruct (parse (pattern ext)) as [p| |] eqn:P; [|clear N|contradiction].
  - assert (W : pattern_of ext p) by (now apply pattern_parse). set (r := Repo ctx ext (found_in p)).
    assert (V : exists p, pattern_of ext p) by eauto.
    assert (Run : forall c o out d', main_run ctx ext d c o out d' <-> plot r d c o out d') by (intros; now apply main_run_pattern).
    assert (Det : forall o printed, plot r d c o printed d ->
      forall o' printed' d', main_run ctx ext d c o' printed' d' <-> o' = o /\ printed' = printed /\ d' = d).
    { intros o printed Q o' printed' d'. rewrite Run. split; [|intros (-> & -> & ->); exact Q]. intros Q'. exact (plot_det _ _ _ _ _ _ _ _ _ Q' Q). }
    assert (Ls : (exists p, pattern_of ext p) -> main_run ctx ext d (Command None CList) (ORet RUnit) (listing r d) d)
      by (intros _; apply Run; now apply list_plot).
    destruct c as [[i|] [| |content]].
    + destruct (C47_delete_succeeds_iff_listed r d (Command (Some i) CDelete) i eq_refl eq_refl) as (ids & Q & _ & Yes & No).
      destruct (same_path_dec ids (split i)) as [(j & J & S)|Not].
      * exists (ORet RUnit), [], ids, 0, None. split; [apply Det, Yes; eauto|]. split; [reflexivity|]. split; [intros _; now apply Run|].
        split; [now apply (es_delete _ _ i j)|reflexivity].
      * exists (ORet (RErr Noop)), [], ids. do 2 eexists.
        split; [apply Det, No; intros (j & J & S); exact (Not j J S)|]. split; [reflexivity|]. split; [intros _; now apply Run|].
        split; [now apply es_delete_none|reflexivity].
    + exists (ORet RUnit), (listing r d), (listing r d), 0, None. split; [apply Det; now apply list_plot|]. split; [reflexivity|].
      split; [exact Ls|]. split; [now apply es_list|intros X; now destruct X].
    + exists (ORet RUnit), [], (listing r d), 0, None. split; [apply Det, save_plot|]. split; [reflexivity|].
      split; [exact Ls|]. split; [now apply es_save|reflexivity].
    + exists (ORet (RErr id_must_be_set)), [], (listing r d). do 2 eexists. split; [apply Det; now apply (C47_missing_id r d CDelete)|].
      split; [reflexivity|]. split; [exact Ls|]. split; [now apply es_delete_what|reflexivity].
    + exists (ORet RUnit), (listing r d), (listing r d), 0, None. split; [apply Det; now apply list_plot|]. split; [reflexivity|].
      split; [exact Ls|]. split; [now apply es_list|intros X; now destruct X].
    + exists (ORet (RErr id_must_be_set)), [], (listing r d). do 2 eexists. split; [apply Det; now apply (C47_missing_id r d (CSave content))|].
      split; [reflexivity|]. split; [exact Ls|]. split; [now apply es_save_what|reflexivity].
  - assert (V : ~ exists p, pattern_of ext p) by (intros [p W]; apply pattern_parse in W; congruence).
    exists OPanic, [], [], 101, None. split; [exact (C V c)|]. split; [reflexivity|]. split; [intros X; contradiction|].
    split; [now apply es_panic|reflexivity].
Qed.

(** ** The text of a listing *)
Local Open Scope N_scope.

Definition piece_bytes (x : piece) : list N := match x with Char p _ => p | Broken p => p end.
Lemma reads_bytes s ps : reads_as s ps -> s = flat_map piece_bytes ps.
Proof. intros R. induction R as [|c s l S R IH|p s l B R IH]; cbn [flat_map piece_bytes]; congruence. Qed.

Definition sound (x : piece) : Prop := match x with Char p c => p = encode c /\ scalar c | Broken p => True end.
Lemma reads_sound s ps : reads_as s ps -> Forall sound ps.
Proof. intros R. induction R; constructor; cbn; auto. Qed.

(** Bytes of a listing other than ends of lines. *)
Definition fine (b : N) : Prop := 32 <= b < 256 /\ b <> 127.

Lemma digit_nth m : m < 16 -> nth_error digits (N.to_nat m) = Some (hex_digit false m) /\ nth_error capitals (N.to_nat m) = Some (hex_digit true m).
Proof.
  intros L. rewrite <- (N2Nat.id m). set (k := N.to_nat m). assert (Lk : (k < 16)%nat) by lia. clearbody k. rewrite Nat2N.id.
  do 16 (destruct k as [|k]; [split; reflexivity|]). lia.
Qed.

Lemma hex_hexadecimal fuel : forall n, n < 16 ^ N.of_nat fuel -> fuel <> O -> hexadecimal (hex fuel n) n.
Proof.
  induction fuel as [|fuel IH]; intros n L Z; [contradiction|]. cbn [hex].
  destruct (N.ltb_spec n 16) as [S|B].
  - rewrite <- (N2Nat.id n) at 2. apply hx_one. now apply digit_nth.
  - assert (Lm : n mod 16 < 16) by now apply N.mod_lt. rewrite (N.div_mod n 16) at 3 by discriminate.
    rewrite <- (N2Nat.id (n mod 16)) at 2. rewrite Nat2N.inj_succ, N.pow_succ_r' in L. apply hx_more.
    + apply IH.
      * apply N.div_lt_upper_bound; [discriminate|lia].
      * intros ->. cbn in L. lia.
    + intros X. apply N.div_small_iff in X; lia.
    + now apply digit_nth.
Qed.

Lemma debug_char_in_literal q shown c : scalar c -> in_literal shown (Char (encode c) c) (debug_char q shown (encode c) c).
Proof.
  intros Sc. unfold debug_char.
  destruct (N.eqb_spec c 0) as [->|N0]; [apply (il_short shown "0"), se_nul|].
  destruct (N.eqb_spec c 9) as [->|N1]; [apply (il_short shown "t"), se_tab|].
  destruct (N.eqb_spec c 10) as [->|N2]; [apply (il_short shown "n"), se_line|].
  destruct (N.eqb_spec c 13) as [->|N3]; [apply (il_short shown "r"), se_return|].
  destruct (N.eqb_spec c 34) as [->|N4]; [apply (il_short shown """"), se_double|].
  destruct (N.eqb_spec c 39) as [->|N5].
  { destruct q; [apply (il_short shown "'"), se_single|]. apply il_plain; [cbn; lia|discriminate|discriminate]. }
  destruct (N.eqb_spec c 92) as [->|N6]; [apply (il_short shown "\"), se_backslash|].
  assert (D : (if c <? 128 then (c <? 32) || (c =? 127) else negb (shown c)) = false <-> plain shown c).
  { unfold plain. destruct (N.ltb_spec c 128) as [L|L].
    - rewrite orb_false_iff, N.ltb_ge, N.eqb_neq. lia.
    - now rewrite negb_false_iff. }
  destruct (if c <? 128 then _ else _) eqn:E.
  - apply il_long.
    + intros P. apply D in P. discriminate P.
    + intros e S. inversion S; subst; contradiction.
    + apply hex_hexadecimal; [|discriminate]. change (16 ^ N.of_nat 8) with 4294967296. unfold scalar in Sc. lia.
  - apply il_plain; [now apply D|exact N4|exact N6].
Qed.

Lemma debug_piece_in_literal q shown x : sound x -> Forall (fun b => b < 256) (piece_bytes x) -> in_literal shown x (debug_piece q shown x).
Proof.
  destruct x as [p c|p]; cbn [sound debug_piece piece_bytes].
  - intros [-> S] _. now apply debug_char_in_literal.
  - intros _ F. rewrite flat_map_concat_map. apply il_broken. induction F as [|b p L F IH]; constructor; [|exact IH].
    rewrite (N.div_mod b 16) at 1 by discriminate. rewrite <- (N2Nat.id (b / 16)) at 1. rewrite <- (N2Nat.id (b mod 16)) at 1.
    apply be; apply digit_nth; [now apply N.div_lt_upper_bound|now apply N.mod_lt].
Qed.

Lemma digits_fine d n : nth_error digits n = Some d -> fine d.
Proof.
  intros E. apply nth_error_In in E. revert d E. apply Forall_forall. repeat constructor; discriminate.
Qed.
Lemma capitals_fine d n : nth_error capitals n = Some d -> fine d.
Proof.
  intros E. apply nth_error_In in E. revert d E. apply Forall_forall. repeat constructor; discriminate.
Qed.
Lemma hexadecimal_fine ds n : hexadecimal ds n -> Forall fine ds.
Proof.
  intros H. induction H as [d n E|ds n d k H IH N E]; [|apply Forall_app; split; [exact IH|]]; constructor; auto; now apply digits_fine in E.
Qed.

Lemma encode_high c : 128 <= c -> Forall (fun b => 128 <= b) (encode c).
Proof.
  intros L. unfold encode. rewrite (proj2 (N.ltb_ge c 128)) by exact L. destruct (c <? 2048), (c <? 65536); 
    repeat (apply Forall_cons; [match goal with |- _ <= _ + ?x => generalize x; intros; lia end|]); apply Forall_nil.
Qed.

Lemma in_literal_fine shown x t : in_literal shown x t -> Forall (fun b => b < 256) (piece_bytes x) -> Forall fine t.
Proof.
  intros H B. destruct H as [c P N1 N2|e c S|c ds P N H|p parts F]; cbn [piece_bytes] in B.
  - unfold plain in P. destruct (N.ltb_spec c 128) as [L|L].
    + unfold encode. rewrite (proj2 (N.ltb_lt c 128) L). apply Forall_cons; [unfold fine; lia|apply Forall_nil].
    + pose proof (encode_high c L) as Hi. rewrite Forall_forall in *. intros b I. specialize (Hi b I). specialize (B b I). unfold fine. lia.
  - destruct S; repeat constructor; discriminate.
  - do 3 (constructor; [split; [split|]; discriminate || reflexivity|]). apply Forall_app. split; [now apply hexadecimal_fine in H|].
    repeat constructor; discriminate.
  - clear B. induction F as [|b t p parts S F IH]; [constructor|]. cbn [concat]. apply Forall_app. split; [|exact IH]. destruct S as [h l i j Eh El].
    do 2 (constructor; [split; [split|]; discriminate || reflexivity|]). apply capitals_fine in Eh, El. auto.
Qed.

Lemma bytes_small (s : bytes) : Forall (fun b => b < 256) (map N_of_ascii s).
Proof. apply Forall_map, Forall_forall. intros a _. apply N_ascii_bounded. Qed.

Lemma small_bytes l : Forall (fun b => b < 256) l -> map N_of_ascii (map ascii_of_N l) = l.
Proof. intros F. induction F as [|b l L F IH]; [reflexivity|]. cbn [map]. now rewrite IH, N_ascii_embedding. Qed.

Lemma debug_pieces q shown s ps : reads_as (map N_of_ascii s) ps -> Forall (fun x => Forall (fun b => b < 256) (piece_bytes x)) ps /\
  Forall2 (in_literal shown) ps (map (debug_piece q shown) ps).
Proof.
  intros R. pose proof (reads_sound _ _ R) as W. pose proof (bytes_small s) as B. rewrite (reads_bytes _ _ R) in B. clear R. rewrite Forall_flat_map in B.
  split; [exact B|]. induction W as [|x ps W Ws IH]; [constructor|]. inversion B; subst. constructor; [now apply debug_piece_in_literal|auto].
Qed.

Lemma debug_fine q shown s : Forall fine (map N_of_ascii (debug q shown s)) /\ literal shown s (debug q shown s).
Proof.
  pose proof (proj1 (decode_iff (map N_of_ascii s) _) Logic.eq_refl) as R. destruct (debug_pieces q shown s _ R) as [B L]. unfold debug.
  set (ps := decode (map N_of_ascii s)) in *.
  assert (Q : fine #"""") by (split; [split|]; discriminate || reflexivity).
  assert (F : Forall fine (#"""" :: flat_map (debug_piece q shown) ps ++ [#""""])).
  { constructor; [exact Q|]. apply Forall_app. split; [|constructor; [exact Q|constructor]]. rewrite flat_map_concat_map.
    clear R. clearbody ps. induction L as [|x t ps ts H L IH]; [constructor|]. inversion B; subst. cbn [concat]. apply Forall_app.
    split; [now apply (in_literal_fine shown x)|auto]. }
  rewrite small_bytes; [|eapply Forall_impl; [|exact F]; unfold fine; lia].
  split; [exact F|]. exists ps, (map (debug_piece q shown) ps). split; [exact R|]. split; [exact L|].
  rewrite small_bytes; [|eapply Forall_impl; [|exact F]; unfold fine; lia]. now rewrite flat_map_concat_map.
Qed.

Lemma debug_printable q shown s : Forall printable (debug q shown s).
Proof.
  destruct (debug_fine q shown s) as [F _]. rewrite Forall_map in F. eapply Forall_impl; [|exact F]. unfold fine, printable, nat_of_ascii. lia.
Qed.

Lemma printable_not_newline l : Forall printable l -> ~ In newline l.
Proof. intros F I. rewrite Forall_forall in F. destruct (F _ I) as [L _]. apply Nat.leb_le in L. discriminate L. Qed.

Lemma stdout_lines q shown printed : has_lines (stdout q shown printed) (map (fun i => debug q shown (unsplit i)) printed).
Proof.
  split.
  - unfold stdout. induction printed as [|i l IH]; [reflexivity|]. cbn [flat_map map]. now rewrite IH.
  - apply Forall_map, Forall_forall. intros i _. apply printable_not_newline, debug_printable.
Qed.

Lemma has_lines_fun lines1 : forall text lines2, has_lines text lines1 -> has_lines text lines2 -> lines1 = lines2.
Proof.
  induction lines1 as [|l1 lines1 IH]; intros text lines2 [E1 F1] [E2 F2].
  - destruct lines2 as [|l2 lines2]; [reflexivity|]. subst. cbn in E2. destruct l2; discriminate.
  - destruct lines2 as [|l2 lines2]; [subst; cbn in E2; destruct l1; discriminate|]. rewrite E1 in E2. cbn [flat_map] in E2. rewrite <- !app_assoc in E2. cbn [app] in E2.
    inversion F1 as [|? ? N1 F1']; subst. inversion F2 as [|? ? N2 F2']; subst.
    assert (X : l1 = l2 /\ flat_map (fun l => l ++ [newline]) lines1 = flat_map (fun l => l ++ [newline]) lines2).
    { clear -E2 N1 N2. revert l2 N2 E2. induction l1 as [|a l1 IH]; intros [|b l2] N2 E2; cbn [app] in E2.
      - injection E2 as E2. auto.
      - injection E2 as E E2. exfalso. apply N2. now left.
      - injection E2 as E E2. exfalso. apply N1. now left.
      - injection E2 as E E2. subst b. destruct (IH (fun I => N1 (or_intror I)) l2 (fun I => N2 (or_intror I)) E2) as [-> ->]. auto. }
    destruct X as [-> X]. f_equal. apply (IH _ lines2 (conj eq_refl F1')). split; assumption.
Qed.


(** *** Literals *)

(** Characters, or bytes that belong to none. *)
Inductive token := TChar (c : char) | TByte (b : N).
Definition token_bytes (x : token) : list N := match x with TChar c => encode c | TByte b => [b] end.
Inductive in_token : token -> list N -> Prop :=
| it_plain : forall c, scalar c -> c <> #"""" -> c <> #"\" -> in_token (TChar c) (encode c)
| it_short : forall e c, short_escape e c -> in_token (TChar c) [#"\"; #e]
| it_long : forall c ds, hexadecimal ds c -> in_token (TChar c) (#"\" :: #"u" :: #"{" :: ds ++ [#"}"])
| it_byte : forall b t, byte_escape b t -> in_token (TByte b) t.

Lemma tokens shown ps : forall parts, Forall2 (in_literal shown) ps parts -> Forall sound ps ->
  exists ts tparts, Forall2 in_token ts tparts /\ concat tparts = concat parts /\ flat_map token_bytes ts = flat_map piece_bytes ps.
Proof.
  induction ps as [|x ps IH]; intros parts F W; inversion F as [|? t ? parts' H F']; subst.
  - exists [], []. repeat split. constructor.
  - inversion W as [|? ? S W']; subst. destruct (IH _ F' W') as (ts & tparts & G & E & B).
    assert (One : forall c, x = Char (encode c) c -> in_token (TChar c) t ->
      exists ts tparts, Forall2 in_token ts tparts /\ concat tparts = concat (t :: parts') /\ flat_map token_bytes ts = flat_map piece_bytes (x :: ps)).
    { intros c -> T. exists (TChar c :: ts), (t :: tparts). split; [now constructor|]. cbn [concat flat_map token_bytes piece_bytes]. now rewrite E, B. }
    destruct H as [c P N1 N2|e c Se|c ds P N H|p bs Fb]; [apply (One c Logic.eq_refl); constructor; auto; apply S|apply (One c Logic.eq_refl); now constructor..|].
    exists (map TByte p ++ ts), (bs ++ tparts). rewrite concat_app, flat_map_app, E, B. split; [|split; [reflexivity|]].
    + apply Forall2_app; [|exact G]. clear -Fb. induction Fb; constructor; [now constructor|assumption].
    + cbn [flat_map piece_bytes]. f_equal. clear. induction p as [|b p IH]; [reflexivity|]. cbn. now rewrite IH.
Qed.

Lemma encode_ascii c a s t : encode c ++ s = a :: t -> a < 128 -> c = a.
Proof.
  unfold encode. destruct (N.ltb_spec c 128) as [L|L]; intros E A.
  - now apply cons_inj in E as [-> _].
  - exfalso. pose proof (encode_high c L) as H. unfold encode in H. rewrite (proj2 (N.ltb_ge c 128)) in H by exact L.
    destruct (c <? 2048), (c <? 65536); cbn [app] in E; apply cons_inj in E as [E _]; apply Forall_inv in H; rewrite E in H;
      apply (N.lt_irrefl a), N.lt_le_trans with 128; assumption.
Qed.

Lemma hexadecimal_fun ds n m : hexadecimal ds n -> hexadecimal ds m -> n = m.
Proof.
  assert (D : forall i j d, nth_error digits i = Some d -> nth_error digits j = Some d -> i = j).
  { intros i j d Ei Ej. apply (proj1 (NoDup_nth_error digits)); [|apply nth_error_Some; congruence|congruence].
    repeat constructor; cbn; intuition discriminate. }
  intros A. revert m. induction A as [d n E|ds n d k A IH N E]; intros m B.
  - inversion B as [d' m' E'|ds' m' d' k' B' N' E' X]; subst; [f_equal; eauto|].
    destruct ds'; [inversion B' as [|? ? ? ? ? ? ? X']; destruct ds; discriminate X'|destruct ds'; discriminate X].
  - inversion B as [d' m' E' X|ds' m' d' k' B' N' E' X]; subst.
    + destruct ds; [inversion A as [|? ? ? ? ? ? ? X']; destruct ds; discriminate X'|destruct ds; discriminate X].
    + apply app_inj_tail in X as [-> ->]. rewrite (IH m' B'), (D k k' d E E'). reflexivity.
Qed.

Lemma hexadecimal_digits ds n : hexadecimal ds n -> ~ In #"}" ds.
Proof.
  assert (D : forall k d, nth_error digits k = Some d -> d <> #"}").
  { intros k d E ->. apply nth_error_In in E. cbn in E. repeat (destruct E as [E|E]; [discriminate E|]). exact E. }
  intros A. induction A as [d n E|ds n d k A IH N E]; [intros [->|[]]; exact (D _ _ E Logic.eq_refl)|].
  intros J. apply in_app_iff in J as [J|[->|[]]]; [exact (IH J)|exact (D _ _ E Logic.eq_refl)].
Qed.

Lemma until_brace (ds ds' r r' : list N) x : ~ In x ds -> ~ In x ds' -> (ds ++ [x]) ++ r = (ds' ++ [x]) ++ r' -> ds = ds' /\ r = r'.
Proof.
  rewrite <- !app_assoc. cbn [app]. revert ds'. induction ds as [|d ds IH]; intros [|d' ds'] N N' E; cbn [app] in E; apply cons_inj in E as [E1 E].
  - auto.
  - destruct N'. now left.
  - destruct N. now left.
  - subst d'. destruct (IH ds' (fun J => N (or_intror J)) (fun J => N' (or_intror J)) E) as [-> ->]. auto.
Qed.

Lemma byte_escape_prefix b b' t t' r r' : byte_escape b t -> byte_escape b' t' -> t ++ r = t' ++ r' -> b = b' /\ r = r'.
Proof.
  assert (D : forall i j d, nth_error capitals i = Some d -> nth_error capitals j = Some d -> i = j).
  { intros i j d Ei Ej. apply (proj1 (NoDup_nth_error capitals)); [|apply nth_error_Some; congruence|congruence].
    repeat constructor; cbn; intuition discriminate. }
  intros [h l i j Eh El] [h' l' i' j' Eh' El'] E. cbn [app] in E. do 4 apply cons_inj in E as [? E]; subst. split; [|reflexivity].
  rewrite (D i i' _ Eh Eh'), (D j j' _ El El'). reflexivity.
Qed.

(** What a backslash is followed by. *)
Lemma in_token_prefix x x' p p' r r' : in_token x p -> in_token x' p' -> p ++ r = p' ++ r' -> x = x' /\ r = r'.
Proof.
  assert (Plain : forall c s t, c <> #"\" -> encode c ++ s <> #"\" :: t).
  { intros c s t N E. apply encode_ascii in E; [contradiction|reflexivity]. }
  intros A B E. destruct A as [c Sc N1 N2|e c S|c ds H|b t Hb], B as [c' Sc' N1' N2'|e' c' S'|c' ds' H'|b' t' Hb'].
  - apply encode_prefix_free in E as [-> ->]; auto.
  - now apply Plain in E.
  - now apply Plain in E.
  - destruct Hb'. now apply Plain in E.
  - symmetry in E. now apply Plain in E.
  - cbn [app] in E. apply cons_inj in E as [_ E]. apply cons_inj in E as [Ee ->]. split; [|reflexivity]. f_equal. destruct S; destruct S'; try discriminate Ee; reflexivity.
  - cbn [app] in E. apply cons_inj in E as [_ E]. apply cons_inj in E as [Ee _]. destruct S; discriminate Ee.
  - destruct Hb'. cbn [app] in E. apply cons_inj in E as [_ E]. apply cons_inj in E as [Ee _]. destruct S; discriminate Ee.
  - symmetry in E. now apply Plain in E.
  - cbn [app] in E. apply cons_inj in E as [_ E]. apply cons_inj in E as [Ee _]. destruct S'; discriminate Ee.
  - cbn [app] in E. do 3 apply cons_inj in E as [_ E]. apply until_brace in E as [-> ->]; [|now apply hexadecimal_digits in H|now apply hexadecimal_digits in H'].
    split; [|reflexivity]. f_equal. exact (hexadecimal_fun _ _ _ H H').
  - destruct Hb'. cbn [app] in E. apply cons_inj in E as [_ E]. apply cons_inj in E as [Ee _]. discriminate Ee.
  - destruct Hb. symmetry in E. now apply Plain in E.
  - destruct Hb. cbn [app] in E. apply cons_inj in E as [_ E]. apply cons_inj in E as [Ee _]. destruct S'; discriminate Ee.
  - destruct Hb. cbn [app] in E. apply cons_inj in E as [_ E]. apply cons_inj in E as [Ee _]. discriminate Ee.
  - destruct (byte_escape_prefix _ _ _ _ _ _ Hb Hb' E) as [-> ->]. auto.
Qed.

Lemma in_token_head x p r : in_token x p -> p ++ r <> [#""""].
Proof.
  intros [c Sc N1 N2|e c S|c ds H|b t Hb] E.
  - apply encode_ascii in E; [contradiction|reflexivity].
  - discriminate E.
  - discriminate E.
  - destruct Hb. discriminate E.
Qed.

(** C108: a literal is of one string only. *)
Theorem C108_literals_are_unambiguous : forall shown1 shown2 s1 s2 t, literal shown1 s1 t -> literal shown2 s2 t -> s1 = s2.
Proof.
  intros sh1 sh2 s1 s2 t (ps1 & p1 & R1 & F1 & E1) (ps2 & p2 & R2 & F2 & E2). apply bytes_inj. rewrite E1 in E2. apply cons_inj in E2 as [_ E]. clear E1 t.
  rewrite (reads_bytes _ _ R1), (reads_bytes _ _ R2). apply reads_sound in R1, R2.
  destruct (tokens _ _ _ F1 R1) as (ts1 & q1 & G1 & X1 & <-), (tokens _ _ _ F2 R2) as (ts2 & q2 & G2 & X2 & <-). rewrite <- X1, <- X2 in E.
  f_equal. clear -G1 G2 E. revert ts2 q2 G2 E. induction G1 as [|c p ts1 q1 L G1 IH]; intros ts2 q2 G2 E; destruct G2 as [|c' p' ts2 q2 L' G2]; cbn [concat app] in E.
  - reflexivity.
  - rewrite <- app_assoc in E. symmetry in E. now destruct (in_token_head _ _ _ L' E).
  - rewrite <- app_assoc in E. now destruct (in_token_head _ _ _ L E).
  - rewrite <- !app_assoc in E. destruct (in_token_prefix _ _ _ _ _ _ L L' E) as [-> E']. f_equal. now apply (IH ts2 q2).
Qed.

(** C93. *)
Theorem C93_listing_text :
  forall quotes shown ctx ext d c o text d', main_output quotes shown ctx ext d c o text d' ->
    exists printed lines, main_run ctx ext d c o printed d' /\
      List.length lines = List.length printed /\ (forall lines', has_lines text lines' <-> lines' = lines) /\
      Forall (fun x => x = newline \/ printable x) text.
Proof.
  intros q shown ctx ext d c o text d' (printed & R & ->).
  exists printed, (map (fun i => debug q shown (unsplit i)) printed). split; [exact R|]. pose proof (stdout_lines q shown printed) as L.
  split; [apply map_length|]. split.
  - intros lines'. split; [|intros ->; exact L]. intros L'. exact (has_lines_fun _ _ _ L' L).
  - unfold stdout. apply Forall_flat_map, Forall_forall. intros i _. apply Forall_app. split; [|repeat constructor].
    eapply Forall_impl; [|apply debug_printable]. intros x P. now right.
Qed.

(** C93: reading back; the text alone, whatever the version of std that wrote it, says which ids were listed. *)
Theorem C93_listing_read_back :
  forall text q1 shown1 ctx1 ext1 d1 c1 o1 d1' q2 shown2 ctx2 ext2 d2 c2 o2 d2',
    main_output q1 shown1 ctx1 ext1 d1 c1 o1 text d1' -> main_output q2 shown2 ctx2 ext2 d2 c2 o2 text d2' ->
    exists printed1 printed2, main_run ctx1 ext1 d1 c1 o1 printed1 d1' /\ main_run ctx2 ext2 d2 c2 o2 printed2 d2' /\
      map unsplit printed1 = map unsplit printed2.
Proof.
  intros text q1 sh1 ctx1 ext1 d1 c1 o1 d1' q2 sh2 ctx2 ext2 d2 c2 o2 d2' (l1 & R1 & E1) (l2 & R2 & E2). exists l1, l2. split; [exact R1|]. split; [exact R2|].
  pose proof (stdout_lines q1 sh1 l1) as L1. pose proof (stdout_lines q2 sh2 l2) as L2. rewrite <- E1 in L1. rewrite <- E2 in L2.
  pose proof (has_lines_fun _ _ _ L1 L2) as E. clear -E. revert l2 E. induction l1 as [|i l1 IH]; intros [|j l2] E; try discriminate E; [reflexivity|].
  cbn [map] in *. apply cons_inj in E as [Ei E]. f_equal; [|now apply IH].
  apply (C108_literals_are_unambiguous sh1 sh2 _ _ (debug q1 sh1 (unsplit i))); [apply debug_fine|]. rewrite Ei. apply debug_fine.
Qed.

(** C108: each line of a listing is a literal of an id. *)
Theorem C108_lines_are_literals :
  forall quotes shown ctx ext d c o text d', main_output quotes shown ctx ext d c o text d' ->
    exists printed lines, main_run ctx ext d c o printed d' /\ has_lines text lines /\ Forall2 (literal shown) (map unsplit printed) lines.
Proof.
  intros q shown ctx ext d c o text d' (printed & R & ->). exists printed, (map (fun i => debug q shown (unsplit i)) printed).
  split; [exact R|]. split; [apply stdout_lines|].
  clear R. induction printed as [|i l IH]; constructor; [|exact IH]. apply debug_fine.
Qed.

(** ** Cases *)
Section Cases.
  Let s := list_ascii_of_string.
  Let ctx : path := [s "docs"].
  Let here (names : list string) : dir := Dir ([] :: map (fun n => [s n]) names) (fun _ => None).

  Example C92_case :
    modelled_ext (s "md") /\ ends_with_status True [[s "a"]] (Command (Some (s "./")) CDelete) 1 (Some "Error: nothing to apply"%string) /\
    ends_with_status True [[s "a"]] (Command (Some (s "a/.")) CDelete) 0 None.
  Proof.
    split; [|split].
    - exists [109; 100]%N. split; [now apply lossy_iff|]. unfold modelled. split; [intros I; cbn in I; repeat (destruct I as [I|I]; [discriminate I|]); destruct I|].
      split; [intros [|x [|y [|z a]]] c b E|intros [|x [|y [|z a]]] b E]; discriminate E.
    - apply es_delete_none; [exact I|]. intros j [<-|[]] S. discriminate S.
    - apply (es_delete _ _ _ [s "a"]); [exact I|now left|reflexivity].
  Qed.

  (** A name with a newline, a quote, a control character, "é", a zero-width space (not shown, U+200B) and a byte that is no character. *)
  Let latin : bytes := map ascii_of_N [195; 169].
  Let odd : bytes := s "a" ++ [newline] ++ s "b""\" ++ [ascii_of_nat 27] ++ latin ++ map ascii_of_N [226; 128; 139; 250].
  Let odd_dir : dir := Dir [[odd ++ s ".md"]; [s "d"; s "c.md"]] (fun _ => None).
  Let shown (c : char) : bool := negb (c =? 8203).
  Let line : bytes := s """a\nb\""\\\u{1b}" ++ latin ++ s "\u{200b}\xFA""".
  Example C93_case :
    main_output true shown ctx (s "md") odd_dir (Command None CList) (ORet RUnit) (line ++ [newline] ++ s """d/c""" ++ [newline]) odd_dir.
  Proof.
    exists [[odd]; [s "d"; s "c"]]. split; [|vm_compute; reflexivity]. apply C85_literal_extension_is_a_suffix.
    - exists [109; 100]%N. split; [now apply lossy_iff|].
      split; [repeat constructor|]; intros I; cbn in I; repeat (destruct I as [I|I]; [discriminate I|]); exact I.
    - apply list_plot. reflexivity.
  Qed.

  Let n (t : string) : list N := map N_of_ascii (s t).
  (** C108: the listing above holds the literals of those two ids. *)
  Example C108_case :
    literal shown odd line /\ literal shown (s "d/c") (s """d/c""") /\ (forall shown, ~ literal shown (s "A") (s """\u{41}""")) /\
    ~ literal shown latin (s """\u{e9}""") /\ ~ literal shown latin (s """\xC3\xA9""") /\ literal (fun _ => false) latin (s """\u{e9}""").
  Proof.
    assert (One : forall sh t c parts, decode (map N_of_ascii t) = [Char (encode c) c] -> Forall2 (in_literal sh) [Char (encode c) c] parts ->
      (exists p, parts = [p] /\ in_literal sh (Char (encode c) c) p)).
    { intros sh t c parts _ F. inversion F as [|? p ? ? L F']; subst. inversion F'; subst. eauto. }
    split; [|split; [|split; [|split; [|split]]]].
    - exists (decode (map N_of_ascii odd)), [n "a"; n "\n"; n "b"; n "\"""; n "\\"; n "\u{1b}"; [195; 169]; n "\u{200b}"; n "\xFA"].
      split; [now apply decode_iff|]. split; [|reflexivity].
      repeat apply Forall2_cons; try apply Forall2_nil.
      + apply (il_plain shown 97); [cbn; lia|discriminate|discriminate].
      + apply (il_short shown "n" 10), se_line.
      + apply (il_plain shown 98); [cbn; lia|discriminate|discriminate].
      + apply (il_short shown """" 34), se_double.
      + apply (il_short shown "\" 92), se_backslash.
      + apply (il_long shown 27 (n "1b")).
        * cbn. lia.
        * intros e S. inversion S.
        * apply (hx_more (n "1") 1 #"b" 11); [now apply (hx_one _ 1)|discriminate|reflexivity].
      + apply (il_plain shown 233); [reflexivity|discriminate|discriminate].
      + apply (il_long shown 8203 (n "200b")).
        * discriminate.
        * intros e S. inversion S.
        * apply (hx_more (n "200") 512 #"b" 11); [|discriminate|reflexivity]. apply (hx_more (n "20") 32 #"0" 0); [|discriminate|reflexivity].
          apply (hx_more (n "2") 2 #"0" 0); [now apply (hx_one _ 2)|discriminate|reflexivity].
      + apply (il_broken shown [250] [n "\xFA"]). constructor; [|constructor]. now apply (be #"F" #"A" 15 10).
    - exists (decode (n "d/c")), [n "d"; n "/"; n "c"]. split; [now apply decode_iff|]. split; [|reflexivity].
      constructor; [apply (il_plain shown 100)|constructor; [apply (il_plain shown 47)|constructor; [apply (il_plain shown 99)|constructor]]]; try discriminate; cbn; lia.
    - intros sh (ps & parts & R & F & E). apply decode_iff in R. subst ps. destruct (One sh (s "A") 65 parts Logic.eq_refl F) as (p & -> & L).
      cbn [concat] in E. rewrite app_nil_r in E.
      inversion L as [c P N1 N2 X Y|e c S X Y|c ds P N H X Y|]; subst; [discriminate E|inversion S|]. apply P. cbn. lia.
    - intros (ps & parts & R & F & E). apply decode_iff in R. subst ps. destruct (One shown latin 233 parts Logic.eq_refl F) as (p & -> & L).
      cbn [concat] in E. rewrite app_nil_r in E.
      inversion L as [c P N1 N2 X Y|e c S X Y|c ds P N H X Y|]; subst; [discriminate E|inversion S|]. now apply P.
    - intros (ps & parts & R & F & E). apply decode_iff in R. subst ps. destruct (One shown latin 233 parts Logic.eq_refl F) as (p & -> & L).
      cbn [concat] in E. rewrite app_nil_r in E.
      inversion L as [c P N1 N2 X Y|e c S X Y|c ds P N H X Y|]; subst; [discriminate E|inversion S|]. now apply P.
    - exists [Char (encode 233) 233], [n "\u{e9}"]. split; [now apply decode_iff|]. split; [|reflexivity]. constructor; [|constructor].
      apply (il_long _ 233 (n "e9")); [discriminate|intros e S; inversion S|].
      apply (hx_more (n "e") 14 #"9" 9); [now apply (hx_one _ 14)|discriminate|reflexivity].
  Qed.
End Cases.

Print Assumptions C92_exit_status.
Print Assumptions C93_listing_text.
Print Assumptions C93_listing_read_back.
Print Assumptions C108_lines_are_literals.
Print Assumptions C108_literals_are_unambiguous.
