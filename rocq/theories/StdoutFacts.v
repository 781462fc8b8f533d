(** Facts about a standard output that may fail. *)
From Coq Require Import List Bool Arith Ascii Lia.
From Verif Require Import Path Regex Stdout SpecStdout.
Import ListNotations.

Lemma reached_app h1 h2 : reached (h1 ++ h2) = reached h1 ++ reached h2.
Proof. unfold reached. now rewrite flat_map_app. Qed.

Lemma reached_took h b n : reached (h ++ [(b, Took n)]) = reached h ++ firstn n b.
Proof. rewrite reached_app. cbn -[firstn]. now rewrite app_nil_r. Qed.

Lemma reached_other h b a : (forall n, a <> Took n) -> reached (h ++ [(b, a)]) = reached h.
Proof. intros N. rewrite reached_app. cbn -[firstn]. destruct a; try (now rewrite app_nil_r). now destruct (N n). Qed.

(** All that was written or waits. *)
Definition tot (s : sink) : bytes := reached (fst s) ++ snd s.

(** Nothing waits when a line is complete. *)
Definition tidy (s : sink) : Prop := tot s = [] \/ (exists x, tot s = x ++ [newline]) -> snd s = [].

Lemma lines_of_none p : lines_of p = None -> ~ In newline p.
Proof.
  induction p as [|c p IH]; cbn [lines_of In]; intros E; [tauto|]. destruct (lines_of p) as [[l t]|]; [discriminate|]. destruct (Ascii.eqb_spec c newline); [discriminate|].
  intros [->|I]; [congruence|]. now apply IH.
Qed.

Lemma lines_of_some p : forall l t, lines_of p = Some (l, t) -> p = l ++ t /\ (exists x, l = x ++ [newline]) /\ ~ In newline t.
Proof.
  induction p as [|c p IH]; cbn [lines_of In]; intros l t E; [discriminate|]. destruct (lines_of p) as [[l' t']|] eqn:L.
  - injection E as <- <-. destruct (IH _ _ eq_refl) as (-> & (x & ->) & N). split; [reflexivity|]. split; [now exists (c :: x)|exact N].
  - destruct (Ascii.eqb_spec c newline) as [->|]; [|discriminate]. injection E as <- <-. split; [reflexivity|]. split; [now exists []|].
    now apply lines_of_none.
Qed.

Section Facts.
  Variable dev : device.
  Variable cap : nat.

  Notation puts := (puts dev).
  Notation flush := (flush dev).
  Notation buf_write := (buf_write dev cap).
  Notation bw_room := (bw_room dev cap).
  Notation complete := (complete dev).
  Notation line_write := (line_write dev cap).
  Notation write_fmt := (write_fmt dev cap).
  Notation listing := (listing dev cap).

  (** What every call of [write(2)] keeps is kept by all of them. *)
  Section Kept.
    Variable P : calls -> Prop.
    Hypothesis step : forall h b, b <> [] -> P h -> P (h ++ [(b, dev h b)]).

    Lemma puts_kept h b h' rest ok : puts h b h' rest ok -> P h -> P h'.
    Proof. intros X. induction X; intros K; auto; try (specialize (step h b H K); rewrite H0 in step; auto). Qed.
    Lemma flush_kept s s' ok : flush s s' ok -> P (fst s) -> P (fst s').
    Proof. intros [h b h' rest o X]. cbn. eapply puts_kept, X. Qed.
    Lemma buf_write_kept s p s' ok : buf_write s p s' ok -> P (fst s) -> P (fst s').
    Proof.
      intros [h b p0 L|s0 s1 p0 s2 o L F R|s0 s1 p0 L F] K; auto.
      - assert (P (fst s1)) by (destruct (_ <? _); [eapply flush_kept; eauto|now subst]).
        destruct R as [h b q h1 rest o1 L1 X|]; auto. eapply puts_kept; eauto.
      - eapply flush_kept; eauto.
    Qed.
    Lemma complete_kept s s' ok : complete s s' ok -> P (fst s) -> P (fst s').
    Proof. intros [h b s1 o F|] K; auto. eapply flush_kept in F; eauto. Qed.
    Lemma line_write_kept s p s' ok : line_write s p s' ok -> P (fst s) -> P (fst s').
    Proof.
      intros X K. destruct X;
        repeat match goal with
        | X : Stdout.complete _ _ _ _ |- _ => apply complete_kept in X; [|assumption]
        | X : Stdout.puts _ _ _ _ _ _ |- _ => apply puts_kept in X; [|assumption]
        | X : Stdout.flush _ _ _ _ |- _ => apply flush_kept in X; [|assumption]
        | X : Stdout.buf_write _ _ _ _ _ _ |- _ => apply buf_write_kept in X; [|assumption]
        end; assumption.
    Qed.
    Lemma write_fmt_kept s ps s' ok : write_fmt s ps s' ok -> P (fst s) -> P (fst s').
    Proof. intros X. induction X; intros K; auto; try (eapply line_write_kept in H; eauto). Qed.
    Lemma listing_kept s ls s' ok : listing s ls s' ok -> P (fst s) -> P (fst s').
    Proof. intros X. induction X; intros K; auto; try (eapply write_fmt_kept in H; eauto). Qed.
  End Kept.

  (** What a failure finds when every failing loop of calls finds it. *)
  Section Failed.
    Variable P : calls -> Prop.
    Hypothesis step : forall h b h' rest, puts h b h' rest false -> P h'.

    Lemma flush_failed s s' : flush s s' false -> P (fst s').
    Proof. intros X. inversion X; subst. cbn. eauto. Qed.
    Lemma buf_write_failed s p s' : buf_write s p s' false -> P (fst s').
    Proof. intros X. inversion X; subst; [|now eapply flush_failed; eauto]. inversion H1; subst. cbn. eauto. Qed.
    Lemma complete_failed s s' : complete s s' false -> P (fst s').
    Proof. intros X. inversion X; subst. eapply flush_failed; eauto. Qed.
    Lemma line_write_failed s p s' : line_write s p s' false -> P (fst s').
    Proof.
      intros X. inversion X; subst; cbn;
        solve [eapply buf_write_failed; eassumption | eapply complete_failed; eassumption | eapply flush_failed; eassumption | eauto].
    Qed.
    Lemma write_fmt_failed s ps s' ok : write_fmt s ps s' ok -> ok = false -> P (fst s').
    Proof. intros X. induction X; intros E; [discriminate|auto|now apply line_write_failed in H]. Qed.
    Lemma listing_failed s ls s' ok : listing s ls s' ok -> ok = false -> P (fst s').
    Proof. intros X. induction X; intros E; [discriminate|auto|now apply write_fmt_failed in H]. Qed.
  End Failed.

  Section Open.
    Hypothesis W : writable dev.
    Hypothesis C : 0 < cap.

    Lemma puts_split h b h' rest ok : puts h b h' rest ok ->
      (exists w, b = w ++ rest /\ reached h' = reached h ++ w) /\ (if ok then rest = [] else rest <> []).
    Proof.
      intros X. induction X.
      - split; [|reflexivity]. exists []. split; [reflexivity|symmetry; apply app_nil_r].
      - destruct IHX as [(w & E1 & E2) O]. split; [|exact O]. rewrite reached_took in E2. exists (firstn (S n) b ++ w).
        rewrite <- app_assoc, <- E1, firstn_skipn, E2, <- app_assoc. auto.
      - split; [|assumption]. exists []. rewrite reached_took. cbn. auto.
      - destruct IHX as [(w & E1 & E2) O]. split; [|exact O]. rewrite reached_other in E2 by discriminate. eauto.
      - now destruct (W h b H).
      - split; [|assumption]. exists []. rewrite reached_other by discriminate. rewrite app_nil_r. auto.
    Qed.

    Lemma flush_split s s' ok : flush s s' ok -> tot s' = tot s /\ (if ok then snd s' = [] else snd s' <> []).
    Proof.
      intros [h b h' rest o X]. apply puts_split in X as [(w & -> & E) O]. split; [|exact O]. unfold tot. cbn [fst snd]. now rewrite E, <- app_assoc.
    Qed.

    (** A failure: part of [p] is written or waits, and not all that was to be written reached the file. *)
    Definition short (s : sink) (p : bytes) (s' : sink) : Prop := exists q r, p = q ++ r /\ tot s' = tot s ++ q /\ (r <> [] \/ snd s' <> []).
    Definition wrote (s : sink) (p : bytes) (s' : sink) (ok : bool) : Prop := if ok then tot s' = tot s ++ p else short s p s'.

    Lemma short_none s p s' : tot s' = tot s -> p <> [] \/ snd s' <> [] -> short s p s'.
    Proof. intros E N. exists [], p. rewrite app_nil_r. auto. Qed.

    Lemma short_more s p p' s' : short s p s' -> short s (p ++ p') s'.
    Proof.
      intros (q & r & -> & E & N). exists q, (r ++ p'). rewrite <- app_assoc. split; [reflexivity|]. split; [exact E|].
      destruct N as [N|N]; [left|now right]. destruct r; [congruence|discriminate].
    Qed.

    Lemma wrote_after s p s1 p' s' ok : tot s1 = tot s ++ p -> wrote s1 p' s' ok -> wrote s (p ++ p') s' ok.
    Proof.
      intros E. destruct ok; cbn.
      - intros ->. now rewrite E, app_assoc.
      - intros (q & r & -> & E' & N). exists (p ++ q), r. rewrite <- app_assoc, E', E, <- app_assoc. auto.
    Qed.

    Lemma wrote_same s p s1 s' ok : tot s1 = tot s -> wrote s1 p s' ok -> wrote s p s' ok.
    Proof. intros E. apply (wrote_after s [] s1 p s' ok). now rewrite app_nil_r. Qed.

    Lemma puts_wrote h b h' rest ok : puts h b h' rest ok -> wrote (h, []) b (h', []) ok.
    Proof.
      intros X. apply puts_split in X as [(w & -> & E) O]. unfold wrote, short, tot. cbn [fst snd]. rewrite !app_nil_r. destruct ok.
      - subst rest. now rewrite app_nil_r.
      - exists w, rest. auto.
    Qed.

    Lemma room_wrote s p s' ok : (snd s = [] \/ length p < cap) -> bw_room s p s' ok ->
      wrote s p s' ok /\ (p = [] -> s' = s).
    Proof.
      intros Z X0. destruct X0 as [h b q h1 rest o1 L1 X|h b q L1]; cbn [snd] in Z.
      - assert (b = []) as -> by (destruct Z; [assumption|lia]). split; [now apply puts_wrote in X|]. intros ->. cbn in L1. lia.
      - unfold wrote, tot. cbn [fst snd]. rewrite app_assoc. split; [reflexivity|]. intros ->. now rewrite app_nil_r.
    Qed.

    Lemma buf_write_split s p s' ok : buf_write s p s' ok -> wrote s p s' ok /\ (p = [] -> s' = s).
    Proof.
      intros [h b p0 L|s0 s1 p0 s2 o L F R|s0 s1 p0 L F].
      - unfold wrote, tot. cbn [fst snd]. rewrite app_assoc. split; [reflexivity|]. intros ->. now rewrite app_nil_r.
      - destruct (Nat.ltb_spec (cap - length (snd s0)) (length p0)) as [K|K].
        + apply flush_split in F as [T N]. apply room_wrote in R as [R _]; [|now left]. split; [now apply (wrote_same _ _ s1)|].
          intros ->. cbn in K. lia.
        + subst s1. apply room_wrote in R; [exact R|]. destruct (snd s0) eqn:B; [now left|]. right. cbn in L, K. lia.
      - apply flush_split in F as [T N]. split; [|intros ->; cbn in L; lia]. apply short_none; auto.
    Qed.

    Lemma complete_split s s' ok : complete s s' ok -> tot s' = tot s /\ (ok = false -> snd s' <> []) /\ (ok = true -> s' = s \/ snd s' = []).
    Proof.
      intros [h b s1 o F|h b N].
      - apply flush_split in F as [E O]. split; [exact E|]. destruct o; split; intros; try discriminate; auto.
      - split; [reflexivity|]. split; intros; [discriminate|auto].
    Qed.

    Lemma last_newline (a b : bytes) : b <> [] -> ~ In newline b -> ~ (exists x, a ++ b = x ++ [newline]).
    Proof.
      intros N I (x & E). destruct (exists_last N) as (b' & c & ->). rewrite app_assoc in E. apply app_inj_tail in E as [_ ->].
      apply I. rewrite in_app_iff. right. now left.
    Qed.

    Lemma tidy_after s p s' : (p = [] -> tidy s') -> ~ In newline p -> tot s' = tot s ++ p -> tidy s'.
    Proof.
      intros Z I E. destruct p as [|c p]; [auto|]. intros [K|K].
      - rewrite E in K. destruct (tot s); discriminate.
      - rewrite E in K. now apply last_newline in K; [|discriminate|].
    Qed.

    Lemma line_write_split s p s' ok : line_write s p s' ok -> tidy s -> wrote s p s' ok /\ (ok = true -> tidy s').
    Proof.
      intros X T. destruct X as [s p s1 s' ok L Cm B|s p s' L Cm|h p l t h1 rest s' ok L X B|h p l t h1 rest L X|h b p l t s1 s2 s' ok Nb L X F B|
        h b p l t s' Nb L X|h b p l t s1 s' Nb L X F].
      - apply complete_split in Cm as (E & _ & Cm). specialize (Cm eq_refl). apply buf_write_split in B as [B Z]. split; [now apply (wrote_same _ _ s1)|].
        intros ->. unfold wrote in B. apply (tidy_after s1 p); [|now apply lines_of_none|exact B]. intros P. rewrite (Z P).
        destruct Cm as [-> |Cm]; [exact T|]. intros _. exact Cm.
      - apply complete_split in Cm as (E & Cm & _). split; [|discriminate]. apply short_none; auto.
      - destruct (lines_of_some _ _ _ L) as (-> & _ & I). apply puts_wrote in X. unfold wrote in X. apply buf_write_split in B as [B Z].
        split; [apply (wrote_after _ _ (h1, [])); assumption|]. intros ->. unfold wrote in B. apply (tidy_after (h1, []) t); [|assumption|exact B].
        intros P. rewrite (Z P). intros _. reflexivity.
      - destruct (lines_of_some _ _ _ L) as (-> & _ & I). apply puts_wrote in X. unfold wrote in X. split; [|discriminate]. now apply short_more.
      - destruct (lines_of_some _ _ _ L) as (-> & _ & I). apply buf_write_split in X as [X _]. unfold wrote in X. apply flush_split in F as [E Z2].
        apply buf_write_split in B as [B Z]. split; [apply (wrote_after _ _ s2); [congruence|exact B]|]. intros ->. unfold wrote in B.
        apply (tidy_after s2 t); [|assumption|exact B]. intros P. rewrite (Z P). intros _. exact Z2.
      - destruct (lines_of_some _ _ _ L) as (-> & _ & I). apply buf_write_split in X as [X _]. split; [|discriminate]. now apply short_more.
      - destruct (lines_of_some _ _ _ L) as (-> & _ & I). apply buf_write_split in X as [X _]. unfold wrote in X. apply flush_split in F as [E Z2].
        split; [|discriminate]. apply short_more. exists l, []. rewrite app_nil_r. split; [reflexivity|]. split; [congruence|now right].
    Qed.

    Lemma write_fmt_split s ps s' ok : write_fmt s ps s' ok -> tidy s -> wrote s (concat ps) s' ok /\ (ok = true -> tidy s').
    Proof.
      intros X. induction X as [s|s p s1 ps s' ok L X IH|s p ps s' L]; intros T; cbn [concat].
      - split; [|auto]. cbn. now rewrite app_nil_r.
      - apply line_write_split in L as [L T1]; [|exact T]. destruct (IH (T1 eq_refl)) as [A B]. split; [|exact B]. eapply wrote_after; eassumption.
      - apply line_write_split in L as [L _]; [|exact T]. split; [|discriminate]. now apply short_more.
    Qed.

    Lemma listing_split s ls s' ok : listing s ls s' ok -> tidy s -> wrote s (concat (map (@concat _) ls)) s' ok /\ (ok = true -> tidy s').
    Proof.
      intros X. induction X as [s|s p s1 ps s' ok L X IH|s p ps s' L]; intros T; cbn [concat map].
      - split; [|auto]. cbn. now rewrite app_nil_r.
      - apply write_fmt_split in L as [L T1]; [|exact T]. destruct (IH (T1 eq_refl)) as [A B]. split; [|exact B]. eapply wrote_after; eassumption.
      - apply write_fmt_split in L as [L _]; [|exact T]. split; [|discriminate]. now apply short_more.
    Qed.
  End Open.

  (** Where every loop of calls ends, so does all the rest. *)
  Section Total.
    Hypothesis P : forall h b, exists h' rest ok, puts h b h' rest ok.

    Lemma flush_total s : exists s' ok, flush s s' ok.
    Proof. destruct s as [h b]. destruct (P h b) as (h' & rest & ok & X). exists (h', rest), ok. now constructor. Qed.
    Lemma room_total s p : exists s' ok, bw_room s p s' ok.
    Proof.
      destruct s as [h b]. destruct (le_lt_dec cap (length p)).
      - destruct (P h p) as (h' & rest & ok & X). exists (h', b), ok. econstructor; eauto.
      - eexists _, _. now apply bw_buffered.
    Qed.
    Lemma buf_write_total s p : exists s' ok, buf_write s p s' ok.
    Proof.
      destruct s as [h b]. destruct (le_lt_dec (cap - length b) (length p)) as [L|L]; [|eexists _, _; now apply bw_fits].
      destruct (Nat.ltb_spec (cap - length b) (length p)) as [K|K].
      - destruct (flush_total (h, b)) as (s1 & [|] & F); [|eexists _, _; eapply bw_stuck; eauto].
        destruct (room_total s1 p) as (s' & ok & R). exists s', ok. eapply bw_cold; eauto. apply Nat.ltb_lt in K. cbn [snd]. now rewrite K.
      - destruct (room_total (h, b) p) as (s' & ok & R). exists s', ok. eapply bw_cold; eauto. apply Nat.ltb_ge in K. cbn [snd]. now rewrite K.
    Qed.
    Lemma complete_total s : exists s' ok, complete s s' ok.
    Proof.
      destruct s as [h b]. destruct b as [|c b _] using rev_ind; [eexists _, _; apply complete_not; now intros []|].
      destruct (Ascii.ascii_dec c newline) as [->|N].
      - destruct (flush_total (h, b ++ [newline])) as (s' & ok & F). exists s', ok. now constructor.
      - eexists _, _. apply complete_not. intros b' E. apply app_inj_tail in E as [_ E]. congruence.
    Qed.
    Lemma line_write_total s p : exists s' ok, line_write s p s' ok.
    Proof.
      destruct (lines_of p) as [[l t]|] eqn:L.
      - destruct s as [h b]. destruct b as [|c b].
        + destruct (P h l) as (h1 & rest & [|] & X); [|eexists _, _; eapply lw_empty_stuck; eauto].
          destruct (buf_write_total (h1, []) t) as (s' & ok & B). exists s', ok. eapply lw_empty; eauto.
        + destruct (buf_write_total (h, c :: b) l) as (s1 & [|] & B); [|eexists _, _; eapply lw_more_stuck; eauto; discriminate].
          destruct (flush_total s1) as (s2 & [|] & F); [|eexists _, _; eapply lw_more_flush; eauto; discriminate].
          destruct (buf_write_total s2 t) as (s' & ok & B'). exists s', ok. eapply lw_more; eauto. discriminate.
      - destruct (complete_total s) as (s1 & [|] & K); [|exists s1, false; now apply lw_none_stuck].
        destruct (buf_write_total s1 p) as (s' & ok & B). exists s', ok. eapply lw_none; eauto.
    Qed.
    Lemma write_fmt_total ps : forall s, exists s' ok, write_fmt s ps s' ok.
    Proof.
      induction ps as [|p ps IH]; intros s; [eexists _, _; constructor|].
      destruct (line_write_total s p) as (s1 & [|] & L); [|exists s1, false; now apply wf_error].
      destruct (IH s1) as (s' & ok & X). exists s', ok. eapply wf_next; eauto.
    Qed.
    Lemma listing_total ls : forall s, exists s' ok, listing s ls s' ok.
    Proof.
      induction ls as [|p ls IH]; intros s; [eexists _, _; constructor|].
      destruct (write_fmt_total p s) as (s1 & [|] & L); [|exists s1, false; now apply li_error].
      destruct (IH s1) as (s' & ok & X). exists s', ok. eapply li_next; eauto.
    Qed.
  End Total.

  Lemma puts_total : uninterrupted dev -> forall h b, exists h' rest ok, puts h b h' rest ok.
  Proof.
    intros U h b. remember (length b) as n eqn:E. assert (L : length b <= n) by lia. clear E. revert h b L.
    induction n as [|n IH]; intros h b L.
    - destruct b; [|cbn in L; lia]. eexists _, _, _. constructor.
    - destruct b as [|c b]; [eexists _, _, _; constructor|]. destruct (dev h (c :: b)) as [[|m]| | |] eqn:D.
      + eexists _, _, _. apply puts_zero; auto. discriminate.
      + destruct (IH (h ++ [(c :: b, Took (S m))]) (skipn (S m) (c :: b))) as (h' & rest & ok & X).
        { rewrite skipn_length. cbn in *. lia. }
        exists h', rest, ok. eapply puts_took; eauto. discriminate.
      + destruct (U h (c :: b)); [discriminate|exact D].
      + eexists _, _, _. apply puts_not_open; auto. discriminate.
      + eexists _, _, _. apply puts_fails; auto. discriminate.
  Qed.
End Facts.
