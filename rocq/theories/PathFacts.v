(** Facts about paths. *)
From Coq Require Import List Bool Arith Ascii Lia.
From Verif Require Import Ord OrdFacts Path PathOrd Cli SpecCli.
Import ListNotations.

Lemma split_not_nil s : split s <> [].
Proof. destruct s as [|c s]; cbn; [discriminate|]. destruct (Ascii.eqb c slash); [discriminate|]. destruct (split s); discriminate. Qed.

Lemma unsplit_split s : unsplit (split s) = s.
Proof.
  induction s as [|c s IH]; [reflexivity|]. cbn [split]. pose proof (split_not_nil s) as N.
  destruct (Ascii.eqb_spec c slash) as [->|Ne].
  - destruct (split s) as [|x xs]; [contradiction|]. cbn [unsplit app] in *. now rewrite <- IH.
  - destruct (split s) as [|x [|y xs]]; [contradiction| |]; cbn [unsplit] in *; cbn [app]; now rewrite <- IH.
Qed.

Lemma split_seg s : ~ In slash s -> split s = [s].
Proof.
  induction s as [|c s IH]; [reflexivity|]. intros N. cbn [split].
  destruct (Ascii.eqb_spec c slash) as [->|Ne]; [destruct N; now left|]. rewrite IH; [reflexivity|]. intros I. apply N. now right.
Qed.

Lemma split_app s t : ~ In slash s -> split (s ++ slash :: t) = s :: split t.
Proof.
  induction s as [|c s IH]; cbn [app split].
  - intros _. now rewrite Ascii.eqb_refl.
  - intros N. destruct (Ascii.eqb_spec c slash) as [->|Ne]; [destruct N; now left|]. rewrite IH; [reflexivity|].
    intros I. apply N. now right.
Qed.

Lemma split_unsplit p : p <> [] -> Forall (fun s => ~ In slash s) p -> split (unsplit p) = p.
Proof.
  induction p as [|x p IH]; [contradiction|]. intros _ F. inversion F as [|? ? Nx Fp]; subst. destruct p as [|y p].
  - cbn. now apply split_seg.
  - change (unsplit (x :: y :: p)) with (x ++ slash :: unsplit (y :: p)). rewrite split_app by exact Nx.
    f_equal. apply IH; [discriminate|exact Fp].
Qed.

(** ** Components *)
Lemma body_app a b : body (a ++ b) = body a ++ body b.
Proof. induction a as [|s a IH]; cbn; [reflexivity|]. destruct (parse_single s); cbn; now rewrite IH. Qed.

Lemma parse_visible n : visible n -> parse_single n = Some (Normal n).
Proof.
  intros [_ (c & s & -> & Ne)]. cbn. destruct s as [|d [|e s]]; auto; destruct (Ascii.eqb_spec c dot); try contradiction; reflexivity.
Qed.

Lemma body_visible l : Forall visible l -> body l = map Normal l.
Proof. induction 1 as [|n l V _ IH]; [reflexivity|]. cbn. rewrite (parse_visible n V), IH. reflexivity. Qed.

Lemma visible_not_skipped n : visible n -> skipped n = false.
Proof. intros V. unfold skipped. now rewrite (parse_visible n V). Qed.

Lemma skipped_nil : skipped [] = true. Proof. reflexivity. Qed.

(** The directory part of a context: what precedes the names joined to it. *)
Definition base (p : path) : path := if ends_with_slash p then removelast p else p.

Lemma body_base p : body (base p) = body p.
Proof.
  unfold base, ends_with_slash. destruct p as [|s p] using rev_ind; [reflexivity|]. rewrite last_last.
  destruct s; [|reflexivity]. rewrite removelast_last, body_app. cbn. now rewrite app_nil_r.
Qed.

Lemma components_base p (l : list seg) : p <> [] -> l <> [] -> has_root l = false -> leads_cur_dir l = false \/ components p <> [] ->
  (hd [] l <> [] \/ components p <> []) ->
  components (base p ++ l) = components p ++ body l.
Proof.
  intros Np Nl Rl Cl Hl.
  assert (B : body (base p ++ l) = body p ++ body l) by (now rewrite body_app, body_base).
  destruct p as [|s p]; [contradiction|]. clear Np. destruct p as [|t p].
  - (* one segment *)
    unfold base, ends_with_slash in *. cbn [last] in *. destruct s as [|c s].
    + cbn [removelast app] in *. unfold components in *. rewrite Rl. cbn in Cl, Hl.
      destruct Cl as [Cl|Cl]; [|contradiction]. rewrite Cl. reflexivity.
    + cbn [app] in *. unfold components. cbn [has_root app]. destruct l as [|x l]; [contradiction|].
      destruct s as [|d s].
      * cbn [leads_cur_dir]. destruct (Ascii.eqb c dot); rewrite B; reflexivity.
      * cbn [leads_cur_dir]. rewrite B. reflexivity.
  - (* several *)
    assert (H : exists q, base (s :: t :: p) ++ l = s :: q /\ q <> []).
    { unfold base. destruct (ends_with_slash (s :: t :: p)).
      - cbn [removelast]. destruct p as [|u p]; cbn [app].
        + exists l. auto.
        + eexists. split; [reflexivity|]. discriminate.
      - cbn [app]. eexists. split; [reflexivity|]. discriminate. }
    destruct H as (q & Eq & Nq). unfold components. rewrite B. rewrite Eq.
    assert (R : has_root (s :: q) = has_root (s :: t :: p)) by (destruct s; [destruct q; [contradiction|]|]; reflexivity).
    assert (L : leads_cur_dir (s :: q) = leads_cur_dir (s :: t :: p)) by reflexivity.
    rewrite R, L. destruct (has_root (s :: t :: p)); [reflexivity|]. destruct (leads_cur_dir (s :: t :: p)); reflexivity.
Qed.

Lemma visible_head n l : visible n -> has_root (n :: l) = false /\ leads_cur_dir (n :: l) = false /\ n <> [].
Proof.
  intros [_ (c & s & -> & Ne)]. split; [reflexivity|]. split; [|discriminate]. cbn. destruct s; [|reflexivity].
  now destruct (Ascii.eqb_spec c dot).
Qed.

Lemma components_below p (l : list seg) : p <> [] -> l <> [] -> Forall visible l -> components (base p ++ l) = components p ++ map Normal l.
Proof.
  intros Np Nl V. rewrite <- (body_visible l V). destruct l as [|n l]; [contradiction|]. inversion V as [|? ? Vn Vl]; subst.
  destruct (visible_head n l Vn) as (R & L & N). apply components_base; auto.
Qed.

Lemma join_relative a b : has_root b = false -> join a b = base a ++ b.
Proof. intros R. unfold join, base. rewrite R. now destruct (ends_with_slash a). Qed.

Lemma base_snoc p n : n <> [] -> base (p ++ [n]) = p ++ [n].
Proof. intros N. unfold base, ends_with_slash. rewrite last_last. destruct n; [contradiction|reflexivity]. Qed.

Lemma entry_path_names r e : Forall visible e -> e <> [] -> entry_path r e = base (rp_context r) ++ e.
Proof.
  unfold entry_path. intros V Ne.
  assert (G : forall e p, p = base p -> Forall visible e -> fold_left (fun p n => join p [n]) e p = p ++ e).
  { clear. induction e as [|n e IH]; intros p Bp V; cbn [fold_left]; [now rewrite app_nil_r|].
    inversion V as [|? ? Vn Ve]; subst. destruct (visible_head n [] Vn) as (R & _ & N).
    rewrite join_relative, <- Bp by exact R. rewrite IH; [now rewrite <- app_assoc| |exact Ve]. symmetry. now apply base_snoc. }
  destruct e as [|n e]; [contradiction|]. cbn [fold_left]. inversion V as [|? ? Vn Ve]; subst.
  destruct (visible_head n [] Vn) as (R & _ & N). rewrite join_relative by exact R. rewrite G; [now rewrite <- app_assoc| |exact Ve].
  symmetry. now apply base_snoc.
Qed.

(** ** File names and extensions *)
Lemma rsplit_dot_app a b : rsplit_dot b = None -> rsplit_dot (a ++ dot :: b) = Some (a, b).
Proof.
  intros N. induction a as [|c a IH]; cbn [app rsplit_dot]; [now rewrite N|]. now rewrite IH.
Qed.

Lemma rsplit_dot_none b : rsplit_dot b = None <-> ~ In dot b.
Proof.
  induction b as [|c b IH]; [cbn; tauto|]. cbn [rsplit_dot In]. destruct (rsplit_dot b) as [[x y]|] eqn:E.
  - split; [discriminate|]. intros N. assert (In dot b) by (destruct IH as [_ IH]; destruct (in_dec Ascii.ascii_dec dot b); [assumption|discriminate (IH n)]).
    tauto.
  - destruct (Ascii.eqb_spec c dot) as [->|Ne]; [split; [discriminate|tauto]|]. split; [|reflexivity]. intros _ [X|X]; [auto|]. now apply IH.
Qed.

Lemma rsplit_dot_some s a b : rsplit_dot s = Some (a, b) -> s = a ++ dot :: b /\ ~ In dot b.
Proof.
  revert a b. induction s as [|c s IH]; intros a b E; [discriminate|]. cbn in E. destruct (rsplit_dot s) as [[x y]|] eqn:Es.
  - injection E as <- <-. destruct (IH _ _ eq_refl) as [-> N]. auto.
  - destruct (Ascii.eqb_spec c dot) as [->|Ne]; [|discriminate]. injection E as <- <-. split; [reflexivity|]. now apply rsplit_dot_none.
Qed.

Lemma stem_named pre ext : pre <> [] -> ~ In dot ext -> stem (pre ++ dot :: ext) = pre.
Proof. intros N D. unfold stem. rewrite rsplit_dot_app by (now apply rsplit_dot_none). destruct pre; [contradiction|reflexivity]. Qed.

Lemma stem_visible n : visible n -> visible (stem n).
Proof.
  intros V. unfold stem. destruct (rsplit_dot n) as [[[|c a] b]|] eqn:E; auto. apply rsplit_dot_some in E as [-> _].
  destruct V as [S (c' & s & Q & Ne)]. cbn in Q. injection Q as -> <-. split; [|eauto].
  intros I. apply S. apply in_or_app. now left.
Qed.

Lemma stem_fixed n : visible n -> (stem n = n <-> dotless n).
Proof.
  intros V. unfold stem, dotless. destruct (rsplit_dot n) as [[a b]|] eqn:E.
  - pose proof E as E'. apply rsplit_dot_some in E' as [-> N]. split.
    + destruct a as [|c a].
      * destruct V as [_ (c & s & Q & Ne)]. injection Q as <- _. contradiction.
      * intros Q. exfalso. apply (f_equal (@length _)) in Q. rewrite app_length in Q. cbn in Q. lia.
    + intros X. exfalso. apply X. apply in_or_app. right. now left.
  - apply rsplit_dot_none in E. tauto.
Qed.

Lemma trim_start_visible n l : visible n -> trim_start (n :: l) = n :: l.
Proof. intros V. cbn. now rewrite (visible_not_skipped n V). Qed.

Lemma trim_end_snoc p n : visible n -> trim_end (p ++ [n]) = p ++ [n].
Proof. intros V. unfold trim_end. rewrite rev_app_distr. cbn [rev app]. rewrite trim_start_visible by exact V. cbn. now rewrite rev_involutive. Qed.

Lemma file_name_snoc p d n : p <> [] -> Forall visible (d ++ [n]) -> file_name (base p ++ d ++ [n]) = Some n.
Proof.
  intros Np V. unfold file_name. rewrite components_below; auto; [|now destruct d].
  rewrite map_app, app_assoc. cbn [map]. now rewrite last_last.
Qed.

Lemma with_extension_snoc p d n ext : p <> [] -> Forall visible (d ++ [n]) ->
  with_extension (base p ++ d ++ [n]) ext = base p ++ d ++ [stem n ++ match ext with [] => [] | _ => dot :: ext end].
Proof.
  intros Np V. unfold with_extension. rewrite file_name_snoc by auto.
  assert (Vn : visible n) by (apply Forall_app in V as [_ V]; now inversion V).
  rewrite app_assoc, trim_end_snoc by exact Vn. rewrite removelast_last. now rewrite app_assoc.
Qed.

(** ** Stripping *)
Lemma is_prefix_app a b : is_prefix a (a ++ b) = true.
Proof.
  induction a as [|x a IH]; [reflexivity|]. cbn. change (comp_cmp x x) with (cmp x x). now rewrite cmp_refl.
Qed.

Lemma is_prefix_spec a b : is_prefix a b = true <-> exists c, b = a ++ c.
Proof.
  split; [|intros [c ->]; apply is_prefix_app]. revert b. induction a as [|x a IH]; intros b; [exists b; reflexivity|].
  destruct b as [|y b]; cbn; [intros P; discriminate P|]. change (comp_cmp x y) with (cmp x y). destruct (cmp x y) eqn:E; try (intros P; discriminate P).
  apply cmp_eq in E as ->. intros P. destruct (IH b P) as [c ->]. eauto.
Qed.

Lemma trim_drop xs ys : trim_start (drop_comps (length (body xs)) (xs ++ ys)) = trim_start ys.
Proof.
  induction xs as [|x xs IH]; [reflexivity|]. cbn [body app]. destruct (parse_single x) as [c|] eqn:E.
  - cbn [length drop_comps trim_start]. unfold skipped. rewrite E. exact IH.
  - assert (S : skipped x = true) by (unfold skipped; now rewrite E).
    destruct (length (body xs)) as [|n] eqn:L; cbn [drop_comps trim_start] in *; rewrite S; exact IH.
Qed.

Lemma strip_below p d n : p <> [] -> Forall visible (d ++ [n]) -> strip_prefix (base p ++ d ++ [n]) p = Some (d ++ [n]).
Proof.
  intros Np V. unfold strip_prefix. set (l := d ++ [n]) in *.
  assert (Nl : l <> []) by (unfold l; now destruct d).
  rewrite (components_below p l Np Nl V), is_prefix_app. f_equal.
  assert (Te : trim_end (trim_start l) = l).
  { destruct l as [|m l'] eqn:El; [contradiction|]. inversion V; subst. rewrite trim_start_visible by assumption.
    rewrite <- El. unfold l. apply trim_end_snoc. unfold l in El. rewrite <- El in V. apply Forall_app in V as [_ V]. now inversion V. }
  assert (Oe : or_empty l = l) by (unfold or_empty; now destruct l).
  assert (D : forall q, or_empty (trim_end (trim_start (drop_comps (length (body q)) (q ++ l)))) = l).
  { intros q. now rewrite trim_drop, Te, Oe. }
  destruct p as [|s p]; [contradiction|]. unfold components.
  destruct (has_root (s :: p)) eqn:R.
  - destruct p as [|t p]; [destruct s; discriminate|].
    assert (B : base (s :: t :: p) = s :: base (t :: p)).
    { unfold base, ends_with_slash. change (last (s :: t :: p) []) with (last (t :: p) []). now destruct (last (t :: p) []). }
    rewrite B. destruct s; [|discriminate]. change (body ([] :: t :: p)) with (body (t :: p)).
    cbn [app tl]. rewrite <- (body_base (t :: p)). apply D.
  - destruct (leads_cur_dir (s :: p)) eqn:L.
    + assert (B : exists q, base (s :: p) = s :: q /\ body q = body p).
      { unfold base, ends_with_slash. destruct p as [|t p].
        - exists []. cbn [last]. destruct s; [discriminate|auto].
        - change (last (s :: t :: p) []) with (last (t :: p) []). destruct (last (t :: p) []) eqn:E.
          + exists (removelast (t :: p)). split; [reflexivity|]. pose proof (body_base (t :: p)) as X. unfold base, ends_with_slash in X.
            now rewrite E in X.
          + exists (t :: p). auto. }
      destruct B as (q & -> & Bq). assert (Bs : body (s :: p) = body p).
      { destruct s as [|c [|c' s]]; try discriminate. cbn in L |- *. now rewrite L. }
      rewrite Bs, <- Bq. cbn [app tl]. apply D.
    + destruct (body (s :: p)) as [|c cs] eqn:Bd.
      * (* the empty context *)
        assert (E : base (s :: p) = []).
        { destruct p as [|t p].
          - destruct s as [|c s]; [reflexivity|]. exfalso. cbn in Bd, L. destruct s as [|c' [|c'' s]]; try discriminate.
            + rewrite L in Bd. discriminate.
            + destruct (Ascii.eqb c dot && Ascii.eqb c' dot); discriminate.
          - exfalso. destruct s as [|c s]; [discriminate|]. cbn in Bd, L. destruct s as [|c' [|c'' s]]; try discriminate.
            + rewrite L in Bd. discriminate.
            + destruct (Ascii.eqb c dot && Ascii.eqb c' dot); discriminate. }
        rewrite E. cbn [app]. unfold trim_whole. destruct l as [|m l'] eqn:El; [contradiction|].
        inversion V; subst. destruct (visible_head m l') as (Rm & Lm & _); [assumption|]. rewrite Rm, Lm. rewrite <- El.
        assert (T : trim_end l = l) by (unfold l; apply trim_end_snoc; unfold l in El; rewrite <- El in V; apply Forall_app in V as [_ V]; now inversion V).
        rewrite T. unfold or_empty; now rewrite El.
      * assert (NR : forall k, body k = c :: cs -> c <> RootDir /\ c <> CurDir).
        { intros k. induction k as [|x k IH]; cbn; [discriminate|]. destruct (parse_single x) as [c0|] eqn:P; [|exact IH].
          intros [= -> _]. unfold parse_single in P. destruct x as [|a [|b [|e x]]]; try discriminate.
          - destruct (Ascii.eqb a dot); [discriminate|]. injection P as <-. split; discriminate.
          - destruct (Ascii.eqb a dot && Ascii.eqb b dot); injection P as <-; split; discriminate.
          - injection P as <-. split; discriminate. }
        destruct (NR _ Bd) as [N1 N2]. rewrite <- (body_base (s :: p)) in Bd.
        destruct c; try contradiction; rewrite <- Bd; apply D.
Qed.
