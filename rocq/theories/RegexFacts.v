(** Facts about regular expressions: the parser follows the grammar, the matcher finds the matches. *)
From Coq Require Import List Bool Arith NArith Ascii Lia.
From Verif Require Import Ord Path Utf8 SpecUtf8 Utf8Facts Regex SpecRegex.
Import ListNotations.
Local Open Scope char_scope.

(** ** The parser *)

Definition is_op (c : char) : bool := match kind_of c with KStar | KPlus | KOption | KCount => true | _ => false end.
Definition no_op (s : text) : Prop := match s with [] => True | c :: _ => is_op c = false end.

(** The characters, by kind. *)
Lemma kind_spec c :
  match kind_of c with
  | KLiteral => literal c
  | KStar => c = #"*" | KPlus => c = #"+" | KOption => c = #"?" | KBar => c = #"|" | KOpen => c = #"(" | KClose => c = #")"
  | KAny => c = #"." | KBegin => c = #"^" | KEnd => c = #"$" | KEscape => c = #"\" | KClass => c = #"[" | KCount => c = #"{"
  end.
Proof.
  assert (L : forall c, kind_of c = KLiteral -> literal c).
  { clear. intros c E I. cbn in I. repeat (destruct I as [<-|I]; [discriminate E|]). exact I. }
  destruct (kind_of c) eqn:E; [now apply L|..]; unfold kind_of in E; destruct (N.ltb_spec 127 c) as [|H]; try discriminate;
    rewrite <- (N_ascii_embedding c) by lia; destruct (ascii_of_N c) as [[] [] [] [] [] [] [] []]; try discriminate E; reflexivity.
Qed.

Lemma kind_literal c : literal c -> kind_of c = KLiteral.
Proof.
  intros L. pose proof (kind_spec c) as K. destruct (kind_of c); [reflexivity|..]; exfalso; apply L; rewrite K; cbn; tauto.
Qed.

(** Numbers. *)
Lemma digit_spec c d : digit c = Some d <-> is_digit c d.
Proof.
  unfold digit, is_digit. change (#"0") with 48%N. change (#"9") with 57%N.
  destruct (N.leb_spec 48 c) as [L|L], (N.leb_spec c 57) as [U|U]; cbn [andb]; split; try discriminate; try (intros [D E]; exfalso; lia).
  - intros [= <-]. lia.
  - intros [D ->]. f_equal. lia.
Qed.

(** A number that goes on: the digits before, if there are any. *)
Definition begun (acc : option nat) (u : text) : Prop := match acc with None => u = [] | Some n => is_number u n end.
Definition no_digit (s : text) : Prop := match s with [] => True | c :: _ => digit c = None end.

Lemma number_spec s : forall acc o t u, begun acc u -> number acc s = (o, t) -> no_digit t /\ exists v, s = v ++ t /\ begun o (u ++ v).
Proof.
  induction s as [|c s IH]; intros acc o t u Bg E; cbn [number] in E.
  - injection E as <- <-. split; [exact I|]. exists []. split; [reflexivity|]. now rewrite app_nil_r.
  - destruct (digit c) as [d|] eqn:D.
    + apply digit_spec in D. assert (Bg' : begun (Some (10 * match acc with Some n => n | None => 0 end + d)) (u ++ [c])).
      { destruct acc as [n|]; cbn [begun] in *; [now constructor|]. subst u. now constructor. }
      destruct (IH _ _ _ _ Bg' E) as (N & v & -> & B). split; [exact N|]. exists (c :: v). split; [reflexivity|]. now rewrite <- app_assoc in B.
    + injection E as <- <-. split; [exact D|]. exists []. split; [reflexivity|]. now rewrite app_nil_r.
Qed.

Lemma number_complete u n t : is_number u n -> no_digit t -> number None (u ++ t) = (Some n, t).
Proof.
  intros W N. assert (X : number None (u ++ t) = number (Some n) t).
  { clear N. revert t. induction W as [c d D|u n c d W IH D]; intros t.
    - cbn [app number]. apply digit_spec in D. rewrite D. reflexivity.
    - rewrite <- app_assoc. cbn [app]. rewrite IH. cbn [number]. apply digit_spec in D. rewrite D. reflexivity. }
  rewrite X. destruct t as [|c t]; [reflexivity|]. cbn [number]. cbn [no_digit] in N. now rewrite N.
Qed.

(** Blanks. *)
Lemma blank_spec c : blank c = true <-> is_blank c.
Proof.
  split.
  - unfold blank, is_blank. rewrite existsb_exists. intros ([x y] & I & E). cbn [fst snd] in E. apply andb_true_iff in E. rewrite !N.leb_le in E.
    cbn in I. repeat (destruct I as [I|I]; [injection I as <- <-; cbn; lia|]). destruct I.
  - intros I. revert c I. apply forallb_forall. reflexivity.
Qed.

Definition no_blank (s : text) : Prop := match s with [] => True | c :: _ => blank c = false end.

Lemma skip_blanks_spec s : exists b, s = b ++ skip_blanks s /\ Forall is_blank b.
Proof.
  induction s as [|c s (b & E & F)]; [now exists []|]. cbn [skip_blanks]. destruct (blank c) eqn:B.
  - exists (c :: b). split; [cbn; now f_equal|]. constructor; [now apply blank_spec|exact F].
  - now exists [].
Qed.

Lemma skip_blanks_app b t : Forall is_blank b -> no_blank t -> skip_blanks (b ++ t) = t.
Proof.
  intros F N. induction F as [|c b B F IH]; cbn [app].
  - destruct t as [|c t]; [reflexivity|]. cbn [skip_blanks]. cbn [no_blank] in N. now rewrite N.
  - cbn [skip_blanks]. apply blank_spec in B. now rewrite B.
Qed.

Lemma blank_digit c : is_blank c -> digit c = None.
Proof. intros I. cbn in I. repeat (destruct I as [<-|I]; [reflexivity|]). destruct I. Qed.

Lemma number_head s n t : is_number s n -> no_blank (s ++ t).
Proof.
  intros W. assert (X : exists c s' d, s = c :: s' /\ is_digit c d).
  { induction W as [c d D|s n c d W (c' & s' & d' & -> & D') D]; [now exists c, [], d|]. now exists c', (s' ++ [c]), d'. }
  destruct X as (c & s' & d & -> & D). cbn [app no_blank]. destruct (blank c) eqn:B; [|reflexivity]. apply blank_spec, blank_digit in B. apply digit_spec in D. congruence.
Qed.

Lemma decimal_sound s n t : decimal s = (Some n, t) -> exists u, s = u ++ t /\ is_count u n.
Proof.
  unfold decimal. destruct (skip_blanks_spec s) as (a & Ea & Fa). destruct (number None (skip_blanks s)) as [o s1] eqn:E1.
  destruct (number_spec _ None o s1 [] Logic.eq_refl E1) as (_ & v & Ev & B). cbn [app] in B. destruct (skip_blanks_spec s1) as (b & Eb & Fb).
  intros [= -> <-]. exists (a ++ v ++ b). split; [|now constructor]. rewrite Ea, Ev, Eb at 1. now rewrite <- !app_assoc.
Qed.

Lemma decimal_complete u n t : is_count u n -> no_digit t -> no_blank t -> decimal (u ++ t) = (Some n, t).
Proof.
  intros C D B. destruct C as [a s b n Fa W Fb]. unfold decimal. rewrite <- !app_assoc.
  rewrite (skip_blanks_app a (s ++ b ++ t) Fa (number_head s n _ W)).
  rewrite (number_complete s n (b ++ t) W); [now rewrite (skip_blanks_app b t Fb B)|].
  destruct Fb as [|c b Bc Fb]; [exact D|]. now apply blank_digit.
Qed.

Lemma count_head u n t : is_count u n -> exists c r, u ++ t = c :: r /\ c <> #"}".
Proof.
  intros C. destruct C as [a s b n Fa W Fb]. destruct Fa as [|c a B Fa].
  - cbn [app]. assert (X : exists c s' d, s = c :: s' /\ is_digit c d).
    { clear -W. induction W as [c d D|s n c d W (c' & s' & d' & -> & D') D]; [now exists c, [], d|]. now exists c', (s' ++ [c]), d'. }
    destruct X as (c & s' & d & -> & D). exists c, ((s' ++ b) ++ t). split; [reflexivity|]. intros ->. apply digit_spec in D. discriminate D.
  - exists c, ((a ++ s ++ b) ++ t). split; [reflexivity|]. intros ->. apply blank_spec in B. discriminate B.
Qed.

Lemma bounds_sound s n m t : bounds s = POk (n, m, t) -> exists u, s = u ++ t /\ writes_op (#"{" :: u) (fun a => RRepeat a n m).
Proof.
  unfold bounds. destruct (decimal s) as [[n0|] s1] eqn:E1; [|discriminate]. destruct (decimal_sound _ _ _ E1) as (v & -> & B).
  destruct s1 as [|c s1]; [discriminate|]. destruct (N.eqb_spec c #"}") as [->|_].
  { intros [= <- <- <-]. exists (v ++ [#"}"]). split; [now rewrite <- app_assoc|]. now constructor. }
  destruct (N.eqb_spec c #",") as [->|_]; cbn [negb]; [|discriminate]. destruct s1 as [|d s1]; [discriminate|].
  destruct (N.eqb_spec d #"}") as [->|_].
  { intros [= <- <- <-]. exists (v ++ [#","; #"}"]). split; [now rewrite <- app_assoc|]. now constructor. }
  destruct (decimal (d :: s1)) as [[m0|] s2] eqn:E2; [|discriminate]. destruct (decimal_sound _ _ _ E2) as (w & Ew & B').
  destruct s2 as [|e s2]; [discriminate|]. destruct (N.eqb_spec e #"}") as [->|_]; cbn [negb]; [|discriminate].
  destruct (Nat.ltb_spec m0 n0) as [|L]; [discriminate|]. intros [= <- <- <-]. exists (v ++ #"," :: w ++ [#"}"]).
  split; [rewrite Ew, <- app_assoc; cbn [app]; now rewrite <- app_assoc|]. now apply wo_between.
Qed.

Lemma bounds_known s : bounds s <> PUnsupported.
Proof.
  unfold bounds. destruct (decimal s) as [[n|] [|c t]]; try discriminate. destruct (N.eqb c #"}"); [discriminate|]. destruct (N.eqb c #","); cbn [negb]; [|discriminate].
  destruct t as [|d u]; [discriminate|]. destruct (N.eqb d #"}"); [discriminate|]. destruct (decimal (d :: u)) as [[m|] [|e v]]; try discriminate.
  destruct (N.eqb e #"}"); cbn [negb]; [|discriminate]. destruct (Nat.ltb m n); discriminate.
Qed.

Lemma operator_sound s f t : operator s = Some (POk (f, t)) -> exists o, s = o ++ t /\ o <> [] /\ writes_op o f.
Proof.
  destruct s as [|c s]; [discriminate|]. cbn [operator]. pose proof (kind_spec c) as K. destruct (kind_of c); try discriminate; subst c.
  - intros [= <- <-]. exists [#"*"]. repeat split; [discriminate|constructor].
  - intros [= <- <-]. exists [#"+"]. repeat split; [discriminate|constructor].
  - intros [= <- <-]. exists [#"?"]. repeat split; [discriminate|constructor].
  - destruct (bounds s) as [[[n m] u]| |] eqn:B; try discriminate. intros [= <- <-]. destruct (bounds_sound _ _ _ _ B) as (v & -> & W).
    exists (#"{" :: v). repeat split; [discriminate|exact W].
Qed.

Lemma operator_complete o f t : writes_op o f -> operator (o ++ t) = Some (POk (f, t)).
Proof.
  intros W. destruct W as [| | |s n W|s n W|s n s' m W W' L]; try reflexivity; cbn [app operator]; change (kind_of #"{") with KCount; cbn iota; unfold bounds.
  - rewrite <- app_assoc, (decimal_complete s n ([#"}"] ++ t) W Logic.eq_refl Logic.eq_refl). reflexivity.
  - rewrite <- app_assoc, (decimal_complete s n ([#","; #"}"] ++ t) W Logic.eq_refl Logic.eq_refl). reflexivity.
  - rewrite <- app_assoc. cbn [app]. rewrite <- app_assoc. cbn [app]. rewrite (decimal_complete s n (#"," :: s' ++ #"}" :: t) W Logic.eq_refl Logic.eq_refl).
    change (N.eqb #"," #"}") with false. change (N.eqb #"," #",") with true. cbn [negb].
    pose proof (decimal_complete s' m (#"}" :: t) W' Logic.eq_refl Logic.eq_refl) as D. destruct (count_head s' m (#"}" :: t) W') as (c & r & Ec & Nc).
    rewrite Ec in *. apply N.eqb_neq in Nc. rewrite Nc, D, N.eqb_refl. cbn [negb]. now rewrite (proj2 (Nat.ltb_ge m n) L).
Qed.

Lemma operator_none s : operator s = None <-> no_op s.
Proof. destruct s as [|c s]; [split; reflexivity|]. unfold no_op, is_op. cbn [operator]. destruct (kind_of c); split; try discriminate; reflexivity. Qed.

Lemma skip_lazy_spec s : (s = #"?" :: skip_lazy s) \/ (skip_lazy s = s /\ forall t, s <> #"?" :: t).
Proof.
  destruct s as [|c s]; [right; split; [reflexivity|discriminate]|]. cbn [skip_lazy]. pose proof (kind_spec c) as K.
  destruct (kind_of c) eqn:Kc; try (right; split; [reflexivity|]; intros t [= -> _]; discriminate Kc). left. now subst c.
Qed.

Lemma operators_stop fuel a s : no_op s -> operators fuel a s = POk (a, s).
Proof. intros N. apply operator_none in N. destruct fuel; cbn [operators]; now rewrite N. Qed.

Lemma postfix_stop a s : no_op s -> postfix a s = POk (a, s).
Proof. apply operators_stop. Qed.

Lemma operators_spec fuel : forall s a b t, operators fuel a s = POk (b, t) -> no_op t /\ exists ops, s = ops ++ t /\ writes_ops a ops b.
Proof.
  induction fuel as [|fuel IH]; intros s a b t E; cbn [operators] in E.
  all: destruct (operator s) as [[[f u]| |]|] eqn:Op; try discriminate.
  1, 3: injection E as <- <-; split; [now apply operator_none|]; exists []; split; [reflexivity|constructor].
  destruct (operator_sound _ _ _ Op) as (o & -> & _ & W). destruct (IH _ _ _ _ E) as (N & ops & Eq & Wo). split; [exact N|].
  destruct (skip_lazy_spec u) as [L|[L Nl]].
  - exists (o ++ #"?" :: ops). split; [rewrite L, Eq, <- app_assoc; reflexivity|]. now apply wp_lazy with f.
  - rewrite L in Eq. subst u. exists (o ++ ops). split; [now rewrite app_assoc|]. apply wp_op with f; auto. intros v ->. now apply (Nl (v ++ t)).
Qed.

Lemma postfix_spec s a b t : postfix a s = POk (b, t) -> no_op t /\ exists ops, s = ops ++ t /\ writes_ops a ops b.
Proof. apply operators_spec. Qed.

Lemma skip_lazy_shorter s : length (skip_lazy s) <= length s.
Proof. destruct s as [|c s]; [reflexivity|]. cbn [skip_lazy]. destruct (kind_of c); cbn [length]; lia. Qed.

Lemma writes_op_nonempty o f : writes_op o f -> o <> [].
Proof. intros W. destruct W; discriminate. Qed.

Lemma operators_complete a ops b : writes_ops a ops b -> forall t fuel, no_op t -> length (ops ++ t) <= fuel -> operators fuel a (ops ++ t) = POk (b, t).
Proof.
  intros W. induction W as [r|r o f s q Wo Nq W IH|r o f s q Wo W IH]; intros t fuel N L.
  - now apply operators_stop.
  - rewrite <- app_assoc in *. assert (O := operator_complete o f (s ++ t) Wo). apply writes_op_nonempty in Wo. destruct o as [|c o]; [contradiction|].
    cbn [app length] in L. destruct fuel as [|fuel]; [lia|]. cbn [operators]. rewrite O.
    assert (Sk : skip_lazy (s ++ t) = s ++ t).
    { destruct (skip_lazy_spec (s ++ t)) as [E|[E _]]; [|exact E]. exfalso. destruct s as [|e s]; cbn [app] in E.
      - rewrite E in N. discriminate N.
      - injection E as -> _. now apply (Nq s). }
    rewrite Sk. apply IH; [exact N|]. rewrite app_length in L. lia.
  - rewrite <- app_assoc in *. cbn [app] in *. assert (O := operator_complete o f (#"?" :: s ++ t) Wo). apply writes_op_nonempty in Wo. destruct o as [|c o]; [contradiction|].
    cbn [app length] in L. destruct fuel as [|fuel]; [lia|]. cbn [operators]. rewrite O.
    change (skip_lazy (#"?" :: s ++ t)) with (s ++ t). apply IH; [exact N|]. rewrite app_length in L. cbn [length] in L. lia.
Qed.

Lemma postfix_complete a ops b t : writes_ops a ops b -> no_op t -> postfix a (ops ++ t) = POk (b, t).
Proof. intros W N. now apply operators_complete. Qed.

Lemma postfix_shorter a s b t : postfix a s = POk (b, t) -> length t <= length s.
Proof. intros E. destruct (postfix_spec _ _ _ _ E) as (_ & ops & -> & _). rewrite app_length. lia. Qed.

Lemma item_atom s r : writes_atom s r -> writes_item s r.
Proof. intros W. rewrite <- (app_nil_r s). apply wi_item with r; [exact W|constructor]. Qed.

Lemma opened_spec t u : opened t = Some u <-> t = #"?" :: #":" :: u \/ (t = u /\ forall v, t <> #"?" :: v).
Proof.
  destruct t as [|c t]; cbn [opened].
  - split; [intros [= <-]; right; split; [reflexivity|discriminate]|]. intros [E|[<- _]]; [discriminate|reflexivity].
  - pose proof (kind_spec c) as K.
    assert (Other : kind_of c <> KOption -> (Some (c :: t) = Some u <-> c :: t = #"?" :: #":" :: u \/ c :: t = u /\ (forall v, c :: t <> #"?" :: v))).
    { intros Nk. assert (c <> #"?") by (intros ->; now apply Nk). split.
      - intros [= <-]. right. split; [reflexivity|]. now intros v [= E _].
      - intros [[= E _]|[<- _]]; [contradiction|reflexivity]. }
    destruct (kind_of c) eqn:Kc; try (apply Other; discriminate). subst c. destruct t as [|e t].
    + split; [discriminate|]. intros [E|[_ N]]; [discriminate|]. now destruct (N []).
    + destruct (N.eqb_spec e #":") as [->|Ne].
      * split; [intros [= <-]; now left|]. intros [E|[_ N]]; [now injection E as ->|]. now destruct (N (#":" :: t)).
      * split; [discriminate|]. intros [E|[_ N]]; [injection E as E _; contradiction|]. now destruct (N (e :: t)).
Qed.

Lemma opened_shorter t u : opened t = Some u -> length u <= length t.
Proof. intros E. apply opened_spec in E as [->|[-> _]]; cbn [length]; lia. Qed.

Lemma literal_op c : literal c -> is_op c = false.
Proof. intros L. unfold is_op. now rewrite kind_literal. Qed.

Lemma escapable_spec c : escapable c = true <-> punctuation c.
Proof.
  unfold escapable, punctuation, alphanumeric, from_to. 
  change (#"0") with 48%N. change (#"9") with 57%N. change (#"A") with 65%N. change (#"Z") with 90%N. change (#"a") with 97%N. change (#"z") with 122%N.
  change (#"<") with 60%N. change (#">") with 62%N.
  destruct (N.ltb_spec 127 c), (N.leb_spec 48 c), (N.leb_spec c 57), (N.leb_spec 65 c), (N.leb_spec c 90), (N.leb_spec 97 c), (N.leb_spec c 122), (N.eqb_spec c 60), (N.eqb_spec c 62);
    cbn [andb orb negb]; split; intros; try discriminate; try reflexivity; lia.
Qed.

Lemma escapes_spec c : existsb (N.eqb c) escapes = true <-> In c escapes.
Proof.
  rewrite existsb_exists. split.
  - intros (x & I & E). apply N.eqb_eq in E as ->. exact I.
  - intros I. exists c. split; [exact I|]. apply N.eqb_refl.
Qed.

Lemma closed_spec u v : closed u = Some v <-> u = #")" :: v.
Proof.
  split; [|now intros ->]. destruct u as [|c u]; [discriminate|]. cbn [closed]. pose proof (kind_spec c) as K.
  destruct (kind_of c); try discriminate. now intros [= ->]; subst c.
Qed.

(** ** Classes *)
Lemma in_class_spec c : in_class c = true <-> class_literal c.
Proof.
  unfold in_class, class_literal. rewrite negb_true_iff, <- not_true_iff_false, existsb_exists. split; intros N I; apply N.
  - exists c. split; [exact I|]. apply N.eqb_refl.
  - destruct I as (x & I & E). apply N.eqb_eq in E as ->. exact I.
Qed.

Lemma class_literal_not c x : class_literal c -> In x class_metas -> N.eqb c x = false.
Proof. intros L I. apply N.eqb_neq. intros ->. now apply L. Qed.

Lemma ranges_sound f : forall s l t, length s <= f -> ranges s = POk (l, t) -> exists u, s = u ++ #"]" :: t /\ writes_ranges u l.
Proof.
  assert (Add : forall x p l t, add_range x p = POk (l, t) -> exists l', l = x :: l' /\ p = POk (l', t)).
  { intros x [[l' t']| |] l t E; try discriminate. injection E as <- <-. eauto. }
  induction f as [|f IH]; intros s l t L E; (destruct s as [|c s]; [discriminate|]); cbn [length] in L; [lia|]. cbn [ranges] in E.
  destruct (N.eqb_spec c #"]") as [->|_]; [injection E as <- <-; exists []; split; [reflexivity|constructor]|].
  destruct (in_class c) eqn:C; [|discriminate]. apply in_class_spec in C. cbn [negb] in E.
  assert (One : add_range (c, c) (ranges s) = POk (l, t) -> exists u, c :: s = u ++ #"]" :: t /\ writes_ranges u l).
  { intros E'. apply Add in E' as (l' & -> & E'). destruct (IH s l' t ltac:(lia) E') as (u & -> & W). exists (c :: u). split; [reflexivity|]. now constructor. }
  destruct s as [|d [|e u]]; [now apply One..|]. destruct (N.eqb_spec d #"-") as [->|_]; cbn [negb] in E; [|now apply One].
  destruct (in_class e) eqn:C'; [|discriminate]. apply in_class_spec in C'. cbn [negb] in E. destruct (N.ltb_spec e c) as [|Le]; [discriminate|].
  apply Add in E as (l' & -> & E). cbn [length] in L. destruct (IH u l' t ltac:(lia) E) as (v & -> & W). exists (c :: #"-" :: e :: v). split; [reflexivity|].
  now constructor.
Qed.

Lemma ranges_complete u l t : writes_ranges u l -> ranges (u ++ #"]" :: t) = POk (l, t).
Proof.
  intros W. induction W as [|c s l C W IH|c d s l C D Le W IH].
  - reflexivity.
  - cbn [app]. set (v := s ++ #"]" :: t) in *.
    assert (Hd : match v with d :: _ => N.eqb d #"-" = false | [] => True end).
    { unfold v. destruct W as [|c' s l C' W|c' d s l C' D Le W]; [reflexivity|..]; apply class_literal_not; auto; cbn; tauto. }
    cbn [ranges]. rewrite class_literal_not, (proj2 (in_class_spec c) C) by (auto; cbn; tauto). cbn [negb].
    destruct v as [|d [|e w]]; [now rewrite IH..|]. rewrite Hd. cbn [negb]. now rewrite IH.
  - cbn [app ranges]. rewrite class_literal_not, (proj2 (in_class_spec c) C), (proj2 (in_class_spec d) D) by (auto; cbn; tauto).
    rewrite (proj2 (N.ltb_ge d c) Le). rewrite N.eqb_refl. cbn [negb]. now rewrite IH.
Qed.

Lemma writes_ranges_nil s l : writes_ranges s l -> (s = [] <-> l = []).
Proof. intros W. destruct W; split; intros; try discriminate; auto. Qed.

Lemma class_sound s r t : class s = POk (r, t) -> exists u, s = u ++ t /\ writes_atom (#"[" :: u) r.
Proof.
  assert (X : forall neg s, nonempty neg (ranges s) = POk (r, t) -> exists u l, s = u ++ #"]" :: t /\ u <> [] /\ writes_ranges u l /\ r = RClass neg l).
  { intros neg s' E. destruct (ranges s') as [[l t']| |] eqn:R; try discriminate. destruct (ranges_sound (length s') s' l t' (le_n _) R) as (u & -> & W).
    cbn [nonempty] in E. destruct l as [|x l]; [discriminate|]. injection E as <- <-. exists u, (x :: l). repeat split; auto.
    intros ->. now apply writes_ranges_nil in W as [W _]; specialize (W Logic.eq_refl). }
  destruct s as [|c s]; [discriminate|]. cbn [class]. destruct (N.eqb_spec c #"^") as [->|_]; intros E.
  - destruct (X _ _ E) as (u & l & -> & Nu & W & ->). exists (#"^" :: u ++ [#"]"]). split; [now rewrite <- app_comm_cons, <- app_assoc|]. now constructor.
  - destruct (X _ _ E) as (u & l & E' & Nu & W & ->). exists (u ++ [#"]"]). split; [rewrite E'; now rewrite <- app_assoc|]. now constructor.
Qed.

Lemma class_complete s l t : s <> [] -> writes_ranges s l ->
  class (s ++ #"]" :: t) = POk (RClass false l, t) /\ class (#"^" :: s ++ #"]" :: t) = POk (RClass true l, t).
Proof.
  intros Ns W. pose proof (ranges_complete s l t W) as R. pose proof (writes_ranges_nil s l W) as Nl. split.
  - unfold class. destruct W as [|c s l C W|c d s l C D Le W]; [contradiction|..]; cbn [app] in *;
      rewrite class_literal_not by (auto; cbn; tauto); now rewrite R.
  - cbn [class]. rewrite N.eqb_refl, R. cbn [nonempty]. destruct l; [|reflexivity]. now rewrite (proj2 Nl) in Ns.
Qed.

Lemma class_shorter s r t : class s = POk (r, t) -> length t <= length s.
Proof. intros E. destruct (class_sound _ _ _ E) as (u & -> & _). rewrite app_length. lia. Qed.

(** What comes before the text being parsed. *)
Definition context (w : text) (alt : option re) (acc : re) : Prop :=
  match alt with
  | None => writes_seq w acc
  | Some a => exists w1 w2, w = w1 ++ #"|" :: w2 /\ writes w1 a /\ writes_seq w2 acc
  end.

Lemma context_close w alt acc : context w alt acc -> writes w (close alt acc).
Proof. destruct alt as [a|]; [intros (w1 & w2 & -> & W1 & W2)|intros W]; now constructor. Qed.

Lemma context_item w alt acc s q : context w alt acc -> writes_item s q -> context (w ++ s) alt (RSeq acc q).
Proof.
  destruct alt as [a|]; intros C W.
  - destruct C as (w1 & w2 & -> & W1 & W2). exists w1, (w2 ++ s). split; [now rewrite <- app_assoc|]. split; [exact W1|]. now constructor.
  - now constructor.
Qed.

Definition stops (s : text) : Prop := match s with [] => True | c :: _ => c = #")" end.

(** Soundness. *)
Lemma parse_sound f : forall s alt acc r rest, parse_until f s alt acc = POk (r, rest) ->
  stops rest /\ exists u, s = u ++ rest /\ forall w, context w alt acc -> writes (w ++ u) r.
Proof.
  induction f as [|f IH]; intros s alt acc r rest E; [discriminate|].
  assert (Item : forall (pre : text) a t, writes_atom pre a ->
     match postfix a t with POk (a, s) => parse_until f s alt (RSeq acc a) | PInvalid => PInvalid | PUnsupported => PUnsupported end = POk (r, rest) ->
     stops rest /\ exists u, pre ++ t = u ++ rest /\ forall w, context w alt acc -> writes (w ++ u) r).
  { intros pre a t W E'. destruct (postfix a t) as [[b t']| |] eqn:Pf; try discriminate. destruct (postfix_spec _ _ _ _ Pf) as (_ & ops & -> & Wo).
    destruct (IH _ _ _ _ _ E') as (St & u & -> & Wu). split; [exact St|]. exists (pre ++ ops ++ u). split; [now rewrite <- !app_assoc|].
    intros w C. replace (w ++ pre ++ ops ++ u) with ((w ++ pre ++ ops) ++ u) by (now rewrite <- !app_assoc).
    apply Wu. apply context_item; [exact C|]. now apply wi_item with a. }
  destruct s as [|c t]; cbn [parse_until] in E.
  - injection E as <- <-. split; [exact I|]. exists []. split; [reflexivity|]. intros w C. rewrite app_nil_r. now apply context_close.
  - pose proof (kind_spec c) as K. destruct (kind_of c); try discriminate; try subst c.
    + apply (Item [c] (RChar c) t); [now repeat constructor|exact E].
    + destruct (IH _ _ _ _ _ E) as (St & u & -> & Wu). split; [exact St|]. exists (#"|" :: u). split; [reflexivity|].
      intros w C. replace (w ++ #"|" :: u) with ((w ++ [#"|"]) ++ u) by (now rewrite <- app_assoc). apply Wu.
      exists w, []. split; [reflexivity|]. split; [now apply context_close|constructor].
    + destruct (opened t) as [t0|] eqn:Op; [|discriminate].
      destruct (parse_until f t0 None REps) as [[g u]| |] eqn:G; try discriminate. destruct (closed u) as [v|] eqn:Cl; [|discriminate].
      apply closed_spec in Cl as ->. destruct (IH _ _ _ _ _ G) as (_ & x & -> & Wx).
      apply opened_spec in Op as [->|[-> _]].
      * replace (#"(" :: #"?" :: #":" :: x ++ #")" :: v) with ((#"(" :: #"?" :: #":" :: x ++ [#")"]) ++ v) by (cbn; now rewrite <- app_assoc).
        apply (Item _ g v); [|exact E]. constructor. apply (Wx []). constructor.
      * replace (#"(" :: x ++ #")" :: v) with ((#"(" :: x ++ [#")"]) ++ v) by (cbn; now rewrite <- app_assoc).
        apply (Item _ g v); [|exact E]. constructor. apply (Wx []). constructor.
    + injection E as <- <-. split; [reflexivity|]. exists []. split; [reflexivity|]. intros w C. rewrite app_nil_r. now apply context_close.
    + apply (Item [#"."] RAny t); [now repeat constructor|exact E].
    + apply (Item [#"^"] RBegin t); [now repeat constructor|exact E].
    + apply (Item [#"$"] REnd t); [now repeat constructor|exact E].
    + destruct t as [|e t]; [discriminate|].
      destruct (escapable e) eqn:M; [|now destruct (existsb (N.eqb e) escapes)]. apply (Item [#"\"; e] (RChar e) t); [|exact E]. constructor. now apply escapable_spec.
    + destruct (class t) as [[g v]| |] eqn:G; try discriminate. destruct (class_sound _ _ _ G) as (x & -> & Wx).
      apply (Item (#"[" :: x) g v); [exact Wx|exact E].
Qed.

(** More fuel than characters: the answer no longer depends on it. *)
Lemma parse_fuel : forall f1 f2 s alt acc, length s < f1 -> length s < f2 -> parse_until f1 s alt acc = parse_until f2 s alt acc.
Proof.
  induction f1 as [|f1 IH]; intros f2 s alt acc L1 L2; [lia|]. destruct f2 as [|f2]; [lia|].
  assert (Item : forall a t, S (length t) <= length s ->
    match postfix a t with POk (a, u) => parse_until f1 u alt (RSeq acc a) | PInvalid => PInvalid | PUnsupported => PUnsupported end =
    match postfix a t with POk (a, u) => parse_until f2 u alt (RSeq acc a) | PInvalid => PInvalid | PUnsupported => PUnsupported end).
  { intros a t L. destruct (postfix a t) as [[b u]| |] eqn:E; try reflexivity. apply postfix_shorter in E. apply IH; lia. }
  destruct s as [|c t]; [reflexivity|]. cbn [length parse_until] in *. destruct (kind_of c); try reflexivity; try (apply Item; lia).
  - apply IH; lia.
  - destruct (opened t) as [t0|] eqn:Op; [|reflexivity]. apply opened_shorter in Op. rewrite (IH f2 t0) by lia.
    destruct (parse_until f2 t0 None REps) as [[g u]| |] eqn:G; try reflexivity. destruct (closed u) as [v|] eqn:Cl; [|reflexivity].
    apply closed_spec in Cl as ->. destruct (parse_sound _ _ _ _ _ _ G) as (_ & x & -> & _). apply Item. rewrite app_length in Op. cbn in Op. lia.
  - destruct t as [|e t]; [reflexivity|]. cbn [length] in *. destruct (escapable e); [|reflexivity]. apply Item. lia.
  - destruct (class t) as [[g u]| |] eqn:G; try reflexivity. apply Item. apply class_shorter in G. lia.
Qed.

(** The parser without the fuel. *)
Definition parser (s : text) (alt : option re) (acc : re) : parsed (re * text) := parse_until (S (length s)) s alt acc.

Definition continues (a : re) (t : text) (alt : option re) (acc : re) : parsed (re * text) :=
  match postfix a t with POk (a, t) => parser t alt (RSeq acc a) | PInvalid => PInvalid | PUnsupported => PUnsupported end.

Lemma continues_fuel f a t alt acc : length t < f ->
  match postfix a t with POk (a, s) => parse_until f s alt (RSeq acc a) | PInvalid => PInvalid | PUnsupported => PUnsupported end = continues a t alt acc.
Proof.
  intros L. unfold continues, parser. destruct (postfix a t) as [[b u]| |] eqn:E; try reflexivity. apply postfix_shorter in E. apply parse_fuel; lia.
Qed.

Lemma parser_group t alt acc :
  parser (#"(" :: t) alt acc =
  match opened t with
  | None => PUnsupported
  | Some t =>
      match parser t None REps with
      | POk (r, u) => match closed u with Some u => continues r u alt acc | None => PInvalid end
      | PInvalid => PInvalid
      | PUnsupported => PUnsupported
      end
  end.
Proof.
  unfold parser at 1. cbn [length]. set (f := S (length t)). cbn [parse_until]. change (kind_of #"(") with KOpen. cbn iota beta.
  destruct (opened t) as [t0|] eqn:Op; [|reflexivity]. apply opened_shorter in Op. rewrite (parse_fuel f (S (length t0)) t0) by (unfold f; lia).
  fold (parser t0 None REps). destruct (parser t0 None REps) as [[g u]| |] eqn:G; try reflexivity. destruct (closed u) as [v|] eqn:Cl; [|reflexivity].
  apply closed_spec in Cl as ->. destruct (parse_sound _ _ _ _ _ _ G) as (_ & x & -> & _). apply continues_fuel. unfold f. rewrite app_length in Op. cbn in Op. lia.
Qed.

Lemma writes_no_op :
  (forall s r, writes_atom s r -> s <> [] /\ no_op s) /\
  (forall s r, writes_item s r -> s <> [] /\ no_op s) /\
  (forall s r, writes_seq s r -> no_op s) /\
  (forall s r, writes s r -> no_op s).
Proof.
  assert (A : forall s r, writes_atom s r -> s <> [] /\ no_op s).
  { intros s r W. destruct W; split; try discriminate; try exact Logic.eq_refl. now apply literal_op. }
  assert (App : forall s t : text, s <> [] -> no_op s -> s ++ t <> [] /\ no_op (s ++ t)).
  { intros [|c s] t N O; [contradiction|]. split; [discriminate|exact O]. }
  assert (B : forall s r, writes_item s r -> s <> [] /\ no_op s).
  { intros s r W. destruct W as [s r ops q W Wo]. destruct (A s r W). now apply App. }
  assert (C : forall s r, writes_seq s r -> no_op s).
  { intros s r W. induction W as [|s t r q W IH Wi]; [exact I|]. destruct s as [|c s]; [now apply (B t q)|exact IH]. }
  repeat split; try (now apply A in H); try (now apply B in H); auto.
  intros s r W. induction W as [s r W|s t r q W IH Ws]; [now apply (C s r)|]. destruct s as [|c s]; [reflexivity|exact IH].
Qed.

Lemma no_op_opened s : no_op s -> opened s = Some s.
Proof. intros N. apply opened_spec. right. split; [reflexivity|]. intros v ->. discriminate N. Qed.

Scheme writes_atom_mut := Induction for writes_atom Sort Prop
  with writes_item_mut := Induction for writes_item Sort Prop
  with writes_seq_mut := Induction for writes_seq Sort Prop
  with writes_mut := Induction for writes Sort Prop.
Combined Scheme writes_all from writes_atom_mut, writes_item_mut, writes_seq_mut, writes_mut.

(** Completeness. *)
Lemma parser_complete :
  (forall s r, writes_atom s r -> forall t alt acc, parser (s ++ t) alt acc = continues r t alt acc) /\
  (forall s r, writes_item s r -> forall t alt acc, no_op t -> parser (s ++ t) alt acc = parser t alt (RSeq acc r)) /\
  (forall s r, writes_seq s r -> forall t alt, no_op t -> parser (s ++ t) alt REps = parser t alt r) /\
  (forall s r, writes s r -> forall t, no_op t -> exists alt acc, close alt acc = r /\ parser (s ++ t) None REps = parser t alt acc).
Proof.
  destruct writes_no_op as (NoA & NoI & NoS & NoW).
  apply (writes_all (fun s r _ => forall t alt acc, parser (s ++ t) alt acc = continues r t alt acc)
    (fun s r _ => forall t alt acc, no_op t -> parser (s ++ t) alt acc = parser t alt (RSeq acc r))
    (fun s r _ => forall t alt, no_op t -> parser (s ++ t) alt REps = parser t alt r)
    (fun s r _ => forall t, no_op t -> exists alt acc, close alt acc = r /\ parser (s ++ t) None REps = parser t alt acc)).
  - intros c L t alt acc. unfold parser. cbn [app length]. set (f := S (length t)). cbn [parse_until]. rewrite (kind_literal c L). apply continues_fuel. unfold f. lia.
  - intros c M t alt acc. unfold parser. cbn [app length].
    set (f := S (S (length t))). cbn [parse_until]. change (kind_of #"\") with KEscape. cbn iota beta.
    rewrite (proj2 (escapable_spec c) M). apply continues_fuel. unfold f. lia.
  - intros t alt acc. apply (continues_fuel (S (length t)) RAny t alt acc). lia.
  - intros t alt acc. apply (continues_fuel (S (length t)) RBegin t alt acc). lia.
  - intros t alt acc. apply (continues_fuel (S (length t)) REnd t alt acc). lia.
  - intros s l Ns W t alt acc. change ((#"[" :: s ++ [#"]"]) ++ t) with (#"[" :: (s ++ [#"]"]) ++ t). rewrite <- app_assoc. cbn [app].
    unfold parser. cbn [length]. set (f := S (length (s ++ #"]" :: t))). cbn [parse_until]. change (kind_of #"[") with KClass. cbn iota beta.
    rewrite (proj1 (class_complete s l t Ns W)). apply continues_fuel. unfold f. rewrite app_length. cbn. lia.
  - intros s l Ns W t alt acc. change ((#"[" :: #"^" :: s ++ [#"]"]) ++ t) with (#"[" :: #"^" :: (s ++ [#"]"]) ++ t). rewrite <- app_assoc. cbn [app].
    unfold parser. cbn [length]. set (f := S (S (length (s ++ #"]" :: t)))). cbn [parse_until]. change (kind_of #"[") with KClass. cbn iota beta.
    rewrite (proj2 (class_complete s l t Ns W)). apply continues_fuel. unfold f. rewrite app_length. cbn. lia.
  - intros s r W IH t alt acc. change ((#"(" :: s ++ [#")"]) ++ t) with (#"(" :: (s ++ [#")"]) ++ t). rewrite <- app_assoc. cbn [app].
    rewrite parser_group, no_op_opened by (destruct s as [|c s]; [reflexivity|]; exact (NoW _ _ W)).
    destruct (IH (#")" :: t) Logic.eq_refl) as (alt' & acc' & <- & ->).
    change (parser (#")" :: t) alt' acc') with (@POk (re * text) (close alt' acc', #")" :: t)). cbn iota beta.
    rewrite (proj2 (closed_spec (#")" :: t) t) Logic.eq_refl). reflexivity.
  - intros s r W IH t alt acc. change ((#"(" :: #"?" :: #":" :: s ++ [#")"]) ++ t) with (#"(" :: #"?" :: #":" :: (s ++ [#")"]) ++ t). rewrite <- app_assoc. cbn [app].
    rewrite parser_group, (proj2 (opened_spec (#"?" :: #":" :: s ++ #")" :: t) (s ++ #")" :: t)) (or_introl Logic.eq_refl)).
    destruct (IH (#")" :: t) Logic.eq_refl) as (alt' & acc' & <- & ->).
    change (parser (#")" :: t) alt' acc') with (@POk (re * text) (close alt' acc', #")" :: t)). cbn iota beta.
    rewrite (proj2 (closed_spec (#")" :: t) t) Logic.eq_refl). reflexivity.
  - intros s r ops q W IH Wo t alt acc No. rewrite <- app_assoc, IH. unfold continues. now rewrite (postfix_complete _ _ _ _ Wo No).
  - intros t alt _. reflexivity.
  - intros s t r q W IH Wi IHi u alt No. rewrite <- app_assoc, IH.
    + now rewrite IHi.
    + destruct (NoI _ _ Wi) as [Ne Nt]. destruct t as [|c t]; [contradiction|exact Nt].
  - intros s r W IH t No. exists None, r. split; [reflexivity|]. now apply IH.
  - intros s t r q W IH Ws IHs u No. destruct (IH (#"|" :: t ++ u) Logic.eq_refl) as (alt & acc & <- & E).
    exists (Some (close alt acc)), q. split; [reflexivity|]. rewrite <- app_assoc. cbn [app]. rewrite E.
    change (parser (#"|" :: t ++ u) alt acc) with (parser (t ++ u) (Some (close alt acc)) REps). now apply IHs.
Qed.

Lemma parse_iff s r : parse s = POk r <-> writes s r.
Proof.
  unfold parse. fold (parser s None REps). split.
  - intros E. destruct (parser s None REps) as [[g u]| |] eqn:P; try discriminate.
    destruct u as [|c u]; [|discriminate]. injection E as <-. destruct (parse_sound _ _ _ _ _ _ P) as (_ & x & -> & W).
    rewrite app_nil_r. apply (W []). constructor.
  - intros W. destruct parser_complete as (_ & _ & _ & C). destruct (C s r W [] I) as (alt & acc & <- & E). rewrite app_nil_r in E.
    rewrite E. reflexivity.
Qed.

Lemma operators_known fuel : forall a s, length s <= fuel -> operators fuel a s <> PUnsupported.
Proof.
  induction fuel as [|fuel IH]; intros a s L; cbn [operators].
  - destruct s; [discriminate|cbn in L; lia].
  - destruct (operator s) as [[[op t]| |]|] eqn:O; try discriminate.
    + destruct (operator_sound s op t O) as (o & -> & No & _). apply IH.
      pose proof (skip_lazy_shorter t). rewrite app_length in L. destruct o; [contradiction|]. cbn in L. lia.
    + exfalso. destruct s as [|c s]; [discriminate|]. cbn [operator] in O. destruct (kind_of c); try discriminate.
      pose proof (bounds_known s). destruct (bounds s) as [[[? ?] ?]| |]; congruence.
Qed.

Lemma postfix_known a s : postfix a s <> PUnsupported.
Proof. now apply operators_known. Qed.

(** Without the characters that start something not modelled, there is always an answer. *)
Lemma parse_modelled_until f : forall s alt acc, length s < f -> ~ In #"[" s ->
  (forall a e b, s = a ++ #"\" :: e :: b -> ~ In e escapes) -> (forall a b, s = a ++ #"(" :: #"?" :: b -> exists t, b = #":" :: t) ->
  parse_until f s alt acc <> PUnsupported.
Proof.
  induction f as [|f IH]; intros s alt acc L N1 N3 N4; [lia|].
  assert (Suffix : forall x t alt acc, s = x ++ t -> x <> [] -> parse_until f t alt acc <> PUnsupported).
  { intros x t alt' acc' -> Nx. rewrite app_length in L. destruct x as [|c x]; [contradiction|]. cbn in L. apply IH; try lia.
    - intros J. apply N1, in_or_app. now right.
    - intros a e b ->. apply (N3 ((c :: x) ++ a) e b). now rewrite app_assoc.
    - intros a b ->. apply (N4 ((c :: x) ++ a) b). now rewrite app_assoc. }
  assert (Item : forall x a t, s = x ++ t -> x <> [] ->
    match postfix a t with POk (a, s) => parse_until f s alt (RSeq acc a) | PInvalid => PInvalid | PUnsupported => PUnsupported end <> PUnsupported).
  { intros x a t E Nx. destruct (postfix a t) as [[b t']| |] eqn:Pf; [|discriminate|].
    2: { exfalso. now apply (postfix_known a t). }
    destruct (postfix_spec _ _ _ _ Pf) as (_ & ops & -> & _).
    apply (Suffix (x ++ ops)); [now rewrite <- app_assoc|]. destruct x; [contradiction|discriminate]. }
  destruct s as [|c t]; [discriminate|]. cbn [parse_until]. pose proof (kind_spec c) as K.
  destruct (kind_of c); try discriminate; try subst c; try (now apply (Item [c])).
  - apply (Suffix [#"|"]); [reflexivity|discriminate].
  - assert (Op : exists y u, opened t = Some u /\ t = y ++ u).
    { destruct t as [|c t]; [now exists [], []|]. destruct (N.eqb_spec c #"?") as [->|Nq].
      - destruct (N4 [] t Logic.eq_refl) as [u ->]. exists [#"?"; #":"], u. split; [apply opened_spec; now left|reflexivity].
      - exists [], (c :: t). split; [|reflexivity]. apply opened_spec. right. split; [reflexivity|]. intros v [= E _]. contradiction. }
    destruct Op as (y & u & Op & ->). rewrite Op. destruct (parse_until f u None REps) as [[g u']| |] eqn:G; try discriminate.
    + destruct (closed u') as [v|] eqn:Cl; [|discriminate]. apply closed_spec in Cl as ->.
      destruct (parse_sound _ _ _ _ _ _ G) as (_ & x & -> & _).
      apply (Item (#"(" :: y ++ x ++ [#")"])); [cbn; now rewrite <- !app_assoc|discriminate].
    + exfalso. now apply (Suffix (#"(" :: y) u None REps).
  - now apply (Item [#"."]).
  - now apply (Item [#"^"]).
  - now apply (Item [#"$"]).
  - destruct t as [|e t]; [discriminate|]. destruct (escapable e); [now apply (Item [#"\"; e])|].
    destruct (existsb (N.eqb e) escapes) eqn:X; [|discriminate]. apply escapes_spec in X. now apply (N3 [] e t) in X.
  - exfalso. apply N1. now left.
Qed.

Lemma parse_modelled s : ~ In #"[" s ->
  (forall a e b, s = a ++ #"\" :: e :: b -> ~ In e escapes) -> (forall a b, s = a ++ #"(" :: #"?" :: b -> exists t, b = #":" :: t) -> parse s <> PUnsupported.
Proof.
  intros N1 N3 N4. unfold parse. pose proof (parse_modelled_until (S (length s)) s None REps ltac:(lia) N1 N3 N4) as X.
  destruct (parse_until (S (length s)) s None REps) as [[g [|c u]]| |]; congruence.
Qed.

(** ** The matcher *)

(** Repeating. *)
Inductive steps (f : nat -> list nat) : nat -> nat -> nat -> Prop :=
| st_done : forall i, steps f 0 i i
| st_more : forall n i j k, In j (f i) -> steps f n j k -> steps f (S n) i k.

Lemma repeated_iff f n : forall l j, In j (repeated f n l) <-> exists i k, In i l /\ k <= n /\ steps f k i j.
Proof.
  induction n as [|n IH]; intros l j; cbn [repeated].
  - split.
    + intros J. exists j, 0. repeat split; auto. constructor.
    + intros (i & k & J & L & T). assert (k = 0) as -> by lia. inversion T; subst. exact J.
  - rewrite IH. split.
    + intros (i & k & J & L & T). apply nodup_In in J. apply in_app_or in J as [J|J]; [exists i, k; repeat split; auto; lia|].
      apply in_flat_map in J as (x & J & Jx). exists x, (S k). repeat split; auto; [lia|]. now apply st_more with i.
    + intros (i & k & J & L & T). destruct T as [i|k i x j Jx T].
      * exists i, 0. split; [|split; [lia|constructor]]. apply nodup_In. apply in_or_app. now left.
      * exists x, k. split; [|split; [lia|exact T]]. apply nodup_In. apply in_or_app. right. apply in_flat_map. eauto.
Qed.

Lemma exactly_iff f n : forall l j, In j (exactly f n l) <-> exists i, In i l /\ steps f n i j.
Proof.
  induction n as [|n IH]; intros l j; cbn [exactly].
  - split; [intros J; exists j; split; [exact J|constructor]|]. intros (i & J & T). now inversion T; subst.
  - rewrite IH. split.
    + intros (i & J & T). apply nodup_In, in_flat_map in J as (x & Jx & J). exists x. split; [exact Jx|]. now apply st_more with i.
    + intros (i & J & T). inversion T as [|? ? x ? Jx T']; subst. exists x. split; [|exact T']. apply nodup_In, in_flat_map. eauto.
Qed.

Lemma steps_app f n : forall m i j k, steps f n i j -> steps f m j k -> steps f (n + m) i k.
Proof. induction n as [|n IH]; intros m i j k T1 T2; inversion T1 as [|? ? x ? J T]; subst; [exact T2|]. cbn. eapply st_more; eauto. Qed.
Lemma steps_split f n : forall m i k, steps f (n + m) i k -> exists j, steps f n i j /\ steps f m j k.
Proof.
  induction n as [|n IH]; intros m i k T; [exists i; split; [constructor|exact T]|]. inversion T as [|? ? x ? J T']; subst.
  destruct (IH _ _ _ T') as (j & A & B). exists j. split; [now apply st_more with x|exact B].
Qed.

Lemma nth_error_at (b : text) x a : nth_error (b ++ x :: a) (length b) = Some x.
Proof. rewrite nth_error_app2 by lia. now rewrite Nat.sub_diag. Qed.

(** Repetitions: those that match nothing are not needed. *)
Lemma star_steps r : (forall b x a, matches r b x a -> In (length b + length x) (match_ends (b ++ x ++ a) r (length b))) ->
  forall b x a, matches (RStar r) b x a ->
  exists k, k <= length x /\ steps (match_ends (b ++ x ++ a) r) k (length b) (length b + length x).
Proof.
  intros C b x a M. remember (RStar r) as q eqn:E. revert E.
  induction M as [| | | | | | | | | |q b a|q b x y a M1 _ M2 IH2| |]; intros E; try discriminate.
  - exists 0. split; [lia|]. cbn [length]. rewrite Nat.add_0_r. constructor.
  - injection E as ->. destruct (IH2 Logic.eq_refl) as (k & L & T). apply C in M1. rewrite <- !app_assoc in *. rewrite !app_length in *.
    destruct x as [|c x].
    + exists k. cbn [length app] in *. rewrite Nat.add_0_r in T. split; [lia|exact T].
    + exists (S k). split; [cbn [length]; lia|]. apply st_more with (length b + length (c :: x)); [exact M1|].
      rewrite Nat.add_assoc. exact T.
Qed.

(** Counted repetitions likewise. *)
Lemma repeat_steps r : (forall b x a, matches r b x a -> In (length b + length x) (match_ends (b ++ x ++ a) r (length b))) ->
  forall n m b x a, matches (RRepeat r n m) b x a ->
  exists k, n <= k /\ match m with Some m => k <= m | None => k <= n + length x end /\ steps (match_ends (b ++ x ++ a) r) k (length b) (length b + length x).
Proof.
  intros C n m b x a M. remember (RRepeat r n m) as q eqn:E. revert n m E.
  induction M as [| | | | | | | | | | | |q m0 b a|q n0 m0 b x y a M1 _ Nz M2 IH2]; intros n m E; try discriminate.
  - injection E as -> <- <-. exists 0. split; [lia|]. split; [destruct m0; lia|]. cbn [length]. rewrite Nat.add_0_r. constructor.
  - injection E as -> -> ->. destruct (IH2 _ _ Logic.eq_refl) as (k & L & U & T). apply C in M1. rewrite <- !app_assoc in *. rewrite !app_length in *.
    assert (T' : steps (match_ends (b ++ x ++ y ++ a) r) (S k) (length b) (length b + (length x + length y))).
    { apply st_more with (length b + length x); [exact M1|]. now rewrite Nat.add_assoc. }
    destruct n as [|n], m as [m|]; cbn [pred option_map] in *.
    + exists (S k). split; [lia|]. split; [destruct m; [congruence|]; cbn in U; lia|exact T'].
    + destruct x as [|c x].
      * exists k. cbn [length app] in *. rewrite Nat.add_0_r in T. split; [lia|]. split; [lia|exact T].
      * exists (S k). split; [lia|]. split; [cbn [length]; lia|exact T'].
    + exists (S k). split; [lia|]. split; [destruct m; [congruence|]; cbn in U; lia|exact T'].
    + exists (S k). split; [lia|]. split; [lia|exact T'].
Qed.

Lemma within_iff c l : existsb (fun x => N.leb (fst x) c && N.leb c (snd x)) l = true <-> within c l.
Proof.
  rewrite existsb_exists. unfold within. split.
  - intros ([x y] & I & E). cbn [fst snd] in E. apply andb_true_iff in E. rewrite !N.leb_le in E. eauto.
  - intros (x & y & I & E). exists (x, y). split; [exact I|]. cbn [fst snd]. now rewrite andb_true_iff, !N.leb_le.
Qed.

Lemma not_within_iff c l : existsb (fun x => N.leb (fst x) c && N.leb c (snd x)) l = false <-> ~ within c l.
Proof. now rewrite <- not_true_iff_false, within_iff. Qed.

Lemma match_ends_complete r : forall b x a, matches r b x a -> In (length b + length x) (match_ends (b ++ x ++ a) r (length b)).
Proof.
  induction r as [|c| |neg l| | |r IHr s IHs|r IHr s IHs|r IHr|r IHr n m]; intros b x a M;
    [inversion M; subst; cbn [match_ends length app]..| |].
  - left. lia.
  - rewrite nth_error_at, N.eqb_refl. left. lia.
  - rewrite nth_error_at. destruct (N.eqb_spec #newline c) as [E|_]; [congruence|]. left. lia.
  - rewrite nth_error_at. rewrite (proj2 (within_iff c l)) by assumption. left. lia.
  - rewrite nth_error_at. rewrite (proj2 (not_within_iff c l)) by assumption. left. lia.
  - left. reflexivity.
  - rewrite app_nil_r, Nat.eqb_refl. left. lia.
  - match goal with H : matches r _ _ _, K : matches s _ _ _ |- _ => apply IHr in H; apply IHs in K end.
    apply in_flat_map. rewrite <- !app_assoc in *. rewrite !app_length in *. eexists. split; [eassumption|]. now rewrite Nat.add_assoc.
  - apply in_or_app. left. auto.
  - apply in_or_app. right. auto.
  - clear - IHr M. destruct (star_steps r IHr b x a M) as (k & L & T). cbn [match_ends]. apply repeated_iff. exists (length b), k.
    split; [now left|]. split; [rewrite !app_length; lia|exact T].
  - clear - IHr M. destruct (repeat_steps r IHr n m b x a M) as (k & L & U & T). replace k with (n + (k - n)) in T by lia.
    apply steps_split in T as (j & T1 & T2).
    assert (J : In j (exactly (match_ends (b ++ x ++ a) r) n [length b])) by (apply exactly_iff; exists (length b); split; [now left|exact T1]).
    destruct m as [m|]; cbn [match_ends].
    + rewrite (proj2 (Nat.ltb_ge m n)) by lia. apply repeated_iff. exists j, (k - n). split; [exact J|]. split; [lia|exact T2].
    + apply repeated_iff. exists j, (k - n). split; [exact J|]. split; [rewrite !app_length; lia|exact T2].
Qed.

Lemma app_prefix (b b' x x' : text) : b ++ x = b' ++ x' -> length b = length b' -> b = b' /\ x = x'.
Proof.
  revert b'. induction b as [|c b IH]; intros [|c' b'] E L; try discriminate; auto. injection E as -> E. injection L as L.
  destruct (IH b' E L) as [-> ->]. auto.
Qed.

Lemma split_at (name : text) i : i <= length name -> exists b a, name = b ++ a /\ length b = i.
Proof. intros L. exists (firstn i name), (skipn i name). split; [now rewrite firstn_skipn|]. apply firstn_length_le. exact L. Qed.

Lemma match_ends_sound r : forall (name : text) i j, i <= length name -> In j (match_ends name r i) ->
  exists b x a, name = b ++ x ++ a /\ length b = i /\ j = i + length x /\ matches r b x a.
Proof.
  assert (One : forall (name : text) i e, nth_error name i = Some e -> exists b a, name = b ++ [e] ++ a /\ length b = i).
  { intros name i e E. apply nth_error_split in E as (b & a & -> & L). exists b, a. auto. }
  assert (Two : forall r s (name : text) i j k,
    (exists b x a, name = b ++ x ++ a /\ length b = i /\ j = i + length x /\ matches r b x a) ->
    (exists b x a, name = b ++ x ++ a /\ length b = j /\ k = j + length x /\ matches s b x a) ->
    exists b x y a, name = b ++ (x ++ y) ++ a /\ length b = i /\ k = i + length (x ++ y) /\ matches r b x (y ++ a) /\ matches s (b ++ x) y a).
  { intros r0 s0 name i j k (b & x & a & E & L & -> & M) (b' & y & a' & E' & L' & -> & M').
    rewrite E, app_assoc in E'. destruct (app_prefix (b ++ x) b' a (y ++ a') E' ltac:(rewrite app_length; lia)) as [<- ->].
    exists b, x, y, a'. rewrite <- app_assoc. repeat split; auto. rewrite app_length. lia. }
  induction r as [|c| |neg l| | |r IHr s IHs|r IHr s IHs|r IHr|r IHr n m]; intros name i j L J; cbn [match_ends] in J.
  - destruct J as [<-|[]]. destruct (split_at name i L) as (b & a & E & Lb). exists b, [], a. cbn [length]. rewrite Nat.add_0_r. repeat split; auto. constructor.
  - destruct (nth_error name i) as [e|] eqn:N; [|contradiction]. destruct (N.eqb_spec c e) as [->|]; [|contradiction].
    destruct J as [<-|[]]. destruct (One _ _ _ N) as (b & a & E & Lb). exists b, [e], a. cbn [length]. repeat split; auto; [lia|constructor].
  - destruct (nth_error name i) as [e|] eqn:N; [|contradiction]. destruct (N.eqb_spec #newline e) as [|Ne]; [contradiction|].
    destruct J as [<-|[]]. destruct (One _ _ _ N) as (b & a & E & Lb). exists b, [e], a. cbn [length]. repeat split; auto; [lia|]. constructor. congruence.
  - destruct (nth_error name i) as [e|] eqn:N; [|contradiction].
    destruct (existsb (fun x => N.leb (fst x) e && N.leb e (snd x)) l) eqn:W, neg; cbn [Bool.eqb] in J; try contradiction;
      destruct J as [<-|[]]; destruct (One _ _ _ N) as (b & a & E & Lb); exists b, [e], a; cbn [length]; (repeat split; auto; [lia|]); constructor;
      [now apply within_iff|now apply not_within_iff].
  - destruct (Nat.eqb_spec i 0) as [->|]; [|contradiction]. destruct J as [<-|[]]. exists [], [], name. repeat split. constructor.
  - destruct (Nat.eqb_spec i (length name)) as [->|]; [|contradiction]. destruct J as [<-|[]]. exists name, [], [].
    cbn [app length]. rewrite app_nil_r, Nat.add_0_r. repeat split. constructor.
  - apply in_flat_map in J as (k & Jk & J). pose proof (IHr _ _ _ L Jk) as R. assert (Lk : k <= length name).
    { destruct R as (b & x & a & -> & <- & -> & _). rewrite !app_length. lia. }
    destruct (Two r s _ _ _ _ R (IHs _ _ _ Lk J)) as (b & x & y & a & E & Lb & Ej & M1 & M2).
    exists b, (x ++ y), a. repeat split; auto. now constructor.
  - apply in_app_or in J as [J|J]; [destruct (IHr _ _ _ L J) as (b & x & a & E & Lb & Ej & M)|destruct (IHs _ _ _ L J) as (b & x & a & E & Lb & Ej & M)];
      exists b, x, a; repeat split; auto; [now apply m_left|now apply m_right].
  - apply repeated_iff in J as (i0 & k & [<-|[]] & _ & T). clear -IHr Two L T. induction T as [i|k i x j J T IH].
    + destruct (split_at name i L) as (b & a & E & Lb). exists b, [], a. cbn [length]. rewrite Nat.add_0_r. repeat split; auto. apply m_done.
    + pose proof (IHr _ _ _ L J) as R. assert (Lk : x <= length name).
      { destruct R as (b & y & a & -> & <- & -> & _). rewrite !app_length. lia. }
      destruct (Two r (RStar r) _ _ _ _ R (IH Lk)) as (b & y & z & a & E & Lb & Ej & M1 & M2).
      exists b, (y ++ z), a. repeat split; auto. now apply m_more.
  - assert (K : exists k, n <= k /\ match m with Some m => k <= m | None => True end /\ steps (match_ends name r) k i j).
    { destruct m as [m|].
      - destruct (Nat.ltb_spec m n) as [|Le]; [contradiction|]. apply repeated_iff in J as (i0 & k & J & Lk & T).
        apply exactly_iff in J as (i1 & [<-|[]] & T1). exists (n + k). repeat split; [lia|lia|]. eapply steps_app; eauto.
      - apply repeated_iff in J as (i0 & k & J & Lk & T).
        apply exactly_iff in J as (i1 & [<-|[]] & T1). exists (n + k). repeat split; [lia|]. eapply steps_app; eauto. }
    clear J. destruct K as (k & Ln & Lm & T). revert n m Ln Lm. induction T as [i|k i x j J T IH]; intros n m Ln Lm.
    + destruct (split_at name i L) as (b & a & E & Lb). exists b, [], a. cbn [length]. rewrite Nat.add_0_r. repeat split; auto.
      assert (n = 0) as -> by lia. apply m_enough.
    + pose proof (IHr _ _ _ L J) as R. assert (Lk : x <= length name).
      { destruct R as (b & y & a & -> & <- & -> & _). rewrite !app_length. lia. }
      assert (Lm' : match option_map pred m with Some m => k <= m | None => True end) by (destruct m as [m|]; [cbn; lia|exact I]).
      destruct (Two r (RRepeat r (pred n) (option_map pred m)) _ _ _ _ R (IH Lk (pred n) (option_map pred m) ltac:(lia) Lm')) as (b & y & z & a & E & Lb & Ej & M1 & M2).
      exists b, (y ++ z), a. repeat split; auto. apply m_once; auto. intros ->. lia.
Qed.

Lemma is_match_iff r name : is_match r name = true <-> occurs r name.
Proof.
  unfold is_match, occurs. rewrite existsb_exists. split.
  - intros (i & J & E). apply in_seq in J. destruct (match_ends name r i) as [|j l] eqn:M; [discriminate|].
    destruct (match_ends_sound r name i j) as (b & x & a & En & _ & _ & Mt); [lia|rewrite M; now left|]. eauto.
  - intros (b & x & a & -> & M). exists (length b). split; [apply in_seq; rewrite !app_length; lia|].
    apply match_ends_complete in M. destruct (match_ends (b ++ x ++ a) r (length b)); [contradiction|reflexivity].
Qed.

(** ** Characters in a row *)
Definition in_a_row (l : text) (acc : re) : re := fold_left (fun acc c => RSeq acc (RChar c)) l acc.

Lemma writes_in_a_row l : Forall literal l -> forall s acc, writes_seq s acc -> writes_seq (s ++ l) (in_a_row l acc).
Proof.
  intros F. induction F as [|c l L F IH]; intros s acc W; cbn [in_a_row fold_left].
  - now rewrite app_nil_r.
  - replace (s ++ c :: l) with ((s ++ [c]) ++ l) by (now rewrite <- app_assoc). apply IH. constructor; [exact W|]. apply item_atom. now constructor.
Qed.

Lemma matches_in_a_row l : forall acc b x a, matches (in_a_row l acc) b x a <-> exists x', x = x' ++ l /\ matches acc b x' (l ++ a).
Proof.
  induction l as [|c l IH]; intros acc b x a; cbn [in_a_row fold_left].
  - split; [intros M; exists x; now rewrite app_nil_r|]. intros (x' & -> & M). now rewrite app_nil_r.
  - change (fold_left (fun acc c => RSeq acc (RChar c)) l (RSeq acc (RChar c))) with (in_a_row l (RSeq acc (RChar c))). rewrite IH. split.
    + intros (x' & -> & M). inversion M as [| | | | | | |? ? ? y z ? M1 M2| | | | | |]; subst. inversion M2; subst. exists y. rewrite <- app_assoc. auto.
    + intros (x' & -> & M). exists (x' ++ [c]). rewrite <- app_assoc. split; [reflexivity|]. constructor; [exact M|constructor].
Qed.

Lemma matches_seq_inv r s b x a : matches (RSeq r s) b x a -> exists y z, x = y ++ z /\ matches r b y (z ++ a) /\ matches s (b ++ y) z a.
Proof. intros M. inversion M; subst. eauto. Qed.
Lemma matches_eps_inv b x a : matches REps b x a -> x = []. Proof. intros M. now inversion M. Qed.
Lemma matches_char_inv c b x a : matches (RChar c) b x a -> x = [c]. Proof. intros M. now inversion M. Qed.
Lemma matches_any_inv b x a : matches RAny b x a -> exists c, x = [c] /\ c <> #newline. Proof. intros M. inversion M; subst; eauto. Qed.
Lemma matches_end_inv b x a : matches REnd b x a -> x = [] /\ a = []. Proof. intros M. now inversion M. Qed.
