(** Facts about characters in bytes. *)
From Coq Require Import List Bool NArith ZArith Ascii Lia.
From Verif Require Import Path Utf8 SpecUtf8.
Import ListNotations.
Local Open Scope N_scope.

Lemma between_iff lo hi b : between lo hi b = true <-> lo <= b <= hi.
Proof. unfold between. rewrite andb_true_iff, !N.leb_le. reflexivity. Qed.

Lemma between_false lo hi b : between lo hi b = false <-> b < lo \/ hi < b.
Proof. unfold between. rewrite andb_false_iff, !N.leb_gt. reflexivity. Qed.

Lemma second_spec a b : second a b = true <->
  (a = 224 /\ 160 <= b <= 191) \/ (a = 237 /\ 128 <= b <= 159) \/ (a = 240 /\ 144 <= b <= 191) \/ (a = 244 /\ 128 <= b <= 143) \/
  (194 <= a <= 244 /\ a <> 224 /\ a <> 237 /\ a <> 240 /\ a <> 244 /\ 128 <= b <= 191).
Proof.
  unfold second, cont. destruct (N.eqb_spec a 224) as [->|]; [rewrite between_iff; lia|].
  destruct (N.eqb_spec a 237) as [->|]; [rewrite between_iff; lia|].
  destruct (N.eqb_spec a 240) as [->|]; [rewrite between_iff; lia|].
  destruct (N.eqb_spec a 244) as [->|]; [rewrite between_iff; lia|].
  rewrite andb_true_iff, !between_iff. lia.
Qed.

(** The bytes of a character, by ranges. *)
Definition formed (p : list N) : Prop :=
  match p with
  | [a] => a < 128
  | [a; b] => a < 224 /\ second a b = true
  | [a; b; c] => 224 <= a < 240 /\ second a b = true /\ cont c = true
  | [a; b; c; d] => 240 <= a /\ second a b = true /\ cont c = true /\ cont d = true
  | _ => False
  end.

(** Quotients and remainders, as linear facts. *)
Ltac divide x k :=
  let q := fresh "q" in let r := fresh "r" in let E := fresh "Eq" in let L := fresh "Lr" in
  pose proof (N.div_mod x k ltac:(discriminate)) as E; pose proof (N.mod_lt x k ltac:(discriminate)) as L;
  set (q := x / k) in *; set (r := x mod k) in *; clearbody q r.

Lemma encode_formed c : scalar c -> formed (encode c).
Proof.
  unfold scalar, encode. intros S.
  destruct (N.ltb_spec c 128) as [L1|L1]; [exact L1|].
  destruct (N.ltb_spec c 2048) as [L2|L2]; [cbn [formed]; rewrite second_spec; divide c 64; lia|].
  destruct (N.ltb_spec c 65536) as [L3|L3].
  - cbn [formed]. unfold cont. rewrite second_spec, between_iff. change 4096 with (64 * 64).
    rewrite <- N.div_div by discriminate. divide c 64. divide q 64. lia.
  - cbn [formed]. unfold cont. rewrite second_spec, !between_iff. change 262144 with (64 * 64 * 64). change 4096 with (64 * 64).
    rewrite <- !N.div_div by discriminate. divide c 64. divide q 64. divide q0 64. lia.
Qed.

Lemma two_encode a b : a < 224 -> second a b = true -> let c := (a - 192) * 64 + (b - 128) in scalar c /\ encode c = [a; b].
Proof.
  intros L S c. apply second_spec in S. assert (c < 2048 /\ 128 <= c) by lia. split; [unfold scalar; lia|].
  unfold encode. rewrite (proj2 (N.ltb_ge c 128)), (proj2 (N.ltb_lt c 2048)) by lia.
  assert (E : c = (a - 192) * 64 + (b - 128)) by reflexivity. clearbody c. divide c 64. f_equal; [lia|]. f_equal. lia.
Qed.

Lemma three_encode a b d : 224 <= a < 240 -> second a b = true -> cont d = true ->
  let c := (a - 224) * 4096 + (b - 128) * 64 + (d - 128) in scalar c /\ encode c = [a; b; d].
Proof.
  intros L S K c. unfold cont in K. apply second_spec in S. apply between_iff in K. assert (2048 <= c < 65536) by lia. split; [unfold scalar; lia|].
  unfold encode. rewrite (proj2 (N.ltb_ge c 128)), (proj2 (N.ltb_ge c 2048)), (proj2 (N.ltb_lt c 65536)) by lia.
  assert (E : c = (a - 224) * 4096 + (b - 128) * 64 + (d - 128)) by reflexivity. clearbody c. change 4096 with (64 * 64).
  rewrite <- N.div_div by discriminate. divide c 64. divide q 64. f_equal; [lia|]. f_equal; [lia|]. f_equal. lia.
Qed.

Lemma four_encode a b d e : 240 <= a -> second a b = true -> cont d = true -> cont e = true ->
  let c := (a - 240) * 262144 + (b - 128) * 4096 + (d - 128) * 64 + (e - 128) in scalar c /\ encode c = [a; b; d; e].
Proof.
  intros L S K1 K2 c. unfold cont in K1, K2. apply second_spec in S. apply between_iff in K1, K2. assert (65536 <= c < 1114112) by lia. split; [unfold scalar; lia|].
  unfold encode. rewrite (proj2 (N.ltb_ge c 128)), (proj2 (N.ltb_ge c 2048)), (proj2 (N.ltb_ge c 65536)) by lia.
  assert (E : c = (a - 240) * 262144 + (b - 128) * 4096 + (d - 128) * 64 + (e - 128)) by reflexivity. clearbody c.
  change 262144 with (64 * 64 * 64). change 4096 with (64 * 64).
  rewrite <- !N.div_div by discriminate. divide c 64. divide q 64. divide q0 64. f_equal; [lia|]. f_equal; [lia|]. f_equal; [lia|]. f_equal. lia.
Qed.

Lemma formed_encode p : formed p -> exists c, scalar c /\ encode c = p.
Proof.
  destruct p as [|a [|b [|c [|d [|e p]]]]]; cbn [formed]; try contradiction.
  - intros L. exists a. split; [unfold scalar; lia|]. unfold encode. now rewrite (proj2 (N.ltb_lt a 128)).
  - intros (L & S). eexists. now apply two_encode.
  - intros (L & S & K). eexists. now apply three_encode.
  - intros (L & S & K1 & K2). eexists. now apply four_encode.
Qed.

Lemma second_high a b : second a b = true -> 128 <= a /\ a <= 244 /\ cont b = true.
Proof. unfold cont. rewrite second_spec, between_iff. lia. Qed.

Lemma cons_inj {A} (a b : A) l m : a :: l = b :: m -> a = b /\ l = m.
Proof. intros E. injection E as -> ->. auto. Qed.

(** A character is read as itself, whatever follows. *)
Lemma decode_encode c s : scalar c -> decode (encode c ++ s) = Char (encode c) c :: decode s.
Proof.
  intros S. pose proof (encode_formed c S) as F. unfold encode in *.
  destruct (N.ltb_spec c 128) as [L1|L1].
  { cbn [app decode]. now rewrite (proj2 (N.ltb_lt c 128)). }
  assert (Same : forall p x y l m, x = y -> l = m -> Char p x :: l = Char p y :: m) by (intros; now subst).
  assert (Inj : forall x y, 128 <= x -> 128 <= y -> encode x = encode y -> x = y).
  { clear. unfold encode. change 262144 with (64 * 64 * 64). change 4096 with (64 * 64). intros x y Lx Ly E. rewrite <- !N.div_div in E by discriminate.
    destruct (N.ltb_spec x 128); [lia|]. destruct (N.ltb_spec y 128); [lia|].
    destruct (N.ltb_spec x 2048), (N.ltb_spec y 2048); try destruct (N.ltb_spec x 65536); try destruct (N.ltb_spec y 65536); try discriminate;
      repeat match goal with H : _ :: _ = _ :: _ |- _ => apply cons_inj in H as [? H] end; clear E;
      divide x 64; divide y 64; divide q 64; divide q0 64; divide q1 64; divide q2 64; lia. }
  destruct (N.ltb_spec c 2048) as [L2|L2]; [|destruct (N.ltb_spec c 65536) as [L3|L3]].
  - set (a := 192 + c / 64) in *. set (b := 128 + c mod 64) in *. cbn [formed] in F. destruct F as (La & Sb).
    destruct (second_high _ _ Sb) as (H1 & _). cbn [app decode]. rewrite (proj2 (N.ltb_ge a 128)), Sb, (proj2 (N.ltb_lt a 224)) by lia. cbn [negb].
    apply Same; [|reflexivity]. destruct (two_encode a b La Sb) as (S' & E). apply Inj; [|exact L1|].
    + unfold b, a in *. apply second_spec in Sb. lia.
    + rewrite E. unfold encode, a, b. now rewrite (proj2 (N.ltb_ge c 128)), (proj2 (N.ltb_lt c 2048)) by lia.
  - set (a := 224 + c / 4096) in *. set (b := 128 + (c / 64) mod 64) in *. set (d := 128 + c mod 64) in *. cbn [formed] in F. destruct F as (La & Sb & Kd).
    destruct (second_high _ _ Sb) as (H1 & _). cbn [app decode].
    rewrite (proj2 (N.ltb_ge a 128)), Sb, (proj2 (N.ltb_ge a 224)), Kd, (proj2 (N.ltb_lt a 240)) by lia. cbn [negb].
    apply Same; [|reflexivity]. destruct (three_encode a b d La Sb Kd) as (S' & E). apply Inj; [|exact L1|].
    + apply second_spec in Sb. unfold cont in Kd. apply between_iff in Kd. lia.
    + rewrite E. unfold encode, a, b, d. now rewrite (proj2 (N.ltb_ge c 128)), (proj2 (N.ltb_ge c 2048)), (proj2 (N.ltb_lt c 65536)) by lia.
  - set (a := 240 + c / 262144) in *. set (b := 128 + (c / 4096) mod 64) in *. set (d := 128 + (c / 64) mod 64) in *. set (e := 128 + c mod 64) in *.
    cbn [formed] in F. destruct F as (La & Sb & Kd & Ke).
    destruct (second_high _ _ Sb) as (H1 & _). cbn [app decode].
    rewrite (proj2 (N.ltb_ge a 128)), Sb, (proj2 (N.ltb_ge a 224)), Kd, (proj2 (N.ltb_ge a 240)), Ke by lia. cbn [negb].
    apply Same; [|reflexivity]. destruct (four_encode a b d e La Sb Kd Ke) as (S' & E). apply Inj; [|exact L1|].
    + apply second_spec in Sb. unfold cont in *. apply between_iff in Kd. lia.
    + rewrite E. unfold encode, a, b, d, e. now rewrite (proj2 (N.ltb_ge c 128)), (proj2 (N.ltb_ge c 2048)), (proj2 (N.ltb_ge c 65536)) by lia.
Qed.

Lemma encode_not_nil c : encode c <> [].
Proof. unfold encode. destruct (c <? 128), (c <? 2048), (c <? 65536); discriminate. Qed.

Lemma encode_prefix_free c c' s s' : scalar c -> scalar c' -> encode c ++ s = encode c' ++ s' -> c = c' /\ s = s'.
Proof.
  intros S S' E. pose proof (decode_encode c s S) as D. rewrite E, decode_encode in D by exact S'. injection D as _ <- _.
  split; [reflexivity|]. now apply app_inv_head in E.
Qed.

(** What begins a character, by ranges. *)
Definition beginning (p : list N) : Prop :=
  match p with
  | [a] => 194 <= a <= 244
  | [a; b] => 224 <= a /\ second a b = true
  | [a; b; c] => 240 <= a /\ second a b = true /\ cont c = true
  | _ => False
  end.

Lemma begins_iff p : begins p <-> beginning p.
Proof.
  split.
  - intros (c & q & S & E & Np & Nq). pose proof (encode_formed c S) as F. rewrite E in F.
    destruct p as [|a [|b [|d [|e p]]]]; [contradiction|..].
    + destruct q as [|b [|d [|e [|f q]]]]; try contradiction; cbn [app formed beginning] in *.
      * destruct F as (_ & F). apply second_spec in F. lia.
      * destruct F as (_ & F & _). apply second_spec in F. lia.
      * destruct F as (_ & F & _). apply second_spec in F. lia.
    + destruct q as [|d [|e [|f q]]]; try contradiction; cbn [app formed beginning] in *; split; try tauto; lia.
    + destruct q as [|e [|f q]]; try contradiction; cbn [app formed beginning] in *; tauto.
    + destruct q as [|f q]; [contradiction|]. destruct p; cbn [app formed] in F; contradiction.
  - assert (X : forall q, q <> [] -> p <> [] -> formed (p ++ q) -> begins p).
    { intros q Nq Np F. destruct (formed_encode _ F) as (c & S & E). exists c, q. auto. }
    assert (K : cont 128 = true) by reflexivity.
    destruct p as [|a [|b [|c [|d p]]]]; cbn [beginning]; try contradiction; intros B.
    + assert (Y : exists b, second a b = true).
      { destruct (N.eq_dec a 224) as [->|]; [exists 160; reflexivity|]. destruct (N.eq_dec a 240) as [->|]; [exists 144; reflexivity|].
        exists 128. apply second_spec. lia. }
      destruct Y as (b & Sb). destruct (N.lt_ge_cases a 224) as [L|L]; [apply (X [b]); try discriminate; cbn; auto|].
      destruct (N.lt_ge_cases a 240) as [L'|L']; [apply (X [b; 128])|apply (X [b; 128; 128])]; try discriminate; cbn; auto.
    + destruct B as (L & Sb). destruct (N.lt_ge_cases a 240) as [L'|L']; [apply (X [128])|apply (X [128; 128])]; try discriminate; cbn; auto.
    + destruct B as (L & Sb & Kc). apply (X [128]); try discriminate; cbn; auto.
Qed.

(** ** The reading is the one specified *)

Lemma not_formed p s : (forall q r, p ++ s = q ++ r -> ~ formed q) -> forall c r, scalar c -> p ++ s <> encode c ++ r.
Proof. intros N c r S E. apply (N _ _ E). now apply encode_formed. Qed.

Lemma decode_reads f : forall s, (length s <= f)%nat -> reads_as s (decode s).
Proof.
  induction f as [|f IH]; intros s Lf.
  - destruct s; [constructor|cbn in Lf; lia].
  - destruct s as [|a s1]; [constructor|]. cbn [length] in Lf. cbn [decode].
    assert (IsChar : forall c q s', a :: s1 = q ++ s' -> scalar c -> encode c = q -> reads_as (a :: s1) (Char q c :: decode s')).
    { intros c q s' E S <-. rewrite E. apply ra_char; [exact S|]. apply IH. apply (f_equal (@length N)) in E. rewrite app_length in E. cbn [length] in E.
      pose proof (encode_not_nil c). destruct (encode c); [contradiction|]. cbn in E. lia. }
    assert (IsBroken : forall p s', a :: s1 = p ++ s' -> p <> [] -> broken p s' -> reads_as (a :: s1) (Broken p :: decode s')).
    { intros p s' E Np B. rewrite E. apply ra_broken; [exact B|]. apply IH. apply (f_equal (@length N)) in E. rewrite app_length in E. cbn [length] in E.
      destruct p; [contradiction|]. cbn in E. lia. }
    destruct (N.ltb_spec a 128) as [La|La].
    { apply (IsChar a [a]); [reflexivity|unfold scalar; lia|]. unfold encode. now rewrite (proj2 (N.ltb_lt a 128)). }
    (* no character, the piece in question not being one *)
    assert (No : forall c r, scalar c -> a :: s1 = encode c ++ r ->
       exists b s2, s1 = b :: s2 /\ second a b = true /\
       (a < 224 \/ exists d s3, s2 = d :: s3 /\ cont d = true /\ (a < 240 \/ exists e s4, s3 = e :: s4 /\ cont e = true))).
    { intros c r S E. pose proof (encode_formed c S) as F. destruct (encode c) as [|x [|y [|z [|w [|v q]]]]]; cbn [formed app] in *; try contradiction;
        injection E as <- ->.
      - lia.
      - destruct F. exists y, r. auto.
      - destruct F as (? & ? & ?). exists y, (z :: r). split; [reflexivity|]. split; [assumption|]. right. exists z, r. split; [reflexivity|]. split; [assumption|]. left. lia.
      - destruct F as (? & ? & ? & ?). exists y, (z :: w :: r). split; [reflexivity|]. split; [assumption|]. right. exists z, (w :: r). split; [reflexivity|].
        split; [assumption|]. right. eauto. }
    (* a single byte *)
    assert (One : (forall b s2, s1 = b :: s2 -> second a b = false) -> reads_as (a :: s1) (Broken [a] :: decode s1)).
    { intros N. apply (IsBroken [a]); [reflexivity|discriminate|]. split.
      - intros c r S E. destruct (No c r S E) as (b & s2 & -> & Sb & _). rewrite (N b s2) in Sb by reflexivity. discriminate.
      - rewrite begins_iff. cbn [beginning]. destruct (N.le_gt_cases 194 a) as [L1|L1]; [destruct (N.le_gt_cases a 244) as [L2|L2]|].
        + left. split; [lia|]. intros b s' -> B. apply begins_iff in B. cbn [app beginning] in B. destruct B as (_ & B).
          rewrite (N b s') in B by reflexivity. discriminate.
        + right. split; [eauto|]. lia.
        + right. split; [eauto|]. lia. }
    destruct s1 as [|b s2]; [apply One; discriminate|].
    destruct (second a b) eqn:Sb; cbn [negb]; [|apply One; intros ? ? [= <- <-]; exact Sb].
    destruct (N.ltb_spec a 224) as [L2|L2].
    { destruct (two_encode a b L2 Sb) as (S & E). now apply (IsChar _ [a; b]). }
    (* two bytes *)
    assert (Two : (forall d s3, s2 = d :: s3 -> cont d = false) -> reads_as (a :: b :: s2) (Broken [a; b] :: decode s2)).
    { intros N. apply (IsBroken [a; b]); [reflexivity|discriminate|]. split.
      - intros c r S E. destruct (No c r S E) as (b' & s2' & [= <- <-] & _ & [X|(d & s3 & -> & K & _)]); [lia|]. rewrite (N d s3) in K by reflexivity. discriminate.
      - left. split; [apply begins_iff; cbn; auto|]. intros d s3 -> B. apply begins_iff in B. cbn [app beginning] in B. destruct B as (_ & _ & B).
        rewrite (N d s3) in B by reflexivity. discriminate. }
    destruct s2 as [|d s3]; [apply Two; discriminate|].
    destruct (cont d) eqn:Kd; cbn [negb]; [|apply Two; intros ? ? [= <- <-]; exact Kd].
    destruct (N.ltb_spec a 240) as [L3|L3].
    { destruct (three_encode a b d (conj L2 L3) Sb Kd) as (S & E). now apply (IsChar _ [a; b; d]). }
    (* three bytes *)
    assert (Three : (forall e s4, s3 = e :: s4 -> cont e = false) -> reads_as (a :: b :: d :: s3) (Broken [a; b; d] :: decode s3)).
    { intros N. apply (IsBroken [a; b; d]); [reflexivity|discriminate|]. split.
      - intros c r S E. destruct (No c r S E) as (b' & s2' & [= <- <-] & _ & [X|(d' & s3' & [= <- <-] & _ & [X|(e & s4 & -> & K)])]); [lia|lia|].
        rewrite (N e s4) in K by reflexivity. discriminate.
      - left. split; [apply begins_iff; cbn; auto|]. intros e s4 -> B. apply begins_iff in B. exact B. }
    destruct s3 as [|e s4]; [apply Three; discriminate|].
    destruct (cont e) eqn:Ke; cbn [negb]; [|apply Three; intros ? ? [= <- <-]; exact Ke].
    destruct (four_encode a b d e L3 Sb Kd Ke) as (S & E). now apply (IsChar _ [a; b; d; e]).
Qed.

Lemma begins_prefix p q : p <> [] -> begins (p ++ q) -> begins p.
Proof.
  intros Np (c & r & S & E & _ & Nr). exists c, (q ++ r). rewrite app_assoc. repeat split; auto. intros X. apply app_eq_nil in X as [_ X]. contradiction.
Qed.

Lemma broken_not_nil p s : broken p s -> p <> [].
Proof. intros (_ & [((c & q & _ & _ & N & _) & _)|((b & ->) & _)]); [exact N|discriminate]. Qed.

Lemma app_shorter {A} (p : list A) : forall q s t, p ++ s = q ++ t -> (exists r, q = p ++ r /\ s = r ++ t) \/ (exists r, p = q ++ r /\ t = r ++ s).
Proof.
  induction p as [|x p IH]; intros q s t E.
  - left. exists q. auto.
  - destruct q as [|y q]; [right; exists (x :: p); auto|]. injection E as <- E. destruct (IH _ _ _ E) as [(r & -> & ->)|(r & -> & ->)].
    + left. exists r. auto.
    + right. exists r. auto.
Qed.

Lemma broken_longest p q s t : broken p s -> broken q t -> p ++ s = q ++ t -> exists r, p = q ++ r.
Proof.
  intros Bp Bq E. apply app_shorter in E as [(r & -> & ->)|(r & -> & _)]; [|eauto]. destruct r as [|b r]; [exists []; now rewrite !app_nil_r|exfalso].
  pose proof (broken_not_nil _ _ Bp) as Np. destruct Bp as (_ & [(Bg & Mx)|((x & ->) & N)]), Bq as (_ & [(Bg' & _)|((y & E) & _)]).
  - apply (Mx b (r ++ t) Logic.eq_refl). apply begins_prefix with r; [now destruct p|]. now rewrite <- app_assoc.
  - destruct p as [|x p]; [contradiction|]. injection E as _ E. destruct p; discriminate.
  - apply N. apply begins_prefix with (b :: r); [discriminate|]. exact Bg'.
  - discriminate.
Qed.

Lemma reads_as_det s l : reads_as s l -> forall l', reads_as s l' -> l = l'.
Proof.
  intros R. induction R as [|c s l S R IH|p s l B R IH]; intros l' R'.
  - inversion R' as [|c s l S R E|p s l B R E]; [reflexivity|..].
    + apply app_eq_nil in E as [E _]. now apply encode_not_nil in E.
    + apply app_eq_nil in E as [E _]. now apply broken_not_nil in B.
  - remember (encode c ++ s) as t eqn:E. destruct R' as [|c' s' l' S' R'|p s' l' B R'].
    + symmetry in E. apply app_eq_nil in E as [E _]. now apply encode_not_nil in E.
    + apply encode_prefix_free in E as [-> ->]; auto. f_equal. auto.
    + destruct B as (N & _). exact (False_ind _ (N c s S E)).
  - remember (p ++ s) as t eqn:E. destruct R' as [|c' s' l' S' R'|q s' l' B' R'].
    + symmetry in E. apply app_eq_nil in E as [E _]. now apply broken_not_nil in B.
    + destruct B as (N & _). exact (False_ind _ (N c' s' S' (eq_sym E))).
    + destruct (broken_longest _ _ _ _ B B' (eq_sym E)) as (r & Ep). destruct (broken_longest _ _ _ _ B' B E) as (r' & Eq).
      assert (q = p) as ->.
      { rewrite Ep, <- app_assoc in Eq. rewrite <- (app_nil_r q) in Eq at 1. apply app_inv_head in Eq. symmetry in Eq. apply app_eq_nil in Eq as [-> _].
        now rewrite app_nil_r in Ep. }
      apply app_inv_head in E as ->. f_equal. auto.
Qed.

Lemma decode_iff s l : decode s = l <-> reads_as s l.
Proof.
  split; [intros <-; now apply (decode_reads (length s))|]. intros R. apply (reads_as_det s); [now apply (decode_reads (length s))|exact R].
Qed.

Lemma shows_as_iff ps l : shows_as ps l <-> l = map as_char ps.
Proof.
  split; [intros S; induction S; cbn; congruence|]. intros ->. induction ps as [|[p c|p] ps IH]; constructor; exact IH.
Qed.

Lemma lossy_iff n l : lossy n = l <-> shows n l.
Proof.
  unfold lossy, shows. split.
  - intros <-. exists (decode (map N_of_ascii n)). split; [now apply decode_iff|now apply shows_as_iff].
  - intros (ps & R & S). apply decode_iff in R as ->. now apply shows_as_iff in S as ->.
Qed.

(** ** Pieces *)

Lemma broken_app p s t : broken p (s ++ t) -> broken p s.
Proof.
  intros (N & D). split.
  - intros c r S E. apply (N c (r ++ t) S). now rewrite !app_assoc, E.
  - destruct D as [(B & M)|D]; [left|now right]. split; [exact B|]. intros b s' ->. now apply (M b (s' ++ t)).
Qed.

Lemma reads_split s l : reads_as s l -> forall a b, l = a ++ b -> exists s1 s2, s = s1 ++ s2 /\ reads_as s1 a /\ reads_as s2 b.
Proof.
  intros R. induction R as [|c s l S R IH|p s l B R IH]; intros a b E.
  - symmetry in E. apply app_eq_nil in E as [-> ->]. exists [], []. repeat split; constructor.
  - destruct a as [|x a]; [exists [], (encode c ++ s); split; [reflexivity|]; split; [constructor|]; cbn in E; subst b; now constructor|].
    injection E as <- E. destruct (IH _ _ E) as (s1 & s2 & -> & R1 & R2). exists (encode c ++ s1), s2. rewrite app_assoc. repeat split; auto. now constructor.
  - destruct a as [|x a]; [exists [], (p ++ s); split; [reflexivity|]; split; [constructor|]; cbn in E; subst b; now constructor|].
    injection E as <- E. destruct (IH _ _ E) as (s1 & s2 & -> & R1 & R2). exists (p ++ s1), s2. rewrite app_assoc. repeat split; auto.
    constructor; [|exact R1]. now apply broken_app in B.
Qed.

Lemma reads_exact s ps : reads_as s ps -> forall l, shows_as ps l -> ~ In replacement l -> Forall scalar l /\ s = flat_map encode l.
Proof.
  intros R. induction R as [|c s ps S R IH|p s ps B R IH]; intros l Sh N; inversion Sh; subst.
  - auto.
  - match goal with H : shows_as ps _ |- _ => destruct (IH _ H) as [F ->] end; [intros I; apply N; now right|]. split; [now constructor|reflexivity].
  - exfalso. apply N. now left.
Qed.

Definition char_piece (c : char) : piece := Char (encode c) c.

Lemma reads_encoded l : Forall scalar l -> forall s m, reads_as s m -> reads_as (flat_map encode l ++ s) (map char_piece l ++ m).
Proof. intros F. induction F as [|c l S F IH]; intros s m R; [exact R|]. cbn [flat_map map app]. rewrite <- app_assoc. constructor; auto. Qed.

Lemma shows_as_chars l : shows_as (map char_piece l) l.
Proof. induction l; constructor; auto. Qed.

Lemma shows_as_app ps l qs m : shows_as ps l -> shows_as qs m -> shows_as (ps ++ qs) (l ++ m).
Proof. intros S S'. induction S; cbn [app]; [exact S'|constructor; assumption..]. Qed.

(** Bytes after which a character does not go on. *)
Definition fresh (s : list N) : Prop := match s with [] => True | b :: _ => cont b = false end.

Lemma fresh_encode c s : scalar c -> fresh (encode c ++ s).
Proof.
  intros S. pose proof (encode_formed c S) as F. unfold cont. destruct (encode c) as [|a [|b [|d [|e [|g q]]]]]; cbn [formed] in F; try contradiction;
    cbn [app fresh]; apply between_false.
  - lia.
  - destruct F as (_ & F). apply second_spec in F. lia.
  - destruct F as (_ & F & _). apply second_spec in F. lia.
  - destruct F as (_ & F & _). apply second_spec in F. lia.
Qed.

Lemma fresh_encoded l : Forall scalar l -> fresh (flat_map encode l).
Proof. intros F. destruct F as [|c l S F]; [exact I|]. now apply fresh_encode. Qed.

Lemma inside_cont c p b q : scalar c -> encode c = p ++ b :: q -> p <> [] -> cont b = true.
Proof.
  intros S E N. pose proof (encode_formed c S) as F. rewrite E in F. destruct p as [|x [|y [|z [|w p]]]]; [contradiction|..]; cbn [app] in F.
  - destruct q as [|u [|v [|w q]]]; cbn [formed] in F; try contradiction; (apply (second_high x b); tauto).
  - destruct q as [|u [|v q]]; cbn [formed] in F; try contradiction; tauto.
  - destruct q as [|u q]; cbn [formed] in F; try contradiction; tauto.
  - destruct p; cbn [formed app] in F; contradiction.
Qed.

Lemma broken_fresh p s t : broken p s -> fresh t -> broken p (s ++ t).
Proof.
  intros B Ft. pose proof (broken_not_nil _ _ B) as Np. destruct t as [|x t]; [now rewrite app_nil_r|]. cbn [fresh] in Ft. destruct B as (N & D). split.
  - intros c r S E. rewrite app_assoc in E. apply app_shorter in E as [(v & Ec & E)|(v & Ep & _)].
    + destruct v as [|y v].
      * apply (N c [] S). now rewrite app_nil_r, Ec, app_nil_r.
      * injection E as <- _. rewrite (inside_cont c (p ++ s) x v S Ec) in Ft; [discriminate|]. now destruct p.
    + now apply (N c v S).
  - destruct D as [(B & M)|D]; [left|now right]. split; [exact B|]. intros b s' E. destruct s as [|y s].
    + injection E as <- _. intros (c & q & S & Ec & _ & _). rewrite <- app_assoc in Ec. cbn [app] in Ec.
      rewrite (inside_cont c p x q S Ec Np) in Ft. discriminate.
    + injection E as <- _. now apply (M y s).
Qed.

Lemma reads_app s l : reads_as s l -> forall t m, reads_as t m -> fresh t -> reads_as (s ++ t) (l ++ m).
Proof.
  intros R. induction R as [|c s l S R IH|p s l B R IH]; intros t m R' F; [exact R'|..]; rewrite <- app_assoc; cbn [app].
  - constructor; auto.
  - constructor; auto. now apply broken_fresh.
Qed.

(** ** Names *)

Lemma map_split {A B} (f : A -> B) n : forall s1 s2, map f n = s1 ++ s2 -> exists n1 n2, n = n1 ++ n2 /\ map f n1 = s1 /\ map f n2 = s2.
Proof.
  induction n as [|x n IH]; intros s1 s2 E.
  - symmetry in E. apply app_eq_nil in E as [-> ->]. exists [], []. auto.
  - destruct s1 as [|y s1]; [exists [], (x :: n); auto|]. injection E as <- E. destruct (IH _ _ E) as (n1 & n2 & -> & <- & <-). exists (x :: n1), n2. auto.
Qed.

Lemma bytes_inj n : forall m, map N_of_ascii n = map N_of_ascii m -> n = m.
Proof.
  induction n as [|x n IH]; intros [|y m] E; try discriminate; [reflexivity|]. cbn in E. apply cons_inj in E as [Ex E]. rewrite (IH m E).
  f_equal. rewrite <- (ascii_N_embedding x), Ex. apply ascii_N_embedding.
Qed.

Lemma shows_split n a b : shows n (a ++ b) -> exists n1 n2, n = n1 ++ n2 /\ shows n1 a /\ shows n2 b.
Proof.
  intros (ps & R & S). apply shows_as_iff in S. symmetry in S. apply map_split in S as (pa & pb & -> & <- & <-).
  destruct (reads_split _ _ R pa pb Logic.eq_refl) as (s1 & s2 & E & R1 & R2). apply map_split in E as (n1 & n2 & -> & <- & <-). exists n1, n2.
  split; [reflexivity|]. split; eexists; (split; [eassumption|now apply shows_as_iff]).
Qed.

Lemma shows_exact n l : shows n l -> ~ In replacement l -> spells n l.
Proof. intros (ps & R & S). now apply (reads_exact _ ps). Qed.

Lemma spells_shows n l : spells n l -> shows n l.
Proof.
  intros (F & E). exists (map char_piece l). split; [|apply shows_as_chars]. rewrite E, <- (app_nil_r (flat_map encode l)), <- (app_nil_r (map char_piece l)).
  apply reads_encoded; [exact F|constructor].
Qed.

Lemma spells_det n m l : spells n l -> spells m l -> n = m.
Proof. intros (_ & E) (_ & E'). apply bytes_inj. congruence. Qed.

Lemma spells_lossy n l : spells n l -> lossy n = l.
Proof. intros S. now apply lossy_iff, spells_shows. Qed.

Lemma spells_unique n l m : spells n l -> spells n m -> l = m.
Proof. intros S S'. apply spells_lossy in S, S'. congruence. Qed.

Lemma spells_app n m l k : spells n l -> spells m k -> spells (n ++ m) (l ++ k).
Proof. intros (F & E) (F' & E'). split; [now apply Forall_app|]. now rewrite map_app, flat_map_app, E, E'. Qed.

(** A string, then bytes. *)
Lemma spells_then n l m k : spells n l -> shows m k -> shows (n ++ m) (l ++ k).
Proof.
  intros (F & E) (ps & R & S). exists (map char_piece l ++ ps). split; [|apply shows_as_app; [apply shows_as_chars|exact S]].
  rewrite map_app, E. now apply reads_encoded.
Qed.

(** Bytes, then something that begins a character. *)
Lemma shows_app n l m k : shows n l -> shows m k -> fresh (map N_of_ascii m) -> shows (n ++ m) (l ++ k).
Proof.
  intros (ps & R & S) (qs & R' & S') F. exists (ps ++ qs). split; [|now apply shows_as_app]. rewrite map_app. now apply reads_app.
Qed.

Lemma spells_fresh n l m : spells n l -> n <> [] -> fresh (map N_of_ascii (n ++ m)).
Proof.
  intros (F & E) N. rewrite map_app, E. destruct F as [|c l S F]; [destruct n; [contradiction|discriminate]|]. cbn [flat_map]. rewrite <- app_assoc.
  now apply fresh_encode.
Qed.

Lemma shows_exists n : exists l, shows n l.
Proof. exists (lossy n). now apply lossy_iff. Qed.

Lemma shows_det n l m : shows n l -> shows n m -> l = m.
Proof. intros S S'. apply lossy_iff in S, S'. congruence. Qed.

Lemma spells_ascii n : Forall (fun a => N_of_ascii a < 128) n -> spells n (map N_of_ascii n).
Proof.
  intros F. induction F as [|a n L F [Fs E]]; [split; [constructor|reflexivity]|]. split.
  - constructor; [unfold scalar; lia|exact Fs].
  - cbn [map flat_map]. rewrite <- E. unfold encode. now rewrite (proj2 (N.ltb_lt _ 128) L).
Qed.

(** ASCII bytes come from ASCII characters only. *)
Lemma spells_in n l a : spells n l -> N_of_ascii a < 128 -> In a n -> In (N_of_ascii a) l.
Proof.
  intros (F & E) L I. apply (in_map N_of_ascii) in I. rewrite E in I. apply in_flat_map in I as (c & Ic & I).
  rewrite Forall_forall in F. replace (N_of_ascii a) with c; [exact Ic|].
  apply in_split in I as (p & q & Ec). destruct p as [|x p].
  - cbn [app] in Ec. unfold encode in Ec. destruct (N.ltb_spec c 128); [now apply cons_inj in Ec as [Ec _]|]. exfalso.
    destruct (c <? 2048); [|destruct (c <? 65536)]; apply cons_inj in Ec as [Ec _]; rewrite <- Ec in L; revert L.
    + generalize (c / 64). lia.
    + generalize (c / 4096). lia.
    + generalize (c / 262144). lia.
  - apply inside_cont in Ec; [|now apply F|discriminate]. unfold cont in Ec. apply between_iff in Ec. lia.
Qed.
