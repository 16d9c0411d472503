(** Proofs about the number formatter and the numeric reader of binary64 (IEEE.v). *)
From Coq Require Import String Ascii List ZArith Bool Arith Lia Reals Lra.
From Flocq Require Import IEEE754.BinarySingleNaN Core.
From Verif Require Import Base MathOp IEEE GrammarSpec NumTextSpec.
Import ListNotations.
Local Open Scope string_scope.

(** ** Strings of digits *)
Lemma sapp_assoc (a b c : string) : (a ++ b) ++ c = a ++ b ++ c.
Proof. induction a as [|x a IH]; [reflexivity|]. cbn. now rewrite IH. Qed.
Lemma sapp_nil (a : string) : a ++ "" = a.
Proof. induction a as [|x a IH]; [reflexivity|]. cbn. now rewrite IH. Qed.
Lemma slen_app (a b : string) : String.length (a ++ b) = String.length a + String.length b.
Proof. induction a as [|x a IH]; [reflexivity|]. cbn. now rewrite IH. Qed.
Lemma all_app P (a b : string) : all_chars P (a ++ b) <-> all_chars P a /\ all_chars P b.
Proof. induction a as [|x a IH]; cbn; tauto. Qed.

Lemma dval_app s t : forall a, dval a (s ++ t) = dval (dval a s) t.
Proof. induction s as [|c s IH]; intros a; [reflexivity|]. cbn. apply IH. Qed.
Lemma dval_acc s : forall a, dval a s = (a * 10 ^ Z.of_nat (String.length s) + dval 0 s)%Z.
Proof.
  induction s as [|c s IH]; intros a.
  - cbn [dval String.length]. rewrite Z.pow_0_r. lia.
  - cbn [dval String.length]. rewrite IH, (IH (0 * 10 + _)%Z).
    rewrite Nat2Z.inj_succ, Z.pow_succ_r by lia. ring.
Qed.
Lemma dval_nonneg s : forall a, (0 <= a)%Z -> (0 <= dval a s)%Z.
Proof. induction s as [|c s IH]; intros a Ha; [exact Ha|]. cbn. apply IH. lia. Qed.
Lemma dval_lt s : all_chars digit s -> (dval 0 s < 10 ^ Z.of_nat (String.length s))%Z.
Proof.
  induction s as [|c s IH]; intros H; [reflexivity|]. destruct H as [Hc H]. specialize (IH H).
  cbn [dval String.length]. rewrite dval_acc, Nat2Z.inj_succ, Z.pow_succ_r by lia.
  unfold digit in Hc. assert (0 <= Z.of_nat (nat_of_ascii c - 48) <= 9)%Z by lia.
  nia.
Qed.

Lemma digit_char_ok d : (0 <= d < 10)%Z -> digit (digit_char d) /\ Z.of_nat (nat_of_ascii (digit_char d) - 48) = d.
Proof.
  intros H. unfold digit, digit_char. rewrite nat_ascii_embedding by lia. split; lia.
Qed.

Lemma fixdigits_ok w : forall n acc, (0 <= n)%Z -> exists s, fixdigits w n acc = s ++ acc /\
  String.length s = w /\ all_chars digit s /\ dval 0 s = (n mod 10 ^ Z.of_nat w)%Z.
Proof.
  induction w as [|w IH]; intros n acc Hn.
  - exists "". repeat split; auto. cbn. now rewrite Z.mod_1_r.
  - cbn [fixdigits].
    destruct (IH (n / 10)%Z (String (digit_char (n mod 10)) acc)) as (s & E & Hl & Hd & Hv).
    { apply Z.div_pos; lia. }
    pose proof (Z.mod_pos_bound n 10 ltac:(lia)) as Hb.
    destruct (digit_char_ok (n mod 10)%Z Hb) as [D1 D2].
    exists (s ++ String (digit_char (n mod 10)) ""). rewrite E. repeat split.
    + now rewrite sapp_assoc.
    + rewrite slen_app, Hl. cbn. lia.
    + apply all_app. split; auto. split; [auto|exact I].
    + rewrite dval_app, Hv. cbn [dval]. rewrite D2.
      rewrite Nat2Z.inj_succ, Z.pow_succ_r by lia.
      rewrite Z.rem_mul_r by (try lia; apply Z.pow_nonzero; lia). ring.
Qed.

Lemma strip_leading_ok s : s <> "" -> all_chars digit s ->
  strip_leading s <> "" /\ all_chars digit (strip_leading s) /\ dval 0 (strip_leading s) = dval 0 s /\
  (forall c s', strip_leading s = String "0" (String c s') -> False).
Proof.
  induction s as [|c s IH]; intros Hne Hd; [congruence|]. destruct Hd as [Hc Hd].
  destruct s as [|c' s'].
  - assert (strip_leading (String c "") = String c "") as -> by (destruct c as [[] [] [] [] [] [] [] []]; reflexivity).
    split; [discriminate|]. split; [exact (conj Hc I)|]. split; [reflexivity|]. intros ? ?. discriminate.
  - destruct (ascii_dec c "0") as [->|Hn].
    + change (strip_leading (String "0" (String c' s'))) with (strip_leading (String c' s')).
      destruct (IH ltac:(discriminate) Hd) as (A & B & C & D0). split; [exact A|]. split; [exact B|]. split; [exact C|exact D0].
    + assert (strip_leading (String c (String c' s')) = String c (String c' s')) as ->.
      { destruct c as [[] [] [] [] [] [] [] []]; try reflexivity. congruence. }
      split; [discriminate|]. split; [exact (conj Hc Hd)|]. split; [reflexivity|]. intros a b [= -> _ _]. congruence.
Qed.

Lemma strip_trailing_ok s : all_chars digit s -> exists k,
  all_chars digit (strip_trailing s) /\ String.length s = (String.length (strip_trailing s) + k)%nat /\
  dval 0 s = (dval 0 (strip_trailing s) * 10 ^ Z.of_nat k)%Z /\
  last_char (strip_trailing s) <> Some "0"%char.
Proof.
  induction s as [|c s IH]; intros Hd.
  - exists 0%nat. repeat split. discriminate.
  - destruct Hd as [Hc Hd]. destruct (IH Hd) as (k & A & B & C & D0). clear IH.
    cbn [strip_trailing]. destruct (strip_trailing s) as [|x t] eqn:Et.
    + cbn [String.length dval] in B, C. destruct (Ascii.eqb_spec c "0") as [->|Hn].
      * exists (S k). cbn [String.length dval]. split; [exact I|]. split; [lia|]. split; [|discriminate].
        rewrite dval_acc, C. cbn. lia.
      * exists k. cbn [String.length dval]. split; [exact (conj Hc I)|]. split; [lia|]. split.
        { rewrite dval_acc, C, B. cbn [Nat.add]. ring. }
        { cbn. congruence. }
    + exists k. split; [exact (conj Hc A)|]. split; [cbn [String.length] in B |- *; lia|]. split; [|exact D0].
      * change (dval 0 (String c s)) with (dval (0 * 10 + Z.of_nat (nat_of_ascii c - 48)) s).
        change (dval 0 (String c (String x t))) with (dval (0 * 10 + Z.of_nat (nat_of_ascii c - 48)) (String x t)).
        rewrite (dval_acc s), (dval_acc (String x t)), C, B. cbn [String.length].
        rewrite !Nat2Z.inj_add, Z.pow_add_r by lia. ring.
Qed.

(** ** Rounding to an integer *)
Lemma rhe_ok num den : (0 <= num)%Z -> (0 < den)%Z ->
  (0 <= rhe num den)%Z /\ (2 * Z.abs (rhe num den * den - num) <= den)%Z.
Proof.
  intros Hn Hd. unfold rhe.
  pose proof (Z.div_mod num den ltac:(lia)) as E. pose proof (Z.mod_pos_bound num den Hd) as B.
  assert (0 <= num / den)%Z by (apply Z.div_pos; lia).
  set (q := (num / den)%Z) in *. set (r := (num mod den)%Z) in *.
  destruct (Z.compare_spec (2 * r) den) as [C|C|C]; [destruct (Z.even q)| |]; split; nia.
Qed.

Lemma rhe_R num den : (0 <= num)%Z -> (0 < den)%Z -> (Rabs (IZR (rhe num den) - IZR num / IZR den) <= / 2)%R.
Proof.
  intros Hn Hd. destruct (rhe_ok num den Hn Hd) as [_ H].
  apply IZR_lt in Hd. apply IZR_le in H. rewrite mult_IZR, abs_IZR, minus_IZR, mult_IZR in H.
  replace (IZR (rhe num den) - IZR num / IZR den)%R with ((IZR (rhe num den) * IZR den - IZR num) / IZR den)%R by (field; lra).
  unfold Rdiv. rewrite Rabs_mult, (Rabs_pos_eq (/ IZR den)) by (left; now apply Rinv_0_lt_compat).
  apply Rmult_le_reg_r with (IZR den); [exact Hd|]. rewrite Rmult_assoc, Rinv_l by lra. lra.
Qed.

Lemma pow10_IZR k : (0 <= k)%Z -> IZR (10 ^ k) = (10 ^ Z.to_nat k)%R.
Proof. intros H. rewrite <- (Z2Nat.id k H) at 1. now rewrite <- pow_IZR. Qed.
Lemma pow10_pos k : (0 < 10 ^ k)%R. Proof. apply pow_lt. lra. Qed.

(** ** printf("%.16f") *)
Definition fmt_pos (num den : Z) : string := fmt_f false num den.

Lemma fmt_f_sign neg num den : fmt_f neg num den = (if neg then "-" else "") ++ fmt_pos num den.
Proof. reflexivity. Qed.

Lemma no_dot s : all_chars digit s -> forall a t, s <> a ++ String "." t.
Proof.
  intros H a t ->. apply all_app in H as [_ [H _]]. unfold digit in H. cbn in H. lia.
Qed.

Lemma dot_unique s t a u : all_chars digit s -> s ++ String "." t = a ++ String "." u ->  all_chars digit t -> t = u.
Proof.
  intros Hs E Ht. revert a E. induction s as [|c s IH]; intros a E.
  - destruct a as [|x a]; cbn in E.
    + now injection E.
    + injection E as <- E. exfalso. now apply (no_dot _ Ht a u).
  - destruct Hs as [Hc Hs]. destruct a as [|x a]; cbn in E.
    + injection E as -> _. unfold digit in Hc. cbn in Hc. lia.
    + injection E as -> E. now apply (IH Hs a).
Qed.

Lemma fmt_pos_ok num den : (0 <= num)%Z -> (0 < den)%Z -> (num < den * 10 ^ 16)%Z ->
  let n := rhe (num * 10 ^ 16) den in
  exists k, decimal (fmt_pos num den) (IZR n / 10 ^ 16)%R k /\ (k <= 16)%nat /\ tidy (fmt_pos num den).
Proof.
  intros Hn Hd Hlt n. destruct (rhe_ok (num * 10 ^ 16) den) as [Hn0 Hn1]; [lia|lia|]. fold n in Hn0, Hn1.
  assert (Hmax : (n <= 10 ^ 32)%Z) by nia.
  set (ip := strip_leading (fixdigits 20 (n / 10 ^ 16) "")).
  set (fd := fixdigits 16 (n mod 10 ^ 16) "").
  assert (Hip0 : (0 <= n / 10 ^ 16 <= 10 ^ 16)%Z).
  { split; [apply Z.div_pos; lia|]. apply Z.div_le_upper_bound; lia. }
  assert (Hfp0 : (0 <= n mod 10 ^ 16 < 10 ^ 16)%Z) by (apply Z.mod_pos_bound; lia).
  destruct (fixdigits_ok 20 (n / 10 ^ 16) "" (proj1 Hip0)) as (s & Es & Ls & Ds & Vs). rewrite sapp_nil in Es.
  destruct (fixdigits_ok 16 (n mod 10 ^ 16) "" (proj1 Hfp0)) as (t & Et & Lt & Dt & Vt). rewrite sapp_nil in Et.
  rewrite Z.mod_small in Vs by (change (Z.of_nat 20) with 20%Z; lia).
  rewrite Z.mod_small in Vt by exact Hfp0.
  destruct (strip_leading_ok s ltac:(destruct s; [discriminate|congruence]) Ds) as (A1 & A2 & A3 & A4).
  destruct (strip_trailing_ok t Dt) as (k & B1 & B2 & B3 & B4).
  assert (E : fmt_pos num den = strip_leading s ++ frac_part t).
  { unfold fmt_pos, fmt_f. fold n. now rewrite Es, Et. }
  assert (Hnv : n = (10 ^ 16 * dval 0 (strip_leading s) + dval 0 (strip_trailing t) * 10 ^ Z.of_nat k)%Z).
  { rewrite A3, Vs, <- B3, Vt. apply Z.div_mod. lia. }
  unfold frac_part in E. destruct (strip_trailing t) as [|x t'] eqn:Ett.
  - rewrite sapp_nil in E. exists 0%nat. rewrite E. split; [|split; [lia|]].
    + assert (HR : (IZR n / 10 ^ 16 = IZR (dval 0 (strip_leading s)))%R).
      { rewrite Hnv. cbn [dval]. rewrite Z.mul_0_l, Z.add_0_r, mult_IZR.
        change (IZR (10 ^ 16)) with 10000000000000000%R. field. }
      rewrite HR. now constructor.
    + split; [intros c s' H; exfalso; eapply A4; eauto|]. intros a u H. exfalso. now apply (no_dot _ A2 a u).
  - rewrite <- Ett in *. exists (String.length (strip_trailing t)). rewrite E. rewrite Ett at 1 2. rewrite <- Ett.
    split; [|split; [lia|]].
    + assert (HR : (IZR n / 10 ^ 16 = IZR (dval 0 (strip_leading s)) + IZR (dval 0 (strip_trailing t)) / 10 ^ String.length (strip_trailing t))%R).
      { rewrite Hnv, plus_IZR, !mult_IZR. rewrite (pow10_IZR (Z.of_nat k)) by lia. rewrite Nat2Z.id.
        change (IZR (10 ^ 16)) with 10000000000000000%R.
        assert (HL : (10 ^ String.length (strip_trailing t) * 10 ^ k = 10000000000000000)%R).
        { rewrite <- pow_add. rewrite <- B2, Lt. cbn. lra. }
        replace (10 ^ 16)%R with 10000000000000000%R by (cbn; lra).
        pose proof (pow10_pos (String.length (strip_trailing t))). pose proof (pow10_pos k).
        rewrite <- HL. field. split; apply Rgt_not_eq; assumption. }
      rewrite HR. rewrite Ett at 1. rewrite <- Ett. constructor; auto. rewrite Ett. discriminate.
    + split.
      * intros c s' H. destruct (strip_leading s) as [|a [|b r]] eqn:Esl; [congruence| |].
        { rewrite Ett in H. cbn in H. now injection H. }
        { cbn in H. exfalso. injection H as -> -> _. eapply A4; eauto. }
      * intros a u H. rewrite <- (dot_unique _ _ _ _ A2 H B1). exact B4.
Qed.

(** ** strtod *)
Lemma dec_digit_ok c : digit c -> dec_digit c = Some (Z.of_nat (nat_of_ascii c - 48)).
Proof.
  intros H. unfold digit in H. unfold dec_digit, char_in.
  destruct (Nat.leb_spec 48 (nat_of_ascii c)); [|lia]. destruct (Nat.leb_spec (nat_of_ascii c) 57); [reflexivity|lia].
Qed.

Definition stops (r : string) : Prop := match r with EmptyString => True | String c _ => dec_digit c = None end.

Lemma read_digits_ok s : forall r acc n, all_chars digit s -> stops r ->
  read_digits dec_digit 10 (s ++ r) acc n = (dval acc s, (n + String.length s)%nat, r).
Proof.
  induction s as [|c s IH]; intros r acc n Hd Hr.
  - cbn [String.append dval String.length]. rewrite Nat.add_0_r. destruct r as [|c r]; [reflexivity|]. cbn in *. now rewrite Hr.
  - destruct Hd as [Hc Hd]. cbn [String.append read_digits]. rewrite (dec_digit_ok c Hc), IH by auto.
    cbn [dval String.length]. do 2 f_equal. lia.
Qed.

Lemma decimal_read s x k : decimal s x k -> exists m, read_mant dec_digit 10 s = Some (m, k, String.length s, "") /\
  (0 <= m)%Z /\ x = (IZR m / 10 ^ k)%R.
Proof.
  destruct 1 as [s Hs Hd|s t Hs Ht Hd Hdt].
  - exists (dval 0 s). unfold read_mant. rewrite <- (sapp_nil s) at 1. rewrite read_digits_ok by (auto; exact I).
    cbn [Nat.add]. split; [|split; [apply dval_nonneg; lia|cbn; field]].
    destruct s; [congruence|reflexivity].
  - exists (dval 0 (s ++ t)). unfold read_mant. rewrite read_digits_ok by (auto; reflexivity).
    rewrite <- (sapp_nil t) at 1. rewrite read_digits_ok by (auto; exact I). cbn [Nat.add].
    split; [|split; [apply dval_nonneg; lia|]].
    + rewrite dval_app, slen_app. destruct s; [congruence|]. cbn [String.length Nat.add].
      do 3 f_equal. lia.
    + rewrite dval_app, (dval_acc t (dval 0 s)), plus_IZR, mult_IZR, (pow10_IZR (Z.of_nat _)) by lia. rewrite Nat2Z.id.
      pose proof (pow10_pos (String.length t)). field. apply Rgt_not_eq. assumption.
Qed.

Lemma decimal_start s x k : decimal s x k -> exists c s', s = String c s' /\ digit c /\
  match s' with String c' _ => digit c' \/ c' = "."%char | EmptyString => True end.
Proof.
  destruct 1 as [s Hs Hd|s t Hs Ht Hd Hdt].
  - destruct s as [|c s]; [congruence|]. exists c, s. repeat split; try apply Hd. destruct s; [exact I|]. left. apply Hd.
  - destruct s as [|c s]; [congruence|]. exists c, (s ++ String "." t). repeat split; try apply Hd.
    destruct s; cbn; [now right|]. left. apply Hd.
Qed.

Lemma stod_decimal s x k : decimal s x k -> exists m, (0 <= m)%Z /\ x = (IZR m / 10 ^ k)%R /\
  b_stod s = ranged (b_dec false m (- Z.of_nat k)) m (10 ^ Z.of_nat k) (String.length s).
Proof.
  intros H. destruct (decimal_read s x k H) as (m & E & Hm & Hx). exists m. split; [exact Hm|]. split; [exact Hx|].
  assert (Hu : stod_unsigned false s = ranged (b_dec false m (- Z.of_nat k)) m (10 ^ Z.of_nat k) (String.length s)).
  { destruct (decimal_start s x k H) as (c & s' & -> & Hc & Hs'). unfold stod_unsigned. rewrite E.
    change (read_exp "e" "") with (0%Z, 0%nat). cbv iota beta. rewrite Nat.add_0_r, Z.sub_0_l.
    assert (Hdec : (if (- Z.of_nat k <? 0)%Z
       then ranged (b_dec false m (- Z.of_nat k)) m (10 ^ - - Z.of_nat k) (String.length (String c s'))
       else ranged (b_dec false m (- Z.of_nat k)) (m * 10 ^ (- Z.of_nat k)) 1 (String.length (String c s')))
      = ranged (b_dec false m (- Z.of_nat k)) m (10 ^ Z.of_nat k) (String.length (String c s'))).
    { destruct (Z.ltb_spec (- Z.of_nat k) 0) as [Hk|Hk]; [now rewrite Z.opp_involutive|].
      assert (k = 0%nat) as -> by lia. cbn [Z.of_nat Z.opp]. rewrite Z.pow_0_r, Z.mul_1_r. reflexivity. }
    rewrite Hdec. destruct (ascii_dec c "0") as [->|Hn].
    - destruct s' as [|x' s'']; [reflexivity|].
      assert (Ascii.eqb (lower x') "x" = false) as ->; [|reflexivity].
      destruct Hs' as [Hd| ->]; [|reflexivity].
      apply Ascii.eqb_neq. intros Hx'. unfold lower, char_in in Hx'. unfold digit in Hd.
      destruct (Nat.leb_spec 65 (nat_of_ascii x')); [lia|]. cbn [andb] in Hx'. subst x'. cbn in Hd. lia.
    - destruct c as [[] [] [] [] [] [] [] []]; try reflexivity. congruence. }
  destruct (decimal_start s x k H) as (c & s' & Es & Hc & _).
  unfold b_stod. rewrite <- Hu. rewrite Es. cbn [b_stod_ws]. unfold digit in Hc. unfold char_in.
  destruct (Nat.eqb_spec (nat_of_ascii c) 32); [lia|]. destruct (Nat.leb_spec (nat_of_ascii c) 13); [lia|].
  rewrite andb_false_r. cbn [orb].
  destruct (Ascii.eqb_spec c "-") as [->|_]; [cbn in Hc; lia|].
  destruct (Ascii.eqb_spec c "+") as [->|_]; [cbn in Hc; lia|].
  destruct (stod_unsigned false (String c s')) as [[v0 n0]|]; reflexivity.
Qed.

(** ** Values *)
Local Open Scope R_scope.
Notation fexp64 := (SpecFloat.fexp 53 1024).
Definition rne (x : R) : R := round radix2 fexp64 ZnearestE x.

#[local] Instance fexp64_valid : Valid_exp fexp64.
Proof. apply fexp_correct. exact Hprec. Qed.

Lemma b_ofQ_ok neg p q : Rabs (rne (IZR (Zpos p) / IZR (Zpos q))) < bpow radix2 1024 ->
  B2R (b_ofQ neg p q) = (if neg then - rne (IZR (Zpos p) / IZR (Zpos q)) else rne (IZR (Zpos p) / IZR (Zpos q))) /\
  is_finite (b_ofQ neg p q) = true.
Proof.
  intros Hlt. unfold b_ofQ.
  destruct (Bdiv_correct_aux 53 1024 Hprec Hemax mode_NE neg p 0 false q 0) as [Hv Hc] eqn:E.
  cbn [proj1]. rewrite B2R_SF2B, is_finite_SF2B. clear E Hv.
  unfold round_mode in Hc.
  assert (Hy : F2R (beta:=radix2) {| Fnum := SpecFloat.cond_Zopp false (Z.pos q); Fexp := 0 |} = IZR (Zpos q)).
  { unfold F2R. cbn. lra. }
  assert (Hx : F2R (beta:=radix2) {| Fnum := SpecFloat.cond_Zopp neg (Z.pos p); Fexp := 0 |} = if neg then - IZR (Zpos p) else IZR (Zpos p)).
  { unfold F2R. cbn [Fnum Fexp bpow]. destruct neg; cbn [SpecFloat.cond_Zopp]; [rewrite opp_IZR|]; lra. }
  rewrite Hx, Hy in Hc.
  assert (Hr : round radix2 fexp64 ZnearestE ((if neg then - IZR (Zpos p) else IZR (Zpos p)) / IZR (Zpos q))
    = if neg then - rne (IZR (Zpos p) / IZR (Zpos q)) else rne (IZR (Zpos p) / IZR (Zpos q))).
  { destruct neg; [|reflexivity]. unfold Rdiv. rewrite Ropp_mult_distr_l_reverse. apply round_NE_opp. }
  rewrite Hr in Hc.
  assert (Hab : Rabs (if neg then - rne (IZR (Zpos p) / IZR (Zpos q)) else rne (IZR (Zpos p) / IZR (Zpos q))) < bpow radix2 1024).
  { destruct neg; [rewrite Rabs_Ropp|]; exact Hlt. }
  rewrite (Rlt_bool_true _ _ Hab) in Hc. destruct Hc as (H1 & H2 & _). split; [exact H1|exact H2].
Qed.

Lemma b_dec_ok m k : (0 <= m)%Z -> Rabs (rne (IZR m / 10 ^ k)) < bpow radix2 1024 ->
  B2R (b_dec false m (- Z.of_nat k)) = rne (IZR m / 10 ^ k) /\ is_finite (b_dec false m (- Z.of_nat k)) = true /\
  (m = 0%Z -> b_dec false m (- Z.of_nat k) = B754_zero false).
Proof.
  intros Hm Hlt. destruct m as [|p|p]; [| |lia].
  - cbn [b_dec B2R is_finite]. split; [|auto]. unfold Rdiv. rewrite Rmult_0_l. unfold rne. now rewrite round_0 by typeclasses eauto.
  - assert (H : B2R (b_dec false (Zpos p) (- Z.of_nat k)) = rne (IZR (Zpos p) / 10 ^ k) /\ is_finite (b_dec false (Zpos p) (- Z.of_nat k)) = true).
    2:{ destruct H; repeat split; auto; discriminate. }
    destruct k as [|k].
    + cbn [Z.of_nat Z.opp b_dec]. rewrite Z.pow_0_r, Z.mul_1_r.
      rewrite pow_O in Hlt |- *. exact (b_ofQ_ok false p 1 Hlt).
    + cbn [Z.of_nat Z.opp b_dec].
      assert (E : IZR (Zpos (10 ^ Pos.of_succ_nat k)) = (10 ^ S k)%R).
      { rewrite Pos2Z.inj_pow. rewrite (pow10_IZR (Zpos (Pos.of_succ_nat k))) by lia. f_equal. rewrite Z2Nat.inj_pos. apply SuccNat2Pos.id_succ. }
      rewrite <- E in Hlt |- *. exact (b_ofQ_ok false p _ Hlt).
Qed.

Lemma normal_mantissa s m e H : bpow radix2 (-1022) <= Rabs (B2R (B754_finite s m e H : b64)) -> (2 ^ 52 <= Zpos m)%Z.
Proof.
  intros Hr. assert (Hc : Rabs (B2R (B754_finite s m e H : b64)) = F2R (beta:=radix2) {| Fnum := Zpos m; Fexp := e |}).
  { cbn [B2R]. rewrite <- F2R_Zabs. f_equal. f_equal. now destruct s. }
  rewrite Hc in Hr.
  pose proof H as Hb. unfold SpecFloat.bounded in Hb. apply andb_prop in Hb as [Hb _].
  unfold SpecFloat.canonical_mantissa in Hb. apply Zeq_bool_eq in Hb.
  rewrite Digits.Zpos_digits2_pos in Hb.
  assert (Hm : (mag radix2 (F2R (beta:=radix2) {| Fnum := Zpos m; Fexp := e |}) = Digits.Zdigits radix2 (Zpos m) + e :> Z)%Z).
  { apply mag_F2R_Zdigits. lia. }
  assert (Hg : (-1022 < mag radix2 (F2R (beta:=radix2) {| Fnum := Zpos m; Fexp := e |}))%Z).
  { apply mag_gt_bpow. rewrite Rabs_pos_eq; [exact Hr|]. left. now apply F2R_gt_0. }
  unfold SpecFloat.fexp, SpecFloat.emin in Hb.
  assert (Hd : Digits.Zdigits radix2 (Zpos m) = 53%Z) by lia.
  destruct (Digits.Zdigits_correct radix2 (Zpos m)) as [Hl _]. rewrite Hd in Hl. exact Hl.
Qed.

Lemma in_range_ok (r : b64) ex : is_finite r = true -> bpow radix2 (-1022) <= B2R r \/ r = B754_zero false /\ ex = true -> in_range r ex = true.
Proof.
  intros Hf [H|[-> ->]]; [|reflexivity]. destruct r as [s|s| |s m e Hb]; try discriminate.
  - cbn [B2R] in H. pose proof (bpow_gt_0 radix2 (-1022)). exfalso. lra.
  - cbn [in_range]. apply orb_true_iff. right. apply Z.leb_le. apply (normal_mantissa s m e Hb).
    rewrite Rabs_pos_eq; [exact H|]. pose proof (bpow_gt_0 radix2 (-1022)). lra.
Qed.

Lemma rne_bpow e : (-1022 <= e <= 1023)%Z -> rne (bpow radix2 e) = bpow radix2 e.
Proof.
  intros H. apply round_generic; [typeclasses eauto|]. apply generic_format_bpow. unfold SpecFloat.fexp, SpecFloat.emin. lia.
Qed.
Lemma rne_le x y : x <= y -> rne x <= rne y.
Proof. intros H. apply round_le; [typeclasses eauto|typeclasses eauto|exact H]. Qed.

(** Reading a decimal numeral. *)
Lemma stod_ok s x k : decimal s x k -> x = 0 \/ bpow radix2 (-1022) <= x <= bpow radix2 1023 ->
  exists r, b_stod s = Some (r, String.length s) /\ is_finite r = true /\ B2R r = rne x /\ (x = 0 -> r = B754_zero false).
Proof.
  intros H Hx. destruct (stod_decimal s x k H) as (m & Hm & E & ->).
  assert (Hlt : Rabs (rne x) < bpow radix2 1024).
  { destruct Hx as [->|[H1 H2]].
    - unfold rne. rewrite round_0 by typeclasses eauto. rewrite Rabs_R0. apply bpow_gt_0.
    - apply rne_le in H1, H2. rewrite rne_bpow in H1, H2 by lia.
      pose proof (bpow_gt_0 radix2 (-1022)). rewrite Rabs_pos_eq by lra.
      apply Rle_lt_trans with (1 := H2). apply bpow_lt. lia. }
  rewrite E in Hlt. destruct (b_dec_ok m k Hm Hlt) as (B1 & B2 & B3). rewrite <- E in B1, Hlt.
  assert (Hz : x = 0 -> m = 0%Z).
  { intros Hx0. apply eq_IZR. rewrite E in Hx0. pose proof (pow10_pos k).
    apply Rmult_eq_reg_r with (/ 10 ^ k); [|apply Rinv_neq_0_compat; lra]. rewrite Rmult_0_l. exact Hx0. }
  exists (b_dec false m (- Z.of_nat k)). repeat split; auto.
  unfold ranged. rewrite in_range_ok; auto.
  destruct Hx as [Hx|[H1 H2]].
  - right. rewrite B3 by auto. split; [reflexivity|]. cbn [is_exact]. rewrite (Hz Hx). reflexivity.
  - left. rewrite B1. apply rne_le in H1. rewrite rne_bpow in H1 by lia. exact H1.
Qed.

(** The thresholds of config.cpp:21. *)
Lemma B2R_SF (x : b64) : B2R x = SF2R radix2 (B2SF x). Proof. now destruct x. Qed.
Lemma b_1e16 : B2R (b_ofZ (10 ^ 16)) = 10 ^ 16 /\ is_finite (b_ofZ (10 ^ 16)) = true.
Proof.
  split; [|reflexivity].
  rewrite B2R_SF. assert (B2SF (b_ofZ (10 ^ 16)) = SpecFloat.S754_finite false 5000000000000000 1) as -> by (vm_compute; reflexivity).
  unfold SF2R, F2R. cbn [SpecFloat.cond_Zopp Fnum Fexp]. change (bpow radix2 1) with 2. simpl pow. lra.
Qed.
Lemma b_1em16 : is_finite (b_dec false 1 (-16)) = true /\ / 10 ^ 17 < B2R (b_dec false 1 (-16)).
Proof.
  split; [vm_compute; reflexivity|].
  rewrite B2R_SF. assert (B2SF (b_dec false 1 (-16)) = SpecFloat.S754_finite false 8112963841460668 (-106)) as -> by (vm_compute; reflexivity).
  unfold SF2R, F2R. cbn [SpecFloat.cond_Zopp Fnum Fexp].
  change (bpow radix2 (-106)) with (/ IZR (2 ^ 106)).
  apply Rmult_lt_reg_r with (IZR (2 ^ 106)); [apply IZR_lt; reflexivity|].
  rewrite Rmult_assoc, Rinv_l by (apply Rgt_not_eq, IZR_lt; reflexivity). rewrite Rmult_1_r.
  apply Rmult_lt_reg_l with (10 ^ 17); [apply pow10_pos|]. rewrite <- Rmult_assoc, Rinv_r by (apply Rgt_not_eq, pow10_pos).
  rewrite Rmult_1_l. change 17%nat with (Z.to_nat 17). rewrite <- pow10_IZR by lia. rewrite <- mult_IZR. apply IZR_lt. reflexivity.
Qed.

Lemma frac_of_ok m e : let '(num, den) := frac_of m e in (0 < num)%Z /\ (0 < den)%Z /\
  IZR num / IZR den = F2R (beta:=radix2) {| Fnum := Zpos m; Fexp := e |}.
Proof.
  unfold frac_of, F2R. cbn [Fnum Fexp]. destruct e as [|k|k]; cbn [bpow].
  - rewrite Z.pow_0_r, Z.mul_1_r. repeat split; try lia. field.
  - assert (0 < 2 ^ Zpos k)%Z by (apply Z.pow_pos_nonneg; lia). split; [lia|]. split; [lia|].
    rewrite mult_IZR. change (Z.pow_pos radix2 k) with (2 ^ Zpos k)%Z. field.
  - assert (0 < 2 ^ Zpos k)%Z by (apply Z.pow_pos_nonneg; lia). split; [lia|]. split; [lia|].
    change (Z.pow_pos radix2 k) with (2 ^ Zpos k)%Z. reflexivity.
Qed.

Definition plain_range (v : b64) : Prop :=
  is_finite v = true /\ B2R (b_dec false 1 (-16)) < Rabs (B2R v) < 10 ^ 16.

(** Printing: a numeral whose value is within half a unit of the 16th decimal. *)
Lemma tostr_ok v : plain_range v -> exists s x k,
  b_tostr v = ((if Bltb v (b_ofZ 0) then "-" else "") ++ s)%string /\ decimal s x k /\ (k <= 16)%nat /\ tidy s /\
  Rabs (x - Rabs (B2R v)) <= / 2 * / 10 ^ 16 /\ (exists n, x = IZR n / 10 ^ 16).
Proof.
  intros (Hf & Hlo & Hhi). destruct b_1em16 as [F1 V1]. destruct b_1e16 as [V2 F2].
  destruct v as [s|s| |s m e Hb]; [ |discriminate Hf|discriminate Hf| ].
  { cbn [B2R] in Hlo. rewrite Rabs_R0 in Hlo. pose proof (Rinv_0_lt_compat _ (pow10_pos 17)). lra. }
  set (v := B754_finite s m e Hb : b64) in *.
  assert (Hneg : Bltb v (b_ofZ 0) = s).
  { rewrite Bltb_correct by reflexivity. change (B2R (b_ofZ 0)) with 0.
    unfold v. cbn [B2R]. destruct s; cbn [SpecFloat.cond_Zopp].
    - apply Rlt_bool_true. now apply F2R_lt_0.
    - apply Rlt_bool_false. apply F2R_ge_0. cbn. lia. }
  rewrite Hneg.
  assert (Habs : Rabs (B2R v) = F2R (beta:=radix2) {| Fnum := Zpos m; Fexp := e |}).
  { unfold v. cbn [B2R]. rewrite <- F2R_Zabs. f_equal. f_equal. now destruct s. }
  pose proof (frac_of_ok m e) as Hq.
  assert (Et : b_tostr v = let '(num, den) := frac_of m e in fmt_f s num den).
  { unfold b_tostr, v. fold v.
    assert (Bleb (b_ofZ (10 ^ 16)) (Babs v) = false) as ->.
    { rewrite Bleb_correct by (try exact F2; reflexivity). rewrite V2, B2R_Babs. now apply Rle_bool_false. }
    assert (Bleb (Babs v) (b_dec false 1 (-16)) = false) as ->.
    { rewrite Bleb_correct by (try exact F1; reflexivity). rewrite B2R_Babs. now apply Rle_bool_false. }
    cbn [orb]. destruct (frac_of m e). reflexivity. }
  destruct (frac_of m e) as [num den]. destruct Hq as (Hn & Hd & Hq). rewrite <- Habs in Hq.
  assert (Hlt : (num < den * 10 ^ 16)%Z).
  { apply lt_IZR. rewrite mult_IZR. apply IZR_lt in Hd.
    apply Rmult_lt_reg_r with (/ IZR den); [now apply Rinv_0_lt_compat|].
    replace (IZR den * IZR (10 ^ 16) * / IZR den) with (IZR (10 ^ 16)) by (field; lra).
    rewrite (pow10_IZR 16) by lia. change (Z.to_nat 16) with 16%nat. fold (IZR num / IZR den). rewrite Hq. exact Hhi. }
  destruct (fmt_pos_ok num den ltac:(lia) Hd Hlt) as (k & D1 & D2 & D3).
  exists (fmt_pos num den), (IZR (rhe (num * 10 ^ 16) den) / 10 ^ 16), k.
  rewrite Et. split; [now destruct s|]. split; [exact D1|]. split; [exact D2|]. split; [exact D3|]. split; [|eauto].
  pose proof (rhe_R (num * 10 ^ 16) den ltac:(lia) Hd) as Hr. rewrite mult_IZR in Hr.
  change (IZR (10 ^ 16)) with 10000000000000000 in Hr.
  replace (10 ^ 16) with 10000000000000000 by (simpl; lra).
  rewrite <- Hq. set (n := IZR (rhe (num * 10 ^ 16) den)) in *.
  replace (n / 10000000000000000 - IZR num / IZR den) with ((n - IZR num * 10000000000000000 / IZR den) * / 10000000000000000).
  2:{ apply IZR_lt in Hd. field. lra. }
  rewrite Rabs_mult, (Rabs_pos_eq (/ 10000000000000000)) by lra.
  apply Rmult_le_compat_r; [lra|exact Hr].
Qed.

(** ** Reading back *)
Lemma gap_below u : generic_format radix2 fexp64 u -> / 2 < u -> bpow radix2 (-53) <= u - pred radix2 fexp64 u.
Proof.
  intros Hu Hlt. set (p := pred radix2 fexp64 u).
  assert (Hp : / 2 <= p).
  { change (/ 2) with (bpow radix2 (-1)). apply pred_ge_gt; auto; try typeclasses eauto.
    apply generic_format_bpow. unfold SpecFloat.fexp, SpecFloat.emin. lia. }
  assert (E : u = p + ulp radix2 fexp64 p).
  { rewrite <- succ_eq_pos by lra. unfold p. symmetry. apply succ_pred; auto; typeclasses eauto. }
  enough (bpow radix2 (-53) <= ulp radix2 fexp64 p) by lra.
  rewrite ulp_neq_0 by lra. apply bpow_le. unfold cexp, SpecFloat.fexp, SpecFloat.emin.
  assert (-1 < mag radix2 p)%Z by (apply mag_gt_bpow; rewrite Rabs_pos_eq by lra; exact Hp). lia.
Qed.
Lemma gap_above u : / 2 <= u -> bpow radix2 (-53) <= succ radix2 fexp64 u - u.
Proof.
  intros Hlt. rewrite succ_eq_pos by lra.
  enough (bpow radix2 (-53) <= ulp radix2 fexp64 u) by lra.
  rewrite ulp_neq_0 by lra. apply bpow_le. unfold cexp, SpecFloat.fexp, SpecFloat.emin.
  assert (-1 < mag radix2 u)%Z by (apply mag_gt_bpow; rewrite Rabs_pos_eq by lra; exact Hlt). lia.
Qed.

Lemma round_back u x : generic_format radix2 fexp64 u -> / 2 <= u -> Rabs (x - u) <= / 2 * / 10 ^ 16 ->
  (exists n, x = IZR n / 10 ^ 16) -> rne x = u.
Proof.
  intros Hu Hh Hx [n Hn].
  assert (Hb : / 10 ^ 16 < bpow radix2 (-53)).
  { change (bpow radix2 (-53)) with (/ IZR (2 ^ 53)). apply Rinv_lt_contravar.
    - apply Rmult_lt_0_compat; [apply IZR_lt; reflexivity|apply pow10_pos].
    - change 16%nat with (Z.to_nat 16). rewrite <- pow10_IZR by lia. apply IZR_lt. reflexivity. }
  destruct (Rle_lt_or_eq_dec _ _ Hh) as [Hh'|He].
  - pose proof (gap_below u Hu Hh') as G1. pose proof (gap_above u Hh) as G2.
    apply Rabs_le_inv in Hx. apply Rle_antisym.
    + apply round_N_le_midp; auto; [typeclasses eauto|lra].
    + apply round_N_ge_midp; auto; [typeclasses eauto|lra].
  - assert (Hxu : x = u).
    { subst x u. replace (10 ^ 16) with 10000000000000000 in * by (simpl; lra).
      replace (IZR n / 10000000000000000 - / 2) with ((IZR n - 5000000000000000) * / 10000000000000000) in Hx by field.
      rewrite Rabs_mult, (Rabs_pos_eq (/ 10000000000000000)) in Hx by lra.
      apply Rmult_le_reg_r in Hx; [|lra]. rewrite <- minus_IZR in Hx. rewrite <- abs_IZR in Hx.
      assert (Z.abs (n - 5000000000000000) < 1)%Z by (apply lt_IZR; lra).
      assert (n = 5000000000000000)%Z as -> by lia. field. }
    rewrite Hxu. apply round_generic; [typeclasses eauto|exact Hu].
Qed.

Lemma finite_pos_inj (a b : b64) : is_finite a = true -> is_finite b = true -> 0 < B2R b -> B2R a = B2R b -> a = b.
Proof.
  intros Ha Hb Hp E. apply B2R_inj; auto.
  - destruct a; try discriminate; [|reflexivity]. cbn [B2R] in E. lra.
  - destruct b; try discriminate; [|reflexivity]. cbn [B2R] in Hp. lra.
Qed.

Lemma roundtrip v s x k : is_finite v = true -> / 2 <= Rabs (B2R v) < 10 ^ 16 -> decimal s x k ->
  Rabs (x - Rabs (B2R v)) <= / 2 * / 10 ^ 16 -> (exists n, x = IZR n / 10 ^ 16) ->
  b_stod s = Some (Babs v, String.length s).
Proof.
  intros Hf [Hl Hh] Hd Hx Hn.
  assert (Hr : rne x = Rabs (B2R v)).
  { apply round_back; auto. rewrite <- B2R_Babs. apply generic_format_B2R. }
  assert (Hsmall : / 10 ^ 16 < / 4) by (apply Rinv_lt_contravar; [pose proof (pow10_pos 16); lra|simpl; lra]).
  destruct (stod_ok s x k Hd) as (r & E & Hfr & Hr' & _).
  { right. apply Rabs_le_inv in Hx. split.
    - apply Rle_trans with (/ 4); [|lra]. change (/ 4) with (bpow radix2 (-2)). apply bpow_le. lia.
    - apply Rle_trans with (10 ^ 16 + 1); [lra|].
      apply Rle_trans with (bpow radix2 54); [|apply bpow_le; lia].
      change (bpow radix2 54) with (IZR (2 ^ 54)). change 16%nat with (Z.to_nat 16). rewrite <- pow10_IZR by lia.
      rewrite <- plus_IZR. apply IZR_le. vm_compute. discriminate. }
  rewrite E. do 2 f_equal. apply finite_pos_inj; auto.
  - now destruct v.
  - rewrite B2R_Babs. lra.
  - now rewrite B2R_Babs, <- Hr.
Qed.
