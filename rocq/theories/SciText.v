(** Proofs about the scientific notation of config.cpp:19-37. *)
From Coq Require Import String Ascii ZArith Reals Lia Lra Bool List Psatz.
From Flocq Require Import Core IEEE754.BinarySingleNaN.
From Verif Require Import Base MathOp IEEE GrammarSpec NumTextSpec NumText.
Local Open Scope string_scope.
Local Open Scope nat_scope.

Local Notation p10 k := (powerRZ 10 k).
Lemma p10_pos k : (0 < p10 k)%R. Proof. apply powerRZ_lt. lra. Qed.
Lemma p10_add a b : p10 (a + b) = (p10 a * p10 b)%R. Proof. apply powerRZ_add. lra. Qed.
Lemma p10_IZR k : (0 <= k)%Z -> p10 k = IZR (10 ^ k).
Proof. intros H. rewrite pow10_IZR by lia. rewrite <- (Z2Nat.id k) at 1 by lia. now rewrite <- pow_powerRZ. Qed.
Lemma p10_inv k : (p10 k * p10 (- k) = 1)%R.
Proof. rewrite <- p10_add. now rewrite Z.add_opp_diag_r. Qed.
Lemma p10_lt a b : (a < b)%Z -> (p10 a < p10 b)%R.
Proof.
  intros H. replace b with (a + (b - a))%Z by lia. rewrite p10_add. rewrite (p10_IZR (b - a)) by lia.
  pose proof (p10_pos a). assert (1 < IZR (10 ^ (b - a)))%R.
  { apply IZR_lt. apply Z.pow_gt_1; lia. }
  nra.
Qed.
Lemma p10_le a b : (a <= b)%Z -> (p10 a <= p10 b)%R.
Proof. intros H. destruct (Z.eq_dec a b) as [->|]; [lra|]. left. apply p10_lt. lia. Qed.

(** ** The decimal exponent *)
Lemma below_pow num den k : (0 < num)%Z -> (0 < den)%Z ->
  (if (k <? 0)%Z then (num * 10 ^ (- k) <? den)%Z else (num <? den * 10 ^ k)%Z) = true <->
  (IZR num / IZR den < p10 k)%R.
Proof.
  intros Hn Hd. apply IZR_lt in Hd as Hd'.
  assert (E : (IZR num / IZR den < p10 k <-> IZR num < IZR den * p10 k)%R).
  { split; intros H.
    - apply Rmult_lt_compat_r with (r := IZR den) in H; [|exact Hd']. unfold Rdiv in H. rewrite Rmult_assoc, Rinv_l in H; lra.
    - apply Rmult_lt_reg_r with (IZR den); [exact Hd'|]. unfold Rdiv. rewrite Rmult_assoc, Rinv_l; lra. }
  rewrite E. destruct (Z.ltb_spec k 0) as [Hk|Hk]; rewrite Z.ltb_lt.
  - assert (E2 : (IZR num < IZR den * p10 k <-> IZR num * IZR (10 ^ (- k)) < IZR den)%R).
    { rewrite <- p10_IZR by lia. pose proof (p10_inv k) as Hi. pose proof (p10_pos (- k)). pose proof (p10_pos k).
      split; intros H1.
      - apply Rmult_lt_compat_r with (r := p10 (- k)) in H1; [|lra]. rewrite Rmult_assoc, Hi, Rmult_1_r in H1. exact H1.
      - apply Rmult_lt_compat_r with (r := p10 k) in H1; [|lra]. rewrite Rmult_assoc, (Rmult_comm (p10 (- k))), Hi, Rmult_1_r in H1. exact H1. }
    rewrite E2, <- mult_IZR. split; [apply IZR_lt|apply lt_IZR].
  - rewrite p10_IZR by lia. rewrite <- mult_IZR. split; [apply IZR_lt|apply lt_IZR].
Qed.

Lemma dec_exp_ok num den : (0 < num)%Z -> (0 < den)%Z -> forall fuel k,
  (p10 k <= IZR num / IZR den < p10 (k + Z.of_nat fuel))%R ->
  let r := dec_exp fuel k num den in (p10 r <= IZR num / IZR den < p10 (r + 1))%R.
Proof.
  intros Hn Hd. induction fuel as [|fuel IH]; intros k Hk.
  - cbn [Z.of_nat] in Hk. rewrite Z.add_0_r in Hk. lra.
  - cbn [dec_exp]. destruct (if (k + 1 <? 0)%Z then _ else _) eqn:E.
    + apply below_pow in E; auto. cbv zeta. lra.
    + apply IH. rewrite Nat2Z.inj_succ in Hk. split.
      * apply Rnot_lt_le. intros H. apply below_pow in H; auto. congruence.
      * replace (k + 1 + Z.of_nat fuel)%Z with (k + Z.succ (Z.of_nat fuel))%Z by lia. lra.
Qed.

(** ** The digits *)
Lemma rhe_exact n d : (0 < d)%Z -> rhe (n * d) d = n.
Proof.
  intros Hd. unfold rhe. rewrite Z.div_mul, Z.mod_mul by lia. cbv zeta.
  destruct (Z.compare_spec (2 * 0) d); try lia.
Qed.
Lemma one_digit d : (1 <= d <= 9)%Z -> strip_leading (fixdigits 20 d "") = fixdigits 1 d "".
Proof.
  intros H. assert (d = 1 \/ d = 2 \/ d = 3 \/ d = 4 \/ d = 5 \/ d = 6 \/ d = 7 \/ d = 8 \/ d = 9)%Z as Hd by lia.
  repeat destruct Hd as [->|Hd]; try reflexivity. now subst.
Qed.
Lemma mantissa_ok n : (10 ^ 16 <= n < 10 ^ 17)%Z ->
  let s := fixdigits 1 (n / 10 ^ 16) "" ++ frac_part (fixdigits 16 (n mod 10 ^ 16) "") in
  exists j, decimal s (IZR n / 10 ^ 16)%R j /\ j <= 16 /\ tidy s.
Proof.
  intros Hn s. assert (Hd : (1 <= n / 10 ^ 16 <= 9)%Z).
  { split; [apply Z.div_le_lower_bound; lia|]. assert (n / 10 ^ 16 < 10)%Z; [apply Z.div_lt_upper_bound; lia|lia]. }
  destruct (fmt_pos_ok n (10 ^ 16)) as (j & A & B & C); try lia.
  assert (E : fmt_pos n (10 ^ 16) = s).
  { unfold fmt_pos, fmt_f. rewrite rhe_exact by lia. cbv zeta. rewrite one_digit by exact Hd. reflexivity. }
  rewrite E in A, C. rewrite rhe_exact in A by lia. eauto.
Qed.

Lemma exponent_ok k : k <> 0%Z -> (Z.abs k < 1000)%Z ->
  exponent (String (if (k <? 0)%Z then "-" else "+") (if (Z.abs k <? 100)%Z then fixdigits 2 (Z.abs k) "" else fixdigits 3 (Z.abs k) "")) k.
Proof.
  intros H0 Hk. set (t := if (Z.abs k <? 100)%Z then _ else _).
  assert (Ht : all_chars digit t /\ (String.length t = 2 \/ String.length t = 3 /\ (100 <= dval 0 t)%Z) /\ dval 0 t = Z.abs k).
  { unfold t. destruct (Z.ltb_spec (Z.abs k) 100).
    - destruct (fixdigits_ok 2 (Z.abs k) "" ltac:(lia)) as (s & -> & Ls & Ds & Vs). rewrite sapp_nil.
      rewrite Z.mod_small in Vs by (change (Z.of_nat 2) with 2%Z; lia). auto.
    - destruct (fixdigits_ok 3 (Z.abs k) "" ltac:(lia)) as (s & -> & Ls & Ds & Vs). rewrite sapp_nil.
      rewrite Z.mod_small in Vs by (change (Z.of_nat 3) with 3%Z; lia). rewrite Vs. auto. }
  destruct Ht as (A & B & C).
  assert (Ek : k = (if (k <? 0)%Z then - dval 0 t else dval 0 t)%Z).
  { rewrite C. destruct (Z.ltb_spec k 0); lia. }
  rewrite Ek at 2. constructor; auto. lia.
Qed.

(** printf("%.16e") after the regex: 17 significant digits, the nearest such number. *)
Lemma fmt_e_ok neg num den : (0 < num)%Z -> (0 < den)%Z ->
  (p10 (-400) <= IZR num / IZR den < p10 400)%R -> ~ (/ 2 <= IZR num / IZR den < 11)%R ->
  exists s x k k0, fmt_e neg num den = (if neg then "-" else "") ++ s /\ scientific s x k /\
    (p10 k0 <= IZR num / IZR den < p10 (k0 + 1))%R /\
    (Rabs (x - IZR num / IZR den) <= / 2 * p10 (k0 - 16))%R /\ (k = k0 \/ k = k0 + 1)%Z.
Proof.
  intros Hn Hd Hq Hne. set (q := (IZR num / IZR den)%R) in *.
  set (k0 := dec_exp 800 (-400) num den).
  assert (Hk : (p10 k0 <= q < p10 (k0 + 1))%R).
  { apply dec_exp_ok; auto. }
  assert (Hkr : (-401 < k0 < 400)%Z).
  { split; apply Z.nle_gt; intros H.
    - assert (H' : (k0 + 1 <= -400)%Z) by lia. apply p10_le in H'. lra.
    - apply p10_le in H. lra. }
  set (n := if (16 - k0 <? 0)%Z then rhe num (den * 10 ^ (k0 - 16)) else rhe (num * 10 ^ (16 - k0)) den).
  assert (Hr : (Rabs (IZR n - q * p10 (16 - k0)) <= / 2)%R).
  { unfold n, q. apply IZR_lt in Hd as Hd'. destruct (Z.ltb_spec (16 - k0) 0).
    - assert (0 < 10 ^ (k0 - 16))%Z by (apply Z.pow_pos_nonneg; lia).
      pose proof (rhe_R num (den * 10 ^ (k0 - 16)) ltac:(lia) ltac:(nia)) as Hr.
      rewrite mult_IZR, <- p10_IZR in Hr by lia.
      assert (Ep : p10 (16 - k0) = (/ p10 (k0 - 16))%R).
      { pose proof (p10_inv (k0 - 16)) as E. replace (- (k0 - 16))%Z with (16 - k0)%Z in E by lia.
        pose proof (p10_pos (k0 - 16)). apply Rmult_eq_reg_l with (p10 (k0 - 16)); [|lra]. rewrite E, Rinv_r; lra. }
      rewrite Ep. pose proof (p10_pos (k0 - 16)).
      replace (IZR num / IZR den * / p10 (k0 - 16))%R with (IZR num / (IZR den * p10 (k0 - 16)))%R by (field; lra). exact Hr.
    - assert (0 < 10 ^ (16 - k0))%Z by (apply Z.pow_pos_nonneg; lia).
      pose proof (rhe_R (num * 10 ^ (16 - k0)) den ltac:(nia) Hd) as Hr.
      rewrite mult_IZR, <- p10_IZR in Hr by lia.
      replace (IZR num / IZR den * p10 (16 - k0))%R with (IZR num * p10 (16 - k0) / IZR den)%R by (field; lra). exact Hr. }
  assert (Hsc : (p10 16 <= q * p10 (16 - k0) < p10 17)%R).
  { pose proof (p10_pos (16 - k0)). replace 17%Z with ((k0 + 1) + (16 - k0))%Z by lia. replace 16%Z with (k0 + (16 - k0))%Z at 1 by lia.
    rewrite (p10_add k0 (16 - k0)), (p10_add (k0 + 1) (16 - k0)). split.
    - apply Rmult_le_compat_r; lra.
    - apply Rmult_lt_compat_r; lra. }
  rewrite (p10_IZR 16), (p10_IZR 17) in Hsc by lia.
  assert (Hn1 : (10 ^ 16 <= n <= 10 ^ 17)%Z).
  { apply Rabs_le_inv in Hr. split.
    - apply Z.lt_succ_r. apply lt_IZR. rewrite succ_IZR. lra.
    - apply Z.lt_succ_r. apply lt_IZR. rewrite succ_IZR. lra. }
  assert (Herr : forall x, x = (IZR n * p10 (k0 - 16))%R -> (Rabs (x - q) <= / 2 * p10 (k0 - 16))%R).
  { intros x ->. pose proof (p10_pos (k0 - 16)). pose proof (p10_inv (k0 - 16)) as Ei.
    replace (- (k0 - 16))%Z with (16 - k0)%Z in Ei by lia.
    replace (IZR n * p10 (k0 - 16) - q)%R with ((IZR n - q * p10 (16 - k0)) * p10 (k0 - 16))%R.
    2:{ rewrite Rmult_minus_distr_r, Rmult_assoc, (Rmult_comm (p10 (16 - k0))), Ei. ring. }
    rewrite Rabs_mult, (Rabs_pos_eq (p10 (k0 - 16))) by lra. apply Rmult_le_compat_r; lra. }
  assert (Hform : forall n' k, (10 ^ 16 <= n' < 10 ^ 17)%Z -> k <> 0%Z -> (Z.abs k < 1000)%Z ->
    scientific (fixdigits 1 (n' / 10 ^ 16) "" ++ frac_part (fixdigits 16 (n' mod 10 ^ 16) "") ++
      "e" ++ (if (k <? 0)%Z then "-" else "+") ++ (if (Z.abs k <? 100)%Z then fixdigits 2 (Z.abs k) "" else fixdigits 3 (Z.abs k) ""))
      (IZR n' * p10 (k - 16)) k).
  { intros n' k Hn' Hk0 Hka. destruct (mantissa_ok n' Hn') as (j & M1 & M2 & M3).
    pose proof (exponent_ok k Hk0 Hka) as He.
    replace (IZR n' * p10 (k - 16))%R with (IZR n' / 10 ^ 16 * p10 k)%R.
    2:{ replace k with ((k - 16) + 16)%Z at 1 by lia. rewrite p10_add, (p10_IZR 16) by lia.
        rewrite (pow10_IZR 16) by lia. change (Z.to_nat 16) with 16. field. }
    rewrite <- sapp_assoc. set (m := _ ++ frac_part _) in *.
    assert (Es : "e" ++ (if (k <? 0)%Z then "-" else "+") ++ (if (Z.abs k <? 100)%Z then fixdigits 2 (Z.abs k) "" else fixdigits 3 (Z.abs k) "")
      = String "e" (String (if (k <? 0)%Z then "-" else "+") (if (Z.abs k <? 100)%Z then fixdigits 2 (Z.abs k) "" else fixdigits 3 (Z.abs k) ""))).
    { destruct (k <? 0)%Z; reflexivity. }
    rewrite Es. econstructor; eauto.
    pose proof (pow10_pos 16) as Hp. change 16 with (Z.to_nat 16) in Hp |- *. rewrite <- pow10_IZR in Hp |- * by lia.
    destruct Hn' as [Ha Hb]. apply IZR_le in Ha. apply IZR_lt in Hb.
    split.
    - apply Rmult_le_reg_r with (IZR (10 ^ 16)); [exact Hp|]. unfold Rdiv. rewrite Rmult_assoc, Rinv_l by lra. lra.
    - apply Rmult_lt_reg_r with (IZR (10 ^ 16)); [exact Hp|]. unfold Rdiv. rewrite Rmult_assoc, Rinv_l by lra.
      rewrite Rmult_1_r, <- mult_IZR. exact Hb. }
  assert (Hk0n : k0 <> 0%Z /\ (k0 + 1 <> 0 \/ n <> 10 ^ 17)%Z).
  { assert (k0 <> 0)%Z as H0.
    { intros E. rewrite E in Hk. change (p10 0) with 1%R in Hk. change (p10 (0 + 1)) with (10 * 1)%R in Hk. apply Hne. lra. }
    split; [exact H0|]. destruct (Z.eq_dec (k0 + 1) 0) as [E|]; [right|now left].
    intros En. assert (k0 = -1)%Z as Ek by lia. rewrite Ek in *. apply Hne.
    rewrite En in Hr. change (16 - -1)%Z with 17%Z in Hr. rewrite p10_IZR in Hr by lia.
    change (p10 (-1 + 1)) with 1%R in Hk. split; [|lra].
    change (IZR (10 ^ 17)) with 100000000000000000%R in Hr. apply Rabs_le_inv in Hr. lra. }
  unfold fmt_e. fold k0. fold n. destruct (Z.eqb_spec n (10 ^ 17)) as [En|En].
  - exists (fixdigits 1 (10 ^ 16 / 10 ^ 16) "" ++ frac_part (fixdigits 16 (10 ^ 16 mod 10 ^ 16) "") ++
      "e" ++ (if (k0 + 1 <? 0)%Z then "-" else "+") ++ (if (Z.abs (k0 + 1) <? 100)%Z then fixdigits 2 (Z.abs (k0 + 1)) "" else fixdigits 3 (Z.abs (k0 + 1)) "")).
    exists (IZR (10 ^ 16) * p10 (k0 + 1 - 16))%R, (k0 + 1)%Z, k0. split; [reflexivity|]. split; [apply Hform; try lia|].
    split; [exact Hk|]. split; [|now right]. apply Herr. rewrite En. replace (k0 + 1 - 16)%Z with (1 + (k0 - 16))%Z by lia.
    rewrite p10_add. change (p10 1) with (10 * 1)%R. replace (IZR (10 ^ 17)) with (10 * IZR (10 ^ 16))%R by (rewrite <- mult_IZR; reflexivity). ring.
  - exists (fixdigits 1 (n / 10 ^ 16) "" ++ frac_part (fixdigits 16 (n mod 10 ^ 16) "") ++
      "e" ++ (if (k0 <? 0)%Z then "-" else "+") ++ (if (Z.abs k0 <? 100)%Z then fixdigits 2 (Z.abs k0) "" else fixdigits 3 (Z.abs k0) "")).
    exists (IZR n * p10 (k0 - 16))%R, k0, k0. split; [reflexivity|]. split; [apply Hform; lia|].
    split; [exact Hk|]. split; [now apply Herr|now left].
Qed.

(** ** Reading back: 17 significant digits determine the double *)
Local Open Scope R_scope.
#[local] Instance fexp64_valid' : Valid_exp fexp64.
Proof. apply fexp_correct. exact Hprec. Qed.

Lemma ulp_rel u : 0 < u -> u * bpow radix2 (-53) < ulp radix2 fexp64 u.
Proof.
  intros Hu. rewrite ulp_neq_0 by lra. unfold cexp.
  destruct (mag radix2 u) as [e He]. cbn [mag_val]. specialize (He ltac:(lra)). rewrite Rabs_pos_eq in He by lra.
  apply Rlt_le_trans with (bpow radix2 e * bpow radix2 (-53)).
  - apply Rmult_lt_compat_r; [apply bpow_gt_0|]. apply He.
  - rewrite <- bpow_plus. apply bpow_le. unfold SpecFloat.fexp, SpecFloat.emin. lia.
Qed.
Lemma gap_below_rel u : generic_format radix2 fexp64 u -> 0 < u -> u * bpow radix2 (-53) <= u - pred radix2 fexp64 u.
Proof.
  intros Hf Hu. pose proof (pred_eq_pos radix2 fexp64 u ltac:(lra)) as E. rewrite E. unfold pred_pos.
  destruct (Req_bool_spec u (bpow radix2 (mag radix2 u - 1))) as [H|H].
  - enough (u * bpow radix2 (-53) <= bpow radix2 (fexp64 (mag radix2 u - 1))) by lra.
    rewrite H at 1. rewrite <- bpow_plus. apply bpow_le. unfold SpecFloat.fexp, SpecFloat.emin. lia.
  - pose proof (ulp_rel u Hu). lra.
Qed.
Lemma round_back_rel u x : generic_format radix2 fexp64 u -> 0 < u -> Rabs (x - u) <= / 2 * / 10 ^ 16 * u -> rne x = u.
Proof.
  intros Hf Hu Hx.
  assert (Hb : / 10 ^ 16 < bpow radix2 (-53)).
  { change (bpow radix2 (-53)) with (/ IZR (2 ^ 53)). apply Rinv_lt_contravar.
    - apply Rmult_lt_0_compat; [apply IZR_lt; reflexivity|apply pow10_pos].
    - change 16%nat with (Z.to_nat 16). rewrite <- pow10_IZR by lia. apply IZR_lt. reflexivity. }
  pose proof (gap_below_rel u Hf Hu) as G1. pose proof (ulp_rel u Hu) as G2.
  assert (Hs : succ radix2 fexp64 u = u + ulp radix2 fexp64 u) by (apply succ_eq_pos; lra).
  assert (Hc : / 10 ^ 16 * u < u * bpow radix2 (-53)) by nra.
  apply Rabs_le_inv in Hx. apply Rle_antisym.
  - apply round_N_le_midp; auto; [typeclasses eauto|lra].
  - apply round_N_ge_midp; auto; [typeclasses eauto|lra].
Qed.

Lemma sci_stop t k : exponent t k -> stops (String "e" t). Proof. intros _. reflexivity. Qed.
Lemma decimal_read_app s x k r : decimal s x k -> stops r -> (forall c r', r = String c r' -> c <> "."%char) ->
  exists m, read_mant dec_digit 10 (s ++ r)%string = Some (m, k, String.length s, r) /\ (0 <= m)%Z /\ x = (IZR m / 10 ^ k)%R.
Proof.
  intros H Hst Hr. destruct H as [s Hs Hd|s t Hs Ht Hd Hdt].
  - exists (dval 0 s). unfold read_mant. rewrite read_digits_ok by auto.
    cbn [Nat.add]. split; [|split; [apply dval_nonneg; lia|cbn; field]].
    destruct r as [|c r]; [destruct s; [congruence|reflexivity]|].
    specialize (Hr c r eq_refl). destruct s as [|c0 s]; [congruence|]. cbn [String.length].
    destruct c as [[] [] [] [] [] [] [] []]; try reflexivity. congruence.
  - exists (dval 0 (s ++ t)). unfold read_mant. rewrite sapp_assoc. cbn [String.append]. rewrite read_digits_ok by (auto; reflexivity).
    rewrite read_digits_ok by auto. cbn [Nat.add].
    split; [|split; [apply dval_nonneg; lia|]].
    + rewrite dval_app, slen_app. destruct s; [congruence|]. cbn [String.length Nat.add].
      do 3 f_equal. lia.
    + rewrite dval_app, (dval_acc t (dval 0 s)), plus_IZR, mult_IZR, (pow10_IZR (Z.of_nat _)) by lia. rewrite Nat2Z.id.
      pose proof (pow10_pos (String.length t)). field. apply Rgt_not_eq. assumption.
Qed.
Lemma exponent_read t k : exponent t k -> read_exp "e" (String "e" t) = (k, S (String.length t)).
Proof.
  destruct 1 as [neg t Hd Hl H0]. unfold read_exp. change (lower "e") with "e"%char. rewrite Ascii.eqb_refl.
  assert (Hn : read_digits dec_digit 10 t 0 0 = (dval 0 t, String.length t, ""%string)).
  { rewrite <- (sapp_nil t) at 1. rewrite read_digits_ok by (auto; exact I). reflexivity. }
  destruct t as [|c t]; [cbn in Hl; lia|]. destruct neg; cbv iota beta; rewrite Hn; cbn [String.length]; reflexivity.
Qed.

Lemma sci_read s x k : scientific s x k -> exists m j n r ne,
  read_mant dec_digit 10 s = Some (m, j, n, r) /\ read_exp "e" r = (k, ne) /\ (n + ne = String.length s)%nat /\
  (0 < m)%Z /\ x = IZR m * p10 (k - Z.of_nat j).
Proof.
  destruct 1 as [s y j t k Hd Hy Hj Htd He].
  destruct (decimal_read_app s y j (String "e" t) Hd (sci_stop t k He)) as (m & E & Hm & Hx).
  { intros c r' [= <- _]. discriminate. }
  exists m, j, (String.length s), (String "e" t), (S (String.length t)). split; [exact E|].
  split; [now apply exponent_read|]. split; [rewrite slen_app; reflexivity|].
  assert (Hmy : IZR m = y * 10 ^ j).
  { rewrite Hx. field. apply Rgt_not_eq, pow10_pos. }
  split.
  - apply lt_IZR. rewrite Hmy. apply Rmult_lt_0_compat; [lra|apply pow10_pos].
  - rewrite Hx. replace (k - Z.of_nat j)%Z with (k + - Z.of_nat j)%Z by lia. rewrite p10_add.
    pose proof (p10_inv (Z.of_nat j)) as Hi. rewrite <- pow_powerRZ in Hi.
    pose proof (pow10_pos j). apply Rmult_eq_reg_r with (10 ^ j); [|lra].
    replace (IZR m / 10 ^ j * p10 k * 10 ^ j) with (IZR m * p10 k) by (field; lra).
    replace (IZR m * (p10 k * p10 (- Z.of_nat j)) * 10 ^ j) with (IZR m * p10 k * (10 ^ j * p10 (- Z.of_nat j))) by ring.
    rewrite Hi. ring.
Qed.
Lemma sci_unique s x k x' k' : scientific s x k -> scientific s x' k' -> x = x' /\ k = k'.
Proof.
  intros H H'. destruct (sci_read _ _ _ H) as (m & j & n & r & ne & A & B & _ & _ & ->).
  destruct (sci_read _ _ _ H') as (m' & j' & n' & r' & ne' & A' & B' & _ & _ & ->).
  rewrite A in A'. injection A' as <- <- <- <-. rewrite B in B'. injection B' as <- <-. auto.
Qed.

Lemma b_dec_val m e : (0 < m)%Z -> Rabs (rne (IZR m * p10 e)) < bpow radix2 1024 ->
  B2R (b_dec false m e) = rne (IZR m * p10 e) /\ is_finite (b_dec false m e) = true.
Proof.
  intros Hm Hlt. destruct (Z_lt_le_dec e 0) as [He|He].
  - replace e with (- Z.of_nat (Z.to_nat (- e)))%Z in Hlt |- * by lia. set (j := Z.to_nat (- e)) in *.
    assert (Ep : IZR m * p10 (- Z.of_nat j) = IZR m / 10 ^ j).
    { unfold Rdiv. f_equal. pose proof (p10_inv (Z.of_nat j)) as Hi. rewrite <- pow_powerRZ in Hi.
      pose proof (pow10_pos j). apply Rmult_eq_reg_l with (10 ^ j); [|lra]. rewrite Hi, Rinv_r; lra. }
    rewrite Ep in Hlt |- *. destruct (b_dec_ok m j ltac:(lia) Hlt) as (A & B & _). auto.
  - destruct m as [|p|p]; try lia. rewrite p10_IZR in Hlt |- * by exact He. rewrite <- mult_IZR in Hlt |- *.
    assert (Hp : (0 < Zpos p * 10 ^ e)%Z) by (apply Z.mul_pos_pos; [lia|apply Z.pow_pos_nonneg; lia]).
    assert (Eb : b_dec false (Zpos p) e = match (Zpos p * 10 ^ e)%Z with Zpos q => b_ofQ false q 1 | _ => B754_zero false end).
    { destruct e; [reflexivity|reflexivity|lia]. }
    rewrite Eb. destruct (Zpos p * 10 ^ e)%Z as [|q|q]; try lia.
    replace (IZR (Zpos q)) with (IZR (Zpos q) / IZR 1) in Hlt |- * by field. exact (b_ofQ_ok false q 1 Hlt).
Qed.

Lemma stod_sci s x k : scientific s x k -> bpow radix2 (-1022) <= rne x -> rne x < bpow radix2 1024 ->
  exists r, b_stod s = Some (r, String.length s) /\ is_finite r = true /\ B2R r = rne x.
Proof.
  intros H Hlo Hhi. destruct (sci_read s x k H) as (m & j & n & r & ne & E1 & E2 & El & Hm & Hx).
  pose proof (bpow_gt_0 radix2 (-1022)) as Hb0.
  destruct (b_dec_val m (k - Z.of_nat j) Hm) as [V F].
  { rewrite <- Hx. rewrite Rabs_pos_eq by lra. exact Hhi. }
  rewrite <- Hx in V. exists (b_dec false m (k - Z.of_nat j)). split; [|auto].
  assert (Hu : stod_unsigned false s = Some (b_dec false m (k - Z.of_nat j), String.length s)).
  { destruct H as [s0 y j0 t k Hd Hy Hj Htd He]. destruct (decimal_start s0 y j0 Hd) as (c & s' & -> & Hc & Hs').
    unfold stod_unsigned. rewrite E1. rewrite E2. cbv iota beta. rewrite El.
    assert (Hdec : (if (k - Z.of_nat j <? 0)%Z
       then ranged (b_dec false m (k - Z.of_nat j)) m (10 ^ - (k - Z.of_nat j)) (String.length (String c s' ++ String "e" t))
       else ranged (b_dec false m (k - Z.of_nat j)) (m * 10 ^ (k - Z.of_nat j)) 1 (String.length (String c s' ++ String "e" t)))
      = Some (b_dec false m (k - Z.of_nat j), String.length (String c s' ++ String "e" t))).
    { assert (Hir : forall ex, in_range (b_dec false m (k - Z.of_nat j)) ex = true).
      { intros ex. apply in_range_ok; auto. left. rewrite V. exact Hlo. }
      unfold ranged. rewrite !Hir. now destruct (k - Z.of_nat j <? 0)%Z. }
    rewrite Hdec. cbn [String.append]. destruct (ascii_dec c "0") as [->|Hn].
    - destruct (s' ++ String "e" t)%string as [|x' s''] eqn:Es; [reflexivity|].
      assert (Ascii.eqb (lower x') "x" = false) as ->; [|reflexivity].
      assert (Hx' : digit x' \/ x' = "."%char \/ x' = "e"%char).
      { destruct s' as [|a s']; cbn in Es; injection Es as <- _; [auto|]. destruct Hs' as [|]; auto. }
      destruct Hx' as [Hdg|[-> | ->]]; [|reflexivity|reflexivity].
      apply Ascii.eqb_neq. intros Hxx. unfold lower, char_in in Hxx. unfold digit in Hdg.
      destruct (Nat.leb_spec 65 (nat_of_ascii x')); [lia|]. cbn [andb] in Hxx. subst x'. cbn in Hdg. lia.
    - destruct c as [[] [] [] [] [] [] [] []]; try reflexivity. congruence. }
  assert (Hst : exists c s', s = String c s' /\ digit c).
  { destruct H as [s0 y j0 t k Hd Hy Hj Htd He]. destruct (decimal_start s0 y j0 Hd) as (c & s' & -> & Hc & _).
    cbn [String.append]. eauto. }
  destruct Hst as (c & s' & Es & Hc).
  unfold b_stod. rewrite Es in Hu |- *. cbn [b_stod_ws]. unfold digit in Hc. unfold char_in.
  destruct (Nat.eqb_spec (nat_of_ascii c) 32); [lia|]. destruct (Nat.leb_spec (nat_of_ascii c) 13); [lia|].
  rewrite andb_false_r. cbn [orb].
  destruct (Ascii.eqb_spec c "-") as [->|_]; [cbn in Hc; lia|].
  destruct (Ascii.eqb_spec c "+") as [->|_]; [cbn in Hc; lia|].
  rewrite Hu. reflexivity.
Qed.

(** ** The formatter *)
Definition sci_range (v : b64) : Prop :=
  is_finite v = true /\ B2R v <> 0 /\ (10 ^ 16 <= Rabs (B2R v) \/ Rabs (B2R v) <= B2R (b_dec false 1 (-16))).

Lemma b_1em16_small : B2R (b_dec false 1 (-16)) < / 4.
Proof.
  rewrite B2R_SF. assert (B2SF (b_dec false 1 (-16)) = SpecFloat.S754_finite false 8112963841460668 (-106)) as -> by (vm_compute; reflexivity).
  unfold SF2R, F2R. cbn [SpecFloat.cond_Zopp Fnum Fexp].
  change (bpow radix2 (-106)) with (/ IZR (2 ^ 106)).
  apply Rmult_lt_reg_r with (IZR (2 ^ 106)); [apply IZR_lt; reflexivity|].
  rewrite Rmult_assoc, Rinv_l by (apply Rgt_not_eq, IZR_lt; reflexivity). rewrite Rmult_1_r.
  apply Rmult_lt_reg_l with 4; [lra|]. rewrite <- Rmult_assoc, Rinv_r by lra. rewrite Rmult_1_l, <- mult_IZR.
  apply IZR_lt. reflexivity.
Qed.

Lemma b_range (v : b64) : is_finite v = true -> B2R v <> 0 -> p10 (-400) <= Rabs (B2R v) < p10 400.
Proof.
  intros Hf H0. split.
  - apply Rle_trans with (bpow radix2 (-1074)).
    + change (p10 (-400)) with (/ 10 ^ (Pos.to_nat 400)). change (bpow radix2 (-1074)) with (/ IZR (2 ^ 1074)).
      apply Rinv_le_contravar; [apply IZR_lt; reflexivity|].
      replace (10 ^ Pos.to_nat 400) with (IZR (10 ^ 400)).
      2:{ rewrite (pow10_IZR 400) by lia. reflexivity. }
      apply IZR_le. vm_compute. discriminate.
    + change (-1074)%Z with (SpecFloat.emin 53 1024). apply (abs_B2R_ge_emin 53 1024).
      destruct v; try discriminate; [|reflexivity]. cbn in H0. lra.
  - apply Rlt_trans with (bpow radix2 1024).
    + apply (abs_B2R_lt_emax 53 1024).
    + rewrite p10_IZR by lia. change (bpow radix2 1024) with (IZR (2 ^ 1024)). apply IZR_lt. reflexivity.
Qed.

Lemma sci_tostr v : sci_range v -> exists s x k k0,
  b_tostr v = ((if Bltb v (b_ofZ 0) then "-" else "") ++ s)%string /\ scientific s x k /\
  p10 k0 <= Rabs (B2R v) < p10 (k0 + 1) /\ Rabs (x - Rabs (B2R v)) <= / 2 * p10 (k0 - 16) /\ (k = k0 \/ k = k0 + 1)%Z.
Proof.
  intros (Hf & H0 & Hr). destruct b_1em16 as [F1 V1]. destruct b_1e16 as [V2 F2].
  pose proof (b_range v Hf H0) as Hrange.
  destruct v as [s|s| |s m e Hb]; [ |discriminate Hf|discriminate Hf| ].
  { cbn [B2R] in H0. lra. }
  set (v := B754_finite s m e Hb : b64) in *.
  assert (Hneg : Bltb v (b_ofZ 0) = s).
  { rewrite Bltb_correct by reflexivity. change (B2R (b_ofZ 0)) with 0.
    unfold v. cbn [B2R]. destruct s; cbn [SpecFloat.cond_Zopp].
    - apply Rlt_bool_true. now apply F2R_lt_0.
    - apply Rlt_bool_false. apply F2R_ge_0. cbn. lia. }
  rewrite Hneg.
  assert (Habs : Rabs (B2R v) = F2R (beta:=radix2) {| Fnum := Zpos m; Fexp := e |}).
  { unfold v. cbn [B2R]. rewrite <- F2R_Zabs. f_equal. f_equal. now destruct s. }
  pose proof (frac_of_ok m e) as Hq.
  assert (Et : b_tostr v = let '(num, den) := frac_of m e in fmt_e s num den).
  { unfold b_tostr, v. fold v.
    assert (Bleb (b_ofZ (10 ^ 16)) (Babs v) || Bleb (Babs v) (b_dec false 1 (-16)) = true)%bool as ->.
    { rewrite !Bleb_correct by (try exact F2; try exact F1; reflexivity). rewrite V2, B2R_Babs. apply orb_true_iff.
      destruct Hr; [left|right]; now apply Rle_bool_true. }
    destruct (frac_of m e). reflexivity. }
  destruct (frac_of m e) as [num den]. destruct Hq as (Hn & Hd & Hq). rewrite <- Habs in Hq.
  destruct (fmt_e_ok s num den Hn Hd) as (t & x & k & k0 & A & B & C & D & E).
  { rewrite Hq. exact Hrange. }
  { rewrite Hq. pose proof b_1em16_small. assert (11 < 10 ^ 16) by (simpl; lra). lra. }
  rewrite Hq in C, D. exists t, x, k, k0. rewrite Et. auto.
Qed.

Lemma sci_back (v : b64) x k0 : is_finite v = true -> B2R v <> 0 -> p10 k0 <= Rabs (B2R v) ->
  Rabs (x - Rabs (B2R v)) <= / 2 * p10 (k0 - 16) -> rne x = Rabs (B2R v).
Proof.
  intros Hf H0 Hk Hx. apply round_back_rel.
  - rewrite <- B2R_Babs. apply generic_format_B2R.
  - now apply Rabs_pos_lt.
  - apply Rle_trans with (1 := Hx). rewrite Rmult_assoc. apply Rmult_le_compat_l; [lra|].
    replace (k0 - 16)%Z with (k0 + -16)%Z by lia. rewrite p10_add, (Rmult_comm (p10 k0)).
    change (p10 (-16)) with (/ 10 ^ 16). apply Rmult_le_compat_l; [|exact Hk].
    left. apply Rinv_0_lt_compat, pow10_pos.
Qed.
