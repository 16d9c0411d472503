(** C85: PI, radians and degrees in doubles. *)
From Coq Require Import ZArith Reals Lia Lra QArith Qpower Qreals Machin Ratan Bool.
From Flocq Require Import IEEE754.BinarySingleNaN Core.
From Verif Require Import Base MathOp IEEE NodeModel ExprSpec RealSpec FloatSpec FloatFacts IntSpec IntProofs RoundSpec RoundProofs NumText LinRound Thm_Solve Thm_Newton64 AngleModel.
Local Open Scope R_scope.

(** ** Twenty digits of pi *)
Definition q_term (n : nat) : Q := (2 * (1 # Pos.of_nat (2 * n + 1)) * Qpower (1 # 3) (Z.of_nat (2 * n + 1)) + (1 # Pos.of_nat (2 * n + 1)) * Qpower (1 # 7) (Z.of_nat (2 * n + 1)))%Q.
Fixpoint q_sum (n : nat) : Q := match n with O => q_term 0 | S m => Qred (q_sum m + (if Nat.even (S m) then q_term (S m) else - q_term (S m)))%Q end.

Lemma Q2R_power q k : ~ (q == 0)%Q -> Q2R (Qpower q (Z.of_nat k)) = Q2R q ^ k.
Proof.
  intros E. induction k as [|k IH]; [cbn; unfold Q2R; cbn; lra|]. rewrite Nat2Z.inj_succ, <- Z.add_1_r.
  rewrite (Qeq_eqR _ _ (Qpower_plus q _ 1 E)), Q2R_mult, IH. cbn [pow]. rewrite Rmult_comm. reflexivity.
Qed.
Lemma q_term_R n : Q2R (q_term n) = PI_2_3_7_tg n.
Proof.
  unfold q_term, PI_2_3_7_tg, Ratan_seq. rewrite Q2R_plus, !Q2R_mult, !Q2R_power by discriminate.
  assert (E1 : Q2R (1 # Pos.of_nat (2 * n + 1)) = / INR (2 * n + 1)).
  { unfold Q2R. cbn [Qnum Qden]. rewrite Rmult_1_l. f_equal. rewrite INR_IZR_INZ. f_equal. lia. }
  assert (E3 : Q2R (1 # 3) = / 3) by (unfold Q2R; cbn; lra). assert (E7 : Q2R (1 # 7) = / 7) by (unfold Q2R; cbn; lra). assert (E2 : Q2R 2 = 2) by (unfold Q2R; cbn; lra).
  rewrite E1, E2, E3, E7. unfold Rdiv. ring.
Qed.
Lemma q_sum_R n : Q2R (q_sum n) = sum_f_R0 (tg_alt PI_2_3_7_tg) n.
Proof.
  induction n as [|n IH].
  - cbn [q_sum sum_f_R0]. rewrite q_term_R. unfold tg_alt. cbn [pow]. ring.
  - cbn [sum_f_R0]. rewrite <- IH. unfold tg_alt. rewrite <- q_term_R.
    change (q_sum (S n)) with (Qred (q_sum n + (if Nat.even (S n) then q_term (S n) else - q_term (S n)))%Q). rewrite (Qeq_eqR _ _ (Qred_correct _)), Q2R_plus. f_equal.
    destruct (Nat.even (S n)) eqn:Ev.
    + apply Nat.even_spec in Ev. destruct Ev as [k ->]. rewrite pow_1_even. ring.
    + assert (Od : Nat.odd (S n) = true) by (unfold Nat.odd; rewrite Ev; reflexivity). apply Nat.odd_spec in Od. destruct Od as [k E]. rewrite E. replace (2 * k + 1)%nat with (S (2 * k)) by lia. rewrite pow_1_odd, Q2R_opp. ring.
Qed.
Lemma pi_digits : 314159265358979323846 / 10 ^ 20 <= PI <= 314159265358979323847 / 10 ^ 20.
Proof.
  destruct (PI_2_3_7_ineq 10) as [A B]. rewrite <- !q_sum_R in A, B.
  assert (H1 : Q2R (314159265358979323846 # (4 * 10 ^ 20)) <= Q2R (q_sum 21)) by (apply Qle_Rle; vm_compute; discriminate).
  assert (H2 : Q2R (q_sum 20) <= Q2R (314159265358979323847 # (4 * 10 ^ 20))) by (apply Qle_Rle; vm_compute; discriminate).
  change (S (2 * 10)) with 21%nat in A. change (2 * 10)%nat with 20%nat in B.
  assert (E : IZR (Zpos (4 * 10 ^ 20)) = 4 * 10 ^ 20) by (change (Zpos (4 * 10 ^ 20)) with (4 * 10 ^ 20)%Z; rewrite mult_IZR, pow_IZR; reflexivity).
  set (lo := Q2R (q_sum 21)) in *. set (hi := Q2R (q_sum 20)) in *. clearbody lo hi. unfold Q2R in H1, H2. cbn [Qnum Qden] in H1, H2. rewrite E in H1, H2. rewrite Rinv_mult_distr in H1, H2 by lra. split; lra.
Qed.

(** ** The constant *)
Definition PI64 : b64 := b_dec false 314159265358979323846 (-20).

(** PI is the double nearest to pi (ties to even do not matter), and is below pi by 1.2246e-16. *)
Theorem C85_pi : fin PI64 /\ B2R PI64 = rnd PI /\ 122 / 10 ^ 18 <= PI - B2R PI64 <= 123 / 10 ^ 18 /\
  forall v : b64, fin v -> Rabs (B2R PI64 - PI) <= Rabs (B2R v - PI).
Proof.
  pose proof pi_digits as HP.
  assert (F : fin PI64) by (vm_compute; reflexivity).
  assert (E : B2R PI64 = 884279719003555 * / IZR (2 ^ 48)).
  { rewrite B2R_SF. assert (B2SF PI64 = SpecFloat.S754_finite false 7074237752028440 (-51)) as -> by (vm_compute; reflexivity).
    unfold SF2R, F2R. cbn [SpecFloat.cond_Zopp Fnum Fexp]. change (bpow radix2 (-51)) with (/ IZR (2 ^ 51)). lra. }
  assert (Lo : rnd (314159265358979323846 / 10 ^ 20) = B2R PI64).
  { destruct (b_dec_ok 314159265358979323846 20 ltac:(lia)) as (B1 & _ & _); [|symmetry; exact B1].
    apply rnd_small. rewrite Rabs_pos_eq by lra. pose proof ulp1_small. pose proof tiny_18. pose proof huge_100. lra. }
  assert (Hi : rnd (314159265358979323847 / 10 ^ 20) = B2R PI64).
  { destruct (b_dec_ok 314159265358979323847 20 ltac:(lia)) as (B1 & _ & _).
    - apply rnd_small. rewrite Rabs_pos_eq by lra. pose proof ulp1_small. pose proof tiny_18. pose proof huge_100. lra.
    - transitivity (B2R (b_dec false 314159265358979323847 (- Z.of_nat 20))); [symmetry; exact B1|]. rewrite !B2R_SF. apply (f_equal (SF2R radix2)). vm_compute. reflexivity. }
  assert (Er : rnd PI = B2R PI64).
  { apply Rle_antisym; [rewrite <- Hi|rewrite <- Lo]; apply round_le; try apply valid_rnd_round_mode; try apply fexp_valid; lra. }
  split; [exact F|]. split; [now symmetry|]. split.
  - rewrite E. change (IZR (2 ^ 48)) with 281474976710656. lra.
  - intros v _. rewrite <- Er. assert (Q := round_N_pt radix2 fexp (fun x => negb (Z.even x)) PI). destruct Q as [_ Q]. exact (Q (B2R v) (format_B2R v)).
Qed.

Lemma huge_large : 10 ^ 12 < huge.
Proof. rewrite huge_bpow. apply Rlt_trans with (bpow radix2 50); [change (bpow radix2 50) with (IZR (2 ^ 50)); lra|apply bpow_lt; lia]. Qed.

(** ** The conversions *)
Lemma ofZ_180 : fin (b_ofZ 180) /\ B2R (b_ofZ 180) = 180.
Proof.
  split; [vm_compute; reflexivity|]. rewrite B2R_SF. assert (B2SF (b_ofZ 180) = SpecFloat.S754_finite false 6333186975989760 (-45)) as -> by (vm_compute; reflexivity).
  unfold SF2R, F2R. cbn [SpecFloat.cond_Zopp Fnum Fexp]. change (bpow radix2 (-45)) with (/ IZR (2 ^ 45)). lra.
Qed.
Lemma PI64_bounds : fin PI64 /\ 122 / 10 ^ 18 <= PI - B2R PI64 <= 123 / 10 ^ 18 /\ 3141592 / 10 ^ 6 <= B2R PI64 <= 3141593 / 10 ^ 6.
Proof. destruct C85_pi as (F & _ & H & _). pose proof pi_digits. split; [exact F|]. split; [exact H|]. lra. Qed.

Lemma two_roundings d1 d2 : Rabs d1 <= ulp1 -> Rabs d2 <= ulp1 -> Rabs ((1 + d1) * (1 + d2) - 1) <= 2401 / 10 ^ 19 /\ Rabs (1 + d2) <= 11 / 10.
Proof.
  intros H1 H2. pose proof ulp1_16 as U. assert (A1 : Rabs d1 <= 12 / 10 ^ 17) by lra. assert (A2 : Rabs d2 <= 12 / 10 ^ 17) by lra. clear H1 H2. split.
  - replace ((1 + d1) * (1 + d2) - 1) with (d1 + d2 + d1 * d2) by ring. eapply Rle_trans; [apply Rabs_triang|]. pose proof (Rabs_triang d1 d2). rewrite Rabs_mult.
    assert (Rabs d1 * Rabs d2 <= (12 / 10 ^ 17) * (12 / 10 ^ 17)) by (apply Rmult_le_compat; try lra; apply Rabs_pos). lra.
  - eapply Rle_trans; [apply Rabs_triang|]. rewrite Rabs_R1. lra.
Qed.

Definition rad64 (x : b64) : b64 := Bmult mode_NE (Bdiv mode_NE x (b_ofZ 180)) PI64.
Definition deg64 (x : b64) : b64 := Bdiv mode_NE (Bmult mode_NE x (b_ofZ 180)) PI64.

Lemma rad64_spec x : fin x -> fin (rad64 x) /\ B2R (rad64 x) = rnd (rnd (B2R x / 180) * B2R PI64).
Proof.
  intros Fx. destruct ofZ_180 as [F180 E180]. destruct PI64_bounds as (FP & _ & HP). pose proof ulp1_small as U. pose proof ulp1_pos as U0. pose proof tiny_18 as T. pose proof tiny_pos as T0. pose proof huge_100 as Hg.
  pose proof (fin_of x Fx) as Bx. rewrite <- huge_bpow in Bx.
  assert (Hq : Rabs (B2R x / 180) <= huge / 180). { unfold Rdiv. rewrite Rabs_mult, (Rabs_pos_eq (/ 180)) by lra. apply Rmult_le_compat_r; lra. }
  assert (U1 : ulp1 <= / 10) by (pose proof ulp1_16; lra).
  assert (Hq1 : Rabs (B2R x / 180) * (1 + ulp1) + tiny <= huge / 100).
  { assert (Rabs (B2R x / 180) * (1 + ulp1) <= huge / 180 * (11 / 10)) by (apply Rmult_le_compat; try lra; apply Rabs_pos). lra. }
  assert (Fq : fin (Bdiv mode_NE x (b_ofZ 180))). { apply div_fin; auto; rewrite E180; [lra|]. apply rnd_small. lra. }
  assert (Eq : B2R (Bdiv mode_NE x (b_ofZ 180)) = rnd (B2R x / 180)). { rewrite Bdiv_R; auto; rewrite E180; [reflexivity|lra]. }
  assert (Bq : Rabs (rnd (B2R x / 180)) <= huge / 100).
  { destruct (rnd_model (B2R x / 180)) as (d & t & Hd & Ht & ->). eapply Rle_trans; [apply Rabs_triang|]. rewrite Rabs_mult. eapply Rle_trans; [|exact Hq1].
    apply Rplus_le_compat; [|exact Ht]. apply Rmult_le_compat_l; [apply Rabs_pos|]. eapply Rle_trans; [apply Rabs_triang|]. rewrite Rabs_R1. lra. }
  assert (Fr : fin (rad64 x)).
  { unfold rad64. apply mul_fin; auto. rewrite Eq. apply rnd_small. rewrite Rabs_mult, (Rabs_pos_eq (B2R PI64)) by lra.
    assert (Rabs (rnd (B2R x / 180)) * B2R PI64 * (1 + ulp1) <= huge / 100 * 4 * (11 / 10)).
    { apply Rmult_le_compat; try lra; [apply Rmult_le_pos; [apply Rabs_pos|lra]|]. apply Rmult_le_compat; try lra. apply Rabs_pos. } lra. }
  split; [exact Fr|]. unfold rad64 in *. rewrite mul_R; auto. now rewrite Eq.
Qed.

Lemma deg64_spec x : fin x -> Rabs (B2R x) <= huge / 200 -> fin (deg64 x) /\ B2R (deg64 x) = rnd (rnd (B2R x * 180) / B2R PI64).
Proof.
  intros Fx Bx. destruct ofZ_180 as [F180 E180]. destruct PI64_bounds as (FP & _ & HP). pose proof ulp1_small as U. pose proof ulp1_pos as U0. pose proof tiny_18 as T. pose proof tiny_pos as T0. pose proof huge_100 as Hg.
  assert (Hq : Rabs (B2R x * 180) <= huge * (9 / 10)). { rewrite Rabs_mult, (Rabs_pos_eq 180) by lra. lra. }
  assert (U1 : ulp1 <= / 100) by (pose proof ulp1_16; lra).
  assert (Hq1 : Rabs (B2R x * 180) * (1 + ulp1) + tiny < huge * (95 / 100)).
  { assert (Rabs (B2R x * 180) * (1 + ulp1) <= huge * (9 / 10) * (101 / 100)) by (apply Rmult_le_compat; try lra; apply Rabs_pos). lra. }
  assert (Fq : fin (Bmult mode_NE x (b_ofZ 180))). { apply mul_fin; auto; rewrite E180. apply rnd_small. lra. }
  assert (Eq : B2R (Bmult mode_NE x (b_ofZ 180)) = rnd (B2R x * 180)). { rewrite mul_R; auto; rewrite E180; reflexivity. }
  assert (Bq : Rabs (rnd (B2R x * 180)) <= huge * (95 / 100)).
  { destruct (rnd_model (B2R x * 180)) as (d & t & Hd & Ht & ->). eapply Rle_trans; [apply Rabs_triang|]. rewrite Rabs_mult. eapply Rle_trans; [|left; exact Hq1].
    apply Rplus_le_compat; [|exact Ht]. apply Rmult_le_compat_l; [apply Rabs_pos|]. eapply Rle_trans; [apply Rabs_triang|]. rewrite Rabs_R1. lra. }
  assert (Hn : B2R PI64 <> 0) by lra.
  assert (Fr : fin (deg64 x)).
  { unfold deg64. apply div_fin; auto. rewrite Eq. apply rnd_small. unfold Rdiv. rewrite Rabs_mult, (Rabs_pos_eq (/ B2R PI64)) by (left; apply Rinv_0_lt_compat; lra).
    assert (/ B2R PI64 <= / 2) by (apply Rinv_le_contravar; lra). assert (0 < / B2R PI64) by (apply Rinv_0_lt_compat; lra).
    assert (Rabs (rnd (B2R x * 180)) * / B2R PI64 * (1 + ulp1) <= huge * (95 / 100) * / 2 * (101 / 100)).
    { apply Rmult_le_compat; try lra; [apply Rmult_le_pos; [apply Rabs_pos|lra]|]. apply Rmult_le_compat; try lra. apply Rabs_pos. } lra. }
  split; [exact Fr|]. unfold deg64 in *. rewrite Bdiv_R; auto. now rewrite Eq.
Qed.

Section Angle.
Context (L : libm).
Notation K := (B64 L).

(** radians never fails on a finite argument, and errs by at most 2.8e-16 of the exact result (plus 5 * 2^-1075
    when it is that small). *)
Theorem C85_radians (x : b64) : fin x ->
  fin (radians (x : K)) /\ Rabs (B2R (radians (x : K) : b64) - B2R x * PI / 180) <= 28 / 10 ^ 17 * Rabs (B2R x * PI / 180) + 5 * tiny.
Proof.
  intros Fx. destruct (rad64_spec x Fx) as [Fr Er]. change (radians (x : K) : b64) with (rad64 x). split; [exact Fr|]. rewrite Er.
  destruct PI64_bounds as (_ & HPP & HP). pose proof tiny_pos as T0.
  destruct (rnd_model (B2R x / 180)) as (d1 & t1 & Hd1 & Ht1 & ->). destruct (rnd_model ((B2R x / 180 * (1 + d1) + t1) * B2R PI64)) as (d2 & t2 & Hd2 & Ht2 & ->).
  destruct (two_roundings d1 d2 Hd1 Hd2) as [D12 D2]. set (X := B2R x / 180). set (P := B2R PI64) in *.
  replace (B2R x * PI / 180) with (X * PI) by (unfold X; field).
  replace ((X * (1 + d1) + t1) * P * (1 + d2) + t2 - X * PI) with (X * (((1 + d1) * (1 + d2) - 1) * P + (P - PI)) + (t1 * P * (1 + d2) + t2)) by ring.
  eapply Rle_trans; [apply Rabs_triang|]. apply Rplus_le_compat.
  - rewrite !Rabs_mult, (Rabs_pos_eq PI) by lra. replace (28 / 10 ^ 17 * (Rabs X * PI)) with (Rabs X * (28 / 10 ^ 17 * PI)) by ring. apply Rmult_le_compat_l; [apply Rabs_pos|].
    eapply Rle_trans; [apply Rabs_triang|]. rewrite Rabs_mult, (Rabs_pos_eq P) by lra. rewrite (Rabs_left1 (P - PI)) by lra.
    assert (Rabs ((1 + d1) * (1 + d2) - 1) * P <= 2401 / 10 ^ 19 * P) by (apply Rmult_le_compat_r; lra). lra.
  - eapply Rle_trans; [apply Rabs_triang|]. rewrite !Rabs_mult, (Rabs_pos_eq P) by lra.
    assert (Rabs t1 * P * Rabs (1 + d2) <= tiny * (3141593 / 10 ^ 6) * (11 / 10)).
    { apply Rmult_le_compat; try lra; try apply Rabs_pos; [apply Rmult_le_pos; [apply Rabs_pos|lra]|]. apply Rmult_le_compat; try lra. apply Rabs_pos. } lra.
Qed.

(** degrees: the same, unless the argument is close to the largest double. *)
Theorem C85_degrees (x : b64) : fin x -> Rabs (B2R x) <= huge / 200 ->
  fin (degrees (x : K)) /\ Rabs (B2R (degrees (x : K) : b64) - B2R x * 180 / PI) <= 28 / 10 ^ 17 * Rabs (B2R x * 180 / PI) + 2 * tiny.
Proof.
  intros Fx Bx. destruct (deg64_spec x Fx Bx) as [Fr Er]. change (degrees (x : K) : b64) with (deg64 x). split; [exact Fr|]. rewrite Er.
  destruct PI64_bounds as (_ & HPP & HP). pose proof tiny_pos as T0.
  destruct (rnd_model (B2R x * 180)) as (d1 & t1 & Hd1 & Ht1 & ->). destruct (rnd_model ((B2R x * 180 * (1 + d1) + t1) / B2R PI64)) as (d2 & t2 & Hd2 & Ht2 & ->).
  destruct (two_roundings d1 d2 Hd1 Hd2) as [D12 D2]. set (X := B2R x * 180). set (P := B2R PI64) in *.
  assert (Pi : 0 < / P <= / 3). { split; [apply Rinv_0_lt_compat; lra|apply Rinv_le_contravar; lra]. }
  assert (Pp : 0 < / PI) by (apply Rinv_0_lt_compat; lra).
  replace ((X * (1 + d1) + t1) / P * (1 + d2) + t2 - X / PI) with (X / PI * (((1 + d1) * (1 + d2) - 1) * (1 + (PI - P) / P) + (PI - P) / P) + (t1 * / P * (1 + d2) + t2)) by (field; lra).
  assert (Pj : / P <= 100 / 314). { replace (100 / 314) with (/ (314 / 100)) by (field; lra). apply Rinv_le_contravar; lra. }
  assert (Hr : 0 <= (PI - P) / P <= 392 / 10 ^ 19). { split; [apply Rmult_le_pos; lra|]. unfold Rdiv at 1. apply Rle_trans with (123 / 10 ^ 18 * (100 / 314)); [apply Rmult_le_compat; lra|lra]. }
  set (w := (PI - P) / P) in *.
  eapply Rle_trans; [apply Rabs_triang|]. apply Rplus_le_compat.
  - rewrite Rabs_mult, Rmult_comm. apply Rmult_le_compat_r; [apply Rabs_pos|].
    eapply Rle_trans; [apply Rabs_triang|]. rewrite Rabs_mult, (Rabs_pos_eq (1 + w)), (Rabs_pos_eq w) by lra.
    assert (Rabs ((1 + d1) * (1 + d2) - 1) * (1 + w) <= 2401 / 10 ^ 19 * (1 + 392 / 10 ^ 19)) by (apply Rmult_le_compat; try lra; apply Rabs_pos). lra.
  - eapply Rle_trans; [apply Rabs_triang|]. rewrite !Rabs_mult, (Rabs_pos_eq (/ P)) by lra.
    assert (Rabs t1 * / P * Rabs (1 + d2) <= tiny * / 3 * (11 / 10)).
    { apply Rmult_le_compat; try lra; try apply Rabs_pos; [apply Rmult_le_pos; [apply Rabs_pos|lra]|]. apply Rmult_le_compat; try lra. apply Rabs_pos. } lra.
Qed.

(** There and back. *)
Theorem C85_round_trip (x : b64) : fin x -> Rabs (B2R x) <= huge / 4 ->
  fin (degrees (radians (x : K))) /\ Rabs (B2R (degrees (radians (x : K)) : b64) - B2R x) <= 57 / 10 ^ 17 * Rabs (B2R x) + 300 * tiny.
Proof.
  intros Fx Bx. destruct (C85_radians x Fx) as [Fr Er]. pose proof tiny_pos as T0. pose proof tiny_18 as T18. pose proof huge_100 as Hg.
  pose proof pi_digits as HP. set (y := radians (x : K) : b64) in *.
  assert (Ex : Rabs (B2R x * PI / 180) = Rabs (B2R x) * (PI / 180)). { replace (B2R x * PI / 180) with (B2R x * (PI / 180)) by field. rewrite Rabs_mult, (Rabs_pos_eq (PI / 180)) by lra. reflexivity. }
  rewrite Ex in Er. set (a := Rabs (B2R x)) in *. assert (Pa : 0 <= a) by apply Rabs_pos.
  assert (Hap : 0 <= a * (PI / 180) <= a * (1746 / 10 ^ 5)). { split; [apply Rmult_le_pos; lra|apply Rmult_le_compat_l; lra]. }
  assert (By : Rabs (B2R y) <= huge / 200).
  { replace (B2R y) with ((B2R y - B2R x * PI / 180) + B2R x * PI / 180) by ring. eapply Rle_trans; [apply Rabs_triang|]. rewrite Ex. lra. }
  destruct (C85_degrees y Fr By) as [Fd Ed]. split; [exact Fd|]. set (z := degrees (y : K) : b64) in *.
  assert (Pp : 0 < 180 / PI <= 573 / 10). { split; [apply Rdiv_lt_0_compat; lra|]. apply Rmult_le_reg_r with PI; [lra|]. unfold Rdiv at 1. rewrite Rmult_assoc, Rinv_l by lra. lra. }
  assert (E1 : Rabs (B2R y * 180 / PI - B2R x) <= 28 / 10 ^ 17 * a + 287 * tiny).
  { replace (B2R y * 180 / PI - B2R x) with ((B2R y - B2R x * PI / 180) * (180 / PI)) by (field; lra). rewrite Rabs_mult, (Rabs_pos_eq (180 / PI)) by lra.
    apply Rle_trans with ((28 / 10 ^ 17 * (a * (PI / 180)) + 5 * tiny) * (180 / PI)); [apply Rmult_le_compat_r; lra|].
    replace ((28 / 10 ^ 17 * (a * (PI / 180)) + 5 * tiny) * (180 / PI)) with (28 / 10 ^ 17 * a + 5 * (tiny * (180 / PI))) by (field; lra).
    assert (tiny * (180 / PI) <= tiny * (573 / 10)) by (apply Rmult_le_compat_l; lra). lra. }
  assert (E2 : Rabs (B2R y * 180 / PI) <= a * (1 + 28 / 10 ^ 17) + 287 * tiny).
  { replace (B2R y * 180 / PI) with ((B2R y * 180 / PI - B2R x) + B2R x) by ring. eapply Rle_trans; [apply Rabs_triang|]. fold a. lra. }
  replace (B2R z - B2R x) with ((B2R z - B2R y * 180 / PI) + (B2R y * 180 / PI - B2R x)) by ring. eapply Rle_trans; [apply Rabs_triang|]. lra.
Qed.

(** Both keep the order of their arguments. *)
Theorem C85_monotone (x y : b64) : fin x -> fin y -> B2R x <= B2R y ->
  B2R (radians (x : K) : b64) <= B2R (radians (y : K) : b64) /\
  (Rabs (B2R x) <= huge / 200 -> Rabs (B2R y) <= huge / 200 -> B2R (degrees (x : K) : b64) <= B2R (degrees (y : K) : b64)).
Proof.
  intros Fx Fy H. destruct PI64_bounds as (_ & _ & HP). assert (Mono : forall u v, u <= v -> rnd u <= rnd v) by (intros u v Q; apply round_le; [apply fexp_valid|apply valid_rnd_round_mode|exact Q]).
  change (radians (x : K) : b64) with (rad64 x). change (radians (y : K) : b64) with (rad64 y). change (degrees (x : K) : b64) with (deg64 x). change (degrees (y : K) : b64) with (deg64 y). split.
  - rewrite (proj2 (rad64_spec x Fx)), (proj2 (rad64_spec y Fy)). apply Mono, Rmult_le_compat_r; [lra|]. apply Mono. lra.
  - intros Bx By. rewrite (proj2 (deg64_spec x Fx Bx)), (proj2 (deg64_spec y Fy By)). apply Mono. unfold Rdiv. apply Rmult_le_compat_r; [left; apply Rinv_0_lt_compat; lra|]. apply Mono. lra.
Qed.

(** NaN and infinities are passed on. *)
Theorem C85_invalid (x : b64) : is_finite x = false -> radians (x : K) = x :> b64 /\ degrees (x : K) = x :> b64.
Proof. destruct x as [s|s| |s m e He]; try discriminate; intros _; [destruct s|]; split; vm_compute; reflexivity. Qed.

(** With an int argument the result is the real one truncated: (up to 10^-6) it is within 1 of the exact value
    and not further from 0.  degrees is defined when its result fits into an int. *)
Lemma trunc_spec v : Rabs (IZR (Rtrunc v) - v) < 1 /\ Rabs (IZR (Rtrunc v)) <= Rabs v.
Proof.
  unfold Rtrunc. destruct (Rle_dec 0 v) as [H|H].
  - destruct (base_Int_part v) as [A B]. assert (P : (0 <= Int_part v)%Z). { assert (Q : (-1 < Int_part v)%Z) by (apply lt_IZR; lra). lia. } apply IZR_le in P.
    split; [apply Rabs_def1; lra|]. rewrite !Rabs_pos_eq by lra. exact A.
  - destruct (base_Int_part (- v)) as [A B]. assert (P : (0 <= Int_part (- v))%Z). { assert (Q : (-1 < Int_part (- v))%Z) by (apply lt_IZR; lra). lia. } apply IZR_le in P.
    rewrite opp_IZR. split; [apply Rabs_def1; lra|]. rewrite Rabs_Ropp, Rabs_pos_eq, Rabs_left by lra. exact A.
Qed.
Lemma toint_near (v : b64) (y : R) : fin v -> Rabs (B2R v - y) <= / 10 ^ 6 -> Rabs y <= 2147483647 ->
  exists r, b_toint v = Some r /\ Rabs (IZR r - y) < 1 + / 10 ^ 6 /\ Rabs (IZR r) <= Rabs y + / 10 ^ 6.
Proof.
  intros Fv Hv Hy. destruct (trunc_spec (B2R v)) as [T1 T2]. exists (Rtrunc (B2R v)). rewrite (toint_R v Fv).
  assert (Bv : Rabs (B2R v) <= Rabs y + / 10 ^ 6). { replace (B2R v) with ((B2R v - y) + y) by ring. eapply Rle_trans; [apply Rabs_triang|]. lra. }
  split; [|split].
  - unfold Rtoint. set (r := Rtrunc (B2R v)) in *. assert (Q : Rabs (IZR r) < 2147483648) by lra. apply Rabs_def2 in Q. destruct Q as [Q1 Q2].
    assert (G1 : (r < 2147483648)%Z) by (apply lt_IZR; exact Q1). assert (G2 : (-2147483648 < r)%Z) by (apply lt_IZR; lra).
    rewrite (proj2 (Z.leb_le _ _)) by lia. rewrite (proj2 (Z.leb_le _ _)) by lia. reflexivity.
  - replace (IZR (Rtrunc (B2R v)) - y) with ((IZR (Rtrunc (B2R v)) - B2R v) + (B2R v - y)) by ring. eapply Rle_lt_trans; [apply Rabs_triang|]. lra.
  - lra.
Qed.
Theorem C85_int (z : Z) : int32 z ->
  (exists r, radians_int (K:=K) z = Some r /\ Rabs (IZR r - IZR z * PI / 180) < 1 + / 10 ^ 6 /\ Rabs (IZR r) <= Rabs (IZR z * PI / 180) + / 10 ^ 6) /\
  ((Z.abs z <= 37480660)%Z -> exists r, degrees_int (K:=K) z = Some r /\ Rabs (IZR r - IZR z * 180 / PI) < 1 + / 10 ^ 6 /\ Rabs (IZR r) <= Rabs (IZR z * 180 / PI) + / 10 ^ 6).
Proof.
  intros Hz. destruct (ofZ_is z) as [Fz Ez]; [unfold exact_range, int32 in *; lia|]. pose proof pi_digits as HP. pose proof tiny_pos as T0. pose proof tiny_18 as T18. pose proof huge_100 as Hg.
  assert (Bz : Rabs (IZR z) <= 2147483648). { rewrite <- abs_IZR. apply IZR_le. unfold int32 in Hz. lia. }
  split.
  - destruct (C85_radians (b_ofZ z) Fz) as [Fr Er]. rewrite Ez in Er. apply (toint_near (radians (b_ofZ z : K)) (IZR z * PI / 180) Fr).
    + eapply Rle_trans; [exact Er|]. assert (Rabs (IZR z * PI / 180) <= 2147483648 * (4 / 180)); [|lra].
      replace (IZR z * PI / 180) with (IZR z * (PI / 180)) by field. rewrite Rabs_mult, (Rabs_pos_eq (PI / 180)) by lra. apply Rmult_le_compat; try lra. apply Rabs_pos.
    + replace (IZR z * PI / 180) with (IZR z * (PI / 180)) by field. rewrite Rabs_mult, (Rabs_pos_eq (PI / 180)) by lra.
      apply Rle_trans with (2147483648 * (4 / 180)); [apply Rmult_le_compat; try lra; apply Rabs_pos|lra].
  - intros Bd. assert (Bd' : Rabs (IZR z) <= 37480660) by (rewrite <- abs_IZR; now apply IZR_le).
    destruct (C85_degrees (b_ofZ z) Fz) as [Fr Er]; [rewrite Ez; pose proof huge_large; lra|]. rewrite Ez in Er.
    assert (Pp : 0 < 180 / PI <= 5729577952 / 10 ^ 8). { split; [apply Rdiv_lt_0_compat; lra|]. apply Rmult_le_reg_r with PI; [lra|]. unfold Rdiv at 1. rewrite Rmult_assoc, Rinv_l by lra. lra. }
    assert (Bq : Rabs (IZR z * 180 / PI) <= 2147483647).
    { replace (IZR z * 180 / PI) with (IZR z * (180 / PI)) by (field; lra). rewrite Rabs_mult, (Rabs_pos_eq (180 / PI)) by lra.
      apply Rle_trans with (37480660 * (5729577952 / 10 ^ 8)); [apply Rmult_le_compat; try lra; apply Rabs_pos|lra]. }
    apply (toint_near (degrees (b_ofZ z : K)) (IZR z * 180 / PI) Fr); [|exact Bq]. eapply Rle_trans; [exact Er|]. lra.
Qed.

(** So radians(180) and radians(90), written without a decimal point, are 3 and 1. *)
Theorem C85_int_ex : radians_int (K:=K) 180 = Some 3%Z /\ radians_int (K:=K) 90 = Some 1%Z /\ degrees_int (K:=K) 3 = Some 171%Z.
Proof. split; [|split]; vm_compute; reflexivity. Qed.

(** degrees of a large number overflows although the exact result is representable. *)
Theorem C85_degrees_overflow : exists x : b64, fin x /\ degrees (x : K) = B754_infinity false :> b64 /\ Rabs (B2R x * 180 / PI) < huge / 2.
Proof.
  exists (b_dec false 15 305). split; [vm_compute; reflexivity|]. split; [vm_compute; reflexivity|].
  rewrite B2R_SF. assert (B2SF (b_dec false 15 305) = SpecFloat.S754_finite false 4810004064021535 965) as -> by (vm_compute; reflexivity).
  unfold SF2R, F2R. cbn [SpecFloat.cond_Zopp Fnum Fexp]. pose proof pi_digits as HP. set (w := bpow radix2 965). assert (Pw : 0 < w) by apply bpow_gt_0.
  assert (E : huge = IZR (2 ^ 59) * w). { rewrite huge_bpow. change (IZR (2 ^ 59)) with (bpow radix2 59). unfold w. rewrite <- bpow_plus. reflexivity. }
  rewrite E. assert (Pp : 0 < 180 / PI <= 573 / 10). { split; [apply Rdiv_lt_0_compat; lra|]. apply Rmult_le_reg_r with PI; [lra|]. unfold Rdiv at 1. rewrite Rmult_assoc, Rinv_l by lra. lra. }
  replace (4810004064021535 * w * 180 / PI) with (4810004064021535 * w * (180 / PI)) by (field; lra). rewrite Rabs_pos_eq by (apply Rmult_le_pos; lra).
  apply Rle_lt_trans with (4810004064021535 * w * (573 / 10)); [apply Rmult_le_compat_l; lra|]. change (IZR (2 ^ 59)) with 576460752303423488. lra.
Qed.
End Angle.
