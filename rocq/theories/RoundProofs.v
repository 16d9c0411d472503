(** Proofs about rounding errors. *)
From Coq Require Import ZArith Reals Lra Lia List Bool String.
From Flocq Require Import IEEE754.BinarySingleNaN Core Relative Plus_error Div_sqrt_error.
From Verif Require Import Base MathOp IEEE RealSpec NodeModel ExprSpec SubsSpec MatModel MatSpec MatProofs DetProofs AffineSpec FloatSpec FloatFacts IntSpec IntProofs RoundSpec.
Import ListNotations.
Local Open Scope R_scope.

Lemma ulp1_bpow : ulp1 = bpow radix2 (-53).
Proof. reflexivity. Qed.
Lemma tiny_bpow : tiny = bpow radix2 (-1075).
Proof. reflexivity. Qed.
Lemma huge_bpow : huge = bpow radix2 1024.
Proof. reflexivity. Qed.
Lemma ulp1_pos : 0 < ulp1. Proof. rewrite ulp1_bpow. apply bpow_gt_0. Qed.
Lemma tiny_pos : 0 < tiny. Proof. rewrite tiny_bpow. apply bpow_gt_0. Qed.
Lemma huge_pos : 0 < huge. Proof. rewrite huge_bpow. apply bpow_gt_0. Qed.
Global Opaque ulp1 tiny huge.

Lemma half_eps : / 2 * bpow radix2 (- (53) + 1) = ulp1.
Proof. rewrite ulp1_bpow. change (/ 2) with (bpow radix2 (-1)). rewrite <- bpow_plus. reflexivity. Qed.
Lemma half_tiny : / 2 * bpow radix2 (3 - 1024 - 53) = tiny.
Proof. rewrite tiny_bpow. change (/ 2) with (bpow radix2 (-1)). rewrite <- bpow_plus. reflexivity. Qed.

(** ** One rounding *)
Lemma rnd_model r : exists d t, Rabs d <= ulp1 /\ Rabs t <= tiny /\ rnd r = r * (1 + d) + t.
Proof.
  destruct (error_N_FLT radix2 (3 - 1024 - 53) 53 ltac:(lia) (fun n => negb (Z.even n)) r) as (d & t & Hd & Ht & _ & E).
  rewrite half_eps in Hd. rewrite half_tiny in Ht. exists d, t. auto.
Qed.
Lemma u_ro_le : u_ro radix2 53 / (1 + u_ro radix2 53) <= ulp1.
Proof.
  assert (E : u_ro radix2 53 = ulp1) by apply half_eps. rewrite E. pose proof ulp1_pos.
  apply Rmult_le_reg_r with (1 + ulp1); [lra|]. unfold Rdiv. rewrite Rmult_assoc, Rinv_l by lra. nra.
Qed.
Lemma rnd_plus_model (x y : b64) : exists d, Rabs d <= ulp1 /\ rnd (B2R x + B2R y) = (B2R x + B2R y) * (1 + d).
Proof.
  destruct (FLT_plus_error_N_ex radix2 (3 - 1024 - 53) 53 (fun n => negb (Z.even n)) (B2R x) (B2R y) (format_B2R x) (format_B2R y)) as (d & Hd & E).
  exists d. split; [|exact E]. eapply Rle_trans; [exact Hd|apply u_ro_le].
Qed.
Lemma rnd_minus_model (x y : b64) : exists d, Rabs d <= ulp1 /\ rnd (B2R x - B2R y) = (B2R x - B2R y) * (1 + d).
Proof.
  destruct (rnd_plus_model x (Bopp y)) as (d & Hd & E). exists d. split; auto. rewrite B2R_Bopp in E. exact E.
Qed.
Lemma rnd_sqrt_model (x : b64) : exists d, Rabs d <= ulp1 /\ rnd (sqrt (B2R x)) = sqrt (B2R x) * (1 + d).
Proof.
  destruct (sqrt_error_N_FLT_ex radix2 53 (fun n => negb (Z.even n)) ltac:(lia) (3 - 1024 - 53) ltac:(lia) (B2R x) (format_B2R x)) as (d & Hd & E).
  exists d. split; [|exact E]. eapply Rle_trans; [exact Hd|].
  assert (E2 : u_ro radix2 53 = ulp1) by apply half_eps. rewrite E2. pose proof ulp1_pos as U.
  set (s := sqrt (1 + 2 * ulp1)). assert (S1 : s * s = 1 + 2 * ulp1) by (apply sqrt_def; lra).
  assert (S2 : 1 <= s). { unfold s. rewrite <- sqrt_1 at 1. apply sqrt_le_1_alt. lra. }
  assert (S3 : s <= 1 + ulp1) by nra.
  assert (H : 1 / s * s = 1) by (field; lra). set (w := 1 / s) in *. assert (0 < w). { unfold w. apply Rdiv_lt_0_compat; lra. } nra.
Qed.
Lemma rnd_small r : Rabs r * (1 + ulp1) + tiny < huge -> Rabs (rnd r) < bpow radix2 1024.
Proof.
  intros H. rewrite <- huge_bpow. destruct (rnd_model r) as (d & e & Hd & He & ->).
  eapply Rle_lt_trans; [|exact H]. eapply Rle_trans; [apply Rabs_triang|]. apply Rplus_le_compat; auto.
  rewrite Rabs_mult. apply Rmult_le_compat_l; [apply Rabs_pos|]. eapply Rle_trans; [apply Rabs_triang|]. rewrite Rabs_R1. lra.
Qed.

(** ** Conversion to int *)
Lemma toint_R (x : b64) : fin x -> b_toint x = Rtoint (B2R x).
Proof.
  intros F. assert (T : forall r, Rtrunc r = Ztrunc r).
  { intros r. unfold Rtrunc, Ztrunc. destruct (Rle_dec 0 r) as [G|G].
    - rewrite Rlt_bool_false by lra. unfold Int_part, Zfloor. reflexivity.
    - rewrite Rlt_bool_true by lra. unfold Int_part, Zceil, Zfloor. lia. }
  unfold Rtoint. rewrite T. destruct x as [s|s| |s m e He]; try discriminate.
  - cbn [b_toint B2R]. rewrite (Ztrunc_IZR 0). reflexivity.
  - unfold b_toint. assert (E : Btrunc (B754_finite s m e He) = Ztrunc (B2R (B754_finite s m e He))).
    { apply eq_IZR. rewrite Btrunc_correct by exact (refl_equal Lt).
      unfold round, scaled_mantissa, F2R, cexp, FIX_exp. cbn [Fnum Fexp]. rewrite Z.opp_0. cbn [bpow]. now rewrite !Rmult_1_r. }
    rewrite E. reflexivity.
Qed.

Section E.
Context (L : libm) (c : R) (HL : accurate_libm L c).
Notation K := (B64 L).

(** ** One operation *)
Lemma un_back u (x : b64) : fin x -> fin (un_sem (K:=K) u (x : K)) ->
  exists y d t, r_un u (B2R x) = Some y /\ Rabs d <= rel_un c u /\ Rabs t <= tiny_un u /\
    B2R (un_sem (K:=K) u (x : K) : b64) = y * (1 + d) + t.
Proof.
  intros Fx F.
  assert (G : by_libm u = true -> exists y d t, r_un u (B2R x) = Some y /\ Rabs d <= c /\ Rabs t <= tiny /\
    B2R (un_sem (K:=K) u (x : K) : b64) = y * (1 + d) + t).
  { intros Hu. pose proof (al_un L c HL u x Hu Fx) as H. destruct (r_un u (B2R x)) as [y|]; [|contradiction].
    destruct H as [_ H]. specialize (H F). set (z := B2R _) in *. clearbody z. pose proof (al_c L c HL) as Hc. pose proof tiny_pos as Ht.
    (* split the error into a relative and an absolute part *)
    destruct (Rle_or_lt (Rabs (z - y)) tiny) as [G|G].
    - exists y, 0, (z - y). split; [reflexivity|]. rewrite Rabs_R0. split; [lra|]. split; [exact G|ring].
    - assert (Hy : y <> 0). { intros ->. rewrite Rabs_R0, Rmult_0_r in H. lra. }
      pose proof (Rabs_pos_lt y Hy) as Py.
      set (t := if Rle_dec 0 (z - y) then tiny else - tiny).
      assert (Et : Rabs t = tiny). { unfold t. destruct (Rle_dec 0 (z - y)); [|rewrite Rabs_Ropp]; apply Rabs_pos_eq; lra. }
      exists y, ((z - y - t) / y), t. split; [reflexivity|]. split; [|split; [lra|field; auto]].
      unfold Rdiv. rewrite Rabs_mult, Rabs_inv. apply Rmult_le_reg_r with (Rabs y); auto. rewrite Rmult_assoc, Rinv_l, Rmult_1_r by lra.
      assert (E : Rabs (z - y - t) = Rabs (z - y) - tiny).
      { unfold t in *. destruct (Rle_dec 0 (z - y)) as [P|P].
        - rewrite (Rabs_pos_eq (z - y)) in * by auto. apply Rabs_pos_eq. lra.
        - rewrite (Rabs_left (z - y)) in * by lra. rewrite Rabs_left; lra. }
      rewrite E. lra. }
  destruct u; try (destruct (G eq_refl) as (y & d & t & ? & ? & ? & ?); exists y, d, t; auto; fail); clear G; cbn [r_un rel_un tiny_un].
  - exists (B2R x), 0, 0. rewrite Rabs_R0. repeat split; try lra. cbn [un_sem]. ring.
  - exists (- B2R x), 0, 0. rewrite Rabs_R0. repeat split; try lra. change (un_sem (K:=K) UNeg (x : K) : b64) with (Bopp x). rewrite B2R_Bopp. ring.
  - change (un_sem (K:=K) USqrt (x : K) : b64) with (Bsqrt mode_NE x) in *.
    destruct (rnd_sqrt_model x) as (d & Hd & E). exists (sqrt (B2R x)), d, 0. split.
    + destruct (Rle_dec 0 (B2R x)) as [G|G]; auto. exfalso.
      pose proof (Bsqrt_correct 53 1024 Hprec Hemax mode_NE x) as (_ & Q & _). unfold fin in F. rewrite Q in F.
      destruct x as [s|s| |s m e He]; try discriminate; [cbn in G; lra|]. destruct s; [discriminate|]. apply G. apply F2R_ge_0. discriminate.
    + rewrite Rabs_R0. split; [exact Hd|]. split; [lra|]. rewrite sqrt_R, E. ring.
Qed.

Lemma pow_back (x y : b64) : fin x -> fin y -> fin (m_pow L x y) ->
  exists z d t, Rpow (B2R x) (B2R y) = Some z /\ Rabs d <= c /\ Rabs t <= tiny /\ B2R (m_pow L x y) = z * (1 + d) + t.
Proof.
  intros Fx Fy F. pose proof (al_pow L c HL x y Fx Fy) as H. destruct (Rpow (B2R x) (B2R y)) as [w|]; [|contradiction].
  destruct H as [_ H]. specialize (H F). set (z := B2R (m_pow L x y)) in *. clearbody z. pose proof (al_c L c HL) as Hc. pose proof tiny_pos as Ht.
  destruct (Rle_or_lt (Rabs (z - w)) tiny) as [G|G].
  - exists w, 0, (z - w). split; [reflexivity|]. rewrite Rabs_R0. split; [lra|]. split; [exact G|ring].
  - assert (Hy : w <> 0). { intros ->. rewrite Rabs_R0, Rmult_0_r in H. lra. }
    pose proof (Rabs_pos_lt w Hy) as Py.
    set (t := if Rle_dec 0 (z - w) then tiny else - tiny).
    assert (Et : Rabs t = tiny). { unfold t. destruct (Rle_dec 0 (z - w)); [|rewrite Rabs_Ropp]; apply Rabs_pos_eq; lra. }
    exists w, ((z - w - t) / w), t. split; [reflexivity|]. split; [|split; [lra|field; auto]].
    unfold Rdiv. rewrite Rabs_mult, Rabs_inv. apply Rmult_le_reg_r with (Rabs w); auto. rewrite Rmult_assoc, Rinv_l, Rmult_1_r by lra.
    assert (E : Rabs (z - w - t) = Rabs (z - w) - tiny).
    { unfold t in *. destruct (Rle_dec 0 (z - w)) as [P|P].
      - rewrite (Rabs_pos_eq (z - w)) in * by auto. apply Rabs_pos_eq. lra.
      - rewrite (Rabs_left (z - w)) in * by lra. rewrite Rabs_left; lra. }
    rewrite E. lra.
Qed.

Lemma int_exact (x y : b64) b w : fin x -> fin y -> (b = BAnd \/ b = BOr \/ b = BMod) -> bin_sem (K:=K) b (x : K) (y : K) = Some w ->
  exists z, r_bin b (B2R x) (B2R y) = Some (IZR z) /\ is_Z (w : b64) z.
Proof.
  intros Fx Fy Hb H. assert (Q : forall (v : b64) z, b_toint v = Some z -> int32 z).
  { intros v z. unfold b_toint, int32. destruct v as [s|s| |s m e He]; try discriminate.
    - intros E. injection E as <-. lia.
    - destruct ((-2147483648 <=? _) && _)%Z eqn:E; [|discriminate]. apply andb_true_iff in E. rewrite !Z.leb_le in E. intros E2. injection E2 as <-. exact E. }
  destruct Hb as [-> | [-> | ->]]; cbn [bin_sem n_toint B64] in H; cbn [r_bin]; rewrite <- !toint_R by auto.
  all: destruct (b_toint x) as [a|] eqn:Ea; [|discriminate]; destruct (b_toint y) as [d|] eqn:Ed; [|discriminate].
  - injection H as <-. exists (Z.land a d). split; [reflexivity|]. apply ofZ_is. eauto using int32_range, int32_land.
  - injection H as <-. exists (Z.lor a d). split; [reflexivity|]. apply ofZ_is. eauto using int32_range, int32_lor.
  - destruct (_ || _)%bool eqn:Ez; [discriminate|]. injection H as <-. exists (Z.rem a d). split; [reflexivity|].
    apply ofZ_is. apply int32_range, int32_rem; eauto. intros ->. discriminate.
Qed.

Lemma bin_back b (x y w : b64) : fin x -> fin y -> bin_sem (K:=K) b (x : K) (y : K) = Some (w : K) -> fin w ->
  exists z d t, r_bin b (B2R x) (B2R y) = Some z /\ Rabs d <= rel_bin c b /\ Rabs t <= tiny_bin b /\ B2R w = z * (1 + d) + t.
Proof.
  intros Fx Fy H F.
  assert (G : (b = BAnd \/ b = BOr \/ b = BMod) -> exists z d t, r_bin b (B2R x) (B2R y) = Some z /\ Rabs d <= rel_bin c b /\ Rabs t <= tiny_bin b /\ B2R w = z * (1 + d) + t).
  { intros Hb. destruct (int_exact x y b w Fx Fy Hb H) as (z & E & _ & E2). exists (IZR z), 0, 0. split; auto. rewrite Rabs_R0.
    split; [destruct Hb as [-> | [-> | ->]]; cbn; lra|]. split; [destruct Hb as [-> | [-> | ->]]; cbn; lra|]. rewrite E2. ring. }
  destruct b; try (apply G; auto; fail); clear G; cbn [r_bin rel_bin tiny_bin]; injection H as <-.
  - change (Bplus mode_NE x y) with (Bplus mode_NE x y) in *. change (n_add (n:=K) (x : K) (y : K) : b64) with (Bplus mode_NE x y) in *.
    destruct (rnd_plus_model x y) as (d & Hd & E). exists (B2R x + B2R y), d, 0. rewrite Rabs_R0. repeat split; auto; try lra.
    rewrite add_R, E by auto. ring.
  - change (n_sub (n:=K) (x : K) (y : K) : b64) with (Bminus mode_NE x y) in *.
    destruct (rnd_minus_model x y) as (d & Hd & E). exists (B2R x - B2R y), d, 0. rewrite Rabs_R0. repeat split; auto; try lra.
    rewrite sub_R, E by auto. ring.
  - change (n_mul (n:=K) (x : K) (y : K) : b64) with (Bmult mode_NE x y) in *.
    destruct (rnd_model (B2R x * B2R y)) as (d & t & Hd & Ht & E). exists (B2R x * B2R y), d, t. repeat split; auto.
    rewrite mul_R, E by auto. ring.
  - change (n_div (n:=K) (x : K) (y : K) : b64) with (Bdiv mode_NE x y) in *. pose proof (div_nonzero x y Fx Fy F) as Hy.
    destruct (rnd_model (B2R x / B2R y)) as (d & t & Hd & Ht & E). exists (B2R x / B2R y), d, t.
    destruct (Req_EM_T (B2R y) 0); [contradiction|]. repeat split; auto. rewrite Bdiv_R, E by auto. ring.
  - exact (pow_back x y Fx Fy F).
Qed.

Lemma rel_un_pos u : 0 <= rel_un c u.
Proof. pose proof ulp1_pos. pose proof (al_c L c HL). destruct u; cbn; lra. Qed.
Lemma tiny_un_pos u : 0 <= tiny_un u.
Proof. pose proof tiny_pos. destruct u; cbn; lra. Qed.
Lemma rel_bin_pos b : 0 <= rel_bin c b.
Proof. pose proof ulp1_pos. pose proof (al_c L c HL). destruct b; cbn; lra. Qed.
Lemma tiny_bin_pos b : 0 <= tiny_bin b.
Proof. pose proof tiny_pos. destruct b; cbn; lra. Qed.

Lemma un_fin u (x : b64) y : fin x -> r_un u (B2R x) = Some y -> Rabs y * (1 + rel_un c u) + tiny_un u < huge -> fin (un_sem (K:=K) u (x : K)).
Proof.
  intros Fx E H.
  assert (G : by_libm u = true -> Rabs y * (1 + c) + tiny < huge -> fin (un_sem (K:=K) u (x : K))).
  { intros Hu H'. pose proof (al_un L c HL u x Hu Fx) as Q. rewrite E in Q. now apply Q. }
  destruct u; try (apply G; auto; fail); clear G.
  - exact Fx.
  - change (un_sem (K:=K) UNeg (x : K) : b64) with (Bopp x). unfold fin. now rewrite is_finite_Bopp.
  - change (un_sem (K:=K) USqrt (x : K) : b64) with (Bsqrt mode_NE x). cbn [r_un] in E. destruct (Rle_dec 0 (B2R x)) as [G|G]; [|discriminate].
    pose proof (Bsqrt_correct 53 1024 Hprec Hemax mode_NE x) as (_ & Q & _). unfold fin. rewrite Q.
    destruct x as [s|s| |s m e He]; try discriminate; auto. destruct s; auto. exfalso.
    assert (B2R (B754_finite true m e He) < 0) by (apply F2R_lt_0; reflexivity). lra.
Qed.

Lemma bin_fin b (x y : b64) z : fin x -> fin y -> r_bin b (B2R x) (B2R y) = Some z -> Rabs z * (1 + rel_bin c b) + tiny_bin b < huge ->
  exists w : b64, bin_sem (K:=K) b (x : K) (y : K) = Some (w : K) /\ fin w.
Proof.
  intros Fx Fy E H. pose proof tiny_pos as Ht.
  destruct b; cbn [r_bin rel_bin tiny_bin] in *; cbn [bin_sem].
  - injection E as <-. eexists. split; [reflexivity|]. change (n_add (n:=K) (x : K) (y : K) : b64) with (Bplus mode_NE x y). apply add_fin; auto.
    destruct (rnd_plus_model x y) as (d & Hd & ->). rewrite <- huge_bpow. rewrite Rplus_0_r in H. eapply Rle_lt_trans; [|exact H].
    rewrite Rabs_mult. apply Rmult_le_compat_l; [apply Rabs_pos|]. eapply Rle_trans; [apply Rabs_triang|]. rewrite Rabs_R1. lra.
  - injection E as <-. eexists. split; [reflexivity|]. change (n_sub (n:=K) (x : K) (y : K) : b64) with (Bminus mode_NE x y). apply sub_fin; auto.
    destruct (rnd_minus_model x y) as (d & Hd & ->). rewrite <- huge_bpow. rewrite Rplus_0_r in H. eapply Rle_lt_trans; [|exact H].
    rewrite Rabs_mult. apply Rmult_le_compat_l; [apply Rabs_pos|]. eapply Rle_trans; [apply Rabs_triang|]. rewrite Rabs_R1. lra.
  - injection E as <-. eexists. split; [reflexivity|]. change (n_mul (n:=K) (x : K) (y : K) : b64) with (Bmult mode_NE x y). apply mul_fin; auto.
    now apply rnd_small.
  - destruct (Req_EM_T (B2R y) 0) as [|Hy]; [discriminate|]. injection E as <-. eexists. split; [reflexivity|].
    change (n_div (n:=K) (x : K) (y : K) : b64) with (Bdiv mode_NE x y). apply div_fin; auto. now apply rnd_small.
  - pose proof (al_pow L c HL x y Fx Fy) as Q. rewrite E in Q. eexists. split; [reflexivity|]. now apply Q.
  - cbn [n_toint B64]. rewrite !toint_R by auto. destruct (Rtoint (B2R x)) as [a|] eqn:Ea; [|discriminate]. destruct (Rtoint (B2R y)) as [d|] eqn:Ed; [|discriminate].
    eexists. split; [reflexivity|]. rewrite <- toint_R in Ea, Ed by auto.
    destruct (int_exact x y BAnd (b_ofZ (Z.land a d) : K) Fx Fy) as (q & _ & Q & _); auto. cbn [bin_sem n_toint B64]. now rewrite Ea, Ed.
  - cbn [n_toint B64]. rewrite !toint_R by auto. destruct (Rtoint (B2R x)) as [a|] eqn:Ea; [|discriminate]. destruct (Rtoint (B2R y)) as [d|] eqn:Ed; [|discriminate].
    eexists. split; [reflexivity|]. rewrite <- toint_R in Ea, Ed by auto.
    destruct (int_exact x y BOr (b_ofZ (Z.lor a d) : K) Fx Fy) as (q & _ & Q & _); auto. cbn [bin_sem n_toint B64]. now rewrite Ea, Ed.
  - cbn [n_toint B64]. rewrite !toint_R by auto. destruct (Rtoint (B2R x)) as [a|] eqn:Ea; [|discriminate]. destruct (Rtoint (B2R y)) as [d|] eqn:Ed; [|discriminate].
    destruct (_ || _)%bool eqn:Eb; [discriminate|]. eexists. split; [reflexivity|]. rewrite <- toint_R in Ea, Ed by auto.
    destruct (int_exact x y BMod (b_ofZ (Z.rem a d) : K) Fx Fy) as (q & _ & Q & _); auto. cbn [bin_sem n_toint B64]. now rewrite Ea, Ed, Eb.
Qed.

(** ** Expressions *)
Lemma finish_fin s (v : b64) : fin v -> finish (K:=K) s (Some (v : K)) = ExprSpec.Value (v : K).
Proof.
  intros F. unfold finish. pose proof (invalid_fin L v) as I. rewrite F in I.
  change (invalidb (K:=K) (v : K) = false) in I. now rewrite I, andb_false_r.
Qed.
Lemma finish_value (r : option K) (w : b64) : finish (K:=K) true r = ExprSpec.Value (w : K) -> r = Some (w : K) /\ fin w.
Proof.
  unfold finish. destruct r as [v|]; [|discriminate]. intros H.
  destruct (invalidb (K:=K) v) eqn:E; [discriminate|]. cbn in H. injection H as <-. split; auto.
  pose proof (invalid_fin L (v : b64)) as I. change (invalidb (K:=K) v) with (invalidb (K:=K) ((v : b64) : K)) in E. unfold fin. destruct (is_finite (v : b64)); auto.
  change (invalidb (K:=K) v = negb false) in I. rewrite E in I. discriminate.
Qed.

Lemma eval_perturbed (env : string -> b64) (e : expr K) (v : b64) : (forall x, fin (env x)) -> all_nums (K:=K) (fun x => fin (x : b64)) e ->
  eval (K:=K) true (filled L env e) = ExprSpec.Value (v : K) -> fin v /\ perturbed L c (fun x => B2R (env x)) e (B2R v).
Proof.
  intros Henv. unfold filled. revert v. induction e as [w|x|u a IH|b a1 IH1 a2 IH2]; intros v Hn H; cbn [subst eval] in H.
  - injection H as <-. split; [exact Hn|]. apply (pt_num L c).
  - injection H as <-. split; [apply Henv|]. apply pt_var.
  - destruct (eval (K:=K) true (subst _ a)) as [x| | |] eqn:Ea; try discriminate. destruct (IH (x : b64) Hn eq_refl) as [Fx Px].
    apply finish_value in H as [H F]. injection H as H. rewrite <- H in *. split; auto.
    destruct (un_back u (x : b64) Fx F) as (y & d & t & E & Hd & Ht & EB). rewrite EB. eapply pt_un; eauto.
  - destruct Hn as [Hn1 Hn2]. destruct (eval (K:=K) true (subst _ a1)) as [x| | |] eqn:E1; try discriminate.
    destruct (eval (K:=K) true (subst _ a2)) as [y| | |] eqn:E2; try discriminate.
    destruct (IH1 (x : b64) Hn1 eq_refl) as [Fx Px]. destruct (IH2 (y : b64) Hn2 eq_refl) as [Fy Py].
    apply finish_value in H as [H F]. split; auto.
    destruct (bin_back b (x : b64) (y : b64) v Fx Fy H F) as (z & d & t & E & Hd & Ht & EB). rewrite EB. eapply pt_bin; eauto.
Qed.

Lemma rounding_le rel t y y' E d t' : 0 <= rel -> Rabs (y' - y) <= E -> Rabs d <= rel -> Rabs t' <= t ->
  Rabs (y' * (1 + d) + t' - y) <= with_rounding rel t y E.
Proof.
  intros Hr HE Hd Ht. unfold with_rounding. replace (y' * (1 + d) + t' - y) with ((y' - y) + d * y' + t') by ring.
  eapply Rle_trans; [apply Rabs_triang|]. apply Rplus_le_compat; auto. eapply Rle_trans; [apply Rabs_triang|].
  apply Rplus_le_compat; auto. rewrite Rabs_mult. apply Rmult_le_compat; auto using Rabs_pos.
  replace y' with (y + (y' - y)) by ring. eapply Rle_trans; [apply Rabs_triang|]. lra.
Qed.
Lemma rounding_small rel t y y' E : 0 <= rel -> Rabs (y' - y) <= E -> Rabs y + with_rounding rel t y E < huge -> Rabs y' * (1 + rel) + t < huge.
Proof.
  intros Hr HE H. eapply Rle_lt_trans; [|exact H]. unfold with_rounding.
  assert (Rabs y' <= Rabs y + E). { replace y' with (y + (y' - y)) by ring. eapply Rle_trans; [apply Rabs_triang|]. lra. }
  assert (rel * Rabs y' <= rel * (Rabs y + E)) by now apply Rmult_le_compat_l. lra.
Qed.

Lemma eval_accuracy s (env : string -> b64) (renv err : string -> R) (e : expr K) y E :
  (forall x, fin (env x)) -> (forall x, Rabs (B2R (env x) - renv x) <= err x) -> accuracy L c renv err e y E ->
  exists v : b64, eval (K:=K) s (filled L env e) = ExprSpec.Value (v : K) /\ fin v /\ Rabs (B2R v - y) <= E.
Proof.
  intros Fe He H. unfold filled. induction H as [v F|x|u a x ex y E Ha IH Ey Hc Hs|b a1 a2 x1 ex1 x2 ex2 y E H1 IH1 H2 IH2 Ey Hc Hs].
  - exists v. split; [reflexivity|]. split; auto. rewrite Rminus_diag_eq, Rabs_R0 by reflexivity. lra.
  - exists (env x). split; [reflexivity|]. auto.
  - destruct IH as (v & Ev & Fv & Hv). cbn [subst eval]. rewrite Ev. destruct (Hc _ Hv) as (y' & Ey' & Hy').
    pose proof (un_fin u v y' Fv Ey' (rounding_small _ _ _ _ _ (rel_un_pos u) Hy' Hs)) as F.
    exists (un_sem (K:=K) u (v : K) : b64). split; [now apply finish_fin|]. split; auto.
    destruct (un_back u v Fv F) as (y2 & d & t & E2 & Hd & Ht & ->). rewrite Ey' in E2. injection E2 as <-.
    apply rounding_le; auto. apply rel_un_pos.
  - destruct IH1 as (v1 & Ev1 & Fv1 & Hv1). destruct IH2 as (v2 & Ev2 & Fv2 & Hv2). cbn [subst eval]. rewrite Ev1, Ev2.
    destruct (Hc _ _ Hv1 Hv2) as (y' & Ey' & Hy').
    destruct (bin_fin b v1 v2 y' Fv1 Fv2 Ey' (rounding_small _ _ _ _ _ (rel_bin_pos b) Hy' Hs)) as (w & Ew & F).
    exists w. split; [rewrite Ew; now apply finish_fin|]. split; auto.
    destruct (bin_back b v1 v2 w Fv1 Fv2 Ew F) as (y2 & d & t & E2 & Hd & Ht & ->). rewrite Ey' in E2. injection E2 as <-.
    apply rounding_le; auto. apply rel_bin_pos.
Qed.

Lemma accuracy_exact (renv err : string -> R) (e : expr K) y E : accuracy L c renv err e y E -> rval renv (real_expr L e) = Some y.
Proof.
  induction 1 as [v F|x|u a x ex y E Ha IH Ey Hc Hs|b a1 a2 x1 ex1 x2 ex2 y E H1 IH1 H2 IH2 Ey Hc Hs]; cbn [real_expr rval]; auto.
  - now rewrite IH.
  - now rewrite IH1, IH2.
Qed.
End E.

(** ** Sums, products, determinants *)
Lemma plus_fin_inv (x y : b64) : fin (Bplus mode_NE x y) -> fin x /\ fin y.
Proof. unfold fin. destruct x as [s|s| |s m e H], y as [s'|s'| |s' m' e' H']; try (cbn; auto; fail). cbn. destruct (Bool.eqb s s'); cbn; auto. Qed.
Lemma minus_fin_inv (x y : b64) : fin (Bminus mode_NE x y) -> fin x /\ fin y.
Proof. unfold fin. destruct x as [s|s| |s m e H], y as [s'|s'| |s' m' e' H']; try (cbn; auto; fail). cbn. destruct (Bool.eqb s (negb s')); cbn; auto. Qed.
Lemma mult_fin_inv (x y : b64) : fin (Bmult mode_NE x y) -> fin x /\ fin y.
Proof. unfold fin. destruct x as [s|s| |s m e H], y as [s'|s'| |s' m' e' H']; cbn; auto. Qed.

(** x is finite and approximates y. *)
Definition near (k : nat) (x : b64) (y B T : R) : Prop := fin x /\ Rabs y <= B /\ 0 <= T /\ Rabs (B2R x - y) <= rounding_bound k B T.

Lemma pow_ge_1 k : 1 <= (1 + ulp1) ^ k.
Proof. apply pow_R1_Rle. pose proof ulp1_pos. lra. Qed.
Lemma pow_mono j k : (j <= k)%nat -> (1 + ulp1) ^ j <= (1 + ulp1) ^ k.
Proof. intros H. apply Rle_pow; auto. pose proof ulp1_pos. lra. Qed.
Lemma near_mono j k x y B T : (j <= k)%nat -> near j x y B T -> near k x y B T.
Proof.
  intros Hk (F & HB & HT & H). repeat split; auto. eapply Rle_trans; [exact H|]. unfold rounding_bound.
  assert (0 <= B + T) by (pose proof (Rabs_pos y); lra). pose proof (Rmult_le_compat_r _ _ _ H0 (pow_mono j k Hk)). lra.
Qed.
Lemma near_T k x y B T T' : T <= T' -> near k x y B T -> near k x y B T'.
Proof.
  intros Hk (F & HB & HT & H). repeat split; auto; [lra|]. eapply Rle_trans; [exact H|]. unfold rounding_bound.
  assert (B + T <= B + T') by lra. pose proof (pow_ge_1 k). pose proof (Rmult_le_compat_l ((1 + ulp1) ^ k) _ _ ltac:(lra) H0). lra.
Qed.
Lemma near_exact x : fin x -> near 0 x (B2R x) (Rabs (B2R x)) 0.
Proof. intros F. repeat split; auto; try lra. unfold rounding_bound. rewrite Rminus_diag_eq, Rabs_R0 by reflexivity. simpl. lra. Qed.
Lemma near_abs k x y B T : near k x y B T -> Rabs (B2R x) <= (1 + ulp1) ^ k * (B + T).
Proof.
  intros (F & HB & HT & H). unfold rounding_bound in H. replace (B2R x) with (y + (B2R x - y)) by ring.
  eapply Rle_trans; [apply Rabs_triang|]. lra.
Qed.
Lemma near_opp k x y B T : near k x y B T -> near k (Bopp x) (- y) B T.
Proof.
  intros (F & HB & HT & H). repeat split; auto.
  - unfold fin. now rewrite is_finite_Bopp.
  - now rewrite Rabs_Ropp.
  - rewrite B2R_Bopp. replace (- B2R x - - y) with (- (B2R x - y)) by ring. now rewrite Rabs_Ropp.
Qed.

Lemma near_add_fin k x x' y y' B B' T T' : near k x y B T -> near k x' y' B' T' -> (1 + ulp1) ^ S k * (B + B' + (T + T')) < huge -> fin (Bplus mode_NE x x').
Proof.
  intros H H' Hm. pose proof (near_abs _ _ _ _ _ H) as A. pose proof (near_abs _ _ _ _ _ H') as A'. destruct H as (F & _), H' as (F' & _).
  apply add_fin; auto. destruct (rnd_plus_model x x') as (d & Hd & ->). rewrite <- huge_bpow. eapply Rle_lt_trans; [|exact Hm].
  rewrite Rabs_mult, <- tech_pow_Rmult, (Rmult_comm (1 + ulp1)), Rmult_assoc, (Rmult_comm (1 + ulp1)), <- Rmult_assoc.
  apply Rmult_le_compat; auto using Rabs_pos.
  - eapply Rle_trans; [apply Rabs_triang|]. lra.
  - eapply Rle_trans; [apply Rabs_triang|]. rewrite Rabs_R1. lra.
Qed.
Lemma near_add k x x' y y' B B' T T' : near k x y B T -> near k x' y' B' T' -> fin (Bplus mode_NE x x') ->
  near (S k) (Bplus mode_NE x x') (y + y') (B + B') (T + T').
Proof.
  intros (F & HB & HT & H) (F' & HB' & HT' & H') Fs. split; [exact Fs|]. split; [eapply Rle_trans; [apply Rabs_triang|lra]|]. split; [lra|].
  rewrite add_R by auto. destruct (rnd_plus_model x x') as (d & Hd & ->). unfold rounding_bound in *. rewrite <- tech_pow_Rmult.
  set (P := (1 + ulp1) ^ k) in *. pose proof ulp1_pos as U.
  replace ((B2R x + B2R x') * (1 + d) - (y + y')) with (((B2R x - y) + (B2R x' - y')) * (1 + d) + d * (y + y')) by ring.
  eapply Rle_trans; [apply Rabs_triang|]. rewrite !Rabs_mult.
  assert (H1 : Rabs (B2R x - y + (B2R x' - y')) <= P * (B + T) - B + (P * (B' + T') - B')) by (eapply Rle_trans; [apply Rabs_triang|lra]).
  assert (H2 : Rabs (1 + d) <= 1 + ulp1) by (eapply Rle_trans; [apply Rabs_triang|]; rewrite Rabs_R1; lra).
  assert (H3 : Rabs (y + y') <= B + B') by (eapply Rle_trans; [apply Rabs_triang|lra]).
  pose proof (Rmult_le_compat _ _ _ _ (Rabs_pos _) (Rabs_pos _) H1 H2) as G1.
  pose proof (Rmult_le_compat _ _ _ _ (Rabs_pos _) (Rabs_pos _) Hd H3) as G2.
  eapply Rle_trans; [apply Rplus_le_compat; [exact G1|exact G2]|]. apply Req_le. ring.
Qed.
Lemma near_sub k x x' y y' B B' T T' : near k x y B T -> near k x' y' B' T' -> fin (Bminus mode_NE x x') ->
  near (S k) (Bminus mode_NE x x') (y - y') (B + B') (T + T').
Proof.
  intros H H' F. assert (E : Bminus mode_NE x x' = Bplus mode_NE x (Bopp x')) by (destruct x, x'; reflexivity). rewrite E in *.
  exact (near_add k x (Bopp x') y (- y') B B' T T' H (near_opp _ _ _ _ _ H') F).
Qed.

Lemma near_mul_fin j k x x' y y' B B' T T' : near j x y B T -> near k x' y' B' T' ->
  (1 + ulp1) ^ S (j + k) * (B * B' + (T * B' + B * T' + T * T' + tiny)) < huge -> fin (Bmult mode_NE x x').
Proof.
  intros H H' Hm. pose proof (near_abs _ _ _ _ _ H) as A. pose proof (near_abs _ _ _ _ _ H') as A'. destruct H as (F & _), H' as (F' & _).
  apply mul_fin; auto. apply rnd_small. eapply Rle_lt_trans; [|exact Hm]. rewrite Rabs_mult, <- tech_pow_Rmult, pow_add.
  pose proof (pow_ge_1 j) as Pj. pose proof (pow_ge_1 k) as Pk. pose proof ulp1_pos as U. pose proof tiny_pos as Ut.
  set (P := (1 + ulp1) ^ j) in *. set (Q := (1 + ulp1) ^ k) in *.
  pose proof (Rmult_le_compat _ _ _ _ (Rabs_pos _) (Rabs_pos _) A A') as G.
  apply Rmult_le_compat_r with (r := 1 + ulp1) in G; [|lra].
  assert (tiny <= (1 + ulp1) * (P * Q) * tiny). { assert (1 <= P * Q) by nra. assert (1 <= (1 + ulp1) * (P * Q)) by nra. nra. }
  replace ((1 + ulp1) * (P * Q) * (B * B' + (T * B' + B * T' + T * T' + tiny))) with (P * (B + T) * (Q * (B' + T')) * (1 + ulp1) + (1 + ulp1) * (P * Q) * tiny) by ring.
  lra.
Qed.
Lemma near_mul j k x x' y y' B B' T T' : near j x y B T -> near k x' y' B' T' -> fin (Bmult mode_NE x x') ->
  near (S (j + k)) (Bmult mode_NE x x') (y * y') (B * B') (T * B' + B * T' + T * T' + tiny).
Proof.
  intros (F & HB & HT & H) (F' & HB' & HT' & H') Fs. pose proof tiny_pos as Ut. pose proof (Rabs_pos y) as Py. pose proof (Rabs_pos y') as Py'.
  split; [exact Fs|]. split; [rewrite Rabs_mult; now apply Rmult_le_compat|]. split.
  { assert (0 <= T * B') by (apply Rmult_le_pos; lra). assert (0 <= B * T') by (apply Rmult_le_pos; lra). assert (0 <= T * T') by (apply Rmult_le_pos; lra). lra. }
  rewrite mul_R by auto. destruct (rnd_model (B2R x * B2R x')) as (d & t & Hd & Ht & ->). unfold rounding_bound in *. rewrite <- tech_pow_Rmult, pow_add.
  pose proof (pow_ge_1 j) as Pj. pose proof (pow_ge_1 k) as Pk. pose proof ulp1_pos as U.
  set (P := (1 + ulp1) ^ j) in *. set (Q := (1 + ulp1) ^ k) in *. set (e := B2R x - y) in *. set (e' := B2R x' - y') in *.
  replace (B2R x) with (y + e) by (unfold e; ring). replace (B2R x') with (y' + e') by (unfold e'; ring).
  set (w := y * e' + e * y' + e * e').
  replace ((y + e) * (y' + e') * (1 + d) + t - y * y') with (w * (1 + d) + d * (y * y') + t) by (unfold w; ring).
  assert (Hw : Rabs w <= P * (B + T) * (Q * (B' + T')) - B * B').
  { unfold w. assert (Rabs (y * e') <= B * (Q * (B' + T') - B')) by (rewrite Rabs_mult; apply Rmult_le_compat; auto using Rabs_pos).
    assert (Rabs (e * y') <= (P * (B + T) - B) * B') by (rewrite Rabs_mult; apply Rmult_le_compat; auto using Rabs_pos).
    assert (Rabs (e * e') <= (P * (B + T) - B) * (Q * (B' + T') - B')) by (rewrite Rabs_mult; apply Rmult_le_compat; auto using Rabs_pos).
    pose proof (Rabs_triang (y * e' + e * y') (e * e')). pose proof (Rabs_triang (y * e') (e * y')).
    replace (P * (B + T) * (Q * (B' + T')) - B * B') with (B * (Q * (B' + T') - B') + (P * (B + T) - B) * B' + (P * (B + T) - B) * (Q * (B' + T') - B')) by ring. lra. }
  assert (H2 : Rabs (1 + d) <= 1 + ulp1) by (eapply Rle_trans; [apply Rabs_triang|]; rewrite Rabs_R1; lra).
  assert (H3 : Rabs (y * y') <= B * B') by (rewrite Rabs_mult; now apply Rmult_le_compat).
  eapply Rle_trans; [apply Rabs_triang|]. eapply Rle_trans; [apply Rplus_le_compat_r, Rabs_triang|]. rewrite !(Rabs_mult w), (Rabs_mult d).
  pose proof (Rmult_le_compat _ _ _ _ (Rabs_pos _) (Rabs_pos _) Hw H2) as G1.
  pose proof (Rmult_le_compat _ _ _ _ (Rabs_pos _) (Rabs_pos _) Hd H3) as G2.
  assert (tiny <= (1 + ulp1) * (P * Q) * tiny). { assert (1 <= P * Q) by nra. assert (1 <= (1 + ulp1) * (P * Q)) by nra. nra. }
  eapply Rle_trans; [apply Rplus_le_compat; [apply Rplus_le_compat; [exact G1|exact G2]|exact Ht]|].
  replace ((1 + ulp1) * (P * Q) * (B * B' + (T * B' + B * T' + T * T' + tiny)) - B * B')
    with ((P * (B + T) * (Q * (B' + T')) - B * B') * (1 + ulp1) + ulp1 * (B * B') + (1 + ulp1) * (P * Q) * tiny) by ring. lra.
Qed.

Lemma rsum_pos n g : (forall i, (i < n)%nat -> 0 <= g i) -> 0 <= rsum n g.
Proof. induction n as [|n IH]; intros H; cbn [rsum]; [lra|]. pose proof (H n ltac:(lia)). pose proof (IH ltac:(intros; apply H; lia)). lra. Qed.
Lemma rsum_mono m n g : (m <= n)%nat -> (forall i, (i < n)%nat -> 0 <= g i) -> rsum m g <= rsum n g.
Proof. intros Hm H. induction Hm; [lra|]. cbn [rsum]. pose proof (H m0 ltac:(lia)). pose proof (IHHm ltac:(intros; apply H; lia)). lra. Qed.
Lemma rsum_le n g h : (forall i, (i < n)%nat -> g i <= h i) -> rsum n g <= rsum n h.
Proof. induction n as [|n IH]; intros H; cbn [rsum]; [lra|]. pose proof (H n ltac:(lia)). pose proof (IH ltac:(intros; apply H; lia)). lra. Qed.
Lemma rsum_const n a : rsum n (fun _ => a) = INR n * a.
Proof. induction n as [|n IH]; cbn [rsum]; [simpl; ring|]. rewrite IH, S_INR. ring. Qed.
Lemma rsum_eq n g h : (forall i, (i < n)%nat -> g i = h i) -> rsum n g = rsum n h.
Proof. induction n as [|n IH]; intros H; cbn [rsum]; auto. rewrite H, IH by (intros; try apply H; lia). reflexivity. Qed.

Section S.
Context (L : libm).
Notation K := (B64 L).

Lemma ksum_S n (g : nat -> K) : (0 < n)%nat -> ksum (K:=K) (S n) g = n_add (ksum (K:=K) n g) (g n).
Proof.
  intros Hn. unfold ksum. rewrite seq_S, map_app. destruct n as [|n]; [lia|]. cbn [seq map app va_sum]. rewrite fold_left_app. reflexivity.
Qed.

Lemma sum_near k n (g : nat -> b64) y B T : (0 < n)%nat -> (forall i, (i < n)%nat -> fin (g i) -> near k (g i) (y i) (B i) (T i)) ->
  fin (ksum (K:=K) n (fun i => g i : K)) -> near (k + (n - 1)) (ksum (K:=K) n (fun i => g i : K)) (rsum n y) (rsum n B) (rsum n T).
Proof.
  intros Hn. induction n as [|[|n] IH]; intros H F; [lia| |]; clear Hn.
  - change (ksum (K:=K) 1 (fun i => g i : K) : b64) with (g 0%nat) in *. cbn [rsum]. rewrite !Rplus_0_l. replace (k + (1 - 1))%nat with k by lia. apply H; [lia|auto].
  - rewrite ksum_S in * by lia. set (s := ksum (K:=K) (S n) _) in *. change (n_add (n:=K) s (g (S n) : K) : b64) with (Bplus mode_NE (s : b64) (g (S n))) in *.
    destruct (plus_fin_inv _ _ F) as [F1 F2]. replace (k + (S (S n) - 1))%nat with (S (k + n)) by lia.
    apply (near_add (k + n) (s : b64) (g (S n)) (rsum (S n) y) (y (S n)) (rsum (S n) B) (B (S n)) (rsum (S n) T) (T (S n))); auto.
    + replace (k + n)%nat with (k + (S n - 1))%nat by lia. apply IH; auto; lia.
    + apply (near_mono k); [lia|]. apply H; auto.
Qed.
Lemma sum_fin k n (g : nat -> b64) y B T : (0 < n)%nat -> (forall i, (i < n)%nat -> near k (g i) (y i) (B i) (T i)) ->
  (1 + ulp1) ^ (k + (n - 1)) * (rsum n B + rsum n T) < huge -> fin (ksum (K:=K) n (fun i => g i : K)).
Proof.
  intros Hn. induction n as [|[|n] IH]; intros H F; [lia| |]; clear Hn.
  - exact (proj1 (H 0%nat ltac:(lia))).
  - rewrite ksum_S by lia. set (s := ksum (K:=K) (S n) _) in *. change (fin (Bplus mode_NE (s : b64) (g (S n)))).
    assert (PB : forall i, (i < S (S n))%nat -> 0 <= B i). { intros i Hi. destruct (H i Hi) as (_ & HB & _). pose proof (Rabs_pos (y i)). lra. }
    assert (PT : forall i, (i < S (S n))%nat -> 0 <= T i). { intros i Hi. apply (H i Hi). }
    assert (Fs : fin (s : b64)).
    { apply IH; [lia|intros; apply H; lia|]. eapply Rle_lt_trans; [|exact F].
      apply Rmult_le_compat; [apply pow_le; pose proof ulp1_pos; lra| |apply pow_mono; lia|].
      - apply Rplus_le_le_0_compat; apply rsum_pos; auto.
      - apply Rplus_le_compat; apply rsum_mono; auto. }
    apply (near_add_fin (k + n) (s : b64) (g (S n)) (rsum (S n) y) (y (S n)) (rsum (S n) B) (B (S n)) (rsum (S n) T) (T (S n))).
    + replace (k + n)%nat with (k + (S n - 1))%nat by lia. apply sum_near; [lia|intros; apply H; lia|exact Fs].
    + apply (near_mono k); [lia|]. apply H; lia.
    + replace (S (k + n)) with (k + (S (S n) - 1))%nat by lia. exact F.
Qed.

(** Sum of products of given numbers. *)
Lemma dot_near n (a b : nat -> b64) : (0 < n)%nat -> (forall i, (i < n)%nat -> fin (a i) /\ fin (b i)) ->
  fin (ksum (K:=K) n (fun i => n_mul (a i : K) (b i : K))) ->
  near n (ksum (K:=K) n (fun i => n_mul (a i : K) (b i : K))) (rsum n (fun i => B2R (a i) * B2R (b i))) (rsum n (fun i => Rabs (B2R (a i)) * Rabs (B2R (b i)))) (INR n * tiny).
Proof.
  intros Hn H F. replace n with (1 + (n - 1))%nat at 1 by lia. rewrite <- (rsum_const n tiny).
  apply (sum_near 1 n (fun i => Bmult mode_NE (a i) (b i))); auto. intros i Hi Fi. destruct (H i Hi) as [Fa Fb].
  pose proof (near_mul 0 0 _ _ _ _ _ _ _ _ (near_exact _ Fa) (near_exact _ Fb) Fi) as N. eapply near_T; [|exact N]. lra.
Qed.
Lemma dot_fin n (a b : nat -> b64) : (0 < n)%nat -> (forall i, (i < n)%nat -> fin (a i) /\ fin (b i)) ->
  (1 + ulp1) ^ n * (rsum n (fun i => Rabs (B2R (a i)) * Rabs (B2R (b i))) + INR n * tiny) < huge ->
  fin (ksum (K:=K) n (fun i => n_mul (a i : K) (b i : K))).
Proof.
  intros Hn H F. pose proof tiny_pos as Ut.
  apply (sum_fin 1 n (fun i => Bmult mode_NE (a i) (b i)) (fun i => B2R (a i) * B2R (b i)) (fun i => Rabs (B2R (a i)) * Rabs (B2R (b i))) (fun _ => tiny)); auto.
  - intros i Hi. destruct (H i Hi) as [Fa Fb].
    assert (Fi : fin (Bmult mode_NE (a i) (b i))).
    { apply (near_mul_fin 0 0 _ _ _ _ _ _ _ _ (near_exact _ Fa) (near_exact _ Fb)). eapply Rle_lt_trans; [|exact F].
      apply Rmult_le_compat; [apply pow_le; pose proof ulp1_pos; lra| |apply pow_mono; lia|].
      - pose proof (Rabs_pos (B2R (a i))). pose proof (Rabs_pos (B2R (b i))). assert (0 <= Rabs (B2R (a i)) * Rabs (B2R (b i))) by (apply Rmult_le_pos; auto). lra.
      - assert (G : forall h, (forall j, 0 <= h j) -> h i <= rsum n h).
        { intros h Hh. pose proof (rsum_mono (S i) n h ltac:(lia) ltac:(intros; apply Hh)) as Q. cbn [rsum] in Q. pose proof (rsum_pos i h ltac:(intros; apply Hh)). lra. }
        apply Rplus_le_compat; [apply (G (fun i => Rabs (B2R (a i)) * Rabs (B2R (b i)))); intros; apply Rmult_le_pos; apply Rabs_pos|].
        rewrite <- (rsum_const n tiny). pose proof (G (fun _ => tiny) ltac:(intros; lra)). lra. }
    pose proof (near_mul 0 0 _ _ _ _ _ _ _ _ (near_exact _ Fa) (near_exact _ Fb) Fi) as N. eapply near_T; [|exact N]. lra.
  - replace (1 + (n - 1))%nat with n by lia. rewrite rsum_const. exact F.
Qed.

(** Determinants. *)
Lemma sign_near s (x : b64) : (s = 1 \/ s = -1)%Z -> fin x -> near 0 (Bmult mode_NE (b_ofZ s) x) (IZR s * B2R x) (Rabs (B2R x)) 0.
Proof.
  intros Hs F. assert (I : is_Z (b_ofZ s) s) by (apply ofZ_is; unfold exact_range; lia). destruct I as [Fs Es].
  assert (E : rnd (B2R (b_ofZ s) * B2R x) = IZR s * B2R x).
  { rewrite Es. destruct Hs as [-> | ->].
    - rewrite Rmult_1_l. apply rnd_B2R.
    - replace (-1 * B2R x) with (B2R (Bopp x)) by (rewrite B2R_Bopp; ring). apply rnd_B2R. }
  assert (A : Rabs (IZR s * B2R x) = Rabs (B2R x)).
  { rewrite Rabs_mult. destruct Hs as [-> | ->]; [rewrite Rabs_R1|rewrite (Rabs_left (-1)) by lra]; ring. }
  assert (Fm : fin (Bmult mode_NE (b_ofZ s) x)). { apply mul_fin; auto. rewrite E, A. now apply fin_of. }
  split; [exact Fm|]. rewrite A. split; [lra|]. split; [lra|]. rewrite mul_R, E by auto. unfold rounding_bound.
  rewrite Rminus_diag_eq, Rabs_R0 by reflexivity. simpl. lra.
Qed.

Definition rf (f : nat -> nat -> b64) : nat -> nat -> R := fun i j => B2R (f i j).
Definition det_step (m : nat) (f : nat -> nat -> b64) : K * Z -> nat -> K * Z := fun '(D, sign) q =>
  (n_add D (n_mul (n_mul (n_ofZ sign) (f 0%nat q : K)) (kdet (K:=K) m (fun i j => f (S i) (skip q j) : K))), (- sign)%Z).
Lemma det_fold_fin m f l : forall (x : b64) s, fin (fst (fold_left (det_step m f) l (x : K, s)) : b64) -> fin x.
Proof.
  induction l as [|q l IH]; intros x s H; [exact H|]. cbn [fold_left det_step] in H. apply IH in H. exact (proj1 (plus_fin_inv _ _ H)).
Qed.

Lemma kdet_near n : forall f : nat -> nat -> b64, (0 < n)%nat -> (forall i j, (i < n)%nat -> (j < n)%nat -> fin (f i j)) ->
  fin (kdet (K:=K) n (fun i j => f i j : K)) ->
  exists D, near (det_roundings n) (kdet (K:=K) n (fun i j => f i j : K)) D (permanent n (rf f)) (det_underflow n (rf f)) /\
    kdet (K:=Rops) n (fun i j => Some (B2R (f i j)) : Rops) = (Some D : Rops).
Proof.
  induction n as [|n IH]; intros f Hn Hf F; [lia|]. clear Hn. pose proof tiny_pos as Ut. destruct n as [|[|n]].
  - exists (B2R (f 0 0)%nat). split; [|reflexivity]. apply (near_T 0 _ _ _ 0); [cbn; rewrite Rmult_0_r; lra|].
    replace (permanent 1 (rf f)) with (Rabs (B2R (f 0%nat 0%nat))) by (cbn [permanent rsum]; unfold rf; ring).
    apply near_exact. apply Hf; lia.
  - clear IH. exists (B2R (f 0 0)%nat * B2R (f 1 1)%nat - B2R (f 1 0)%nat * B2R (f 0 1)%nat). split; [|reflexivity].
    change (kdet (K:=K) 2 (fun i j => f i j : K) : b64) with (Bminus mode_NE (Bmult mode_NE (f 0 0) (f 1 1)) (Bmult mode_NE (f 1 0) (f 0 1)))%nat in *.
    destruct (minus_fin_inv _ _ F) as [F1 F2].
    pose proof (near_mul 0 0 _ _ _ _ _ _ _ _ (near_exact (f 0 0)%nat (Hf 0 0 ltac:(lia) ltac:(lia))%nat) (near_exact (f 1 1)%nat (Hf 1 1 ltac:(lia) ltac:(lia))%nat) F1) as N1.
    pose proof (near_mul 0 0 _ _ _ _ _ _ _ _ (near_exact (f 1 0)%nat (Hf 1 0 ltac:(lia) ltac:(lia))%nat) (near_exact (f 0 1)%nat (Hf 0 1 ltac:(lia) ltac:(lia))%nat) F2) as N2.
    pose proof (near_sub _ _ _ _ _ _ _ _ _ N1 N2 F) as N3. apply (near_mono _ (det_roundings 2)) in N3; [|cbn; lia].
    replace (permanent 2 (rf f)) with (Rabs (B2R (f 0 0)%nat) * Rabs (B2R (f 1 1)%nat) + Rabs (B2R (f 1 0)%nat) * Rabs (B2R (f 0 1)%nat))
      by (cbn [permanent rsum]; unfold rf, omit; cbn [Nat.ltb Nat.leb]; ring).
    eapply near_T; [|exact N3]. cbn [det_underflow rsum]. unfold rf, omit. cbn [Nat.ltb Nat.leb].
    pose proof (Rabs_pos (B2R (f 0 0)%nat)). pose proof (Rabs_pos (B2R (f 0 1)%nat)). 
    pose proof (Rmult_le_pos _ _ (Rabs_pos (B2R (f 0 0)%nat)) (Rlt_le _ _ Ut)). pose proof (Rmult_le_pos _ _ (Rabs_pos (B2R (f 0 1)%nat)) (Rlt_le _ _ Ut)). lra.
  - set (m := S (S n)) in *. rewrite (kdet_step (K:=K) (S m)) in * by (unfold m; lia). rewrite (kdet_step (K:=Rops) (S m)) by (unfold m; lia).
    replace (S m - 1)%nat with m in * by lia. fold (det_step m f) in *.
    match goal with |- exists z, _ /\ fst (fold_left ?t _ _) = _ => set (stepR := t) end.
    set (minor := fun q => fun i j => f (S i) (skip q j)).
    set (Bq := fun q => Rabs (B2R (f 0%nat q)) * permanent m (rf (minor q))).
    set (Tq := fun q => Rabs (B2R (f 0%nat q)) * det_underflow m (rf (minor q)) + tiny).
    change (permanent (S m) (rf f)) with (rsum (S m) Bq). change (det_underflow (S m) (rf f)) with (rsum (S m) Tq).
    replace (det_roundings (S m)) with (S (det_roundings m) + (0 + S m))%nat by (unfold m; cbn [det_roundings]; lia).
    assert (G : forall len i (x : b64) a s, near (S (det_roundings m) + i) x a (rsum i Bq) (rsum i Tq) -> (s = 1 \/ s = -1)%Z -> (i + len <= S m)%nat ->
      fin (fst (fold_left (det_step m f) (seq i len) (x : K, s)) : b64) ->
      exists D, near (S (det_roundings m) + (i + len)) (fst (fold_left (det_step m f) (seq i len) (x : K, s)) : b64) D (rsum (i + len) Bq) (rsum (i + len) Tq) /\
        fst (fold_left stepR (seq i len) ((Some a : Rops), s)) = (Some D : Rops)).
    { induction len as [|len IHl]; intros q x a s Nx Hs Hk Ff; cbn [seq fold_left].
      - exists a. rewrite Nat.add_0_r. auto.
      - cbn [seq fold_left] in Ff. assert (Hq : (q < S m)%nat) by lia.
        set (M := kdet (K:=K) m (fun i j => minor q i j : K)) in *.
        change (det_step m f (x : K, s) q) with ((Bplus mode_NE x (Bmult mode_NE (Bmult mode_NE (b_ofZ s) (f 0%nat q)) (M : b64)) : K), (- s)%Z) in *.
        pose proof (det_fold_fin _ _ _ _ _ Ff) as F1. destruct (plus_fin_inv _ _ F1) as [_ F2]. destruct (mult_fin_inv _ _ F2) as [_ F3].
        destruct (IH (minor q)) as (d & Nd & Ed); auto; [unfold m; lia| |].
        { intros i j Hi Hj. unfold minor. apply Hf; [lia|]. unfold skip. destruct (Nat.ltb j q); lia. }
        fold M in Nd.
        pose proof (near_mul 0 _ _ _ _ _ _ _ _ _ (sign_near s (f 0%nat q) Hs (Hf 0%nat q ltac:(lia) Hq)) Nd F2) as N1.
        apply (near_T _ _ _ _ _ (Tq q)) in N1; [|unfold Tq; lra]. fold (Bq q) in N1. cbn [plus] in N1.
        apply (near_mono _ (S (det_roundings m) + q)) in N1; [|lia].
        pose proof (near_add _ _ _ _ _ _ _ _ _ Nx N1 F1) as N2.
        destruct (IHl (S q) (Bplus mode_NE x (Bmult mode_NE (Bmult mode_NE (b_ofZ s) (f 0%nat q)) (M : b64))) (a + IZR s * B2R (f 0%nat q) * d) (- s)%Z) as (D & ND & ED).
        + replace (S (det_roundings m) + S q)%nat with (S (S (det_roundings m) + q)) by lia. exact N2.
        + lia.
        + lia.
        + exact Ff.
        + exists D. rewrite Nat.add_succ_r. split; [exact ND|]. rewrite <- ED. unfold stepR at 2.
          change (kdet (K:=Rops) m (fun i j => Some (B2R (f (S i) (skip q j))) : Rops)) with (kdet (K:=Rops) m (fun i j => Some (B2R (minor q i j)) : Rops)). rewrite Ed.
          reflexivity. }
    destruct (G (S m) 0%nat (b_ofZ 0) 0 1%Z) as (D & ND & ED).
    + assert (I : is_Z (b_ofZ 0) 0) by (apply ofZ_is; unfold exact_range; lia). destruct I as [F0 E0].
      apply (near_mono 0); [lia|]. pose proof (near_exact _ F0) as N. rewrite E0, Rabs_R0 in N. exact N.
    + now left.
    + lia.
    + exact F.
    + exists D. split; [exact ND|]. exact ED.
Qed.

Definition fact_bound (n : nat) (M : R) : R := INR (fact n) * M ^ n.
Lemma fact_bound_ge n M : 1 <= M -> INR n <= fact_bound n M /\ 1 <= fact_bound n M.
Proof.
  intros HM. unfold fact_bound. pose proof (pow_R1_Rle M n HM). assert (1 <= INR (fact n)) by (apply (le_INR 1); pose proof (lt_O_fact n); lia).
  assert (INR n <= INR (fact n)). { apply le_INR. destruct n; [simpl; lia|]. pose proof (lt_O_fact n). cbn [fact]. nia. }
  split; nra.
Qed.
Lemma fact_bound_S n M : fact_bound (S n) M = INR (S n) * (M * fact_bound n M).
Proof. unfold fact_bound. change (fact (S n)) with (S n * fact n)%nat. rewrite mult_INR. cbn [pow]. ring. Qed.
Lemma permanent_bound n M : forall f : nat -> nat -> R, 1 <= M -> (forall i j, (i < n)%nat -> (j < n)%nat -> Rabs (f i j) <= M) ->
  0 <= permanent n f <= fact_bound n M /\ 0 <= det_underflow n f <= INR n * fact_bound n M * tiny.
Proof.
  induction n as [|n IH]; intros f HM Hf.
  - cbn [permanent det_underflow]. unfold fact_bound. simpl. lra.
  - pose proof tiny_pos as Ut. destruct (fact_bound_ge n M HM) as [G1 G2]. destruct (fact_bound_ge (S n) M HM) as [G3 G4].
    assert (Sub : forall q i j, (q < S n)%nat -> (i < n)%nat -> (j < n)%nat -> Rabs (f (S i) (omit q j)) <= M).
    { intros q i j Hq Hi Hj. apply Hf; [lia|]. unfold omit. destruct (Nat.ltb j q); lia. }
    assert (I : forall q, (q < S n)%nat -> 0 <= Rabs (f 0%nat q) * permanent n (fun i j => f (S i) (omit q j)) <= M * fact_bound n M /\
       0 <= Rabs (f 0%nat q) * det_underflow n (fun i j => f (S i) (omit q j)) + tiny <= M * (INR n * fact_bound n M * tiny) + tiny).
    { intros q Hq. destruct (IH (fun i j => f (S i) (omit q j)) HM) as [P U]; [intros i j Hi Hj; now apply Sub|].
      pose proof (Hf 0%nat q ltac:(lia) Hq) as HMq. pose proof (Rabs_pos (f 0%nat q)) as Pq.
      pose proof (Rmult_le_pos _ _ Pq (proj1 P)). pose proof (Rmult_le_pos _ _ Pq (proj1 U)).
      pose proof (Rmult_le_compat _ _ _ _ Pq (proj1 P) HMq (proj2 P)). pose proof (Rmult_le_compat _ _ _ _ Pq (proj1 U) HMq (proj2 U)). lra. }
    cbn [permanent det_underflow]. rewrite fact_bound_S in *. split; split.
    + apply rsum_pos. intros q Hq. apply I, Hq.
    + eapply Rle_trans; [apply rsum_le; intros q Hq; apply (I q Hq)|]. rewrite rsum_const. lra.
    + apply rsum_pos. intros q Hq. apply I, Hq.
    + eapply Rle_trans; [apply rsum_le; intros q Hq; apply (I q Hq)|]. rewrite rsum_const.
      set (Z := fact_bound n M) in *. assert (E : INR (S n) * (INR (S n) * (M * Z)) * tiny = INR (S n) * (M * (INR n * Z * tiny) + M * Z * tiny)) by (rewrite S_INR; ring).
      rewrite E. apply Rmult_le_compat_l; [apply pos_INR|]. apply Rplus_le_compat_l. assert (1 <= M * Z) by nra. nra.
Qed.

Lemma rounding_bound_le k B T S n : B <= S -> T <= INR n * S * tiny ->
  rounding_bound k B T <= ((1 + ulp1) ^ k * (1 + INR n * tiny) - 1) * S.
Proof.
  intros HB HT. unfold rounding_bound. pose proof (pow_ge_1 k) as P. set (q := (1 + ulp1) ^ k) in *.
  assert (q * T <= q * (INR n * S * tiny)) by (apply Rmult_le_compat_l; lra).
  assert ((q - 1) * B <= (q - 1) * S) by (apply Rmult_le_compat_l; lra). lra.
Qed.
Lemma det_roundings_mono n : (det_roundings n <= det_roundings (S n))%nat.
Proof. destruct n; cbn [det_roundings]; lia. Qed.
Lemma det_roundings_step n : (2 <= n)%nat -> det_roundings (S n) = (S (det_roundings n) + S n)%nat.
Proof. intros H. destruct n; [lia|]. cbn [det_roundings]. lia. Qed.

Lemma kdet_fin n M : forall f : nat -> nat -> b64, (0 < n)%nat -> 1 <= M ->
  (forall i j, (i < n)%nat -> (j < n)%nat -> fin (f i j) /\ Rabs (B2R (f i j)) <= M) ->
  (1 + ulp1) ^ det_roundings n * (fact_bound n M * (1 + INR n * tiny)) < huge ->
  fin (kdet (K:=K) n (fun i j => f i j : K)).
Proof.
  induction n as [|n IH]; intros f Hn HM Hf Hs; [lia|]. clear Hn. pose proof tiny_pos as Ut. pose proof ulp1_pos as Uu. destruct n as [|[|n]].
  - apply Hf; lia.
  - clear IH. change (fin (Bminus mode_NE (Bmult mode_NE (f 0 0) (f 1 1)) (Bmult mode_NE (f 1 0) (f 0 1))))%nat.
    assert (P : forall i j i' j', (i < 2 -> j < 2 -> i' < 2 -> j' < 2 -> near 1 (Bmult mode_NE (f i j) (f i' j')) (B2R (f i j) * B2R (f i' j')) (M * M) tiny)%nat).
    { intros i j i' j' H1 H2 H3 H4. destruct (Hf i j H1 H2) as [F1 L1]. destruct (Hf i' j' H3 H4) as [F2 L2].
      assert (N1 : near 0 (f i j) (B2R (f i j)) M 0). { repeat split; auto; try lra. unfold rounding_bound. rewrite Rminus_diag_eq, Rabs_R0 by reflexivity. simpl. lra. }
      assert (N2 : near 0 (f i' j') (B2R (f i' j')) M 0). { repeat split; auto; try lra. unfold rounding_bound. rewrite Rminus_diag_eq, Rabs_R0 by reflexivity. simpl. lra. }
      assert (F : fin (Bmult mode_NE (f i j) (f i' j'))).
      { apply (near_mul_fin 0 0 _ _ _ _ _ _ _ _ N1 N2). eapply Rle_lt_trans; [|exact Hs].
        apply Rmult_le_compat; [apply pow_le; lra| |apply pow_mono; cbn; lia|].
        - assert (0 <= M * M) by nra. lra.
        - unfold fact_bound. simpl. assert (1 <= M * M) by nra. nra. }
      eapply near_T; [|exact (near_mul 0 0 _ _ _ _ _ _ _ _ N1 N2 F)]. lra. }
    assert (E : (Bminus mode_NE (Bmult mode_NE (f 0 0) (f 1 1)) (Bmult mode_NE (f 1 0) (f 0 1)) = Bplus mode_NE (Bmult mode_NE (f 0 0) (f 1 1)) (Bopp (Bmult mode_NE (f 1 0) (f 0 1))))%nat).
    { generalize (Bmult mode_NE (f 0 0) (f 1 1))%nat (Bmult mode_NE (f 1 0) (f 0 1))%nat. intros x y. destruct x, y; reflexivity. }
    rewrite E. eapply near_add_fin; [apply (P 0 0 1 1)%nat; lia|apply near_opp, (P 1 0 0 1)%nat; lia|].
    eapply Rle_lt_trans; [|exact Hs]. apply Rmult_le_compat; [apply pow_le; lra| |apply pow_mono; cbn; lia|].
    + assert (0 <= M * M) by nra. lra.
    + unfold fact_bound. simpl. assert (1 <= M * M) by nra. nra.
  - set (m := S (S n)) in *. rewrite (kdet_step (K:=K) (S m)) by (unfold m; lia).
    replace (S m - 1)%nat with m by lia. fold (det_step m f).
    set (minor := fun q => fun i j => f (S i) (skip q j)).
    set (Bq := fun q => Rabs (B2R (f 0%nat q)) * permanent m (rf (minor q))).
    set (Tq := fun q => Rabs (B2R (f 0%nat q)) * det_underflow m (rf (minor q)) + tiny).
    assert (Sub : forall q i j, (q < S m)%nat -> (i < m)%nat -> (j < m)%nat -> fin (minor q i j) /\ Rabs (B2R (minor q i j)) <= M).
    { intros q i j Hq Hi Hj. unfold minor. apply Hf; [lia|]. unfold skip. destruct (Nat.ltb j q); lia. }
    assert (Tot : (1 + ulp1) ^ (S (det_roundings m) + S m) * (rsum (S m) Bq + rsum (S m) Tq) < huge).
    { rewrite <- det_roundings_step by (unfold m; lia). eapply Rle_lt_trans; [|exact Hs]. apply Rmult_le_compat_l; [apply pow_le; lra|].
      change (rsum (S m) Bq) with (permanent (S m) (rf f)). change (rsum (S m) Tq) with (det_underflow (S m) (rf f)).
      destruct (permanent_bound (S m) M (rf f) HM) as [P U]; [intros i j Hi Hj; now apply Hf|]. nra. }
    assert (Pos : forall q, (q < S m)%nat -> 0 <= Bq q /\ 0 <= Tq q).
    { intros q Hq. destruct (permanent_bound m M (rf (minor q)) HM) as [P U]; [intros i j Hi Hj; now apply Sub|].
      unfold Bq, Tq. pose proof (Rmult_le_pos _ _ (Rabs_pos (B2R (f 0%nat q))) (proj1 P)). pose proof (Rmult_le_pos _ _ (Rabs_pos (B2R (f 0%nat q))) (proj1 U)). lra. }
    assert (Min : forall q, (q < S m)%nat -> fin (kdet (K:=K) m (fun i j => minor q i j : K))).
    { intros q Hq. apply IH; auto; [unfold m; lia|]. eapply Rle_lt_trans; [|exact Hs].
      destruct (fact_bound_ge m M HM) as [G1 G2]. apply Rmult_le_compat; [apply pow_le; lra| |apply pow_mono, det_roundings_mono|].
      - pose proof (pos_INR m). apply Rmult_le_pos; [lra|]. nra.
      - rewrite fact_bound_S. pose proof (pos_INR m). rewrite S_INR. set (Z := fact_bound m M) in *. assert (Z <= (INR m + 1) * (M * Z)).
        { assert (Z <= M * Z) by nra. nra. }
        apply Rmult_le_compat; try nra. }
    assert (G : forall len i (x : b64) a s, near (S (det_roundings m) + i) x a (rsum i Bq) (rsum i Tq) -> (s = 1 \/ s = -1)%Z -> (i + len <= S m)%nat ->
      fin (fst (fold_left (det_step m f) (seq i len) (x : K, s)) : b64)).
    { induction len as [|len IHl]; intros q x a s Nx Hs' Hk; cbn [seq fold_left]; [apply Nx|].
      assert (Hq : (q < S m)%nat) by lia.
      set (D := kdet (K:=K) m (fun i j => minor q i j : K)) in *.
      change (det_step m f (x : K, s) q) with ((Bplus mode_NE x (Bmult mode_NE (Bmult mode_NE (b_ofZ s) (f 0%nat q)) (D : b64)) : K), (- s)%Z).
      destruct (kdet_near m (minor q)) as (d & Nd & _); [unfold m; lia|intros i j Hi Hj; now apply Sub|now apply Min|]. fold D in Nd.
      pose proof (sign_near s (f 0%nat q) Hs' (proj1 (Hf 0%nat q ltac:(lia) Hq))) as N0.
      assert (Part : rsum (S q) Bq <= rsum (S m) Bq /\ rsum (S q) Tq <= rsum (S m) Tq).
      { split; apply rsum_mono; try lia; intros i Hi; now apply Pos. }
      assert (Pq : 0 <= rsum q Bq /\ 0 <= rsum q Tq). { split; apply rsum_pos; intros i Hi; apply Pos; lia. }
      destruct (Pos q Hq) as [PB PT].
      assert (F2 : fin (Bmult mode_NE (Bmult mode_NE (b_ofZ s) (f 0%nat q)) (D : b64))).
      { apply (near_mul_fin 0 _ _ _ _ _ _ _ _ _ N0 Nd). eapply Rle_lt_trans; [|exact Tot].
        apply Rmult_le_compat; [apply pow_le; lra| |apply pow_mono; lia|].
        - fold (Bq q). unfold Tq in PT. lra.
        - fold (Bq q). assert (ET : Tq q = Rabs (B2R (f 0%nat q)) * det_underflow m (rf (minor q)) + tiny) by reflexivity.
          change (rsum (S q) Bq) with (rsum q Bq + Bq q) in Part. change (rsum (S q) Tq) with (rsum q Tq + Tq q) in Part. lra. }
      pose proof (near_mul 0 _ _ _ _ _ _ _ _ _ N0 Nd F2) as N1.
      apply (near_T _ _ _ _ _ (Tq q)) in N1; [|unfold Tq; lra]. fold (Bq q) in N1. cbn [plus] in N1.
      apply (near_mono _ (S (det_roundings m) + q)) in N1; [|lia].
      assert (F1 : fin (Bplus mode_NE x (Bmult mode_NE (Bmult mode_NE (b_ofZ s) (f 0%nat q)) (D : b64)))).
      { apply (near_add_fin _ _ _ _ _ _ _ _ _ Nx N1). eapply Rle_lt_trans; [|exact Tot].
        apply Rmult_le_compat; [apply pow_le; lra| |apply pow_mono; lia|].
        - cbn [rsum] in Part. lra.
        - cbn [rsum] in *. lra. }
      pose proof (near_add _ _ _ _ _ _ _ _ _ Nx N1 F1) as N2.
      eapply IHl; [|lia|lia]. replace (S (det_roundings m) + S q)%nat with (S (S (det_roundings m) + q)) by lia. exact N2. }
    apply (G (S m) 0%nat (b_ofZ 0) 0 1%Z).
    + assert (I : is_Z (b_ofZ 0) 0) by (apply ofZ_is; unfold exact_range; lia). destruct I as [F0 E0].
      apply (near_mono 0); [lia|]. pose proof (near_exact _ F0) as N. rewrite E0, Rabs_R0 in N. exact N.
    + now left.
    + lia.
Qed.
End S.

(** The numbers for 3 x 3 matrices with entries of absolute value at most 10. *)
Lemma three_ten : let size := INR (fact 3) * 10 ^ 3 in
  (1 + ulp1) ^ det_roundings 3 * (size * (1 + INR 3 * tiny)) < huge /\ ((1 + ulp1) ^ det_roundings 3 * (1 + INR 3 * tiny) - 1) * size <= 5 / 10 ^ 12.
Proof.
  assert (Hu : ulp1 <= 111023 / 10 ^ 21). { rewrite ulp1_bpow. cbn. lra. }
  assert (Ht : tiny <= 1 / 10 ^ 21). { rewrite tiny_bpow. apply Rle_trans with (bpow radix2 (-75)); [apply bpow_le; lia|cbn; lra]. }
  pose proof ulp1_pos as Pu. pose proof tiny_pos as Pt.
  assert (Big : 10000 < huge). { rewrite huge_bpow. apply Rlt_trans with (bpow radix2 15); [cbn; lra|apply bpow_lt; lia]. }
  change (det_roundings 3) with 7%nat. replace (INR (fact 3)) with 6 by (simpl; lra). replace (INR 3) with 3 by (simpl; lra).
  assert (B : (1 + ulp1) ^ 7 <= (1 + 111023 / 10 ^ 21) ^ 7) by (apply pow_incr; lra).
  assert (B2 : (1 + 111023 / 10 ^ 21) ^ 7 <= 1 + 777162 / 10 ^ 21) by lra.
  pose proof (pow_ge_1 7). set (q := (1 + ulp1) ^ 7) in *.
  assert (P : q * (1 + 3 * tiny) <= (1 + 777162 / 10 ^ 21) * (1 + 3 / 10 ^ 21)) by (apply Rmult_le_compat; lra).
  intros size. unfold size. split; [|lra]. replace (q * (6 * 10 ^ 3 * (1 + 3 * tiny))) with (q * (1 + 3 * tiny) * 6000) by ring. lra.
Qed.
