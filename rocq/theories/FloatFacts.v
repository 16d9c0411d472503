(** Facts about binary64: the operations on finite numbers are the rounded real operations. *)
From Coq Require Import ZArith Reals Lia Lra Bool.
From Flocq Require Import IEEE754.BinarySingleNaN Core.
From Verif Require Import Base MathOp IEEE NodeModel ExprSpec SubsSpec FloatSpec.
Local Open Scope R_scope.

#[global] Instance fexp_valid : Valid_exp fexp := FLT_exp_valid _ _.

Lemma feq_refl x : fin x -> feq x x. Proof. repeat split; auto. Qed.
Lemma feq_sym x y : feq x y -> feq y x. Proof. intros (a & b & c). repeat split; auto. Qed.
Lemma feq_trans x y z : feq x y -> feq y z -> feq x z. Proof. intros (a & b & c) (d & e & f). repeat split; auto. congruence. Qed.
Lemma format_B2R (x : b64) : generic_format radix2 fexp (B2R x).
Proof. apply generic_format_B2R. Qed.
Lemma rnd_B2R (x : b64) : rnd (B2R x) = B2R x.
Proof. apply round_generic; [apply valid_rnd_round_mode|apply format_B2R]. Qed.
Lemma rnd_0 : rnd 0 = 0. Proof. apply round_0, valid_rnd_round_mode. Qed.

Lemma overflow_not_finite s (x : b64) : B2SF x = binary_overflow 53 1024 mode_NE s -> is_finite x = false.
Proof. destruct x; cbn; auto; destruct s; discriminate. Qed.

Lemma add_R (x y : b64) : fin x -> fin y -> fin (Bplus mode_NE x y) -> B2R (Bplus mode_NE x y) = rnd (B2R x + B2R y).
Proof.
  intros Fx Fy F. pose proof (Bplus_correct 53 1024 Hprec Hemax mode_NE x y Fx Fy) as H. destruct (Rlt_bool _ _); [apply H|].
  destruct H as [H _]. apply overflow_not_finite in H. unfold fin in F. congruence.
Qed.
Lemma sub_R (x y : b64) : fin x -> fin y -> fin (Bminus mode_NE x y) -> B2R (Bminus mode_NE x y) = rnd (B2R x - B2R y).
Proof.
  intros Fx Fy F. pose proof (Bminus_correct 53 1024 Hprec Hemax mode_NE x y Fx Fy) as H. destruct (Rlt_bool _ _); [apply H|].
  destruct H as [H _]. apply overflow_not_finite in H. unfold fin in F. congruence.
Qed.
Lemma mul_R (x y : b64) : fin x -> fin y -> fin (Bmult mode_NE x y) -> B2R (Bmult mode_NE x y) = rnd (B2R x * B2R y).
Proof.
  intros Fx Fy F. pose proof (Bmult_correct 53 1024 Hprec Hemax mode_NE x y) as H. destruct (Rlt_bool _ _); [apply H|].
  apply overflow_not_finite in H. unfold fin in F. congruence.
Qed.
Lemma zero_R (x : b64) : fin x -> B2R x = 0 -> exists s, x = B754_zero s.
Proof.
  destruct x as [s|s| |s m e He]; cbn; try discriminate; eauto. intros _ H. exfalso.
  apply eq_0_F2R in H. destruct s; discriminate.
Qed.
Lemma div_nonzero (x y : b64) : fin x -> fin y -> fin (Bdiv mode_NE x y) -> B2R y <> 0.
Proof.
  intros Fx Fy F E. destruct (zero_R y Fy E) as [s ->]. unfold fin in *. destruct x; cbn in *; discriminate.
Qed.
Lemma Bdiv_R (x y : b64) : fin x -> fin y -> fin (Bdiv mode_NE x y) -> B2R y <> 0 -> B2R (Bdiv mode_NE x y) = rnd (B2R x / B2R y).
Proof.
  intros Fx Fy F Hy. pose proof (Bdiv_correct 53 1024 Hprec Hemax mode_NE x y Hy) as H. destruct (Rlt_bool _ _); [apply H|].
  apply overflow_not_finite in H. unfold fin in F. congruence.
Qed.

Lemma sqrt_R (x : b64) : B2R (Bsqrt mode_NE x) = rnd (sqrt (B2R x)).
Proof. exact (proj1 (Bsqrt_correct 53 1024 Hprec Hemax mode_NE x)). Qed.

Lemma eqb_feq (x y : b64) : fin x -> fin y -> (Beqb x y = true <-> feq x y).
Proof.
  intros Fx Fy. rewrite (Beqb_correct 53 1024 x y Fx Fy). unfold feq. split.
  - intros H. repeat split; auto. now apply Req_bool_true_inv in H || (destruct (Req_bool_spec (B2R x) (B2R y)); [auto|discriminate]).
  - intros (_ & _ & E). now apply Req_bool_true.
Qed.
Lemma eqb_R (x y : b64) : fin x -> fin y -> (Beqb x y = true <-> B2R x = B2R y).
Proof. intros Fx Fy. rewrite eqb_feq by assumption. unfold feq. tauto. Qed.

Lemma eqb_inf s (x : b64) : Beqb x (B754_infinity s) = true <-> x = B754_infinity s.
Proof. destruct x as [[]|[]| |[] m e He], s; cbn; split; congruence. Qed.
Lemma invalid_fin (L : libm) (x : b64) :
  (Beqb x (B754_infinity false) || Beqb x (B754_infinity true) || negb (Beqb x x))%bool = negb (is_finite x).
Proof.
  destruct x as [[]|[]| |[] m e He]; try reflexivity; unfold Beqb; cbn [B2SF SpecFloat.SFeqb SpecFloat.SFcompare is_finite negb];
  rewrite Z.compare_refl, ?Pos.compare_cont_refl; reflexivity.
Qed.

Lemma opp_feq x x' : feq x x' -> feq (Bopp x) (Bopp x').
Proof. intros (a & b & c). unfold feq, fin. rewrite !is_finite_Bopp, !B2R_Bopp. repeat split; auto. now rewrite c. Qed.

Lemma fin_of (x : b64) : fin x -> Rabs (B2R x) < bpow radix2 1024.
Proof. intros _. apply abs_B2R_lt_emax. Qed.

Lemma add_fin (x y : b64) : fin x -> fin y -> (fin (Bplus mode_NE x y) <-> Rabs (rnd (B2R x + B2R y)) < bpow radix2 1024).
Proof.
  intros Fx Fy. pose proof (Bplus_correct 53 1024 Hprec Hemax mode_NE x y Fx Fy) as H. change (SpecFloat.fexp 53 1024) with fexp in H; fold (rnd (B2R x + B2R y)) in H.
  destruct (Rlt_bool_spec (Rabs (rnd (B2R x + B2R y))) (bpow radix2 1024)) as [G|G].
  - split; auto. intros _. apply H.
  - destruct H as [H _]. apply overflow_not_finite in H. unfold fin. rewrite H. split; [discriminate|lra].
Qed.
Lemma sub_fin (x y : b64) : fin x -> fin y -> (fin (Bminus mode_NE x y) <-> Rabs (rnd (B2R x - B2R y)) < bpow radix2 1024).
Proof.
  intros Fx Fy. pose proof (Bminus_correct 53 1024 Hprec Hemax mode_NE x y Fx Fy) as H. change (SpecFloat.fexp 53 1024) with fexp in H; fold (rnd (B2R x - B2R y)) in H.
  destruct (Rlt_bool_spec (Rabs (rnd (B2R x - B2R y))) (bpow radix2 1024)) as [G|G].
  - split; auto. intros _. apply H.
  - destruct H as [H _]. apply overflow_not_finite in H. unfold fin. rewrite H. split; [discriminate|lra].
Qed.
Lemma mul_fin (x y : b64) : fin x -> fin y -> (fin (Bmult mode_NE x y) <-> Rabs (rnd (B2R x * B2R y)) < bpow radix2 1024).
Proof.
  intros Fx Fy. pose proof (Bmult_correct 53 1024 Hprec Hemax mode_NE x y) as H. change (SpecFloat.fexp 53 1024) with fexp in H; fold (rnd (B2R x * B2R y)) in H.
  destruct (Rlt_bool_spec (Rabs (rnd (B2R x * B2R y))) (bpow radix2 1024)) as [G|G].
  - split; auto. intros _. destruct H as (_ & H & _). unfold fin. rewrite H, Fx, Fy. reflexivity.
  - apply overflow_not_finite in H. unfold fin. rewrite H. split; [discriminate|lra].
Qed.
Lemma div_fin (x y : b64) : fin x -> fin y -> B2R y <> 0 -> (fin (Bdiv mode_NE x y) <-> Rabs (rnd (B2R x / B2R y)) < bpow radix2 1024).
Proof.
  intros Fx Fy Hy. pose proof (Bdiv_correct 53 1024 Hprec Hemax mode_NE x y Hy) as H. change (SpecFloat.fexp 53 1024) with fexp in H; fold (rnd (B2R x / B2R y)) in H.
  destruct (Rlt_bool_spec (Rabs (rnd (B2R x / B2R y))) (bpow radix2 1024)) as [G|G].
  - split; auto. intros _. destruct H as (_ & H & _). unfold fin. rewrite H, Fx. reflexivity.
  - apply overflow_not_finite in H. unfold fin. rewrite H. split; [discriminate|lra].
Qed.

Ltac cong R F Hx Hy Fr :=
  let Fx := fresh in let Fx' := fresh in let Ex := fresh in destruct Hx as (Fx & Fx' & Ex);
  let Fy := fresh in let Fy' := fresh in let Ey := fresh in destruct Hy as (Fy & Fy' & Ey);
  assert (G := Fr); apply F in G; auto; rewrite Ex, Ey in G; apply F in G; auto;
  split; [exact Fr|split; [exact G|rewrite !R by auto; now rewrite Ex, Ey]].
Lemma add_feq x x' y y' : feq x x' -> feq y y' -> fin (Bplus mode_NE x y) -> feq (Bplus mode_NE x y) (Bplus mode_NE x' y').
Proof. intros Hx Hy Fr. cong add_R add_fin Hx Hy Fr. Qed.
Lemma sub_feq x x' y y' : feq x x' -> feq y y' -> fin (Bminus mode_NE x y) -> feq (Bminus mode_NE x y) (Bminus mode_NE x' y').
Proof. intros Hx Hy Fr. cong sub_R sub_fin Hx Hy Fr. Qed.
Lemma mul_feq x x' y y' : feq x x' -> feq y y' -> fin (Bmult mode_NE x y) -> feq (Bmult mode_NE x y) (Bmult mode_NE x' y').
Proof. intros Hx Hy Fr. cong mul_R mul_fin Hx Hy Fr. Qed.
Lemma div_feq x x' y y' : feq x x' -> feq y y' -> fin (Bdiv mode_NE x y) -> feq (Bdiv mode_NE x y) (Bdiv mode_NE x' y').
Proof.
  intros (Fx & Fx' & Ex) (Fy & Fy' & Ey) Fr. pose proof (div_nonzero x y Fx Fy Fr) as Hy.
  assert (Hy' : B2R y' <> 0) by congruence.
  assert (G := Fr). apply div_fin in G; auto. rewrite Ex, Ey in G. apply div_fin in G; auto.
  split; [exact Fr|split; [exact G|rewrite !Bdiv_R by auto; now rewrite Ex, Ey]].
Qed.

(** A finite number is determined by its value, up to the sign of zero. *)
Lemma feq_cases x y : feq x y -> x = y \/ exists s s', x = B754_zero s /\ y = B754_zero s'.
Proof.
  intros (Fx & Fy & E). destruct (Req_dec (B2R x) 0) as [H|H].
  - right. destruct (zero_R x Fx H) as [s ->]. destruct (zero_R y Fy) as [s' ->]; [congruence|]. eauto.
  - left. apply (B2R_inj 53 1024); auto.
    + destruct x; try discriminate; cbn in *; auto; congruence.
    + destruct y; try discriminate; cbn in *; auto; congruence.
Qed.
Lemma sqrt_feq x x' : feq x x' -> fin (Bsqrt mode_NE x) -> feq (Bsqrt mode_NE x) (Bsqrt mode_NE x').
Proof.
  intros H F. destruct (feq_cases _ _ H) as [<-|(s & s' & -> & ->)]; [now apply feq_refl|]. repeat split.
Qed.
Lemma toint_feq x x' : feq x x' -> b_toint x = b_toint x'.
Proof. intros H. destruct (feq_cases _ _ H) as [<-|(s & s' & -> & ->)]; reflexivity. Qed.

(** ** The nearest double *)
Lemma rnd_format r : generic_format radix2 fexp (rnd r).
Proof. apply generic_format_round; [apply fexp_valid|apply valid_rnd_round_mode]. Qed.
Lemma rnd_idem r : rnd (rnd r) = rnd r.
Proof. apply round_generic; [apply valid_rnd_round_mode|apply rnd_format]. Qed.

Lemma Round_spec r : if Rlt_bool (Rabs (rnd r)) (bpow radix2 1024) then B2R (Round r) = rnd r /\ fin (Round r) else ~ fin (Round r).
Proof.
  unfold Round. set (m := Ztrunc _). set (e := cexp _ _ _).
  pose proof (binary_normalize_correct 53 1024 Hprec Hemax mode_NE m e false) as H. cbv zeta in H.
  change (SpecFloat.fexp 53 1024) with fexp in H.
  assert (E : F2R (Float radix2 m e) = rnd r).
  { symmetry. apply (rnd_format r). }
  rewrite E in H. fold (rnd (rnd r)) in H. rewrite rnd_idem in H.
  destruct (Rlt_bool _ _); [tauto|]. unfold fin. rewrite (overflow_not_finite _ _ H). discriminate.
Qed.

(** The correctly rounded library meets the requirements. *)
Lemma rounded_blind dom f : zero_blind (rounded dom f).
Proof.
  intros x x' (Fx & Fx' & E) F. unfold rounded in *. rewrite Fx, Fx', <- E in *. apply feq_refl, F.
Qed.
Lemma Round_B2R (x : b64) : fin x -> feq (Round (B2R x)) x.
Proof.
  intros F. pose proof (Round_spec (B2R x)) as H. rewrite rnd_B2R in H.
  rewrite Rlt_bool_true in H by apply abs_B2R_lt_emax. destruct H as [H G]. repeat split; auto.
Qed.

Theorem correct_libm_ieee : ieee_libm correct_libm.
Proof.
  constructor; try apply rounded_blind; cbn [m_pow correct_libm].
  - intros x x' y y' (Fx & Fx' & Ex) (Fy & Fy' & Ey) F. unfold rounded_pow in *.
    rewrite Fx, Fx', Fy, Fy', <- Ex, <- Ey in *. apply feq_refl, F.
  - intros x y Fx Fy Hy. unfold rounded_pow. rewrite Fx, Fy, Hy. cbn [andb].
    destruct (Rlt_bool_spec 0 (B2R x)) as [G|G]; [rewrite Rpower_1 by auto; now apply Round_B2R|].
    destruct (Req_bool_spec (B2R x) 0) as [G'|G'].
    + rewrite Rlt_bool_true by lra. repeat split; auto.
    + rewrite (Ztrunc_IZR 1), Req_bool_true by auto. replace (powerRZ (B2R x) 1) with (B2R x) by (unfold powerRZ; rewrite Pos2Nat.inj_1; simpl; symmetry; apply Rmult_1_r). now apply Round_B2R.
  - intros x y Fx Fy Hx Hy. unfold rounded_pow. rewrite Fx, Fy, Hx. cbn [andb].
    rewrite Rlt_bool_false, Req_bool_true, Rlt_bool_true by lra. repeat split; auto.
  - intros x y Fx Fy Hx Hy. unfold rounded_pow. rewrite Fx, Fy, Hx. cbn [andb].
    rewrite Rlt_bool_false, Req_bool_true, Rlt_bool_false, Req_bool_false by lra. discriminate.
Qed.
