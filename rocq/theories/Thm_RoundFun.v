(** C59: the error analysis of the remaining functions and operators. *)
From Coq Require Import ZArith Reals Lra Lia List Bool String.
From Flocq Require Import IEEE754.BinarySingleNaN Core.
From Verif Require Import Base MathOp IEEE RealSpec NodeModel ExprSpec FloatSpec FloatFacts IntSpec IntProofs RoundSpec RoundProofs Thm_Round.
Import ListNotations.
Local Open Scope R_scope.

(** Mean value theorem. *)
Lemma mvt_bound f f' x x' e B : Rabs (x' - x) <= e -> 0 <= B ->
  (forall t, Rabs (t - x) <= e -> derivable_pt_lim f t (f' t) /\ Rabs (f' t) <= B) -> Rabs (f x' - f x) <= B * e.
Proof.
  intros Hx HB H. assert (P : 0 <= Rabs (x' - x)) by apply Rabs_pos.
  assert (G : forall p q, p < q -> (forall t, p <= t <= q -> Rabs (t - x) <= e) -> Rabs (f q - f p) <= B * (q - p)).
  { intros p q Hpq Hin. destruct (MVT_cor2 f f' p q Hpq) as (c & Ec & Hc); [intros t Ht; apply H, Hin, Ht|].
    rewrite Ec, Rabs_mult, (Rabs_pos_eq (q - p)) by lra. apply Rmult_le_compat_r; [lra|]. apply H, Hin. lra. }
  destruct (Rtotal_order x' x) as [L|[->|L]].
  - rewrite Rabs_minus_sym. rewrite (Rabs_left (x' - x)) in Hx by lra. eapply Rle_trans; [apply G; [exact L|intros t Ht; apply Rabs_le; lra]|].
    apply Rmult_le_compat_l; lra.
  - rewrite Rminus_diag_eq, Rabs_R0 by reflexivity. apply Rmult_le_pos; lra.
  - rewrite (Rabs_pos_eq (x' - x)) in Hx by lra. eapply Rle_trans; [apply G; [exact L|intros t Ht; apply Rabs_le; lra]|].
    apply Rmult_le_compat_l; lra.
Qed.

Section Rules.
Context (L : libm) (c : R) (renv err : string -> R).
Notation acc := (accuracy L c renv err).
Notation fits y E := (Rabs y + E < huge).

Theorem C59_atan a x ex : acc a x ex -> let E := with_rounding c tiny (atan x) ex in fits (atan x) E -> acc (EUn UAtan a) (atan x) E.
Proof.
  intros Ha E F. apply (ac_un L c renv err UAtan a x ex (atan x) ex); auto.
  intros x' Hx. exists (atan x'). split; [reflexivity|]. rewrite <- (Rmult_1_l ex).
  apply (mvt_bound atan (fun t => / (1 + t ^ 2))); [exact Hx|lra|]. intros t _. split; [apply derivable_pt_lim_atan|].
  pose proof (pow2_ge_0 t). rewrite Rabs_pos_eq by (left; apply Rinv_0_lt_compat; lra). rewrite <- Rinv_1. apply Rinv_le_contravar; lra.
Qed.

(** m bounds the cosine away from zero. *)
Theorem C59_tan a x ex m : acc a x ex -> 0 < m -> 0 <= ex -> (forall t, Rabs (t - x) <= ex -> m <= Rabs (cos t)) ->
  let E := with_rounding c tiny (tan x) (/ (m * m) * ex) in fits (tan x) E -> acc (EUn UTan a) (tan x) E.
Proof.
  intros Ha Hm He Hc E F.
  assert (D : forall t, Rabs (t - x) <= ex -> cos t <> 0). { intros t Ht Z. pose proof (Hc t Ht) as Q. rewrite Z, Rabs_R0 in Q. lra. }
  assert (X : Rabs (x - x) <= ex) by (rewrite Rminus_diag_eq, Rabs_R0 by reflexivity; exact He).
  apply (ac_un L c renv err UTan a x ex (tan x) (/ (m * m) * ex)); auto.
  - cbn [r_un]. destruct (Req_EM_T (cos x) 0) as [Z|]; [now apply D in Z|reflexivity].
  - intros x' Hx. exists (tan x'). cbn [r_un]. destruct (Req_EM_T (cos x') 0) as [Z|_]; [now apply D in Z|]. split; [reflexivity|].
    apply (mvt_bound tan (fun t => (cos t * cos t - - sin t * sin t) / (cos t)²)); [exact Hx|left; apply Rinv_0_lt_compat; nra|]. intros t Ht.
    pose proof (D t Ht) as Dt. pose proof (Hc t Ht) as Mt. split.
    + exact (derivable_pt_lim_div sin cos t (cos t) (- sin t) (derivable_pt_lim_sin t) (derivable_pt_lim_cos t) Dt).
    + replace (cos t * cos t - - sin t * sin t) with 1 by (pose proof (sin2_cos2 t) as Q; unfold Rsqr in Q; lra).
      assert (S : 0 < (cos t)²) by now apply Rlt_0_sqr. unfold Rdiv. rewrite Rmult_1_l, Rabs_pos_eq by (left; now apply Rinv_0_lt_compat).
      apply Rinv_le_contravar; [nra|]. rewrite <- (Rsqr_abs (cos t)) || rewrite Rsqr_abs. unfold Rsqr. apply Rmult_le_compat; lra.
Qed.

Lemma asin_lim t : -1 < t < 1 -> derivable_pt_lim asin t (1 / sqrt (1 - t²)).
Proof. intros H. rewrite <- (derive_pt_asin t H). apply derive_pt_eq_1 with (derivable_pt_asin t H). reflexivity. Qed.
Lemma acos_lim t : -1 < t < 1 -> derivable_pt_lim acos t (-1 / sqrt (1 - t²)).
Proof. intros H. rewrite <- (derive_pt_acos t H). apply derive_pt_eq_1 with (derivable_pt_acos t H). reflexivity. Qed.
Lemma slope x ex t : 0 <= ex -> Rabs x + ex < 1 -> Rabs (t - x) <= ex ->
  -1 < t < 1 /\ Rabs (1 / sqrt (1 - t²)) <= / sqrt (1 - (Rabs x + ex)²).
Proof.
  intros He Hx Ht. assert (T : Rabs t <= Rabs x + ex). { replace t with (x + (t - x)) by ring. eapply Rle_trans; [apply Rabs_triang|]. lra. }
  pose proof (Rabs_pos x). assert (Q : t² <= (Rabs x + ex)²) by (rewrite (Rsqr_abs t); apply Rsqr_incr_1; auto using Rabs_pos; lra).
  assert (S : (Rabs x + ex)² < 1) by (unfold Rsqr; nra).
  split; [pose proof (Rle_abs t); pose proof (Rle_abs (- t)) as N; rewrite Rabs_Ropp in N; lra|].
  assert (0 < sqrt (1 - (Rabs x + ex)²)) by (apply sqrt_lt_R0; lra). assert (0 < sqrt (1 - t²)) by (apply sqrt_lt_R0; lra).
  unfold Rdiv. rewrite Rmult_1_l, Rabs_pos_eq by (left; now apply Rinv_0_lt_compat). apply Rinv_le_contravar; auto. apply sqrt_le_1_alt. lra.
Qed.
Theorem C59_asin a x ex : acc a x ex -> 0 <= ex -> Rabs x + ex < 1 ->
  let E := with_rounding c tiny (asin x) (/ sqrt (1 - (Rabs x + ex)²) * ex) in fits (asin x) E -> acc (EUn UAsin a) (asin x) E.
Proof.
  intros Ha He Hx E F. assert (P : 0 <= / sqrt (1 - (Rabs x + ex)²)). { left. apply Rinv_0_lt_compat, sqrt_lt_R0. pose proof (Rabs_pos x). unfold Rsqr. nra. }
  apply (ac_un L c renv err UAsin a x ex (asin x) (/ sqrt (1 - (Rabs x + ex)²) * ex)); auto.
  - destruct (slope x ex x He Hx) as [S _]; [rewrite Rminus_diag_eq, Rabs_R0 by reflexivity; exact He|]. cbn [r_un].
    destruct (Rle_dec (-1) x), (Rle_dec x 1); try lra. reflexivity.
  - intros x' Hx'. exists (asin x'). destruct (slope x ex x' He Hx Hx') as [S _]. cbn [r_un]. destruct (Rle_dec (-1) x'), (Rle_dec x' 1); try lra. split; [reflexivity|].
    apply (mvt_bound asin (fun t => 1 / sqrt (1 - t²))); auto. intros t Ht. destruct (slope x ex t He Hx Ht) as [S' B]. split; [now apply asin_lim|exact B].
Qed.
Theorem C59_acos a x ex : acc a x ex -> 0 <= ex -> Rabs x + ex < 1 ->
  let E := with_rounding c tiny (acos x) (/ sqrt (1 - (Rabs x + ex)²) * ex) in fits (acos x) E -> acc (EUn UAcos a) (acos x) E.
Proof.
  intros Ha He Hx E F. assert (P : 0 <= / sqrt (1 - (Rabs x + ex)²)). { left. apply Rinv_0_lt_compat, sqrt_lt_R0. pose proof (Rabs_pos x). unfold Rsqr. nra. }
  apply (ac_un L c renv err UAcos a x ex (acos x) (/ sqrt (1 - (Rabs x + ex)²) * ex)); auto.
  - destruct (slope x ex x He Hx) as [S _]; [rewrite Rminus_diag_eq, Rabs_R0 by reflexivity; exact He|]. cbn [r_un].
    destruct (Rle_dec (-1) x), (Rle_dec x 1); try lra. reflexivity.
  - intros x' Hx'. exists (acos x'). destruct (slope x ex x' He Hx Hx') as [S _]. cbn [r_un]. destruct (Rle_dec (-1) x'), (Rle_dec x' 1); try lra. split; [reflexivity|].
    apply (mvt_bound acos (fun t => -1 / sqrt (1 - t²))); auto. intros t Ht. destruct (slope x ex t He Hx Ht) as [S' B]. split; [now apply acos_lim|].
    replace (-1 / sqrt (1 - t²)) with (- (1 / sqrt (1 - t²))) by (unfold Rdiv; ring). now rewrite Rabs_Ropp.
Qed.

(** Logarithms. *)
Lemma ln_near x ex x' : 0 <= ex < x -> Rabs (x' - x) <= ex -> 0 < x' /\ Rabs (ln x' - ln x) <= ex / (x - ex).
Proof.
  intros He Hx. assert (B : x - ex <= x' <= x + ex) by (unfold Rabs in Hx; destruct (Rcase_abs (x' - x)); lra). split; [lra|].
  unfold Rdiv. rewrite Rmult_comm. apply (mvt_bound ln (fun t => / t)); [exact Hx|left; apply Rinv_0_lt_compat; lra|].
  intros t Ht. assert (x - ex <= t) by (unfold Rabs in Ht; destruct (Rcase_abs (t - x)); lra). split; [apply derivable_pt_lim_ln; lra|].
  rewrite Rabs_pos_eq by (left; apply Rinv_0_lt_compat; lra). apply Rinv_le_contravar; lra.
Qed.
Lemma log_rule u B a x ex : 1 < B -> (forall t, r_un u t = if Rlt_dec 0 t then Some (ln t / ln B) else None) -> rel_un c u = c -> tiny_un u = tiny ->
  acc a x ex -> 0 <= ex < x ->
  let E := with_rounding c tiny (ln x / ln B) (ex / (x - ex) / ln B) in fits (ln x / ln B) E -> acc (EUn u a) (ln x / ln B) E.
Proof.
  intros HB Hu Er Et Ha He E F. assert (PB : 0 < ln B) by (rewrite <- ln_1; apply ln_increasing; lra). unfold E in *.
  replace (with_rounding c tiny (ln x / ln B) (ex / (x - ex) / ln B)) with (with_rounding (rel_un c u) (tiny_un u) (ln x / ln B) (ex / (x - ex) / ln B)) in * by now rewrite Er, Et.
  apply (ac_un L c renv err u a x ex (ln x / ln B) (ex / (x - ex) / ln B)); auto.
  - rewrite Hu. destruct (Rlt_dec 0 x); [reflexivity|lra].
  - intros x' Hx. destruct (ln_near x ex x' He Hx) as [P N]. exists (ln x' / ln B). rewrite Hu. destruct (Rlt_dec 0 x'); [|lra]. split; [reflexivity|].
    replace (ln x' / ln B - ln x / ln B) with ((ln x' - ln x) * / ln B) by (field; lra). rewrite Rabs_mult, (Rabs_pos_eq (/ ln B)) by (left; now apply Rinv_0_lt_compat).
    apply Rmult_le_compat_r; [left; now apply Rinv_0_lt_compat|exact N].
Qed.
Theorem C59_log2 a x ex : acc a x ex -> 0 <= ex < x ->
  let E := with_rounding c tiny (ln x / ln 2) (ex / (x - ex) / ln 2) in fits (ln x / ln 2) E -> acc (EUn ULog2 a) (ln x / ln 2) E.
Proof. apply log_rule; try reflexivity. lra. Qed.
Theorem C59_log10 a x ex : acc a x ex -> 0 <= ex < x ->
  let E := with_rounding c tiny (ln x / ln 10) (ex / (x - ex) / ln 10) in fits (ln x / ln 10) E -> acc (EUn ULog10 a) (ln x / ln 10) E.
Proof. apply log_rule; try reflexivity. lra. Qed.

(** Powers of a positive base. *)
Lemma exp_near z z' d : Rabs (z' - z) <= d -> Rabs (exp z' - exp z) <= exp z * (exp d - 1).
Proof.
  intros H. set (w := z' - z) in *. replace (exp z' - exp z) with (exp z * (exp w - 1)).
  2:{ unfold w. rewrite Rmult_minus_distr_l, <- exp_plus, Rmult_1_r. f_equal. f_equal. ring. }
  pose proof (exp_pos z) as P. rewrite Rabs_mult, (Rabs_pos_eq (exp z)) by lra. apply Rmult_le_compat_l; [lra|].
  assert (Up : exp w <= exp d). { assert (W : w <= d) by (pose proof (Rle_abs w); lra). destruct W as [W| ->]; [left; now apply exp_increasing|lra]. }
  apply Rabs_le. split; [|lra].
  assert (Lo : exp (- d) <= exp w). { assert (W : - d <= w) by (pose proof (Rle_abs (- w)) as Q; rewrite Rabs_Ropp in Q; lra). destruct W as [W| <-]; [left; now apply exp_increasing|lra]. }
  assert (E1 : exp d * exp (- d) = 1) by (rewrite <- exp_plus, Rplus_opp_r; apply exp_0). pose proof (exp_pos (- d)).
  assert (0 <= d) by (pose proof (Rabs_pos w); lra). pose proof (exp_ineq1_le d). nra.
Qed.
Theorem C59_pow a b x y ex ey : acc a x ex -> acc b y ey -> 0 <= ex < x -> 0 <= ey ->
  let el := ex / (x - ex) in let d := Rabs y * el + ey * Rabs (ln x) + ey * el in
  let E := with_rounding c tiny (Rpower x y) (Rpower x y * (exp d - 1)) in
  fits (Rpower x y) E -> acc (EBin BPow a b) (Rpower x y) E.
Proof.
  intros Ha Hb He Hey el d E F. apply (ac_bin L c renv err BPow a b x ex y ey (Rpower x y) (Rpower x y * (exp d - 1))); auto.
  - cbn [r_bin]. unfold Rpow. destruct (Rlt_dec 0 x); [reflexivity|lra].
  - intros x' y' Hx Hy. destruct (ln_near x ex x' He Hx) as [P N]. exists (Rpower x' y'). cbn [r_bin]. unfold Rpow. destruct (Rlt_dec 0 x'); [|lra]. split; [reflexivity|].
    apply exp_near. replace (y' * ln x' - y * ln x) with (y * (ln x' - ln x) + (y' - y) * ln x + (y' - y) * (ln x' - ln x)) by ring. unfold d, el.
    eapply Rle_trans; [apply Rabs_triang|]. apply Rplus_le_compat; [eapply Rle_trans; [apply Rabs_triang|]; apply Rplus_le_compat|]; rewrite Rabs_mult;
      apply Rmult_le_compat; auto using Rabs_pos; lra.
Qed.

(** Powers whose exponent is exactly a natural number, of any base. *)
Lemma pow_near n x x' e : Rabs (x' - x) <= e -> Rabs (x' ^ n - x ^ n) <= (Rabs x + e) ^ n - Rabs x ^ n.
Proof.
  intros H. assert (He : 0 <= e) by (pose proof (Rabs_pos (x' - x)); lra). pose proof (Rabs_pos x) as Px.
  assert (X' : Rabs x' <= Rabs x + e). { replace x' with (x + (x' - x)) by ring. eapply Rle_trans; [apply Rabs_triang|]. lra. }
  induction n as [|n IH]; cbn [pow]; [rewrite Rminus_diag_eq, Rabs_R0 by reflexivity; lra|].
  replace (x' * x' ^ n - x * x ^ n) with (x' * (x' ^ n - x ^ n) + (x' - x) * x ^ n) by ring. eapply Rle_trans; [apply Rabs_triang|]. rewrite !Rabs_mult.
  replace ((Rabs x + e) * (Rabs x + e) ^ n - Rabs x * Rabs x ^ n) with ((Rabs x + e) * ((Rabs x + e) ^ n - Rabs x ^ n) + e * Rabs x ^ n) by ring.
  apply Rplus_le_compat; [apply Rmult_le_compat; auto using Rabs_pos|]. rewrite RPow_abs. apply Rmult_le_compat_r; auto using Rabs_pos.
Qed.
Lemma Rpow_nat x n : Rpow x (INR n) = Some (x ^ n).
Proof.
  unfold Rpow. destruct (Rlt_dec 0 x) as [P|P]; [now rewrite Rpower_pow|]. destruct (Req_EM_T x 0) as [->|N].
  - destruct n as [|n]; [simpl; destruct (Rlt_dec 0 0); [lra|]; destruct (Req_EM_T 0 0); [reflexivity|lra]|].
    destruct (Rlt_dec 0 (INR (S n))) as [_|Z]; [|exfalso; apply Z, lt_0_INR; lia]. now rewrite pow_i by lia.
  - assert (I : Int_part (INR n) = Z.of_nat n).
    { unfold Int_part. rewrite INR_IZR_INZ. replace (up (IZR (Z.of_nat n))) with (Z.of_nat n + 1)%Z; [lia|]. apply tech_up; rewrite plus_IZR; lra. }
    rewrite I, <- INR_IZR_INZ. destruct (Req_EM_T (INR n) (INR n)); [|congruence]. now rewrite <- pow_powerRZ.
Qed.
Theorem C59_pow_nat a b x ex n : acc a x ex -> acc b (INR n) 0 ->
  let E := with_rounding c tiny (x ^ n) ((Rabs x + ex) ^ n - Rabs x ^ n) in fits (x ^ n) E -> acc (EBin BPow a b) (x ^ n) E.
Proof.
  intros Ha Hb E F. apply (ac_bin L c renv err BPow a b x ex (INR n) 0 (x ^ n) ((Rabs x + ex) ^ n - Rabs x ^ n)); auto.
  - cbn [r_bin]. apply Rpow_nat.
  - intros x' y' Hx Hy. assert (y' = INR n) as ->. { pose proof (Rabs_pos (y' - INR n)). assert (Z : Rabs (y' - INR n) = 0) by lra.
      destruct (Req_EM_T (y' - INR n) 0); [lra|]. now apply Rabs_no_R0 in Z. }
    exists (x' ^ n). split; [cbn [r_bin]; apply Rpow_nat|now apply pow_near].
Qed.

(** The integer operators on exact operands are exact. *)
Theorem C59_int b a1 a2 x y z : b = BAnd \/ b = BOr \/ b = BMod -> acc a1 x 0 -> acc a2 y 0 -> r_bin b x y = Some z -> Rabs z < huge ->
  acc (EBin b a1 a2) z 0.
Proof.
  intros Hb H1 H2 Ez Hz. assert (E : with_rounding (rel_bin c b) (tiny_bin b) z 0 = 0) by (destruct Hb as [-> | [-> | ->]]; unfold with_rounding; cbn; ring).
  rewrite <- E. apply (ac_bin L c renv err b a1 a2 x 0 y 0 z 0); auto; [|rewrite E; lra].
  assert (Q : forall p q, Rabs (p - q) <= 0 -> p = q). { intros p q Hp. destruct (Req_EM_T (p - q) 0); [lra|]. apply Rabs_pos_lt in n. lra. }
  intros x' y' Hx Hy. rewrite (Q _ _ Hx), (Q _ _ Hy). exists z. split; auto. rewrite Rminus_diag_eq, Rabs_R0 by reflexivity. lra.
Qed.
End Rules.

(** arctan(x)^2 at 3/2, with the correctly rounded library, is within 2e-15. *)
Definition two64 : b64 := b_ofZ 2.
Lemma two64_R : fin two64 /\ B2R two64 = INR 2.
Proof. destruct (ofZ_is 2 ltac:(unfold exact_range; lia)) as [F2 E2]. split; [exact F2|]. unfold two64. rewrite E2. simpl. lra. Qed.
Theorem C59_fun_ex (cfg : config (B64 rounded_libm)) :
  exists v : b64, Vpa cfg (embed (filled rounded_libm (fun _ => three_halves) (EBin BPow (EUn UAtan (EVar "x")) (ENum (two64 : B64 rounded_libm))))) = Ok (v : B64 rounded_libm) /\
    Rabs (B2R v - atan (3 / 2) ^ 2) <= 2 / 10 ^ 15.
Proof.
  destruct three_halves_R as [F T]. destruct two64_R as [F2 T2].
  assert (Hu : ulp1 <= 1 / 9 / 10 ^ 15). { rewrite ulp1_bpow. cbn. lra. }
  assert (Ht : tiny <= 1 / 10 ^ 18). { rewrite tiny_bpow. apply Rle_trans with (bpow radix2 (-60)); [apply bpow_le; lia|cbn; lra]. }
  pose proof ulp1_pos as Pu. pose proof tiny_pos as Pt.
  assert (Big : 10 < huge). { rewrite huge_bpow. apply Rlt_trans with (bpow radix2 4); [cbn; lra|apply bpow_lt; lia]. }
  set (y1 := atan (3 / 2)). assert (B1 : Rabs y1 <= 2). { apply Rabs_le. pose proof (atan_bound (3 / 2)). pose proof PI_4. unfold y1. lra. }
  pose proof (Rabs_pos y1) as P1.
  set (E1 := with_rounding ulp1 tiny y1 0).
  assert (BE1 : 0 <= E1 <= 24 / 10 ^ 17).
  { unfold E1, with_rounding. assert (ulp1 * (Rabs y1 + 0) <= ulp1 * 2) by (apply Rmult_le_compat_l; lra). assert (0 <= ulp1 * (Rabs y1 + 0)) by (apply Rmult_le_pos; lra). lra. }
  set (w := (Rabs y1 + E1) ^ 2 - Rabs y1 ^ 2).
  assert (Bw : 0 <= w <= 1 / 10 ^ 15).
  { unfold w. replace ((Rabs y1 + E1) ^ 2 - Rabs y1 ^ 2) with ((2 * Rabs y1 + E1) * E1) by ring. split; [apply Rmult_le_pos; lra|].
    eapply Rle_trans; [apply Rmult_le_compat with (r2 := 4 + 24 / 10 ^ 17) (r4 := 24 / 10 ^ 17); lra|lra]. }
  assert (B2 : 0 <= y1 ^ 2 <= 4). { split; [apply pow2_ge_0|]. rewrite <- (pow2_abs y1). nra. }
  set (E2 := with_rounding ulp1 tiny (y1 ^ 2) w).
  assert (BE2 : E2 <= 2 / 10 ^ 15).
  { unfold E2, with_rounding. rewrite (Rabs_pos_eq (y1 ^ 2)) by lra. assert (ulp1 * (y1 ^ 2 + w) <= ulp1 * (5)) by (apply Rmult_le_compat_l; lra). lra. }
  destruct (C59_accuracy rounded_libm ulp1 C59_libm_exists cfg (fun _ => three_halves) (fun _ => 3 / 2) (fun _ => 0)
    (EBin BPow (EUn UAtan (EVar "x")) (ENum (two64 : B64 rounded_libm))) (y1 ^ 2) E2) as [_ (v & Ev & Fv & Hv)].
  - intros; exact F.
  - intros. rewrite T. rewrite Rminus_diag_eq, Rabs_R0 by reflexivity. lra.
  - apply (C59_pow_nat rounded_libm ulp1 (fun _ => 3 / 2) (fun _ => 0) _ _ y1 E1 2).
    + apply (C59_atan rounded_libm ulp1 (fun _ => 3 / 2) (fun _ => 0) (EVar "x") (3 / 2) 0); [apply (ac_var rounded_libm ulp1 (fun _ => 3 / 2) (fun _ => 0) "x")|].
      fold y1. fold E1. lra.
    + rewrite <- T2. now apply (ac_num rounded_libm ulp1 (fun _ => 3 / 2) (fun _ => 0) two64).
    + fold w. fold E2. rewrite Rabs_pos_eq; lra.
  - exists v. split; [exact Ev|]. lra.
Qed.
