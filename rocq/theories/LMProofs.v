(** The damped iteration with a symmetric Jacobian (exact reals). *)
From Coq Require Import String List ZArith Bool Arith Lia Reals Lra Psatz.
From Coquelicot Require Import Coquelicot.
From Verif Require Import Base MathOp NodeModel SubsModel DiffModel MatModel LinearModel VarsTableModel SymMatModel NonlinearModel
  ExprSpec SubsSpec MatSpec VarsSpec SymMatSpec NonlinearSpec DiffSpec AffineSpec NewtonSpec LMSpec MatReal MatProofs
  NonlinearProofs Thm_Nonlinear RealSpec AffineSolve LMSolve Thm_Affine Thm_Norms NewtonProofs.
Import ListNotations.
Local Open Scope R_scope.

(** ** Vectors *)
Definition dot (n : nat) (u v : nat -> R) : R := rsum n (fun i => u i * v i).
Lemma dot_ext n u v u' v' : (forall i, (i < n)%nat -> u i = u' i) -> (forall i, (i < n)%nat -> v i = v' i) -> dot n u v = dot n u' v'.
Proof. intros H1 H2. apply Thm_Affine.rsum_ext. intros i Hi. now rewrite H1, H2. Qed.
Lemma dot_comm n u v : dot n u v = dot n v u.
Proof. apply Thm_Affine.rsum_ext. intros; ring. Qed.
Lemma dot_add n u v w : dot n u (fun i => v i + w i) = dot n u v + dot n u w.
Proof. unfold dot. rewrite <- Thm_Affine.rsum_plus. apply Thm_Affine.rsum_ext. intros; ring. Qed.
Lemma dot_mul n u c v : dot n u (fun i => c * v i) = c * dot n u v.
Proof. unfold dot. rewrite <- rsum_scal. apply Thm_Affine.rsum_ext. intros; ring. Qed.
Lemma dot_pos n u : 0 <= dot n u u.
Proof. apply rsum_ge0. intros; nra. Qed.
Lemma cauchy n u v : dot n u v * dot n u v <= dot n u u * dot n v v.
Proof.
  pose proof (dot_pos n u) as U. pose proof (dot_pos n v) as V.
  assert (Q : forall t, 0 <= dot n u u + 2 * t * dot n u v + t * t * dot n v v).
  { intros t. replace (dot n u u + 2 * t * dot n u v + t * t * dot n v v) with (dot n (fun i => u i + t * v i) (fun i => u i + t * v i)); [apply dot_pos|].
    rewrite dot_add, dot_mul, (dot_comm n _ u), (dot_comm n _ v), !dot_add, !dot_mul, (dot_comm n v u). ring. }
  destruct (Req_dec (dot n v v) 0) as [Z|Z].
  - assert (Zv : dot n u v = 0); [|rewrite Zv, Z; lra].
    destruct (Rtotal_order (dot n u v) 0) as [C|[C|C]]; [|exact C|]; exfalso.
    + specialize (Q (- (dot n u u + 1) / (2 * dot n u v))). rewrite Z in Q.
      replace (2 * (- (dot n u u + 1) / (2 * dot n u v)) * dot n u v) with (- (dot n u u + 1)) in Q by (field; lra). lra.
    + specialize (Q (- (dot n u u + 1) / (2 * dot n u v))). rewrite Z in Q.
      replace (2 * (- (dot n u u + 1) / (2 * dot n u v)) * dot n u v) with (- (dot n u u + 1)) in Q by (field; lra). lra.
  - assert (P : 0 < dot n v v) by lra. specialize (Q (- dot n u v / dot n v v)).
    assert (E : (dot n u u + 2 * (- dot n u v / dot n v v) * dot n u v + (- dot n u v / dot n v v) * (- dot n u v / dot n v v) * dot n v v) * dot n v v
      = dot n u u * dot n v v - dot n u v * dot n u v) by (field; lra).
    assert (0 <= (dot n u u + 2 * (- dot n u v / dot n v v) * dot n u v + (- dot n u v / dot n v v) * (- dot n u v / dot n v v) * dot n v v) * dot n v v) by (apply Rmult_le_pos; lra).
    lra.
Qed.
Lemma norm_pos n u : 0 <= norm n u. Proof. apply sqrt_pos. Qed.
Lemma norm_sq n u : norm n u * norm n u = dot n u u. Proof. apply sqrt_sqrt, dot_pos. Qed.
Lemma norm_le n u c : 0 <= c -> dot n u u <= c * c -> norm n u <= c.
Proof. intros Hc H. unfold norm. rewrite <- (sqrt_square c) by exact Hc. now apply sqrt_le_1_alt. Qed.
Lemma norm_ext n u v : (forall i, (i < n)%nat -> u i = v i) -> norm n u = norm n v.
Proof. intros H. unfold norm. f_equal. apply Thm_Affine.rsum_ext. intros i Hi. now rewrite H. Qed.
Lemma dot_norm n u v : Rabs (dot n u v) <= norm n u * norm n v.
Proof.
  pose proof (norm_pos n u). pose proof (norm_pos n v). pose proof (cauchy n u v) as C. rewrite <- !norm_sq in C.
  assert (S : Rabs (dot n u v) * Rabs (dot n u v) = dot n u v * dot n u v) by (rewrite <- Rabs_mult; apply Rabs_pos_eq; nra).
  pose proof (Rabs_pos (dot n u v)). assert (0 <= norm n u * norm n v) by (apply Rmult_le_pos; auto).
  apply Rsqr_incr_0_var; [unfold Rsqr; nra|assumption].
Qed.
Lemma norm_add n u v : norm n (fun i => u i + v i) <= norm n u + norm n v.
Proof.
  pose proof (norm_pos n u). pose proof (norm_pos n v). apply norm_le; [lra|].
  rewrite dot_add, (dot_comm n _ u), (dot_comm n _ v), !dot_add, (dot_comm n v u), <- !norm_sq.
  pose proof (dot_norm n u v). pose proof (Rle_abs (dot n u v)). nra.
Qed.
Lemma norm_mul n c u : norm n (fun i => c * u i) = Rabs c * norm n u.
Proof.
  apply Rle_antisym.
  - apply norm_le; [apply Rmult_le_pos; [apply Rabs_pos|apply norm_pos]|].
    rewrite dot_mul, dot_comm, dot_mul. replace (Rabs c * norm n u * (Rabs c * norm n u)) with ((Rabs c * Rabs c) * (norm n u * norm n u)) by ring.
    rewrite norm_sq, <- Rabs_mult, Rabs_pos_eq by nra. right. ring.
  - destruct (Req_dec c 0) as [->|Hc]; [rewrite Rabs_R0, Rmult_0_l; apply norm_pos|].
    assert (P : 0 < Rabs c) by now apply Rabs_pos_lt. apply Rmult_le_reg_l with (/ Rabs c); [now apply Rinv_0_lt_compat|].
    rewrite <- Rmult_assoc, Rinv_l, Rmult_1_l by lra. apply norm_le; [apply Rmult_le_pos; [left; now apply Rinv_0_lt_compat|apply norm_pos]|].
    replace (/ Rabs c * norm n (fun i => c * u i) * (/ Rabs c * norm n (fun i => c * u i))) with (/ (Rabs c * Rabs c) * (norm n (fun i => c * u i) * norm n (fun i => c * u i))) by (field; lra).
    rewrite norm_sq, <- Rabs_mult, Rabs_pos_eq by nra. rewrite dot_mul, (dot_comm n (fun i => c * u i) u), dot_mul. right. field. exact Hc.
Qed.
Lemma norm_coord n u j : (j < n)%nat -> Rabs (u j) <= norm n u.
Proof.
  intros Hj. apply Rsqr_incr_0_var; [|apply norm_pos]. unfold Rsqr. rewrite norm_sq, <- Rabs_mult, Rabs_pos_eq by nra.
  unfold dot. revert j Hj. induction n as [|n IH]; intros j Hj; [lia|]. cbn [rsum].
  assert (0 <= rsum n (fun i => u i * u i)) by (apply rsum_ge0; intros; nra).
  destruct (Nat.eq_dec j n) as [->|]; [lra|]. specialize (IH j ltac:(lia)). nra.
Qed.
Lemma norm_entries n u c : 0 <= c -> (forall i, (i < n)%nat -> Rabs (u i) <= c) -> dot n u u <= INR n * (c * c).
Proof.
  intros Hc H. apply rsum_le. intros i Hi. specialize (H i Hi). pose proof (Rabs_pos (u i)).
  assert (E : u i * u i = Rabs (u i) * Rabs (u i)) by (rewrite <- Rabs_mult, Rabs_pos_eq; nra). rewrite E. nra.
Qed.
Lemma norm_zero n u : norm n u = 0 -> forall i, (i < n)%nat -> u i = 0.
Proof. intros H i Hi. pose proof (norm_coord n u i Hi) as Q. rewrite H in Q. pose proof (Rabs_pos (u i)). destruct (Req_dec (u i) 0) as [|N]; auto. pose proof (Rabs_pos_lt _ N). lra. Qed.

(** Symmetric matrices. *)
Lemma sym_dot n M u v : (forall i j, (i < n)%nat -> (j < n)%nat -> M i j = M j i) -> dot n u (row_times n M v) = dot n (row_times n M u) v.
Proof.
  intros S. unfold dot, row_times.
  assert (Sw : forall a b (g : nat -> nat -> R), rsum a (fun i => rsum b (g i)) = rsum b (fun j => rsum a (fun i => g i j))).
  { induction a as [|a IH]; intros b g; cbn [rsum]; [induction b as [|b IHb]; cbn [rsum]; [reflexivity|rewrite <- IHb; ring]|]. rewrite IH, <- Thm_Affine.rsum_plus. reflexivity. }
  rewrite (Thm_Affine.rsum_ext n _ (fun i => rsum n (fun j => u i * (M i j * v j)))) by (intros i _; now rewrite rsum_scal).
  rewrite Sw. apply Thm_Affine.rsum_ext. intros j Hj. rewrite Rmult_comm, <- rsum_scal. apply Thm_Affine.rsum_ext. intros i Hi. rewrite (S i j Hi Hj). ring.
Qed.

(** ** One step, algebraically.  J is symmetric, w = J d,  J w + mu d = - J F + rho  with a small rho. *)
Section Core.
Context (n : nat) (J : nat -> nat -> R) (F d rho : nat -> R) (eps mu : R).
Hypotheses (Sym : forall i j, (i < n)%nat -> (j < n)%nat -> J i j = J j i) (He : 0 <= eps) (Hmu : INR n * eps <= mu).
Let w := row_times n J d.
Hypotheses (Hd : forall i, (i < n)%nat -> row_times n J w i + mu * d i = - row_times n J F i + rho i)
  (Hr : forall i, (i < n)%nat -> Rabs (rho i) <= eps * rsum n (fun j => Rabs (d j))).

Lemma s1_sq : rsum n (fun j => Rabs (d j)) * rsum n (fun j => Rabs (d j)) <= INR n * dot n d d.
Proof. exact (sum_abs_sq n d). Qed.

Lemma rho_d : Rabs (dot n rho d) <= mu * dot n d d.
Proof.
  set (s1 := rsum n (fun j => Rabs (d j))) in *.
  assert (B : Rabs (dot n rho d) <= eps * s1 * s1).
  { unfold dot. eapply Rle_trans; [apply NewtonProofs.rsum_abs|]. unfold s1 at 2. rewrite <- rsum_scal. apply rsum_le2. intros j Hj. rewrite Rabs_mult.
    apply Rmult_le_compat_r; [apply Rabs_pos|now apply Hr]. }
  pose proof s1_sq as S. fold s1 in S. pose proof (dot_pos n d). nra.
Qed.
Lemma rho_norm : norm n rho <= mu * norm n d.
Proof.
  pose proof (norm_pos n d). pose proof (pos_INR n). assert (M0 : 0 <= mu) by nra. apply norm_le; [nra|].
  set (s1 := rsum n (fun j => Rabs (d j))) in *. assert (S0 : 0 <= s1) by (apply rsum_ge0; intros; apply Rabs_pos).
  eapply Rle_trans; [apply (norm_entries n rho (eps * s1)); [nra|exact Hr]|].
  pose proof s1_sq as S. fold s1 in S.
  replace (mu * norm n d * (mu * norm n d)) with (mu * mu * dot n d d) by (rewrite <- norm_sq; ring).
  replace (INR n * (eps * s1 * (eps * s1))) with (INR n * (eps * eps) * (s1 * s1)) by ring.
  apply Rle_trans with (INR n * (eps * eps) * (INR n * dot n d d)); [apply Rmult_le_compat_l; [nra|exact S]|].
  replace (INR n * (eps * eps) * (INR n * dot n d d)) with ((INR n * eps) * (INR n * eps) * dot n d d) by ring.
  apply Rmult_le_compat_r; [apply dot_pos|]. apply Rmult_le_compat; auto; nra.
Qed.

(** Descent. *)
Lemma F_w : dot n F w <= - dot n w w.
Proof.
  assert (E : dot n w w + mu * dot n d d = - dot n F w + dot n rho d).
  { transitivity (dot n d (fun i => row_times n J w i + mu * d i)).
    - rewrite dot_add, dot_mul, sym_dot by exact Sym. reflexivity.
    - rewrite (dot_ext n d _ d (fun i => -1 * row_times n J F i + rho i)); [|reflexivity|intros i Hi; rewrite Hd by exact Hi; ring].
      rewrite dot_add, dot_mul, sym_dot, (dot_comm n rho d), (dot_comm n F w) by exact Sym. fold w. ring. }
  pose proof rho_d as R. pose proof (Rle_abs (dot n rho d)). lra.
Qed.
Lemma w_le_F : norm n w <= norm n F.
Proof.
  pose proof F_w as H. pose proof (dot_norm n F w) as C. pose proof (norm_pos n w). pose proof (norm_pos n F). rewrite <- norm_sq in H.
  assert (norm n w * norm n w <= norm n F * norm n w) by (revert C; unfold Rabs; destruct (Rcase_abs _); intros; lra).
  destruct (Req_dec (norm n w) 0) as [->|N]; [assumption|]. apply Rmult_le_reg_r with (norm n w); lra.
Qed.

Context (m G : R).
Hypotheses (Hm : 0 < m) (HJ : stretches n J m G).

Lemma d_le_w : m * norm n d <= norm n w. Proof. apply HJ. Qed.
Lemma F_le_w : m * m * norm n F <= (G * m + 2 * mu) * norm n w.
Proof.
  assert (B : m * norm n F <= G * norm n w + (mu * norm n d + mu * norm n d)).
  { eapply Rle_trans; [apply HJ|].
    rewrite (norm_ext n _ (fun i => -1 * row_times n J w i + (- mu * d i + rho i))) by (intros i Hi; specialize (Hd i Hi); lra).
    eapply Rle_trans; [apply norm_add|]. rewrite norm_mul. replace (Rabs (-1)) with 1 by (rewrite Rabs_left; lra). rewrite Rmult_1_l. apply Rplus_le_compat; [apply HJ|].
    eapply Rle_trans; [apply norm_add|]. apply Rplus_le_compat; [|apply rho_norm].
    rewrite norm_mul, Rabs_Ropp, Rabs_pos_eq; [lra|]. pose proof (pos_INR n). nra. }
  pose proof d_le_w. pose proof (norm_pos n d). assert (M0 : 0 <= mu) by (pose proof (pos_INR n); nra).
  pose proof (norm_pos n w). pose proof (norm_pos n F).
  assert (m * (m * norm n F) <= m * (G * norm n w + (mu * norm n d + mu * norm n d))) by (apply Rmult_le_compat_l; lra).
  assert (mu * (m * norm n d) <= mu * norm n w) by (apply Rmult_le_compat_l; lra). nra.
Qed.

(** The test of the line search. *)
Lemma test_passes alpha E e : 0 < alpha <= 1 -> 0 <= E -> norm n e <= E * (alpha * alpha) * dot n d d -> 13 / 2 * alpha * E * norm n F <= m * m ->
  dot n (fun i => F i + alpha * w i + e i) (fun i => F i + alpha * w i + e i) <= dot n (fun i => F i + 4 / 10 * alpha * w i) (fun i => F i + 4 / 10 * alpha * w i).
Proof.
  intros Ha HE He1 Hz. set (v := fun i => F i + alpha * w i).
  assert (L : dot n (fun i => v i + e i) (fun i => v i + e i) = dot n v v + 2 * dot n v e + dot n e e).
  { rewrite dot_add, (dot_comm n _ v), (dot_comm n _ e), !dot_add, (dot_comm n e v). ring. }
  assert (V : dot n v v = dot n F F + 2 * alpha * dot n F w + alpha * alpha * dot n w w).
  { unfold v. rewrite dot_add, dot_mul, (dot_comm n _ F), (dot_comm n _ w), !dot_add, !dot_mul, (dot_comm n w F). ring. }
  assert (Q : dot n (fun i => F i + 4 / 10 * alpha * w i) (fun i => F i + 4 / 10 * alpha * w i) = dot n F F + 8 / 10 * alpha * dot n F w + 16 / 100 * (alpha * alpha) * dot n w w).
  { rewrite dot_add, dot_mul, (dot_comm n _ F), (dot_comm n _ w), !dot_add, !dot_mul, (dot_comm n w F). field. }
  change (dot n (fun i => v i + e i) (fun i => v i + e i) <= dot n (fun i => F i + 4 / 10 * alpha * w i) (fun i => F i + 4 / 10 * alpha * w i)).
  rewrite L, V, Q. pose proof F_w as FW. pose proof w_le_F as WF. pose proof d_le_w as DW.
  pose proof (norm_pos n F) as NF. pose proof (norm_pos n w) as NW. pose proof (norm_pos n d) as ND. pose proof (norm_pos n e) as NE. pose proof (norm_pos n v) as NV.
  assert (Vl : norm n v <= norm n F).
  { apply norm_le; [exact NF|]. rewrite norm_sq, V. pose proof (dot_pos n w) as P. assert (alpha * alpha * dot n w w <= alpha * dot n w w) by (apply Rmult_le_compat_r; nra).
    assert (alpha * dot n F w <= alpha * - dot n w w) by (apply Rmult_le_compat_l; lra). assert (0 <= alpha * dot n w w) by (apply Rmult_le_pos; lra). lra. }
  pose proof (dot_norm n v e) as VE. pose proof (Rle_abs (dot n v e)). rewrite <- (norm_sq n e), <- (norm_sq n w) in *. rewrite <- (norm_sq n d) in He1.
  set (X := dot n F w) in *. set (f := norm n F) in *. set (W := norm n w) in *. set (D := norm n d) in *. set (ee := norm n e) in *. set (vv := norm n v) in *.
  set (Y := dot n v e) in *. clearbody X f W D ee vv Y. clear L V Q v.
  (* |e| <= z W^2/f-like bounds *)
  assert (DD : m * m * (D * D) <= W * W).
  { replace (m * m * (D * D)) with (m * D * (m * D)) by ring. assert (0 <= m * D) by (apply Rmult_le_pos; lra). apply Rmult_le_compat; lra. }
  assert (E1 : m * m * ee <= E * (alpha * alpha) * (W * W)).
  { apply Rle_trans with (m * m * (E * (alpha * alpha) * (D * D))); [apply Rmult_le_compat_l; nra|].
    replace (m * m * (E * (alpha * alpha) * (D * D))) with (E * (alpha * alpha) * (m * m * (D * D))) by ring. apply Rmult_le_compat_l; [|exact DD]. apply Rmult_le_pos; nra. }
  assert (M2 : 0 < m * m) by nra.
  (* ee * f <= (2/13) alpha W^2 *)
  assert (E2 : ee * f <= 2 / 13 * alpha * (W * W)).
  { apply Rmult_le_reg_l with (m * m); [exact M2|].
    apply Rle_trans with (E * (alpha * alpha) * (W * W) * f).
    - replace (m * m * (ee * f)) with (m * m * ee * f) by ring. apply Rmult_le_compat_r; lra.
    - replace (E * (alpha * alpha) * (W * W) * f) with (2 / 13 * (alpha * (W * W)) * (13 / 2 * alpha * E * f)) by field.
      replace (m * m * (2 / 13 * alpha * (W * W))) with (2 / 13 * (alpha * (W * W)) * (m * m)) by ring.
      apply Rmult_le_compat_l; [|exact Hz]. assert (0 <= alpha * (W * W)) by (apply Rmult_le_pos; nra). lra. }
  (* ee * ee <= (4/169) alpha W^2 *)
  assert (E3 : ee <= 2 / 13 * W).
  { destruct (Req_dec W 0) as [Z|Z].
    - rewrite Z in *. assert (m * m * ee <= 0) by nra. nra.
    - assert (P : 0 < W) by lra. apply Rmult_le_reg_r with W; [exact P|].
      apply Rle_trans with (ee * f); [apply Rmult_le_compat_l; lra|]. eapply Rle_trans; [exact E2|].
      assert (0 <= W * W) by nra. nra. }
  assert (E4 : ee * ee <= 4 / 169 * alpha * (W * W)).
  { apply Rle_trans with (2 / 13 * (ee * f)); [|lra]. apply Rle_trans with (2 / 13 * W * ee); [apply Rmult_le_compat_r; lra|].
    replace (2 / 13 * W * ee) with (2 / 13 * (W * ee)) by ring. apply Rmult_le_compat_l; [lra|]. rewrite (Rmult_comm ee f). apply Rmult_le_compat_r; lra. }
  assert (E5 : Y <= 2 / 13 * alpha * (W * W)).
  { apply Rle_trans with (ee * f); [|exact E2]. apply Rle_trans with (vv * ee); [lra|]. rewrite Rmult_comm. apply Rmult_le_compat_l; lra. }
  assert (E6 : alpha * alpha * (W * W) <= alpha * (W * W)) by (apply Rmult_le_compat_r; nra).
  assert (E7 : alpha * X <= - (alpha * (W * W))) by nra. nra.
Qed.

(** The decrease it guarantees. *)
Lemma decrease alpha c : 0 < alpha <= 1 -> 0 <= c -> c * (G * m + 2 * mu) <= m * m ->
  dot n (fun i => F i + 4 / 10 * alpha * w i) (fun i => F i + 4 / 10 * alpha * w i) <= (1 - 64 / 100 * alpha * (c * c)) * dot n F F.
Proof.
  intros Ha Hc Hcc.
  assert (Q : dot n (fun i => F i + 4 / 10 * alpha * w i) (fun i => F i + 4 / 10 * alpha * w i) = dot n F F + 8 / 10 * alpha * dot n F w + 16 / 100 * (alpha * alpha) * dot n w w).
  { rewrite dot_add, dot_mul, (dot_comm n _ F), (dot_comm n _ w), !dot_add, !dot_mul, (dot_comm n w F). field. }
  rewrite Q. pose proof F_w as FW. pose proof F_le_w as FL. pose proof (norm_pos n F) as NF. pose proof (norm_pos n w) as NW.
  assert (CW : c * norm n F <= norm n w).
  { assert (Mp : 0 < m * m) by nra. apply Rmult_le_reg_l with (m * m); [exact Mp|].
    apply Rle_trans with (c * (m * m * norm n F)); [right; ring|].
    apply Rle_trans with (c * ((G * m + 2 * mu) * norm n w)); [apply Rmult_le_compat_l; lra|].
    replace (c * ((G * m + 2 * mu) * norm n w)) with (c * (G * m + 2 * mu) * norm n w) by ring. apply Rmult_le_compat_r; lra. }
  rewrite <- (norm_sq n w), <- (norm_sq n F) in *.
  assert (C2 : c * c * (norm n F * norm n F) <= norm n w * norm n w).
  { replace (c * c * (norm n F * norm n F)) with (c * norm n F * (c * norm n F)) by ring. assert (0 <= c * norm n F) by (apply Rmult_le_pos; lra). apply Rmult_le_compat; lra. }
  set (X := dot n F w) in *. set (W2 := norm n w * norm n w) in *. set (F2 := norm n F * norm n F) in *.
  assert (0 <= W2) by (unfold W2; nra). assert (alpha * alpha * W2 <= alpha * W2) by (apply Rmult_le_compat_r; nra). assert (alpha * X <= - (alpha * W2)) by nra.
  assert (alpha * (c * c * F2) <= alpha * W2) by (apply Rmult_le_compat_l; lra). nra.
Qed.
End Core.

(** ** One accepted step *)
Lemma step_length_R k : step_length (K:=Rops) k = (Some (/ 2 ^ k) : Rops).
Proof.
  induction k as [|k IH]; [cbn; now rewrite Rinv_1|]. change (step_length (K:=Rops) (S k)) with (n_mul (step_length (K:=Rops) k) (n_dec 5 (-1) : Rops)). rewrite IH.
  change (Some (/ 2 ^ k * (5 * powerRZ 10 (-1))) = Some (/ (2 * 2 ^ k))). f_equal. replace (powerRZ 10 (-1)) with (/ 10) by (simpl; f_equal; lra). field. apply pow_nonzero. lra.
Qed.
Lemma pow2_le1 k : 0 < / 2 ^ k <= 1.
Proof. split; [apply Rinv_0_lt_compat, pow_lt; lra|]. rewrite <- Rinv_1. apply Rinv_le_contravar; [lra|]. apply pow_R1_Rle. lra. Qed.

(** The first index at which a boolean is true. *)
Lemma first_true (T : nat -> bool) : (exists k, T k = true) -> exists k, T k = true /\ forall k', (k' < k)%nat -> T k' = false.
Proof.
  intros [k Hk]. revert Hk. induction k as [k IH] using lt_wf_ind. intros Hk.
  destruct (existsb T (seq 0 k)) eqn:E.
  - apply existsb_exists in E as (k' & I & Hk'). apply in_seq in I. apply (IH k'); auto. lia.
  - exists k. split; [exact Hk|]. intros k' Hl. destruct (T k') eqn:E'; auto. assert (existsb T (seq 0 k) = true); [|congruence].
    apply existsb_exists. exists k'. split; [apply in_seq; lia|exact E'].
Qed.

Section Step.
Context (cfg : config Rops) (eps : R) (xs : list string) (n : nat) (f : nat -> expr Rops) (jac : nat -> nat -> expr Rops)
  (F : nat -> (nat -> R) -> R) (D : nat -> nat -> (nat -> R) -> R) (s s0 : nat -> R) (r m G L a c : R).
Notation Fv p := (fun i => F i p).
Hypotheses (Hn : (0 < n)%nat) (Nd : NoDup xs) (Hx : length xs = n) (Heps : epsilon cfg = Some eps) (He : 0 < eps)
  (Hne : INR n * eps < / 10 ^ 5)
  (HS : system xs n f F D (box n s r)) (HJ : jacobian cfg xs n f jac)
  (Sym : forall p i j, box n s r p -> (i < n)%nat -> (j < n)%nat -> D i j p = D j i p)
  (Lip : forall p q d i j, box n s r p -> box n s r q -> (i < n)%nat -> (j < n)%nat -> near n p q d -> Rabs (D i j p - D i j q) <= L * d)
  (Str : forall p, box n s r p -> stretches n (fun i j => D i j p) m G)
  (Gro : forall p, box n s r p -> m * norm n (fun j => p j - s j) <= norm n (Fv p))
  (Hm : 0 < m) (Hr : 2 * norm n (Fv s0) <= m * r) (Ha : 0 < a <= 1) (HaL : 13 * a * (INR n * L) * norm n (Fv s0) <= m * m)
  (Hc : 0 < c) (HcG : c * (G * m + 2 / 10 ^ 5) <= m * m).
Notation pt s := (fun j => Some (s j) : Rops).
Let mu := / 10 ^ 5.

Lemma mu_dec : (n_dec 1 (-5) : Rops) = Some mu.
Proof. cbn. unfold mu. f_equal. rewrite Rmult_1_l. reflexivity. Qed.

Lemma L_pos p : box n s r p -> 0 <= L.
Proof.
  intros Hp. assert (N : near n p p 1) by (intros k _; rewrite Rminus_eq_0, Rabs_R0; lra).
  pose proof (Lip p p 1 0%nat 0%nat Hp Hp Hn Hn N) as H. pose proof (Rabs_pos (D 0%nat 0%nat p - D 0%nat 0%nat p)). lra.
Qed.

Lemma lm_step_here p : box n s r p -> norm n (Fv p) <= norm n (Fv s0) -> ~ vanish cfg n (fun i => Some (F i p) : Rops) ->
  exists p', lm_step cfg xs n f jac 0 (pt p) (pt p') /\ box n s r p' /\
    dot n (Fv p') (Fv p') <= (1 - 64 / 100 * a * (c * c)) * dot n (Fv p) (Fv p).
Proof.
  intros Hp HF Nv. pose proof (L_pos p Hp) as HL. set (J := fun i j => D i j p). pose proof (Str p Hp) as St. fold J in St.
  assert (Mu : 0 < mu) by (apply Rinv_0_lt_compat, pow_lt; lra).
  assert (SJ : forall i j, (i < n)%nat -> (j < n)%nat -> J i j = J j i) by (intros i j Hi Hj; now apply Sym).
  pose proof (pos_INR n) as Nn.
  set (A := fun i j => rsum n (fun l => J l i * J l j) + (if Nat.eqb i j then 1 else 0) * mu).
  assert (RA : forall y i, (i < n)%nat -> row_times n A y i = row_times n J (row_times n J y) i + mu * y i).
  { intros y i Hi. unfold row_times at 1. unfold A.
    rewrite (Thm_Affine.rsum_ext n _ (fun j => rsum n (fun l => J i l * (J l j * y j)) + (if Nat.eqb j i then mu * y i else 0))).
    2:{ intros j Hj. rewrite Rmult_plus_distr_r. f_equal.
        - rewrite Rmult_comm, <- rsum_scal. apply Thm_Affine.rsum_ext. intros l Hl. rewrite (SJ l i Hl Hi). ring.
        - rewrite Nat.eqb_sym. destruct (Nat.eqb_spec j i) as [->|]; ring. }
    rewrite Thm_Affine.rsum_plus. f_equal.
    - unfold row_times. assert (Sw : forall q b (g : nat -> nat -> R), rsum q (fun i => rsum b (g i)) = rsum b (fun j => rsum q (fun i => g i j))).
      { induction q as [|q IH]; intros b g; cbn [rsum]; [induction b as [|b IHb]; cbn [rsum]; [reflexivity|rewrite <- IHb; ring]|]. rewrite IH, <- Thm_Affine.rsum_plus. reflexivity. }
      rewrite Sw. apply Thm_Affine.rsum_ext. intros l Hl. now rewrite rsum_scal.
    - clear - Hi. induction n as [|k IH]; [lia|]. cbn [rsum]. destruct (Nat.eq_dec i k) as [->|N].
      + rewrite Nat.eqb_refl. assert (Z : rsum k (fun j => if Nat.eqb j k then mu * y k else 0) = 0).
        { assert (Q : forall q, (q <= k)%nat -> rsum q (fun j => if Nat.eqb j k then mu * y k else 0) = 0).
          { induction q as [|q IHq]; intros Hq; cbn [rsum]; [reflexivity|]. rewrite IHq by lia. destruct (Nat.eqb_spec q k); [lia|lra]. }
          now apply Q. }
        lra.
      + rewrite IH by lia. destruct (Nat.eqb_spec k i); [lia|lra]. }
  assert (Def : forall y, mu * rsum n (fun j => y j * y j) <= rsum n (fun i => y i * row_times n A y i)).
  { intros y. rewrite (Thm_Affine.rsum_ext n (fun i => y i * row_times n A y i) (fun i => y i * (row_times n J (row_times n J y) i + mu * y i))) by (intros i Hi; now rewrite RA).
    change (mu * dot n y y <= dot n y (fun i => row_times n J (row_times n J y) i + mu * y i)). rewrite dot_add, dot_mul, sym_dot by exact SJ.
    pose proof (dot_pos n (row_times n J y)). lra. }
  set (b := fun i => - row_times n J (Fv p) i).
  destruct (@solve_definite cfg eps mu n A Heps (Rlt_le _ _ He) Hn Def Hne b) as (d & Sol & Res).
  set (rho := fun i => row_times n A d i - b i).
  set (w := row_times n J d).
  assert (Hd : forall i, (i < n)%nat -> row_times n J (row_times n J d) i + mu * d i = - row_times n J (Fv p) i + rho i).
  { intros i Hi. unfold rho, b. rewrite RA by exact Hi. ring. }
  assert (Hnm : INR n * eps <= mu) by (left; exact Hne).
  pose proof (w_le_F n J (Fv p) d rho eps mu SJ (Rlt_le _ _ He) Hnm Hd Res) as WF. fold w in WF.
  pose proof (d_le_w n J d m G St) as DW. fold w in DW.
  set (q := fun alpha (j : nat) => p j + d j * alpha).
  assert (Hdn : norm n d <= norm n (Fv s0) / m) by (apply Rmult_le_reg_l with m; [exact Hm|]; replace (m * (norm n (Fv s0) / m)) with (norm n (Fv s0)) by (field; lra); lra).
  assert (Hps : norm n (fun j => p j - s j) <= norm n (Fv s0) / m).
  { apply Rmult_le_reg_l with m; [exact Hm|]. replace (m * (norm n (Fv s0) / m)) with (norm n (Fv s0)) by (field; lra). pose proof (Gro p Hp). lra. }
  assert (Hrr : norm n (Fv s0) / m + norm n (Fv s0) / m <= r).
  { apply Rmult_le_reg_l with m; [exact Hm|]. replace (m * (norm n (Fv s0) / m + norm n (Fv s0) / m)) with (2 * norm n (Fv s0)) by (field; lra). exact Hr. }
  assert (Near : forall x, box n p (norm n d) x -> box n s r x).
  { intros x Hb j Hj. replace (x j - s j) with ((x j - p j) + (p j - s j)) by ring. eapply Rle_trans; [apply Rabs_triang|].
    pose proof (Hb j Hj). pose proof (norm_coord n (fun j => p j - s j) j Hj). cbv beta in *. lra. }
  assert (Qp : forall alpha, 0 < alpha <= 1 -> box n p (alpha * norm n d) (q alpha)).
  { intros alpha Hal j Hj. unfold q. replace (p j + d j * alpha - p j) with (alpha * d j) by ring. rewrite Rabs_mult, (Rabs_pos_eq alpha) by lra.
    apply Rmult_le_compat_l; [lra|]. now apply norm_coord. }
  assert (ND : 0 <= norm n d) by apply norm_pos.
  assert (Sub : forall alpha x, 0 < alpha <= 1 -> box n p (alpha * norm n d) x -> box n s r x).
  { intros alpha x Hal Hb. apply Near. intros j Hj. eapply Rle_trans; [now apply Hb|]. nra. }
  (* linearisation *)
  assert (Err : forall alpha, 0 < alpha <= 1 -> norm n (fun i => F i (q alpha) - F i p - alpha * w i) <= INR n * L * (alpha * alpha) * dot n d d).
  { intros alpha Hal. set (e := fun i => F i (q alpha) - F i p - alpha * w i). set (s1 := rsum n (fun j => Rabs (d j))).
    assert (Hs1 : 0 <= s1) by (apply rsum_ge0; intros; apply Rabs_pos).
    assert (Ei : forall i, (i < n)%nat -> Rabs (e i) <= L * (alpha * norm n d) * alpha * s1).
    { intros i Hi. assert (R0 : 0 <= alpha * norm n d) by (apply Rmult_le_pos; lra).
      destruct (staircase xs n f F D (box n s r) Nd Hx HS p (alpha * norm n d) (fun x => Sub alpha x Hal) i (q alpha) Hi R0 (Qp alpha Hal)) as (xi & Hxi & E).
      unfold e. rewrite E. unfold w, row_times. rewrite <- rsum_scal.
      replace (rsum n (fun k => D i k (xi k) * (q alpha k - p k)) - rsum n (fun j => alpha * (J i j * d j))) with (rsum n (fun k => (D i k (xi k) - J i k) * (alpha * d k))).
      2:{ transitivity (rsum n (fun k => D i k (xi k) * (q alpha k - p k)) + -1 * rsum n (fun j => alpha * (J i j * d j))); [|ring]. rewrite <- rsum_scal, <- Thm_Affine.rsum_plus.
          apply Thm_Affine.rsum_ext. intros k Hk. unfold q. ring. }
      eapply Rle_trans; [apply NewtonProofs.rsum_abs|]. unfold s1. rewrite <- rsum_scal. apply rsum_le2. intros k Hk. rewrite !Rabs_mult, (Rabs_pos_eq alpha) by lra.
      replace (L * (alpha * norm n d) * alpha * Rabs (d k)) with (L * (alpha * norm n d) * (alpha * Rabs (d k))) by ring.
      apply Rmult_le_compat_r; [apply Rmult_le_pos; [lra|apply Rabs_pos]|].
      apply Lip; auto. { apply (Sub alpha); auto. apply Hxi, Hk. } exact (proj1 (Hxi k Hk)). }
    assert (B0 : 0 <= L * (alpha * norm n d) * alpha * s1) by (repeat apply Rmult_le_pos; lra).
    apply norm_le; [repeat apply Rmult_le_pos; try lra; apply dot_pos|].
    eapply Rle_trans; [exact (norm_entries n e _ B0 Ei)|].
    replace (INR n * (L * (alpha * norm n d) * alpha * s1 * (L * (alpha * norm n d) * alpha * s1))) with (INR n * (L * L) * (alpha * alpha * (alpha * alpha)) * (norm n d * norm n d) * (s1 * s1)) by ring.
    rewrite norm_sq. pose proof (sum_abs_sq n d) as Q. fold s1 in Q. change (rsum n (fun j => d j * d j)) with (dot n d d) in Q.
    replace (INR n * L * (alpha * alpha) * dot n d d * (INR n * L * (alpha * alpha) * dot n d d)) with (INR n * (L * L) * (alpha * alpha * (alpha * alpha)) * dot n d d * (INR n * dot n d d)) by ring.
    apply Rmult_le_compat_l; [|exact Q]. pose proof (dot_pos n d). repeat apply Rmult_le_pos; lra. }
  (* the test as a boolean *)
  set (lhs := fun alpha => dot n (Fv (q alpha)) (Fv (q alpha))).
  set (rhs := fun alpha => dot n (fun i => F i p + 4 / 10 * alpha * w i) (fun i => F i p + 4 / 10 * alpha * w i)).
  assert (Pass : forall alpha, 0 < alpha <= 1 -> alpha <= 2 * a -> lhs alpha <= rhs alpha).
  { intros alpha Hal H2. unfold lhs, rhs.
    rewrite (dot_ext n (Fv (q alpha)) (Fv (q alpha)) (fun i => F i p + alpha * w i + (F i (q alpha) - F i p - alpha * w i)) (fun i => F i p + alpha * w i + (F i (q alpha) - F i p - alpha * w i))) by (intros; ring).
    apply (test_passes n J (Fv p) d rho eps mu SJ (Rlt_le _ _ He) Hnm Hd Res m G Hm St alpha (INR n * L)); auto.
    { apply Rmult_le_pos; lra. }
    eapply Rle_trans; [|exact HaL]. assert (NL : 0 <= INR n * L) by (apply Rmult_le_pos; lra). pose proof (norm_pos n (Fv p)).
    apply Rle_trans with (13 * a * (INR n * L) * norm n (Fv p)).
    - apply Rmult_le_compat_r; [lra|]. apply Rmult_le_compat_r; lra.
    - apply Rmult_le_compat_l; [|lra]. apply Rmult_le_pos; lra. }
  destruct (first_true (fun k => Rleb (lhs (/ 2 ^ k)) (rhs (/ 2 ^ k)))) as (k & Tk & Fk).
  { assert (Lim : exists k, / 2 ^ k < 2 * a).
    { destruct (pow_lt_1_zero (1 / 2) ltac:(rewrite Rabs_pos_eq; lra) (2 * a) ltac:(lra)) as (k & Hk). exists k. specialize (Hk k (Nat.le_refl _)).
      rewrite Rabs_pos_eq in Hk by (apply pow_le; lra). replace (1 / 2) with (/ 2) in Hk by field. rewrite pow_inv in Hk. exact Hk. }
    destruct Lim as [k Hk]. exists k. apply Rleb_spec. apply Pass; [apply pow2_le1|lra]. }
  set (alpha := / 2 ^ k) in *. pose proof (pow2_le1 k) as Hal. fold alpha in Hal.
  assert (Hla : a <= alpha).
  { destruct k as [|k]; [unfold alpha; cbn; rewrite Rinv_1; lra|]. specialize (Fk k ltac:(lia)). cbv beta in Fk.
    destruct (Rle_lt_dec (/ 2 ^ k) (2 * a)) as [C|C].
    - exfalso. pose proof (Pass (/ 2 ^ k) (pow2_le1 k) C) as Q. apply Rleb_spec in Q. congruence.
    - unfold alpha. cbn [pow]. rewrite Rinv_mult. lra. }
  apply Rleb_spec in Tk.
  pose proof (decrease n J (Fv p) d rho eps mu SJ (Rlt_le _ _ He) Hnm Hd Res m G Hm St alpha c Hal (Rlt_le _ _ Hc)) as Dec. fold w in Dec. fold (rhs alpha) in Dec.
  assert (Dec' : lhs alpha <= (1 - 64 / 100 * a * (c * c)) * dot n (Fv p) (Fv p)).
  { eapply Rle_trans; [exact Tk|]. eapply Rle_trans; [apply Dec; unfold mu; lra|]. apply Rmult_le_compat_r; [apply dot_pos|]. assert (0 <= c * c) by nra. assert (a * (c * c) <= alpha * (c * c)) by (apply Rmult_le_compat_r; lra). lra. }
  assert (FF : 0 < dot n (Fv p) (Fv p)).
  { destruct (Rle_lt_dec (dot n (Fv p) (Fv p)) 0) as [C|]; [|assumption]. exfalso. apply Nv. intros i Hi.
    assert (Z : norm n (Fv p) = 0) by (apply Rle_antisym; [apply norm_le; lra|apply norm_pos]).
    pose proof (norm_zero n _ Z i Hi) as Q. cbv beta in Q. rewrite Q, Heps. cbn. rewrite Rminus_eq_0, Rabs_R0. now apply Rltb_spec. }
  assert (Str' : lhs alpha < dot n (Fv p) (Fv p)).
  { eapply Rle_lt_trans; [exact Dec'|]. assert (0 < a * (c * c)) by (repeat apply Rmult_lt_0_compat; lra). nra. }
  assert (Bq : box n s r (q alpha)) by (apply (Sub alpha); auto).
  assert (VJ : forall i, (i < n)%nat -> values_at cfg xs (pt p) (length xs) (jac i) (fun j => Some (J i j) : Rops)).
  { intros i Hi j Hj. apply (jac_here cfg xs n f jac F D (box n s r) Hn Nd Hx HS HJ i j p); auto. lia. }
  assert (Test : forall j b, Rleb (lhs (/ 2 ^ j)) (rhs (/ 2 ^ j)) = b -> armijo_test cfg xs n f jac (pt p) (pt d) (step_length j) b).
  { intros j bb Hb. exists (fun i => Some (F i (q (/ 2 ^ j))) : Rops), (fun i => Some (F i p) : Rops), (fun i j => Some (J i j) : Rops).
    rewrite step_length_R. split.
    { apply (values_here cfg xs n f F D (box n s r) Hn Nd Hx HS (q (/ 2 ^ j))). apply (Sub (/ 2 ^ j)); [apply pow2_le1|]. apply Qp, pow2_le1. }
    split; [now apply (values_here cfg xs n f F D (box n s r) Hn Nd Hx HS p)|]. split; [exact VJ|].
    replace (sumsq n (fun i => Some (F i (q (/ 2 ^ j))) : Rops)) with (Some (lhs (/ 2 ^ j)) : Rops) by (symmetry; exact (ksum_rsum n (fun i => F i (q (/ 2 ^ j)) * F i (q (/ 2 ^ j))))).
    match goal with |- n_leb _ ?z = _ => replace z with (Some (rhs (/ 2 ^ j)) : Rops) end; [exact Hb|].
    unfold sumsq, rhs, dot. rewrite <- (ksum_rsum n (fun i => (F i p + 4 / 10 * / 2 ^ j * w i) * (F i p + 4 / 10 * / 2 ^ j * w i))).
    apply ksum_ext. intros i Hi.
    assert (T : n_add (Some (F i p) : Rops) (ksum (K:=Rops) n (fun l => n_mul (n_mul (Some (J l i) : Rops) (n_mul (n_dec 4 (-1)) (Some (/ 2 ^ j) : Rops))) (Some (d l) : Rops))) = (Some (F i p + 4 / 10 * / 2 ^ j * w i) : Rops)).
    { change (n_add (Some (F i p) : Rops) (ksum (K:=Rops) n (fun l => Some (J l i * (4 * powerRZ 10 (-1) * / 2 ^ j) * d l) : Rops)) = (Some (F i p + 4 / 10 * / 2 ^ j * w i) : Rops)).
      rewrite ksum_rsum. change (Some (F i p + rsum n (fun l => J l i * (4 * powerRZ 10 (-1) * / 2 ^ j) * d l)) = (Some (F i p + 4 / 10 * / 2 ^ j * w i) : Rops)).
      enough (Q : rsum n (fun l => J l i * (4 * powerRZ 10 (-1) * / 2 ^ j) * d l) = 4 / 10 * / 2 ^ j * w i) by (rewrite Q; reflexivity).
      unfold w, row_times. rewrite <- rsum_scal. apply Thm_Affine.rsum_ext. intros l Hl. rewrite (SJ l i Hl Hi). replace (powerRZ 10 (-1)) with (/ 10) by (simpl; f_equal; lra). field. apply pow_nonzero. lra. }
    rewrite T. reflexivity. }
  exists (q alpha). split; [|split; [exact Bq|exact Dec']].
  exists (fun i => Some (F i p) : Rops), (fun i => Some (F i (q alpha)) : Rops), (n_dec 1 (-5)), (pt p).
  split; [now apply (values_here cfg xs n f F D (box n s r) Hn Nd Hx HS p)|]. split; [exact Nv|]. split; [apply lm_first|]. split.
  - exists (pt d), k. split; [|split; [|split]].
    + exists (fun i j => Some (J i j) : Rops). split; [exact VJ|]. rewrite mu_dec.
      destruct Sol as (A1 & B1 & X1 & HA1 & HB1 & E1 & HX1). exists A1, B1, X1. split; [|split; [|split; [exact E1|exact HX1]]].
      * eapply is_mat_ext; [|exact HA1]. intros i j Hi Hj. unfold A.
        change (Some (rsum n (fun l => J l i * J l j) + (if (i =? j)%nat then 1 else 0) * mu) = n_add (ksum (K:=Rops) n (fun l => Some (J l i * J l j) : Rops)) (n_mul (if (i =? j)%nat then n_ofZ 1 else n_ofZ 0) (Some mu : Rops))).
        rewrite ksum_rsum. destruct (i =? j)%nat; reflexivity.
      * eapply is_mat_ext; [|exact HB1]. intros i j Hi Hj. unfold b.
        change (Some (- row_times n J (Fv p) i) = n_neg (ksum (K:=Rops) n (fun l => Some (J l i * F l p) : Rops))). rewrite ksum_rsum.
        change (Some (- row_times n J (Fv p) i) = (Some (- rsum n (fun l => J l i * F l p)) : Rops)).
        enough (Q : row_times n J (Fv p) i = rsum n (fun l => J l i * F l p)) by (rewrite Q; reflexivity). apply Thm_Affine.rsum_ext. intros l Hl. now rewrite (SJ l i Hl Hi).
    + apply Test. apply Rleb_spec. exact Tk.
    + intros k' Hk'. apply Test. now apply Fk.
    + intros j Hj. rewrite step_length_R. reflexivity.
  - split; [now apply (values_here cfg xs n f F D (box n s r) Hn Nd Hx HS (q alpha))|].
    replace (sumsq n (fun i => Some (F i (q alpha)) : Rops)) with (Some (lhs alpha) : Rops) by (symmetry; exact (ksum_rsum n (fun i => F i (q alpha) * F i (q alpha)))).
    replace (sumsq n (fun i => Some (F i p) : Rops)) with (Some (dot n (Fv p) (Fv p)) : Rops) by (symmetry; exact (ksum_rsum n (fun i => F i p * F i p))).
    now apply Rltb_spec.
Qed.
End Step.
