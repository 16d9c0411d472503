(** C59: accuracy of computations in doubles. *)
From Coq Require Import ZArith Reals Lra Lia List Bool String.
From Flocq Require Import IEEE754.BinarySingleNaN Core.
From Verif Require Import Base MathOp IEEE RealSpec NodeModel NodeProofs ExprSpec SubsSpec MatModel MatSpec MatProofs DetProofs AffineSpec
  VarsTableModel VarsSpec SymMatModel SymMatSpec NonlinearModel NonlinearSpec Thm_Node Thm_Norms Thm_Nonlinear
  FloatSpec FloatFacts IntSpec IntProofs RoundSpec RoundProofs.
Import ListNotations.
Local Open Scope R_scope.

(** ** A C library meeting the requirements: correctly rounded functions *)
Definition tan_defined (x : R) : bool := negb (Req_bool (cos x) 0).
Definition rounded_libm : libm :=
  {| m_pow := rounded_pow;
     m_sin := rounded everywhere sin; m_cos := rounded everywhere cos; m_tan := rounded tan_defined tan;
     m_asin := rounded in_unit asin; m_acos := rounded in_unit acos; m_atan := rounded everywhere atan;
     m_log := rounded positive ln; m_log2 := rounded positive (fun x => ln x / ln 2);
     m_log10 := rounded positive (fun x => ln x / ln 10); m_exp := rounded everywhere exp |}.

Lemma Round_accurate y : (Rabs y * (1 + ulp1) + tiny < huge -> fin (Round y)) /\ (fin (Round y) -> Rabs (B2R (Round y) - y) <= ulp1 * Rabs y + tiny).
Proof.
  pose proof (Round_spec y) as H. split.
  - intros Hs. rewrite Rlt_bool_true in H by now apply rnd_small. apply H.
  - intros F. destruct (Rlt_bool _ _); [|contradiction]. destruct H as [-> _]. destruct (rnd_model y) as (d & t & Hd & Ht & ->).
    replace (y * (1 + d) + t - y) with (d * y + t) by ring. eapply Rle_trans; [apply Rabs_triang|]. apply Rplus_le_compat; auto.
    rewrite Rabs_mult. apply Rmult_le_compat_r; auto using Rabs_pos.
Qed.
Lemma rounded_accurate (dom : R -> bool) (f : R -> R) (x : b64) : fin x ->
  match (if dom (B2R x) then Some (f (B2R x)) else None) with
  | Some y => (Rabs y * (1 + ulp1) + tiny < huge -> fin (rounded dom f x)) /\ (fin (rounded dom f x) -> Rabs (B2R (rounded dom f x) - y) <= ulp1 * Rabs y + tiny)
  | None => ~ fin (rounded dom f x)
  end.
Proof. intros F. unfold rounded. rewrite F. cbn [andb]. destruct (dom (B2R x)); [apply Round_accurate|discriminate]. Qed.

Theorem C59_libm_exists : accurate_libm rounded_libm ulp1.
Proof.
  constructor.
  - pose proof ulp1_pos. lra.
  - intros u x Hu F.
    assert (G : forall dom f, un_sem (K:=B64 rounded_libm) u (x : B64 rounded_libm) = (rounded dom f x : B64 rounded_libm) ->
      r_un u (B2R x) = (if dom (B2R x) then Some (f (B2R x)) else None) ->
      match r_un u (B2R x) with
      | Some y => (Rabs y * (1 + ulp1) + tiny < huge -> fin (un_sem (K:=B64 rounded_libm) u (x : B64 rounded_libm))) /\
                (fin (un_sem (K:=B64 rounded_libm) u (x : B64 rounded_libm)) -> Rabs (B2R (un_sem (K:=B64 rounded_libm) u (x : B64 rounded_libm) : b64) - y) <= ulp1 * Rabs y + tiny)
      | None => ~ fin (un_sem (K:=B64 rounded_libm) u (x : B64 rounded_libm))
      end).
    { intros dom f E1 E2. rewrite E1, E2. apply rounded_accurate, F. }
    assert (U : forall y, in_unit y = if Rle_dec (-1) y then if Rle_dec y 1 then true else false else false).
    { intros y. unfold in_unit. destruct (Rle_dec (-1) y), (Rle_dec y 1); repeat rewrite Rle_bool_true by lra; repeat rewrite Rle_bool_false by lra; try reflexivity.
      - destruct (Rle_bool_spec (-1) y); try lra; reflexivity. }
    assert (P : forall y, positive y = if Rlt_dec 0 y then true else false).
    { intros y. unfold positive. destruct (Rlt_dec 0 y); [apply Rlt_bool_true|apply Rlt_bool_false]; lra. }
    destruct u; try discriminate Hu.
    + now apply (G everywhere sin).
    + now apply (G everywhere cos).
    + apply (G tan_defined tan); [reflexivity|]. unfold tan_defined, r_un.
      destruct (Req_EM_T (cos (B2R x)) 0); [rewrite Req_bool_true by auto|rewrite Req_bool_false by auto]; reflexivity.
    + apply (G in_unit asin); [reflexivity|]. rewrite U. unfold r_un. destruct (Rle_dec (-1) (B2R x)); auto. destruct (Rle_dec (B2R x) 1); auto.
    + apply (G in_unit acos); [reflexivity|]. rewrite U. unfold r_un. destruct (Rle_dec (-1) (B2R x)); auto. destruct (Rle_dec (B2R x) 1); auto.
    + now apply (G everywhere atan).
    + apply (G positive ln); [reflexivity|]. rewrite P. unfold r_un. destruct (Rlt_dec 0 (B2R x)); auto.
    + apply (G positive (fun x => ln x / ln 2)); [reflexivity|]. rewrite P. unfold r_un. destruct (Rlt_dec 0 (B2R x)); auto.
    + apply (G positive (fun x => ln x / ln 10)); [reflexivity|]. rewrite P. unfold r_un. destruct (Rlt_dec 0 (B2R x)); auto.
    + now apply (G everywhere exp).
  - intros x y Fx Fy. change (m_pow rounded_libm x y) with (rounded_pow x y). unfold rounded_pow. rewrite Fx, Fy. cbn [andb]. unfold Rpow.
    set (a := B2R x). set (b := B2R y).
    destruct (Rlt_dec 0 a) as [P|P]; [rewrite Rlt_bool_true by auto; apply Round_accurate|rewrite Rlt_bool_false by lra].
    destruct (Req_EM_T a 0) as [Z|Z]; [rewrite Req_bool_true by auto|rewrite Req_bool_false by auto].
    + destruct (Rlt_dec 0 b) as [Q|Q]; [rewrite Rlt_bool_true by auto|rewrite Rlt_bool_false by lra].
      * split; [reflexivity|]. intros _. cbn [B2R]. rewrite Rminus_0_r, Rabs_R0. pose proof tiny_pos. lra.
      * destruct (Req_EM_T b 0) as [Q'|Q']; [rewrite Req_bool_true by auto; apply Round_accurate|rewrite Req_bool_false by auto; discriminate].
    + assert (IT : forall z, IZR z = b -> Int_part b = z /\ Ztrunc b = z).
      { intros z E. split; [|rewrite <- E; apply Ztrunc_IZR]. rewrite <- E. change (Zfloor (IZR z) = z). apply Zfloor_IZR. }
      destruct (Req_EM_T (IZR (Int_part b)) b) as [E|E].
      * destruct (IT _ E) as [_ E2]. rewrite E2, Req_bool_true by auto. apply Round_accurate.
      * rewrite Req_bool_false; [discriminate|]. intros E2. apply E. destruct (IT _ E2) as [E3 _]. now rewrite E3.
Qed.

(** ** Expressions *)
Section E.
Context (L : libm) (c : R) (HL : accurate_libm L c) (cfg : config (B64 L)).
Notation K := (B64 L).

(** A returned value is the value of the expression in real arithmetic with every operation
    perturbed by a relative error of at most 2^-53 (c for library functions) and, where the result
    can underflow, an absolute error of at most 2^-1075. *)
Theorem C59_standard_model (env : string -> b64) (e : expr K) (v : b64) : throwOnInvalidValue cfg = true ->
  (forall x, fin (env x)) -> all_nums (K:=K) (fun x => fin (x : b64)) e -> Vpa cfg (embed (filled L env e)) = Ok (v : K) ->
  fin v /\ perturbed L c (fun x => B2R (env x)) e (B2R v).
Proof.
  intros Ht Fe Hn E. apply (eval_perturbed L c HL); auto. apply C01_vpa_value_conv in E. rewrite Ht in E. exact E.
Qed.

(** If the analysis yields the real value y and the bound E, evaluation succeeds and its result is
    within E of y; the analysis' y is the mathematical value of the expression. *)
Theorem C59_accuracy (env : string -> b64) (renv err : string -> R) (e : expr K) (y E : R) :
  (forall x, fin (env x)) -> (forall x, Rabs (B2R (env x) - renv x) <= err x) -> accuracy L c renv err e y E ->
  rval renv (real_expr L e) = Some y /\
  exists v : b64, Vpa cfg (embed (filled L env e)) = Ok (v : K) /\ fin v /\ Rabs (B2R v - y) <= E.
Proof.
  intros Fe He H. split; [eapply accuracy_exact; eauto|].
  destruct (eval_accuracy L c HL (throwOnInvalidValue cfg) env renv err e y E Fe He H) as (v & Ev & Fv & Hv).
  exists v. split; auto. now apply C01_vpa_value.
Qed.

(** The analysis of the single operations. *)
Section Rules.
Context (renv err : string -> R).
Notation acc := (accuracy L c renv err).
Notation fits y E := (Rabs y + E < huge).

Theorem C59_neg a x ex : acc a x ex -> 0 <= ex -> fits x ex -> acc (EUn UNeg a) (- x) ex.
Proof.
  intros H P F. assert (E : with_rounding (rel_un c UNeg) (tiny_un UNeg) (- x) ex = ex) by (unfold with_rounding; cbn; ring).
  rewrite <- E. apply (ac_un L c renv err UNeg a x ex); auto.
  - intros x' Hx. exists (- x'). split; [reflexivity|]. replace (- x' - - x) with (- (x' - x)) by ring. now rewrite Rabs_Ropp.
  - rewrite E, Rabs_Ropp. exact F.
Qed.
Theorem C59_add a b x y ex ey : acc a x ex -> acc b y ey -> let E := with_rounding ulp1 0 (x + y) (ex + ey) in
  fits (x + y) E -> acc (EBin BAdd a b) (x + y) E.
Proof.
  intros Ha Hb E F. apply (ac_bin L c renv err BAdd a b x ex y ey (x + y) (ex + ey)); auto.
  intros x' y' Hx Hy. exists (x' + y'). split; [reflexivity|]. replace (x' + y' - (x + y)) with ((x' - x) + (y' - y)) by ring.
  eapply Rle_trans; [apply Rabs_triang|]. lra.
Qed.
Theorem C59_sub a b x y ex ey : acc a x ex -> acc b y ey -> let E := with_rounding ulp1 0 (x - y) (ex + ey) in
  fits (x - y) E -> acc (EBin BSub a b) (x - y) E.
Proof.
  intros Ha Hb E F. apply (ac_bin L c renv err BSub a b x ex y ey (x - y) (ex + ey)); auto.
  intros x' y' Hx Hy. exists (x' - y'). split; [reflexivity|]. replace (x' - y' - (x - y)) with ((x' - x) + - (y' - y)) by ring.
  eapply Rle_trans; [apply Rabs_triang|]. rewrite Rabs_Ropp. lra.
Qed.
Theorem C59_times a b x y ex ey : acc a x ex -> acc b y ey ->
  let E := with_rounding ulp1 tiny (x * y) (Rabs x * ey + ex * Rabs y + ex * ey) in
  fits (x * y) E -> acc (EBin BMul a b) (x * y) E.
Proof.
  intros Ha Hb E F. apply (ac_bin L c renv err BMul a b x ex y ey (x * y) (Rabs x * ey + ex * Rabs y + ex * ey)); auto.
  intros x' y' Hx Hy. exists (x' * y'). split; [reflexivity|]. replace (x' * y' - x * y) with (x * (y' - y) + (x' - x) * y + (x' - x) * (y' - y)) by ring.
  eapply Rle_trans; [apply Rabs_triang|]. eapply Rle_trans; [apply Rplus_le_compat_r, Rabs_triang|]. rewrite !Rabs_mult.
  apply Rplus_le_compat; [apply Rplus_le_compat|]; apply Rmult_le_compat; auto using Rabs_pos; lra.
Qed.
Theorem C59_div a b x y ex ey : acc a x ex -> acc b y ey -> 0 <= ey < Rabs y ->
  let E := with_rounding ulp1 tiny (x / y) ((Rabs x * ey + ex * Rabs y) / (Rabs y * (Rabs y - ey))) in
  fits (x / y) E -> acc (EBin BDiv a b) (x / y) E.
Proof.
  intros Ha Hb He E F. assert (Hy0 : y <> 0). { intros ->. rewrite Rabs_R0 in He. lra. }
  apply (ac_bin L c renv err BDiv a b x ex y ey (x / y) ((Rabs x * ey + ex * Rabs y) / (Rabs y * (Rabs y - ey)))); auto.
  - cbn [r_bin]. destruct (Req_EM_T y 0); [contradiction|reflexivity].
  - intros x' y' Hx Hy. assert (Hy' : Rabs y - ey <= Rabs y').
    { replace y with (y' + - (y' - y)) at 1 by ring. pose proof (Rabs_triang y' (- (y' - y))) as T. rewrite Rabs_Ropp in T. lra. }
    assert (y' <> 0). { intros ->. rewrite Rabs_R0 in Hy'. lra. }
    exists (x' / y'). cbn [r_bin]. destruct (Req_EM_T y' 0); [contradiction|]. split; [reflexivity|].
    replace (x' / y' - x / y) with (((x' - x) * y + - (x * (y' - y))) * / (y * y')) by (field; auto).
    rewrite Rabs_mult, Rabs_inv, Rabs_mult. unfold Rdiv. pose proof (Rabs_pos_lt y Hy0). pose proof (Rabs_pos (x' - x)).
    apply Rmult_le_compat; [apply Rabs_pos| | |].
    + left. apply Rinv_0_lt_compat. apply Rmult_lt_0_compat; [auto|now apply Rabs_pos_lt].
    + eapply Rle_trans; [apply Rabs_triang|]. rewrite Rabs_Ropp, !Rabs_mult, Rplus_comm. apply Rplus_le_compat.
      * apply Rmult_le_compat_l; auto using Rabs_pos.
      * apply Rmult_le_compat_r; auto using Rabs_pos.
    + apply Rinv_le_contravar; [apply Rmult_lt_0_compat; lra|]. apply Rmult_le_compat_l; auto. lra.
Qed.
Theorem C59_sqrt a x ex : acc a x ex -> 0 < x -> 0 <= ex <= x -> let E := with_rounding ulp1 0 (sqrt x) (ex / sqrt x) in
  fits (sqrt x) E -> acc (EUn USqrt a) (sqrt x) E.
Proof.
  intros Ha Hx He E F. apply (ac_un L c renv err USqrt a x ex (sqrt x) (ex / sqrt x)); auto.
  - cbn [r_un]. destruct (Rle_dec 0 x); [reflexivity|lra].
  - intros x' Hx'. assert (0 <= x'). { unfold Rabs in Hx'. destruct (Rcase_abs (x' - x)); lra. }
    exists (sqrt x'). cbn [r_un]. destruct (Rle_dec 0 x'); [|contradiction]. split; [reflexivity|].
    pose proof (sqrt_lt_R0 x Hx) as S1. pose proof (sqrt_pos x') as S2.
    assert (D : (sqrt x' - sqrt x) * (sqrt x' + sqrt x) = x' - x).
    { replace ((sqrt x' - sqrt x) * (sqrt x' + sqrt x)) with (sqrt x' * sqrt x' - sqrt x * sqrt x) by ring. rewrite !sqrt_sqrt by lra. reflexivity. }
    apply Rmult_le_reg_r with (sqrt x); auto. unfold Rdiv. rewrite Rmult_assoc, Rinv_l, Rmult_1_r by lra.
    eapply Rle_trans; [|exact Hx']. rewrite <- D, Rabs_mult, (Rabs_pos_eq (sqrt x' + sqrt x)) by lra. apply Rmult_le_compat_l; [apply Rabs_pos|lra].
Qed.
Lemma sin_abs t : Rabs (sin t) <= Rabs t.
Proof.
  assert (P : forall t, 0 < t -> Rabs (sin t) <= t).
  { intros s Hs. apply Rabs_le. pose proof (sin_lt_x s Hs). split; [|lra].
    destruct (Rle_or_lt 1 s); [pose proof (SIN_bound s); lra|]. assert (0 < sin s) by (apply sin_gt_0; pose proof PI_4; pose proof PI2_1; unfold PI2 in *; lra). lra. }
  destruct (Rtotal_order t 0) as [H|[->|H]].
  - replace t with (- (- t)) at 1 by ring. rewrite sin_neg, Rabs_Ropp, (Rabs_left t) by lra. apply P. lra.
  - rewrite sin_0. lra.
  - rewrite (Rabs_pos_eq t) by lra. now apply P.
Qed.
Lemma sin_lip p q : Rabs (sin p - sin q) <= Rabs (p - q).
Proof.
  rewrite form4, !Rabs_mult. rewrite (Rabs_pos_eq 2) by lra. pose proof (COS_bound ((p + q) / 2)) as C.
  assert (Rabs (cos ((p + q) / 2)) <= 1) by (apply Rabs_le; lra). pose proof (sin_abs ((p - q) / 2)) as S.
  assert (E : Rabs ((p - q) / 2) = Rabs (p - q) / 2). { unfold Rdiv. rewrite Rabs_mult, (Rabs_pos_eq (/ 2)) by lra. reflexivity. } rewrite E in S.
  pose proof (Rabs_pos (cos ((p + q) / 2))). pose proof (Rabs_pos (sin ((p - q) / 2))). pose proof (Rabs_pos (p - q)). nra.
Qed.
Theorem C59_sin a x ex : acc a x ex -> let E := with_rounding c tiny (sin x) ex in fits (sin x) E -> acc (EUn USin a) (sin x) E.
Proof.
  intros Ha E F. apply (ac_un L c renv err USin a x ex (sin x) ex); auto.
  intros x' Hx. exists (sin x'). split; [reflexivity|]. eapply Rle_trans; [apply sin_lip|exact Hx].
Qed.
Theorem C59_cos a x ex : acc a x ex -> let E := with_rounding c tiny (cos x) ex in fits (cos x) E -> acc (EUn UCos a) (cos x) E.
Proof.
  intros Ha E F. apply (ac_un L c renv err UCos a x ex (cos x) ex); auto.
  intros x' Hx. exists (cos x'). split; [reflexivity|]. rewrite <- !sin_shift. eapply Rle_trans; [apply sin_lip|].
  replace (PI / 2 - x' - (PI / 2 - x)) with (- (x' - x)) by ring. now rewrite Rabs_Ropp.
Qed.
Theorem C59_exp a x ex : acc a x ex -> let E := with_rounding c tiny (exp x) (exp x * (exp ex - 1)) in
  fits (exp x) E -> acc (EUn UExp a) (exp x) E.
Proof.
  intros Ha E F. apply (ac_un L c renv err UExp a x ex (exp x) (exp x * (exp ex - 1))); auto.
  intros x' Hx. exists (exp x'). split; [reflexivity|]. set (d := x' - x) in *. replace (exp x' - exp x) with (exp x * (exp d - 1)).
  2:{ unfold d. rewrite Rmult_minus_distr_l, <- exp_plus, Rmult_1_r. f_equal. f_equal. ring. }
  pose proof (exp_pos x) as P. rewrite Rabs_mult, (Rabs_pos_eq (exp x)) by lra. apply Rmult_le_compat_l; [lra|].
  assert (Hex : 0 <= ex) by (pose proof (Rabs_pos d); lra).
  assert (Up : exp d <= exp ex). { assert (d <= ex) by (pose proof (Rle_abs d); lra). destruct H as [H| ->]; [left; now apply exp_increasing|lra]. }
  apply Rabs_le. split; [|lra].
  assert (Lo : exp (- ex) <= exp d). { assert (- ex <= d) by (pose proof (Rle_abs (- d)) as Q; rewrite Rabs_Ropp in Q; lra). destruct H as [H| <-]; [left; now apply exp_increasing|lra]. }
  assert (E1 : exp ex * exp (- ex) = 1) by (rewrite <- exp_plus, Rplus_opp_r; apply exp_0). pose proof (exp_pos (- ex)). pose proof (exp_ineq1_le ex). nra.
Qed.
Lemma ln_div' p q : 0 < p -> 0 < q -> ln (p / q) = ln p - ln q.
Proof. intros Hp Hq. unfold Rdiv. rewrite ln_mult, ln_Rinv; auto using Rinv_0_lt_compat. Qed.
Lemma ln_le t : 0 < t -> ln t <= t - 1.
Proof. intros H. pose proof (exp_ineq1_le (ln t)) as Q. rewrite exp_ln in Q by auto. lra. Qed.
Theorem C59_log a x ex : acc a x ex -> 0 <= ex < x -> let E := with_rounding c tiny (ln x) (ex / (x - ex)) in
  fits (ln x) E -> acc (EUn ULog a) (ln x) E.
Proof.
  intros Ha He E F. apply (ac_un L c renv err ULog a x ex (ln x) (ex / (x - ex))); auto.
  - cbn [r_un]. destruct (Rlt_dec 0 x); [reflexivity|lra].
  - intros x' Hx. assert (B : x - ex <= x' <= x + ex) by (unfold Rabs in Hx; destruct (Rcase_abs (x' - x)); lra).
    exists (ln x'). cbn [r_un]. destruct (Rlt_dec 0 x'); [|lra]. split; [reflexivity|].
    assert (P : forall p q, 0 < p -> 0 < q -> ln p - ln q <= (p - q) / q).
    { intros p q Hp Hq. rewrite <- ln_div' by auto. eapply Rle_trans; [apply ln_le, Rdiv_lt_0_compat; auto|]. right. field. lra. }
    apply Rabs_le. split.
    + pose proof (P x x' ltac:(lra) ltac:(lra)) as Q.
      assert ((x - x') / x' <= ex / (x - ex)).
      { destruct (Rle_or_lt x x').
        - apply Rle_trans with 0; [|apply Rmult_le_pos; [lra|left; apply Rinv_0_lt_compat; lra]].
          apply Rmult_le_reg_r with x'; [lra|]. unfold Rdiv. rewrite Rmult_assoc, Rinv_l; lra.
        - unfold Rdiv. apply Rmult_le_compat; [lra|left; apply Rinv_0_lt_compat; lra|lra|apply Rinv_le_contravar; lra]. }
      lra.
    + pose proof (P x' x ltac:(lra) ltac:(lra)) as Q.
      assert ((x' - x) / x <= ex / (x - ex)).
      { destruct (Rle_or_lt x' x).
        - apply Rle_trans with 0; [|apply Rmult_le_pos; [lra|left; apply Rinv_0_lt_compat; lra]].
          apply Rmult_le_reg_r with x; [lra|]. unfold Rdiv. rewrite Rmult_assoc, Rinv_l; lra.
        - unfold Rdiv. apply Rmult_le_compat; [lra|left; apply Rinv_0_lt_compat; lra|lra|apply Rinv_le_contravar; lra]. }
      lra.
Qed.
End Rules.
End E.

(** ** Vectors and matrices *)
Section M.
Context (L : libm).
Notation K := (B64 L).

(** The dot product: it does not overflow if the products of the absolute values add up to less than
    2^1024 with the roundings, and if it is finite, it is within the bound of n roundings. *)
Theorem C59_dot n (x y : nat -> b64) (v w : mat K) : (0 < n)%nat -> is_vec n (fun i => x i : K) v -> is_vec n (fun i => y i : K) w ->
  (forall i, (i < n)%nat -> fin (x i) /\ fin (y i)) ->
  let size := rsum n (fun i => Rabs (B2R (x i)) * Rabs (B2R (y i))) in
  exists d : b64, Dot v w = Ok (d : K) /\
    ((1 + ulp1) ^ n * (size + INR n * tiny) < huge -> fin d) /\
    (fin d -> Rabs (B2R d - rsum n (fun i => B2R (x i) * B2R (y i))) <= rounding_bound n size (INR n * tiny)).
Proof.
  intros Hn Hv Hw F size. exists (ksum (K:=K) n (fun k => n_mul (x k : K) (y k : K)) : b64). split; [exact (C47_dot (K:=K) n _ _ v w Hv Hw)|].
  split; [exact (dot_fin L n x y Hn F)|]. intros Fd. apply (dot_near L n x y Hn F Fd).
Qed.
Theorem C59_norm2 n (x : nat -> b64) (v : mat K) : (0 < n)%nat -> is_vec n (fun i => x i : K) v -> (forall i, (i < n)%nat -> fin (x i)) ->
  let size := rsum n (fun i => B2R (x i) * B2R (x i)) in let d : b64 := Norm2 v in
    ((1 + ulp1) ^ n * (size + INR n * tiny) < huge -> fin d) /\
    (fin d -> Rabs (B2R d - size) <= rounding_bound n size (INR n * tiny)).
Proof.
  intros Hn Hv F size d.
  assert (Ed : d = ksum (K:=K) n (fun k => n_mul (x k : K) (x k : K))).
  { unfold d. rewrite (C47_norm2 (K:=K) n 1 _ v Hv), Nat.mul_1_r. unfold ksum. apply f_equal. apply map_ext. intros k. now rewrite Nat.div_1_r. }
  assert (Es : size = rsum n (fun i => Rabs (B2R (x i)) * Rabs (B2R (x i)))).
  { apply rsum_eq. intros i _. rewrite <- Rabs_mult. rewrite Rabs_pos_eq; [reflexivity|apply Rle_0_sqr]. }
  rewrite Ed. split.
  - rewrite Es. apply (dot_fin L n x x); auto.
  - intros Fd. pose proof (dot_near L n x x Hn ltac:(auto) Fd) as (_ & _ & _ & H). rewrite <- Es in H. exact H.
Qed.
(** Every entry of a product of matrices. *)
Theorem C59_mul r m c (f g : nat -> nat -> b64) (A B : mat K) : (0 < r)%nat -> (0 < m)%nat -> (0 < c)%nat ->
  is_mat r m (fun i j => f i j : K) A -> is_mat m c (fun i j => g i j : K) B ->
  (forall i k, (i < r)%nat -> (k < m)%nat -> fin (f i k)) -> (forall k j, (k < m)%nat -> (j < c)%nat -> fin (g k j)) ->
  exists (C : mat K) (h : nat -> nat -> b64), Mat_mul A B = Ok C /\ is_mat r c (fun i j => h i j : K) C /\
    forall i j, (i < r)%nat -> (j < c)%nat -> let size := rsum m (fun k => Rabs (B2R (f i k)) * Rabs (B2R (g k j))) in
      ((1 + ulp1) ^ m * (size + INR m * tiny) < huge -> fin (h i j)) /\
      (fin (h i j) -> Rabs (B2R (h i j) - rsum m (fun k => B2R (f i k) * B2R (g k j))) <= rounding_bound m size (INR m * tiny)).
Proof.
  intros Hr Hm Hc HA HB Ff Fg. destruct (Mat_mul_ok (K:=K) r m c _ _ A B Hr Hc HA HB) as (C & E & HC).
  exists C, (fun i j => ksum (K:=K) m (fun k => n_mul (f i k : K) (g k j : K)) : b64). split; [exact E|]. split; [exact HC|].
  intros i j Hi Hj size. assert (F : forall k, (k < m)%nat -> fin (f i k) /\ fin (g k j)) by auto.
  split; [exact (dot_fin L m (fun k => f i k) (fun k => g k j) Hm F)|].
  intros Fd. apply (dot_near L m (fun k => f i k) (fun k => g k j) Hm F Fd).
Qed.
End M.

(** ** Roots *)
Section Root.
Context (L : libm) (c : R) (HL : accurate_libm L c) (cfg : config (B64 L)).
Notation K := (B64 L).

Lemma eval_in_filled s (env : string -> b64) (e : expr K) : eval_in (K:=K) s (fun x => env x : K) e = eval (K:=K) s (filled L env e).
Proof.
  unfold filled. induction e as [v|x|u a IH|b a1 IH1 a2 IH2]; cbn [eval_in subst eval]; auto.
  - now rewrite IH.
  - now rewrite IH1, IH2.
Qed.

(** The real value of every equation at the point Solve returns is below epsilon plus the bound of
    the rounding errors in evaluating the equation there. *)
Theorem C59_root n (f : nat -> expr K) (A : symmat K) (t t' : vars_table K) xs vs fuel afuel :
  (0 < n)%nat -> is_sym n 1 (fun i _ => f i) A -> holds t xs vs -> fin (epsilon cfg : b64) ->
  Solve cfg fuel afuel A t = Ok t' ->
  exists p : nat -> b64, table_at (K:=K) xs t' (fun j => p j : K) /\
    forall (env : string -> b64), (forall x, fin (env x)) -> at_point (K:=K) xs (fun x => env x : K) (fun j => p j : K) ->
    forall i y E, (i < n)%nat -> accuracy L c (fun x => B2R (env x)) (fun _ => 0) (f i) y E ->
      rval (fun x => B2R (env x)) (real_expr L (f i)) = Some y /\ Rabs y < B2R (epsilon cfg : b64) + E.
Proof.
  intros Hn HA Ht Fe ES. destruct (C38_solve_root (K:=K) cfg n f A t xs vs Hn HA Ht fuel afuel t' ES) as (p & T & phi & V & Z).
  exists (fun j => p j : b64). split; [exact T|]. intros env Henv At i y E Hi Ac. split; [eapply accuracy_exact; eauto|].
  destruct (eval_accuracy L c HL (throwOnInvalidValue cfg) env (fun x => B2R (env x)) (fun _ => 0) (f i) y E Henv) as (v & Ev & Fv & Hv); auto.
  { intros x. rewrite Rminus_diag_eq, Rabs_R0 by reflexivity. lra. }
  pose proof (proj2 (V i Hi) (fun x => env x : K) At) as E2. rewrite eval_in_filled, Ev in E2. injection E2 as E2.
  specialize (Z i Hi). rewrite <- E2 in Z. change (Bltb (Babs (Bminus mode_NE v (b_ofZ 0))) (epsilon cfg : b64) = true) in Z.
  assert (F0 : is_Z (b_ofZ 0) 0) by (apply ofZ_is; unfold exact_range; lia). destruct F0 as [F0 E0].
  assert (Fm : fin (Bminus mode_NE v (b_ofZ 0))). { apply sub_fin; auto. rewrite E0, Rminus_0_r, rnd_B2R. now apply fin_of. }
  rewrite Bltb_correct in Z; [|unfold fin in *; now rewrite is_finite_Babs|exact Fe]. 
  rewrite B2R_Babs, sub_R, E0, Rminus_0_r, rnd_B2R in Z by auto.
  destruct (Rlt_bool_spec (Rabs (B2R v)) (B2R (epsilon cfg : b64))) as [Z'|Z']; [|congruence].
  replace y with (B2R v + - (B2R v - y)) by ring. eapply Rle_lt_trans; [apply Rabs_triang|]. rewrite Rabs_Ropp. lra.
Qed.
End Root.

(** ** A concrete case *)
(** The expression sin(x * x) at x = 3/2 with correctly rounded library functions: the value is
    within 4 units of 10^-16 of sin(9/4), for every configuration. *)
Definition three_halves : b64 := Bdiv mode_NE (b_ofZ 3) (b_ofZ 2).
Lemma three_halves_R : fin three_halves /\ B2R three_halves = 3 / 2.
Proof.
  destruct (ofZ_is 3 ltac:(unfold exact_range; lia)) as [F3 E3]. destruct (ofZ_is 2 ltac:(unfold exact_range; lia)) as [F2 E2].
  assert (Er : rnd (3 / 2) = 3 / 2).
  { apply round_generic; [apply valid_rnd_N|]. replace (3 / 2) with (F2R (beta:=radix2) (Float radix2 3 (-1))) by (unfold F2R; cbn; lra).
    apply generic_format_F2R. intros _. unfold cexp, fexp. rewrite (mag_unique radix2 _ 1); [cbn; lia|].
    unfold F2R; cbn. rewrite Rabs_pos_eq by lra. lra. }
  assert (F : fin three_halves).
  { apply div_fin; auto; rewrite ?E2, ?E3; [lra|]. rewrite Er, Rabs_pos_eq by lra. apply Rlt_trans with (bpow radix2 2); [cbn; lra|apply bpow_lt; lia]. }
  split; auto. unfold three_halves in *. rewrite Bdiv_R, E2, E3, Er; auto; rewrite ?E2; lra.
Qed.
Theorem C59_ex (cfg : config (B64 rounded_libm)) :
  exists v : b64, Vpa cfg (embed (filled rounded_libm (fun _ => three_halves) (EUn USin (EBin BMul (EVar "x") (EVar "x"))))) = Ok (v : B64 rounded_libm) /\
    Rabs (B2R v - sin (9 / 4)) <= 4 / 10 ^ 16.
Proof.
  destruct three_halves_R as [F T].
  assert (Hu : ulp1 <= 1 / 9 / 10 ^ 15). { rewrite ulp1_bpow. cbn. lra. }
  assert (Ht : tiny <= 1 / 10 ^ 18). { rewrite tiny_bpow. apply Rle_trans with (bpow radix2 (-60)); [apply bpow_le; lia|cbn; lra]. }
  pose proof ulp1_pos as Pu. pose proof tiny_pos as Pt.
  assert (Big : 10 < huge). { rewrite huge_bpow. apply Rlt_trans with (bpow radix2 4); [cbn; lra|apply bpow_lt; lia]. }
  set (E1 := with_rounding ulp1 tiny (3 / 2 * (3 / 2)) (Rabs (3 / 2) * 0 + 0 * Rabs (3 / 2) + 0 * 0)).
  assert (B1 : 0 <= E1 <= 26 / 10 ^ 17). { unfold E1, with_rounding. rewrite !(Rabs_pos_eq) by lra. lra. }
  set (y := sin (3 / 2 * (3 / 2))).
  assert (By : Rabs y <= 1). { apply Rabs_le. pose proof (SIN_bound (3 / 2 * (3 / 2))). unfold y. lra. }
  set (E2 := with_rounding ulp1 tiny y E1).
  assert (B2 : E2 <= 4 / 10 ^ 16). { unfold E2, with_rounding. pose proof (Rabs_pos y). assert (ulp1 * (Rabs y + E1) <= ulp1 * (1 + 26 / 10 ^ 17)) by (apply Rmult_le_compat_l; lra). nra. }
  destruct (C59_accuracy rounded_libm ulp1 C59_libm_exists cfg (fun _ => three_halves) (fun _ => 3 / 2) (fun _ => 0)
    (EUn USin (EBin BMul (EVar "x") (EVar "x"))) y E2) as [_ (v & Ev & Fv & Hv)].
  - intros; exact F.
  - intros. rewrite T. rewrite Rminus_diag_eq, Rabs_R0 by reflexivity. lra.
  - apply (C59_sin rounded_libm ulp1 (fun _ => 3 / 2) (fun _ => 0)); [|fold y; fold E2; lra].
    apply (C59_times rounded_libm ulp1 (fun _ => 3 / 2) (fun _ => 0) (EVar "x") (EVar "x") (3 / 2) (3 / 2) 0 0).
    + apply (ac_var rounded_libm ulp1 (fun _ => 3 / 2) (fun _ => 0) "x").
    + apply (ac_var rounded_libm ulp1 (fun _ => 3 / 2) (fun _ => 0) "x").
    + fold E1. rewrite Rabs_pos_eq by lra. lra.
  - exists v. split; [exact Ev|]. replace (9 / 4) with (3 / 2 * (3 / 2)) by lra. fold y. lra.
Qed.
