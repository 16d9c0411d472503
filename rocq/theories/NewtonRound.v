(** Newton-Raphson near a regular root, in doubles. *)
From Coq Require Import String List ZArith Bool Arith Lia Reals Lra Classical.
From Flocq Require Import IEEE754.BinarySingleNaN Core.
From Verif Require Import Base MathOp NodeModel SubsModel DiffModel MatModel LinearModel VarsTableModel SymMatModel NonlinearModel
  ExprSpec SubsSpec MatSpec VarsSpec SymMatSpec NonlinearSpec DiffSpec AffineSpec NewtonSpec NodeProofs SymMatProofs Thm_Node Thm_Subs Thm_Vars Thm_SymMat DiffProofs Thm_Diff
  NonlinearProofs Thm_Nonlinear IEEE RealSpec AffineSolve Thm_Affine NewtonProofs FloatSpec FloatFacts IntSpec IntProofs RoundSpec RoundProofs Thm_Round
  SolveSpec LinRound LinFloat LinLoop Thm_Solve DerivSpec Thm_Deriv Newton64Spec.
Import ListNotations.
Local Open Scope string_scope.
Local Open Scope list_scope.
Local Open Scope R_scope.

Lemma norm1_ge n z j : (j < n)%nat -> Rabs (z j) <= norm1 n z.
Proof. intros Hj. apply (rsum_in n (fun j => Rabs (z j))); auto. intros. apply Rabs_pos. Qed.
Lemma norm1_le n x y : (forall j, (j < n)%nat -> Rabs (x j) <= Rabs (y j)) -> norm1 n x <= norm1 n y.
Proof. intros H. apply rsum_le. exact H. Qed.
Lemma norm1_plus n x y : norm1 n (fun j => x j + y j) <= norm1 n x + norm1 n y.
Proof. unfold norm1. rewrite <- rsum_plus. apply rsum_le. intros j _. apply Rabs_triang. Qed.
Lemma norm1_ext n x y : (forall j, (j < n)%nat -> x j = y j) -> norm1 n x = norm1 n y.
Proof. intros H. apply rsum_eq. intros j Hj. now rewrite H. Qed.
Lemma norm1_opp n x : norm1 n (fun j => - x j) = norm1 n x.
Proof. apply rsum_eq. intros j _. apply Rabs_Ropp. Qed.
Lemma norm1_scale n a x : norm1 n (fun j => a * x j) = Rabs a * norm1 n x.
Proof. unfold norm1. rewrite <- LinRound.rsum_scale. apply rsum_eq. intros j _. apply Rabs_mult. Qed.

(** ** Matrices far from singular *)
Lemma row_diff n f g z i e : (forall j, (j < n)%nat -> Rabs (g i j - f i j) <= e) -> Rabs (row_times n g z i - row_times n f z i) <= e * norm1 n z.
Proof.
  intros H. replace (row_times n g z i - row_times n f z i) with (rsum n (fun j => (g i j - f i j) * z j)).
  - eapply Rle_trans; [apply NewtonProofs.rsum_abs|]. unfold norm1. rewrite <- LinRound.rsum_scale. apply rsum_le. intros j Hj. rewrite Rabs_mult.
    apply Rmult_le_compat_r; [apply Rabs_pos|auto].
  - assert (S := LinRound.rsum_plus n (fun j => g i j * z j) (fun j => -1 * (f i j * z j))). rewrite LinRound.rsum_scale in S.
    unfold row_times. rewrite (rsum_eq n _ (fun j => g i j * z j + -1 * (f i j * z j))) by (intros; ring). lra.
Qed.
Lemma far_near n f g d e : far_from_singular n f d -> (forall i j, (i < n)%nat -> (j < n)%nat -> Rabs (g i j - f i j) <= e) -> far_from_singular n g (d - e).
Proof.
  intros H Hg z Hz. destruct (H z Hz) as (i & Hi & Q). exists i. split; [exact Hi|].
  pose proof (row_diff n f g z i e ltac:(auto)) as B. pose proof (Rabs_triang (row_times n g z i) (- (row_times n g z i - row_times n f z i))) as T.
  rewrite Rabs_Ropp in T. replace (row_times n g z i + - (row_times n g z i - row_times n f z i)) with (row_times n f z i) in T by ring. lra.
Qed.
Lemma far_mono n f d d' : d' <= d -> far_from_singular n f d -> far_from_singular n f d'.
Proof.
  intros H Hf z Hz. destruct (Hf z Hz) as (i & Hi & Q). exists i. split; [exact Hi|]. eapply Rle_lt_trans; [|exact Q].
  apply Rmult_le_compat_r; [apply norm1_pos|exact H].
Qed.
Lemma far_bound n f d z B : far_from_singular n f d -> 0 <= B -> (forall i, (i < n)%nat -> Rabs (row_times n f z i) <= B) -> d * norm1 n z <= B.
Proof.
  intros H HB Hz. destruct (Rle_or_lt (norm1 n z) 0) as [N|N].
  - assert (norm1 n z = 0) as -> by (pose proof (norm1_pos n z); lra). lra.
  - destruct (H z (norm1_nonzero n z N)) as (i & Hi & Q). specialize (Hz i Hi). lra.
Qed.

(** One step with errors everywhere. *)
Lemma step_real n (Dp ja : nat -> nat -> R) (Fp phi h q s : nat -> R) d eF eD tol fB Rr e : far_from_singular n Dp d -> tol + eD < d ->
  0 <= eF -> 0 <= eD -> 0 <= tol -> 0 <= fB -> 0 <= Rr ->
  (forall i j, (i < n)%nat -> (j < n)%nat -> Rabs (ja i j - Dp i j) <= eD) -> (forall i, (i < n)%nat -> Rabs (phi i - Fp i) <= eF) ->
  (forall i, (i < n)%nat -> Rabs (row_times n ja h i + phi i) <= tol * norm1 n h + fB) ->
  (forall i, (i < n)%nat -> Rabs (Fp i + row_times n Dp (fun j => s j - q j) i) <= Rr) -> norm1 n (fun j => q j - s j) <= e ->
  norm1 n (fun j => q j + h j - s j) <= (Rr + eF + fB + (tol + eD) * e) / (d - tol - eD).
Proof.
  intros Hfar Hd PF PD PT PB PR Hja Hphi Hres Hlin He. set (y := fun j => q j + h j - s j).
  assert (Nh : norm1 n h <= norm1 n y + e).
  { rewrite (norm1_ext n h (fun j => y j + - (q j - s j))) by (intros; unfold y; ring). eapply Rle_trans; [apply norm1_plus|]. rewrite norm1_opp. lra. }
  assert (P1 := norm1_pos n y). assert (P2 := norm1_pos n h). assert (P3 := norm1_pos n (fun j => q j - s j)).
  assert (G : d * norm1 n y <= Rr + eF + fB + (tol + eD) * (norm1 n y + e)).
  { apply (far_bound n Dp d y _ Hfar).
    - assert (0 <= (tol + eD) * (norm1 n y + e)) by (apply Rmult_le_pos; lra). lra.
    - intros i Hi. specialize (Hphi i Hi). specialize (Hres i Hi). specialize (Hlin i Hi). pose proof (row_diff n Dp ja h i eD ltac:(auto)) as Hd'.
      assert (Ey : row_times n Dp y i = row_times n Dp h i - row_times n Dp (fun j => s j - q j) i).
      { rewrite <- row_times_minus. unfold row_times. apply rsum_eq. intros j _. unfold y. ring. }
      replace (row_times n Dp y i) with ((row_times n ja h i + phi i) + (- (row_times n ja h i - row_times n Dp h i) + (- (phi i - Fp i) + - (Fp i + row_times n Dp (fun j => s j - q j) i)))) by (rewrite Ey; ring).
      eapply Rle_trans; [apply Rabs_triang|]. eapply Rle_trans; [apply Rplus_le_compat_l, Rabs_triang|]. eapply Rle_trans; [apply Rplus_le_compat_l, Rplus_le_compat_l, Rabs_triang|]. rewrite !Rabs_Ropp.
      assert ((tol + eD) * norm1 n h <= (tol + eD) * (norm1 n y + e)) by (apply Rmult_le_compat_l; lra). lra. }
  apply Rmult_le_reg_r with (d - tol - eD); [lra|]. unfold Rdiv. rewrite Rmult_assoc, Rinv_l, Rmult_1_r by lra. lra.
Qed.

(** ** Values at points of doubles *)
Lemma eval_in_same {K : num_ops} st (env env' : string -> K) (e : expr K) : (forall x, occurs x e -> env x = env' x) -> eval_in st env e = eval_in st env' e.
Proof.
  induction e as [v|x|u a IH|b a1 IH1 a2 IH2]; intros H; cbn [eval_in].
  - reflexivity.
  - now rewrite (H x) by constructor.
  - rewrite IH; [reflexivity|]. intros x Ox. apply H. now constructor.
  - rewrite IH1, IH2; [reflexivity| |]; intros x Ox; apply H; solve [now apply occ_r|now apply occ_l].
Qed.
Lemma vars_real L xs (e : expr (B64 L)) : vars_within (K:=Rops) xs (real_expr L e) -> vars_within xs e.
Proof.
  intros H x Ox. apply H. clear H. induction Ox; cbn [real_expr]; [apply occ_var|apply occ_un|apply occ_l|apply occ_r]; assumption.
Qed.
Definition env64 (xs : list string) (q : nat -> b64) (x : string) : b64 := if (index x xs <? length xs)%nat then q (index x xs) else B754_zero false.
Lemma env64_at (L : libm) xs q : NoDup xs -> at_point (K:=B64 L) xs (fun x => env64 xs q x : B64 L) (fun j => q j : B64 L).
Proof.
  intros Nd j x Hj. rewrite <- (nth_error_nth xs j EmptyString Hj). assert (Hl : (j < length xs)%nat) by (apply nth_error_Some; congruence).
  unfold env64. rewrite index_nth by auto. destruct (Nat.ltb_spec j (length xs)); [reflexivity|lia].
Qed.
Lemma env64_fin xs q : (forall j, (j < length xs)%nat -> fin (q j)) -> forall x, fin (env64 xs q x).
Proof. intros H x. unfold env64. destruct (Nat.ltb_spec (index x xs) (length xs)); auto. reflexivity. Qed.
Lemma env64_reals (L : libm) xs q : NoDup xs -> at_reals xs (fun x => B2R (env64 xs q x)) (reals q).
Proof. intros Nd j Hj. unfold reals. f_equal. exact (env64_at L xs q Nd j _ (nth_error_nth' xs EmptyString Hj)). Qed.

Section Step64.
Context (L : libm) (c : R) (cfg : config (B64 L)) (xs : list string) (n : nat) (f : nat -> expr (B64 L)) (jac : nat -> nat -> expr (B64 L))
  (F : nat -> (nat -> R) -> R) (D : nat -> nat -> (nat -> R) -> R) (eF eD : R) (P : (nat -> R) -> Prop).
Notation K := (B64 L).
Notation eps := (B2R (epsilon cfg : b64)).
Hypotheses (HI : ieee_libm L) (HL : accurate_libm L c) (Hth : throwOnInvalidValue cfg = true) (Feps : fin (epsilon cfg))
  (Hn : (0 < n)%nat) (Nd : NoDup xs) (Hx : length xs = n)
  (Fe : forall i, (i < n)%nat -> all_nums (K:=K) fin (f i))
  (HS : system xs n (fun i => real_expr L (f i)) F D P) (HZ : analysed L c xs n f F D eF eD P) (HJ : jacobian cfg xs n f jac).
Notation pt q := (fun j => q j : K).

Lemma values_here64 q : P (reals q) -> (forall j, (j < n)%nat -> fin (q j)) ->
  exists phi : nat -> b64, values_at cfg xs (pt q) n f (fun i => phi i : K) /\ forall i, (i < n)%nat -> fin (phi i) /\ Rabs (B2R (phi i) - F i (reals q)) <= eF.
Proof.
  intros Hp Fq. rewrite <- Hx in Fq. pose proof (env64_fin xs q Fq) as Fenv. pose proof (env64_at L xs q Nd) as At.
  destruct (choose1 (B754_zero false : b64) (fun i v => (vars_within xs (f i) /\ forall env, at_point (K:=K) xs env (pt q) -> eval_in (throwOnInvalidValue cfg) env (f i) = ExprSpec.Value (v : K)) /\
      fin v /\ Rabs (B2R v - F i (reals q)) <= eF) n) as [phi H].
  - intros i Hi. destruct (HZ q (env64 xs q) Hp Fenv At i Hi) as [(E & Ac & HE) _].
    assert (H0 : forall x, Rabs (B2R (env64 xs q x) - B2R (env64 xs q x)) <= 0) by (intros x; rewrite Rminus_diag_eq, Rabs_R0 by reflexivity; lra).
    destruct (eval_accuracy L c HL (throwOnInvalidValue cfg) (env64 xs q) _ (fun _ => 0) (f i) _ E Fenv H0 Ac) as (v & Ev & Fv & Hv).
    assert (W : vars_within xs (f i)) by (apply vars_real, (HS i Hi)).
    exists v. split; [split; [exact W|]|split; [exact Fv|lra]]. intros env Ha. rewrite <- Ev, <- eval_in_filled. apply eval_in_same.
    intros x Ox. apply W in Ox. apply In_nth_error in Ox as [j Hj]. now rewrite (Ha j x Hj), (At j x Hj).
  - exists phi. split; [|intros i Hi; apply H, Hi]. intros i Hi. apply H, Hi.
Qed.

Lemma no_int_real (e : expr K) : no_int_ops (K:=Rops) (real_expr L e) -> no_int_ops e.
Proof. induction e as [|?|? ? IH|b ? IH1 ? IH2]; cbn; auto. destruct b; tauto. Qed.

Lemma jac_here64 q : P (reals q) -> (forall j, (j < n)%nat -> fin (q j)) ->
  exists M : nat -> nat -> b64, (forall i, (i < n)%nat -> values_at cfg xs (pt q) n (jac i) (fun j => M i j : K)) /\
    forall i j, (i < n)%nat -> (j < n)%nat -> fin (M i j) /\ Rabs (B2R (M i j) - D i j (reals q)) <= eD.
Proof.
  intros Hp Fq. rewrite <- Hx in Fq. pose proof (env64_fin xs q Fq) as Fenv. pose proof (env64_at L xs q Nd) as At.
  destruct (choose2 (B754_zero false : b64) (fun i j v => (vars_within xs (jac i j) /\ forall env, at_point (K:=K) xs env (pt q) -> eval_in (throwOnInvalidValue cfg) env (jac i j) = ExprSpec.Value (v : K)) /\
      fin v /\ Rabs (B2R v - D i j (reals q)) <= eD) n n) as [M H].
  - intros i j Hi Hj. destruct (HS i Hi) as [W HSi]. apply vars_real in W.
    destruct (HSi (reals q) _ Hp (env64_reals L xs q Nd)) as [_ Hd]. destruct (Hd j ltac:(lia)) as [Sm Pa]. clear Hd HSi.
    assert (Ni : no_int_ops (f i)) by (apply no_int_real; eapply smooth_no_int; exact Sm).
    destruct (HZ q (env64 xs q) Hp Fenv At i Hi) as [_ Hz]. destruct (Hz j Hj) as (Hz0 & E & Ac & HE). clear Hz.
    set (x := nth j xs EmptyString) in *.
    assert (Df : Diff cfg (embed (f i)) x 1 = Ok (embed (jac i j))) by (apply HJ; [exact Hi|apply nth_error_nth'; lia]).
    destruct (C22_diff_outcome K cfg (f i) x 1) as [(e2 & D2 & _ & _ & O)|[_ D2]]; [lia|exact Ni| |change (Z.of_nat 1) with 1%Z in D2; congruence].
    change (Z.of_nat 1) with 1%Z in D2. rewrite Df in D2. injection D2 as D2. apply embed_inj in D2. subst e2.
    assert (W' : vars_within xs (jac i j)) by (intros y Oy; apply W, O, Oy).
    destruct (C63_accuracy L cfg c (f i) x (env64 xs q) (fun x => B2R (env64 xs q x)) (fun _ => 0) (D i j (reals q)) E HI HL Hth (Fe i Hi) Fenv) as (_ & e2 & v & D2 & Ev & Fv & Hv); auto.
    { intros y. rewrite Rminus_diag_eq, Rabs_R0 by reflexivity. lra. }
    rewrite Df in D2. injection D2 as D2. apply embed_inj in D2. subst e2.
    exists v. split; [split; [exact W'|]|split; [exact Fv|lra]]. intros env Ha. apply C01_vpa_value_conv in Ev. rewrite <- Ev, <- eval_in_filled. apply eval_in_same.
    intros y Oy. apply W' in Oy. apply In_nth_error in Oy as [k Hk]. now rewrite (Ha k y Hk), (At k y Hk).
  - exists M. split; [|intros i j Hi Hj; now apply H]. intros i Hi j Hj. now apply H.
Qed.

Lemma zero_test (v : b64) : fin v -> n_ltb (n_abs (n_sub (v : K) (n_ofZ 0))) (epsilon cfg) = Rlt_bool (Rabs (B2R v)) eps.
Proof.
  intros Fv. change (Bltb (Babs (Bminus mode_NE v (b_ofZ 0))) (epsilon cfg : b64) = Rlt_bool (Rabs (B2R v)) eps).
  assert (F0 : is_Z (b_ofZ 0) 0) by (apply ofZ_is; unfold exact_range; lia). destruct F0 as [F0 E0].
  assert (Fm : fin (Bminus mode_NE v (b_ofZ 0))). { apply sub_fin; auto. rewrite E0, Rminus_0_r, rnd_B2R. now apply fin_of. }
  rewrite Bltb_correct; [|unfold fin in *; now rewrite is_finite_Babs|exact Feps].
  now rewrite B2R_Babs, sub_R, E0, Rminus_0_r, rnd_B2R by auto.
Qed.

(** Whether a point solves the equations is decided, up to the error eF. *)
Lemma solved_cases64 q : P (reals q) -> (forall j, (j < n)%nat -> fin (q j)) ->
  (NonlinearSpec.solved cfg xs n f (pt q) /\ forall i, (i < n)%nat -> Rabs (F i (reals q)) < eps + eF) \/
  (~ NonlinearSpec.solved cfg xs n f (pt q) /\ exists i, (i < n)%nat /\ eps - eF <= Rabs (F i (reals q))).
Proof.
  intros Hp Fq. destruct (values_here64 q Hp Fq) as (phi & V & Hphi).
  destruct (all_dec n (fun i => Rabs (B2R (phi i))) eps) as [H|H].
  - left. split.
    + exists (fun i => phi i : K). split; [exact V|]. intros i Hi. rewrite zero_test by now apply Hphi. apply Rlt_bool_true, H, Hi.
    + intros i Hi. specialize (H i Hi). cbv beta in H. destruct (Hphi i Hi) as [_ Q]. replace (F i (reals q)) with (B2R (phi i) + - (B2R (phi i) - F i (reals q))) by ring.
      eapply Rle_lt_trans; [apply Rabs_triang|]. rewrite Rabs_Ropp. lra.
  - right. split.
    + intros (phi' & V' & Z). apply H. intros i Hi. pose proof (env64_at L xs q Nd) as At.
      pose proof (proj2 (V i Hi) _ At) as E1. pose proof (proj2 (V' i Hi) _ At) as E2. rewrite E1 in E2. injection E2 as E2.
      specialize (Z i Hi). rewrite <- E2, zero_test in Z by now apply Hphi. destruct (Rlt_bool_spec (Rabs (B2R (phi i))) eps); [assumption|discriminate].
    + apply not_all_ex_not in H as [i H]. apply imply_to_and in H as [Hi H]. exists i. split; [exact Hi|]. apply Rnot_lt_le in H.
      destruct (Hphi i Hi) as [_ Q]. assert (Rabs (B2R (phi i)) <= Rabs (F i (reals q)) + eF); [|lra].
      replace (B2R (phi i)) with (F i (reals q) + (B2R (phi i) - F i (reals q))) by ring. eapply Rle_trans; [apply Rabs_triang|]. lra.
Qed.

(** One step of the iteration from p, adding to q: how far from s. *)
Lemma step64 (p q : nat -> b64) (s : nat -> R) d M B Rr e w : P (reals p) -> (forall j, (j < n)%nat -> fin (p j)) -> (forall j, (j < n)%nat -> fin (q j)) ->
  let tol := solve_tolerance n eps M in
  far_from_singular n (fun i j => D i j (reals p)) d -> 2 * tol + eD <= d ->
  (forall i j, (i < n)%nat -> (j < n)%nat -> Rabs (D i j (reals p)) + eD <= M) -> (forall i, (i < n)%nat -> Rabs (F i (reals p)) + eF <= B) ->
  solve_range n eps M B -> 0 <= Rr ->
  (forall i, (i < n)%nat -> Rabs (F i (reals p) + row_times n (fun i j => D i j (reals p)) (fun j => s j - B2R (q j)) i) <= Rr) ->
  norm1 n (fun j => B2R (q j) - s j) <= e ->
  (Rr + eF + solve_factor n * B + (tol + eD) * e) / (d - tol - eD) <= w -> norm1 n s + w <= large ->
  exists q' : nat -> b64, newton_step cfg xs n f jac (pt p) (pt q) (pt q') /\ (forall j, (j < n)%nat -> fin (q' j)) /\
    norm1 n (fun j => B2R (q' j) - s j) <= (1 + ulp1) * w + ulp1 * norm1 n s.
Proof.
  intros Hp Fp Fq tol Hfar Hd HM HB HR PR Hlin He Hw Hl.
  destruct (values_here64 p Hp Fp) as (phi & V & Hphi). destruct (jac_here64 p Hp Fp) as (J & VJ & HJa).
  destruct (@is_mat_build K n n (fun i j => J i j : K)) as [A HA]. destruct (@is_mat_build K n 1 (fun i _ => n_neg (phi i : K))) as [b Hb].
  assert (PD : 0 <= eD) by (destruct (HJa 0%nat 0%nat Hn Hn) as [_ Q]; eapply Rle_trans; [apply Rabs_pos|exact Q]).
  assert (PF : 0 <= eF) by (destruct (Hphi 0%nat Hn) as [_ Q]; eapply Rle_trans; [apply Rabs_pos|exact Q]).
  destruct HR as (He1 & HM1 & HB1 & HR). assert (Pe : 0 < eps) by (now apply eps_pos).
  assert (Pf : 0 <= solve_factor n). { unfold solve_factor. pose proof (pos_INR (n + 1)). pose proof ulp1_pos. assert (0 <= 2 ^ n) by (apply pow_le; lra). repeat apply Rmult_le_pos; lra. }
  assert (PT : 0 < tol). { unfold tol, solve_tolerance. assert (0 <= solve_factor n * M) by (apply Rmult_le_pos; lra). lra. }
  assert (PB : 0 <= solve_factor n * B) by (apply Rmult_le_pos; lra).
  assert (Hneg : forall i, B2R (n_neg (phi i : K) : b64) = - B2R (phi i)) by (intros i; exact (B2R_Bopp 53 1024 (phi i))).
  destruct (C61_solves L cfg n M B J (fun i => n_neg (phi i : K) : b64) A b Hn Feps ltac:(repeat split; auto; lra) HA Hb) as (X & h & E & HX & Fh & Res).
  { intros i j Hi Hj. destruct (HJa i j Hi Hj) as [Fij Q]. split; [exact Fij|]. specialize (HM i j Hi Hj).
    replace (B2R (J i j)) with (D i j (reals p) + (B2R (J i j) - D i j (reals p))) by ring. eapply Rle_trans; [apply Rabs_triang|]. lra. }
  { intros i Hi. destruct (Hphi i Hi) as [Fi Q]. split; [change (fin (Bopp (phi i))); unfold fin in *; now rewrite is_finite_Bopp|]. specialize (HB i Hi).
    rewrite Hneg, Rabs_Ropp. replace (B2R (phi i)) with (F i (reals p) + (B2R (phi i) - F i (reals p))) by ring. eapply Rle_trans; [apply Rabs_triang|]. lra. }
  { apply (far_mono n _ (d - eD)); [unfold tol in *; lra|]. apply (far_near n (fun i j => D i j (reals p))); [exact Hfar|]. intros i j Hi Hj. now apply HJa. }
  pose proof (step_real n (fun i j => D i j (reals p)) (fun i j => B2R (J i j)) (fun i => F i (reals p)) (fun i => B2R (phi i)) (fun j => B2R (h j)) (fun j => B2R (q j)) s
    d eF eD tol (solve_factor n * B) Rr e Hfar ltac:(lra) PF PD ltac:(lra) PB PR) as St.
  assert (St' : norm1 n (fun j => B2R (q j) + B2R (h j) - s j) <= w).
  { eapply Rle_trans; [apply St|exact Hw]; auto.
    - intros i j Hi Hj. now apply HJa.
    - intros i Hi. now apply Hphi.
    - intros i Hi. specialize (Res i Hi). rewrite Hneg in Res. replace (row_times n (fun i j => B2R (J i j)) (fun j => B2R (h j)) i + B2R (phi i)) with (row_times n (fun i j => B2R (J i j)) (fun j => B2R (h j)) i - - B2R (phi i)) by ring. exact Res. }
  clear St. pose proof ulp1_pos as U. pose proof ulp1_small as Us. pose proof large_huge as LH.
  assert (Q : forall j, (j < n)%nat -> Rabs (B2R (q j) + B2R (h j)) <= large).
  { intros j Hj. pose proof (norm1_ge n (fun j => B2R (q j) + B2R (h j) - s j) j Hj) as Q1. pose proof (norm1_ge n s j Hj) as Q2. cbv beta in Q1.
    replace (B2R (q j) + B2R (h j)) with ((B2R (q j) + B2R (h j) - s j) + s j) by ring. eapply Rle_trans; [apply Rabs_triang|]. lra. }
  exists (fun j => n_add (q j : K) (h j : K) : b64).
  assert (Add : forall j, (j < n)%nat -> fin (n_add (q j : K) (h j : K) : b64) /\ exists dl, Rabs dl <= ulp1 /\ B2R (n_add (q j : K) (h j : K) : b64) = (B2R (q j) + B2R (h j)) * (1 + dl)).
  { intros j Hj. destruct (rnd_plus_model (q j) (h j)) as (dl & Hdl & Er). specialize (Q j Hj). specialize (Fh j Hj). specialize (Fq j Hj).
    assert (Fs : fin (Bplus mode_NE (q j) (h j))).
    { apply add_fin; auto. rewrite Er, Rabs_mult. assert (Rabs (1 + dl) <= 2) by (eapply Rle_trans; [apply Rabs_triang|]; rewrite Rabs_R1; lra).
      rewrite <- huge_bpow. pose proof (Rabs_pos (B2R (q j) + B2R (h j))). pose proof (Rabs_pos (1 + dl)). assert (0 < large) by (rewrite large_pow; apply pow_lt; lra). nra. }
    split; [exact Fs|]. exists dl. split; [exact Hdl|]. change (B2R (Bplus mode_NE (q j) (h j)) = (B2R (q j) + B2R (h j)) * (1 + dl)). rewrite add_R by auto. exact Er. }
  split; [|split; [intros j Hj; now apply Add|]].
  - exists (fun i => phi i : K), (fun i j => J i j : K), (fun j => h j : K). split; [exact V|]. split; [rewrite Hx; exact VJ|]. split.
    + rewrite Hx. exists A, b, X. repeat split; try apply HA; try apply Hb; try exact E; try apply HX.
    + reflexivity.
  - eapply Rle_trans with (norm1 n (fun j => B2R (q j) + B2R (h j) - s j) + ulp1 * (norm1 n (fun j => B2R (q j) + B2R (h j) - s j) + norm1 n s)).
    + unfold norm1 at 1. assert (G : rsum n (fun j => Rabs (B2R (n_add (q j : K) (h j : K) : b64) - s j)) <= rsum n (fun j => Rabs (B2R (q j) + B2R (h j) - s j) + ulp1 * (Rabs (B2R (q j) + B2R (h j) - s j) + Rabs (s j)))).
      { apply rsum_le. intros j Hj. destruct (Add j Hj) as (_ & dl & Hdl & ->).
        replace ((B2R (q j) + B2R (h j)) * (1 + dl) - s j) with ((B2R (q j) + B2R (h j) - s j) + dl * ((B2R (q j) + B2R (h j) - s j) + s j)) by ring.
        eapply Rle_trans; [apply Rabs_triang|]. apply Rplus_le_compat_l. rewrite Rabs_mult. apply Rmult_le_compat; auto using Rabs_pos. apply Rabs_triang. }
      eapply Rle_trans; [exact G|]. rewrite LinRound.rsum_plus, LinRound.rsum_scale, LinRound.rsum_plus. unfold norm1. right. reflexivity.
    + pose proof (norm1_pos n s). nra.
Qed.
End Step64.

(** ** The iteration *)
Section Run64.
Context (L : libm) (c : R) (cfg : config (B64 L)) (xs : list string) (n : nat) (f : nat -> expr (B64 L)) (jac : nat -> nat -> expr (B64 L))
  (F : nat -> (nat -> R) -> R) (D : nat -> nat -> (nat -> R) -> R) (eF eD : R) (s : nat -> R) (s0 : nat -> b64) (r kappa d M B : R).
Notation K := (B64 L).
Notation eps := (B2R (epsilon cfg : b64)).
Notation pt q := (fun j => q j : K).
Definition here64 (p : nat -> R) : Prop := box n s r p \/ p = reals s0.
Hypotheses (HI : ieee_libm L) (HL : accurate_libm L c) (Hth : throwOnInvalidValue cfg = true) (Feps : fin (epsilon cfg))
  (Hn : (0 < n)%nat) (Nd : NoDup xs) (Hx : length xs = n)
  (Fe : forall i, (i < n)%nat -> all_nums (K:=K) fin (f i))
  (HS : system xs n (fun i => real_expr L (f i)) F D here64) (HZ : analysed L c xs n f F D eF eD here64)
  (PeF : 0 <= eF) (PeD : 0 <= eD)
  (Hr : 0 <= r) (Root : forall i, (i < n)%nat -> F i s = 0) (HM : far_from_singular n (fun i j => D i j s) d)
  (Var : forall p i j, box n s r p -> (i < n)%nat -> (j < n)%nat -> Rabs (D i j p - D i j s) <= kappa)
  (HDM : forall i j, (i < n)%nat -> (j < n)%nat -> Rabs (D i j s) + kappa + eD <= M).

Definition dist (q : nat -> R) : R := norm1 n (fun j => q j - s j).
Lemma dist_box q e : dist q <= e -> box n s e q.
Proof. intros H j Hj. pose proof (norm1_ge n (fun j => q j - s j) j Hj) as Q. unfold dist in H. lra. Qed.

Lemma kappa_pos : 0 <= kappa.
Proof.
  assert (Bs : box n s r s) by (intros j Hj; rewrite Rminus_eq_0, Rabs_R0; exact Hr). pose proof (Var s 0%nat 0%nat Bs Hn Hn) as H. eapply Rle_trans; [apply Rabs_pos|exact H].
Qed.
Lemma D_bound p i j : box n s r p -> (i < n)%nat -> (j < n)%nat -> Rabs (D i j p) + eD <= M.
Proof.
  intros Hp Hi Hj. specialize (Var p i j Hp Hi Hj). specialize (HDM i j Hi Hj). replace (D i j p) with (D i j s + (D i j p - D i j s)) by ring.
  pose proof (Rabs_triang (D i j s) (D i j p - D i j s)). lra.
Qed.
Lemma rsum_bound1 m a y e : 0 <= e -> (forall j, (j < m)%nat -> Rabs (a j) <= e) -> Rabs (rsum m (fun j => a j * y j)) <= e * norm1 m y.
Proof.
  intros He Ha. eapply Rle_trans; [apply NewtonProofs.rsum_abs|]. unfold norm1. rewrite <- LinRound.rsum_scale. apply rsum_le. intros j Hj. rewrite Rabs_mult.
  apply Rmult_le_compat_r; [apply Rabs_pos|auto].
Qed.
Lemma value_bound64 p i : (i < n)%nat -> box n s r p -> Rabs (F i p) <= M * dist p.
Proof.
  intros Hi Hp. destruct (staircase xs n _ F D here64 Nd Hx HS s r (fun p H => or_introl H) i p Hi Hr Hp) as (xi & Hxi & E).
  rewrite (Root i Hi), Rminus_0_r in E. rewrite E. apply rsum_bound1.
  - pose proof (HDM i i Hi Hi). pose proof kappa_pos. pose proof (Rabs_pos (D i i s)). lra.
  - intros j Hj. pose proof (D_bound (xi j) i j (proj1 (Hxi j Hj)) Hi Hj). lra.
Qed.
Lemma root_bound64 p V : 0 <= V -> box n s r p -> (forall i, (i < n)%nat -> Rabs (F i p) <= V) -> (d - kappa) * dist p <= V.
Proof.
  intros PV Hp HV.
  destruct (choose1 (fun _ : nat => s) (fun i (xi : nat -> nat -> R) => (forall k, (k < n)%nat -> box n s r (xi k)) /\ F i p = rsum n (fun k => D i k (xi k) * (p k - s k))) n) as [X HX].
  { intros i Hi. destruct (staircase xs n _ F D here64 Nd Hx HS s r (fun p H => or_introl H) i p Hi Hr Hp) as (xi & Hxi & E).
    exists xi. split; [intros k Hk; now apply Hxi|]. rewrite (Root i Hi), Rminus_0_r in E. exact E. }
  apply (far_bound n (fun i k => D i k (X i k)) (d - kappa) (fun j => p j - s j) V); [|exact PV|].
  - apply (far_near n (fun i j => D i j s)); [exact HM|]. intros i j Hi Hj. apply Var; auto. now apply HX.
  - intros i Hi. destruct (HX i Hi) as [_ E]. unfold row_times. rewrite <- E. auto.
Qed.

Hypotheses (HJ : jacobian cfg xs n f jac) (HB : M * r + eF <= B) (HR : solve_range n eps M B).
Definition tol64 := solve_tolerance n eps M.
Hypotheses (Hd : 2 * tol64 + eD + kappa <= d).
Definition delta64 := d - kappa - tol64 - eD.
Definition theta64 := (1 + ulp1) * (2 * kappa + tol64 + eD) / delta64.
Definition round64 := (1 + ulp1) * (eF + solve_factor n * B) / delta64 + ulp1 * norm1 n s.
Hypotheses (Hl : norm1 n s + r <= large) (Hstay : theta64 * r + round64 <= r).

Lemma pos64 : 0 < tol64 /\ 0 < delta64 /\ 0 <= solve_factor n * B /\ 0 <= theta64 /\ 0 <= round64.
Proof.
  pose proof kappa_pos as Pk. destruct HR as (He1 & HM1 & HB1 & _). assert (Pe : 0 < eps) by (now apply eps_pos). pose proof ulp1_pos as U.
  assert (Pf : 0 <= solve_factor n). { unfold solve_factor. pose proof (pos_INR (n + 1)). assert (0 <= 2 ^ n) by (apply pow_le; lra). repeat apply Rmult_le_pos; lra. }
  assert (PT : 0 < tol64). { unfold tol64, solve_tolerance. assert (0 <= solve_factor n * M) by (apply Rmult_le_pos; lra). lra. }
  assert (PB : 0 <= solve_factor n * B) by (apply Rmult_le_pos; lra). assert (PD : 0 < delta64) by (unfold delta64; lra). pose proof (norm1_pos n s) as Ps.
  repeat split; auto.
  - unfold theta64, Rdiv. apply Rmult_le_pos; [apply Rmult_le_pos; lra|left; now apply Rinv_0_lt_compat].
  - unfold round64, Rdiv. assert (0 <= (1 + ulp1) * (eF + solve_factor n * B) * / delta64) by (apply Rmult_le_pos; [apply Rmult_le_pos; lra|left; now apply Rinv_0_lt_compat]).
    assert (0 <= ulp1 * norm1 n s) by (apply Rmult_le_pos; lra). lra.
Qed.

Lemma lin64 p i : (i < n)%nat -> box n s r p -> Rabs (F i p + row_times n (fun i j => D i j p) (fun j => s j - p j) i) <= 2 * kappa * dist p.
Proof.
  intros Hi Hp. destruct (staircase xs n _ F D here64 Nd Hx HS s r (fun p H => or_introl H) i p Hi Hr Hp) as (xi & Hxi & E).
  rewrite (Root i Hi), Rminus_0_r in E. rewrite E. unfold row_times. rewrite <- LinRound.rsum_plus.
  rewrite (rsum_eq n _ (fun j => (D i j (xi j) - D i j p) * (p j - s j))) by (intros; ring).
  apply rsum_bound1; [pose proof kappa_pos; lra|]. intros j Hj.
  replace (D i j (xi j) - D i j p) with ((D i j (xi j) - D i j s) + - (D i j p - D i j s)) by ring.
  eapply Rle_trans; [apply Rabs_triang|]. rewrite Rabs_Ropp. pose proof (Var (xi j) i j (proj1 (Hxi j Hj)) Hi Hj). pose proof (Var p i j Hp Hi Hj). lra.
Qed.

(** From a point p of the ball, adding to a point q with the same coordinates. *)
Lemma near_step64 (p q : nat -> b64) e : (forall j, (j < n)%nat -> fin (p j)) -> (forall j, (j < n)%nat -> fin (q j)) -> (forall j, (j < n)%nat -> B2R (q j) = B2R (p j)) ->
  dist (reals p) <= e -> e <= r ->
  exists p' : nat -> b64, newton_step cfg xs n f jac (pt p) (pt q) (pt p') /\ (forall j, (j < n)%nat -> fin (p' j)) /\ dist (reals p') <= theta64 * e + round64.
Proof.
  intros Fp Fq Eq He Her. destruct pos64 as (PT & PD & PB & PTh & PR). pose proof kappa_pos as Pk. pose proof ulp1_pos as U.
  assert (Pe : 0 <= e) by (eapply Rle_trans; [apply norm1_pos|exact He]).
  assert (Bp : box n s r (reals p)) by (apply dist_box; lra).
  set (w := (2 * kappa * e + eF + solve_factor n * B + (tol64 + eD) * e) / delta64).
  assert (Ew : (1 + ulp1) * w + ulp1 * norm1 n s = theta64 * e + round64). { unfold w, theta64, round64. field. lra. }
  assert (Pw : 0 <= w). { unfold w, Rdiv. apply Rmult_le_pos; [|left; now apply Rinv_0_lt_compat]. assert (0 <= 2 * kappa * e) by (repeat apply Rmult_le_pos; lra). assert (0 <= (tol64 + eD) * e) by (apply Rmult_le_pos; lra). lra. }
  assert (Mth : theta64 * e <= theta64 * r) by (apply Rmult_le_compat_l; lra).
  assert (Psn := norm1_pos n s). assert (Us : 0 <= ulp1 * norm1 n s) by (apply Rmult_le_pos; lra). assert (Uw : 0 <= ulp1 * w) by (apply Rmult_le_pos; lra).
  assert (Wr : w <= r) by lra.
  destruct (step64 L c cfg xs n f jac F D eF eD here64 HI HL Hth Feps Hn Nd Hx Fe HS HZ HJ p q s (d - kappa) M B (2 * kappa * e) e w) as (q' & St & Fq' & N').
  - now left.
  - exact Fp.
  - exact Fq.
  - apply (far_near n (fun i j => D i j s)); [exact HM|]. intros i j Hi Hj. now apply Var.
  - fold tol64. lra.
  - intros i j Hi Hj. now apply D_bound.
  - intros i Hi. pose proof (value_bound64 (reals p) i Hi Bp) as Q. assert (PM : 0 <= M) by (pose proof (HDM i i Hi Hi); pose proof (Rabs_pos (D i i s)); lra).
    assert (M * dist (reals p) <= M * r) by (apply Rmult_le_compat_l; lra). lra.
  - exact HR.
  - repeat apply Rmult_le_pos; lra.
  - intros i Hi. pose proof (lin64 (reals p) i Hi Bp) as Q. assert (2 * kappa * dist (reals p) <= 2 * kappa * e) by (apply Rmult_le_compat_l; lra).
    assert (Er : row_times n (fun i j => D i j (reals p)) (fun j => s j - B2R (q j)) i = row_times n (fun i j => D i j (reals p)) (fun j => s j - reals p j) i).
    { unfold row_times. apply rsum_eq. intros j Hj. rewrite (Eq j Hj). reflexivity. }
    rewrite Er. lra.
  - rewrite (norm1_ext n _ (fun j => reals p j - s j)) by (intros j Hj; now rewrite (Eq j Hj)). exact He.
  - fold tol64. unfold w. right. unfold delta64. reflexivity.
  - lra.
  - exists q'. split; [exact St|]. split; [exact Fq'|]. unfold dist, reals. rewrite <- Ew. exact N'.
Qed.

(** The first step adds to 0. *)
Context (rho : R).
Hypotheses (Prho : 0 <= rho) (Hrho : theta64 * rho + round64 <= rho) (F0 : forall j, (j < n)%nat -> fin (s0 j))
  (First : exists p' : nat -> b64, newton_step cfg xs n f jac (pt s0) (fun _ => n_ofZ 0) (pt p') /\ (forall j, (j < n)%nat -> fin (p' j)) /\ dist (reals p') <= r).

Notation slv q := (NonlinearSpec.solved cfg xs n f (pt q)).
Definition good64 (k : nat) (q : nat -> b64) : Prop := (forall j, (j < n)%nat -> fin (q j)) /\
  match k with O => q = s0 | S k' => dist (reals q) <= r /\ dist (reals q) <= theta64 ^ k' * r + rho end.
Lemma good_here k q : good64 k q -> here64 (reals q).
Proof. intros [_ H]. destruct k; [right; now rewrite H|left; apply dist_box, H]. Qed.

Lemma run64 k : (exists k' (ps : nat -> nat -> b64), (k' <= k)%nat /\ newton_points cfg xs n f jac (pt s0) (fun i => pt (ps i)) k' /\ slv (ps k') /\
      (forall i, (i < k')%nat -> ~ slv (ps i)) /\ good64 k' (ps k')) \/
  exists ps : nat -> nat -> b64, newton_points cfg xs n f jac (pt s0) (fun i => pt (ps i)) k /\ (forall i, (i <= k)%nat -> ~ slv (ps i)) /\ good64 k (ps k).
Proof.
  destruct pos64 as (PT & PD & PB & PTh & PR).
  assert (Dec : forall k q, good64 k q -> slv q \/ ~ slv q).
  { intros j q Hq. destruct (solved_cases64 L c cfg xs n f F D eF eD here64 HL Hth Feps Hn Nd Hx HS HZ q (good_here j q Hq) (proj1 Hq)) as [[H _]|[H _]]; tauto. }
  assert (G0 : good64 0 s0) by (split; [exact F0|reflexivity]).
  assert (Z : newton_points cfg xs n f jac (pt s0) (fun _ => pt s0) 0) by (split; [reflexivity|intros i Hi; lia]).
  induction k as [|k IH].
  - destruct (Dec 0%nat s0 G0) as [Q|Q].
    + left. exists 0%nat, (fun _ => s0). split; [lia|]. split; [exact Z|]. split; [exact Q|]. split; [intros; lia|exact G0].
    + right. exists (fun _ => s0). split; [exact Z|]. split; [intros; exact Q|exact G0].
  - destruct IH as [(k' & ps & Hk' & H)|(ps & PP & Ns & Hb)]; [left; exists k', ps; split; [lia|exact H]|].
    assert (St : exists p' : nat -> b64, newton_step cfg xs n f jac (pt (ps k)) (match k with O => fun _ => n_ofZ 0 | _ => pt (ps k) end) (pt p') /\ good64 (S k) p').
    { destruct k as [|k].
      - destruct Hb as [_ Hb]. rewrite Hb. destruct First as (p' & St & Fp & B'). exists p'. split; [exact St|]. split; [exact Fp|]. simpl. lra.
      - destruct Hb as [Fb [B1 B2]]. destruct (near_step64 (ps (S k)) (ps (S k)) (dist (reals (ps (S k)))) Fb Fb ltac:(reflexivity) ltac:(lra) B1) as (p' & St & Fp & B').
        exists p'. split; [exact St|]. split; [exact Fp|]. split.
        + assert (theta64 * dist (reals (ps (S k))) <= theta64 * r) by (apply Rmult_le_compat_l; lra). lra.
        + assert (theta64 * dist (reals (ps (S k))) <= theta64 * (theta64 ^ k * r + rho)) by (apply Rmult_le_compat_l; lra). simpl pow. lra. }
    destruct St as (p' & St & Gp).
    set (ps' := fun i => if (i <=? k)%nat then ps i else p').
    assert (Old : forall i, (i <= k)%nat -> ps' i = ps i) by (intros i Hi; unfold ps'; destruct (Nat.leb_spec i k); [reflexivity|lia]).
    assert (New : ps' (S k) = p') by (unfold ps'; destruct (Nat.leb_spec (S k) k); [lia|reflexivity]).
    assert (P' : newton_points cfg xs n f jac (pt s0) (fun i => pt (ps' i)) (S k)).
    { destruct PP as [P0 Ps]. split; [intros j Hj; cbv beta; rewrite Old by lia; exact (P0 j Hj)|].
      intros i Hi. destruct (Nat.eq_dec i k) as [->|Hik].
      - rewrite New, (Old k) by lia. destruct k; exact St.
      - specialize (Ps i ltac:(lia)). rewrite (Old i), (Old (S i)) by lia. destruct i; exact Ps. }
    destruct (Dec (S k) p' Gp) as [Q|Q].
    + left. exists (S k), ps'. split; [lia|]. split; [exact P'|]. rewrite New. split; [exact Q|]. split; [|exact Gp]. intros i Hi. rewrite Old by lia. apply Ns. lia.
    + right. exists ps'. split; [exact P'|]. rewrite New. split; [|exact Gp]. intros i Hi. destruct (Nat.eq_dec i (S k)) as [->|]; [rewrite New; exact Q|]. rewrite Old by lia. apply Ns. lia.
Qed.
End Run64.
