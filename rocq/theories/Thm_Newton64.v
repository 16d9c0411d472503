(** C64: Newton-Raphson near a regular root, in doubles. *)
From Coq Require Import String List ZArith Bool Arith Lia Reals Lra.
From Coquelicot Require Import Coquelicot.
From Flocq Require Import IEEE754.BinarySingleNaN Core.
From Verif Require Import Base MathOp NodeModel SubsModel DiffModel MatModel LinearModel VarsTableModel SymMatModel NonlinearModel
  ExprSpec SubsSpec MatSpec VarsSpec SymMatSpec NonlinearSpec DiffSpec AffineSpec NewtonSpec NodeProofs SymMatProofs Thm_Node Thm_Subs Thm_Vars Thm_SymMat DiffProofs Thm_Diff
  NonlinearProofs Thm_Nonlinear IEEE RealSpec AffineSolve Thm_Affine NewtonProofs FloatSpec FloatFacts IntSpec IntProofs RoundSpec RoundProofs Thm_Round
  SolveSpec LinRound LinFloat LinLoop Thm_Solve DerivSpec Thm_Deriv Newton64Spec NewtonRound.
Import ListNotations.
Local Open Scope string_scope.
Local Open Scope list_scope.
Local Open Scope R_scope.

(** [s] (real numbers) is a root of the equations (expressions of doubles, read as real expressions).  On the box
    of radius r around s and at the starting point s0 the real equations have values F and partial derivatives D,
    the error analysis bounds the errors of the computed equations and derivatives by eF and eD, D varies by at
    most kappa on the box, and the Jacobian at s is at distance d from the singular ones.  If a step does
    not leave the ball of radius r, the first step lands in it, and N further steps suffice, then a
    result is returned: the real values of the equations there are smaller than epsilon + eF, and it is the starting point or
    within (epsilon + eF) / (d - kappa) of the root. *)
Theorem C64_newton_converges (L : libm) c (cfg : config (B64 L)) n (f : nat -> expr (B64 L)) A t xs F D eF eD (s : nat -> R) (s0 : nat -> b64) r kappa d M B d0 R0 rho N :
  ieee_libm L -> accurate_libm L c -> throwOnInvalidValue cfg = true -> fin (epsilon cfg) -> let eps := B2R (epsilon cfg : b64) in
  (0 < n)%nat -> length xs = n -> is_sym n 1 (fun i _ => f i) A -> (forall i, (i < n)%nat -> all_nums (K:=B64 L) fin (f i)) ->
  table_at (K:=B64 L) xs t (fun j => s0 j : B64 L) -> (forall j, (j < n)%nat -> fin (s0 j)) ->
  let here := fun p => box n s r p \/ p = reals s0 in
  system xs n (fun i => real_expr L (f i)) F D here -> analysed L c xs n f F D eF eD here -> 0 <= eF -> 0 <= eD -> 0 <= r ->
  (forall i, (i < n)%nat -> F i s = 0) -> far_from_singular n (fun i j => D i j s) d ->
  (forall p i j, box n s r p -> (i < n)%nat -> (j < n)%nat -> Rabs (D i j p - D i j s) <= kappa) ->
  (forall i j, (i < n)%nat -> (j < n)%nat -> Rabs (D i j s) + kappa + eD <= M) -> M * r + eF <= B ->
  solve_range n eps M B -> norm1 n s + r <= large ->
  let tol := solve_tolerance n eps M in 2 * tol + eD + kappa <= d ->
  let rate := newton_rate n eps M eD kappa d in let noise := newton_noise n eps M B eF eD kappa d s in
  rate * r + noise <= r ->
  far_from_singular n (fun i j => D i j (reals s0)) d0 -> 2 * tol + eD <= d0 ->
  (forall i j, (i < n)%nat -> (j < n)%nat -> Rabs (D i j (reals s0)) + eD <= M) -> (forall i, (i < n)%nat -> Rabs (F i (reals s0)) + eF <= B) ->
  (forall i, (i < n)%nat -> Rabs (F i (reals s0) + row_times n (fun i j => D i j (reals s0)) s i) <= R0) ->
  (1 + ulp1) * ((R0 + eF + solve_factor n * B + (tol + eD) * norm1 n s) / (d0 - tol - eD)) + ulp1 * norm1 n s <= r ->
  0 <= rho -> rate * rho + noise <= rho -> M * (rate ^ N * r + rho) + eF < eps ->
  (Z.of_nat N <= maxIterations cfg)%Z ->
  exists t' (p : nat -> b64), SolveByNewtonRaphson cfg A t = Ok t' /\ table_at (K:=B64 L) xs t' (fun j => p j : B64 L) /\ (forall j, (j < n)%nat -> fin (p j)) /\
    (forall i, (i < n)%nat -> Rabs (F i (reals p)) < eps + eF) /\
    (p = s0 \/ norm1 n (fun j => reals p j - s j) <= (eps + eF) / (d - kappa)).
Proof.
  intros HI HL Hth Feps eps Hn Hx HA Fe Ht F0 here HS HZ PF PD Hr Root HM Var HDM HB HR Hl tol Hd rate noise Hstay HM0 Hd0 HDM0 HF0 HR0 Land Prho Hrho Stop HN.
  pose proof (h_nonempty _ _ _ Ht) as Ne. pose proof (h_nodup _ _ _ Ht) as Nd. set (K := B64 L) in *.
  destruct HR as (He1 & HM1 & HB1 & HR1). assert (HR : solve_range n eps M B) by (repeat split; auto; lra). assert (Pe : 0 < eps) by (now apply eps_pos).
  (* the Jacobian *)
  assert (HJ : exists J jac, Jacobian cfg A xs = Ok J /\ jacobian cfg xs n f jac /\ is_sym n (length xs) jac J).
  { destruct (Jacobian_cases cfg n f A xs Hn Ne HA) as [(J & jac & EJ & HJ & SJ)|E]; [now exists J, jac|]. exfalso.
    assert (Fq : forall j, (j < length xs)%nat -> fin (s0 j)) by (rewrite Hx; exact F0).
    destruct (choose2 (0, 0) (fun i j (yE : R * R) => smooth 1 (nth j xs EmptyString) (fun x => B2R (env64 xs s0 x)) (real_expr L (f i)) /\
       no_0_pow_0f L (env64 xs s0) (deriv (nth j xs EmptyString) (f i)) /\ accuracy L c (fun x => B2R (env64 xs s0 x)) (fun _ => 0) (deriv (nth j xs EmptyString) (f i)) (fst yE) (snd yE)) n (length xs)) as [yE H].
    { intros i j Hi Hj. destruct (HS i Hi) as [_ HSi]. destruct (HSi (reals s0) _ (or_intror eq_refl) (env64_reals L xs s0 Nd)) as [_ Hdj]. destruct (Hdj j Hj) as [Sm _].
      destruct (HZ s0 (env64 xs s0) (or_intror eq_refl) (env64_fin xs s0 Fq) (env64_at L xs s0 Nd) i Hi) as [_ Hz]. destruct (Hz j ltac:(lia)) as (Z0 & E1 & Ac & _).
      exists (D i j (reals s0), E1). auto. }
    destruct (C63_jacobian L cfg c n f A xs (env64 xs s0) (fun x => B2R (env64 xs s0 x)) (fun _ => 0) (fun i j => fst (yE i j)) (fun i j => snd (yE i j)) HI HL Hth Hn Ne HA) as (J & h & v & EJ & _); auto.
    - exact (env64_fin xs s0 Fq).
    - intros z. rewrite Rminus_diag_eq, Rabs_R0 by reflexivity. lra.
    - intros i j x Hi Hj. rewrite <- (nth_error_nth xs j EmptyString Hj). apply H; [exact Hi|]. apply nth_error_Some. congruence.
    - assert (X : Ok J = Terminate) by (transitivity (Jacobian cfg A xs); [symmetry; exact EJ|exact E]). discriminate X. }
  destruct HJ as (J & jac & EJ & HJ & SJ).
  (* the first step *)
  assert (Pk : 0 <= kappa) by exact (kappa_pos n D s r kappa Hn Hr Var).
  assert (Pf : 0 <= solve_factor n). { unfold solve_factor. pose proof (pos_INR (n + 1)). pose proof ulp1_pos. assert (0 <= 2 ^ n) by (apply pow_le; lra). repeat apply Rmult_le_pos; lra. }
  assert (PT : 0 < tol). { unfold tol, solve_tolerance. assert (0 <= solve_factor n * M) by (apply Rmult_le_pos; lra). lra. }
  assert (PB : 0 <= solve_factor n * B) by (apply Rmult_le_pos; lra).
  pose proof ulp1_pos as U. pose proof (norm1_pos n s) as Ps.
  assert (PR0 : 0 <= R0) by (eapply Rle_trans; [apply Rabs_pos|exact (HR0 0%nat Hn)]).
  destruct (ofZ_is 0 ltac:(unfold exact_range; lia)) as [Fz Ez].
  set (w := (R0 + eF + solve_factor n * B + (tol + eD) * norm1 n s) / (d0 - tol - eD)) in *.
  assert (Pw : 0 <= w). { unfold w, Rdiv. apply Rmult_le_pos; [|left; apply Rinv_0_lt_compat; lra]. assert (0 <= (tol + eD) * norm1 n s) by (apply Rmult_le_pos; lra). lra. }
  assert (First : exists p' : nat -> b64, newton_step cfg xs n f jac (fun j => s0 j : K) (fun _ => n_ofZ 0) (fun j => p' j : K) /\ (forall j, (j < n)%nat -> fin (p' j)) /\ dist n s (reals p') <= r).
  { destruct (step64 L c cfg xs n f jac F D eF eD here HI HL Hth Feps Hn Nd Hx Fe HS HZ HJ s0 (fun _ => b_ofZ 0) s d0 M B R0 (norm1 n s) w) as (q' & St & Fq' & N'); auto.
    - now right.
    - intros i Hi. replace (row_times n (fun i j => D i j (reals s0)) (fun j => s j - B2R (b_ofZ 0)) i) with (row_times n (fun i j => D i j (reals s0)) s i); [auto|].
      unfold row_times. apply rsum_eq. intros j _. rewrite Ez, Rminus_0_r. reflexivity.
    - right. rewrite <- norm1_opp. apply norm1_ext. intros j _. rewrite Ez. ring.
    - right. reflexivity.
    - assert (0 <= ulp1 * w) by (apply Rmult_le_pos; lra). assert (0 <= ulp1 * norm1 n s) by (apply Rmult_le_pos; lra). lra.
    - exists q'. split; [exact St|]. split; [exact Fq'|]. unfold dist, reals. lra. }
  (* the iteration *)
  pose proof (run64 L c cfg xs n f jac F D eF eD s s0 r kappa d M B HI HL Hth Feps Hn Nd Hx Fe HS HZ PF PD Hr Root HM Var HDM HJ HB HR Hd Hl Hstay rho Prho Hrho F0 First (S N)) as Run.
  pose proof (fun k q (H : good64 L cfg n eD s s0 r kappa d M rho k q) => solved_cases64 L c cfg xs n f F D eF eD here HL Hth Feps Hn Nd Hx HS HZ q (good_here L cfg n eD s s0 r kappa d M rho k q H) (proj1 H)) as Sol.
  assert (PM : 0 <= M) by lra.
  destruct Run as [(k & ps & Hkn & P & So & Ns & Hh)|(ps & P & Ns & Hb)].
  2:{ exfalso. destruct (Sol _ _ Hb) as [[So _]|[_ (i & Hi & Q)]]; [exact (Ns (S N) (Nat.le_refl _) So)|]. destruct Hb as [_ [B1 B2]].
      pose proof (value_bound64 L xs n f F D eD s s0 r kappa M Hn Nd Hx HS PD Hr Root Var HDM (reals (ps (S N))) i Hi (dist_box n s _ _ B1)) as V.
      assert (M * dist n s (reals (ps (S N))) <= M * (rate ^ N * r + rho)) by (apply Rmult_le_compat_l; [exact PM|exact B2]). change (eps - eF <= Rabs (F i (reals (ps (S N))))) in Q. lra. }
  assert (Hs : forall j, (j < length xs)%nat -> nth j (map (fun j => s0 j : K) (seq 0 (length xs))) (n_ofZ 0) = (s0 j : K)).
  { intros j Hj. apply nth_error_nth. exact (nth_error_map_seq (fun j => s0 j : K) (length xs) j Hj). }
  destruct (proj2 (C39_newton_result cfg n f A t xs _ Hn HA Ht J jac EJ SJ (fun j => ps k j : K))) as (t' & E & T).
  { exists k, (fun i j => ps i j : K). split; [|split; [reflexivity|split; [exact So|split; [exact Ns|right; lia]]]].
    split; [|exact (proj2 P)]. intros j Hj. rewrite Hs by exact Hj. exact (proj1 P j Hj). }
  exists t', (ps k). split; [exact E|]. split; [exact T|]. split; [apply Hh|].
  destruct (Sol _ _ Hh) as [[_ V]|[No _]]; [|contradiction]. split; [exact V|].
  destruct Hh as [_ Hh]. destruct k as [|k]; [now left|right]. destruct Hh as [B1 _].
  pose proof (root_bound64 L xs n f F D s s0 r kappa d Nd Hx HS Hr Root HM Var (reals (ps (S k))) (eps + eF) ltac:(lra) (dist_box n s _ _ B1)) as Q.
  assert (Q' : (d - kappa) * dist n s (reals (ps (S k))) <= eps + eF). { apply Q. intros i Hi. left. auto. }
  apply Rmult_le_reg_l with (d - kappa); [lra|]. replace ((d - kappa) * ((eps + eF) / (d - kappa))) with (eps + eF) by (field; lra). exact Q'.
Qed.

(** With all starting values 0 the iteration is the textbook one, and it is enough that 0 lies in the ball. *)
Theorem C64_newton_from_zero (L : libm) c (cfg : config (B64 L)) n (f : nat -> expr (B64 L)) A t xs F D eF eD (s : nat -> R) r kappa d M B rho N :
  ieee_libm L -> accurate_libm L c -> throwOnInvalidValue cfg = true -> fin (epsilon cfg) -> let eps := B2R (epsilon cfg : b64) in
  (0 < n)%nat -> length xs = n -> is_sym n 1 (fun i _ => f i) A -> (forall i, (i < n)%nat -> all_nums (K:=B64 L) fin (f i)) ->
  table_at (K:=B64 L) xs t (fun _ => n_ofZ 0) -> norm1 n s <= r ->
  system xs n (fun i => real_expr L (f i)) F D (box n s r) -> analysed L c xs n f F D eF eD (box n s r) -> 0 <= eF -> 0 <= eD ->
  (forall i, (i < n)%nat -> F i s = 0) -> far_from_singular n (fun i j => D i j s) d ->
  (forall p i j, box n s r p -> (i < n)%nat -> (j < n)%nat -> Rabs (D i j p - D i j s) <= kappa) ->
  (forall i j, (i < n)%nat -> (j < n)%nat -> Rabs (D i j s) + kappa + eD <= M) -> M * r + eF <= B ->
  solve_range n eps M B -> norm1 n s + r <= large ->
  2 * solve_tolerance n eps M + eD + kappa <= d ->
  let rate := newton_rate n eps M eD kappa d in let noise := newton_noise n eps M B eF eD kappa d s in
  rate * r + noise <= r -> 0 <= rho -> rate * rho + noise <= rho -> M * (rate ^ N * r + rho) + eF < eps ->
  (Z.of_nat N <= maxIterations cfg)%Z ->
  exists t' (p : nat -> b64), SolveByNewtonRaphson cfg A t = Ok t' /\ table_at (K:=B64 L) xs t' (fun j => p j : B64 L) /\ (forall j, (j < n)%nat -> fin (p j)) /\
    (forall i, (i < n)%nat -> Rabs (F i (reals p)) < eps + eF) /\
    norm1 n (fun j => reals p j - s j) <= (eps + eF) / (d - kappa).
Proof.
  intros HI HL Hth Feps eps Hn Hx HA Fe Ht B0 HS HZ PF PD Root HM Var HDM HB HR Hl Hd rate noise Hstay Prho Hrho Stop HN.
  pose proof (h_nodup _ _ _ Ht) as Nd.
  destruct (ofZ_is 0 ltac:(unfold exact_range; lia)) as [Fz Ez]. set (s0 := fun _ : nat => b_ofZ 0).
  assert (Es : forall j, reals s0 j = 0) by (intros j; exact Ez).
  assert (Ds : dist n s (reals s0) = norm1 n s). { unfold dist. rewrite <- (norm1_opp n s). apply norm1_ext. intros j _. rewrite Es. ring. }
  assert (Hr : 0 <= r) by (pose proof (norm1_pos n s); lra).
  assert (Bz : box n s r (reals s0)) by (apply dist_box; lra).
  set (here := fun p => box n s r p \/ p = reals s0).
  assert (HS' : system xs n (fun i => real_expr L (f i)) F D here).
  { intros i Hi. destruct (HS i Hi) as [W H]. split; [exact W|]. intros p env [Hp| ->] Ha; now apply H. }
  assert (HZ' : analysed L c xs n f F D eF eD here).
  { intros q env [Hp|Hp]; [now apply HZ|]. apply HZ. rewrite Hp. exact Bz. }
  pose proof (kappa_pos n D s r kappa Hn Hr Var) as Pk.
  destruct (pos64 L cfg n D eF eD s r kappa d M B Hn PF PD Hr Var HR Hd) as (PT & PDl & PB & PTh & PR). unfold tol64 in PT. fold eps in PT. set (tol := solve_tolerance n eps M) in *.
  assert (PM : 0 <= M) by (pose proof (HDM 0%nat 0%nat Hn Hn); pose proof (Rabs_pos (D 0%nat 0%nat s)); lra).
  pose proof ulp1_pos as U. pose proof (norm1_pos n s) as Ps.
  destruct (C64_newton_converges L c cfg n f A t xs F D eF eD s s0 r kappa d M B (d - kappa) (2 * kappa * r) rho N) as (t' & p & E & T & Fp & V & Q); auto.
  - apply (far_near n (fun i j => D i j s)); [exact HM|]. intros i j Hi Hj. now apply Var.
  - fold eps. fold tol. lra.
  - intros i j Hi Hj. exact (D_bound n D eD s r kappa M Var HDM (reals s0) i j Bz Hi Hj).
  - intros i Hi. pose proof (value_bound64 L xs n f F D eD s s0 r kappa M Hn Nd Hx HS' PD Hr Root Var HDM (reals s0) i Hi Bz) as Q.
    rewrite Ds in Q. assert (M * norm1 n s <= M * r) by (apply Rmult_le_compat_l; lra). lra.
  - intros i Hi. pose proof (lin64 L xs n f F D s s0 r kappa Hn Nd Hx HS' Hr Root Var (reals s0) i Hi Bz) as Q. rewrite Ds in Q.
    assert (2 * kappa * norm1 n s <= 2 * kappa * r) by (apply Rmult_le_compat_l; lra).
    assert (Er : row_times n (fun i j => D i j (reals s0)) (fun j => s j - reals s0 j) i = row_times n (fun i j => D i j (reals s0)) s i).
    { unfold row_times. apply rsum_eq. intros j _. rewrite Es, Rminus_0_r. reflexivity. }
    rewrite <- Er. lra.
  - fold eps. fold tol. eapply Rle_trans; [|exact Hstay]. unfold rate, noise, newton_rate, newton_noise, newton_margin. fold tol.
    assert (PD' : 0 < d - kappa - tol - eD) by exact PDl. set (dl := d - kappa - tol - eD) in *.
    assert (Q : (2 * kappa * r + eF + solve_factor n * B + (tol + eD) * norm1 n s) / dl <= (2 * kappa * r + eF + solve_factor n * B + (tol + eD) * r) / dl).
    { apply Rmult_le_compat_r; [left; now apply Rinv_0_lt_compat|]. apply Rplus_le_compat_l, Rmult_le_compat_l; lra. }
    apply Rle_trans with ((1 + ulp1) * ((2 * kappa * r + eF + solve_factor n * B + (tol + eD) * r) / dl) + ulp1 * norm1 n s).
    + apply Rplus_le_compat_r, Rmult_le_compat_l; [lra|exact Q].
    + right. field. lra.
  - exists t', p. split; [exact E|]. split; [exact T|]. split; [exact Fp|]. split; [exact V|]. destruct Q as [->|Q]; [|exact Q].
    destruct HR as (He1 & _). assert (Pe : 0 < eps) by (now apply eps_pos).
    pose proof (root_bound64 L xs n f F D s s0 r kappa d Nd Hx HS' Hr Root HM Var (reals s0) (eps + eF) ltac:(lra) Bz) as Q.
    assert (Q' : (d - kappa) * dist n s (reals s0) <= eps + eF). { apply Q. intros i Hi. left. now apply V. }
    apply Rmult_le_reg_l with (d - kappa); [lra|]. replace ((d - kappa) * ((eps + eF) / (d - kappa))) with (eps + eF) by (field; lra). exact Q'.
Qed.

(** ** Example: x*x + 4*x - 1 = 0, whose root near 0 is sqrt 5 - 2, with correctly rounded library functions *)
Section Ex64.
Notation L := rounded_libm.
Notation K := (B64 rounded_libm).

(** Error bounds with bounds on the values. *)
Definition bounded (renv : string -> R) (e : expr K) (y m E : R) : Prop := exists E', accuracy L ulp1 renv (fun _ => 0) e y E' /\ 0 <= E' <= E /\ Rabs y <= m.
Lemma ulp1_16 : ulp1 <= 12 / 10 ^ 17. Proof. rewrite ulp1_bpow. cbn. lra. Qed.
Lemma tiny_18 : tiny <= 1 / 10 ^ 18.
Proof. rewrite tiny_bpow. apply Rle_trans with (bpow radix2 (-60)); [apply bpow_le; lia|cbn; lra]. Qed.
Lemma huge_100 : 1000 < huge.
Proof. rewrite huge_bpow. apply Rlt_trans with (bpow radix2 10); [cbn; lra|apply bpow_lt; lia]. Qed.
Lemma b_num renv z m : (Z.abs z <= 5)%Z -> IZR (Z.abs z) <= m -> bounded renv (number z) (IZR z) m 0.
Proof.
  intros Hz Hm. destruct (ofZ_small z Hz) as [Fz Ez]. exists 0. split; [rewrite <- Ez; exact (ac_num L ulp1 renv (fun _ => 0) (b_ofZ z) Fz)|].
  split; [lra|]. rewrite <- abs_IZR. exact Hm.
Qed.
Lemma b_var renv x m : Rabs (renv x) <= m -> bounded renv (EVar x) (renv x) m 0.
Proof. intros H. exists 0. split; [exact (ac_var L ulp1 renv (fun _ => 0) x)|]. lra. Qed.
Lemma b_round t y m E : 0 <= E -> 0 <= t -> Rabs y <= m -> 0 <= with_rounding ulp1 t y E <= E + ulp1 * (m + E) + t.
Proof.
  intros HE Ht Hy. pose proof ulp1_pos as U. pose proof (Rabs_pos y). unfold with_rounding. assert (0 <= ulp1 * (Rabs y + E)) by (apply Rmult_le_pos; lra).
  assert (ulp1 * (Rabs y + E) <= ulp1 * (m + E)) by (apply Rmult_le_compat_l; lra). lra.
Qed.
Lemma b_add renv a b x y m1 m2 E1 E2 : bounded renv a x m1 E1 -> bounded renv b y m2 E2 -> m1 + m2 <= 100 -> E1 + E2 <= 1 ->
  bounded renv (EBin BAdd a b) (x + y) (m1 + m2) (E1 + E2 + 12 / 10 ^ 17 * (m1 + m2 + E1 + E2)).
Proof.
  intros (E1' & A1 & B1 & C1) (E2' & A2 & B2 & C2) Hm HE. pose proof ulp1_16 as Us. pose proof ulp1_pos as U. pose proof huge_100 as H.
  assert (C : Rabs (x + y) <= m1 + m2) by (eapply Rle_trans; [apply Rabs_triang|lra]). pose proof (Rabs_pos x). pose proof (Rabs_pos y).
  pose proof (b_round 0 (x + y) (m1 + m2) (E1' + E2') ltac:(lra) ltac:(lra) C) as Q.
  assert (ulp1 * (m1 + m2 + (E1' + E2')) <= 12 / 10 ^ 17 * (m1 + m2 + E1 + E2)) by (apply Rmult_le_compat; lra).
  exists (with_rounding ulp1 0 (x + y) (E1' + E2')). split; [|split; [lra|exact C]]. apply C59_add; auto. lra.
Qed.
Lemma b_sub renv a b x y m1 m2 E1 E2 : bounded renv a x m1 E1 -> bounded renv b y m2 E2 -> m1 + m2 <= 100 -> E1 + E2 <= 1 ->
  bounded renv (EBin BSub a b) (x - y) (m1 + m2) (E1 + E2 + 12 / 10 ^ 17 * (m1 + m2 + E1 + E2)).
Proof.
  intros (E1' & A1 & B1 & C1) (E2' & A2 & B2 & C2) Hm HE. pose proof ulp1_16 as Us. pose proof ulp1_pos as U. pose proof huge_100 as H.
  assert (C : Rabs (x - y) <= m1 + m2) by (unfold Rminus; eapply Rle_trans; [apply Rabs_triang|rewrite Rabs_Ropp; lra]). pose proof (Rabs_pos x). pose proof (Rabs_pos y).
  pose proof (b_round 0 (x - y) (m1 + m2) (E1' + E2') ltac:(lra) ltac:(lra) C) as Q.
  assert (ulp1 * (m1 + m2 + (E1' + E2')) <= 12 / 10 ^ 17 * (m1 + m2 + E1 + E2)) by (apply Rmult_le_compat; lra).
  exists (with_rounding ulp1 0 (x - y) (E1' + E2')). split; [|split; [lra|exact C]]. apply C59_sub; auto. lra.
Qed.
Lemma b_mul renv a b x y m1 m2 E1 E2 : bounded renv a x m1 E1 -> bounded renv b y m2 E2 -> m1 * m2 <= 100 -> m1 * E2 + E1 * m2 + E1 * E2 <= 1 ->
  let E := m1 * E2 + E1 * m2 + E1 * E2 in bounded renv (EBin BMul a b) (x * y) (m1 * m2) (E + 12 / 10 ^ 17 * (m1 * m2 + E) + 1 / 10 ^ 18).
Proof.
  intros (E1' & A1 & B1 & C1) (E2' & A2 & B2 & C2) Hm HE E. fold E in HE. pose proof ulp1_16 as Us. pose proof ulp1_pos as U. pose proof huge_100 as H. pose proof tiny_18 as T. pose proof tiny_pos as Tp.
  pose proof (Rabs_pos x) as Px. pose proof (Rabs_pos y) as Py.
  assert (C : Rabs (x * y) <= m1 * m2) by (rewrite Rabs_mult; apply Rmult_le_compat; lra).
  set (E' := Rabs x * E2' + E1' * Rabs y + E1' * E2').
  assert (P1 : 0 <= Rabs x * E2' <= m1 * E2) by (split; [apply Rmult_le_pos; lra|apply Rmult_le_compat; lra]).
  assert (P2 : 0 <= E1' * Rabs y <= E1 * m2) by (split; [apply Rmult_le_pos; lra|apply Rmult_le_compat; lra]).
  assert (P3 : 0 <= E1' * E2' <= E1 * E2) by (split; [apply Rmult_le_pos; lra|apply Rmult_le_compat; lra]).
  assert (PE : 0 <= E' <= E) by (unfold E', E; lra). pose proof (Rabs_pos (x * y)).
  pose proof (b_round tiny (x * y) (m1 * m2) E' ltac:(lra) ltac:(lra) C) as Q.
  assert (ulp1 * (m1 * m2 + E') <= 12 / 10 ^ 17 * (m1 * m2 + E)) by (apply Rmult_le_compat; lra).
  exists (with_rounding ulp1 tiny (x * y) E'). split; [|split; [lra|exact C]]. apply C59_times; auto. fold E'. lra.
Qed.

Definition ex64 : expr K := EBin BSub (EBin BAdd (EBin BMul (EVar "x") (EVar "x")) (EBin BMul (number 4) (EVar "x"))) (number 1).
Definition ex64_F (i : nat) (p : nat -> R) : R := p 0%nat * p 0%nat + 4 * p 0%nat - 1.
Definition ex64_D (i j : nat) (p : nat -> R) : R := 2 * p 0%nat + 4.
Definition ex64_s (j : nat) : R := sqrt 5 - 2.
Lemma sqrt5 : sqrt 5 * sqrt 5 = 5 /\ 2236 / 1000 <= sqrt 5 <= 2237 / 1000.
Proof.
  split; [apply sqrt_def; lra|]. split.
  - apply Rsqr_incr_0_var; [|apply sqrt_pos]. rewrite Rsqr_sqrt by lra. unfold Rsqr. lra.
  - apply Rsqr_incr_0_var; [|lra]. rewrite Rsqr_sqrt by lra. unfold Rsqr. lra.
Qed.
Lemma ex64_system P : system ["x"] 1 (fun _ => real_expr L ex64) ex64_F ex64_D P.
Proof.
  destruct (ofZ_small 4 ltac:(lia)) as [_ E4]. destruct (ofZ_small 1 ltac:(lia)) as [_ E1].
  assert (Er : real_expr L ex64 = EBin BSub (EBin BAdd (EBin BMul (EVar "x") (EVar "x")) (EBin BMul (ENum (Some 4)) (EVar "x"))) (ENum (Some 1))).
  { unfold ex64, number. cbn [real_expr]. change (EBin BSub (EBin BAdd (EBin BMul (EVar "x") (EVar "x")) (EBin BMul (ENum (Some (B2R (b_ofZ 4)))) (EVar "x"))) (ENum (Some (B2R (b_ofZ 1)))) = EBin BSub (EBin BAdd (EBin BMul (EVar "x") (EVar "x")) (EBin BMul (ENum (Some 4)) (EVar "x"))) (ENum (Some 1))). rewrite E4, E1. reflexivity. }
  intros i _. rewrite Er. split.
  { intros z O. repeat match goal with H : occurs _ _ |- _ => inversion H; clear H; subst end; simpl; auto. }
  intros p env _ Ha. pose proof (Ha 0%nat ltac:(cbn; lia)) as Hx. cbn [nth] in Hx. clear Ha. split.
  { cbn [rval r_bin]. rewrite Hx. reflexivity. }
  intros j Hj. cbn [length] in Hj. assert (j = 0%nat) as -> by lia. cbn [nth]. split.
  { cbn. repeat split; discriminate. }
  split; [unfold defined_near; apply filter_forall; intros y; cbn; discriminate|].
  apply (is_derive_ext (fun u => u * u + 4 * u - 1)); [intros u; reflexivity|]. unfold ex64_D. auto_derive; auto. rewrite Hx. ring.
Qed.
Lemma ex64_analysed : analysed L ulp1 ["x"] 1 (fun _ => ex64) ex64_F ex64_D (1 / 10 ^ 14) (1 / 10 ^ 14) (box 1 ex64_s (1 / 4)).
Proof.
  intros q env Hq Fenv Ha i Hi. pose proof (Ha 0%nat "x" eq_refl) as Ex. cbv beta in Ex. set (renv := fun x => B2R (env x)).
  assert (Er : renv "x" = reals q 0%nat) by (unfold renv, reals; now rewrite Ex).
  specialize (Hq 0%nat ltac:(lia)). unfold ex64_s in Hq. destruct sqrt5 as [_ S5].
  assert (Bx : Rabs (renv "x") <= 1 / 2). { rewrite Er. apply Rabs_le. apply Rabs_le_between in Hq. lra. }
  pose proof (b_var renv "x" (1 / 2) Bx) as X. assert (N4 : bounded renv (number 4) 4 4 0) by (apply (b_num renv 4); cbn; [lia|lra]).
  assert (N1 : bounded renv (number 1) 1 1 0) by (apply (b_num renv 1); cbn; [lia|lra]). assert (N0 : bounded renv (number 0) 0 0 0) by (apply (b_num renv 0); cbn; [lia|lra]).
  split.
  - pose proof (b_mul renv _ _ _ _ _ _ _ _ X X ltac:(lra) ltac:(lra)) as A1. cbv zeta in A1.
    pose proof (b_mul renv _ _ _ _ _ _ _ _ N4 X ltac:(lra) ltac:(lra)) as A2. cbv zeta in A2.
    pose proof (b_add renv _ _ _ _ _ _ _ _ A1 A2 ltac:(lra) ltac:(lra)) as A3.
    pose proof (b_sub renv _ _ _ _ _ _ _ _ A3 N1 ltac:(lra) ltac:(lra)) as (E & A4 & B4 & _).
    exists E. split; [unfold ex64_F; rewrite <- Er; exact A4|]. lra.
  - intros j Hj. assert (j = 0%nat) as -> by lia. cbn [nth]. cbv zeta. split; [cbn; tauto|].
    pose proof (b_mul renv _ _ _ _ _ _ _ _ N1 X ltac:(lra) ltac:(lra)) as A1. cbv zeta in A1.
    pose proof (b_mul renv _ _ _ _ _ _ _ _ X N1 ltac:(lra) ltac:(lra)) as A2. cbv zeta in A2.
    pose proof (b_add renv _ _ _ _ _ _ _ _ A1 A2 ltac:(lra) ltac:(lra)) as A3.
    pose proof (b_mul renv _ _ _ _ _ _ _ _ N4 N1 ltac:(lra) ltac:(lra)) as A4. cbv zeta in A4.
    pose proof (b_add renv _ _ _ _ _ _ _ _ A3 A4 ltac:(lra) ltac:(lra)) as A5.
    pose proof (b_sub renv _ _ _ _ _ _ _ _ A5 N0 ltac:(lra) ltac:(lra)) as (E & A6 & B6 & _).
    exists E. split; [|lra]. unfold ex64_D. rewrite <- Er. replace (2 * renv "x" + 4) with (1 * renv "x" + renv "x" * 1 + 4 * 1 - 0) by ring. exact A6.
Qed.

(** The result of Solve by Newton-Raphson with the default settings from the initial value 0 is within
    10^-8 of the root, which is irrational. *)
Theorem C64_ex : exists t t' (v : b64), VarsTable_make ["x"] (n_ofZ 0 : K) = Ok t /\
  SolveByNewtonRaphson (default_config K) (MkSym 1 1 [embed ex64]) t = Ok t' /\
  VarsTable_get t' "x" = Ok (v : K) /\ fin v /\ Rabs (B2R v - (sqrt 5 - 2)) <= / 10 ^ 8.
Proof.
  destruct (C36_make K ["x"] (n_ofZ 0)) as (t & Et & Ht); [discriminate|repeat constructor; auto|].
  destruct sqrt5 as [S2 S5]. pose proof ulp1_16 as Us. pose proof ulp1_pos as U. pose proof eps_default as HE. set (e := b_dec false 1 (-9)) in HE.
  assert (He1 : / IZR (10 ^ 10) = / 10 ^ 10) by (simpl; lra). assert (He2 : / IZR (10 ^ 8) = / 10 ^ 8) by (simpl; lra). rewrite He1, He2 in HE.
  assert (Efac : solve_factor 1 = 48 * ulp1). { unfold solve_factor. simpl INR. simpl pow. ring. }
  assert (Ns : norm1 1 ex64_s = sqrt 5 - 2). { unfold norm1, ex64_s. cbn [rsum]. rewrite Rabs_pos_eq by lra. lra. }
  set (tol := solve_tolerance 1 (B2R e) 6). assert (Ht1 : 0 < tol <= 2 / 10 ^ 8). { unfold tol, solve_tolerance. rewrite Efac. lra. }
  set (mg := newton_margin 1 (B2R e) 6 (1 / 10 ^ 14) (1 / 2) 4). assert (Hmg : 34 / 10 <= mg <= 36 / 10). { unfold mg, newton_margin. fold tol. lra. }
  set (rt := newton_rate 1 (B2R e) 6 (1 / 10 ^ 14) (1 / 2) 4).
  assert (Hrt : 0 <= rt <= 3 / 10).
  { unfold rt, newton_rate. fold tol mg. split.
    - apply Rmult_le_pos; [apply Rmult_le_pos; lra|left; apply Rinv_0_lt_compat; lra].
    - apply Rmult_le_reg_r with mg; [lra|]. unfold Rdiv at 1. rewrite Rmult_assoc, Rinv_l by lra.
      assert (Q : (1 + ulp1) * (2 * (1 / 2) + tol + 1 / 10 ^ 14) <= (1 + 12 / 10 ^ 17) * (1 + 2 / 10 ^ 8 + 1 / 10 ^ 14)) by (apply Rmult_le_compat; lra). lra. }
  set (ns := newton_noise 1 (B2R e) 6 2 (1 / 10 ^ 14) (1 / 10 ^ 14) (1 / 2) 4 ex64_s).
  assert (Hns : 0 <= ns <= 1 / 10 ^ 13).
  { unfold ns, newton_noise. fold mg. rewrite Ns, Efac.
    assert (Q : 0 <= (1 + ulp1) * (1 / 10 ^ 14 + 48 * ulp1 * 2) / mg <= 5 / 10 ^ 14).
    { split.
      - apply Rmult_le_pos; [apply Rmult_le_pos; lra|left; apply Rinv_0_lt_compat; lra].
      - apply Rmult_le_reg_r with mg; [lra|]. unfold Rdiv at 1. rewrite Rmult_assoc, Rinv_l by lra.
        assert (Q : (1 + ulp1) * (1 / 10 ^ 14 + 48 * ulp1 * 2) <= (1 + 12 / 10 ^ 17) * (3 / 10 ^ 14)) by (apply Rmult_le_compat; lra). lra. }
    assert (0 <= ulp1 * (sqrt 5 - 2) <= 12 / 10 ^ 17) by (split; [apply Rmult_le_pos; lra|]; apply Rle_trans with (ulp1 * 1); [apply Rmult_le_compat_l; lra|lra]). lra. }
  assert (HB : forall p, box 1 ex64_s (1 / 4) p -> Rabs (p 0%nat - (sqrt 5 - 2)) <= 1 / 4) by (intros p Hp; exact (Hp 0%nat Nat.lt_0_1)).
  destruct (C64_newton_from_zero L ulp1 (default_config K) 1 (fun _ => ex64) (MkSym 1 1 [embed ex64]) t ["x"] ex64_F ex64_D (1 / 10 ^ 14) (1 / 10 ^ 14) ex64_s (1 / 4) (1 / 2) 4 6 2 (1 / 10 ^ 12) 20)
    as (t' & p & E & T & Fp & V & Q).
  - exact rounded_libm_ieee.
  - exact C59_libm_exists.
  - reflexivity.
  - exact eps_default_fin.
  - lia.
  - reflexivity.
  - split; [reflexivity|]. split; [reflexivity|]. split; [reflexivity|]. intros [|i] [|j] Hi Hj; try lia; reflexivity.
  - intros i Hi. split; [split; [split; exact Logic.I|split; [exact (proj1 (ofZ_small 4 ltac:(lia)))|exact Logic.I]]|exact (proj1 (ofZ_small 1 ltac:(lia)))].
  - exact Ht.
  - lra.
  - apply ex64_system.
  - apply ex64_analysed.
  - lra.
  - lra.
  - intros i Hi. unfold ex64_F, ex64_s. lra.
  - intros z (j & Hj & Zj). assert (j = 0%nat) as -> by lia. exists 0%nat. split; [lia|]. unfold norm1, row_times, ex64_D, ex64_s. cbn [rsum].
    rewrite !Rplus_0_l, Rabs_mult, (Rabs_pos_eq (2 * (sqrt 5 - 2) + 4)) by lra. apply Rmult_lt_compat_r; [now apply Rabs_pos_lt|lra].
  - intros p i j Hp Hi Hj. apply HB in Hp. unfold ex64_D, ex64_s. replace (2 * p 0%nat + 4 - (2 * (sqrt 5 - 2) + 4)) with (2 * (p 0%nat - (sqrt 5 - 2))) by ring.
    rewrite Rabs_mult, (Rabs_pos_eq 2) by lra. lra.
  - intros i j Hi Hj. unfold ex64_D, ex64_s. rewrite Rabs_pos_eq by lra. lra.
  - lra.
  - change (epsilon (default_config K) : b64) with e. split; [|split; [lra|split; [lra|]]].
    + split; [|lra]. apply Rle_trans with (/ IZR (10 ^ 10)); [|lra]. apply Rinv_le_contravar; [apply IZR_lt; reflexivity|].
      rewrite large_pow. rewrite (pow_IZR 2 1000). apply IZR_le. vm_compute. discriminate.
    + simpl pow. assert (G : IZR (10 ^ 23) <= large). { rewrite large_pow, (pow_IZR 2 1000). apply IZR_le. vm_compute. discriminate. }
      assert (Q1 : / 10 ^ 10 * / 10 ^ 10 <= B2R e * B2R e) by (apply Rmult_le_compat; lra).
      assert (Q2 : IZR (10 ^ 23) * (/ 10 ^ 10 * / 10 ^ 10) <= large * (B2R e * B2R e)) by (apply Rmult_le_compat; lra).
      assert (Q3 : IZR (10 ^ 23) * (/ 10 ^ 10 * / 10 ^ 10) = 1000) by (change (IZR (10 ^ 23)) with 100000000000000000000000; lra).
      rewrite Q3 in Q2. eapply Rle_trans; [|exact Q2]. lra.
  - rewrite Ns. assert (G : 1000 <= large); [|lra]. rewrite large_pow. apply Rle_trans with (2 ^ 10); [lra|]. apply Rle_pow; [lra|lia].
  - change (epsilon (default_config K) : b64) with e. fold tol. lra.
  - change (epsilon (default_config K) : b64) with e. fold rt ns. lra.
  - lra.
  - change (epsilon (default_config K) : b64) with e. fold rt ns. lra.
  - change (epsilon (default_config K) : b64) with e. fold rt. assert (Pw : 0 <= rt ^ 20 <= (3 / 10) ^ 20) by (split; [apply pow_le; lra|apply pow_incr; lra]). lra.
  - cbn. lia.
  - exists t, t', (p 0%nat). split; [exact Et|]. split; [exact E|]. split; [apply (h_get _ _ _ T); exists 0%nat; auto|]. split; [apply Fp; lia|].
    change (epsilon (default_config K) : b64) with e in Q. unfold norm1, ex64_s, reals in Q. cbn [rsum] in Q. rewrite Rplus_0_l in Q. eapply Rle_trans; [exact Q|].
    apply Rmult_le_reg_r with (4 - 1 / 2); [lra|]. unfold Rdiv at 1. rewrite Rmult_assoc, Rinv_l by lra. lra.
Qed.
End Ex64.
