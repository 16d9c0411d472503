(** Rounding errors of Gaussian elimination with partial pivoting: the analysis in real numbers. *)
From Coq Require Import ZArith Reals Lra Lia Arith Bool.
From Flocq Require Import Core.
From Verif Require Import AffineSpec RoundSpec MatSpec RoundProofs SolveSpec.
Local Open Scope R_scope.

(** ** Sums from column y on *)
Definition tl (n y : nat) (h : nat -> R) : R := rsum (S n) (fun j => if (y <=? j)%nat then h j else 0).

Lemma rsum_plus n g h : rsum n (fun j => g j + h j) = rsum n g + rsum n h.
Proof. induction n as [|n IH]; cbn [rsum]; [ring|]. rewrite IH. ring. Qed.
Lemma rsum_scale n a g : rsum n (fun j => a * g j) = a * rsum n g.
Proof. induction n as [|n IH]; cbn [rsum]; [ring|]. rewrite IH. ring. Qed.
Lemma rsum_abs n g : Rabs (rsum n g) <= rsum n (fun j => Rabs (g j)).
Proof. induction n as [|n IH]; cbn [rsum]; [rewrite Rabs_R0; lra|]. eapply Rle_trans; [apply Rabs_triang|]. lra. Qed.
Lemma rsum_zero n g : (forall i, (i < n)%nat -> g i = 0) -> rsum n g = 0.
Proof. induction n as [|n IH]; intros H; cbn [rsum]; [lra|]. rewrite H, IH by (intros; try apply H; lia). lra. Qed.
Lemma rsum_one n y a : (y < n)%nat -> rsum n (fun j => if (j =? y)%nat then a else 0) = a.
Proof.
  induction n as [|n IH]; intros H; [lia|]. cbn [rsum]. destruct (Nat.eqb_spec n y) as [->|Hne].
  - rewrite rsum_zero; [lra|]. intros i Hi. destruct (Nat.eqb_spec i y); [lia|reflexivity].
  - rewrite IH by lia. lra.
Qed.
Lemma rsum_in n g i : (forall j, (j < n)%nat -> 0 <= g j) -> (i < n)%nat -> g i <= rsum n g.
Proof.
  intros H Hi. pose proof (rsum_mono (S i) n g ltac:(lia) H) as Q. cbn [rsum] in Q.
  pose proof (rsum_pos i g ltac:(intros; apply H; lia)). lra.
Qed.

Lemma tl_first n y h : (y <= n)%nat -> tl n y h = h y + tl n (S y) h.
Proof.
  intros Hy. unfold tl. rewrite <- (rsum_one (S n) y (h y)) by lia. rewrite <- rsum_plus. apply rsum_eq. intros j Hj.
  destruct (Nat.eqb_spec j y) as [->|Hne].
  - rewrite Nat.leb_refl. destruct (Nat.leb_spec (S y) y); [lia|]. ring.
  - destruct (Nat.leb_spec y j), (Nat.leb_spec (S y) j); try lia; ring.
Qed.
Lemma tl_ext n y g h : (forall j, (y <= j <= n)%nat -> g j = h j) -> tl n y g = tl n y h.
Proof. intros H. apply rsum_eq. intros j Hj. destruct (Nat.leb_spec y j); [apply H; lia|reflexivity]. Qed.
Lemma tl_plus n y g h : tl n y (fun j => g j + h j) = tl n y g + tl n y h.
Proof. unfold tl. rewrite <- rsum_plus. apply rsum_eq. intros j Hj. destruct (y <=? j)%nat; ring. Qed.
Lemma tl_scale n y a h : tl n y (fun j => a * h j) = a * tl n y h.
Proof. unfold tl. rewrite <- rsum_scale. apply rsum_eq. intros j Hj. destruct (y <=? j)%nat; ring. Qed.
Lemma tl_abs n y g : Rabs (tl n y g) <= tl n y (fun j => Rabs (g j)).
Proof.
  eapply Rle_trans; [apply rsum_abs|]. apply Req_le, rsum_eq. intros j Hj. destruct (y <=? j)%nat; [reflexivity|apply Rabs_R0].
Qed.
Lemma tl_le n y g h : (forall j, (y <= j <= n)%nat -> g j <= h j) -> tl n y g <= tl n y h.
Proof. intros H. apply rsum_le. intros j Hj. destruct (Nat.leb_spec y j); [apply H; lia|lra]. Qed.
Lemma tl_pos n y g : (forall j, (y <= j <= n)%nat -> 0 <= g j) -> 0 <= tl n y g.
Proof. intros H. apply rsum_pos. intros j Hj. destruct (Nat.leb_spec y j); [apply H; lia|lra]. Qed.
Lemma tl_all n y g : (forall j, (j <= n)%nat -> 0 <= g j) -> tl n y g <= rsum (S n) g.
Proof. intros H. apply rsum_le. intros j Hj. destruct (Nat.leb_spec y j); [lra|apply H; lia]. Qed.
Lemma tl_0 n g : tl n 0 g = rsum (S n) g. Proof. reflexivity. Qed.

Section Chain.
(** Columns 0..n-1 hold the matrix and column n the right-hand side; N j bounds column j. *)
Variables (n : nat) (eps M B : R).
Hypotheses (He : 0 < eps) (HM : eps <= M) (HB : eps <= B).
Definition bnd (j : nat) : R := if (j =? n)%nat then B else M.
Definition kap : R := 2 * (1 + ulp1) ^ 3.

Lemma bnd_eps j : eps <= bnd j. Proof. unfold bnd. destruct (j =? n)%nat; auto. Qed.
Lemma kap_ge : 2 <= kap.
Proof. unfold kap. pose proof (pow_ge_1 3). lra. Qed.
Lemma kap_pow k : 1 <= kap ^ k. Proof. apply pow_R1_Rle. pose proof kap_ge. lra. Qed.

(** One step of the elimination of column y, with the rounding errors allowed in each entry. *)
Definition estep (y : nat) (f f' : nat -> nat -> R) (p : R) : Prop :=
  exists q, (y <= q < n)%nat /\
    let g := fun i j => f (swap_idx y q i) j in
    p = g y y /\ eps <= Rabs p /\
    (forall i, (y <= i < n)%nat -> Rabs (g i y) <= Rabs p) /\
    (forall i j, (i < y)%nat -> f' i j = f i j) /\
    (forall j, (y < j <= n)%nat -> Rabs (p * f' y j - g y j) <= 5 * ulp1 * kap ^ y * bnd j) /\
    (forall i, (y < i < n)%nat ->
       (Rabs (g i y) < eps /\ (forall j, (y < j <= n)%nat -> f' i j = g i j)) \/
       (forall j, (y < j <= n)%nat -> Rabs (f' i j - (g i j - g i y * f' y j)) <= 5 * ulp1 * kap ^ y * bnd j)).

Inductive chain (f0 : nat -> nat -> R) : nat -> (nat -> nat -> R) -> (nat -> R) -> Prop :=
| chain_O pv : chain f0 0 f0 pv
| chain_S y f pv f' p pv' : chain f0 y f pv -> estep y f f' p -> pv' y = p -> (forall i, (i < y)%nat -> pv' i = pv i) -> chain f0 (S y) f' pv'.

(** The residual of row i < y after y steps, and the error of step y. *)
Definition rho (f : nat -> nat -> R) (z : nat -> R) (i : nat) : R := z i + tl n (S i) (fun j => f i j * z j).
Definition step_err (z : nat -> R) (y : nat) : R := eps * Rabs (z y) + 5 * ulp1 * kap ^ y * tl n (S y) (fun j => bnd j * Rabs (z j)).

Lemma step_err_pos z y : 0 <= step_err z y.
Proof.
  unfold step_err. pose proof ulp1_pos. pose proof (kap_pow y).
  assert (0 <= eps * Rabs (z y)) by (apply Rmult_le_pos; [lra|apply Rabs_pos]).
  assert (0 <= tl n (S y) (fun j => bnd j * Rabs (z j))).
  { apply tl_pos. intros j _. apply Rmult_le_pos; [pose proof (bnd_eps j); lra|apply Rabs_pos]. }
  assert (0 <= 5 * ulp1 * kap ^ y) by nra. nra.
Qed.

Lemma tl_small y (d z : nat -> R) e : (forall j, (y < j <= n)%nat -> Rabs (d j) <= e * bnd j) ->
  Rabs (tl n (S y) (fun j => d j * z j)) <= e * tl n (S y) (fun j => bnd j * Rabs (z j)).
Proof.
  intros H. eapply Rle_trans; [apply tl_abs|]. rewrite <- tl_scale. apply tl_le. intros j Hj.
  rewrite Rabs_mult, <- Rmult_assoc. apply Rmult_le_compat_r; [apply Rabs_pos|]. apply H. lia.
Qed.

Lemma estep_residual y f f' p z T : (y < n)%nat -> estep y f f' p -> 0 <= T ->
  (forall i, (S y <= i < n)%nat -> Rabs (tl n (S y) (fun j => f' i j * z j)) <= T) ->
  forall i, (y <= i < n)%nat -> Rabs (tl n y (fun j => f i j * z j)) <= T + (Rabs p * Rabs (rho f' z y) + step_err z y).
Proof.
  intros Hyn (q & Hq & Ep & Hp & Hmax & Hold & Hrow & Hrows) HT H.
  set (g := fun i j => f (swap_idx y q i) j). change (p = g y y) in Ep.
  change (forall i, (y <= i < n)%nat -> Rabs (g i y) <= Rabs p) in Hmax.
  change (forall j, (y < j <= n)%nat -> Rabs (p * f' y j - g y j) <= 5 * ulp1 * kap ^ y * bnd j) in Hrow.
  change (forall i, (y < i < n)%nat -> (Rabs (g i y) < eps /\ (forall j, (y < j <= n)%nat -> f' i j = g i j)) \/
       (forall j, (y < j <= n)%nat -> Rabs (f' i j - (g i j - g i y * f' y j)) <= 5 * ulp1 * kap ^ y * bnd j)) in Hrows.
  assert (G : forall i, (y <= i < n)%nat -> Rabs (tl n y (fun j => g i j * z j)) <= T + (Rabs p * Rabs (rho f' z y) + step_err z y)).
  { intros i Hi. set (e := 5 * ulp1 * kap ^ y) in *.
    assert (Pe : 0 <= e). { unfold e. pose proof ulp1_pos. pose proof (kap_pow y). nra. }
    assert (PS : 0 <= tl n (S y) (fun j => bnd j * Rabs (z j))).
    { apply tl_pos. intros j _. apply Rmult_le_pos; [pose proof (bnd_eps j); lra|apply Rabs_pos]. }
    assert (Pz : 0 <= eps * Rabs (z y)) by (apply Rmult_le_pos; [lra|apply Rabs_pos]).
    unfold step_err. fold e. rewrite tl_first by lia.
    destruct (Nat.eq_dec i y) as [->|Hne].
    - assert (E : tl n (S y) (fun j => g y j * z j) =
         p * tl n (S y) (fun j => f' y j * z j) + tl n (S y) (fun j => (g y j - p * f' y j) * z j)).
      { rewrite <- tl_scale, <- tl_plus. apply tl_ext. intros; ring. }
      rewrite E, <- Ep. assert (Q := tl_small y (fun j => g y j - p * f' y j) z e).
      specialize (Q ltac:(intros j Hj; cbv beta; rewrite Rabs_minus_sym; now apply Hrow)).
      replace (p * z y + (p * tl n (S y) (fun j => f' y j * z j) + tl n (S y) (fun j => (g y j - p * f' y j) * z j)))
        with (p * rho f' z y + tl n (S y) (fun j => (g y j - p * f' y j) * z j)) by (unfold rho; ring).
      eapply Rle_trans; [apply Rabs_triang|]. rewrite Rabs_mult. lra.
    - specialize (H i ltac:(lia)). destruct (Hrows i ltac:(lia)) as [[Hs Hc]|Hc].
      + rewrite (tl_ext n (S y) (fun j => g i j * z j) (fun j => f' i j * z j)) by (intros j Hj; rewrite Hc by lia; reflexivity).
        eapply Rle_trans; [apply Rabs_triang|]. rewrite Rabs_mult.
        assert (Rabs (g i y) * Rabs (z y) <= eps * Rabs (z y)) by (apply Rmult_le_compat_r; [apply Rabs_pos|lra]).
        assert (0 <= Rabs p * Rabs (rho f' z y)) by (apply Rmult_le_pos; apply Rabs_pos).
        assert (0 <= e * tl n (S y) (fun j => bnd j * Rabs (z j))) by now apply Rmult_le_pos. lra.
      + set (l := g i y) in *.
        assert (E : tl n (S y) (fun j => g i j * z j) = tl n (S y) (fun j => f' i j * z j) + (l * tl n (S y) (fun j => f' y j * z j) +
             tl n (S y) (fun j => (g i j - l * f' y j - f' i j) * z j))).
        { rewrite <- tl_scale, <- !tl_plus. apply tl_ext. intros; ring. }
        rewrite E. assert (Q := tl_small y (fun j => g i j - l * f' y j - f' i j) z e).
        specialize (Q ltac:(intros j Hj; cbv beta; rewrite Rabs_minus_sym; now apply Hc)).
        set (D := tl n (S y) (fun j => (g i j - l * f' y j - f' i j) * z j)) in *.
        replace (l * z y + (tl n (S y) (fun j => f' i j * z j) + (l * tl n (S y) (fun j => f' y j * z j) + D)))
          with (tl n (S y) (fun j => f' i j * z j) + (l * rho f' z y + D)) by (unfold rho; ring).
        eapply Rle_trans; [apply Rabs_triang|]. apply Rplus_le_compat; [exact H|].
        eapply Rle_trans; [apply Rabs_triang|]. rewrite Rabs_mult.
        assert (Rabs l * Rabs (rho f' z y) <= Rabs p * Rabs (rho f' z y)) by (apply Rmult_le_compat_r; [apply Rabs_pos|apply Hmax; lia]).
        lra. }
  intros i Hi. specialize (G (swap_idx y q i)). unfold g in G.
  assert (E : swap_idx y q (swap_idx y q i) = i).
  { unfold swap_idx. destruct (Nat.eqb_spec i y) as [->|H1].
    - rewrite Nat.eqb_refl. destruct (Nat.eqb_spec q y); auto.
    - destruct (Nat.eqb_spec i q) as [->|H2]; [now rewrite Nat.eqb_refl|].
      destruct (Nat.eqb_spec i y); [contradiction|]. destruct (Nat.eqb_spec i q); [contradiction|reflexivity]. }
  rewrite E in G. apply G. unfold swap_idx. destruct (Nat.eqb_spec i y), (Nat.eqb_spec i q); lia.
Qed.

Lemma chain_residual f0 k f pv : chain f0 k f pv -> (k <= n)%nat -> forall z T, 0 <= T ->
  (forall i, (k <= i < n)%nat -> Rabs (tl n k (fun j => f i j * z j)) <= T) ->
  forall i, (i < n)%nat -> Rabs (rsum (S n) (fun j => f0 i j * z j)) <=
    T + rsum k (fun y => Rabs (pv y) * Rabs (rho f z y) + step_err z y).
Proof.
  induction 1 as [pv|y f pv f' p pv' HC IH HE Hp Hold]; intros Hk z T HT H i Hi.
  - change (rsum 0 _) with 0. rewrite Rplus_0_r. apply (H i). lia.
  - cbn [rsum]. rewrite Hp.
    assert (E : rsum y (fun y0 => Rabs (pv' y0) * Rabs (rho f' z y0) + step_err z y0) = rsum y (fun y0 => Rabs (pv y0) * Rabs (rho f z y0) + step_err z y0)).
    { apply rsum_eq. intros k Hk'. rewrite Hold by auto. do 2 f_equal. unfold rho. f_equal. f_equal. apply tl_ext. intros j Hj.
      destruct HE as (q & _ & _ & _ & _ & Ho & _). now rewrite Ho. }
    change (rsum (S n) (fun j => f0 i j * z j)) with (rsum n (fun j => f0 i j * z j) + f0 i n * z n) in IH |- *.
    rewrite E. pose proof (estep_residual y f f' p z T ltac:(lia) HE HT H) as Q.
    assert (P : 0 <= T + (Rabs p * Rabs (rho f' z y) + step_err z y)).
    { pose proof (step_err_pos z y). assert (0 <= Rabs p * Rabs (rho f' z y)) by (apply Rmult_le_pos; apply Rabs_pos). lra. }
    specialize (IH ltac:(lia) z _ P Q i Hi). cbn [rsum] in IH. lra.
Qed.

(** ** The errors of all steps together *)
Definition size (z : nat -> R) : R := M * norm1 n z + B * Rabs (z n).
Lemma size_tl z y : tl n y (fun j => bnd j * Rabs (z j)) <= size z.
Proof.
  eapply Rle_trans; [apply tl_all|].
  - intros j _. apply Rmult_le_pos; [pose proof (bnd_eps j); lra|apply Rabs_pos].
  - cbn [rsum]. unfold size, norm1. rewrite <- rsum_scale. apply Req_le. f_equal.
    + apply rsum_eq. intros j Hj. unfold bnd. destruct (Nat.eqb_spec j n); [lia|reflexivity].
    + unfold bnd. now rewrite Nat.eqb_refl.
Qed.
Lemma norm1_pos z : 0 <= norm1 n z.
Proof. apply rsum_pos. intros. apply Rabs_pos. Qed.
Lemma size_pos z : 0 <= size z.
Proof. unfold size. pose proof (norm1_pos z). pose proof (Rabs_pos (z n)). assert (0 <= M * norm1 n z) by (apply Rmult_le_pos; lra). assert (0 <= B * Rabs (z n)) by (apply Rmult_le_pos; lra). lra. Qed.

Lemma ulp1_small : ulp1 <= / 1000000000000000.
Proof. rewrite ulp1_bpow. change (bpow radix2 (-53)) with (/ IZR (Z.pow_pos 2 53)). apply Rinv_le_contravar; [lra|]. apply (IZR_le 1000000000000000). vm_compute. discriminate. Qed.

(** (1+u)^m <= 1 + 2 m u while m is not huge. *)
Lemma pow_lin m : (m <= 4000)%nat -> (1 + ulp1) ^ m <= 1 + 2 * INR m * ulp1.
Proof.
  induction m as [|m IH]; intros Hm; [simpl; lra|]. rewrite <- tech_pow_Rmult, S_INR. specialize (IH ltac:(lia)).
  pose proof ulp1_pos as U. pose proof ulp1_small as U2. pose proof (pos_INR m) as Pm.
  assert (INR m <= 4000). { replace 4000 with (INR 4000) by (rewrite INR_IZR_INZ; apply f_equal; reflexivity). apply le_INR. lia. }
  assert (INR m * ulp1 <= 4000 * / 1000000000000000) by (apply Rmult_le_compat; lra).
  assert (0 <= INR m * ulp1) by nra.
  apply Rle_trans with ((1 + ulp1) * (1 + 2 * INR m * ulp1)); [apply Rmult_le_compat_l; lra|].
  nra.
Qed.
Lemma kap_le k : (k <= 1100)%nat -> kap ^ k <= 2 * 2 ^ k.
Proof.
  intros Hk. unfold kap. rewrite Rpow_mult_distr, <- pow_mult, Rmult_comm. apply Rmult_le_compat_r; [apply pow_le; lra|].
  eapply Rle_trans; [apply pow_lin; lia|]. pose proof ulp1_small. pose proof ulp1_pos.
  assert (INR (3 * k) <= 4000). { replace 4000 with (INR 4000) by (rewrite INR_IZR_INZ; apply f_equal; reflexivity). apply le_INR. lia. }
  pose proof (pos_INR (3 * k)). assert (INR (3 * k) * ulp1 <= 4000 * / 1000000000000000) by (apply Rmult_le_compat; lra). lra.
Qed.
Lemma kap_sum k : (k <= 1000)%nat -> rsum k (fun y => kap ^ y) <= 2 * 2 ^ k.
Proof.
  intros Hk. apply Rle_trans with (2 * 2 ^ k - 2); [|lra]. induction k as [|k IH]; cbn [rsum]; [simpl; lra|].
  specialize (IH ltac:(lia)). pose proof (kap_le k ltac:(lia)). rewrite <- tech_pow_Rmult. lra.
Qed.

Lemma step_errs z k : (k <= n)%nat -> (k <= 1000)%nat -> rsum k (step_err z) <= eps * rsum k (fun y => Rabs (z y)) + 10 * ulp1 * 2 ^ k * size z.
Proof.
  intros Hkn Hk. pose proof (size_pos z) as PS. pose proof ulp1_pos as U.
  apply Rle_trans with (eps * rsum k (fun y => Rabs (z y)) + 5 * ulp1 * size z * rsum k (fun y => kap ^ y)).
  - rewrite <- !rsum_scale, <- rsum_plus. apply rsum_le. intros y Hy. unfold step_err. apply Rplus_le_compat_l.
    pose proof (size_tl z (S y)). pose proof (kap_pow y).
    replace (5 * ulp1 * size z * kap ^ y) with (5 * ulp1 * kap ^ y * size z) by ring. apply Rmult_le_compat_l; [nra|auto].
  - apply Rplus_le_compat_l. pose proof (kap_sum k Hk) as Q. assert (0 <= 5 * ulp1 * size z) by nra.
    eapply Rle_trans; [apply Rmult_le_compat_l; [exact H|exact Q]|]. apply Req_le. ring.
Qed.

(** The exact solution of the first k rows given the later entries of z. *)
Fixpoint solve_up (f : nat -> nat -> R) (k : nat) (z : nat -> R) : nat -> R :=
  match k with
  | O => z
  | S m => solve_up f m (fun j => if (j =? m)%nat then - tl n (S m) (fun j => f m j * z j) else z j)
  end.
Lemma solve_up_same f k : forall z j, (k <= j)%nat -> solve_up f k z j = z j.
Proof. induction k as [|k IH]; intros z j Hj; cbn [solve_up]; [reflexivity|]. rewrite IH by lia. destruct (Nat.eqb_spec j k); [lia|reflexivity]. Qed.
Lemma rho_ext f z z' i : (i < n)%nat -> (forall j, (i <= j)%nat -> z j = z' j) -> rho f z i = rho f z' i.
Proof. intros Hi H. unfold rho. rewrite H by lia. f_equal. apply tl_ext. intros j Hj. rewrite H by lia. reflexivity. Qed.
Lemma solve_up_rho f k : (k <= n)%nat -> forall z i, (i < k)%nat -> rho f (solve_up f k z) i = 0.
Proof.
  induction k as [|k IH]; intros Hk z i Hi; [lia|]. cbn [solve_up]. destruct (Nat.eq_dec i k) as [->|Hne].
  - set (z' := fun j => if (j =? k)%nat then _ else z j).
    rewrite (rho_ext f _ z' k) by (try lia; intros; now apply solve_up_same).
    unfold rho. unfold z' at 1. rewrite Nat.eqb_refl.
    rewrite (tl_ext n (S k) (fun j => f k j * z' j) (fun j => f k j * z j)); [lra|].
    intros j Hj. unfold z'. destruct (Nat.eqb_spec j k); [lia|reflexivity].
  - apply IH; lia.
Qed.
Lemma solve_up_rho' f k z i : (k <= i < n)%nat -> rho f (solve_up f k z) i = rho f z i.
Proof. intros Hi. apply rho_ext; [lia|]. intros. apply solve_up_same. lia. Qed.
End Chain.
