(** C70: a point returned by Solve is near a genuine root. *)
From Coq Require Import String Ascii List ZArith Bool Arith Lia Reals Lra.
From Coquelicot Require Import Coquelicot.
From Flocq Require Import IEEE754.BinarySingleNaN Core.
From Verif Require Import Base MathOp NodeModel SubsModel DiffModel MatModel LinearModel VarsTableModel SymMatModel NonlinearModel
  ExprSpec SubsSpec MatSpec VarsSpec SymMatSpec NonlinearSpec DiffSpec AffineSpec NewtonSpec NodeProofs SymMatProofs Thm_Node Thm_Subs Thm_Vars Thm_SymMat DiffProofs Thm_Diff
  NonlinearProofs Thm_Nonlinear IEEE RealSpec AffineSolve Thm_Affine NewtonProofs FloatSpec FloatFacts IntSpec IntProofs RoundSpec RoundProofs Thm_Round
  SolveSpec LinRound LinFloat LinLoop Thm_Solve DerivSpec Thm_Deriv Newton64Spec NewtonRound ParseModel GrammarSpec HashSpec ParseProofs Thm_Parse Thm_Newton64.
Import ListNotations.
Local Open Scope string_scope.
Local Open Scope list_scope.
Local Open Scope R_scope.

Lemma rsum_minus m (g h : nat -> R) : rsum m g - rsum m h = rsum m (fun k => g k - h k).
Proof. induction m as [|m IH]; cbn [rsum]; lra. Qed.

(** A regular system with small values at the centre of a box has exactly one root in the box. *)
Section Exists.
Context (xs : list string) (n : nat) (f : nat -> expr Rops) (F : nat -> (nat -> R) -> R) (D : nat -> nat -> (nat -> R) -> R) (c : nat -> R) (r mu kappa delta : R).
Hypotheses (Hn : (0 < n)%nat) (Nd : NoDup xs) (Hx : length xs = n) (HS : system xs n f F D (box n c r)) (Hr : 0 <= r)
  (HM : conditioned n (fun i j => D i j c) mu)
  (Var : forall q i j, box n c r q -> (i < n)%nat -> (j < n)%nat -> Rabs (D i j q - D i j c) <= kappa)
  (Hmu : INR n * kappa < mu)
  (HF : forall i, (i < n)%nat -> Rabs (F i c) <= delta)
  (Hd : delta / (mu - INR n * kappa) <= r).

Lemma centre : box n c r c.
Proof using All. intros j Hj. rewrite Rminus_eq_0, Rabs_R0. exact Hr. Qed.

Lemma between_points i p q : (i < n)%nat -> box n c r p -> box n c r q ->
  exists xi : nat -> nat -> R, (forall k, (k < n)%nat -> box n c r (xi k)) /\ F i p - F i q = rsum n (fun k => D i k (xi k) * (p k - q k)).
Proof using All.
  intros Hi Hp Hq. set (path := fun k j => if (j <? k)%nat then q j else p j).
  assert (Bp : forall k, box n c r (path k)).
  { intros k j Hj. unfold path. destruct (j <? k)%nat; auto. }
  assert (St : forall k v, (k < n)%nat -> Rmin (q k) (p k) <= v <= Rmax (q k) (p k) -> box n c r (setpt (path k) k v)).
  { intros k v Hk Hv j Hj. unfold setpt. destruct (Nat.eqb_spec j k) as [->|Hjk]; [|apply Bp, Hj].
    specialize (Hp k Hk). specialize (Hq k Hk). apply Rabs_le_between in Hp. apply Rabs_le_between in Hq. apply Rabs_le.
    revert Hv. unfold Rmin, Rmax. destruct (Rle_dec (q k) (p k)); lra. }
  assert (Step : forall k, (k < n)%nat -> exists xi : nat -> R, box n c r xi /\ F i (path k) - F i (path (S k)) = D i k xi * (p k - q k)).
  { intros k Hk. destruct (move_coord xs n f F D (box n c r) Nd Hx HS i k (path k) (q k) (p k) Hi Hk) as (z & Hz & E).
    - intros v Hv. now apply St.
    - exists (setpt (path k) k z). split; [apply St; auto|]. rewrite <- E. pose proof (Rmin_l (q k) (p k)). pose proof (Rmin_r (q k) (p k)). pose proof (Rmax_l (q k) (p k)). pose proof (Rmax_r (q k) (p k)).
      rewrite (F_ext xs n f F D (box n c r) Nd Hx HS i (path k) (setpt (path k) k (p k))), (F_ext xs n f F D (box n c r) Nd Hx HS i (path (S k)) (setpt (path k) k (q k))); auto; try (apply St; auto; lra).
      + intros j _. unfold setpt, path. destruct (Nat.eqb_spec j k) as [->|Hjk].
        * destruct (Nat.ltb_spec k (S k)); [reflexivity|lia].
        * destruct (Nat.ltb_spec j k), (Nat.ltb_spec j (S k)); try lia; reflexivity.
      + intros j _. unfold setpt, path. destruct (Nat.eqb_spec j k) as [->|]; [|reflexivity]. destruct (Nat.ltb_spec k k); [lia|reflexivity]. }
  assert (Sum : forall m, (m <= n)%nat -> exists xi : nat -> nat -> R, (forall k, (k < m)%nat -> box n c r (xi k)) /\
     F i (path 0%nat) - F i (path m) = rsum m (fun k => D i k (xi k) * (p k - q k))).
  { induction m as [|m IH]; intros Hm.
    - exists (fun _ => p). split; [intros; lia|]. cbn [rsum]. lra.
    - destruct IH as (xi & Hxi & E); [lia|]. destruct (Step m ltac:(lia)) as (x1 & Hx1 & E1).
      exists (fun k => if Nat.eqb k m then x1 else xi k). split.
      + intros k Hk. destruct (Nat.eqb_spec k m); [exact Hx1|apply Hxi; lia].
      + cbn [rsum]. rewrite Nat.eqb_refl. rewrite (rsum_ext m _ (fun k => D i k (xi k) * (p k - q k))); [lra|].
        intros k Hk. destruct (Nat.eqb_spec k m); [lia|reflexivity]. }
  destruct (Sum n (Nat.le_refl n)) as (xi & Hxi & E). exists xi. split; [exact Hxi|]. rewrite <- E.
  rewrite (F_ext xs n f F D (box n c r) Nd Hx HS i q (path n)); auto. intros j Hj. unfold path. destruct (Nat.ltb_spec j n); [reflexivity|lia].
Qed.

Lemma kappa_nonneg : 0 <= kappa.
Proof using All. pose proof (Var c 0%nat 0%nat centre Hn Hn) as H. rewrite Rminus_eq_0, Rabs_R0 in H. exact H. Qed.

(** Values at two points of the box. *)
Lemma linear_part i p q e : (i < n)%nat -> box n c r p -> box n c r q -> (forall j, (j < n)%nat -> Rabs (p j - q j) <= e) ->
  Rabs (F i p - F i q - row_times n (fun i j => D i j c) (fun j => p j - q j) i) <= INR n * (kappa * e).
Proof using All.
  intros Hi Hp Hq He. destruct (between_points i p q Hi Hp Hq) as (xi & Hxi & E). rewrite E. unfold row_times.
  replace (rsum n (fun k => D i k (xi k) * (p k - q k)) - rsum n (fun j => D i j c * (p j - q j))) with (rsum n (fun k => (D i k (xi k) - D i k c) * (p k - q k))).
  - apply rsum_bound; [exact kappa_nonneg| |exact He]. intros k Hk. apply Var; auto.
  - rewrite rsum_minus. apply rsum_ext. intros k _. lra.
Qed.

(** Two points with close values are close. *)
Lemma close_points p q e : box n c r p -> box n c r q -> (forall i, (i < n)%nat -> Rabs (F i p - F i q) <= e) ->
  forall j, (j < n)%nat -> (mu - INR n * kappa) * Rabs (p j - q j) <= e.
Proof using All.
  intros Hp Hq He j Hj. destruct (max_exists n (fun j => p j - q j) Hn) as (j0 & Hj0 & Hmax). cbv beta in Hmax. set (m := Rabs (p j0 - q j0)) in *.
  assert (G : mu * m <= e + INR n * (kappa * m)).
  { apply (HM (fun j => p j - q j)); [|exact Hj0]. intros i Hi.
    pose proof (linear_part i p q m Hi Hp Hq Hmax) as L. specialize (He i Hi).
    set (w := row_times n (fun i j => D i j c) (fun j => p j - q j) i) in *.
    replace w with ((F i p - F i q) + - (F i p - F i q - w)) by ring. eapply Rle_trans; [apply Rabs_triang|]. rewrite Rabs_Ropp. lra. }
  apply Rle_trans with ((mu - INR n * kappa) * m); [apply Rmult_le_compat_l; [lra|now apply Hmax]|]. lra.
Qed.

(** The inverse of the Jacobian at the centre, by the model's own SolveLinear with epsilon 0. *)
Lemma inverse_columns : exists X : nat -> nat -> R, forall k, (k < n)%nat -> forall i, (i < n)%nat ->
  row_times n (fun i j => D i j c) (X k) i = if Nat.eqb i k then 1 else 0.
Proof using All.
  assert (H : forall m, exists X : nat -> nat -> R, forall k, (k < m)%nat -> forall i, (i < n)%nat ->
     row_times n (fun i j => D i j c) (X k) i = if Nat.eqb i k then 1 else 0); [|exact (H n)].
  induction m as [|m (X & HX)]; [exists (fun _ _ => 0); lia|].
  pose (cfg0 := {| throwOnInvalidValue := true; epsilon := (Some 0 : Rops); maxIterations := 0%Z; nonlinearMethod := NEWTON_RAPHSON;
    initialValue := (Some 0 : Rops); allowIndeterminateEquation := false |}).
  destruct (@solve_conditioned cfg0 0 mu n (fun i j => D i j c) eq_refl (Rle_refl 0) Hn HM) with (v := fun i => if Nat.eqb i m then 1 else 0) as (x & _ & Hx0).
  { pose proof kappa_nonneg. assert (0 <= INR n * kappa) by (apply Rmult_le_pos; auto using pos_INR). lra. }
  exists (fun k => if Nat.eqb k m then x else X k). intros k Hk i Hi. destruct (Nat.eqb_spec k m) as [->|Hkm]; [|apply HX; auto; lia].
  specialize (Hx0 i Hi). rewrite Rmult_0_l in Hx0. set (w := row_times n (fun i j => D i j c) x i) in *. cbv beta in Hx0. destruct (Nat.eqb i m).
  - pose proof (Rabs_pos (w - 1)). assert (Z : Rabs (w - 1) = 0) by lra. apply Rabs_eq_0 in Z. lra.
  - pose proof (Rabs_pos (w - 0)). assert (Z : Rabs (w - 0) = 0) by lra. apply Rabs_eq_0 in Z. lra.
Qed.

Lemma row_times_comb (M : nat -> nat -> R) (a : nat -> R) (X : nat -> nat -> R) i m :
  row_times n M (fun j => rsum m (fun k => a k * X k j)) i = rsum m (fun k => a k * row_times n M (X k) i).
Proof using All.
  induction m as [|m IH]; cbn [rsum].
  - unfold row_times. transitivity (rsum n (fun j => 0 * M i j)); [apply rsum_ext; intros; ring|]. rewrite rsum_scal. ring.
  - rewrite <- IH. unfold row_times. rewrite <- rsum_scal, <- rsum_plus. apply rsum_ext. intros. ring.
Qed.
Lemma rsum_delta m (a : nat -> R) i : (i < m)%nat -> rsum m (fun k => a k * (if Nat.eqb i k then 1 else 0)) = a i.
Proof using All.
  assert (Z : forall m, (m <= i)%nat -> rsum m (fun k => a k * (if Nat.eqb i k then 1 else 0)) = 0).
  { induction m0 as [|m0 IH]; intros H; cbn [rsum]; [reflexivity|]. rewrite IH by lia. destruct (Nat.eqb_spec i m0); [lia|ring]. }
  induction m as [|m IH]; intros Hi; [lia|]. cbn [rsum]. destruct (Nat.eqb_spec i m) as [->|]; [rewrite Z by lia; ring|]. rewrite IH by lia. ring.
Qed.

Let th := INR n * kappa / mu.
Let nk : 0 <= INR n * kappa. Proof. apply Rmult_le_pos; [apply pos_INR|exact kappa_nonneg]. Qed.
Let th_range : 0 <= th < 1.
Proof.
  unfold th. split; [apply Rmult_le_pos; [exact nk|left; apply Rinv_0_lt_compat; lra]|].
  apply Rmult_lt_reg_r with mu; [lra|]. unfold Rdiv. rewrite Rmult_assoc, Rinv_l by lra. lra.
Qed.
Let dp : 0 <= delta. Proof. eapply Rle_trans; [apply Rabs_pos|exact (HF 0%nat Hn)]. Qed.

Theorem root_near : exists s, box n c (delta / (mu - INR n * kappa)) s /\ (forall i, (i < n)%nat -> F i s = 0) /\
  forall s', box n c r s' -> (forall i, (i < n)%nat -> F i s' = 0) -> forall j, (j < n)%nat -> s' j = s j.
Proof using All.
  destruct inverse_columns as [X HX]. set (dir := fun q j => rsum n (fun k => - F k q * X k j)).
  assert (Hdir : forall q i, (i < n)%nat -> row_times n (fun i j => D i j c) (dir q) i = - F i q).
  { intros q i Hi. unfold dir. rewrite row_times_comb. rewrite (rsum_ext n _ (fun k => - F k q * (if Nat.eqb i k then 1 else 0))) by (intros k Hk; now rewrite HX).
    now rewrite rsum_delta. }
  set (q := fix q (k : nat) : nat -> R := match k with O => c | S k' => fun j => q k' j + dir (q k') j end).
  set (e0 := delta / mu). assert (Pe0 : 0 <= e0) by (unfold e0, Rdiv; apply Rmult_le_pos; [exact dp|left; apply Rinv_0_lt_compat; lra]).
  set (R0 := delta / (mu - INR n * kappa)).
  assert (Er : e0 / (1 - th) = R0). { unfold e0, th, R0. field. split; lra. }
  set (part := fun k => e0 * (1 - th ^ k) / (1 - th)).
  assert (Pth : forall k, 0 <= th ^ k) by (intros k; apply pow_le; lra).
  assert (Ppart : forall k, part k = R0 - R0 * th ^ k) by (intros k; unfold part; rewrite <- Er; field; lra).
  assert (PR0 : 0 <= R0) by (rewrite <- Er; unfold Rdiv; apply Rmult_le_pos; [lra|left; apply Rinv_0_lt_compat; lra]).
  assert (Pstep : forall k, part k + e0 * th ^ k = part (S k)) by (intros k; unfold part; cbn [pow]; field; lra).
  assert (Ple : forall k, part k <= r). { intros k. rewrite Ppart. assert (0 <= R0 * th ^ k) by (apply Rmult_le_pos; auto). fold R0 in Hd. lra. }
  (* the sequence *)
  assert (Main : forall k, box n c (part k) (q k) /\ forall j, (j < n)%nat -> Rabs (dir (q k) j) <= e0 * th ^ k).
  { induction k as [|k [IB ID]].
    - split.
      + intros j Hj. cbn [q]. rewrite Rminus_eq_0, Rabs_R0. unfold part. cbn [pow]. right. field. lra.
      + intros j Hj. cbn [q pow]. rewrite Rmult_1_r. apply Rmult_le_reg_l with mu; [lra|]. replace (mu * e0) with delta by (unfold e0; field; lra).
        apply (HM (dir c)); [|exact Hj]. intros i Hi. rewrite Hdir by auto. rewrite Rabs_Ropp. now apply HF.
    - assert (B' : box n c (part (S k)) (q (S k))).
      { intros j Hj. cbn [q]. replace (q k j + dir (q k) j - c j) with ((q k j - c j) + dir (q k) j) by ring. eapply Rle_trans; [apply Rabs_triang|].
        rewrite <- Pstep. apply Rplus_le_compat; [now apply IB|now apply ID]. }
      split; [exact B'|]. intros j Hj.
      assert (G : mu * Rabs (dir (q (S k)) j) <= INR n * (kappa * (e0 * th ^ k))).
      { apply (HM (dir (q (S k)))); [|exact Hj]. intros i Hi. rewrite Hdir by auto. rewrite Rabs_Ropp.
        assert (Bk : box n c r (q k)) by (intros l Hl; eapply Rle_trans; [now apply IB|apply Ple]).
        assert (Bk' : box n c r (q (S k))) by (intros l Hl; eapply Rle_trans; [now apply B'|apply Ple]).
        pose proof (linear_part i (q (S k)) (q k) (e0 * th ^ k) Hi Bk' Bk) as L.
        replace (row_times n (fun i j => D i j c) (fun j => q (S k) j - q k j) i) with (- F i (q k)) in L.
        - replace (F i (q (S k))) with (F i (q (S k)) - F i (q k) - - F i (q k)) by ring. apply L. intros l Hl. cbn [q]. replace (q k l + dir (q k) l - q k l) with (dir (q k) l) by ring. now apply ID.
        - rewrite <- (Hdir (q k) i Hi). unfold row_times. apply rsum_ext. intros l Hl. cbn [q]. ring. }
      cbn [pow]. apply Rmult_le_reg_l with mu; [lra|]. replace (mu * (e0 * (th * th ^ k))) with (INR n * (kappa * (e0 * th ^ k))) by (unfold th; field; lra). exact G. }
  assert (Bq : forall k, box n c r (q k)) by (intros k l Hl; eapply Rle_trans; [now apply (proj1 (Main k))|apply Ple]).
  (* distances *)
  assert (Dist : forall d k j, (j < n)%nat -> Rabs (q (d + k)%nat j - q k j) <= R0 * th ^ k).
  { assert (Q : forall d k j, (j < n)%nat -> Rabs (q (d + k)%nat j - q k j) <= part (d + k)%nat - part k).
    { induction d as [|d IH]; intros k j Hj; cbn [Nat.add]; [rewrite !Rminus_eq_0, Rabs_R0; lra|].
      replace (q (S (d + k)) j - q k j) with ((q (d + k)%nat j - q k j) + dir (q (d + k)%nat) j) by (cbn [q]; ring).
      eapply Rle_trans; [apply Rabs_triang|]. rewrite <- Pstep. specialize (IH k j Hj). pose proof (proj2 (Main (d + k)%nat) j Hj). lra. }
    intros d k j Hj. eapply Rle_trans; [now apply Q|]. rewrite !Ppart. assert (0 <= R0 * th ^ (d + k)) by (apply Rmult_le_pos; auto). lra. }
  assert (Lth : is_lim_seq (fun k => R0 * th ^ k) 0).
  { replace (Finite 0) with (Rbar_mult R0 0) by (cbn; f_equal; ring). apply is_lim_seq_scal_l. apply is_lim_seq_geom. rewrite Rabs_pos_eq; lra. }
  (* the limit *)
  assert (Lim : forall j, exists l : R, (j < n)%nat -> is_lim_seq (fun k => q k j) l).
  { intros j. destruct (lt_dec j n) as [Hj|]; [|exists 0; intros; lia].
    assert (C : ex_lim_seq_cauchy (fun k => q k j)).
    { intros eps. destruct (proj2 (is_lim_seq_spec _ _) Lth eps) as [N HN]. exists N. intros a b Ha Hb.
      assert (forall a b, (N <= a)%nat -> (a <= b)%nat -> Rabs (q b j - q a j) < eps).
      { intros u v Hu Hv. replace v with (v - u + u)%nat by lia. eapply Rle_lt_trans; [now apply Dist|]. specialize (HN u Hu). rewrite Rminus_0_r in HN. eapply Rle_lt_trans; [apply Rle_abs|exact HN]. }
      destruct (Nat.le_ge_cases a b); [rewrite Rabs_minus_sym|]; now apply H. }
    apply ex_lim_seq_cauchy_corr in C. destruct C as [l Hl]. exists l. intros _. exact Hl. }
  assert (Lim' : exists s : nat -> R, forall j, (j < n)%nat -> is_lim_seq (fun k => q k j) (s j)).
  { clear - Lim. assert (G : forall m, exists s : nat -> R, forall j, (j < m)%nat -> (j < n)%nat -> is_lim_seq (fun k => q k j) (s j)).
    { induction m as [|m (s & Hs)]; [exists (fun _ => 0); lia|]. destruct (Lim m) as [l Hl]. exists (fun j => if Nat.eqb j m then l else s j).
      intros j Hj Hn. destruct (Nat.eqb_spec j m) as [->|]; [auto|]. apply Hs; auto. lia. }
    destruct (G n) as [s Hs]. exists s. auto. }
  destruct Lim' as [s Hs].
  assert (Hqs : forall k j, (j < n)%nat -> Rabs (s j - q k j) <= R0 * th ^ k).
  { intros k j Hj. apply (is_lim_seq_le (fun d => Rabs (q (d + k)%nat j - q k j)) (fun _ => R0 * th ^ k) (Rabs (s j - q k j)) (R0 * th ^ k)).
    - intros d. now apply Dist.
    - apply (is_lim_seq_abs (fun d => q (d + k)%nat j - q k j) (s j - q k j)). apply is_lim_seq_minus'; [|apply is_lim_seq_const].
      apply (is_lim_seq_incr_n (fun k => q k j) k). now apply Hs.
    - apply is_lim_seq_const. }
  assert (Bs0 : box n c R0 s). { intros j Hj. specialize (Hqs 0%nat j Hj). cbn [q pow] in Hqs. lra. }
  assert (Bs : box n c r s) by (intros j Hj; eapply Rle_trans; [now apply Bs0|exact Hd]).
  assert (Root : forall i, (i < n)%nat -> F i s = 0).
  { intros i Hi. set (G := rsum n (fun j => Rabs (D i j c))).
    assert (Bnd : forall k, Rabs (F i s) <= (2 * (G + INR n * kappa)) * (R0 * th ^ k)).
    { intros k. pose proof (linear_part i s (q k) (R0 * th ^ k) Hi Bs (Bq k) (Hqs k)) as L1.
      assert (Row : forall y e, (forall j, (j < n)%nat -> Rabs (y j) <= e) -> Rabs (row_times n (fun i j => D i j c) y i) <= G * e).
      { intros y e Hy. unfold row_times. eapply Rle_trans; [apply rsum_abs|]. unfold G. rewrite Rmult_comm, <- rsum_scal. apply rsum_le2. intros j Hj. rewrite Rabs_mult, Rmult_comm.
        apply Rmult_le_compat_r; [apply Rabs_pos|auto]. }
      pose proof (Row _ _ (Hqs k)) as L2. pose proof (Row _ _ (proj2 (Main k))) as L3. rewrite Hdir, Rabs_Ropp in L3 by auto.
      assert (e0 <= R0). { rewrite <- Er. apply Rmult_le_reg_r with (1 - th); [lra|]. unfold Rdiv. rewrite Rmult_assoc, Rinv_l by lra. assert (0 <= e0 * th) by (apply Rmult_le_pos; lra). lra. }
      assert (PG : 0 <= G). { unfold G. clear. induction n as [|k IH]; cbn [rsum]; [lra|]. pose proof (Rabs_pos (D i k c)). lra. }
      set (w := row_times n (fun i j => D i j c) (fun j => s j - q k j) i) in *. pose proof (Pth k) as PT. set (tk := th ^ k) in *.
      replace (F i s) with ((F i s - F i (q k) - w) + (w + F i (q k))) by ring.
      eapply Rle_trans; [apply Rabs_triang|]. pose proof (Rabs_triang w (F i (q k))).
      assert (0 <= R0 * tk) by (apply Rmult_le_pos; lra). assert (e0 * tk <= R0 * tk) by (apply Rmult_le_compat_r; lra).
      assert (G * (e0 * tk) <= G * (R0 * tk)) by (apply Rmult_le_compat_l; lra).
      assert (0 <= INR n * kappa * (R0 * tk)) by (apply Rmult_le_pos; [exact nk|lra]).
      replace (2 * (G + INR n * kappa) * (R0 * tk)) with (2 * (G * (R0 * tk)) + 2 * (INR n * kappa * (R0 * tk))) by ring.
      replace (INR n * (kappa * (R0 * tk))) with (INR n * kappa * (R0 * tk)) in L1 by ring. lra. }
    assert (L : is_lim_seq (fun k => 2 * (G + INR n * kappa) * (R0 * th ^ k)) 0).
    { replace (Finite 0) with (Rbar_mult (2 * (G + INR n * kappa)) 0) by (cbn; f_equal; ring). now apply is_lim_seq_scal_l. }
    pose proof (is_lim_seq_le (fun _ => Rabs (F i s)) _ (Rabs (F i s)) 0 Bnd (is_lim_seq_const _) L) as Q. cbn in Q.
    apply Rabs_eq_0. pose proof (Rabs_pos (F i s)). lra. }
  exists s. split; [exact Bs0|]. split; [exact Root|]. intros s' Bs' Root' j Hj.
  pose proof (close_points s' s 0 Bs' Bs) as Q. assert (Z : (mu - INR n * kappa) * Rabs (s' j - s j) <= 0).
  { apply Q; auto. intros i Hi. rewrite Root, Root', Rminus_eq_0, Rabs_R0 by auto. lra. }
  pose proof (Rabs_pos (s' j - s j)). assert (Rabs (s' j - s j) = 0) by nra. apply Rabs_eq_0 in H0. lra.
Qed.
End Exists.

(** Two readings of the coordinates of a table agree. *)
Lemma table_at_inj (K : num_ops) xs (t : vars_table K) p q : table_at xs t p -> table_at xs t q -> forall j, (j < length xs)%nat -> p j = q j.
Proof.
  intros Hp Hq j Hj. destruct (h_values _ _ _ Hp) as (_ & _ & Vp). destruct (h_values _ _ _ Hq) as (_ & _ & Vq).
  assert (E : map p (seq 0 (length xs)) = map q (seq 0 (length xs))) by (rewrite <- Vp; exact Vq).
  apply (f_equal (fun l => nth_error l j)) in E. rewrite !nth_error_map in E.
  rewrite (nth_error_nth' _ 0%nat) in E by (now rewrite seq_length). rewrite seq_nth in E by auto. cbn in E. congruence.
Qed.

Lemma rval_occurs env env' (e : expr Rops) : (forall x, occurs x e -> env x = env' x) -> rval env e = rval env' e.
Proof.
  intros H. induction e as [w|x|u a IH|b a IHa d IHd]; cbn [rval]; [reflexivity|rewrite H; [reflexivity|constructor]|rewrite IH; [reflexivity|]|rewrite IHa, IHd; [reflexivity| |]]; intros z O; apply H.
  - now apply occ_un.
  - now apply occ_r.
  - now apply occ_l.
Qed.

(** ** Exact real numbers *)
(** Solve (either method) has returned the point p, and around p the equations have continuous derivatives D
    that vary by at most kappa, the Jacobian at p being conditioned by mu > n kappa.  Then within
    epsilon / (mu - n kappa) of p there is a point s at which all equations are exactly 0, and it is
    the only root in the box. *)
Theorem C70_exact (cfg : config Rops) eps n (f : nat -> expr Rops) A t t' xs vs fuel afuel (p : nat -> R) F D r mu kappa :
  (0 < n)%nat -> length xs = n -> is_sym n 1 (fun i _ => f i) A -> holds t xs vs -> epsilon cfg = Some eps ->
  Solve cfg fuel afuel A t = Ok t' -> table_at (K:=Rops) xs t' (fun j => Some (p j)) ->
  system xs n f F D (box n p r) -> conditioned n (fun i j => D i j p) mu ->
  (forall q i j, box n p r q -> (i < n)%nat -> (j < n)%nat -> Rabs (D i j q - D i j p) <= kappa) ->
  INR n * kappa < mu -> eps / (mu - INR n * kappa) <= r ->
  exists s, box n p (eps / (mu - INR n * kappa)) s /\ (forall i, (i < n)%nat -> F i s = 0) /\
    forall s', box n p r s' -> (forall i, (i < n)%nat -> F i s' = 0) -> forall j, (j < n)%nat -> s' j = s j.
Proof.
  intros Hn Hx HA Ht He E T HS HM Var Hmu Hr. pose proof (h_nodup _ _ _ Ht) as Nd.
  destruct (C38_real_root cfg n f A t xs vs fuel afuel t' eps Hn He HA Ht E) as (env & Henv & Hval).
  destruct (Rle_lt_dec 0 r) as [Pr|Pr].
  2:{ exfalso. assert (0 <= eps). { destruct (Hval 0%nat Hn) as (v & _ & Hv). pose proof (Rabs_pos v). lra. }
      assert (0 <= eps / (mu - INR n * kappa)) by (unfold Rdiv; apply Rmult_le_pos; [lra|left; apply Rinv_0_lt_compat; lra]). lra. }
  apply (root_near xs n f F D p r mu kappa eps); auto. intros i Hi. destruct (Hval i Hi) as (v & Ev & Hv).
  assert (Hc : box n p r p) by (intros j Hj; rewrite Rminus_eq_0, Rabs_R0; lra).
  destruct (HS i Hi) as [W H]. destruct (H p (env_of xs p) Hc (env_of_at xs p Nd)) as [E1 _].
  assert (Q : rval (env_of xs p) (f i) = rval env (f i)).
  { apply rval_occurs. intros x O. pose proof (W x O) as Ix. apply In_nth_error in Ix as [j Hj]. pose proof (Henv i x Hi O) as G.
    assert (Hl : (j < length xs)%nat) by (apply nth_error_Some; congruence).
    assert (G' : VarsTable_get t' x = Ok (Some (p j) : Rops)).
    { apply (h_get _ _ _ T). exists j. split; [exact Hj|]. rewrite nth_error_map, (nth_error_nth' _ 0%nat) by (now rewrite seq_length). rewrite seq_nth by auto. reflexivity. }
    rewrite G in G'. injection G' as G'. rewrite G'. rewrite <- (nth_error_nth xs j EmptyString Hj). now apply env_of_at. }
  rewrite Q, Ev in E1. injection E1 as <-. lra.
Qed.

(** ** Doubles *)
(** The same for computations in doubles: p is a point of doubles, the equations (expressions of doubles) are read as
    expressions of real numbers, and the error analysis (C59) bounds the rounding errors of evaluating the equations at
    p by eF. *)
Theorem C70_doubles (L : libm) c (cfg : config (B64 L)) n (f : nat -> expr (B64 L)) A t t' xs vs fuel afuel (p : nat -> b64) F D r mu kappa eF :
  accurate_libm L c -> fin (epsilon cfg : b64) -> let eps := B2R (epsilon cfg : b64) in
  (0 < n)%nat -> length xs = n -> is_sym n 1 (fun i _ => f i) A -> holds t xs vs ->
  Solve cfg fuel afuel A t = Ok t' -> table_at (K:=B64 L) xs t' (fun j => p j : B64 L) -> (forall j, (j < n)%nat -> fin (p j)) ->
  system xs n (fun i => real_expr L (f i)) F D (box n (reals p) r) -> 0 <= r ->
  (forall env : string -> b64, (forall x, fin (env x)) -> at_point (K:=B64 L) xs (fun x => env x : B64 L) (fun j => p j : B64 L) ->
     forall i, (i < n)%nat -> exists E, accuracy L c (fun x => B2R (env x)) (fun _ => 0) (f i) (F i (reals p)) E /\ E <= eF) ->
  conditioned n (fun i j => D i j (reals p)) mu ->
  (forall q i j, box n (reals p) r q -> (i < n)%nat -> (j < n)%nat -> Rabs (D i j q - D i j (reals p)) <= kappa) ->
  INR n * kappa < mu -> (eps + eF) / (mu - INR n * kappa) <= r ->
  exists s, box n (reals p) ((eps + eF) / (mu - INR n * kappa)) s /\ (forall i, (i < n)%nat -> F i s = 0) /\
    forall s', box n (reals p) r s' -> (forall i, (i < n)%nat -> F i s' = 0) -> forall j, (j < n)%nat -> s' j = s j.
Proof.
  intros HL Fe eps Hn Hx HA Ht E T Fp HS Pr Ac HM Var Hmu Hr. pose proof (h_nodup _ _ _ Ht) as Nd.
  apply (root_near xs n (fun i => real_expr L (f i)) F D (reals p) r mu kappa (eps + eF)); auto. intros i Hi.
  destruct (C59_root L c HL cfg n f A t t' xs vs fuel afuel Hn HA Ht Fe E) as (p' & T' & H).
  pose proof (table_at_inj (B64 L) xs t' _ _ T T') as Ep. cbv beta in Ep.
  pose proof (env64_at L xs p Nd) as At. assert (Fv : forall x, fin (env64 xs p x)) by (apply env64_fin; rewrite Hx; exact Fp).
  destruct (Ac (env64 xs p) Fv At i Hi) as (E' & Ac' & HE').
  destruct (H (env64 xs p) Fv) with (i := i) (y := F i (reals p)) (E := E') as [_ B]; auto.
  - intros j x Hj. rewrite (At j x Hj). apply Ep. apply nth_error_Some. congruence.
  - fold eps in B. lra.
Qed.

(** ** From text *)
(** [s] is a way of writing the expression e (the grammar of C10). *)
Definition written {K : num_ops} (s : string) (e : expr K) : Prop := exists ts, derives 0 ts e /\ renders fnv1a ts s.

(** The whole way: equations given as text are parsed, put into a vector and solved. *)
Theorem C70_from_text (L : libm) c (cfg : config (B64 L)) (texts : list string) (eqs : list (expr (B64 L))) :
  accurate_libm L c -> fin (epsilon cfg : b64) -> let eps := B2R (epsilon cfg : b64) in
  Forall2 written texts eqs -> texts <> [] ->
  exists nodes A, Forall2 (fun s x => Parse s = Ok x) texts nodes /\ SymVec_of nodes = Ok A /\
  let n := length texts in let f := fun i => nth i eqs (EVar EmptyString) in
  forall t t' xs vs fuel afuel (p : nat -> b64) F D r mu kappa eF,
  length xs = n -> holds t xs vs ->
  Solve cfg fuel afuel A t = Ok t' -> table_at (K:=B64 L) xs t' (fun j => p j : B64 L) -> (forall j, (j < n)%nat -> fin (p j)) ->
  system xs n (fun i => real_expr L (f i)) F D (box n (reals p) r) -> 0 <= r ->
  (forall env : string -> b64, (forall x, fin (env x)) -> at_point (K:=B64 L) xs (fun x => env x : B64 L) (fun j => p j : B64 L) ->
     forall i, (i < n)%nat -> exists E, accuracy L c (fun x => B2R (env x)) (fun _ => 0) (f i) (F i (reals p)) E /\ E <= eF) ->
  conditioned n (fun i j => D i j (reals p)) mu ->
  (forall q i j, box n (reals p) r q -> (i < n)%nat -> (j < n)%nat -> Rabs (D i j q - D i j (reals p)) <= kappa) ->
  INR n * kappa < mu -> (eps + eF) / (mu - INR n * kappa) <= r ->
  exists s, box n (reals p) ((eps + eF) / (mu - INR n * kappa)) s /\ (forall i, (i < n)%nat -> F i s = 0) /\
    forall s', box n (reals p) r s' -> (forall i, (i < n)%nat -> F i s' = 0) -> forall j, (j < n)%nat -> s' j = s j.
Proof.
  intros HL Fe eps HW Hne.
  assert (HP : Forall2 (fun s x => Parse s = Ok x) texts (map embed eqs)).
  { clear - HW. induction HW as [|s e ss es (ts & Hd & Hr) _ IH]; cbn [map]; constructor; auto. eapply C10_parse_complete; eauto. }
  assert (El : length eqs = length texts) by (clear - HW; induction HW; cbn [length]; congruence).
  destruct (C34_vec_of eqs (fun i => nth i eqs (EVar EmptyString))) as (A & EA & HA).
  { intros ->. apply Hne. destruct texts; [reflexivity|discriminate El]. }
  { intros i Hi. exact (nth_error_nth' eqs (EVar EmptyString) Hi). }
  exists (map embed eqs), A. split; [exact HP|]. split; [exact EA|]. rewrite El in HA.
  intros n f t t' xs vs fuel afuel p F D r mu kappa eF Hx Ht E T Fp HS Pr Ac HM Var Hmu Hr.
  apply (C70_doubles L c cfg n f A t t' xs vs fuel afuel p F D r mu kappa eF); auto.
  unfold n. destruct texts; [congruence|cbn; lia].
Qed.

(** ** Example: the text x*x + 4*x - 1, solved from x = 0 *)
Section Ex70.
Notation L := rounded_libm.
Notation K := (B64 rounded_libm).
Lemma read_is (s : string) (z : Z) : (exists r, b_stod s = Some (r, String.length s) /\ B2SF r = B2SF (b_ofZ z)) -> number_word (K:=K) s (n_ofZ z).
Proof. intros (r & E & Q). apply B2SF_inj in Q. subst r. exact E. Qed.
Definition stod_test (s : string) (z : Z) : bool :=
  match b_stod s with
  | Some (r, k) => Nat.eqb k (String.length s) && match B2SF r, B2SF (b_ofZ z) with
      | SpecFloat.S754_finite a m e, SpecFloat.S754_finite a' m' e' => Bool.eqb a a' && Pos.eqb m m' && Z.eqb e e' | _, _ => false end
  | None => false end.
Lemma stod_test_ok s z : stod_test s z = true -> number_word (K:=K) s (n_ofZ z).
Proof.
  unfold stod_test. intros H. apply read_is. destruct (b_stod s) as [[r k]|]; [|discriminate]. apply andb_prop in H as [Hk H]. apply Nat.eqb_eq in Hk. subst k.
  exists r. split; [reflexivity|]. destruct (B2SF r), (B2SF (b_ofZ z)); try discriminate. apply andb_prop in H as [H H3]. apply andb_prop in H as [H1 H2].
  apply Bool.eqb_prop in H1. apply Pos.eqb_eq in H2. apply Z.eqb_eq in H3. congruence.
Qed.
Lemma ex70_written : written "x*x + 4*x - 1" ex64.
Proof.
  assert (Sp : all_chars space " ") by (split; [unfold space; cbn; tauto|exact Logic.I]).
  assert (Hx : lexeme (K:=K) fnv1a (SVar "x") "x") 
    by (pose proof (var_lexeme "x" eq_refl ltac:(vm_compute; reflexivity) ltac:(vm_compute; reflexivity)) as Q; inversion Q; subst; constructor; auto).
  assert (Nc : forall c, In c ["4"; "1"]%char -> ~ space c /\ ~ symbol c).
  { intros c [<-|[<-|[]]]; (split; [unfold space; cbn; intuition lia|intros H; unfold symbol in H; cbn in H; repeat (destruct H as [H|H]; [discriminate H|]); destruct H]). }
  assert (H4 : lexeme (K:=K) fnv1a (SNum (n_ofZ 4)) "4").
  { apply lx_num; [discriminate|split; [apply Nc; cbn; auto|exact Logic.I]|]. apply stod_test_ok. vm_compute. reflexivity. }
  assert (H1 : lexeme (K:=K) fnv1a (SNum (n_ofZ 1)) "1").
  { apply lx_num; [discriminate|split; [apply Nc; cbn; auto|exact Logic.I]|]. apply stod_test_ok. vm_compute. reflexivity. }
  assert (Hs : forall c, IsBasicOperator c = true -> symbol c) by (intros c Hc; now apply IsBasicOperator_symbol).
  exists (([SVar "x"; SSym "*"; SVar "x"] ++ SSym "+" :: [SNum (n_ofZ 4); SSym "*"; SVar "x"]) ++ SSym "-" :: [SNum (n_ofZ 1)])%char. split.
  - assert (M : forall t1 t2 (e1 e2 : expr K), derives 2 t1 e1 -> derives 2 t2 e2 -> derives 1 (t1 ++ SSym "*"%char :: t2) (EBin BMul e1 e2)).
    { intros. apply d_left; [constructor| |auto]. apply d_up; [lia|auto]. }
    assert (V : derives 2 [SVar "x"] (EVar "x" : expr K)) by (repeat (apply d_up; [lia|]); constructor).
    assert (N : forall z, derives 2 [SNum (n_ofZ z : K)] (ENum (n_ofZ z : K))) by (intros; repeat (apply d_up; [lia|]); constructor).
    apply d_left; [constructor| |apply d_up; [lia|apply N]]. apply d_left; [constructor| |exact (M _ _ _ _ (N 4%Z) V)].
    apply d_up; [lia|]. exact (M _ _ _ _ V V).
  - cbn [app].
    apply (r_cons fnv1a "" (SVar "x") "x" _ "*x + 4*x - 1"); [exact Logic.I|auto| |intros _; right; now apply Hs].
    apply (r_cons fnv1a "" (SSym "*") "*" _ "x + 4*x - 1"); [exact Logic.I|apply lx_sym; [now apply Hs|discriminate|discriminate]| |intros []].
    apply (r_cons fnv1a "" (SVar "x") "x" _ " + 4*x - 1"); [exact Logic.I|auto| |intros _; left; unfold space; cbn; tauto].
    apply (r_cons fnv1a " " (SSym "+") "+" _ " 4*x - 1"); [exact Sp|apply lx_sym; [now apply Hs|discriminate|discriminate]| |intros []].
    apply (r_cons fnv1a " " (SNum (n_ofZ 4)) "4" _ "*x - 1"); [exact Sp|auto| |intros _; right; now apply Hs].
    apply (r_cons fnv1a "" (SSym "*") "*" _ "x - 1"); [exact Logic.I|apply lx_sym; [now apply Hs|discriminate|discriminate]| |intros []].
    apply (r_cons fnv1a "" (SVar "x") "x" _ " - 1"); [exact Logic.I|auto| |intros _; left; unfold space; cbn; tauto].
    apply (r_cons fnv1a " " (SSym "-") "-" _ " 1"); [exact Sp|apply lx_sym; [now apply Hs|discriminate|discriminate]| |intros []].
    apply (r_cons fnv1a " " (SNum (n_ofZ 1)) "1" _ ""); [exact Sp|auto| |intros _; exact Logic.I].
    apply r_nil. exact Logic.I.
Qed.

(** Parse, Solve: the double returned for x is within 3 * 10^-9 of a real root. *)
Theorem C70_ex : exists A t t' (v : b64) (s : R), Parse "x*x + 4*x - 1" = Ok (embed ex64) /\ SymVec_of [embed ex64] = Ok A /\
  VarsTable_make ["x"] (n_ofZ 0 : K) = Ok t /\ SolveByNewtonRaphson (default_config K) A t = Ok t' /\ VarsTable_get t' "x" = Ok (v : K) /\
  s * s + 4 * s - 1 = 0 /\ Rabs (B2R v - s) <= 3 / 10 ^ 9.
Proof.
  destruct (C70_from_text L ulp1 (default_config K) ["x*x + 4*x - 1"] [ex64] C59_libm_exists eps_default_fin ltac:(constructor; [exact ex70_written|constructor]) ltac:(discriminate))
    as (nodes & A & HP & EA & H). cbv zeta in H.
  inversion HP as [|? nd ? l E1 E2]; subst. inversion E2; subst. clear HP E2.
  destruct ex70_written as (ts & Hd & Hr). assert (Pq : Parse "x*x + 4*x - 1" = Ok (embed ex64)) by (eapply C10_parse_complete; eauto).
  rewrite Pq in E1. injection E1 as <-.
  destruct C64_ex as (t & t' & v & Et & ES & Ev & Fv & Hv). exists A, t, t', v.
  assert (EA' : A = MkSym 1 1 [embed ex64]). { cbn in EA. injection EA as <-. reflexivity. } subst A.
  destruct (C36_make K ["x"] (n_ofZ 0)) as (t0 & Et0 & Ht); [discriminate|repeat constructor; auto|]. rewrite Et in Et0. injection Et0 as <-.
  assert (ES' : Solve (default_config K) 0 0 (MkSym 1 1 [embed ex64]) t = Ok t') by exact ES.
  assert (HA : is_sym 1 1 (fun _ _ => ex64) (MkSym 1 1 [embed ex64])).
  { split; [reflexivity|]. split; [reflexivity|]. split; [reflexivity|]. intros [|i] [|j] Hi Hj; try lia; reflexivity. }
  destruct (C38_solve_root (K:=K) (default_config K) 1 (fun _ => ex64) _ t ["x"] _ Nat.lt_0_1 HA Ht 0%nat 0%nat t' ES') as (p & T & _).
  assert (Hp : p 0%nat = (v : K)).
  { assert (G : VarsTable_get t' "x" = Ok (p 0%nat)) by (apply (h_get _ _ _ T); exists 0%nat; split; reflexivity). rewrite Ev in G. injection G as G. congruence. }
  assert (Ep : reals (fun j => p j : b64) 0%nat = B2R v) by (unfold reals; now rewrite Hp).
  destruct sqrt5 as [_ S5]. assert (H8 : 0 < / 10 ^ 8 <= 1 / 1000) by (split; [apply Rinv_0_lt_compat, pow_lt; lra|lra]).
  apply Rabs_le_between in Hv. assert (Vr : 23 / 100 <= B2R v <= 24 / 100) by lra.
  pose proof eps_default as HE. assert (He1 : / IZR (10 ^ 10) = / 10 ^ 10) by (simpl; lra). assert (He2 : / IZR (10 ^ 8) = / 10 ^ 8) by (simpl; lra). rewrite He1, He2 in HE.
  set (e := b_dec false 1 (-9)) in HE.
  assert (HB : forall q, box 1 (reals (fun j => p j : b64)) (1 / 100) q -> Rabs (q 0%nat - B2R v) <= 1 / 100).
  { intros q Hq. specialize (Hq 0%nat Nat.lt_0_1). rewrite Ep in Hq. exact Hq. }
  destruct (H t t' ["x"] [n_ofZ 0 : K] 0%nat 0%nat (fun j => p j : b64) ex64_F ex64_D (1 / 100) 4 (2 / 100) (1 / 10 ^ 14)) as (s & Bs & Rs & _).
  - reflexivity.
  - exact Ht.
  - exact ES'.
  - exact T.
  - intros j Hj. cbn [length] in Hj. assert (j = 0%nat) as -> by lia. rewrite Hp. exact Fv.
  - cbn [length]. intros i Hi. assert (i = 0%nat) as -> by lia. exact (ex64_system _ 0%nat Nat.lt_0_1).
  - lra.
  - intros env Fenv At i Hi. cbn [length] in Hi. assert (i = 0%nat) as -> by lia.
    assert (Hbox : box 1 ex64_s (1 / 4) (reals (fun j => p j : b64))).
    { intros j Hj. assert (j = 0%nat) as -> by lia. rewrite Ep. unfold ex64_s. apply Rabs_le. lra. }
    exact (proj1 (ex64_analysed (fun j => p j : b64) env Hbox Fenv At 0%nat Nat.lt_0_1)).
  - cbn [length]. intros y B HB' j Hj. assert (j = 0%nat) as -> by lia. specialize (HB' 0%nat Nat.lt_0_1). unfold row_times, ex64_D in HB'. cbn [rsum] in HB'.
    rewrite Rplus_0_l, Rabs_mult, Ep, (Rabs_pos_eq (2 * B2R v + 4)) in HB' by lra. pose proof (Rabs_pos (y 0%nat)).
    eapply Rle_trans; [|exact HB']. apply Rmult_le_compat_r; lra.
  - cbn [length]. intros q i j Hq Hi Hj. apply HB in Hq. unfold ex64_D. rewrite Ep. replace (2 * q 0%nat + 4 - (2 * B2R v + 4)) with (2 * (q 0%nat - B2R v)) by ring.
    rewrite Rabs_mult, (Rabs_pos_eq 2) by lra. lra.
  - cbn. lra.
  - cbn [length INR]. change (epsilon (default_config K) : b64) with e. replace (4 - 1 * (2 / 100)) with (398 / 100) by lra. lra.
  - exists (s 0%nat). split; [exact Pq|]. split; [exact EA|]. split; [exact Et|]. split; [exact ES|]. split; [exact Ev|].
    specialize (Rs 0%nat Nat.lt_0_1). split; [exact Rs|].
    specialize (Bs 0%nat Nat.lt_0_1). rewrite Ep in Bs. change (epsilon (default_config K) : b64) with e in Bs. cbn [length INR] in Bs.
    rewrite Rabs_minus_sym. eapply Rle_trans; [exact Bs|]. replace (4 - 1 * (2 / 100)) with (398 / 100) by lra. lra.
Qed.
End Ex70.
