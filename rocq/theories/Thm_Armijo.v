(** C82: the public line search Armijo(x, d, f, df) on arbitrary functions. *)
From Coq Require Import String List ZArith Bool Arith Lia Reals Lra Psatz.
From Verif Require Import Base MathOp MatModel MatSpec MatProofs NonlinearModel NonlinearSpec LineSpec NonlinearProofs RealSpec AffineSpec Thm_Norms.
From Verif Require Thm_Affine LinRound LinGen.
Import ListNotations.
Local Open Scope string_scope.
Local Open Scope list_scope.
Local Open Scope nat_scope.

Section Contract.
Context {K : num_ops} (n : nat) (Hn : 0 < n) (x d phi : nat -> K) (M : nat -> nat -> K) (X D Fx J : mat K) (f df : mat K -> res (mat K)).
Hypothesis HX : is_vec n x X.
Hypothesis HD : is_vec n d D.
Hypothesis EF : f X = Ok Fx.
Hypothesis HF : is_vec n phi Fx.
Hypothesis EJ : df X = Ok J.
Hypothesis HJ : is_mat n n M J.

Local Notation halve := (fun a : K => n_mul a (n_dec 5 (-1))).

Local Notation moved := (moved x d).
Local Notation allowed := (allowed n d phi M).
Local Notation tested := (tested n x d phi M f).
(** f fails at x + a d in the way r. *)
Definition fails_at (a : K) (r : res K) : Prop :=
  exists Y, is_vec n (moved a) Y /\ match f Y with Ok _ => False | Throw e => r = Throw e | Terminate => r = Terminate
    | AssertFail w => r = AssertFail w | Undef w => r = Undef w | OutOfFuel => r = OutOfFuel end.

Lemma armijo_round fuel a : exists Y, is_vec n (moved a) Y /\
  match f Y with
  | Ok Z => forall psi, is_vec n psi Z -> Armijo_loop (S fuel) X D f df a =
      if n_leb (sumsq n psi) (allowed a) then Ok a else Armijo_loop fuel X D f df (halve a)
  | Throw e => Armijo_loop (S fuel) X D f df a = Throw e
  | Terminate => Armijo_loop (S fuel) X D f df a = Terminate
  | AssertFail w => Armijo_loop (S fuel) X D f df a = AssertFail w
  | Undef w => Armijo_loop (S fuel) X D f df a = Undef w
  | OutOfFuel => Armijo_loop (S fuel) X D f df a = OutOfFuel
  end.
Proof using All.
  cbn [Armijo_loop].
  destruct (Vec_scale_l_ok _ a d D Hn HD) as (w & -> & Hw). cbn [bind].
  destruct (Vec_add_ok _ _ _ _ _ Hn HX Hw) as (y & -> & Hy). cbn [bind].
  exists y. split; [exact Hy|]. destruct (f y) as [Z| | | | |]; cbn [bind]; try reflexivity.
  intros psi HZ. rewrite EF. cbn [bind]. rewrite EJ. cbn [bind].
  destruct (Transpose_ok _ _ _ _ Hn Hn HJ) as (Bt & -> & HBt). cbn [bind].
  pose proof (map_is_mat _ _ _ _ (fun v => n_mul v (n_mul (n_dec 4 (-1)) a)) HBt) as Hs.
  destruct (Mat_mul_ok _ _ _ _ _ _ _ Hn Nat.lt_0_1 Hs HD) as (C & EC & HC).
  unfold Mat_scale_l. rewrite EC. cbn [bind].
  destruct (Mat_map2_ok n_add _ _ _ _ Fx C HF HC) as (S0 & ES & HS). unfold Mat_add. rewrite ES. cbn [bind].
  rewrite (Norm2_ksum _ _ _ HZ).
  assert (HS' : is_vec n (fun i => n_add (phi i) (ksum n (fun l => n_mul (n_mul (M l i) (n_mul (n_dec 4 (-1)) a)) (d l)))) S0) by exact HS.
  rewrite (Norm2_ksum _ _ _ HS'). reflexivity.
Qed.

Lemma armijo_cases fuel : forall a, (forall k Y w, is_vec n (moved (Nat.iter k halve a)) Y -> f Y = Ok w -> exists psi, is_vec n psi w) ->
  (exists k, k < fuel /\ Armijo_loop fuel X D f df a = Ok (Nat.iter k halve a) /\ tested (Nat.iter k halve a) true /\
     forall k', k' < k -> tested (Nat.iter k' halve a) false) \/
  (exists k, k < fuel /\ fails_at (Nat.iter k halve a) (Armijo_loop fuel X D f df a) /\ forall k', k' < k -> tested (Nat.iter k' halve a) false) \/
  (Armijo_loop fuel X D f df a = OutOfFuel /\ forall k', k' < fuel -> tested (Nat.iter k' halve a) false).
Proof using All.
  induction fuel as [|fuel IH]; intros a Hf; [right; right; split; [reflexivity|lia]|].
  destruct (armijo_round fuel a) as (Y & HY & R).
  assert (Fl : match f Y with Ok _ => False | Throw e => Armijo_loop (S fuel) X D f df a = Throw e | Terminate => Armijo_loop (S fuel) X D f df a = Terminate
    | AssertFail w => Armijo_loop (S fuel) X D f df a = AssertFail w | Undef w => Armijo_loop (S fuel) X D f df a = Undef w | OutOfFuel => Armijo_loop (S fuel) X D f df a = OutOfFuel end -> exists k, k < S fuel /\ fails_at (Nat.iter k halve a) (Armijo_loop (S fuel) X D f df a) /\ forall k', k' < k -> tested (Nat.iter k' halve a) false).
  { intros Q. exists 0. split; [lia|]. split; [|lia]. exists Y. split; [exact HY|]. exact Q. }
  destruct (f Y) as [Z| | | | |] eqn:EY; try (right; left; apply Fl; exact R). clear Fl.
  destruct (Hf 0 _ _ HY EY) as (psi & Hpsi). specialize (R psi Hpsi).
  destruct (n_leb (sumsq n psi) (allowed a)) eqn:B.
  { left. exists 0. split; [lia|]. split; [exact R|]. split; [|lia]. exists Y, Z, psi. auto. }
  assert (T0 : tested a false) by (exists Y, Z, psi; auto).
  rewrite R. destruct (IH (halve a) (fun k Y w H => Hf (S k) Y w ltac:(rewrite (iter_shift halve k a); exact H))) as [(k & Hk & Ek & Tk & Fk)|[(k & Hk & Ek & Fk)|[Ek Fk]]].
  - left. exists (S k). rewrite !(iter_shift halve k a). split; [lia|]. split; [exact Ek|]. split; [exact Tk|].
    intros [|k'] Hk'; [exact T0|]. rewrite (iter_shift halve k' a). apply Fk. lia.
  - right. left. exists (S k). rewrite !(iter_shift halve k a). split; [lia|]. split; [exact Ek|].
    intros [|k'] Hk'; [exact T0|]. rewrite (iter_shift halve k' a). apply Fk. lia.
  - right. right. split; [exact Ek|]. intros [|k'] Hk'; [exact T0|]. rewrite (iter_shift halve k' a). apply Fk. lia.
Qed.

(** f returns vectors with n entries where the search calls it. *)
Hypothesis Hf : forall k Y w, is_vec n (moved (step_length k)) Y -> f Y = Ok w -> exists psi, is_vec n psi w.

Lemma tested_one a b b' : tested a b -> tested a b' -> b = b'.
Proof using.
  intros (Y & Z & psi & H1 & H2 & H3 & H4) (Y' & Z' & psi' & H1' & H2' & H3' & H4').
  assert (Y' = Y) by (exact (is_mat_unique _ _ _ _ _ H1' H1)). subst Y'. rewrite H2 in H2'. injection H2' as <-.
  rewrite <- H4, <- H4'. rewrite <- (Norm2_ksum _ _ _ H3), <- (Norm2_ksum _ _ _ H3'). reflexivity.
Qed.
Lemma tested_fails a b r : tested a b -> fails_at a r -> False.
Proof using.
  intros (Y & Z & psi & H1 & H2 & _) (Y' & H1' & H). assert (Y' = Y) by (exact (is_mat_unique _ _ _ _ _ H1' H1)). subst Y'. now rewrite H2 in H.
Qed.

Lemma cases fuel :
  (exists k, k < fuel /\ Armijo fuel X D f df = Ok (step_length k) /\ tested (step_length k) true /\ forall k', k' < k -> tested (step_length k') false) \/
  (exists k, k < fuel /\ fails_at (step_length k) (Armijo fuel X D f df) /\ forall k', k' < k -> tested (step_length k') false) \/
  (Armijo fuel X D f df = OutOfFuel /\ forall k', k' < fuel -> tested (step_length k') false).
Proof using All. exact (armijo_cases fuel (n_ofZ 1) Hf). Qed.

(** Armijo returns a step length exactly when it is the first of 1, 1/2, 1/4, ... that passes the test
    (if it is allowed [fuel] tests). *)
Theorem C82_first_passing fuel a : Armijo fuel X D f df = Ok a <->
  exists k, k < fuel /\ a = step_length k /\ tested (step_length k) true /\ forall k', k' < k -> tested (step_length k') false.
Proof using All.
  split.
  - intros E. destruct (cases fuel) as [(k & Hk & E' & T & Fk)|[(k & Hk & (Y & HY & E') & Fk)|[E' _]]].
    + exists k. split; [exact Hk|]. split; [congruence|]. auto.
    + exfalso. rewrite E in E'. destruct (f Y); congruence.
    + congruence.
  - intros (k & Hk & -> & T & Fk). destruct (cases fuel) as [(k2 & Hk2 & E' & T' & Fk')|[(k2 & Hk2 & E' & Fk')|[E' Fk']]].
    + assert (k2 = k); [|now subst]. destruct (Nat.lt_trichotomy k2 k) as [L|[L|L]]; [|exact L|]; exfalso.
      * pose proof (tested_one _ _ _ T' (Fk _ L)). congruence.
      * pose proof (tested_one _ _ _ T (Fk' _ L)). congruence.
    + exfalso. destruct (Nat.lt_ge_cases k2 k) as [L|L]; [exact (tested_fails _ _ _ (Fk _ L) E')|].
      destruct (Nat.eq_dec k2 k) as [->|N]; [exact (tested_fails _ _ _ T E')|].
      pose proof (tested_one _ _ _ T (Fk' k ltac:(lia))). congruence.
    + pose proof (tested_one _ _ _ T (Fk' k Hk)). congruence.
Qed.

(** It throws what f throws at the first point it tries at which f does not return. *)
Theorem C82_throws fuel e : Armijo fuel X D f df = Throw e <->
  exists k Y, k < fuel /\ is_vec n (moved (step_length k)) Y /\ f Y = Throw e /\ forall k', k' < k -> tested (step_length k') false.
Proof using All.
  split.
  - intros E. destruct (cases fuel) as [(k & Hk & E' & T & Fk)|[(k & Hk & (Y & HY & E') & Fk)|[E' _]]]; [congruence| |congruence].
    exists k, Y. split; [exact Hk|]. split; [exact HY|]. split; [|exact Fk]. rewrite E in E'. destruct (f Y); first [contradiction | congruence].
  - intros (k & Y & Hk & HY & EY & Fk). assert (Fa : fails_at (step_length k) (Throw e)) by (exists Y; split; [exact HY|now rewrite EY]).
    destruct (cases fuel) as [(k2 & Hk2 & E' & T' & Fk')|[(k2 & Hk2 & (Y2 & HY2 & E') & Fk')|[E' Fk']]].
    + exfalso. destruct (Nat.lt_trichotomy k2 k) as [L|[->|L]].
      * pose proof (tested_one _ _ _ T' (Fk _ L)). congruence.
      * exact (tested_fails _ _ _ T' Fa).
      * exact (tested_fails _ _ _ (Fk' _ L) Fa).
    + destruct (Nat.lt_trichotomy k2 k) as [L|[->|L]].
      * exfalso. apply (tested_fails _ _ (Armijo fuel X D f df) (Fk _ L)). exists Y2. auto.
      * assert (Y2 = Y) by (exact (is_mat_unique _ _ _ _ _ HY2 HY)). subst Y2. rewrite EY in E'. exact E'.
      * exfalso. exact (tested_fails _ _ _ (Fk' _ L) Fa).
    + exfalso. exact (tested_fails _ _ _ (Fk' _ Hk) Fa).
Qed.

(** It runs for ever exactly when every step length fails the test. *)
Theorem C82_runs_for_ever : (forall v, f v <> OutOfFuel) -> ((forall fuel, Armijo fuel X D f df = OutOfFuel) <-> forall k, tested (step_length k) false).
Proof using All.
  intros Nf. split.
  - intros E k. destruct (cases (S k)) as [(k2 & _ & E' & _)|[(k2 & _ & (Y & _ & E') & _)|[_ Fk]]]; [rewrite E in E'; congruence| |apply Fk; lia].
    exfalso. rewrite E in E'. specialize (Nf Y). destruct (f Y); congruence.
  - intros T fuel. destruct (cases fuel) as [(k & _ & _ & T' & _)|[(k & _ & E' & _)|[E' _]]]; [|exfalso; exact (tested_fails _ _ _ (T k) E')|exact E'].
    pose proof (tested_one _ _ _ T' (T k)). congruence.
Qed.
End Contract.

(** ** Exact reals: when the search ends *)
Local Open Scope R_scope.
Lemma derivable_rsum m (h : R -> nat -> R) (g : nat -> R) : (forall i, (i < m)%nat -> derivable_pt_lim (fun a => h a i) 0 (g i)) ->
  derivable_pt_lim (fun a => rsum m (h a)) 0 (rsum m g).
Proof.
  induction m as [|m IH]; intros H; cbn [rsum]; [apply derivable_pt_lim_const|].
  apply (derivable_pt_lim_plus (fun a => rsum m (h a)) (fun a => h a m)); [apply IH; intros; apply H; lia|apply H; lia].
Qed.
Lemma pow2_small e : 0 < e -> exists k, / 2 ^ k < e.
Proof.
  intros He. destruct (pow_lt_1_zero (/ 2) ltac:(rewrite Rabs_right; lra) e He) as (N & HN). exists N.
  specialize (HN N (Nat.le_refl N)). rewrite pow_inv in HN. rewrite Rabs_right in HN; [exact HN|]. left. apply Rinv_0_lt_compat, pow_lt. lra.
Qed.
Lemma step_R k : step_length (K:=Rops) k = (Some (/ 2 ^ k) : Rops).
Proof.
  induction k as [|k IH]; [cbn; now rewrite Rinv_1|]. change (step_length (K:=Rops) (S k)) with (n_mul (step_length (K:=Rops) k) (n_dec 5 (-1) : Rops)). rewrite IH.
  change (Some (/ 2 ^ k * (5 * powerRZ 10 (-1))) = (Some (/ 2 ^ S k) : Rops)). enough (Q : / 2 ^ k * (5 * powerRZ 10 (-1)) = / 2 ^ S k) by (rewrite Q; reflexivity).
  replace (powerRZ 10 (-1)) with (/ 10) by (simpl; f_equal; lra). cbn [pow]. field. apply pow_nonzero. lra.
Qed.

Section Ends.
Context (n : nat) (Hn : (0 < n)%nat) (x d : nat -> R) (F : (nat -> R) -> nat -> R) (M : nat -> nat -> R) (X D J : mat Rops) (f df : mat Rops -> res (mat Rops)).
Hypothesis HX : is_vec n (fun j => Some (x j) : Rops) X.
Hypothesis HD : is_vec n (fun j => Some (d j) : Rops) D.
(** f computes F, and df returns the matrix M at x. *)
Hypothesis Hf : forall p Y, is_vec n (fun j => Some (p j) : Rops) Y -> exists Z, f Y = Ok Z /\ is_vec n (fun i => Some (F p i) : Rops) Z.
Hypothesis EJ : df X = Ok J.
Hypothesis HJ : is_mat n n (fun i j => Some (M i j) : Rops) J.

Local Notation lhs := (residual n F x d).
Local Notation rhs := (allowance n F M x d).

Lemma tested_R k b : Rleb (lhs (/ 2 ^ k)) (rhs (/ 2 ^ k)) = b ->
  tested (K:=Rops) n (fun j => Some (x j) : Rops) (fun j => Some (d j) : Rops) (fun i => Some (F x i) : Rops) (fun i j => Some (M i j) : Rops) f (step_length k) b.
Proof using Hn HX HD Hf.
  intros Hb. rewrite step_R. set (a := / 2 ^ k) in *.
  destruct (Vec_scale_l_ok (K:=Rops) _ (Some a) _ D Hn HD) as (w & _ & Hw).
  destruct (Vec_add_ok (K:=Rops) _ _ _ _ _ Hn HX Hw) as (y & _ & Hy).
  destruct (Hf (fun j => x j + d j * a) y Hy) as (Z & EZ & HZ).
  exists y, Z, (fun i => Some (F (fun j => x j + d j * a) i) : Rops). split; [exact Hy|]. split; [exact EZ|]. split; [exact HZ|].
  replace (sumsq n (fun i => Some (F (fun j => x j + d j * a) i) : Rops)) with (Some (lhs a) : Rops)
    by (symmetry; exact (ksum_rsum n (fun i => F (fun j => x j + d j * a) i * F (fun j => x j + d j * a) i))).
  match goal with |- n_leb _ ?z = _ => replace z with (Some (rhs a) : Rops) end; [exact Hb|].
  unfold allowed, sumsq, allowance. rewrite <- (ksum_rsum n (fun i => (F x i + 4 / 10 * a * transposed_times n M d i) * (F x i + 4 / 10 * a * transposed_times n M d i))).
  unfold ksum. apply f_equal. apply map_ext. intros i.
  assert (T : n_add (Some (F x i) : Rops) (ksum (K:=Rops) n (fun l => n_mul (n_mul (Some (M l i) : Rops) (n_mul (n_dec 4 (-1)) (Some a : Rops))) (Some (d l) : Rops))) = (Some (F x i + 4 / 10 * a * transposed_times n M d i) : Rops)).
  { change (n_add (Some (F x i) : Rops) (ksum (K:=Rops) n (fun l => Some (M l i * (4 * powerRZ 10 (-1) * a) * d l) : Rops)) = (Some (F x i + 4 / 10 * a * transposed_times n M d i) : Rops)).
    rewrite ksum_rsum. change (Some (F x i + rsum n (fun l => M l i * (4 * powerRZ 10 (-1) * a) * d l)) = (Some (F x i + 4 / 10 * a * transposed_times n M d i) : Rops)).
    enough (Q : rsum n (fun l => M l i * (4 * powerRZ 10 (-1) * a) * d l) = 4 / 10 * a * transposed_times n M d i) by (rewrite Q; reflexivity).
    unfold transposed_times. rewrite <- Thm_Affine.rsum_scal. apply Thm_Affine.rsum_ext. intros l Hl. replace (powerRZ 10 (-1)) with (/ 10) by (simpl; f_equal; lra). field. }
  fold (ksum (K:=Rops) n (fun l => n_mul (n_mul (Some (M l i) : Rops) (n_mul (n_dec 4 (-1)) (Some a : Rops))) (Some (d l) : Rops))). rewrite T. reflexivity.
Qed.

(** The least k that passes, when there is one. *)
Lemma first_k k : lhs (/ 2 ^ k) <= rhs (/ 2 ^ k) -> exists k0, (k0 <= k)%nat /\ lhs (/ 2 ^ k0) <= rhs (/ 2 ^ k0) /\ forall k', (k' < k0)%nat -> rhs (/ 2 ^ k') < lhs (/ 2 ^ k').
Proof using Hn.
  induction k as [k IH] using (well_founded_induction Wf_nat.lt_wf). intros Hk.
  destruct (Classical_Prop.classic (exists k', (k' < k)%nat /\ lhs (/ 2 ^ k') <= rhs (/ 2 ^ k'))) as [(k' & L & H)|N].
  - destruct (IH k' L H) as (k0 & L0 & P). exists k0. split; [lia|exact P].
  - exists k. split; [lia|]. split; [exact Hk|]. intros k' L. apply Rnot_le_lt. intros C. apply N. now exists k'.
Qed.

Lemma hf_steps k Y w : is_vec (K:=Rops) n (moved (K:=Rops) (fun j => Some (x j) : Rops) (fun j => Some (d j) : Rops) (step_length k)) Y -> f Y = Ok w -> exists psi, is_vec n psi w.
Proof using Hf.
  rewrite step_R. intros HY E. destruct (Hf (fun j => x j + d j * / 2 ^ k) Y HY) as (Z & EZ & HZ). rewrite EZ in E. injection E as <-. eexists. exact HZ.
Qed.

(** What the search returns: the first of 1, 1/2, 1/4, ... with |F(x + a d)|^2 <= |F(x) + 0.4 a J' d|^2. *)
Theorem C82_value k : (forall fuel, (k < fuel)%nat -> Armijo fuel X D f df = Ok (Some (/ 2 ^ k) : Rops)) <->
  lhs (/ 2 ^ k) <= rhs (/ 2 ^ k) /\ forall k', (k' < k)%nat -> rhs (/ 2 ^ k') < lhs (/ 2 ^ k').
Proof using All.
  destruct (Hf x X HX) as (Fx & EF & HF).
  pose proof (fun fuel a => C82_first_passing (K:=Rops) n Hn _ _ _ _ X D Fx J f df HX HD EF HF EJ HJ hf_steps fuel a) as C.
  assert (Suf : forall k, lhs (/ 2 ^ k) <= rhs (/ 2 ^ k) /\ (forall k', (k' < k)%nat -> rhs (/ 2 ^ k') < lhs (/ 2 ^ k')) -> forall fuel, (k < fuel)%nat -> Armijo fuel X D f df = Ok (Some (/ 2 ^ k) : Rops)).
  { clear k. intros k [P N] fuel L. apply C. exists k. split; [exact L|]. split; [symmetry; exact (step_R k)|]. split; [apply tested_R; now apply Rleb_spec|].
    intros k' L'. apply tested_R. unfold Rleb. destruct (Rle_dec _ _) as [Q|]; [|reflexivity]. specialize (N k' L'). exfalso. lra. }
  split; [|exact (Suf k)]. intros E. specialize (E (S k) ltac:(lia)). apply C in E. destruct E as (k0 & L0 & E0 & T0 & N0).
  assert (k0 = k).
  { rewrite step_R in E0. assert (Q : / 2 ^ k = / 2 ^ k0) by (injection E0; auto). apply (f_equal Rinv) in Q. rewrite !Rinv_inv in Q.
    destruct (Nat.lt_trichotomy k0 k) as [Lt|[Eq|Gt]]; [|exact Eq|lia]. exfalso. pose proof (Rlt_pow 2 k0 k ltac:(lra) Lt). lra. }
  subst k0. assert (G : forall j b, tested (K:=Rops) n (fun j => Some (x j) : Rops) (fun j => Some (d j) : Rops) (fun i => Some (F x i) : Rops) (fun i j => Some (M i j) : Rops) f (step_length j) b ->
     Rleb (lhs (/ 2 ^ j)) (rhs (/ 2 ^ j)) = b).
  { intros j b T. symmetry. exact (tested_one (K:=Rops) n _ _ _ _ f _ _ _ T (tested_R j _ eq_refl)). }
  split; [apply Rleb_spec, G, T0|]. intros k' L'. specialize (G k' _ (N0 k' L')). unfold Rleb in G. destruct (Rle_dec _ _) as [|Q]; [discriminate|]. apply Rnot_le_lt, Q.
Qed.

(** It runs for ever exactly when no step length passes. *)
Theorem C82_no_value : (forall fuel, Armijo fuel X D f df = OutOfFuel) <-> forall k, rhs (/ 2 ^ k) < lhs (/ 2 ^ k).
Proof using All.
  split.
  - intros E k. apply Rnot_le_lt. intros C. destruct (first_k k C) as (k0 & L & P & N). pose proof (proj2 (C82_value k0) (conj P N) (S k0) ltac:(lia)) as Q. rewrite E in Q. discriminate.
  - intros H fuel. destruct (Hf x X HX) as (Fx & EF & HF).
    destruct (cases (K:=Rops) n Hn _ _ _ _ X D Fx J f df HX HD EF HF EJ HJ hf_steps fuel) as [(k & _ & _ & T & _)|[(k & _ & (Y & HY & Q) & _)|[E _]]]; [| |exact E]; exfalso.
    + assert (Q : true = Rleb (lhs (/ 2 ^ k)) (rhs (/ 2 ^ k))) by exact (tested_one (K:=Rops) n _ _ _ _ f _ _ _ T (tested_R k _ eq_refl)).
      symmetry in Q. apply Rleb_spec in Q. specialize (H k). lra.
    + rewrite step_R in HY. destruct (Hf (fun j => x j + d j * / 2 ^ k) Y HY) as (Z & EZ & _). now rewrite EZ in Q.
Qed.

(** If along d the functions have the derivatives g at x, and F . g < 0.4 F . (J' d), a step length is found. *)
Theorem C82_ends g : (forall i, (i < n)%nat -> derivable_pt_lim (fun a => F (fun j => x j + d j * a) i) 0 (g i)) ->
  rsum n (fun i => F x i * g i) < 4 / 10 * rsum n (fun i => F x i * transposed_times n M d i) ->
  exists k, forall fuel, (k < fuel)%nat -> Armijo fuel X D f df = Ok (Some (/ 2 ^ k) : Rops).
Proof using All.
  intros Hg Hs. set (A := rsum n (fun i => F x i * g i)) in *. set (B := rsum n (fun i => F x i * transposed_times n M d i)) in *.
  assert (X0 : forall i, F (fun j => x j + d j * 0) i = F x i).
  { intros i. apply (f_equal (fun p => F p i)). apply FunctionalExtensionality.functional_extensionality. intros j. ring. }
  assert (L0 : lhs 0 = rsum n (fun i => F x i * F x i)) by (apply Thm_Affine.rsum_ext; intros i _; now rewrite X0).
  assert (Dl : derivable_pt_lim lhs 0 (2 * A)).
  { replace (2 * A) with (rsum n (fun i => g i * F (fun j => x j + d j * 0) i + F (fun j => x j + d j * 0) i * g i)).
    - apply (derivable_rsum n (fun a i => F (fun j => x j + d j * a) i * F (fun j => x j + d j * a) i)). intros i Hi. apply (derivable_pt_lim_mult (fun a => F (fun j => x j + d j * a) i) (fun a => F (fun j => x j + d j * a) i)); auto.
    - unfold A. rewrite <- Thm_Affine.rsum_scal. apply Thm_Affine.rsum_ext. intros i _. rewrite X0. ring. }
  assert (Rr : forall a, lhs 0 + 2 * (4 / 10) * a * B <= rhs a).
  { intros a. rewrite L0. unfold B, allowance. rewrite <- Thm_Affine.rsum_scal, <- Thm_Affine.rsum_plus. clear. generalize (transposed_times n M d). intros w.
    induction n as [|m IH]; cbn [rsum]; [lra|]. apply Rplus_le_compat; [exact IH|]. pose proof (Rle_0_sqr (4 / 10 * a * w m)) as Q. unfold Rsqr in Q. lra. }
  destruct (Dl (2 * (4 / 10 * B - A)) ltac:(lra)) as (dl & Hdl). destruct (pow2_small dl (cond_pos dl)) as (k & Hk).
  assert (Pk : 0 < / 2 ^ k) by (apply Rinv_0_lt_compat, pow_lt; lra).
  assert (Pass : lhs (/ 2 ^ k) <= rhs (/ 2 ^ k)).
  { specialize (Hdl (/ 2 ^ k) ltac:(lra) ltac:(rewrite Rabs_right; lra)). rewrite Rplus_0_l in Hdl. apply Rabs_def2 in Hdl. destruct Hdl as [Up _].
    set (a := / 2 ^ k) in *. specialize (Rr a). assert (Q : (lhs a - lhs 0) / a < 8 / 10 * B) by lra.
    apply (Rmult_lt_compat_r a) in Q; [|exact Pk]. replace ((lhs a - lhs 0) / a * a) with (lhs a - lhs 0) in Q by (field; lra). lra. }
  destruct (first_k k Pass) as (k0 & _ & P & N). exists k0. apply (C82_value k0). auto.
Qed.

(** In particular: with the true Jacobian matrix, if it is symmetric, along every direction that decreases the sum of squares. *)
Theorem C82_ends_symmetric : (forall i, (i < n)%nat -> derivable_pt_lim (fun a => F (fun j => x j + d j * a) i) 0 (row_times n M d i)) ->
  (forall i j, (i < n)%nat -> (j < n)%nat -> M i j = M j i) -> rsum n (fun i => F x i * row_times n M d i) < 0 ->
  exists k, forall fuel, (k < fuel)%nat -> Armijo fuel X D f df = Ok (Some (/ 2 ^ k) : Rops).
Proof using All.
  intros Hg Sym Neg. apply (C82_ends _ Hg).
  replace (rsum n (fun i => F x i * transposed_times n M d i)) with (rsum n (fun i => F x i * row_times n M d i)); [lra|].
  apply Thm_Affine.rsum_ext. intros i Hi. apply f_equal. apply Thm_Affine.rsum_ext. intros j Hj. now rewrite Sym.
Qed.
(** And along Newton's direction J d = -F(x) when x is no root. *)
Corollary C82_ends_newton : (forall i, (i < n)%nat -> derivable_pt_lim (fun a => F (fun j => x j + d j * a) i) 0 (row_times n M d i)) ->
  (forall i j, (i < n)%nat -> (j < n)%nat -> M i j = M j i) -> (forall i, (i < n)%nat -> row_times n M d i = - F x i) ->
  (exists i, (i < n)%nat /\ F x i <> 0) ->
  exists k, forall fuel, (k < fuel)%nat -> Armijo fuel X D f df = Ok (Some (/ 2 ^ k) : Rops).
Proof using All.
  intros Hg Sym Nw (i & Hi & Nz). apply (C82_ends_symmetric Hg Sym).
  replace (rsum n (fun i => F x i * row_times n M d i)) with (- rsum n (fun i => F x i * F x i)).
  - assert (0 < F x i * F x i) by nra. assert (Hp : F x i * F x i <= rsum n (fun i => F x i * F x i)).
    { apply (LinRound.rsum_in n (fun i => F x i * F x i) i); [intros; nra|exact Hi]. } lra.
  - replace (- rsum n (fun i => F x i * F x i)) with ((-1) * rsum n (fun i => F x i * F x i)) by ring. rewrite <- Thm_Affine.rsum_scal. apply Thm_Affine.rsum_ext.
    intros j Hj. rewrite Nw by exact Hj. ring.
Qed.
End Ends.

(** ** Cases *)
Local Notation R1 a := (Some a : Rops).
Lemma vec1_is (a : R) : is_vec (K:=Rops) 1 (fun _ => R1 a) (MkMat 1 1 [R1 a]).
Proof. split; [reflexivity|]. split; [reflexivity|]. split; [reflexivity|]. intros [|i] [|j] Hi Hj; try lia. reflexivity. Qed.
Definition two (a b : R) (i : nat) : R := match i with O => a | _ => b end.
Lemma vec2_is (a b : R) : is_vec (K:=Rops) 2 (fun i => R1 (two a b i)) (MkMat 2 1 [R1 a; R1 b]).
Proof. split; [reflexivity|]. split; [reflexivity|]. split; [reflexivity|]. intros [|[|i]] [|j] Hi Hj; try lia; reflexivity. Qed.
Lemma mat2_is (a b c d : R) : is_mat (K:=Rops) 2 2 (fun i j => R1 (two (two a b j) (two c d j) i)) (MkMat 2 2 [R1 a; R1 b; R1 c; R1 d]).
Proof. split; [reflexivity|]. split; [reflexivity|]. split; [reflexivity|]. intros [|[|i]] [|[|j]] Hi Hj; try lia; reflexivity. Qed.

(** f(x) = x^2 from 1 along -4: the steps 1 and 1/2 are rejected, 1/4 (which hits the root) is accepted. *)
Definition square (v : mat Rops) : res (mat Rops) := let* a := Vec_get v 0 in Vec_of [n_mul a a].
Lemma square_ok p Y : is_vec (K:=Rops) 1 (fun j => R1 (p j)) Y -> exists Z, square Y = Ok Z /\ is_vec (K:=Rops) 1 (fun _ => R1 (p 0%nat * p 0%nat)) Z.
Proof.
  intros H. unfold square. rewrite (LinGen.Vec_get_K (K:=Rops) _ _ _ 0 H Nat.lt_0_1). cbn [bind].
  exists (MkMat 1 1 [R1 (p 0%nat * p 0%nat)]). split; [reflexivity|apply vec1_is].
Qed.
Example C82_ex_square : forall fuel, (2 < fuel)%nat ->
  Armijo fuel (MkMat 1 1 [R1 1]) (MkMat 1 1 [R1 (-4)]) square (fun _ => Ok (MkMat 1 1 [R1 2])) = Ok (R1 (/ 2 ^ 2)).
Proof.
  apply (C82_value 1 Nat.lt_0_1 (fun _ => 1) (fun _ => -4) (fun p _ => p 0%nat * p 0%nat) (fun _ _ => 2) _ _ (MkMat 1 1 [R1 2]) square (fun _ => Ok (MkMat 1 1 [R1 2]))
    (vec1_is 1) (vec1_is (-4)) square_ok eq_refl (vec1_is 2)).
  split.
  - cbv [residual allowance transposed_times rsum]. lra.
  - intros [|[|k]] Hk; [| |lia]; cbv [residual allowance transposed_times rsum]; simpl pow; lra.
Qed.
(** The hypotheses of C82_ends hold there. *)
Example C82_ex_ends : exists k, forall fuel, (k < fuel)%nat ->
  Armijo fuel (MkMat 1 1 [R1 1]) (MkMat 1 1 [R1 (-4)]) square (fun _ => Ok (MkMat 1 1 [R1 2])) = Ok (R1 (/ 2 ^ k)).
Proof.
  apply (C82_ends_symmetric 1 Nat.lt_0_1 (fun _ => 1) (fun _ => -4) (fun p _ => p 0%nat * p 0%nat) (fun _ _ => 2) _ _ (MkMat 1 1 [R1 2]) square (fun _ => Ok (MkMat 1 1 [R1 2]))
    (vec1_is 1) (vec1_is (-4)) square_ok eq_refl (vec1_is 2)).
  - intros i _. cbv [row_times rsum]. change (derivable_pt_lim (mult_fct (fun a => 1 + -4 * a) (fun a => 1 + -4 * a)) 0 (0 + 2 * -4)).
    replace (0 + 2 * -4) with (-4 * (1 + -4 * 0) + (1 + -4 * 0) * -4) by ring.
    assert (Dl : derivable_pt_lim (fun a => 1 + -4 * a) 0 (-4)).
    { assert (Q : derivable_pt_lim (plus_fct (fun _ => 1) (mult_real_fct (-4) id)) 0 (0 + -4 * 1)).
      { apply derivable_pt_lim_plus; [apply derivable_pt_lim_const|]. apply derivable_pt_lim_scal, derivable_pt_lim_id. }
      replace (0 + -4 * 1) with (-4) in Q by ring. exact Q. }
    exact (derivable_pt_lim_mult _ _ _ _ _ Dl Dl).
  - intros; reflexivity.
  - cbv [row_times rsum]. lra.
Qed.
(** f(x) = x from 1 along +1, uphill: the search runs for ever. *)
Example C82_ex_uphill : forall fuel,
  Armijo fuel (MkMat 1 1 [R1 1]) (MkMat 1 1 [R1 1]) (fun v => Ok v) (fun _ => Ok (MkMat 1 1 [R1 1])) = OutOfFuel.
Proof.
  apply (proj2 (C82_no_value 1 Nat.lt_0_1 (fun _ => 1) (fun _ => 1) (fun p i => p i) (fun _ _ => 1) _ _ (MkMat 1 1 [R1 1]) (fun v => Ok v) (fun _ => Ok (MkMat 1 1 [R1 1]))
    (vec1_is 1) (vec1_is 1) (fun p Y H => ex_intro _ Y (conj eq_refl H)) eq_refl (vec1_is 1))).
  intros k. cbv [residual allowance transposed_times rsum]. assert (0 < / 2 ^ k) by (apply Rinv_0_lt_compat, pow_lt; lra). nra.
Qed.
(** Because the test multiplies by the transposed matrix, a step that increases the residual can be accepted:
    f(x,y) = (1, x) from (1,0) along (1,10): |f|^2 grows from 2 to 5 and the step 1 is accepted. *)
Definition one_x (v : mat Rops) : res (mat Rops) := let* a := Vec_get v 0 in Vec_of [R1 1; a].
Lemma one_x_ok p Y : is_vec (K:=Rops) 2 (fun j => R1 (p j)) Y -> exists Z, one_x Y = Ok Z /\ is_vec (K:=Rops) 2 (fun i => R1 (two 1 (p 0%nat) i)) Z.
Proof.
  intros H. unfold one_x. rewrite (LinGen.Vec_get_K (K:=Rops) _ _ _ 0 H Nat.lt_0_2). cbn [bind].
  exists (MkMat 2 1 [R1 1; R1 (p 0%nat)]). split; [reflexivity|apply vec2_is].
Qed.
Example C82_ex_increase : (forall fuel, (0 < fuel)%nat ->
    Armijo fuel (MkMat 2 1 [R1 1; R1 0]) (MkMat 2 1 [R1 1; R1 10]) one_x (fun _ => Ok (MkMat 2 2 [R1 0; R1 0; R1 1; R1 0])) = Ok (R1 (/ 2 ^ 0))) /\
  residual 2 (fun p => two 1 (p 0%nat)) (two 1 0) (two 1 10) 0 = 2 /\ residual 2 (fun p => two 1 (p 0%nat)) (two 1 0) (two 1 10) 1 = 5.
Proof.
  split; [|cbv [residual rsum two]; split; lra].
  apply (C82_value 2 Nat.lt_0_2 (two 1 0) (two 1 10) (fun p => two 1 (p 0%nat)) (fun i j => two (two 0 0 j) (two 1 0 j) i) _ _ (MkMat 2 2 [R1 0; R1 0; R1 1; R1 0]) one_x (fun _ => Ok (MkMat 2 2 [R1 0; R1 0; R1 1; R1 0]))
    (vec2_is 1 0) (vec2_is 1 10) one_x_ok eq_refl (mat2_is 0 0 1 0)).
  split; [|intros; lia]. cbv [residual allowance transposed_times rsum two]. simpl pow. lra.
Qed.
