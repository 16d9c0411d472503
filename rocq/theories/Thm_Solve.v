(** C61: SolveLinear in doubles: the residual, the error, and what a failure means. *)
From Coq Require Import String List ZArith Bool Arith Lia Reals Lra Classical.
From Flocq Require Import IEEE754.BinarySingleNaN Core.
From Verif Require Import Base MathOp IEEE MatModel LinearModel MatSpec MatProofs LinGen AffineSpec FloatSpec FloatFacts RoundSpec RoundProofs SolveSpec LinRound LinFloat LinLoop NumText.
Import ListNotations.
Local Open Scope list_scope.
Local Open Scope R_scope.

(** ** The distance to singularity *)

(** [far_from_singular n f d] says that no matrix within d of f (entry by entry) is singular. *)
Theorem C61_far_from_singular n (f : nat -> nat -> R) d : 0 <= d ->
  (far_from_singular n f d <->
   forall E, (forall i j, (i < n)%nat -> (j < n)%nat -> Rabs (E i j) <= d) ->
   forall z, (exists j, (j < n)%nat /\ z j <> 0) -> exists i, (i < n)%nat /\ row_times n (fun i j => f i j + E i j) z i <> 0).
Proof.
  intros Hd. split.
  - intros Hfar E HE z Hz. destruct (Hfar z Hz) as (i & Hi & Q). exists i. split; [exact Hi|]. intros Z.
    assert (S : row_times n (fun i j => f i j + E i j) z i = row_times n f z i + rsum n (fun j => E i j * z j)).
    { unfold row_times. rewrite <- rsum_plus. apply rsum_eq. intros. ring. }
    assert (B : Rabs (rsum n (fun j => E i j * z j)) <= d * norm1 n z).
    { eapply Rle_trans; [apply rsum_abs|]. unfold norm1. rewrite <- rsum_scale. apply rsum_le. intros j Hj. rewrite Rabs_mult.
      apply Rmult_le_compat_r; [apply Rabs_pos|auto]. }
    rewrite Z in S. assert (row_times n f z i = - rsum n (fun j => E i j * z j)) as S' by lra. rewrite S', Rabs_Ropp in Q. lra.
  - intros H z Hz. apply NNPP. intros N.
    assert (N' : forall i, (i < n)%nat -> Rabs (row_times n f z i) <= d * norm1 n z).
    { intros i Hi. apply Rnot_lt_le. intros Q. apply N. exists i. auto. }
    assert (P : 0 < norm1 n z).
    { destruct Hz as (j & Hj & Zj). apply Rlt_le_trans with (Rabs (z j)); [now apply Rabs_pos_lt|].
      apply (rsum_in n (fun j => Rabs (z j))); auto. intros. apply Rabs_pos. }
    set (s := fun j => if Rle_dec 0 (z j) then 1 else -1).
    assert (Hs : forall j, s j * z j = Rabs (z j)).
    { intros j. unfold s. destruct (Rle_dec 0 (z j)); [rewrite Rabs_pos_eq; lra|rewrite Rabs_left; lra]. }
    destruct (H (fun i j => - (row_times n f z i / norm1 n z) * s j)) with (z := z) as (i & Hi & Q); auto.
    { intros i j Hi Hj. assert (As : Rabs (s j) = 1). { unfold s. destruct (Rle_dec 0 (z j)); [apply Rabs_R1|rewrite Rabs_left; lra]. }
      rewrite Rabs_mult, As, Rmult_1_r, Rabs_Ropp. unfold Rdiv. rewrite Rabs_mult, Rabs_inv, (Rabs_pos_eq (norm1 n z)) by lra.
      apply Rmult_le_reg_r with (norm1 n z); [exact P|]. rewrite Rmult_assoc, Rinv_l, Rmult_1_r by lra. auto. }
    apply Q. unfold row_times at 1. rewrite (rsum_eq n _ (fun j => f i j * z j + - (row_times n f z i / norm1 n z) * Rabs (z j))).
    + rewrite rsum_plus, rsum_scale. fold (norm1 n z). fold (row_times n f z i). field. lra.
    + intros j Hj. rewrite <- (Hs j). ring.
Qed.

Section Solve.
Context (L : libm) (cfg : config (B64 L)).
Notation K := (B64 L).
Variables (n : nat) (M B : R) (f : nat -> nat -> b64) (g : nat -> b64) (A b : mat K).
Notation eps := (B2R (epsilon cfg : b64)).
Notation F := (fun i j => B2R (f i j)).
Hypotheses (Hn : (0 < n)%nat) (Feps : fin (epsilon cfg)) (HR : solve_range n eps M B)
  (HA : is_mat (K:=K) n n (fun i j => f i j : K) A) (Hb : is_vec (K:=K) n (fun i => g i : K) b)
  (Hf : forall i j, (i < n)%nat -> (j < n)%nat -> fin (f i j) /\ Rabs (B2R (f i j)) <= M)
  (Hg : forall i, (i < n)%nat -> fin (g i) /\ Rabs (B2R (g i)) <= B).

Let f0 := raug n f g.
Local Lemma f0_F i j : (j < n)%nat -> f0 i j = B2R (f i j).
Proof. intros Hj. unfold f0, raug, aug. destruct (Nat.eqb_spec j n); [lia|reflexivity]. Qed.
Local Lemma f0_g i : f0 i n = B2R (g i).
Proof. unfold f0, raug, aug. now rewrite Nat.eqb_refl. Qed.
Local Lemma row_F z i : row_times n f0 z i = row_times n F z i.
Proof. unfold row_times. apply rsum_eq. intros j Hj. now rewrite f0_F. Qed.

Local Lemma solve_64 : far_from_singular n F (solve_tolerance n eps M) ->
  exists X h f' g' pv, SolveLinear cfg A b = Ok X /\ is_vec (K:=K) n (fun i => h i : K) X /\ LI L cfg n M B f0 n f' g' pv /\ solved L n f' g' h.
Proof.
  intros Hfar. apply (far_ext _ _ f0) in Hfar; [|intros i j _ Hj; symmetry; now apply f0_F].
  assert (EA : m_rows A = n) by apply HA. assert (EAc : m_cols A = n) by apply HA. assert (Eb : m_rows b = n) by apply Hb.
  destruct (Mat_make_ok (K:=K) n 1 (n_ofZ 0)) as (r0 & E0 & H0); [lia|lia|].
  destruct (elim_64 L cfg n M B Feps HR f0 Hfar (S n) 0 f g (fun _ => 0) A b (repeat 0%nat n)) as (A' & b' & f' & g' & pv & E1 & HL & HA' & Hb'); auto; [lia|lia|now apply LI_start|].
  destruct (back_substitute_okK (K:=K) n _ _ _ A' b' r0 HA' Hb' H0) as (h & X & E2 & HX & HS).
  exists X, h, f', g', pv. split; [|split; [exact HX|split; [exact HL|exact HS]]].
  unfold SolveLinear. rewrite EA, Eb, EAc, Nat.eqb_refl. cbn [negb]. unfold Vec_make. rewrite E0. cbn [bind].
  destruct (Nat.ltb_spec 0 n); [|lia]. rewrite Nat.eqb_refl. cbn [bind]. rewrite E1. cbn [bind negb el_A el_b el_rankA el_rankAb].
  rewrite E2. cbn [bind]. rewrite Nat.ltb_irrefl. reflexivity.
Qed.

(** If no matrix within the tolerance of A is singular, SolveLinear returns a vector, and if its
    entries are finite then it almost solves the system. *)
Theorem C61_residual : far_from_singular n F (solve_tolerance n eps M) ->
  exists X h, SolveLinear cfg A b = Ok X /\ is_vec (K:=K) n (fun i => h i : K) X /\
    ((forall i, (i < n)%nat -> fin (h i)) ->
     forall i, (i < n)%nat -> Rabs (row_times n F (fun j => B2R (h j)) i - B2R (g i)) <=
       solve_tolerance n eps M * norm1 n (fun j => B2R (h j)) + solve_factor n * B).
Proof.
  intros Hfar. destruct (solve_64 Hfar) as (X & h & f' & g' & pv & E & HX & HL & HS).
  exists X, h. split; [exact E|]. split; [exact HX|]. intros Fh i Hi.
  pose proof (tail_residual L cfg n M B HR f0 f' g' h pv 0 ltac:(lia) HL HS ltac:(intros; apply Fh; lia) i Hi) as Q. cbn [solve_up] in Q.
  assert (N : norm1 n (zof n h) = norm1 n (fun j => B2R (h j))).
  { apply rsum_eq. intros j Hj. unfold zof. destruct (Nat.eqb_spec j n); [lia|reflexivity]. }
  assert (Rr : row_times n f0 (zof n h) i = row_times n F (fun j => B2R (h j)) i).
  { rewrite row_F. unfold row_times. apply rsum_eq. intros j Hj. unfold zof. destruct (Nat.eqb_spec j n); [lia|reflexivity]. }
  rewrite N, Rr, f0_g in Q. eapply Rle_trans; [exact Q|]. unfold solve_tolerance. lra.
Qed.

(** If the distance is twice the tolerance, no entry overflows. *)
Theorem C61_solves : far_from_singular n F (2 * solve_tolerance n eps M) ->
  exists X h, SolveLinear cfg A b = Ok X /\ is_vec (K:=K) n (fun i => h i : K) X /\ (forall i, (i < n)%nat -> fin (h i)) /\
    forall i, (i < n)%nat -> Rabs (row_times n F (fun j => B2R (h j)) i - B2R (g i)) <=
      solve_tolerance n eps M * norm1 n (fun j => B2R (h j)) + solve_factor n * B.
Proof.
  intros Hfar.
  assert (PT : 0 <= solve_tolerance n eps M).
  { destruct HR as (He & HM & _). pose proof (eps_pos _ He). unfold solve_tolerance, solve_factor. pose proof (pos_INR (n + 1)). pose proof ulp1_pos.
    assert (0 <= 2 ^ n) by (apply pow_le; lra). assert (0 <= 12 * INR (n + 1) * 2 ^ n * ulp1 * M) by (repeat apply Rmult_le_pos; lra). lra. }
  assert (Hfar1 : far_from_singular n F (solve_tolerance n eps M)).
  { intros z Hz. destruct (Hfar z Hz) as (i & Hi & Q). exists i. split; [exact Hi|]. eapply Rle_lt_trans; [|exact Q].
    apply Rmult_le_compat_r; [apply norm1_pos|lra]. }
  destruct (solve_64 Hfar1) as (X0 & h0 & f' & g' & pv & E0 & HX0 & HL & HS).
  assert (Fh : forall i, (i < n)%nat -> fin (h0 i)).
  { apply (tail_finite L cfg n M B HR f0 f' g' h0 pv Hn HL HS).
    - eapply far_ext; [|exact Hfar]. intros i j _ Hj. symmetry. now apply f0_F.
    - intros i j Hi Hj. rewrite f0_F by auto. now apply Hf.
    - intros i Hi. rewrite f0_g. now apply Hg. }
  destruct (C61_residual Hfar1) as (X & h & E & HX & Q). rewrite E in E0. injection E0 as EX. subst X0.
  assert (EH : forall i, (i < n)%nat -> h i = h0 i).
  { intros i Hi. pose proof (Value_K _ _ _ _ i 0%nat HX Hi Nat.lt_0_1) as V1. pose proof (Value_K _ _ _ _ i 0%nat HX0 Hi Nat.lt_0_1) as V2.
    rewrite V1 in V2. now injection V2. }
  assert (Fh' : forall i, (i < n)%nat -> fin (h i)) by (intros i Hi; rewrite EH by auto; auto).
  exists X, h. auto.
Qed.

(** The distance of the returned vector from the exact solution. *)
Theorem C61_error d (x : nat -> R) : 2 * solve_tolerance n eps M <= d -> far_from_singular n F d ->
  (forall i, (i < n)%nat -> row_times n F x i = B2R (g i)) ->
  exists X h, SolveLinear cfg A b = Ok X /\ is_vec (K:=K) n (fun i => h i : K) X /\ (forall i, (i < n)%nat -> fin (h i)) /\
    norm1 n (fun j => B2R (h j) - x j) <= 2 / d * (solve_tolerance n eps M * norm1 n x + solve_factor n * B).
Proof.
  intros Hd Hfar Hx.
  assert (PT : 0 < solve_tolerance n eps M).
  { destruct HR as (He & HM & _). pose proof (eps_pos _ He). unfold solve_tolerance, solve_factor. pose proof (pos_INR (n + 1)). pose proof ulp1_pos.
    assert (0 <= 2 ^ n) by (apply pow_le; lra). assert (0 <= 12 * INR (n + 1) * 2 ^ n * ulp1 * M) by (repeat apply Rmult_le_pos; lra). lra. }
  assert (PF : 0 <= solve_factor n * B).
  { destruct HR as (He & HM & HB & _). pose proof (eps_pos _ He). unfold solve_factor. pose proof (pos_INR (n + 1)). pose proof ulp1_pos.
    assert (0 <= 2 ^ n) by (apply pow_le; lra). repeat apply Rmult_le_pos; lra. }
  set (tol := solve_tolerance n eps M) in *. set (fB := solve_factor n * B) in *.
  assert (Hfar2 : far_from_singular n F (2 * tol)).
  { intros z Hz. destruct (Hfar z Hz) as (i & Hi & Q). exists i. split; [exact Hi|]. eapply Rle_lt_trans; [|exact Q].
    apply Rmult_le_compat_r; [apply norm1_pos|lra]. }
  destruct (C61_solves Hfar2) as (X & h & E & HX & Fh & Q). exists X, h. repeat (split; [assumption|]).
  fold tol fB in Q. set (e := fun j => B2R (h j) - x j).
  assert (Nx : norm1 n (fun j => B2R (h j)) <= norm1 n x + norm1 n e).
  { unfold norm1. rewrite <- rsum_plus. apply rsum_le. intros j Hj. unfold e. replace (B2R (h j)) with (x j + (B2R (h j) - x j)) at 1 by ring. apply Rabs_triang. }
  assert (Px := norm1_pos n x). assert (Pe := norm1_pos n e).
  destruct (Rle_or_lt (norm1 n e) 0) as [H0|H0].
  { assert (0 <= 2 / d) by (apply Rmult_le_pos; [lra|]; apply Rlt_le, Rinv_0_lt_compat; lra).
    assert (0 <= tol * norm1 n x) by (apply Rmult_le_pos; lra). assert (0 <= 2 / d * (tol * norm1 n x + fB)) by (apply Rmult_le_pos; lra). lra. }
  destruct (Hfar e (norm1_nonzero n e H0)) as (i & Hi & Q2). specialize (Q i Hi). rewrite <- (Hx i Hi) in Q.
  assert (Er : row_times n F e i = row_times n F (fun j => B2R (h j)) i - row_times n F x i).
  { unfold row_times, e. assert (S := rsum_plus n (fun j => B2R (f i j) * B2R (h j)) (fun j => -1 * (B2R (f i j) * x j))). rewrite rsum_scale in S.
    cbv beta. rewrite (rsum_eq n _ (fun j => B2R (f i j) * B2R (h j) + -1 * (B2R (f i j) * x j))) by (intros; ring). lra. }
  rewrite Er in Q2. assert (tol * norm1 n (fun j => B2R (h j)) <= tol * (norm1 n x + norm1 n e)) by (apply Rmult_le_compat_l; lra).
  assert (2 * tol * norm1 n e <= d * norm1 n e) by (apply Rmult_le_compat_r; lra).
  apply Rmult_le_reg_l with (d / 2); [lra|]. replace (d / 2 * (2 / d * (tol * norm1 n x + fB))) with (tol * norm1 n x + fB) by (field; lra). lra.
Qed.

(** If SolveLinear does anything else than return a vector, some matrix within the tolerance of A
    is singular. *)
Theorem C61_failure : (forall X, SolveLinear cfg A b <> Ok X) ->
  exists E z, (forall i j, (i < n)%nat -> (j < n)%nat -> Rabs (E i j) <= solve_tolerance n eps M) /\
    (exists j, (j < n)%nat /\ z j <> 0) /\ forall i, (i < n)%nat -> row_times n (fun i j => F i j + E i j) z i = 0.
Proof.
  intros Hno.
  assert (PT : 0 <= solve_tolerance n eps M).
  { destruct HR as (He & HM & _). pose proof (eps_pos _ He). unfold solve_tolerance, solve_factor. pose proof (pos_INR (n + 1)). pose proof ulp1_pos.
    assert (0 <= 2 ^ n) by (apply pow_le; lra). assert (0 <= 12 * INR (n + 1) * 2 ^ n * ulp1 * M) by (repeat apply Rmult_le_pos; lra). lra. }
  apply NNPP. intros N. assert (Hfar : far_from_singular n F (solve_tolerance n eps M)).
  { apply C61_far_from_singular; [exact PT|]. intros E HE z Hz. apply NNPP. intros N2. apply N. exists E, z. split; [exact HE|]. split; [exact Hz|].
    intros i Hi. apply NNPP. intros N3. apply N2. exists i. auto. }
  destruct (C61_residual Hfar) as (X & h & E & _). exact (Hno X E).
Qed.
End Solve.

(** ** A concrete system: 2x + y = 3, x + 3y = 5 with the default configuration *)
Lemma eps_default : / IZR (10 ^ 10) <= B2R (b_dec false 1 (-9)) <= / IZR (10 ^ 8).
Proof.
  rewrite B2R_SF. assert (B2SF (b_dec false 1 (-9)) = SpecFloat.S754_finite false 4835703278458517 (-82)) as -> by (vm_compute; reflexivity).
  unfold SF2R, F2R. cbn [SpecFloat.cond_Zopp Fnum Fexp].
  change (bpow radix2 (-82)) with (/ IZR (2 ^ 82)).
  assert (P : 0 < IZR (2 ^ 82)) by (apply IZR_lt; reflexivity).
  split.
  - apply Rmult_le_reg_r with (IZR (2 ^ 82)); [exact P|]. rewrite Rmult_assoc, Rinv_l, Rmult_1_r by lra.
    apply Rmult_le_reg_l with (IZR (10 ^ 10)); [apply IZR_lt; reflexivity|]. rewrite <- Rmult_assoc, Rinv_r, Rmult_1_l by (apply Rgt_not_eq, IZR_lt; reflexivity).
    rewrite <- mult_IZR. apply IZR_le. vm_compute. discriminate.
  - apply Rmult_le_reg_r with (IZR (2 ^ 82)); [exact P|]. rewrite Rmult_assoc, Rinv_l, Rmult_1_r by lra.
    apply Rmult_le_reg_l with (IZR (10 ^ 8)); [apply IZR_lt; reflexivity|]. rewrite <- Rmult_assoc, Rinv_r, Rmult_1_l by (apply Rgt_not_eq, IZR_lt; reflexivity).
    rewrite <- mult_IZR. apply IZR_le. vm_compute. discriminate.
Qed.
Lemma eps_default_fin : fin (b_dec false 1 (-9)). Proof. vm_compute. reflexivity. Qed.

Definition ex_f (i j : nat) : b64 := match i, j with 0%nat, 0%nat => b_ofZ 2 | 1%nat, 1%nat => b_ofZ 3 | _, _ => b_ofZ 1 end.
Definition ex_g (i : nat) : b64 := match i with 0%nat => b_ofZ 3 | _ => b_ofZ 5 end.

Lemma ofZ_small z : (Z.abs z <= 5)%Z -> fin (b_ofZ z) /\ B2R (b_ofZ z) = IZR z.
Proof.
  intros H. assert (z = -5 \/ z = -4 \/ z = -3 \/ z = -2 \/ z = -1 \/ z = 0 \/ z = 1 \/ z = 2 \/ z = 3 \/ z = 4 \/ z = 5)%Z as C by lia.
  assert (G : forall s m e, F2R (beta:=radix2) (Float radix2 (SpecFloat.cond_Zopp s (Zpos m)) e) = IZR (SpecFloat.cond_Zopp s (Zpos m)) * bpow radix2 e) by reflexivity.
  repeat (destruct C as [->|C]); try subst z; (split; [vm_compute; reflexivity|]); rewrite B2R_SF;
  match goal with |- SF2R radix2 ?x = _ => let v := eval vm_compute in x in change x with v end; unfold SF2R; rewrite ?G;
  cbn [SpecFloat.cond_Zopp Z.opp]; change (bpow radix2 (-50)) with (/ IZR (2 ^ 50)); change (bpow radix2 (-51)) with (/ IZR (2 ^ 51)); change (bpow radix2 (-52)) with (/ IZR (2 ^ 52)); try lra.
Qed.

Lemma ex_far : far_from_singular 2 (fun i j => B2R (ex_f i j)) (1 / 2).
Proof.
  intros z (j & Hj & Zj). unfold row_times, norm1. cbn [rsum].
  assert (E1 : B2R (ex_f 0 0) = 2) by (apply (ofZ_small 2); lia). assert (E2 : B2R (ex_f 0 1) = 1) by (apply (ofZ_small 1); lia).
  assert (E3 : B2R (ex_f 1 0) = 1) by (apply (ofZ_small 1); lia). assert (E4 : B2R (ex_f 1 1) = 3) by (apply (ofZ_small 3); lia).
  destruct (Rlt_or_le (1 / 2 * (0 + Rabs (z 0%nat) + Rabs (z 1%nat))) (Rabs (0 + B2R (ex_f 0 0) * z 0%nat + B2R (ex_f 0 1) * z 1%nat))) as [H|H]; [exists 0%nat; split; [lia|exact H]|].
  exists 1%nat. split; [lia|]. rewrite E1, E2 in H. rewrite E3, E4.
  assert (N : z 0%nat <> 0 \/ z 1%nat <> 0). { destruct j as [|[|j]]; [now left|now right|lia]. }
  unfold Rabs in *. destruct (Rcase_abs (z 0%nat)), (Rcase_abs (z 1%nat)), (Rcase_abs (0 + 2 * z 0%nat + 1 * z 1%nat)), (Rcase_abs (0 + 1 * z 0%nat + 3 * z 1%nat)); destruct N; lra.
Qed.

(** The exact solution is (4/5, 7/5), which is not a vector of doubles; the result is within 10^-6. *)
Example C61_example (L : libm) :
  exists X (h : nat -> b64), SolveLinear (default_config (B64 L)) (MkMat 2 2 [b_ofZ 2 : B64 L; b_ofZ 1 : B64 L; b_ofZ 1 : B64 L; b_ofZ 3 : B64 L]) (MkMat 2 1 [b_ofZ 3 : B64 L; b_ofZ 5 : B64 L]) = Ok X /\
    is_vec (K:=B64 L) 2 (fun i => h i : B64 L) X /\ fin (h 0%nat) /\ fin (h 1%nat) /\
    Rabs (B2R (h 0%nat) - 4 / 5) + Rabs (B2R (h 1%nat) - 7 / 5) <= / 1000000.
Proof.
  pose proof eps_default as HE. pose proof ulp1_small as US. pose proof ulp1_pos as U.
  set (e := b_dec false 1 (-9)) in HE. set (F := fun i j => B2R (ex_f i j)).
  assert (He1 : 0 < / IZR (10 ^ 10)) by (apply Rinv_0_lt_compat, IZR_lt; reflexivity).
  assert (He2 : / IZR (10 ^ 8) = / 100000000) by reflexivity.
  assert (Efac : solve_factor 2 = 144 * ulp1). { unfold solve_factor. simpl INR. simpl pow. ring. }
  assert (HT : solve_tolerance 2 (B2R e) 3 <= / 50000000). { unfold solve_tolerance. rewrite Efac. lra. }
  assert (HTp : 0 < solve_tolerance 2 (B2R e) 3). { unfold solve_tolerance. rewrite Efac. lra. }
  destruct (C61_error L (default_config (B64 L)) 2 3 5 ex_f ex_g (MkMat 2 2 [b_ofZ 2 : B64 L; b_ofZ 1 : B64 L; b_ofZ 1 : B64 L; b_ofZ 3 : B64 L]) (MkMat 2 1 [b_ofZ 3 : B64 L; b_ofZ 5 : B64 L]))
    with (d := 1 / 2) (x := fun j : nat => match j with 0%nat => 4 / 5 | _ => 7 / 5 end) as (X & h & E & HX & Fh & Q).
  - lia.
  - exact eps_default_fin.
  - change (epsilon (default_config (B64 L)) : b64) with e. split; [|split; [lra|split; [lra|]]].
    + split; [|lra]. apply Rle_trans with (/ IZR (10 ^ 10)); [|lra]. apply Rinv_le_contravar; [apply IZR_lt; reflexivity|].
      rewrite large_pow. rewrite (pow_IZR 2 1000). apply IZR_le. vm_compute. discriminate.
    + simpl pow. assert (G : IZR (10 ^ 23) <= large). { rewrite large_pow, (pow_IZR 2 1000). apply IZR_le. vm_compute. discriminate. }
      assert (Q1 : / IZR (10 ^ 10) * / IZR (10 ^ 10) <= B2R e * B2R e) by (apply Rmult_le_compat; lra).
      assert (Q2 : IZR (10 ^ 23) * (/ IZR (10 ^ 10) * / IZR (10 ^ 10)) <= large * (B2R e * B2R e)).
      { apply Rmult_le_compat; lra. }
      assert (Q3 : IZR (10 ^ 23) * (/ IZR (10 ^ 10) * / IZR (10 ^ 10)) = 1000) by (change (IZR (10 ^ 23)) with 100000000000000000000000; change (IZR (10 ^ 10)) with 10000000000; lra).
      rewrite Q3 in Q2. eapply Rle_trans; [|exact Q2]. lra.
  - split; [reflexivity|]. split; [reflexivity|]. split; [reflexivity|]. intros [|[|i]] [|[|j]] Hi Hj; try lia; reflexivity.
  - split; [reflexivity|]. split; [reflexivity|]. split; [reflexivity|]. intros [|[|i]] [|j] Hi Hj; try lia; reflexivity.
  - intros i j Hi Hj.
    assert (C : exists z, (1 <= z <= 3)%Z /\ ex_f i j = b_ofZ z).
    { destruct i as [|[|i]], j as [|[|j]]; try lia; [exists 2%Z|exists 1%Z|exists 1%Z|exists 3%Z]; (split; [lia|reflexivity]). }
    destruct C as (z & Hz & ->). destruct (ofZ_small z ltac:(lia)) as [Fz ->]. split; [exact Fz|]. rewrite <- abs_IZR. apply IZR_le. lia.
  - intros i Hi.
    assert (C : exists z, (1 <= z <= 5)%Z /\ ex_g i = b_ofZ z).
    { destruct i as [|[|i]]; try lia; [exists 3%Z|exists 5%Z]; (split; [lia|reflexivity]). }
    destruct C as (z & Hz & ->). destruct (ofZ_small z ltac:(lia)) as [Fz ->]. split; [exact Fz|]. rewrite <- abs_IZR. apply IZR_le. lia.
  - change (epsilon (default_config (B64 L)) : b64) with e. lra.
  - exact ex_far.
  - intros [|[|i]] Hi; try lia; unfold row_times; cbn [rsum].
    + rewrite (proj2 (ofZ_small 2 ltac:(lia)) : B2R (ex_f 0 0) = 2), (proj2 (ofZ_small 1 ltac:(lia)) : B2R (ex_f 0 1) = 1), (proj2 (ofZ_small 3 ltac:(lia)) : B2R (ex_g 0) = 3). lra.
    + rewrite (proj2 (ofZ_small 1 ltac:(lia)) : B2R (ex_f 1 0) = 1), (proj2 (ofZ_small 3 ltac:(lia)) : B2R (ex_f 1 1) = 3), (proj2 (ofZ_small 5 ltac:(lia)) : B2R (ex_g 1) = 5). lra.
  - exists X, h. split; [exact E|]. split; [exact HX|]. split; [apply Fh; lia|]. split; [apply Fh; lia|].
    change (epsilon (default_config (B64 L)) : b64) with e in Q. unfold norm1 in Q. cbn [rsum] in Q. rewrite Efac in Q.
    rewrite (Rabs_pos_eq (4 / 5)), (Rabs_pos_eq (7 / 5)) in Q by lra. set (tol := solve_tolerance 2 (B2R e) 3) in *. lra.
Qed.
