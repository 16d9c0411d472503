(** Proofs for the accuracy of the inverse in doubles: cofactors, quotients of inexact numbers. *)
From Coq Require Import ZArith Reals Lra Lia List Bool String.
From Flocq Require Import IEEE754.BinarySingleNaN Core.
From Verif Require Import Base MathOp IEEE RealSpec NodeModel ExprSpec MatModel MatSpec MatProofs DetProofs AffineSpec FloatSpec FloatFacts IntSpec IntProofs RoundSpec RoundProofs.
Import ListNotations.
Local Open Scope R_scope.

Lemma det_error_pos n M : 1 <= M -> 0 <= det_error n M.
Proof.
  intros HM. unfold det_error. fold (fact_bound n M). destruct (fact_bound_ge n M HM) as [_ G]. pose proof (pow_ge_1 (det_roundings n)) as P.
  pose proof tiny_pos. pose proof (pos_INR n). assert (0 <= INR n * tiny) by nra. apply Rmult_le_pos; [|lra].
  assert (1 * 1 <= (1 + ulp1) ^ det_roundings n * (1 + INR n * tiny)) by (apply Rmult_le_compat; lra). lra.
Qed.

(** A quotient of inexact numbers. *)
Lemma quot_near (x d : b64) a D ea eD : fin x -> fin d -> Rabs (B2R x - a) <= ea -> Rabs (B2R d - D) <= eD -> eD < Rabs D ->
  let E := with_rounding ulp1 tiny (a / D) ((ea + Rabs (a / D) * eD) / (Rabs D - eD)) in
  Rabs (a / D) + E < huge -> fin (Bdiv mode_NE x d) /\ Rabs (B2R (Bdiv mode_NE x d) - a / D) <= E.
Proof.
  intros Fx Fd Hx Hd He E Hh.
  assert (Hd' : Rabs D - eD <= Rabs (B2R d)). { pose proof (Rabs_triang (B2R d) (- (B2R d - D))) as T. rewrite Rabs_Ropp in T.
    replace (B2R d + - (B2R d - D)) with D in T by ring. lra. }
  assert (N : B2R d <> 0). { intros Q. rewrite Q, Rabs_R0 in Hd'. lra. }
  assert (ND : D <> 0). { intros Q. rewrite Q, Rabs_R0 in He. pose proof (Rabs_pos (B2R d - D)). lra. }
  assert (Q : Rabs (B2R x / B2R d - a / D) <= (ea + Rabs (a / D) * eD) / (Rabs D - eD)).
  { replace (B2R x / B2R d - a / D) with (((B2R x - a) + - ((a / D) * (B2R d - D))) * / B2R d) by (field; auto).
    rewrite Rabs_mult, Rabs_inv. unfold Rdiv at 2. apply Rmult_le_compat; [apply Rabs_pos| | |].
    - left. now apply Rinv_0_lt_compat, Rabs_pos_lt.
    - eapply Rle_trans; [apply Rabs_triang|]. rewrite Rabs_Ropp, Rabs_mult. apply Rplus_le_compat; auto. apply Rmult_le_compat_l; auto using Rabs_pos.
    - apply Rinv_le_contravar; lra. }
  pose proof ulp1_pos as Pu.
  assert (F : fin (Bdiv mode_NE x d)). { apply div_fin; auto. apply rnd_small. apply (rounding_small ulp1 tiny (a / D) _ _ ltac:(lra) Q Hh). }
  split; auto. rewrite Bdiv_R by auto. destruct (rnd_model (B2R x / B2R d)) as (e & t & He' & Ht & ->). apply rounding_le; auto. lra.
Qed.

Section K.
Context (L : libm).
Notation K := (B64 L).
(** A cofactor. *)
Lemma kcof_near n M (f : nat -> nat -> b64) p q : (1 < n)%nat -> 1 <= M ->
  (forall i j, (i < n)%nat -> (j < n)%nat -> fin (f i j) /\ Rabs (B2R (f i j)) <= M) ->
  (1 + ulp1) ^ det_roundings n * (fact_bound n M * (1 + INR n * tiny)) < huge ->
  exists C, fin (kcof (K:=K) n (fun i j => f i j : K) p q) /\ Rabs (B2R (kcof (K:=K) n (fun i j => f i j : K) p q : b64) - C) <= det_error (n - 1) M /\
    Rabs C <= fact_bound (n - 1) M /\ kcof (K:=Rops) n (fun i j => Some (B2R (f i j)) : Rops) p q = (Some C : Rops).
Proof.
  intros Hn HM Hf Hs. unfold kcof.
  assert (Sk : forall k i, (i < n - 1)%nat -> (skip k i < n)%nat). { intros k i Hi. unfold skip. destruct (Nat.ltb i k); lia. }
  set (g := fun i j => f (skip p i) (skip q j)).
  assert (Hg : forall i j, (i < n - 1)%nat -> (j < n - 1)%nat -> fin (g i j) /\ Rabs (B2R (g i j)) <= M). { intros i j Hi Hj. unfold g. apply Hf; auto. }
  assert (Hs' : (1 + ulp1) ^ det_roundings (n - 1) * (fact_bound (n - 1) M * (1 + INR (n - 1) * tiny)) < huge).
  { eapply Rle_lt_trans; [|exact Hs]. destruct n as [|m]; [lia|]. replace (S m - 1)%nat with m by lia. pose proof ulp1_pos. pose proof tiny_pos.
    destruct (fact_bound_ge m M HM) as [G1 G2]. apply Rmult_le_compat; [apply pow_le; lra| |apply pow_mono, det_roundings_mono|].
    - pose proof (pos_INR m). apply Rmult_le_pos; [lra|]. nra.
    - rewrite fact_bound_S. pose proof (pos_INR m). rewrite S_INR. set (Z := fact_bound m M) in *. assert (Z <= (INR m + 1) * (M * Z)).
      { assert (Z <= M * Z) by nra. nra. }
      apply Rmult_le_compat; try nra. }
  pose proof (kdet_fin L (n - 1) M g ltac:(lia) HM Hg Hs') as F.
  destruct (kdet_near L (n - 1) g ltac:(lia) (fun i j Hi Hj => proj1 (Hg i j Hi Hj)) F) as (D & N & ED).
  assert (B : Rabs (B2R (kdet (K:=K) (n - 1) (fun i j => g i j : K) : b64) - D) <= det_error (n - 1) M /\ Rabs D <= fact_bound (n - 1) M).
  { destruct N as (_ & N2 & _ & N). destruct (permanent_bound (n - 1) M (rf g) HM) as [P1 P2]; [intros i j Hi Hj; apply Hg; auto|].
    split; [|eapply Rle_trans; [exact N2|apply P1]]. eapply Rle_trans; [exact N|]. apply rounding_bound_le; [apply P1|apply P2]. }
  change (kdet (K:=K) (n - 1) (fun i' j' => f (skip p i') (skip q j') : K)) with (kdet (K:=K) (n - 1) (fun i j => g i j : K)).
  change (kdet (K:=Rops) (n - 1) (fun i' j' => Some (B2R (f (skip p i') (skip q j'))) : Rops)) with (kdet (K:=Rops) (n - 1) (fun i j => Some (B2R (g i j)) : Rops)).
  destruct B as [B B2]. rewrite ED. destruct (_ =? 0)%nat.
  - exists D. split; [exact F|]. split; [exact B|]. split; [exact B2|reflexivity].
  - exists (- D). set (v := kdet (K:=K) (n - 1) _) in *. change (n_neg (n:=K) v : b64) with (Bopp (v : b64)). split; [|split; [|split]].
    + unfold fin. now rewrite is_finite_Bopp.
    + rewrite B2R_Bopp. replace (- B2R (v : b64) - - D) with (- (B2R (v : b64) - D)) by ring. now rewrite Rabs_Ropp.
    + now rewrite Rabs_Ropp.
    + reflexivity.
Qed.
End K.

(** For 3 x 3 matrices with entries at most 10. *)
Lemma three_ten_inv (D x : R) : 1 <= Rabs D -> Rabs x <= 200 -> inverse_error 3 10 D x <= 2 / 10 ^ 9.
Proof.
  intros HD Hx. unfold inverse_error, with_rounding. destruct three_ten as [_ T3]. fold (det_error 3 10) in T3.
  pose proof (det_error_pos 3 10 ltac:(lra)) as P3.
  assert (Hu : ulp1 <= 111023 / 10 ^ 21). { rewrite ulp1_bpow. cbn. lra. }
  assert (Ht : tiny <= 1 / 10 ^ 21). { rewrite tiny_bpow. apply Rle_trans with (bpow radix2 (-75)); [apply bpow_le; lia|cbn; lra]. }
  pose proof ulp1_pos as Pu. pose proof tiny_pos as Pt.
  assert (T2 : det_error 2 10 <= 1 / 10 ^ 12).
  { unfold det_error. change (det_roundings 2) with 3%nat. replace (INR (fact 2)) with 2 by (simpl; lra). replace (INR 2) with 2 by (simpl; lra).
    assert (B : (1 + ulp1) ^ 3 <= (1 + 111023 / 10 ^ 21) ^ 3) by (apply pow_incr; lra).
    pose proof (pow_ge_1 3). set (q := (1 + ulp1) ^ 3) in *.
    assert (P : q * (1 + 2 * tiny) <= (1 + 111023 / 10 ^ 21) ^ 3 * (1 + 2 / 10 ^ 21)) by (apply Rmult_le_compat; lra). lra. }
  change (3 - 1)%nat with 2%nat. pose proof (det_error_pos 2 10 ltac:(lra)) as P2. pose proof (Rabs_pos x) as Px.
  set (e2 := det_error 2 10) in *. set (e3 := det_error 3 10) in *.
  assert (Q : (e2 + Rabs x * e3) / (Rabs D - e3) <= 12 / 10 ^ 10).
  { apply Rmult_le_reg_r with (Rabs D - e3); [lra|]. unfold Rdiv at 1. rewrite Rmult_assoc, Rinv_l, Rmult_1_r by lra.
    assert (Rabs x * e3 <= 200 * (5 / 10 ^ 12)) by (apply Rmult_le_compat; lra).
    assert (12 / 10 ^ 10 * (1 - 5 / 10 ^ 12) <= 12 / 10 ^ 10 * (Rabs D - e3)) by (apply Rmult_le_compat_l; lra). lra. }
  assert (Q0 : 0 <= (e2 + Rabs x * e3) / (Rabs D - e3)).
  { apply Rmult_le_pos; [nra|]. left. apply Rinv_0_lt_compat. lra. }
  set (z := (e2 + Rabs x * e3) / (Rabs D - e3)) in *.
  assert (ulp1 * (Rabs x + z) <= 111023 / 10 ^ 21 * 201) by (apply Rmult_le_compat; lra). lra.
Qed.
Lemma big_huge : 1000 < huge.
Proof. rewrite huge_bpow. apply Rlt_trans with (bpow radix2 10); [cbn; lra|apply bpow_lt; lia]. Qed.
