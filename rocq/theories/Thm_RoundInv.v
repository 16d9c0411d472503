(** C59: accuracy of the inverse in doubles. *)
From Coq Require Import String ZArith Reals Lra Lia List.
From Flocq Require Import IEEE754.BinarySingleNaN Core.Raux.
From mathcomp Require Import all_ssreflect all_algebra zify.
From Verif Require Import Base MathOp IEEE RealSpec RField NodeModel ExprSpec MatModel MatSpec MatProofs DetProofs PivotProofs MatRealSpec MatReal
  Sylvester Thm_Mat Thm_Node FloatSpec FloatFacts IntSpec IntProofs RoundSpec RoundProofs RoundInv Thm_RoundDet.
Set Implicit Arguments.
Unset Strict Implicit.
Unset Printing Implicit Defensive.
Delimit Scope R_scope with coqR.
Delimit Scope Z_scope with coqZ.
Import GRing.Theory.
Local Open Scope ring_scope.

Section M.
Context (L : libm).
Notation K := (B64 L).

Lemma det_sides n (f : nat -> nat -> b64) (M : R) : (0 < n)%N -> (1 <= M)%coqR ->
  (forall i j, (i < n)%N -> (j < n)%N -> fin (f i j) /\ (Rabs (B2R (f i j)) <= M)%coqR) ->
  ((1 + ulp1) ^ det_roundings n * (INR (Factorial.fact n) * M ^ n * (1 + INR n * tiny)) < huge)%coqR ->
  fin (kdet (K:=K) n (fun i j => f i j : K) : b64) /\
  (Rabs (B2R (kdet (K:=K) n (fun i j => f i j : K) : b64) - \det (bmx n n f)) <= det_error n M)%coqR.
Proof.
  move=> Hn HM Hf Hs.
  have Hf' : forall i j, (i < n)%coq_nat -> (j < n)%coq_nat -> fin (f i j) /\ (Rabs (B2R (f i j)) <= M)%coqR.
  { move=> i j Hi Hj. apply: Hf; lia. }
  have F : fin (kdet (K:=K) n (fun i j => f i j : K) : b64). { apply: (@kdet_fin L n M f _ HM Hf' Hs). lia. }
  split=> //.
  have [||D [[_ [_ [_ N]]] E]] := @kdet_near L n f _ _ F; first by lia.
  { move=> i j Hi Hj. apply: (proj1 (Hf' _ _ Hi Hj)). }
  have := E. rewrite (@kdet_R n (fun i j => B2R (f i j)) Hn) => E2. injection E2 as E3. rewrite -/(bmx n n f) in E3. rewrite E3.
  apply: Rle_trans; first exact: N.
  have [P1 P2] := @permanent_bound n M (fun i j => B2R (f i j)) HM (fun i j Hi Hj => proj2 (Hf' i j Hi Hj)).
  rewrite /det_error -/(fact_bound n M). apply: rounding_bound_le; [exact: (proj2 P1)|exact: (proj2 P2)].
Qed.

Lemma cof_sides n (f : nat -> nat -> b64) (M : R) (i j : 'I_n) : (1 <= M)%coqR ->
  (forall i j, (i < n)%N -> (j < n)%N -> fin (f i j) /\ (Rabs (B2R (f i j)) <= M)%coqR) ->
  ((1 + ulp1) ^ det_roundings n * (INR (Factorial.fact n) * M ^ n * (1 + INR n * tiny)) < huge)%coqR ->
  let x : b64 := (if Nat.eqb n 1 then n_ofZ (n:=K) (Zpos xH) else kcof (K:=K) n (fun i j => f i j : K) j i) in
  fin x /\ (Rabs (B2R x - \adj (bmx n n f) i j) <= det_error (n - 1) M)%coqR /\ (Rabs (\adj (bmx n n f) i j) <= INR (Factorial.fact (n - 1)) * M ^ (n - 1))%coqR.
Proof.
  move=> HM Hf Hs. case: (Nat.eqb_spec n 1) => E1.
  - subst n. rewrite adjugate1 !ord1 mxE. have [F E] : is_Z (b_ofZ (Zpos xH)) (Zpos xH) by apply: ofZ_is; rewrite /exact_range; lia.
    move=> x. have {}E : B2R x = R1 := E. split=> //. rewrite E eqxx. rewrite -[1 *+ true]/R1.
    have -> : (Rabs (R1 - R1) = R0)%coqR. { rewrite Rminus_diag_eq; [exact: Rabs_R0|by []]. }
    split; first exact: det_error_pos. rewrite Rabs_R1 /=. lra.
  - have Hf' : forall i j, (i < n)%coq_nat -> (j < n)%coq_nat -> fin (f i j) /\ (Rabs (B2R (f i j)) <= M)%coqR.
    { move=> i' j' Hi Hj. apply: Hf; lia. }
    have Hn : (1 < n)%coq_nat by case: (i) => i' Hi'; lia.
    have [C [F [N [C2 E]]]] := @kcof_near L n M f j i Hn HM Hf' Hs.
    have -> : \adj (bmx n n f) i j = C.
    { have := @kcof_R n (bmx n n f) j i ltac:(lia).
      rewrite [LHS](_ : _ = kcof (K:=Rops) n (fun i j => Some (B2R (f i j)) : Rops) j i).
      + rewrite E mxE => E2. by injection E2.
      + rewrite /kcof. rewrite (kdet_ext _ _ (fun i' j' => Some (B2R (f (skip j i') (skip i j'))) : Rops)) // => i' j' Hi' Hj'.
        have Sk k k' : (k' < n - 1)%coq_nat -> (skip k k' < n)%N. { move=> Hk. rewrite /skip. case: (Nat.ltb k' k); lia. }
        rewrite -[skip j i']/(nat_of_ord (Ordinal (Sk j i' Hi'))) -[skip i j']/(nat_of_ord (Ordinal (Sk i j' Hj'))) entryE.
        by rewrite mxE. }
    by [].
Qed.

(** The inverse of a matrix of doubles at most M >= 1 in absolute value: if the determinant is below
    the tolerance by more than its rounding error, the matrix is reported as singular; if it is above
    the tolerance by more than its rounding error and the entries of the exact inverse are in range,
    the result is finite and every entry is within inverse_error of the entry of the exact inverse. *)
Theorem C59_inverse (cfg : config K) n (f : nat -> nat -> b64) (M : R) (A : mat K) : (0 < n)%N -> is_mat n n (fun i j => f i j : K) A ->
  (1 <= M)%coqR -> (forall i j, (i < n)%N -> (j < n)%N -> fin (f i j) /\ (Rabs (B2R (f i j)) <= M)%coqR) ->
  ((1 + ulp1) ^ det_roundings n * (INR (Factorial.fact n) * M ^ n * (1 + INR n * tiny)) < huge)%coqR ->
  fin (epsilon cfg) -> (0 <= B2R (epsilon cfg : b64))%coqR ->
  let D := \det (bmx n n f) in
  ((Rabs D + det_error n M <= B2R (epsilon cfg : b64))%coqR -> Inverse cfg A = Throw (MathError ERROR_SINGULAR_MATRIX EmptyString)) /\
  ((B2R (epsilon cfg : b64) + det_error n M < Rabs D)%coqR ->
   (forall i j : 'I_n, (Rabs (invmx (bmx n n f) i j) + inverse_error n M D (invmx (bmx n n f) i j) < huge)%coqR) ->
   exists B (h : nat -> nat -> b64), Inverse cfg A = Ok B /\ is_mat (K:=K) n n h B /\
     forall i j : 'I_n, fin (h i j) /\ (Rabs (B2R (h i j) - invmx (bmx n n f) i j) <= inverse_error n M D (invmx (bmx n n f) i j))%coqR).
Proof.
  move=> Hn HA HM Hf Hs Fe He D. have [Fd Nd] := @det_sides n f M Hn HM Hf Hs.
  have Hn' : (0 < n)%coq_nat by lia. have := Inverse_ok cfg n (fun i j => f i j : K) A Hn' HA.
  set d := kdet (K:=K) n _ in Fd Nd *. rewrite -/D in Nd.
  have Td : (Rabs (B2R (d : b64)) <= Rabs D + det_error n M)%coqR /\ (Rabs D <= Rabs (B2R (d : b64)) + det_error n M)%coqR.
  { have T1 := Rabs_triang D (B2R (d : b64) - D). have T2 := Rabs_triang (B2R (d : b64)) (- (B2R (d : b64) - D)). rewrite Rabs_Ropp in T2.
    have E1 : (D + (B2R (d : b64) - D) = B2R (d : b64))%coqR by ring. have E2 : (B2R (d : b64) + - (B2R (d : b64) - D) = D)%coqR by ring.
    rewrite E1 in T1. rewrite E2 in T2. split; lra. }
  have -> : n_leb (n_abs (d : K)) (epsilon cfg) = Rle_bool (Rabs (B2R (d : b64))) (B2R (epsilon cfg : b64)).
  { rewrite -[n_leb _ _]/(Bleb (Babs (d : b64)) (epsilon cfg : b64)) Bleb_correct //; last by rewrite is_finite_Babs. by rewrite B2R_Babs. }
  move=> HI. split=> [H0|H0 Hfit].
  - move: HI. rewrite Rle_bool_true //. lra.
  - move: HI. rewrite Rle_bool_false; last by lra.
    move=> [B [EB HBm]]. eexists B, _. split; first exact: EB. split; first exact: HBm. move=> i j.
    have P := @det_error_pos n M HM.
    have D0 : D <> R0 by move=> Q; rewrite Q Rabs_R0 in H0; lra.
    have U : D \is a GRing.unit by rewrite unitfE; apply/eqP.
    have UM : bmx n n f \in unitmx by rewrite unitmxE.
    have I : (invmx (bmx n n f) i j = \adj (bmx n n f) i j / D)%coqR.
    { rewrite /invmx UM mxE -/D mulrC /Rdiv. by rewrite -(RinvE D0). }
    have [Fx [Nx _]] := @cof_sides n f M i j HM Hf Hs.
    have := @quot_near _ (d : b64) _ D _ (det_error n M) Fx Fd Nx Nd. rewrite -I. apply; first by lra. exact: Hfit.
Qed.

(** For example, the inverse of every 3 x 3 matrix with entries between -10 and 10 and a determinant
    of absolute value at least 1 is exact up to 2 * 10^-9 (with the default tolerance, say). *)
Theorem C59_inverse_ex (cfg : config K) (f : nat -> nat -> b64) (A : mat K) : is_mat 3 3 (fun i j => f i j : K) A ->
  (forall i j, (i < 3)%N -> (j < 3)%N -> fin (f i j) /\ (Rabs (B2R (f i j)) <= 10)%coqR) ->
  fin (epsilon cfg) -> (0 <= B2R (epsilon cfg : b64) <= 1 / 2)%coqR -> (1 <= Rabs (\det (bmx 3 3 f)))%coqR ->
  exists B (h : nat -> nat -> b64), Inverse cfg A = Ok B /\ is_mat (K:=K) 3 3 h B /\
     forall i j : 'I_3, fin (h i j) /\ (Rabs (B2R (h i j) - invmx (bmx 3 3 f) i j) <= 2 / 10 ^ 9)%coqR.
Proof.
  move=> HA Hf Fe He HD. have [S1 S2] := three_ten. rewrite -/(det_error 3 (IZR 10)) in S2.
  have H10 : (1 <= 10)%coqR by lra.
  have [_ T] := @C59_inverse cfg 3 f 10%coqR A isT HA H10 Hf S1 Fe (proj1 He).
  have B i j : (Rabs (invmx (bmx 3 3 f) i j) <= 200)%coqR.
  { have [_ [_ C]] := @cof_sides 3 f 10%coqR i j H10 Hf S1.
    have D0 : \det (bmx 3 3 f) <> R0 by move=> Q; rewrite Q Rabs_R0 in HD; lra.
    have UM : bmx 3 3 f \in unitmx by rewrite unitmxE unitfE; apply/eqP.
    rewrite /invmx UM mxE -(RinvE D0) -RmultE Rabs_mult Rabs_inv.
    have C2 : (Rabs (\adj (bmx 3 3 f) i j) <= 200)%coqR. { apply: Rle_trans; first exact: C. rewrite -[(3-1)%N]/2%N /=. lra. }
    have I1 : (/ Rabs (\det (bmx 3 3 f)) <= 1)%coqR. { rewrite -[X in (_ <= X)%coqR]Rinv_1. apply: Rinv_le_contravar; lra. }
    have I2 : (0 < / Rabs (\det (bmx 3 3 f)))%coqR. { apply: Rinv_0_lt_compat. lra. }
    have P := Rabs_pos (\adj (bmx 3 3 f) i j).
    have := Rmult_le_compat _ _ _ _ (Rlt_le _ _ I2) P I1 C2. by rewrite Rmult_1_l. }
  have E i j := @three_ten_inv (\det (bmx 3 3 f)) _ HD (B i j).
  have [||B' [h [E1 [E2 E3]]]] := T.
  - lra.
  - move=> i j. have := B i j. have := E i j. have := big_huge. lra.
  - exists B', h. split=> //. split=> // i j. have [F N] := E3 i j. split=> //. exact: Rle_trans N (E i j).
Qed.
End M.
