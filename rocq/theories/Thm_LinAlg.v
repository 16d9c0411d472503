(** C80: Det, Inverse, Transpose, SwapRow, the product and SolveLinear agree with one another (exact real arithmetic).
    Every statement is about what the calls return; [mx_is M A] says that the object A holds the numbers of M. *)
From Coq Require Import String Reals Lra Lia List.
From mathcomp Require Import all_ssreflect all_algebra all_fingroup zify.
From Verif Require Import Base MathOp RealSpec RField MatModel MatSpec MatProofs LinearModel
  MatRealSpec MatReal LinearReal LinearSolve Thm_Mat Thm_Linear.
Set Implicit Arguments.
Unset Strict Implicit.
Unset Printing Implicit Defensive.
Delimit Scope R_scope with coqR.
Import GRing.Theory.
Local Open Scope ring_scope.

(** ** Determinants *)
Theorem C80_det_mul n (M N : 'M[R]_n) A B : (0 < n)%N -> mx_is M A -> mx_is N B ->
  exists (a b : R) C, [/\ Det A n = Ok (Some a : Rops), Det B n = Ok (Some b : Rops), Mat_mul A B = Ok C &
    Det C n = Ok (Some (a * b)%coqR : Rops)].
Proof.
  move=> Hn HA HB. have [C [EC HC]] := C28_real_mul Hn Hn HA HB. exists (\det M), (\det N), C.
  split=> //; try exact: C26_det. by rewrite (C26_det Hn HC) det_mulmx.
Qed.
Theorem C80_det_transpose n (M : 'M[R]_n) A : (0 < n)%N -> mx_is M A ->
  exists B, Transpose A = Ok B /\ Det B n = Det A n.
Proof.
  move=> Hn HA. have [B [EB HB]] := C28_real_transpose Hn Hn HA. exists B. split=> //.
  by rewrite (C26_det Hn HB) (C26_det Hn HA) det_tr.
Qed.
Theorem C80_det_scale n (M : 'M[R]_n) (k : R) A : (0 < n)%N -> mx_is M A ->
  exists d : R, Det A n = Ok (Some d : Rops) /\ Det (Mat_scale A (Some k : Rops)) n = Ok (Some (k ^ n * d)%coqR : Rops).
Proof.
  move=> Hn HA. exists (\det M). split; first exact: C26_det.
  rewrite (C26_det Hn (C28_real_scale k HA)) detZ. congr (Ok (Some _)). congr (_ * _)%R.
  elim: (n) => [|m IH] //. by rewrite exprS IH.
Qed.
Theorem C80_det_neg n (M : 'M[R]_n) A : (0 < n)%N -> mx_is M A ->
  exists d : R, Det A n = Ok (Some d : Rops) /\ Det (Mat_neg A) n = Ok (Some ((-1) ^ n * d)%coqR : Rops).
Proof.
  move=> Hn HA. exists (\det M). split; first exact: C26_det.
  rewrite (C26_det Hn (C28_real_neg HA)) -scaleN1r detZ. congr (Ok (Some _)). congr (_ * _)%R.
  elim: (n) => [|m IH] //. rewrite exprS IH -RmultE. by [].
Qed.

Lemma swap_perm n (M : 'M[R]_n) (i j : 'I_n) A B : mx_is M A ->
  is_mat n n (fun k l => (entry M : nat -> nat -> Rops) (swap_idx i j k) l) B -> mx_is (xrow i j M) B.
Proof.
  move=> HA HB. apply: (mx_is_intro HB) => k l. rewrite mxE /swap_idx permE /=.
  have Ek (a b : 'I_n) : Nat.eqb a b = (a == b). { apply/Nat.eqb_spec/eqP => [H|-> //]. exact: val_inj. }
  rewrite !Ek. case: (k == i); first by rewrite entryE. case: (k == j); by rewrite entryE.
Qed.
Theorem C80_det_swap n (M : 'M[R]_n) A (i j : 'I_n) : i != j -> mx_is M A ->
  exists (d : R) B, [/\ Det A n = Ok (Some d : Rops), SwapRow A i j = Ok B & Det B n = Ok (Some (- d)%coqR : Rops)].
Proof.
  move=> Hij HA. have Hn : (0 < n)%N by have := ltn_ord i; lia.
  have [B [EB HB]] := C29_swap_row HA (ltn_ord i) (ltn_ord j). exists (\det M), B. split=> //; first exact: C26_det.
  rewrite (C26_det Hn (swap_perm HA HB)) /xrow. rewrite row_permE det_mulmx det_perm odd_tperm Hij expr1 mulN1r. by [].
Qed.

(** ** Inverses *)
Section Inverse.
Variables (cfg : config Rops) (e : R).
Hypotheses (He : epsilon cfg = Some e) (He0 : (0 <= e)%coqR).

(** A returned inverse is the inverse matrix; there is nothing else it can be. *)
Lemma inverse_is n (M : 'M[R]_n) A B : (0 < n)%N -> mx_is M A -> Inverse cfg A = Ok B ->
  M \in unitmx /\ mx_is (invmx M) B /\ (e < Rabs (\det M))%coqR.
Proof using All.
  move=> Hn HA EB. have := C27_inverse He He0 Hn HA. case: Rle_dec => [? H|Hd]; first by rewrite H in EB.
  move=> [B' [N [EB' [HN [H1 H2]]]]]. rewrite EB in EB'. case: EB' => ?; subst B'.
  have U : M \in unitmx by have [] := mulmx1_unit H1.
  split=> //. split; last exact: Rnot_le_lt.
  have -> : invmx M = N; last by []. by rewrite -[invmx M]mulmx1 -H1 mulKmx.
Qed.

(** Which matrices Inverse accepts: those with |Det| > epsilon. *)
Theorem C80_inverse_iff n (M : 'M[R]_n) A : (0 < n)%N -> mx_is M A ->
  exists d : R, Det A n = Ok (Some d : Rops) /\
    ((exists B, Inverse cfg A = Ok B) <-> (e < Rabs d)%coqR).
Proof using All.
  move=> Hn HA. exists (\det M). split; first exact: C26_det. split.
  - move=> [B EB]. by have [_ [_ ?]] := inverse_is Hn HA EB.
  - move=> Hd. have := C27_inverse He He0 Hn HA. case: Rle_dec => [H|?]; first by lra.
    move=> [B [N [EB _]]]. by exists B.
Qed.

Theorem C80_det_inverse n (M : 'M[R]_n) A B : (0 < n)%N -> mx_is M A -> Inverse cfg A = Ok B ->
  exists d : R, d <> 0%coqR /\ Det A n = Ok (Some d : Rops) /\ Det B n = Ok (Some (/ d)%coqR : Rops).
Proof using All.
  move=> Hn HA EB. have [U [HB Hd]] := inverse_is Hn HA EB. exists (\det M).
  have D0 : \det M <> 0%coqR. { move=> Z. rewrite Z Rabs_R0 in Hd. lra. }
  split=> //. rewrite (C26_det Hn HA) (C26_det Hn HB) det_inv. split=> //. congr (Ok (Some _)).
  have -> : (\det M)^-1 = (/ \det M)%coqR; last by [].
  have UD : \det M \is a GRing.unit by rewrite -unitmxE.
  have H := mulVr UD. move: H. rewrite -RmultE -[(1:R)]/1%coqR => H. have I := Rinv_l _ D0.
  apply: (Rmult_eq_reg_r (\det M)) => //. by rewrite I -H.
Qed.

(** Inverting twice gives the matrix back, to the last digit. *)
Theorem C80_inverse_inverse n (M : 'M[R]_n) A B C : (0 < n)%N -> mx_is M A ->
  Inverse cfg A = Ok B -> Inverse cfg B = Ok C -> C = A.
Proof using All.
  move=> Hn HA EB EC. have [U [HB _]] := inverse_is Hn HA EB. have [_ [HC _]] := inverse_is Hn HB EC.
  rewrite invmxK in HC. exact: is_mat_unique HC HA.
Qed.
(** The inverse of a product, when the three calls return. *)
Theorem C80_inverse_mul n (M N : 'M[R]_n) A B A' B' AB X : (0 < n)%N -> mx_is M A -> mx_is N B ->
  Inverse cfg A = Ok A' -> Inverse cfg B = Ok B' -> Mat_mul A B = Ok AB -> Inverse cfg AB = Ok X ->
  Mat_mul B' A' = Ok X.
Proof using All.
  move=> Hn HA HB EA EB EAB EX. have [UA [HA' _]] := inverse_is Hn HA EA. have [UB [HB' _]] := inverse_is Hn HB EB.
  have [C [EC HC]] := C28_real_mul Hn Hn HA HB. rewrite EAB in EC. case: EC => ?; subst C.
  have [_ [HX _]] := inverse_is Hn HC EX. have [Y [EY HY]] := C28_real_mul Hn Hn HB' HA'. rewrite EY. congr Ok.
  apply: is_mat_unique HY _. have -> : invmx N *m invmx M = invmx (M *m N); last exact: HX.
  have UMN : M *m N \in unitmx by rewrite unitmx_mul UA UB.
  apply: (can_inj (mulKmx UMN)). rewrite mulmxV //. by rewrite -mulmxA (mulmxA N) (mulmxV UB) mul1mx mulmxV.
Qed.
Theorem C80_inverse_transpose n (M : 'M[R]_n) A A' T : (0 < n)%N -> mx_is M A ->
  Inverse cfg A = Ok A' -> Transpose A = Ok T -> exists T', Inverse cfg T = Ok T' /\ Transpose A' = Ok T'.
Proof using All.
  move=> Hn HA EA ET. have [U [HA' Hd]] := inverse_is Hn HA EA.
  have [T1 [ET1 HT]] := C28_real_transpose Hn Hn HA. rewrite ET in ET1. case: ET1 => ?; subst T1.
  have [T' [ET' HT']] := C28_real_transpose Hn Hn HA'.
  have := C27_inverse He He0 Hn HT. have DT : \det M^T = \det M := det_tr M. case: Rle_dec => [H|?]; first by exfalso; move: (H); rewrite DT; apply: Rlt_not_le.
  move=> [X [N [EX [HX [H1 _]]]]]. exists T'. split=> //. rewrite EX. congr Ok.
  apply: is_mat_unique HX _. have -> : N = (invmx M)^T; last exact: HT'.
  rewrite trmx_inv. have UT : M^T \in unitmx by rewrite unitmx_tr. by rewrite -[invmx _]mulmx1 -H1 mulKmx.
Qed.

(** ** Inverse and SolveLinear *)
(** When both return, the vector of SolveLinear differs from Inverse(A)*b at most by epsilon times the sizes of
    the two results; both solve the same system. *)
Theorem C80_solve_inverse n (M : 'M[R]_n) (v : 'cV[R]_n) A b B :
  (0 < n)%N -> mx_is M A -> mx_is v b -> (forall E, small_mx e E -> M + E \in unitmx) -> Inverse cfg A = Ok B ->
  exists X Y (x y : 'cV[R]_n) (N : 'M[R]_n),
    [/\ SolveLinear cfg A b = Ok X, Mat_mul B b = Ok Y, mx_is x X, mx_is y Y & mx_is N B] /\
    forall i, (Rabs (x i ord0 - y i ord0)%coqR <= e * (\sum_(j < n) Rabs (N i j)) * (\sum_(k < n) Rabs (x k ord0)))%coqR.
Proof using All.
  move=> Hn HA Hb HR EB. have [U [HB _]] := inverse_is Hn HA EB.
  have [X [x [ES [HX Hres]]]] := C32_residual He He0 Hn HA Hb HR.
  have [Y [EY HY]] := C28_real_mul Hn (ltn0Sn 0) HB Hb.
  exists X, Y, x, (invmx M *m v), (invmx M). split=> // i.
  have -> : (x i ord0 - (invmx M *m v) i ord0)%coqR = (\sum_j (invmx M i j * ((M *m x) j ord0 - v j ord0)))%R.
  { transitivity ((invmx M *m (M *m x - v)) i ord0).
    - rewrite mulmxBr (mulKmx U) [RHS]mxE [(- (invmx M *m v)) i ord0]mxE. by [].
    - rewrite mxE. apply: eq_bigr => j _. by rewrite [(M *m x - v) j ord0]mxE [(- v) j ord0]mxE. }
  set s := (\sum_(k < n) Rabs (x k ord0))%R.
  have -> : (e * (\sum_(j < n) Rabs (invmx M i j)) * s)%coqR = (\sum_(j < n) (Rabs (invmx M i j) * (e * s)))%R.
  { rewrite -mulr_suml -!RmultE. set t := (\sum_(j < n) _)%R. clearbody t s. lra. }
  elim/big_ind2: _.
  - rewrite -R0E Rabs_R0. lra.
  - move=> a1 s1 a2 s2 H1 H2. have := Rabs_triang s1 s2. have := Rabs_triang a1 a2. rewrite -!RplusE. lra.
  - move=> j _. rewrite -!RmultE Rabs_mult. apply: Rmult_le_compat_l; first exact: Rabs_pos. exact: Hres.
Qed.
End Inverse.

(** With epsilon = 0 they agree exactly, and on exactly the same matrices. *)
Theorem C80_solve_inverse_exact (cfg : config Rops) n (M : 'M[R]_n) (v : 'cV[R]_n) A b B :
  epsilon cfg = Some 0%coqR -> (0 < n)%N -> mx_is M A -> mx_is v b -> Inverse cfg A = Ok B ->
  exists X, SolveLinear cfg A b = Ok X /\ Mat_mul B b = Ok X.
Proof.
  move=> He Hn HA Hb EB. have [U [HB _]] := inverse_is He (Rle_refl _) Hn HA EB.
  have [X [ES HX]] := C32_exact He Hn HA Hb U. have [Y [EY HY]] := C28_real_mul Hn (ltn0Sn 0) HB Hb.
  exists X. split=> //. rewrite EY. congr Ok. exact: is_mat_unique HY HX.
Qed.

(** ** The hypotheses are met: twice the identity, epsilon 1/2. *)
Example C80_ex : exists A b B C, [/\ mx_is (2%:R%:M : 'M[R]_2) A, mx_is (const_mx 1 : 'cV[R]_2) b &
  forall cfg : config Rops, epsilon cfg = Some (1/5)%coqR -> [/\ Inverse cfg A = Ok B, Inverse cfg B = Ok C,
     C = A, (exists X, SolveLinear cfg A b = Ok X) & forall E : 'M[R]_2, small_mx (1/5)%coqR E -> (2%:R%:M + E : 'M[R]_2) \in unitmx]].
Proof.
  have [A HA] := @C28_mx_is_exists 2 2 (2%:R%:M) isT isT. have [b Hb] := @C28_mx_is_exists 2 1 (const_mx 1) isT isT.
  have N2 : (2%:R : R) != 0. { apply/eqP. rewrite -[2%:R]/(1 + 1)%R -RplusE -[(1:R)]/1%coqR -R0E. lra. }
  have U2 : (2%:R : R) \is a GRing.unit by rewrite unitfE.
  have E2 : (2%:R : R) = 2%coqR. { rewrite -[2%:R]/(1 + 1)%R -RplusE -[(1:R)]/1%coqR. lra. }
  have EV : (2%:R : R)^-1 = (/ 2)%coqR.
  { have H := mulVr U2. rewrite E2 in H *. move: H. rewrite -RmultE -[(1:R)]/1%coqR => H. have := Rinv_l 2 ltac:(lra). nra. }
  have [B HB] := @C28_mx_is_exists 2 2 ((2%:R)^-1%:M) isT isT.
  have UU : (2%:R%:M : 'M[R]_2) \in unitmx by rewrite unitmxE det_scalar unitrX.
  have IV : invmx (2%:R%:M : 'M[R]_2) = (2%:R)^-1%:M by rewrite invmx_scalar.
  have IW : invmx ((2%:R)^-1%:M : 'M[R]_2) = (2%:R)%:M by rewrite invmx_scalar invrK.
  exists A, b, B, A. split=> // cfg He.
  have P0 : (0 <= 1/5)%coqR by lra.
  have D2 : \det (2%:R%:M : 'M[R]_2) = 4%coqR. { rewrite det_scalar expr2 E2 -RmultE. lra. }
  have D3 : \det ((2%:R)^-1%:M : 'M[R]_2) = (/4)%coqR. { rewrite det_scalar expr2 EV -RmultE. lra. }
  have [d [Ed Hd]] := C80_inverse_iff He P0 (isT : (0 < 2)%N) HA. rewrite (C26_det (isT : (0 < 2)%N) HA) D2 in Ed. case: Ed => ?; subst d.
  have [B1 EB1] : exists B1, Inverse cfg A = Ok B1. { apply/Hd. rewrite Rabs_right; lra. }
  have [_ [HB1 _]] := inverse_is He P0 (isT : (0 < 2)%N) HA EB1. rewrite IV in HB1.
  have ? := is_mat_unique _ _ _ _ _ HB1 HB. subst B1.
  have [d [Ed Hd']] := C80_inverse_iff He P0 (isT : (0 < 2)%N) HB. rewrite (C26_det (isT : (0 < 2)%N) HB) D3 in Ed. case: Ed => ?; subst d.
  have [C1 EC1] : exists C1, Inverse cfg B = Ok C1. { apply/Hd'. rewrite Rabs_right; lra. }
  have EC := C80_inverse_inverse He P0 (isT : (0 < 2)%N) HA EB1 EC1. subst C1.
  have HR : forall E : 'M[R]_2, small_mx (1/5)%coqR E -> (2%:R%:M + E : 'M[R]_2) \in unitmx.
  { move=> E HE. rewrite unitmxE unitfE det2 !mxE /=. apply/eqP => H.
    have G i j : (- (1 / 5) < E i j < 1 / 5)%coqR.
    { case: (HE i j) => [->|H1]; first by rewrite -R0E; lra. by have := Rabs_def2 _ _ H1; lra. }
    have G1 := G ord0 ord0. have G2 := G ord_max ord_max. have G3 := G ord0 ord_max. have G4 := G ord_max ord0.
    move: H G1 G2 G3 G4. rewrite ?mulr1n ?mulr0n E2 -?RplusE -?RmultE -?R0E /=.
    set a := E ord0 ord0. set b' := E ord0 ord_max. set c := E ord_max ord0. set d := E ord_max ord_max. clearbody a b' c d. clear. move=> H Ha Hd Hb Hc.
    have P1 : (0 <= (1/5 - b') * (1/5 + b'))%coqR by apply: Rmult_le_pos; lra. have P2 : (0 <= (1/5 - c) * (1/5 + c))%coqR by apply: Rmult_le_pos; lra.
    have P3 : (9/5 * (9/5) <= (2 + a) * (2 + d))%coqR by apply: Rmult_le_compat; lra.
    have P4 : (0 <= (b' - c) * (b' - c))%coqR by exact: Rle_0_sqr. lra. }
  split=> //. have [X [x [ES _]]] := C32_residual He P0 (isT : (0 < 2)%N) HA Hb HR. by exists X.
Qed.
