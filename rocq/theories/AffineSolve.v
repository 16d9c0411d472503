(** SolveLinear on a well conditioned square system (exact reals). *)
From Coq Require Import Reals Lra Lia List.
From mathcomp Require Import all_ssreflect all_algebra zify.
From Verif Require Import Base MathOp RealSpec RField MatModel MatSpec MatProofs LinearModel MatRealSpec MatReal NonlinearSpec Thm_Linear AffineSpec.
Set Implicit Arguments.
Unset Strict Implicit.
Unset Printing Implicit Defensive.
Delimit Scope R_scope with coqR.
Import GRing.Theory.
Local Open Scope ring_scope.

Lemma is_mat_build (K : num_ops) r c (f : nat -> nat -> K) : exists A, is_mat r c f A.
Proof.
  exists (MkMat r c (List.map (fun k => f (Nat.div k c) (Nat.modulo k c)) (List.seq 0 (r * c)))).
  split=> //. split=> //. split; first by rewrite /= List.map_length List.seq_length.
  move=> i j Hi Hj. rewrite /Value /va_get /=.
  have Hk : (i * c + j < r * c)%coq_nat by nia.
  rewrite (List.map_nth_error _ (i * c + j)%N _ (d := (i * c + j)%N)).
  - have E1 : Nat.div (i * c + j) c = i. { symmetry. apply: (Nat.div_unique _ _ i j) => //. lia. }
    have E2 : Nat.modulo (i * c + j) c = j. { symmetry. apply: (Nat.mod_unique _ _ i j) => //. lia. }
    by rewrite E1 E2.
  - have := List.nth_error_nth' (List.seq 0 (r * c)) 0%N (n := (i * c + j)%N). rewrite List.seq_length => -> //. by rewrite List.seq_nth.
Qed.

Lemma rsum_big n g : rsum n g = \sum_(j < n) g j.
Proof. elim: n => [|n IH] /=; first by rewrite big_ord0. by rewrite big_ord_recr /= IH. Qed.

Lemma abs_sum_le n (a : nat -> R) (y : nat -> R) e m : (0 <= e)%coqR -> (forall j : 'I_n, Rabs (a j) <= e)%coqR -> (forall j : 'I_n, Rabs (y j) <= m)%coqR ->
  (Rabs (\sum_(j < n) (a j * y j)%coqR) <= e * (INR n * m))%coqR.
Proof.
  move=> He. elim: n => [|n IH] Ha Hy.
  - rewrite big_ord0 -R0E Rabs_R0 /=. lra.
  - rewrite big_ord_recr S_INR /= -RplusE. apply: Rle_trans; first exact: Rabs_triang.
    have := IH (fun j => Ha (widen_ord (leqnSn n) j)) (fun j => Hy (widen_ord (leqnSn n) j)).
    have := Ha ord_max. have := Hy ord_max. rewrite /= Rabs_mult.
    have := Rabs_pos (a n). have := Rabs_pos (y n). set s := Rabs (\sum_(_ < n) _). nra.
Qed.

Lemma max_entry n (y : nat -> R) : (0 < n)%N -> exists2 j0, (j0 < n)%N & forall j, (j < n)%N -> (Rabs (y j) <= Rabs (y j0))%coqR.
Proof.
  elim: n => // n IH _. case: (posnP n) => [->|Hn].
  - exists 0%N => // j Hj. have -> : j = 0%N by lia. lra.
  - have [j0 H0 H] := IH Hn. case: (Rle_lt_dec (Rabs (y j0)) (Rabs (y n))) => Hc.
    + exists n => // j Hj. case: (ltnP j n) => Hjn; first by have := H j Hjn; lra. have -> : j = n by lia. lra.
    + exists j0; first by lia. move=> j Hj. case: (ltnP j n) => Hjn; first exact: H. have -> : j = n by lia. lra.
Qed.

Section S.
Variables (cfg : config Rops) (eps mu : R) (n : nat) (M : nat -> nat -> R).
Hypotheses (Heps : epsilon cfg = Some eps) (He : (0 <= eps)%coqR) (Hn' : (0 < n)%coq_nat) (HM : conditioned n M mu) (Hmu : (INR n * eps < mu)%coqR).

Let Hn : (0 < n)%N. Proof. exact/ltP. Qed.
Definition Mmx : 'M[R]_n := \matrix_(i, j) M i j.

Lemma perturbed_unit E : small_mx eps E -> Mmx + E \in unitmx.
Proof.
  move=> HE. rewrite unitmxE unitfE. apply/negP => /eqP D.
  have /det0P [v Hv Hz] : \det ((Mmx + E)^T) == 0 by rewrite det_tr; apply/eqP.
  pose y j := rentry v 0 j.
  have yE (j : 'I_n) : y j = v ord0 j by rewrite /y -(rentryE v ord0 j).
  have [j0 Hj0 Hmax] := max_entry y Hn.
  have G : (mu * Rabs (y j0) <= eps * (INR n * Rabs (y j0)))%coqR.
  { refine (HM (y := y) _ (ltP Hj0)) => i /ltP Hi. rewrite /row_times rsum_big.
    have -> : \sum_(j < n) (M i j * y j)%coqR = - \sum_(j < n) (rentry E i j * y j)%coqR.
    { apply/eqP. rewrite -addr_eq0 -big_split /=. apply/eqP.
      have := congr1 (fun Z : 'rV_n => Z ord0 (Ordinal Hi)) Hz. rewrite !mxE => Z. rewrite -[RHS]Z. apply: eq_bigr => j _.
      rewrite !mxE -yE mulrC mulrDl. congr (_ + _). by rewrite -(rentryE E (Ordinal Hi) j). }
    have -> : (- \sum_(j < n) (rentry E i j * y j)%coqR)%R = Ropp (\sum_(j < n) (rentry E i j * y j)%coqR) by [].
    rewrite Rabs_Ropp. apply: abs_sum_le => // j; last exact: Hmax.
    rewrite (rentryE E (Ordinal Hi) j). case: (HE (Ordinal Hi) j) => [->|H]; first by rewrite -R0E Rabs_R0. lra. }
  have Y0 : Rabs (y j0) = R0. { have := Rabs_pos (y j0). nra. }
  move/eqP: Hv. apply. apply/rowP => j. rewrite mxE -yE. have := Hmax j (ltn_ord j). rewrite Y0 => H.
  have H0 : Rabs (y j) = R0 by have := Rabs_pos (y j); lra.
  case: (Req_dec (y j) 0) => [->//|N]. by have := Rabs_no_R0 _ N; rewrite H0.
Qed.

Lemma solve_conditioned (v : nat -> R) : exists x : nat -> R,
  linear_solution cfg n n (fun i j => Some (M i j)) (fun i => Some (v i)) (fun j => Some (x j)) /\
  forall i, (i < n)%coq_nat -> (Rabs (row_times n M x i - v i) <= eps * rsum n (fun j => Rabs (x j)))%coqR.
Proof.
  have [A HA] := is_mat_build n n (fun i j => Some (M i j) : Rops).
  have [b Hb] := is_mat_build n 1 (fun i j => Some (v i) : Rops).
  have HA' : mx_is Mmx A. { apply: (mx_is_intro HA) => i j. by rewrite mxE. }
  have Hb' : mx_is (\matrix_(i, j) v i : 'cV[R]_n) b. { apply: (mx_is_intro Hb) => i j. by rewrite mxE. }
  have [X [x [ES [HX Hr]]]] := C32_residual Heps He Hn HA' Hb' perturbed_unit.
  exists (fun j => rentry x j 0). split.
  - exists A, b, X. split; first exact: HA. split; first exact: Hb. split; first exact: ES. exact: (mx_is_rvec HX).
  - move=> i /ltP Hi. have := Hr (Ordinal Hi). rewrite !mxE /row_times !rsum_big.
    have -> : \sum_j Mmx (Ordinal Hi) j * x j ord0 = \sum_(j < n) (M i j * rentry x j 0)%coqR.
    { apply: eq_bigr => j _. rewrite mxE -(rentryE x j ord0). by []. }
    have -> : \sum_(j < n) Rabs (x j ord0) = \sum_(j < n) Rabs (rentry x j 0).
    { apply: eq_bigr => j _. by rewrite -(rentryE x j ord0). }
    by [].
Qed.
End S.
