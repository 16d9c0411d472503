(** SolveLinear on a positive definite system (exact reals). *)
From Coq Require Import Reals Lra Lia List.
From mathcomp Require Import all_ssreflect all_algebra zify.
From Verif Require Import Base MathOp RealSpec RField MatModel MatSpec MatProofs LinearModel MatRealSpec MatReal NonlinearSpec Thm_Linear AffineSpec AffineSolve.
Set Implicit Arguments.
Unset Strict Implicit.
Unset Printing Implicit Defensive.
Delimit Scope R_scope with coqR.
Import GRing.Theory.
Local Open Scope ring_scope.

(** (|y 0| + ... )^2 <= n (y 0 ^2 + ...) *)
Lemma sum_abs_sq n (y : nat -> R) : (rsum n (fun j => Rabs (y j)) * rsum n (fun j => Rabs (y j)) <= INR n * rsum n (fun j => y j * y j))%coqR.
Proof.
  have G m : (0 <= rsum m (fun j => Rabs (y j)))%coqR. { elim: m => [|m IH] /=; first lra. have := Rabs_pos (y m). lra. }
  elim: n => [|n IH]; first by rewrite /=; lra. rewrite S_INR /=.
  set s := rsum n (fun j => Rabs (y j)) in IH *. set q := rsum n _ in IH *. have Hs : (0 <= s)%coqR by exact: G.
  have E : (y n * y n = Rabs (y n) * Rabs (y n))%coqR. { rewrite -Rabs_mult Rabs_pos_eq //. nra. }
  rewrite E. have A := Rabs_pos (y n). set a := Rabs (y n) in A *.
  have N := pos_INR n. set k := INR n in IH N *.
  (* 2 s a <= q + k a^2 because s^2 <= k q *)
  case: (Req_dec k 0) => [K0|K0].
  - have S0 : s = R0 by nra. rewrite S0. have Q : (0 <= q)%coqR.
    { rewrite /q. elim: (n) => [|m IHm] /=; first lra. nra. }
    nra.
  - have K : (0 < k)%coqR by lra.
    have : (2 * s * a * k <= (q + k * (a * a)) * k)%coqR. { have := Rle_0_sqr (s - k * a). rewrite /Rsqr. nra. }
    nra.
Qed.

Section S.
Variables (cfg : config Rops) (eps mu : R) (n : nat) (M : nat -> nat -> R).
Hypotheses (Heps : epsilon cfg = Some eps) (He : (0 <= eps)%coqR) (Hn' : (0 < n)%coq_nat)
  (HM : forall y, (mu * rsum n (fun j => y j * y j) <= rsum n (fun i => y i * row_times n M y i))%coqR) (Hmu : (INR n * eps < mu)%coqR).

Let Hn : (0 < n)%N. Proof. exact/ltP. Qed.

Lemma definite_unit E : small_mx eps E -> Mmx n M + E \in unitmx.
Proof.
  move=> HE. rewrite unitmxE unitfE. apply/negP => /eqP D.
  have /det0P [v Hv Hz] : \det ((Mmx n M + E)^T) == 0 by rewrite det_tr; apply/eqP.
  pose y j := rentry v 0 j.
  have yE (j : 'I_n) : y j = v ord0 j by rewrite /y -(rentryE v ord0 j).
  have R i : (i < n)%N -> row_times n M y i = Ropp (\sum_(j < n) (rentry E i j * y j)%coqR).
  { move=> Hi. rewrite /row_times rsum_big.
    have -> : \sum_(j < n) (M i j * y j)%coqR = - \sum_(j < n) (rentry E i j * y j)%coqR; last by [].
    apply/eqP. rewrite -addr_eq0 -big_split /=. apply/eqP.
    have := congr1 (fun Z : 'rV_n => Z ord0 (Ordinal Hi)) Hz. rewrite !mxE => Z. rewrite -[RHS]Z. apply: eq_bigr => j _.
    rewrite !mxE -yE mulrC mulrDl. congr (_ + _). by rewrite -(rentryE E (Ordinal Hi) j). }
  pose s1 := rsum n (fun j => Rabs (y j)).
  have S1 : (0 <= s1)%coqR. { rewrite /s1. elim: (n) => [|m IH] /=; first lra. have := Rabs_pos (y m). lra. }
  have B i : (i < n)%N -> (Rabs (row_times n M y i) <= eps * s1)%coqR.
  { move=> Hi. rewrite R // Rabs_Ropp /s1.
    have T : forall m, (m <= n)%N -> (Rabs (\sum_(j < m) (rentry E i j * y j)%coqR) <= eps * rsum m (fun j => Rabs (y j)))%coqR.
    { elim=> [|m IH] Hm; first by rewrite big_ord0 -R0E Rabs_R0 /=; lra.
      rewrite big_ord_recr /= -RplusE. apply: Rle_trans; first exact: Rabs_triang.
      have I := IH (ltnW Hm). rewrite Rabs_mult.
      have H : (Rabs (rentry E i m) <= eps)%coqR.
      { rewrite (rentryE E (Ordinal Hi) (Ordinal Hm)). case: (HE (Ordinal Hi) (Ordinal Hm)) => [->|H]; first by rewrite -R0E Rabs_R0. lra. }
      have := Rabs_pos (y m). set s := Rabs (\sum_(_ < m) _) in I *. nra. }
    exact: T. }
  have Q : (rsum n (fun i => y i * row_times n M y i) <= eps * s1 * s1)%coqR.
  { have T : forall m, (m <= n)%N -> (rsum m (fun i => y i * row_times n M y i) <= eps * s1 * rsum m (fun j => Rabs (y j)))%coqR.
    { elim=> [|m IH] Hm /=; first lra.
      have I := IH (ltnW Hm). have H := B m Hm.
      have : (y m * row_times n M y m <= Rabs (y m) * (eps * s1))%coqR.
      { apply: Rle_trans; first exact: Rle_abs. rewrite Rabs_mult. apply: Rmult_le_compat_l => //. exact: Rabs_pos. }
      nra. }
    exact: T. }
  have := HM y. have := sum_abs_sq n y. rewrite -/s1. set q := rsum n (fun j => y j * y j)%coqR => H1 H2.
  have Q0 : (0 <= q)%coqR. { rewrite /q. elim: (n) => [|m IH] /=; first lra. nra. }
  have Z : q = R0. { have := pos_INR n. nra. }
  move/eqP: Hv. apply. apply/rowP => j. rewrite mxE -yE.
  have T : forall m, (m <= n)%N -> rsum m (fun j => y j * y j)%coqR = R0 -> forall i, (i < m)%N -> y i = R0.
  { have P m : (0 <= rsum m (fun j => y j * y j))%coqR. { elim: m => [|m IH] /=; first lra. nra. }
    elim=> [|m IH] Hm // Es i Hi. move: Es => /= Es. have Pm := P m.
    case: (ltnP i m) => Him; first by apply: IH => //; [exact: ltnW|nra]. have -> : i = m by lia. nra. }
  exact: (T n (leqnn n) Z j (ltn_ord j)).
Qed.

Lemma solve_definite (v : nat -> R) : exists x : nat -> R,
  linear_solution cfg n n (fun i j => Some (M i j)) (fun i => Some (v i)) (fun j => Some (x j)) /\
  forall i, (i < n)%coq_nat -> (Rabs (row_times n M x i - v i) <= eps * rsum n (fun j => Rabs (x j)))%coqR.
Proof.
  have [A HA] := is_mat_build n n (fun i j => Some (M i j) : Rops).
  have [b Hb] := is_mat_build n 1 (fun i j => Some (v i) : Rops).
  have HA' : mx_is (Mmx n M) A. { apply: (mx_is_intro HA) => i j. by rewrite mxE. }
  have Hb' : mx_is (\matrix_(i, j) v i : 'cV[R]_n) b. { apply: (mx_is_intro Hb) => i j. by rewrite mxE. }
  have [X [x [ES [HX Hr]]]] := C32_residual Heps He Hn HA' Hb' definite_unit.
  exists (fun j => rentry x j 0). split.
  - exists A, b, X. split; first exact: HA. split; first exact: Hb. split; first exact: ES. exact: (mx_is_rvec HX).
  - move=> i /ltP Hi. have := Hr (Ordinal Hi). rewrite !mxE /row_times !rsum_big.
    have -> : \sum_j Mmx n M (Ordinal Hi) j * x j ord0 = \sum_(j < n) (M i j * rentry x j 0)%coqR.
    { apply: eq_bigr => j _. rewrite mxE -(rentryE x j ord0). by []. }
    have -> : \sum_(j < n) Rabs (x j ord0) = \sum_(j < n) Rabs (rentry x j 0).
    { apply: eq_bigr => j _. by rewrite -(rentryE x j ord0). }
    by [].
Qed.
End S.
