(** SolveLinear over exact reals: finite data give a finite result. *)
From Coq Require Import Reals Lra Lia List.
From mathcomp Require Import all_ssreflect all_algebra zify.
From Verif Require Import Base MathOp RealSpec RField MatModel MatSpec MatProofs LinearModel MatRealSpec MatReal LinearProofs Thm_Linear.
Set Implicit Arguments.
Unset Strict Implicit.
Unset Printing Implicit Defensive.
Delimit Scope R_scope with coqR.
Import GRing.Theory.
Local Open Scope ring_scope.

Lemma solve_finite (cfg : config Rops) (eps : R) m n (M : nat -> nat -> R) (v : nat -> R) (A b X : mat Rops) :
  epsilon cfg = Some eps -> (0 < eps)%coqR -> (0 < m)%coq_nat -> (0 < n)%coq_nat ->
  is_mat m n (fun i j => Some (M i j) : Rops) A -> is_mat m 1 (fun i _ => Some (v i) : Rops) b ->
  SolveLinear cfg A b = Ok X -> exists h : nat -> R, is_mat n 1 (fun i _ => Some (h i) : Rops) X.
Proof.
  move=> Heps Hpos /ltP Hm /ltP Hn HA Hb ES.
  have HA' : mx_is (\matrix_(i, j) M i j : 'M[R]_(m, n)) A by apply: (mx_is_intro HA) => i j; rewrite mxE.
  have Hb' : mx_is (\matrix_(i, j) v i : 'cV[R]_m) b by apply: (mx_is_intro Hb) => i j; rewrite mxE.
  case: (leqP m n) => Hmn; last first.
  { have W : wf_mat A. { case: HA => [E1 [E2 [L _]]]. rewrite /wf_mat E1 E2 L. split; first by apply/ltP. split; first by apply/ltP. by []. }
    have E := C33_over_determined (K := Rops) cfg (A := A) (b := b) W.
    case: HA => [E1 [E2 _]]. case: Hb => [E3 _]. rewrite E1 E2 E3 in E. by rewrite E in ES. }
  have [y [x [f [g [p [Hy Hx HI HC]]]]]] := solve_cases Heps Hm Hmn HA' Hb'. case: HC.
  - move=> [Y [h [txt [_ HX E _]]]]. rewrite ES in E. exists h. move: E. case: ifP => // _ [->]. exact: HX.
  - move=> [_ _ [Y [h [txt [HX E]]]]]. rewrite ES in E. exists h. move: E. case: ifP => // _. case: ifP => // _ [->]. exact: HX.
  - move=> [_ _ _ E]. by rewrite ES in E.
  - move=> [H _ _ _]. lra.
Qed.
