(** Matrices over exact reals: the program's matrix objects and the matrices of the
    Mathematical Components library. *)
From Coq Require Import Reals.
From mathcomp Require Import all_ssreflect all_algebra.
From Verif Require Import Base MathOp RealSpec RField MatModel MatSpec.
Set Implicit Arguments.
Unset Strict Implicit.
Unset Printing Implicit Defensive.
Delimit Scope R_scope with coqR.
Import GRing.Theory.
Local Open Scope ring_scope.

(** Entry (i,j) of a mathematical matrix, as a number of the program. *)
Definition entry r c (M : 'M[R]_(r, c)) (i j : nat) : option R :=
  if insub i is Some i' then if insub j is Some j' then Some (M i' j') else None else None.

(** The object A holds the mathematical r x c matrix M. *)
Definition mx_is r c (M : 'M[R]_(r, c)) (A : mat Rops) : Prop := is_mat r c (entry M : nat -> nat -> Rops) A.

(** The leading principal k x k block. *)
Definition leading n (k : nat) (Hk : (k <= n)%N) (M : 'M[R]_n) : 'M[R]_k :=
  \matrix_(i, j) M (widen_ord Hk i) (widen_ord Hk j).

(** The quadratic form v^T M v. *)
Definition quad n (M : 'M[R]_n) (v : 'cV[R]_n) : R := (v^T *m M *m v) ord0 ord0.

(** M is positive definite. *)
Definition posdef n (M : 'M[R]_n) : Prop := forall v : 'cV[R]_n, v <> 0 -> (0 < quad M v)%coqR.

(** All leading principal minors are positive. *)
Definition minors_pos n (M : 'M[R]_n) : Prop :=
  forall k (Hk : (k <= n)%N), (0 < k)%N -> (0 < \det (leading Hk M))%coqR.

(** E is a perturbation whose entries are smaller than eps (or zero). *)
Definition small_mx (eps : R) r c (E : 'M[R]_(r, c)) : Prop :=
  forall i j, E i j = 0 \/ (Rabs (E i j) < eps)%coqR.
