(** Vocabulary for the line search Armijo(x, d, f, df) (C82). *)
From Coq Require Import List ZArith Bool Reals.
From Verif Require Import Base MathOp MatModel MatSpec NonlinearSpec AffineSpec.
Import ListNotations.

(** Over any arithmetic. *)
Section Line.
Context {K : num_ops} (n : nat) (x d phi : nat -> K) (M : nat -> nat -> K) (f : mat K -> res (mat K)).
(** The point x + a d. *)
Definition moved (a : K) (j : nat) : K := n_add (x j) (n_mul (d j) a).
(** The right-hand side |f(x) + 0.4 a J' d|^2 of the test; phi are the values and M the matrix J at x. *)
Definition allowed (a : K) : K :=
  sumsq n (fun i => n_add (phi i) (ksum n (fun l => n_mul (n_mul (M l i) (n_mul (n_dec 4 (-1)) a)) (d l)))).
(** f has values at x + a d, and the test |f(x + a d)|^2 <= |f(x) + 0.4 a J' d|^2 comes out as b. *)
Definition tested (a : K) (b : bool) : Prop :=
  exists Y Z psi, is_vec n (moved a) Y /\ f Y = Ok Z /\ is_vec n psi Z /\ n_leb (sumsq n psi) (allowed a) = b.
End Line.

(** Over the reals. *)
Local Open Scope R_scope.
(** |F(x + a d)|^2. *)
Definition residual (n : nat) (F : (nat -> R) -> nat -> R) (x d : nat -> R) (a : R) : R :=
  rsum n (fun i => F (fun j => x j + d j * a) i * F (fun j => x j + d j * a) i).
(** (J' d) i. *)
Definition transposed_times (n : nat) (M : nat -> nat -> R) (d : nat -> R) (i : nat) : R := rsum n (fun l => M l i * d l).
(** |F(x) + 0.4 a J' d|^2. *)
Definition allowance (n : nat) (F : (nat -> R) -> nat -> R) (M : nat -> nat -> R) (x d : nat -> R) (a : R) : R :=
  rsum n (fun i => (F x i + 4 / 10 * a * transposed_times n M d i) * (F x i + 4 / 10 * a * transposed_times n M d i)).
