(** Vocabulary for the convergence of the damped iteration (LM) over exact reals. *)
From Coq Require Import Reals.
From Verif Require Import AffineSpec.
Local Open Scope R_scope.

(** Euclidean length of (v 0, ..., v (n-1)). *)
Definition norm (n : nat) (v : nat -> R) : R := sqrt (rsum n (fun i => v i * v i)).

(** The n x n matrix M shortens no vector below lo times and stretches none above hi times its length
    (its singular values lie between lo and hi). *)
Definition stretches (n : nat) (M : nat -> nat -> R) (lo hi : R) : Prop :=
  forall v, lo * norm n v <= norm n (row_times n M v) <= hi * norm n v.

(** The largest distance of corresponding coordinates is at most d. *)
Definition near (n : nat) (p q : nat -> R) (d : R) : Prop := forall k, (k < n)%nat -> Rabs (p k - q k) <= d.
