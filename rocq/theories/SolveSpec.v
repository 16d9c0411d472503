(** Specification of the accuracy of SolveLinear in doubles. *)
From Coq Require Import ZArith Reals.
From Verif Require Import AffineSpec RoundSpec.
Local Open Scope R_scope.

(** |z_0| + ... + |z_(n-1)| *)
Definition norm1 (n : nat) (z : nat -> R) : R := rsum n (fun j => Rabs (z j)).

(** The n x n matrix with entries f does not map any nonzero vector close to 0: no matrix whose
    entries differ from f by at most d is singular (see C61_far_from_singular in Thm_Solve.v). *)
Definition far_from_singular (n : nat) (f : nat -> nat -> R) (d : R) : Prop :=
  forall z, (exists j, (j < n)%nat /\ z j <> 0) -> exists i, (i < n)%nat /\ d * norm1 n z < Rabs (row_times n f z i).

(** The factor of the rounding errors of the elimination and back substitution of an n x n system
    (n + 1 operations per entry, entries growing at most by a factor 2 per column). *)
Definition solve_factor (n : nat) : R := 12 * INR (n + 1) * 2 ^ n * ulp1.

(** Entries below the tolerance eps are treated as zero; the others suffer rounding errors relative
    to the bound M on the entries. *)
Definition solve_tolerance (n : nat) (eps M : R) : R := eps + solve_factor n * M.

(** 2^1000: far from overflow. *)
Definition large : R := IZR (2 ^ 1000).

(** The magnitudes for which no intermediate result of the elimination and the back substitution
    over- or underflows: M bounds the entries of the matrix and B those of the right-hand side. *)
Definition solve_range (n : nat) (eps M B : R) : Prop :=
  / large <= eps <= 1 /\ eps <= M /\ eps <= B /\ 2 ^ (n + 1) * M * B <= large * (eps * eps).
