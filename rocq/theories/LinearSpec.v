(** Systems of linear equations, written out term by term, and strict diagonal dominance. *)
From Coq Require Import String List Reals.
From Flocq Require Import IEEE754.BinarySingleNaN.
From Verif Require Import Base MathOp IEEE NodeModel ExprSpec AffineSpec FloatSpec RoundSpec SolveSpec.
Local Open Scope R_scope.

(** The expression  b + c0*x0 + c1*x1 + ... + c(n-1)*x(n-1). *)
Fixpoint linear_terms {K : num_ops} (xs : list string) (b : K) (c : nat -> K) (n : nat) : expr K :=
  match n with
  | O => ENum b
  | S m => EBin BAdd (linear_terms xs b c m) (EBin BMul (ENum (c m)) (EVar (nth m xs EmptyString)))
  end.

(** The left-hand side of equation i at the point p:  b_i + M_i0 * p_0 + ... *)
Definition left_side (n : nat) (M : nat -> nat -> b64) (b : nat -> b64) (p : nat -> R) (i : nat) : R :=
  B2R (b i) + row_times n (fun i j => B2R (M i j)) p i.

(** In every row the diagonal entry exceeds the sum of the other entries, in absolute value, by more
    than e. *)
Definition dominant (n : nat) (M : nat -> nat -> R) (e : R) : Prop :=
  forall i, (i < n)%nat -> rsum n (fun j => if Nat.eqb j i then 0 else Rabs (M i j)) + e < Rabs (M i i).

(** The rounding errors of evaluating n linear terms whose absolute values, with that of the constant,
    add up to at most B. *)
Definition linear_error (n : nat) (B : R) : R := rounding_bound (n + 1) B (INR n * tiny).
