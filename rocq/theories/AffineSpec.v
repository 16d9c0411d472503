(** Affine systems  M x = b  over the reals, and how well conditioned they are. *)
From Coq Require Import String List Reals.
From Verif Require Import Base MathOp NodeModel ExprSpec RealSpec DiffSpec SymMatSpec.
Local Open Scope R_scope.

(** g 0 + ... + g (n-1). *)
Fixpoint rsum (n : nat) (g : nat -> R) : R := match n with O => 0 | S m => rsum m g + g m end.

(** Row i of M times x. *)
Definition row_times (n : nat) (M : nat -> nat -> R) (x : nat -> R) (i : nat) : R := rsum n (fun j => M i j * x j).

(** [e] is an expression in the variables [xs] whose value is  a 0 * xs[0] + a 1 * xs[1] + ... - c
    everywhere, and which can be differentiated term by term everywhere. *)
Definition affine (xs : list string) (e : expr Rops) (a : nat -> R) (c : R) : Prop :=
  vars_within xs e /\ (forall x env, In x xs -> smooth 1 x env e) /\
  forall env, rval env e = Some (rsum (length xs) (fun j => a j * env (nth j xs EmptyString)) - c).

(** The maximum norm of M^-1 is at most 1/mu: whenever all entries of M y are at most B in
    absolute value, those of y are at most B / mu. *)
Definition conditioned (n : nat) (M : nat -> nat -> R) (mu : R) : Prop :=
  forall y B, (forall i, (i < n)%nat -> Rabs (row_times n M y i) <= B) -> forall j, (j < n)%nat -> mu * Rabs (y j) <= B.
