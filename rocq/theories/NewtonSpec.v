(** Systems of equations with partial derivatives on a set of points (exact reals). *)
From Coq Require Import String List Reals.
From Verif Require Import Base MathOp NodeModel ExprSpec RealSpec DiffSpec SymMatSpec.
Local Open Scope R_scope.

(** [env] gives the j-th unknown the value p j. *)
Definition at_reals (xs : list string) (env : string -> R) (p : nat -> R) : Prop :=
  forall j, (j < length xs)%nat -> env (nth j xs EmptyString) = p j.

(** The points whose coordinates are all within r of those of c. *)
Definition box (n : nat) (c : nat -> R) (r : R) (p : nat -> R) : Prop := forall j, (j < n)%nat -> Rabs (p j - c j) <= r.

(** At every point p of P, equation i has the value F i p and the partial derivatives D i j p, and can
    be differentiated term by term. *)
Definition system (xs : list string) (n : nat) (f : nat -> expr Rops) (F : nat -> (nat -> R) -> R) (D : nat -> nat -> (nat -> R) -> R)
    (P : (nat -> R) -> Prop) : Prop :=
  forall i, (i < n)%nat -> vars_within xs (f i) /\
    forall p env, P p -> at_reals xs env p -> rval env (f i) = Some (F i p) /\
      forall j, (j < length xs)%nat -> smooth 1 (nth j xs EmptyString) env (f i) /\ partial env (nth j xs EmptyString) (f i) (D i j p).
