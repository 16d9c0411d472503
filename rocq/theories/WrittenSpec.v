(** When two ways of writing a system of equations mean the same functions. *)
From Coq Require Import String List Reals.
From Verif Require Import Base MathOp NodeModel ExprSpec SubsSpec SymMatSpec RealSpec DiffSpec.

(** Wherever all equations of the first system have a value, the second system has the same
    values, and both can be differentiated there with respect to every unknown.  (The literals
    of the first are finite, and neither contains other variables.) *)
Definition same_equations (xs : list string) (n : nat) (f g : nat -> expr Rops) : Prop :=
  (forall i, (i < n)%nat -> all_nums finite (f i) /\ vars_within xs (f i) /\ vars_within xs (g i)) /\
  forall env : string -> R, (forall i, (i < n)%nat -> rval env (f i) <> None) ->
    forall i, (i < n)%nat -> rval env (g i) = rval env (f i) /\
      forall x, In x xs -> smooth 1 x env (f i) /\ smooth 1 x env (g i).
