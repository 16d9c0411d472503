(** Specification for substitution after substitution, and for the chain rule. *)
From Coq Require Import String List ZArith Reals.
From Coquelicot Require Import Coquelicot.
From Verif Require Import Base MathOp NodeModel ExprSpec RealSpec SubsSpec DiffSpec.
Import ListNotations.
Local Open Scope R_scope.

(** First s, then s' (also inside the replacements made by s). *)
Definition and_then {K : num_ops} (s s' : substitution (K:=K)) : substitution (K:=K) := fun x =>
  match s x with Some t => Some (subst s' t) | None => s' x end.

(** Replace x by t, nothing else. *)
Definition one {K : num_ops} (x : string) (t : expr K) : substitution (K:=K) := fun y =>
  if String.eqb y x then Some t else None.

(** [e] is an analytic function of all its variables near [env] ([regular] of DiffSpec.v without
    its condition on the variable of differentiation): every literal is finite, every constant
    operation has a value, every function is applied in the interior of its domain, no
    denominator is 0; a power has a positive base or an integer literal as exponent, >= 0 if the
    base is 0; there is no &, |, %. *)
Fixpoint analytic (env : string -> R) (e : expr Rops) : Prop :=
  match e with
  | ENum v => v <> None
  | EVar _ => True
  | EUn u a =>
      match a with
      | ENum _ => rval env e <> None
      | _ => analytic env a /\ exists y, rval env a = Some y /\ un_interior u y
      end
  | EBin b a c =>
      match b with
      | BAnd | BOr | BMod => False
      | BAdd | BSub | BMul => analytic env a /\ analytic env c
      | BDiv => analytic env a /\ analytic env c /\ rval env c <> Some 0
      | BPow =>
          match a, c with
          | ENum _, ENum _ => rval env e <> None
          | _, ENum w => analytic env a /\
              exists y z, rval env a = Some y /\ w = Some z /\ pow_interior y z
          | _, _ => analytic env a /\ analytic env c /\ exists y, rval env a = Some y /\ 0 < y
          end
      end
  end.

(** The sum of f x over the names x in a list. *)
Fixpoint sum_over (xs : list string) (f : string -> R) : R :=
  match xs with [] => 0 | x :: xs' => f x + sum_over xs' f end.
