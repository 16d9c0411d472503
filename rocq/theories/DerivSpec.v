(** The rules of differentiation as expressions, for statements about the accuracy of Diff in
    doubles.  Thm_Deriv.v proves that the value of [deriv x e] in real arithmetic is the partial
    derivative of e. *)
From Coq Require Import String ZArith.
From Verif Require Import Base MathOp NodeModel ExprSpec.
Local Open Scope string_scope.

Section Deriv.
Context {K : num_ops}.
Notation expr := (expr K).
Definition number (z : Z) : expr := ENum (n_ofZ z).
Definition literal (e : expr) : bool := match e with ENum _ => true | _ => false end.
Notation "a + b" := (EBin BAdd a b). Notation "a - b" := (EBin BSub a b).
Notation "a * b" := (EBin BMul a b). Notation "a / b" := (EBin BDiv a b).
Notation "a ^ b" := (EBin BPow a b).

(** The derivative of u(a), where a' is that of a. *)
Definition chain_rule (u : unop) (a a' : expr) : expr :=
  match u with
  | UPos => EUn UPos a'
  | UNeg => EUn UNeg a'
  | USin => EUn UCos a * a'
  | UCos => EUn UNeg (EUn USin a) * a'
  | UTan => number 1 / EUn UCos a ^ number 2 * a'
  | UAsin => number 1 / EUn USqrt (number 1 - a ^ number 2) * a'
  | UAcos => number (-1) / EUn USqrt (number 1 - a ^ number 2) * a'
  | UAtan => number 1 / (number 1 + a ^ number 2) * a'
  | USqrt => number 1 / (number 2 * EUn USqrt a) * a'
  | ULog => number 1 / a * a'
  | ULog2 => number 1 / (a * EUn ULog (number 2)) * a'
  | ULog10 => number 1 / (a * EUn ULog (number 10)) * a'
  | UExp => EUn UExp a * a'
  end.

Fixpoint deriv (x : string) (e : expr) : expr :=
  match e with
  | ENum _ => number 0
  | EVar y => if String.eqb y x then number 1 else number 0
  | EUn u a =>
      match u with
      | UPos | UNeg => chain_rule u a (deriv x a)
      | _ => if literal a then number 0 else chain_rule u a (deriv x a)
      end
  | EBin BAdd a c => if (literal a && literal c)%bool then number 0 else deriv x a + deriv x c
  | EBin BSub a c => if (literal a && literal c)%bool then number 0 else deriv x a - deriv x c
  | EBin BMul a c =>
      if literal a then a * deriv x c else if literal c then deriv x a * c
      else deriv x a * c + a * deriv x c
  | EBin BDiv a c =>
      if literal c then deriv x a / c else (deriv x a * c - a * deriv x c) / c ^ number 2
  | EBin BPow a c =>
      match literal a, literal c with
      | true, true => number 0
      | false, true => c * a ^ (c - number 1) * deriv x a
      | true, false => a ^ c * EUn ULog a * deriv x c
      | false, false => a ^ c * (deriv x c * EUn ULog a + c * (number 1 / a * deriv x a))
      end
  | EBin _ _ _ => e
  end.

(** exp is not applied to a bare variable other than x (for which Diff is wrong, see C22). *)
Fixpoint exp_only_of (x : string) (e : expr) : Prop :=
  match e with
  | ENum _ | EVar _ => True
  | EUn u a => exp_only_of x a /\ match u, a with UExp, EVar y => y = x | _, _ => True end
  | EBin _ a c => exp_only_of x a /\ exp_only_of x c
  end.
End Deriv.
