(** Specification of the size of expressions: the number of their nodes ([esize] of ExprSpec.v)
    and the number of levels. *)
From Coq Require Import String List Arith.
From Verif Require Import MathOp ExprSpec.

Section S.
Context {K : num_ops}.
Fixpoint levels (e : expr K) : nat :=
  match e with
  | ENum _ | EVar _ => 1
  | EUn _ a => S (levels a)
  | EBin _ a c => S (Nat.max (levels a) (levels c))
  end.
(** How often the variable x occurs. *)
Fixpoint count (x : string) (e : expr K) : nat :=
  match e with
  | ENum _ => 0
  | EVar y => if String.eqb y x then 1 else 0
  | EUn _ a => count x a
  | EBin _ a c => count x a + count x c
  end.
End S.
