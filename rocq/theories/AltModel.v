(** Model of the second implementations in node.cpp that the library itself does not call:
    VpaRecursively, CloneRecursively, Operator.  (ToStringRecursively is in ToStringModel.v.) *)
From Coq Require Import String List ZArith Bool Arith.
From Verif Require Import Base MathOp NodeModel HeapModel.
Import ListNotations.
Local Open Scope string_scope. Local Open Scope list_scope.

Section Tree.
Context {K : num_ops}.
Notation node := (node K).

(** node.cpp:408-410: the lambda [vpa]. *)
Definition vpa_child (cfg : config K) (n : node) : res K :=
  match n with Nil => Ok (n_ofZ 0) | _ => Vpa cfg n end.

(** node.cpp:406-425 [VpaRecursively].  The order in which C++ evaluates the two arguments of Calc
    at line 421 is not specified: [right_first] says which one the compiler has chosen. *)
Definition VpaRecursively (right_first : bool) (cfg : config K) (n : node) : res K :=
  match n with
  | Nil => Undef "null node dereferenced"
  | N NUMBER _ v _ _ _ => Ok v
  | N VARIABLE _ _ _ _ _ => Throw (RuntimeError "has variable. can not calculate to be a number")
  | N OPERATOR op _ _ l r =>
      if (Nat.eqb (GetOperatorNum op) 1 && negb (is_null l) && is_null r) ||
         (Nat.eqb (GetOperatorNum op) 2 && negb (is_null l) && negb (is_null r)) then
        if right_first
        then let* b := vpa_child cfg r in let* a := vpa_child cfg l in Calc cfg op a b
        else let* a := vpa_child cfg l in let* b := vpa_child cfg r in Calc cfg op a b
      else AssertFail "(GetOperatorNum(op) == 1 && left && right == nullptr) || (GetOperatorNum(op) == 2 && left && right)"
  end.
End Tree.

Section Memory.
Context {K : num_ops} (pick : heap K -> addr).

(** node.cpp:529-534: the lambda [Copy]; the target is the member [f] of [ret]. *)
Definition CloneChild (this src : addr) (f : side) : M (K:=K) unit :=
  do c <- load src;
  match child c f with
  | Some _ =>
      do q <- Clone pick (child c f);
      reset (SFld this f) (Some q);;
      do t <- load this; do q' <- deref (child t f); set_parent q' (Some this)
  | None => HeapModel.ret tt
  end.
(** node.cpp:527-540 [CloneRecursively]. *)
Definition HCloneRecursively (p : option addr) : M (K:=K) addr :=
  do src <- deref p;
  do c <- load src;
  do r <- make_node pick (c_type c) (c_op c) (c_value c) (c_name c);
  CloneChild r src L;;
  CloneChild r src R;;
  HeapModel.ret r.

(** node.cpp:598-603: the lambda [SetChild]; [src] is taken by value, so it is empty or owns a tree. *)
Definition SetChild (this : addr) (f : side) (src : option addr) : M (K:=K) unit :=
  match src with
  | Some a => set_parent a (Some this);; reset (SFld this f) (Some a)
  | None => HeapModel.ret tt
  end.
(** node.cpp:595-609 [Operator]; both operands are taken by value (moved in by the caller). *)
Definition HOperator (op : math_op) (left right : option addr) : M (K:=K) addr :=
  do r <- make_node pick OPERATOR op (n_ofZ 0) "";
  SetChild r L left;;
  SetChild r R right;;
  HeapModel.ret r.
End Memory.
