(** Model of src/tomsolver/simplify.cpp (tree level). *)
From Coq Require Import String List ZArith Bool Arith.
From Verif Require Import Base MathOp NodeModel.
Import ListNotations.
Local Open Scope string_scope.

Section Simplify.
Context {K : num_ops}.
Notation node := (node K).

(** [n->type == NodeType::NUMBER && n->value == c] (simplify.cpp:50-53). *)
Definition isNumEq (n : node) (z : Z) : bool :=
  match n with N NUMBER _ v _ _ _ => n_eqb v (n_ofZ z) | _ => false end.

(** simplify.cpp:24-81 [SimplifySingleNode]; the function is noexcept, hence [noexcept]
    around [Calc].  The fields of a node folded to a number are [type], [value], [op] and
    the children; [varname] is kept (line 30-33, 41-45). *)
Definition SimplifySingleNode (cfg : config K) (n : node) : res node :=
  match n with
  | Nil => Undef "null node dereferenced"
  | N ty op v x l r =>
      match GetOperatorNum op with
      | 1 =>
          match l with
          | Nil => Undef "null node dereferenced"
          | N NUMBER _ lv _ _ _ =>
              let* d := noexcept (Calc cfg op lv (n_ofZ 0)) in
              Ok (N NUMBER MATH_NULL d x Nil r)
          | _ => Ok n
          end
      | 2 =>
          match l, r with
          | Nil, _ => Undef "null node dereferenced"
          | N NUMBER _ lv _ _ _, Nil => Undef "null node dereferenced"
          | N NUMBER _ lv _ _ _, N NUMBER _ rv _ _ _ =>
              let* d := noexcept (Calc cfg op lv rv) in
              Ok (N NUMBER MATH_NULL d x Nil Nil)
          | _, Nil => AssertFail "n->left && n->right"
          | _, _ =>
              let l0 := isNumEq l 0 in let r0 := isNumEq r 0 in
              let l1 := isNumEq l 1 in let r1 := isNumEq r 1 in
              if match op with
                 | MATH_MULTIPLY => l0 || r0
                 | MATH_DIVIDE => l0
                 | MATH_POWER => l0
                 | _ => false end
              then Ok (mkNum (n_ofZ 0))
              else if match op with
                      | MATH_ADD => l0 || r0
                      | MATH_SUB => r0
                      | MATH_MULTIPLY => l1 || r1
                      | MATH_DIVIDE => r1
                      | MATH_POWER => r1
                      | _ => false end
              then (if l1 || l0 then Ok r else if r1 || r0 then Ok l else Ok n)
              else Ok n
          end
      | _ => AssertFail "GetOperatorNum"
      end
  end.

(** simplify.cpp:84-128 [SimplifyWholeNode]: every operator node is simplified after the
    operator nodes below it (reversed pre-order, right subtree first in the stack order,
    so left subtrees before right ones).  The explicit stack and the references into the
    tree are modelled in HeapModel.v; here the traversal is a structural recursion. *)
Fixpoint SimplifyWholeNode (cfg : config K) (n : node) : res node :=
  match n with
  | Nil => Undef "null node dereferenced"
  | N OPERATOR op v x l r =>
      let* l' := match l with N OPERATOR _ _ _ _ _ => SimplifyWholeNode cfg l | _ => Ok l end in
      let* r' := match r with N OPERATOR _ _ _ _ _ => SimplifyWholeNode cfg r | _ => Ok r end in
      SimplifySingleNode cfg (N OPERATOR op v x l' r')
  | _ => Ok n
  end.

(** simplify.cpp:174-177 [Simplify] (noexcept). *)
Definition Simplify (cfg : config K) (n : node) : res node := noexcept (SimplifyWholeNode cfg n).

End Simplify.
