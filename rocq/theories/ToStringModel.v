(** Model of the printing functions of src/tomsolver/node.cpp. *)
From Coq Require Import String Ascii List ZArith Bool Arith.
From Verif Require Import Base MathOp NodeModel.
Import ListNotations.
Local Open Scope string_scope.

Section ToString.
Context {K : num_ops}.
Notation node := (node K).

(** What the printer learns from [cur->parent]: [None] = no parent, [Some (op, isRight)] =
    the operator of the parent and whether [cur] is the parent's right child. *)
Definition pctx := option (math_op * bool).

(** node.cpp:348-364 (and 267-283): the condition for surrounding a binary operator node
    by parentheses. *)
Definition needsParens (ctx : pctx) (op : math_op) : bool :=
  match ctx with
  | None => false
  | Some (pop, isRight) =>
      Nat.eqb (GetOperatorNum pop) 2 &&
      ((Rank op <? Rank pop)%nat ||
       (Nat.eqb (Rank pop) (Rank op) &&
        ((negb (InAssociativeLaws pop) && isRight) ||
         (negb (InAssociativeLaws pop) && negb (IsLeft2Right op)))))
  end.

(** The local object [rightParenthesis] of node.cpp:315. *)
Definition rightParenthesis : node := N OPERATOR MATH_RIGHT_PARENTHESIS (n_ofZ 0) "" Nil Nil.

Definition pstate := (list (node * pctx) * string)%type.

Definition is_sign_op (op : math_op) : bool :=
  match op with MATH_POSITIVE | MATH_NEGATIVE => true | _ => false end.

(** node.cpp:317-379 lambda [AddLeftLine]. *)
Fixpoint AddLeftLine (cur : node) (ctx : pctx) (st : pstate) : res pstate :=
  let '(stk, out) := st in
  match cur with
  | Nil => Ok st
  | N OPERATOR op v x l r =>
      match GetOperatorNum op with
      | 1 =>
          match l with
          | Nil =>
              if is_sign_op op then Undef "null node dereferenced"
              else Ok ((rightParenthesis, None) :: stk, out ++ MathOperatorToStr op ++ "(")
          | N lty _ _ _ _ _ =>
              if is_sign_op op && negb (node_type_eqb lty OPERATOR)
              then AddLeftLine l (Some (op, false)) (stk, out ++ MathOperatorToStr op)
              else AddLeftLine l (Some (op, false))
                     ((rightParenthesis, None) :: stk, out ++ MathOperatorToStr op ++ "(")
          end
      | 2 =>
          match ctx with
          | Some (pop, _) =>
              if Nat.eqb (GetOperatorNum pop) 0 then AssertFail "GetOperatorNum"
              else if needsParens ctx op
              then AddLeftLine l (Some (op, false)) ((cur, ctx) :: (rightParenthesis, None) :: stk, out ++ "(")
              else AddLeftLine l (Some (op, false)) ((cur, ctx) :: stk, out)
          | None => AddLeftLine l (Some (op, false)) ((cur, ctx) :: stk, out)
          end
      | _ => AssertFail "GetOperatorNum"
      end
  | N _ op _ _ l _ => AddLeftLine l (Some (op, false)) ((cur, ctx) :: stk, out)
  end.

(** node.cpp:391-396: the text output for a popped node. *)
Definition emit (cur : node) (ctx : pctx) : string :=
  match cur, ctx with
  | N NUMBER _ v _ _ _, Some (MATH_SUB, true) =>
      if n_ltb v (n_ofZ 0) then "(" ++ NodeToStr cur ++ ")" else NodeToStr cur
  | _, _ => NodeToStr cur
  end.

(** node.cpp:383-402: main loop. *)
Fixpoint ToStringLoop (fuel : nat) (st : pstate) : res string :=
  match fuel with
  | O => OutOfFuel
  | S fuel' =>
    let '(stk, out) := st in
    match stk with
    | [] => Ok out
    | (cur, ctx) :: stk' =>
        let out1 := out ++ emit cur ctx in
        match cur with
        | N _ op _ _ _ (N _ _ _ _ _ _ as r) =>
            let* st1 := AddLeftLine r (Some (op, true)) (stk', out1) in
            ToStringLoop fuel' st1
        | _ => ToStringLoop fuel' (stk', out1)
        end
    end
  end.

(** node.cpp:152-156, 312-403 [ToString] / [ToStringNonRecursively] of a root node
    (parent == nullptr). *)
Definition ToString (n : node) : res string :=
  match n with
  | Nil => Undef "null node dereferenced"
  | _ => let* st := AddLeftLine n None ([], "") in ToStringLoop (S (2 * node_size n)) st
  end.

(** node.cpp:237-309 [ToStringRecursively] (private, unused by ToString; note that it
    prints unary +/- with the parentheses outside).  GetOperatorNum(parent->op) on a
    non-operator parent would assert; [needsParens] is false then. *)
Fixpoint ToStringRecursively (n : node) (ctx : pctx) : string :=
  match n with
  | Nil => ""
  | N NUMBER op _ _ _ _ | N VARIABLE op _ _ _ _ => emit n ctx
  | N OPERATOR op _ _ l r =>
      if Nat.eqb (GetOperatorNum op) 1 then
        (if is_sign_op op then "(" ++ NodeToStr n else NodeToStr n ++ "(")
        ++ ToStringRecursively l (Some (op, false))
        ++ ToStringRecursively r (Some (op, true)) ++ ")"
      else
        (if needsParens ctx op then "(" else "")
        ++ ToStringRecursively l (Some (op, false)) ++ NodeToStr n
        ++ ToStringRecursively r (Some (op, true))
        ++ (if needsParens ctx op then ")" else "")
  end.

End ToString.
