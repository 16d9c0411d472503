(** Model of src/tomsolver/diff.cpp (tree level). *)
From Coq Require Import String List ZArith Bool Arith.
From Verif Require Import Base MathOp NodeModel SimplifyModel.
Import ListNotations.
Local Open Scope string_scope.

Section Diff.
Context {K : num_ops}.
Notation node := (node K).

Definition op1 (op : math_op) (a : node) : node := N OPERATOR op (n_ofZ 0) "" a Nil.
Definition op2 (op : math_op) (a b : node) : node := N OPERATOR op (n_ofZ 0) "" a b.

Definition isNumber (n : node) : bool := match n with N NUMBER _ _ _ _ _ => true | _ => false end.
Definition isVariable (n : node) : bool := match n with N VARIABLE _ _ _ _ _ => true | _ => false end.

(** diff.cpp:22-56 [DiffOnce] together with 58-386 [DiffOnceOperator].

    The code rewrites each operator node in place and queues the sub-trees that still have
    to be differentiated; queued sub-trees are disjoint, so the result is that of the
    recursion below, [DiffOnce x n] being "the tree that replaces n once everything queued
    from it has been processed".  (The explicit queue and the order in which &,|,% are met
    are modelled in HeapModel.v.)  The [fuel] is needed because (u^v)' differentiates the
    new tree v*log(u) (lines 359-361).

    A node turned into a number keeps its [varname] (67-72, 83-89). *)
Fixpoint DiffOnce (fuel : nat) (x : string) (n : node) : res node :=
  match fuel with
  | O => OutOfFuel
  | S fuel' =>
  let D := DiffOnce fuel' x in
  match n with
  | Nil => Undef "null node dereferenced"
  (* diff.cpp:37-41 *)
  | N VARIABLE op v y l r => Ok (N NUMBER op (if String.eqb y x then n_ofZ 1 else n_ofZ 0) "" l r)
  (* diff.cpp:43-45 *)
  | N NUMBER op v y l r => Ok (N NUMBER op (n_ofZ 0) y l r)
  | N OPERATOR op v y l r =>
      (* diff.cpp:64-75 *)
      let culled := N NUMBER MATH_NULL (n_ofZ 0) y Nil r in
      let culled2 := N NUMBER MATH_NULL (n_ofZ 0) y Nil Nil in
      match op with
      | MATH_POSITIVE | MATH_NEGATIVE => (* 99-103 *)
          let* l' := D l in Ok (N OPERATOR op v y l' r)
      | MATH_SIN => (* 106-118 *)
          if is_null l then AssertFail "node->left" else
          if isNumber l then Ok culled else
          let* u2 := D l in Ok (op2 MATH_MULTIPLY (N OPERATOR MATH_COS v y l r) u2)
      | MATH_COS => (* 119-131 *)
          if is_null l then AssertFail "node->left" else
          if isNumber l then Ok culled else
          let* u2 := D l in
          Ok (op2 MATH_MULTIPLY (op1 MATH_NEGATIVE (N OPERATOR MATH_SIN v y l r)) u2)
      | MATH_TAN => (* 132-145 *)
          if is_null l then AssertFail "node->left" else
          if isNumber l then Ok culled else
          let* u2 := D l in
          Ok (op2 MATH_MULTIPLY
                (op2 MATH_DIVIDE (mkNum (n_ofZ 1))
                   (op2 MATH_POWER (N OPERATOR MATH_COS v y l r) (mkNum (n_ofZ 2)))) u2)
      | MATH_ARCSIN => (* 146-158 *)
          if is_null l then AssertFail "node->left" else
          if isNumber l then Ok culled else
          let* u2 := D l in
          Ok (op2 MATH_MULTIPLY
                (op2 MATH_DIVIDE (mkNum (n_ofZ 1))
                   (op1 MATH_SQRT (op2 MATH_SUB (mkNum (n_ofZ 1))
                                     (op2 MATH_POWER l (mkNum (n_ofZ 2)))))) u2)
      | MATH_ARCCOS => (* 159-171 *)
          if is_null l then AssertFail "node->left" else
          if isNumber l then Ok culled else
          let* u2 := D l in
          Ok (op2 MATH_MULTIPLY
                (op2 MATH_DIVIDE (mkNum (n_ofZ (-1)))
                   (op1 MATH_SQRT (op2 MATH_SUB (mkNum (n_ofZ 1))
                                     (op2 MATH_POWER l (mkNum (n_ofZ 2)))))) u2)
      | MATH_ARCTAN => (* 172-184 *)
          if is_null l then AssertFail "node->left" else
          if isNumber l then Ok culled else
          let* u2 := D l in
          Ok (op2 MATH_MULTIPLY
                (op2 MATH_DIVIDE (mkNum (n_ofZ 1))
                   (op2 MATH_ADD (mkNum (n_ofZ 1)) (op2 MATH_POWER l (mkNum (n_ofZ 2))))) u2)
      | MATH_SQRT => (* 185-197 *)
          if is_null l then AssertFail "node->left" else
          if isNumber l then Ok culled else
          let* u2 := D l in
          Ok (op2 MATH_MULTIPLY
                (op2 MATH_DIVIDE (mkNum (n_ofZ 1)) (op2 MATH_MULTIPLY (mkNum (n_ofZ 2)) n)) u2)
      | MATH_LOG => (* 198-210 *)
          if is_null l then AssertFail "node->left" else
          if isNumber l then Ok culled else
          let* u2 := D l in
          Ok (op2 MATH_MULTIPLY (op2 MATH_DIVIDE (mkNum (n_ofZ 1)) l) u2)
      | MATH_LOG2 => (* 211-224 *)
          if is_null l then AssertFail "node->left" else
          if isNumber l then Ok culled else
          let* u2 := D l in
          Ok (op2 MATH_MULTIPLY
                (op2 MATH_DIVIDE (mkNum (n_ofZ 1))
                   (op2 MATH_MULTIPLY l (mkNum (n_log (n_ofZ 2))))) u2)
      | MATH_LOG10 => (* 225-238 *)
          if is_null l then AssertFail "node->left" else
          if isNumber l then Ok culled else
          let* u2 := D l in
          Ok (op2 MATH_MULTIPLY
                (op2 MATH_DIVIDE (mkNum (n_ofZ 1))
                   (op2 MATH_MULTIPLY l (mkNum (n_log (n_ofZ 10))))) u2)
      | MATH_EXP => (* 239-254 *)
          if is_null l then AssertFail "node->left" else
          if isNumber l then Ok culled else
          if isVariable l then Ok n else
          let* u2 := D l in Ok (op2 MATH_MULTIPLY n u2)
      | MATH_ADD | MATH_SUB => (* 257-269 *)
          if is_null l || is_null r then AssertFail "node->left && node->right" else
          if isNumber l && isNumber r then Ok culled2 else
          let* l' := D l in let* r' := D r in Ok (N OPERATOR op v y l' r')
      | MATH_MULTIPLY => (* 270-295 *)
          if is_null l || is_null r then Undef "null node dereferenced" else
          if isNumber l then (let* r' := D r in Ok (N OPERATOR op v y l r')) else
          if isNumber r then (let* l' := D l in Ok (N OPERATOR op v y l' r)) else
          let* u' := D l in let* v' := D r in
          Ok (op2 MATH_ADD (N OPERATOR op v y u' r) (op2 MATH_MULTIPLY l v'))
      | MATH_DIVIDE => (* 296-321 *)
          if is_null l || is_null r then Undef "null node dereferenced" else
          if isNumber r then (let* l' := D l in Ok (N OPERATOR op v y l' r)) else
          let* u' := D l in let* v' := D r in
          Ok (op2 MATH_DIVIDE
                (op2 MATH_SUB (op2 MATH_MULTIPLY u' r) (op2 MATH_MULTIPLY l v'))
                (op2 MATH_POWER r (mkNum (n_ofZ 2))))
      | MATH_POWER => (* 322-364 *)
          if is_null l || is_null r then AssertFail "node->left && node->right" else
          if isNumber l && isNumber r then Ok culled2 else
          match l, r with
          | _, N NUMBER _ a _ _ _ => (* 332-341 *)
              let* u2 := D l in
              Ok (op2 MATH_MULTIPLY
                    (op2 MATH_MULTIPLY r (op2 MATH_POWER l (mkNum (n_sub a (n_ofZ 1))))) u2)
          | N NUMBER _ a _ _ _, _ => (* 344-353 *)
              let* u2 := D r in
              Ok (op2 MATH_MULTIPLY
                    (op2 MATH_MULTIPLY (op2 MATH_POWER l r) (op1 MATH_LOG (mkNum a))) u2)
          | _, _ => (* 357-363 *)
              let* w := D (op2 MATH_MULTIPLY r (op1 MATH_LOG l)) in
              Ok (op2 MATH_MULTIPLY n w)
          end
      | MATH_AND => Throw (RuntimeError "can not apply diff for AND(&) operator")
      | MATH_OR => Throw (RuntimeError "can not apply diff for OR(|) operator")
      | MATH_MOD => Throw (RuntimeError "can not apply diff for MOD(%) operator")
      | MATH_NULL | MATH_LEFT_PARENTHESIS | MATH_RIGHT_PARENTHESIS => AssertFail "inner bug"
      end
  end
  end.

(** Fuel that is always enough: u^v differentiates v*log(u), which is one level deeper. *)
Fixpoint diff_fuel (n : node) : nat :=
  match n with
  | Nil => 1
  | N _ _ _ _ l r => 3 + diff_fuel l + diff_fuel r
  end.

Definition DiffOnceRoot (x : string) (n : node) : res node := DiffOnce (diff_fuel n) x n.

(** diff.cpp:399-401: the loop applying DiffOnce i times. *)
Fixpoint DiffTimes (i : nat) (x : string) (n : node) : res node :=
  match i with
  | O => Ok n
  | S i' => let* n' := DiffOnceRoot x n in DiffTimes i' x n'
  end.

(** diff.cpp:391-411 [Diff].  Line 397: assert(i > 0).  The const overload clones first
    (391-394) and so leaves its argument alone.  The debug-only calls of ToString and
    CheckParent (402-409) are not modelled. *)
Definition Diff (cfg : config K) (n : node) (x : string) (i : Z) : res node :=
  if (i <=? 0)%Z then AssertFail "i > 0"
  else
    match n with
    | Nil => Undef "null node dereferenced"
    | _ => let* n' := DiffTimes (Z.to_nat i) x n in Simplify cfg n'
    end.

End Diff.
