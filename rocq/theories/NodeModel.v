(** Model of src/tomsolver/node.{h,cpp} (tree level).

    A [node] is the content of a [std::unique_ptr<NodeImpl>]: [Nil] is the null
    pointer, [N ty op v name l r] a NodeImpl with the fields of node.h:83-88.
    Simplification: the [parent] field (node.h:87) is not a component of the tree; where
    the code reads it the model passes down the information it stands for.  The heap model
    (HeapModel.v) has explicit parent pointers and is proved to refine this one. *)
From Coq Require Import String Ascii List ZArith Bool Arith.
From Verif Require Import Base MathOp.
Import ListNotations.
Local Open Scope string_scope.

(** node.h:17 [enum class NodeType]. *)
Inductive node_type := NUMBER | OPERATOR | VARIABLE.

Definition node_type_eqb (a b : node_type) : bool :=
  match a, b with
  | NUMBER, NUMBER | OPERATOR, OPERATOR | VARIABLE, VARIABLE => true
  | _, _ => false
  end.

Lemma node_type_eqb_spec a b : reflect (a = b) (node_type_eqb a b).
Proof. destruct a, b; constructor; congruence. Qed.

(** node.h:35-149 [struct NodeImpl] behind a unique_ptr. *)
Inductive node (K : Type) :=
| Nil
| N (ty : node_type) (op : math_op) (v : K) (name : string) (l r : node K).
Arguments Nil {K}. Arguments N {K}.

Section Node.
Context {K : num_ops}.
Notation node := (node K).

Definition is_null (n : node) : bool := match n with Nil => true | _ => false end.

Fixpoint node_size (n : node) : nat :=
  match n with Nil => 0 | N _ _ _ _ l r => S (node_size l + node_size r) end.

Definition stack_size (s : list node) : nat :=
  fold_right (fun n acc => node_size n + acc) 0 s.

(** node.cpp:652-654 [Num]. *)
Definition mkNum (v : K) : node := N NUMBER MATH_NULL v "" Nil Nil.

(** node.cpp:656-661 [Op]. *)
Definition mkOp (op : math_op) : res node :=
  match op with
  | MATH_NULL => Throw (RuntimeError "Illegal MathOperator: MATH_NULL")
  | _ => Ok (N OPERATOR op (n_ofZ 0) "" Nil Nil)
  end.

(** [\w] of the regex at node.cpp:664: ASCII letters, digits, underscore. *)
Definition is_digit (c : ascii) : bool :=
  let n := nat_of_ascii c in ((48 <=? n) && (n <=? 57))%nat.
Definition is_word (c : ascii) : bool :=
  let n := nat_of_ascii c in
  (((48 <=? n) && (n <=? 57)) || ((65 <=? n) && (n <=? 90)) || ((97 <=? n) && (n <=? 122))
  || (n =? 95))%nat.

(** node.cpp:663-665 [VarNameIsLegal]: the regex (?=\w)\D\w* matched against the whole
    name: the first character is looked ahead with \w, then consumed by \D, and the
    rest is consumed by \w*.  ("C" locale.) *)
Definition VarNameIsLegal (s : string) : bool :=
  match s with
  | EmptyString => false
  | String c rest => is_word c && negb (is_digit c) && forallb is_word (list_ascii_of_string rest)
  end.

(** node.cpp:667-672 [Var]. *)
Definition mkVar (name : string) : res node :=
  if VarNameIsLegal name then Ok (N VARIABLE MATH_NULL (n_ofZ 0) name Nil Nil)
  else Throw (RuntimeError ("Illegal varname: " ++ name)).

(** node.h:172-185 [UnaryOperator], [BinaryOperator] and node.cpp:579-588 [CopyOrMoveTo]:
    dereferencing an empty operand is undefined behaviour.  (Copy and move give the same
    tree; what happens to the operands is modelled in ApiModel.v.) *)
Definition UnaryOperator (op : math_op) (n : node) : res node :=
  match n with
  | Nil => Undef "null node dereferenced"
  | _ => Ok (N OPERATOR op (n_ofZ 0) "" n Nil)
  end.
Definition BinaryOperator (op : math_op) (n1 n2 : node) : res node :=
  match n1, n2 with
  | Nil, _ | _, Nil => Undef "null node dereferenced"
  | _, _ => Ok (N OPERATOR op (n_ofZ 0) "" n1 n2)
  end.

(** node.cpp:92-150 [NodeImpl::Equal]; [other] is dereferenced (line 134) without a null
    check.  The pointer comparison of lines 93-95 is modelled in [EqualPtr] below. *)
Definition IsSame (a b : node) : bool :=
  match a, b with
  | N ty1 op1 v1 x1 _ _, N ty2 op2 v2 x2 _ _ =>
      node_type_eqb ty1 ty2 && math_op_eqb op1 op2 && n_eqb v1 v2 && String.eqb x1 x2
  | _, _ => false
  end.

(** node.cpp:107-128 lambda [CheckChildren]: [None] = returns false, [Some s] = returns
    true leaving the stack [s]. *)
Definition CheckChildren (s : list (node * node)) (a b : node) : option (list (node * node)) :=
  match a, b with
  | Nil, Nil => Some s
  | Nil, _ | _, Nil => None
  | _, _ => Some ((a, b) :: s)
  end.

(** node.cpp:130-132 lambda [CheckNode]. *)
Definition CheckNode (s : list (node * node)) (a b : node) : option (list (node * node)) :=
  match a, b with
  | N _ _ _ _ l1 r1, N _ _ _ _ l2 r2 =>
      if IsSame a b then
        match CheckChildren s l1 l2 with
        | Some s1 => CheckChildren s1 r1 r2
        | None => None
        end
      else None
  | _, _ => None
  end.

(** node.cpp:138-147: the while loop. *)
Fixpoint EqualLoop (fuel : nat) (s : list (node * node)) : res bool :=
  match fuel with
  | O => OutOfFuel
  | S fuel' =>
    match s with
    | [] => Ok true
    | (a, b) :: s' =>
        match CheckNode s' a b with
        | None => Ok false
        | Some s'' => EqualLoop fuel' s''
        end
    end
  end.

(** node.cpp:92-150 [NodeImpl::Equal] for two distinct objects. *)
Definition Equal (a b : node) : res bool :=
  match a, b with
  | Nil, _ => Undef "null node dereferenced"
  | _, Nil => Undef "null node dereferenced"
  | _, _ =>
    match CheckNode [] a b with
    | None => Ok false
    | Some s => EqualLoop (S (node_size a)) s
    end
  end.

(** node.cpp:93-95: [n->Equal(n)] on the same object. *)
Definition EqualSelf (a : node) : res bool :=
  match a with Nil => Undef "null node dereferenced" | _ => Ok true end.

(** node.cpp:223-234 [NodeToStr]. *)
Definition NodeToStr (n : node) : string :=
  match n with
  | Nil => ""
  | N NUMBER _ v _ _ _ => n_tostr v
  | N VARIABLE _ _ x _ _ => x
  | N OPERATOR op _ _ _ _ => MathOperatorToStr op
  end.

(** node.cpp:436-451 (Part I of VpaNonRecursively): reversed post order. *)
Fixpoint VpaOrder (fuel : nat) (stk : list node) (acc : list node) : res (list node) :=
  match fuel with
  | O => OutOfFuel
  | S fuel' =>
    match stk with
    | [] => Ok acc
    | n :: stk1 =>
      match n with
      | Nil => Undef "null node dereferenced"
      | N _ _ _ _ l r =>
        let stk2 := match l with Nil => stk1 | _ => l :: stk1 end in
        let stk3 := match r with Nil => stk2 | _ => r :: stk2 end in
        VpaOrder fuel' stk3 (n :: acc)
      end
    end
  end.

(** node.cpp:458-489 (Part II): one step of the RPN evaluation. *)
Definition VpaStep (cfg : config K) (calcStk : list K) (n : node) : res (list K) :=
  match n with
  | Nil => Undef "null node dereferenced"
  | N NUMBER _ v _ _ _ => Ok (v :: calcStk)
  | N OPERATOR op _ _ _ _ =>
      match GetOperatorNum op with
      | 1 =>
        match calcStk with
        | l :: stk => let* x := Calc cfg op l n_nan in Ok (x :: stk)
        | [] => Undef "top() of an empty stack"
        end
      | 2 =>
        match calcStk with
        | r :: l :: stk => let* x := Calc cfg op l r in Ok (x :: stk)
        | _ => Undef "top() of an empty stack"
        end
      | _ => AssertFail "[VpaNonRecursively] unsupported operator num"
      end
  | N VARIABLE _ _ _ _ _ => Throw (RuntimeError "wrong")
  end.

(** node.cpp:158-160, 428-494 [Vpa] / [VpaNonRecursively]. *)
Definition Vpa (cfg : config K) (n : node) : res K :=
  match n with
  | Nil => Undef "null node dereferenced"
  | _ =>
    let* order := VpaOrder (S (node_size n)) [n] [] in
    let* stk := foldM (VpaStep cfg) order [] in
    match stk with
    | [v] => Ok v
    | _ => AssertFail "calcStk.size() == 1"
    end
  end.

(** node.cpp:162-168 [NodeImpl::Calc]: the new value of [*this] on success; on an
    exception [*this] has not been touched (the exception is thrown by line 163). *)
Definition NodeCalc (cfg : config K) (n : node) : res unit * node :=
  match Vpa cfg n with
  | Ok d => (Ok tt, N NUMBER MATH_NULL d "" Nil Nil)
  | Throw e => (Throw e, n)
  | Undef w => (Undef w, n)
  | Terminate => (Terminate, n)
  | AssertFail w => (AssertFail w, n)
  | OutOfFuel => (OutOfFuel, n)
  end.

(** [std::set<std::string>] as the increasing list of its elements; insertion.
    [String.ltb] is the byte-wise lexicographic order of [std::less<std::string>]. *)
Fixpoint set_insert (x : string) (s : list string) : list string :=
  match s with
  | [] => [x]
  | y :: s' =>
      match String.compare x y with
      | Lt => x :: s
      | Eq => s
      | Gt => y :: set_insert x s'
      end
  end.

(** node.cpp:633-637: loop of GetAllVarNames; lambda [EmplaceChild] at 623-629. *)
Definition EmplaceChild (n : node) (st : list node * list string) : list node * list string :=
  match n with
  | Nil => st
  | N ty _ _ x l r =>
    let '(stk, ret) := st in
    let ret1 := match ty with VARIABLE => set_insert x ret | _ => ret end in
    let stk1 := match l with Nil => stk | _ => l :: stk end in
    let stk2 := match r with Nil => stk1 | _ => r :: stk1 end in
    (stk2, ret1)
  end.
Fixpoint GetAllVarNamesLoop (fuel : nat) (st : list node * list string) : res (list string) :=
  match fuel with
  | O => OutOfFuel
  | S fuel' =>
    match fst st with
    | [] => Ok (snd st)
    | n :: stk => GetAllVarNamesLoop fuel' (EmplaceChild n (stk, snd st))
    end
  end.

(** node.cpp:612-640 [GetAllVarNames]. *)
Definition GetAllVarNames (n : node) : res (list string) :=
  match n with
  | Nil => Undef "null node dereferenced"
  | _ => GetAllVarNamesLoop (S (node_size n)) (EmplaceChild n ([], []))
  end.

End Node.
