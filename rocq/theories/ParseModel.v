(** Model of src/tomsolver/parse.{h,cpp}. *)
From Coq Require Import String Ascii List ZArith Bool Arith.
From Verif Require Import Base MathOp NodeModel.
Import ListNotations.
Local Open Scope string_scope. Local Open Scope list_scope.

(** parse.cpp:20-31 [fnv1a]: 64-bit FNV-1a.  [hash ^ c] promotes the (signed) [char c] to
    int and converts it to uint64_t, i.e. sign-extends bytes >= 128. *)
Definition two64 : Z := 18446744073709551616.
Definition char_u64 (c : ascii) : Z :=
  let n := Z.of_nat (nat_of_ascii c) in if (n <? 128)%Z then n else (n - 256 + two64)%Z.
Definition fnv_step (hash : Z) (c : ascii) : Z :=
  ((Z.lxor hash (char_u64 c) * 1099511628211) mod two64)%Z.
Definition fnv1a (s : string) : Z :=
  fold_left fnv_step (list_ascii_of_string s) 14695981039346656037%Z.

(** parse.cpp:38-53 [IsBasicOperator]. *)
Definition IsBasicOperator (c : ascii) : bool :=
  match c with
  | "("%char | ")"%char | "+"%char | "-"%char | "*"%char | "/"%char
  | "^"%char | "&"%char | "|"%char | "%"%char => true
  | _ => false
  end.

(** parse.cpp:56-83 [BaseOperatorCharToEnum]; the default case asserts. *)
Definition BaseOperatorCharToEnum (c : ascii) (unary : bool) : math_op :=
  match c with
  | "("%char => MATH_LEFT_PARENTHESIS
  | ")"%char => MATH_RIGHT_PARENTHESIS
  | "+"%char => if unary then MATH_POSITIVE else MATH_ADD
  | "-"%char => if unary then MATH_NEGATIVE else MATH_SUB
  | "*"%char => MATH_MULTIPLY
  | "/"%char => MATH_DIVIDE
  | "^"%char => MATH_POWER
  | "&"%char => MATH_AND
  | "|"%char => MATH_OR
  | "%"%char => MATH_MOD
  | _ => MATH_NULL
  end.

(** parse.cpp:85-111 [Str2Function]: a switch on the hash; the case labels are
    compile-time hashes (parse.cpp:33-35). *)
Definition Str2Function (s : string) : math_op :=
  let h := fnv1a s in
  if (h =? fnv1a "sin")%Z then MATH_SIN
  else if (h =? fnv1a "cos")%Z then MATH_COS
  else if (h =? fnv1a "tan")%Z then MATH_TAN
  else if (h =? fnv1a "arcsin")%Z then MATH_ARCSIN
  else if (h =? fnv1a "arccos")%Z then MATH_ARCCOS
  else if (h =? fnv1a "arctan")%Z then MATH_ARCTAN
  else if (h =? fnv1a "sqrt")%Z then MATH_SQRT
  else if (h =? fnv1a "log")%Z then MATH_LOG
  else if (h =? fnv1a "log2")%Z then MATH_LOG2
  else if (h =? fnv1a "log10")%Z then MATH_LOG10
  else if (h =? fnv1a "exp")%Z then MATH_EXP
  else MATH_NULL.

(** [isspace] in the "C" locale (parse.cpp:194). Bytes >= 128 are not spaces. *)
Definition is_space (c : ascii) : bool :=
  let n := nat_of_ascii c in ((n =? 32) || ((9 <=? n) && (n <=? 13)))%nat.

Section Parse.
Context {K : num_ops}.
Notation node := (node K).

(** parse.h:112-121 [struct Token].  [line] is always 0 and [content] always the whole
    input, so both are left out; [isBaseOperator] is never read. *)
Record token := { t_node : node; t_s : string; t_pos : nat }.

Definition t_type (t : token) : node_type := match t_node t with N ty _ _ _ _ _ => ty | Nil => NUMBER end.
Definition t_op (t : token) : math_op := match t_node t with N _ op _ _ _ _ => op | Nil => MATH_NULL end.

(** parse.cpp:157-181: body of lambda [tryComfirmToken] for the word [w] starting at [pos]. *)
Definition confirm_word (w : string) (pos : nat) : res token :=
  let fallback :=
    match Str2Function w with
    | MATH_NULL =>
        if VarNameIsLegal w then
          let* n := mkVar w in Ok {| t_node := n; t_s := w; t_pos := pos |}
        else Throw (SingleParseError 0 pos w ("Invalid variable name: " ++ quote ++ w ++ quote)%string)
    | op => let* n := mkOp op in Ok {| t_node := n; t_s := w; t_pos := pos |}
    end in
  match n_stod w with
  | Some (d, sz) =>
      if Nat.eqb sz (String.length w) then Ok {| t_node := mkNum d; t_s := w; t_pos := pos |}
      else fallback
  | None => fallback
  end.

(** parse.cpp:151-183 lambda [tryComfirmToken]: [word] is the text between [nameIter] and
    [iter], [pos] the index of [iter]. [ret] is the deque of tokens, last token first. *)
Definition tryComfirmToken (word : string) (pos : nat) (ret : list token) : res (list token) :=
  match word with
  | EmptyString => Ok ret
  | _ => let* t := confirm_word word (pos - String.length word) in Ok (t :: ret)
  end.

(** parse.cpp:188-189. *)
Definition unaryOp (ret : list token) : bool :=
  match ret with
  | [] => true
  | t :: _ => node_type_eqb (t_type t) OPERATOR && negb (math_op_eqb (t_op t) MATH_RIGHT_PARENTHESIS)
  end.

(** parse.cpp:185-203: the loop over the characters and the final confirmation. *)
Fixpoint lex (cs : string) (pos : nat) (word : string) (ret : list token) : res (list token) :=
  match cs with
  | EmptyString => tryComfirmToken word pos ret
  | String c cs' =>
      if IsBasicOperator c then
        let* ret1 := tryComfirmToken word pos ret in
        let* n := mkOp (BaseOperatorCharToEnum c (unaryOp ret1)) in
        lex cs' (S pos) "" ({| t_node := n; t_s := String c ""; t_pos := pos |} :: ret1)
      else if is_space c then
        let* ret1 := tryComfirmToken word pos ret in lex cs' (S pos) "" ret1
      else lex cs' (S pos) (word ++ String c "")%string ret
  end.

(** parse.cpp:142-206 [ParseToTokens].  Line 145 passes "empty input" as the content and
    the (empty) content as error text. *)
Definition ParseToTokens (content : string) : res (list token) :=
  match content with
  | EmptyString => Throw (SingleParseError 0 0 "empty input" "")
  | _ => let* ret := lex content 0 "" [] in Ok (rev ret)
  end.

Definition unmatched (content : string) (t : token) : exn :=
  SingleParseError 0 (t_pos t) content ("Parenthesis not match: " ++ quote ++ t_s t ++ quote)%string.

Definition is_sign (op : math_op) : bool :=
  match op with MATH_POSITIVE | MATH_NEGATIVE => true | _ => false end.

(** parse.cpp:248-250: pop operators to the output until '(' is popped. *)
Fixpoint pop_to_paren (stk post : list token) : res (list token * list token) :=
  match stk with
  | [] => Undef "top() of an empty stack"
  | t :: stk' =>
      match t_op t with
      | MATH_LEFT_PARENTHESIS => Ok (stk', post)
      | _ => pop_to_paren stk' (post ++ [t])
      end
  end.

(** parse.cpp:251-253. *)
Definition pop_function (st : list token * list token) : list token * list token :=
  match fst st with
  | t :: stk' => if IsFunction (t_op t) then (stk', snd st ++ [t]) else st
  | [] => st
  end.

(** Pop from the stack to the output while a predicate holds of the top
    (parse.cpp:254-257 and 276-279). *)
Fixpoint pop_while (p : math_op -> bool) (stk post : list token) : list token * list token :=
  match stk with
  | t :: stk' => if p (t_op t) then pop_while p stk' (post ++ [t]) else (stk, post)
  | [] => (stk, post)
  end.

(** parse.cpp:263-274 [compare]. *)
Definition squeezes (op top : math_op) : bool :=
  if IsLeft2Right op then (Rank op <=? Rank top)%nat else (Rank op <? Rank top)%nat.

(** parse.cpp:219-285: one iteration of the loop; state = (parenthesisBalance, tokenStack,
    postOrder). *)
Definition InOrderStep (content : string) (st : nat * list token * list token) (f : token)
  : res (nat * list token * list token) :=
  let '(bal, stk, post) := st in
  match t_type f with
  | NUMBER | VARIABLE => Ok (bal, stk, post ++ [f])
  | OPERATOR =>
      match t_op f with
      | MATH_LEFT_PARENTHESIS => Ok (S bal, f :: stk, post)
      | MATH_POSITIVE | MATH_NEGATIVE => Ok (bal, f :: stk, post)
      | MATH_RIGHT_PARENTHESIS =>
          if Nat.eqb bal 0 then Throw (unmatched content f)
          else
            let* st1 := pop_to_paren stk post in
            let '(stk2, post2) := pop_function st1 in
            let '(stk3, post3) := pop_while is_sign stk2 post2 in
            Ok (bal, stk3, post3)
      | op =>
          let '(stk1, post1) := pop_while (squeezes op) stk post in
          Ok (bal, f :: stk1, post1)
      end
  end.

(** parse.cpp:287-297: flush of the operator stack. *)
Fixpoint flush (content : string) (stk post : list token) : res (list token) :=
  match stk with
  | [] => Ok post
  | t :: stk' =>
      match t_op t with
      | MATH_LEFT_PARENTHESIS => Throw (unmatched content t)
      | _ => flush content stk' (post ++ [t])
      end
  end.

(** parse.cpp:208-300 [InOrderToPostOrder]. *)
Definition InOrderToPostOrder (content : string) (inOrder : list token) : res (list token) :=
  let* st := foldM (InOrderStep content) inOrder (0, [], []) in
  let '(_, stk, post) := st in
  flush content stk post.

Definition set_children (n : node) (l r : node) : node :=
  match n with Nil => Nil | N ty op v x _ _ => N ty op v x l r end.

Definition with_node (t : token) (n : node) : token :=
  {| t_node := n; t_s := t_s t; t_pos := t_pos t |}.

(** parse.cpp:314-355: one iteration of BuildExpressionTree; the stack of tokens. A
    one-operand operator keeps its (null) right child, an operand keeps its children. *)
Definition BuildStep (stk : list token) (t : token) : res (list token) :=
  match t_type t with
  | OPERATOR =>
      match GetOperatorNum (t_op t) with
      | 2 =>
          match stk with
          | [] => Throw (MathError ERROR_WRONG_EXPRESSION "")
          | tr :: [] => Throw (MathError ERROR_WRONG_EXPRESSION "")
          | tr :: tl :: stk' => Ok (with_node t (set_children (t_node t) (t_node tl) (t_node tr)) :: stk')
          end
      | 1 =>
          match stk with
          | [] => Throw (MathError ERROR_WRONG_EXPRESSION "")
          | tl :: stk' => Ok (with_node t (set_children (t_node t) (t_node tl) Nil) :: stk')
          end
      | _ => AssertFail "GetOperatorNum(token.node->op) == 1"
      end
  | NUMBER | VARIABLE => Ok (t :: stk)
  end.

(** parse.cpp:303-372 [BuildExpressionTree]. *)
Definition BuildExpressionTree (content : string) (postOrder : list token) : res node :=
  let* stk := foldM BuildStep postOrder [] in
  match stk with
  | [] => Undef "top() of an empty stack"
  | [t] => Ok (t_node t)
  | _ :: rest =>
      Throw (MultiParseError
               (map (fun t => (0, t_pos t, content, ("Parse Error at: " ++ quote ++ t_s t ++ quote)%string)) rest))
  end.

(** parse.cpp:376-381 [Parse]; also parse.cpp:383-385 [operator""_f]. *)
Definition Parse (expression : string) : res node :=
  let* tokens := ParseToTokens expression in
  let* postOrder := InOrderToPostOrder expression tokens in
  BuildExpressionTree expression postOrder.

End Parse.
Arguments token K : clear implicits.
