(** Model of src/tomsolver/math_operator.{h,cpp} and config.h, over abstract numbers. *)
From Coq Require Import String List ZArith Bool.
From Verif Require Import Base.
Import ListNotations.
Local Open Scope string_scope.

(** math_operator.h:21-52  [enum class MathOperator]. *)
Inductive math_op :=
| MATH_NULL
| MATH_POSITIVE | MATH_NEGATIVE
| MATH_SIN | MATH_COS | MATH_TAN | MATH_ARCSIN | MATH_ARCCOS | MATH_ARCTAN
| MATH_SQRT | MATH_LOG | MATH_LOG2 | MATH_LOG10 | MATH_EXP
| MATH_ADD | MATH_SUB | MATH_MULTIPLY | MATH_DIVIDE | MATH_POWER
| MATH_AND | MATH_OR | MATH_MOD
| MATH_LEFT_PARENTHESIS | MATH_RIGHT_PARENTHESIS.

Definition math_op_eqb (a b : math_op) : bool :=
  match a, b with
  | MATH_NULL, MATH_NULL | MATH_POSITIVE, MATH_POSITIVE | MATH_NEGATIVE, MATH_NEGATIVE
  | MATH_SIN, MATH_SIN | MATH_COS, MATH_COS | MATH_TAN, MATH_TAN
  | MATH_ARCSIN, MATH_ARCSIN | MATH_ARCCOS, MATH_ARCCOS | MATH_ARCTAN, MATH_ARCTAN
  | MATH_SQRT, MATH_SQRT | MATH_LOG, MATH_LOG | MATH_LOG2, MATH_LOG2
  | MATH_LOG10, MATH_LOG10 | MATH_EXP, MATH_EXP
  | MATH_ADD, MATH_ADD | MATH_SUB, MATH_SUB | MATH_MULTIPLY, MATH_MULTIPLY
  | MATH_DIVIDE, MATH_DIVIDE | MATH_POWER, MATH_POWER
  | MATH_AND, MATH_AND | MATH_OR, MATH_OR | MATH_MOD, MATH_MOD
  | MATH_LEFT_PARENTHESIS, MATH_LEFT_PARENTHESIS
  | MATH_RIGHT_PARENTHESIS, MATH_RIGHT_PARENTHESIS => true
  | _, _ => false
  end.

Lemma math_op_eqb_spec a b : reflect (a = b) (math_op_eqb a b).
Proof. destruct a, b; constructor; congruence. Qed.

(** The arithmetic the code computes with.  In the C++ code this is [double] with
    <cmath>; the structural theorems hold for every instance.
    - [n_toint v] models the conversion [(int)v]: [None] when it is undefined
      behaviour (value not representable);
    - [n_dec m e] models the decimal literal m*10^e;
    - [n_stod s] models [std::stod(s,&sz)]: [None] when it throws, otherwise the value
      and the number [sz] of characters consumed;
    - [n_tostr] models config.cpp:19-37 [ToString(double)]. *)
Record num_ops := {
  num :> Type;
  n_ofZ : Z -> num;
  n_dec : Z -> Z -> num;
  n_nan : num;
  n_inf : num;
  n_neg : num -> num;
  n_abs : num -> num;
  n_add : num -> num -> num;
  n_sub : num -> num -> num;
  n_mul : num -> num -> num;
  n_div : num -> num -> num;
  n_pow : num -> num -> num;
  n_sin : num -> num; n_cos : num -> num; n_tan : num -> num;
  n_asin : num -> num; n_acos : num -> num; n_atan : num -> num;
  n_sqrt : num -> num; n_log : num -> num; n_log2 : num -> num; n_log10 : num -> num;
  n_exp : num -> num;
  n_eqb : num -> num -> bool;
  n_ltb : num -> num -> bool;
  n_leb : num -> num -> bool;
  n_toint : num -> option Z;
  n_tostr : num -> string;
  n_stod : string -> option (num * nat)
}.
Arguments n_ofZ {_}. Arguments n_dec {_}. Arguments n_nan {_}. Arguments n_inf {_}.
Arguments n_neg {_}. Arguments n_abs {_}. Arguments n_add {_}. Arguments n_sub {_}.
Arguments n_mul {_}. Arguments n_div {_}. Arguments n_pow {_}.
Arguments n_sin {_}. Arguments n_cos {_}. Arguments n_tan {_}. Arguments n_asin {_}.
Arguments n_acos {_}. Arguments n_atan {_}. Arguments n_sqrt {_}. Arguments n_log {_}.
Arguments n_log2 {_}. Arguments n_log10 {_}. Arguments n_exp {_}.
Arguments n_eqb {_}. Arguments n_ltb {_}. Arguments n_leb {_}. Arguments n_toint {_}.
Arguments n_tostr {_}. Arguments n_stod {_}.

(** config.h:9 [enum class NonlinearMethod]. *)
Inductive nonlinear_method := NEWTON_RAPHSON | LM.

(** config.h:11-46 [struct Config]; the singleton [Config::Get()] is passed as an argument.
    Omitted: [logLevel] (only controls printing to stdout). *)
Record config (K : num_ops) := {
  throwOnInvalidValue : bool;
  epsilon : K;
  maxIterations : Z;
  nonlinearMethod : nonlinear_method;
  initialValue : K;
  allowIndeterminateEquation : bool
}.
Arguments throwOnInvalidValue {_}. Arguments epsilon {_}. Arguments maxIterations {_}.
Arguments nonlinearMethod {_}. Arguments initialValue {_}. Arguments allowIndeterminateEquation {_}.

(** config.h:15-41, config.cpp:39-41: default values of [Config]. *)
Definition default_config (K : num_ops) : config K :=
  {| throwOnInvalidValue := true; epsilon := n_dec 1 (-9); maxIterations := 100;
     nonlinearMethod := NEWTON_RAPHSON; initialValue := n_ofZ 1;
     allowIndeterminateEquation := false |}.

(** math_operator.cpp:12-69 [MathOperatorToStr]. MATH_NULL asserts in C++ (lines 14-16);
    here it gives the value returned in an NDEBUG build. *)
Definition MathOperatorToStr (op : math_op) : string :=
  match op with
  | MATH_NULL => ""
  | MATH_POSITIVE => "+" | MATH_NEGATIVE => "-"
  | MATH_SIN => "sin" | MATH_COS => "cos" | MATH_TAN => "tan"
  | MATH_ARCSIN => "asin" | MATH_ARCCOS => "acos" | MATH_ARCTAN => "atan"
  | MATH_SQRT => "sqrt" | MATH_LOG => "log" | MATH_LOG2 => "log2" | MATH_LOG10 => "log10"
  | MATH_EXP => "exp"
  | MATH_ADD => "+" | MATH_SUB => "-" | MATH_MULTIPLY => "*" | MATH_DIVIDE => "/"
  | MATH_POWER => "^" | MATH_AND => "&" | MATH_OR => "|" | MATH_MOD => "%"
  | MATH_LEFT_PARENTHESIS => "(" | MATH_RIGHT_PARENTHESIS => ")"
  end.

(** math_operator.cpp:71-109 [GetOperatorNum]. On MATH_NULL and the parentheses the C++
    code asserts (and returns 0 in an NDEBUG build); the model returns 0 and callers
    report [AssertFail]. *)
Definition GetOperatorNum (op : math_op) : nat :=
  match op with
  | MATH_POSITIVE | MATH_NEGATIVE
  | MATH_SIN | MATH_COS | MATH_TAN | MATH_ARCSIN | MATH_ARCCOS | MATH_ARCTAN
  | MATH_SQRT | MATH_LOG | MATH_LOG2 | MATH_LOG10 | MATH_EXP => 1
  | MATH_ADD | MATH_SUB | MATH_MULTIPLY | MATH_DIVIDE | MATH_POWER
  | MATH_AND | MATH_OR | MATH_MOD => 2
  | MATH_NULL | MATH_LEFT_PARENTHESIS | MATH_RIGHT_PARENTHESIS => 0
  end.

(** math_operator.cpp:111-157 [Rank]. *)
Definition Rank (op : math_op) : nat :=
  match op with
  | MATH_SIN | MATH_COS | MATH_TAN | MATH_ARCSIN | MATH_ARCCOS | MATH_ARCTAN
  | MATH_SQRT | MATH_LOG | MATH_LOG2 | MATH_LOG10 | MATH_EXP => 15
  | MATH_POSITIVE | MATH_NEGATIVE => 14
  | MATH_MOD => 13
  | MATH_AND | MATH_OR => 12
  | MATH_POWER => 11
  | MATH_MULTIPLY | MATH_DIVIDE => 10
  | MATH_ADD | MATH_SUB => 5
  | MATH_LEFT_PARENTHESIS | MATH_RIGHT_PARENTHESIS => 0
  | MATH_NULL => 0
  end.

(** math_operator.cpp:159-195 [IsLeft2Right]. *)
Definition IsLeft2Right (op : math_op) : bool :=
  match op with
  | MATH_MOD | MATH_AND | MATH_OR | MATH_MULTIPLY | MATH_DIVIDE | MATH_ADD | MATH_SUB => true
  | MATH_POSITIVE | MATH_NEGATIVE | MATH_POWER => false
  | MATH_SIN | MATH_COS | MATH_TAN | MATH_ARCSIN | MATH_ARCCOS | MATH_ARCTAN
  | MATH_SQRT | MATH_LOG | MATH_LOG2 | MATH_LOG10 | MATH_EXP
  | MATH_LEFT_PARENTHESIS | MATH_RIGHT_PARENTHESIS => true
  | MATH_NULL => false
  end.

(** math_operator.cpp:197-235 [InAssociativeLaws]. *)
Definition InAssociativeLaws (op : math_op) : bool :=
  match op with
  | MATH_ADD | MATH_MULTIPLY => true
  | _ => false
  end.

(** math_operator.cpp:237-271 [IsFunction]. *)
Definition IsFunction (op : math_op) : bool :=
  match op with
  | MATH_SIN | MATH_COS | MATH_TAN | MATH_ARCSIN | MATH_ARCCOS | MATH_ARCTAN
  | MATH_SQRT | MATH_LOG | MATH_LOG2 | MATH_LOG10 | MATH_EXP => true
  | _ => false
  end.

Section Calc.
Context {K : num_ops}.

(** math_operator.cpp:351-352 [isInvalid]. *)
Definition isInvalid (v : K) : bool :=
  n_eqb v n_inf || n_eqb v (n_neg n_inf) || negb (n_eqb v v).

Definition INT_MIN : Z := (-2147483648)%Z.

(** math_operator.cpp:316-324: the three integer operators. Conversions [(int)v] that do
    not fit, division by 0 and INT_MIN % -1 are undefined behaviour. *)
Definition int_op (f : Z -> Z -> res Z) (v1 v2 : K) : res K :=
  match n_toint v1, n_toint v2 with
  | Some a, Some b => let* r := f a b in Ok (n_ofZ r)
  | _, _ => Undef "double to int conversion out of range"
  end.
Definition int_mod (a b : Z) : res Z :=
  if Z.eqb b 0 then Undef "integer division by zero"
  else if Z.eqb a INT_MIN && Z.eqb b (-1) then Undef "integer overflow"
  else Ok (Z.rem a b).
Definition int_and (a b : Z) : res Z := Ok (Z.land a b).
Definition int_or (a b : Z) : res Z := Ok (Z.lor a b).

(** math_operator.cpp:275-345: the raw operation selected by the switch. *)
Definition calc_raw (op : math_op) (v1 v2 : K) : res K :=
  match op with
  | MATH_SIN => Ok (n_sin v1)
  | MATH_COS => Ok (n_cos v1)
  | MATH_TAN => Ok (n_tan v1)
  | MATH_ARCSIN => Ok (n_asin v1)
  | MATH_ARCCOS => Ok (n_acos v1)
  | MATH_ARCTAN => Ok (n_atan v1)
  | MATH_SQRT => Ok (n_sqrt v1)
  | MATH_LOG => Ok (n_log v1)
  | MATH_LOG2 => Ok (n_log2 v1)
  | MATH_LOG10 => Ok (n_log10 v1)
  | MATH_EXP => Ok (n_exp v1)
  | MATH_POSITIVE => Ok v1
  | MATH_NEGATIVE => Ok (n_neg v1)
  | MATH_MOD => int_op int_mod v1 v2
  | MATH_AND => int_op int_and v1 v2
  | MATH_OR => int_op int_or v1 v2
  | MATH_POWER => Ok (n_pow v1 v2)
  | MATH_ADD => Ok (n_add v1 v2)
  | MATH_SUB => Ok (n_sub v1 v2)
  | MATH_MULTIPLY => Ok (n_mul v1 v2)
  | MATH_DIVIDE => Ok (n_div v1 v2)
  | MATH_NULL | MATH_LEFT_PARENTHESIS | MATH_RIGHT_PARENTHESIS => AssertFail "[Calc] bug."
  end.

Definition quote : string := String (Ascii.ascii_of_nat 34) EmptyString.

(** math_operator.cpp:354-367: the text describing the failing operation. *)
Definition calc_info (op : math_op) (v1 v2 : K) : string :=
  "expression: " ++ quote ++
  (match GetOperatorNum op with
   | 1 => MathOperatorToStr op ++ " " ++ n_tostr v1
   | _ => n_tostr v1 ++ " " ++ MathOperatorToStr op ++ " " ++ n_tostr v2
   end) ++ quote.

(** math_operator.cpp:273-372 [Calc]. *)
Definition Calc (cfg : config K) (op : math_op) (v1 v2 : K) : res K :=
  let* ret := calc_raw op v1 v2 in
  if negb (throwOnInvalidValue cfg) then Ok ret
  else if isInvalid ret then Throw (MathError ERROR_INVALID_NUMBER (calc_info op v1 v2))
  else Ok ret.

End Calc.
