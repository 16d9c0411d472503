(** Model of the texts of the exceptions: src/tomsolver/error_type.cpp, parse.h, parse.cpp. *)
From Coq Require Import String Ascii List ZArith Decimal DecimalString.
From Verif Require Import Base MathOp.
Import ListNotations.
Local Open Scope string_scope. Local Open Scope list_scope.

(** error_type.cpp:8-64 [GetErrorInfo].  The assert of the default case is unreachable for a value of the enumeration. *)
Definition GetErrorInfo (t : error_type) : string :=
  match t with
  | ERROR_INVALID_NUMBER => "invalid number"
  | ERROR_ILLEGALCHAR => "illegal character"
  | ERROR_INVALID_VARNAME => "invalid variable name (must start with an underscore ""_"" or a letter)"
  | ERROR_WRONG_EXPRESSION => "invalid expression"
  | ERROR_EMPTY_INPUT => "empty input"
  | ERROR_UNDEFINED_VARIABLE => "undefined variable"
  | ERROR_SUBS_NOT_EQUAL => "number of substitutions does not match the number of items to be replaced"
  | ERROR_NOT_LINK_VARIABLETABLE => "not linked variable table"
  | ERROR_OUTOF_DOMAIN => "out of domain"
  | ERROR_VAR_COUNT_NOT_EQUAL_NUM_COUNT => "the number of variable is not equal with number count"
  | ERROR_VAR_HAS_BEEN_DEFINED => "variable redefined"
  | ERROR_INDETERMINATE_EQUATION => "indeterminate equation"
  | ERROR_SINGULAR_MATRIX => "singular matrix"
  | ERROR_INFINITY_SOLUTIONS => "infinite solutions"
  | ERROR_OVER_DETERMINED_EQUATIONS => "overdetermined equations"
  | SIZE_NOT_MATCH => "size does not match"
  end.

(** error_type.cpp:66-76 [MathError::MathError], [MathError::what]. *)
Definition MathError_what (t : error_type) (extInfo : string) : string :=
  match extInfo with
  | EmptyString => GetErrorInfo t
  | _ => (GetErrorInfo t ++ ": " ++ quote ++ extInfo ++ quote)%string
  end.

(** An [int] >= 0 written to a stream. *)
Definition int_text (n : nat) : string := NilZero.string_of_uint (Nat.to_uint n).
Fixpoint blanks (n : nat) : string := match n with O => "" | S n' => String " " (blanks n') end.
Definition nl : string := String (ascii_of_nat 10) "".

(** parse.h:73-86 [SingleParseError::SingleParseError]; [errInfo] is the concatenation of the
    trailing arguments (parse.h:50-57 [internal::append]). *)
Definition SingleParseError_what (line pos : nat) (content errInfo : string) : string :=
  ("[Parse Error] " ++ errInfo ++ " at(" ++ int_text line ++ ", " ++ int_text pos ++ "):" ++ nl ++
   content ++ nl ++ blanks pos ++ "^---- error position")%string.

(** parse.cpp:126-134 [MultiParseError::MultiParseError]: from the last error to the first,
    a line break after each. *)
Definition MultiParseError_what (errs : list (nat * nat * string * string)) : string :=
  fold_right (fun '(line, pos, content, info) text => (SingleParseError_what line pos content info ++ nl ++ text)%string)
    "" (List.rev errs).

(** [what()] of every exception of the library; of the standard ones it is the argument of the constructor. *)
Definition what (e : exn) : string :=
  match e with
  | MathError t info => MathError_what t info
  | RuntimeError msg => msg
  | OutOfRange msg => msg
  | SingleParseError line pos content info => SingleParseError_what line pos content info
  | MultiParseError errs => MultiParseError_what errs
  end.
