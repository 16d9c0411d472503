(** Specification side: expressions, their evaluation, equality and variables.
    Nothing here refers to the traversal code of the model; [embed] says which
    in-memory tree represents an expression. *)
From Coq Require Import String List ZArith Bool.
From Verif Require Import Base MathOp NodeModel.
Import ListNotations.
Local Open Scope string_scope.

Inductive unop :=
| UPos | UNeg | USin | UCos | UTan | UAsin | UAcos | UAtan | USqrt | ULog | ULog2 | ULog10 | UExp.
Inductive binop := BAdd | BSub | BMul | BDiv | BPow | BAnd | BOr | BMod.

Inductive expr (V : Type) :=
| ENum (v : V)
| EVar (x : string)
| EUn (u : unop) (e : expr V)
| EBin (b : binop) (e1 e2 : expr V).
Arguments ENum {V}. Arguments EVar {V}. Arguments EUn {V}. Arguments EBin {V}.

(** Enumerator of the C++ enum standing for an operator. *)
Definition unop_op (u : unop) : math_op :=
  match u with
  | UPos => MATH_POSITIVE | UNeg => MATH_NEGATIVE | USin => MATH_SIN | UCos => MATH_COS
  | UTan => MATH_TAN | UAsin => MATH_ARCSIN | UAcos => MATH_ARCCOS | UAtan => MATH_ARCTAN
  | USqrt => MATH_SQRT | ULog => MATH_LOG | ULog2 => MATH_LOG2 | ULog10 => MATH_LOG10
  | UExp => MATH_EXP
  end.
Definition binop_op (b : binop) : math_op :=
  match b with
  | BAdd => MATH_ADD | BSub => MATH_SUB | BMul => MATH_MULTIPLY | BDiv => MATH_DIVIDE
  | BPow => MATH_POWER | BAnd => MATH_AND | BOr => MATH_OR | BMod => MATH_MOD
  end.

Section Spec.
Context {K : num_ops}.

(** The in-memory tree of an expression: what [Num], [Var], the operators and the functions
    of the public API build. *)
Fixpoint embed (e : expr K) : node K :=
  match e with
  | ENum v => N NUMBER MATH_NULL v "" Nil Nil
  | EVar x => N VARIABLE MATH_NULL (n_ofZ 0) x Nil Nil
  | EUn u a => N OPERATOR (unop_op u) (n_ofZ 0) "" (embed a) Nil
  | EBin b a c => N OPERATOR (binop_op b) (n_ofZ 0) "" (embed a) (embed c)
  end.

Fixpoint esize (e : expr K) : nat :=
  match e with
  | ENum _ | EVar _ => 1
  | EUn _ a => S (esize a)
  | EBin _ a c => S (esize a + esize c)
  end.

(** Meaning of the operators in the arithmetic [K]; [None] = outside the domain of the
    C++ integer operators. *)
Definition un_sem (u : unop) (x : K) : K :=
  match u with
  | UPos => x | UNeg => n_neg x | USin => n_sin x | UCos => n_cos x | UTan => n_tan x
  | UAsin => n_asin x | UAcos => n_acos x | UAtan => n_atan x | USqrt => n_sqrt x
  | ULog => n_log x | ULog2 => n_log2 x | ULog10 => n_log10 x | UExp => n_exp x
  end.

Definition bin_sem (b : binop) (x y : K) : option K :=
  match b with
  | BAdd => Some (n_add x y) | BSub => Some (n_sub x y) | BMul => Some (n_mul x y)
  | BDiv => Some (n_div x y) | BPow => Some (n_pow x y)
  | BAnd => match n_toint x, n_toint y with
            | Some a, Some c => Some (n_ofZ (Z.land a c)) | _, _ => None end
  | BOr => match n_toint x, n_toint y with
           | Some a, Some c => Some (n_ofZ (Z.lor a c)) | _, _ => None end
  | BMod => match n_toint x, n_toint y with
            | Some a, Some c =>
                if (Z.eqb c 0 || (Z.eqb a (-2147483648) && Z.eqb c (-1)))%bool then None
                else Some (n_ofZ (Z.rem a c))
            | _, _ => None end
  end.

(** inf, -inf or nan. *)
Definition invalid (v : K) : Prop :=
  n_eqb v n_inf = true \/ n_eqb v (n_neg n_inf) = true \/ n_eqb v v = false.
Definition invalidb (v : K) : bool :=
  n_eqb v n_inf || n_eqb v (n_neg n_inf) || negb (n_eqb v v).

(** Possible results of evaluating an expression. *)
Inductive outcome :=
| Value (v : K)          (* a number *)
| HasVariable            (* a variable was met *)
| InvalidNumber          (* an operation gave inf/nan while this is an error *)
| IntUndefined.          (* %, &, | outside their integer domain *)

(** Left-to-right, operands-first evaluation. [strict] = inf/nan results are errors. *)
Definition finish (strict : bool) (r : option K) : outcome :=
  match r with
  | None => IntUndefined
  | Some v => if strict && invalidb v then InvalidNumber else Value v
  end.
Fixpoint eval (strict : bool) (e : expr K) : outcome :=
  match e with
  | ENum v => Value v
  | EVar _ => HasVariable
  | EUn u a =>
      match eval strict a with
      | Value x => finish strict (Some (un_sem u x))
      | o => o
      end
  | EBin b a c =>
      match eval strict a with
      | Value x =>
          match eval strict c with
          | Value y => finish strict (bin_sem b x y)
          | o => o
          end
      | o => o
      end
  end.

(** The same tree with IEEE-equal numbers. *)
Inductive same : expr K -> expr K -> Prop :=
| same_num v w : n_eqb v w = true -> same (ENum v) (ENum w)
| same_var x : same (EVar x) (EVar x)
| same_un u a a' : same a a' -> same (EUn u a) (EUn u a')
| same_bin b a a' c c' : same a a' -> same c c' -> same (EBin b a c) (EBin b a' c').

(** Occurrence of a variable. *)
Inductive occurs (x : string) : expr K -> Prop :=
| occ_var : occurs x (EVar x)
| occ_un u a : occurs x a -> occurs x (EUn u a)
| occ_l b a c : occurs x a -> occurs x (EBin b a c)
| occ_r b a c : occurs x c -> occurs x (EBin b a c).

(** All numbers of an expression satisfy [P]. *)
Fixpoint all_nums (P : K -> Prop) (e : expr K) : Prop :=
  match e with
  | ENum v => P v
  | EVar _ => True
  | EUn _ a => all_nums P a
  | EBin _ a c => all_nums P a /\ all_nums P c
  end.

Fixpoint no_vars (e : expr K) : Prop :=
  match e with
  | ENum _ => True | EVar _ => False
  | EUn _ a => no_vars a
  | EBin _ a c => no_vars a /\ no_vars c
  end.

(** No %, &, |. *)
Fixpoint no_int_ops (e : expr K) : Prop :=
  match e with
  | ENum _ | EVar _ => True
  | EUn _ a => no_int_ops a
  | EBin b a c => match b with BAnd | BOr | BMod => False | _ => no_int_ops a /\ no_int_ops c end
  end.

End Spec.
Arguments outcome K : clear implicits.

(** How the C++ API reports an [outcome]. *)
Definition reports {K : num_ops} (r : res K) (o : outcome K) : Prop :=
  match o with
  | Value v => r = Ok v
  | HasVariable => exists msg, r = Throw (RuntimeError msg)
  | InvalidNumber => exists info, r = Throw (MathError ERROR_INVALID_NUMBER info)
  | IntUndefined => exists why, r = Undef why
  end.
