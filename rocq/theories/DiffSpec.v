(** Specification of differentiation: partial derivatives of the value of an expression,
    and the points where an expression can be differentiated term by term. *)
From Coq Require Import String List ZArith Reals.
From Coquelicot Require Import Coquelicot.
From Verif Require Import Base MathOp NodeModel ExprSpec RealSpec.
Local Open Scope R_scope.

(** The assignment [env] with x set to t. *)
Definition upd (env : string -> R) (x : string) (t : R) : string -> R :=
  fun y => if String.eqb y x then t else env y.

(** The value of [e] as a function of x (0 where it has no value). *)
Definition as_function (env : string -> R) (x : string) (e : expr Rops) (t : R) : R :=
  match rval (upd env x t) e with Some r => r | None => 0 end.

(** [e] has a value for all x near [env x]. *)
Definition defined_near (env : string -> R) (x : string) (e : expr Rops) : Prop :=
  locally (env x) (fun t => rval (upd env x t) e <> None).

(** d is the n-th partial derivative of the value of [e] with respect to x at [env]. *)
Definition partial_n (n : nat) (env : string -> R) (x : string) (e : expr Rops) (d : R) : Prop :=
  defined_near env x e /\ is_derive_n (as_function env x e) n (env x) d.
Definition partial (env : string -> R) (x : string) (e : expr Rops) (d : R) : Prop :=
  defined_near env x e /\ is_derive (as_function env x e) (env x) d.

(** Interior points of the domain of a function; [k] is the number of derivatives to be
    taken.  (The restriction for k > 3 at y = 0: the derivatives of asin, acos, atan contain
    y^2, whose third derivative is computed as 0*y^(-1).) *)
Definition un_smooth (k : nat) (u : unop) (y : R) : Prop :=
  match u with
  | UPos | UNeg | USin | UCos | UExp => True
  | UTan => cos y <> 0
  | UAsin | UAcos => -1 < y < 1 /\ (y <> 0 \/ (k <= 3)%nat)
  | UAtan => y <> 0 \/ (k <= 3)%nat
  | USqrt | ULog | ULog2 | ULog10 => 0 < y
  end.

(** y^w with a literal exponent w. *)
Definition pow_smooth (k : nat) (y w : R) : Prop :=
  0 < y \/ ((exists n, w = IZR n) /\ (y <> 0 \/ INR k <= w)).

(** [e] can be differentiated k times term by term with respect to x at [env]: every literal
    is finite, every constant operation has a value, every function is applied in the
    interior of its domain, no denominator is 0, powers are x^literal as above or have a
    positive base, there is no &, |, %, and exp is not applied to a bare variable other
    than x. *)
Fixpoint smooth (k : nat) (x : string) (env : string -> R) (e : expr Rops) : Prop :=
  match e with
  | ENum v => v <> None
  | EVar _ => True
  | EUn u a =>
      match a with
      | ENum _ => rval env e <> None
      | _ => smooth k x env a /\ (exists y, rval env a = Some y /\ un_smooth k u y) /\
             match u, a with UExp, EVar z => z = x | _, _ => True end
      end
  | EBin b a c =>
      match b with
      | BAnd | BOr | BMod => False
      | BAdd | BSub | BMul => smooth k x env a /\ smooth k x env c
      | BDiv => smooth k x env a /\ smooth k x env c /\ rval env c <> Some 0
      | BPow =>
          match a, c with
          | ENum _, ENum _ => rval env e <> None
          | _, ENum w => smooth k x env a /\
              exists y z, rval env a = Some y /\ w = Some z /\ pow_smooth k y z
          | _, _ => smooth k x env a /\ smooth k x env c /\ exists y, rval env a = Some y /\ 0 < y
          end
      end
  end.

(** The natural condition, without a number of derivatives: [e] is an analytic function near
    [env].  Every literal is finite, every constant operation has a value, every function is
    applied in the interior of its domain, no denominator is 0; a power has a positive base,
    or an exponent that is an integer literal, which must be >= 0 if the base is 0; there is
    no &, |, %, and exp is not applied to a bare variable other than x. *)
Definition un_interior (u : unop) (y : R) : Prop :=
  match u with
  | UPos | UNeg | USin | UCos | UExp | UAtan => True
  | UTan => cos y <> 0
  | UAsin | UAcos => -1 < y < 1
  | USqrt | ULog | ULog2 | ULog10 => 0 < y
  end.
Definition pow_interior (y w : R) : Prop :=
  0 < y \/ ((exists n, w = IZR n) /\ (y <> 0 \/ 0 <= w)).
Fixpoint regular (x : string) (env : string -> R) (e : expr Rops) : Prop :=
  match e with
  | ENum v => v <> None
  | EVar _ => True
  | EUn u a =>
      match a with
      | ENum _ => rval env e <> None
      | _ => regular x env a /\ (exists y, rval env a = Some y /\ un_interior u y) /\
             match u, a with UExp, EVar z => z = x | _, _ => True end
      end
  | EBin b a c =>
      match b with
      | BAnd | BOr | BMod => False
      | BAdd | BSub | BMul => regular x env a /\ regular x env c
      | BDiv => regular x env a /\ regular x env c /\ rval env c <> Some 0
      | BPow =>
          match a, c with
          | ENum _, ENum _ => rval env e <> None
          | _, ENum w => regular x env a /\
              exists y z, rval env a = Some y /\ w = Some z /\ pow_interior y z
          | _, _ => regular x env a /\ regular x env c /\ exists y, rval env a = Some y /\ 0 < y
          end
      end
  end.

(** exp is nowhere applied to a bare variable. *)
Fixpoint no_exp_of_var {K : num_ops} (e : expr K) : Prop :=
  match e with
  | ENum _ | EVar _ => True
  | EUn u a => no_exp_of_var a /\ match u, a with UExp, EVar _ => False | _, _ => True end
  | EBin _ a c => no_exp_of_var a /\ no_exp_of_var c
  end.

(** Laws of the number 0 shared by exact arithmetic and IEEE arithmetic. *)
Definition is_zero {K : num_ops} (v : K) : Prop := n_eqb v (n_ofZ 0) = true.
Record zero_laws (K : num_ops) : Prop := {
  zl_0 : is_zero (n_ofZ 0 : K);
  zl_neg : forall v : K, is_zero v -> is_zero (n_neg v);
  zl_add : forall v w : K, is_zero v -> is_zero w -> is_zero (n_add v w);
  zl_sub : forall v w : K, is_zero v -> is_zero w -> is_zero (n_sub v w);
  zl_mul_l : forall v w : K, is_zero v -> ~ invalid (n_mul v w) -> is_zero (n_mul v w);
  zl_mul_r : forall v w : K, is_zero w -> ~ invalid (n_mul v w) -> is_zero (n_mul v w);
  zl_div : forall v w : K, is_zero v -> ~ invalid (n_div v w) -> is_zero (n_div v w)
}.
