(** Specification for theorems about IEEE doubles: equality of finite doubles, what is asked of
    the C library, and a correctly rounded C library that satisfies it. *)
From Coq Require Import ZArith Reals Bool String.
From Flocq Require Import IEEE754.BinarySingleNaN Core.
From Verif Require Import Base MathOp IEEE NodeModel ExprSpec SubsSpec.
Local Open Scope R_scope.

(** Neither an infinity nor NaN. *)
Definition fin (x : b64) : Prop := is_finite x = true.
(** Finite doubles denoting the same real number; +0 and -0 are not distinguished (this is the
    [==] of C++, see [eqb_feq] in FloatFacts.v). *)
Definition feq (x y : b64) : Prop := fin x /\ fin y /\ B2R x = B2R y.

(** Rounding to the nearest double, ties to even, without overflow. *)
Definition fexp := FLT_exp (3 - 1024 - 53) 53.
Definition rnd (x : R) : R := round radix2 fexp (round_mode mode_NE) x.

(** ** The C library *)

(** Finite results do not depend on the sign of a zero argument (up to the sign of zero). *)
Definition zero_blind (f : b64 -> b64) : Prop := forall x x', feq x x' -> fin (f x) -> feq (f x) (f x').

(** What ISO C (Annex F) guarantees and the theorems need. *)
Record ieee_libm (L : libm) : Prop := {
  il_sin : zero_blind (m_sin L); il_cos : zero_blind (m_cos L); il_tan : zero_blind (m_tan L);
  il_asin : zero_blind (m_asin L); il_acos : zero_blind (m_acos L); il_atan : zero_blind (m_atan L);
  il_log : zero_blind (m_log L); il_log2 : zero_blind (m_log2 L); il_log10 : zero_blind (m_log10 L);
  il_exp : zero_blind (m_exp L);
  il_pow : forall x x' y y', feq x x' -> feq y y' -> fin (m_pow L x y) -> feq (m_pow L x y) (m_pow L x' y');
  il_pow_1 : forall x y, fin x -> fin y -> B2R y = 1 -> feq (m_pow L x y) x;              (* pow(x,1) = x *)
  il_pow_0 : forall x y, fin x -> fin y -> B2R x = 0 -> 0 < B2R y -> feq (m_pow L x y) x; (* pow(0,y) = 0, y > 0 *)
  il_pow_inf : forall x y, fin x -> fin y -> B2R x = 0 -> B2R y < 0 -> ~ fin (m_pow L x y) (* pow(0,y) = inf, y < 0 *)
}.

(** The double nearest to a real (infinite on overflow). *)
Definition Round (r : R) : b64 :=
  binary_normalize 53 1024 Hprec Hemax mode_NE (Ztrunc (scaled_mantissa radix2 fexp (rnd r))) (cexp radix2 fexp (rnd r)) false.

(** A real function on a domain, correctly rounded. *)
Definition rounded (dom : R -> bool) (f : R -> R) (x : b64) : b64 :=
  if (is_finite x && dom (B2R x))%bool then Round (f (B2R x)) else B754_nan.
Definition everywhere (x : R) : bool := true.
Definition in_unit (x : R) : bool := (Rle_bool (-1) x && Rle_bool x 1)%bool.
Definition positive (x : R) : bool := Rlt_bool 0 x.

Definition rounded_pow (x y : b64) : b64 :=
  if (is_finite x && is_finite y)%bool then
    let a := B2R x in let b := B2R y in
    if Rlt_bool 0 a then Round (Rpower a b)
    else if Req_bool a 0 then
      (if Rlt_bool 0 b then B754_zero false else if Req_bool b 0 then Round 1 else B754_infinity false)
    else if Req_bool (IZR (Ztrunc b)) b then Round (powerRZ a (Ztrunc b)) else B754_nan
  else B754_nan.

(** The correctly rounded C library on finite arguments (NaN outside the domains). *)
Definition correct_libm : libm :=
  {| m_pow := rounded_pow;
     m_sin := rounded everywhere sin; m_cos := rounded everywhere cos; m_tan := rounded everywhere tan;
     m_asin := rounded in_unit asin; m_acos := rounded in_unit acos; m_atan := rounded everywhere atan;
     m_log := rounded positive ln; m_log2 := rounded positive (fun x => ln x / ln 2);
     m_log10 := rounded positive (fun x => ln x / ln 10); m_exp := rounded everywhere exp |}.

(** ** Expressions over doubles *)
Section E.
Context (L : libm).

(** The expression with every variable replaced by its value. *)
Definition filled (env : string -> b64) (e : expr (B64 L)) : expr (B64 L) :=
  subst (K:=B64 L) (fun x => Some (ENum (env x : B64 L))) e.

(** No power evaluates 0^0 under the assignment. *)
Fixpoint no_0_pow_0f (env : string -> b64) (e : expr (B64 L)) : Prop :=
  match e with
  | ENum _ | EVar _ => True
  | EUn _ a => no_0_pow_0f env a
  | EBin b a c =>
      no_0_pow_0f env a /\ no_0_pow_0f env c /\
      match b with
      | BPow => forall x y, eval true (filled env a) = Value x -> eval true (filled env c) = Value y ->
                ~ (B2R (x : b64) = 0 /\ B2R (y : b64) = 0)
      | _ => True
      end
  end.
End E.
