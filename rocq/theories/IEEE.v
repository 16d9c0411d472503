(** The arithmetic instance of the C++ program: IEEE-754 binary64 (Flocq), with the libm
    functions (sin, pow, ...) left as a parameter, and exact models of
    config.cpp:19-37 [ToString(double)] and of [std::stod] (used at parse.cpp:159).

    Assumptions about the platform: [double] is binary64, round to nearest even,
    + - * / sqrt correctly rounded; printf and strtod correctly rounded (glibc).
    NaN payload/sign is not modelled (a negative NaN prints as "-nan" in C). *)
From Coq Require Import String Ascii List ZArith Bool Lia.
From Flocq Require Import IEEE754.BinarySingleNaN Core.
From Verif Require Import Base MathOp.
Import ListNotations.
Local Open Scope string_scope.

Definition b64 := binary_float 53 1024.
Definition Hprec : Prec_gt_0 53 := eq_refl.
Definition Hemax : Prec_lt_emax 53 1024 := eq_refl.
#[global] Existing Instance Hprec.
#[global] Existing Instance Hemax.

Definition b_ofZ (z : Z) : b64 := binary_normalize 53 1024 Hprec Hemax mode_NE z 0 false.

(** Correctly rounded quotient of two integers, [den] > 0. *)
Definition b_ofQ (neg : bool) (num den : positive) : b64 :=
  SF2B _ (proj1 (Bdiv_correct_aux 53 1024 Hprec Hemax mode_NE neg num 0 false den 0)).

(** Correctly rounded value of (-1)^neg * m * 10^e, m >= 0. *)
Definition b_dec (neg : bool) (m e : Z) : b64 :=
  match m with
  | Zpos p =>
      match e with
      | Zneg k => b_ofQ neg p (10 ^ k)
      | _ => match (Zpos p * 10 ^ e)%Z with
             | Zpos q => b_ofQ neg q 1
             | _ => B754_zero neg
             end
      end
  | _ => B754_zero neg
  end.

(** The conversion [(int)v]: truncation; [None] (undefined behaviour) when the truncated
    value does not fit in 32 bits. *)
Definition b_toint (v : b64) : option Z :=
  match v with
  | B754_zero _ => Some 0%Z
  | B754_finite _ _ _ _ =>
      let z := Btrunc v in
      if ((-2147483648 <=? z) && (z <=? 2147483647))%Z then Some z else None
  | _ => None
  end.

(** ** printf *)

Definition digit_char (d : Z) : ascii := ascii_of_nat (48 + Z.to_nat d).

(** [w] decimal digits of [n] (most significant first), prepended to [acc]. *)
Fixpoint fixdigits (w : nat) (n : Z) (acc : string) : string :=
  match w with
  | O => acc
  | S w' => fixdigits w' (n / 10)%Z (String (digit_char (n mod 10)%Z) acc)
  end.

Fixpoint strip_leading (s : string) : string :=
  match s with
  | String "0" (String _ _ as s') => strip_leading s'
  | _ => s
  end.

(** Remove trailing zeros. *)
Fixpoint strip_trailing (s : string) : string :=
  match s with
  | EmptyString => EmptyString
  | String c s' =>
      match strip_trailing s' with
      | EmptyString => if Ascii.eqb c "0" then EmptyString else String c EmptyString
      | t => String c t
      end
  end.

(** config.cpp:13-14,36: after the regex replacement ["\.?0+(?=$)"] (or [(?=e)]) the
    fractional part has lost its trailing zeros, and the point goes with them if
    nothing is left. *)
Definition frac_part (digits : string) : string :=
  match strip_trailing digits with
  | EmptyString => EmptyString
  | t => String "." t
  end.

(** Round-half-even of num/den (num >= 0, den > 0). *)
Definition rhe (num den : Z) : Z :=
  let q := (num / den)%Z in
  let r := (num mod den)%Z in
  match (2 * r ?= den)%Z with
  | Lt => q
  | Gt => (q + 1)%Z
  | Eq => if Z.even q then q else (q + 1)%Z
  end.

(** |m * 2^e| as a fraction. *)
Definition frac_of (m : positive) (e : Z) : Z * Z :=
  match e with
  | Zneg k => (Zpos m, 2 ^ Zpos k)%Z
  | _ => (Zpos m * 2 ^ e, 1)%Z
  end.

(** printf("%.16f") of a finite non-zero value below 1e16, after the regex. *)
Definition fmt_f (neg : bool) (num den : Z) : string :=
  let n := rhe (num * 10 ^ 16) den in
  (if neg then "-" else "") ++ strip_leading (fixdigits 20 (n / 10 ^ 16)%Z "")
  ++ frac_part (fixdigits 16 (n mod 10 ^ 16)%Z "").

(** Decimal exponent: the k with 10^k <= num/den < 10^(k+1), searched upwards from -400. *)
Fixpoint dec_exp (fuel : nat) (k : Z) (num den : Z) : Z :=
  match fuel with
  | O => k
  | S f =>
      (* num/den < 10^(k+1) ? *)
      let lt := if (k + 1 <? 0)%Z then (num * 10 ^ (- (k + 1)) <? den)%Z
                else (num <? den * 10 ^ (k + 1))%Z in
      if lt then k else dec_exp f (k + 1)%Z num den
  end.

(** printf("%.16e") of a finite non-zero value, after the regex. *)
Definition fmt_e (neg : bool) (num den : Z) : string :=
  let k := dec_exp 800 (-400)%Z num den in
  let n := if (16 - k <? 0)%Z then rhe num (den * 10 ^ (k - 16)) else rhe (num * 10 ^ (16 - k)) den in
  let '(n, k) := if (n =? 10 ^ 17)%Z then ((10 ^ 16)%Z, (k + 1)%Z) else (n, k) in
  (if neg then "-" else "")
  ++ fixdigits 1 (n / 10 ^ 16)%Z "" ++ frac_part (fixdigits 16 (n mod 10 ^ 16)%Z "")
  ++ "e" ++ (if (k <? 0)%Z then "-" else "+")
  ++ (if (Z.abs k <? 100)%Z then fixdigits 2 (Z.abs k) "" else fixdigits 3 (Z.abs k) "").

(** config.cpp:19-37 [ToString(double)]. *)
Definition b_tostr (v : b64) : string :=
  match v with
  | B754_zero _ => "0"
  | B754_infinity s => if s then "-inf" else "inf"
  | B754_nan => "nan"
  | B754_finite s m e _ =>
      let a := Babs v in
      let '(num, den) := frac_of m e in
      if Bleb (b_ofZ (10 ^ 16)) a || Bleb a (b_dec false 1 (-16))
      then fmt_e s num den else fmt_f s num den
  end.

(** ** strtod *)

Definition char_in (lo hi : nat) (c : ascii) : bool :=
  let n := nat_of_ascii c in Nat.leb lo n && Nat.leb n hi.
Definition dec_digit (c : ascii) : option Z :=
  if char_in 48 57 c then Some (Z.of_nat (nat_of_ascii c - 48)) else None.
Definition hex_digit (c : ascii) : option Z :=
  if char_in 48 57 c then Some (Z.of_nat (nat_of_ascii c - 48))
  else if char_in 97 102 c then Some (Z.of_nat (nat_of_ascii c - 87))
  else if char_in 65 70 c then Some (Z.of_nat (nat_of_ascii c - 55)) else None.

(** Reads a maximal run of digits: value, number of digits, rest. *)
Fixpoint read_digits (dig : ascii -> option Z) (base : Z) (s : string) (acc : Z) (n : nat)
  : Z * nat * string :=
  match s with
  | String c s' =>
      match dig c with
      | Some d => read_digits dig base s' (acc * base + d)%Z (S n)
      | None => (acc, n, s)
      end
  | EmptyString => (acc, n, s)
  end.

Definition lower (c : ascii) : ascii :=
  if char_in 65 90 c then ascii_of_nat (nat_of_ascii c + 32) else c.
Fixpoint starts_ci (p s : string) : bool :=
  match p, s with
  | EmptyString, _ => true
  | String a p', String b s' => Ascii.eqb a (lower b) && starts_ci p' s'
  | _, _ => false
  end.

(** Optional exponent part introduced by the letter [l]: value and number of characters
    consumed (0 if there is no exponent). *)
Definition read_exp (l : ascii) (s : string) : Z * nat :=
  match s with
  | String c s' =>
      if Ascii.eqb (lower c) l then
        let '(neg, k, t) := match s' with
          | String "-" t => (true, 2, t) | String "+" t => (false, 2, t) | t => (false, 1, t) end in
        match read_digits dec_digit 10 t 0 0 with
        | (_, O, _) => (0%Z, 0)
        | (v, n, _) => ((if neg : bool then - v else v)%Z, (k + n)%nat)
        end
      else (0%Z, 0)
  | EmptyString => (0%Z, 0)
  end.

(** Digits with an optional fractional part: mantissa, number of fractional digits,
    number of characters consumed, rest; [None] if there is no digit. *)
Definition read_mant (dig : ascii -> option Z) (base : Z) (s : string)
  : option (Z * nat * nat * string) :=
  let '(m, n, t) := read_digits dig base s 0 0 in
  match t with
  | String "." t' =>
      let '(m2, k, t2) := read_digits dig base t' m 0 in
      match n, k with
      | O, O => None
      | _, _ => Some (m2, k, (n + 1 + k)%nat, t2)
      end
  | _ => match n with O => None | _ => Some (m, O, n, t) end
  end.

(** ERANGE: overflow, or an inexact subnormal result. [std::stod] then throws. *)
Definition in_range (v : b64) (exact : bool) : bool :=
  match v with
  | B754_infinity _ | B754_nan => false
  | B754_zero _ => exact
  | B754_finite _ m e _ => exact || Z.leb (2 ^ 52) (Zpos m)
  end.

(** value = num/den exactly? *)
Definition is_exact (v : b64) (num den : Z) : bool :=
  match v with
  | B754_zero _ => Z.eqb num 0
  | B754_finite _ m e _ => let '(a, b) := frac_of m e in Z.eqb (a * den)%Z (num * b)%Z
  | _ => false
  end.

Definition ratio (neg : bool) (num den : Z) : b64 :=
  match num, den with
  | Zpos p, Zpos q => b_ofQ neg p q
  | _, _ => B754_zero neg
  end.

Definition ranged (v : b64) (num den : Z) (sz : nat) : option (b64 * nat) :=
  if in_range v (is_exact v num den) then Some (v, sz) else None.

(** strtod after white space and sign. *)
Definition stod_unsigned (neg : bool) (s : string) : option (b64 * nat) :=
  let dec :=
    match read_mant dec_digit 10 s with
    | None =>
        if starts_ci "infinity" s then Some (B754_infinity neg, 8)
        else if starts_ci "inf" s then Some (B754_infinity neg, 3)
        else if starts_ci "nan" s then Some (B754_nan, 3)
        else None
    | Some (m, k, n, t) =>
        let '(ex, ne) := read_exp "e" t in
        let e := (ex - Z.of_nat k)%Z in
        if (e <? 0)%Z then ranged (b_dec neg m e) m (10 ^ (- e)) (n + ne)
        else ranged (b_dec neg m e) (m * 10 ^ e) 1 (n + ne)
    end in
  match s with
  | String "0" (String x s') =>
      if Ascii.eqb (lower x) "x" then
        match read_mant hex_digit 16 s' with
        | None => dec
        | Some (m, k, n, t) =>
            let '(ex, ne) := read_exp "p" t in
            let e := (ex - 4 * Z.of_nat k)%Z in
            let num := (m * 2 ^ (Z.max e 0))%Z in
            let den := (2 ^ (Z.max (- e) 0))%Z in
            ranged (ratio neg num den) num den (2 + n + ne)
        end
      else dec
  | _ => dec
  end.

(** [std::stod(s, &sz)]: [None] = throws.  Not modelled: the "nan(...)" form (parentheses
    never reach stod from the tokenizer). *)
Fixpoint b_stod_ws (s : string) (skipped : nat) : option (b64 * nat) :=
  let shift k o := match o with Some (v, n) => Some (v, (k + n)%nat) | None => None end in
  match s with
  | EmptyString => None
  | String c s' =>
      if (Nat.eqb (nat_of_ascii c) 32 || char_in 9 13 c)%bool then b_stod_ws s' (S skipped)
      else if Ascii.eqb c "-" then shift (S skipped) (stod_unsigned true s')
      else if Ascii.eqb c "+" then shift (S skipped) (stod_unsigned false s')
      else shift skipped (stod_unsigned false s)
  end.
Definition b_stod (s : string) : option (b64 * nat) := b_stod_ws s 0.

(** The libm functions. *)
Record libm := {
  m_pow : b64 -> b64 -> b64;
  m_sin : b64 -> b64; m_cos : b64 -> b64; m_tan : b64 -> b64;
  m_asin : b64 -> b64; m_acos : b64 -> b64; m_atan : b64 -> b64;
  m_log : b64 -> b64; m_log2 : b64 -> b64; m_log10 : b64 -> b64; m_exp : b64 -> b64
}.

Definition B64 (L : libm) : num_ops :=
  {| num := b64;
     n_ofZ := b_ofZ;
     n_dec := fun m e => b_dec (m <? 0)%Z (Z.abs m) e;
     n_nan := B754_nan; n_inf := B754_infinity false;
     n_neg := Bopp; n_abs := Babs;
     n_add := Bplus mode_NE; n_sub := Bminus mode_NE; n_mul := Bmult mode_NE; n_div := Bdiv mode_NE;
     n_pow := m_pow L; n_sin := m_sin L; n_cos := m_cos L; n_tan := m_tan L;
     n_asin := m_asin L; n_acos := m_acos L; n_atan := m_atan L;
     n_sqrt := Bsqrt mode_NE;
     n_log := m_log L; n_log2 := m_log2 L; n_log10 := m_log10 L; n_exp := m_exp L;
     n_eqb := Beqb; n_ltb := Bltb; n_leb := Bleb;
     n_toint := b_toint; n_tostr := b_tostr; n_stod := b_stod |}.

(** A libm for examples: every function answers NaN, except exp(0) = 1, x^0 = 1, x^2 = x*x and
    log(1) = 0. *)
Definition tiny_libm : libm :=
  let nanf := fun _ : b64 => B754_nan in
  {| m_pow := fun x y => if Beqb y (b_ofZ 2) then Bmult mode_NE x x
                         else if Beqb y (b_ofZ 0) then b_ofZ 1 else B754_nan;
     m_sin := nanf; m_cos := nanf; m_tan := nanf; m_asin := nanf; m_acos := nanf; m_atan := nanf;
     m_log := fun x => if Beqb x (b_ofZ 1) then b_ofZ 0 else B754_nan;
     m_log2 := nanf; m_log10 := nanf;
     m_exp := fun x => if Beqb x (b_ofZ 0) then b_ofZ 1 else B754_nan |}.

Definition D := B64 tiny_libm.

Example tostr_1 : b_tostr (b_dec false 125 (-2)) = "1.25". Proof. vm_compute. reflexivity. Qed.
Example tostr_2 : b_tostr (b_dec true 3 16) = "-3e+16". Proof. vm_compute. reflexivity. Qed.
Example tostr_3 : b_tostr (b_dec false 1 (-300)) = "1e-300". Proof. vm_compute. reflexivity. Qed.
Example tostr_4 : b_tostr (b_ofZ 100) = "100". Proof. vm_compute. reflexivity. Qed.
Example tostr_5 : b_tostr (b_dec false 1 (-1)) = "0.1". Proof. vm_compute. reflexivity. Qed.
Example tostr_6 : b_tostr (Bplus mode_NE (b_dec false 1 (-1)) (b_dec false 2 (-1))) = "0.3".
Proof. vm_compute. reflexivity. Qed.

(** Examples compare the proof-free representations ([B2SF]). *)
Definition show_stod (s : string) := match b_stod s with Some (v, n) => Some (B2SF v, n) | None => None end.
Example stod_1 : show_stod "1.25" = Some (B2SF (b_dec false 125 (-2)), 4). Proof. vm_compute. reflexivity. Qed.
Example stod_2 : option_map snd (show_stod "1.25e-3x") = Some 7. Proof. vm_compute. reflexivity. Qed.
Example stod_3 : show_stod "0x1.8p1" = Some (B2SF (b_ofZ 3), 7). Proof. vm_compute. reflexivity. Qed.
Example stod_4 : show_stod "1e400" = None. Proof. vm_compute. reflexivity. Qed.
