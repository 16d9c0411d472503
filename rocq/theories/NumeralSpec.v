(** Specification of the words that are numbers: what strtod accepts (without sign and white
    space), and the real numbers they stand for. *)
From Coq Require Import String Ascii List ZArith Reals Bool.
Import ListNotations.
Local Open Scope string_scope.

(** The digit c counts d. *)
Definition digit_value (c : ascii) (d : Z) : Prop :=
  (0 <= d)%Z /\ (String.get (Z.to_nat d) "0123456789abcdef" = Some c \/ String.get (Z.to_nat d) "0123456789ABCDEF" = Some c).

(** A string of digits in base b, and its value. *)
Inductive digits (b : Z) : string -> Z -> Prop :=
| ds_nil : digits b "" 0
| ds_snoc s c v d : digits b s v -> digit_value c d -> (d < b)%Z -> digits b (s ++ String c "") (v * b + d).

(** Digits with or without a point; at least one digit. *)
Inductive mantissa (b : Z) : string -> R -> Prop :=
| mant_int s m : s <> "" -> digits b s m -> mantissa b s (IZR m)
| mant_frac s t m f : s ++ t <> "" -> digits b s m -> digits b t f ->
    mantissa b (s ++ "." ++ t) (IZR m + IZR f / IZR b ^ String.length t).

(** Decimal numerals, and hexadecimal ones (0x...); with or without an exponent, of 10 after e
    and of 2 after p. *)
Inductive numeral : string -> R -> Prop :=
| num_dec s x : mantissa 10 s x -> numeral s x
| num_dec_exp s x c t n : mantissa 10 s x -> In c ["e"; "E"]%char -> t <> "" -> digits 10 t n ->
    numeral (s ++ String c t) (x * 10 ^ Z.to_nat n)
| num_hex c s x : In c ["x"; "X"]%char -> mantissa 16 s x -> numeral (String "0" (String c s)) x
| num_hex_exp c s x p t n : In c ["x"; "X"]%char -> mantissa 16 s x -> In p ["p"; "P"]%char -> t <> "" -> digits 10 t n ->
    numeral (String "0" (String c (s ++ String p t))) (x * 2 ^ Z.to_nat n).

(** The same letters, in either case. *)
Definition upper (c : ascii) : ascii :=
  let k := nat_of_ascii c in if Nat.leb 97 k && Nat.leb k 122 then ascii_of_nat (k - 32) else c.
Fixpoint same_letters (s t : string) : bool :=
  match s, t with
  | EmptyString, EmptyString => true
  | String a s', String b t' => Ascii.eqb (upper a) (upper b) && same_letters s' t'
  | _, _ => false
  end.
