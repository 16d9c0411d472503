(** Decimal numerals. *)
From Coq Require Import String Ascii ZArith Reals.
From Verif Require Import GrammarSpec.
Local Open Scope string_scope.

(** Value of a string of digits, continuing from [acc]. *)
Fixpoint dval (acc : Z) (s : string) : Z :=
  match s with
  | EmptyString => acc
  | String c s' => dval (acc * 10 + Z.of_nat (nat_of_ascii c - 48))%Z s'
  end.

(** [decimal s x k]: the text [s] is a decimal numeral with [k] digits after the point (no point
    if there are none), denoting [x]. *)
Inductive decimal : string -> R -> nat -> Prop :=
| dec_int s : s <> "" -> all_chars digit s -> decimal s (IZR (dval 0 s)) 0
| dec_frac s t : s <> "" -> t <> "" -> all_chars digit s -> all_chars digit t ->
    decimal (s ++ String "." t) (IZR (dval 0 s) + IZR (dval 0 t) / 10 ^ String.length t)%R (String.length t).

(** No needless zeros at the ends. *)
Fixpoint last_char (s : string) : option ascii :=
  match s with EmptyString => None | String c EmptyString => Some c | String _ s' => last_char s' end.
Definition tidy (s : string) : Prop :=
  (forall c s', s = String "0" (String c s') -> c = "."%char) /\
  (forall a t, s = a ++ String "." t -> last_char t <> Some "0"%char).

(** Scientific notation: [exponent t k], the text of a signed exponent, at least two digits and
    no needless ones; [scientific s x k]: a decimal numeral between 1 and 10, then 'e', then the
    exponent [k]; it denotes [x]. *)
Inductive exponent : string -> Z -> Prop :=
| exp_text (neg : bool) t : all_chars digit t ->
    String.length t = 2 \/ String.length t = 3 /\ (100 <= dval 0 t)%Z -> (0 < dval 0 t)%Z ->
    exponent (String (if neg then "-" else "+") t) (if neg then - dval 0 t else dval 0 t)%Z.
Inductive scientific : string -> R -> Z -> Prop :=
| sci_text s y j t k : decimal s y j -> (1 <= y < 10)%R -> (j <= 16)%nat -> tidy s -> exponent t k ->
    scientific (s ++ String "e" t) (y * powerRZ 10 k) k.
