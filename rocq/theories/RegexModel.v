(** config.cpp:12-37 [ToString(double)] as it is written: the table of formats and regular
    expressions, snprintf into a buffer of 64 characters and std::regex_replace.  (IEEE.v [b_tostr]
    gives the resulting text directly; Thm_Regex.v proves that they agree.)

    Also node.cpp:663-665 [VarNameIsLegal] with its regular expression.

    The regular expressions are a fragment of ECMAScript's: characters and classes of characters,
    [?], [+] on one character, [*] on a class, concatenation and the lookaheads [(?=c)] and [(?=$)],
    matched by backtracking with greedy repetition as ECMAScript (and std::regex) prescribes. *)
From Coq Require Import String Ascii ZArith Bool List.
From Flocq Require Import IEEE754.BinarySingleNaN.
From Verif Require Import IEEE NodeModel.
Import ListNotations.
Local Open Scope string_scope. Local Open Scope list_scope.

Inductive regex :=
| RChar (c : ascii)
| ROpt (r : regex)                (* r? *)
| RPlus (c : ascii)               (* c+ *)
| RLook (c : ascii)               (* (?=c) *)
| RLookEnd                        (* (?=$) *)
| RSet (p : ascii -> bool)        (* \w, \D *)
| RStar (p : ascii -> bool)       (* \w* *)
| RLookSet (p : ascii -> bool)    (* (?=\w) *)
| RSeq (r1 r2 : regex).

(** c+ : as many as possible first; [k] is what has to match afterwards. *)
Fixpoint plus_match (c : ascii) (s : string) (k : string -> option string) : option string :=
  match s with
  | String d s' =>
      if Ascii.eqb c d then match plus_match c s' k with Some r => Some r | None => k s' end
      else None
  | EmptyString => None
  end.
Fixpoint star_match (p : ascii -> bool) (s : string) (k : string -> option string) : option string :=
  match s with
  | String d s' => if p d then match star_match p s' k with Some r => Some r | None => k s end else k s
  | EmptyString => k s
  end.
(** The rest of [s] after the first match (in the order of preference) of [r] at the beginning of
    [s] that [k] accepts. *)
Fixpoint rmatch (r : regex) (s : string) (k : string -> option string) : option string :=
  match r with
  | RChar c => match s with String d s' => if Ascii.eqb c d then k s' else None | EmptyString => None end
  | ROpt r1 => match rmatch r1 s k with Some t => Some t | None => k s end
  | RPlus c => plus_match c s k
  | RLook c => match s with String d _ => if Ascii.eqb c d then k s else None | EmptyString => None end
  | RLookEnd => match s with EmptyString => k s | String _ _ => None end
  | RSet p => match s with String d s' => if p d then k s' else None | EmptyString => None end
  | RStar p => star_match p s k
  | RLookSet p => match s with String d _ => if p d then k s else None | EmptyString => None end
  | RSeq r1 r2 => rmatch r1 s (fun s1 => rmatch r2 s1 k)
  end.

(** std::regex_replace(s, r, ""): the matches are searched from left to right, the text between
    them is copied.  The fuel is one step per character. *)
Fixpoint replace_rec (fuel : nat) (r : regex) (s : string) : string :=
  match fuel, s with
  | O, _ | _, EmptyString => ""
  | S fuel', String c s' =>
      match rmatch r s Some with
      | Some t => if Nat.eqb (String.length t) (String.length s) then String c (replace_rec fuel' r s')
                  else replace_rec fuel' r t
      | None => String c (replace_rec fuel' r s')
      end
  end.
Definition regex_replace (s : string) (r : regex) : string := replace_rec (S (String.length s)) r s.

(** std::regex_match(s, r): the whole of [s] has to match. *)
Definition regex_match (s : string) (r : regex) : bool :=
  match rmatch r s (fun t => match t with EmptyString => Some t | _ => None end) with Some _ => true | None => false end.

(** node.cpp:663-665 [VarNameIsLegal], literally: (?=\w)\D\w*. *)
Definition legal_name (s : string) : bool :=
  regex_match s (RSeq (RLookSet is_word) (RSeq (RSet (fun c => negb (is_digit c))) (RStar is_word))).

(** config.cpp:12-15. *)
Inductive format := Percent16e | Percent16f.
Definition strategies : list (format * regex) :=
  [ (Percent16e, RSeq (ROpt (RChar ".")) (RSeq (RPlus "0") (RLook "e")));
    (Percent16f, RSeq (ROpt (RChar ".")) (RSeq (RPlus "0") RLookEnd)) ].

(** printf (C standard, 7.21.6.1) with "%.16f": integer part, point, 16 digits; with "%.16e": one
    digit, point, 16 digits, 'e', sign, at least two digits; correctly rounded (glibc). *)
Definition printf_f (neg : bool) (num den : Z) : string :=
  let n := rhe (num * 10 ^ 16) den in
  ((if neg then "-" else "") ++ strip_leading (fixdigits 20 (n / 10 ^ 16)%Z "")
   ++ "." ++ fixdigits 16 (n mod 10 ^ 16)%Z "")%string.
Definition printf_e (neg : bool) (num den : Z) : string :=
  let k := dec_exp 800 (-400)%Z num den in
  let n := if (16 - k <? 0)%Z then rhe num (den * 10 ^ (k - 16)) else rhe (num * 10 ^ (16 - k)) den in
  let '(n, k) := if (n =? 10 ^ 17)%Z then ((10 ^ 16)%Z, (k + 1)%Z) else (n, k) in
  ((if neg then "-" else "")
   ++ fixdigits 1 (n / 10 ^ 16)%Z "" ++ "." ++ fixdigits 16 (n mod 10 ^ 16)%Z ""
   ++ "e" ++ (if (k <? 0)%Z then "-" else "+")
   ++ (if (Z.abs k <? 100)%Z then fixdigits 2 (Z.abs k) "" else fixdigits 3 (Z.abs k) ""))%string.
Definition printf (fmt : format) (v : b64) : string :=
  match v with
  | B754_zero s => ((if s then "-" else "") ++ "0.0000000000000000" ++ (match fmt with Percent16e => "e+00" | Percent16f => "" end))%string
  | B754_infinity s => if s then "-inf" else "inf"
  | B754_nan => "nan"
  | B754_finite s m e _ =>
      let '(num, den) := frac_of m e in
      match fmt with Percent16e => printf_e s num den | Percent16f => printf_f s num den end
  end.

(** config.cpp:19-37. *)
Definition ToString_double (value : b64) : string :=
  if Beqb value (b_ofZ 0) then "0" else
  let absValue := Babs value in
  let idx := if Bleb (b_ofZ (10 ^ 16)) absValue || Bleb absValue (b_dec false 1 (-16)) then 0%nat else 1%nat in
  match nth_error strategies idx with
  | Some (fmt, re) => let buf := substring 0 63 (printf fmt value) in regex_replace buf re
  | None => ""
  end.
