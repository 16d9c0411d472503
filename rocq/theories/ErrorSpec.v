(** Specification for C54: the texts of errors. *)
From Coq Require Import String Ascii List ZArith Decimal DecimalString.
From Verif Require Import Base MathOp ExprSpec GrammarSpec.
Import ListNotations.
Local Open Scope string_scope. Local Open Scope list_scope.

Definition newline : ascii := ascii_of_nat 10.
Definition quoted (s : string) : string := ("""" ++ s ++ """")%string.
Definition decimal (n : nat) : string := NilZero.string_of_uint (Nat.to_uint n).
Definition spaces (n : nat) : string := Nat.iter n (String " ") "".

(** Three lines: what is wrong, a text, and a mark below column [col] of the text. *)
Definition block (title : string) (text : string) (col : nat) : string :=
  (title ++ String newline (text ++ String newline (spaces col ++ "^---- error position")))%string.
Definition at_col (title : string) (col : nat) : string :=
  ("[Parse Error] " ++ title ++ " at(0, " ++ decimal col ++ "):")%string.

(** The lines of a text. *)
Fixpoint lines (s : string) : list string :=
  match s with
  | EmptyString => [""]
  | String c s' =>
      if Ascii.eqb c newline then "" :: lines s'
      else match lines s' with
           | l :: ls => String c l :: ls
           | [] => [String c ""]
           end
  end.
Definition one_line (s : string) : Prop := all_chars (fun c => c <> newline) s.

(** [w] stands in [s] at column [col]. *)
Definition stands (s : string) (col : nat) (w : string) : Prop :=
  w <> "" /\ exists before after, s = (before ++ w ++ after)%string /\ String.length before = col.

(** [text]: how the library tells that the text [s] cannot be parsed. *)
Inductive complaint {K : num_ops} (hash : string -> Z) (s : string) : string -> Prop :=
| cp_empty : s = "" -> complaint hash s (block "[Parse Error]  at(0, 0):" "empty input" 0)
| cp_word col w : stands s col w -> (forall t : stok K, ~ lexeme hash t w) ->
    complaint hash s (block (at_col ("Invalid variable name: " ++ quoted w) col) w col)
| cp_parenthesis col p : p = "(" \/ p = ")" -> stands s col p ->
    complaint hash s (block (at_col ("Parenthesis not match: " ++ quoted p) col) s col)
| cp_several (places : list (nat * string)) : places <> [] ->
    (forall col w, In (col, w) places -> stands s col w) ->
    complaint hash s (String.concat "" (map (fun '(col, w) =>
      (block (at_col ("Parse Error at: " ++ quoted w) col) s col ++ String newline "")%string) places))
| cp_operands : complaint hash s "invalid expression".

(** An operation that has no valid number as its result, written out. *)
Definition un_text (u : unop) : string :=
  match u with
  | UPos => "+" | UNeg => "-" | USin => "sin" | UCos => "cos" | UTan => "tan" | UAsin => "asin" | UAcos => "acos"
  | UAtan => "atan" | USqrt => "sqrt" | ULog => "log" | ULog2 => "log2" | ULog10 => "log10" | UExp => "exp"
  end.
Definition bin_text (b : binop) : string :=
  match b with
  | BAdd => "+" | BSub => "-" | BMul => "*" | BDiv => "/" | BPow => "^" | BMod => "%" | BAnd => "&" | BOr => "|"
  end.

Section Sub.
Context {K : num_ops}.
(** Subexpressions. *)
Inductive part_of : expr K -> expr K -> Prop :=
| po_refl e : part_of e e
| po_un u a e : part_of e a -> part_of e (EUn u a)
| po_left b a c e : part_of e a -> part_of e (EBin b a c)
| po_right b a c e : part_of e c -> part_of e (EBin b a c).
(** [failing e text]: some operation in [e] with valid operands has no valid result; [text] shows it. *)
Definition failing (e : expr K) (text : string) : Prop :=
  (exists u a x, part_of (EUn u a) e /\ eval true a = Value x /\ invalid (un_sem u x) /\
     text = (un_text u ++ " " ++ n_tostr x)%string) \/
  (exists b a c x y z, part_of (EBin b a c) e /\ eval true a = Value x /\ eval true c = Value y /\
     bin_sem b x y = Some z /\ invalid z /\ text = (n_tostr x ++ " " ++ bin_text b ++ " " ++ n_tostr y)%string).
End Sub.
