(** Specification of the text of an expression, and of what that text means when it is read
    again. *)
From Coq Require Import String Ascii List ZArith Bool Arith.
From Verif Require Import MathOp ExprSpec GrammarSpec ParseModel.
Import ListNotations.
Local Open Scope string_scope. Local Open Scope list_scope.

(** Names of the operators as written by the printer; it writes "asin" where the reader
    wants "arcsin". *)
Definition un_text (u : unop) : string :=
  match u with
  | UPos => "+" | UNeg => "-"
  | USin => "sin" | UCos => "cos" | UTan => "tan" | UAsin => "asin" | UAcos => "acos" | UAtan => "atan"
  | USqrt => "sqrt" | ULog => "log" | ULog2 => "log2" | ULog10 => "log10" | UExp => "exp"
  end.
Definition bin_char (b : binop) : ascii :=
  match b with
  | BAdd => "+" | BSub => "-" | BMul => "*" | BDiv => "/" | BPow => "^"
  | BAnd => "&" | BOr => "|" | BMod => "%"
  end.

(** Precedence level of a binary operator, as in the grammar: 0 binds loosest. *)
Definition bin_level (b : binop) : nat :=
  match b with BAdd | BSub => 0 | BMul | BDiv => 1 | BPow => 2 | BAnd | BOr => 3 | BMod => 4 end.

Inductive side := LeftOf | RightOf.

(** An operand with operator [b] of the operator [p] is put in parentheses: always if it
    binds looser than [p]; never if it binds tighter; for equal levels: never under + and *,
    always under ^, and only on the right hand side otherwise. *)
Definition parens (p : binop) (s : side) (b : binop) : bool :=
  (bin_level b <? bin_level p)%nat ||
  (bin_level b =? bin_level p)%nat &&
    match p with
    | BAdd | BMul => false
    | BPow => true
    | _ => match s with RightOf => true | LeftOf => false end
    end.

Definition in_parens (b : bool) (s : string) : string := if b then ("(" ++ s ++ ")")%string else s.

Definition is_leaf {V} (e : expr V) : bool := match e with ENum _ | EVar _ => true | _ => false end.
Definition is_signop (u : unop) : bool := match u with UPos | UNeg => true | _ => false end.

Section Text.
Context {K : num_ops}.

(** The text of an expression that is an operand of a binary operator ([Some]), or the whole
    expression or the operand of a unary operator ([None]). *)
Fixpoint text (ctx : option (binop * side)) (e : expr K) : string :=
  match e with
  | ENum v => in_parens (match ctx with Some (BSub, RightOf) => n_ltb v (n_ofZ 0) | _ => false end) (n_tostr v)
  | EVar x => x
  | EUn u a => (un_text u ++ in_parens (negb (is_signop u && is_leaf a)) (text None a))%string
  | EBin b a c =>
      in_parens (match ctx with Some (p, s) => parens p s b | None => false end)
        (text (Some (b, LeftOf)) a ++ String (bin_char b) (text (Some (b, RightOf)) c))%string
  end.

(** The number [v] is written as the word of the number [v'], after a minus sign if [v] is
    negative. *)
Definition written_as (v v' : K) : Prop :=
  exists w, lexeme fnv1a (SNum v') w /\
    n_tostr v = (if n_ltb v (n_ofZ 0) then String "-" w else w).

(** Every word of the expression can be read: numbers [v] are written as [rd v], variables are
    words that can only be variables, and functions are called by the reader what the printer
    calls them. *)
Fixpoint legible (rd : K -> K) (e : expr K) : Prop :=
  match e with
  | ENum v => written_as v (rd v)
  | EVar x => lexeme (K:=K) fnv1a (SVar x) x
  | EUn u a => (is_signop u = true \/ fun_name u = Some (un_text u) /\ lexeme (K:=K) fnv1a (SFun u) (un_text u)) /\ legible rd a
  | EBin _ a c => legible rd a /\ legible rd c
  end.

(** [a + (b - c)] is written without parentheses and so means [(a + b) - c]; the same for
    * and /. *)
Fixpoint attach (p : binop) (a c : expr K) : expr K :=
  match p, c with
  | BAdd, EBin (BAdd as b) c1 c2 | BAdd, EBin (BSub as b) c1 c2
  | BMul, EBin (BMul as b) c1 c2 | BMul, EBin (BDiv as b) c1 c2 => EBin b (attach p a c1) c2
  | _, _ => EBin p a c
  end.

(** The expression that is read back: signs of literals become unary minus and the chains of
    + - and of * / are associated to the left. *)
Fixpoint reread (rd : K -> K) (e : expr K) : expr K :=
  match e with
  | ENum v => if n_ltb v (n_ofZ 0) then EUn UNeg (ENum (rd v)) else ENum (rd v)
  | EVar x => EVar x
  | EUn u a => EUn u (reread rd a)
  | EBin b a c => attach b (reread rd a) (reread rd c)
  end.

(** No literal is negative, and no right operand of + (of * ) is a sum or difference (a product
    or quotient). *)
Fixpoint left_nested (e : expr K) : Prop :=
  match e with
  | ENum v => n_ltb v (n_ofZ 0) = false
  | EVar _ => True
  | EUn _ a => left_nested a
  | EBin b a c => left_nested a /\ left_nested c /\
      match b, c with
      | BAdd, EBin BAdd _ _ | BAdd, EBin BSub _ _ | BMul, EBin BMul _ _ | BMul, EBin BDiv _ _ => False
      | _, _ => True
      end
  end.
End Text.
