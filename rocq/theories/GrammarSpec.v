(** Specification of the input language of [Parse]: tokens, an infix grammar with
    precedence levels, and how token sequences are written as text. *)
From Coq Require Import String Ascii List ZArith Bool Arith.
From Verif Require Import MathOp ExprSpec.
Import ListNotations.
Local Open Scope string_scope. Local Open Scope list_scope.

Inductive stok (V : Type) :=
| SNum (v : V)          (* a number *)
| SVar (x : string)     (* a variable *)
| SFun (u : unop)       (* a function name *)
| SSym (c : ascii)      (* one of + - * / ^ & | % *)
| SLP | SRP.            (* ( and ) *)
Arguments SNum {V}. Arguments SVar {V}. Arguments SFun {V}. Arguments SSym {V}.
Arguments SLP {V}. Arguments SRP {V}.

(** The function names of the language. *)
Definition fun_name (u : unop) : option string :=
  match u with
  | UPos | UNeg => None
  | USin => Some "sin" | UCos => Some "cos" | UTan => Some "tan"
  | UAsin => Some "arcsin" | UAcos => Some "arccos" | UAtan => Some "arctan"
  | USqrt => Some "sqrt" | ULog => Some "log" | ULog2 => Some "log2" | ULog10 => Some "log10"
  | UExp => Some "exp"
  end.

(** Binary operators that associate to the left, with their precedence level
    (0 binds loosest). *)
Inductive left_op : nat -> ascii -> binop -> Prop :=
| lo_add : left_op 0 "+" BAdd
| lo_sub : left_op 0 "-" BSub
| lo_mul : left_op 1 "*" BMul
| lo_div : left_op 1 "/" BDiv
| lo_and : left_op 3 "&" BAnd
| lo_or : left_op 3 "|" BOr
| lo_mod : left_op 4 "%" BMod.

Inductive sign_op : ascii -> unop -> Prop :=
| so_pos : sign_op "+" UPos
| so_neg : sign_op "-" UNeg.

(** [derives k ts e]: the token sequence [ts] is a phrase of level [k] denoting [e].
<<
      level 0:  E0 ::= E1 | E0 (+|-) E1
      level 1:  E1 ::= E2 | E1 ( * |/) E2
      level 2:  E2 ::= E3 | E3 ^ E2
      level 3:  E3 ::= E4 | E3 (&||) E4
      level 4:  E4 ::= E5 | E4 % E5
      level 5:  E5 ::= E6 | (+|-) E5
      level 6:  E6 ::= number | variable | ( E0 ) | f ( E0 )
>> *)
Inductive derives {V} : nat -> list (stok V) -> expr V -> Prop :=
| d_up k ts e : k < 6 -> derives (S k) ts e -> derives k ts e
| d_left k c b ts1 e1 ts2 e2 :
    left_op k c b -> derives k ts1 e1 -> derives (S k) ts2 e2 ->
    derives k (ts1 ++ SSym c :: ts2) (EBin b e1 e2)
| d_pow ts1 e1 ts2 e2 :
    derives 3 ts1 e1 -> derives 2 ts2 e2 ->
    derives 2 (ts1 ++ SSym "^" :: ts2) (EBin BPow e1 e2)
| d_sign c u ts e : sign_op c u -> derives 5 ts e -> derives 5 (SSym c :: ts) (EUn u e)
| d_num v : derives 6 [SNum v] (ENum v)
| d_var x : derives 6 [SVar x] (EVar x)
| d_paren ts e : derives 0 ts e -> derives 6 (SLP :: ts ++ [SRP]) e
| d_fun u name ts e : fun_name u = Some name -> derives 0 ts e ->
    derives 6 (SFun u :: SLP :: ts ++ [SRP]) (EUn u e).

(** ** Reading signs *)

(** After this token a + or - is a sign (and not a binary operator). *)
Definition after {V} (t : stok V) : bool :=
  match t with SNum _ | SVar _ | SRP => false | _ => true end.

(** The operator denoted by a symbol character. *)
Definition sym_meaning (c : ascii) (unary : bool) : option (unop + binop) :=
  match c with
  | "+"%char => Some (if unary then inl UPos else inr BAdd)
  | "-"%char => Some (if unary then inl UNeg else inr BSub)
  | "*"%char => Some (inr BMul) | "/"%char => Some (inr BDiv) | "^"%char => Some (inr BPow)
  | "&"%char => Some (inr BAnd) | "|"%char => Some (inr BOr) | "%"%char => Some (inr BMod)
  | _ => None
  end.

(** The operators written in a token sequence; [unary]: is a sign at the start unary? *)
Fixpoint operators {V} (unary : bool) (ts : list (stok V)) : list (unop + binop) :=
  match ts with
  | [] => []
  | t :: ts' =>
      match t with
      | SFun u => [inl u]
      | SSym c => match sym_meaning c unary with Some o => [o] | None => [] end
      | _ => []
      end ++ operators (after t) ts'
  end.

(** The operands (numbers and variables) written in a token sequence. *)
Fixpoint operands {V} (ts : list (stok V)) : list (expr V) :=
  match ts with
  | [] => []
  | SNum v :: ts' => ENum v :: operands ts'
  | SVar x :: ts' => EVar x :: operands ts'
  | _ :: ts' => operands ts'
  end.

(** Leaves (left to right) and operators of an expression. *)
Fixpoint leaves {V} (e : expr V) : list (expr V) :=
  match e with
  | ENum _ | EVar _ => [e]
  | EUn _ a => leaves a
  | EBin _ a c => leaves a ++ leaves c
  end.
Fixpoint ops {V} (e : expr V) : list (unop + binop) :=
  match e with
  | ENum _ | EVar _ => []
  | EUn u a => inl u :: ops a
  | EBin b a c => inr b :: ops a ++ ops c
  end.

(** ** Parentheses *)
Definition opens {V} (ts : list (stok V)) : nat :=
  length (filter (fun t => match t with SLP => true | _ => false end) ts).
Definition closes {V} (ts : list (stok V)) : nat :=
  length (filter (fun t => match t with SRP => true | _ => false end) ts).
(** No prefix closes more than it opened. *)
Definition never_overclosed {V} (ts : list (stok V)) : Prop :=
  forall p q, ts = p ++ q -> closes p <= opens p.

(** ** Text *)

Definition space (c : ascii) : Prop := In (nat_of_ascii c) [9; 10; 11; 12; 13; 32].
Definition symbol (c : ascii) : Prop :=
  In c ["("; ")"; "+"; "-"; "*"; "/"; "^"; "&"; "|"; "%"]%char.

Fixpoint all_chars (P : ascii -> Prop) (s : string) : Prop :=
  match s with EmptyString => True | String c s' => P c /\ all_chars P s' end.

(** The text after a word must not continue the word. *)
Definition delimited (s : string) : Prop :=
  match s with EmptyString => True | String c _ => space c \/ symbol c end.

(** Legal identifiers. *)
Definition letter (c : ascii) : Prop :=
  let k := nat_of_ascii c in 65 <= k <= 90 \/ 97 <= k <= 122.
Definition digit (c : ascii) : Prop := let k := nat_of_ascii c in 48 <= k <= 57.
Definition identifier (s : string) : Prop :=
  match s with
  | EmptyString => False
  | String c s' => (letter c \/ c = "_"%char) /\
                   all_chars (fun d => letter d \/ digit d \/ d = "_"%char) s'
  end.

Section Text.
Context {K : num_ops}.

(** [w] is read as the number [v] by the numeric reader of [K]. *)
Definition number_word (w : string) (v : K) : Prop := n_stod w = Some (v, String.length w).

Variable hash : string -> Z. (* the hash used by the implementation to recognise functions *)

(** How a token is written.  A function is written by its name - or, as far as the
    implementation is concerned, by any word with the same hash; a word that collides with
    a function name cannot be a variable. *)
Inductive lexeme : stok K -> string -> Prop :=
| lx_num v w : w <> "" -> all_chars (fun c => ~ space c /\ ~ symbol c) w -> number_word w v ->
    lexeme (SNum v) w
| lx_var x : identifier x -> (forall v, ~ number_word x v) ->
    (forall u name, fun_name u = Some name -> hash x <> hash name) -> lexeme (SVar x) x
| lx_fun u name w : fun_name u = Some name -> hash w = hash name ->
    w <> "" -> all_chars (fun c => ~ space c /\ ~ symbol c) w -> (forall v, ~ number_word w v) ->
    lexeme (SFun u) w
| lx_sym c : symbol c -> c <> "("%char -> c <> ")"%char -> lexeme (SSym c) (String c "")
| lx_lp : lexeme SLP "("
| lx_rp : lexeme SRP ")".

Definition is_word_tok (t : stok K) : Prop :=
  match t with SNum _ | SVar _ | SFun _ => True | _ => False end.

(** [renders ts s]: [s] is a way of writing [ts], with any white space around tokens. *)
Inductive renders : list (stok K) -> string -> Prop :=
| r_nil ws : all_chars space ws -> renders [] ws
| r_cons ws t w ts rest : all_chars space ws -> lexeme t w -> renders ts rest ->
    (is_word_tok t -> delimited rest) -> renders (t :: ts) (ws ++ w ++ rest)%string.

End Text.
