(** What the user of the diff machine sees. *)
From Coq Require Import String Ascii List ZArith.
From Verif Require Import Base MathOp NodeModel ParseModel SubsModel DiffModel ExprSpec GrammarSpec TextSpec ErrorModel ErrorSpec MachineModel.
Import ListNotations.
Local Open Scope string_scope. Local Open Scope list_scope.

(** [w] is the next word of the input and [rest] what follows it; the empty word stands for the end of the input. *)
Definition next_word (input w rest : string) : Prop :=
  (exists ws, all_chars space ws /\ input = (ws ++ w ++ rest)%string) /\
  all_chars (fun c => ~ space c) w /\ (w = "" -> rest = "") /\
  (rest = "" \/ exists c r, rest = String c r /\ space c).

Definition line (s : string) : string := (s ++ String newline "")%string.
Definition prompt : event := Out ">>".
Definition question : list event := [Out (line "more than 1 variable. who do you want to differentiate?"); Out ">>"].

Section S.
Context {K : num_ops} (cfg : config K).

(** How the machine answers the question for the derivative of e with respect to x. *)
Inductive answers (e : expr K) (x rest : string) : list event -> after -> Prop :=
| an_text d : Diff cfg (embed e) x 1 = Ok (embed d) -> answers e x rest [Out (line "ans = "); Out (line ("  " ++ text None d))] (Reads rest)
| an_error ex : Diff cfg (embed e) x 1 = Throw ex -> answers e x rest [Err (line (what ex))] (Reads rest)
| an_dies : Diff cfg (embed e) x 1 = Terminate -> answers e x rest [] (Dies Terminate).

(** One round: the word is no expression; it has no, one or several variables. *)
Inductive round (input : string) : list event -> after -> Prop :=
| rd_error w rest ex : next_word input w rest -> Parse (K:=K) w = Throw ex -> round input [prompt; Err (line (what ex))] (Reads rest)
| rd_undefined w rest why : next_word input w rest -> Parse (K:=K) w = Undef why -> round input [prompt] (Dies (Undef why))
| rd_constant w rest (e : expr K) why : next_word input w rest -> Parse w = Ok (embed e) -> (forall x, ~ occurs x e) -> 
    (* the assertion of the empty table *) why = "rows > 0" -> round input [prompt] (Dies (AssertFail why))
| rd_one w rest (e : expr K) x evs a : next_word input w rest -> Parse w = Ok (embed e) -> (forall y, occurs y e <-> y = x) ->
    answers e x rest evs a -> round input (prompt :: evs) a
| rd_several w rest (e : expr K) x x' y rest' evs a : next_word input w rest -> Parse w = Ok (embed e) -> occurs x e -> occurs x' e -> x <> x' ->
    next_word rest y rest' -> occurs y e -> answers e y rest' evs a -> round input (prompt :: question ++ evs) a
| rd_unknown w rest (e : expr K) x x' y rest' : next_word input w rest -> Parse w = Ok (embed e) -> occurs x e -> occurs x' e -> x <> x' ->
    next_word rest y rest' -> ~ occurs y e ->
    round input (prompt :: question ++ [Err (line ("no variable " ++ quoted y ++ " in expression: " ++ w))]) (Reads rest').
End S.
