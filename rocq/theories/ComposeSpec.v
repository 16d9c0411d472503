(** Specification of textual substitution: variables of a text replaced by other texts in
    parentheses. *)
From Coq Require Import String Ascii List ZArith Bool Arith.
From Verif Require Import Base MathOp NodeModel ExprSpec GrammarSpec.
Import ListNotations.
Local Open Scope string_scope. Local Open Scope list_scope.

Section Text.
Context {K : num_ops}.
Variable hash : string -> Z.

(** [replaced rho ts t t']: the text t reads as the tokens ts, and t' is t with every variable x
    for which [rho x = Some s] replaced by "(s)".  White space and everything else is kept. *)
Inductive replaced (rho : string -> option string) : list (stok K) -> string -> string -> Prop :=
| rp_nil ws : all_chars space ws -> replaced rho [] ws ws
| rp_keep ws t w ts rest rest' : all_chars space ws -> lexeme hash t w -> replaced rho ts rest rest' ->
    (is_word_tok t -> delimited rest) -> (forall x, t = SVar x -> rho x = None) ->
    replaced rho (t :: ts) (ws ++ w ++ rest)%string (ws ++ w ++ rest')%string
| rp_var ws x s ts rest rest' : all_chars space ws -> lexeme (K:=K) hash (SVar x) x -> replaced rho ts rest rest' ->
    delimited rest -> rho x = Some s ->
    replaced rho (SVar x :: ts) (ws ++ x ++ rest)%string (ws ++ "(" ++ s ++ ")" ++ rest')%string.
End Text.
