(** Specification of substitution: the simultaneous replacement of variables. *)
From Coq Require Import String List ZArith Bool.
From Verif Require Import Base MathOp NodeModel ExprSpec.
Import ListNotations.

Section S.
Context {K : num_ops}.

(** [s x = Some t]: x is replaced by t; [None]: x is kept.  Replacements are not looked into
    again. *)
Definition substitution := string -> option (expr K).

Fixpoint subst (s : substitution) (e : expr K) : expr K :=
  match e with
  | ENum v => ENum v
  | EVar x => match s x with Some t => t | None => EVar x end
  | EUn u a => EUn u (subst s a)
  | EBin b a c => EBin b (subst s a) (subst s c)
  end.

(** Evaluation with the variables bound to numbers. *)
Fixpoint eval_in (strict : bool) (env : string -> K) (e : expr K) : outcome K :=
  match e with
  | ENum v => Value v
  | EVar x => Value (env x)
  | EUn u a =>
      match eval_in strict env a with
      | Value x => finish strict (Some (un_sem u x))
      | o => o
      end
  | EBin b a c =>
      match eval_in strict env a with
      | Value x =>
          match eval_in strict env c with
          | Value y => finish strict (bin_sem b x y)
          | o => o
          end
      | o => o
      end
  end.

(** A dictionary (std::map: at most one entry per key) describes a substitution. *)
Definition dict_subst (d : list (string * expr K)) (s : substitution) : Prop :=
  NoDup (map fst d) /\ forall x t, s x = Some t <-> In (x, t) d.

(** Two parallel vectors describe a substitution: the first entry for a name counts. *)
Definition vec_subst (xs : list string) (ts : list (expr K)) (s : substitution) : Prop :=
  length xs = length ts /\
  forall x t, s x = Some t <->
    exists i, nth_error xs i = Some x /\ nth_error ts i = Some t /\
      forall j, j < i -> nth_error xs j <> Some x.
End S.
