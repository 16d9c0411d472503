(** Specification vocabulary for symbolic matrices. *)
From Coq Require Import String List ZArith Bool Arith.
From Verif Require Import Base MathOp NodeModel ExprSpec MatModel VarsTableModel VarsSpec SymMatModel.
Import ListNotations.

Section S.
Context {K : num_ops}.

(** The object [A] has r rows and c columns and [A.Value(i,j)] is the expression [f i j]. *)
Definition is_sym (r c : nat) (f : nat -> nat -> expr K) (A : symmat K) : Prop :=
  s_rows A = r /\ s_cols A = c /\ length (s_data A) = r * c /\
  forall i j, i < r -> j < c -> SymValue A i j = Ok (embed (f i j)).

(** h 0 + h 1 + ... + h n, associated to the left. *)
Fixpoint esum (n : nat) (h : nat -> expr K) : expr K :=
  match n with O => h O | S n' => EBin BAdd (esum n' h) (h n) end.

(** [env] gives every variable of the table its value. *)
Definition binds (env : string -> K) (xs : list string) (vs : list K) : Prop :=
  forall x v, pair_in x v xs vs -> env x = v.

(** Every variable of [e] is one of [xs]. *)
Definition vars_within (xs : list string) (e : expr K) : Prop := forall x, occurs x e -> In x xs.
End S.
