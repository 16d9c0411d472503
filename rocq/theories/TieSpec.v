(** Gaussian elimination in which every pivot column has an entry that is not small. *)
From Coq Require Import List ZArith Bool.
From Verif Require Import MathOp MatSpec ClearSpec.

Section Pivots.
Context {K : num_ops} (cfg : config K).

(** Column y of the rows below row y is cleared; row y is the pivot row. *)
Definition cleared (y : nat) (M : nat -> nat -> K) (i j : nat) : K :=
  if n_leb (epsilon cfg) (n_abs (M i y)) then n_sub (M i j) (n_mul (n_div (M y j) (M y y)) (M i y)) else M i j.

(** Rows and columns y, y+1, ..., n-1 of M can be eliminated in turn: among the entries of the pivot
    column row p has the first one of the largest absolute value, and that one is not small.  Ties are allowed. *)
Inductive pivots (n : nat) : nat -> (nat -> nat -> K) -> Prop :=
| pv_end M : pivots n n M
| pv_step y p M : y <= p -> p < n ->
    n_eqb (n_abs (M p y)) (n_abs (M p y)) = true -> n_ltb (n_abs (M p y)) (epsilon cfg) = false ->
    (forall i, y <= i -> i < p -> strictly_larger (M p y) (M i y)) ->
    (forall i, p < i -> i < n -> n_ltb (n_abs (M p y)) (n_abs (M i y)) = false) ->
    pivots n (S y) (cleared y (fun i j => M (swap_idx y p i) j)) ->
    pivots n y M.
End Pivots.
