(** Gaussian elimination in which every pivot is unambiguous, written for lists of rows.  A row is
    the list of its coefficients from the current column on, followed by its right-hand side. *)
From Coq Require Import List ZArith Bool Permutation.
From Verif Require Import MathOp.
Import ListNotations.

Section Clear.
Context {K : num_ops} (cfg : config K).

(** |a| is larger than |b| in every comparison the program can make. *)
Definition strictly_larger (a b : K) : Prop :=
  n_ltb (n_abs b) (n_abs a) = true /\ n_ltb (n_abs a) (n_abs b) = false /\ n_eqb (n_abs b) (n_abs a) = false.

(** The first entry of a row (rows are never empty here). *)
Definition first (row : list K) : K := hd (n_ofZ 0) row.

(** What is left of a row after the pivot row p :: ps has been used to clear its first entry. *)
Definition reduced (p : K) (ps row : list K) : list K :=
  match row with
  | [] => []
  | r :: rs =>
      if n_leb (epsilon cfg) (n_abs r)
      then map (fun '(s, q) => n_sub s (n_mul (n_div q p) r)) (combine rs ps)
      else rs
  end.

(** [eliminates rows us]: elimination with the largest first entry as pivot meets no tie and no
    small pivot; [us] are the pivot rows, divided by their pivots, without the leading 1. *)
Inductive eliminates : list (list K) -> list (list K) -> Prop :=
| el_done : eliminates [] []
| el_pivot rows p ps rest us :
    Permutation rows ((p :: ps) :: rest) ->
    n_eqb (n_abs p) (n_abs p) = true -> n_ltb (n_abs p) (epsilon cfg) = false ->
    (forall r, In r rest -> strictly_larger p (first r)) ->
    eliminates (map (reduced p ps) rest) us ->
    eliminates rows (map (fun q => n_div q p) ps :: us).

(** The system with coefficients f and right-hand side g as a list of n rows. *)
Definition row_of (n : nat) (f : nat -> nat -> K) (g : nat -> K) (i : nat) : list K := map (f i) (seq 0 n) ++ [g i].
Definition clear_pivots (n : nat) (f : nat -> nat -> K) (g : nat -> K) : Prop :=
  exists us, eliminates (map (row_of n f g) (seq 0 n)) us.

(** [pi] is a rearrangement of 0, ..., n-1. *)
Definition rearrangement (n : nat) (pi : nat -> nat) : Prop := Permutation (map pi (seq 0 n)) (seq 0 n).
End Clear.
