(** Specification vocabulary for matrices: "A is the r x c matrix with entries f". *)
From Coq Require Import String List ZArith Bool Arith.
From Verif Require Import Base MathOp MatModel.
Import ListNotations.

Section Spec.
Context {K : num_ops}.

(** The object [A] has r rows, c columns, r*c stored numbers, and [A.Value(i,j)] is [f i j]. *)
Definition is_mat (r c : nat) (f : nat -> nat -> K) (A : mat K) : Prop :=
  m_rows A = r /\ m_cols A = c /\ length (m_data A) = r * c /\
  forall i j, i < r -> j < c -> Value A i j = Ok (f i j).

(** A well-formed matrix object: what every constructor produces. *)
Definition wf_mat (A : mat K) : Prop :=
  0 < m_rows A /\ 0 < m_cols A /\ length (m_data A) = m_rows A * m_cols A.

(** A vector is a matrix with one column. *)
Definition is_vec (r : nat) (f : nat -> K) (v : mat K) : Prop := is_mat r 1 (fun i _ => f i) v.

(** f with i and j exchanged. *)
Definition swap_idx (i j k : nat) : nat :=
  if Nat.eqb k i then j else if Nat.eqb k j then i else k.

(** Sum of g 0, ..., g (n-1) from left to right (0 if n = 0). *)
Definition ksum (n : nat) (g : nat -> K) : K := va_sum (map g (seq 0 n)).

(** Entry (i,j) of a list of rows. *)
Definition lentry (rows : list (list K)) (i j : nat) : K := nth j (nth i rows []) (n_ofZ 0).
End Spec.
