(** What a user can observe of a table of variables. *)
From Coq Require Import String List ZArith Bool Sorting.Sorted.
From Verif Require Import Base MathOp MatModel VarsTableModel.
Import ListNotations.

Section S.
Context {K : num_ops}.

(** The vector object [v] holds exactly the numbers [l]. *)
Definition vec_is (v : mat K) (l : list K) : Prop :=
  m_rows v = length l /\ m_cols v = 1 /\ m_data v = l.

(** [(x, v)] is one of the pairs name/value of the parallel lists xs, vs. *)
Definition pair_in (x : string) (v : K) (xs : list string) (vs : list K) : Prop :=
  exists i, nth_error xs i = Some x /\ nth_error vs i = Some v.

(** The table [t] holds the variables [xs] (all different, in this order) with the values
    [vs], and every access function agrees on that. *)
Record holds (t : vars_table K) (xs : list string) (vs : list K) : Prop := {
  h_nonempty : xs <> [];
  h_nodup : NoDup xs;
  h_len : length xs = length vs;
  h_nums : VarNums t = length xs;
  h_vars : Vars t = xs;
  h_values : vec_is (Values t) vs;
  h_get : forall x v, VarsTable_get t x = Ok v <-> pair_in x v xs vs;
  h_absent : forall x, ~ In x xs -> exists msg, VarsTable_get t x = Throw (OutOfRange msg);
  h_has : forall x, Has t x = true <-> In x xs;
  (* iteration yields every pair once, in increasing order of the names *)
  h_sorted : StronglySorted (fun x y => String.compare x y = Lt) (map fst (Items t));
  h_items : forall x v, In (x, v) (Items t) <-> pair_in x v xs vs
}.

(** The first entry of [l] for [x] has value [v]. *)
Definition first_entry (l : list (string * K)) (x : string) (v : K) : Prop :=
  exists i, nth_error l i = Some (x, v) /\ forall j w, j < i -> nth_error l j <> Some (x, w).
End S.
