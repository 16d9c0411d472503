(** Specification of renaming variables. *)
From Coq Require Import String List.
From Verif Require Import Base MathOp NodeModel SubsModel MatModel VarsTableModel SymMatModel.
Import ListNotations.

Section Rename.
Context {K : num_ops}.

(** The tree with every variable [x] called [f x]. *)
Fixpoint rename (f : string -> string) (n : node K) : node K :=
  match n with
  | Nil => Nil
  | N ty op v x l r => N ty op v (match ty with VARIABLE => f x | _ => x end) (rename f l) (rename f r)
  end.

(** All variables of the tree are among [names]. *)
Fixpoint mentions_only (names : list string) (n : node K) : Prop :=
  match n with
  | Nil => True
  | N ty _ _ x l r => (match ty with VARIABLE => In x names | _ => True end) /\ mentions_only names l /\ mentions_only names r
  end.

Definition rename_mat (f : string -> string) (A : symmat K) : symmat K :=
  MkSym (s_rows A) (s_cols A) (map (rename f) (s_data A)).

(** [t'] holds for [f x] what [t] holds for [x], and lists the variables in the same order
    with the same vector of values. *)
Definition renamed_table (f : string -> string) (names : list string) (t t' : vars_table K) : Prop :=
  incl (Vars t) names /\ Vars t' = map f (Vars t) /\ Values t' = Values t /\
  forall x, In x names -> map_find (f x) (Items t') = map_find x (Items t).

(** The same outcome, up to a relation between the returned values. *)
Definition same_outcome {A B} (R : A -> B -> Prop) (r : res A) (r' : res B) : Prop :=
  match r, r' with
  | Ok a, Ok b => R a b
  | Throw e, Throw e' => e = e'
  | Undef w, Undef w' => w = w'
  | Terminate, Terminate => True
  | AssertFail w, AssertFail w' => w = w'
  | OutOfFuel, OutOfFuel => True
  | _, _ => False
  end.
End Rename.

(** Different names stay different. *)
Definition distinct_on (f : string -> string) (names : list string) : Prop :=
  forall x y, In x names -> In y names -> f x = f y -> x = y.
(** Names stay in the same alphabetical order. *)
Definition ordered_on (f : string -> string) (names : list string) : Prop :=
  forall x y, In x names -> In y names -> String.compare (f x) (f y) = String.compare x y.
