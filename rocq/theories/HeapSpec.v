(** What it means that memory holds exactly some expressions, properly linked. *)
From Coq Require Import String List ZArith Bool Permutation.
From Verif Require Import Base MathOp NodeModel HeapModel.
Import ListNotations.
Local Open Scope string_scope. Local Open Scope list_scope.

Section HeapSpec.
Context {K : num_ops}.
Notation node := (node K).
Notation heap := (heap K).

(** [objects par p t os]: the pointer [p] is the root of a tree with contents [t] made of the
    objects [os], one for each node; every node points to its children, and back to its
    parent; the parent of the root is [par]. *)
Inductive objects : option addr -> option addr -> node -> list (key * obj K) -> Prop :=
| objects_nil par : objects par None Nil []
| objects_node par a ty op v x l r pl pr ol or :
    objects (Some a) pl l ol -> objects (Some a) pr r or ->
    objects par (Some a) (N ty op v x l r) ((KObj a, OCell (MkCell ty op v x par pl pr)) :: ol ++ or).

(** Things in memory: a tree that somebody owns, a single object, a Node variable. *)
Inductive item :=
| ITree (par p : option addr) (t : node)
| ICell (a : addr) (c : cell K)
| IVar (x : var) (p : option addr).

Inductive sat : item -> list (key * obj K) -> Prop :=
| sat_tree par p t os : objects par p t os -> sat (ITree par p t) os
| sat_cell a c : sat (ICell a c) [(KObj a, OCell c)]
| sat_var x p : sat (IVar x p) [(KVar x, OPtr p)].

Inductive flat : list item -> list (key * obj K) -> Prop :=
| flat_nil : flat [] []
| flat_cons i its o os : sat i o -> flat its os -> flat (i :: its) (o ++ os).

(** The memory consists exactly of the given things, which do not overlap: there is nothing
    else in memory. *)
Definition owns (h : heap) (its : list item) : Prop :=
  exists os, flat its os /\ Permutation h os /\ NoDup (map fst h).

(** The expression that can be read by following the pointers from [p]. *)
Fixpoint read_tree (fuel : nat) (h : heap) (p : option addr) : option node :=
  match p with
  | None => Some Nil
  | Some a =>
    match fuel with
    | O => None
    | S fuel' =>
      match lookup h (KObj a) with
      | Some (OCell c) =>
          match read_tree fuel' h (c_left c), read_tree fuel' h (c_right c) with
          | Some l, Some r => Some (N (c_type c) (c_op c) (c_value c) (c_name c) l r)
          | _, _ => None
          end
      | _ => None
      end
    end
  end.

(** An allocator returns an address that is not in use. *)
Definition allocator (pick : heap -> addr) : Prop := forall h, lookup h (KObj (pick h)) = None.

End HeapSpec.
