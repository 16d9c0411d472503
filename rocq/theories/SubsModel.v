(** Model of src/tomsolver/subs.cpp (tree level). *)
From Coq Require Import String List ZArith Bool Arith.
From Verif Require Import Base MathOp NodeModel.
Import ListNotations.
Local Open Scope string_scope.

(** [std::map<std::string, T>] as the list of its entries in increasing key order. *)
Definition smap (T : Type) := list (string * T).

Fixpoint map_find {T} (x : string) (m : smap T) : option T :=
  match m with
  | [] => None
  | (y, t) :: m' => if String.eqb x y then Some t else map_find x m'
  end.

(** [map::insert]: does nothing if the key is present. *)
Fixpoint map_insert {T} (x : string) (t : T) (m : smap T) : smap T :=
  match m with
  | [] => [(x, t)]
  | (y, u) :: m' =>
      match String.compare x y with
      | Lt => (x, t) :: m
      | Eq => m
      | Gt => (y, u) :: map_insert x t m'
      end
  end.

(** [map[x] = t]: insert or overwrite. *)
Fixpoint map_set {T} (x : string) (t : T) (m : smap T) : smap T :=
  match m with
  | [] => [(x, t)]
  | (y, u) :: m' =>
      match String.compare x y with
      | Lt => (x, t) :: m
      | Eq => (y, t) :: m'
      | Gt => (y, u) :: map_set x t m'
      end
  end.

Section Subs.
Context {K : num_ops}.
Notation node := (node K).

(** subs.cpp:15-58 [SubsInner].  [Replace] (19-34) turns a variable node whose name is in the
    dictionary into a clone of its replacement; replaced nodes are not visited again (the
    replacement is not pushed on the stack).  The explicit stack is modelled in
    HeapModel.v.  Cloning a null replacement dereferences it. *)
Fixpoint SubsInner (dict : smap node) (n : node) : res node :=
  match n with
  | Nil => Ok Nil
  | N ty op v x l r =>
      let descend :=
        let* r' := SubsInner dict r in
        let* l' := SubsInner dict l in
        Ok (N ty op v x l' r') in
      match ty with
      | VARIABLE =>
          match map_find x dict with
          | Some Nil => Undef "null node dereferenced"
          | Some t => Ok t
          | None => descend
          end
      | _ => descend
      end
  end.

(** The root is dereferenced (subs.cpp:20, 36). *)
Definition SubsRoot (dict : smap node) (n : node) : res node :=
  match n with Nil => Undef "null node dereferenced" | _ => SubsInner dict n end.

(** subs.cpp:63-71 [Subs(node, oldVar, newNode)]. *)
Definition Subs1 (n : node) (oldVar : string) (newNode : node) : res node :=
  match newNode with
  | Nil => Undef "null node dereferenced"
  | _ => SubsRoot (map_insert oldVar newNode []) n
  end.

(** subs.cpp:73-84 [Subs(node, oldVars, newNodes)]. *)
Definition SubsVec (n : node) (oldVars : list string) (newNodes : list node) : res node :=
  if negb (Nat.eqb (length oldVars) (length newNodes)) then AssertFail "oldVars.size() == newNodes.Rows()"
  else if existsb is_null newNodes then Undef "null node dereferenced"
  else SubsRoot (fold_left (fun m p => map_insert (fst p) (snd p) m) (combine oldVars newNodes) []) n.

(** subs.cpp:86-92 [Subs(node, dict)]. *)
Definition SubsDict (n : node) (dict : smap node) : res node := SubsRoot dict n.

(** subs.cpp:94-116 [Subs(node, varValues)], [Subs(node, varsTable)]: iterate over a map of
    numbers. *)
Definition SubsValues (n : node) (vals : smap K) : res node :=
  SubsRoot (fold_left (fun m p => map_insert (fst p) (mkNum (snd p)) m) vals []) n.

End Subs.
