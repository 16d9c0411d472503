(** What a user expects of memory after any history: every Node variable holds its own proper
    tree.  Stated on the raw heap of HeapModel.v: which pointers exist and what they point to. *)
From Coq Require Import String List ZArith Bool.
From Verif Require Import Base MathOp NodeModel ExprSpec HeapModel HeapSpec ApiModel.
Import ListNotations.
Local Open Scope string_scope. Local Open Scope list_scope.

Section MemSpec.
Context {K : num_ops}.
Notation heap := (heap K).

(** The Node [s] (a variable, or the [left] or [right] member of an existing object) holds a
    pointer to [a]. *)
Inductive points (h : heap) : slot -> addr -> Prop :=
| points_var x a : lookup h (KVar x) = Some (OPtr (Some a)) -> points h (SVar x) a
| points_fld b c s a : lookup h (KObj b) = Some (OCell c) -> child c s = Some a -> points h (SFld b s) a.

(** [a] belongs to the expression held by the program's variable [x]. *)
Inductive belongs (h : heap) (x : string) : addr -> Prop :=
| belongs_root a : points h (SVar (User x)) a -> belongs h x a
| belongs_child b s a : belongs h x b -> points h (SFld b s) a -> belongs h x a.

Record proper (h : heap) : Prop := {
  (** every pointer points to an existing object: *)
  no_dangling : forall s a, points h s a -> exists c, lookup h (KObj a) = Some (OCell c);
  (** no object is pointed to twice: *)
  one_owner : forall s s' a, points h s a -> points h s' a -> s = s';
  (** the parent member of each object is the object that holds it, null for a root: *)
  parents : forall s a c, points h s a -> lookup h (KObj a) = Some (OCell c) ->
    c_parent c = match s with SVar _ => None | SFld b _ => Some b end;
  (** every object belongs to some variable of the program: nothing has leaked: *)
  no_leak : forall a c, lookup h (KObj a) = Some (OCell c) -> exists x, belongs h x a;
  (** to only one: nothing is shared: *)
  no_sharing : forall x y a, belongs h x a -> belongs h y a -> x = y;
  (** and no local variable of the library is left. *)
  no_locals : forall x, lookup h (KVar (Local x)) = None }.

(** The tree held by a Node variable of the program: [None] if there is no such variable,
    [Some None] if the pointers do not lead to a tree. *)
Definition tree_of (h : heap) (x : string) : option (option (node K)) :=
  match lookup h (KVar (User x)) with
  | Some (OPtr p) => Some (read_tree (S (length h)) h p)
  | _ => None
  end.

(** The variables an expression or statement mentions. *)
Fixpoint uses_exp (e : nexp K) : list string :=
  match e with
  | XNum _ | XVar _ | XParse _ => []
  | XMove x => [x]
  | XClone a | XUn _ a | XDiff a _ _ => uses_arg a
  | XBin _ _ a1 a2 => uses_arg a1 ++ uses_arg a2
  | XSubs a d => uses_arg a ++ uses_dict d
  end
with uses_arg (a : arg K) : list string :=
  match a with Lvalue x | Rvalue x => [x] | Prvalue e => uses_exp e end
with uses_dict (d : dict K) : list string :=
  match d with DNil => [] | DNode _ a d' => uses_arg a ++ uses_dict d' | DNum _ _ d' => uses_dict d' end.
Definition uses (s : stmt K) : list string :=
  match s with
  | Declare x e | Assign x e => x :: uses_exp e
  | Compound _ x a => x :: uses_arg a
  | DeclareEmpty x | SimplifyVar x | CalcVar x | EndOfScope x | GetVpa x | GetString x | GetVarNames x | GetNumber x | Check x => [x]
  | CopyInto x y | MoveInto x y | GetEqual x y => [x; y]
  | Configure _ => []
  end.
End MemSpec.
