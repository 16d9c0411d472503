(** What a program over Node variables means: every variable holds its own expression value, or
    nothing.  There are no pointers, no sharing and no destruction here.  Parsing, simplification
    and differentiation of expressions are those characterised by the theorems on C10-C25.

    Programs that dereference an empty Node, use an undeclared variable or redeclare one have no
    meaning ([Undef]), like those whose parsing or evaluation is undefined. *)
From Coq Require Import String List ZArith Bool.
From Verif Require Import Base MathOp NodeModel ParseModel ToStringModel SimplifyModel SubsModel DiffModel ExprSpec SubsSpec ApiModel HeapModel.
Import ListNotations.
Local Open Scope string_scope. Local Open Scope list_scope.

Section Spec.
Context {K : num_ops}.
Notation expr := (expr K).

(** The variables of the program and their values; [None]: empty Node. *)
Definition env := list (string * option expr).
Fixpoint get (E : env) (x : string) : option (option expr) :=
  match E with [] => None | (y, v) :: E' => if String.eqb x y then Some v else get E' x end.
Fixpoint set (E : env) (x : string) (v : option expr) : env :=
  match E with [] => [] | (y, w) :: E' => if String.eqb x y then (y, v) :: E' else (y, w) :: set E' x v end.
Fixpoint drop_var (E : env) (x : string) : env :=
  match E with [] => [] | (y, w) :: E' => if String.eqb x y then E' else (y, w) :: drop_var E' x end.

(** Computations that may change the values of variables. *)
Definition V (A : Type) := env -> res A * env.
Definition vret {A} (a : A) : V A := fun E => (Ok a, E).
Definition vfail {A} (r : res A) : V A := fun E => (r, E).
Definition vbind {A B} (m : V A) (f : A -> V B) : V B := fun E =>
  match m E with
  | (Ok a, E') => f a E'
  | (Throw e, E') => (Throw e, E')
  | (Undef w, E') => (Undef w, E')
  | (Terminate, E') => (Terminate, E')
  | (AssertFail w, E') => (AssertFail w, E')
  | (OutOfFuel, E') => (OutOfFuel, E')
  end.

Definition vget (x : string) : V (option expr) := fun E =>
  match get E x with Some v => (Ok v, E) | None => (Undef "no such variable", E) end.
Definition vset (x : string) (v : option expr) : V unit := fun E =>
  match get E x with Some _ => (Ok tt, set E x v) | None => (Undef "no such variable", E) end.
Definition nonempty (v : option expr) : V expr :=
  match v with Some e => vret e | None => vfail (Undef "empty node") end.

(** The expression a tree stands for. *)
Definition unop_of (op : math_op) : option unop :=
  match op with
  | MATH_POSITIVE => Some UPos | MATH_NEGATIVE => Some UNeg | MATH_SIN => Some USin | MATH_COS => Some UCos
  | MATH_TAN => Some UTan | MATH_ARCSIN => Some UAsin | MATH_ARCCOS => Some UAcos | MATH_ARCTAN => Some UAtan
  | MATH_SQRT => Some USqrt | MATH_LOG => Some ULog | MATH_LOG2 => Some ULog2 | MATH_LOG10 => Some ULog10
  | MATH_EXP => Some UExp | _ => None
  end.
Definition binop_of (op : math_op) : option binop :=
  match op with
  | MATH_ADD => Some BAdd | MATH_SUB => Some BSub | MATH_MULTIPLY => Some BMul | MATH_DIVIDE => Some BDiv
  | MATH_POWER => Some BPow | MATH_AND => Some BAnd | MATH_OR => Some BOr | MATH_MOD => Some BMod | _ => None
  end.
Fixpoint expression_of (t : node K) : option expr :=
  match t with
  | Nil => None
  | N NUMBER _ v _ _ _ => Some (ENum v)
  | N VARIABLE _ _ x _ _ => Some (EVar x)
  | N OPERATOR op _ _ l r =>
      match expression_of l, expression_of r with
      | Some a, None => match unop_of op with Some u => Some (EUn u a) | None => None end
      | Some a, Some c => match binop_of op with Some b => Some (EBin b a c) | None => None end
      | _, _ => None
      end
  end.
Definition expression (r : res (node K)) : res expr :=
  let* t := r in match expression_of t with Some e => Ok e | None => Undef "not an expression" end.

(** Arguments: the variable or the value. *)
Inductive varg := VCopy (x : string) | VMove (x : string) | VTemp (v : option expr).
(** The value without consuming it. *)
Definition vpeek (o : varg) : V expr :=
  match o with
  | VCopy x | VMove x => vbind (vget x) nonempty
  | VTemp v => nonempty v
  end.
(** The value; a variable passed by std::move is empty afterwards, any other keeps its value. *)
Definition vtake (o : varg) : V expr :=
  match o with
  | VMove x => vbind (vget x) (fun v => vbind (nonempty v) (fun e => vbind (vset x None) (fun _ => vret e)))
  | _ => vpeek o
  end.

(** Replacements: the first one for a name counts. *)
Inductive ventry := VNode (o : varg) | VNumber (v : K).
Definition ventry_value (e : ventry) : V expr :=
  match e with VNode o => vpeek o | VNumber v => vret (ENum v) end.
Fixpoint vdict (es : list (string * ventry)) : V (list (string * expr)) :=
  match es with
  | [] => vret []
  | (y, e) :: es' => vbind (ventry_value e) (fun t => vbind (vdict es') (fun d => vret ((y, t) :: d)))
  end.
Fixpoint first_for (d : list (string * expr)) (x : string) : option expr :=
  match d with [] => None | (y, t) :: d' => if String.eqb x y then Some t else first_for d' x end.

Fixpoint veval (cfg : config K) (e : nexp K) : V (option expr) :=
  match e with
  | XNum v => vret (Some (ENum v))
  | XVar s => if VarNameIsLegal s then vret (Some (EVar s)) else vfail (Throw (RuntimeError ""))
  | XParse s => vbind (vfail (expression (Parse s))) (fun e => vret (Some e))
  | XMove x => vbind (vget x) (fun v => vbind (vset x None) (fun _ => vret v))
  | XClone a => vbind (veval_arg cfg a) (fun o => vbind (vpeek o) (fun e => vret (Some e)))
  | XUn u a => vbind (veval_arg cfg a) (fun o => vbind (vtake o) (fun e => vret (Some (EUn u e))))
  | XBin leftFirst b a1 a2 =>
      vbind (if leftFirst : bool
             then vbind (veval_arg cfg a1) (fun o1 => vbind (veval_arg cfg a2) (fun o2 => vret (o1, o2)))
             else vbind (veval_arg cfg a2) (fun o2 => vbind (veval_arg cfg a1) (fun o1 => vret (o1, o2)))) (fun oo =>
      vbind (vtake (fst oo)) (fun e1 => vbind (vtake (snd oo)) (fun e2 => vret (Some (EBin b e1 e2)))))
  | XSubs a d =>
      vbind (veval_dict cfg d) (fun es => vbind (veval_arg cfg a) (fun o =>
      vbind (vdict es) (fun d => vbind (vtake o) (fun e => vret (Some (subst (first_for d) e))))))
  | XDiff a x i =>
      vbind (veval_arg cfg a) (fun o => vbind (vtake o) (fun e =>
      vbind (vfail (expression (Diff cfg (embed e) x i))) (fun e' => vret (Some e'))))
  end
with veval_arg (cfg : config K) (a : arg K) : V varg :=
  match a with
  | Lvalue x => vret (VCopy x)
  | Rvalue x => vret (VMove x)
  | Prvalue e => vbind (veval cfg e) (fun v => vret (VTemp v))
  end
with veval_dict (cfg : config K) (d : dict K) : V (list (string * ventry)) :=
  match d with
  | DNil => vret []
  | DNode y a d' => vbind (veval_arg cfg a) (fun o => vbind (veval_dict cfg d') (fun es => vret ((y, VNode o) :: es)))
  | DNum y v d' => vbind (veval_dict cfg d') (fun es => vret ((y, VNumber v) :: es))
  end.

Definition vthe (x : string) : V expr := vbind (vget x) nonempty.
Definition vdeclare (x : string) (v : option expr) : V unit := fun E =>
  match get E x with Some _ => (Undef "redeclaration", E) | None => (Ok tt, (x, v) :: E) end.
Definition vend (x : string) : V unit := fun E =>
  match get E x with Some _ => (Ok tt, drop_var E x) | None => (Undef "no such variable", E) end.

Definition vstep (cfg : config K) (s : stmt K) : V (event K) :=
  let then_ (m : V unit) := vbind m (fun _ => vret Done) in
  match s with
  | Declare x e => vbind (veval cfg e) (fun v => then_ (vdeclare x v))
  | DeclareEmpty x => then_ (vdeclare x None)
  | Assign x e => vbind (veval cfg e) (fun v => then_ (vset x v))
  | Compound b x a =>
      vbind (veval_arg cfg a) (fun o => vbind (vtake (VMove x)) (fun e1 => vbind (vtake o) (fun e2 =>
      then_ (vset x (Some (EBin b e1 e2))))))
  | SimplifyVar x => vbind (vthe x) (fun e => vbind (vfail (expression (Simplify cfg (embed e)))) (fun e' => then_ (vset x (Some e'))))
  | CalcVar x => vbind (vthe x) (fun e => vbind (vfail (Vpa cfg (embed e))) (fun v => then_ (vset x (Some (ENum v)))))
  | CopyInto x y => vbind (vthe y) (fun e => vbind (vthe x) (fun _ => then_ (vset x (Some e))))
  | MoveInto x y =>
      vbind (vthe y) (fun e => vbind (vthe x) (fun _ =>
      vbind (vset y (Some (ENum (n_ofZ 0)))) (fun _ => then_ (vset x (Some e)))))
  | EndOfScope x => then_ (vend x)
  | GetVpa x => vbind (vthe x) (fun e => vbind (vfail (Vpa cfg (embed e))) (fun v => vret (Number v)))
  | GetString x => vbind (vthe x) (fun e => vbind (vfail (ToString (embed e))) (fun t => vret (Text t)))
  | GetVarNames x => vbind (vthe x) (fun e => vbind (vfail (GetAllVarNames (embed e))) (fun l => vret (Names l)))
  | GetNumber x =>
      vbind (vthe x) (fun e =>
      vbind (vfail (match e with ENum v => Ok v | _ => Throw (RuntimeError "ToMat error: node is not number") end)) (fun v => vret (Number v)))
  | GetEqual x y =>
      vbind (vthe x) (fun a => vbind (vthe y) (fun c =>
      if String.eqb x y then vret (Bool true)
      else vbind (vfail (Equal (embed a) (embed c))) (fun r => vret (Bool r))))
  | Check x => vbind (vthe x) (fun _ => vret Done)
  | Configure _ => vret Done
  end.

Fixpoint vrun (cfg : config K) (p : list (stmt K)) (E : env) : list (event K) * (res unit * env) :=
  match p with
  | [] => ([], (Ok tt, E))
  | s :: p' =>
      let go ev E' := let '(evs, r) := vrun (next_config cfg s) p' E' in (ev :: evs, r) in
      match vstep cfg s E with
      | (Ok ev, E') => go ev E'
      | (Throw e, E') => go (Exception (kind e)) E'
      | (Undef w, E') => ([], (Undef w, E'))
      | (Terminate, E') => ([], (Terminate, E'))
      | (AssertFail w, E') => ([], (AssertFail w, E'))
      | (OutOfFuel, E') => ([], (OutOfFuel, E'))
      end
  end.
End Spec.
Arguments env K : clear implicits.
