(** What a program over Node, SymMat and SymVec variables means: every Node variable and every element
    of a matrix holds its own expression or nothing, and the functions on matrices are those of
    SymMatModel.v (which the theorems C33-C37 and those on the solvers are about), applied to the
    current contents.  There are no pointers, no sharing and no destruction here. *)
From Coq Require Import String List ZArith Bool Arith.
From Verif Require Import Base MathOp NodeModel ExprSpec SubsModel MatModel VarsTableModel SymMatModel ApiModel ApiSpec SymHeapModel.
Import ListNotations.
Local Open Scope string_scope. Local Open Scope list_scope.

Section Spec.
Context {K : num_ops}.
Notation env := (env K).

(** The contents of an element, and of a matrix (which must not have been moved from). *)
Definition element (E : env) (id k : nat) : node K :=
  match get E (elt id k) with Some (Some e) => embed e | _ => Nil end.
Definition contents (E : env) (m : mobj) : res (symmat K) :=
  let* id := the_data m in Ok (MkSym (o_rows m) (o_cols m) (map (element E id) (seq 0 (size m)))).

(** New elements with the given contents; other contents for the elements; the end of the elements. *)
Definition entry (A : symmat K) (k : nat) : option (expr K) := expression_of (nth k (s_data A) Nil).
Definition alloc (id : nat) (A : symmat K) (E : env) : env :=
  rev (map (fun k => (elt id k, entry A k)) (seq 0 (length (s_data A)))) ++ E.
Definition update (id : nat) (A : symmat K) (E : env) : env :=
  fold_left (fun E k => set E (elt id k) (entry A k)) (seq 0 (length (s_data A))) E.
Definition release (m : mobj) (E : env) : env :=
  match o_data m with
  | Some id => fold_left (fun E k => drop_var E (elt id k)) (seq 0 (size m)) E
  | None => E
  end.

(** The variable [c] is declared with the matrix [A]; [skip] counts temporary matrices. *)
Definition new_matrix (skip : nat) (c : string) (A : res (symmat K)) (o : objs) (E : env) : res (mevent K * objs) * env :=
  match A with
  | Ok A =>
      let id := o_next o + skip in
      match find_obj (o_vars o) c with
      | None => (Ok (Ev Done, MkObjs ((c, MkObj (s_rows A) (s_cols A) (Some id)) :: o_vars o) (S id)), alloc id A E)
      | Some _ => (Undef "redeclaration", E)
      end
  | Throw e => (Throw e, E) | Undef w => (Undef w, E) | Terminate => (Terminate, E)
  | AssertFail w => (AssertFail w, E) | OutOfFuel => (OutOfFuel, E)
  end.
(** The matrix [m] gets new contents. *)
Definition new_contents (m : mobj) (r : res unit) (A : symmat K) (o : objs) (E : env) : res (mevent K * objs) * env :=
  match o_data m with
  | None => (Undef "moved from", E)
  | Some id => (let* _ := r in Ok (Ev Done, o), update id A E)
  end.

(** The values of the initializers, from left to right; in rows. *)
Fixpoint values (cfg : config K) (es : list (nexp K)) : V (K:=K) (list (option (expr K))) :=
  match es with
  | [] => vret []
  | e :: es' => vbind (veval cfg e) (fun v => vbind (values cfg es') (fun vs => vret (v :: vs)))
  end.
Fixpoint value_rows (cfg : config K) (l : list (list (nexp K))) : V (K:=K) (list (list (option (expr K)))) :=
  match l with
  | [] => vret []
  | row :: l' => vbind (values cfg row) (fun v => vbind (value_rows cfg l') (fun vs => vret (v :: vs)))
  end.
Definition tree (v : option (expr K)) : node K := match v with Some e => embed e | None => Nil end.

Definition vmstep (cfg : config K) (s : mstmt K) (o : objs) (E : env) : res (mevent K * objs) * env :=
  let both (r : res (mobj * mobj)) (f : mobj -> mobj -> res (mevent K * objs) * env) :=
    match r with Ok (m, m') => f m m' | _ => (Undef "no such matrix", E) end in
  let one a (f : mobj -> res (mevent K * objs) * env) := both (let* m := the_obj o a in Ok (m, m)) (fun m _ => f m) in
  let two a b (f : mobj -> mobj -> res (mevent K * objs) * env) := both (let* m := the_obj o a in let* m' := the_obj o b in Ok (m, m')) f in
  let make1 skip c a f := one a (fun m => new_matrix skip c (let* A := contents E m in f A) o E) in
  let make2 skip c a b f := two a b (fun m m' => new_matrix skip c (let* A := contents E m in let* B := contents E m' in f A B) o E) in
  let ask {T} a (f : symmat K -> res T) (g : T -> mevent K) := one a (fun m => (let* A := contents E m in let* r := f A in Ok (g r, o), E)) in
  match s with
  | MNode r s =>
      match bind_refs o r with
      | Ok l => vbind (vstep cfg (rename_stmt (name_of l) s)) (fun ev => vret (Ev ev, o)) E
      | _ => (Undef "no such element", E)
      end
  | MMake c rows cols => new_matrix 0 c (SymMat_make rows cols) o E
  | MInit c r l =>
      match bind_refs o r with
      | Ok b => vbind (value_rows cfg (map (map (rename_exp (name_of b))) l)) (fun vs => new_matrix 0 c (SymMat_init (map (map tree) vs)) o) E
      | _ => (Undef "no such element", E)
      end
  | MInitVec c r l =>
      match bind_refs o r with
      | Ok b => vbind (values cfg (map (rename_exp (name_of b)) l)) (fun vs => new_matrix 0 c (SymVec_of (map tree vs)) o) E
      | _ => (Undef "no such element", E)
      end
  | MOfMat c A => new_matrix 0 c (SymMat_of_Mat A) o E
  | MClone c a => make1 0 c a SymMat_Clone
  | MToVec c a => make1 0 c a ToSymVec
  | MToVecOneByOne c a => make1 0 c a ToSymVecOneByOne
  | MSub c a b => make2 0 c a b SymMat_sub
  | MVecSub c a b => two a b (fun m m' =>
      if (o_cols m =? 1)%nat then new_matrix 1 c (let* A := contents E m in let* B := contents E m' in SymVec_sub A B) o E
      else (Undef "not a SymVec", E))
  | MMul c a b => make2 0 c a b SymMat_mul
  | MJacobian c a vars => make1 0 c a (fun A => Jacobian cfg A vars)
  | MMove c a => one a (fun m =>
      match find_obj (o_vars o) c with
      | None => (Ok (Ev Done, MkObjs ((c, m) :: set_obj (o_vars o) a (moved_from m)) (o_next o)), E)
      | Some _ => (Undef "redeclaration", E)
      end)
  | MMoveAssign c a => two a c (fun m old =>
      if String.eqb c a then (Ok (Ev Done, o), E)
      else (Ok (Ev Done, MkObjs (set_obj (set_obj (o_vars o) a (moved_from m)) c m) (o_next o)), release old E))
  | MCalc a => one a (fun m =>
      match contents E m with
      | Ok A => let '(r, B) := SymMat_Calc cfg A in new_contents m r B o E
      | _ => (Undef "moved from", E)
      end)
  | MSubs a vals => one a (fun m =>
      match (let* A := contents E m in SymMat_Subs A vals) with
      | Ok B => new_contents m (Ok tt) B o E
      | Terminate => (Terminate, E)
      | _ => (Undef "", E)
      end)
  | MSubsTable a t => one a (fun m =>
      match (let* A := contents E m in SymMat_SubsTable A t) with
      | Ok B => new_contents m (Ok tt) B o E
      | Terminate => (Terminate, E)
      | _ => (Undef "", E)
      end)
  | MEnd a => one a (fun m => (Ok (Ev Done, MkObjs (del_obj (o_vars o) a) (o_next o)), release m E))
  | MRows a => one a (fun m => (Ok (Size (o_rows m), o), E))
  | MCols a => one a (fun m => (Ok (Size (o_cols m), o), E))
  | MEmpty a => ask a (fun A => Ok (SymMat_Empty A)) (fun b => Ev (Bool b))
  | MToMat a => ask a ToMat Matrix
  | MVarNames a => ask a SymMat_GetAllVarNames (fun l => Ev (Names l))
  | MEqual a b =>
      (* a matrix is equal to itself, even if it contains NaN *)
      two a b (fun m m' =>
        (let* A := contents E m in
         let* r := (if String.eqb a b then let* _ := SymMat_Clone A in Ok true else let* B := contents E m' in SymMat_eq A B) in
         Ok (Ev (Bool r), o), E))
  | MToString a => ask a SymMat_ToString (fun t => Ev (Text t))
  end.

Fixpoint vmrun (cfg : config K) (p : list (mstmt K)) (o : objs) (E : env) : list (mevent K) * (res objs * env) :=
  match p with
  | [] => ([], (Ok o, E))
  | s :: p' =>
      let go ev o' E' := let '(evs, r) := vmrun (mconfig cfg s) p' o' E' in (ev :: evs, r) in
      match vmstep cfg s o E with
      | (Ok (ev, o'), E') => go ev o' E'
      | (Throw e, E') => go (Ev (Exception (kind e))) o E'
      | (Undef w, E') => ([], (Undef w, E'))
      | (Terminate, E') => ([], (Terminate, E'))
      | (AssertFail w, E') => ([], (AssertFail w, E'))
      | (OutOfFuel, E') => ([], (OutOfFuel, E'))
      end
  end.
End Spec.
