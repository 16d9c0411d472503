(** SymMat and SymVec objects (symmat.h, symmat.cpp) in memory, and programs over Node, SymMat and
    SymVec variables.  The elements of a matrix are Node objects of the heap model (HeapModel.v), and
    the functions of symmat.cpp are the sequences of Node operations (ApiModel.v) that they perform on
    these.  SymMatModel.v models the same functions on values; SymHeapSpec.v says how the two are
    related. *)
From Coq Require Import String Ascii List ZArith Bool Arith.
From Verif Require Import Base MathOp NodeModel ToStringModel SubsModel ExprSpec MatModel VarsTableModel HeapModel ApiModel.
Import ListNotations.
Local Open Scope string_scope. Local Open Scope list_scope.

(** Names of the Node objects in memory: Node variables of the program, the elements of a valarray
    (numbered in the order of their creation), and the local variables and temporaries of a function. *)
Fixpoint tally (n : nat) : string := match n with O => "" | S n' => String "I"%char (tally n') end.
Definition node_name (x : string) : string := String "n"%char x.
Definition elt (id k : nat) : string := String "e"%char (tally id ++ String ","%char (tally k)).
Definition local_name (x : string) : string := String "l"%char x.
Definition temp_name (k : nat) : string := String "t"%char (tally k).

(** symmat.h:96-98: the members of a SymMat object; [data] is the valarray, null after a move. *)
Record mobj := MkObj { o_rows : nat; o_cols : nat; o_data : option nat }.
(** The SymMat and SymVec variables of the program, and the number of the next valarray. *)
Record objs := MkObjs { o_vars : list (string * mobj); o_next : nat }.
Fixpoint find_obj (l : list (string * mobj)) (x : string) : option mobj :=
  match l with [] => None | (y, m) :: l' => if String.eqb x y then Some m else find_obj l' x end.
Fixpoint set_obj (l : list (string * mobj)) (x : string) (m : mobj) : list (string * mobj) :=
  match l with [] => [] | (y, w) :: l' => if String.eqb x y then (y, m) :: l' else (y, w) :: set_obj l' x m end.
Fixpoint del_obj (l : list (string * mobj)) (x : string) : list (string * mobj) :=
  match l with [] => [] | (y, w) :: l' => if String.eqb x y then l' else (y, w) :: del_obj l' x end.
Definition the_obj (o : objs) (x : string) : res mobj :=
  match find_obj (o_vars o) x with Some m => Ok m | None => Undef "no such matrix" end.
(** [*data] *)
Definition the_data (m : mobj) : res nat :=
  match o_data m with Some id => Ok id | None => Undef "null pointer dereferenced" end.
Definition size (m : mobj) : nat := o_rows m * o_cols m.

Section Syntax.
Context {K : num_ops}.

(** References to elements: [Node &x = A.Value(i, j);], also [v[i]] (then j = 0). *)
Definition refs := list (string * (string * nat * nat)).

(** Statements.  In [MNode r s] the statement s may use the references r as Node variables. *)
Inductive mstmt :=
| MNode (r : refs) (s : stmt K)
| MMake (c : string) (rows cols : nat)                 (* SymMat c(rows, cols);       symmat.cpp:18-21 *)
| MInit (c : string) (r : refs) (l : list (list (nexp K)))(* SymMat c({{...}, ...});   symmat.cpp:23-38 *)
| MInitVec (c : string) (r : refs) (l : list (nexp K)) (* SymVec c{...};              symmat.cpp:188-193 *)
| MOfMat (c : string) (m : mat K)                      (* SymMat c(m);                symmat.cpp:40-44 *)
| MClone (c a : string)                                (* SymMat c = a.Clone();       symmat.cpp:46-52 *)
| MToVec (c a : string)                                (* SymVec c = a.ToSymVec();    symmat.cpp:66-72 *)
| MToVecOneByOne (c a : string)                        (* ... a.ToSymVecOneByOne();   symmat.cpp:74-80 *)
| MSub (c a b : string)                                (* SymMat c = a - b;           symmat.cpp:123-131 *)
| MVecSub (c a b : string)                             (* SymVec c = a - b;           symmat.cpp:195-197 *)
| MMul (c a b : string)                                (* SymMat c = a * b;           symmat.cpp:133-149 *)
| MJacobian (c a : string) (vars : list string)        (* SymMat c = Jacobian(a, vars); symmat.cpp:207-220 *)
| MMove (c a : string)                                 (* SymMat c = std::move(a);    (implicit) *)
| MMoveAssign (c a : string)                           (* c = std::move(a);           (implicit) *)
| MCalc (a : string)                                   (* a.Calc();                   symmat.cpp:93-98 *)
| MSubs (a : string) (vals : smap K)                   (* a.Subs(vals);               symmat.cpp:100-105 *)
| MSubsTable (a : string) (t : vars_table K)           (* a.Subs(table);              symmat.cpp:107-112 *)
| MEnd (a : string)                                    (* a is destroyed *)
| MRows (a : string) | MCols (a : string) | MEmpty (a : string) (*                    symmat.cpp:54-64 *)
| MToMat (a : string)                                  (* a.ToMat();                  symmat.cpp:82-91 *)
| MVarNames (a : string)                               (* a.GetAllVarNames();         symmat.cpp:114-121 *)
| MEqual (a b : string)                                (* a == b                      symmat.cpp:151-158 *)
| MToString (a : string).                              (* a.ToString();               symmat.cpp:168-184 *)

(** What the program sees. *)
Inductive mevent := Ev (e : event K) | Size (n : nat) | Matrix (m : mat K).

(** Replacing names of Node variables. *)
Fixpoint rename_exp (f : string -> string) (e : nexp K) : nexp K :=
  match e with
  | XNum v => XNum v | XVar s => XVar s | XParse s => XParse s
  | XMove x => XMove (f x)
  | XClone a => XClone (rename_arg f a)
  | XUn u a => XUn u (rename_arg f a)
  | XBin lf b a1 a2 => XBin lf b (rename_arg f a1) (rename_arg f a2)
  | XSubs a d => XSubs (rename_arg f a) (rename_dict f d)
  | XDiff a x i => XDiff (rename_arg f a) x i
  end
with rename_arg (f : string -> string) (a : arg K) : arg K :=
  match a with
  | Lvalue x => Lvalue (f x)
  | Rvalue x => Rvalue (f x)
  | Prvalue e => Prvalue (rename_exp f e)
  end
with rename_dict (f : string -> string) (d : dict K) : dict K :=
  match d with
  | DNil => DNil
  | DNode y a d' => DNode y (rename_arg f a) (rename_dict f d')
  | DNum y v d' => DNum y v (rename_dict f d')
  end.
(** Variables that are declared or end are variables of the program, not references. *)
Definition rename_stmt (f : string -> string) (s : stmt K) : stmt K :=
  match s with
  | Declare x e => Declare (node_name x) (rename_exp f e)
  | DeclareEmpty x => DeclareEmpty (node_name x)
  | EndOfScope x => EndOfScope (node_name x)
  | Assign x e => Assign (f x) (rename_exp f e)
  | Compound b x a => Compound b (f x) (rename_arg f a)
  | SimplifyVar x => SimplifyVar (f x)
  | CalcVar x => CalcVar (f x)
  | CopyInto x y => CopyInto (f x) (f y)
  | MoveInto x y => MoveInto (f x) (f y)
  | GetVpa x => GetVpa (f x)
  | GetString x => GetString (f x)
  | GetVarNames x => GetVarNames (f x)
  | GetNumber x => GetNumber (f x)
  | GetEqual x y => GetEqual (f x) (f y)
  | Check x => Check (f x)
  | Configure c => Configure c
  end.
(** The objects the references are bound to; symmat.cpp:160-166 [Value], :199-205 [operator[]].
    Elements outside the valarray are undefined. *)
Fixpoint bind_refs (o : objs) (r : refs) : res (list (string * string)) :=
  match r with
  | [] => Ok []
  | (x, (a, i, j)) :: r' =>
      let* m := the_obj o a in
      let* id := the_data m in
      if (i * o_cols m + j <? size m)%nat then
        let* l := bind_refs o r' in Ok ((x, elt id (i * o_cols m + j)) :: l)
      else Undef "valarray index out of range"
  end.
Fixpoint name_of (l : list (string * string)) (x : string) : string :=
  match l with [] => node_name x | (y, n) :: l' => if String.eqb x y then n else name_of l' x end.

(** Functions as sequences of Node operations.  If one throws, the function destroys what it holds
    and passes the exception on, or it is noexcept. *)
Inductive handler := Rethrow (cleanup : list (stmt K)) | NoExcept.
Inductive prog (A : Type) :=
| PRet (a : A)
| PFail (r : res A)
| PStep (s : stmt K) (hd : handler) (k : event K -> prog A).
End Syntax.
Arguments mstmt K : clear implicits. Arguments mevent K : clear implicits. Arguments handler K : clear implicits.
Arguments prog K A : clear implicits. Arguments PRet {K A}. Arguments PFail {K A}. Arguments PStep {K A}.

Section Progs.
Context {K : num_ops}.
Notation prog := (prog K).

Fixpoint pbind {A B} (p : prog A) (f : A -> prog B) : prog B :=
  match p with
  | PRet a => f a
  | PFail r => match r with
               | Ok a => f a
               | Throw e => PFail (Throw e) | Undef w => PFail (Undef w) | Terminate => PFail Terminate
               | AssertFail w => PFail (AssertFail w) | OutOfFuel => PFail OutOfFuel
               end
  | PStep s hd k => PStep s hd (fun ev => pbind (k ev) f)
  end.
Notation "'let!' x := p 'in' q" := (pbind p (fun x => q)) (at level 61, x pattern, right associativity).
Definition act (hd : handler K) (s : stmt K) : prog unit := PStep s hd (fun _ => PRet tt).
Fixpoint pfor (l : list nat) (body : nat -> prog unit) : prog unit :=
  match l with [] => PRet tt | k :: l' => let! _ := body k in pfor l' body end.

(** symmat.cpp:18-21 [SymMat(int, int)]: a new valarray of empty Nodes; symmat.cpp:186 [SymVec(int)]. *)
Definition new_array (id n : nat) : prog unit := pfor (seq 0 n) (fun k => act NoExcept (DeclareEmpty (elt id k))).
Definition make (o : objs) (rows cols : nat) : prog (mobj * objs) :=
  if ((0 <? rows) && (0 <? cols))%nat then
    let! _ := new_array (o_next o) (rows * cols) in
    PRet (MkObj rows cols (Some (o_next o)), MkObjs (o_vars o) (S (o_next o)))
  else PFail (AssertFail "rows > 0 && cols > 0").
(** The end of a valarray. *)
Definition end_array (id n : nat) : prog unit := pfor (seq 0 n) (fun k => act NoExcept (EndOfScope (elt id k))).
Definition end_obj (m : mobj) : prog unit := match o_data m with Some id => end_array id (size m) | None => PRet tt end.

(** The variable [c] is declared with the object [m]. *)
Definition declare (c : string) (m : mobj) (o : objs) : res objs :=
  match find_obj (o_vars o) c with
  | Some _ => Undef "redeclaration"
  | None => Ok (MkObjs ((c, m) :: o_vars o) (o_next o))
  end.
Definition declared (c : string) (mo : mobj * objs) : prog (mevent K * objs) :=
  let! o := PFail (declare c (fst mo) (snd mo)) in PRet (Ev Done, o).

Section WithOrder.
(** The order in which C++ evaluates the operands of + - *. *)
Variable leftFirst : bool.

(** symmat.cpp:23-38, :188-193: the initializers are evaluated from left to right into an array of
    Nodes, then moved out of it; at the end the array is destroyed.  (The elements of an initializer_list are const;
    moving out of them by const_cast is taken to work, as it does with the common compilers.) *)
Fixpoint eval_inits (k : nat) (es : list (nexp K)) : prog unit :=
  match es with
  | [] => PRet tt
  | e :: es' =>
      let! _ := act (Rethrow (map (fun i => EndOfScope (temp_name i)) (rev (seq 0 k)))) (Declare (temp_name k) e) in
      eval_inits (S k) es'
  end.
(** The elements the initializers go to: row by row, rows shorter than the longest leave gaps. *)
Fixpoint init_pos (cols i : nat) (l : list (list (nexp K))) : list nat :=
  match l with
  | [] => []
  | row :: l' => map (fun j => i * cols + j) (seq 0 (length row)) ++ init_pos cols (S i) l'
  end.
Definition fill (id : nat) (pos : list nat) : prog unit :=
  let! _ := pfor (seq 0 (length pos)) (fun k => act NoExcept (Assign (elt id (nth k pos 0)) (XMove (temp_name k)))) in
  pfor (rev (seq 0 (length pos))) (fun k => act NoExcept (EndOfScope (temp_name k))).
Definition init_mat (o : objs) (l : list (list (nexp K))) : prog (mobj * objs) :=
  match l with
  | [] => PFail (Undef "std::max of an empty list")
  | _ =>
      let rows := length l in
      let cols := fold_left (fun m r => Nat.max m (length r)) l 0%nat in
      let! _ := eval_inits 0 (concat l) in
      let! _ := new_array (o_next o) (rows * cols) in
      let! _ := fill (o_next o) (init_pos cols 0 l) in
      PRet (MkObj rows cols (Some (o_next o)), MkObjs (o_vars o) (S (o_next o)))
  end.
Definition init_vec (o : objs) (l : list (nexp K)) : prog (mobj * objs) :=
  let! _ := eval_inits 0 l in
  let! mo := make o (length l) 1 in
  let! _ := fill (o_next o) (seq 0 (length l)) in
  PRet mo.

(** [std::generate(begin( *ret.data), end( *ret.data), ...)] *)
Definition generate (id n : nat) (e : nat -> nexp K) : prog unit := pfor (seq 0 n) (fun k => act NoExcept (Assign (elt id k) (e k))).

(** symmat.cpp:40-44 [SymMat(const Mat &)]. *)
Definition of_mat (o : objs) (A : mat K) : prog (mobj * objs) :=
  let! mo := make o (m_rows A) (m_cols A) in
  let! _ := pfor (seq 0 (m_rows A * m_cols A)) (fun k =>
    let! v := PFail (va_get (m_data A) k) in act NoExcept (Assign (elt (o_next o) k) (XNum v))) in
  PRet mo.
(** symmat.cpp:46-52 [Clone]. *)
Definition clone (o : objs) (a : mobj) : prog (mobj * objs) :=
  let! mo := make o (o_rows a) (o_cols a) in
  let! ia := PFail (the_data a) in
  let! _ := generate (o_next o) (size a) (fun k => XClone (Lvalue (elt ia k))) in
  PRet mo.
(** symmat.cpp:74-80 [ToSymVecOneByOne]. *)
Definition to_vec_one_by_one (o : objs) (a : mobj) : prog (mobj * objs) :=
  let! mo := make o (o_rows a * o_cols a) 1 in
  let! ia := PFail (the_data a) in
  let! _ := generate (o_next o) (o_rows a * o_cols a * 1) (fun k => XClone (Lvalue (elt ia k))) in
  PRet mo.
(** symmat.cpp:66-72 [ToSymVec]. *)
Definition to_vec (o : objs) (a : mobj) : prog (mobj * objs) :=
  if (o_rows a =? 0)%nat then PFail (AssertFail "rows > 0") else
  if (o_cols a =? 1)%nat then to_vec_one_by_one o a
  else PFail (Throw (RuntimeError "SymMat::ToSymVec fail. rows is not one")).
(** symmat.cpp:123-131 [operator-]. *)
Definition sub (o : objs) (a b : mobj) : prog (mobj * objs) :=
  if ((o_rows b =? o_rows a) && (o_cols b =? o_cols a))%nat then
    let! mo := make o (o_rows a) (o_cols a) in
    let! ia := PFail (the_data a) in
    let! ib := PFail (the_data b) in
    let! _ := generate (o_next o) (size a) (fun k => XBin leftFirst BSub (Lvalue (elt ia k)) (Lvalue (elt ib k))) in
    PRet mo
  else PFail (AssertFail "rhs.rows == rows && rhs.cols == cols").
(** symmat.cpp:195-197 [SymVec::operator-]: the difference is a temporary.  (A SymVec has one column,
    so that ToSymVec does not throw.) *)
Definition vec_sub (o : objs) (a b : mobj) : prog (mobj * objs) :=
  if (o_cols a =? 1)%nat then
    let! (t, o1) := sub o a b in
    let! mo := to_vec o1 t in
    let! _ := end_obj t in
    PRet mo
  else PFail (Undef "not a SymVec").
(** symmat.cpp:133-149 [operator*]. *)
Definition mul (o : objs) (a b : mobj) : prog (mobj * objs) :=
  if negb (o_cols a =? o_rows b)%nat then PFail (Throw (MathError SIZE_NOT_MATCH "")) else
  let! mo := make o (o_rows a) (o_cols b) in
  let! ia := PFail (the_data a) in
  let! ib := PFail (the_data b) in
  let va i k := Lvalue (elt ia (i * o_cols a + k)) in
  let vb k j := Lvalue (elt ib (k * o_cols b + j)) in
  let sum := local_name "sum" in
  let! _ := pfor (seq 0 (o_rows a)) (fun i =>
    pfor (seq 0 (o_cols b)) (fun j =>
      let! _ := act (Rethrow []) (Declare sum (XBin leftFirst BMul (va i 0) (vb 0 j))) in
      let! _ := pfor (seq 1 (o_cols a - 1)) (fun k =>
        act (Rethrow []) (Compound BAdd sum (Prvalue (XBin leftFirst BMul (va i k) (vb k j))))) in
      let! _ := act (Rethrow []) (Assign (elt (o_next o) (i * o_cols b + j)) (XMove sum)) in
      act (Rethrow []) (EndOfScope sum))) in
  PRet mo.
(** symmat.cpp:207-220 [Jacobian]. *)
Definition jacobian_of (o : objs) (a : mobj) (vars : list string) : prog (mobj * objs) :=
  let cols := length vars in
  let! mo := make o (o_rows a) cols in
  let! ia := PFail (the_data a) in
  let! _ := pfor (seq 0 (o_rows a * cols)) (fun k =>
      match nth_error vars (k mod cols) with
      | None => PFail (Undef "vector index out of range")
      | Some x => act NoExcept (Assign (elt (o_next o) k) (XDiff (Lvalue (elt ia (k / cols))) x 1))
      end) in
  PRet mo.

(** symmat.cpp:93-98 [Calc]. *)
Definition calc (a : mobj) : prog unit :=
  let! ia := PFail (the_data a) in pfor (seq 0 (size a)) (fun k => act (Rethrow []) (CalcVar (elt ia k))).
(** symmat.cpp:100-112 [Subs]: [node = tomsolver::Subs(std::move(node), vals);] *)
Fixpoint numbers (vals : list (string * K)) : dict K :=
  match vals with [] => DNil | (x, v) :: vals' => DNum x v (numbers vals') end.
Definition subs (a : mobj) (vals : list (string * K)) : prog unit :=
  let! ia := PFail (the_data a) in
  pfor (seq 0 (size a)) (fun k => act NoExcept (Assign (elt ia k) (XSubs (Rvalue (elt ia k)) (numbers vals)))).

(** The elements one after the other. *)
Fixpoint read_all (hd : handler K) (query : nat -> stmt K) (ks : list nat) : prog (list (event K)) :=
  match ks with
  | [] => PRet []
  | k :: ks' => PStep (query k) hd (fun ev => let! evs := read_all hd query ks' in PRet (ev :: evs))
  end.
(** symmat.cpp:82-91 [ToMat]. *)
Definition number_in (ev : event K) : K := match ev with Number v => v | _ => n_ofZ 0 end.
Definition to_mat (a : mobj) : prog (mat K) :=
  let! ia := PFail (the_data a) in
  let! evs := read_all (Rethrow []) (fun k => GetNumber (elt ia k)) (seq 0 (size a)) in
  PRet (MkMat (o_rows a) (o_cols a) (map number_in evs)).
(** symmat.cpp:114-121 [GetAllVarNames]: [ret.insert(names.begin(), names.end())]. *)
Definition names_in (ev : event K) : list string := match ev with Names l => l | _ => [] end.
Definition var_names (a : mobj) : prog (list string) :=
  let! ia := PFail (the_data a) in
  let! evs := read_all NoExcept (fun k => GetVarNames (elt ia k)) (seq 0 (size a)) in
  PRet (fold_left (fun s ev => fold_left (fun s x => set_insert x s) (names_in ev) s) evs []).
(** symmat.cpp:168-184 [ToString]. *)
Definition text_in (ev : event K) : string := match ev with Text t => t | _ => "" end.
Fixpoint layout (cols n i : nat) (evs : list (event K)) : string :=
  match evs with
  | [] => ""
  | ev :: evs' =>
      ((if (i =? 0)%nat then "" else " ") ++ text_in ev ++
       (if (S i mod cols =? 0)%nat then (if (S i =? n)%nat then "]
" else "
") else ", ") ++ layout cols n (S i) evs')%string
  end.
Definition to_string (a : mobj) : prog string :=
  let! ia := PFail (the_data a) in
  if (size a =? 0)%nat then PRet "[]
" else
  let! evs := read_all NoExcept (fun k => GetString (elt ia k)) (seq 0 (size a)) in
  PRet (String.append "[" (layout (o_cols a) (size a) 0 evs)).
(** symmat.cpp:151-158 [operator==]: [std::equal] stops at the first difference. *)
Fixpoint equal_from (ia ib : nat) (ks : list nat) : prog bool :=
  match ks with
  | [] => PRet true
  | k :: ks' => PStep (GetEqual (elt ia k) (elt ib k)) NoExcept (fun ev =>
      match ev with Bool true => equal_from ia ib ks' | _ => PRet false end)
  end.
Definition equal (a b : mobj) : prog bool :=
  if ((o_rows b =? o_rows a) && (o_cols b =? o_cols a))%nat then
    let! ia := PFail (the_data a) in
    let! ib := PFail (the_data b) in
    equal_from ia ib (seq 0 (size a))
  else PRet false.

(** Statements. *)
Definition moved_from (m : mobj) : mobj := MkObj (o_rows m) (o_cols m) None.
Definition mprog (s : mstmt K) (o : objs) : prog (mevent K * objs) :=
  let on a (f : mobj -> prog (mobj * objs)) c := let! m := PFail (the_obj o a) in let! mo := f m in declared c mo in
  let on2 a b (f : mobj -> mobj -> prog (mobj * objs)) c :=
    let! m := PFail (the_obj o a) in let! m' := PFail (the_obj o b) in let! mo := f m m' in declared c mo in
  let ask {A} a (f : mobj -> prog A) (g : A -> mevent K) := let! m := PFail (the_obj o a) in let! r := f m in PRet (g r, o) in
  match s with
  | MNode r s => let! l := PFail (bind_refs o r) in PStep (rename_stmt (name_of l) s) (Rethrow []) (fun ev => PRet (Ev ev, o))
  | MMake c rows cols => let! mo := make o rows cols in declared c mo
  | MInit c r l => let! b := PFail (bind_refs o r) in let! mo := init_mat o (map (map (rename_exp (name_of b))) l) in declared c mo
  | MInitVec c r l => let! b := PFail (bind_refs o r) in let! mo := init_vec o (map (rename_exp (name_of b)) l) in declared c mo
  | MOfMat c A => let! mo := of_mat o A in declared c mo
  | MClone c a => on a (clone o) c
  | MToVec c a => on a (to_vec o) c
  | MToVecOneByOne c a => on a (to_vec_one_by_one o) c
  | MSub c a b => on2 a b (sub o) c
  | MVecSub c a b => on2 a b (vec_sub o) c
  | MMul c a b => on2 a b (mul o) c
  | MJacobian c a vars => on a (fun m => jacobian_of o m vars) c
  | MMove c a =>
      let! m := PFail (the_obj o a) in declared c (m, MkObjs (set_obj (o_vars o) a (moved_from m)) (o_next o))
  | MMoveAssign c a =>
      let! m := PFail (the_obj o a) in
      let! old := PFail (the_obj o c) in
      if String.eqb c a then PRet (Ev Done, o) else
      let! _ := end_obj old in
      PRet (Ev Done, MkObjs (set_obj (set_obj (o_vars o) a (moved_from m)) c m) (o_next o))
  | MCalc a => ask a calc (fun _ => Ev Done)
  | MSubs a vals => ask a (fun m => subs m vals) (fun _ => Ev Done)
  | MSubsTable a t => ask a (fun m => subs m (Items t)) (fun _ => Ev Done)
  | MEnd a => let! m := PFail (the_obj o a) in let! _ := end_obj m in PRet (Ev Done, MkObjs (del_obj (o_vars o) a) (o_next o))
  | MRows a => ask a (fun m => PRet (o_rows m)) Size
  | MCols a => ask a (fun m => PRet (o_cols m)) Size
  | MEmpty a => ask a (fun m => let! _ := PFail (the_data m) in PRet (size m =? 0)%nat) (fun b => Ev (Bool b))
  | MToMat a => ask a to_mat Matrix
  | MVarNames a => ask a var_names (fun l => Ev (Names l))
  | MEqual a b => let! m := PFail (the_obj o a) in let! m' := PFail (the_obj o b) in let! r := equal m m' in PRet (Ev (Bool r), o)
  | MToString a => ask a to_string (fun t => Ev (Text t))
  end.
End WithOrder.
End Progs.

Section Run.
Context {K : num_ops}.
Notation heap := (heap K).
Notation M := (M (K:=K)).
Variable pick : heap -> addr.

Fixpoint cleanup (cfg : config K) (l : list (stmt K)) : M unit :=
  match l with [] => ret tt | s :: l' => step pick cfg s;; cleanup cfg l' end.
(** Execution on the heap. *)
Definition guarded {A} (cfg : config K) (hd : handler K) (m : M A) : M A :=
  match hd with
  | Rethrow l => on_throw m (cleanup cfg l)
  | NoExcept => fun h => match m h with (Throw _, h') => (Terminate, h') | r => r end
  end.
Fixpoint exec {A} (cfg : config K) (p : prog K A) : M A :=
  match p with
  | PRet a => ret a
  | PFail r => fail r
  | PStep s hd k => do ev <- guarded cfg hd (step pick cfg s); exec cfg (k ev)
  end.

(** A program catches every exception and goes on with its next statement. *)
Definition mconfig (cfg : config K) (s : mstmt K) : config K := match s with MNode _ s => next_config cfg s | _ => cfg end.
Fixpoint mrun (leftFirst : bool) (cfg : config K) (p : list (mstmt K)) (o : objs) (h : heap) : list (mevent K) * (res objs * heap) :=
  match p with
  | [] => ([], (Ok o, h))
  | s :: p' =>
      let go ev o' h' := let '(evs, r) := mrun leftFirst (mconfig cfg s) p' o' h' in (ev :: evs, r) in
      match exec cfg (mprog leftFirst s o) h with
      | (Ok (ev, o'), h') => go ev o' h'
      | (Throw e, h') => go (Ev (Exception (kind e))) o h'
      | (Undef w, h') => ([], (Undef w, h'))
      | (Terminate, h') => ([], (Terminate, h'))
      | (AssertFail w, h') => ([], (AssertFail w, h'))
      | (OutOfFuel, h') => ([], (OutOfFuel, h'))
      end
  end.
End Run.
