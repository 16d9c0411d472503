(** Programs that use the public API of node.h, functions.h, parse.h, diff.h, subs.h and
    simplify.h on Node variables, run on the heap model (HeapModel.v).

    This file has two parts: the syntax of such programs, and their execution on the heap.  The
    execution only composes the functions of HeapModel.v the way C++ evaluates the written
    expressions: lvalue arguments are bound by reference, temporaries are destroyed at the end
    (also when an exception passes).  What a program should do is said in ApiSpec.v. *)
From Coq Require Import String List ZArith Bool.
From Verif Require Import Base MathOp NodeModel ToStringModel SubsModel ExprSpec HeapModel.
Import ListNotations.
Local Open Scope string_scope. Local Open Scope list_scope.

Section Syntax.
Context {K : num_ops}.

(** Expressions of type Node (prvalues), arguments of a call, and the replacements of Subs. *)
Inductive nexp :=
| XNum (v : K)                               (* Num(v)            node.cpp:652-654 *)
| XVar (s : string)                          (* Var("s")          node.cpp:667-672 *)
| XParse (s : string)                        (* Parse("s")        parse.cpp:376-385 *)
| XMove (x : string)                         (* Move(x)           node.cpp:648-650 *)
| XClone (a : arg)                           (* Clone(a)          node.cpp:644-646 *)
| XUn (u : unop) (a : arg)                   (* -a, +a, sin(a)... node.h:250-258, functions.h *)
| XBin (leftFirst : bool) (b : binop) (a1 a2 : arg)
                                             (* a1 + a2 ...       node.h:234-291; the flag is the order in
                                                                  which C++ evaluates the two operands *)
| XSubs (a : arg) (d : dict)                 (* Subs(a, ...)      subs.cpp:63-116 *)
| XDiff (a : arg) (x : string) (i : Z)       (* Diff(a, x, i)     diff.cpp:391-411 *)
with arg :=
| Lvalue (x : string)                        (* x *)
| Rvalue (x : string)                        (* std::move(x) *)
| Prvalue (e : nexp)
with dict :=
| DNil
| DNode (y : string) (a : arg) (d : dict)    (* y is replaced by the argument a *)
| DNum (y : string) (v : K) (d : dict).      (* y is replaced by a number: the overloads for std::map<string, double>, VarsTable *)

Inductive stmt :=
| Declare (x : string) (e : nexp)            (* Node x = e; *)
| DeclareEmpty (x : string)                  (* Node x; *)
| Assign (x : string) (e : nexp)             (* x = e; *)
| Compound (b : binop) (x : string) (a : arg)(* x += a; ...       node.h:239-296 *)
| SimplifyVar (x : string)                   (* Simplify(x);      simplify.cpp:174-177 *)
| CalcVar (x : string)                       (* x->Calc();        node.cpp:162-168 *)
| CopyInto (x y : string)                    (* *x = *y;          node.cpp:44-63 *)
| MoveInto (x y : string)                    (* *x = std::move( *y ); node.cpp:69-85 *)
| EndOfScope (x : string)                    (* x is destroyed *)
| GetVpa (x : string)                        (* x->Vpa() *)
| GetString (x : string)                     (* x->ToString() *)
| GetVarNames (x : string)                   (* x->GetAllVarNames() *)
| GetNumber (x : string)                     (* the value of x, which must be a number: what SymMat::ToMat
                                                does with an element, symmat.cpp:84-89 *)
| GetEqual (x y : string)                    (* x->Equal(y)       node.cpp:92-150 *)
| Check (x : string)                         (* x->CheckParent()  node.cpp:171-201 *)
| Configure (c : config K).                  (* Config::Get() changed *)

(** What the program sees of a statement. *)
Inductive event := Done | Number (v : K) | Text (s : string) | Names (l : list string) | Bool (b : bool) | Exception (e : exn).
End Syntax.
Arguments nexp K : clear implicits. Arguments arg K : clear implicits. Arguments dict K : clear implicits.
Arguments stmt K : clear implicits. Arguments event K : clear implicits.

(** The text of a std::runtime_error is not looked at. *)
Definition kind (e : exn) : exn := match e with RuntimeError _ => RuntimeError "" | e => e end.

Section Run.
Context {K : num_ops}.
Notation heap := (heap K).
Notation M := (M (K:=K)).
Variable pick : heap -> addr.

(** Destruction of temporaries and locals when an exception passes. *)
Definition on_throw {A} (m : M A) (cleanup : M unit) : M A := fun h =>
  match m h with
  | (Throw e, h') => (cleanup;; fail (Throw e)) h'
  | r => r
  end.

Definition uvar (x : string) : slot := SVar (User x).

(** The pointer an operand refers to, and its end as a temporary. *)
Definition peek (o : operand) : M (option addr) :=
  match o with CopyOf s | MoveOf s => get_slot s | Temp p => ret p end.
Definition drop (o : operand) : M unit := match o with Temp p => delete p | _ => ret tt end.

(** A by-value parameter: Clone for an lvalue, std::move for an rvalue. *)
Definition acquire (o : operand) : M (option addr) :=
  match o with
  | CopyOf s => do p <- get_slot s; do a <- Clone pick p; ret (Some a)
  | MoveOf s => move_out s
  | Temp p => ret p
  end.

(** A function body working on a local Node variable that it returns. *)
Definition with_local (n : string) (p : option addr) (body : slot -> M unit) : M (option addr) :=
  enter (Local n) p;;
  on_throw (body (SVar (Local n))) (do q <- move_out (SVar (Local n)); delete q;; leave (Local n));;
  do q <- move_out (SVar (Local n)); leave (Local n);; ret q.

(** subs.cpp:67-116: [dict.insert({name, Clone(newNode)})] / [dict.insert({name, Num(v)})] for every
    entry; the pair that is not inserted (the name is present) is destroyed. *)
Inductive entry := ENode (o : operand) | ENumber (v : K).
Definition insert_entry (m : smap (option addr)) (y : string) (e : entry) : M (smap (option addr)) :=
  do q <- match e with
          | ENode o => do p <- peek o; Clone pick p
          | ENumber v => make_node pick NUMBER MATH_NULL v ""
          end;
  match map_find y m with
  | Some _ => delete (Some q);; ret m
  | None => ret (map_insert y (Some q) m)
  end.
Fixpoint build_dict (m : smap (option addr)) (es : list (string * entry)) : M (smap (option addr)) :=
  match es with
  | [] => ret m
  | (y, e) :: es' => do m' <- insert_entry m y e; build_dict m' es'
  end.
Fixpoint drop_entries (es : list (string * entry)) : M unit :=
  match es with
  | [] => ret tt
  | (_, ENode o) :: es' => drop o;; drop_entries es'
  | (_, ENumber _) :: es' => drop_entries es'
  end.
Fixpoint delete_dict (m : smap (option addr)) : M unit :=
  match m with [] => ret tt | (_, p) :: m' => delete p;; delete_dict m' end.

(** subs.cpp:63-116 [Subs]: the const Node & overloads clone the node first. *)
Definition HSubs (o : operand) (es : list (string * entry)) : M (option addr) :=
  do o' <- match o with CopyOf _ => (do p <- acquire o; ret (Temp p)) | _ => ret o end;
  do m <- build_dict [] es;
  do p <- acquire o';
  do q <- with_local "node" p (fun s => HSubsInner pick s m);
  delete_dict m;; ret q.

(** diff.cpp:391-411 [Diff]. *)
Definition HDiffCall (cfg : config K) (o : operand) (x : string) (i : Z) : M (option addr) :=
  do p <- acquire o;
  with_local "n" p (fun s => HDiff pick cfg s x i).

(** Evaluation of expressions. *)
Fixpoint eval_exp (cfg : config K) (e : nexp K) : M (option addr) :=
  match e with
  | XNum v => do a <- make_node pick NUMBER MATH_NULL v ""; ret (Some a)
  | XVar s =>
      if VarNameIsLegal s then (do a <- make_node pick VARIABLE MATH_NULL (n_ofZ 0) s; ret (Some a))
      else fail (Throw (RuntimeError ("Illegal varname: " ++ s)))
  | XParse s => do a <- HParse pick s; ret (Some a)
  | XMove x => move_out (uvar x)
  | XClone a =>
      do o <- eval_arg cfg a;
      do p <- peek o; do r <- Clone pick p; drop o;; ret (Some r)
  | XUn u a =>
      do o <- eval_arg cfg a; do r <- HUnaryOperator pick (unop_op u) o; ret (Some r)
  | XBin leftFirst b a1 a2 =>
      do oo <- (if leftFirst : bool
                then (do o1 <- eval_arg cfg a1; do o2 <- on_throw (eval_arg cfg a2) (drop o1); ret (o1, o2))
                else (do o2 <- eval_arg cfg a2; do o1 <- on_throw (eval_arg cfg a1) (drop o2); ret (o1, o2)));
      do r <- HBinaryOperator pick (binop_op b) (fst oo) (snd oo); ret (Some r)
  | XSubs a d =>
      do es <- eval_dict cfg d;
      do o <- on_throw (eval_arg cfg a) (drop_entries es);
      do r <- HSubs o es;
      drop_entries es;; ret r
  | XDiff a x i => do o <- eval_arg cfg a; HDiffCall cfg o x i
  end
with eval_arg (cfg : config K) (a : arg K) : M operand :=
  match a with
  | Lvalue x => ret (CopyOf (uvar x))
  | Rvalue x => ret (MoveOf (uvar x))
  | Prvalue e => do p <- eval_exp cfg e; ret (Temp p)
  end
with eval_dict (cfg : config K) (d : dict K) : M (list (string * entry)) :=
  match d with
  | DNil => ret []
  | DNode y a d' =>
      do o <- eval_arg cfg a;
      do es <- on_throw (eval_dict cfg d') (drop o);
      ret ((y, ENode o) :: es)
  | DNum y v d' => do es <- eval_dict cfg d'; ret ((y, ENumber v) :: es)
  end.

(** symmat.cpp:84-89. *)
Definition HNumber (a : addr) : M K :=
  do c <- load a;
  match c_type c with NUMBER => ret (c_value c) | _ => fail (Throw (RuntimeError "ToMat error: node is not number")) end.

Definition the (x : string) : M addr := do p <- get_slot (uvar x); deref p.

Definition step (cfg : config K) (s : stmt K) : M (event K) :=
  match s with
  | Declare x e => do p <- eval_exp cfg e; enter (User x) p;; ret Done
  | DeclareEmpty x => enter (User x) None;; ret Done
  | Assign x e => do p <- eval_exp cfg e; reset (uvar x) p;; ret Done
  | Compound b x a =>
      do o <- eval_arg cfg a;
      do r <- HBinaryOperator pick (binop_op b) (MoveOf (uvar x)) o;
      reset (uvar x) (Some r);; ret Done
  | SimplifyVar x => HSimplify pick cfg (uvar x);; ret Done
  | CalcVar x => do a <- the x; HCalc pick cfg a;; ret Done
  | CopyInto x y => do b <- the y; do a <- the x; CopyAssign pick a b;; ret Done
  | MoveInto x y => do b <- the y; do a <- the x; MoveAssign a b;; ret Done
  | EndOfScope x => do p <- get_slot (uvar x); delete p;; leave (User x);; ret Done
  | GetVpa x => do a <- the x; do v <- HVpa cfg a; ret (Number v)
  | GetString x => do a <- the x; do t <- HToString a; ret (Text t)
  | GetVarNames x => do a <- the x; do l <- HGetAllVarNames a; ret (Names l)
  | GetNumber x => do a <- the x; do v <- HNumber a; ret (Number v)
  | GetEqual x y => do a <- the x; do q <- get_slot (uvar y); do r <- HEqual a q; ret (Bool r)
  | Check x => do a <- the x; CheckParent a;; ret Done
  | Configure _ => ret Done
  end.

(** A program catches every exception and goes on with its next statement. *)
Definition next_config (cfg : config K) (s : stmt K) : config K := match s with Configure c => c | _ => cfg end.
Fixpoint run (cfg : config K) (p : list (stmt K)) (h : heap) : list (event K) * (res unit * heap) :=
  match p with
  | [] => ([], (Ok tt, h))
  | s :: p' =>
      let go ev h' := let '(evs, r) := run (next_config cfg s) p' h' in (ev :: evs, r) in
      match step cfg s h with
      | (Ok ev, h') => go ev h'
      | (Throw e, h') => go (Exception (kind e)) h'
      | (Undef w, h') => ([], (Undef w, h'))
      | (Terminate, h') => ([], (Terminate, h'))
      | (AssertFail w, h') => ([], (AssertFail w, h'))
      | (OutOfFuel, h') => ([], (OutOfFuel, h'))
      end
  end.
End Run.
