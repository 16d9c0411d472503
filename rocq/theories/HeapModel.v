(** Model of the pointer manipulating code of src/tomsolver/node.{h,cpp}, simplify.cpp,
    subs.cpp, diff.cpp and parse.cpp: a heap of objects with explicit [left], [right] and
    [parent] pointers.

    Simplifications: C++ references and raw pointers to a NodeImpl are addresses; a
    [Node &] is a [slot] (a Node variable of the program or the [left]/[right] member of a
    NodeImpl object); the contents of a temporary Node is passed around as an address.
    The traversals that only read a tree (Vpa, Equal, ToString, GetAllVarNames) go through
    the pointers as well. *)
From Coq Require Import String List ZArith Bool Arith.
From Verif Require Import Base MathOp NodeModel ToStringModel SubsModel ParseModel.
Import ListNotations.
Local Open Scope string_scope. Local Open Scope list_scope.

Definition addr := nat.
(** Node variables: those of the calling program, and locals and parameters of the library. *)
Inductive var := User (x : string) | Local (x : string).
Definition var_eqb (x y : var) : bool :=
  match x, y with
  | User a, User b | Local a, Local b => String.eqb a b
  | _, _ => false
  end.
(** Names of memory objects: a Node variable, or an object allocated by make_unique. *)
Inductive key := KVar (x : var) | KObj (a : addr).
Definition key_eqb (k k' : key) : bool :=
  match k, k' with
  | KVar x, KVar y => var_eqb x y
  | KObj a, KObj b => Nat.eqb a b
  | _, _ => false
  end.

(** node.h:83-88: the members of a NodeImpl. *)
Record cell (V : Type) := MkCell {
  c_type : node_type; c_op : math_op; c_value : V; c_name : string;
  c_parent : option addr; c_left : option addr; c_right : option addr }.
Arguments MkCell {V}. Arguments c_type {V}. Arguments c_op {V}. Arguments c_value {V}. Arguments c_name {V}.
Arguments c_parent {V}. Arguments c_left {V}. Arguments c_right {V}.

(** A Node variable holds a (possibly null) pointer; everything else is a NodeImpl. *)
Inductive obj (V : Type) := OPtr (p : option addr) | OCell (c : cell V).
Arguments OPtr {V}. Arguments OCell {V}.

Definition heap (V : Type) := list (key * obj V).
Fixpoint lookup {V} (h : heap V) (k : key) : option (obj V) :=
  match h with
  | [] => None
  | (k', o) :: h' => if key_eqb k k' then Some o else lookup h' k
  end.
Fixpoint update {V} (h : heap V) (k : key) (o : obj V) : heap V :=
  match h with
  | [] => []
  | (k', o') :: h' => if key_eqb k k' then (k', o) :: h' else (k', o') :: update h' k o
  end.
Fixpoint remove {V} (h : heap V) (k : key) : heap V :=
  match h with
  | [] => []
  | (k', o') :: h' => if key_eqb k k' then h' else (k', o') :: remove h' k
  end.

Inductive side := L | R.
Inductive slot := SVar (x : var) | SFld (a : addr) (s : side).

Section Heap.
Context {K : num_ops}.
Notation node := (node K).
Notation cell := (cell K).
Notation heap := (heap K).

(** The allocator: any function that returns an unused address (HeapSpec.v). *)
Variable pick : heap -> addr.

(** Computations that change the heap; an exception leaves the heap as it is then. *)
Definition M (A : Type) := heap -> res A * heap.
Definition ret {A} (a : A) : M A := fun h => (Ok a, h).
Definition fail {A} (r : res A) : M A := fun h => (r, h).
Definition bindM {A B} (m : M A) (f : A -> M B) : M B := fun h =>
  match m h with
  | (Ok a, h') => f a h'
  | (Throw e, h') => (Throw e, h')
  | (Undef w, h') => (Undef w, h')
  | (Terminate, h') => (Terminate, h')
  | (AssertFail w, h') => (AssertFail w, h')
  | (OutOfFuel, h') => (OutOfFuel, h')
  end.
End Heap.
Declare Scope heap_scope.
Delimit Scope heap_scope with heap.
Notation "'do' x <- e1 ; e2" := (bindM e1 (fun x => e2))
  (at level 200, x pattern, e1 at level 100, e2 at level 200, right associativity) : heap_scope.
Notation "e1 ;; e2" := (bindM e1 (fun _ => e2)) (at level 100, e2 at level 200, right associativity) : heap_scope.
Open Scope heap_scope.

Section Heap2.
Context {K : num_ops}.
Notation node := (node K).
Notation cell := (cell K).
Notation heap := (heap K).
Notation M := (M (K:=K)).
Variable pick : heap -> addr.

(** A noexcept function. *)
Definition noexceptM {A} (m : M A) : M A := fun h =>
  match m h with (Throw _, h') => (Terminate, h') | r => r end.

(** Member access through a pointer. *)
Definition load (a : addr) : M cell := fun h =>
  match lookup h (KObj a) with
  | Some (OCell c) => (Ok c, h)
  | _ => (Undef "object does not exist", h)
  end.
Definition store (a : addr) (c : cell) : M unit := fun h =>
  match lookup h (KObj a) with
  | Some (OCell _) => (Ok tt, update h (KObj a) (OCell c))
  | _ => (Undef "object does not exist", h)
  end.
(** operator* / operator-> of a Node. *)
Definition deref (p : option addr) : M addr :=
  match p with Some a => ret a | None => fail (Undef "null node dereferenced") end.

(** node.cpp:23-38: make_unique<NodeImpl>(type, op, value, varname). *)
Definition make_node (ty : node_type) (op : math_op) (v : K) (x : string) : M addr := fun h =>
  let a := pick h in (Ok a, (KObj a, OCell (MkCell ty op v x None None None)) :: h).
(** Return of the memory of an object. *)
Definition free (a : addr) : M unit := fun h =>
  match lookup h (KObj a) with
  | Some (OCell _) => (Ok tt, remove h (KObj a))
  | _ => (Undef "double free", h)
  end.

Definition with_parent (c : cell) (p : option addr) : cell :=
  MkCell (c_type c) (c_op c) (c_value c) (c_name c) p (c_left c) (c_right c).
Definition with_child (c : cell) (s : side) (p : option addr) : cell :=
  match s with
  | L => MkCell (c_type c) (c_op c) (c_value c) (c_name c) (c_parent c) p (c_right c)
  | R => MkCell (c_type c) (c_op c) (c_value c) (c_name c) (c_parent c) (c_left c) p
  end.
Definition child (c : cell) (s : side) : option addr := match s with L => c_left c | R => c_right c end.
(** Everything but the three pointers. *)
Definition with_data (c : cell) (ty : node_type) (op : math_op) (v : K) (x : string) : cell :=
  MkCell ty op v x (c_parent c) (c_left c) (c_right c).

Definition set_parent (a : addr) (p : option addr) : M unit :=
  do c <- load a; store a (with_parent c p).

(** Reading and writing the pointer in a Node. *)
Definition get_slot (s : slot) : M (option addr) :=
  match s with
  | SVar x => fun h => match lookup h (KVar x) with
                       | Some (OPtr p) => (Ok p, h) | _ => (Undef "no such variable", h) end
  | SFld a f => do c <- load a; ret (child c f)
  end.
Definition set_slot (s : slot) (p : option addr) : M unit :=
  match s with
  | SVar x => fun h => match lookup h (KVar x) with
                       | Some (OPtr _) => (Ok tt, update h (KVar x) (OPtr p)) | _ => (Undef "no such variable", h) end
  | SFld a f => do c <- load a; store a (with_child c f p)
  end.

(** [std::move(n)] consumed by a unique_ptr constructor; node.cpp:648-650 [Move]. *)
Definition move_out (s : slot) : M (option addr) :=
  do p <- get_slot s; set_slot s None;; ret p.

(** Begin and end of the life of a Node variable (the end also on exceptions). *)
Definition enter (x : var) (p : option addr) : M unit := fun h => (Ok tt, (KVar x, OPtr p) :: h).
Definition leave (x : var) : M unit := fun h => (Ok tt, remove h (KVar x)).

(** node.cpp:497-525 [Release]: the loop.  [del] destroys the node popped from the stack at the
    end of an iteration. *)
Definition push (p : option addr) (stk : list addr) : list addr :=
  match p with Some a => a :: stk | None => stk end.
Definition emplaceChildren (a : addr) (stk : list addr) : M (list addr) :=
  do l <- move_out (SFld a L);
  do r <- move_out (SFld a R);
  ret (push r (push l stk)).
Fixpoint ReleaseLoop (del : option addr -> M unit) (fuel : nat) (stk : list addr) : M unit :=
  match fuel with
  | O => fail OutOfFuel
  | S fuel' =>
    match stk with
    | [] => ret tt
    | a :: stk' =>
        do stk1 <- emplaceChildren a stk';
        do c <- load a;
        match c_left c, c_right c with
        | None, None => del (Some a);; ReleaseLoop del fuel' stk1
        | _, _ => fail (AssertFail "!node->left && !node->right")
        end
    end
  end.
Definition Release (del : option addr -> M unit) (a : addr) : M unit := fun h =>
  (do stk <- emplaceChildren a []; ReleaseLoop del (S (length h)) stk) h.

(** delete of a NodeImpl: node.cpp:87-89 [~NodeImpl] calls Release; then the members are destroyed
    in reverse order (node.h:88: right, left), and the memory is returned.  Every node that Release
    pops is destroyed by a nested call of ~NodeImpl.  [room] is the number of calls of ~NodeImpl that
    may be active at the same time, that is, for which there is room on the call stack. *)
Fixpoint destroy (room : nat) (p : option addr) : M unit :=
  match p with
  | None => ret tt
  | Some a =>
    match room with
    | O => fail (Undef "stack overflow")
    | S room' =>
        Release (destroy room') a;;
        do c <- load a;
        destroy room' (c_right c);;
        destroy room' (c_left c);;
        free a
    end
  end.
(** The machine: there is room for two nested destructor calls, however large the trees are
    (C83 in Thm_Stack.v: less does not suffice, more changes nothing). *)
Definition delete : option addr -> M unit := destroy 2.

(** Move assignment / reset of a unique_ptr: the new pointer is stored before the old object
    is deleted. *)
Definition reset (s : slot) (p : option addr) : M unit :=
  do old <- get_slot s; set_slot s p;; delete old.

(** node.cpp:543-577 [CloneNonRecursively]: the loop.  A stack entry is (src, parent, tgt)
    where tgt is the left or right member of parent. *)
Definition EmplaceNode (p : option addr) (par : addr) (s : side) (stk : list (addr * addr * side)) :=
  match p with Some a => (a, par, s) :: stk | None => stk end.
Definition EmplaceChildren (src tgt : addr) (stk : list (addr * addr * side)) : M (list (addr * addr * side)) :=
  do c <- load src;
  ret (EmplaceNode (c_right c) tgt R (EmplaceNode (c_left c) tgt L stk)).
Definition MakeNode (src : addr) (parent : option addr) : M addr :=
  do c <- load src;
  do a <- make_node (c_type c) (c_op c) (c_value c) (c_name c);
  set_parent a parent;; ret a.
Fixpoint CloneLoop (fuel : nat) (stk : list (addr * addr * side)) : M unit :=
  match fuel with
  | O => fail OutOfFuel
  | S fuel' =>
    match stk with
    | [] => ret tt
    | (src, par, s) :: stk' =>
        do a <- MakeNode src (Some par);
        reset (SFld par s) (Some a);;
        do stk1 <- EmplaceChildren src a stk';
        CloneLoop fuel' stk1
    end
  end.
(** node.cpp:644-646 [Clone]. *)
Definition Clone (p : option addr) : M addr := fun h =>
  (do src <- deref p;
   do r <- MakeNode src None;
   do stk <- EmplaceChildren src r [];
   CloneLoop (S (length h)) stk;; ret r) h.

(** node.cpp:44-63: copy assignment of a NodeImpl. *)
Definition CopyChild (this rhs : addr) (s : side) : M unit :=
  do c <- load rhs;
  match child c s with
  | Some _ =>
      do q <- Clone (child c s);
      reset (SFld this s) (Some q);;
      do t <- load this; do q' <- deref (child t s); set_parent q' (Some this)
  | None => reset (SFld this s) None
  end.
Definition CopyAssign (this rhs : addr) : M unit :=
  do c <- load rhs; do t <- load this;
  store this (with_parent (with_data t (c_type c) (c_op c) (c_value c) (c_name c)) (c_parent c));;
  CopyChild this rhs L;;
  CopyChild this rhs R.
(** node.cpp:40-42: copy constructor. *)
Definition CopyConstruct (rhs : addr) : M addr :=
  do a <- make_node NUMBER MATH_NULL (n_ofZ 0) "";
  CopyAssign a rhs;; ret a.

(** node.cpp:69-85: move assignment of a NodeImpl. *)
Definition MoveChild (this rhs : addr) (s : side) : M unit :=
  do p <- move_out (SFld rhs s);
  reset (SFld this s) p;;
  do t <- load this;
  match child t s with Some q => set_parent q (Some this) | None => ret tt end.
Definition MoveAssign (this rhs : addr) : M unit :=
  do c <- load rhs;
  store rhs (with_parent (with_data c NUMBER MATH_NULL (n_ofZ 0) "") None);;
  do t <- load this;
  store this (with_parent (with_data t (c_type c) (c_op c) (c_value c) (c_name c)) (c_parent c));;
  MoveChild this rhs L;;
  MoveChild this rhs R.

(** How an operand is passed: by lvalue (copied), as std::move(lvalue), or as a temporary. *)
Inductive operand := CopyOf (s : slot) | MoveOf (s : slot) | Temp (p : option addr).

(** node.cpp:579-588 [CopyOrMoveTo]; the member [child] of [parent] is the target. *)
Definition CopyOrMoveTo (parent : addr) (f : side) (n1 : operand) : M unit :=
  match n1 with
  | MoveOf s =>
      do p <- get_slot s; do a <- deref p;
      set_parent a (Some parent);;
      do q <- move_out s; reset (SFld parent f) q
  | Temp p =>
      do a <- deref p;
      set_parent a (Some parent);;
      reset (SFld parent f) (Some a)
  | CopyOf s =>
      do p <- get_slot s; do a <- deref p;
      do q <- CopyConstruct a;
      set_parent q (Some parent);;
      reset (SFld parent f) (Some q)
  end.

(** node.h:172-185 [UnaryOperator], [BinaryOperator] (noexcept). *)
Definition HUnaryOperator (op : math_op) (n : operand) : M addr :=
  do r <- make_node OPERATOR op (n_ofZ 0) "";
  CopyOrMoveTo r L n;; ret r.
Definition HBinaryOperator (op : math_op) (n1 n2 : operand) : M addr :=
  do r <- make_node OPERATOR op (n_ofZ 0) "";
  CopyOrMoveTo r L n1;;
  CopyOrMoveTo r R n2;; ret r.

(** [type == NodeType::NUMBER]; [p.get() == &a]. *)
Definition isNumber_c (c : cell) : bool := node_type_eqb (c_type c) NUMBER.
Definition is_ptr (p : option addr) (a : addr) : bool := match p with Some b => Nat.eqb b a | None => false end.

(** node.cpp:436-451: Part I of VpaNonRecursively. *)
Fixpoint HVpaOrder (fuel : nat) (stk acc : list addr) : M (list addr) :=
  match fuel with
  | O => fail OutOfFuel
  | S fuel' =>
    match stk with
    | [] => ret acc
    | a :: stk' =>
        do c <- load a;
        HVpaOrder fuel' (push (c_right c) (push (c_left c) stk')) (a :: acc)
    end
  end.
(** node.cpp:459-488: one step of Part II. *)
Definition HVpaStep (cfg : config K) (calcStk : list K) (a : addr) : M (list K) :=
  do c <- load a;
  match c_type c with
  | NUMBER => ret (c_value c :: calcStk)
  | OPERATOR =>
      match GetOperatorNum (c_op c) with
      | 1 =>
        match calcStk with
        | l :: stk => do x <- fail (Calc cfg (c_op c) l n_nan); ret (x :: stk)
        | [] => fail (Undef "top() of an empty stack")
        end
      | 2 =>
        match calcStk with
        | r :: l :: stk => do x <- fail (Calc cfg (c_op c) l r); ret (x :: stk)
        | _ => fail (Undef "top() of an empty stack")
        end
      | _ => fail (AssertFail "[VpaNonRecursively] unsupported operator num")
      end
  | VARIABLE => fail (Throw (RuntimeError "wrong"))
  end.
Fixpoint HVpaLoop (cfg : config K) (order : list addr) (calcStk : list K) : M (list K) :=
  match order with
  | [] => ret calcStk
  | a :: order' => do s <- HVpaStep cfg calcStk a; HVpaLoop cfg order' s
  end.
(** node.cpp:158-160, 428-494 [Vpa] / [VpaNonRecursively]. *)
Definition HVpa (cfg : config K) (this : addr) : M K := fun h =>
  (do order <- HVpaOrder (S (length h)) [this] [];
   do stk <- HVpaLoop cfg order [];
   match stk with
   | [v] => ret v
   | _ => fail (AssertFail "calcStk.size() == 1")
   end) h.

(** node.cpp:623-629 lambda [EmplaceChild] of GetAllVarNames; a std::set is the increasing
    list of its elements. *)
Definition HEmplaceChild (a : addr) (stk : list addr) (names : list string) : M (list addr * list string) :=
  do c <- load a;
  ret (push (c_right c) (push (c_left c) stk),
       match c_type c with VARIABLE => set_insert (c_name c) names | _ => names end).
Fixpoint HGetAllVarNamesLoop (fuel : nat) (stk : list addr) (names : list string) : M (list string) :=
  match fuel with
  | O => fail OutOfFuel
  | S fuel' =>
    match stk with
    | [] => ret names
    | a :: stk' => do st <- HEmplaceChild a stk' names; HGetAllVarNamesLoop fuel' (fst st) (snd st)
    end
  end.
(** node.cpp:612-640 [GetAllVarNames]. *)
Definition HGetAllVarNames (this : addr) : M (list string) := fun h =>
  (do st <- HEmplaceChild this [] []; HGetAllVarNamesLoop (S (length h)) (fst st) (snd st)) h.

(** node.cpp:99-105 lambda [IsSame]. *)
Definition HIsSame (c d : cell) : bool :=
  node_type_eqb (c_type c) (c_type d) && math_op_eqb (c_op c) (c_op d) && n_eqb (c_value c) (c_value d) && String.eqb (c_name c) (c_name d).
(** node.cpp:107-128 lambda [CheckChildren]; [None] = returns false. *)
Definition HCheckChildren (stk : list (addr * addr)) (lhs rhs : option addr) : option (list (addr * addr)) :=
  match lhs, rhs with
  | None, None => Some stk
  | Some a, Some b => Some ((a, b) :: stk)
  | _, _ => None
  end.
(** node.cpp:130-132 lambda [CheckNode]. *)
Definition HCheckNode (stk : list (addr * addr)) (a b : addr) : M (option (list (addr * addr))) :=
  do c <- load a; do d <- load b;
  ret (if HIsSame c d then
         match HCheckChildren stk (c_left c) (c_left d) with
         | Some s => HCheckChildren s (c_right c) (c_right d)
         | None => None
         end
       else None).
(** node.cpp:138-149. *)
Fixpoint HEqualLoop (fuel : nat) (stk : list (addr * addr)) : M bool :=
  match fuel with
  | O => fail OutOfFuel
  | S fuel' =>
    match stk with
    | [] => ret true
    | (a, b) :: stk' =>
        do r <- HCheckNode stk' a b;
        match r with
        | None => ret false
        | Some stk1 => HEqualLoop fuel' stk1
        end
    end
  end.
(** node.cpp:92-150 [NodeImpl::Equal]; the pointers are compared first, [other] is
    dereferenced at line 134. *)
Definition HEqual (this : addr) (other : option addr) : M bool := fun h =>
  (if match other with Some b => Nat.eqb this b | None => false end then ret true
   else do b <- deref other;
        do r <- HCheckNode [] this b;
        match r with
        | None => ret false
        | Some stk => HEqualLoop (S (length h)) stk
        end) h.

(** An element of the stack of ToStringNonRecursively: the local object [rightParenthesis]
    of node.cpp:315 (no parent, no children) or a node. *)
Inductive pref := RightParenthesis | Ref (a : addr).
(** node.cpp:223-234 [NodeToStr]. *)
Definition HNodeToStr (c : cell) : string :=
  match c_type c with
  | NUMBER => n_tostr (c_value c)
  | VARIABLE => c_name c
  | OPERATOR => MathOperatorToStr (c_op c)
  end.
(** node.cpp:348-364: the condition for parentheses around a binary operator; [cur->parent]
    is [Some p]. *)
Definition HNeedsParens (cur : addr) (op : math_op) (p : addr) : M bool :=
  do pc <- load p;
  if Nat.eqb (GetOperatorNum (c_op pc)) 0 then fail (AssertFail "GetOperatorNum")
  else ret (Nat.eqb (GetOperatorNum (c_op pc)) 2 &&
            ((Rank op <? Rank (c_op pc))%nat ||
             (Nat.eqb (Rank (c_op pc)) (Rank op) &&
              ((negb (InAssociativeLaws (c_op pc)) && is_ptr (c_right pc) cur) ||
               (negb (InAssociativeLaws (c_op pc)) && negb (IsLeft2Right op)))))).
(** node.cpp:317-379 lambda [AddLeftLine]. *)
Fixpoint HAddLeftLine (fuel : nat) (cur : option addr) (stk : list pref) (out : string) : M (list pref * string) :=
  match fuel with
  | O => fail OutOfFuel
  | S fuel' =>
    match cur with
    | None => ret (stk, out)
    | Some a =>
      do c <- load a;
      match c_type c with
      | OPERATOR =>
          match GetOperatorNum (c_op c) with
          | 1 =>
              do bare <- (if is_sign_op (c_op c)
                          then (do l <- deref (c_left c); do lc <- load l; ret (negb (node_type_eqb (c_type lc) OPERATOR)))
                          else ret false);
              if bare : bool then HAddLeftLine fuel' (c_left c) stk (out ++ HNodeToStr c)%string
              else HAddLeftLine fuel' (c_left c) (RightParenthesis :: stk) (out ++ HNodeToStr c ++ "(")%string
          | 2 =>
              do b <- match c_parent c with
                      | Some p => HNeedsParens a (c_op c) p
                      | None => ret false
                      end;
              if b : bool then HAddLeftLine fuel' (c_left c) (Ref a :: RightParenthesis :: stk) (out ++ "(")%string
              else HAddLeftLine fuel' (c_left c) (Ref a :: stk) out
          | _ => fail (AssertFail "GetOperatorNum")
          end
      | _ => HAddLeftLine fuel' (c_left c) (Ref a :: stk) out
      end
    end
  end.
(** node.cpp:391-392: a negative number that is the subtrahend of its parent. *)
Definition HNegativeSubtrahend (a : addr) (c : cell) : M bool :=
  if isNumber_c c && n_ltb (c_value c) (n_ofZ 0)
  then match c_parent c with
       | None => ret false
       | Some p => do pc <- load p; ret (is_ptr (c_right pc) a && math_op_eqb (c_op pc) MATH_SUB)
       end
  else ret false.
(** node.cpp:383-402. *)
Fixpoint HToStringLoop (fuel : nat) (stk : list pref) (out : string) : M string := fun h =>
  match fuel with
  | O => fail OutOfFuel h
  | S fuel' =>
    match stk with
    | [] => ret out h
    | RightParenthesis :: stk' => HToStringLoop fuel' stk' (out ++ MathOperatorToStr MATH_RIGHT_PARENTHESIS)%string h
    | Ref a :: stk' =>
        (do c <- load a;
         do neg <- HNegativeSubtrahend a c;
         let out1 := (out ++ (if neg : bool then "(" ++ HNodeToStr c ++ ")" else HNodeToStr c))%string in
         match c_right c with
         | Some r => do st <- HAddLeftLine (S (length h)) (Some r) stk' out1; HToStringLoop fuel' (fst st) (snd st)
         | None => HToStringLoop fuel' stk' out1
         end) h
    end
  end.
(** node.cpp:152-156, 312-403 [ToString] / [ToStringNonRecursively]. *)
Definition HToString (this : addr) : M string := fun h =>
  (do st <- HAddLeftLine (S (length h)) (Some this) [] "";
   HToStringLoop (S (2 * length h)) (fst st) (snd st)) h.

(** node.cpp:162-168 [NodeImpl::Calc]; [*this = {}] move-assigns from a temporary object. *)
Definition HCalc (cfg : config K) (this : addr) : M unit :=
  do d <- HVpa cfg this;
  do tmp <- make_node NUMBER MATH_NULL (n_ofZ 0) "";
  MoveAssign this tmp;;
  delete (Some tmp);;
  do c <- load this;
  store this (with_data c (c_type c) (c_op c) d (c_name c)).

(** node.cpp:203-221 [CheckOperatorNum]. *)
Definition CheckOperatorNum (c : cell) : bool :=
  match c_type c with
  | OPERATOR =>
      match GetOperatorNum (c_op c), c_left c, c_right c with
      | 1, Some _, None => true
      | 2, Some _, Some _ => true
      | _, _, _ => false
      end
  | _ => true
  end.
(** node.cpp:171-201 [CheckParent]: [AssertFail] if an assertion of the debug build fails. *)
Definition TryEmplaceChildren (a : addr) (stk : list addr) : M (list addr) :=
  do c <- load a;
  if CheckOperatorNum c then ret (push (c_right c) (push (c_left c) stk))
  else fail (AssertFail "CheckOperatorNum").
Fixpoint CheckParentLoop (fuel : nat) (stk : list addr) : M unit :=
  match fuel with
  | O => fail OutOfFuel
  | S fuel' =>
    match stk with
    | [] => ret tt
    | f :: stk' =>
        do c <- load f;
        match c_parent c with
        | None => fail (AssertFail "f.parent")
        | Some p =>
            do pc <- load p;
            if is_ptr (c_left pc) f || is_ptr (c_right pc) f
            then (do stk1 <- TryEmplaceChildren f stk'; CheckParentLoop fuel' stk1)
            else fail (AssertFail "isLeftChild || isRightChild")
        end
    end
  end.
Definition CheckParent (a : addr) : M unit := fun h =>
  (do stk <- TryEmplaceChildren a []; CheckParentLoop (S (length h)) stk) h.

(** simplify.cpp:24-81 [SimplifySingleNode]. *)
Definition isNum_c (c : cell) (z : Z) : bool := isNumber_c c && n_eqb (c_value c) (n_ofZ z).
Definition HSimplifySingleNode (cfg : config K) (n : slot) : M unit := noexceptM (
  do p <- get_slot n; do a <- deref p;
  do c <- load a;
  let parent := c_parent c in
  match GetOperatorNum (c_op c) with
  | 1 =>
      do la <- deref (c_left c); do lc <- load la;
      if isNumber_c lc then
        (do d <- fail (Calc cfg (c_op c) (c_value lc) (n_ofZ 0));
         store a (with_data c NUMBER MATH_NULL d (c_name c));;
         reset (SFld a L) None)
      else ret tt
  | 2 =>
      do la <- deref (c_left c); do lc <- load la;
      do both <- (if isNumber_c lc then (do ra <- deref (c_right c); do rc <- load ra; ret (isNumber_c rc)) else ret false);
      if both : bool then
        (do ra <- deref (c_right c); do rc <- load ra;
         do d <- fail (Calc cfg (c_op c) (c_value lc) (c_value rc));
         store a (with_data c NUMBER MATH_NULL d (c_name c));;
         reset (SFld a L) None;;
         reset (SFld a R) None)
      else match c_right c with
      | None => fail (AssertFail "n->left && n->right")
      | Some ra =>
        do rc <- load ra;
        let l0 := isNum_c lc 0 in let r0 := isNum_c rc 0 in
        let l1 := isNum_c lc 1 in let r1 := isNum_c rc 1 in
        if match c_op c with
           | MATH_MULTIPLY => l0 || r0
           | MATH_DIVIDE => l0
           | MATH_POWER => l0
           | _ => false end
        then (do z <- make_node NUMBER MATH_NULL (n_ofZ 0) "";
              reset n (Some z);; set_parent z parent)
        else if match c_op c with
                | MATH_ADD => l0 || r0
                | MATH_SUB => r0
                | MATH_MULTIPLY => l1 || r1
                | MATH_DIVIDE => r1
                | MATH_POWER => r1
                | _ => false end
        then (if l1 || l0 then
                (reset (SFld a L) None;; do q <- move_out (SFld a R); reset n q;;
                 do p' <- get_slot n; do a' <- deref p'; set_parent a' parent)
              else if r1 || r0 then
                (reset (SFld a R) None;; do q <- move_out (SFld a L); reset n q;;
                 do p' <- get_slot n; do a' <- deref p'; set_parent a' parent)
              else ret tt)
        else ret tt
      end
  | _ => fail (AssertFail "GetOperatorNum")
  end).

(** simplify.cpp:20: SimplifyNode records whether the node is its parent's left child. *)
Definition mkSimplifyNode (a : addr) : M (addr * bool) :=
  do c <- load a;
  match c_parent c with
  | None => ret (a, true)
  | Some p => do pc <- load p; ret (a, is_ptr (c_left pc) a)
  end.
Definition pushOperator (p : option addr) (stk : list (addr * bool)) : M (list (addr * bool)) :=
  match p with
  | None => ret stk
  | Some a =>
      do c <- load a;
      match c_type c with OPERATOR => do s <- mkSimplifyNode a; ret (s :: stk) | _ => ret stk end
  end.
(** simplify.cpp:104-116 (Part I); [acc] is revertedPostOrder from back to front. *)
Fixpoint SimplifyOrder (fuel : nat) (stk acc : list (addr * bool)) : M (list (addr * bool)) :=
  match fuel with
  | O => fail OutOfFuel
  | S fuel' =>
    match stk with
    | [] => ret acc
    | f :: stk' =>
        do c <- load (fst f);
        do stk1 <- pushOperator (c_left c) stk';
        do stk2 <- pushOperator (c_right c) stk1;
        SimplifyOrder fuel' stk2 (f :: acc)
    end
  end.
Fixpoint forM {A} (f : A -> M unit) (l : list A) : M unit :=
  match l with [] => ret tt | a :: l' => f a;; forM f l' end.
(** simplify.cpp:122-124. *)
Definition SimplifyStep (cfg : config K) (s : addr * bool) : M unit :=
  do c <- load (fst s);
  do p <- deref (c_parent c);
  HSimplifySingleNode cfg (SFld p (if snd s then L else R)).
(** simplify.cpp:84-128 [SimplifyWholeNode], 174-177 [Simplify].  The root is the front of the
    deque (the last of [order]) and is simplified separately. *)
Definition HSimplify (cfg : config K) (n : slot) : M unit := fun h => noexceptM (
  do p <- get_slot n; do a <- deref p;
  do c <- load a;
  match c_type c with
  | OPERATOR =>
      do s <- mkSimplifyNode a;
      do order <- SimplifyOrder (S (length h)) [s] [];
      forM (SimplifyStep cfg) (removelast order);;
      HSimplifySingleNode cfg n
  | _ => ret tt
  end) h.

(** subs.cpp:19-34 lambda [Replace]; the dictionary maps names to (owned) nodes. *)
Definition HReplace (dict : smap (option addr)) (cur : slot) : M bool :=
  do p <- get_slot cur; do a <- deref p;
  do c <- load a;
  match c_type c with
  | VARIABLE =>
      match map_find (c_name c) dict with
      | None => ret false
      | Some q =>
          do r <- Clone q;
          reset cur (Some r);;
          set_parent r (c_parent c);;
          ret true
      end
  | _ => ret false
  end.
(** subs.cpp:37-41 lambda [TryReplace]. *)
Definition TryReplace (dict : smap (option addr)) (cur : slot) (stk : list addr) : M (list addr) :=
  do p <- get_slot cur;
  match p with
  | None => ret stk
  | Some _ =>
      do b <- HReplace dict cur;
      if b : bool then ret stk
      else (do p' <- get_slot cur; do a <- deref p'; ret (a :: stk))
  end.
Fixpoint SubsLoop (fuel : nat) (dict : smap (option addr)) (stk : list addr) : M unit :=
  match fuel with
  | O => fail OutOfFuel
  | S fuel' =>
    match stk with
    | [] => ret tt
    | f :: stk' =>
        do stk1 <- TryReplace dict (SFld f R) stk';
        do stk2 <- TryReplace dict (SFld f L) stk1;
        SubsLoop fuel' dict stk2
    end
  end.
(** subs.cpp:15-58 [SubsInner]; [node] is the by-value parameter, here the slot holding it. *)
Definition HSubsInner (node : slot) (dict : smap (option addr)) : M unit := fun h =>
  (do b <- HReplace dict node;
   if b : bool then ret tt
   else
     (do p <- get_slot node; do a <- deref p;
      do stk1 <- TryReplace dict (SFld a R) [];
      do stk2 <- TryReplace dict (SFld a L) stk1;
      SubsLoop (S (length h)) dict stk2)) h.

(** ** diff.cpp *)
(** Sub-expressions of the right-hand sides in diff.cpp: temporaries.  The operands of an
    operator are evaluated from left to right here; C++ leaves the order open, and the operands
    do not touch the same objects. *)
Definition tNum (v : K) : M addr := make_node NUMBER MATH_NULL v "".
Definition tMove (s : slot) : M addr := do p <- move_out s; deref p.
Definition tUn (op : math_op) (m : M addr) : M addr := do a <- m; HUnaryOperator op (Temp (Some a)).
Definition tBin (op : math_op) (m1 m2 : M addr) : M addr :=
  do a <- m1; do b <- m2; HBinaryOperator op (Temp (Some a)) (Temp (Some b)).
Definition left (s : slot) : M slot := do p <- get_slot s; do a <- deref p; ret (SFld a L).
Definition right (s : slot) : M slot := do p <- get_slot s; do a <- deref p; ret (SFld a R).
Definition cell_at (s : slot) : M cell := do p <- get_slot s; do a <- deref p; load a.
Definition tClone (s : slot) : M addr := do p <- get_slot s; Clone p.
(** [node = e; node->parent = parent;] *)
Definition assign (node : slot) (parent : option addr) (m : M addr) : M unit :=
  do a <- m; reset node (Some a);;
  do p <- get_slot node; do b <- deref p; set_parent b parent.
(** node->op = op *)
Definition set_op (node : slot) (op : math_op) : M unit :=
  do p <- get_slot node; do a <- deref p; do c <- load a; store a (with_data c (c_type c) op (c_value c) (c_name c)).

Definition dqueue := list (addr * bool).
(** diff.cpp:15-20 [DiffNode], queue::emplace. *)
Definition emplace (a : addr) (q : dqueue) : M dqueue :=
  do c <- load a;
  match c_parent c with
  | None => ret (q ++ [(a, false)])
  | Some p => do pc <- load p; ret (q ++ [(a, is_ptr (c_left pc) a)])
  end.
Definition emplace_at (s : slot) (q : dqueue) : M dqueue := do p <- get_slot s; do a <- deref p; emplace a q.

(** diff.cpp:64-75 [CullNumberMember]. *)
Definition CullNumberMember (node : slot) : M bool :=
  do p <- get_slot node; do a <- deref p; do c <- load a;
  match c_left c with
  | None => fail (AssertFail "node->left")
  | Some la =>
      do lc <- load la;
      if isNumber_c lc then
        (reset (SFld a L) None;;
         do c' <- load a; store a (with_data c' NUMBER MATH_NULL (n_ofZ 0) (c_name c'));; ret true)
      else ret false
  end.
(** diff.cpp:80-92 [CullNumberMemberBinary]. *)
Definition CullNumberMemberBinary (node : slot) : M bool :=
  do p <- get_slot node; do a <- deref p; do c <- load a;
  match c_left c, c_right c with
  | Some la, Some ra =>
      do lc <- load la; do rc <- load ra;
      if isNumber_c lc && isNumber_c rc then
        (reset (SFld a L) None;; reset (SFld a R) None;;
         do c' <- load a; store a (with_data c' NUMBER MATH_NULL (n_ofZ 0) (c_name c'));; ret true)
      else ret false
  | _, _ => fail (AssertFail "node->left && node->right")
  end.

(** diff.cpp:106-254: the unary functions, after CullNumberMember; [e] builds the new tree from the
    clone u2 of the operand. *)
Definition diff_function (node : slot) (parent : option addr) (q : dqueue) (prepare : M unit) (e : addr -> M addr) : M dqueue :=
  do b <- CullNumberMember node;
  if b : bool then ret q else
  prepare;;
  do l <- left node; do u2 <- tClone l; do q1 <- emplace u2 q;
  assign node parent (e u2);; ret q1.

(** diff.cpp:58-386 [DiffOnceOperator]. *)
Definition DiffOnceOperator (node : slot) (q : dqueue) : M dqueue :=
  do c <- cell_at node;
  let parent := c_parent c in
  let num z := tNum (n_ofZ z) in
  let moveu := (do l <- left node; tMove l) in
  match c_op c with
  | MATH_NULL | MATH_LEFT_PARENTHESIS | MATH_RIGHT_PARENTHESIS => fail (AssertFail "inner bug")
  | MATH_POSITIVE | MATH_NEGATIVE => (* 99-103 *)
      do l <- left node; emplace_at l q
  | MATH_SIN => (* 106-118 *)
      diff_function node parent q (set_op node MATH_COS) (fun u2 =>
        tBin MATH_MULTIPLY (tMove node) (ret u2))
  | MATH_COS => (* 119-131 *)
      diff_function node parent q (set_op node MATH_SIN) (fun u2 =>
        tBin MATH_MULTIPLY (tUn MATH_NEGATIVE (tMove node)) (ret u2))
  | MATH_TAN => (* 132-145 *)
      diff_function node parent q (set_op node MATH_COS) (fun u2 =>
        tBin MATH_MULTIPLY (tBin MATH_DIVIDE (num 1%Z) (tBin MATH_POWER (tMove node) (num 2%Z))) (ret u2))
  | MATH_ARCSIN => (* 146-158 *)
      diff_function node parent q (ret tt) (fun u2 =>
        tBin MATH_MULTIPLY (tBin MATH_DIVIDE (num 1%Z)
          (tUn MATH_SQRT (tBin MATH_SUB (num 1%Z) (tBin MATH_POWER moveu (num 2%Z))))) (ret u2))
  | MATH_ARCCOS => (* 159-171 *)
      diff_function node parent q (ret tt) (fun u2 =>
        tBin MATH_MULTIPLY (tBin MATH_DIVIDE (num (-1)%Z)
          (tUn MATH_SQRT (tBin MATH_SUB (num 1%Z) (tBin MATH_POWER moveu (num 2%Z))))) (ret u2))
  | MATH_ARCTAN => (* 172-184 *)
      diff_function node parent q (ret tt) (fun u2 =>
        tBin MATH_MULTIPLY (tBin MATH_DIVIDE (num 1%Z)
          (tBin MATH_ADD (num 1%Z) (tBin MATH_POWER moveu (num 2%Z)))) (ret u2))
  | MATH_SQRT => (* 185-197 *)
      diff_function node parent q (ret tt) (fun u2 =>
        tBin MATH_MULTIPLY (tBin MATH_DIVIDE (num 1%Z) (tBin MATH_MULTIPLY (num 2%Z) (tMove node))) (ret u2))
  | MATH_LOG => (* 198-210 *)
      diff_function node parent q (ret tt) (fun u2 =>
        tBin MATH_MULTIPLY (tBin MATH_DIVIDE (num 1%Z) moveu) (ret u2))
  | MATH_LOG2 => (* 211-224 *)
      diff_function node parent q (ret tt) (fun u2 =>
        tBin MATH_MULTIPLY (tBin MATH_DIVIDE (num 1%Z) (tBin MATH_MULTIPLY moveu (tNum (n_log (n_ofZ 2))))) (ret u2))
  | MATH_LOG10 => (* 225-238 *)
      diff_function node parent q (ret tt) (fun u2 =>
        tBin MATH_MULTIPLY (tBin MATH_DIVIDE (num 1%Z) (tBin MATH_MULTIPLY moveu (tNum (n_log (n_ofZ 10))))) (ret u2))
  | MATH_EXP => (* 239-254 *)
      do b <- CullNumberMember node;
      if b : bool then ret q else
      (do l <- left node; do lc <- cell_at l;
       if node_type_eqb (c_type lc) VARIABLE then ret q else
       (do u2 <- tClone l; do q1 <- emplace u2 q;
        assign node parent (tBin MATH_MULTIPLY (tMove node) (ret u2));; ret q1))
  | MATH_ADD | MATH_SUB => (* 257-269 *)
      do b <- CullNumberMemberBinary node;
      if b : bool then ret q else
      (do c' <- cell_at node;
       do q1 <- match c_left c' with Some la => emplace la q | None => ret q end;
       match c_right c' with Some ra => emplace ra q1 | None => ret q1 end)
  | MATH_MULTIPLY => (* 270-295 *)
      do u <- left node; do lc <- cell_at u;
      do v <- right node;
      if isNumber_c lc then emplace_at v q else
      (do rc <- cell_at v;
       if isNumber_c rc then emplace_at u q else
       (do b <- CullNumberMemberBinary node;
        if b : bool then ret q else
        (do q1 <- emplace_at u q;
         do u2 <- tClone u; do v2 <- tClone v;
         do q2 <- emplace v2 q1;
         assign node parent (tBin MATH_ADD (tMove node) (tBin MATH_MULTIPLY (ret u2) (ret v2)));; ret q2)))
  | MATH_DIVIDE => (* 296-321 *)
      do u <- left node; do v <- right node; do rc <- cell_at v;
      if isNumber_c rc then emplace_at u q else
      (do b <- CullNumberMemberBinary node;
       if b : bool then ret q else
       (do u2 <- tClone u; do v2 <- tClone v; do v3 <- tClone v;
        do q1 <- emplace_at u q; do q2 <- emplace v2 q1;
        assign node parent
          (tBin MATH_DIVIDE (tBin MATH_SUB (tBin MATH_MULTIPLY (tMove u) (tMove v)) (tBin MATH_MULTIPLY (ret u2) (ret v2)))
                            (tBin MATH_POWER (ret v3) (num 2%Z)));; ret q2))
  | MATH_POWER => (* 322-364 *)
      do b <- CullNumberMemberBinary node;
      if b : bool then ret q else
      (do u <- left node; do v <- right node; do lc <- cell_at u; do rc <- cell_at v;
       if isNumber_c rc then (* 332-341 *)
         (do u2 <- tClone u; do q1 <- emplace u2 q;
          assign node parent
            (tBin MATH_MULTIPLY (tBin MATH_MULTIPLY (tMove v)
               (tBin MATH_POWER (tMove u) (tNum (n_sub (c_value rc) (n_ofZ 1))))) (ret u2));; ret q1)
       else if isNumber_c lc then (* 344-353 *)
         (do u2 <- tClone v; do q1 <- emplace u2 q;
          assign node parent
            (tBin MATH_MULTIPLY (tBin MATH_MULTIPLY (tBin MATH_POWER (tMove u) (tMove v))
               (tUn MATH_LOG (tNum (c_value lc)))) (ret u2));; ret q1)
       else (* 357-363 *)
         (do w <- tBin MATH_MULTIPLY (tClone v) (tUn MATH_LOG (tClone u));
          do q1 <- emplace w q;
          assign node parent (tBin MATH_MULTIPLY (tMove node) (ret w));; ret q1))
  | MATH_AND => fail (Throw (RuntimeError "can not apply diff for AND(&) operator"))
  | MATH_OR => fail (Throw (RuntimeError "can not apply diff for OR(|) operator"))
  | MATH_MOD => fail (Throw (RuntimeError "can not apply diff for MOD(%) operator"))
  end.

(** diff.cpp:31-55: the loop. *)
Fixpoint DiffLoop (fuel : nat) (x : string) (q : dqueue) : M unit :=
  match fuel with
  | O => fail OutOfFuel
  | S fuel' =>
    match q with
    | [] => ret tt
    | (a, isLeftChild) :: q' =>
        do c <- load a;
        match c_type c with
        | VARIABLE =>
            store a (with_data c NUMBER (c_op c) (if String.eqb (c_name c) x then n_ofZ 1 else n_ofZ 0) "");;
            DiffLoop fuel' x q'
        | NUMBER => store a (with_data c NUMBER (c_op c) (n_ofZ 0) (c_name c));; DiffLoop fuel' x q'
        | OPERATOR =>
            do p <- deref (c_parent c);
            do q1 <- DiffOnceOperator (SFld p (if isLeftChild then L else R)) q';
            DiffLoop fuel' x q1
        end
    end
  end.
(** diff.cpp:22-56 [DiffOnce]. *)
Definition HDiffOnce (root : slot) (x : string) : M unit := fun h =>
  (do c <- cell_at root;
   do q <- (match c_type c with
            | OPERATOR => DiffOnceOperator root []
            | _ => emplace_at root []
            end);
   DiffLoop (S (3 * length h)) x q) h.
Fixpoint HDiffTimes (i : nat) (root : slot) (x : string) : M unit :=
  match i with O => ret tt | S i' => HDiffOnce root x;; HDiffTimes i' root x end.
(** diff.cpp:396-411 [Diff] on the local variable [n]; the debug-only calls of ToString are not
    modelled. *)
Definition HDiff (cfg : config K) (n : slot) (x : string) (i : Z) : M unit :=
  if (i <=? 0)%Z then fail (AssertFail "i > 0") else
  HDiffTimes (Z.to_nat i) n x;;
  HSimplify cfg n.

(** ** parse.cpp *)
(** The nodes of the tokens in post order.  Simplification: the code allocates the node of a
    token when it reads the token, and frees those of parentheses and, on errors, all of them;
    here they are allocated when the post order is known. *)
Fixpoint alloc_tokens (ts : list (token K)) : M (list (token K * addr)) :=
  match ts with
  | [] => ret []
  | t :: ts' =>
      match t_node t with
      | Nil => fail (Undef "null node dereferenced")
      | N ty op v x _ _ =>
          do a <- make_node ty op v x;
          do l <- alloc_tokens ts'; ret ((t, a) :: l)
      end
  end.
(** Destruction of vectors and stacks of tokens. *)
Definition delete_all (l : list addr) : M unit := forM (fun a => delete (Some a)) l.
Definition abandon {A} (live : list addr) (e : exn) : M A := delete_all live;; fail (Throw e).
(** parse.cpp:322-323, 329-330, 343-344: [top().node->parent = token.node.get();
    token.node->child = popNode();] *)
Definition adopt_top (a : addr) (f : side) (top : addr) : M unit :=
  set_parent top (Some a);; reset (SFld a f) (Some top).
(** parse.cpp:314-355: the loop of BuildExpressionTree; [post] is what is left of postOrder. *)
Fixpoint HBuildLoop (stk post : list (token K * addr)) : M (list (token K * addr)) :=
  match post with
  | [] => ret stk
  | (t, a) :: post' =>
      let bad := abandon (a :: map snd post') (MathError ERROR_WRONG_EXPRESSION "") in
      do c <- load a;
      match c_type c with
      | OPERATOR =>
          match GetOperatorNum (c_op c) with
          | 2 =>
              match stk with
              | [] => bad
              | (_, r) :: stk1 =>
                  adopt_top a R r;;
                  match stk1 with
                  | [] => bad
                  | (_, l) :: stk2 => adopt_top a L l;; HBuildLoop ((t, a) :: stk2) post'
                  end
              end
          | 1 =>
              match stk with
              | [] => bad
              | (_, l) :: stk1 => adopt_top a L l;; HBuildLoop ((t, a) :: stk1) post'
              end
          | _ => fail (AssertFail "GetOperatorNum(token.node->op) == 1")
          end
      | _ => HBuildLoop ((t, a) :: stk) post'
      end
  end.
(** parse.cpp:303-372 [BuildExpressionTree]. *)
Definition HBuildExpressionTree (content : string) (postOrder : list (token K * addr)) : M addr :=
  do stk <- HBuildLoop [] postOrder;
  match stk with
  | [] => fail (Undef "top() of an empty stack")
  | [(_, a)] => ret a
  | top :: rest =>
      abandon (snd top :: map snd rest) (MultiParseError
        (map (fun t => (0, t_pos (fst t), content, ("Parse Error at: " ++ quote ++ t_s (fst t) ++ quote)%string)) rest))
  end.
(** parse.cpp:376-381 [Parse]. *)
Definition lift {A} (r : res A) : M A := fun h => (r, h).
Definition HParse (expression : string) : M addr :=
  do tokens <- lift (ParseToTokens expression);
  do postOrder <- lift (InOrderToPostOrder expression tokens);
  do nodes <- alloc_tokens postOrder;
  HBuildExpressionTree expression nodes.

End Heap2.
