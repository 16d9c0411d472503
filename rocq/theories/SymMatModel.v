(** Model of src/tomsolver/symmat.{h,cpp}.  As in MatModel.v [int] is [nat]; a
    [std::valarray<Node>] is a list of trees ([Nil] = empty Node). *)
From Coq Require Import String List ZArith Bool Arith.
From Verif Require Import Base MathOp NodeModel ToStringModel SubsModel DiffModel MatModel VarsTableModel.
Import ListNotations.
Local Open Scope string_scope.
Local Open Scope list_scope.

(** symmat.h:96-98: the members of [class SymMat]; [SymVec] (symmat.h:103) adds none. *)
Record symmat (K : num_ops) := MkSym { s_rows : nat; s_cols : nat; s_data : list (node K) }.
Arguments MkSym {K}. Arguments s_rows {K}. Arguments s_cols {K}. Arguments s_data {K}.

Section SymMat.
Context {K : num_ops}.
Notation node := (node K).
Notation symmat := (symmat K).
Notation mat := (mat K).

(** symmat.cpp:18-21 [SymMat(int, int)]: all entries are empty Nodes. *)
Definition SymMat_make (rows cols : nat) : res symmat :=
  if ((0 <? rows) && (0 <? cols))%nat then Ok (MkSym rows cols (repeat Nil (rows * cols)))
  else AssertFail "rows > 0 && cols > 0".

(** symmat.cpp:23-38 [SymMat(initializer_list<initializer_list<Node>>)].  [std::max] of an
    empty list is undefined; rows shorter than the longest leave empty Nodes.  (That the
    arguments are moved out of the list is not visible afterwards.) *)
Definition SymMat_init (init : list (list node)) : res symmat :=
  match init with
  | [] => Undef "std::max of an empty list"
  | _ =>
    let rows := length init in
    let cols := fold_left (fun m l => Nat.max m (length l)) init 0%nat in
    let* r := foldM (fun '(i, d) val =>
        let* (_, d) := foldM (fun '(j, d) n => let* d := va_set d (i * cols + j) n in Ok (S j, d)) val (0, d) in
        Ok (S i, d)) init (0, repeat Nil (rows * cols)) in
    Ok (MkSym rows cols (snd r))
  end.

(** symmat.cpp:40-44 [SymMat(const Mat &)]: a pointer runs over the numbers of [rhs]. *)
Definition SymMat_of_Mat (A : mat) : res symmat :=
  let* s := SymMat_make (m_rows A) (m_cols A) in
  let* d := mapM (fun k => let* v := va_get (m_data A) k in Ok (mkNum v)) (seq 0 (length (s_data s))) in
  Ok (MkSym (m_rows A) (m_cols A) d).

(** [tomsolver::Clone] of an element (node.cpp:644-646): dereferences it. *)
Definition clone_elem (n : node) : res node :=
  match n with Nil => Undef "null node dereferenced" | _ => Ok n end.

(** symmat.cpp:46-52 [Clone]. *)
Definition SymMat_Clone (A : symmat) : res symmat :=
  let* s := SymMat_make (s_rows A) (s_cols A) in
  let* d := mapM (fun k => let* n := va_get (s_data A) k in clone_elem n) (seq 0 (length (s_data s))) in
  Ok (MkSym (s_rows A) (s_cols A) d).

(** symmat.cpp:54-56 [Empty]. *)
Definition SymMat_Empty (A : symmat) : bool := Nat.eqb (length (s_data A)) 0.

(** symmat.cpp:74-80 [ToSymVecOneByOne]; SymVec(int) is symmat.cpp:186. *)
Definition ToSymVecOneByOne (A : symmat) : res symmat :=
  let* v := SymMat_make (s_rows A * s_cols A) 1 in
  let* d := mapM (fun k => let* n := va_get (s_data A) k in clone_elem n) (seq 0 (length (s_data v))) in
  Ok (MkSym (s_rows v) (s_cols v) d).

(** symmat.cpp:66-72 [ToSymVec]. *)
Definition ToSymVec (A : symmat) : res symmat :=
  if (s_rows A =? 0)%nat then AssertFail "rows > 0" else
  if (s_cols A =? 1)%nat then ToSymVecOneByOne A
  else Throw (RuntimeError "SymMat::ToSymVec fail. rows is not one").

(** symmat.cpp:82-91 [ToMat]; the result is built by mat.cpp:37. *)
Definition number_of (n : node) : res K :=
  match n with
  | Nil => Undef "null node dereferenced"
  | N NUMBER _ v _ _ _ => Ok v
  | _ => Throw (RuntimeError "ToMat error: node is not number")
  end.
Definition ToMat (A : symmat) : res mat :=
  let* d := mapM number_of (s_data A) in Ok (MkMat (s_rows A) (s_cols A) d).

(** symmat.cpp:93-98 [Calc]: the outcome and the matrix afterwards; an exception leaves the
    elements before the failing one computed. *)
Fixpoint Calc_list (cfg : config K) (l : list node) : res unit * list node :=
  match l with
  | [] => (Ok tt, [])
  | n :: l' =>
      match NodeCalc cfg n with
      | (Ok _, n') => let '(r, l'') := Calc_list cfg l' in (r, n' :: l'')
      | (r, n') => (r, n' :: l')
      end
  end.
Definition SymMat_Calc (cfg : config K) (A : symmat) : res unit * symmat :=
  let '(r, d) := Calc_list cfg (s_data A) in (r, MkSym (s_rows A) (s_cols A) d).

(** [x.Calc()] used as an expression (its value is the matrix itself). *)
Definition SymMat_Calc_expr (cfg : config K) (A : symmat) : res symmat :=
  let '(r, B) := SymMat_Calc cfg A in let* _ := r in Ok B.

(** symmat.cpp:100-105 [Subs(const std::map<std::string, double> &)], noexcept. *)
Definition SymMat_Subs (A : symmat) (vals : smap K) : res symmat :=
  let* d := noexcept (mapM (fun n => SubsValues n vals) (s_data A)) in Ok (MkSym (s_rows A) (s_cols A) d).

(** symmat.cpp:107-112 [Subs(const VarsTable &)]: subs.cpp:110-116 iterates over the table. *)
Definition SymMat_SubsTable (A : symmat) (t : vars_table K) : res symmat := SymMat_Subs A (Items t).

(** symmat.cpp:114-121 [GetAllVarNames]. *)
Definition SymMat_GetAllVarNames (A : symmat) : res (list string) :=
  foldM (fun ret n => let* names := GetAllVarNames n in Ok (fold_left (fun s x => set_insert x s) names ret)) (s_data A) [].

(** symmat.cpp:160-166 [Value]. *)
Definition SymValue (A : symmat) (i j : nat) : res node := va_get (s_data A) (i * s_cols A + j).
Definition set_SymValue (A : symmat) (i j : nat) (n : node) : res symmat :=
  let* d := va_set (s_data A) (i * s_cols A + j) n in Ok (MkSym (s_rows A) (s_cols A) d).

(** symmat.cpp:123-131 [operator-]. *)
Definition SymMat_sub (A B : symmat) : res symmat :=
  if ((s_rows B =? s_rows A) && (s_cols B =? s_cols A))%nat then
    let* s := SymMat_make (s_rows A) (s_cols A) in
    let* d := mapM (fun k =>
        let* a := va_get (s_data A) k in let* b := va_get (s_data B) k in
        BinaryOperator MATH_SUB a b) (seq 0 (length (s_data s))) in
    Ok (MkSym (s_rows A) (s_cols A) d)
  else AssertFail "rhs.rows == rows && rhs.cols == cols".

(** symmat.cpp:195-197 [SymVec::operator-]. *)
Definition SymVec_sub (A B : symmat) : res symmat := let* s := SymMat_sub A B in ToSymVec s.

(** symmat.cpp:133-149 [operator*]. *)
Definition SymMat_mul (A B : symmat) : res symmat :=
  if negb (s_cols A =? s_rows B)%nat then Throw (MathError SIZE_NOT_MATCH "") else
  let* ans := SymMat_make (s_rows A) (s_cols B) in
  foldM (fun ans i =>
    foldM (fun ans j =>
      let* a := SymValue A i 0 in
      let* b := SymValue B 0 j in
      let* sum := BinaryOperator MATH_MULTIPLY a b in
      let* sum := foldM (fun sum k =>
          let* a := SymValue A i k in
          let* b := SymValue B k j in
          let* p := BinaryOperator MATH_MULTIPLY a b in
          BinaryOperator MATH_ADD sum p) (seq 1 (s_cols A - 1)) sum in
      set_SymValue ans i j sum) (seq 0 (s_cols B)) ans) (seq 0 (s_rows A)) ans.

(** symmat.cpp:151-158 [operator==] of two different objects ([std::equal] stops at the
    first difference). *)
Fixpoint sym_equal (l1 l2 : list node) : res bool :=
  match l1 with
  | [] => Ok true
  | a :: l1' =>
      match l2 with
      | [] => Undef "iterator past the end dereferenced"
      | b :: l2' => let* e := Equal a b in if e then sym_equal l1' l2' else Ok false
      end
  end.
Definition SymMat_eq (A B : symmat) : res bool :=
  if ((s_rows B =? s_rows A) && (s_cols B =? s_cols A))%nat then sym_equal (s_data A) (s_data B)
  else Ok false.

(** symmat.cpp:168-184 [ToString]. *)
Fixpoint SymMat_ToString_loop (cols size i : nat) (data : list node) : res string :=
  match data with
  | [] => Ok ""
  | n :: data' =>
      let* s := ToString n in
      let* rest := SymMat_ToString_loop cols size (S i) data' in
      Ok (((if (i =? 0)%nat then "" else " ") ++ s ++
       (if (S i mod cols =? 0)%nat then (if (S i =? size)%nat then "]
" else "
") else ", ") ++ rest)%string)
  end.
Definition SymMat_ToString (A : symmat) : res string :=
  match s_data A with
  | [] => Ok "[]
"
  | d => let* s := SymMat_ToString_loop (s_cols A) (length d) 0 d in Ok (String.append "[" s)
  end.

(** symmat.cpp:188-193 [SymVec(initializer_list<Node>)]. *)
Definition SymVec_of (l : list node) : res symmat :=
  let* s := SymMat_make (length l) 1 in Ok (MkSym (s_rows s) (s_cols s) l).

(** symmat.cpp:207-220 [Jacobian], noexcept.  [iter] advances by one element of [equations]
    after every |vars| results, so the k-th result differentiates element k / |vars|. *)
Definition Jacobian (cfg : config K) (equations : symmat) (vars : list string) : res symmat :=
  let rows := s_rows equations in
  let cols := length vars in
  let* ja := SymMat_make rows cols in
  let* d := noexcept (mapM (fun k =>
      let* e := va_get (s_data equations) (k / cols) in
      match nth_error vars (k mod cols) with
      | None => Undef "vector index out of range"
      | Some x => Diff cfg e x 1
      end) (seq 0 (length (s_data ja)))) in
  Ok (MkSym rows cols d).

End SymMat.
