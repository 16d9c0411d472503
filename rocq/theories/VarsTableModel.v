(** Model of src/tomsolver/vars_table.{h,cpp}.
    [std::vector<std::string>] and [std::map<std::string,double>] are lists ([smap] of
    SubsModel.v: increasing keys); [Vec] is [mat] (MatModel.v). *)
From Coq Require Import String List ZArith Bool Arith.
From Verif Require Import Base MathOp NodeModel SubsModel MatModel.
Import ListNotations.
Local Open Scope string_scope.
Local Open Scope list_scope.

(** vars_table.h:81-84: the members of [class VarsTable]. *)
Record vars_table (K : num_ops) := MkTable {
  vt_vars : list string; vt_values : mat K; vt_table : smap K
}.
Arguments MkTable {K}. Arguments vt_vars {K}. Arguments vt_values {K}. Arguments vt_table {K}.

Section VarsTable.
Context {K : num_ops}.
Notation mat := (mat K).
Notation vars_table := (vars_table K).

(** vars_table.cpp:10-16 [VarsTable(const std::vector<std::string> &, double)]. *)
Definition VarsTable_make (vars : list string) (initValue : K) : res vars_table :=
  let* values := Vec_make (length vars) initValue in
  let table := fold_left (fun m x => map_insert x initValue m) vars [] in
  if Nat.eqb (length vars) (length table) then Ok (MkTable vars values table)
  else AssertFail "vars is not unique".

(** vars_table.cpp:25-30: the loop filling [vars] and [values] from the map. *)
Definition fill_values (table : smap K) (values : mat) : res mat :=
  let* r := foldM (fun '(i, v) item => let* v := Vec_set v i (snd item) in Ok (S i, v)) table (0, values) in
  Ok (snd r).

(** vars_table.cpp:23-31 [VarsTable(const std::map<std::string, double> &)]. *)
Definition VarsTable_of_map (table : smap K) : res vars_table :=
  let* values := Vec_make (length table) (n_ofZ 0) in
  let* values := fill_values table values in
  Ok (MkTable (map fst table) values table).

(** vars_table.cpp:18-21 [VarsTable(std::initializer_list<std::pair<...>>)]: the pairs are
    first put into a map (an earlier entry wins over a later one with the same key), so the
    assert of line 20 compares the map with itself. *)
Definition VarsTable_init (initList : list (string * K)) : res vars_table :=
  let* t := VarsTable_of_map (fold_left (fun m p => map_insert (fst p) (snd p) m) initList []) in
  if Nat.eqb (length (vt_vars t)) (length (vt_table t)) then Ok t else AssertFail "vars is not unique".

(** vars_table.cpp:33-43 [VarNums], [Vars], [Values]. *)
Definition VarNums (t : vars_table) : nat := length (vt_table t).
Definition Vars (t : vars_table) : list string := vt_vars t.
Definition Values (t : vars_table) : mat := vt_values t.

(** vars_table.cpp:45-51 [SetValues]; [table[x] = v] is [map_set]. *)
Definition SetValues (t : vars_table) (v : mat) : res vars_table :=
  if Nat.eqb (m_rows v) (m_rows (vt_values t)) then
    let* table := foldM (fun m i =>
        match nth_error (vt_vars t) i with
        | None => Undef "vector index out of range"
        | Some x => let* a := Vec_get v i in Ok (map_set x a m)
        end) (seq 0 (m_rows v)) (vt_table t) in
    Ok (MkTable (vt_vars t) v table)
  else AssertFail "v.Rows() == values.Rows()".

(** vars_table.cpp:53-55 [Has]. *)
Definition Has (t : vars_table) (x : string) : bool :=
  match map_find x (vt_table t) with Some _ => true | None => false end.

(** vars_table.cpp:57-63 [ToString]. *)
Definition VarsTable_ToString (t : vars_table) : string :=
  fold_left (fun ret item => (ret ++ (fst item ++ " = " ++ n_tostr (snd item) ++ "
"))%string) (vt_table t) "".

(** vars_table.cpp:65-79 [begin], [end]: iteration over the map. *)
Definition Items (t : vars_table) : smap K := vt_table t.

(** vars_table.cpp:81-90 [operator==]: [std::equal] reads as many elements of the second
    map as the first one has. *)
Fixpoint table_equal (cfg : config K) (a b : smap K) : res bool :=
  match a with
  | [] => Ok true
  | (x, v) :: a' =>
      match b with
      | [] => Undef "iterator past the end dereferenced"
      | (y, w) :: b' =>
          if String.eqb x y && n_leb (n_abs (n_sub v w)) (epsilon cfg) then table_equal cfg a' b'
          else Ok false
      end
  end.
Definition VarsTable_eq (cfg : config K) (a b : vars_table) : res bool :=
  if Nat.eqb (m_rows (vt_values a)) (m_rows (vt_values b)) then table_equal cfg (vt_table a) (vt_table b)
  else Ok false.

(** vars_table.cpp:92-98 [operator[]]. *)
Definition VarsTable_get (t : vars_table) (x : string) : res K :=
  match map_find x (vt_table t) with
  | Some v => Ok v
  | None => Throw (OutOfRange ("no such variable: " ++ x))
  end.

End VarsTable.
