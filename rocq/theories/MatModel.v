(** Model of src/tomsolver/mat.{h,cpp}.

    A [std::valarray<double>] is a list; [std::slice] and [std::gslice] select the same
    positions as in C++.  Reading or writing outside the array, and combining arrays of
    different lengths, is undefined behaviour ([Undef]); a failing [assert] is
    [AssertFail].
    Simplifications: [int] is [nat] (no overflow of rows*cols; negative arguments, which
    the asserts exclude, are not representable); [valarray::sum] adds from left to right
    starting with the first element (the standard leaves the order open); the text output
    (mat.cpp:167-183, 477-479) is modelled in [Mat_ToString]; the lifetime of expression
    templates is not modelled.  The numbers are an arbitrary [num_ops]. *)
From Coq Require Import String List ZArith Bool Arith.
From Verif Require Import Base MathOp.
Import ListNotations.
Local Open Scope string_scope.
Local Open Scope list_scope.

(** mat.h:34-125 [class Mat] (fields 113-115); mat.h:151-184 [class Vec] derives from it
    and adds no field. *)
Record mat (K : Type) := MkMat { m_rows : nat; m_cols : nat; m_data : list K }.
Arguments MkMat {K}. Arguments m_rows {K}. Arguments m_cols {K}. Arguments m_data {K}.

(** ** std::valarray *)
Section Valarray.
Context {K : Type}.

(** [v[i]]. *)
Definition va_get (v : list K) (i : nat) : res K :=
  match nth_error v i with Some a => Ok a | None => Undef "valarray index out of range" end.

(** [v[i] = a]. *)
Fixpoint va_set (v : list K) (i : nat) (a : K) : res (list K) :=
  match v, i with
  | [], _ => Undef "valarray index out of range"
  | _ :: v', O => Ok (a :: v')
  | h :: v', S i' => let* w := va_set v' i' a in Ok (h :: w)
  end.

(** [std::slice(start, size, stride)] as a list of positions. *)
Definition slice (start size stride : nat) : list nat :=
  map (fun k => start + k * stride) (seq 0 size).

(** [std::gslice(start, {s0, s1}, {t0, t1})] as a list of positions. *)
Definition gslice (start s0 s1 t0 t1 : nat) : list nat :=
  flat_map (fun i => map (fun j => start + i * t0 + j * t1) (seq 0 s1)) (seq 0 s0).

(** Reading the elements selected by a slice. *)
Definition va_read (v : list K) (idx : list nat) : res (list K) := mapM (va_get v) idx.

(** Assigning an array to the elements selected by a slice. *)
Fixpoint va_write (v : list K) (idx : list nat) (vals : list K) : res (list K) :=
  match idx, vals with
  | [], [] => Ok v
  | i :: idx', a :: vals' => let* w := va_set v i a in va_write w idx' vals'
  | _, _ => Undef "valarray: sizes differ"
  end.

(** Element-wise binary operation. *)
Fixpoint va_map2 (f : K -> K -> K) (v w : list K) : res (list K) :=
  match v, w with
  | [], [] => Ok []
  | a :: v', b :: w' => let* r := va_map2 f v' w' in Ok (f a b :: r)
  | _, _ => Undef "valarray: sizes differ"
  end.

(** [std::all_of] over [v] together with an iterator running along [w]; [w] is only read as
    far as needed, reading beyond its end is undefined. *)
Fixpoint va_all2 (p : K -> K -> bool) (v w : list K) : res bool :=
  match v with
  | [] => Ok true
  | a :: v' =>
      match w with
      | [] => Undef "iterator past the end dereferenced"
      | b :: w' => if p a b then va_all2 p v' w' else Ok false
      end
  end.

(** [std::max_element]: the first element that no later element exceeds. *)
Definition pick (better : K -> K -> bool) (v : list K) : res K :=
  match v with
  | [] => Undef "max/min of an empty valarray"
  | a :: v' => Ok (fold_left (fun m x => if better m x then x else m) v' a)
  end.

(** [std::distance(begin, std::find_if(...))]: the length if nothing is found. *)
Fixpoint find_index (p : K -> bool) (v : list K) : nat :=
  match v with [] => 0 | a :: v' => if p a then 0 else S (find_index p v') end.
End Valarray.

Section Mat.
Context {K : num_ops}.
Notation mat := (mat K).

(** [valarray::sum]; not defined on the empty array by the standard (libstdc++ gives 0). *)
Definition va_sum (v : list K) : K :=
  match v with [] => n_ofZ 0 | a :: v' => fold_left n_add v' a end.
Definition va_max : list K -> res K := pick n_ltb.
Definition va_min : list K -> res K := pick (fun m x => n_ltb x m).

(** mat.cpp:17-20 [Mat::Mat(int, int, double)]. *)
Definition Mat_make (rows cols : nat) (init : K) : res mat :=
  if (rows =? 0)%nat then AssertFail "rows > 0" else
  if (cols =? 0)%nat then AssertFail "cols > 0" else
  Ok (MkMat rows cols (repeat init (rows * cols))).

(** mat.cpp:39-53 [Mat::Row], [Mat::Col]: positions of the selected elements.  [offset]
    beyond the end would wrap around in size_t. *)
Definition Row_idx (A : mat) (i offset : nat) : res (list nat) :=
  if (offset <=? m_cols A)%nat then Ok (slice (m_cols A * i + offset) (m_cols A - offset) 1)
  else Undef "slice of negative size".
Definition Col_idx (A : mat) (j offset : nat) : res (list nat) :=
  if (offset <=? m_rows A)%nat then Ok (slice (j + offset * m_cols A) (m_rows A - offset) (m_cols A))
  else Undef "slice of negative size".

(** mat.cpp:47-53: the const versions give the elements. *)
Definition Row (A : mat) (i offset : nat) : res (list K) :=
  let* idx := Row_idx A i offset in va_read (m_data A) idx.
Definition Col (A : mat) (j offset : nat) : res (list K) :=
  let* idx := Col_idx A j offset in va_read (m_data A) idx.

(** Assignment to the slice_array of mat.cpp:39-45. *)
Definition set_Row (A : mat) (i offset : nat) (vals : list K) : res mat :=
  let* idx := Row_idx A i offset in
  let* d := va_write (m_data A) idx vals in Ok (MkMat (m_rows A) (m_cols A) d).
Definition set_Col (A : mat) (j offset : nat) (vals : list K) : res mat :=
  let* idx := Col_idx A j offset in
  let* d := va_write (m_data A) idx vals in Ok (MkMat (m_rows A) (m_cols A) d).

(** mat.cpp:55-61 [Mat::Value]. *)
Definition Value (A : mat) (i j : nat) : res K := va_get (m_data A) (i * m_cols A + j).
Definition set_Value (A : mat) (i j : nat) (v : K) : res mat :=
  let* d := va_set (m_data A) (i * m_cols A + j) v in Ok (MkMat (m_rows A) (m_cols A) d).

(** mat.cpp:22-35 [Mat::Mat(initializer_list<initializer_list<double>>)]. *)
Definition Mat_init (init : list (list K)) : res mat :=
  let rows := length init in
  if (rows =? 0)%nat then AssertFail "rows > 0" else
  let cols := fold_left (fun m l => Nat.max m (length l)) init 0%nat in
  if (cols =? 0)%nat then AssertFail "cols > 0" else
  let* A := foldM (fun '(i, A) values => let* A' := set_Row A i 0 values in Ok (S i, A'))
              init (0%nat, MkMat rows cols (repeat (n_ofZ 0) (rows * cols))) in
  Ok (snd A).

(** mat.cpp:63-67 [operator==(double)]. *)
Definition Mat_eq_num (cfg : config K) (A : mat) (m : K) : bool :=
  forallb (fun v => n_ltb (n_abs (n_sub v m)) (epsilon cfg)) (m_data A).

Definition same_shape (A B : mat) : bool := ((m_rows A =? m_rows B) && (m_cols A =? m_cols B))%nat.

(** mat.cpp:69-75 [operator==(const Mat &)]. *)
Definition Mat_eq (cfg : config K) (A B : mat) : res bool :=
  if same_shape A B then
    va_all2 (fun v w => n_ltb (n_abs (n_sub v w)) (epsilon cfg)) (m_data A) (m_data B)
  else AssertFail "rows == b.rows, cols == b.cols".

(** mat.cpp:78-80 unary [operator-]. *)
Definition Mat_neg (A : mat) : mat := MkMat (m_rows A) (m_cols A) (map n_neg (m_data A)).

Definition Mat_map2 (f : K -> K -> K) (A B : mat) : res mat :=
  if same_shape A B then
    let* d := va_map2 f (m_data A) (m_data B) in Ok (MkMat (m_rows A) (m_cols A) d)
  else AssertFail "rows == b.rows, cols == b.cols".
(** mat.cpp:82-86 [operator+], 88-93 [operator+=]. *)
Definition Mat_add : mat -> mat -> res mat := Mat_map2 n_add.
(** mat.cpp:95-99 [operator-]. *)
Definition Mat_sub : mat -> mat -> res mat := Mat_map2 n_sub.
(** mat.cpp:101-103 [operator*(double)]. *)
Definition Mat_scale (A : mat) (m : K) : mat :=
  MkMat (m_rows A) (m_cols A) (map (fun v => n_mul v m) (m_data A)).
(** mat.cpp:264-268 [operator*(double, const Mat &)]: [ans.data *= k]. *)
Definition Mat_scale_l (k : K) (A : mat) : mat :=
  MkMat (m_rows A) (m_cols A) (map (fun v => n_mul v k) (m_data A)).

(** mat.cpp:105-114 [operator*(const Mat &)]. *)
Definition Mat_mul (A B : mat) : res mat :=
  if (m_cols A =? m_rows B)%nat then
    let* ans := Mat_make (m_rows A) (m_cols B) (n_ofZ 0) in
    foldM (fun ans i =>
      foldM (fun ans j =>
        let* r := Row A i 0 in
        let* c := Col B j 0 in
        let* p := va_map2 n_mul r c in
        set_Value ans i j (va_sum p)) (seq 0 (m_cols B)) ans) (seq 0 (m_rows A)) ans
  else AssertFail "cols == b.rows".

(** mat.cpp:124-133 [ToVec]. *)
Definition ToVec (A : mat) : res mat :=
  if (m_rows A =? 0)%nat then AssertFail "rows > 0" else
  if (m_cols A =? 1)%nat then
    let* v := Mat_make (m_rows A) 1 (n_ofZ 0) in Ok (MkMat (m_rows v) 1 (m_data A))
  else Throw (RuntimeError "Mat::ToVec fail. rows is not one").

(** mat.cpp:135-149 [SwapRow]. *)
Definition SwapRow (A : mat) (i j : nat) : res mat :=
  if (i =? j)%nat then Ok A else
  if (i <? m_rows A)%nat then
    if (j <? m_rows A)%nat then
      let* temp := Row A i 0 in
      let* rj := Row A j 0 in
      let* A1 := set_Row A i 0 rj in
      set_Row A1 j 0 temp
    else AssertFail "j < rows"
  else AssertFail "i < rows".

(** mat.cpp:151-165 [SwapCol]. *)
Definition SwapCol (A : mat) (i j : nat) : res mat :=
  if (i =? j)%nat then Ok A else
  if (i <? m_cols A)%nat then
    if (j <? m_cols A)%nat then
      let* t := Col A i 0 in
      let* cj := Col A j 0 in
      let* A1 := set_Col A i 0 cj in
      set_Col A1 j 0 t
    else AssertFail "j < cols"
  else AssertFail "i < cols".

(** mat.cpp:167-183 [ToString]. *)
Fixpoint Mat_ToString_loop (cols size i : nat) (data : list K) : string :=
  match data with
  | [] => ""
  | val :: data' =>
      ((if (i =? 0)%nat then "" else " ") ++ n_tostr val ++
       (if (S i mod cols =? 0)%nat then (if (S i =? size)%nat then "]
" else "
") else ", ") ++
       Mat_ToString_loop cols size (S i) data')%string
  end.
Definition Mat_ToString (A : mat) : string :=
  match m_data A with
  | [] => "[]
"
  | d => String.append "[" (Mat_ToString_loop (m_cols A) (length d) 0 d)
  end.

(** mat.cpp:185-195 [Resize]. *)
Definition Resize (A : mat) (newRows newCols : nat) : res mat :=
  if ((0 <? newRows) && (0 <? newCols))%nat then
    let temp := m_data A in
    let data := repeat (n_ofZ 0 : K) (newRows * newCols) in
    let minRows := Nat.min (m_rows A) newRows in
    let minCols := Nat.min (m_cols A) newCols in
    let* vals := va_read temp (gslice 0 minRows minCols (m_cols A) 1) in
    let* data := va_write data (gslice 0 minRows minCols newCols 1) vals in
    Ok (MkMat newRows newCols data)
  else AssertFail "newRows > 0 && newCols > 0".

(** mat.cpp:197-200 [Zero], 225-227 [SetValue]. *)
Definition SetValue (A : mat) (v : K) : mat :=
  MkMat (m_rows A) (m_cols A) (map (fun _ => v) (m_data A)).
Definition Zero (A : mat) : mat := SetValue A (n_ofZ 0).

(** mat.cpp:202-207 [Ones] (the identity matrix). *)
Definition Ones (A : mat) : res mat :=
  if (m_rows A =? m_cols A)%nat then
    let Z := Zero A in
    let* d := va_write (m_data Z) (slice 0 (m_rows A) (m_cols A + 1)) (repeat (n_ofZ 1) (m_rows A)) in
    Ok (MkMat (m_rows A) (m_cols A) d)
  else AssertFail "rows == cols".

(** mat.cpp:209-223 [Norm2], [NormInfinity], [NormNegInfinity], [Min]. *)
Definition Norm2 (A : mat) : K := va_sum (map (fun v => n_mul v v) (m_data A)).
Definition NormInfinity (A : mat) : res K := va_max (map n_abs (m_data A)).
Definition NormNegInfinity (A : mat) : res K := va_min (map n_abs (m_data A)).
Definition Mat_Min (A : mat) : res K := va_min (m_data A).

(** mat.cpp:239-245 [Transpose]. *)
Definition Transpose (A : mat) : res mat :=
  let* ans := Mat_make (m_cols A) (m_rows A) (n_ofZ 0) in
  foldM (fun ans i => let* c := Col A i 0 in set_Row ans i 0 c) (seq 0 (m_cols A)) ans.

(** mat.cpp:270-274 [EachDivide]; it divides [b] by [b]. *)
Definition EachDivide (A B : mat) : res mat :=
  if same_shape A B then
    let* d := va_map2 n_div (m_data B) (m_data B) in Ok (MkMat (m_rows A) (m_cols B) d)
  else AssertFail "a.rows == b.rows, a.cols == b.cols".

(** mat.cpp:276-280 [IsZero]. *)
Definition IsZero (cfg : config K) (A : mat) : bool :=
  forallb (fun v => n_leb (n_abs v) (epsilon cfg)) (m_data A).

(** mat.cpp:282-287 [AllIsLessThan]. *)
Definition AllIsLessThan (A B : mat) : res bool :=
  if same_shape A B then va_all2 n_ltb (m_data A) (m_data B)
  else AssertFail "v1.rows == v2.rows && v1.cols == v2.cols".

(** mat.cpp:289-294 [GetMaxAbsRowIndex].  [rowEnd - rowStart + 1] is a size_t. *)
Definition GetMaxAbsRowIndex (A : mat) (rowStart rowEnd col : nat) : res nat :=
  let* c := Col A col 0 in
  if (rowStart <=? S rowEnd)%nat then
    let* temp := va_read c (slice rowStart (S rowEnd - rowStart) 1) in
    let temp := map n_abs temp in
    let* m := va_max temp in
    Ok (find_index (fun v => n_eqb v m) temp + rowStart)
  else Undef "slice of negative size".

(** mat.cpp:322-372 [GetCofactor]: copies four blocks of [A] into [cofactor]. *)
Definition GetCofactor (A cofactor : mat) (p q n : nat) : res mat :=
  let newIndex p q := (p * (n - 1) + q)%nat in
  let index p q := (p * m_cols A + q)%nat in
  let copy (cof : mat) '(s0, s1, newStart, start) :=
    if (newStart <? length (m_data cof))%nat then
      let* vals := va_read (m_data A) (gslice start s0 s1 (m_cols A) 1) in
      let* d := va_write (m_data cof) (gslice newStart s0 s1 (n - 1) 1) vals in
      Ok (MkMat (m_rows cof) (m_cols cof) d)
    else Ok cof in
  foldM copy
    [ (p, q, newIndex 0 0, index 0 0);
      (p, n - 1 - q, newIndex 0 q, index 0 (q + 1));
      (n - 1 - p, q, newIndex p 0, index (p + 1) 0);
      (n - 1 - p, n - 1 - q, newIndex p q, index (p + 1) (q + 1)) ]%nat cofactor.

(** mat.cpp:374-405 [Det]; the int [sign] is converted to double in line 399.  The fuel is
    the recursion depth; [Det] gives [n], which suffices. *)
Fixpoint Det_rec (fuel : nat) (A : mat) (n : nat) : res K :=
  match fuel with
  | O => OutOfFuel
  | S fuel' =>
    match n with
    | 0 => Ok (n_ofZ 0)
    | 1 => Value A 0 0
    | 2 =>
        let* a := Value A 0 0 in let* d := Value A 1 1 in
        let* c := Value A 1 0 in let* b := Value A 0 1 in
        Ok (n_sub (n_mul a d) (n_mul c b))
    | _ =>
        let* cofactor := Mat_make (n - 1) (n - 1) (n_ofZ 0) in
        let* r := foldM (fun '(cofactor, D, sign) f =>
            let* cofactor := GetCofactor A cofactor 0 f n in
            let* det := Det_rec fuel' cofactor (n - 1) in
            let* v := Value A 0 f in
            Ok (cofactor, n_add D (n_mul (n_mul (n_ofZ sign) v) det), (- sign)%Z))
          (seq 0 n) (cofactor, n_ofZ 0, 1%Z) in
        Ok (snd (fst r))
    end
  end.
Definition Det (A : mat) (n : nat) : res K := Det_rec (S n) A n.

(** mat.cpp:296-320 [Adjoint]. *)
Definition Adjoint (A adj : mat) : res mat :=
  if (m_rows A =? 1)%nat then set_Value adj 0 0 (n_ofZ 1) else
  let* cofactor := Mat_make (m_rows A - 1) (m_cols A - 1) (n_ofZ 0) in
  let* r := foldM (fun st i =>
      foldM (fun '(cofactor, adj) j =>
        let* cofactor := GetCofactor A cofactor i j (m_rows A) in
        let* det := Det cofactor (m_rows A - 1) in
        let det := if ((i + j) mod 2 =? 0)%nat then det else n_neg det in
        let* adj := set_Value adj j i det in
        Ok (cofactor, adj)) (seq 0 (m_cols A)) st) (seq 0 (m_rows A)) (cofactor, adj) in
  Ok (snd r).

(** mat.cpp:229-237 [PositiveDetermine]. *)
Fixpoint PositiveDetermine_loop (A : mat) (is : list nat) : res bool :=
  match is with
  | [] => Ok true
  | i :: is' =>
      let* d := Det A i in
      if n_leb d (n_ofZ 0) then Ok false else PositiveDetermine_loop A is'
  end.
Definition PositiveDetermine (A : mat) : res bool :=
  if (m_rows A =? m_cols A)%nat then PositiveDetermine_loop A (seq 1 (m_rows A))
  else AssertFail "rows == cols".

(** mat.cpp:247-262 [Inverse]. *)
Definition Inverse (cfg : config K) (A : mat) : res mat :=
  if (m_rows A =? m_cols A)%nat then
    let n := m_rows A in
    let* det := Det A n in
    if n_leb (n_abs det) (epsilon cfg) then Throw (MathError ERROR_SINGULAR_MATRIX "") else
    let* adj := Mat_make n n (n_ofZ 0) in
    let* adj := Adjoint A adj in
    Ok (MkMat n n (map (fun v => n_div v det) (m_data adj)))
  else AssertFail "rows == cols".

(** mat.cpp:407-413 the [Vec] constructors. *)
Definition Vec_make (rows : nat) (init : K) : res mat := Mat_make rows 1 init.
Definition Vec_of (l : list K) : res mat :=
  let* v := Vec_make (length l) (n_ofZ 0) in Ok (MkMat (m_rows v) (m_cols v) l).

(** mat.cpp:419-422 [Vec::Resize]. *)
Definition Vec_Resize (v : mat) (newRows : nat) : res mat :=
  if (0 <? newRows)%nat then Resize v newRows 1 else AssertFail "newRows > 0".

(** mat.cpp:424-430 [Vec::operator[]]. *)
Definition Vec_get (v : mat) (i : nat) : res K := va_get (m_data v) i.
Definition Vec_set (v : mat) (i : nat) (a : K) : res mat :=
  let* d := va_set (m_data v) i a in Ok (MkMat (m_rows v) (m_cols v) d).

Definition Vec_map2 (f : K -> K -> K) (a b : mat) : res mat :=
  if (m_rows a =? m_rows b)%nat then let* d := va_map2 f (m_data a) (m_data b) in Vec_of d
  else AssertFail "rows == b.rows".
(** mat.cpp:432-436 [operator+]. *)
Definition Vec_add (a b : mat) : res mat :=
  if (m_rows a =? m_rows b)%nat then
    if ((m_cols a =? 1) && (m_cols b =? 1))%nat then Vec_map2 n_add a b
    else AssertFail "cols == 1 && b.cols == 1"
  else AssertFail "rows == b.rows".
(** mat.cpp:438-440 unary minus, 442-445 [operator-], 447-449 [operator*(double)],
    451-454 [operator*(Vec)], 456-459 [operator/], 468-470 [double * Vec]. *)
Definition Vec_neg (a : mat) : res mat := Vec_of (map n_neg (m_data a)).
Definition Vec_sub : mat -> mat -> res mat := Vec_map2 n_sub.
Definition Vec_scale (a : mat) (m : K) : res mat := Vec_of (map (fun v => n_mul v m) (m_data a)).
Definition Vec_times : mat -> mat -> res mat := Vec_map2 n_mul.
Definition Vec_div : mat -> mat -> res mat := Vec_map2 n_div.
Definition Vec_scale_l (k : K) (a : mat) : res mat := Vec_of (map (fun v => n_mul v k) (m_data a)).
(** mat.cpp:461-466 [operator<]. *)
Definition Vec_lt (a b : mat) : res bool :=
  if (m_rows a =? m_rows b)%nat then va_all2 n_ltb (m_data a) (m_data b)
  else AssertFail "rows == b.rows".
(** mat.cpp:472-475 [Dot]. *)
Definition Dot (a b : mat) : res K :=
  if (m_rows a =? m_rows b)%nat then let* p := va_map2 n_mul (m_data a) (m_data b) in Ok (va_sum p)
  else AssertFail "a.rows == b.rows".
End Mat.
