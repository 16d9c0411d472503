(** Model of src/tomsolver/linear.cpp [SolveLinear].
    Omitted: logging (19-23).  As in MatModel.v [int]
    is [nat]. *)
From Coq Require Import String List ZArith Bool Arith.
From Verif Require Import Base MathOp MatModel.
Import ListNotations.
Local Open Scope string_scope.
Local Open Scope list_scope.

Section Linear.
Context {K : num_ops} (cfg : config K).
Notation mat := (mat K).
Notation small v := (n_ltb (n_abs v) (epsilon cfg)).

(** linear.cpp:55-57 and 67-69: bring the row with the largest |entry| of column x up. *)
Definition bring_up (rows y x : nat) (A b : mat) : res (mat * mat) :=
  let* p := GetMaxAbsRowIndex A y (rows - 1) x in
  let* A := SwapRow A y p in
  let* b := SwapRow b y p in
  Ok (A, b).

(** linear.cpp:59-70: the while loop; [fuel] bounds the number of tests. *)
Fixpoint skip_columns (fuel rows cols y x : nat) (A b : mat) : res (nat * mat * mat) :=
  match fuel with
  | O => OutOfFuel
  | S fuel' =>
      let* v := Value A y x in
      if small v then
        let x := S x in
        if (x =? cols)%nat then Ok (x, A, b)
        else let* (A, b) := bring_up rows y x A b in skip_columns fuel' rows cols y x A b
      else Ok (x, A, b)
  end.

(** linear.cpp:93-107: normalise row y and clear column x below it. *)
Definition eliminate (rows y x : nat) (A b : mat) : res (mat * mat) :=
  let* ratioY := Value A y x in
  let* r := Row A y x in
  let rowY := map (fun v => n_div v ratioY) r in
  let* A := set_Row A y x rowY in
  let* by_ := Vec_get b y in
  let* b := Vec_set b y (n_div by_ ratioY) in
  foldM (fun '(A, b) row =>
      let* ratioRow := Value A row x in
      if n_leb (epsilon cfg) (n_abs ratioRow) then
        let* old := Row A row x in
        let* new := va_map2 n_sub old (map (fun v => n_mul v ratioRow) rowY) in
        let* A := set_Row A row x new in
        let* br := Vec_get b row in
        let* by_ := Vec_get b y in
        let* b := Vec_set b row (n_sub br (n_mul by_ ratioRow)) in
        Ok (A, b)
      else Ok (A, b)) (seq (S y) (rows - S y)) (A, b).

(** State after the elimination loop: A, b, TrueRowNumber, RankA, RankAb. *)
Record elim_state := MkElim {
  el_A : mat; el_b : mat; el_T : list nat; el_rankA : nat; el_rankAb : nat
}.

(** linear.cpp:51-108: the for loop from (y, x) on. *)
Fixpoint elim_loop (fuel rows cols y x : nat) (A b : mat) (T : list nat) : res elim_state :=
  match fuel with
  | O => OutOfFuel
  | S fuel' =>
      if ((y <? rows) && (x <? cols))%nat then
        let* (A, b) := bring_up rows y x A b in
        let* (x, A, b) := skip_columns (S cols) rows cols y x A b in
        let* T := (if (negb (x =? cols) && (y <? x))%nat then va_set T y x else Ok T) in
        if (x =? cols)%nat then
          let RankA := y in
          let* v := Vec_get b y in
          let RankAb := if small v then y else rows in
          if (RankA =? RankAb)%nat then Ok (MkElim A b T RankA RankAb)
          else Throw (MathError ERROR_SINGULAR_MATRIX "")
        else
          let* (A, b) := eliminate rows y x A b in
          elim_loop fuel' rows cols (S y) (S x) A b T
      else Ok (MkElim A b T rows rows)
  end.

(** linear.cpp:120-125: move the rows to their pivot columns, i = rows-1 down to 0. *)
Definition reorder (rows : nat) (T : list nat) (A b : mat) : res (mat * mat) :=
  foldM (fun '(A, b) i =>
      let* t := va_get T i in
      if (t =? 0)%nat then Ok (A, b) else
      let* A := SwapRow A i t in
      let* b := SwapRow b i t in
      Ok (A, b)) (rev (seq 0 rows)) (A, b).

(** linear.cpp:129-133: back substitution. *)
Definition back_substitute (rows : nat) (A b ret : mat) : res mat :=
  foldM (fun ret i =>
      let* r := Row A i (i + 1) in
      let* c := Col ret 0 (i + 1) in
      let* vec := va_map2 n_mul r c in
      let* bi := Vec_get b i in
      Vec_set ret i (n_sub bi (va_sum vec))) (rev (seq 0 rows)) ret.

(** linear.cpp:138-139: the text of ERROR_INDETERMINATE_EQUATION. *)
Definition indeterminate_text (A b : mat) : string :=
  ("A = " ++ Mat_ToString A ++ String (Ascii.ascii_of_nat 10) ("b = " ++ Mat_ToString b))%string.

(** linear.cpp:18-147 [SolveLinear]. *)
Definition SolveLinear (A b : mat) : res mat :=
  let rows := m_rows A in
  if negb (rows =? m_rows b)%nat then AssertFail "rows == b.Rows()" else
  let* ret := Vec_make rows (n_ofZ 0) in
  let cols := if (0 <? rows)%nat then m_cols A else rows in
  let* ret := (if (cols =? rows)%nat then Ok ret else
               if (cols <? rows)%nat then Throw (MathError ERROR_OVER_DETERMINED_EQUATIONS "")
               else Vec_Resize ret cols) in
  let* st := elim_loop (S rows) rows cols 0 0 A b (repeat 0%nat cols) in
  let indeterminate := negb (rows =? cols)%nat in
  let* (A, b) := (if indeterminate then
      let* A := Resize (el_A st) cols cols in
      let* b := Vec_Resize (el_b st) cols in
      reorder cols (el_T st) A b
    else Ok (el_A st, el_b st)) in
  let* ret := back_substitute cols A b ret in
  if ((el_rankA st <? cols) && (el_rankA st =? el_rankAb st))%nat then
    if indeterminate then
      if allowIndeterminateEquation cfg then Ok ret
      else Throw (MathError ERROR_INDETERMINATE_EQUATION (indeterminate_text A b))
    else Throw (MathError ERROR_INFINITY_SOLUTIONS "")
  else Ok ret.
End Linear.
