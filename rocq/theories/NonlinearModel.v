(** Model of src/tomsolver/nonlinear.{h,cpp}.
    The output to stdout is modelled in LogModel.v.  [Config::Get()] is the argument [cfg]. *)
From Coq Require Import String List ZArith Bool Arith.
From Verif Require Import Base MathOp NodeModel SubsModel DiffModel MatModel LinearModel VarsTableModel SymMatModel.
Import ListNotations.
Local Open Scope string_scope.
Local Open Scope list_scope.

Section Nonlinear.
Context {K : num_ops} (cfg : config K).
Notation mat := (mat K).
Notation symmat := (symmat K).
Notation vars_table := (vars_table K).

(** nonlinear.cpp:102, 158, 194, 214: [equations.Clone().Subs(table).Calc().ToMat().ToVec()]. *)
Definition eval_vec (equations : symmat) (t : vars_table) : res mat :=
  let* a := SymMat_Clone equations in
  let* a := SymMat_SubsTable a t in
  let* a := SymMat_Calc_expr cfg a in
  let* m := ToMat a in
  ToVec m.

(** nonlinear.cpp:115, 172, 198: [JaEqs.Clone().Subs(table).Calc().ToMat()]. *)
Definition eval_mat (JaEqs : symmat) (t : vars_table) : res mat :=
  let* a := SymMat_Clone JaEqs in
  let* a := SymMat_SubsTable a t in
  let* a := SymMat_Calc_expr cfg a in
  ToMat a.

(** nonlinear.cpp:16-33 [Armijo].  The loop may run forever; [fuel] bounds the number of
    tests.  The two evaluations in line 25 are unordered in C++; they do not influence each
    other except through which exception is thrown first. *)
Fixpoint Armijo_loop (fuel : nat) (x d : mat) (f df : mat -> res mat) (alpha : K) : res K :=
  match fuel with
  | O => OutOfFuel
  | S fuel' =>
      let gamma := n_dec 4 (-1) in
      let sigma := n_dec 5 (-1) in
      let* ad := Vec_scale_l alpha d in
      let* x_new := Vec_add x ad in
      let* fn := f x_new in
      let l := Norm2 fn in
      let* fx := f x in
      let* J := df x in
      let* Jt := Transpose J in
      let* p := Mat_mul (Mat_scale_l (n_mul gamma alpha) Jt) d in
      let* s := Mat_add fx p in
      let r := Norm2 s in
      if n_leb l r then Ok alpha
      else Armijo_loop fuel' x d f df (n_mul alpha sigma)
  end.
Definition Armijo (fuel : nat) (x d : mat) (f df : mat -> res mat) : res K :=
  Armijo_loop fuel x d f df (n_ofZ 1).

(** nonlinear.cpp:45-63: the loop of [FindAlpha]; returns alpha_new. *)
Fixpoint FindAlpha_loop (fuel : nat) (x d : mat) (f : mat -> res mat) (uncert : K)
    (it : Z) (alpha_cur alpha_new : K) (g_cur : mat) : res K :=
  match fuel with
  | O => OutOfFuel
  | S fuel' =>
      if n_ltb (n_mul alpha_cur uncert) (n_abs (n_sub alpha_new alpha_cur)) then
        let alpha_old := alpha_cur in
        let alpha_cur := alpha_new in
        let g_old := g_cur in
        let* ad := Vec_scale_l alpha_cur d in
        let* y := Vec_add x ad in
        let* g_cur := f y in
        let* less := Vec_lt g_cur g_old in
        if less then Ok alpha_new else
        let* p := Vec_scale g_cur alpha_old in
        let* q := Vec_scale g_old alpha_cur in
        let* num := Vec_sub p q in
        let* den := Vec_sub g_cur g_old in
        let* quo := EachDivide num den in
        let* alpha_new := NormNegInfinity quo in
        if (100 <? it)%Z then Ok alpha_new
        else FindAlpha_loop fuel' x d f uncert (it + 1) alpha_cur alpha_new g_cur
      else Ok alpha_new
  end.

(** nonlinear.cpp:35-65 [FindAlpha].  103 loop tests always suffice. *)
Definition FindAlpha (x d : mat) (f : mat -> res mat) (uncert : K) : res K :=
  let* ad := Vec_scale_l (n_ofZ 0) d in
  let* y := Vec_add x ad in
  let* g := f y in
  FindAlpha_loop 103 x d f uncert 0 (n_ofZ 0) (n_ofZ 1) g.

Definition limit_exceeded : exn := RuntimeError "迭代次数超出限制".

(** nonlinear.cpp:117-129: what the catch clause does with an exception of SolveLinear. *)
Definition rethrow (r : res mat) : res mat :=
  match r with
  | Throw (MathError ERROR_SINGULAR_MATRIX _) =>
      Throw (MathError ERROR_SINGULAR_MATRIX "tip: consider using different initial values")
  | _ => r
  end.

(** nonlinear.cpp:99-139: the loop of [SolveByNewtonRaphson]. [q += deltaq] is
    mat.cpp:88-93 (its asserts do not throw). *)
Fixpoint Newton_loop (fuel : nat) (equations JaEqs : symmat) (it : Z) (q : mat) (table : vars_table)
  : res vars_table :=
  match fuel with
  | O => OutOfFuel
  | S fuel' =>
      let* phi := eval_vec equations table in
      if Mat_eq_num cfg phi (n_ofZ 0) then Ok table else
      if (maxIterations cfg <? it)%Z then Throw limit_exceeded else
      let* ja := eval_mat JaEqs table in
      let* mphi := Vec_neg phi in
      let* deltaq := rethrow (SolveLinear cfg ja mphi) in
      let* q := Mat_add q deltaq in
      let* table := SetValues table q in
      Newton_loop fuel' equations JaEqs (it + 1) q table
  end.

(** Number of loop tests that always suffices. *)
Definition newton_fuel : nat := S (S (Z.to_nat (maxIterations cfg + 1))).

(** nonlinear.cpp:89-141 [SolveByNewtonRaphson].  [Vec q(n)] is the zero vector. *)
Definition SolveByNewtonRaphson (equations : symmat) (varsTable : vars_table) : res vars_table :=
  let* q := Vec_make (VarNums varsTable) (n_ofZ 0) in
  let* JaEqs := Jacobian cfg equations (Vars varsTable) in
  Newton_loop newton_fuel equations JaEqs 0 q varsTable.

(** nonlinear.cpp:190-199: the functions given to [Armijo].  They also store their argument
    in the table, which every later use of the table overwrites (lines 193, 197, 212). *)
Definition lm_f (equations : symmat) (table : vars_table) (v : mat) : res mat :=
  let* t := SetValues table v in eval_vec equations t.
Definition lm_df (JaEqs : symmat) (table : vars_table) (v : mat) : res mat :=
  let* t := SetValues table v in eval_mat JaEqs t.

(** nonlinear.cpp:170-236: the inner loop; result: it, FNew, deltaq, table.  [fuel] bounds the
    number of rounds, [afuel] is the fuel of [Armijo]. *)
Fixpoint LM_inner (fuel afuel : nat) (equations JaEqs : symmat) (it : Z) (mu : K) (q F : mat) (table : vars_table)
  : res (Z * mat * mat * vars_table) :=
  match fuel with
  | O => OutOfFuel
  | S fuel' =>
      let* J := eval_mat JaEqs table in
      let* Jt := Transpose J in
      let* JtJ := Mat_mul Jt J in
      let* I_0 := Mat_make (m_rows J) (m_cols J) (n_ofZ 0) in
      let* I_n := Ones I_0 in
      let* A := Mat_add JtJ (Mat_scale_l mu I_n) in
      let* JtF := Mat_mul Jt F in
      let* g := ToVec JtF in
      let* b := Vec_neg g in
      let* d := SolveLinear cfg A b in
      let* alpha := Armijo afuel q d (lm_f equations table) (lm_df JaEqs table) in
      let* deltaq := Vec_scale_l alpha d in
      let* qTemp := Vec_add q deltaq in
      let* table := SetValues table qTemp in
      let* FNew := eval_vec equations table in
      if n_ltb (Norm2 FNew) (Norm2 F) then Ok (it, FNew, deltaq, table)
      else
        let mu := n_mul mu (n_ofZ 10) in
        if (it =? maxIterations cfg)%Z then Throw limit_exceeded
        else LM_inner fuel' afuel equations JaEqs (it + 1) mu q F table
  end.

(** nonlinear.cpp:153-251: the outer loop.  Lines 168-169 build [Vec FNew(n), deltaq(n)]. *)
Fixpoint LM_loop (fuel afuel : nat) (equations JaEqs : symmat) (it : Z) (q : mat) (table : vars_table)
  : res vars_table :=
  match fuel with
  | O => OutOfFuel
  | S fuel' =>
      let mu := n_dec 1 (-5) in
      let* F := eval_vec equations table in
      if Mat_eq_num cfg F (n_ofZ 0) then Ok table else
      let* r := LM_inner fuel afuel equations JaEqs it mu q F table in
      let '(it, FNew, deltaq, table) := r in
      let* q := Mat_add q deltaq in
      let* table := SetValues table q in
      if (it =? maxIterations cfg)%Z then Throw limit_exceeded
      else LM_loop fuel' afuel equations JaEqs (it + 1) q table
  end.

(** nonlinear.cpp:143-258 [SolveByLM]. *)
Definition SolveByLM (fuel afuel : nat) (equations : symmat) (varsTable : vars_table) : res vars_table :=
  let q := Values varsTable in
  let* JaEqs := Jacobian cfg equations (Vars varsTable) in
  LM_loop fuel afuel equations JaEqs 0 q varsTable.

(** nonlinear.cpp:260-269 [Solve(equations, varsTable)].  (An invalid enum value cannot be
    expressed.)  The fuels only matter for LM. *)
Definition Solve (fuel afuel : nat) (equations : symmat) (varsTable : vars_table) : res vars_table :=
  match nonlinearMethod cfg with
  | NEWTON_RAPHSON => SolveByNewtonRaphson equations varsTable
  | LM => SolveByLM fuel afuel equations varsTable
  end.

(** nonlinear.cpp:271-276 [Solve(equations)]. *)
Definition Solve1 (fuel afuel : nat) (equations : symmat) : res vars_table :=
  let* varNames := SymMat_GetAllVarNames equations in
  let* varsTable := VarsTable_make varNames (initialValue cfg) in
  Solve fuel afuel equations varsTable.

End Nonlinear.
