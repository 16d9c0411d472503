(** Model of what the library writes to [std::cout]: linear.cpp:19-23 and nonlinear.cpp.  The functions
    of LinearModel.v and NonlinearModel.v are repeated here with their output; [Config::Get().logLevel]
    is the argument [lv] (the record [config] holds the other settings).
    Simplifications: a write to the stream cannot fail; [std::endl] is a line feed; how [operator<<] writes
    a double (nonlinear.cpp:218-221, six significant digits) is an arbitrary function [show]. *)
From Coq Require Import String Ascii List ZArith Bool Arith.
From Verif Require Import Base MathOp NodeModel ToStringModel SubsModel DiffModel MatModel LinearModel VarsTableModel SymMatModel NonlinearModel ErrorModel.
Import ListNotations.
Local Open Scope string_scope.

(** config.h:7 [enum class LogLevel]; comparison is by position. *)
Inductive log_level := OFF | FATAL | ERROR | WARN | INFO | DEBUG | TRACE | ALL.
Definition level_number (l : log_level) : nat :=
  match l with OFF => 0 | FATAL => 1 | ERROR => 2 | WARN => 3 | INFO => 4 | DEBUG => 5 | TRACE => 6 | ALL => 7 end.
Definition level_geb (a b : log_level) : bool := (level_number b <=? level_number a)%nat.
(** config.h:19: the initial value. *)
Definition default_logLevel : log_level := WARN.

(** What has been written and how the call ends. *)
Definition logged (A : Type) : Type := string * res A.
Definition wret {A} (r : res A) : logged A := ("", r).
Definition wbind {A B} (m : logged A) (f : A -> logged B) : logged B :=
  match snd m with
  | Ok a => (fst m ++ fst (f a), snd (f a))
  | Throw e => (fst m, Throw e)
  | Undef w => (fst m, Undef w)
  | Terminate => (fst m, Terminate)
  | AssertFail w => (fst m, AssertFail w)
  | OutOfFuel => (fst m, OutOfFuel)
  end.
Definition print (s : string) : logged unit := (s, Ok tt).
Definition print_if (b : bool) (s : string) : logged unit := if b then print s else wret (Ok tt).
Declare Scope logged_scope.
Notation "'let!' x ':=' e1 'in' e2" := (wbind e1 (fun x => e2))
  (at level 200, x pattern, e1 at level 100, e2 at level 200, right associativity) : logged_scope.
Notation "'let+' x ':=' e1 'in' e2" := (wbind (wret e1) (fun x => e2))
  (at level 200, x pattern, e1 at level 100, e2 at level 200, right associativity) : logged_scope.
Open Scope logged_scope.

(** A function declared [noexcept]. *)
Definition wnoexcept {A} (m : logged A) : logged A := (fst m, noexcept (snd m)).

(** [std::to_string(int)], [operator<<(int)]. *)
Definition signed_text (z : Z) : string :=
  match z with
  | Zneg p => String "-" (int_text (Pos.to_nat p))
  | _ => int_text (Z.to_nat z)
  end.

Section Log.
Context {K : num_ops} (cfg : config K) (lv : log_level) (show : K -> string).
Notation mat := (mat K).
Notation symmat := (symmat K).
Notation vars_table := (vars_table K).

(** node.cpp:590-593, mat.cpp:477-479, symmat.cpp:222-224, vars_table.cpp:100-103 [operator<<]. *)
Definition out_node (n : node K) : logged unit := wnoexcept (let+ s := ToString n in print s).
Definition out_mat (A : mat) : logged unit := print (Mat_ToString A).
Definition out_symmat (A : symmat) : logged unit := wnoexcept (let+ s := SymMat_ToString A in print s).
Definition out_table (t : vars_table) : logged unit := print (VarsTable_ToString t).

(** linear.cpp:18-23 (the rest: [SolveLinear] of LinearModel.v, which writes nothing). *)
Definition SolveLinear_log (A b : mat) : logged mat :=
  let! _ := print_if (level_geb lv TRACE) ("SolveLinear:Ax=b (x is the wanted)" ++ nl) in
  let! _ := print_if (level_geb lv TRACE) ("A=" ++ nl ++ Mat_ToString A) in
  let! _ := print_if (level_geb lv TRACE) ("b=" ++ nl ++ Mat_ToString b) in
  wret (SolveLinear cfg A b).

(** nonlinear.cpp:35-65 [FindAlpha]; the message of line 60 does not depend on the level. *)
Fixpoint FindAlpha_loop_log (fuel : nat) (x d : mat) (f : mat -> res mat) (uncert : K)
    (it : Z) (alpha_cur alpha_new : K) (g_cur : mat) : logged K :=
  match fuel with
  | O => wret OutOfFuel
  | S fuel' =>
      if n_ltb (n_mul alpha_cur uncert) (n_abs (n_sub alpha_new alpha_cur)) then
        let alpha_old := alpha_cur in
        let alpha_cur := alpha_new in
        let g_old := g_cur in
        let+ ad := Vec_scale_l alpha_cur d in
        let+ y := Vec_add x ad in
        let+ g_cur := f y in
        let+ less := Vec_lt g_cur g_old in
        if (less : bool) then wret (Ok alpha_new) else
        let+ p := Vec_scale g_cur alpha_old in
        let+ q := Vec_scale g_old alpha_cur in
        let+ num := Vec_sub p q in
        let+ den := Vec_sub g_cur g_old in
        let+ quo := EachDivide num den in
        let+ alpha_new := NormNegInfinity quo in
        if (100 <? it)%Z then
          let! _ := print ("FindAlpha: over iterator" ++ nl) in
          wret (Ok alpha_new)
        else FindAlpha_loop_log fuel' x d f uncert (it + 1) alpha_cur alpha_new g_cur
      else wret (Ok alpha_new)
  end.
Definition FindAlpha_log (x d : mat) (f : mat -> res mat) (uncert : K) : logged K :=
  let+ ad := Vec_scale_l (n_ofZ 0) d in
  let+ y := Vec_add x ad in
  let+ g := f y in
  FindAlpha_loop_log 103 x d f uncert 0 (n_ofZ 0) (n_ofZ 1) g.

(** nonlinear.cpp:68-75 [PrintSolveStartInfo], noexcept. *)
Definition PrintSolveStartInfo (equations : symmat) (varsTable : vars_table) : logged unit :=
  wnoexcept (
    if level_geb lv INFO then
      let! _ := print ("Solve start." ++ nl) in
      let! _ := print ("  Method: Newton Raphson" ++ nl) in
      let+ s := SymMat_ToString equations in
      let! _ := print ("Equations:" ++ nl ++ s) in
      print ("Inital Values:" ++ nl ++ VarsTable_ToString varsTable)
    else wret (Ok tt)).

(** nonlinear.cpp:76-80 [PrintJacobian], noexcept. *)
Definition PrintJacobian (jaEqs : symmat) : logged unit :=
  wnoexcept (
    if level_geb lv TRACE then
      let+ s := SymMat_ToString jaEqs in
      print ("Jacobian:" ++ nl ++ s)
    else wret (Ok tt)).

(** nonlinear.cpp:81-86 [PrintAtIterationStart], noexcept. *)
Definition PrintAtIterationStart (it : Z) : logged unit :=
  wnoexcept (
    if level_geb lv INFO then
      let! _ := print ("==========" ++ "==========" ++ nl) in
      print ("iteration times = " ++ signed_text it ++ nl)
    else wret (Ok tt)).

(** nonlinear.cpp:117-129: the try block and its handler. *)
Definition newton_try (ja mphi q : mat) : logged mat :=
  let m :=
    let! deltaq := SolveLinear_log ja mphi in
    let! _ := print_if (level_geb lv TRACE) ("deltaq = " ++ Mat_ToString deltaq ++ nl) in
    wret (Mat_add q deltaq) in
  (fst m, rethrow (snd m)).

(** nonlinear.cpp:99-139. *)
Fixpoint Newton_loop_log (fuel : nat) (equations JaEqs : symmat) (it : Z) (q : mat) (table : vars_table)
  : logged vars_table :=
  match fuel with
  | O => wret OutOfFuel
  | S fuel' =>
      let! _ := PrintAtIterationStart it in
      let+ phi := eval_vec cfg equations table in
      let! _ := print_if (level_geb lv INFO) ("phi = " ++ nl ++ Mat_ToString phi) in
      if Mat_eq_num cfg phi (n_ofZ 0) then wret (Ok table) else
      if (maxIterations cfg <? it)%Z then wret (Throw limit_exceeded) else
      let+ ja := eval_mat cfg JaEqs table in
      let+ mphi := Vec_neg phi in
      let! q := newton_try ja mphi q in
      let! _ := print_if (level_geb lv TRACE) ("ja = " ++ Mat_ToString ja ++ nl) in
      let! _ := print_if (level_geb lv TRACE) ("q = " ++ Mat_ToString q ++ nl) in
      let+ table := SetValues table q in
      Newton_loop_log fuel' equations JaEqs (it + 1) q table
  end.

(** nonlinear.cpp:89-141 [SolveByNewtonRaphson]. *)
Definition SolveByNewtonRaphson_log (equations : symmat) (varsTable : vars_table) : logged vars_table :=
  let+ q := Vec_make (VarNums varsTable) (n_ofZ 0) in
  let! _ := PrintSolveStartInfo equations varsTable in
  let+ JaEqs := Jacobian cfg equations (Vars varsTable) in
  let! _ := PrintJacobian JaEqs in
  Newton_loop_log (newton_fuel cfg) equations JaEqs 0 q varsTable.

(** nonlinear.cpp:170-236: the inner loop of LM. *)
Fixpoint LM_inner_log (fuel afuel : nat) (equations JaEqs : symmat) (it : Z) (mu : K) (q F : mat) (table : vars_table)
  : logged (Z * mat * mat * vars_table) :=
  match fuel with
  | O => wret OutOfFuel
  | S fuel' =>
      let trace s := print_if (level_geb lv TRACE) s in
      let+ J := eval_mat cfg JaEqs table in
      let! _ := trace ("J = " ++ Mat_ToString J ++ nl) in
      let+ Jt := Transpose J in
      let+ JtJ := Mat_mul Jt J in
      let+ I_0 := Mat_make (m_rows J) (m_cols J) (n_ofZ 0) in
      let+ I_n := Ones I_0 in
      let+ A := Mat_add JtJ (Mat_scale_l mu I_n) in
      let+ JtF := Mat_mul Jt F in
      let+ g := ToVec JtF in
      let+ b := Vec_neg g in
      let! d := SolveLinear_log A b in
      let! _ := trace ("d = " ++ Mat_ToString d ++ nl) in
      let+ alpha := Armijo afuel q d (lm_f cfg equations table) (lm_df cfg JaEqs table) in
      let+ deltaq := Vec_scale_l alpha d in
      let+ qTemp := Vec_add q deltaq in
      let+ table := SetValues table qTemp in
      let+ FNew := eval_vec cfg equations table in
      let! _ := trace ("it=" ++ signed_text it ++ nl) in
      let! _ := trace (String "009" "alpha=" ++ show alpha ++ nl) in
      let! _ := trace ("mu=" ++ show mu ++ nl) in
      let! _ := trace ("F.Norm2()=" ++ show (Norm2 F) ++ nl) in
      let! _ := trace ("FNew.Norm2()=" ++ show (Norm2 FNew) ++ nl) in
      let! _ := trace (String "009" "F(x k+1).Norm2()" ++ String "009" (if n_ltb (Norm2 FNew) (Norm2 F) then "<" else ">=") ++
                       String "009" "F(x k).Norm2()" ++ String "009" nl) in
      if n_ltb (Norm2 FNew) (Norm2 F) then wret (Ok (it, FNew, deltaq, table))
      else
        let mu := n_mul mu (n_ofZ 10) in
        if (it =? maxIterations cfg)%Z then wret (Throw limit_exceeded)
        else LM_inner_log fuel' afuel equations JaEqs (it + 1) mu q F table
  end.

(** nonlinear.cpp:153-251. *)
Fixpoint LM_loop_log (fuel afuel : nat) (equations JaEqs : symmat) (it : Z) (q : mat) (table : vars_table)
  : logged vars_table :=
  match fuel with
  | O => wret OutOfFuel
  | S fuel' =>
      let! _ := PrintAtIterationStart it in
      let mu := n_dec 1 (-5) in
      let+ F := eval_vec cfg equations table in
      let! _ := print_if (level_geb lv TRACE) ("F = " ++ Mat_ToString F ++ nl) in
      if Mat_eq_num cfg F (n_ofZ 0) then wret (Ok table) else
      let! r := LM_inner_log fuel afuel equations JaEqs it mu q F table in
      let '(it, FNew, deltaq, table) := r in
      let+ q := Mat_add q deltaq in
      let+ table := SetValues table q in
      if (it =? maxIterations cfg)%Z then wret (Throw limit_exceeded)
      else
        let! _ := print_if (level_geb lv TRACE) ("====================" ++ nl) in
        LM_loop_log fuel' afuel equations JaEqs (it + 1) q table
  end.

(** nonlinear.cpp:143-258 [SolveByLM]. *)
Definition SolveByLM_log (fuel afuel : nat) (equations : symmat) (varsTable : vars_table) : logged vars_table :=
  let q := Values varsTable in
  let! _ := PrintSolveStartInfo equations varsTable in
  let+ JaEqs := Jacobian cfg equations (Vars varsTable) in
  let! _ := PrintJacobian JaEqs in
  let! table := LM_loop_log fuel afuel equations JaEqs 0 q varsTable in
  let! _ := print_if (level_geb lv TRACE) ("success" ++ nl) in
  wret (Ok table).

(** nonlinear.cpp:260-269, 271-276 [Solve]. *)
Definition Solve_log (fuel afuel : nat) (equations : symmat) (varsTable : vars_table) : logged vars_table :=
  match nonlinearMethod cfg with
  | NEWTON_RAPHSON => SolveByNewtonRaphson_log equations varsTable
  | LM => SolveByLM_log fuel afuel equations varsTable
  end.
Definition Solve1_log (fuel afuel : nat) (equations : symmat) : logged vars_table :=
  let+ varNames := SymMat_GetAllVarNames equations in
  let+ varsTable := VarsTable_make varNames (initialValue cfg) in
  Solve_log fuel afuel equations varsTable.

End Log.
