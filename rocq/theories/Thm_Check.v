(** C76: a returned solution passes the check of the example programs, and solving again from it returns it unchanged. *)
From Coq Require Import String List ZArith Bool Arith Lia.
From Verif Require Import Base MathOp IEEE NodeModel SubsModel DiffModel MatModel VarsTableModel SymMatModel NonlinearModel
  ExprSpec MatSpec VarsSpec SymMatSpec NonlinearSpec NodeProofs MatProofs SymMatProofs NonlinearProofs Thm_Vars Thm_Mat Thm_SymMat Thm_Nonlinear Thm_Relax.
Import ListNotations.
Local Open Scope string_scope. Local Open Scope list_scope. Local Open Scope nat_scope.

Section S.
Context {K : num_ops} (cfg : config K) (n : nat) (f : nat -> expr K) (A : symmat K) (t : vars_table K) (xs : list string) (vs : list K).
Hypotheses (Hn : 0 < n) (HA : is_sym n 1 (fun i _ => f i) A) (Ht : holds t xs vs).

(** [f.Subs(ans).Calc()] (examples/solve/main.cpp:54, examples/set_initial_values/main.cpp:32): the vector that
    is printed contains only numbers, all closer to 0 than epsilon. *)
Theorem C76_check fuel afuel ans : Solve cfg fuel afuel A t = Ok ans ->
  exists B C (phi : nat -> K), SymMat_SubsTable A ans = Ok B /\ SymMat_Calc cfg B = (Ok tt, C) /\ is_sym n 1 (fun i _ => ENum (phi i)) C /\
    forall i, i < n -> n_ltb (n_abs (n_sub (phi i) (n_ofZ 0))) (epsilon cfg) = true.
Proof.
  intros E. destruct (C38_solve_root cfg n f A t xs vs Hn HA Ht fuel afuel ans E) as (p & T & phi & V & Va).
  destruct (SymMat_Subs_ok n 1 _ A (Items ans) (table_subst ans) HA (table_dict _ _ _ T)) as (B & EB & HB).
  destruct (at_point_exists _ _ _ T) as [env He]. pose proof (proj1 (binds_point xs env p) He) as Hb.
  destruct (C34_calc cfg n 1 _ B (fun i _ => phi i) HB) as (C & EC & HC & _).
  { intros i j Hi _. apply (eval_subst_table _ _ _ _ env _ _ T Hb). destruct (V i Hi) as [W Q]. split; [exact W|exact (Q env He)]. }
  exists B, C, phi. split; [exact EB|]. split; [exact EC|]. split; [exact HC|exact Va].
Qed.

(** Solve from the solution: the same table, by either method and with any limit, also a negative one. *)
Theorem C76_again cfg' fuel afuel fuel' afuel' ans : Solve cfg fuel afuel A t = Ok ans ->
  epsilon cfg' = epsilon cfg -> throwOnInvalidValue cfg' = throwOnInvalidValue cfg -> Solve cfg' (S fuel') afuel' A ans = Ok ans.
Proof.
  intros E He Hthrow. destruct (C38_solve_root cfg n f A t xs vs Hn HA Ht fuel afuel ans E) as (p & T & phi & V & Va).
  assert (So : solved cfg' xs n f p).
  { exists phi. split; [intros i Hi; rewrite Hthrow; exact (V i Hi)|intros i Hi; rewrite He; exact (Va i Hi)]. }
  assert (Vx : Vars t = xs) by exact (h_vars _ _ _ Ht). assert (Vx' : Vars ans = xs) by exact (h_vars _ _ _ T).
  assert (EJ : exists J, Jacobian cfg' A xs = Ok J).
  { assert (EJ : exists J, Jacobian cfg A xs = Ok J).
    { unfold Solve, SolveByNewtonRaphson, SolveByLM in E. rewrite Vx in E. destruct (nonlinearMethod cfg).
      - destruct (Vec_make _ _) in E; try discriminate E. cbn [bind] in E. destruct (Jacobian cfg A xs) as [J| | | | |]; try discriminate E. now exists J.
      - destruct (Jacobian cfg A xs) as [J| | | | |]; try discriminate E. now exists J. }
    destruct EJ as [J EJ]. exists J. apply (keeps_Jacobian cfg cfg'); [congruence|exact EJ]. }
  destruct EJ as [J EJ]. unfold Solve, SolveByNewtonRaphson, SolveByLM. rewrite Vx', EJ. destruct (nonlinearMethod cfg').
  - destruct (start_zero n ans xs _ Hn T) as (Q & -> & _). cbn [bind]. unfold newton_fuel. exact (newton_done cfg' xs n f A J Hn HA _ 0 Q ans p T So).
  - cbn [bind]. exact (lm_done cfg' xs n f A J Hn HA fuel' afuel' 0 _ ans p T So).
Qed.
End S.

(** The same for Solve without initial values (examples/solve/main.cpp). *)
Theorem C76_solve1 {K : num_ops} (cfg : config K) n (f : nat -> expr K) A fuel afuel ans : 0 < n -> is_sym n 1 (fun i _ => f i) A -> Solve1 cfg fuel afuel A = Ok ans ->
  (exists B C (phi : nat -> K), SymMat_SubsTable A ans = Ok B /\ SymMat_Calc cfg B = (Ok tt, C) /\ is_sym n 1 (fun i _ => ENum (phi i)) C /\
    forall i, i < n -> n_ltb (n_abs (n_sub (phi i) (n_ofZ 0))) (epsilon cfg) = true) /\
  forall cfg' fuel' afuel', epsilon cfg' = epsilon cfg -> throwOnInvalidValue cfg' = throwOnInvalidValue cfg -> Solve cfg' (S fuel') afuel' A ans = Ok ans.
Proof.
  intros Hn HA E. destruct (C40_solve_all_variables cfg n f A HA fuel afuel) as (xs & _ & _ & [(why & _ & E')|(t & Ht & E')]); [congruence|].
  rewrite E' in E. split; [exact (C76_check cfg n f A t xs _ Hn HA Ht fuel afuel ans E)|].
  intros cfg' fuel' afuel'. exact (C76_again cfg n f A t xs _ Hn HA Ht cfg' fuel afuel fuel' afuel' ans E).
Qed.

(** The program examples/set_initial_values/main.cpp:11-32 (without logging), in doubles.  Its check passes; but the start
    (5, -5) is only used for the first step and then forgotten, so the solution found is not
    the nearby (4, -3) but (-4, 3). *)
Definition set_initial_values : res (string * string) :=
  let* e1 := ParseModel.Parse (K:=D) "x^2+y^2-25" in
  let* e2 := ParseModel.Parse (K:=D) "x^2-y^2-7" in
  let* f := SymVec_of [e1; e2] in
  let* initialValues := VarsTable_init (K:=D) [("x", b_ofZ 5 : D); ("y", b_ofZ (-5) : D)] in
  let* ans := Solve (default_config D) 0 0 f initialValues in
  let* f := SymMat_SubsTable f ans in
  let* f := SymMat_Calc_expr (default_config D) f in
  let* text := SymMat_ToString f in
  Ok (VarsTable_ToString ans, text).
Example C76_ex_program : set_initial_values = Ok ("x = -4.0000000000015055
y = 3
", "[0.0000000000120437
 0.0000000000120437]
").
Proof. vm_compute. reflexivity. Qed.
