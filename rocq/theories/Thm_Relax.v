(** C72: relaxing the configuration never changes a result. *)
From Coq Require Import String List ZArith Bool Arith Lia.
From Verif Require Import Base MathOp NodeModel SimplifyModel DiffModel SubsModel MatModel LinearModel VarsTableModel
  SymMatModel NonlinearModel IEEE ParseModel ExprSpec NodeProofs.
Import ListNotations.
Local Open Scope string_scope. Local Open Scope list_scope.

(** [cfg'] is at least as permissive as [cfg]: invalid values are not checked more strictly,
    indeterminate equations are not refused more often, and there are at least as many
    iterations (for LM a negative limit means no limit).  Tolerance, method and initial value
    are the same. *)
Definition more_permissive {K : num_ops} (cfg cfg' : config K) : Prop :=
  (throwOnInvalidValue cfg' = true -> throwOnInvalidValue cfg = true) /\
  (allowIndeterminateEquation cfg = true -> allowIndeterminateEquation cfg' = true) /\
  epsilon cfg' = epsilon cfg /\ nonlinearMethod cfg' = nonlinearMethod cfg /\ initialValue cfg' = initialValue cfg /\
  match nonlinearMethod cfg with
  | NEWTON_RAPHSON => (maxIterations cfg <= maxIterations cfg')%Z
  | LM => (0 <= maxIterations cfg <= maxIterations cfg')%Z \/ (maxIterations cfg' < 0)%Z
  end.

(** Whatever the first call returns, the second returns too. *)
Definition keeps {A} (r r' : res A) : Prop := forall a, r = Ok a -> r' = Ok a.

Lemma keeps_refl {A} (r : res A) : keeps r r. Proof. intros a H. exact H. Qed.
Lemma keeps_bind {A B} (r r' : res A) (f f' : A -> res B) :
  keeps r r' -> (forall a, r = Ok a -> keeps (f a) (f' a)) -> keeps (bind r f) (bind r' f').
Proof.
  intros H Hf b E. apply bind_Ok_inv in E as (a & E1 & E2). rewrite (H a E1). cbn [bind]. exact (Hf a E1 b E2).
Qed.
Lemma keeps_noexcept {A} (r r' : res A) : keeps r r' -> keeps (noexcept r) (noexcept r').
Proof. intros H a E. rewrite (H a); [reflexivity|]. destruct r; try discriminate E; exact E. Qed.
Lemma keeps_mapM {A B} (f f' : A -> res B) l : (forall a, keeps (f a) (f' a)) -> keeps (mapM f l) (mapM f' l).
Proof.
  intros H. induction l as [|a l IH]; cbn [mapM]; [apply keeps_refl|].
  apply keeps_bind; [apply H|]. intros b _. apply keeps_bind; [exact IH|]. intros bs _. apply keeps_refl.
Qed.
Lemma keeps_foldM {A B} (f f' : B -> A -> res B) l : (forall b a, keeps (f b a) (f' b a)) -> forall b, keeps (foldM f l b) (foldM f' l b).
Proof.
  intros H. induction l as [|a l IH]; intros b; cbn [foldM]; [apply keeps_refl|].
  apply keeps_bind; [apply H|]. intros b' _. apply IH.
Qed.
Lemma keeps_fail {A} (r r' : res A) : (forall a, r <> Ok a) -> keeps r r'.
Proof. intros H a E. now destruct (H a). Qed.

Ltac same := first [apply keeps_refl | apply keeps_fail; intros ? ?; discriminate].

Section Relax.
Context {K : num_ops} (cfg cfg' : config K).
Hypothesis T : throwOnInvalidValue cfg' = true -> throwOnInvalidValue cfg = true.

Lemma keeps_Calc op v w : keeps (Calc cfg op v w) (Calc cfg' op v w).
Proof using T.
  unfold Calc. apply keeps_bind; [apply keeps_refl|]. intros a _.
  destruct (throwOnInvalidValue cfg') eqn:E'; cbn [negb].
  - rewrite (T eq_refl). apply keeps_refl.
  - destruct (throwOnInvalidValue cfg); cbn [negb]; [destruct (isInvalid a)|]; same.
Qed.

Lemma keeps_VpaStep stk n : keeps (VpaStep cfg stk n) (VpaStep cfg' stk n).
Proof using T.
  unfold VpaStep. destruct n as [|[] op v x l r]; try same.
  destruct (GetOperatorNum op) as [|[|[|k]]]; try same.
  - destruct stk; [same|]. apply keeps_bind; [apply keeps_Calc|]. intros; same.
  - destruct stk as [|? []]; try same. apply keeps_bind; [apply keeps_Calc|]. intros; same.
Qed.
Lemma keeps_Vpa n : keeps (Vpa cfg n) (Vpa cfg' n).
Proof using T.
  unfold Vpa. destruct n; [same|]. apply keeps_bind; [same|]. intros o _.
  apply keeps_bind; [apply keeps_foldM; apply keeps_VpaStep|]. intros stk _. destruct stk as [|? []]; same.
Qed.
Lemma keeps_NodeCalc n n' : NodeCalc cfg n = (Ok tt, n') -> NodeCalc cfg' n = (Ok tt, n').
Proof using T.
  unfold NodeCalc. destruct (Vpa cfg n) as [d| | | | | ] eqn:E; intros H; try discriminate H.
  rewrite (keeps_Vpa n d E). exact H.
Qed.

Lemma keeps_Single n : keeps (SimplifySingleNode cfg n) (SimplifySingleNode cfg' n).
Proof using T.
  unfold SimplifySingleNode. destruct n as [|ty op v x l r]; [same|].
  destruct (GetOperatorNum op) as [|[|[|k]]]; try same.
  - destruct l as [|[] lop lv lx ll lr]; try same.
    apply keeps_bind; [apply keeps_noexcept, keeps_Calc|]. intros; same.
  - destruct l as [|[] lop lv lx ll lr]; try same; destruct r as [|[] rop rv rx rl rr]; try same.
    apply keeps_bind; [apply keeps_noexcept, keeps_Calc|]. intros; same.
Qed.
Lemma keeps_Whole n : keeps (SimplifyWholeNode cfg n) (SimplifyWholeNode cfg' n).
Proof using T.
  induction n as [|ty op v x l IHl r IHr]; [same|]. destruct ty; try same. cbn [SimplifyWholeNode].
  apply keeps_bind.
  { destruct l as [|[] lop lv lx ll lr]; try same. exact IHl. }
  intros l' _. apply keeps_bind.
  { destruct r as [|[] lop lv lx ll lr]; try same. exact IHr. }
  intros r' _. apply keeps_Single.
Qed.
Lemma keeps_Simplify n : keeps (Simplify cfg n) (Simplify cfg' n).
Proof using T. apply keeps_noexcept, keeps_Whole. Qed.
Lemma keeps_Diff n x i : keeps (Diff cfg n x i) (Diff cfg' n x i).
Proof using T.
  unfold Diff. destruct (i <=? 0)%Z; [same|]. destruct n; [same|].
  apply keeps_bind; [same|]. intros n' _. apply keeps_Simplify.
Qed.
Lemma keeps_Jacobian A vars : keeps (Jacobian cfg A vars) (Jacobian cfg' A vars).
Proof using T.
  unfold Jacobian. apply keeps_bind; [same|]. intros ja _.
  apply keeps_bind; [|intros; same]. apply keeps_noexcept, keeps_mapM. intros k.
  apply keeps_bind; [same|]. intros e _. destruct (nth_error vars _); [apply keeps_Diff|same].
Qed.
Lemma keeps_Calc_list l l' : Calc_list cfg l = (Ok tt, l') -> Calc_list cfg' l = (Ok tt, l').
Proof using T.
  revert l'. induction l as [|n l IH]; intros l' H; [exact H|]. cbn [Calc_list] in *.
  destruct (NodeCalc cfg n) as [[[]| | | | | ] n'] eqn:E; try discriminate H.
  rewrite (keeps_NodeCalc n n' E). destruct (Calc_list cfg l) as [r l''] eqn:E2. injection H as -> <-.
  now rewrite (IH l'' eq_refl).
Qed.
Lemma keeps_SymCalc A : keeps (SymMat_Calc_expr cfg A) (SymMat_Calc_expr cfg' A).
Proof using T.
  unfold SymMat_Calc_expr, SymMat_Calc. intros B H. destruct (Calc_list cfg (s_data A)) as [r l] eqn:E.
  destruct r as [[]| | | | | ]; try discriminate H. rewrite (keeps_Calc_list _ _ E). exact H.
Qed.
Lemma keeps_eval_vec A t : keeps (eval_vec cfg A t) (eval_vec cfg' A t).
Proof using T.
  unfold eval_vec. apply keeps_bind; [same|]. intros a _. apply keeps_bind; [same|]. intros b _.
  apply keeps_bind; [apply keeps_SymCalc|]. intros; same.
Qed.
Lemma keeps_eval_mat A t : keeps (eval_mat cfg A t) (eval_mat cfg' A t).
Proof using T.
  unfold eval_mat. apply keeps_bind; [same|]. intros a _. apply keeps_bind; [same|]. intros b _.
  apply keeps_bind; [apply keeps_SymCalc|]. intros; same.
Qed.

Hypothesis E : epsilon cfg' = epsilon cfg.
Hypothesis Al : allowIndeterminateEquation cfg = true -> allowIndeterminateEquation cfg' = true.

Lemma skip_columns_eps fuel rows cols y x A b :
  skip_columns cfg' fuel rows cols y x A b = skip_columns cfg fuel rows cols y x A b.
Proof using E.
  revert x A b. induction fuel as [|f IH]; intros x A b; [reflexivity|]. cbn [skip_columns].
  apply bind_ext. intros v. rewrite E. destruct (n_ltb _ _); [|reflexivity]. destruct (S x =? cols)%nat; [reflexivity|].
  apply bind_ext. intros [A' b']. apply IH.
Qed.
Lemma elim_loop_eps fuel rows cols y x A b T0 :
  elim_loop cfg' fuel rows cols y x A b T0 = elim_loop cfg fuel rows cols y x A b T0.
Proof using E.
  revert y x A b T0. induction fuel as [|f IH]; intros y x A b T0; [reflexivity|]. cbn [elim_loop].
  destruct (_ && _); [|reflexivity]. apply bind_ext. intros [A1 b1]. rewrite skip_columns_eps.
  apply bind_ext. intros [[x1 A2] b2]. apply bind_ext. intros T1.
  destruct (x1 =? cols)%nat; [now rewrite E|]. unfold eliminate. rewrite E. apply bind_ext. intros [A3 b3]. apply IH.
Qed.
Lemma keeps_SolveLinear A b : keeps (SolveLinear cfg A b) (SolveLinear cfg' A b).
Proof using E Al.
  unfold SolveLinear. destruct (negb (m_rows A =? m_rows b)%nat); [same|].
  apply keeps_bind; [same|]. intros ret _. apply keeps_bind; [same|]. intros ret1 _.
  rewrite elim_loop_eps. apply keeps_bind; [same|]. intros st _. apply keeps_bind; [same|]. intros [A1 b1] _.
  apply keeps_bind; [same|]. intros ret2 _. destruct (_ && _); [|same].
  destruct (negb _); [|same]. destruct (allowIndeterminateEquation cfg); [rewrite (Al eq_refl)|]; same.
Qed.

Lemma keeps_rethrow r r' : keeps r r' -> keeps (rethrow (K:=K) r) (rethrow r').
Proof using. 
  intros H a Hr. destruct r as [m|e| | | | ]; try discriminate Hr.
  - injection Hr as ->. now rewrite (H a eq_refl).
  - destruct e as [[]| | | | ]; discriminate Hr.
Qed.

Lemma Newton_keeps fuel : forall fuel' A J it q t, (fuel <= fuel')%nat -> (maxIterations cfg <= maxIterations cfg')%Z ->
  keeps (Newton_loop cfg fuel A J it q t) (Newton_loop cfg' fuel' A J it q t).
Proof using T E Al.
  induction fuel as [|f IH]; intros fuel' A J it q t Hf Hm; [same|].
  destruct fuel' as [|f']; [lia|]. cbn [Newton_loop].
  apply keeps_bind; [apply keeps_eval_vec|]. intros phi _.
  unfold Mat_eq_num. rewrite E. destruct (forallb _ _); [same|].
  destruct (maxIterations cfg <? it)%Z eqn:L1; [same|]. apply Z.ltb_ge in L1.
  replace (maxIterations cfg' <? it)%Z with false by (symmetry; apply Z.ltb_ge; lia).
  apply keeps_bind; [apply keeps_eval_mat|]. intros ja _. apply keeps_bind; [same|]. intros mphi _.
  apply keeps_bind; [apply keeps_rethrow, keeps_SolveLinear|]. intros dq _.
  apply keeps_bind; [same|]. intros q1 _. apply keeps_bind; [same|]. intros t1 _. apply IH; [lia|exact Hm].
Qed.

Lemma keeps_Armijo fuel x d f f' g g' a : (forall v, keeps (f v) (f' v)) -> (forall v, keeps (g v) (g' v)) ->
  keeps (Armijo_loop (K:=K) fuel x d f g a) (Armijo_loop fuel x d f' g' a).
Proof using.
  intros Hf Hg. revert a. induction fuel as [|n IH]; intros a; [same|]. cbn [Armijo_loop].
  apply keeps_bind; [same|]. intros ad _. apply keeps_bind; [same|]. intros xn _.
  apply keeps_bind; [apply Hf|]. intros fn _. apply keeps_bind; [apply Hf|]. intros fx _.
  apply keeps_bind; [apply Hg|]. intros J _. apply keeps_bind; [same|]. intros Jt _.
  apply keeps_bind; [same|]. intros p _. apply keeps_bind; [same|]. intros s _.
  destruct (n_leb _ _); [same|apply IH].
Qed.

(** Iteration numbers that do not reach the limit of [cfg] do not reach that of [cfg']. *)
Definition within (it : Z) : Prop :=
  (0 <= it)%Z /\ ((it <= maxIterations cfg <= maxIterations cfg')%Z \/ (maxIterations cfg' < 0)%Z).
Lemma within_next it : within it -> (it =? maxIterations cfg)%Z = false -> (it =? maxIterations cfg')%Z = false /\ within (it + 1).
Proof using. intros [H0 H] L1. apply Z.eqb_neq in L1. unfold within. split; [apply Z.eqb_neq|]; lia. Qed.

Lemma LM_inner_keeps fuel afuel A J : forall it mu q F t, within it ->
  forall r, LM_inner cfg fuel afuel A J it mu q F t = Ok r ->
    LM_inner cfg' fuel afuel A J it mu q F t = Ok r /\ within (fst (fst (fst r))).
Proof using T E Al.
  induction fuel as [|f IH]; intros it mu q F t Hw r H; [discriminate|]. cbn [LM_inner] in *.
  apply bind_Ok_inv in H as (Jm & E1 & H). rewrite (keeps_eval_mat _ _ _ E1). cbn [bind].
  apply bind_Ok_inv in H as (Jt & E2 & H). rewrite E2. cbn [bind].
  apply bind_Ok_inv in H as (JtJ & E3 & H). rewrite E3. cbn [bind].
  apply bind_Ok_inv in H as (I0 & E4 & H). rewrite E4. cbn [bind].
  apply bind_Ok_inv in H as (In & E5 & H). rewrite E5. cbn [bind].
  apply bind_Ok_inv in H as (M & E6 & H). rewrite E6. cbn [bind].
  apply bind_Ok_inv in H as (JtF & E7 & H). rewrite E7. cbn [bind].
  apply bind_Ok_inv in H as (g & E8 & H). rewrite E8. cbn [bind].
  apply bind_Ok_inv in H as (b & E9 & H). rewrite E9. cbn [bind].
  apply bind_Ok_inv in H as (d & E10 & H). rewrite (keeps_SolveLinear _ _ _ E10). cbn [bind].
  apply bind_Ok_inv in H as (al & E11 & H).
  assert (E11' : Armijo afuel q d (lm_f cfg' A t) (lm_df cfg' J t) = Ok al).
  { revert E11. unfold Armijo. apply keeps_Armijo; intros v.
    - unfold lm_f. apply keeps_bind; [same|]. intros; apply keeps_eval_vec.
    - unfold lm_df. apply keeps_bind; [same|]. intros; apply keeps_eval_mat. }
  rewrite E11'. cbn [bind].
  apply bind_Ok_inv in H as (dq & E12 & H). rewrite E12. cbn [bind].
  apply bind_Ok_inv in H as (qT & E13 & H). rewrite E13. cbn [bind].
  apply bind_Ok_inv in H as (t1 & E14 & H). rewrite E14. cbn [bind].
  apply bind_Ok_inv in H as (Fn & E15 & H). rewrite (keeps_eval_vec _ _ _ E15). cbn [bind].
  destruct (n_ltb _ _).
  - injection H as <-. split; [reflexivity|exact Hw].
  - destruct (it =? maxIterations cfg)%Z eqn:L1; [discriminate|].
    destruct (within_next it Hw L1) as [L2 Hw2]. rewrite L2. exact (IH _ _ _ _ _ Hw2 r H).
Qed.

Lemma LM_loop_keeps fuel afuel A J : forall it q t, within it ->
  keeps (LM_loop cfg fuel afuel A J it q t) (LM_loop cfg' fuel afuel A J it q t).
Proof using T E Al.
  induction fuel as [|f IH]; intros it q t Hw; [same|]. cbn [LM_loop].
  apply keeps_bind; [apply keeps_eval_vec|]. intros F _. unfold Mat_eq_num. rewrite E. destruct (forallb _ _); [same|].
  intros tr H. apply bind_Ok_inv in H as ([[[it1 Fn] dq] t1] & E1 & H).
  destruct (LM_inner_keeps _ _ _ _ _ _ _ _ _ Hw _ E1) as [E1' Hw1]. rewrite E1'. cbn [bind fst] in *.
  apply bind_Ok_inv in H as (q1 & E2 & H). rewrite E2. cbn [bind].
  apply bind_Ok_inv in H as (t2 & E3 & H). rewrite E3. cbn [bind].
  destruct (it1 =? maxIterations cfg)%Z eqn:L1; [discriminate|].
  destruct (within_next it1 Hw1 L1) as [L2 Hw2]. rewrite L2. exact (IH _ _ _ Hw2 tr H).
Qed.
End Relax.

(** ** C72 *)
Theorem C72_vpa {K : num_ops} (cfg cfg' : config K) n v : more_permissive cfg cfg' -> Vpa cfg n = Ok v -> Vpa cfg' n = Ok v.
Proof. intros (H & _). exact (keeps_Vpa cfg cfg' H n v). Qed.
Theorem C72_simplify {K : num_ops} (cfg cfg' : config K) n m : more_permissive cfg cfg' ->
  Simplify cfg n = Ok m -> Simplify cfg' n = Ok m.
Proof. intros (H & _). exact (keeps_Simplify cfg cfg' H n m). Qed.
Theorem C72_diff {K : num_ops} (cfg cfg' : config K) n x i m : more_permissive cfg cfg' ->
  Diff cfg n x i = Ok m -> Diff cfg' n x i = Ok m.
Proof. intros (H & _). exact (keeps_Diff cfg cfg' H n x i m). Qed.
Theorem C72_jacobian {K : num_ops} (cfg cfg' : config K) A vars J : more_permissive cfg cfg' ->
  Jacobian cfg A vars = Ok J -> Jacobian cfg' A vars = Ok J.
Proof. intros (H & _). exact (keeps_Jacobian cfg cfg' H A vars J). Qed.
Theorem C72_linear {K : num_ops} (cfg cfg' : config K) A b x : more_permissive cfg cfg' ->
  SolveLinear cfg A b = Ok x -> SolveLinear cfg' A b = Ok x.
Proof. intros (_ & Ha & He & _). exact (keeps_SolveLinear cfg cfg' He Ha A b x). Qed.

Theorem C72_solve {K : num_ops} (cfg cfg' : config K) fuel afuel eqs t0 t : more_permissive cfg cfg' ->
  Solve cfg fuel afuel eqs t0 = Ok t -> Solve cfg' fuel afuel eqs t0 = Ok t.
Proof.
  intros (Ht & Ha & He & Hm & _ & Hl). revert t. change (keeps (Solve cfg fuel afuel eqs t0) (Solve cfg' fuel afuel eqs t0)).
  unfold Solve. rewrite Hm. destruct (nonlinearMethod cfg).
  - unfold SolveByNewtonRaphson. apply keeps_bind; [same|]. intros q _.
    apply keeps_bind; [now apply keeps_Jacobian|]. intros J _. apply Newton_keeps; auto. unfold newton_fuel. lia.
  - unfold SolveByLM. apply keeps_bind; [now apply keeps_Jacobian|]. intros J _.
    apply LM_loop_keeps; auto. unfold within. lia.
Qed.
Theorem C72_solve1 {K : num_ops} (cfg cfg' : config K) fuel afuel eqs t : more_permissive cfg cfg' ->
  Solve1 cfg fuel afuel eqs = Ok t -> Solve1 cfg' fuel afuel eqs = Ok t.
Proof.
  intros H. pose proof H as (_ & _ & _ & _ & Hi & _). unfold Solve1. rewrite Hi.
  intros E. apply bind_Ok_inv in E as (n & E1 & E). rewrite E1. cbn [bind].
  apply bind_Ok_inv in E as (t0 & E2 & E). rewrite E2. cbn [bind]. exact (C72_solve cfg cfg' fuel afuel eqs t0 t H E).
Qed.

(** ** Concrete cases *)
Definition relax_cfg (m : nonlinear_method) (throw indet : bool) (lim : Z) : config D :=
  {| throwOnInvalidValue := throw; epsilon := n_dec 1 (-9); maxIterations := lim; nonlinearMethod := m;
     initialValue := n_ofZ 1; allowIndeterminateEquation := indet |}.
Definition relax_eqs (es : list (expr D)) : symmat D := MkSym (length es) 1 (map embed es).
(** The text of the outcome: the values, or what went wrong. *)
Definition outcome (r : res (vars_table D)) : string :=
  match r with
  | Ok t => Mat_ToString (vt_values t)
  | Throw (RuntimeError _) => "limit" | Throw (MathError ERROR_INDETERMINATE_EQUATION _) => "indeterminate"
  | Throw _ => "exception" | _ => "other"
  end.
Definition nl : string := String (Ascii.ascii_of_nat 10) "".
(** 2*x-6 *)
Definition eq_a : expr D := EBin BSub (EBin BMul (ENum (b_ofZ 2)) (EVar "x")) (ENum (b_ofZ 6)).
Example C72_ex :
  more_permissive (relax_cfg NEWTON_RAPHSON true false 2) (relax_cfg NEWTON_RAPHSON false true 100) /\
  more_permissive (relax_cfg LM true false 50) (relax_cfg LM false true (-1)) /\
  outcome (Solve1 (relax_cfg NEWTON_RAPHSON true false 2) 0 0 (relax_eqs [eq_a])) = ("[3]" ++ nl)%string /\
  outcome (Solve1 (relax_cfg NEWTON_RAPHSON false true 100) 0 0 (relax_eqs [eq_a])) = ("[3]" ++ nl)%string.
Proof.
  split; [|split; [|split]].
  - split; [discriminate|]. split; [discriminate|]. repeat (split; [reflexivity|]). cbn. lia.
  - split; [discriminate|]. split; [discriminate|]. repeat (split; [reflexivity|]). right. reflexivity.
  - vm_cast_no_check (eq_refl ("[3]" ++ nl)%string).
  - vm_cast_no_check (eq_refl ("[3]" ++ nl)%string).
Qed.
(** A negative limit is no limit for LM, so raising it to 0 loses the result; and a larger
    tolerance changes results. *)
Theorem C72_negative_limit :
  outcome (Solve1 (relax_cfg LM true false (-1)) 50 50 (relax_eqs [eq_a])) = ("[2.9999999999875002]" ++ nl)%string /\
  outcome (Solve1 (relax_cfg LM true false 0) 50 50 (relax_eqs [eq_a])) = "limit".
Proof.
  split; [vm_cast_no_check (eq_refl ("[2.9999999999875002]" ++ nl)%string)|vm_cast_no_check (eq_refl "limit")].
Qed.
Theorem C72_tolerance :
  let cfg : config D := {| throwOnInvalidValue := true; epsilon := n_ofZ 100; maxIterations := 100;
    nonlinearMethod := NEWTON_RAPHSON; initialValue := n_ofZ 1; allowIndeterminateEquation := false |} in
  outcome (Solve1 cfg 0 0 (relax_eqs [eq_a])) = ("[1]" ++ nl)%string.
Proof. vm_cast_no_check (eq_refl ("[1]" ++ nl)%string). Qed.
