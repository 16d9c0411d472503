(** C38-C42: the solvers for systems of nonlinear equations. *)
From Coq Require Import String List ZArith Bool Arith Lia Sorting.Sorted Reals Lra.
From Verif Require Import Base MathOp NodeModel SubsModel DiffModel MatModel LinearModel VarsTableModel SymMatModel NonlinearModel
  ExprSpec SubsSpec MatSpec VarsSpec SymMatSpec NonlinearSpec NodeProofs MatProofs LinearTotal
  Thm_Node Thm_Subs Thm_Vars SymMatProofs Thm_SymMat DiffProofs Thm_Diff NonlinearProofs RealSpec IEEE.
Import ListNotations.
Local Open Scope string_scope.
Local Open Scope list_scope.
Local Open Scope nat_scope.

Lemma table_at_inj {K : num_ops} xs (t : vars_table K) p q : table_at xs t p -> table_at xs t q -> forall j, j < length xs -> p j = q j.
Proof.
  intros H1 H2 j Hj. exact (is_mat_agree _ _ _ _ _ (table_values _ _ _ H1) (table_values _ _ _ H2) j 0 Hj Nat.lt_0_1).
Qed.

(** ** C46: SolveLinear always ends *)
(** In every arithmetic, for every matrix and right hand side: a vector with one entry per
    column, one of the four documented errors, or a failed assertion. *)
Theorem C46_solve_linear_ends (K : num_ops) (cfg : config K) m n a b (A B : mat K) : 0 < m -> 0 < n -> is_mat m n a A -> is_vec m b B ->
  match SolveLinear cfg A B with
  | Ok X => exists x, is_vec n x X
  | Throw (MathError t _) => t = ERROR_SINGULAR_MATRIX \/ t = ERROR_INFINITY_SOLUTIONS \/ t = ERROR_INDETERMINATE_EQUATION \/ t = ERROR_OVER_DETERMINED_EQUATIONS
  | AssertFail _ => True
  | _ => False
  end.
Proof.
  intros Hm Hn HA HB. pose proof (SolveLinear_ends cfg m n A B Hm Hn (ex_intro (fun f => is_mat m n f A) a HA) (ex_intro (fun f => is_mat m 1 f B) _ HB)) as E.
  destruct (SolveLinear cfg A B) as [X|e| | | |]; simpl in E; auto.
  - destruct E as [x Hx]. exists (fun i => x i 0). eapply is_mat_ext; [|exact Hx]. intros i j _ Hj. cbv beta. now replace j with 0 by lia.
  - destruct E as (t & s & -> & H). exact H.
Qed.

Section A.
Context {K : num_ops} (cfg : config K) (n : nat) (f : nat -> expr K) (A : symmat K) (t : vars_table K) (xs : list string) (vs : list K).
Hypotheses (Hn : 0 < n) (HA : is_sym n 1 (fun i _ => f i) A) (Ht : holds t xs vs).
Notation start := (fun j => nth j vs (n_ofZ 0)).

Lemma start_zero : exists Q, Vec_make (VarNums t) (n_ofZ 0) = Ok Q /\ is_vec (length xs) (fun _ => n_ofZ 0 : K) Q.
Proof.
  destruct (table_at_vars _ _ _ (holds_table_at _ _ _ Ht)) as (_ & -> & Ne & _).
  unfold Vec_make. apply Mat_make_ok; [destruct xs; simpl; [congruence|lia]|lia].
Qed.

(** Everything SolveByNewtonRaphson can do. *)
Lemma newton_all :
  SolveByNewtonRaphson cfg A t = Terminate /\ Jacobian cfg A xs = Terminate \/
  exists jac, jacobian cfg xs n f jac /\
   ((exists k ps t', newton_points cfg xs n f jac start ps k /\ table_at xs t' (ps k) /\ solved cfg xs n f (ps k) /\
      (forall i, i < k -> ~ solved cfg xs n f (ps i)) /\ (k = 0 \/ (Z.of_nat k <= maxIterations cfg + 1)%Z) /\
      SolveByNewtonRaphson cfg A t = Ok t') \/
    (exists k ps, newton_points cfg xs n f jac start ps k /\ (forall i, i <= k -> exists phi, values_at cfg xs (ps i) n f phi /\ ~ vanish cfg n phi) /\
      (Z.of_nat k = Z.max 0 (maxIterations cfg + 1))%Z /\ SolveByNewtonRaphson cfg A t = Throw limit_exceeded) \/
    fails (SolveByNewtonRaphson cfg A t)).
Proof.
  pose proof (holds_table_at _ _ _ Ht) as Ht'. destruct (table_at_vars _ _ _ Ht') as (Ev & _ & Ne & _).
  unfold SolveByNewtonRaphson. destruct start_zero as (Q & -> & HQ). cbn [bind]. rewrite Ev.
  destruct (Jacobian_cases cfg n f A xs Hn Ne HA) as [(J & jac & -> & HJ & SJ)|E]; [|left; rewrite E; split; reflexivity].
  right. exists jac. split; [exact HJ|]. cbn [bind].
  destruct (newton_run cfg xs n f jac A J Hn HA SJ (newton_fuel cfg) 0 Q (fun _ => n_ofZ 0) t start Ht' HQ) as
    [(k & ps & t' & P & T & So & Ns & Hk & E)|[(k & ps & P & V & Hk & E)|Fl]].
  - unfold newton_fuel. lia.
  - unfold newton_fuel. lia.
  - left. exists k, ps, t'. split; [exact P|]. split; [exact T|]. split; [exact So|]. split; [exact Ns|]. split; [lia|exact E].
  - right. left. exists k, ps. split; [exact P|]. split; [exact V|]. split; [lia|exact E].
  - right. right. exact Fl.
Qed.

(** ** C38: a table that is returned solves the equations up to epsilon *)
Theorem C38_newton_root t' : SolveByNewtonRaphson cfg A t = Ok t' -> exists p, table_at xs t' p /\ solved cfg xs n f p.
Proof.
  intros E. destruct newton_all as [[E' _]|(jac & _ & [(k & ps & t2 & _ & T & So & _ & _ & E2)|[(k & ps & _ & _ & _ & E2)|Fl]])].
  - congruence.
  - exists (ps k). rewrite E in E2. injection E2 as <-. auto.
  - congruence.
  - rewrite E in Fl. destruct Fl.
Qed.

Lemma lm_all fuel afuel :
  SolveByLM cfg fuel afuel A t = Terminate /\ Jacobian cfg A xs = Terminate \/
  exists jac, jacobian cfg xs n f jac /\
   ((exists k ps rej t', lm_points cfg xs n f jac start ps rej k /\ table_at xs t' (ps k) /\ solved cfg xs n f (ps k) /\
      ((0 <= maxIterations cfg)%Z -> (Z.of_nat (lm_count rej k) <= maxIterations cfg)%Z) /\
      SolveByLM cfg fuel afuel A t = Ok t') \/
    (SolveByLM cfg fuel afuel A t = Throw limit_exceeded /\ (0 <= maxIterations cfg)%Z /\
      exists k ps rej r, lm_points cfg xs n f jac start ps rej k /\ lm_rejected cfg xs n f jac (ps k) r /\
        (Z.of_nat (lm_count rej k + r) = maxIterations cfg + 1)%Z) \/
    fails (SolveByLM cfg fuel afuel A t) \/
    (SolveByLM cfg fuel afuel A t = OutOfFuel /\
      ((exists k ps rej r, lm_points cfg xs n f jac start ps rej k /\ lm_open cfg xs n f jac afuel (ps k) r) \/
       (0 <= maxIterations cfg -> Z.of_nat fuel <= maxIterations cfg)%Z))).
Proof.
  pose proof (holds_table_at _ _ _ Ht) as Ht'. destruct (table_at_vars _ _ _ Ht') as (Ev & _ & Ne & _).
  unfold SolveByLM. rewrite Ev.
  destruct (Jacobian_cases cfg n f A xs Hn Ne HA) as [(J & jac & -> & HJ & SJ)|E]; [|left; rewrite E; split; reflexivity].
  right. exists jac. split; [exact HJ|]. cbn [bind].
  destruct (LM_loop_cases cfg xs n f jac A J Hn HA SJ afuel fuel 0 (Values t) t start Ht' (table_values _ _ _ Ht')) as
    [(k & ps & rej & t' & P & T & So & Hk & E)|[H|[Fl|[E H]]]].
  - left. exists k, ps, rej, t'. auto 10.
  - right. left. exact H.
  - right. right. left. exact Fl.
  - right. right. right. split; [exact E|]. destruct H as [H|H]; [left; exact H|right; lia].
Qed.

Theorem C41_lm_root fuel afuel t' : SolveByLM cfg fuel afuel A t = Ok t' -> exists p, table_at xs t' p /\ solved cfg xs n f p.
Proof.
  intros E. destruct (lm_all fuel afuel) as [[E' _]|(jac & _ & [(k & ps & rej & t2 & _ & T & So & _ & E2)|[(E2 & _)|[Fl|[E2 _]]]])]; try congruence.
  - exists (ps k). rewrite E in E2. injection E2 as <-. auto.
  - rewrite E in Fl. destruct Fl.
Qed.

Theorem C38_solve_root fuel afuel t' : Solve cfg fuel afuel A t = Ok t' -> exists p, table_at xs t' p /\ solved cfg xs n f p.
Proof. unfold Solve. destruct (nonlinearMethod cfg); [apply C38_newton_root|apply C41_lm_root]. Qed.

(** ** C39: termination of Newton-Raphson *)
(** It always ends: a result, an exception, an assertion or undefined behaviour (only from
    evaluating the equations), or std::terminate (only from computing the Jacobian). *)
Theorem C39_newton_ends :
  match SolveByNewtonRaphson cfg A t with
  | Ok t' => exists p, table_at xs t' p
  | Throw e => e = limit_exceeded \/ solver_error e
  | Terminate => Jacobian cfg A xs = Terminate
  | Undef _ | AssertFail _ => True
  | OutOfFuel => False
  end.
Proof.
  destruct newton_all as [[-> E]|(jac & _ & [(k & ps & t2 & _ & T & So & _ & _ & ->)|[(k & ps & _ & _ & _ & ->)|Fl]])]; auto.
  - exists (ps k). exact T.
  - destruct (SolveByNewtonRaphson cfg A t); simpl in Fl; auto; tauto.
Qed.

Section WithJ.
Variables (J : symmat K) (jac : nat -> nat -> expr K).
Hypotheses (EJ : Jacobian cfg A xs = Ok J) (SJ : is_sym n (length xs) jac J).

Lemma newton_unfold : exists Q, is_vec (length xs) (fun _ => n_ofZ 0 : K) Q /\
  SolveByNewtonRaphson cfg A t = Newton_loop cfg (newton_fuel cfg) A J 0 Q t.
Proof.
  pose proof (holds_table_at _ _ _ Ht) as Ht'. destruct (table_at_vars _ _ _ Ht') as (Ev & _ & Ne & _).
  unfold SolveByNewtonRaphson. destruct start_zero as (Q & -> & HQ). cbn [bind]. rewrite Ev, EJ. eauto.
Qed.
Lemma step_values p q q' : newton_step cfg xs n f jac p q q' -> exists phi, values_at cfg xs p n f phi.
Proof. intros (phi & _ & _ & V & _). eauto. Qed.

(** The result is the first iterate that solves the equations, provided it is reached with at
    most maxIterations + 1 steps (a starting point that is a solution is always returned). *)
Theorem C39_newton_result p :
  (exists t', SolveByNewtonRaphson cfg A t = Ok t' /\ table_at xs t' p) <->
  (exists k ps, newton_points cfg xs n f jac start ps k /\ (forall j, j < length xs -> ps k j = p j) /\ solved cfg xs n f (ps k) /\
     (forall i, i < k -> ~ solved cfg xs n f (ps i)) /\ (k = 0 \/ (Z.of_nat k <= maxIterations cfg + 1)%Z)).
Proof.
  pose proof (holds_table_at _ _ _ Ht) as Ht'. destruct newton_unfold as (Q & HQ & EN). rewrite EN. split.
  - intros (t' & E & T).
    destruct (newton_run cfg xs n f jac A J Hn HA SJ (newton_fuel cfg) 0 Q (fun _ => n_ofZ 0) t start Ht' HQ) as
      [(k & ps & t2 & P & T2 & So & Ns & Hk & E2)|[(k & ps & P & V & Hk & E2)|Fl]]; try (unfold newton_fuel; lia).
    + exists k, ps. split; [exact P|]. split; [|split; [exact So|split; [exact Ns|lia]]].
      rewrite E in E2. injection E2 as <-. intros j Hj. exact (table_at_inj _ _ _ _ T2 T j Hj).
    + congruence.
    + rewrite E in Fl. destruct Fl.
  - intros (k & ps & P & Ep & So & Ns & Hk).
    destruct (newton_follow cfg xs n f jac A J Hn HA SJ k (newton_fuel cfg) 0 Q (fun _ => n_ofZ 0) t start ps) as (Q' & t' & E & T); auto.
    + unfold newton_fuel. lia.
    + intros i Hi. destruct (step_values _ _ _ (proj2 P i Hi)) as [phi V]. exists phi. split; [exact V|]. intros Va. apply (Ns i Hi). exists phi. auto.
    + lia.
    + rewrite E. exists t'. split; [|eapply table_at_ext; [exact Ep|exact T]].
      replace (newton_fuel cfg - k) with (S (newton_fuel cfg - k - 1)) by (unfold newton_fuel; lia).
      eapply newton_done; eauto.
Qed.

(** The limit is reported exactly when the iterates 0, ..., maxIterations + 1 exist and none is a solution. *)
Lemma newton_limit_if ps k : (Z.of_nat k = Z.max 0 (maxIterations cfg + 1))%Z -> newton_points cfg xs n f jac start ps k ->
  (exists phi, values_at cfg xs (ps k) n f phi) -> (forall i, i <= k -> ~ solved cfg xs n f (ps i)) ->
  SolveByNewtonRaphson cfg A t = Throw limit_exceeded.
Proof.
  pose proof (holds_table_at _ _ _ Ht) as Ht'. intros Hk P [phi V] Ns. destruct newton_unfold as (Q & HQ & ->).
  destruct (newton_follow cfg xs n f jac A J Hn HA SJ k (newton_fuel cfg) 0 Q (fun _ => n_ofZ 0) t start ps) as (Q' & t' & E & T); auto.
  - unfold newton_fuel. lia.
  - intros i Hi. destruct (step_values _ _ _ (proj2 P i Hi)) as [psi W]. exists psi. split; [exact W|]. intros Va. apply (Ns i); [lia|]. exists psi. auto.
  - lia.
  - rewrite E. replace (newton_fuel cfg - k) with (S (newton_fuel cfg - k - 1)) by (unfold newton_fuel; lia).
    eapply newton_limit; eauto; [|lia]. intros Va. apply (Ns k); auto. exists phi. auto.
Qed.
Lemma fails_not_limit {T} (r : res T) : fails r -> r <> Throw limit_exceeded.
Proof.
  intros H E. subst r. destruct H as [[H|[m H]]|H]; [discriminate|discriminate|]. destruct H as (ty & w & H & _). discriminate.
Qed.
Theorem C39_newton_limit :
  SolveByNewtonRaphson cfg A t = Throw limit_exceeded <->
  exists ps k, (Z.of_nat k = Z.max 0 (maxIterations cfg + 1))%Z /\ newton_points cfg xs n f jac start ps k /\
    forall i, i <= k -> exists phi, values_at cfg xs (ps i) n f phi /\ ~ vanish cfg n phi.
Proof.
  pose proof (holds_table_at _ _ _ Ht) as Ht'. split.
  - intros E. destruct newton_unfold as (Q & HQ & EN). rewrite EN in E.
    destruct (newton_run cfg xs n f jac A J Hn HA SJ (newton_fuel cfg) 0 Q (fun _ => n_ofZ 0) t start Ht' HQ) as
      [(k & ps & t2 & P & T2 & So & Ns & Hk & E2)|[(k & ps & P & V & Hk & E2)|Fl]]; try (unfold newton_fuel; lia).
    + congruence.
    + exists ps, k. split; [lia|]. split; [exact P|exact V].
    + exfalso. exact (fails_not_limit _ Fl E).
  - intros (ps & k & Hk & P & V).
    assert (U : forall i, i <= k -> ~ solved cfg xs n f (ps i)).
    { intros i Hi (psi & W & Q). destruct (V i Hi) as (phi & V' & N). apply N. destruct (point_exists xs (ps i) (proj2 (proj2 (proj2 (table_at_vars _ _ _ Ht'))))) as [env He].
      eapply vanish_ext; [|exact Q]. intros l Hl. destruct (W l Hl) as [_ Q1]. destruct (V' l Hl) as [_ Q2]. specialize (Q1 env He). specialize (Q2 env He). congruence. }
    apply (newton_limit_if ps k Hk P); [|exact U]. destruct (V k (le_n k)) as (phi & V' & _). eauto.
Qed.

(** ** C49: the outcome of LM, exactly *)
Lemma lm_unfold fuel afuel : SolveByLM cfg fuel afuel A t = LM_loop cfg fuel afuel A J 0 (Values t) t.
Proof.
  pose proof (holds_table_at _ _ _ Ht) as Ht'. destruct (table_at_vars _ _ _ Ht') as (Ev & _ & Ne & _).
  unfold SolveByLM. rewrite Ev, EJ. reflexivity.
Qed.

(** For as many equations as unknowns: the result is the point reached by accepted steps, when it solves
    the equations and no more than maxIterations trials were made (a negative limit is never reached). *)
Theorem C49_lm_result p : n = length xs ->
  (exists fuel afuel t', SolveByLM cfg fuel afuel A t = Ok t' /\ table_at xs t' p) <->
  (exists k ps rej, lm_points cfg xs n f jac start ps rej k /\ (forall j, j < length xs -> ps k j = p j) /\ solved cfg xs n f (ps k) /\
     ((0 <= maxIterations cfg)%Z -> (Z.of_nat (lm_count rej k) <= maxIterations cfg)%Z)).
Proof.
  intros En. pose proof (holds_table_at _ _ _ Ht) as Ht'. split.
  - intros (fuel & afuel & t' & E & T). rewrite lm_unfold in E.
    destruct (LM_loop_cases cfg xs n f jac A J Hn HA SJ afuel fuel 0 (Values t) t start Ht' (table_values _ _ _ Ht')) as
      [(k & ps & rej & t2 & P & T2 & So & Hk & E2)|[[E2 _]|[Fl|[E2 _]]]].
    + exists k, ps, rej. split; [exact P|]. split; [|split; [exact So|intros H; specialize (Hk H); lia]].
      rewrite E in E2. injection E2 as <-. intros j Hj. exact (table_at_inj _ _ _ _ T2 T j Hj).
    + congruence.
    + rewrite E in Fl. destruct Fl.
    + congruence.
  - intros (k & ps & rej & P & Ep & So & Hc).
    destruct (lm_follow cfg xs n f jac A J Hn HA SJ En k ps rej start P) as [a0 G].
    destruct (G a0 (le_n _) (Values t) t Ht' (table_values _ _ _ Ht')) as (Q' & t' & T & _ & E).
    exists (k + S (lm_count rej k)), a0, t'. rewrite lm_unfold, E; [|lia|intros i Hi; lia].
    split; [|eapply table_at_ext; [exact Ep|exact T]]. eapply lm_done; eauto.
Qed.

(** The limit is reported exactly when maxIterations + 1 trials were made, whether the last one was
    rejected or accepted (r = 0: then even if it solves the equations). *)
Theorem C49_lm_limit : n = length xs ->
  (exists fuel afuel, SolveByLM cfg fuel afuel A t = Throw limit_exceeded) <->
  (0 <= maxIterations cfg)%Z /\ (exists k ps rej r, lm_points cfg xs n f jac start ps rej k /\ lm_rejected cfg xs n f jac (ps k) r /\
     (Z.of_nat (lm_count rej k + r) = maxIterations cfg + 1)%Z).
Proof.
  intros En. pose proof (holds_table_at _ _ _ Ht) as Ht'. split.
  - intros (fuel & afuel & E). rewrite lm_unfold in E.
    destruct (LM_loop_cases cfg xs n f jac A J Hn HA SJ afuel fuel 0 (Values t) t start Ht' (table_values _ _ _ Ht')) as
      [(k & ps & rej & t2 & P & T2 & So & Hk & E2)|[(E2 & H0 & H)|[Fl|[E2 _]]]].
    + congruence.
    + split; [exact H0|exact H].
    + exfalso. exact (fails_not_limit _ Fl E).
    + congruence.
  - intros (H0 & k & ps & rej & [|r] & P & Rj & Hc).
    + destruct k as [|k]; [cbn [lm_count] in Hc; lia|]. cbn [lm_count] in Hc.
      assert (Pk : lm_points cfg xs n f jac start ps rej k) by (split; [apply P|intros i Hi; apply P; lia]).
      destruct (lm_follow cfg xs n f jac A J Hn HA SJ En k ps rej start Pk) as [a0 G].
      destruct (lm_step_follow cfg xs n f jac A J Hn HA SJ (rej k) (ps k) (ps (S k)) En (proj2 P k ltac:(lia))) as [a1 G1].
      destruct (G (max a0 a1) ltac:(lia) (Values t) t Ht' (table_values _ _ _ Ht')) as (Q' & t' & T & HQ & E).
      destruct (G1 (max a0 a1) ltac:(lia) Q' t' T HQ) as (Q2 & t2 & T2 & _ & E2).
      exists (k + S (lm_count rej k + rej k)), (max a0 a1). rewrite lm_unfold, E; [|lia|intros i Hi; lia].
      rewrite E2; [|lia|intros i Hi; lia].
      destruct (Z.eqb_spec (0 + Z.of_nat (lm_count rej k) + Z.of_nat (rej k)) (maxIterations cfg)); [reflexivity|lia].
    + destruct Rj as [D|(phi & mu & z & V & Nv & Tr)]; [discriminate|].
      destruct (lm_follow cfg xs n f jac A J Hn HA SJ En k ps rej start P) as [a0 G].
      destruct (lm_limit_rejected cfg xs n f jac A J Hn HA SJ r (ps k) phi mu z En V Nv Tr) as [a1 G1].
      destruct (G (max a0 a1) ltac:(lia) (Values t) t Ht' (table_values _ _ _ Ht')) as (Q' & t' & T & HQ & E).
      exists (k + S (lm_count rej k + r)), (max a0 a1). rewrite lm_unfold, E; [|lia|intros i Hi; lia].
      apply (G1 (max a0 a1) ltac:(lia)); [exact T|exact HQ|lia|intros i Hi; lia|lia].
Qed.

(** When the numbers of equations and unknowns differ, LM makes no step: the starting point is
    returned if it is a solution; otherwise an assertion fails once the derivatives there are computed. *)
Theorem C49_lm_not_square fuel afuel t' : n <> length xs -> SolveByLM cfg fuel afuel A t = Ok t' -> t' = t /\ solved cfg xs n f start.
Proof.
  intros En. pose proof (holds_table_at _ _ _ Ht) as Ht'. rewrite lm_unfold. destruct fuel as [|fuel]; [discriminate|]. cbn [LM_loop].
  destruct (eval_vec_values cfg xs t start n f A Hn HA Ht') as [(phi & F & -> & HF & V)|[Fl _]].
  2:{ intros E. destruct (eval_vec cfg A t); cbn [bind] in E; try discriminate. destruct Fl. }
  cbn [bind]. destruct (Mat_eq_num cfg F (n_ofZ 0)) eqn:Eq.
  { intros E. injection E as <-. split; [reflexivity|]. exists phi. split; [exact V|]. now apply (Mat_eq_num_vanish cfg n phi F HF). }
  cbn [LM_inner]. pose proof (length_pos _ _ _ Ht') as Hm.
  destruct (eval_mat_values cfg xs t start n (length xs) jac J Hn Hm SJ Ht') as [(M & B & -> & HB & VM)|[Fl _]].
  2:{ intros E. destruct (eval_mat cfg J t); cbn [bind] in E; try discriminate. destruct Fl. }
  cbn [bind]. destruct (Transpose_ok _ _ _ _ Hn Hm HB) as (Bt & -> & HBt). cbn [bind].
  destruct (Mat_mul_ok _ _ _ _ _ _ _ Hm Hm HBt HB) as (BtB & -> & HBtB). cbn [bind].
  pose proof HB as (R1 & R2 & _). rewrite R1, R2.
  destruct (Mat_make_ok n (length xs) (n_ofZ 0 : K) Hn Hm) as (I0 & -> & HI0). cbn [bind].
  unfold Ones. destruct HI0 as (-> & -> & _). apply Nat.eqb_neq in En. rewrite En. discriminate.
Qed.
End WithJ.

(** ** C40 *)
Theorem C40_variables_kept fuel afuel t' : Solve cfg fuel afuel A t = Ok t' -> Vars t' = Vars t /\ VarNums t' = VarNums t.
Proof.
  intros E. destruct (C38_solve_root fuel afuel t' E) as (p & T & _).
  destruct (table_at_vars _ _ _ T) as (-> & -> & _). destruct (table_at_vars _ _ _ (holds_table_at _ _ _ Ht)) as (-> & -> & _). auto.
Qed.

(** ** C41: every accepted step decreases the sum of squares *)
Theorem C41_lm_descends fuel afuel t' : SolveByLM cfg fuel afuel A t = Ok t' ->
  exists jac k ps rej, jacobian cfg xs n f jac /\ lm_points cfg xs n f jac start ps rej k /\ table_at xs t' (ps k) /\ solved cfg xs n f (ps k) /\
   (forall i, i < k -> exists phi phi', values_at cfg xs (ps i) n f phi /\ values_at cfg xs (ps (S i)) n f phi' /\
      ~ vanish cfg n phi /\ n_ltb (sumsq n phi') (sumsq n phi) = true) /\
   ((0 <= maxIterations cfg)%Z -> (Z.of_nat (lm_count rej k) <= maxIterations cfg)%Z).
Proof.
  intros E. destruct (lm_all fuel afuel) as [[E' _]|(jac & HJ & [(k & ps & rej & t2 & P & T & So & Hc & E2)|[(E2 & _)|[Fl|[E2 _]]]])]; try congruence.
  - exists jac, k, ps, rej. rewrite E in E2. injection E2 as <-. split; [exact HJ|]. split; [exact P|]. split; [exact T|]. split; [exact So|]. split; [|exact Hc].
    intros i Hi. destruct (proj2 P i Hi) as (phi & phi' & mu & z & V & Va & _ & _ & V' & L). exists phi, phi'. auto.
  - rewrite E in Fl. destruct Fl.
Qed.

(** ** C42: with a nonnegative limit, the only thing that can go on forever is a line search *)
Theorem C42_lm_ends fuel afuel : (0 <= maxIterations cfg)%Z -> (maxIterations cfg < Z.of_nat fuel)%Z ->
  match SolveByLM cfg fuel afuel A t with
  | Ok t' => exists p, table_at xs t' p
  | Throw e => e = limit_exceeded \/ solver_error e
  | Terminate => Jacobian cfg A xs = Terminate
  | Undef _ | AssertFail _ => True
  | OutOfFuel => exists jac k ps rej r, jacobian cfg xs n f jac /\ lm_points cfg xs n f jac start ps rej k /\ lm_open cfg xs n f jac afuel (ps k) r
  end.
Proof.
  intros H0 Hf. destruct (lm_all fuel afuel) as [[-> E]|(jac & HJ & [(k & ps & rej & t2 & P & T & So & Hc & ->)|[(-> & _)|[Fl|[-> H]]]])]; auto.
  - exists (ps k). exact T.
  - destruct (SolveByLM cfg fuel afuel A t); simpl in Fl; auto; tauto.
  - destruct H as [(k & ps & rej & r & P & O)|H]; [exists jac, k, ps, rej, r; auto|lia].
Qed.
End A.

(** Without a table. *)
Section B.
Context {K : num_ops} (cfg : config K) (n : nat) (f : nat -> expr K) (A : symmat K).
Hypotheses (Hn : 0 < n) (HA : is_sym n 1 (fun i _ => f i) A).

(** The unknowns are the variables of the equations in increasing order, all starting at
    initialValue; without any variable an assert fails. *)
Theorem C40_solve_all_variables fuel afuel :
  exists xs, StronglySorted (fun x y => String.compare x y = Lt) xs /\ (forall x, In x xs <-> exists i, i < n /\ occurs x (f i)) /\
   ((exists why, xs = [] /\ Solve1 cfg fuel afuel A = AssertFail why) \/
    (exists t, holds t xs (repeat (initialValue cfg) (length xs)) /\ Solve1 cfg fuel afuel A = Solve cfg fuel afuel A t)).
Proof.
  destruct (C34_all_var_names _ _ _ _ HA) as (xs & E & So & Hx). exists xs. split; [exact So|]. split.
  - intros x. rewrite Hx. split; [intros (i & j & Hi & _ & O); eauto|intros (i & Hi & O); exists i, 0; auto].
  - unfold Solve1. rewrite E. cbn [bind]. destruct xs as [|x xs].
    + left. destruct (C36_make_bad K [] (initialValue cfg)) as [why ->]; [auto|]. exists why. auto.
    + right. destruct (C36_make K (x :: xs) (initialValue cfg)) as (t & -> & H); [discriminate| |exists t; auto].
      now apply sorted_NoDup.
Qed.
Theorem C38_solve1_root fuel afuel t' : Solve1 cfg fuel afuel A = Ok t' ->
  exists xs p, (forall x, In x xs <-> exists i, i < n /\ occurs x (f i)) /\ table_at xs t' p /\ solved cfg xs n f p.
Proof.
  destruct (C40_solve_all_variables fuel afuel) as (xs & _ & Hx & [(why & _ & ->)|(t & H & ->)]); [discriminate|].
  intros E. destruct (C38_solve_root cfg n f A t xs _ Hn HA H fuel afuel t' E) as (p & T & S0). exists xs, p. auto.
Qed.
End B.

(** ** C38 over the reals *)
Section R.
Local Open Scope R_scope.
Definition reals_of (env : string -> option R) (x : string) : R := match env x with Some r => r | None => 0 end.
Lemma eval_in_rval st (env : string -> option R) (e : expr Rops) : forall r, eval_in (K:=Rops) st env e = Value (Some r) ->
  rval (reals_of env) e = Some r /\ forall x, occurs x e -> env x = Some (reals_of env x).
Proof.
  unfold reals_of. induction e as [v|x|u a IH|b a IHa c IHc]; intros r E; cbn [eval_in] in E.
  - injection E as ->. split; [reflexivity|]. intros x O. inversion O.
  - injection E as E. split; [simpl; now rewrite E|]. intros y O. inversion O. subst. now rewrite E.
  - destruct (eval_in st env a) as [v| | |]; try discriminate. unfold finish in E.
    destruct (st && invalidb (un_sem u v))%bool; [discriminate|]. injection E as E.
    destruct v as [v|]; [|destruct u; discriminate]. destruct (IH v eq_refl) as [E1 E2]. split.
    + cbn [rval]. rewrite E1. rewrite un_sem_R in E. exact E.
    + intros x O. inversion O; subst. auto.
  - destruct (eval_in st env a) as [v| | |]; try discriminate. destruct (eval_in st env c) as [w| | |]; try discriminate.
    unfold finish in E. destruct (bin_sem b v w) as [y|] eqn:Eb; [|discriminate].
    destruct (st && invalidb y)%bool; [discriminate|]. injection E as ->.
    destruct v as [v|]; [|destruct b; discriminate]. destruct w as [w|]; [|destruct b; try discriminate; simpl in Eb; destruct (Rtoint v); discriminate].
    destruct (IHa v eq_refl) as [E1 E2]. destruct (IHc w eq_refl) as [E3 E4]. split.
    + cbn [rval]. rewrite E1, E3. destruct b; cbn in Eb |- *; try congruence.
      * destruct (Rtoint v), (Rtoint w); congruence.
      * destruct (Rtoint v), (Rtoint w); congruence.
      * destruct (Rtoint v), (Rtoint w); try discriminate. destruct (_ || _)%bool; congruence.
    + intros x O. inversion O; subst; auto.
Qed.

(** In exact arithmetic: the variables of the equations have real values in the returned
    table, and there every equation has a value smaller than epsilon. *)
Theorem C38_real_root (cfg : config Rops) n (f : nat -> expr Rops) A t xs vs fuel afuel t' eps : (0 < n)%nat -> epsilon cfg = Some eps ->
  is_sym n 1 (fun i _ => f i) A -> holds t xs vs -> Solve cfg fuel afuel A t = Ok t' ->
  exists env, (forall i x, (i < n)%nat -> occurs x (f i) -> VarsTable_get t' x = Ok (Some (env x) : Rops)) /\
    forall i, (i < n)%nat -> exists r, rval env (f i) = Some r /\ Rabs r < eps.
Proof.
  intros Hn He HA Ht E. destruct (C38_solve_root cfg n f A t xs vs Hn HA Ht fuel afuel t' E) as (p & T & phi & V & Va).
  destruct (at_point_exists _ _ _ T) as [env He']. exists (reals_of env).
  assert (G : forall i, (i < n)%nat -> exists r, eval_in (K:=Rops) (throwOnInvalidValue cfg) env (f i) = Value (Some r) /\ Rabs r < eps).
  { intros i Hi. destruct (V i Hi) as [_ Q]. specialize (Q env He'). specialize (Va i Hi). rewrite He in Va.
    destruct (phi i) as [r|]; [|discriminate]. exists r. split; [exact Q|]. simpl in Va. unfold Rltb in Va.
    rewrite Rminus_0_r in Va. destruct (Rlt_dec (Rabs r) eps); [assumption|discriminate]. }
  split.
  - intros i x Hi O. destruct (G i Hi) as (r & E1 & _). destruct (eval_in_rval _ _ _ _ E1) as [_ E2]. rewrite <- (E2 x O).
    destruct (V i Hi) as [W _]. specialize (W x O). apply In_nth_error in W as [j Hj]. rewrite (He' j x Hj).
    apply (h_get _ _ _ T). exists j. split; [exact Hj|]. apply nth_error_map_seq. apply nth_error_Some. congruence.
  - intros i Hi. destruct (G i Hi) as (r & E1 & L). destruct (eval_in_rval _ _ _ _ E1) as [E2 _]. exists r. auto.
Qed.
End R.
