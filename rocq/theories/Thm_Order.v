(** C87: the order of the equations does not matter, as long as the pivots are unambiguous. *)
From Coq Require Import Sorting.Sorted String List ZArith Bool Arith Lia Permutation.
From Verif Require Import Base MathOp NodeModel DiffModel MatModel LinearModel VarsTableModel SymMatModel NonlinearModel
  ExprSpec SubsSpec MatSpec VarsSpec SymMatSpec NonlinearSpec NodeProofs MatProofs SymMatProofs Thm_Node Thm_Subs Thm_Vars Thm_SymMat
  NonlinearProofs Thm_Nonlinear AffineSolve LinGen ClearSpec ClearLinear.
Import ListNotations.
Local Open Scope string_scope.
Local Open Scope list_scope.
Local Open Scope nat_scope.

Section Order.
Context {K : num_ops} (cfg : config K).

(** Two tables holding the same variables and values are the same object. *)
Lemma sorted_pairs_unique (l : list (string * K)) : forall l', StronglySorted str_lt (map fst l) -> StronglySorted str_lt (map fst l') ->
  (forall p, In p l <-> In p l') -> l = l'.
Proof using.
  induction l as [|p l IH]; intros [|q l'] H H' E; auto.
  - exfalso. apply (in_nil (a := q)). apply E. now left.
  - exfalso. apply (in_nil (a := p)). apply E. now left.
  - cbn [map] in H, H'. inversion H as [|? ? S1 F1]; subst. inversion H' as [|? ? S2 F2]; subst. rewrite Forall_forall in F1, F2.
    assert (L1 : forall x, In x l -> str_lt (fst p) (fst x)) by (intros x Hx; apply F1; now apply in_map).
    assert (L2 : forall x, In x l' -> str_lt (fst q) (fst x)) by (intros x Hx; apply F2; now apply in_map).
    assert (Epq : p = q).
    { destruct (proj1 (E p) (or_introl eq_refl)) as [|I1]; [auto|]. destruct (proj2 (E q) (or_introl eq_refl)) as [|I2]; [auto|]. exfalso.
      apply L2 in I1. apply L1 in I2. eapply str_lt_irrefl. eapply str_lt_trans; eauto. }
    subst q. f_equal. apply IH; auto. intros x. split; intros Hx.
    + destruct (proj1 (E x) (or_intror Hx)) as [<-|]; [|auto]. exfalso. apply L1 in Hx. eapply str_lt_irrefl; eauto.
    + destruct (proj2 (E x) (or_intror Hx)) as [<-|]; [|auto]. exfalso. apply L2 in Hx. eapply str_lt_irrefl; eauto.
Qed.
Lemma holds_same t t' xs (vs : list K) : VarsSpec.holds t xs vs -> VarsSpec.holds t' xs vs -> t = t'.
Proof using.
  intros H H'. destruct t as [v1 w1 m1], t' as [v2 w2 m2]. f_equal.
  - transitivity xs; [apply H|symmetry; apply H'].
  - destruct (h_values _ _ _ H) as (A1 & A2 & A3), (h_values _ _ _ H') as (B1 & B2 & B3). unfold Values in *. cbn [vt_values] in *.
    destruct w1, w2. cbn in *. congruence.
  - apply sorted_pairs_unique; [apply H|apply H'|]. intros [x v]. rewrite (h_items _ _ _ H x v), (h_items _ _ _ H' x v). reflexivity.
Qed.

Variables (n : nat) (f : nat -> expr K) (pi : nat -> nat) (A B : symmat K) (xs : list string).
Hypotheses (Hn : 0 < n) (En : length xs = n) (Hpi : rearrangement n pi)
  (HA : is_sym n 1 (fun i _ => f i) A) (HB : is_sym n 1 (fun i _ => f (pi i)) B).

Lemma pi_lt i : i < n -> pi i < n.
Proof using Hpi.
  clear Hn En HA HB. intros Hi. assert (I : In (pi i) (map pi (seq 0 n))) by (apply in_map; apply in_seq; lia).
  apply (Permutation_in _ Hpi) in I. apply in_seq in I. lia.
Qed.
Lemma pi_onto i : i < n -> exists k, k < n /\ pi k = i.
Proof using Hpi.
  clear Hn En HA HB. intros Hi. assert (I : In i (seq 0 n)) by (apply in_seq; lia). apply (Permutation_in _ (Permutation_sym Hpi)) in I.
  apply in_map_iff in I. destruct I as (k & E & I). apply in_seq in I. exists k. split; [lia|exact E].
Qed.

Lemma values_pi p phi : values_at cfg xs p n f phi -> values_at cfg xs p n (fun i => f (pi i)) (fun i => phi (pi i)).
Proof using Hpi. intros V i Hi. exact (V (pi i) (pi_lt i Hi)). Qed.
Lemma vanish_pi phi : vanish cfg n (fun i => phi (pi i)) -> vanish cfg n phi.
Proof using Hpi. intros V i Hi. destruct (pi_onto i Hi) as (k & Hk & <-). exact (V k Hk). Qed.
Lemma vanish_pi' phi : vanish cfg n phi -> vanish cfg n (fun i => phi (pi i)).
Proof using Hpi. intros V i Hi. exact (V (pi i) (pi_lt i Hi)). Qed.

(** A solved linear system, its rows rearranged. *)
Lemma linear_pi M b d : linear_solution cfg n (length xs) M b d -> clear_pivots cfg n M b ->
  linear_solution cfg n (length xs) (fun i => M (pi i)) (fun i => b (pi i)) d.
Proof using Hn En Hpi.
  rewrite En. intros (MA & MB & X & HMA & HMB & E & HX) C.
  destruct (is_mat_build n n (fun i => M (pi i))) as [MA' HMA']. destruct (is_mat_build n 1 (fun i _ => b (pi i))) as [MB' HMB'].
  destruct (order_linear cfg n M b pi MA MB MA' MB' Hn Hpi HMA HMB HMA' HMB' C) as (X' & E1 & E2).
  exists MA', MB', X. split; [exact HMA'|]. split; [exact HMB'|]. split; [|exact HX]. congruence.
Qed.

Variable start : nat -> K.
(** The linear system at every point the method reaches has unambiguous pivots. *)
Definition clear_run : Prop := forall jac k ps phi M, jacobian cfg xs n f jac -> newton_points cfg xs n f jac start ps k ->
  values_at cfg xs (ps k) n f phi -> ~ vanish cfg n phi -> (forall i, i < n -> values_at cfg xs (ps k) n (jac i) (M i)) ->
  clear_pivots cfg n M (fun i => n_neg (phi i)).

Lemma step_pi jac k ps q q' : clear_run -> jacobian cfg xs n f jac -> newton_points cfg xs n f jac start ps k -> ~ solved cfg xs n f (ps k) ->
  newton_step cfg xs n f jac (ps k) q q' -> newton_step cfg xs n (fun i => f (pi i)) (fun i => jac (pi i)) (ps k) q q'.
Proof using Hn En Hpi.
  intros C HJ P Ns (phi & M & d & V & VM & Li & Hq). exists (fun i => phi (pi i)), (fun i => M (pi i)), d.
  split; [now apply values_pi|]. split; [intros i Hi; apply VM; now apply pi_lt|]. split; [|exact Hq].
  apply (linear_pi M (fun i => n_neg (phi i))); [exact Li|]. apply (C jac k ps phi M HJ P V).
  - intros Va. apply Ns. exists phi. auto.
  - intros i Hi. rewrite <- En. now apply VM.
Qed.
Lemma points_pi jac k ps : clear_run -> jacobian cfg xs n f jac -> newton_points cfg xs n f jac start ps k -> (forall i, i < k -> ~ solved cfg xs n f (ps i)) ->
  newton_points cfg xs n (fun i => f (pi i)) (fun i => jac (pi i)) start ps k.
Proof using Hn En Hpi.
  intros C HJ [P0 PS] Ns. split; [exact P0|]. intros i Hi. apply (step_pi jac i ps); auto. split; [exact P0|]. intros j Hj. apply PS. lia.
Qed.

Lemma jacobian_matrix (g : nat -> expr K) jac S : xs <> [] -> is_sym n 1 (fun i _ => g i) S -> jacobian cfg xs n g jac ->
  exists J, Jacobian cfg S xs = Ok J /\ is_sym n (length xs) jac J.
Proof using Hn.
  intros Ne HS HJ. destruct (Jacobian_ok cfg n 1 (fun i _ => g i) S xs (fun i j => embed (jac i j)) Hn Nat.lt_0_1 Ne HS) as (J & EJ & J1 & J2 & J3 & J4).
  - intros i j x Hi Hj. rewrite Nat.div_1_r. now apply HJ.
  - exists J. split; [exact EJ|]. repeat split; auto.
Qed.
Lemma jacobian_pi jac : jacobian cfg xs n f jac -> jacobian cfg xs n (fun i => f (pi i)) (fun i => jac (pi i)).
Proof using Hpi. intros H i j x Hi Hj. apply H; [now apply pi_lt|exact Hj]. Qed.
End Order.

Section Results.
Context {K : num_ops} (cfg : config K) (n : nat) (f : nat -> expr K) (pi : nat -> nat) (A B : symmat K) (xs : list string).

Theorem C87_linear (M : nat -> nat -> K) (v : nat -> K) (MA b MA' b' : mat K) : 0 < n -> rearrangement n pi ->
  is_mat n n M MA -> is_vec n v b -> is_mat n n (fun i => M (pi i)) MA' -> is_vec n (fun i => v (pi i)) b' -> clear_pivots cfg n M v ->
  exists X, SolveLinear cfg MA b = Ok X /\ SolveLinear cfg MA' b' = Ok X.
Proof using. intros. eapply order_linear; eauto. Qed.

(** Newton-Raphson: the same table, or the iteration limit in both cases. *)
Theorem C87_newton t vs : 0 < n -> length xs = n -> rearrangement n pi ->
  is_sym n 1 (fun i _ => f i) A -> is_sym n 1 (fun i _ => f (pi i)) B -> VarsSpec.holds t xs vs ->
  clear_run cfg n f xs (fun j => nth j vs (n_ofZ 0)) ->
  (forall t', SolveByNewtonRaphson cfg A t = Ok t' -> SolveByNewtonRaphson cfg B t = Ok t') /\
  (SolveByNewtonRaphson cfg A t = Throw limit_exceeded -> SolveByNewtonRaphson cfg B t = Throw limit_exceeded).
Proof using.
  intros Hn En Hpi HA HB Ht C. destruct (table_at_vars _ _ _ (holds_table_at _ _ _ Ht)) as (_ & _ & Ne & Nd).
  set (start := fun j => nth j vs (n_ofZ 0 : K)) in *.
  split.
  - intros t' E. destruct (newton_all cfg n f A t xs vs Hn HA Ht) as [[E' _]|(jac & HJ & [(k & ps & t2 & P & T & So & Ns & Hk & E2)|[(k & ps & _ & _ & _ & E2)|Fl]])].
    + congruence.
    + rewrite E in E2. injection E2 as <-.
      destruct (jacobian_matrix cfg n xs Hn (fun i => f (pi i)) (fun i => jac (pi i)) B Ne HB (jacobian_pi cfg n f pi xs Hpi jac HJ)) as (J & EJ & SJ).
      pose proof (points_pi cfg n f pi xs Hn En Hpi start jac k ps C HJ P Ns) as P'.
      destruct (proj2 (C39_newton_result cfg n (fun i => f (pi i)) B t xs vs Hn HB Ht J (fun i => jac (pi i)) EJ SJ (ps k))) as (t'' & E'' & T'').
      * exists k, ps. split; [exact P'|]. split; [auto|]. split.
        { destruct So as (phi & V & Va). exists (fun i => phi (pi i)). split; [now apply (values_pi cfg n f pi xs Hpi)|now apply (vanish_pi' cfg n pi Hpi)]. }
        split; [|exact Hk]. intros i Hi (psi & V & Va). apply (Ns i Hi).
        destruct (proj2 P i Hi) as (phi & _ & _ & V0 & _). exists phi. split; [exact V0|]. apply (vanish_pi cfg n pi Hpi).
        eapply vanish_ext; [|exact Va]. intros l Hl.
        destruct (point_exists xs (ps i) Nd) as [env He]. destruct (V l Hl) as [_ Q1]. destruct (V0 (pi l) (pi_lt n pi Hpi l Hl)) as [_ Q2].
        specialize (Q1 env He). specialize (Q2 env He). congruence.
      * rewrite E''. f_equal. eapply holds_same; [exact T''|exact T].
    + congruence.
    + rewrite E in Fl. destruct Fl.
  - intros E.
    assert (HJ : exists J jac, Jacobian cfg A xs = Ok J /\ jacobian cfg xs n f jac /\ is_sym n (length xs) jac J).
    { destruct (Jacobian_cases cfg n f A xs Hn Ne HA) as [H|H]; [exact H|]. exfalso.
      destruct (newton_all cfg n f A t xs vs Hn HA Ht) as [[E' _]|(jac & HJ & _)]; [congruence|].
      destruct (jacobian_matrix cfg n xs Hn f jac A Ne HA HJ) as (J & EJ & _). congruence. }
    destruct HJ as (J & jac & EJ & HJ & SJ).
    destruct (proj1 (C39_newton_limit cfg n f A t xs vs Hn HA Ht J jac EJ SJ) E) as (ps & k & Hk & P & V).
    destruct (jacobian_matrix cfg n xs Hn (fun i => f (pi i)) (fun i => jac (pi i)) B Ne HB (jacobian_pi cfg n f pi xs Hpi jac HJ)) as (J' & EJ' & SJ').
    apply (proj2 (C39_newton_limit cfg n (fun i => f (pi i)) B t xs vs Hn HB Ht J' (fun i => jac (pi i)) EJ' SJ')).
    exists ps, k. split; [exact Hk|]. split.
    + apply (points_pi cfg n f pi xs Hn En Hpi start jac k ps C HJ P). intros i Hi (psi & V' & Va).
      destruct (V i ltac:(lia)) as (phi & V0 & N). apply N. eapply vanish_ext; [|exact Va]. intros l Hl.
      destruct (point_exists xs (ps i) Nd) as [env He]. destruct (V' l Hl) as [_ Q1]. destruct (V0 l Hl) as [_ Q2].
      specialize (Q1 env He). specialize (Q2 env He). congruence.
    + intros i Hi. destruct (V i Hi) as (phi & V0 & N). exists (fun l => phi (pi l)). split; [now apply (values_pi cfg n f pi xs Hpi)|].
      intros Va. apply N. now apply (vanish_pi cfg n pi Hpi).
Qed.

(** Solve without a table: also the table built from the variables is the same. *)
Theorem C87_solve1 fuel afuel t' : 0 < n -> rearrangement n pi -> nonlinearMethod cfg = NEWTON_RAPHSON ->
  is_sym n 1 (fun i _ => f i) A -> is_sym n 1 (fun i _ => f (pi i)) B ->
  StronglySorted (fun x y => String.compare x y = Lt) xs -> length xs = n -> (forall x, In x xs <-> exists i, i < n /\ occurs x (f i)) ->
  clear_run cfg n f xs (fun _ => initialValue cfg) ->
  Solve1 cfg fuel afuel A = Ok t' -> Solve1 cfg fuel afuel B = Ok t'.
Proof using.
  intros Hn Hpi Hm HA HB Ss En Hx C.
  destruct (C34_all_var_names _ _ _ _ HA) as (s & Es & Ss' & Hs). destruct (C34_all_var_names _ _ _ _ HB) as (s2 & Es2 & Ss2 & Hs2).
  assert (E1 : s = xs).
  { apply sorted_unique; auto. intros x. rewrite Hs, Hx. split; [intros (i & j & Hi & _ & O); eauto|intros (i & Hi & O); exists i, 0; auto]. }
  assert (E2 : s2 = xs).
  { apply sorted_unique; auto. intros x. rewrite Hs2, Hx. split.
    - intros (i & j & Hi & _ & O). exists (pi i). split; [now apply (pi_lt n pi Hpi)|exact O].
    - intros (i & Hi & O). destruct (pi_onto n pi Hpi i Hi) as (k & Hk & <-). exists k, 0. auto. }
  subst s s2. unfold Solve1. rewrite Es, Es2. cbn [bind].
  destruct (VarsTable_make xs (initialValue cfg)) as [t| | | | |] eqn:Et; cbn [bind]; try congruence.
  destruct (C36_make K xs (initialValue cfg)) as (t0 & Et0 & H0).
  { intros ->. cbn in En. lia. } { now apply sorted_NoDup. }
  rewrite Et in Et0. injection Et0 as <-. unfold Solve. rewrite Hm.
  apply (C87_newton t _ Hn En Hpi HA HB H0).
  intros jac k ps phi M HJ P. apply (C jac k ps phi M HJ). destruct P as [P0 PS]. split; [|exact PS].
  intros j Hj. rewrite P0 by auto. apply nth_error_nth with (d := n_ofZ 0). now apply nth_error_repeat'.
Qed.
End Results.
