(** Proofs about the nonlinear solvers, for every arithmetic. *)
From Coq Require Import String List ZArith Bool Arith Lia.
From Verif Require Import Base MathOp NodeModel SubsModel DiffModel MatModel LinearModel VarsTableModel SymMatModel NonlinearModel
  ExprSpec SubsSpec MatSpec VarsSpec SymMatSpec NonlinearSpec NodeProofs MatProofs PivotProofs LinearTotal
  Thm_Node Thm_Subs Thm_Vars SymMatProofs DiffProofs Thm_Diff.
Import ListNotations.
Local Open Scope string_scope.
Local Open Scope list_scope.
Local Open Scope nat_scope.

Section P.
Context {K : num_ops} (cfg : config K).

(** Vectors. *)
Lemma nth_error_map_seq {T} (p : nat -> T) m j : j < m -> nth_error (map p (seq 0 m)) j = Some (p j).
Proof.
  intros H. erewrite map_nth_error with (d := j); [reflexivity|].
  rewrite nth_error_nth' with (d := 0) by (now rewrite seq_length). now rewrite seq_nth.
Qed.
Lemma vec_is_mat m (p : nat -> K) w : is_vec m p w <-> vec_is w (map p (seq 0 m)).
Proof.
  split.
  - intros H. pose proof (is_mat_nth _ _ _ _ H) as N. destruct H as (E1 & E2 & L & _).
    split; [now rewrite map_length, seq_length|]. split; auto. apply nth_error_ext. intros k.
    destruct (Nat.lt_ge_cases k m) as [Hk|Hk].
    + rewrite nth_error_map_seq by auto. specialize (N k 0 Hk Nat.lt_0_1). now rewrite Nat.mul_1_r, Nat.add_0_r in N.
    + rewrite !(proj2 (nth_error_None _ _)); auto; rewrite ?map_length, ?seq_length; lia.
  - intros (E1 & E2 & D). rewrite map_length, seq_length in E1. destruct w as [r c d]. simpl in *. subst.
    apply is_mat_intro; [rewrite map_length, seq_length; lia|]. intros i j Hi Hj. replace j with 0 by lia.
    rewrite Nat.mul_1_r, Nat.add_0_r. now apply nth_error_map_seq.
Qed.

Lemma Vec_of_ok m (p : nat -> K) : 0 < m -> exists w, Vec_of (map p (seq 0 m)) = Ok w /\ is_vec m p w.
Proof.
  intros Hm. unfold Vec_of, Vec_make. rewrite map_length, seq_length.
  destruct (Mat_make_ok m 1 (n_ofZ 0 : K)) as (Z & -> & (Z1 & Z2 & _)); [auto|lia|]. cbn [bind]. eexists. split; [reflexivity|].
  apply vec_is_mat. split; [cbn; now rewrite map_length, seq_length|]. split; [exact Z2|reflexivity].
Qed.
Lemma is_vec_data m (p : nat -> K) w : is_vec m p w -> m_data w = map p (seq 0 m).
Proof. intros H. apply vec_is_mat in H. apply H. Qed.
Lemma Vec_map_ok m (p : nat -> K) w (h : K -> K) : 0 < m -> is_vec m p w ->
  exists w', Vec_of (map h (m_data w)) = Ok w' /\ is_vec m (fun i => h (p i)) w'.
Proof. intros Hm H. rewrite (is_vec_data _ _ _ H), map_map. now apply Vec_of_ok. Qed.
Lemma Vec_add_ok m (p q : nat -> K) v w : 0 < m -> is_vec m p v -> is_vec m q w ->
  exists u, Vec_add v w = Ok u /\ is_vec m (fun i => n_add (p i) (q i)) u.
Proof.
  intros Hm Hv Hw. unfold Vec_add, Vec_map2. pose proof (is_vec_data _ _ _ Hv) as D1. pose proof (is_vec_data _ _ _ Hw) as D2.
  destruct Hv as (E1 & E2 & _), Hw as (E3 & E4 & _). rewrite E1, E2, E3, E4, Nat.eqb_refl. cbn [Nat.eqb andb].
  rewrite D1, D2, va_map2_map. cbn [bind]. now apply Vec_of_ok.
Qed.

(** Points and tables. *)
Lemma binds_point xs (env : string -> K) p : at_point xs env p <-> binds env xs (map p (seq 0 (length xs))).
Proof.
  split.
  - intros H x v (i & E1 & E2). assert (i < length xs) by (apply nth_error_Some; congruence).
    rewrite nth_error_map_seq in E2 by auto. injection E2 as <-. auto.
  - intros H j x E. apply H. exists j. split; auto. apply nth_error_map_seq. apply nth_error_Some. congruence.
Qed.
Lemma at_point_exists xs t (p : nat -> K) : table_at xs t p -> exists env, at_point xs env p.
Proof. intros H. destruct (binds_exists _ _ _ H) as [env E]. exists env. now apply binds_point. Qed.
Lemma point_exists xs (p : nat -> K) : NoDup xs -> exists env, at_point xs env p.
Proof.
  intros Nd. exists (fun x => p (match find (fun j => String.eqb (nth j xs "") x) (seq 0 (length xs)) with Some j => j | None => 0 end)).
  intros j x E. assert (Hj : j < length xs) by (apply nth_error_Some; congruence).
  destruct (find _ _) as [k|] eqn:F.
  - apply find_some in F as [Hk Q]. apply in_seq in Hk. apply String.eqb_eq in Q. f_equal.
    apply (proj1 (NoDup_nth xs "") Nd); [lia|auto|]. now rewrite Q, (nth_error_nth _ _ "" E).
  - exfalso. assert (Q : (nth j xs "" =? x)%string = false) by (apply (find_none _ _ F j); apply in_seq; lia).
    now rewrite (nth_error_nth _ _ "" E), String.eqb_refl in Q.
Qed.
Lemma SetValues_ok xs t (p q : nat -> K) w : table_at xs t p -> is_vec (length xs) q w ->
  exists t', SetValues t w = Ok t' /\ table_at xs t' q.
Proof. intros H Hw. apply vec_is_mat in Hw. apply (C36_set_values K t xs _ w _ H Hw). now rewrite !map_length. Qed.
Lemma table_values xs t (p : nat -> K) : table_at xs t p -> is_vec (length xs) p (Values t).
Proof. intros H. apply vec_is_mat. apply (h_values _ _ _ H). Qed.
Lemma table_at_vars xs t (p : nat -> K) : table_at xs t p -> Vars t = xs /\ VarNums t = length xs /\ xs <> [] /\ NoDup xs.
Proof. intros H. split; [apply H|]. split; [apply H|]. split; apply H. Qed.
Lemma table_at_ext xs t (p q : nat -> K) : (forall j, j < length xs -> p j = q j) -> table_at xs t p -> table_at xs t q.
Proof.
  intros E H. unfold table_at. erewrite map_ext_in; [exact H|]. intros j Hj. apply in_seq in Hj. symmetry. apply E. lia.
Qed.
Lemma holds_table_at xs t vs : holds t xs vs -> table_at xs t (fun j => nth j vs (n_ofZ 0 : K)).
Proof. intros H. unfold table_at. now rewrite (h_len _ _ _ H), map_nth_seq. Qed.

Lemma values_unique xs t p k e v w : table_at xs t p -> values_at cfg xs p k e v -> values_at cfg xs p k e w -> forall i, i < k -> v i = w i.
Proof.
  intros H Hv Hw i Hi. destruct (at_point_exists _ _ _ H) as [env E].
  destruct (Hv i Hi) as [_ V]. destruct (Hw i Hi) as [_ W]. specialize (V env E). specialize (W env E). congruence.
Qed.
Lemma vanish_ext n phi psi : (forall i, i < n -> phi i = psi i) -> vanish cfg n phi -> vanish cfg n psi.
Proof. intros E H i Hi. rewrite <- E by auto. now apply H. Qed.

(** Outcomes that are neither a result nor a lack of fuel. *)
Definition eval_error (e : exn) : Prop :=
  e = RuntimeError "wrong" \/ (exists s, e = MathError ERROR_INVALID_NUMBER s).
Definition solver_error (e : exn) : Prop := eval_error e \/ linear_error e.
Definition fails {A} (r : res A) : Prop :=
  match r with
  | Throw e => solver_error e
  | Undef _ | AssertFail _ => True
  | Ok _ | Terminate | OutOfFuel => False
  end.

Lemma fails_bind {A B} (m : res A) (g : A -> res B) : fails m -> fails (bind m g).
Proof. destruct m; simpl; tauto. Qed.
Lemma ends_cases {A} (P : A -> Prop) m : ends P linear_error m -> (exists a, m = Ok a /\ P a) \/ fails m.
Proof. destruct m; simpl; intros H; try tauto; [left; eauto|right; now right]. Qed.
Lemma ends_false_cases {A} (P : A -> Prop) m : ends P (fun _ => False) m -> (exists a, m = Ok a /\ P a) \/ fails m.
Proof. destruct m; simpl; intros H; try tauto; left; eauto. Qed.

(** ** Evaluating the equations and the Jacobian at a table *)
(** The only runtime_error of the evaluation has the text "wrong" (node.cpp: a variable is left). *)
Lemma evalC_msg e m : evalC cfg e = Throw (RuntimeError m) -> m = "wrong".
Proof.
  revert m. induction e as [v|x|u a IH|b a IHa c IHc]; intros m E; cbn [evalC] in E.
  - discriminate.
  - now injection E as <-.
  - destruct (evalC cfg a) as [y|w| | | |]; cbn [bind] in E; try discriminate; [|apply IH; congruence].
    pose proof (Calc_un cfg u y n_nan) as R. unfold reports, finish in R. destruct (_ && _)%bool in R; rewrite E in R; [destruct R as [s R]|]; discriminate R.
  - destruct (evalC cfg a) as [y|w| | | |]; cbn [bind] in E; try discriminate; [|apply IHa; congruence].
    destruct (evalC cfg c) as [z|w| | | |]; cbn [bind] in E; try discriminate; [|apply IHc; congruence].
    pose proof (Calc_bin cfg b y z) as R. unfold reports, finish in R.
    destruct (bin_sem b y z); [destruct (_ && _)%bool in R|]; rewrite E in R; [destruct R as [s R]| |destruct R as [s R]]; discriminate R.
Qed.
Lemma Calc_list_msg m : forall (l : list (expr K)), fst (Calc_list cfg (map embed l)) = Throw (RuntimeError m) -> m = "wrong".
Proof.
  induction l as [|e l IH]; cbn [map Calc_list]; [discriminate|]. unfold NodeCalc. rewrite Vpa_evalC.
  destruct (evalC cfg e) as [v|w| | | |] eqn:E; cbn [res_map fst]; try discriminate.
  - destruct (Calc_list cfg (map embed l)) as [r l']. cbn [fst] in *. exact IH.
  - intros Q. injection Q as ->. eapply evalC_msg, E.
Qed.
Lemma eval_mat_msg n m (h : nat -> nat -> expr K) J t xs vs w : is_sym n m h J -> 0 < n -> 0 < m -> holds t xs vs ->
  eval_mat cfg J t = Throw (RuntimeError w) -> w = "wrong".
Proof.
  intros H Hr Hc Ht. unfold eval_mat. rewrite (SymMat_Clone_ok n m h J) by auto. cbn [bind].
  destruct (SymMat_Subs_ok n m h J _ _ H (table_dict _ _ _ Ht)) as (B & E & HB). unfold SymMat_SubsTable. rewrite E. cbn [bind].
  rewrite (is_sym_eq _ _ _ _ HB). unfold SymMat_Calc_expr, SymMat_Calc. cbn [s_data s_rows s_cols].
  set (g := fun k => subst (table_subst t) (h (k / m) (k mod m))).
  change (map (fun k => embed (subst (table_subst t) (h (k / m) (k mod m)))) (seq 0 (n * m))) with (map (fun k => embed (g k)) (seq 0 (n * m))).
  rewrite <- (map_map g embed).
  destruct (Calc_list_first cfg (map g (seq 0 (n * m)))) as [(ws & F & C)|(l1 & e & l2 & ws & R & El & F & Nv & Rr & C)].
  - rewrite C. cbn [bind]. intros Q. exfalso.
    assert (Lw : length ws = n * m) by (apply F2_length in F; now rewrite map_length, seq_length in F).
    set (v := fun i j => nth (i * m + j) ws (n_ofZ 0)).
    assert (Ew : map (fun x : K => embed (ENum x)) ws = map (fun k => embed (ENum (v (k / m) (k mod m)))) (seq 0 (n * m))).
    { rewrite <- (map_nth_seq (n_ofZ 0) ws) at 1. rewrite map_map, Lw. apply map_ext_in. intros k Hk. apply in_seq in Hk.
      unfold v. do 3 f_equal. rewrite Nat.mul_comm. apply Nat.div_mod. lia. }
    rewrite Ew in Q. destruct (ToMat_numbers n m v) as (M & EM & HM). congruence.
  - pose proof (fun Q => Calc_list_msg w (map g (seq 0 (n * m))) Q) as G. rewrite C in G |- *. cbn [fst] in G.
    destruct R; cbn [res_map bind]; try discriminate.
    + exfalso. unfold reports in Rr. destruct (eval (throwOnInvalidValue cfg) e); [now apply (Nv v)|destruct Rr; discriminate..].
    + intros Q. apply G. cbn [res_map]. injection Q as ->. reflexivity.
Qed.

Lemma eval_mat_values xs t p n m (h : nat -> nat -> expr K) J : 0 < n -> 0 < m -> is_sym n m h J -> table_at xs t p ->
  (exists M A, eval_mat cfg J t = Ok A /\ is_mat n m M A /\ forall i, i < n -> values_at cfg xs p m (h i) (M i)) \/
  (fails (eval_mat cfg J t) /\ forall M, ~ forall i, i < n -> values_at cfg xs p m (h i) (M i)).
Proof.
  intros Hn Hm HJ Ht. destruct (at_point_exists _ _ _ Ht) as [env He]. pose proof (proj1 (binds_point xs env p) He) as Hb.
  destruct (eval_mat_cases cfg n m h J t xs _ env Hn Hm HJ Ht Hb) as [(A & v & E & HA & V)|(i & j & R & Hi & Hj & E & Rr & Nv)].
  - left. exists v, A. split; [auto|]. split; [auto|]. intros i Hi j Hj. split; [now apply V|].
    intros env' He'. pose proof (proj1 (binds_point xs env' p) He') as Hb'.
    apply (eval_subst_table _ _ _ _ env' _ _ Ht Hb'). apply (eval_subst_table _ _ _ _ env _ _ Ht Hb). now apply V.
  - right. rewrite E. split.
    + unfold reports in Rr. destruct (eval _ (subst (table_subst t) (h i j))) as [w| | |]; [exfalso; now apply (Nv w)|..]; destruct Rr as [s ->]; simpl; auto; left; [left|right; eauto].
      f_equal. eapply eval_mat_msg; [exact HJ|exact Hn|exact Hm|exact Ht|exact E].
    + intros M HM. destruct (HM i Hi j Hj) as [W V]. apply (Nv (M i j)). apply (eval_subst_table _ _ _ _ env _ _ Ht Hb). auto.
Qed.
Lemma eval_vec_values xs t p n (f : nat -> expr K) A : 0 < n -> is_sym n 1 (fun i _ => f i) A -> table_at xs t p ->
  (exists phi F, eval_vec cfg A t = Ok F /\ is_vec n phi F /\ values_at cfg xs p n f phi) \/
  (fails (eval_vec cfg A t) /\ forall phi, ~ values_at cfg xs p n f phi).
Proof.
  intros Hn HA Ht.
  assert (Ev : eval_vec cfg A t = let* m := eval_mat cfg A t in ToVec m) by (unfold eval_vec, eval_mat; now rewrite !bind_assoc; apply bind_ext; intros a; rewrite !bind_assoc; apply bind_ext; intros b; rewrite ?bind_assoc).
  rewrite Ev. destruct (eval_mat_values xs t p n 1 _ A Hn Nat.lt_0_1 HA Ht) as [(M & B & E & HB & V)|[F N]].
  - left. rewrite E. cbn [bind]. destruct (ToVec_ok n M B Hn HB) as (W & -> & HW). exists (fun i => M i 0), W. split; [auto|]. split.
    + eapply is_mat_ext; [|exact HW]. intros i j Hi Hj. cbv beta. now replace j with 0 by lia.
    + intros i Hi. apply (V i Hi 0). lia.
  - right. split; [now apply fails_bind|]. intros phi H. apply (N (fun i _ => phi i)). intros i Hi j Hj. apply H. exact Hi.
Qed.

(** ** The Jacobian *)
Lemma Jacobian_cases n (f : nat -> expr K) A xs : 0 < n -> xs <> [] -> is_sym n 1 (fun i _ => f i) A ->
  (exists J jac, Jacobian cfg A xs = Ok J /\ jacobian cfg xs n f jac /\ is_sym n (length xs) jac J) \/ Jacobian cfg A xs = Terminate.
Proof.
  intros Hn Hx HA. pose proof (is_sym_nth _ _ _ _ HA) as Nt. pose proof HA as (E1 & E2 & _).
  assert (Hl : 0 < length xs) by (destruct xs; simpl; [congruence|lia]).
  unfold Jacobian. rewrite E1, SymMat_make_ok by auto. cbn [bind s_data]. rewrite repeat_length. set (m := length xs) in *.
  match goal with |- context [mapM ?G _] => set (F := G) end.
  assert (FE : forall k, k < n * m -> exists x, nth_error xs (k mod m) = Some x /\ F k = Diff cfg (embed (f (k / m))) x 1).
  { intros k Hk. destruct (divmod_lt n m k Hk) as [L1 L2]. unfold F, va_get. rewrite Nt by (rewrite Nat.mul_1_r; exact L1). cbn [bind]. rewrite Nat.div_1_r.
    destruct (nth_error xs (k mod m)) as [x|] eqn:Ex; [exists x; auto|]. apply nth_error_None in Ex. fold m in Ex. apply Nat.lt_nge in L2. tauto. }
  assert (G : forall q s, s + q <= n * m -> (exists es : list (expr K), mapM F (seq s q) = Ok (map embed es) /\ length es = q /\
      forall k, k < q -> exists e, nth_error es k = Some e /\ F (s + k) = Ok (embed e)) \/
    (exists e, mapM F (seq s q) = Throw e) \/ mapM F (seq s q) = Terminate).
  { induction q as [|q IH]; intros s Hs; cbn [seq mapM].
    - left. exists []. split; [auto|]. split; auto. lia.
    - destruct (FE s) as (x & Ex & ED); [lia|].
      destruct (no_int_dec (f (s / m))) as [D|D].
      + destruct (C22_diff_outcome K cfg (f (s / m)) x 1 ltac:(lia) D) as [(e' & Ee & _)|[_ Ee]]; change (Z.of_nat 1) with 1%Z in Ee; rewrite <- ED in Ee.
        * rewrite Ee. cbn [bind]. destruct (IH (S s)) as [(es & Q & L & H)|[[e Q]|Q]]; [lia| | |]; rewrite Q; cbn [bind].
          -- left. exists (e' :: es). split; [auto|]. split; [simpl; lia|]. intros [|k] Hk; simpl.
             ++ exists e'. rewrite Nat.add_0_r. auto.
             ++ destruct (H k) as (e & He1 & He2); [lia|]. exists e. split; auto. now rewrite <- plus_n_Sm.
          -- right. left. eexists. reflexivity.
          -- right. right. reflexivity.
        * rewrite Ee. right. right. reflexivity.
      + destruct (proj2 (C22_diff_throws_iff K cfg (f (s / m)) x 1 ltac:(lia)) D) as [msg Em]. change (Z.of_nat 1) with 1%Z in Em.
        rewrite <- ED in Em. rewrite Em. right. left. eexists. reflexivity. }
  destruct (G (n * m) 0) as [(es & Q & L & H)|[[e Q]|Q]]; [lia| | |]; rewrite Q; cbn [noexcept bind]; auto.
  left. eexists. exists (fun i j => nth (i * m + j) es (EVar "")). split; [reflexivity|].
  assert (HJ : forall i j, i < n -> j < m -> nth_error es (i * m + j) = Some (nth (i * m + j) es (EVar "")) /\ F (i * m + j) = Ok (embed (nth (i * m + j) es (EVar "")))).
  { intros i j Hi Hj. destruct (H (i * m + j)) as (e & He1 & He2); [now apply pos_lt|]. rewrite (nth_error_nth es _ (EVar "") He1). auto. }
  split.
  - intros i j x Hi Hj. assert (j < m) by (apply nth_error_Some; congruence).
    destruct (HJ i j) as [_ HF]; auto. destruct (FE (i * m + j)) as (x' & Ex' & ED); [now apply pos_lt|].
    destruct (divmod_pos m i j) as [P1 P2]; [auto|]. rewrite P1, P2 in *. congruence.
  - split; [reflexivity|]. split; [reflexivity|]. cbn [s_data]. split; [now rewrite map_length|].
    intros i j Hi Hj. unfold SymValue. cbn [s_cols s_data]. apply va_get_nth. erewrite map_nth_error; [reflexivity|]. now apply HJ.
Qed.

Lemma length_pos xs t (p : nat -> K) : table_at xs t p -> 0 < length xs.
Proof. intros H. destruct (table_at_vars _ _ _ H) as (_ & _ & Ne & _). destruct xs; simpl; [congruence|lia]. Qed.

(** ** One round of Newton-Raphson *)
Section Newton.
Variables (xs : list string) (n : nat) (f : nat -> expr K) (jac : nat -> nat -> expr K) (A J : symmat K).
Hypotheses (Hn : 0 < n) (HA : is_sym n 1 (fun i _ => f i) A) (HJ : is_sym n (length xs) jac J).

Lemma eval_vec_at t p phi : table_at xs t p -> values_at cfg xs p n f phi -> exists F, eval_vec cfg A t = Ok F /\ is_vec n phi F.
Proof.
  intros Ht V. destruct (eval_vec_values xs t p n f A Hn HA Ht) as [(psi & F & E & HF & V')|[_ N]]; [|exfalso; now apply (N phi)].
  exists F. split; [auto|]. eapply is_mat_ext; [|exact HF]. intros i j Hi _. exact (values_unique _ _ _ _ _ _ _ Ht V' V i Hi).
Qed.
Lemma eval_mat_at t p M : table_at xs t p -> (forall i, i < n -> values_at cfg xs p (length xs) (jac i) (M i)) ->
  exists B, eval_mat cfg J t = Ok B /\ is_mat n (length xs) M B.
Proof.
  intros Ht V. destruct (eval_mat_values xs t p n (length xs) jac J Hn (length_pos _ _ _ Ht) HJ Ht) as [(M' & F & E & HF & V')|[_ N]]; [|exfalso; now apply (N M)].
  exists F. split; [auto|]. eapply is_mat_ext; [|exact HF]. intros i j Hi Hj. exact (values_unique _ _ _ _ _ _ _ Ht (V' i Hi) (V i Hi) j Hj).
Qed.
Lemma Mat_eq_num_vanish phi F : is_vec n phi F -> Mat_eq_num cfg F (n_ofZ 0) = true <-> vanish cfg n phi.
Proof.
  intros H. rewrite (Mat_eq_num_ok cfg n 1 _ F (n_ofZ 0) H). split; intros Q i; [intros Hi; apply (Q i 0); auto|intros j Hi Hj; now apply Q].
Qed.

Lemma newton_done fuel it q t p : table_at xs t p -> solved cfg xs n f p -> Newton_loop cfg (S fuel) A J it q t = Ok t.
Proof.
  intros Ht (phi & V & Va). cbn [Newton_loop]. destruct (eval_vec_at t p phi Ht V) as (F & -> & HF). cbn [bind].
  now rewrite (proj2 (Mat_eq_num_vanish phi F HF) Va).
Qed.
Lemma newton_limit fuel it q t p phi : table_at xs t p -> values_at cfg xs p n f phi -> ~ vanish cfg n phi ->
  (maxIterations cfg < it)%Z -> Newton_loop cfg (S fuel) A J it q t = Throw limit_exceeded.
Proof.
  intros Ht V Va Hl. cbn [Newton_loop]. destruct (eval_vec_at t p phi Ht V) as (F & -> & HF). cbn [bind].
  destruct (Mat_eq_num cfg F (n_ofZ 0)) eqn:E; [apply (Mat_eq_num_vanish phi F HF) in E; tauto|].
  apply Z.ltb_lt in Hl. now rewrite Hl.
Qed.
Lemma newton_next fuel it Q q t p q' phi : table_at xs t p -> is_vec (length xs) q Q -> values_at cfg xs p n f phi -> ~ vanish cfg n phi ->
  (it <= maxIterations cfg)%Z -> newton_step cfg xs n f jac p q q' ->
  exists Q' t', Newton_loop cfg (S fuel) A J it Q t = Newton_loop cfg fuel A J (it + 1) Q' t' /\
    is_vec (length xs) q' Q' /\ table_at xs t' q'.
Proof.
  intros Ht HQ V Va Hl (phi' & M & d & V' & VM & (B & b & X & HB & Hb & ES & HX) & Hq').
  pose proof (length_pos _ _ _ Ht) as Hm. cbn [Newton_loop].
  destruct (eval_vec_at t p phi Ht V) as (F & -> & HF). cbn [bind].
  destruct (Mat_eq_num cfg F (n_ofZ 0)) eqn:E; [apply (Mat_eq_num_vanish phi F HF) in E; tauto|].
  destruct (Z.ltb_spec (maxIterations cfg) it); [lia|].
  destruct (eval_mat_at t p M Ht VM) as (B' & -> & HB'). cbn [bind]. rewrite (is_mat_unique _ _ _ _ _ HB' HB).
  unfold Vec_neg. destruct (Vec_map_ok n phi F n_neg Hn HF) as (b' & -> & Hb'). cbn [bind].
  assert (Eb : b' = b).
  { refine (is_mat_unique _ _ _ _ _ Hb' _). eapply is_mat_ext; [|exact Hb]. intros i j Hi _. cbv beta. f_equal.
    symmetry. exact (values_unique _ _ _ _ _ _ _ Ht V V' i Hi). }
  rewrite Eb, ES. cbn [rethrow bind].
  destruct (Mat_map2_ok n_add _ _ _ _ Q X HQ HX) as (Q' & EQ & HQ'). unfold Mat_add. rewrite EQ. cbn [bind].
  assert (HQ2 : is_vec (length xs) q' Q').
  { eapply is_mat_ext; [|exact HQ']. intros i j Hi _. cbv beta. symmetry. now apply Hq'. }
  destruct (SetValues_ok xs t p q' Q' Ht HQ2) as (t' & -> & Ht'). cbn [bind]. eauto.
Qed.
(** All possibilities. *)
Lemma newton_cases fuel it Q q t p : table_at xs t p -> is_vec (length xs) q Q ->
  solved cfg xs n f p \/
  (exists phi, values_at cfg xs p n f phi /\ ~ vanish cfg n phi /\
     ((maxIterations cfg < it)%Z \/ (it <= maxIterations cfg)%Z /\ exists q', newton_step cfg xs n f jac p q q')) \/
  fails (Newton_loop cfg (S fuel) A J it Q t).
Proof.
  intros Ht HQ. pose proof (length_pos _ _ _ Ht) as Hm. cbn [Newton_loop].
  destruct (eval_vec_values xs t p n f A Hn HA Ht) as [(phi & F & E & HF & V)|[Fl _]]; [|right; right; now apply fails_bind].
  rewrite E. cbn [bind]. destruct (Mat_eq_num cfg F (n_ofZ 0)) eqn:Eq.
  { left. exists phi. split; [auto|]. now apply (Mat_eq_num_vanish phi F HF). }
  assert (Va : ~ vanish cfg n phi) by (intros Q0; apply (Mat_eq_num_vanish phi F HF) in Q0; congruence).
  destruct (Z.ltb_spec (maxIterations cfg) it) as [Hlt|Hle]; [right; left; eauto|].
  destruct (eval_mat_values xs t p n (length xs) jac J Hn Hm HJ Ht) as [(M & B & EB & HB & VM)|[Fl _]]; [|right; right; now apply fails_bind].
  rewrite EB. cbn [bind]. unfold Vec_neg. destruct (Vec_map_ok n phi F n_neg Hn HF) as (b & Eb & Hb). rewrite Eb. cbn [bind].
  pose proof (SolveLinear_ends cfg n (length xs) B b Hn Hm (ex_intro (fun g => is_mat n (length xs) g B) M HB) (ex_intro (fun g => is_mat n 1 g b) (fun i _ => n_neg (phi i)) Hb)) as En.
  destruct (ends_cases _ _ En) as [(X & EX & [d HX])|Fl].
  - right. left. exists phi. split; [auto|]. split; [auto|]. right. split; [auto|].
    exists (fun j => n_add (q j) (d j 0)). exists phi, M, (fun j => d j 0). split; [auto|]. split; [auto|]. split; [|auto].
    exists B, b, X. split; [auto|]. split; [auto|]. split; [auto|]. eapply is_mat_ext; [|exact HX]. intros i j _ Hj. cbv beta. now replace j with 0 by lia.
  - right. right. apply fails_bind. destruct (SolveLinear cfg B b); simpl in *; try tauto.
    destruct e as [ty s| | | |]; auto. destruct ty; auto. right. red. eauto 8.
Qed.

(** The whole loop. *)
Definition points_from (q0 p0 : nat -> K) (p : nat -> nat -> K) (k : nat) : Prop :=
  (forall j, j < length xs -> p 0 j = p0 j) /\
  forall i, i < k -> newton_step cfg xs n f jac (p i) (match i with O => q0 | _ => p i end) (p (S i)).

Lemma values_ext p q k e v : (forall j, j < length xs -> p j = q j) -> values_at cfg xs p k e v -> values_at cfg xs q k e v.
Proof.
  intros E V i Hi. destruct (V i Hi) as [W H]. split; auto. intros env He. apply H. intros j x Hj. rewrite (He j x Hj). symmetry. apply E.
  apply nth_error_Some. congruence.
Qed.
Lemma solved_ext p q : (forall j, j < length xs -> p j = q j) -> solved cfg xs n f p -> solved cfg xs n f q.
Proof. intros E (phi & V & Va). exists phi. split; auto. eapply values_ext; eauto. Qed.
Lemma step_ext p p' q q' r r' : (forall j, j < length xs -> p j = p' j) -> (forall j, j < length xs -> q j = q' j) -> (forall j, j < length xs -> r j = r' j) ->
  newton_step cfg xs n f jac p q r -> newton_step cfg xs n f jac p' q' r'.
Proof.
  intros E1 E2 E3 (phi & M & d & V & VM & L & H). exists phi, M, d. split; [eapply values_ext; eauto|]. split.
  - intros i Hi. eapply values_ext; eauto.
  - split; auto. intros j Hj. rewrite <- E3, <- E2 by auto. auto.
Qed.

(** Enough fuel for the rounds it, it+1, ..., maxIterations, maxIterations+1. *)
Lemma newton_run fuel : forall it Q q t p, table_at xs t p -> is_vec (length xs) q Q ->
  (Z.of_nat fuel > maxIterations cfg + 1 - it + 0)%Z -> (Z.of_nat fuel >= 1)%Z ->
  (exists k ps t', points_from q p ps k /\ table_at xs t' (ps k) /\ solved cfg xs n f (ps k) /\
     (forall i, i < k -> ~ solved cfg xs n f (ps i)) /\ (k = 0 \/ (Z.of_nat k + it <= maxIterations cfg + 1)%Z) /\
     Newton_loop cfg fuel A J it Q t = Ok t') \/
  (exists k ps, points_from q p ps k /\ (forall i, i <= k -> exists phi, values_at cfg xs (ps i) n f phi /\ ~ vanish cfg n phi) /\
     (Z.of_nat k = Z.max 0 (maxIterations cfg + 1 - it))%Z /\ Newton_loop cfg fuel A J it Q t = Throw limit_exceeded) \/
  fails (Newton_loop cfg fuel A J it Q t).
Proof.
  induction fuel as [|fuel IH]; intros it Q q t p Ht HQ Hf Hf1; [lia|].
  destruct (newton_cases fuel it Q q t p Ht HQ) as [So|[(phi & V & Va & [Hl|[Hl [q' St]]])|Fl]].
  - left. exists 0, (fun _ => p), t. split; [split; [auto|lia]|]. split; [auto|]. split; [auto|]. split; [lia|]. split; [auto|].
    eapply newton_done; eauto.
  - right. left. exists 0, (fun _ => p). split; [split; [auto|lia]|]. split; [eauto|]. split; [lia|]. eapply newton_limit; eauto.
  - assert (NS : ~ solved cfg xs n f p).
    { intros (psi & V' & Va'). apply Va. eapply vanish_ext; [|exact Va']. intros i Hi. exact (values_unique _ _ _ _ _ _ _ Ht V' V i Hi). }
    destruct (newton_next fuel it Q q t p q' phi Ht HQ V Va Hl St) as (Q' & t' & E & HQ' & Ht'). rewrite E.
    set (sh := fun (ps : nat -> nat -> K) i => match i with O => p | S i' => ps i' end).
    assert (SH : forall ps k, points_from q' q' ps k -> points_from q p (sh ps) (S k)).
    { intros ps k [P0 PS]. split; [reflexivity|]. intros [|i] Hi; unfold sh; cbn.
      - eapply step_ext; [| | |exact St]; auto. intros; symmetry; auto.
      - specialize (PS i ltac:(lia)). eapply step_ext; [| | |exact PS]; auto. intros j Hj. destruct i; auto. symmetry. now apply P0. }
    destruct (IH (it + 1)%Z Q' q' t' q' Ht' HQ') as [(k & ps & t2 & P & T2 & So & Ns & Hk & E2)|[(k & ps & P & Vs & Hk & E2)|Fl]]; [lia|lia| | |].
    + left. exists (S k), (sh ps), t2. split; [auto|]. split; [exact T2|]. split; [exact So|]. split.
      * intros [|i] Hi; [exact NS|]. apply Ns. lia.
      * split; [lia|exact E2].
    + right. left. exists (S k), (sh ps). split; [auto|]. split.
      * intros [|i] Hi; [eauto|]. apply Vs. lia.
      * split; [lia|exact E2].
    + right. right. exact Fl.
  - right. right. exact Fl.
Qed.

(** Conversely: the loop follows given points. *)
Lemma newton_follow k : forall fuel it Q q t p ps, k < fuel -> table_at xs t p -> is_vec (length xs) q Q -> points_from q p ps k ->
  (forall i, i < k -> exists phi, values_at cfg xs (ps i) n f phi /\ ~ vanish cfg n phi) -> (k = 0 \/ (Z.of_nat k + it <= maxIterations cfg + 1)%Z) ->
  exists Q' t', Newton_loop cfg fuel A J it Q t = Newton_loop cfg (fuel - k) A J (it + Z.of_nat k) Q' t' /\ table_at xs t' (ps k).
Proof.
  induction k as [|k IH]; intros fuel it Q q t p ps Hf Ht HQ [P0 PS] Vs Hk.
  - exists Q, t. rewrite Nat.sub_0_r, Z.add_0_r. split; auto. eapply table_at_ext; [|exact Ht]. intros; symmetry; auto.
  - destruct fuel as [|fuel]; [lia|]. destruct (Vs 0) as (phi & V & Va); [lia|].
    assert (St : newton_step cfg xs n f jac p q (ps 1)) by (eapply step_ext; [| | |exact (PS 0 ltac:(lia))]; auto).
    destruct (newton_next fuel it Q q t p (ps 1) phi Ht HQ) as (Q' & t' & E & HQ' & Ht'); auto; [eapply values_ext; [|exact V]; auto|lia|].
    rewrite E. destruct (IH fuel (it + 1)%Z Q' (ps 1) t' (ps 1) (fun i => ps (S i))) as (Q2 & t2 & E2 & T2); auto; [lia| | |lia|].
    + split; auto. intros i Hi. specialize (PS (S i) ltac:(lia)). destruct i; exact PS.
    + intros i Hi. apply Vs. lia.
    + rewrite E2. exists Q2, t2. split; [|exact T2]. cbn [Nat.sub]. f_equal; lia.
Qed.
End Newton.

(** ** LM *)
Section LM.
Variables (xs : list string) (n : nat) (f : nat -> expr K) (jac : nat -> nat -> expr K) (A J : symmat K).
Hypotheses (Hn : 0 < n) (HA : is_sym n 1 (fun i _ => f i) A) (HJ : is_sym n (length xs) jac J).
Notation halve := (fun a : K => n_mul a (n_dec 5 (-1))).

Lemma Vec_scale_l_ok m k (d : nat -> K) D : 0 < m -> is_vec m d D -> exists w, Vec_scale_l k D = Ok w /\ is_vec m (fun i => n_mul (d i) k) w.
Proof. intros Hm HD. unfold Vec_scale_l. exact (Vec_map_ok m d D (fun v => n_mul v k) Hm HD). Qed.

(** The functions given to the line search end, normally or with an error. *)
Lemma lm_f_cases t p q Q : table_at xs t p -> is_vec (length xs) q Q ->
  (exists phi F, lm_f cfg A t Q = Ok F /\ is_vec n phi F /\ values_at cfg xs q n f phi) \/ fails (lm_f cfg A t Q).
Proof.
  intros Ht HQ. unfold lm_f. destruct (SetValues_ok xs t p q Q Ht HQ) as (t' & -> & Ht'). cbn [bind].
  destruct (eval_vec_values xs t' q n f A Hn HA Ht') as [(phi & F & E & HF & V)|[Fl _]]; [left|now right].
  exists phi, F. auto.
Qed.
Lemma lm_df_cases t p q Q : table_at xs t p -> is_vec (length xs) q Q ->
  (exists M F, lm_df cfg J t Q = Ok F /\ is_mat n (length xs) M F /\ forall i, i < n -> values_at cfg xs q (length xs) (jac i) (M i)) \/ fails (lm_df cfg J t Q).
Proof.
  intros Ht HQ. pose proof (length_pos _ _ _ Ht) as Hm. unfold lm_df. destruct (SetValues_ok xs t p q Q Ht HQ) as (t' & -> & Ht'). cbn [bind].
  destruct (eval_mat_values xs t' q n (length xs) jac J Hn Hm HJ Ht') as [(M & F & E & HF & V)|[Fl _]]; [left|now right].
  exists M, F. auto.
Qed.

Lemma iter_shift {T} (h : T -> T) k a : Nat.iter (S k) h a = Nat.iter k h (h a).
Proof. induction k as [|k IH]; [reflexivity|]. change (h (Nat.iter (S k) h a) = h (Nat.iter k h (h a))). now rewrite IH. Qed.

Lemma Norm2_ksum m (phi : nat -> K) F : is_vec m phi F -> Norm2 F = sumsq m phi.
Proof. intros H. unfold Norm2, sumsq, ksum. now rewrite (is_vec_data _ _ _ H), map_map. Qed.

Notation test := (armijo_test cfg xs n f jac).
(** One test of the line search. *)
Lemma Armijo_round t p q Q d D fuel a : n = length xs -> table_at xs t p -> is_vec (length xs) q Q -> is_vec (length xs) d D ->
  (exists b : bool, test q d a b /\ Armijo_loop (S fuel) Q D (lm_f cfg A t) (lm_df cfg J t) a =
     if b then Ok a else Armijo_loop fuel Q D (lm_f cfg A t) (lm_df cfg J t) (halve a)) \/
  fails (Armijo_loop (S fuel) Q D (lm_f cfg A t) (lm_df cfg J t) a).
Proof.
  intros En Ht HQ HD. pose proof (length_pos _ _ _ Ht) as Hm. cbn [Armijo_loop].
  destruct (Vec_scale_l_ok _ a d D Hm HD) as (w & -> & Hw). cbn [bind].
  destruct (Vec_add_ok _ _ _ _ _ Hm HQ Hw) as (y & -> & Hy). cbn [bind].
  destruct (lm_f_cases t p _ y Ht Hy) as [(phi1 & F1 & -> & HF1 & V1)|Fl]; [|right; now apply fails_bind]. cbn [bind].
  destruct (lm_f_cases t p _ Q Ht HQ) as [(phi & F2 & -> & HF2 & V2)|Fl]; [|right; now apply fails_bind]. cbn [bind].
  destruct (lm_df_cases t p _ Q Ht HQ) as [(M & B & -> & HB & VM)|Fl]; [|right; now apply fails_bind]. cbn [bind].
  destruct (Transpose_ok _ _ _ _ Hn Hm HB) as (Bt & -> & HBt). cbn [bind].
  pose proof (map_is_mat _ _ _ _ (fun v => n_mul v (n_mul (n_dec 4 (-1)) a)) HBt) as Hs. rewrite <- En in HD.
  destruct (Mat_mul_ok _ _ _ _ _ _ _ Hm Nat.lt_0_1 Hs HD) as (C & EC & HC).
  unfold Mat_scale_l. rewrite EC. cbn [bind]. rewrite <- En in HC.
  destruct (Mat_map2_ok n_add _ _ _ _ F2 C HF2 HC) as (S0 & ES & HS). unfold Mat_add. rewrite ES. cbn [bind].
  left. eexists. split; [exists phi1, phi, M; split; [exact V1|]; split; [exact V2|]; split; [exact VM|reflexivity]|].
  rewrite (Norm2_ksum _ _ _ HF1).
  assert (HS' : is_vec n (fun i => n_add (phi i) (ksum n (fun l => n_mul (n_mul (M l i) (n_mul (n_dec 4 (-1)) a)) (d l)))) S0) by exact HS.
  now rewrite (Norm2_ksum _ _ _ HS').
Qed.

Lemma Armijo_cases t p q Q d D : n = length xs -> table_at xs t p -> is_vec (length xs) q Q -> is_vec (length xs) d D ->
  forall fuel a, (exists k, k < fuel /\ Armijo_loop fuel Q D (lm_f cfg A t) (lm_df cfg J t) a = Ok (Nat.iter k halve a) /\
      test q d (Nat.iter k halve a) true /\ forall k', k' < k -> test q d (Nat.iter k' halve a) false) \/
    fails (Armijo_loop fuel Q D (lm_f cfg A t) (lm_df cfg J t) a) \/
    (Armijo_loop fuel Q D (lm_f cfg A t) (lm_df cfg J t) a = OutOfFuel /\ forall k', k' < fuel -> test q d (Nat.iter k' halve a) false).
Proof.
  intros En Ht HQ HD.
  induction fuel as [|fuel IH]; intros a; [right; right; split; [reflexivity|lia]|].
  destruct (Armijo_round t p q Q d D fuel a En Ht HQ HD) as [([|] & T & E)|Fl]; [| |right; left; exact Fl].
  { left. exists 0. split; [lia|]. split; [exact E|]. split; [exact T|lia]. }
  rewrite E. destruct (IH (halve a)) as [(k & Hk & Ek & Tk & Fk)|[Fl|[Ek Fk]]].
  - left. exists (S k). rewrite !(iter_shift halve k a). split; [lia|]. split; [exact Ek|]. split; [exact Tk|].
    intros [|k'] Hk'; [exact T|]. rewrite (iter_shift halve k' a). apply Fk. lia.
  - right. left. exact Fl.
  - right. right. split; [exact Ek|]. intros [|k'] Hk'; [exact T|]. rewrite (iter_shift halve k' a). apply Fk. lia.
Qed.

(** The trial made in one round of the inner loop. *)
Definition trial_result (it : Z) (fuel' afuel : nat) (mu : K) (Q F : mat K) p phi z (r : res (Z * mat K * mat K * vars_table K)) : Prop :=
  (exists z' phi' Fn dq Dq t', lm_trial cfg xs n f jac p phi mu z z' /\ values_at cfg xs z' n f phi' /\ is_vec n phi' Fn /\
     is_vec (length xs) dq Dq /\ (forall j, j < length xs -> z' j = n_add (p j) (dq j)) /\ table_at xs t' z' /\
     r = if n_ltb (sumsq n phi') (sumsq n phi) then Ok (it, Fn, Dq, t')
         else if (it =? maxIterations cfg)%Z then Throw limit_exceeded
              else LM_inner cfg fuel' afuel A J (it + 1) (n_mul mu (n_ofZ 10)) Q F t') \/
  fails r \/ (r = OutOfFuel /\ exists d, lm_direction cfg xs n jac phi mu z d /\ forall k, k < afuel -> test p d (step_length k) false).

Lemma LM_inner_round fuel afuel it mu Q F t p phi z : table_at xs t z -> is_vec (length xs) p Q -> is_vec n phi F ->
  trial_result it fuel afuel mu Q F p phi z (LM_inner cfg (S fuel) afuel A J it mu Q F t).
Proof.
  intros Ht HQ HF. pose proof (length_pos _ _ _ Ht) as Hm. cbn [LM_inner].
  destruct (eval_mat_values xs t z n (length xs) jac J Hn Hm HJ Ht) as [(M & B & EB & HB & VM)|[Fl _]]; [|right; left; now apply fails_bind].
  rewrite EB. cbn [bind].
  destruct (Transpose_ok _ _ _ _ Hn Hm HB) as (Bt & -> & HBt). cbn [bind].
  destruct (Mat_mul_ok _ _ _ _ _ _ _ Hm Hm HBt HB) as (BtB & -> & HBtB). cbn [bind].
  pose proof HB as (R1 & R2 & _). rewrite R1, R2.
  destruct (Mat_make_ok n (length xs) (n_ofZ 0 : K) Hn Hm) as (I0 & -> & HI0). cbn [bind].
  destruct (Nat.eq_dec n (length xs)) as [En|En].
  2:{ right. left. unfold Ones. destruct HI0 as (-> & -> & _). apply Nat.eqb_neq in En. rewrite En. exact I. }
  rewrite <- En in HI0, HBtB. destruct (Ones_ok n _ I0 HI0) as (I1 & -> & HI1). cbn [bind].
  pose proof (map_is_mat _ _ _ _ (fun v => n_mul v mu) HI1) as HI2.
  destruct (Mat_map2_ok n_add _ _ _ _ _ _ HBtB HI2) as (AA & EAA & HAA). unfold Mat_add at 1, Mat_scale_l at 1. rewrite EAA. cbn [bind].
  destruct (Mat_mul_ok _ _ _ _ _ _ _ Hm Nat.lt_0_1 HBt HF) as (BtF & -> & HBtF). cbn [bind].
  destruct (ToVec_ok _ _ _ Hm HBtF) as (g & -> & Hg). cbn [bind].
  assert (Hg' : is_vec (length xs) (fun i => ksum n (fun l => n_mul (M l i) (phi l))) g) by exact Hg.
  unfold Vec_neg. destruct (Vec_map_ok _ _ _ n_neg Hm Hg') as (b & -> & Hb). cbn [bind]. rewrite <- En in Hb.
  pose proof (SolveLinear_ends cfg n n AA b Hn Hn (ex_intro (fun g => is_mat n n g AA) _ HAA) (ex_intro (fun g => is_mat n 1 g b) _ Hb)) as Es.
  destruct (ends_cases _ _ Es) as [(X & EX & [d0 HX])|Fl]; [|right; left; now apply fails_bind].
  rewrite EX. cbn [bind].
  assert (HX' : is_vec (length xs) (fun j => d0 j 0) X).
  { rewrite <- En. eapply is_mat_ext; [|exact HX]. intros i j _ Hj. cbv beta. now replace j with 0 by lia. }
  unfold Armijo at 1. 
  assert (Dir : lm_direction cfg xs n jac phi mu z (fun j => d0 j 0)).
  { exists M. split; [exact VM|]. exists AA, b, X. split; [exact HAA|]. split; [exact Hb|]. split; [exact EX|]. rewrite En. exact HX'. }
  destruct (Armijo_cases t z p Q _ X En Ht HQ HX' afuel (n_ofZ 1)) as [(k & Hk & -> & Tk & Fk)|[Fl|[E Fk]]].
  2:{ right. left. now apply fails_bind. }
  2:{ right. right. rewrite E. split; [reflexivity|]. exists (fun j => d0 j 0). split; [exact Dir|exact Fk]. }
  cbn [bind]. set (alpha := Nat.iter k halve (n_ofZ 1)).
  destruct (Vec_scale_l_ok _ alpha _ X Hm HX') as (Dq & -> & HDq). cbn [bind].
  destruct (Vec_add_ok _ _ _ _ _ Hm HQ HDq) as (q1 & -> & Hq1). cbn [bind].
  destruct (SetValues_ok xs t z _ q1 Ht Hq1) as (t' & -> & Ht'). cbn [bind].
  destruct (eval_vec_values xs t' _ n f A Hn HA Ht') as [(phi' & Fn & EF & HFn & VF)|[Fl _]]; [|right; left; now apply fails_bind].
  rewrite EF. cbn [bind]. left. exists (fun j => n_add (p j) (n_mul (d0 j 0) alpha)), phi', Fn, (fun j => n_mul (d0 j 0) alpha), Dq, t'.
  split; [|split; [exact VF|split; [exact HFn|split; [exact HDq|split; [auto|split; [exact Ht'|]]]]]].
  - exists (fun j => d0 j 0), k. split; [exact Dir|]. split; [exact Tk|]. split; [exact Fk|]. auto.
  - now rewrite (Norm2_ksum _ _ _ HFn), (Norm2_ksum _ _ _ HF).
Qed.

(** The inner loop: k1 is the number of rejected trials so far. *)
Lemma LM_inner_cases afuel Q F p phi : is_vec (length xs) p Q -> is_vec n phi F ->
  forall fuel it mu t k1 z, table_at xs t z -> lm_tries cfg xs n f jac p phi k1 mu z ->
  (exists k2 mu' z' p' phi' Fn dq Dq t', k1 <= k2 /\ lm_tries cfg xs n f jac p phi k2 mu' z' /\ lm_trial cfg xs n f jac p phi mu' z' p' /\
     values_at cfg xs p' n f phi' /\ n_ltb (sumsq n phi') (sumsq n phi) = true /\ is_vec (length xs) dq Dq /\
     (forall j, j < length xs -> p' j = n_add (p j) (dq j)) /\ table_at xs t' p' /\
     ((it <= maxIterations cfg)%Z -> (it + Z.of_nat (k2 - k1) <= maxIterations cfg)%Z) /\
     LM_inner cfg fuel afuel A J it mu Q F t = Ok ((it + Z.of_nat (k2 - k1))%Z, Fn, Dq, t')) \/
  (exists k2 mu' z', k1 < k2 /\ lm_tries cfg xs n f jac p phi k2 mu' z' /\ (it + Z.of_nat (k2 - k1) = maxIterations cfg + 1)%Z /\
     LM_inner cfg fuel afuel A J it mu Q F t = Throw limit_exceeded) \/
  fails (LM_inner cfg fuel afuel A J it mu Q F t) \/
  (LM_inner cfg fuel afuel A J it mu Q F t = OutOfFuel /\ ((exists r mu' z' d, lm_tries cfg xs n f jac p phi r mu' z' /\ lm_direction cfg xs n jac phi mu' z' d /\ forall k, k < afuel -> test p d (step_length k) false) \/ (it <= maxIterations cfg -> Z.of_nat fuel <= maxIterations cfg - it)%Z)).
Proof.
  intros HQ HF. induction fuel as [|fuel IH]; intros it mu t k1 z Ht Tr.
  - right. right. right. split; [reflexivity|]. right. lia.
  - destruct (LM_inner_round fuel afuel it mu Q F t p phi z Ht HQ HF) as [(z' & phi' & Fn & dq & Dq & t' & Tl & V & HFn & HDq & Eq & Ht' & E)|[Fl|[E (d & So1 & So2)]]].
    2:{ right. right. left. exact Fl. }
    2:{ right. right. right. split; [exact E|]. left. exists k1, mu, z, d. auto. }
    rewrite E. destruct (n_ltb (sumsq n phi') (sumsq n phi)) eqn:Lt.
    { left. exists k1, mu, z, z', phi', Fn, dq, Dq, t'. replace (k1 - k1) with 0 by lia. rewrite Z.add_0_r. repeat (split; [auto; lia|]). reflexivity. }
    assert (Tr' : lm_tries cfg xs n f jac p phi (S k1) (n_mul mu (n_ofZ 10)) z') by (eapply lm_reject; eauto).
    destruct (Z.eqb_spec it (maxIterations cfg)) as [Ei|Ei].
    { right. left. exists (S k1), (n_mul mu (n_ofZ 10)), z'. repeat (split; [auto; lia|]). reflexivity. }
    destruct (IH (it + 1)%Z _ t' (S k1) z' Ht' Tr') as
      [(k2 & mu2 & z2 & p2 & phi2 & Fn2 & dq2 & Dq2 & t2 & H1 & H2 & H3 & H4 & H5 & H6 & H7 & H8 & H9 & E2)|[(k2 & mu2 & z2 & H1 & H2 & H3 & E2)|[Fl|[E2 H]]]].
    + left. exists k2, mu2, z2, p2, phi2, Fn2, dq2, Dq2, t2. split; [lia|]. repeat (split; [assumption|]).
      split; [intros; lia|]. replace (it + Z.of_nat (k2 - k1))%Z with (it + 1 + Z.of_nat (k2 - S k1))%Z by lia. exact E2.
    + right. left. exists k2, mu2, z2. split; [lia|]. split; [auto|]. split; [lia|exact E2].
    + right. right. left. exact Fl.
    + right. right. right. split; [auto|]. destruct H as [H|H]; [auto|right; lia].
Qed.

(** The outer loop. *)
Lemma lm_count_shift rej k : lm_count rej (S k) = S (rej 0) + lm_count (fun i => rej (S i)) k.
Proof. induction k as [|k IH]; [simpl; lia|]. cbn [lm_count] in *. lia. Qed.

Lemma LM_loop_cases afuel : forall fuel it Q t p, table_at xs t p -> is_vec (length xs) p Q ->
  (exists k ps rej t', lm_points cfg xs n f jac p ps rej k /\ table_at xs t' (ps k) /\ solved cfg xs n f (ps k) /\
     ((it <= maxIterations cfg)%Z -> (it + Z.of_nat (lm_count rej k) <= maxIterations cfg)%Z) /\
     LM_loop cfg fuel afuel A J it Q t = Ok t') \/
  (LM_loop cfg fuel afuel A J it Q t = Throw limit_exceeded /\ (it <= maxIterations cfg)%Z /\
     exists k ps rej r, lm_points cfg xs n f jac p ps rej k /\ lm_rejected cfg xs n f jac (ps k) r /\
       (it + Z.of_nat (lm_count rej k + r) = maxIterations cfg + 1)%Z) \/
  fails (LM_loop cfg fuel afuel A J it Q t) \/
  (LM_loop cfg fuel afuel A J it Q t = OutOfFuel /\ ((exists k ps rej r, lm_points cfg xs n f jac p ps rej k /\ lm_open cfg xs n f jac afuel (ps k) r) \/ (it <= maxIterations cfg -> Z.of_nat fuel <= maxIterations cfg - it)%Z)).
Proof.
  induction fuel as [|fuel IH]; intros it Q t p Ht HQ.
  - right. right. right. split; [reflexivity|]. right. lia.
  - pose proof (length_pos _ _ _ Ht) as Hm. cbn [LM_loop].
    destruct (eval_vec_values xs t p n f A Hn HA Ht) as [(phi & F & EF & HF & V)|[Fl _]]; [|right; right; left; now apply fails_bind].
    rewrite EF. cbn [bind]. destruct (Mat_eq_num cfg F (n_ofZ 0)) eqn:Eq.
    { left. exists 0, (fun _ => p), (fun _ => 0), t. split; [split; [auto|lia]|]. split; [exact Ht|]. split.
      - exists phi. split; [exact V|]. now apply (Mat_eq_num_vanish n phi F HF).
      - split; [simpl; lia|reflexivity]. }
    assert (Va : ~ vanish cfg n phi) by (intros Q0; apply (Mat_eq_num_vanish n phi F HF) in Q0; congruence).
    destruct (LM_inner_cases afuel Q F p phi HQ HF (S fuel) it (n_dec 1 (-5)) t 0 p Ht (lm_first _ _ _ _ _ _ _)) as
      [(k2 & mu2 & z2 & p2 & phi2 & Fn2 & dq2 & Dq2 & t2 & H1 & H2 & H3 & H4 & H5 & H6 & H7 & H8 & H9 & E2)|[(k2 & mu2 & z2 & H1 & H2 & H3 & E2)|[Fl|[E2 H]]]].
    + rewrite E2. cbn [bind]. rewrite Nat.sub_0_r in *.
      destruct (Mat_map2_ok n_add _ _ _ _ Q Dq2 HQ H6) as (Q' & EQ & HQ'). unfold Mat_add. rewrite EQ. cbn [bind].
      assert (HQ2 : is_vec (length xs) p2 Q').
      { eapply is_mat_ext; [|exact HQ']. intros i j Hi _. cbv beta. symmetry. now apply H7. }
      destruct (SetValues_ok xs t2 p2 p2 Q' H8 HQ2) as (t' & -> & Ht'). cbn [bind].
      destruct (Z.eqb_spec (it + Z.of_nat k2) (maxIterations cfg)) as [Ei|Ei]; [|].
      { right. left. split; [reflexivity|]. split; [lia|]. exists 1, (fun i => match i with O => p | S _ => p2 end), (fun _ => k2), 0.
        split; [split; [reflexivity|]|split; [left; reflexivity|cbn [lm_count]; lia]]. intros [|i] Hi; [exists phi, phi2, mu2, z2; auto 10|lia]. }
      assert (St : lm_step cfg xs n f jac k2 p p2) by (exists phi, phi2, mu2, z2; auto 10).
      destruct (IH (it + Z.of_nat k2 + 1)%Z Q' t' p2 Ht' HQ2) as [(k & ps & rej & t3 & [P0 PS] & T3 & So & Hc & E3)|[(E3 & Hl & k & ps & rej & r & [P0 PS] & Rj & Hc)|[Fl|[E3 H]]]].
      * left. exists (S k), (fun i => match i with O => p | S i' => ps i' end), (fun i => match i with O => k2 | S i' => rej i' end), t3.
        split; [split; [auto|]|].
        -- intros [|i] Hi; [rewrite P0; exact St|exact (PS i ltac:(lia))].
        -- split; [exact T3|split; [exact So|split; [|exact E3]]].
           intros Hi. rewrite lm_count_shift. cbn beta iota. change (fun i => rej i) with rej. lia.
      * right. left. split; [exact E3|]. split; [lia|].
        exists (S k), (fun i => match i with O => p | S i' => ps i' end), (fun i => match i with O => k2 | S i' => rej i' end), r.
        split; [split; [reflexivity|]|split; [exact Rj|]].
        -- intros [|i] Hi; [rewrite P0; exact St|exact (PS i ltac:(lia))].
        -- rewrite lm_count_shift. cbn beta iota. change (fun i => rej i) with rej. lia.
      * right. right. left. exact Fl.
      * right. right. right. split; [exact E3|]. destruct H as [(k & ps & rej & r & [P0 PS] & Op)|H]; [left|right; lia].
        exists (S k), (fun i => match i with O => p | S i' => ps i' end), (fun i => match i with O => k2 | S i' => rej i' end), r.
        split; [split; [auto|]|exact Op]. intros [|i] Hi; [rewrite P0; exact St|exact (PS i ltac:(lia))].
    + rewrite E2. right. left. split; [reflexivity|]. split; [lia|]. exists 0, (fun _ => p), (fun _ => 0), k2.
      split; [split; [reflexivity|lia]|]. split; [|cbn [lm_count]; lia]. right. exists phi, mu2, z2. auto.
    + right. right. left. now apply fails_bind.
    + rewrite E2. right. right. right. split; [reflexivity|]. destruct H as [(r & mu' & z' & d & T1 & T2 & T3)|H]; [left|right; lia].
      exists 0, (fun _ => p), (fun _ => 0), r. split; [split; [auto|lia]|]. exists phi, mu', z', d. auto.
Qed.

(** ** Conversely: the loops follow given steps *)
Lemma armijo_follow t z q Q d D a b fuel : n = length xs -> table_at xs t z -> is_vec (length xs) q Q -> is_vec (length xs) d D -> test q d a b ->
  Armijo_loop (S fuel) Q D (lm_f cfg A t) (lm_df cfg J t) a =
     if b then Ok a else Armijo_loop fuel Q D (lm_f cfg A t) (lm_df cfg J t) (halve a).
Proof.
  intros En Ht HQ HD (phi1 & phi & M & V1 & V2 & VM & Eb). pose proof (length_pos _ _ _ Ht) as Hm. cbn [Armijo_loop].
  destruct (Vec_scale_l_ok _ a d D Hm HD) as (w & -> & Hw). cbn [bind].
  destruct (Vec_add_ok _ _ _ _ _ Hm HQ Hw) as (y & -> & Hy). cbn [bind].
  unfold lm_f at 1 2, lm_df at 1.
  destruct (SetValues_ok xs t z _ y Ht Hy) as (t1 & -> & Ht1). cbn [bind].
  destruct (eval_vec_at xs n f A Hn HA t1 _ phi1 Ht1 V1) as (F1 & -> & HF1). cbn [bind].
  destruct (SetValues_ok xs t z _ Q Ht HQ) as (t2 & -> & Ht2). cbn [bind].
  destruct (eval_vec_at xs n f A Hn HA t2 _ phi Ht2 V2) as (F2 & -> & HF2). cbn [bind].
  destruct (eval_mat_at xs n jac J Hn HJ t2 _ M Ht2 VM) as (B & -> & HB). cbn [bind].
  destruct (Transpose_ok _ _ _ _ Hn Hm HB) as (Bt & -> & HBt). cbn [bind].
  pose proof (map_is_mat _ _ _ _ (fun v => n_mul v (n_mul (n_dec 4 (-1)) a)) HBt) as Hs. rewrite <- En in HD.
  destruct (Mat_mul_ok _ _ _ _ _ _ _ Hm Nat.lt_0_1 Hs HD) as (C & EC & HC).
  unfold Mat_scale_l. rewrite EC. cbn [bind]. rewrite <- En in HC.
  destruct (Mat_map2_ok n_add _ _ _ _ F2 C HF2 HC) as (S0 & ES & HS). unfold Mat_add. rewrite ES. cbn [bind].
  rewrite (Norm2_ksum _ _ _ HF1).
  assert (HS' : is_vec n (fun i => n_add (phi i) (ksum n (fun l => n_mul (n_mul (M l i) (n_mul (n_dec 4 (-1)) a)) (d l)))) S0) by exact HS.
  rewrite (Norm2_ksum _ _ _ HS'), Eb. reflexivity.
Qed.
Lemma armijo_follows t z q Q d D k : n = length xs -> table_at xs t z -> is_vec (length xs) q Q -> is_vec (length xs) d D ->
  forall a, test q d (Nat.iter k halve a) true -> (forall k', k' < k -> test q d (Nat.iter k' halve a) false) ->
  forall fuel, k < fuel -> Armijo_loop fuel Q D (lm_f cfg A t) (lm_df cfg J t) a = Ok (Nat.iter k halve a).
Proof.
  intros En Ht HQ HD. induction k as [|k IH]; intros a T N fuel Hf; (destruct fuel as [|fuel]; [lia|]).
  - exact (armijo_follow t z q Q d D a true fuel En Ht HQ HD T).
  - rewrite (armijo_follow t z q Q d D a false fuel En Ht HQ HD (N 0 ltac:(lia))).
    rewrite (iter_shift halve k a) in T. rewrite IH; [now rewrite (iter_shift halve k a)|exact T| |lia].
    intros k' Hk'. rewrite <- (iter_shift halve k' a). apply N. lia.
Qed.

(** One trial. *)
Lemma lm_trial_follow mu Q F p phi phi' z z' : n = length xs -> is_vec (length xs) p Q -> is_vec n phi F ->
  lm_trial cfg xs n f jac p phi mu z z' -> values_at cfg xs z' n f phi' -> exists a0, forall afuel, a0 <= afuel ->
  forall t, table_at xs t z -> exists Fn dq Dq t', is_vec n phi' Fn /\ is_vec (length xs) dq Dq /\
    (forall j, j < length xs -> z' j = n_add (p j) (dq j)) /\ table_at xs t' z' /\
    forall fuel it, LM_inner cfg (S fuel) afuel A J it mu Q F t =
      if n_ltb (sumsq n phi') (sumsq n phi) then Ok (it, Fn, Dq, t')
      else if (it =? maxIterations cfg)%Z then Throw limit_exceeded
      else LM_inner cfg fuel afuel A J (it + 1) (n_mul mu (n_ofZ 10)) Q F t'.
Proof.
  intros En HQ HF (d & k & (M & VM & (AA & b & X & HAA & Hb & EX & HX)) & Tk & Nk & Ez) V. exists (S k). intros afuel Ha t Ht.
  pose proof (length_pos _ _ _ Ht) as Hm. rewrite En in HX.
  destruct (Vec_scale_l_ok _ (step_length k) _ X Hm HX) as (Dq & EDq & HDq).
  destruct (Vec_add_ok _ _ _ _ _ Hm HQ HDq) as (q1 & Eq1 & Hq1).
  assert (Hq2 : is_vec (length xs) z' q1).
  { eapply is_mat_ext; [|exact Hq1]. intros i j Hi _. cbv beta. symmetry. apply Ez. now rewrite En. }
  destruct (SetValues_ok xs t z _ q1 Ht Hq2) as (t' & Et' & Ht').
  destruct (eval_vec_at xs n f A Hn HA t' _ phi' Ht' V) as (Fn & EFn & HFn).
  exists Fn, (fun j => n_mul (d j) (step_length k)), Dq, t'.
  split; [exact HFn|]. split; [exact HDq|]. split; [intros j Hj; apply Ez; now rewrite En|]. split; [exact Ht'|].
  intros fuel it. cbn [LM_inner].
  destruct (eval_mat_at xs n jac J Hn HJ t _ M Ht VM) as (B & -> & HB). cbn [bind].
  destruct (Transpose_ok _ _ _ _ Hn Hm HB) as (Bt & -> & HBt). cbn [bind].
  destruct (Mat_mul_ok _ _ _ _ _ _ _ Hm Hm HBt HB) as (BtB & -> & HBtB). cbn [bind].
  pose proof HB as (R1 & R2 & _). rewrite R1, R2.
  destruct (Mat_make_ok n (length xs) (n_ofZ 0 : K) Hn Hm) as (I0 & -> & HI0). cbn [bind].
  rewrite <- En in HI0, HBtB. destruct (Ones_ok n _ I0 HI0) as (I1 & -> & HI1). cbn [bind].
  pose proof (map_is_mat _ _ _ _ (fun v => n_mul v mu) HI1) as HI2.
  destruct (Mat_map2_ok n_add _ _ _ _ _ _ HBtB HI2) as (AA' & EAA & HAA'). unfold Mat_add at 1, Mat_scale_l at 1. rewrite EAA. cbn [bind].
  destruct (Mat_mul_ok _ _ _ _ _ _ _ Hm Nat.lt_0_1 HBt HF) as (BtF & -> & HBtF). cbn [bind].
  destruct (ToVec_ok _ _ _ Hm HBtF) as (g & -> & Hg). cbn [bind].
  assert (Hg' : is_vec (length xs) (fun i => ksum n (fun l => n_mul (M l i) (phi l))) g) by exact Hg.
  unfold Vec_neg. destruct (Vec_map_ok _ _ _ n_neg Hm Hg') as (b' & -> & Hb'). cbn [bind]. rewrite <- En in Hb'.
  rewrite (is_mat_unique _ _ _ _ _ HAA' HAA), (is_mat_unique _ _ _ _ _ Hb' Hb), EX. cbn [bind]. unfold Armijo at 1.
  rewrite (armijo_follows t z p Q d X k En Ht HQ HX (n_ofZ 1) Tk Nk afuel ltac:(lia)). cbn [bind].
  change (Nat.iter k halve (n_ofZ 1)) with (step_length (K:=K) k).
  rewrite EDq. cbn [bind]. rewrite Eq1. cbn [bind]. rewrite Et'. cbn [bind]. rewrite EFn. cbn [bind].
  now rewrite (Norm2_ksum _ _ _ HFn), (Norm2_ksum _ _ _ HF).
Qed.

(** r rejected trials. *)
Lemma lm_tries_follow Q F p phi r mu z : n = length xs -> is_vec (length xs) p Q -> is_vec n phi F ->
  lm_tries cfg xs n f jac p phi r mu z -> exists a0, forall afuel, a0 <= afuel -> forall t, table_at xs t p ->
  exists t', table_at xs t' z /\ forall fuel it, (forall i, i < r -> (it + Z.of_nat i)%Z <> maxIterations cfg) ->
    LM_inner cfg (r + fuel) afuel A J it (n_dec 1 (-5)) Q F t = LM_inner cfg fuel afuel A J (it + Z.of_nat r) mu Q F t'.
Proof.
  intros En HQ HF. induction 1 as [|r mu z z' phi' Tr IH Tl V Lt].
  - exists 0. intros afuel _ t Ht. exists t. split; [exact Ht|]. intros fuel it _. now rewrite Z.add_0_r.
  - destruct IH as [a0 IH]. destruct (lm_trial_follow mu Q F p phi phi' z z' En HQ HF Tl V) as [a1 St].
    exists (max a0 a1). intros afuel Ha t Ht. destruct (IH afuel ltac:(lia) t Ht) as (t1 & Ht1 & E1).
    destruct (St afuel ltac:(lia) t1 Ht1) as (Fn & dq & Dq & t' & _ & _ & _ & Ht' & E2). exists t'. split; [exact Ht'|].
    intros fuel it Hi. replace (S r + fuel) with (r + S fuel) by lia. rewrite E1 by (intros; apply Hi; lia). rewrite E2, Lt.
    destruct (Z.eqb_spec (it + Z.of_nat r) (maxIterations cfg)) as [Ei|_]; [exfalso; apply (Hi r ltac:(lia) Ei)|]. f_equal. lia.
Qed.

Lemma vec_exists m (v : nat -> K) : exists w, is_vec m v w.
Proof.
  exists (MkMat m 1 (map v (seq 0 m))). apply vec_is_mat. split; [|split]; cbn; [now rewrite map_length, seq_length|reflexivity|reflexivity].
Qed.
Lemma values_not_vanish t p phi psi : table_at xs t p -> values_at cfg xs p n f phi -> values_at cfg xs p n f psi -> ~ vanish cfg n psi -> ~ vanish cfg n phi.
Proof. intros Ht V V' N Q. apply N. eapply vanish_ext; [|exact Q]. intros i Hi. exact (values_unique _ _ _ _ _ _ _ Ht V V' i Hi). Qed.

(** One accepted step. *)
Lemma lm_step_follow r p p' : n = length xs -> lm_step cfg xs n f jac r p p' -> exists a0, forall afuel, a0 <= afuel ->
  forall Q t, table_at xs t p -> is_vec (length xs) p Q -> exists Q' t', table_at xs t' p' /\ is_vec (length xs) p' Q' /\
    forall fuel it, r <= fuel -> (forall i, i < r -> (it + Z.of_nat i)%Z <> maxIterations cfg) ->
      LM_loop cfg (S fuel) afuel A J it Q t =
      if (it + Z.of_nat r =? maxIterations cfg)%Z then Throw limit_exceeded else LM_loop cfg fuel afuel A J (it + Z.of_nat r + 1) Q' t'.
Proof.
  intros En (phi & phi' & mu & z & V & Nv & Tr & Tl & V' & Lt).
  assert (G : forall Q F, is_vec (length xs) p Q -> is_vec n phi F -> exists a0, forall afuel, a0 <= afuel -> forall t, table_at xs t p ->
    exists Fn dq Dq t', is_vec (length xs) dq Dq /\ (forall j, j < length xs -> p' j = n_add (p j) (dq j)) /\ table_at xs t' p' /\
      forall fuel it, r <= fuel -> (forall i, i < r -> (it + Z.of_nat i)%Z <> maxIterations cfg) ->
      LM_inner cfg (S fuel) afuel A J it (n_dec 1 (-5)) Q F t = Ok ((it + Z.of_nat r)%Z, Fn, Dq, t')).
  { intros Q F HQ HF. destruct (lm_tries_follow Q F p phi r mu z En HQ HF Tr) as [a0 E0].
    destruct (lm_trial_follow mu Q F p phi phi' z p' En HQ HF Tl V') as [a1 E1]. exists (max a0 a1). intros afuel Ha t Ht.
    destruct (E0 afuel ltac:(lia) t Ht) as (t1 & Ht1 & F0). destruct (E1 afuel ltac:(lia) t1 Ht1) as (Fn & dq & Dq & t' & _ & HD & Ep & Ht' & F1).
    exists Fn, dq, Dq, t'. split; [exact HD|]. split; [exact Ep|]. split; [exact Ht'|]. intros fuel it Hr Hi.
    replace (S fuel) with (r + S (fuel - r)) by lia. rewrite (F0 _ it Hi), F1, Lt. reflexivity. }
  (* the data of Q and F depend only on p and phi *)
  destruct (vec_exists (length xs) p) as [Q0 HQ0]. destruct (vec_exists n phi) as [F0 HF0].
  destruct (G Q0 F0 HQ0 HF0) as [a0 E0]. exists a0. intros afuel Ha Q t Ht HQ.
  rewrite (is_mat_unique _ _ _ _ _ HQ HQ0). destruct (E0 afuel Ha t Ht) as (Fn & dq & Dq & t1 & HD & Ep & Ht1 & EI).
  destruct (Mat_map2_ok n_add _ _ _ _ Q0 Dq HQ0 HD) as (Q' & EQ & HQ').
  assert (HQ2 : is_vec (length xs) p' Q').
  { eapply is_mat_ext; [|exact HQ']. intros i j Hi _. cbv beta. symmetry. now apply Ep. }
  destruct (SetValues_ok xs t1 p' p' Q' Ht1 HQ2) as (t' & Et' & Ht').
  exists Q', t'. split; [exact Ht'|]. split; [exact HQ2|]. intros fuel it Hr Hi. cbn [LM_loop].
  destruct (eval_vec_at xs n f A Hn HA t _ phi Ht V) as (F & -> & HF). cbn [bind].
  destruct (Mat_eq_num cfg F (n_ofZ 0)) eqn:Eq; [apply (Mat_eq_num_vanish n phi F HF) in Eq; tauto|].
  rewrite (is_mat_unique _ _ _ _ _ HF HF0), (EI _ _ Hr Hi). cbn [bind].
  unfold Mat_add. rewrite EQ. cbn [bind]. rewrite Et'. reflexivity.
Qed.

(** k accepted steps. *)
Lemma lm_count_le rej i k : i <= k -> lm_count rej i <= lm_count rej k.
Proof. induction 1; cbn [lm_count]; lia. Qed.
Lemma lm_follow : n = length xs -> forall k ps rej p, lm_points cfg xs n f jac p ps rej k -> exists a0, forall afuel, a0 <= afuel ->
  forall Q t, table_at xs t p -> is_vec (length xs) p Q -> exists Q' t', table_at xs t' (ps k) /\ is_vec (length xs) (ps k) Q' /\
  forall fuel it, lm_count rej k <= fuel -> (forall i, i < lm_count rej k -> (it + Z.of_nat i)%Z <> maxIterations cfg) ->
    LM_loop cfg (k + fuel) afuel A J it Q t = LM_loop cfg fuel afuel A J (it + Z.of_nat (lm_count rej k)) Q' t'.
Proof.
  intros En. induction k as [|k IH]; intros ps rej p [P0 PS].
  - exists 0. intros afuel _ Q t Ht HQ. exists Q, t. rewrite P0. split; [exact Ht|]. split; [exact HQ|]. intros fuel it _ _. cbn [lm_count]. now rewrite Z.add_0_r.
  - pose proof (PS 0 ltac:(lia)) as St. rewrite P0 in St. destruct (lm_step_follow (rej 0) p (ps 1) En St) as [a0 E0].
    destruct (IH (fun i => ps (S i)) (fun i => rej (S i)) (ps 1)) as [a1 E1]; [split; [reflexivity|]; intros i Hi; apply PS; lia|].
    exists (max a0 a1). intros afuel Ha Q t Ht HQ. destruct (E0 afuel ltac:(lia) Q t Ht HQ) as (Q1 & t1 & Ht1 & HQ1 & F0).
    destruct (E1 afuel ltac:(lia) Q1 t1 Ht1 HQ1) as (Q2 & t2 & Ht2 & HQ2 & F1). exists Q2, t2. split; [exact Ht2|]. split; [exact HQ2|].
    intros fuel it Hf Hi. rewrite lm_count_shift in *. cbn [Nat.add]. rewrite F0; [|lia|intros i Hi'; apply Hi; lia].
    destruct (Z.eqb_spec (it + Z.of_nat (rej 0%nat)) (maxIterations cfg)) as [Ei|_]; [exfalso; apply (Hi (rej 0) ltac:(lia) Ei)|].
    rewrite F1; [f_equal; lia|lia|]. intros i Hi'. replace (it + Z.of_nat (rej 0%nat) + 1 + Z.of_nat i)%Z with (it + Z.of_nat (S (rej 0%nat) + i)%nat)%Z by lia. apply Hi. lia.
Qed.

(** The limit is reached by r rejected trials. *)
Lemma lm_limit_rejected r p phi mu z : n = length xs -> values_at cfg xs p n f phi -> ~ vanish cfg n phi -> lm_tries cfg xs n f jac p phi (S r) mu z ->
  exists a0, forall afuel, a0 <= afuel -> forall Q t fuel it, table_at xs t p -> is_vec (length xs) p Q -> r <= fuel ->
  (forall i, i < r -> (it + Z.of_nat i)%Z <> maxIterations cfg) -> (it + Z.of_nat r)%Z = maxIterations cfg ->
  LM_loop cfg (S fuel) afuel A J it Q t = Throw limit_exceeded.
Proof.
  intros En V Nv Tr. 
  assert (G : exists mu' z' phi', lm_tries cfg xs n f jac p phi r mu' z' /\ lm_trial cfg xs n f jac p phi mu' z' z /\ values_at cfg xs z n f phi' /\ n_ltb (sumsq n phi') (sumsq n phi) = false) by (inversion Tr; eauto 8).
  destruct G as (mu' & z' & phi' & Tr' & Tl & V' & Lt).
  destruct (vec_exists (length xs) p) as [Q0 HQ0]. destruct (vec_exists n phi) as [F0 HF0].
  destruct (lm_tries_follow Q0 F0 p phi r mu' z' En HQ0 HF0 Tr') as [a0 E0].
  destruct (lm_trial_follow mu' Q0 F0 p phi phi' z' z En HQ0 HF0 Tl V') as [a1 E1]. exists (max a0 a1). intros afuel Ha Q t fuel it Ht HQ Hf Hi Em.
  destruct (E0 afuel ltac:(lia) t Ht) as (t1 & Ht1 & G0). destruct (E1 afuel ltac:(lia) t1 Ht1) as (Fn & dq & Dq & t' & _ & _ & _ & _ & G1).
  cbn [LM_loop]. destruct (eval_vec_at xs n f A Hn HA t _ phi Ht V) as (F & -> & HF). cbn [bind].
  destruct (Mat_eq_num cfg F (n_ofZ 0)) eqn:Eq; [apply (Mat_eq_num_vanish n phi F HF) in Eq; tauto|].
  rewrite (is_mat_unique _ _ _ _ _ HF HF0), (is_mat_unique _ _ _ _ _ HQ HQ0).
  replace (S fuel) with (r + S (fuel - r)) by lia. rewrite (G0 _ it Hi), G1, Lt, Em, Z.eqb_refl. reflexivity.
Qed.

Lemma lm_done fuel afuel it q t p : table_at xs t p -> solved cfg xs n f p -> LM_loop cfg (S fuel) afuel A J it q t = Ok t.
Proof.
  intros Ht (phi & V & Va). cbn [LM_loop]. destruct (eval_vec_at xs n f A Hn HA t p phi Ht V) as (F & -> & HF). cbn [bind].
  now rewrite (proj2 (Mat_eq_num_vanish n phi F HF) Va).
Qed.
End LM.
End P.
