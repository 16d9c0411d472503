(** C66: no operation invents a variable. *)
From Coq Require Import String List ZArith Bool Arith Lia Sorting.Sorted.
From Verif Require Import Base MathOp NodeModel SimplifyModel SubsModel DiffModel MatModel VarsTableModel SymMatModel NonlinearModel
  ExprSpec SubsSpec SimplifySpec DiffSpec MatSpec VarsSpec SymMatSpec NodeProofs MatProofs DiffProofs Thm_Node Thm_Subs Thm_Simplify Thm_Diff SymMatProofs Thm_SymMat IEEE.
Import ListNotations.
Local Open Scope string_scope.
Local Open Scope list_scope.
Local Open Scope nat_scope.

Section A.
Context {K : num_ops}.
Implicit Types (e : expr K).

Lemma contract_occurs s e r : contract s e r -> forall e' y, r = SDone e' -> occurs y e' -> occurs y e.
Proof.
  assert (F : forall (o : option K) e' y, of_outcome (finish s o) = SDone e' -> ~ occurs y e').
  { intros o e' y E O. destruct o as [v|]; [|discriminate]. cbn in E. destruct (s && invalidb v); [discriminate|]. injection E as <-. inversion O. }
  intros H e' y E O. destruct H as [u v|u a N|b v w|b a c N Ab|b a c d N Ab Ne|b a c N Ab Ne].
  - exfalso. eapply F; eauto.
  - injection E as <-. exact O.
  - exfalso. eapply F; eauto.
  - injection E as <-. inversion O.
  - injection E as <-. inversion Ne; subst; first [now apply occ_l|now apply occ_r].
  - injection E as <-. exact O.
Qed.
Lemma simplifies_occurs s e r : simplifies s e r -> forall e' y, r = SDone e' -> occurs y e' -> occurs y e.
Proof.
  induction 1 as [v|x|u a a' r H IH C|u a r H IH N|b a c a' c' r H1 IH1 H2 IH2 C|b a c r H IH N|b a c a' r H1 IH1 H2 IH2 N]; intros e' y E O.
  - now injection E as <-.
  - now injection E as <-.
  - pose proof (contract_occurs _ _ _ C e' y E O) as O'. inversion O'; subst. constructor. now apply (IH a').
  - exfalso. now apply (N e').
  - pose proof (contract_occurs _ _ _ C e' y E O) as O'. inversion O'; subst; [apply occ_l; now apply (IH1 a')|apply occ_r; now apply (IH2 c')].
  - exfalso. now apply (N e').
  - exfalso. now apply (N e').
Qed.

(** Whatever Simplify returns is an expression, and every variable in it was in the argument. *)
Theorem C66_simplify (cfg : config K) e n : Simplify cfg (embed e) = Ok n ->
  exists e', n = embed e' /\ forall y, occurs y e' -> occurs y e.
Proof.
  intros H. destruct (C19_simplify_refines K cfg e) as (r & Hr & R). rewrite H in R.
  destruct r as [e'| |]; simpl in R; [|discriminate|destruct R; discriminate]. injection R as ->.
  exists e'. split; auto. intros y O. eapply simplifies_occurs; eauto.
Qed.

(** The same for derivatives of any order with respect to any variable. *)
Theorem C66_diff (cfg : config K) e x (i : Z) n : Diff cfg (embed e) x i = Ok n ->
  exists e', n = embed e' /\ forall y, occurs y e' -> occurs y e.
Proof.
  intros H. destruct (Z_le_gt_dec i 0) as [Hi|Hi].
  { unfold Diff in H. replace (i <=? 0)%Z with true in H by (symmetry; now apply Z.leb_le). discriminate. }
  rewrite <- (Z2Nat.id i) in H by lia. destruct (Z.to_nat i) as [|k] eqn:Ek; [lia|]. clear i Hi Ek.
  destruct (no_int_dec e) as [Hi|Hi].
  2:{ destruct (proj2 (C22_diff_throws_iff K cfg e x (S k) ltac:(lia)) Hi) as [msg E]. congruence. }
  rewrite Diff_of_nat, DiffTimes_ok in H by auto. cbn [bind] in H.
  apply C66_simplify in H as (e' & -> & O). exists e'. split; auto. intros y Hy. apply O in Hy. eapply dexpr_n_occurs; eauto.
Qed.

(** In terms of GetAllVarNames. *)
Theorem C66_diff_names (cfg : config K) e x (i : Z) n : Diff cfg (embed e) x i = Ok n ->
  exists s s', GetAllVarNames (embed e) = Ok s /\ GetAllVarNames n = Ok s' /\ incl s' s.
Proof.
  intros H. destruct (C66_diff cfg e x i n H) as (e' & -> & O).
  destruct (C07_all_var_names K e) as (s & E & _ & I). destruct (C07_all_var_names K e') as (s' & E' & _ & I').
  exists s, s'. split; auto. split; auto. intros y Hy. apply I, O, I', Hy.
Qed.

(** So a derivative can be evaluated with the values of the variables of the expression: after
    Subs with values for all of them, Vpa never complains about a variable. *)
Theorem C66_diff_evaluates (cfg : config K) e x (i : Z) n (vals : list (string * K)) : Diff cfg (embed e) x i = Ok n ->
  NoDup (map fst vals) -> (forall y, occurs y e -> In y (map fst vals)) ->
  exists e' r, n = embed e' /\ SubsValues n vals = Ok r /\
    reports (Vpa cfg r) (eval_in (throwOnInvalidValue cfg) (fun y => match map_find y vals with Some v => v | None => n_ofZ 0 end) e') /\
    eval_in (throwOnInvalidValue cfg) (fun y => match map_find y vals with Some v => v | None => n_ofZ 0 end) e' <> HasVariable.
Proof.
  intros H Nd Hv. destruct (C66_diff cfg e x i n H) as (e' & -> & O).
  set (env := fun y => match map_find y vals with Some v => v | None => n_ofZ 0 end).
  destruct (C25_subs_vpa K cfg e' vals env Nd) as (r & Er & Rr).
  { intros y Hy. apply O, Hv in Hy. apply in_map_iff in Hy as ([y' v] & Ey & Hy). cbn in Ey. subst y'. unfold env.
    now rewrite (proj2 (map_find_in y vals v Nd) Hy). }
  exists e', r. repeat split; auto.
  assert (F : forall o : option K, finish (throwOnInvalidValue cfg) o <> HasVariable).
  { intros [v|]; cbn; [destruct (throwOnInvalidValue cfg && invalidb v)|]; discriminate. }
  clear. induction e' as [v|y|u a IH|b a IHa c IHc]; cbn [eval_in]; try discriminate.
  - destruct (eval_in _ env a); try congruence; try discriminate. unfold finish. destruct (throwOnInvalidValue cfg && _); discriminate.
  - destruct (eval_in _ env a); try congruence; try discriminate. destruct (eval_in _ env c); try congruence; try discriminate.
    unfold finish. destruct (bin_sem _ _ _); [|discriminate]. destruct (throwOnInvalidValue cfg && _); discriminate.
Qed.

(** The Jacobian of a vector of equations contains only their variables. *)
Lemma mapM_Ok {T U} (F : T -> res U) (Q : T -> U -> Prop) l d : (forall k u, In k l -> F k = Ok u -> Q k u) -> mapM F l = Ok d -> Forall2 Q l d.
Proof.
  revert d. induction l as [|k l IH]; intros d H E; cbn [mapM] in E; [injection E as <-; constructor|].
  destruct (F k) as [u| | | | |] eqn:Ek; try discriminate. cbn [bind] in E. destruct (mapM F l) as [us| | | | |] eqn:Es; try discriminate. cbn [bind] in E.
  injection E as <-. constructor; [apply H; simpl; auto|]. apply IH; auto. intros k' u' Hk. apply H. simpl; auto.
Qed.
Theorem C66_jacobian (cfg : config K) n (f : nat -> expr K) (A : symmat K) (xs : list string) J : 0 < n -> xs <> [] ->
  is_sym n 1 (fun i _ => f i) A -> Jacobian cfg A xs = Ok J ->
  exists s s', SymMat_GetAllVarNames A = Ok s /\ SymMat_GetAllVarNames J = Ok s' /\ incl s' s.
Proof.
  intros Hn Hx HA HJ. destruct (C34_all_var_names n 1 _ A HA) as (s & Es & _ & Is). pose proof (is_sym_nth _ _ _ _ HA) as Nt. destruct HA as (E1 & E2 & _).
  assert (Hl : 0 < length xs) by (destruct xs; simpl; [congruence|lia]).
  unfold Jacobian in HJ. rewrite E1, SymMat_make_ok in HJ by auto. cbn [bind s_data] in HJ. rewrite repeat_length in HJ. set (m := length xs) in *.
  set (F := fun k => let* q := va_get (s_data A) (k / m) in
       match nth_error xs (k mod m) with Some x => Diff cfg q x 1 | None => Undef "vector index out of range" end) in HJ.
  destruct (mapM F (seq 0 (n * m))) as [d| | | | |] eqn:Ed; cbn [noexcept bind] in HJ; try discriminate. injection HJ as <-.
  assert (G : exists l, length l = n * m /\ d = map embed l /\ forall k e y, nth_error l k = Some e -> occurs y e -> exists i, i < n /\ occurs y (f i)).
  { apply (mapM_Ok F (fun k u => exists e, u = embed e /\ forall y, occurs y e -> exists i, i < n /\ occurs y (f i))) in Ed.
    - enough (G : exists l : list (expr K), length l = length (seq 0 (n * m)) /\ d = map embed l /\ forall k e y, nth_error l k = Some e -> occurs y e -> exists i, i < n /\ occurs y (f i))
        by now rewrite seq_length in G.
      revert Ed. generalize (seq 0 (n * m)) as ks. clear. intros ks H.
      induction H as [|k u ks us (e & -> & He) H IH]; [exists []; repeat split; auto; intros [|k] e0 y E; discriminate|].
      destruct IH as (l & Ll & -> & Hl). exists (e :: l). cbn [length map]. repeat split; auto.
      intros [|k'] e' y E O; cbn in E; [injection E as <-; auto|eapply Hl; eauto].
    - intros k u Hk E. apply in_seq in Hk. destruct (divmod_lt n m k ltac:(lia)) as [L1 L2]. unfold F, va_get in E.
      rewrite Nt in E by (rewrite Nat.mul_1_r; exact L1). cbn [bind] in E. destruct (nth_error xs (k mod m)) as [x|] eqn:Ex; [|discriminate].
      rewrite Nat.div_1_r in E. apply C66_diff in E as (e & -> & O). exists e. split; auto. intros y Hy. exists (k / m). auto. }
  destruct G as (l & Ll & -> & Hl').
  assert (HJ : is_sym n m (fun i j => nth (i * m + j) l (ENum (n_ofZ 0))) (MkSym n m (map embed l))).
  { split; [reflexivity|]. split; [reflexivity|]. split; [cbn; now rewrite map_length|]. intros i j Hi Hj.
    pose proof (pos_lt n m i j Hi Hj) as Hp. unfold SymValue, va_get. cbn [s_rows s_cols s_data].
    rewrite (nth_error_nth' (map embed l) (embed (ENum (n_ofZ 0)))) by (rewrite map_length; lia). now rewrite map_nth. }
  destruct (C34_all_var_names n m _ _ HJ) as (s' & Es' & _ & Is'). exists s, s'. split; auto. split; auto.
  intros y Hy. apply Is' in Hy as (i & j & Hi & Hj & O). pose proof (pos_lt n m i j Hi Hj) as Hp.
  destruct (nth_error l (i * m + j)) as [e|] eqn:Ee.
  - apply Is. rewrite (nth_error_nth l _ _ Ee) in O. destruct (Hl' _ e y Ee O) as (i' & Hi' & O'). exists i', 0. repeat split; auto.
  - apply nth_error_None in Ee. lia.
Qed.
End A.

(** The derivative of x*sin(y) with respect to x, in doubles: the variable x is gone, no other came. *)
Example C66_ex :
  match Diff (default_config D) (embed (EBin BMul (EVar "x") (EUn USin (EVar "y")))) "x" 1 with
  | Ok n => match GetAllVarNames n with Ok l => l | _ => ["failed"] end | _ => ["failed"] end = ["y"] /\
  match GetAllVarNames (K:=D) (embed (EBin BMul (EVar "x") (EUn USin (EVar "y")))) with Ok l => l | _ => [] end = ["x"; "y"].
Proof. split; vm_compute; reflexivity. Qed.
