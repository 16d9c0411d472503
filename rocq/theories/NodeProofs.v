(** Proofs about the read-only traversals of NodeModel.v. *)
From Coq Require Import String Ascii List ZArith Bool Arith Lia Sorted.
From Verif Require Import Base MathOp NodeModel ExprSpec.
Import ListNotations.
Local Open Scope string_scope. Local Open Scope list_scope.

Section Proofs.
Context {K : num_ops}.
Implicit Types (e a c : expr K) (n : node K).

Lemma embed_not_nil e : embed e <> Nil.
Proof. destruct e; simpl; discriminate. Qed.

Lemma GetOperatorNum_unop u : GetOperatorNum (unop_op u) = 1.
Proof. destruct u; reflexivity. Qed.
Lemma GetOperatorNum_binop b : GetOperatorNum (binop_op b) = 2.
Proof. destruct b; reflexivity. Qed.

Lemma embed_size e : node_size (embed e) = esize e.
Proof. induction e; simpl; auto; try rewrite IHe; lia. Qed.

Lemma unop_op_inj u u' : unop_op u = unop_op u' -> u = u'.
Proof. destruct u, u'; simpl; congruence. Qed.
Lemma binop_op_inj b b' : binop_op b = binop_op b' -> b = b'.
Proof. destruct b, b'; simpl; congruence. Qed.
Lemma unop_binop_neq u b : unop_op u <> binop_op b.
Proof. destruct u, b; discriminate. Qed.

Lemma embed_inj e e' : embed e = embed e' -> e = e'.
Proof.
  revert e'; induction e as [v|x|u a IH|b a IHa c IHc]; intros [v'|x'|u' a'|b' a' c'] H;
    simpl in H; try discriminate; try congruence.
  - injection H as H1 H2. apply unop_op_inj in H1. f_equal; auto.
  - injection H as H1 H2 H3. symmetry in H3. destruct c'; discriminate.
  - injection H as H1 H2 H3. exfalso. destruct c; discriminate.
  - injection H as H1 H2 H3. apply binop_op_inj in H1. f_equal; auto.
Qed.

(** ** Vpa *)

Fixpoint post (n : node K) : list (node K) :=
  match n with Nil => [] | N _ _ _ _ l r => post l ++ post r ++ [n] end.

Lemma VpaOrder_spec fuel : forall stk acc,
  Forall (fun n => n <> Nil) stk -> stack_size stk < fuel ->
  VpaOrder fuel stk acc = Ok (flat_map post (rev stk) ++ acc).
Proof.
  induction fuel as [|fuel IH]; intros stk acc Hn Hs; [lia|].
  destruct stk as [|n stk]; [reflexivity|].
  inversion Hn as [|? ? Hn1 Hn2]; subst. simpl.
  destruct n as [|ty op v x l r]; [congruence|]. simpl in Hs.
  rewrite IH.
  - f_equal. rewrite flat_map_app. simpl.
    destruct l as [|? ? ? ? ll lr]; destruct r as [|? ? ? ? rl rr]; simpl;
      rewrite ?flat_map_app; simpl; rewrite ?flat_map_app; simpl;
      rewrite ?app_nil_r, <- ?app_assoc; simpl; rewrite <- ?app_assoc; reflexivity.
  - destruct l, r; repeat constructor; auto; discriminate.
  - destruct l, r; simpl in *; lia.
Qed.

(** Recursive evaluation with the code's [Calc]. *)
Fixpoint evalC (cfg : config K) (e : expr K) : res K :=
  match e with
  | ENum v => Ok v
  | EVar _ => Throw (RuntimeError "wrong")
  | EUn u a => let* x := evalC cfg a in Calc cfg (unop_op u) x n_nan
  | EBin b a c => let* x := evalC cfg a in let* y := evalC cfg c in Calc cfg (binop_op b) x y
  end.

Lemma foldM_app {A B} (f : B -> A -> res B) l1 l2 b :
  foldM f (l1 ++ l2) b = let* b' := foldM f l1 b in foldM f l2 b'.
Proof.
  revert b; induction l1; intros b; simpl; [reflexivity|].
  destruct (f b a); simpl; auto.
Qed.

Lemma VpaStep_embed cfg e : forall s,
  foldM (VpaStep cfg) (post (embed e)) s = let* v := evalC cfg e in Ok (v :: s).
Proof.
  induction e as [v|x|u a IH|b a IHa c IHc]; intros s; try reflexivity.
  - simpl. rewrite !foldM_app. rewrite IH. destruct (evalC cfg a); try reflexivity. simpl.
    rewrite GetOperatorNum_unop. destruct (Calc cfg (unop_op u) a0 n_nan); reflexivity.
  - simpl. rewrite !foldM_app. rewrite IHa. destruct (evalC cfg a); try reflexivity. simpl.
    rewrite !foldM_app. rewrite IHc. destruct (evalC cfg c); try reflexivity. simpl.
    rewrite GetOperatorNum_binop. destruct (Calc cfg (binop_op b) a0 a1); reflexivity.
Qed.

Lemma Vpa_evalC cfg e : Vpa cfg (embed e) = evalC cfg e.
Proof.
  unfold Vpa. pose proof (embed_not_nil e) as Hn.
  destruct (embed e) as [|ty op v x l r] eqn:E; [congruence|]. rewrite <- E in *.
  rewrite VpaOrder_spec; [|constructor; auto|simpl; lia].
  change (rev [embed e]) with [embed e].
  simpl flat_map. rewrite !app_nil_r. cbn [bind].
  rewrite VpaStep_embed. destruct (evalC cfg e); reflexivity.
Qed.

Lemma isInvalid_invalidb (v : K) : isInvalid v = invalidb v.
Proof. reflexivity. Qed.

Lemma invalidb_spec (v : K) : invalidb v = true <-> invalid v.
Proof.
  unfold invalidb, invalid. rewrite !orb_true_iff, negb_true_iff. tauto.
Qed.

Lemma Calc_un (cfg : config K) u (x y : K) :
  reports (Calc cfg (unop_op u) x y) (finish (throwOnInvalidValue cfg) (Some (un_sem u x))).
Proof.
  unfold Calc. replace (calc_raw (unop_op u) x y) with (Ok (un_sem u x)) by (destruct u; reflexivity).
  simpl. destruct (throwOnInvalidValue cfg); simpl; [|reflexivity].
  rewrite isInvalid_invalidb. destruct (invalidb (un_sem u x)); simpl; eauto.
Qed.

Lemma Calc_bin (cfg : config K) b (x y : K) :
  reports (Calc cfg (binop_op b) x y) (finish (throwOnInvalidValue cfg) (bin_sem b x y)).
Proof.
  unfold Calc.
  assert (H : match bin_sem b x y with
              | Some v => calc_raw (binop_op b) x y = Ok v
              | None => exists w, calc_raw (binop_op b) x y = Undef w end).
  { destruct b; simpl; try reflexivity; unfold int_op;
      destruct (n_toint x) as [p|]; simpl; eauto; destruct (n_toint y) as [q|]; simpl; eauto.
    unfold int_mod, INT_MIN. destruct (Z.eqb q 0); simpl; eauto.
    destruct (Z.eqb p (-2147483648) && Z.eqb q (-1)); simpl; eauto. }
  destruct (bin_sem b x y) as [v|].
  - rewrite H. simpl. destruct (throwOnInvalidValue cfg); simpl; [|reflexivity].
    rewrite isInvalid_invalidb. destruct (invalidb v); simpl; eauto.
  - destruct H as [w ->]. simpl. eauto.
Qed.

Lemma evalC_eval cfg e : reports (evalC cfg e) (eval (throwOnInvalidValue cfg) e).
Proof.
  induction e as [v|x|u a IH|b a IHa c IHc]; simpl; eauto.
  - destruct (eval (throwOnInvalidValue cfg) a) as [x| | |]; simpl in IH.
    + rewrite IH. simpl. apply Calc_un.
    + destruct IH as [m ->]; simpl; eauto.
    + destruct IH as [m ->]; simpl; eauto.
    + destruct IH as [m ->]; simpl; eauto.
  - destruct (eval (throwOnInvalidValue cfg) a) as [x| | |]; simpl in IHa.
    + rewrite IHa. simpl.
      destruct (eval (throwOnInvalidValue cfg) c) as [y| | |]; simpl in IHc.
      * rewrite IHc. simpl. apply Calc_bin.
      * destruct IHc as [m ->]; simpl; eauto.
      * destruct IHc as [m ->]; simpl; eauto.
      * destruct IHc as [m ->]; simpl; eauto.
    + destruct IHa as [m ->]; simpl; eauto.
    + destruct IHa as [m ->]; simpl; eauto.
    + destruct IHa as [m ->]; simpl; eauto.
Qed.

Lemma Vpa_reports cfg e : reports (Vpa cfg (embed e)) (eval (throwOnInvalidValue cfg) e).
Proof. rewrite Vpa_evalC. apply evalC_eval. Qed.

(** ** Equal *)

Fixpoint node_eqb (a b : node K) : bool :=
  match a, b with
  | Nil, Nil => true
  | N _ _ _ _ l1 r1, N _ _ _ _ l2 r2 => IsSame a b && node_eqb l1 l2 && node_eqb r1 r2
  | _, _ => false
  end.

Definition pairs_eqb (s : list (node K * node K)) : bool :=
  forallb (fun p => node_eqb (fst p) (snd p)) s.

Definition pairs_size (s : list (node K * node K)) : nat :=
  fold_right (fun p acc => node_size (fst p) + acc) 0 s.

Lemma CheckNode_spec s ty op v x l r ty' op' v' x' l' r' :
  let a := N ty op v x l r in let b := N ty' op' v' x' l' r' in
  match CheckNode s a b with
  | None => node_eqb a b = false
  | Some s' => pairs_eqb s' = node_eqb a b && pairs_eqb s
               /\ pairs_size s' + 1 <= node_size a + pairs_size s
               /\ (Forall (fun p => fst p <> Nil /\ snd p <> Nil) s ->
                   Forall (fun p => fst p <> Nil /\ snd p <> Nil) s')
  end.
Proof.
  intros a b. subst a b. unfold CheckNode.
  destruct (IsSame (N ty op v x l r) (N ty' op' v' x' l' r')) eqn:HS.
  2:{ cbn [node_eqb]. rewrite HS. reflexivity. }
  destruct l as [|lt lo lv lx ll lr], l' as [|lt' lo' lv' lx' ll' lr'];
    destruct r as [|rt ro rv rx rl rr], r' as [|rt' ro' rv' rx' rl' rr'];
    cbn [CheckChildren].
  all: try (cbn [node_eqb]; rewrite HS; simpl; rewrite ?andb_false_r; reflexivity).
  - split; [|split].
    + cbn [node_eqb]; rewrite HS. reflexivity.
    + simpl; lia.
    + auto.
  - split; [|split].
    + unfold pairs_eqb at 1. cbn [forallb fst snd]. cbn [node_eqb]; rewrite HS. simpl. reflexivity.
    + simpl; lia.
    + constructor; auto. split; discriminate.
  - split; [|split].
    + unfold pairs_eqb at 1. cbn [forallb fst snd].
      change (node_eqb (N ty op v x (N lt lo lv lx ll lr) Nil)
                (N ty' op' v' x' (N lt' lo' lv' lx' ll' lr') Nil))
        with (IsSame (N ty op v x (N lt lo lv lx ll lr) Nil)
                (N ty' op' v' x' (N lt' lo' lv' lx' ll' lr') Nil)
              && node_eqb (N lt lo lv lx ll lr) (N lt' lo' lv' lx' ll' lr') && true).
      rewrite HS. rewrite andb_true_r. reflexivity.
    + simpl; lia.
    + constructor; auto. split; discriminate.
  - split; [|split].
    + set (L := N lt lo lv lx ll lr) in *. set (L' := N lt' lo' lv' lx' ll' lr') in *.
      set (R := N rt ro rv rx rl rr) in *. set (R' := N rt' ro' rv' rx' rl' rr') in *.
      unfold pairs_eqb at 1. cbn [forallb fst snd].
      change (node_eqb (N ty op v x L R) (N ty' op' v' x' L' R'))
        with (IsSame (N ty op v x L R) (N ty' op' v' x' L' R') && node_eqb L L' && node_eqb R R').
      rewrite HS, andb_true_l. unfold pairs_eqb.
      generalize (node_eqb L L') (node_eqb R R'). now intros [] [].
    + simpl; lia.
    + intros H. constructor; [split; discriminate|]. constructor; auto. split; discriminate.
Qed.

Lemma EqualLoop_spec fuel : forall s,
  pairs_size s < fuel -> Forall (fun p => fst p <> Nil /\ snd p <> Nil) s ->
  EqualLoop fuel s = Ok (pairs_eqb s).
Proof.
  induction fuel as [|fuel IH]; intros s Hs Hn; [lia|].
  destruct s as [|[p q] s]; [reflexivity|].
  inversion Hn as [|? ? [Hp Hq] Hn']; subst. simpl in Hp, Hq.
  destruct p as [|ty op v x l r]; [congruence|]. destruct q as [|ty' op' v' x' l' r']; [congruence|].
  cbn [EqualLoop].
  pose proof (CheckNode_spec s ty op v x l r ty' op' v' x' l' r') as H.
  cbv zeta in H. unfold pairs_eqb at 1; cbn [forallb fst snd].
  destruct (CheckNode s _ _) as [s'|].
  - destruct H as (H1 & H2 & H3). rewrite IH; auto.
    + rewrite H1. reflexivity.
    + simpl in Hs, H2. lia.
  - rewrite H. reflexivity.
Qed.

Lemma Equal_node_eqb (a b : node K) : a <> Nil -> b <> Nil -> Equal a b = Ok (node_eqb a b).
Proof.
  intros Ha Hb. destruct a as [|ty op v x l r]; [congruence|].
  destruct b as [|ty' op' v' x' l' r']; [congruence|].
  unfold Equal. pose proof (CheckNode_spec [] ty op v x l r ty' op' v' x' l' r') as H.
  cbv zeta in H. destruct (CheckNode [] _ _) as [s'|].
  - destruct H as (H1 & H2 & H3). rewrite EqualLoop_spec; auto.
    + rewrite H1, andb_true_r. reflexivity.
    + simpl in *. lia.
  - rewrite H. reflexivity.
Qed.

Hypothesis zero_eq : n_eqb (n_ofZ 0) (n_ofZ 0 : K) = true.

Lemma node_eqb_embed e : forall e', node_eqb (embed e) (embed e') = true <-> same e e'.
Proof.
  induction e as [v|x|u a IH|b a IHa c IHc]; intros [v'|x'|u' a'|b' a' c'];
    cbn [embed node_eqb IsSame node_type_eqb].
  all: try (split; [discriminate|inversion 1]).
  - simpl. rewrite !andb_true_r. split; [intros; now constructor|inversion 1; auto].
  - simpl. rewrite zero_eq. simpl. rewrite !andb_true_r.
    split; [intros ->%String.eqb_eq; constructor|inversion 1; subst; apply String.eqb_refl].
  - rewrite zero_eq. rewrite !andb_true_iff, IH. split.
    + intros (((H1 & _) & H2) & H3). destruct (math_op_eqb_spec (unop_op u) (unop_op u')); [|easy].
      apply unop_op_inj in e. subst. now constructor.
    + inversion 1; subst. repeat split; auto. destruct (math_op_eqb_spec (unop_op u') (unop_op u')); auto.
  - split; [|inversion 1]. rewrite !andb_true_iff. intros (((H1 & _) & H2) & H3).
    destruct (math_op_eqb_spec (unop_op u) (binop_op b')); [|easy].
    now apply unop_binop_neq in e.
  - split; [|inversion 1]. rewrite !andb_true_iff. intros (((H1 & _) & H2) & H3).
    destruct (math_op_eqb_spec (binop_op b) (unop_op u')); [|easy].
    symmetry in e. now apply unop_binop_neq in e.
  - rewrite zero_eq. rewrite !andb_true_iff, IHa, IHc. split.
    + intros (((H1 & _) & H2) & H3). destruct (math_op_eqb_spec (binop_op b) (binop_op b')); [|easy].
      apply binop_op_inj in e. subst. now constructor.
    + inversion 1; subst. repeat split; auto. destruct (math_op_eqb_spec (binop_op b') (binop_op b')); auto.
Qed.

Lemma Equal_same e e' : exists r, Equal (embed e) (embed e') = Ok r /\ (r = true <-> same e e').
Proof.
  exists (node_eqb (embed e) (embed e')). split; [apply Equal_node_eqb; apply embed_not_nil|].
  apply node_eqb_embed.
Qed.

End Proofs.

Section Proofs2.
Context {K : num_ops}.
Implicit Types (e a c : expr K) (n : node K).

Lemma same_refl e : all_nums (fun v => n_eqb v v = true) e -> same e e.
Proof. induction e; simpl; constructor; tauto. Qed.
Lemma same_sym (sym : forall v w : K, n_eqb v w = true -> n_eqb w v = true) e e' : same e e' -> same e' e.
Proof. induction 1; constructor; auto. Qed.
Lemma same_trans (tr : forall u v w : K, n_eqb u v = true -> n_eqb v w = true -> n_eqb u w = true) e e' :
  same e e' -> forall e'', same e' e'' -> same e e''.
Proof. induction 1; inversion 1; subst; constructor; eauto. Qed.

(** ** GetAllVarNames *)

Definition str_lt (x y : string) : Prop := String.compare x y = Lt.

Lemma str_compare_eq x y : String.compare x y = Eq <-> x = y.
Proof. split; [apply String.compare_eq_iff|intros ->]. 
  induction y as [|c y IH]; simpl; auto.
  unfold Ascii.compare. rewrite N.compare_refl. auto.
Qed.

Lemma ascii_compare_eq (c d : ascii) : Ascii.compare c d = Eq -> c = d.
Proof. unfold Ascii.compare. intros H%N.compare_eq. rewrite <- (ascii_N_embedding c), <- (ascii_N_embedding d). congruence. Qed.

Lemma str_lt_trans : forall x y z, str_lt x y -> str_lt y z -> str_lt x z.
Proof.
  unfold str_lt. induction x as [|a x IH]; intros [|b y] [|c z]; simpl; try congruence.
  destruct (Ascii.compare a b) eqn:Hab; try discriminate;
  destruct (Ascii.compare b c) eqn:Hbc; try discriminate; intros H1 H2.
  - apply ascii_compare_eq in Hab, Hbc. subst.
    unfold Ascii.compare. rewrite N.compare_refl. eauto.
  - apply ascii_compare_eq in Hab. subst. now rewrite Hbc.
  - apply ascii_compare_eq in Hbc. subst. now rewrite Hab.
  - assert (Ascii.compare a c = Lt) as ->; [|reflexivity].
    unfold Ascii.compare in *. apply N.compare_lt_iff in Hab, Hbc. apply N.compare_lt_iff. eapply N.lt_trans; eassumption.
Qed.

Lemma str_gt_lt x y : String.compare x y = Gt -> str_lt y x.
Proof. unfold str_lt. rewrite String.compare_antisym. destruct (String.compare y x); simpl; congruence. Qed.

Lemma set_insert_in x y s : In y (set_insert x s) <-> y = x \/ In y s.
Proof.
  induction s as [|z s IH]; simpl; [intuition|].
  destruct (String.compare x z) eqn:E; simpl.
  - apply str_compare_eq in E. subst. intuition.
  - intuition.
  - rewrite IH. intuition.
Qed.

Lemma set_insert_sorted x s : StronglySorted str_lt s -> StronglySorted str_lt (set_insert x s).
Proof.
  induction 1 as [|z s Hs IH Hz]; simpl; [repeat constructor|].
  destruct (String.compare x z) eqn:E.
  - constructor; auto.
  - constructor; [constructor; auto|]. constructor; [exact E|].
    eapply Forall_impl; [|exact Hz]. intros w Hw. eapply str_lt_trans; [exact E|exact Hw].
  - constructor; auto. apply Forall_forall. intros w Hw. apply set_insert_in in Hw as [->|Hw].
    + now apply str_gt_lt.
    + rewrite Forall_forall in Hz; auto.
Qed.

Fixpoint raw_vars (n : node K) : list string :=
  match n with
  | Nil => []
  | N ty _ _ x l r => (match ty with VARIABLE => [x] | _ => [] end) ++ raw_vars l ++ raw_vars r
  end.

Lemma GetAllVarNamesLoop_spec fuel : forall stk s,
  stack_size stk < fuel -> Forall (fun n => n <> Nil) stk -> StronglySorted str_lt s ->
  exists s', GetAllVarNamesLoop fuel (stk, s) = Ok s' /\ StronglySorted str_lt s' /\
    forall x, In x s' <-> In x s \/ In x (flat_map raw_vars stk).
Proof.
  induction fuel as [|fuel IH]; intros stk s Hf Hn Hs; [lia|].
  destruct stk as [|n stk]; simpl.
  { exists s. repeat split; auto; intuition. }
  inversion Hn as [|? ? Hn1 Hn2]; subst. destruct n as [|ty op v y l r]; [congruence|].
  simpl in Hf. cbn [EmplaceChild].
  set (s1 := match ty with VARIABLE => set_insert y s | _ => s end).
  set (stk1 := match l with Nil => stk | _ => l :: stk end).
  set (stk2 := match r with Nil => stk1 | _ => r :: stk1 end).
  destruct (IH stk2 s1) as (s' & E & Hs' & Hin).
  - subst stk2 stk1. destruct l, r; simpl in *; lia.
  - subst stk2 stk1. destruct l, r; repeat constructor; auto; discriminate.
  - subst s1. destruct ty; auto using set_insert_sorted.
  - exists s'. split; [exact E|]. split; [exact Hs'|]. intros x. rewrite Hin.
    assert (H1 : In x s1 <-> In x s \/ In x (match ty with VARIABLE => [y] | _ => [] end)).
    { subst s1. destruct ty; simpl; try tauto. rewrite set_insert_in. simpl. intuition. }
    assert (H2 : In x (flat_map raw_vars stk2) <-> In x (raw_vars l) \/ In x (raw_vars r) \/ In x (flat_map raw_vars stk)).
    { subst stk2 stk1. destruct l, r; simpl; rewrite ?in_app_iff; simpl; rewrite ?in_app_iff; tauto. }
    rewrite H1, H2. simpl. rewrite !in_app_iff. tauto.
Qed.

Lemma raw_vars_occurs x e : In x (raw_vars (embed e)) <-> occurs x e.
Proof.
  induction e as [v|y|u a IH|b a IHa c IHc]; simpl.
  - split; [tauto|inversion 1].
  - split; [intros [->|[]]; constructor|inversion 1; auto].
  - rewrite app_nil_r, IH. split; [now constructor|inversion 1; auto].
  - rewrite in_app_iff, IHa, IHc. split; [intros [H|H]; [now apply occ_l|now apply occ_r]|inversion 1; auto].
Qed.

Lemma GetAllVarNames_embed e : exists s, GetAllVarNames (embed e) = Ok s /\
  StronglySorted str_lt s /\ forall x, In x s <-> occurs x e.
Proof.
  unfold GetAllVarNames. pose proof (embed_not_nil e) as Hn.
  destruct (embed e) as [|ty op v y l r] eqn:E; [congruence|].
  cbn [EmplaceChild].
  set (s1 := match ty with VARIABLE => set_insert y [] | _ => [] end).
  set (stk1 := match l with Nil => [] | _ => l :: [] end).
  set (stk2 := match r with Nil => stk1 | _ => r :: stk1 end).
  destruct (GetAllVarNamesLoop_spec (S (node_size (N ty op v y l r))) stk2 s1) as (s' & E' & Hs & Hin).
  - subst stk2 stk1. destruct l, r; simpl; lia.
  - subst stk2 stk1. destruct l, r; repeat constructor; auto; discriminate.
  - subst s1. destruct ty; repeat constructor.
  - exists s'. split; [exact E'|]. split; auto. intros x. rewrite Hin, <- raw_vars_occurs, E.
    simpl. rewrite !in_app_iff.
    assert (H1 : In x s1 <-> In x (match ty with VARIABLE => [y] | _ => [] end)).
    { subst s1. destruct ty; simpl; tauto. }
    assert (H2 : In x (flat_map raw_vars stk2) <-> In x (raw_vars l) \/ In x (raw_vars r)).
    { subst stk2 stk1. destruct l, r; simpl; rewrite ?in_app_iff; simpl; rewrite ?in_app_iff; simpl; tauto. }
    rewrite H1, H2. tauto.
Qed.

Lemma sorted_unique (s s' : list string) :
  StronglySorted str_lt s -> StronglySorted str_lt s' -> (forall x, In x s <-> In x s') -> s = s'.
Proof.
  intros Hs. revert s'. induction Hs as [|x s Hs IH Hx]; intros s' Hs' H.
  - destruct s' as [|y s']; auto. destruct (proj2 (H y)); simpl; auto.
  - destruct Hs' as [|y s' Hs' Hy]; [destruct (proj1 (H x)); simpl; auto|].
    assert (Hlt : forall w, ~ str_lt w w). { intros w Hw. unfold str_lt in Hw.
      assert (String.compare w w = Eq) by now apply str_compare_eq. congruence. }
    rewrite Forall_forall in Hx, Hy.
    assert (x = y).
    { destruct (proj1 (H x)) as [->|H1]; simpl; auto.
      destruct (proj2 (H y)) as [->|H2]; simpl; auto.
      exfalso. eapply Hlt, str_lt_trans; [apply Hx, H2|apply Hy, H1]. }
    subst. f_equal. apply IH; auto. intros w. split; intros Hw.
    + destruct (proj1 (H w)) as [->|]; simpl; auto. exfalso. eapply Hlt, Hx, Hw.
    + destruct (proj2 (H w)) as [->|]; simpl; auto. exfalso. eapply Hlt, Hy, Hw.
Qed.

(** ** Variable names *)
Definition is_letter (c : ascii) : bool :=
  let k := nat_of_ascii c in (((65 <=? k) && (k <=? 90)) || ((97 <=? k) && (k <=? 122)))%nat.

End Proofs2.
