(** C63: Diff in doubles. *)
From Coq Require Import String List ZArith Bool Arith Lia Reals Lra.
From Flocq Require Import IEEE754.BinarySingleNaN Core.
From Verif Require Import Base MathOp IEEE RealSpec NodeModel SimplifyModel DiffModel MatModel SymMatModel SymMatSpec SymMatProofs ExprSpec SubsSpec DiffSpec NodeProofs DiffProofs DiffReal DiffSmooth DiffLax Thm_Node Thm_Diff FloatSpec FloatFacts Thm_Float IntSpec IntProofs RoundSpec RoundProofs Thm_Round DerivSpec.
Import ListNotations.
Local Open Scope R_scope.

Lemma literal_numb (K : num_ops) (e : expr K) : literal e = numb e. Proof. destruct e; reflexivity. Qed.

(** ** The rules are right *)
Section Real.
Context (x : string) (env : string -> R).
(** Over the reals [deriv] has the value of [dexpr] (where constants are folded). *)
Lemma rval_bin b (a c a' c' : expr Rops) : rval env a = rval env a' -> rval env c = rval env c' -> rval env (EBin b a c) = rval env (EBin b a' c').
Proof. intros H1 H2. cbn [rval]. now rewrite H1, H2. Qed.
Lemma rval_un u (a a' : expr Rops) : rval env a = rval env a' -> rval env (EUn u a) = rval env (EUn u a').
Proof. intros H1. cbn [rval]. now rewrite H1. Qed.
Lemma deriv_dexpr (e : expr Rops) : no_int_ops e -> exp_only_of x e -> rval env (deriv x e) = rval env (dexpr x e).
Proof.
  induction e as [v|y|u a IH|b a IHa c IHc]; intros Hi Hx; cbn [deriv dexpr].
  - reflexivity.
  - destruct (String.eqb y x); reflexivity.
  - cbn [no_int_ops exp_only_of] in *. destruct Hx as [Hx Hx']. specialize (IH Hi Hx). rewrite literal_numb. destruct u; cbn [is_sign negb andb chain_rule d_un]; rewrite ?andb_false_r, ?andb_true_r; try (apply rval_un; exact IH);
      (destruct (numb a) eqn:Na; [reflexivity|]); try (apply rval_bin; [reflexivity|exact IH]).
    destruct a as [v|y|u' a'|b' a1 a2]; try (apply rval_bin; [reflexivity|exact IH]). cbn [varb deriv]. subst y. rewrite String.eqb_refl. cbn. now rewrite Rmult_1_r.
  - cbn [exp_only_of] in Hx. destruct Hx as [Hxa Hxc].
    assert (Ia : no_int_ops a -> rval env (deriv x a) = rval env (dexpr x a)) by auto. assert (Ic : no_int_ops c -> rval env (deriv x c) = rval env (dexpr x c)) by auto.
    clear IHa IHc. destruct b; cbn [no_int_ops] in Hi; try tauto; destruct Hi as [Hia Hic]; specialize (Ia Hia); specialize (Ic Hic); rewrite ?(literal_numb _ a), ?(literal_numb _ c).
    + destruct (numb a && numb c); [reflexivity|now apply rval_bin].
    + destruct (numb a && numb c); [reflexivity|now apply rval_bin].
    + destruct (numb a); [now apply rval_bin|]. destruct (numb c); [now apply rval_bin|]. repeat (apply rval_bin; auto).
    + destruct (numb c); [now apply rval_bin|]. repeat (apply rval_bin; auto).
    + destruct (numb a) eqn:Na, (numb c) eqn:Nc.
      * destruct a; try discriminate; destruct c; try discriminate. reflexivity.
      * destruct a; try discriminate; destruct c; try discriminate; repeat (apply rval_bin; auto).
      * destruct c as [w|?|?|?]; try discriminate.
        assert (E : forall w : Rops, rval env (EBin BMul (EBin BMul (ENum w) (EBin BPow a (EBin BSub (ENum w) (number 1)))) (deriv x a)) =
          rval env (EBin BMul (EBin BMul (ENum w) (EBin BPow a (ENum (n_sub w (n_ofZ 1))))) (dexpr x a))).
        { intros w1. cbn [rval number]. rewrite Ia. destruct (rval env a) as [ra|], w1 as [w1|]; reflexivity. }
        destruct a; try discriminate; apply E.
      * destruct a; try discriminate; destruct c; try discriminate; repeat (apply rval_bin; auto).
Qed.

Lemma smooth_exp_only k (e : expr Rops) : smooth k x env e -> exp_only_of x e.
Proof.
  induction e as [v|y|u a IH|b a IHa c IHc]; intros H; cbn [exp_only_of]; auto.
  - destruct (smooth_un_inv _ _ _ _ _ H) as [[Na D]|(Na & Ha & _ & Hx)].
    + destruct a; try discriminate. cbn. destruct u; auto.
    + split; [auto|]. destruct u; auto. destruct a; auto. specialize (Hx eq_refl eq_refl). congruence.
  - destruct b; cbn [smooth] in H; try tauto.
    destruct (smooth_pow_inv _ _ _ _ _ H) as [(Na & Nc & D)|[(Na & Ha & y & z & -> & Hy & Hp)|(Nc & Ha & Hc & y & Hy & Py)]].
    + destruct a; try discriminate. destruct c; try discriminate. cbn. auto.
    + split; [auto|exact Logic.I].
    + auto.
Qed.

(** The rules give the partial derivative, at every point where the expression is smooth. *)
Theorem C63_rules (e : expr Rops) : smooth 1 x env e -> exists d, rval env (deriv x e) = Some d /\ partial env x e d.
Proof.
  intros H. destruct (diff_value 0 x env e H) as (d & E & P). exists d. split; [|exact P].
  rewrite deriv_dexpr; [exact E|eapply smooth_no_int; exact H|eapply smooth_exp_only; exact H].
Qed.
End Real.

(** ** Doubles *)
Section L.
Context (L : libm).
Notation K := (B64 L).
Notation expr := (expr K).

Lemma number_R z : (-10 <= z <= 10)%Z -> fin (b_ofZ z) /\ B2R (b_ofZ z) = IZR z.
Proof. intros H. assert (F : is_Z (b_ofZ z) z) by (apply ofZ_is; unfold exact_range; lia). exact F. Qed.
Lemma number_real z : (-10 <= z <= 10)%Z -> real_expr L (number z : expr) = (number z : ExprSpec.expr Rops).
Proof. intros H. exact (f_equal (fun r => ENum (Some r)) (proj2 (number_R z H))). Qed.
Lemma literal_real (e : expr) : literal (real_expr L e : ExprSpec.expr Rops) = literal e. Proof. destruct e; reflexivity. Qed.
Lemma real_deriv x (e : expr) : real_expr L (deriv x e) = deriv x (real_expr L e : ExprSpec.expr Rops).
Proof.
  assert (N : forall z, (-10 <= z <= 10)%Z -> real_expr L (ENum (n_ofZ z : K)) = ENum (Some (IZR z))) by (intros z H; exact (number_real z H)).
  assert (N0 := N 0%Z ltac:(lia)). assert (N1 := N 1%Z ltac:(lia)). assert (Nm := N (-1)%Z ltac:(lia)). assert (N2 := N 2%Z ltac:(lia)). assert (N10 := N 10%Z ltac:(lia)).
  clear N. cbn [real_expr] in N0, N1, Nm, N2, N10. unfold number in *.
  induction e as [v|y|u a IH|b a IHa c IHc]; cbn [deriv real_expr].
  - exact N0.
  - destruct (String.eqb y x); auto.
  - rewrite literal_real. destruct u; (destruct (literal a); [try exact N0|]); unfold chain_rule, number; cbn [real_expr]; rewrite IH, ?N0, ?N1, ?Nm, ?N2, ?N10; reflexivity.
  - rewrite !literal_real. destruct b, (literal a), (literal c); cbn [andb real_expr]; unfold number; cbn [real_expr]; rewrite ?IHa, ?IHc, ?N0, ?N1, ?Nm, ?N2, ?N10; reflexivity.
Qed.

Section Env.
Context (HL : ieee_libm L) (env : string -> b64) (Henv : forall x, fin (env x)).
Notation ev := (ev L env).

(** If e1 has a value (no 0^0 being evaluated), so has e2, and they compare equal. *)
Definition same (e1 e2 : expr) : Prop := forall v : b64, ev e1 v -> no_0_pow_0f L env e1 ->
  all_nums (K:=K) fin e2 /\ no_0_pow_0f L env e2 /\ exists v' : b64, ev e2 v' /\ feq v v'.
Lemma same_refl e : all_nums (K:=K) fin e -> same e e.
Proof. intros F v E H. split; [exact F|]. split; [exact H|]. exists v. split; [exact E|]. apply feq_refl. eapply ev_fin; eauto. Qed.
Lemma same_number z : (-10 <= z <= 10)%Z -> same (number z) (lit z).
Proof. intros H. apply same_refl. exact (proj1 (number_R z H)). Qed.
Lemma same_un u a a' : same a a' -> same (EUn u a) (EUn u a').
Proof.
  intros S v E H. apply ev_un in E as (y & Ey & Eu & F). cbn [no_0_pow_0f] in H. destruct (S y Ey H) as (F' & H' & y' & Ey' & Q).
  destruct (un_feq L HL u y y' v Q Eu F) as (v' & Ev' & Q'). split; [exact F'|]. split; [exact H'|]. exists v'. split; [|exact Q'].
  apply ev_un. exists y'. split; [exact Ey'|]. split; [exact Ev'|apply Q'].
Qed.
Lemma same_bin b a c a' c' : same a a' -> same c c' -> same (EBin b a c) (EBin b a' c').
Proof.
  intros S S' v E H. apply ev_bin in E as (y & z & Ey & Ez & Eu & F). cbn [no_0_pow_0f] in H. destruct H as (H1 & H2 & H3).
  destruct (S y Ey H1) as (F1 & H1' & y' & Ey' & Q). destruct (S' z Ez H2) as (F2 & H2' & z' & Ez' & Q').
  destruct (bin_feq L HL b y y' z z' v Q Q' Eu F) as (v' & Ev' & Q''). split; [split; assumption|]. split.
  - cbn [no_0_pow_0f]. split; [exact H1'|]. split; [exact H2'|]. destruct b; auto. intros p q Ep Eq.
    rewrite <- (ev_det L env _ _ _ Ey' Ep), <- (ev_det L env _ _ _ Ez' Eq). destruct Q as (_ & _ & <-), Q' as (_ & _ & <-). exact (H3 y z Ey Ez).
  - exists v'. split; [|exact Q'']. apply ev_bin. exists y', z'. split; [exact Ey'|]. split; [exact Ez'|]. split; [exact Ev'|apply Q''].
Qed.
(** A folded constant. *)
Lemma same_fold_un u (w : b64) : same (EUn u (ENum (w : K))) (ENum (un_sem (K:=K) u (w : K))).
Proof.
  intros v E _. apply ev_un in E as (y & Ey & Eu & F). apply ev_num in Ey. subst y.
  assert (Eu' : (un_sem (K:=K) u (w : K) : b64) = v) by exact Eu. split; [cbn [all_nums]; rewrite Eu; exact F|]. split; [exact Logic.I|].
  exists v. split; [apply ev_num; exact Eu'|now apply feq_refl].
Qed.
Lemma same_fold_sub (w w' : b64) : same (EBin BSub (ENum (w : K)) (ENum (w' : K))) (ENum (n_sub (w : K) (w' : K))).
Proof.
  intros v E _. apply ev_bin in E as (y & z & Ey & Ez & Eu & F). apply ev_num in Ey. apply ev_num in Ez. subst y z. injection Eu as Eu.
  split; [change (fin (Bminus mode_NE w w')); rewrite Eu; exact F|]. split; [exact Logic.I|]. exists v. split; [apply ev_num; exact Eu|now apply feq_refl].
Qed.

Lemma same_deriv x e : no_int_ops e -> exp_only_of x e -> all_nums (K:=K) fin e -> same (deriv x e) (dexpr x e).
Proof.
  assert (N : forall z, (-10 <= z <= 10)%Z -> same (number z) (lit z)) by exact same_number.
  induction e as [v|y|u a IH|b a IHa c IHc]; intros Hi Hx Fe; cbn [deriv dexpr].
  - apply N. lia.
  - destruct (String.eqb y x); apply N; lia.
  - cbn [no_int_ops exp_only_of all_nums] in *. destruct Hx as [Hx Hx']. specialize (IH Hi Hx Fe). rewrite literal_numb. pose proof (same_refl a Fe) as Ra.
    destruct u; cbn [is_sign negb andb chain_rule d_un]; rewrite ?andb_false_r, ?andb_true_r; try (apply same_un; exact IH);
      (destruct (numb a) eqn:Na; [apply N; lia|]).
    1-10: repeat first [exact IH | exact Ra | apply N; lia | apply (same_fold_un ULog) | apply same_bin | apply same_un].
    destruct a as [v|y|u' a'|b' a1 a2]; try (apply same_bin; [apply same_un; exact Ra|exact IH]). cbn [varb deriv]. subst y. rewrite String.eqb_refl.
    intros v E H. apply ev_bin in E as (p & q & Ep & Eq & Eu & F). apply ev_num in Eq. injection Eu as Eu. cbn [no_0_pow_0f] in H.
    split; [exact Logic.I|]. split; [exact Logic.I|]. exists p. split; [exact Ep|].
    assert (Fp : fin p) by (exact (ev_fin L env Henv (EUn UExp (EVar x)) p Logic.I Ep)). destruct (number_R 1 ltac:(lia)) as [F1 R1].
    assert (Q : feq (Bmult mode_NE p (b_ofZ 1)) p) by (apply mul_1_r; assumption).
    rewrite <- Eu, <- Eq. exact Q.
  - cbn [exp_only_of all_nums] in *. destruct Hx as [Hxa Hxc], Fe as [Fa Fc].
    assert (Ia : no_int_ops a -> same (deriv x a) (dexpr x a)) by auto. assert (Ic : no_int_ops c -> same (deriv x c) (dexpr x c)) by auto.
    pose proof (same_refl a Fa) as Ra. pose proof (same_refl c Fc) as Rc.
    clear IHa IHc. destruct b; cbn [no_int_ops] in Hi; try tauto; destruct Hi as [Hia Hic]; specialize (Ia Hia); specialize (Ic Hic); rewrite ?(literal_numb _ a), ?(literal_numb _ c).
    Ltac sm Ia Ic Ra Rc N := repeat first [exact Ia | exact Ic | exact Ra | exact Rc | apply N; lia | apply same_bin | apply same_un].
    + destruct (numb a && numb c); sm Ia Ic Ra Rc N.
    + destruct (numb a && numb c); sm Ia Ic Ra Rc N.
    + destruct (numb a); [|destruct (numb c)]; sm Ia Ic Ra Rc N.
    + destruct (numb c); sm Ia Ic Ra Rc N.
    + destruct (numb a) eqn:Na, (numb c) eqn:Nc.
      * destruct a; try discriminate; destruct c; try discriminate. apply N; lia.
      * destruct a; try discriminate; destruct c; try discriminate; sm Ia Ic Ra Rc N.
      * destruct c as [w|?|?|?]; try discriminate.
        assert (E : same (EBin BMul (EBin BMul (ENum w) (EBin BPow a (EBin BSub (ENum w) (number 1)))) (deriv x a))
          (EBin BMul (EBin BMul (ENum w) (EBin BPow a (ENum (n_sub w (n_ofZ 1))))) (dexpr x a))).
        { apply same_bin; [|exact Ia]. apply same_bin; [exact Rc|]. apply same_bin; [exact Ra|]. apply same_fold_sub. }
        destruct a; try discriminate; exact E.
      * destruct a; try discriminate; destruct c; try discriminate; sm Ia Ic Ra Rc N.
Qed.
End Env.

(** If the expression the rules give has a value at a finite point (no 0^0 being evaluated), Diff
    returns, and its result evaluates there to a double that compares equal. *)
Theorem C63_diff_doubles (cfg : config K) (e : expr) x (env : string -> b64) (v : b64) :
  ieee_libm L -> throwOnInvalidValue cfg = true -> no_int_ops e -> exp_only_of x e -> all_nums (K:=K) fin e -> (forall y, fin (env y)) ->
  no_0_pow_0f L env (deriv x e) -> Vpa cfg (embed (filled L env (deriv x e))) = Ok (v : K) ->
  exists e' (v' : b64), Diff cfg (embed e) x 1 = Ok (embed e') /\ Vpa cfg (embed (filled L env e')) = Ok (v' : K) /\ feq v v' /\ Beqb v v' = true.
Proof.
  intros HL Hc Hi Hx Fe Fenv Hz Hv.
  assert (Ev : ev L env (deriv x e) v). { apply C01_vpa_value_conv in Hv. rewrite Hc in Hv. exact Hv. }
  destruct (same_deriv HL env Fenv x e Hi Hx Fe v Ev Hz) as (F' & Hz' & v1 & Ev1 & Q1).
  destruct (C56_simplify_doubles L cfg (dexpr x e) env v1 HL Hc F' Fenv Hz') as (e' & v' & Es & Ev' & Q & _).
  { apply C01_vpa_value. rewrite Hc. exact Ev1. }
  assert (Q' : feq v v') by (eapply feq_trans; eauto).
  exists e', v'. split; [|split; [exact Ev'|split; [exact Q'|apply eqb_feq; [apply Q'|apply Q'|exact Q']]]].
  change 1%Z with (Z.of_nat 1). rewrite Diff_of_nat, DiffTimes_ok by exact Hi. exact Es.
Qed.

(** The value of the derivative Diff returns is as accurate as the error analysis of the rules says:
    if the variables are known up to the errors err, it is within E of the partial derivative. *)
Theorem C63_accuracy (cfg : config K) c (e : expr) x (env : string -> b64) (renv err : string -> R) y E :
  ieee_libm L -> accurate_libm L c -> throwOnInvalidValue cfg = true -> all_nums (K:=K) fin e -> (forall z, fin (env z)) ->
  (forall z, Rabs (B2R (env z) - renv z) <= err z) ->
  smooth 1 x renv (real_expr L e) -> no_0_pow_0f L env (deriv x e) -> accuracy L c renv err (deriv x e) y E ->
  partial renv x (real_expr L e) y /\
  exists e' (v' : b64), Diff cfg (embed e) x 1 = Ok (embed e') /\ Vpa cfg (embed (filled L env e')) = Ok (v' : K) /\ fin v' /\ Rabs (B2R v' - y) <= E.
Proof.
  intros HL HA Hc Fe Fenv Herr Hs Hz Ha.
  destruct (C59_accuracy L c HA cfg env renv err (deriv x e) y E Fenv Herr Ha) as (Hy & v & Hv & Fv & Bv).
  destruct (C63_rules x renv (real_expr L e) Hs) as (d & Ed & Pd). rewrite <- (real_deriv x e) in Ed.
  assert (d = y) as -> by (rewrite Hy in Ed; now injection Ed).
  split; [exact Pd|].
  assert (NI : forall e0 : expr, no_int_ops (K:=Rops) (real_expr L e0) -> no_int_ops e0). { induction e0 as [|?|? ? IH|b ? IH1 ? IH2]; cbn; auto. destruct b; tauto. }
  assert (EX : forall e0 : expr, exp_only_of (K:=Rops) x (real_expr L e0) -> exp_only_of x e0).
  { induction e0 as [|?|u a IH|b ? IH1 ? IH2]; cbn; auto; [|tauto]. intros [H1 H2]. split; [auto|]. destruct u; auto. destruct a; auto. }
  destruct (C63_diff_doubles cfg e x env v HL Hc) as (e' & v' & Ed' & Ev' & (F1 & F2 & R) & _); auto.
  { apply NI. eapply smooth_no_int; exact Hs. }
  { apply EX. eapply smooth_exp_only; exact Hs. }
  exists e', v'. split; [exact Ed'|]. split; [exact Ev'|]. split; [exact F2|]. now rewrite <- R.
Qed.
End L.

(** Choosing finitely many things. *)
Lemma choose1 {T : Type} (d : T) (P : nat -> T -> Prop) m : (forall j, (j < m)%nat -> exists e, P j e) -> exists h : nat -> T, forall j, (j < m)%nat -> P j (h j).
Proof.
  induction m as [|m IH]; intros HP; [exists (fun _ => d); lia|]. destruct IH as [h Hh]. { intros j Hj. apply HP. lia. } destruct (HP m) as [e He]; [lia|].
  exists (fun j => if Nat.eqb j m then e else h j). intros j Hj. destruct (Nat.eqb_spec j m); [now subst|apply Hh; lia].
Qed.
Lemma choose2 {T : Type} (d : T) (P : nat -> nat -> T -> Prop) n m : (forall i j, (i < n)%nat -> (j < m)%nat -> exists e, P i j e) ->
  exists h : nat -> nat -> T, forall i j, (i < n)%nat -> (j < m)%nat -> P i j (h i j).
Proof.
  intros HP. destruct (choose1 (fun _ => d) (fun i hi => forall j, (j < m)%nat -> P i j (hi j)) n) as [h Hh]; [|exists h; auto].
  intros i Hi. apply (choose1 d (fun j e => P i j e)). intros j Hj. now apply HP.
Qed.

(** The Jacobian: every entry evaluates to within its bound of the partial derivative of the equation. *)
Theorem C63_jacobian (L : libm) (cfg : config (B64 L)) c n (f : nat -> expr (B64 L)) (A : symmat (B64 L)) (xs : list string) (env : string -> b64) (renv err : string -> R) (y E : nat -> nat -> R) :
  ieee_libm L -> accurate_libm L c -> throwOnInvalidValue cfg = true -> (0 < n)%nat -> xs <> [] -> is_sym n 1 (fun i _ => f i) A ->
  (forall z, fin (env z)) -> (forall z, Rabs (B2R (env z) - renv z) <= err z) ->
  (forall i, (i < n)%nat -> all_nums (K:=B64 L) fin (f i)) ->
  (forall i j x, (i < n)%nat -> nth_error xs j = Some x ->
     smooth 1 x renv (real_expr L (f i)) /\ no_0_pow_0f L env (deriv x (f i)) /\ accuracy L c renv err (deriv x (f i)) (y i j) (E i j)) ->
  exists J (h : nat -> nat -> expr (B64 L)) (v : nat -> nat -> b64), Jacobian cfg A xs = Ok J /\ is_sym n (length xs) h J /\
    forall i j x, (i < n)%nat -> nth_error xs j = Some x ->
      partial renv x (real_expr L (f i)) (y i j) /\
      Vpa cfg (embed (filled L env (h i j))) = Ok (v i j : B64 L) /\ fin (v i j) /\ Rabs (B2R (v i j) - y i j) <= E i j.
Proof.
  intros HL HA Hc Hn Hx Hsym Fenv Herr Fe H.
  destruct (choose2 (EVar "x" : expr (B64 L), (B754_zero false : b64)) (fun i j (ev : expr (B64 L) * b64) => forall x, nth_error xs j = Some x ->
    Diff cfg (embed (f i)) x 1 = Ok (embed (fst ev)) /\ partial renv x (real_expr L (f i)) (y i j) /\
    Vpa cfg (embed (filled L env (fst ev))) = Ok (snd ev : B64 L) /\ fin (snd ev) /\ Rabs (B2R (snd ev) - y i j) <= E i j) n (length xs)) as [g Hg].
  { intros i j Hi Hj. destruct (nth_error xs j) as [x|] eqn:Ex; [|apply nth_error_None in Ex; lia].
    destruct (H i j x Hi Ex) as (H1 & H2 & H3).
    destruct (C63_accuracy L cfg c (f i) x env renv err (y i j) (E i j)) as (P & e' & v' & G); auto.
    exists (e', v'). intros x' Ex'. injection Ex' as <-. cbn [fst snd]. tauto. }
  destruct (Jacobian_ok cfg n 1 _ A xs (fun i j => embed (fst (g i j))) Hn Nat.lt_0_1 Hx Hsym) as (J & EJ & J1 & J2 & J3 & J4).
  { intros i j x Hi Hj. cbv beta. rewrite Nat.div_1_r. apply Hg; auto. apply nth_error_Some. congruence. }
  exists J, (fun i j => fst (g i j)), (fun i j => snd (g i j)). split; [exact EJ|]. split; [repeat split; auto|].
  intros i j x Hi Hj. apply Hg; auto. apply nth_error_Some. congruence.
Qed.

(** ** A concrete case *)
Theorem rounded_libm_ieee : ieee_libm rounded_libm.
Proof. constructor; try apply rounded_blind; [exact (il_pow _ correct_libm_ieee)|exact (il_pow_1 _ correct_libm_ieee)|exact (il_pow_0 _ correct_libm_ieee)|exact (il_pow_inf _ correct_libm_ieee)]. Qed.

(** The derivative of x*x - sin(x) at x = 3/2, with correctly rounded library functions: it evaluates
    to a double within 2 units of 10^-15 of the derivative 3 - cos(3/2). *)
Definition C63_e : expr (B64 rounded_libm) := EBin BSub (EBin BMul (EVar "x") (EVar "x")) (EUn USin (EVar "x")).
Theorem C63_ex (cfg : config (B64 rounded_libm)) : throwOnInvalidValue cfg = true ->
  partial (fun _ => 3 / 2) "x" (real_expr rounded_libm C63_e) (3 - cos (3 / 2)) /\
  exists e' (v : b64), Diff cfg (embed C63_e) "x" 1 = Ok (embed e') /\
    Vpa cfg (embed (filled rounded_libm (fun _ => three_halves) e')) = Ok (v : B64 rounded_libm) /\
    Rabs (B2R v - (3 - cos (3 / 2))) <= 2 / 10 ^ 15.
Proof.
  intros Hc. destruct three_halves_R as [F T]. set (env := fun _ : string => three_halves). set (renv := fun _ : string => 3 / 2). set (err := fun _ : string => 0).
  assert (Hu : ulp1 <= 1 / 9 / 10 ^ 15). { rewrite ulp1_bpow. cbn. lra. }
  assert (Ht : tiny <= 1 / 10 ^ 18). { rewrite tiny_bpow. apply Rle_trans with (bpow radix2 (-60)); [apply bpow_le; lia|cbn; lra]. }
  pose proof ulp1_pos as Pu. pose proof tiny_pos as Pt.
  assert (Big : 10 < huge). { rewrite huge_bpow. apply Rlt_trans with (bpow radix2 4); [cbn; lra|apply bpow_lt; lia]. }
  destruct (number_R 1 ltac:(lia)) as [F1 R1].
  assert (One : accuracy rounded_libm ulp1 renv err (number 1) 1 0). { rewrite <- R1. apply (ac_num rounded_libm ulp1 renv err (b_ofZ 1)). exact F1. }
  assert (X : accuracy rounded_libm ulp1 renv err (EVar "x") (3 / 2) 0) by exact (ac_var rounded_libm ulp1 renv err "x").
  set (E1 := with_rounding ulp1 tiny (1 * (3 / 2)) (Rabs 1 * 0 + 0 * Rabs (3 / 2) + 0 * 0)).
  assert (B1 : 0 <= E1 <= 2 / 10 ^ 16). { unfold E1, with_rounding. rewrite !(Rabs_pos_eq) by lra. lra. }
  assert (A1 : accuracy rounded_libm ulp1 renv err (EBin BMul (number 1) (EVar "x")) (1 * (3 / 2)) E1).
  { apply C59_times; auto. fold E1. rewrite Rabs_pos_eq by lra. lra. }
  set (E2 := with_rounding ulp1 tiny (3 / 2 * 1) (Rabs (3 / 2) * 0 + 0 * Rabs 1 + 0 * 0)).
  assert (B2 : 0 <= E2 <= 2 / 10 ^ 16). { unfold E2, with_rounding. rewrite !(Rabs_pos_eq) by lra. lra. }
  assert (A2 : accuracy rounded_libm ulp1 renv err (EBin BMul (EVar "x") (number 1)) (3 / 2 * 1) E2).
  { apply C59_times; auto. fold E2. rewrite Rabs_pos_eq by lra. lra. }
  set (E3 := with_rounding ulp1 0 (1 * (3 / 2) + 3 / 2 * 1) (E1 + E2)).
  assert (B3 : 0 <= E3 <= 8 / 10 ^ 16). { unfold E3, with_rounding. rewrite Rabs_pos_eq by lra. nra. }
  assert (A3 : accuracy rounded_libm ulp1 renv err (EBin BAdd (EBin BMul (number 1) (EVar "x")) (EBin BMul (EVar "x") (number 1))) (1 * (3 / 2) + 3 / 2 * 1) E3).
  { apply C59_add; auto. fold E3. rewrite Rabs_pos_eq by lra. lra. }
  pose proof (COS_bound (3 / 2)) as Cb. set (y := cos (3 / 2)) in *. assert (Ay : Rabs y <= 1) by (apply Rabs_le; lra). pose proof (Rabs_pos y) as Py.
  assert (Uy : 0 <= ulp1 * Rabs y <= ulp1) by (split; nra).
  set (E4 := with_rounding ulp1 tiny y 0).
  assert (B4 : 0 <= E4 <= 12 / 10 ^ 17). { unfold E4, with_rounding. lra. }
  assert (A4 : accuracy rounded_libm ulp1 renv err (EUn UCos (EVar "x")) y E4).
  { apply (C59_cos rounded_libm ulp1 renv err (EVar "x") (3 / 2) 0); auto. fold y. fold E4. lra. }
  set (E5 := with_rounding ulp1 tiny (y * 1) (Rabs y * 0 + E4 * Rabs 1 + E4 * 0)).
  assert (E5e : E5 = E4 + ulp1 * (Rabs y + E4) + tiny). { unfold E5, with_rounding. rewrite (Rabs_pos_eq 1) by lra. rewrite !Rmult_1_r. ring. }
  assert (B5 : 0 <= E5 <= 25 / 10 ^ 17). { rewrite E5e. nra. }
  assert (A5 : accuracy rounded_libm ulp1 renv err (EBin BMul (EUn UCos (EVar "x")) (number 1)) (y * 1) E5).
  { apply C59_times; auto. fold E5. rewrite Rmult_1_r. lra. }
  set (Y := 1 * (3 / 2) + 3 / 2 * 1 - y * 1). assert (EY : Y = 3 - y) by (unfold Y; lra).
  set (E6 := with_rounding ulp1 0 Y (E3 + E5)).
  assert (B6 : 0 <= E6 <= 2 / 10 ^ 15). { unfold E6, with_rounding. rewrite EY, Rabs_pos_eq by lra. nra. }
  assert (A6 : accuracy rounded_libm ulp1 renv err (deriv "x" C63_e) Y E6).
  { apply C59_sub; auto. fold Y. fold E6. rewrite EY, Rabs_pos_eq by lra. lra. }
  destruct (C63_accuracy rounded_libm cfg ulp1 C63_e "x" env renv err Y E6 rounded_libm_ieee C59_libm_exists Hc) as (P & e' & v & H1 & H2 & H3 & H4).
  - cbn. auto.
  - intros z. exact F.
  - intros z. unfold env, renv, err. rewrite T, Rminus_diag_eq, Rabs_R0 by reflexivity. lra.
  - cbn [C63_e real_expr smooth]. split; [split; exact Logic.I|]. split; [exact Logic.I|]. split; [|exact Logic.I]. exists (3 / 2). split; [reflexivity|exact Logic.I].
  - cbn. tauto.
  - exact A6.
  - rewrite <- EY. split; [exact P|]. exists e', v. split; [exact H1|]. split; [exact H2|]. lra.
Qed.
