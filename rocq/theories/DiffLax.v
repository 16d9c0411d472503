(** Higher derivatives at every smooth point.  The derivative of y^0 is computed as
    (0*y^(-1))*y', which has no value where y = 0 although the function is constant; such
    products 0*c disappear on simplification.  Here an expression is given a value that
    ignores the second factor of 0*c, and the development of DiffReal and DiffSmooth is
    repeated for that value. *)
From Coq Require Import String List ZArith Reals Lra Lia Bool.
From Coquelicot Require Import Coquelicot.
From Verif Require Import Base MathOp NodeModel SimplifyModel SimplifySpec DiffModel ExprSpec RealSpec DiffSpec NodeProofs Thm_Simplify DiffProofs DiffReal DiffSmooth.
Local Open Scope R_scope.
Implicit Types (env : string -> R) (e a c : expr Rops) (d : R).

Definition zlit e : bool := match e with ENum (Some v) => Reqb v 0 | _ => false end.
Definition mulz (b : binop) a : bool := match b with BMul => zlit a | _ => false end.

Fixpoint lval env e : option R :=
  match e with
  | ENum v => v
  | EVar x => Some (env x)
  | EUn u a => match lval env a with Some x => r_un u x | None => None end
  | EBin b a c =>
      if mulz b a then Some 0 else
      match lval env a, lval env c with Some x, Some y => r_bin b x y | _, _ => None end
  end.

Lemma zlit_spec a : zlit a = true -> a = ENum (Some 0).
Proof. destruct a as [[v|]| | |]; try discriminate. cbn. intros H. apply Reqb_spec in H. now subst. Qed.
Lemma mulz_spec b a : mulz b a = true -> b = BMul /\ a = ENum (Some 0).
Proof. destruct b; try discriminate. intros H. split; [reflexivity|now apply zlit_spec]. Qed.
Lemma zlit_0 : zlit (ENum (Some 0)) = true. Proof. now apply Reqb_spec. Qed.

Lemma lv_bin env b a c y z : lval env a = Some y -> lval env c = Some z -> lval env (EBin b a c) = r_bin b y z.
Proof.
  intros Ha Hc. cbn [lval]. destruct (mulz b a) eqn:E; [|now rewrite Ha, Hc].
  apply mulz_spec in E as [-> ->]. injection Ha as <-. cbn [r_bin]. f_equal. ring.
Qed.
Lemma lv_add env a c y z : lval env a = Some y -> lval env c = Some z -> lval env (EBin BAdd a c) = Some (y + z).
Proof. apply (lv_bin env BAdd). Qed.
Lemma lv_sub env a c y z : lval env a = Some y -> lval env c = Some z -> lval env (EBin BSub a c) = Some (y - z).
Proof. apply (lv_bin env BSub). Qed.
Lemma lv_mul env a c y z : lval env a = Some y -> lval env c = Some z -> lval env (EBin BMul a c) = Some (y * z).
Proof. apply (lv_bin env BMul). Qed.
Lemma lv_div env a c y z : lval env a = Some y -> lval env c = Some z -> z <> 0 -> lval env (EBin BDiv a c) = Some (y / z).
Proof. intros Ha Hc Hz. rewrite (lv_bin env BDiv a c y z Ha Hc). cbn [r_bin]. destruct (Req_EM_T z 0); [congruence|reflexivity]. Qed.
Lemma lv_pow env a c y z : lval env a = Some y -> lval env c = Some z -> lval env (EBin BPow a c) = Rpow y z.
Proof. apply (lv_bin env BPow). Qed.
Lemma lv_sq env a y : lval env a = Some y -> lval env (EBin BPow a (lit 2)) = Some (y * y).
Proof. intros Ha. rewrite (lv_pow env a (lit 2) y 2 Ha eq_refl). apply Rpow_2. Qed.
Lemma lv_un env u a y : lval env a = Some y -> un_smooth 0 u y -> lval env (EUn u a) = Some (gfun u y).
Proof. intros Ha Hu. cbn [lval]. rewrite Ha. now apply (un_smooth_defined 0). Qed.
Lemma lv_lit env z : lval env (lit z) = Some (IZR z). Proof. reflexivity. Qed.

(** The strict value, where there is one, is the lax value. *)
Lemma rval_lval env e v : rval env e = Some v -> lval env e = Some v.
Proof.
  revert v. induction e as [w|y|u a IH|b a IHa c IHc]; intros v H.
  - exact H.
  - exact H.
  - cbn [rval] in H. cbn [lval]. destruct (rval env a) as [r|]; [|discriminate]. now rewrite (IH r eq_refl).
  - cbn [rval] in H. destruct (rval env a) as [y|]; [|discriminate]. destruct (rval env c) as [z|]; [|discriminate].
    now rewrite (lv_bin env b a c y z (IHa y eq_refl) (IHc z eq_refl)).
Qed.

(** ** Partial derivative of the lax value *)
Definition lpartial env x e d : Prop :=
  exists F : R -> R, locally (env x) (fun t => lval (upd env x t) e = Some (F t)) /\ is_derive F (env x) d.

Lemma lp_elim env x e d v : lpartial env x e d -> lval env e = Some v ->
  exists f : R -> R, locally (env x) (fun t => lval (upd env x t) e = Some (f t)) /\ is_derive f (env x) d /\ f (env x) = v.
Proof.
  intros (F & L & D) Hv. exists F. split; [exact L|split; [exact D|]].
  apply locally_singleton in L. rewrite upd_same, Hv in L. congruence.
Qed.

Lemma lp_const env x e v : (forall t, lval (upd env x t) e = Some v) -> lpartial env x e 0.
Proof.
  intros H. exists (fun _ => v). split; [apply filter_forall; exact H|apply (is_derive_const (K:=R_AbsRing) v)].
Qed.

Lemma lp_var env x y : lpartial env x (EVar y) (if String.eqb y x then 1 else 0).
Proof.
  destruct (String.eqb_spec y x) as [->|N].
  - exists (fun t => t). split; [|apply (is_derive_id (K:=R_AbsRing))].
    apply filter_forall. intros t. cbn [lval]. now rewrite upd_at.
  - apply (lp_const _ _ _ (env y)). intros t. cbn [lval]. unfold upd. destruct (String.eqb_spec y x); congruence.
Qed.

Lemma lp_un env x u a d y : lpartial env x a d -> lval env a = Some y -> un_smooth 0 u y ->
  lpartial env x (EUn u a) (d * gder u y).
Proof.
  intros Ha Hy Hs. destruct (lp_elim _ _ _ _ _ Ha Hy) as (f & L & D & E).
  exists (fun t => gfun u (f t)). split.
  - generalize (filter_and _ _ L (along f _ d y _ D E (gfun_loc 0 u y Hs))). apply filter_imp.
    intros t [H1 H2]. cbn [lval]. rewrite H1. exact H2.
  - apply (is_derive_comp (gfun u) f); [rewrite E; eapply gder_ok; exact Hs|exact D].
Qed.

Section Bin.
Context (env : string -> R) (x : string) (a c : expr Rops) (da dc y z : R).
Hypothesis (Pa : lpartial env x a da) (Pc : lpartial env x c dc).
Hypothesis (Va : lval env a = Some y) (Vc : lval env c = Some z).

Lemma lp_add : lpartial env x (EBin BAdd a c) (da + dc).
Proof.
  destruct (lp_elim _ _ _ _ _ Pa Va) as (f & La & Da & Ea), (lp_elim _ _ _ _ _ Pc Vc) as (g & Lc & Dc & Ec).
  eexists; split; [|exact (is_derive_plus _ _ _ _ _ Da Dc)].
  generalize (filter_and _ _ La Lc). apply filter_imp. intros t [H1 H2]. exact (lv_add _ _ _ _ _ H1 H2).
Qed.
Lemma lp_sub : lpartial env x (EBin BSub a c) (da - dc).
Proof.
  destruct (lp_elim _ _ _ _ _ Pa Va) as (f & La & Da & Ea), (lp_elim _ _ _ _ _ Pc Vc) as (g & Lc & Dc & Ec).
  eexists; split; [|exact (is_derive_minus _ _ _ _ _ Da Dc)].
  generalize (filter_and _ _ La Lc). apply filter_imp. intros t [H1 H2]. exact (lv_sub _ _ _ _ _ H1 H2).
Qed.
Lemma lp_mul : lpartial env x (EBin BMul a c) (da * z + y * dc).
Proof.
  destruct (lp_elim _ _ _ _ _ Pa Va) as (f & La & Da & Ea), (lp_elim _ _ _ _ _ Pc Vc) as (g & Lc & Dc & Ec).
  pose proof (is_derive_mult _ _ _ _ _ Da Dc Rmult_comm) as D. rewrite Ea, Ec in D.
  eexists; split; [|exact D].
  generalize (filter_and _ _ La Lc). apply filter_imp. intros t [H1 H2]. exact (lv_mul _ _ _ _ _ H1 H2).
Qed.
Lemma lp_div : z <> 0 -> lpartial env x (EBin BDiv a c) ((da * z - y * dc) / (z * z)).
Proof.
  intros Hz. destruct (lp_elim _ _ _ _ _ Pa Va) as (f & La & Da & Ea), (lp_elim _ _ _ _ _ Pc Vc) as (g & Lc & Dc & Ec).
  pose proof (is_derive_div _ _ _ _ _ Da Dc) as D. rewrite Ea, Ec in D. specialize (D Hz).
  eexists; split; [|eapply is_derive_eq; [exact D|simpl; field; auto]].
  generalize (filter_and _ _ (filter_and _ _ La Lc) (along _ _ _ _ _ Dc Ec (open_neq_loc 0 z Hz))). apply filter_imp.
  intros t [[H1 H2] H3]. exact (lv_div _ _ _ _ _ H1 H2 H3).
Qed.
Lemma lp_pow_pos : 0 < y -> lpartial env x (EBin BPow a c) (exp (z * ln y) * (dc * ln y + z * (1 / y * da))).
Proof.
  intros Hy. destruct (lp_elim _ _ _ _ _ Pa Va) as (f & La & Da & Ea), (lp_elim _ _ _ _ _ Pc Vc) as (g & Lc & Dc & Ec).
  exists (fun t => exp (g t * ln (f t))). split.
  - generalize (filter_and _ _ (filter_and _ _ La Lc) (along _ _ _ _ _ Da Ea (open_lt_loc 0 y Hy))). apply filter_imp.
    intros t [[H1 H2] H3]. rewrite (lv_pow _ _ _ _ _ H1 H2). now apply Rpow_pos.
  - assert (Dl : is_derive (fun t => ln (f t)) (env x) (da * / y)).
    { apply (is_derive_comp ln f); [rewrite Ea; now apply is_derive_ln|exact Da]. }
    pose proof (is_derive_mult g (fun t => ln (f t)) _ _ _ Dc Dl Rmult_comm) as Dm. cbv beta in Dm. rewrite Ea, Ec in Dm.
    eapply is_derive_eq.
    + apply (is_derive_comp exp (fun t => g t * ln (f t))); [apply is_derive_exp|exact Dm].
    + cbv beta. rewrite Ea, Ec. unfold scal, plus, mult; simpl; unfold mult; simpl. field. lra.
Qed.
End Bin.

Lemma lp_pow_lit env x a da y w : lpartial env x a da -> lval env a = Some y -> pow_smooth 0 y w ->
  exists p, lval env (EBin BMul (ENum (Some w)) (EBin BPow a (ENum (Some (w - 1))))) = Some p /\
    lpartial env x (EBin BPow a (ENum (Some w))) (p * da).
Proof.
  intros Pa Va Hs. destruct (lp_elim _ _ _ _ _ Pa Va) as (f & La & Da & Ea).
  destruct Hs as [Hy|[[n ->] Hn]].
  - exists (w * exp ((w - 1) * ln y)). split.
    { apply lv_mul; [reflexivity|]. rewrite (lv_pow _ _ (ENum (Some (w - 1))) y (w - 1) Va eq_refl). now apply Rpow_pos. }
    assert (Pw : lpartial env x (ENum (Some w)) 0) by (apply (lp_const _ _ _ w); reflexivity).
    pose proof (lp_pow_pos env x a (ENum (Some w)) da 0 y w Pa Pw Va eq_refl Hy) as H.
    replace (w * exp ((w - 1) * ln y) * da) with (exp (w * ln y) * (0 * ln y + w * (1 / y * da))); [exact H|].
    replace ((w - 1) * ln y) with (w * ln y + - ln y) by ring. rewrite exp_plus, exp_Ropp, exp_ln by auto. field. lra.
  - assert (Hn' : y <> 0 \/ (0 <= n)%Z) by (destruct Hn as [|Hn]; [auto|right; apply le_IZR; simpl in Hn; lra]). clear Hn.
    assert (Ln : locally y (fun z => z <> 0 \/ (0 <= n)%Z)) by now apply loc_or_neq.
    assert (LL : locally (env x) (fun t => lval (upd env x t) (EBin BPow a (ENum (Some (IZR n)))) = Some (powerRZ (f t) n))).
    { generalize (filter_and _ _ La (along _ _ _ _ _ Da Ea Ln)). apply filter_imp.
      intros t [H1 H2]. rewrite (lv_pow _ _ (ENum (Some (IZR n))) _ (IZR n) H1 eq_refl). now apply Rpow_int. }
    destruct (Z.eq_dec n 0) as [->|N0].
    + exists 0. split; [cbn [lval mulz]; now rewrite zlit_0|].
      exists (fun t => powerRZ (f t) 0). split; [exact LL|].
      eapply is_derive_eq; [apply (is_derive_const (K:=R_AbsRing) 1)|]. change (@eq R 0 (0 * da)). ring.
    + assert (Hn : y <> 0 \/ (1 <= n)%Z) by (destruct Hn'; [auto|right; lia]).
      exists (IZR n * powerRZ y (n - 1)). split.
      { apply lv_mul; [reflexivity|]. rewrite <- minus_IZR. rewrite (lv_pow _ _ (ENum (Some (IZR (n - 1)))) y _ Va eq_refl).
        apply Rpow_int. destruct Hn; [auto|right; lia]. }
      exists (fun t => powerRZ (f t) n). split; [exact LL|].
      eapply is_derive_eq; [apply (is_derive_comp (fun s => powerRZ s n) f); [rewrite Ea; apply is_derive_powerRZ; exact Hn|exact Da]|].
      unfold scal; simpl; unfold mult; simpl. ring.
Qed.

(** ** Smoothness for the lax value *)
Fixpoint lsmooth (x : string) env e : Prop :=
  match e with
  | ENum v => v <> None
  | EVar _ => True
  | EUn u a =>
      (numb a = true /\ lval env (EUn u a) <> None) \/
      (numb a = false /\ lsmooth x env a /\ (exists y, lval env a = Some y /\ un_smooth 0 u y) /\
         (u = UExp -> varb a = true -> a = EVar x))
  | EBin b a c =>
      match b with
      | BAnd | BOr | BMod => False
      | BAdd | BSub => lsmooth x env a /\ lsmooth x env c
      | BMul => zlit a = true \/ lsmooth x env a /\ lsmooth x env c
      | BDiv => lsmooth x env a /\ lsmooth x env c /\ lval env c <> Some 0
      | BPow =>
          (numb a = true /\ numb c = true /\ lval env (EBin BPow a c) <> None) \/
          (numb a = false /\ lsmooth x env a /\ exists y z, c = ENum (Some z) /\ lval env a = Some y /\ pow_smooth 0 y z) \/
          (numb c = false /\ lsmooth x env a /\ lsmooth x env c /\ exists y, lval env a = Some y /\ 0 < y)
      end
  end.

Lemma lsmooth_defined x env e : lsmooth x env e -> exists v, lval env e = Some v.
Proof.
  enough (lsmooth x env e -> lval env e <> None).
  { intros H0. apply H in H0. destruct (lval env e); eauto. congruence. }
  assert (G : forall o : option R, o <> None -> exists v, o = Some v) by (intros [v|] Ho; eauto; congruence).
  induction e as [v|y|u a IH|b a IHa c IHc]; intros H.
  - exact H.
  - discriminate.
  - destruct H as [[_ H]|(_ & _ & (y & Hy & Hu) & _)]; [exact H|]. rewrite (lv_un _ _ _ _ Hy Hu). discriminate.
  - destruct b; try (now destruct H).
    + destruct H as [Ha Hc]. destruct (G _ (IHa Ha)) as [y Hy], (G _ (IHc Hc)) as [z Hz].
      rewrite (lv_add _ _ _ _ _ Hy Hz). discriminate.
    + destruct H as [Ha Hc]. destruct (G _ (IHa Ha)) as [y Hy], (G _ (IHc Hc)) as [z Hz].
      rewrite (lv_sub _ _ _ _ _ Hy Hz). discriminate.
    + destruct H as [H|[Ha Hc]]; [cbn [lval mulz]; rewrite H; discriminate|].
      destruct (G _ (IHa Ha)) as [y Hy], (G _ (IHc Hc)) as [z Hz]. rewrite (lv_mul _ _ _ _ _ Hy Hz). discriminate.
    + destruct H as (Ha & Hc & Nz). destruct (G _ (IHa Ha)) as [y Hy], (G _ (IHc Hc)) as [z Hz].
      rewrite (lv_div _ _ _ _ _ Hy Hz); congruence.
    + destruct H as [(_ & _ & D)|[(Na & Ha & y & z & -> & Hy & Hp)|(Nc & Ha & Hc & y & Hy & Py)]]; [exact D| |].
      * rewrite (lv_pow _ _ (ENum (Some z)) y z Hy eq_refl). now apply (pow_smooth_defined 0).
      * destruct (G _ (IHc Hc)) as [z Hz]. rewrite (lv_pow _ _ _ _ _ Hy Hz), Rpow_pos by auto. discriminate.
Qed.

Lemma numb_lval e env t x : numb e = true -> lval (upd env x t) e = lval env e.
Proof. destruct e; try discriminate. reflexivity. Qed.

Lemma lv_mulz env a c : zlit a = true -> lval env (EBin BMul a c) = Some 0.
Proof. intros H. cbn [lval mulz]. now rewrite H. Qed.
Lemma zlit_numb a : zlit a = true -> numb a = true.
Proof. intros H. apply zlit_spec in H. now subst. Qed.

Lemma dexpr_pow_lit x a (w : Rops) : numb a = false -> dexpr x (EBin BPow a (ENum w)) =
  EBin BMul (EBin BMul (ENum w) (EBin BPow a (ENum (n_sub w (n_ofZ 1))))) (dexpr x a).
Proof. destruct a; try discriminate; reflexivity. Qed.
Lemma dexpr_pow_num x (v : Rops) c : numb c = false -> dexpr x (EBin BPow (ENum v) c) =
  EBin BMul (EBin BMul (EBin BPow (ENum v) c) (EUn ULog (ENum v))) (dexpr x c).
Proof. destruct c; try discriminate; reflexivity. Qed.
Lemma dexpr_pow x a c : numb a = false -> numb c = false -> dexpr x (EBin BPow a c) =
  EBin BMul (EBin BPow a c) (EBin BAdd (EBin BMul (dexpr x c) (EUn ULog a))
                               (EBin BMul c (EBin BMul (EBin BDiv (lit 1) a) (dexpr x a)))).
Proof. destruct a; try discriminate; destruct c; try discriminate; reflexivity. Qed.

Lemma log_2 : n_log (n_ofZ 2) = (Some (ln 2) : Rops).
Proof. cbn. destruct (Rlt_dec 0 2); [reflexivity|lra]. Qed.
Lemma log_10 : n_log (n_ofZ 10) = (Some (ln 10) : Rops).
Proof. cbn. destruct (Rlt_dec 0 10); [reflexivity|lra]. Qed.

Lemma ldiff_value x env e : lsmooth x env e -> exists d, lval env (dexpr x e) = Some d /\ lpartial env x e d.
Proof.
  induction e as [v|y|u a IH|b a IHa c IHc]; intros H.
  - exists 0. split; [reflexivity|]. destruct v as [v|]; [|now destruct H]. apply (lp_const _ _ _ v). reflexivity.
  - exists (if String.eqb y x then 1 else 0). split; [|apply lp_var]. cbn [dexpr]. now destruct (String.eqb y x).
  - destruct H as [[Na D]|(Na & Ha & (y & Hy & Hs) & Hx)].
    + exists 0. split.
      * cbn [dexpr]. rewrite Na. destruct a; try discriminate. destruct u; cbn [andb is_sign negb d_un dexpr]; try reflexivity.
        cbn. f_equal. lra.
      * destruct (lval env (EUn u a)) as [r|] eqn:E; [|congruence].
        apply (lp_const _ _ _ r). intros t. rewrite <- E. cbn [lval]. now rewrite (numb_lval a env t x Na).
    + destruct (IH Ha) as (d & Hd & Pd). exists (d * gder u y). split; [|eapply lp_un; eauto].
      cbn [dexpr]. rewrite Na. cbn [andb]. pose proof (lv_sq _ _ _ Hy) as Sq.
      destruct u; cbn [d_un gder].
      * etransitivity; [eapply lv_un; [exact Hd|exact I]|]. cbn [gfun]. f_equal; ring.
      * etransitivity; [eapply lv_un; [exact Hd|exact I]|]. cbn [gfun]. f_equal; ring.
      * etransitivity; [eapply lv_mul; [eapply lv_un; [exact Hy|exact I]|exact Hd]|]. cbn [gfun]. f_equal; ring.
      * etransitivity; [eapply lv_mul; [eapply lv_un; [eapply lv_un; [exact Hy|exact I]|exact I]|exact Hd]|]. cbn [gfun]. f_equal; ring.
      * etransitivity; [eapply lv_mul; [eapply lv_div; [apply lv_lit|eapply lv_sq, lv_un; [exact Hy|exact I]|]|exact Hd]|].
        -- cbn in *. nra.
        -- cbn [gfun]. f_equal. ring.
      * destruct Hs as [[H1 H2] _]. assert (0 < sqrt (1 - y * y)) by (apply sqrt_lt_R0; nra).
        etransitivity; [eapply lv_mul; [eapply lv_div; [apply lv_lit|eapply lv_un; [eapply lv_sub; [apply lv_lit|exact Sq]|cbn; nra]|cbn [gfun]; lra]|exact Hd]|].
        cbn [gfun]. f_equal. ring.
      * destruct Hs as [[H1 H2] _]. assert (0 < sqrt (1 - y * y)) by (apply sqrt_lt_R0; nra).
        etransitivity; [eapply lv_mul; [eapply lv_div; [apply lv_lit|eapply lv_un; [eapply lv_sub; [apply lv_lit|exact Sq]|cbn; nra]|cbn [gfun]; lra]|exact Hd]|].
        cbn [gfun]. f_equal. ring.
      * etransitivity; [eapply lv_mul; [eapply lv_div; [apply lv_lit|eapply lv_add; [apply lv_lit|exact Sq]|nra]|exact Hd]|].
        f_equal. ring.
      * cbn in Hs. assert (0 < sqrt y) by (now apply sqrt_lt_R0).
        etransitivity; [eapply lv_mul; [eapply lv_div; [apply lv_lit|eapply lv_mul; [apply lv_lit|eapply lv_un; [exact Hy|exact Hs]]|cbn [gfun]; lra]|exact Hd]|].
        cbn [gfun]. f_equal. ring.
      * cbn in Hs. etransitivity; [eapply lv_mul; [eapply lv_div; [apply lv_lit|exact Hy|lra]|exact Hd]|]. f_equal. ring.
      * cbn in Hs. pose proof ln_2_nz. rewrite log_2.
        etransitivity; [eapply lv_mul; [eapply lv_div; [apply lv_lit|eapply lv_mul; [exact Hy|reflexivity]|]|exact Hd]|].
        -- intros E. apply Rmult_integral in E. lra.
        -- f_equal. ring.
      * cbn in Hs. pose proof ln_10_nz. rewrite log_10.
        etransitivity; [eapply lv_mul; [eapply lv_div; [apply lv_lit|eapply lv_mul; [exact Hy|reflexivity]|]|exact Hd]|].
        -- intros E. apply Rmult_integral in E. lra.
        -- f_equal. ring.
      * destruct (varb a) eqn:Va.
        -- specialize (Hx eq_refl eq_refl). subst a. cbn [dexpr] in Hd. rewrite String.eqb_refl in Hd. injection Hd as <-.
           etransitivity; [eapply lv_un; [exact Hy|exact I]|]. cbn [gfun]. f_equal. ring.
        -- etransitivity; [eapply lv_mul; [eapply lv_un; [exact Hy|exact I]|exact Hd]|]. cbn [gfun]. f_equal. ring.
  - destruct b; try (destruct H; fail).
    + destruct H as [Ha Hc]. destruct (IHa Ha) as (da & Da & Pa), (IHc Hc) as (dc & Dc & Pc).
      destruct (lsmooth_defined _ _ _ Ha) as [y Hy], (lsmooth_defined _ _ _ Hc) as [z Hz].
      exists (da + dc). split; [|eapply lp_add; eauto].
      cbn [dexpr]. destruct (numb a && numb c) eqn:E; [|now apply lv_add].
      apply andb_true_iff in E as [E1 E2]. destruct a; try discriminate. destruct c; try discriminate.
      cbn in *. injection Da as <-. injection Dc as <-. f_equal. lra.
    + destruct H as [Ha Hc]. destruct (IHa Ha) as (da & Da & Pa), (IHc Hc) as (dc & Dc & Pc).
      destruct (lsmooth_defined _ _ _ Ha) as [y Hy], (lsmooth_defined _ _ _ Hc) as [z Hz].
      exists (da - dc). split; [|eapply lp_sub; eauto].
      cbn [dexpr]. destruct (numb a && numb c) eqn:E; [|now apply lv_sub].
      apply andb_true_iff in E as [E1 E2]. destruct a; try discriminate. destruct c; try discriminate.
      cbn in *. injection Da as <-. injection Dc as <-. f_equal. lra.
    + destruct H as [H|[Ha Hc]].
      { exists 0. split.
        - cbn [dexpr]. rewrite (zlit_numb _ H). now apply lv_mulz.
        - apply (lp_const _ _ _ 0). intros t. now apply lv_mulz. }
      destruct (IHa Ha) as (da & Da & Pa), (IHc Hc) as (dc & Dc & Pc).
      destruct (lsmooth_defined _ _ _ Ha) as [y Hy], (lsmooth_defined _ _ _ Hc) as [z Hz].
      exists (da * z + y * dc). split; [|eapply lp_mul; eauto].
      cbn [dexpr]. destruct (numb a) eqn:Na; [|destruct (numb c) eqn:Nc].
      * etransitivity; [eapply lv_mul; eauto|]. f_equal. destruct a; try discriminate. cbn in Da. injection Da as <-. ring.
      * etransitivity; [eapply lv_mul; eauto|]. f_equal. destruct c; try discriminate. cbn in Dc. injection Dc as <-. ring.
      * apply lv_add; now apply lv_mul.
    + destruct H as (Ha & Hc & Hnz). destruct (IHa Ha) as (da & Da & Pa), (IHc Hc) as (dc & Dc & Pc).
      destruct (lsmooth_defined _ _ _ Ha) as [y Hy], (lsmooth_defined _ _ _ Hc) as [z Hz].
      assert (Nz : z <> 0) by congruence.
      exists ((da * z - y * dc) / (z * z)). split; [|eapply lp_div; eauto].
      cbn [dexpr]. destruct (numb c) eqn:Nc.
      * etransitivity; [eapply lv_div; eauto|]. f_equal.
        destruct c; try discriminate. cbn in Dc. injection Dc as <-. field. auto.
      * apply lv_div; [apply lv_sub; now apply lv_mul|now apply lv_sq|nra].
    + destruct H as [(Na & Nc & D)|[(Na & Ha & y & z & -> & Hy & Hp)|(Nc & Ha & Hc & y & Hy & Py)]].
      * exists 0. split; [destruct a; try discriminate; destruct c; try discriminate; reflexivity|].
        destruct (lval env (EBin BPow a c)) as [r|] eqn:E; [|congruence].
        apply (lp_const _ _ _ r). intros t. rewrite <- E. cbn [lval mulz].
        now rewrite (numb_lval a env t x Na), (numb_lval c env t x Nc).
      * destruct (IHa Ha) as (da & Da & Pa). destruct (lp_pow_lit env x a da y z Pa Hy Hp) as (p & Ep & Pp).
        exists (p * da). split; [|exact Pp]. rewrite dexpr_pow_lit by auto. exact (lv_mul _ _ _ _ _ Ep Da).
      * destruct (IHa Ha) as (da & Da & Pa), (IHc Hc) as (dc & Dc & Pc). destruct (lsmooth_defined _ _ _ Hc) as [z Hz].
        exists (exp (z * ln y) * (dc * ln y + z * (1 / y * da))). split; [|eapply lp_pow_pos; eauto].
        assert (Ep : lval env (EBin BPow a c) = Some (exp (z * ln y))).
        { rewrite (lv_pow _ _ _ _ _ Hy Hz). now apply Rpow_pos. }
        assert (El : lval env (EUn ULog a) = Some (ln y)) by exact (lv_un _ ULog _ _ Hy Py).
        destruct (numb a) eqn:Na.
        -- destruct a as [v| | |]; try discriminate. rewrite dexpr_pow_num by auto.
           etransitivity; [exact (lv_mul _ _ _ _ _ (lv_mul _ _ _ _ _ Ep El) Dc)|]. f_equal.
           cbn in Da. injection Da as <-. field. lra.
        -- rewrite dexpr_pow by auto. apply lv_mul; [exact Ep|]. apply lv_add; [now apply lv_mul|].
           apply lv_mul; [exact Hz|]. apply lv_mul; [|exact Da]. apply lv_div; [apply lv_lit|exact Hy|lra].
Qed.

(** Builders. *)
Lemma ls_un x env u a y : lsmooth x env a -> lval env a = Some y -> un_smooth 0 u y ->
  (u = UExp -> varb a = true -> a = EVar x) -> lsmooth x env (EUn u a).
Proof.
  intros Ha Hy Hs Hx. cbn [lsmooth]. destruct (numb a) eqn:N; [left|right; eauto 8].
  split; [reflexivity|]. rewrite (lv_un _ _ _ _ Hy Hs). discriminate.
Qed.
Lemma ls_pow_lit x env a y z : lsmooth x env a -> lval env a = Some y -> pow_smooth 0 y z ->
  lsmooth x env (EBin BPow a (ENum (Some z))).
Proof.
  intros Ha Hy Hp. cbn [lsmooth]. destruct (numb a) eqn:N; [left|right; left; eauto 10].
  split; [reflexivity|]. split; [reflexivity|]. rewrite (lv_pow _ _ (ENum (Some z)) y z Hy eq_refl). now apply (pow_smooth_defined 0).
Qed.
Lemma ls_pow x env a c y : lsmooth x env a -> lsmooth x env c -> lval env a = Some y -> 0 < y ->
  lsmooth x env (EBin BPow a c).
Proof.
  intros Ha Hc Hy Py. destruct (numb c) eqn:Nc; [|cbn [lsmooth]; eauto 10].
  destruct c as [w| | |]; try discriminate. destruct w as [w|]; [|now destruct Hc].
  eapply ls_pow_lit; eauto. now left.
Qed.
Lemma ls_sq x env a y : lsmooth x env a -> lval env a = Some y -> lsmooth x env (EBin BPow a (lit 2)).
Proof. intros Ha Hy. apply (ls_pow_lit x env a y 2 Ha Hy). right. split; [now exists 2%Z|right; simpl; lra]. Qed.
Lemma ls_lit x env z : lsmooth x env (lit z). Proof. discriminate. Qed.
Lemma ls_mul x env a c : lsmooth x env a -> lsmooth x env c -> lsmooth x env (EBin BMul a c).
Proof. right. auto. Qed.
Lemma ls_div x env a c z : lsmooth x env a -> lsmooth x env c -> lval env c = Some z -> z <> 0 -> lsmooth x env (EBin BDiv a c).
Proof. intros Ha Hc Hz Nz. split; [exact Ha|split; [exact Hc|congruence]]. Qed.

Lemma lsmooth_dexpr x env e : lsmooth x env e -> lsmooth x env (dexpr x e).
Proof.
  induction e as [v|y|u a IH|b a IHa c IHc]; intros H.
  - apply ls_lit.
  - cbn [dexpr]. destruct (String.eqb y x); apply ls_lit.
  - destruct H as [[Na D]|(Na & Ha & (y & Hy & Hs) & Hx)].
    + cbn [dexpr]. rewrite Na. destruct a; try discriminate. destruct u; cbn [andb is_sign negb]; try exact (ls_lit x env 0);
        (left; split; [reflexivity|discriminate]).
    + cbn [dexpr]. rewrite Na. cbn [andb]. pose proof (IH Ha) as Hd.
      destruct (ldiff_value x env a Ha) as (d & Vd & _). pose proof (lv_sq _ _ _ Hy) as Sq. pose proof (ls_sq _ _ _ _ Ha Hy) as Ss.
      destruct u; cbn [d_un].
      * eapply ls_un; eauto. discriminate.
      * eapply ls_un; eauto. discriminate.
      * apply ls_mul; [|exact Hd]. eapply ls_un; eauto; first [exact I|discriminate].
      * apply ls_mul; [|exact Hd]. eapply ls_un; [|eapply lv_un; [exact Hy|exact I]|exact I|discriminate].
        eapply ls_un; eauto; first [exact I|discriminate].
      * apply ls_mul; [|exact Hd]. assert (C : lsmooth x env (EUn UCos a)) by (eapply ls_un; eauto; first [exact I|discriminate]).
        pose proof (lv_un env UCos a y Hy I) as VC.
        eapply ls_div; [apply ls_lit|eapply ls_sq; eauto|apply lv_sq; exact VC|]. cbn in *. nra.
      * destruct Hs as [[H1 H2] _]. assert (0 < sqrt (1 - y * y)) by (apply sqrt_lt_R0; nra). apply ls_mul; [|exact Hd].
        assert (Vs : lval env (EBin BSub (lit 1) (EBin BPow a (lit 2))) = Some (1 - y * y)) by (apply lv_sub; [reflexivity|exact Sq]).
        assert (Hp : un_smooth 0 USqrt (1 - y * y)) by (cbn; nra).
        eapply ls_div; [apply ls_lit| |eapply lv_un; [exact Vs|exact Hp]|cbn [gfun]; lra].
        eapply ls_un; [split; [apply ls_lit|exact Ss]|exact Vs|exact Hp|discriminate].
      * destruct Hs as [[H1 H2] _]. assert (0 < sqrt (1 - y * y)) by (apply sqrt_lt_R0; nra). apply ls_mul; [|exact Hd].
        assert (Vs : lval env (EBin BSub (lit 1) (EBin BPow a (lit 2))) = Some (1 - y * y)) by (apply lv_sub; [reflexivity|exact Sq]).
        assert (Hp : un_smooth 0 USqrt (1 - y * y)) by (cbn; nra).
        eapply ls_div; [apply ls_lit| |eapply lv_un; [exact Vs|exact Hp]|cbn [gfun]; lra].
        eapply ls_un; [split; [apply ls_lit|exact Ss]|exact Vs|exact Hp|discriminate].
      * apply ls_mul; [|exact Hd]. eapply ls_div; [apply ls_lit|split; [apply ls_lit|exact Ss]|apply lv_add; [reflexivity|exact Sq]|nra].
      * cbn in Hs. assert (0 < sqrt y) by (now apply sqrt_lt_R0). apply ls_mul; [|exact Hd].
        eapply ls_div; [apply ls_lit|apply ls_mul; [apply ls_lit|eapply ls_un; eauto; first [exact I|discriminate]]
                       |eapply lv_mul; [reflexivity|eapply lv_un; [exact Hy|exact Hs]]|cbn [gfun]; lra].
      * cbn in Hs. apply ls_mul; [|exact Hd]. eapply ls_div; [apply ls_lit|exact Ha|exact Hy|lra].
      * cbn in Hs. pose proof ln_2_nz. rewrite log_2. apply ls_mul; [|exact Hd].
        eapply ls_div; [apply ls_lit|apply ls_mul; [exact Ha|discriminate]|eapply lv_mul; [exact Hy|reflexivity]|].
        intros E. apply Rmult_integral in E. lra.
      * cbn in Hs. pose proof ln_10_nz. rewrite log_10. apply ls_mul; [|exact Hd].
        eapply ls_div; [apply ls_lit|apply ls_mul; [exact Ha|discriminate]|eapply lv_mul; [exact Hy|reflexivity]|].
        intros E. apply Rmult_integral in E. lra.
      * destruct (varb a) eqn:Va; [|apply ls_mul; [|exact Hd]]; eapply ls_un; eauto.
  - destruct b; try (now destruct H).
    + destruct H as [Ha Hc]. cbn [dexpr]. destruct (numb a && numb c); [apply ls_lit|split; auto].
    + destruct H as [Ha Hc]. cbn [dexpr]. destruct (numb a && numb c); [apply ls_lit|split; auto].
    + cbn [dexpr]. destruct H as [H|[Ha Hc]]; [rewrite (zlit_numb _ H); now left|].
      destruct (numb a); [apply ls_mul; auto|]. destruct (numb c); [apply ls_mul; auto|]. split; apply ls_mul; auto.
    + destruct H as (Ha & Hc & Hz). destruct (lsmooth_defined _ _ _ Hc) as [z Vz]. assert (Nz : z <> 0) by congruence.
      cbn [dexpr]. destruct (numb c); [eapply ls_div; eauto|].
      eapply ls_div; [split; apply ls_mul; auto|eapply ls_sq; eauto|apply lv_sq; exact Vz|nra].
    + destruct H as [(Na & Nc & D)|[(Na & Ha & y & z & -> & Hy & Hp)|(Nc & Ha & Hc & y & Hy & Py)]].
      * destruct a; try discriminate. destruct c; discriminate.
      * rewrite dexpr_pow_lit by auto. apply ls_mul; [|auto].
        destruct (Req_EM_T z 0) as [->|Nz]; [left; apply zlit_0|]. apply ls_mul; [discriminate|].
        cbn [n_sub n_ofZ Rops lift2 r_bin]. eapply ls_pow_lit; eauto. destruct Hp as [Hp|[[n ->] Hp]]; [now left|right].
        split; [exists (n - 1)%Z; now rewrite minus_IZR|]. destruct Hp as [Hp|Hp]; [auto|right]. simpl in Hp |- *.
        assert (0 <= n)%Z by (apply le_IZR; lra). assert (n <> 0%Z) by (intros ->; now apply Nz).
        rewrite <- minus_IZR. apply IZR_le. lia.
      * assert (L : lsmooth x env (EUn ULog a)) by (eapply ls_un; eauto; first [exact I|discriminate]).
        assert (P : lsmooth x env (EBin BPow a c)) by (eapply ls_pow; eauto).
        destruct (numb a) eqn:Na.
        -- destruct a as [v| | |]; try discriminate. rewrite dexpr_pow_num by auto. repeat apply ls_mul; auto.
        -- rewrite dexpr_pow by auto. apply ls_mul; [exact P|]. split; [apply ls_mul; auto|]. apply ls_mul; [exact Hc|].
           apply ls_mul; [|auto]. eapply ls_div; [apply ls_lit|exact Ha|exact Hy|lra].
Qed.

Lemma lsmooth_dexpr_n i : forall x env e, lsmooth x env e -> lsmooth x env (dexpr_n i x e).
Proof.
  induction i as [|i IH]; intros x env e H; [exact H|]. cbn [dexpr_n]. apply IH. now apply lsmooth_dexpr.
Qed.

(** ** Open condition *)
Lemma lalong env x e y (P : R -> Prop) : lsmooth x env e -> lval env e = Some y -> locally y P ->
  locally (env x) (fun t => exists z, lval (upd env x t) e = Some z /\ P z).
Proof.
  intros Hs Hy HP. destruct (ldiff_value x env e Hs) as (d & _ & Pd).
  destruct (lp_elim _ _ _ _ _ Pd Hy) as (f & L & D & E).
  generalize (filter_and _ _ L (along _ _ _ _ _ D E HP)). apply filter_imp.
  intros t [H1 H2]. eauto.
Qed.

Lemma lsmooth_open x env e : lsmooth x env e -> locally (env x) (fun t => lsmooth x (upd env x t) e).
Proof.
  induction e as [v|y|u a IH|b a IHa c IHc]; intros H.
  - apply filter_forall. intros t. exact H.
  - apply filter_forall. intros t. exact I.
  - destruct H as [[Na D]|(Na & Ha & (y & Hy & Hs) & Hx)].
    + apply filter_forall. intros t. left. split; [exact Na|]. destruct a; try discriminate. exact D.
    + generalize (filter_and _ _ (IH Ha) (lalong env x a y _ Ha Hy (un_smooth_open _ _ _ Hs))).
      apply filter_imp. intros t [H1 (z & H2 & H3)]. eapply ls_un; eauto.
  - destruct b; try (now destruct H).
    1-2: destruct H as [Ha Hc]; generalize (filter_and _ _ (IHa Ha) (IHc Hc)); apply filter_imp; intros t [H1 H2]; now split.
    + destruct H as [H|[Ha Hc]]; [apply filter_forall; intros t; now left|].
      generalize (filter_and _ _ (IHa Ha) (IHc Hc)); apply filter_imp; intros t [H1 H2]. now apply ls_mul.
    + destruct H as (Ha & Hc & Hz). destruct (lsmooth_defined _ _ _ Hc) as [z Vz]. assert (Nz : z <> 0) by congruence.
      generalize (filter_and _ _ (filter_and _ _ (IHa Ha) (IHc Hc)) (lalong env x c z _ Hc Vz (open_neq_loc 0 z Nz))).
      apply filter_imp. intros t [[H1 H2] (w & H3 & H4)]. eapply ls_div; eauto.
    + destruct H as [(Na & Nc & D)|[(Na & Ha & y & z & -> & Hy & Hp)|(Nc & Ha & Hc & y & Hy & Py)]].
      * apply filter_forall. intros t. left. destruct a; try discriminate. destruct c; try discriminate. auto.
      * generalize (filter_and _ _ (IHa Ha) (lalong env x a y _ Ha Hy (pow_smooth_open _ _ _ Hp))).
        apply filter_imp. intros t [H1 (w & H2 & H3)]. eapply ls_pow_lit; eauto.
      * generalize (filter_and _ _ (filter_and _ _ (IHa Ha) (IHc Hc)) (lalong env x a y _ Ha Hy (open_lt_loc 0 y Py))).
        apply filter_imp. intros t [[H1 H2] (w & H3 & H4)]. eapply ls_pow; eauto.
Qed.

(** ** n-th derivatives of the lax value *)
Definition lfun env x e (t : R) : R := match lval (upd env x t) e with Some r => r | None => 0 end.

Lemma lfun_upd env x t e : lfun (upd env x t) x e = lfun env x e.
Proof. apply FunctionalExtensionality.functional_extensionality. intros s. unfold lfun. now rewrite upd_upd. Qed.

Lemma lderive_step x env e : lsmooth x env e -> is_derive (lfun env x e) (env x) (lfun env x (dexpr x e) (env x)).
Proof.
  intros H. destruct (ldiff_value x env e H) as (d & Vd & F & L & D).
  unfold lfun at 2. rewrite upd_same, Vd. eapply is_derive_ext_loc; [|exact D].
  revert L. apply filter_imp. intros t Ht. unfold lfun. now rewrite Ht.
Qed.

Lemma lderive_n x env e (U : R -> Prop) : open U -> (forall t, U t -> lsmooth x (upd env x t) e) ->
  forall j t, U t -> is_derive_n (lfun env x e) j t (lfun env x (dexpr_n j x e) t).
Proof.
  intros HU HS. induction j as [|j IH]; intros t Ht; [reflexivity|].
  cbn [is_derive_n].
  apply (is_derive_ext_loc (lfun env x (dexpr_n j x e))).
  - generalize (HU t Ht). apply filter_imp. intros s Hs. symmetry.
    apply is_derive_n_unique. now apply IH.
  - rewrite dexpr_n_S. pose proof (lderive_step x (upd env x t) (dexpr_n j x e)) as D.
    rewrite !lfun_upd, upd_at in D. apply D. apply lsmooth_dexpr_n. now apply HS.
Qed.

(** ** From the strict notions *)
Lemma smooth_lsmooth k x env e : smooth k x env e -> lsmooth x env e.
Proof.
  assert (U0 : forall u y, un_smooth k u y -> un_smooth 0 u y) by (intros u y; destruct u; simpl; auto; intuition lia).
  assert (P0 : forall y z, pow_smooth k y z -> pow_smooth 0 y z).
  { intros y z [Hp|[Hp [Hq|Hq]]]; [now left|right; auto|right; split; auto; right; simpl; pose proof (pos_INR k); lra]. }
  induction e as [v|y|u a IH|b a IHa c IHc]; intros H.
  - exact H.
  - exact I.
  - destruct (smooth_un_inv _ _ _ _ _ H) as [[Na D]|(Na & Ha & (y & Hy & Hs) & Hx)].
    + left. split; [exact Na|]. destruct (rval env (EUn u a)) as [r|] eqn:E; [|congruence]. rewrite (rval_lval _ _ _ E). discriminate.
    + eapply ls_un; eauto using rval_lval.
  - destruct b; try (now destruct H).
    + destruct H; split; auto.
    + destruct H; split; auto.
    + destruct H; right; auto.
    + destruct H as (Ha & Hc & Hz). destruct (smooth_defined _ _ _ _ Hc) as [z Vz].
      eapply ls_div; eauto using rval_lval. congruence.
    + destruct (smooth_pow_inv _ _ _ _ _ H) as [(Na & Nc & D)|[(Na & Ha & y & z & -> & Hy & Hp)|(Nc & Ha & Hc & y & Hy & Py)]].
      * left. repeat split; auto. destruct (rval env (EBin BPow a c)) as [r|] eqn:E; [|congruence]. rewrite (rval_lval _ _ _ E). discriminate.
      * eapply ls_pow_lit; eauto using rval_lval.
      * eapply ls_pow; eauto using rval_lval.
Qed.

Lemma rval_along k env x e y (P : R -> Prop) : smooth k x env e -> locally (env x) (fun t => smooth k x (upd env x t) e) ->
  rval env e = Some y -> locally y P -> locally (env x) (fun t => exists z, rval (upd env x t) e = Some z /\ P z).
Proof.
  intros Hs Ho Hy HP.
  generalize (filter_and _ _ Ho (lalong env x e y P (smooth_lsmooth _ _ _ _ Hs) (rval_lval _ _ _ Hy) HP)). apply filter_imp.
  intros t [H1 (z & H2 & H3)]. destruct (smooth_defined _ _ _ _ H1) as [v Hv]. exists z. split; [|exact H3].
  rewrite <- H2, Hv. symmetry. now apply rval_lval.
Qed.

Lemma smooth_open_any k x env e : smooth k x env e -> locally (env x) (fun t => smooth k x (upd env x t) e).
Proof.
  induction e as [v|y|u a IH|b a IHa c IHc]; intros H.
  - apply filter_forall. intros t. exact H.
  - apply filter_forall. intros t. exact I.
  - destruct (smooth_un_inv _ _ _ _ _ H) as [[Na D]|(Na & Ha & (y & Hy & Hs) & Hx)].
    + apply filter_forall. intros t. destruct a; try discriminate. exact D.
    + generalize (filter_and _ _ (IH Ha) (rval_along k env x a y _ Ha (IH Ha) Hy (un_smooth_open _ _ _ Hs))).
      apply filter_imp. intros t [H1 (z & H2 & H3)]. eapply sm_un; eauto.
  - destruct b; try (now destruct H).
    1-3: destruct H as [Ha Hc]; generalize (filter_and _ _ (IHa Ha) (IHc Hc)); apply filter_imp; intros t [H1 H2]; now split.
    + destruct H as (Ha & Hc & Hz). destruct (smooth_defined _ _ _ _ Hc) as [z Vz]. assert (Nz : z <> 0) by congruence.
      generalize (filter_and _ _ (filter_and _ _ (IHa Ha) (IHc Hc)) (rval_along k env x c z _ Hc (IHc Hc) Vz (open_neq_loc 0 z Nz))).
      apply filter_imp. intros t [[H1 H2] (w & H3 & H4)]. split; [exact H1|split; [exact H2|]]. rewrite H3. congruence.
    + destruct (smooth_pow_inv _ _ _ _ _ H) as [(Na & Nc & D)|[(Na & Ha & y & z & -> & Hy & Hp)|(Nc & Ha & Hc & y & Hy & Py)]].
      * apply filter_forall. intros t. destruct a; try discriminate. destruct c; try discriminate. exact D.
      * generalize (filter_and _ _ (IHa Ha) (rval_along k env x a y _ Ha (IHa Ha) Hy (pow_smooth_open _ _ _ Hp))).
        apply filter_imp. intros t [H1 (w & H2 & H3)]. eapply sm_pow_lit; eauto.
      * generalize (filter_and _ _ (filter_and _ _ (IHa Ha) (IHc Hc)) (rval_along k env x a y _ Ha (IHa Ha) Hy (open_lt_loc 0 y Py))).
        apply filter_imp. intros t [[H1 H2] (w & H3 & H4)]. eapply sm_pow; eauto.
Qed.

(** At a smooth point the n-th derivative exists, and is the lax value of the derived
    expression. *)
Theorem ldiff_n_value n k x env e : smooth k x env e ->
  exists d, lval env (dexpr_n n x e) = Some d /\ partial_n n env x e d.
Proof.
  intros H. destruct (lsmooth_defined x env (dexpr_n n x e)) as [d Vd].
  { apply lsmooth_dexpr_n. eapply smooth_lsmooth; exact H. }
  exists d. split; [exact Vd|]. pose proof (smooth_open_any _ _ _ _ H) as Ho. split.
  - unfold defined_near. revert Ho. apply filter_imp. intros t Ht.
    destruct (smooth_defined _ _ _ _ Ht) as [v ->]. discriminate.
  - pose proof (locally_locally _ _ Ho) as Ho'.
    set (U := fun t => locally t (fun s => smooth k x (upd env x s) e)).
    assert (OU : open U) by (intros t Ht; exact (locally_locally _ _ Ht)).
    assert (V : lfun env x (dexpr_n n x e) (env x) = d) by (unfold lfun; now rewrite upd_same, Vd).
    assert (D : is_derive_n (lfun env x e) n (env x) d).
    { rewrite <- V. apply (lderive_n x env e U OU).
      - intros t Ht. eapply smooth_lsmooth. exact (locally_singleton _ _ Ht).
      - exact (locally_singleton _ _ Ho'). }
    eapply is_derive_n_ext_loc; [|exact D]. revert Ho. apply filter_imp. intros t Ht.
    destruct (smooth_defined _ _ _ _ Ht) as [v Hv]. unfold lfun, as_function. now rewrite Hv, (rval_lval _ _ _ Hv).
Qed.

(** ** Simplification turns the lax value into the value *)
Fixpoint lno00 env e : Prop :=
  match e with
  | ENum _ | EVar _ => True
  | EUn _ a => lno00 env a
  | EBin b a c => mulz b a = true \/
      lno00 env a /\ lno00 env c /\
      match b with BPow => is_num c \/ ~ (lval env a = Some 0 /\ lval env c = Some 0) | _ => True end
  end.

Lemma lsmooth_lno00 x env e : lsmooth x env e -> lno00 env e.
Proof.
  induction e as [v|y|u a IH|b a IHa c IHc]; intros H; cbn [lno00]; auto.
  - destruct H as [[Na D]|(Na & Ha & _)]; [|auto]. destruct a; try discriminate. exact I.
  - destruct b; cbn [lsmooth] in H; try tauto.
    destruct H as [(Na & Nc & D)|[(Na & Ha & y & z & -> & Hy & Hp)|(Nc & Ha & Hc & y & Hy & Py)]]; right.
    + destruct a; try discriminate. destruct c; try discriminate. simpl. auto.
    + repeat split; auto. left. exact I.
    + repeat split; auto. right. rewrite Hy. intros [E _]. injection E as E. lra.
Qed.

(** e' stands for v: its value, if any, is v; in strict mode it has one. *)
Definition okv (s : bool) env e' (v : R) : Prop :=
  (forall v', rval env e' = Some v' -> v' = v) /\ (s = true -> rval env e' = Some v).

Lemma okv_some s env e' v : rval env e' = Some v -> okv s env e' v.
Proof. intros H. split; [congruence|auto]. Qed.

Lemma finish_okv s env (o : option R) e' v : of_outcome (finish (K:=Rops) s (Some o)) = SDone e' ->
  (forall r, o = Some r -> r = v) -> okv s env e' v.
Proof.
  intros H Ho. unfold finish in H. rewrite invalidb_R in H. destruct o as [r|].
  - rewrite andb_false_r in H. injection H as <-. apply okv_some. cbn. f_equal. auto.
  - destruct s; [discriminate|]. injection H as <-. split; discriminate.
Qed.

Lemma okv_lit s env z e v : okv s env e v -> is_lit z e -> v = IZR z.
Proof. intros [H _] L. symmetry. apply H. now apply is_lit_R. Qed.

Lemma contract_un_okv s env u a' e' y v : contract s (EUn u a') (SDone e') -> okv s env a' y -> r_un u y = Some v -> okv s env e' v.
Proof.
  intros H Ha Hv. inversion H as [u' w E1 E2|u' a E1 E2| | | |]; subst.
  - apply (finish_okv s env _ _ _ E2). intros r Hr. rewrite un_sem_R in Hr. destruct w as [w|]; [|discriminate].
    destruct Ha as [Ha _]. rewrite (Ha w eq_refl) in Hr. congruence.
  - destruct Ha as [Ha Ha']. split.
    + intros v'. cbn [rval]. destruct (rval env a') as [r|]; [|discriminate]. rewrite (Ha r eq_refl). congruence.
    + intros Hs. cbn [rval]. now rewrite (Ha' Hs).
Qed.

Lemma contract_bin_okv s env b a' c' e' y z v : contract s (EBin b a' c') (SDone e') -> okv s env a' y -> okv s env c' z ->
  r_bin b y z = Some v -> (b = BPow -> is_num c' \/ ~ (y = 0 /\ z = 0)) -> okv s env e' v.
Proof.
  intros H Ha Hc Hv Hz.
  inversion H as [| |b' w w' E1 E2|b' a c E0 E1 E2 E3|b' a c d E0 E1 E2 E3|b' a c E0 E1 E2 E3]; subst.
  - destruct Ha as [Ha _], Hc as [Hc _].
    assert (G : forall o, bin_sem (K:=Rops) b w w' = Some o -> forall r, o = Some r -> r = v).
    { intros o Ho r ->. destruct w as [w|]; [|destruct b; discriminate]. 
      destruct w' as [w'|].
      2:{ destruct b; cbn in Ho; try discriminate; destruct (Rtoint w); discriminate. }
      rewrite (Ha w eq_refl), (Hc w' eq_refl), (bin_sem_R _ _ _ _ Hv) in Ho. congruence. }
    destruct (bin_sem b w w') as [o|] eqn:Eb; [|discriminate]. apply (finish_okv s env _ _ _ E2). now apply G.
  - apply okv_some. cbn [rval n_ofZ Rops]. f_equal. destruct E1 as [a c L|a c L|a c L|a c L].
    + pose proof (okv_lit _ _ _ _ _ Ha L) as ->. injection Hv as <-. ring.
    + pose proof (okv_lit _ _ _ _ _ Hc L) as ->. injection Hv as <-. ring.
    + pose proof (okv_lit _ _ _ _ _ Ha L) as ->. cbn [r_bin] in Hv. destruct (Req_EM_T z 0); [discriminate|]. injection Hv as <-. field. auto.
    + pose proof (okv_lit _ _ _ _ _ Ha L) as ->. cbn [r_bin] in Hv. specialize (Hz eq_refl).
      unfold Rpow in Hv. destruct (Rlt_dec 0 0); [lra|]. destruct (Req_EM_T 0 0); [|lra].
      destruct (Rlt_dec 0 z); [injection Hv as <-; auto|]. destruct (Req_EM_T z 0); [|discriminate].
      exfalso. destruct Hz as [Hz|Hz]; [apply E0; split; [eapply lit_num; eassumption|exact Hz]|]. apply Hz. auto.
  - destruct E2 as [a c L|a c L|a c L|a c L|a c L|a c L|a c L]; cbn [r_bin] in Hv.
    + pose proof (okv_lit _ _ _ _ _ Ha L) as ->. replace v with z by (injection Hv as <-; ring). exact Hc.
    + pose proof (okv_lit _ _ _ _ _ Hc L) as ->. replace v with y by (injection Hv as <-; ring). exact Ha.
    + pose proof (okv_lit _ _ _ _ _ Hc L) as ->. replace v with y by (injection Hv as <-; ring). exact Ha.
    + pose proof (okv_lit _ _ _ _ _ Ha L) as ->. replace v with z by (injection Hv as <-; ring). exact Hc.
    + pose proof (okv_lit _ _ _ _ _ Hc L) as ->. replace v with y by (injection Hv as <-; ring). exact Ha.
    + pose proof (okv_lit _ _ _ _ _ Hc L) as ->. destruct (Req_EM_T 1 0); [lra|]. replace v with y by (injection Hv as <-; field). exact Ha.
    + pose proof (okv_lit _ _ _ _ _ Hc L) as ->. rewrite Rpow_1 in Hv. injection Hv as <-. exact Ha.
  - destruct Ha as [Ha Ha'], Hc as [Hc Hc']. split.
    + intros v'. cbn [rval]. destruct (rval env a') as [r|]; [|discriminate]. destruct (rval env c') as [r'|]; [|discriminate].
      rewrite (Ha r eq_refl), (Hc r' eq_refl). congruence.
    + intros Hs. cbn [rval]. now rewrite (Ha' Hs), (Hc' Hs).
Qed.

Lemma contract_zero_okv s env c' e' : contract s (EBin BMul (ENum (Some 0)) c') (SDone e') -> okv s env e' 0.
Proof.
  intros H. assert (L : is_lit (K:=Rops) 0 (ENum (Some 0))) by (now apply Reqb_spec).
  inversion H as [| |b' w w' E1 E2|b' a c E0 E1 E2 E3|b' a c d E0 E1 E2 E3|b' a c E0 E1 E2 E3]; subst.
  - cbn [bin_sem] in E2. apply (finish_okv s env _ _ _ E2). intros r Hr. destruct w' as [w'|]; [|discriminate].
    cbn in Hr. injection Hr as <-. ring.
  - apply okv_some. reflexivity.
  - exfalso. apply E1. now apply ab_mul_l.
  - exfalso. apply E1. now apply ab_mul_l.
Qed.

Lemma simplifies_okv s e r : simplifies s e r -> forall e' env v, r = SDone e' -> lval env e = Some v -> lno00 env e -> okv s env e' v.
Proof.
  induction 1 as [w|y|u a a' r H1 IH1 H2|u a r H1 IH1 H2|b a c a' c' r H1 IH1 H2 IH2 H3|b a c r H1 IH1 H2|b a c a' r H1 IH1 H2 IH2 H3];
    intros e' env v E Hv Hz; try subst r.
  - injection E as <-. now apply okv_some.
  - injection E as <-. now apply okv_some.
  - cbn [lval lno00] in *. destruct (lval env a) as [y|] eqn:Ea; [|discriminate].
    eapply contract_un_okv; [exact H2|eapply IH1; eauto|exact Hv].
  - exfalso. eapply H2; reflexivity.
  - destruct (mulz b a) eqn:Ez.
    + apply mulz_spec in Ez as [-> ->]. inversion H1; subst. rewrite lv_mulz in Hv by apply zlit_0. injection Hv as <-.
      eapply contract_zero_okv; exact H3.
    + cbn [lval lno00] in *. rewrite Ez in *. destruct Hz as [Hz|(Hz1 & Hz2 & Hz3)]; [discriminate|].
      destruct (lval env a) as [y|] eqn:Ea; [|discriminate]. destruct (lval env c) as [z|] eqn:Ec; [|discriminate].
      eapply contract_bin_okv; [exact H3|eapply IH1; eauto|eapply IH2; eauto|exact Hv|].
      intros ->. destruct Hz3 as [Hz3|Hz3]; [left|right].
      * destruct c; try (now destruct Hz3). inversion H2; subst. exact I.
      * intros [-> ->]. now apply Hz3.
  - exfalso. eapply H2; reflexivity.
  - exfalso. eapply H3; reflexivity.
Qed.

(** ** The natural condition is the case k = 0 *)
Lemma un_interior_0 u y : un_interior u y <-> un_smooth 0 u y.
Proof. destruct u; simpl; intuition lia. Qed.
Lemma pow_interior_0 y w : pow_interior y w <-> pow_smooth 0 y w.
Proof. reflexivity. Qed.

Lemma regular_smooth x env e : regular x env e <-> smooth 0 x env e.
Proof.
  induction e as [v|y|u a IH|b a IHa c IHc]; try reflexivity.
  - assert (E : (exists y, rval env a = Some y /\ un_interior u y) <-> (exists y, rval env a = Some y /\ un_smooth 0 u y)).
    { split; intros (y & H1 & H2); exists y; (split; [exact H1|now apply un_interior_0]). }
    destruct a as [v|z|u' a'|b' a1 a2]; [reflexivity|..].
    1: change (True /\ (exists y, rval env (EVar z) = Some y /\ un_interior u y) /\ match u with UExp => z = x | _ => True end <->
               True /\ (exists y, rval env (EVar z) = Some y /\ un_smooth 0 u y) /\ match u with UExp => z = x | _ => True end).
    2: change (regular x env (EUn u' a') /\ (exists y, rval env (EUn u' a') = Some y /\ un_interior u y) /\ match u with UExp => True | _ => True end <->
               smooth 0 x env (EUn u' a') /\ (exists y, rval env (EUn u' a') = Some y /\ un_smooth 0 u y) /\ match u with UExp => True | _ => True end).
    3: change (regular x env (EBin b' a1 a2) /\ (exists y, rval env (EBin b' a1 a2) = Some y /\ un_interior u y) /\ match u with UExp => True | _ => True end <->
               smooth 0 x env (EBin b' a1 a2) /\ (exists y, rval env (EBin b' a1 a2) = Some y /\ un_smooth 0 u y) /\ match u with UExp => True | _ => True end).
    1: rewrite E; reflexivity.
    { rewrite IH, E; reflexivity. } { rewrite IH, E; reflexivity. }
  - set (P := regular x env a) in *. set (Q := regular x env c) in *. set (P' := smooth 0 x env a) in *. set (Q' := smooth 0 x env c) in *.
    destruct b; try reflexivity.
    + change (P /\ Q <-> P' /\ Q'). tauto.
    + change (P /\ Q <-> P' /\ Q'). tauto.
    + change (P /\ Q <-> P' /\ Q'). tauto.
    + change (P /\ Q /\ rval env c <> Some 0 <-> P' /\ Q' /\ rval env c <> Some 0). tauto.
    + set (S2 := exists y, rval env a = Some y /\ 0 < y).
      destruct c as [w|z|u' a'|b' a1 a2].
      * destruct a; [reflexivity|..];
        match goal with |- regular x env (EBin BPow ?a0 _) <-> _ =>
          change (P /\ (exists y z, rval env a0 = Some y /\ w = Some z /\ pow_interior y z) <->
                  P' /\ (exists y z, rval env a0 = Some y /\ w = Some z /\ pow_smooth 0 y z)) end; rewrite IHa; reflexivity.
      * replace (regular x env (EBin BPow a (EVar z))) with (P /\ Q /\ S2) by (destruct a; reflexivity).
        replace (smooth 0 x env (EBin BPow a (EVar z))) with (P' /\ Q' /\ S2) by (destruct a; reflexivity). tauto.
      * replace (regular x env (EBin BPow a (EUn u' a'))) with (P /\ Q /\ S2) by (destruct a; reflexivity).
        replace (smooth 0 x env (EBin BPow a (EUn u' a'))) with (P' /\ Q' /\ S2) by (destruct a; reflexivity). tauto.
      * replace (regular x env (EBin BPow a (EBin b' a1 a2))) with (P /\ Q /\ S2) by (destruct a; reflexivity).
        replace (smooth 0 x env (EBin BPow a (EBin b' a1 a2))) with (P' /\ Q' /\ S2) by (destruct a; reflexivity). tauto.
Qed.
