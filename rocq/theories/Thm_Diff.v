(** C20-C23: differentiation. *)
From Coq Require Import String List ZArith Reals Lra Lia Bool.
From Coquelicot Require Import Coquelicot.
From Flocq Require Import IEEE754.BinarySingleNaN.
From Verif Require Import Base MathOp NodeModel SimplifyModel SimplifySpec DiffModel ExprSpec IEEE RealSpec DiffSpec NodeProofs Thm_Simplify DiffProofs DiffReal DiffSmooth DiffLax Thm_Node.
Import ListNotations.
Local Open Scope string_scope.
Local Open Scope R_scope.
Implicit Types (env : string -> R) (d : R).

(** ** C20, C21 *)
Lemma smooth_no_int k x env (e : expr Rops) : smooth k x env e -> no_int_ops e.
Proof.
  induction e as [v|y|u a IH|b a IHa c IHc]; intros H; cbn [no_int_ops]; auto.
  - destruct (smooth_un_inv _ _ _ _ _ H) as [[Na D]|(Na & Ha & _)]; [now apply numb_no_int|auto].
  - destruct b; cbn [smooth] in H; try tauto.
    destruct (smooth_pow_inv _ _ _ _ _ H) as [(Na & Nc & D)|[(Na & Ha & y & z & -> & Hy & Hp)|(Nc & Ha & Hc & y & Hy & Py)]].
    + split; now apply numb_no_int.
    + split; [auto|exact I].
    + auto.
Qed.

Lemma smooth_no_0_pow_0 k x env (e : expr Rops) : smooth k x env e -> no_0_pow_0 env e.
Proof.
  induction e as [v|y|u a IH|b a IHa c IHc]; intros H; cbn [no_0_pow_0]; auto.
  - destruct (smooth_un_inv _ _ _ _ _ H) as [[Na D]|(Na & Ha & _)]; [|auto]. destruct a; try discriminate. exact I.
  - destruct b; cbn [smooth] in H; try tauto.
    destruct (smooth_pow_inv _ _ _ _ _ H) as [(Na & Nc & D)|[(Na & Ha & y & z & -> & Hy & Hp)|(Nc & Ha & Hc & y & Hy & Py)]].
    + destruct a; try discriminate. destruct c; try discriminate. simpl. auto.
    + repeat split; auto. left. exact I.
    + repeat split; auto. right. rewrite Hy. intros [E _]. injection E as E. lra.
Qed.

Lemma Diff_of_nat {K : num_ops} (cfg : config K) e x k : Diff cfg (embed e) x (Z.of_nat (S k)) =
  let* n := DiffTimes (S k) x (embed e) in Simplify cfg n.
Proof.
  unfold Diff. destruct (Z.leb_spec (Z.of_nat (S k)) 0); [lia|]. rewrite Nat2Z.id.
  pose proof (embed_not_nil e). destruct (embed e); [congruence|reflexivity].
Qed.

Lemma contract_no_int {K : num_ops} s (e : expr K) r : contract s e r -> no_int_ops e ->
  r <> SIntUndef /\ forall e', r = SDone e' -> no_int_ops e'.
Proof.
  intros H. destruct H as [u v|u a|b v w|b a c H1 H2|b a c d' H1 H2 H3|b a c H1 H2 H3]; simpl; intros Hi.
  - unfold finish. destruct (s && invalidb _); simpl; split; try discriminate; intros e' [= <-]; exact I.
  - split; [discriminate|]. intros e' [= <-]. exact Hi.
  - destruct b; try tauto; simpl; unfold finish; destruct (s && invalidb _); simpl; split; try discriminate; intros e' [= <-]; exact I.
  - split; [discriminate|]. intros e' [= <-]. exact I.
  - split; [discriminate|]. intros e' [= <-]. destruct H3; tauto.
  - split; [discriminate|]. intros e' [= <-]. exact Hi.
Qed.

Lemma simplifies_no_int {K : num_ops} s (e : expr K) r : simplifies s e r -> no_int_ops e ->
  r <> SIntUndef /\ forall e', r = SDone e' -> no_int_ops e'.
Proof.
  induction 1; intros Hi.
  - split; [discriminate|]. intros e' [= <-]. exact I.
  - split; [discriminate|]. intros e' [= <-]. exact I.
  - eapply contract_no_int; [eassumption|]. simpl in *. now apply IHsimplifies.
  - apply IHsimplifies. exact Hi.
  - eapply contract_no_int; [eassumption|]. destruct b; simpl in *; try tauto;
      (split; [apply IHsimplifies1|apply IHsimplifies2]; tauto).
  - apply IHsimplifies. destruct b; simpl in *; tauto.
  - apply IHsimplifies2. destruct b; simpl in *; tauto.
Qed.

(** At every point where e is regular the n-th partial derivative exists and, if Diff(e,x,n)
    returns, the result has that value there.  (Without throwOnInvalidValue the result may
    contain a literal inf/nan and so have no value; it never has a wrong one.) *)
Theorem C21_diff_n (cfg : config Rops) (n : nat) x env (e : expr Rops) r : (0 < n)%nat ->
  regular x env e -> Diff cfg (embed e) x (Z.of_nat n) = Ok r ->
  exists e' d, r = embed e' /\ partial_n n env x e d /\
    (rval env e' = Some d \/ throwOnInvalidValue cfg = false /\ rval env e' = None).
Proof.
  intros Hn H0 H. apply regular_smooth in H0. destruct n as [|k]; [lia|].
  destruct (ldiff_n_value (S k) 0 x env e H0) as (d & Vd & Pd).
  rewrite Diff_of_nat, DiffTimes_ok in H by (eapply smooth_no_int; exact H0). cbn [bind] in H.
  destruct (C19_simplify_refines Rops cfg (dexpr_n (S k) x e)) as (s & Hs & R).
  rewrite H in R. destruct s as [e'| |]; simpl in R; [|discriminate|destruct R; discriminate].
  exists e', d. split; [now injection R|]. split; [exact Pd|].
  destruct (simplifies_okv _ _ _ Hs e' env d eq_refl Vd) as [O1 O2].
  { eapply lsmooth_lno00, lsmooth_dexpr_n, smooth_lsmooth; exact H0. }
  destruct (throwOnInvalidValue cfg); [auto|].
  destruct (rval env e') as [v|] eqn:E; [left; f_equal; auto|auto].
Qed.

(** It returns, or the process is terminated because a constant in the derivative is invalid. *)
Theorem C21_diff_n_outcome (cfg : config Rops) (n : nat) x env (e : expr Rops) : (0 < n)%nat ->
  regular x env e ->
  (exists r, Diff cfg (embed e) x (Z.of_nat n) = Ok r) \/
  (throwOnInvalidValue cfg = true /\ Diff cfg (embed e) x (Z.of_nat n) = Terminate).
Proof.
  intros Hn H0. apply regular_smooth in H0. destruct n as [|k]; [lia|].
  assert (Hi : no_int_ops e) by (eapply smooth_no_int; exact H0).
  rewrite Diff_of_nat, DiffTimes_ok by exact Hi. cbn [bind].
  destruct (C19_simplify_refines Rops cfg (dexpr_n (S k) x e)) as (s & Hs & R).
  destruct (simplifies_no_int _ _ _ Hs (dexpr_n_no_int (S k) x e Hi)) as [N1 N2].
  destruct s as [e'| |]; simpl in R; [left; eauto|right|congruence]. split; [|exact R].
  destruct (throwOnInvalidValue cfg) eqn:E; auto. exfalso.
  exact (C19_simplify_lenient Rops cfg (dexpr_n (S k) x e) E R).
Qed.

(** If moreover the unsimplified n-th derivative has a value, Diff(e,x,n) does return,
    whatever the configuration. *)
Theorem C21_diff_n_returns (cfg : config Rops) (n : nat) x env (e : expr Rops) : (0 < n)%nat ->
  smooth n x env e ->
  exists e' d, Diff cfg (embed e) x (Z.of_nat n) = Ok (embed e') /\ rval env e' = Some d /\
    partial_n n env x e d.
Proof.
  intros Hn H. destruct n as [|k]; [lia|].
  destruct (diff_n_value k x env e H) as (d & Vd & Pd).
  pose proof (smooth_dexpr_n (S k) 0 x env e) as Hs. rewrite Nat.add_0_r in Hs. specialize (Hs H).
  destruct (C17_simplify_value cfg (dexpr_n (S k) x e) env d Vd (smooth_no_0_pow_0 _ _ _ _ Hs)) as (e' & Hs' & Ve').
  exists e', d. split; [|auto]. rewrite Diff_of_nat, DiffTimes_ok by (eapply smooth_no_int; exact H). exact Hs'.
Qed.

Theorem C20_diff (cfg : config Rops) x env (e : expr Rops) : smooth 1 x env e ->
  exists e' d, Diff cfg (embed e) x 1 = Ok (embed e') /\ rval env e' = Some d /\ partial env x e d.
Proof.
  intros H. destruct (C21_diff_n_returns cfg 1 x env e) as (e' & d & H1 & H2 & H3 & H4); auto.
  exists e', d. split; [exact H1|]. split; [exact H2|]. split; [exact H3|].
  cbn [is_derive_n] in H4. eapply is_derive_ext; [|exact H4]. reflexivity.
Qed.

(** The partial derivative is unique, so the value is determined. *)
Theorem C20_partial_unique env x (e : expr Rops) d d' : partial env x e d -> partial env x e d' -> d = d'.
Proof. intros [_ H] [_ H']. rewrite <- (is_derive_unique _ _ _ H). now apply is_derive_unique. Qed.

(** The excluded case is really wrong: d/dx exp(y) is reported to be exp(y), which is not 0. *)
Theorem C20_exp_of_other_variable (K : num_ops) (cfg : config K) x y : x <> y ->
  Diff cfg (embed (EUn UExp (EVar y))) x 1 = Ok (embed (EUn UExp (EVar y))).
Proof. intros _. reflexivity. Qed.

Theorem C20_exp_of_other_variable_wrong env x y : x <> y ->
  partial env x (EUn UExp (EVar y)) 0 /\ rval env (EUn UExp (EVar y)) <> Some 0.
Proof.
  intros H. split.
  - apply (partial_const _ _ _ (exp (env y))). intros t. simpl. unfold upd.
    destruct (String.eqb_spec y x); [congruence|reflexivity].
  - simpl. pose proof (exp_pos (env y)). intros E. injection E as E. lra.
Qed.

(** ** C22: errors, shape and variables of the result *)
Theorem C22_diff_throws_iff (K : num_ops) (cfg : config K) (e : expr K) x n : (0 < n)%nat ->
  (exists msg, Diff cfg (embed e) x (Z.of_nat n) = Throw (RuntimeError msg)) <-> ~ no_int_ops e.
Proof.
  intros Hn. destruct n as [|k]; [lia|]. rewrite Diff_of_nat. destruct (no_int_dec e) as [D|D]; split; auto.
  - rewrite DiffTimes_ok by auto. cbn [bind]. intros [msg H]. exfalso.
    unfold Simplify, noexcept in H. destruct (SimplifyWholeNode cfg (embed (dexpr_n (S k) x e))); discriminate.
  - tauto.
  - intros _. cbn [DiffTimes]. unfold DiffOnceRoot.
    destruct (DiffOnce_throws x e D (diff_fuel (embed e))) as [msg ->]; [lia|]. exists msg. reflexivity.
Qed.

(** Without &, |, % Diff returns an expression in normal form over variables of the input, or
    terminates the process; the latter only with throwOnInvalidValue on. *)
Theorem C22_diff_outcome (K : num_ops) (cfg : config K) (e : expr K) x n : (0 < n)%nat -> no_int_ops e ->
  (exists e', Diff cfg (embed e) x (Z.of_nat n) = Ok (embed e') /\ normal e' /\ no_int_ops e' /\
     forall y, occurs y e' -> occurs y e) \/
  (throwOnInvalidValue cfg = true /\ Diff cfg (embed e) x (Z.of_nat n) = Terminate).
Proof.
  intros Hn Hi. destruct n as [|k]; [lia|]. rewrite Diff_of_nat, DiffTimes_ok by auto. cbn [bind].
  pose proof (dexpr_n_no_int (S k) x e Hi) as Hi'.
  destruct (C19_simplify_refines K cfg (dexpr_n (S k) x e)) as (r & Hs & R).
  destruct (simplifies_no_int _ _ _ Hs Hi') as [N1 N2].
  destruct r as [e'| |]; simpl in R; [|right|congruence].
  - left. exists e'. split; [exact R|]. destruct (C18_simplify_normal _ _ _ R) as (e'' & E & Hn' & _ & Ho & _).
    apply embed_inj in E. subst e''. repeat split; auto.
    intros y Hy. apply Ho in Hy. exact (dexpr_n_occurs (S k) x e y Hi Hy).
  - split; [|exact R]. destruct (throwOnInvalidValue cfg) eqn:E; auto. exfalso.
    exact (C19_simplify_lenient K cfg (dexpr_n (S k) x e) E R).
Qed.

(** The order must be positive. *)
Theorem C22_diff_order (K : num_ops) (cfg : config K) (n : node K) x i : (i <= 0)%Z ->
  exists why, Diff cfg n x i = AssertFail why.
Proof. intros H. unfold Diff. apply Z.leb_le in H. rewrite H. eexists; reflexivity. Qed.

(** The process really is terminated by d/dx 0^x, whose derivative contains log(0). *)
Theorem C22_diff_zero_power_terminates (cfg : config Rops) : throwOnInvalidValue cfg = true ->
  Diff cfg (embed (EBin BPow (ENum (Some 0)) (EVar "x"))) "x" 1 = Terminate.
Proof.
  intros H. change 1%Z with (Z.of_nat 1). rewrite Diff_of_nat, DiffTimes_ok by (simpl; auto). cbn [bind dexpr_n].
  apply C19_simplify_terminates_iff. rewrite H.
  eapply sp_bin_err_l; [|discriminate].
  eapply sp_bin_err_r.
  - eapply sp_bin; [constructor|constructor|]. apply ct_absorb; [simpl; tauto|]. constructor. simpl. now apply Reqb_spec.
  - eapply sp_un; [constructor|].
    assert (E : of_outcome (finish true (Some (un_sem ULog (Some 0 : Rops)))) = SInvalid).
    { rewrite un_sem_R. simpl. destruct (Rlt_dec 0 0); [lra|]. reflexivity. }
    rewrite <- E. apply ct_un_fold.
  - discriminate.
Qed.

(** ** C23: a variable that does not occur *)
Section C23.
Context {K : num_ops} (ZL : zero_laws K).
Definition zero (e : expr K) : Prop := exists v, e = ENum v /\ is_zero v.

Lemma zero_lit : zero (lit 0). Proof. exists (n_ofZ 0). split; [reflexivity|apply ZL]. Qed.

Lemma finish_valid (v : K) e' : of_outcome (finish true (Some v)) = SDone e' -> e' = ENum v /\ ~ invalid v.
Proof.
  unfold finish. cbn [andb]. destruct (invalidb v) eqn:E; [discriminate|]. intros [= <-]. split; auto.
  rewrite <- invalidb_spec. congruence.
Qed.

Lemma is_lit_zero e : zero e -> is_lit 0 e /\ is_num e.
Proof. intros (v & -> & H). split; [exact H|exact I]. Qed.

Lemma contract_mul_r p q e' : zero q -> contract true (EBin BMul p q) (SDone e') -> zero e'.
Proof.
  intros Hq H. destruct (is_lit_zero _ Hq) as [L N]. destruct Hq as (w & -> & Hw).
  inversion H as [| |b v w' E1 E2|b a c E0 E1 E2 E3|b a c d' E0 E1 E2 E3|b a c E0 E1 E2 E3]; subst.
  - cbn [bin_sem] in E2. apply finish_valid in E2 as [-> Hv]. eexists. split; [reflexivity|]. now apply (zl_mul_r _ ZL).
  - apply zero_lit.
  - exfalso. apply E1. now apply ab_mul_r.
  - exfalso. apply E1. now apply ab_mul_r.
Qed.

Lemma contract_mul_l p q e' : zero p -> contract true (EBin BMul p q) (SDone e') -> zero e'.
Proof.
  intros Hq H. destruct (is_lit_zero _ Hq) as [L N]. destruct Hq as (w & -> & Hw).
  inversion H as [| |b v w' E1 E2|b a c E0 E1 E2 E3|b a c d' E0 E1 E2 E3|b a c E0 E1 E2 E3]; subst.
  - cbn [bin_sem] in E2. apply finish_valid in E2 as [-> Hv]. eexists. split; [reflexivity|]. now apply (zl_mul_l _ ZL).
  - apply zero_lit.
  - exfalso. apply E1. now apply ab_mul_l.
  - exfalso. apply E1. now apply ab_mul_l.
Qed.

Lemma contract_div_l p q e' : zero p -> contract true (EBin BDiv p q) (SDone e') -> zero e'.
Proof.
  intros Hq H. destruct (is_lit_zero _ Hq) as [L N]. destruct Hq as (w & -> & Hw).
  inversion H as [| |b v w' E1 E2|b a c E0 E1 E2 E3|b a c d' E0 E1 E2 E3|b a c E0 E1 E2 E3]; subst.
  - cbn [bin_sem] in E2. apply finish_valid in E2 as [-> Hv]. eexists. split; [reflexivity|]. now apply (zl_div _ ZL).
  - apply zero_lit.
  - exfalso. apply E1. now apply ab_div.
  - exfalso. apply E1. now apply ab_div.
Qed.

Lemma contract_addsub b p q e' : b = BAdd \/ b = BSub -> zero p -> zero q -> contract true (EBin b p q) (SDone e') -> zero e'.
Proof.
  intros Hb Hp Hq H. destruct (is_lit_zero _ Hp) as [_ N1], (is_lit_zero _ Hq) as [_ N2].
  destruct Hp as (v & -> & Hv), Hq as (w & -> & Hw).
  inversion H as [| |b' v' w' E1 E2|b' a c E0 E1 E2 E3|b' a c d' E0 E1 E2 E3|b' a c E0 E1 E2 E3]; subst.
  - destruct Hb as [-> | ->]; cbn [bin_sem] in E2; apply finish_valid in E2 as [-> _]; eexists; (split; [reflexivity|]); now apply ZL.
  - tauto.
  - tauto.
  - tauto.
Qed.

Lemma contract_sign u p e' : is_sign u = true -> zero p -> contract true (EUn u p) (SDone e') -> zero e'.
Proof.
  intros Hu Hp H. destruct (is_lit_zero _ Hp) as [_ N1]. destruct Hp as (v & -> & Hv).
  inversion H as [u' v' E1 E2|u' a E1 E2| | | |]; subst.
  - destruct u; try discriminate; cbn [un_sem] in E2; apply finish_valid in E2 as [-> _]; eexists; (split; [reflexivity|]); auto; now apply ZL.
  - tauto.
Qed.

(** Inversion of a successful simplification of a binary / unary node. *)
Lemma simp_bin_inv b (p q e' : expr K) : simplifies true (EBin b p q) (SDone e') ->
  exists p' q', simplifies true p (SDone p') /\ simplifies true q (SDone q') /\ contract true (EBin b p' q') (SDone e').
Proof.
  intros H. inversion H as [| | | |b' a c a' c' r H1 H2 H3|b' a c r H1 H2|b' a c a' r H1 H2 H3]; subst.
  - eauto.
  - exfalso. eapply H2. reflexivity.
  - exfalso. eapply H3. reflexivity.
Qed.
Lemma simp_un_inv u (p e' : expr K) : simplifies true (EUn u p) (SDone e') ->
  exists p', simplifies true p (SDone p') /\ contract true (EUn u p') (SDone e').
Proof.
  intros H. inversion H as [| |u' a a' r H1 H2|u' a r H1 H2| | |]; subst.
  - eauto.
  - exfalso. eapply H2. reflexivity.
Qed.

(** Simplifying e gives a zero literal, if it gives anything. *)
Definition szero (e : expr K) : Prop := forall e', simplifies true e (SDone e') -> zero e'.

Lemma sz_lit : szero (lit 0).
Proof. intros e' H. inversion H; subst. apply zero_lit. Qed.
Lemma sz_mul_r p q : szero q -> szero (EBin BMul p q).
Proof. intros Hq e' H. apply simp_bin_inv in H as (p' & q' & H1 & H2 & H3). eapply contract_mul_r; eauto. Qed.
Lemma sz_mul_l p q : szero p -> szero (EBin BMul p q).
Proof. intros Hq e' H. apply simp_bin_inv in H as (p' & q' & H1 & H2 & H3). eapply contract_mul_l; eauto. Qed.
Lemma sz_div_l p q : szero p -> szero (EBin BDiv p q).
Proof. intros Hq e' H. apply simp_bin_inv in H as (p' & q' & H1 & H2 & H3). eapply contract_div_l; eauto. Qed.
Lemma sz_add p q : szero p -> szero q -> szero (EBin BAdd p q).
Proof. intros Hp Hq e' H. apply simp_bin_inv in H as (p' & q' & H1 & H2 & H3). eapply (contract_addsub _ p' q'); [left; reflexivity| | |exact H3]; auto. Qed.
Lemma sz_sub p q : szero p -> szero q -> szero (EBin BSub p q).
Proof. intros Hp Hq e' H. apply simp_bin_inv in H as (p' & q' & H1 & H2 & H3). eapply (contract_addsub _ p' q'); [right; reflexivity| | |exact H3]; auto. Qed.
Lemma sz_sign u p : is_sign u = true -> szero p -> szero (EUn u p).
Proof. intros Hu Hp e' H. apply simp_un_inv in H as (p' & H1 & H2). eapply contract_sign; eauto. Qed.

Lemma sz_dexpr x e : ~ occurs x e -> no_exp_of_var e -> no_int_ops e -> szero (dexpr x e).
Proof.
  induction e as [v|y|u a IH|b a IHa c IHc]; intros Ho He Hi.
  - apply sz_lit.
  - cbn [dexpr]. destruct (String.eqb_spec y x); [subst; destruct Ho; constructor|apply sz_lit].
  - destruct He as [He1 He2]. cbn [dexpr]. destruct (numb a && _) eqn:E; [apply sz_lit|].
    assert (S : szero (dexpr x a)) by (apply IH; auto; intros O; apply Ho; now constructor).
    destruct u; cbn [d_un]; try (apply sz_mul_r, S); try (apply sz_sign; [reflexivity|exact S]).
    destruct a; [apply sz_mul_r, S|destruct He2|apply sz_mul_r, S|apply sz_mul_r, S].
  - destruct He as [He1 He2].
    assert (Hia : no_int_ops a /\ no_int_ops c) by (destruct b; simpl in Hi; tauto).
    assert (Sa : szero (dexpr x a)) by (apply IHa; try tauto; intros O; apply Ho; now apply occ_l).
    assert (Sc : szero (dexpr x c)) by (apply IHc; try tauto; intros O; apply Ho; now apply occ_r).
    destruct b; try (now destruct Hi); cbn [dexpr].
    + destruct (numb a && numb c); [apply sz_lit|now apply sz_add].
    + destruct (numb a && numb c); [apply sz_lit|now apply sz_sub].
    + destruct (numb a); [now apply sz_mul_r|]. destruct (numb c); [now apply sz_mul_l|].
      apply sz_add; [now apply sz_mul_l|now apply sz_mul_r].
    + destruct (numb c); [now apply sz_div_l|]. apply sz_div_l, sz_sub; [now apply sz_mul_l|now apply sz_mul_r].
    + destruct a, c; try apply sz_lit; try (apply sz_mul_r; assumption);
        (apply sz_mul_r, sz_add; [now apply sz_mul_l|now apply sz_mul_r, sz_mul_r]).
Qed.

Lemma no_exp_dexpr x (e : expr K) : no_exp_of_var e -> no_int_ops e -> no_exp_of_var (dexpr x e).
Proof.
  induction e as [v|y|u a IH|b a IHa c IHc]; intros He Hi.
  - exact I.
  - cbn [dexpr]. destruct (String.eqb y x); exact I.
  - destruct He as [He1 He2]. specialize (IH He1 Hi). cbn [dexpr]. destruct (numb a && _); [exact I|].
    destruct u; cbn [d_un]; try (simpl; tauto).
    destruct a; cbn [varb]; [simpl; tauto|destruct He2|simpl; tauto|simpl; tauto].
  - destruct He as [He1 He2].
    assert (Hia : no_int_ops a /\ no_int_ops c) by (destruct b; simpl in Hi; tauto).
    specialize (IHa He1 (proj1 Hia)). specialize (IHc He2 (proj2 Hia)).
    destruct b; try (now destruct Hi); cbn [dexpr].
    + destruct (numb a && numb c); simpl; auto.
    + destruct (numb a && numb c); simpl; auto.
    + destruct (numb a); [simpl; auto|]. destruct (numb c); simpl; auto.
    + destruct (numb c); simpl; auto 8.
    + destruct a, c; simpl in *; tauto.
Qed.
End C23.

(** If x does not occur, whatever Diff(e,x,n) returns is the number 0 (throwOnInvalidValue on;
    no exp of a bare variable). *)
Theorem C23_absent_variable (K : num_ops) (ZL : zero_laws K) (cfg : config K) (e : expr K) x n r :
  throwOnInvalidValue cfg = true -> ~ occurs x e -> no_exp_of_var e -> (0 < n)%nat ->
  Diff cfg (embed e) x (Z.of_nat n) = Ok r ->
  exists v, r = embed (ENum v) /\ n_eqb v (n_ofZ 0) = true.
Proof.
  intros Hc Ho He Hn H. destruct n as [|k]; [lia|].
  destruct (no_int_dec e) as [Hi|Hi].
  2:{ destruct (proj2 (C22_diff_throws_iff K cfg e x (S k) ltac:(lia)) Hi) as [msg E]. congruence. }
  rewrite Diff_of_nat, DiffTimes_ok in H by auto. cbn [bind] in H.
  destruct (C19_simplify_refines K cfg (dexpr_n (S k) x e)) as (s & Hs & R). rewrite Hc in Hs.
  rewrite dexpr_n_S in Hs, H, R.
  assert (G : ~ occurs x (dexpr_n k x e) /\ no_exp_of_var (dexpr_n k x e) /\ no_int_ops (dexpr_n k x e)).
  { split; [intros O; apply Ho; eapply dexpr_n_occurs; eauto|]. split; [|now apply dexpr_n_no_int].
    clear H Hs R. induction k as [|k IH]; [exact He|]. rewrite dexpr_n_S. apply no_exp_dexpr; [auto|now apply dexpr_n_no_int].
    apply IH. lia. }
  destruct G as (G1 & G2 & G3).
  destruct s as [e'| |]; simpl in R; [|congruence|destruct R; congruence].
  rewrite H in R. injection R as ->.
  destruct (sz_dexpr ZL x _ G1 G2 G3 e' Hs) as (v & -> & Hv). eauto.
Qed.

(** The laws hold for exact reals and for IEEE doubles with any libm. *)
Theorem C23_laws_R : zero_laws Rops.
Proof.
  assert (Z : forall v : Rops, is_zero v <-> v = Some 0).
  { intros [v|]; unfold is_zero; simpl; [|split; discriminate]. rewrite Reqb_spec. split; congruence. }
  assert (V : forall v : Rops, ~ invalid v -> v <> None).
  { intros v H ->. apply H. right. right. reflexivity. }
  split; intros; rewrite ?Z in *; subst; simpl; try reflexivity.
  - f_equal. lra.
  - f_equal. lra.
  - f_equal. lra.
  - destruct w; [simpl; f_equal; lra|]. exfalso. now apply V in H0.
  - destruct v; [simpl; f_equal; lra|]. exfalso. now apply V in H0.
  - apply V in H0. destruct w as [w|]; [|now destruct H0]. simpl in *. destruct (Req_EM_T w 0); [congruence|]. f_equal. unfold Rdiv. ring.
Qed.

Lemma b64_is_zero (L : libm) (v : B64 L) : is_zero v <-> exists s, v = (B754_zero s : b64).
Proof.
  unfold is_zero. split.
  - intros H. destruct v as [s|s| |s m ex Hb]; [eauto|..]; exfalso.
    + destruct s; discriminate.
    + discriminate.
    + destruct s; discriminate.
  - intros [s ->]. destruct s; reflexivity.
Qed.

Theorem C23_laws_b64 (L : libm) : zero_laws (B64 L).
Proof.
  assert (N : forall v : B64 L, ~ invalid v -> v <> (B754_nan : b64)).
  { intros v H ->. apply H. right. right. reflexivity. }
  split.
  - reflexivity.
  - intros v H. apply b64_is_zero in H as [s ->]. apply b64_is_zero. simpl. eauto.
  - intros v w H H'. apply b64_is_zero in H as [s ->], H' as [s' ->]. apply b64_is_zero. destruct s, s'; simpl; eauto.
  - intros v w H H'. apply b64_is_zero in H as [s ->], H' as [s' ->]. apply b64_is_zero. destruct s, s'; simpl; eauto.
  - intros v w H H'. apply N in H'. apply b64_is_zero in H as [s ->]. apply b64_is_zero.
    destruct w as [s'|s'| |s' m ex Hb]; simpl in *; eauto; congruence.
  - intros v w H H'. apply N in H'. apply b64_is_zero in H as [s ->]. apply b64_is_zero.
    destruct v as [s'|s'| |s' m ex Hb]; simpl in *; eauto; congruence.
  - intros v w H H'. apply N in H'. apply b64_is_zero in H as [s ->]. apply b64_is_zero.
    destruct w as [s'|s'| |s' m ex Hb]; simpl in *; eauto; congruence.
Qed.

(** ** Instances *)
(** x^x * sin(2*x) / (y^2+1) + exp(x) + 3^x can be differentiated at x = 2, y = 0. *)
Example C20_ex : smooth 1 "x" (fun z => if String.eqb z "x" then 2 else 0)
  (EBin BAdd (EBin BDiv (EBin BMul (EBin BPow (EVar "x") (EVar "x")) (EUn USin (EBin BMul (ENum (Some 2)) (EVar "x"))))
     (EBin BAdd (EBin BPow (EVar "y") (ENum (Some 2))) (ENum (Some 1))))
     (EBin BAdd (EUn UExp (EVar "x")) (EBin BPow (ENum (Some 3)) (EVar "x")))).
Proof.
  assert (P : pow_smooth 1 0 2) by (right; split; [now exists 2%Z|right; simpl; lra]).
  simpl. repeat split; try discriminate; try (exists 2; split; [reflexivity|lra]); try (exists 3; split; [reflexivity|lra]);
    try (eexists; split; [reflexivity|exact I]).
  - exists 0, 2. auto.
  - rewrite Rpow_2. intros E. injection E as E. lra.
Qed.

Example C21_ex : smooth 5 "x" (fun _ => 2) (EUn UAtan (EBin BPow (EVar "x") (ENum (Some (-1))))).
Proof.
  assert (P : pow_smooth 5 2 (-1)) by (left; lra).
  split; [|split; [|exact I]].
  - split; [exact I|]. exists 2, (-1). auto.
  - exists (powerRZ 2 (-1)). split; [|left; simpl; lra]. cbn [rval r_bin]. apply (Rpow_int 2 (-1)). left. lra.
Qed.

(** x^2 at 0 is regular; the third derivative is computed although the unsimplified one has
    no value there. *)
Example C21_ex_regular : regular "x" (fun _ => 0) (EBin BAdd (EBin BPow (EVar "x") (ENum (Some 2))) (EUn UAtan (EVar "x"))).
Proof.
  split.
  - split; [exact I|]. exists 0, 2. repeat split. right. split; [now exists 2%Z|right; lra].
  - split; [exact I|]. split; [|exact I]. exists 0. split; [reflexivity|exact I].
Qed.
Example C21_ex_returns :
  match Diff (default_config D) (embed (EBin BPow (EVar "x") (ENum (b_ofZ 2 : D)))) "x" 3 with
  | Ok (N NUMBER _ v _ Nil Nil) => Beqb v (B754_zero false) = true | _ => False end.
Proof. vm_compute. reflexivity. Qed.
(** The process may be terminated: the third derivative of (0*x)^2 contains 0*0^(-1). *)
Example C21_ex_terminates :
  match Diff (default_config D) (embed (EBin BPow (EBin BMul (ENum (b_ofZ 0 : D)) (EVar "x")) (ENum (b_ofZ 2 : D)))) "x" 3 with
  | Terminate => True | _ => False end.
Proof. vm_compute. exact I. Qed.

Example C23_ex : let e : expr D := EBin BMul (EUn ULog (EVar "y")) (EUn UExp (EBin BAdd (EVar "y") (EVar "z"))) in
  ~ occurs "x" e /\ no_exp_of_var e /\
  match Diff (default_config D) (embed e) "x" 1 with Ok (N NUMBER _ v _ Nil Nil) => Beqb v (B754_zero false) = true | _ => False end.
Proof.
  split; [|split].
  - intros H. repeat match goal with [ H : occurs _ _ |- _ ] => inversion H; clear H; subst end.
  - simpl. tauto.
  - vm_compute. reflexivity.
Qed.
