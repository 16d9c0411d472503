(** The rules of DiffOnce compute derivatives (exact reals). *)
From Coq Require Import String List ZArith Reals Lra Lia Bool FunctionalExtensionality.
From Coquelicot Require Import Coquelicot.
From Verif Require Import Base MathOp NodeModel SimplifyModel SimplifySpec DiffModel ExprSpec RealSpec DiffSpec NodeProofs Thm_Simplify DiffProofs.
Local Open Scope R_scope.
Implicit Types (env : string -> R) (e a c : expr Rops) (d : R) (k : nat).

Lemma upd_same env x : upd env x (env x) = env.
Proof. extensionality y. unfold upd. destruct (String.eqb_spec y x); subst; auto. Qed.
Lemma upd_upd env x s t : upd (upd env x s) x t = upd env x t.
Proof. extensionality y. unfold upd. destruct (String.eqb y x); auto. Qed.
Lemma upd_at env x t : upd env x t x = t.
Proof. unfold upd. now rewrite String.eqb_refl. Qed.

Lemma partial_intro env x e d (F : R -> R) :
  locally (env x) (fun t => rval (upd env x t) e = Some (F t)) -> is_derive F (env x) d -> partial env x e d.
Proof.
  intros H HF. split.
  - unfold defined_near. revert H. apply filter_imp. intros t ->. discriminate.
  - eapply is_derive_ext_loc; [|exact HF]. revert H. apply filter_imp.
    intros t Ht. unfold as_function. now rewrite Ht.
Qed.

Lemma partial_elim env x e d v : partial env x e d -> rval env e = Some v ->
  let f := as_function env x e in
  locally (env x) (fun t => rval (upd env x t) e = Some (f t)) /\ is_derive f (env x) d /\ f (env x) = v.
Proof.
  intros [H1 H2] Hv f. unfold defined_near in H1. split; [|split].
  - revert H1. apply filter_imp. intros t Ht. unfold f, as_function. now destruct (rval (upd env x t) e).
  - exact H2.
  - unfold f, as_function. now rewrite upd_same, Hv.
Qed.

Lemma partial_defined env x e d : partial env x e d -> exists v, rval env e = Some v.
Proof.
  intros [H _]. unfold defined_near in H. apply locally_singleton in H. rewrite upd_same in H. destruct (rval env e); eauto. congruence.
Qed.

Lemma is_derive_cont (f : R -> R) (x d : R) : is_derive f x d -> continuous f x.
Proof. intros H. apply (ex_derive_continuous f). now exists d. Qed.

Lemma along (f : R -> R) (x d : R) y (P : R -> Prop) : is_derive f x d -> f x = y -> locally y P -> locally x (fun t => P (f t)).
Proof. intros H <- HP. apply is_derive_cont in H. apply H, HP. Qed.

(** Functions. *)
Definition gfun (u : unop) (y : R) : R :=
  match u with
  | UPos => y | UNeg => - y | USin => sin y | UCos => cos y | UTan => tan y
  | UAsin => asin y | UAcos => acos y | UAtan => atan y | USqrt => sqrt y
  | ULog => ln y | ULog2 => ln y / ln 2 | ULog10 => ln y / ln 10 | UExp => exp y
  end.
Definition gder (u : unop) (y : R) : R :=
  match u with
  | UPos => 1 | UNeg => - 1 | USin => cos y | UCos => - sin y | UTan => 1 / (cos y * cos y)
  | UAsin => 1 / sqrt (1 - y * y) | UAcos => - 1 / sqrt (1 - y * y) | UAtan => 1 / (1 + y * y)
  | USqrt => 1 / (2 * sqrt y)
  | ULog => 1 / y | ULog2 => 1 / (y * ln 2) | ULog10 => 1 / (y * ln 10) | UExp => exp y
  end.

Lemma ln_2_nz : ln 2 <> 0. Proof. assert (0 < ln 2); [|lra]. rewrite <- ln_1. apply ln_increasing; lra. Qed.
Lemma ln_10_nz : ln 10 <> 0. Proof. assert (0 < ln 10); [|lra]. rewrite <- ln_1. apply ln_increasing; lra. Qed.

Lemma open_lt_loc (a y : R) : a < y -> locally y (fun z => a < z).
Proof. intros H. now apply (open_gt a). Qed.
Lemma open_gt_loc (a y : R) : y < a -> locally y (fun z => z < a).
Proof. intros H. now apply (open_lt a). Qed.
Lemma open_neq_loc (a y : R) : y <> a -> locally y (fun z => z <> a).
Proof. intros H. now apply (open_neq a). Qed.

Lemma cos_neq_loc y : cos y <> 0 -> locally y (fun z => cos z <> 0).
Proof. intros H. apply (along cos y _ (cos y) (fun z => z <> 0) (is_derive_cos y) eq_refl). now apply open_neq_loc. Qed.

Lemma gfun_loc k u y : un_smooth k u y -> locally y (fun z => r_un u z = Some (gfun u z)).
Proof.
  intros H. assert (T : locally y (fun _ => True)) by now apply filter_true.
  destruct u; simpl in H; try (revert T; apply filter_imp; intros z _; reflexivity).
  - generalize (cos_neq_loc y H). apply filter_imp. intros z Hz. simpl. destruct (Req_EM_T (cos z) 0); [now destruct Hz|auto].
  - destruct H as [[H1 H2] _]. generalize (filter_and _ _ (open_lt_loc _ _ H1) (open_gt_loc _ _ H2)).
    apply filter_imp. intros z [Hz1 Hz2]. simpl. destruct (Rle_dec (-1) z); [|lra]. destruct (Rle_dec z 1); [auto|lra].
  - destruct H as [[H1 H2] _]. generalize (filter_and _ _ (open_lt_loc _ _ H1) (open_gt_loc _ _ H2)).
    apply filter_imp. intros z [Hz1 Hz2]. simpl. destruct (Rle_dec (-1) z); [|lra]. destruct (Rle_dec z 1); [auto|lra].
  - generalize (open_lt_loc _ _ H). apply filter_imp. intros z Hz. simpl. destruct (Rle_dec 0 z); [auto|lra].
  - generalize (open_lt_loc _ _ H). apply filter_imp. intros z Hz. simpl. destruct (Rlt_dec 0 z); [auto|lra].
  - generalize (open_lt_loc _ _ H). apply filter_imp. intros z Hz. simpl. destruct (Rlt_dec 0 z); [auto|lra].
  - generalize (open_lt_loc _ _ H). apply filter_imp. intros z Hz. simpl. destruct (Rlt_dec 0 z); [auto|lra].
Qed.

Lemma is_derive_eq (f : R -> R) (x d : R) d' : is_derive f x d -> d = d' -> is_derive f x d'.
Proof. now intros H <-. Qed.

Lemma gder_ok k u y : un_smooth k u y -> is_derive (gfun u) y (gder u y).
Proof.
  intros H. destruct u; simpl in H; simpl.
  - apply (is_derive_id (K:=R_AbsRing)).
  - apply (is_derive_opp (fun z : R => z) y 1). apply (is_derive_id (K:=R_AbsRing)).
  - apply is_derive_sin.
  - apply is_derive_cos.
  - eapply is_derive_eq; [apply (is_derive_div sin cos); [apply is_derive_sin|apply is_derive_cos|exact H]|].
    assert (E := sin2_cos2 y). unfold Rsqr in E.
    assert (E2 : cos y * cos y - sin y * - sin y = 1) by lra. rewrite E2. field. auto.
  - destruct H as [H _]. apply is_derive_Reals. pose proof (derive_pt_asin y H) as E.
    destruct (derivable_pt_asin y H) as [l Hl]. simpl in E. subst l. exact Hl.
  - destruct H as [H _]. apply is_derive_Reals. pose proof (derive_pt_acos y H) as E.
    destruct (derivable_pt_acos y H) as [l Hl]. simpl in E. subst l. exact Hl.
  - eapply is_derive_eq; [apply is_derive_Reals, Ratan.derivable_pt_lim_atan|]. simpl. rewrite Rmult_1_r. field. nra.
  - eapply is_derive_eq; [apply is_derive_Reals, derivable_pt_lim_sqrt; exact H|]. field.
    assert (0 < sqrt y) by now apply sqrt_lt_R0. lra.
  - eapply is_derive_eq; [apply is_derive_ln; exact H|]. field. lra.
  - eapply is_derive_eq; [apply (is_derive_scal_l (K:=R_AbsRing) ln y (/ y) (/ ln 2)); apply is_derive_ln; exact H|].
    unfold scal; simpl; unfold mult; simpl. field. split; [exact ln_2_nz|lra].
  - eapply is_derive_eq; [apply (is_derive_scal_l (K:=R_AbsRing) ln y (/ y) (/ ln 10)); apply is_derive_ln; exact H|].
    unfold scal; simpl; unfold mult; simpl. field. split; [exact ln_10_nz|lra].
  - apply is_derive_exp.
Qed.

Lemma partial_un k env x u a d y : partial env x a d -> rval env a = Some y -> un_smooth k u y ->
  partial env x (EUn u a) (d * gder u y).
Proof.
  intros Ha Hy Hs. destruct (partial_elim _ _ _ _ _ Ha Hy) as (L & D & E).
  set (f := as_function env x a) in *.
  apply (partial_intro _ _ _ _ (fun t => gfun u (f t))).
  - generalize (filter_and _ _ L (along f _ d y _ D E (gfun_loc k u y Hs))). apply filter_imp.
    intros t [H1 H2]. cbn [rval]. rewrite H1. exact H2.
  - apply (is_derive_comp (gfun u) f); [rewrite E; eapply gder_ok; exact Hs|exact D].
Qed.

Lemma partial_const env x e v : (forall t, rval (upd env x t) e = Some v) -> partial env x e 0.
Proof.
  intros H. apply (partial_intro _ _ _ _ (fun _ => v)); [|apply (is_derive_const (K:=R_AbsRing) v)].
  apply filter_forall. exact H.
Qed.

Lemma partial_var env x y : partial env x (EVar y) (if String.eqb y x then 1 else 0).
Proof.
  destruct (String.eqb_spec y x) as [->|N].
  - apply (partial_intro _ _ _ _ (fun t => t)); [|apply (is_derive_id (K:=R_AbsRing))].
    apply filter_forall. intros t. simpl. now rewrite upd_at.
  - apply (partial_const _ _ _ (env y)). intros t. simpl. unfold upd. destruct (String.eqb_spec y x); congruence.
Qed.

Section Bin.
Context (env : string -> R) (x : string) (a c : expr Rops) (da dc y z : R).
Hypothesis (Pa : partial env x a da) (Pc : partial env x c dc).
Hypothesis (Va : rval env a = Some y) (Vc : rval env c = Some z).

Lemma partial_add : partial env x (EBin BAdd a c) (da + dc).
Proof.
  destruct (partial_elim _ _ _ _ _ Pa Va) as (La & Da & Ea), (partial_elim _ _ _ _ _ Pc Vc) as (Lc & Dc & Ec).
  eapply partial_intro; [|exact (is_derive_plus _ _ _ _ _ Da Dc)].
  generalize (filter_and _ _ La Lc). apply filter_imp. intros t [H1 H2]. cbn [rval]. rewrite H1, H2. reflexivity.
Qed.
Lemma partial_sub : partial env x (EBin BSub a c) (da - dc).
Proof.
  destruct (partial_elim _ _ _ _ _ Pa Va) as (La & Da & Ea), (partial_elim _ _ _ _ _ Pc Vc) as (Lc & Dc & Ec).
  eapply partial_intro; [|exact (is_derive_minus _ _ _ _ _ Da Dc)].
  generalize (filter_and _ _ La Lc). apply filter_imp. intros t [H1 H2]. cbn [rval]. rewrite H1, H2. reflexivity.
Qed.
Lemma partial_mul : partial env x (EBin BMul a c) (da * z + y * dc).
Proof.
  destruct (partial_elim _ _ _ _ _ Pa Va) as (La & Da & Ea), (partial_elim _ _ _ _ _ Pc Vc) as (Lc & Dc & Ec).
  pose proof (is_derive_mult _ _ _ _ _ Da Dc Rmult_comm) as D. rewrite Ea, Ec in D.
  eapply partial_intro; [|exact D].
  generalize (filter_and _ _ La Lc). apply filter_imp. intros t [H1 H2]. cbn [rval]. rewrite H1, H2. reflexivity.
Qed.
Lemma partial_div : z <> 0 -> partial env x (EBin BDiv a c) ((da * z - y * dc) / (z * z)).
Proof.
  intros Hz. destruct (partial_elim _ _ _ _ _ Pa Va) as (La & Da & Ea), (partial_elim _ _ _ _ _ Pc Vc) as (Lc & Dc & Ec).
  pose proof (is_derive_div _ _ _ _ _ Da Dc) as D. rewrite Ea, Ec in D. specialize (D Hz).
  eapply partial_intro; [|eapply is_derive_eq; [exact D|simpl; field; auto]].
  generalize (filter_and _ _ (filter_and _ _ La Lc) (along _ _ _ _ _ Dc Ec (open_neq_loc 0 z Hz))). apply filter_imp.
  intros t [[H1 H2] H3]. cbn [rval]. rewrite H1, H2. simpl. destruct (Req_EM_T _ 0); [now destruct H3|reflexivity].
Qed.

Lemma Rpow_pos u v : 0 < u -> Rpow u v = Some (exp (v * ln u)).
Proof. intros H. unfold Rpow. destruct (Rlt_dec 0 u); [reflexivity|lra]. Qed.

Lemma partial_pow_pos : 0 < y -> partial env x (EBin BPow a c) (exp (z * ln y) * (dc * ln y + z * (1 / y * da))).
Proof.
  intros Hy. destruct (partial_elim _ _ _ _ _ Pa Va) as (La & Da & Ea), (partial_elim _ _ _ _ _ Pc Vc) as (Lc & Dc & Ec).
  set (f := as_function env x a) in *. set (g := as_function env x c) in *.
  apply (partial_intro _ _ _ _ (fun t => exp (g t * ln (f t)))).
  - generalize (filter_and _ _ (filter_and _ _ La Lc) (along _ _ _ _ _ Da Ea (open_lt_loc 0 y Hy))). apply filter_imp.
    intros t [[H1 H2] H3]. cbn [rval]. rewrite H1, H2. simpl. now apply Rpow_pos.
  - assert (Dl : is_derive (fun t => ln (f t)) (env x) (da * / y)).
    { apply (is_derive_comp ln f); [rewrite Ea; now apply is_derive_ln|exact Da]. }
    pose proof (is_derive_mult g (fun t => ln (f t)) _ _ _ Dc Dl Rmult_comm) as Dm. cbv beta in Dm. rewrite Ea, Ec in Dm.
    eapply is_derive_eq.
    + apply (is_derive_comp exp (fun t => g t * ln (f t))); [apply is_derive_exp|exact Dm].
    + cbv beta. rewrite Ea, Ec. unfold scal, plus, mult; simpl; unfold mult; simpl. field. lra.
Qed.
End Bin.

(** Powers with an integer exponent. *)
Lemma Int_part_IZR n : Int_part (IZR n) = n.
Proof.
  assert (E : (n + 1)%Z = up (IZR n)) by (apply tech_up; rewrite plus_IZR; lra).
  unfold Int_part. rewrite <- E. lia.
Qed.

Lemma Rpow_int y n : y <> 0 \/ (0 <= n)%Z -> Rpow y (IZR n) = Some (powerRZ y n).
Proof.
  intros H. unfold Rpow. destruct (Rlt_dec 0 y) as [P|P]; [now rewrite powerRZ_Rpower|].
  destruct (Req_EM_T y 0) as [->|E].
  - destruct H as [H|H]; [now destruct H|]. destruct (Z.eq_dec n 0) as [->|Nn].
    + destruct (Rlt_dec 0 0); [lra|]. destruct (Req_EM_T 0 0); [reflexivity|lra].
    + assert (0 < n)%Z by lia. apply IZR_lt in H0. destruct (Rlt_dec 0 (IZR n)); [|lra].
      destruct n; try lia. simpl. rewrite pow_i; auto. lia.
  - rewrite Int_part_IZR. destruct (Req_EM_T (IZR n) (IZR n)); [reflexivity|congruence].
Qed.

Lemma is_derive_powerRZ y n : y <> 0 \/ (1 <= n)%Z -> is_derive (fun t => powerRZ t n) y (IZR n * powerRZ y (n - 1)).
Proof.
  intros H. destruct n as [|p|p].
  - destruct H as [H|H]; [|lia]. eapply is_derive_eq; [apply (is_derive_const (K:=R_AbsRing) 1)|]. unfold zero; simpl. lra.
  - eapply is_derive_eq; [apply (is_derive_pow (fun t : R => t) (Pos.to_nat p) y 1), (is_derive_id (K:=R_AbsRing))|].
    rewrite INR_IZR_INZ, positive_nat_Z.
    replace (Z.pos p - 1)%Z with (Z.of_nat (Init.Nat.pred (Pos.to_nat p))) by lia.
    rewrite <- pow_powerRZ. ring.
  - destruct H as [H|H]; [|lia].
    assert (E : forall q : positive, y ^ Pos.to_nat q <> 0) by (intros q; now apply pow_nonzero).
    eapply is_derive_eq.
    { apply (is_derive_inv (fun t : R => t ^ Pos.to_nat p) y); [|apply E].
      apply (is_derive_pow (fun t : R => t) (Pos.to_nat p) y 1), (is_derive_id (K:=R_AbsRing)). }
    rewrite INR_IZR_INZ, positive_nat_Z. cbn beta.
    replace (Z.neg p - 1)%Z with (Z.neg (p + 1)) by lia. cbn [powerRZ].
    replace (Pos.to_nat (p + 1)) with (S (S (Init.Nat.pred (Pos.to_nat p)))) by lia.
    replace (y ^ Pos.to_nat p) with (y * y ^ Init.Nat.pred (Pos.to_nat p)).
    2:{ rewrite <- tech_pow_Rmult || idtac. replace (Pos.to_nat p) with (S (Init.Nat.pred (Pos.to_nat p))) at 2 by lia. reflexivity. }
    assert (E' : y ^ Init.Nat.pred (Pos.to_nat p) <> 0) by now apply pow_nonzero.
    simpl. rewrite <- (Pos2Z.opp_pos p), opp_IZR. field. auto.
Qed.

Lemma partial_pow_lit k env x a da y w : partial env x a da -> rval env a = Some y -> pow_smooth (S k) y w ->
  exists p, Rpow y (w - 1) = Some p /\ partial env x (EBin BPow a (ENum (Some w))) (w * p * da).
Proof.
  intros Pa Va Hs. destruct (partial_elim _ _ _ _ _ Pa Va) as (La & Da & Ea).
  set (f := as_function env x a) in *.
  assert (C : 0 < y \/ exists n, w = IZR n /\ (y <> 0 \/ (1 <= n)%Z)).
  { destruct Hs as [Hs|[[n ->] Hs]]; auto. right. exists n. split; auto. destruct Hs as [Hs|Hs]; auto. right.
    rewrite S_INR in Hs. pose proof (pos_INR k). apply le_IZR. lra. }
  destruct C as [Hy|(n & -> & Hn)].
  - exists (exp ((w - 1) * ln y)). split; [now apply Rpow_pos|].
    assert (Pw : partial env x (ENum (Some w)) 0) by (apply (partial_const _ _ _ w); reflexivity).
    pose proof (partial_pow_pos env x a (ENum (Some w)) da 0 y w Pa Pw Va eq_refl Hy) as H.
    replace (w * exp ((w - 1) * ln y) * da) with (exp (w * ln y) * (0 * ln y + w * (1 / y * da))); [exact H|].
    replace ((w - 1) * ln y) with (w * ln y + - ln y) by ring. rewrite exp_plus, exp_Ropp, exp_ln by auto. field. lra.
  - rewrite <- minus_IZR. exists (powerRZ y (n - 1)). split.
    { apply Rpow_int. destruct Hn; [auto|right; lia]. }
    apply (partial_intro _ _ _ _ (fun t => powerRZ (f t) n)).
    + assert (Ln : locally y (fun z => z <> 0 \/ (0 <= n)%Z)).
      { destruct Hn as [Hn|Hn].
        - generalize (open_neq_loc 0 y Hn). apply filter_imp. auto.
        - apply filter_forall. intros z0. right. lia. }
      generalize (filter_and _ _ La (along _ _ _ _ _ Da Ea Ln)). apply filter_imp.
      intros t [H1 H2]. cbn [rval]. rewrite H1. cbn [r_bin]. now apply Rpow_int.
    + eapply is_derive_eq; [apply (is_derive_comp (fun s => powerRZ s n) f); [rewrite Ea; apply is_derive_powerRZ; exact Hn|exact Da]|].
      unfold scal; simpl; unfold mult; simpl. ring.
Qed.

Lemma Rpow_2 y : Rpow y 2 = Some (y * y).
Proof.
  rewrite (Rpow_int y 2) by (right; lia). simpl. f_equal. ring.
Qed.

(** ** Smooth expressions have a value *)
Lemma un_smooth_defined k u y : un_smooth k u y -> r_un u y = Some (gfun u y).
Proof. intros H. apply gfun_loc in H. now apply locally_singleton in H. Qed.

Lemma pow_smooth_defined k y w : pow_smooth k y w -> Rpow y w <> None.
Proof.
  intros [H|[[n ->] H]]; [rewrite Rpow_pos by auto; discriminate|].
  rewrite Rpow_int; [discriminate|]. destruct H; auto. right. pose proof (pos_INR k). apply le_IZR. lra.
Qed.

Lemma smooth_defined k x env e : smooth k x env e -> exists v, rval env e = Some v.
Proof.
  enough (smooth k x env e -> rval env e <> None).
  { intros H0. apply H in H0. destruct (rval env e); eauto. congruence. }
  induction e as [v|y|u a IH|b a IHa c IHc]; intros H.
  - exact H.
  - discriminate.
  - assert (C : (exists v, a = ENum v /\ rval env (EUn u a) <> None) \/ (exists y, rval env a = Some y /\ un_smooth k u y)).
    { destruct a; [left; eexists; split; [reflexivity|exact H]|right..]; cbn [smooth] in H; tauto. }
    destruct C as [(v & -> & C)|(y & Hy & C)]; [exact C|]. cbn [rval]. rewrite Hy, (un_smooth_defined _ _ _ C). discriminate.
  - destruct b; cbn [smooth] in H; try tauto.
    + destruct H as [Ha Hc]. specialize (IHa Ha). specialize (IHc Hc). simpl. destruct (rval env a); [|congruence]. destruct (rval env c); congruence.
    + destruct H as [Ha Hc]. specialize (IHa Ha). specialize (IHc Hc). simpl. destruct (rval env a); [|congruence]. destruct (rval env c); congruence.
    + destruct H as [Ha Hc]. specialize (IHa Ha). specialize (IHc Hc). simpl. destruct (rval env a); [|congruence]. destruct (rval env c); congruence.
    + destruct H as (Ha & Hc & Hz). specialize (IHa Ha). specialize (IHc Hc). simpl. destruct (rval env a); [|congruence]. destruct (rval env c); [|congruence].
      simpl. destruct (Req_EM_T r0 0); congruence.
    + destruct (numb a) eqn:Na, (numb c) eqn:Nc.
      * destruct a; try discriminate. destruct c; try discriminate. exact H.
      * assert (C : smooth k x env a /\ smooth k x env c /\ exists y, rval env a = Some y /\ 0 < y)
          by (destruct a; try discriminate; destruct c; try discriminate; exact H). clear H.
        destruct C as (Ha & Hc & y & Hy & Py). specialize (IHc Hc). cbn [rval]. rewrite Hy. destruct (rval env c); [|congruence].
        cbn [r_bin]. rewrite Rpow_pos by auto. discriminate.
      * destruct c as [w| | |]; try discriminate.
        assert (C : exists y z, rval env a = Some y /\ w = Some z /\ pow_smooth k y z) by (destruct a; try discriminate; tauto).
        destruct C as (y & z & Hy & -> & Hp). cbn [rval]. rewrite Hy. cbn [r_bin]. eapply pow_smooth_defined; exact Hp.
      * assert (C : smooth k x env a /\ smooth k x env c /\ exists y, rval env a = Some y /\ 0 < y)
          by (destruct a; try discriminate; destruct c; try discriminate; exact H). clear H.
        destruct C as (Ha & Hc & y & Hy & Py). specialize (IHc Hc). cbn [rval]. rewrite Hy. destruct (rval env c); [|congruence].
        cbn [r_bin]. rewrite Rpow_pos by auto. discriminate.
Qed.

(** Case analysis of smoothness without the pattern matching on operands. *)
Lemma smooth_un_inv k x env u a : smooth k x env (EUn u a) ->
  (numb a = true /\ rval env (EUn u a) <> None) \/
  (numb a = false /\ smooth k x env a /\ (exists y, rval env a = Some y /\ un_smooth k u y) /\
     (u = UExp -> varb a = true -> a = EVar x)).
Proof.
  intros H. destruct a; cbn [smooth] in H; [left; split; [reflexivity|exact H]|right..].
  - destruct H as (H1 & H2 & H3). repeat split; auto. intros -> _. now subst.
  - destruct H as (H1 & H2 & _). repeat split; auto. intros _ E; discriminate.
  - destruct H as (H1 & H2 & _). repeat split; auto. intros _ E; discriminate.
Qed.

Lemma smooth_pow_inv k x env a c : smooth k x env (EBin BPow a c) ->
  (numb a = true /\ numb c = true /\ rval env (EBin BPow a c) <> None) \/
  (numb a = false /\ smooth k x env a /\ exists y z, c = ENum (Some z) /\ rval env a = Some y /\ pow_smooth k y z) \/
  (numb c = false /\ smooth k x env a /\ smooth k x env c /\ exists y, rval env a = Some y /\ 0 < y).
Proof.
  intros H. destruct (numb a) eqn:Na, (numb c) eqn:Nc.
  - left. destruct a; try discriminate. destruct c; try discriminate. repeat split. exact H.
  - right; right. destruct a; try discriminate. destruct c; try discriminate; split; auto; exact H.
  - right; left. destruct c as [w| | |]; try discriminate. split; auto.
    assert (C : smooth k x env a /\ exists y z, rval env a = Some y /\ w = Some z /\ pow_smooth k y z) by (destruct a; try discriminate; exact H).
    destruct C as (Ha & y & z & ? & -> & ?). eauto 8.
  - right; right. split; auto. destruct a; try discriminate; destruct c; try discriminate; exact H.
Qed.

Lemma numb_const e env t x : numb e = true -> rval (upd env x t) e = rval env e.
Proof. destruct e; try discriminate. reflexivity. Qed.

(** ** The derivative has the right value *)
Theorem diff_value k x env e : smooth (S k) x env e ->
  exists d, rval env (dexpr x e) = Some d /\ partial env x e d.
Proof.
  induction e as [v|y|u a IH|b a IHa c IHc]; intros H.
  - exists 0. split; [reflexivity|]. destruct v as [v|]; [|now destruct H]. apply (partial_const _ _ _ v). reflexivity.
  - exists (if String.eqb y x then 1 else 0). split; [|apply partial_var]. cbn [dexpr]. now destruct (String.eqb y x).
  - destruct (smooth_un_inv _ _ _ _ _ H) as [[Na D]|(Na & Ha & (y & Hy & Hs) & Hx)].
    + exists 0. split.
      * cbn [dexpr]. rewrite Na. destruct a; try discriminate. destruct u; cbn [andb is_sign negb d_un dexpr]; try reflexivity.
        cbn. f_equal. lra.
      * destruct (rval env (EUn u a)) as [r|] eqn:E; [|congruence].
        apply (partial_const _ _ _ r). intros t. rewrite <- E. cbn [rval]. now rewrite (numb_const a env t x Na).
    + destruct (IH Ha) as (d & Hd & Pd). exists (d * gder u y). split; [|eapply partial_un; eauto].
      cbn [dexpr]. rewrite Na. cbn [andb].
      destruct u; cbn [d_un rval lit]; rewrite ?Hy, ?Hd; cbn [r_un r_bin n_ofZ n_log Rops lift1]; cbn [gder].
      * f_equal; ring.
      * f_equal; ring.
      * f_equal; ring.
      * f_equal; ring.
      * cbn in Hs. rewrite Rpow_2. destruct (Req_EM_T (cos y * cos y) 0); [nra|]. f_equal. ring.
      * destruct Hs as [[H1 H2] _]. rewrite Rpow_2. destruct (Rle_dec 0 (1 - y * y)); [|nra].
        assert (0 < sqrt (1 - y * y)) by (apply sqrt_lt_R0; nra).
        destruct (Req_EM_T (sqrt (1 - y * y)) 0); [lra|]. f_equal. ring.
      * destruct Hs as [[H1 H2] _]. rewrite Rpow_2. destruct (Rle_dec 0 (1 - y * y)); [|nra].
        assert (0 < sqrt (1 - y * y)) by (apply sqrt_lt_R0; nra).
        destruct (Req_EM_T (sqrt (1 - y * y)) 0); [lra|]. f_equal. ring.
      * rewrite Rpow_2. destruct (Req_EM_T (1 + y * y) 0); [nra|]. f_equal. ring.
      * simpl in Hs. destruct (Rle_dec 0 y); [|lra]. assert (0 < sqrt y) by (now apply sqrt_lt_R0).
        destruct (Req_EM_T (2 * sqrt y) 0); [lra|]. f_equal. ring.
      * simpl in Hs. destruct (Req_EM_T y 0); [lra|]. f_equal. ring.
      * simpl in Hs. destruct (Rlt_dec 0 2); [|lra]. pose proof ln_2_nz. destruct (Req_EM_T (y * ln 2) 0) as [E|E]; [|f_equal; ring].
        apply Rmult_integral in E. lra.
      * simpl in Hs. destruct (Rlt_dec 0 10); [|lra]. pose proof ln_10_nz. destruct (Req_EM_T (y * ln 10) 0) as [E|E]; [|f_equal; ring].
        apply Rmult_integral in E. lra.
      * destruct (varb a) eqn:Va.
        -- specialize (Hx eq_refl eq_refl). subst a. cbn [dexpr] in Hd. rewrite String.eqb_refl in Hd. injection Hd as <-.
           cbn [rval] in *. injection Hy as ->. cbn [r_un]. f_equal. ring.
        -- cbn [rval]. rewrite Hy, Hd. cbn [r_un r_bin]. f_equal. ring.
  - destruct b; try (destruct H; fail).
    + destruct H as [Ha Hc]. destruct (IHa Ha) as (da & Da & Pa), (IHc Hc) as (dc & Dc & Pc).
      destruct (smooth_defined _ _ _ _ Ha) as [y Hy], (smooth_defined _ _ _ _ Hc) as [z Hz].
      exists (da + dc). split; [|eapply partial_add; eauto].
      cbn [dexpr]. destruct (numb a && numb c) eqn:E; [|cbn [rval]; now rewrite Da, Dc].
      apply andb_true_iff in E as [E1 E2]. destruct a; try discriminate. destruct c; try discriminate.
      cbn in *. injection Da as <-. injection Dc as <-. f_equal. lra.
    + destruct H as [Ha Hc]. destruct (IHa Ha) as (da & Da & Pa), (IHc Hc) as (dc & Dc & Pc).
      destruct (smooth_defined _ _ _ _ Ha) as [y Hy], (smooth_defined _ _ _ _ Hc) as [z Hz].
      exists (da - dc). split; [|eapply partial_sub; eauto].
      cbn [dexpr]. destruct (numb a && numb c) eqn:E; [|cbn [rval]; now rewrite Da, Dc].
      apply andb_true_iff in E as [E1 E2]. destruct a; try discriminate. destruct c; try discriminate.
      cbn in *. injection Da as <-. injection Dc as <-. f_equal. lra.
    + destruct H as [Ha Hc]. destruct (IHa Ha) as (da & Da & Pa), (IHc Hc) as (dc & Dc & Pc).
      destruct (smooth_defined _ _ _ _ Ha) as [y Hy], (smooth_defined _ _ _ _ Hc) as [z Hz].
      exists (da * z + y * dc). split; [|eapply partial_mul; eauto].
      cbn [dexpr]. destruct (numb a) eqn:Na; [|destruct (numb c) eqn:Nc].
      * cbn [rval]. rewrite Hy, Dc. cbn [r_bin]. f_equal. destruct a; try discriminate. cbn in Da. injection Da as <-. ring.
      * cbn [rval]. rewrite Da, Hz. cbn [r_bin]. f_equal. destruct c; try discriminate. cbn in Dc. injection Dc as <-. ring.
      * cbn [rval]. rewrite Da, Dc, Hy, Hz. reflexivity.
    + destruct H as (Ha & Hc & Hnz). destruct (IHa Ha) as (da & Da & Pa), (IHc Hc) as (dc & Dc & Pc).
      destruct (smooth_defined _ _ _ _ Ha) as [y Hy], (smooth_defined _ _ _ _ Hc) as [z Hz].
      assert (Nz : z <> 0) by congruence.
      exists ((da * z - y * dc) / (z * z)). split; [|eapply partial_div; eauto].
      cbn [dexpr]. destruct (numb c) eqn:Nc.
      * cbn [rval]. rewrite Da, Hz. cbn [r_bin]. destruct (Req_EM_T z 0); [congruence|]. f_equal.
        destruct c; try discriminate. cbn in Dc. injection Dc as <-. field. auto.
      * cbn [rval lit]. rewrite Da, Dc, Hy, Hz. cbn [r_bin n_ofZ Rops]. rewrite Rpow_2.
        destruct (Req_EM_T (z * z) 0); [nra|]. reflexivity.
    + destruct (smooth_pow_inv _ _ _ _ _ H) as [(Na & Nc & D)|[(Na & Ha & y & z & -> & Hy & Hp)|(Nc & Ha & Hc & y & Hy & Py)]].
      * exists 0. split; [destruct a; try discriminate; destruct c; try discriminate; reflexivity|].
        destruct (rval env (EBin BPow a c)) as [r|] eqn:E; [|congruence].
        apply (partial_const _ _ _ r). intros t. rewrite <- E. cbn [rval].
        now rewrite (numb_const a env t x Na), (numb_const c env t x Nc).
      * destruct (IHa Ha) as (da & Da & Pa). destruct (partial_pow_lit k env x a da y z Pa Hy Hp) as (p & Ep & Pp).
        exists (z * p * da). split; [|exact Pp].
        assert (E : dexpr x (EBin BPow a (ENum (Some z))) =
           EBin BMul (EBin BMul (ENum (Some z)) (EBin BPow a (ENum (Some (z - 1))))) (dexpr x a))
          by (destruct a; try discriminate; reflexivity).
        rewrite E. cbn [rval]. rewrite Hy, Da. cbn [r_bin]. rewrite Ep. reflexivity.
      * destruct (IHa Ha) as (da & Da & Pa), (IHc Hc) as (dc & Dc & Pc). destruct (smooth_defined _ _ _ _ Hc) as [z Hz].
        exists (exp (z * ln y) * (dc * ln y + z * (1 / y * da))). split; [|eapply partial_pow_pos; eauto].
        destruct (numb a) eqn:Na.
        -- destruct a as [v| | |]; try discriminate. cbn [rval] in Hy. subst v.
           assert (E : dexpr x (EBin BPow (ENum (Some y)) c) =
             EBin BMul (EBin BMul (EBin BPow (ENum (Some y)) c) (EUn ULog (ENum (Some y)))) (dexpr x c))
           by (destruct c; try discriminate; reflexivity).
           etransitivity; [apply f_equal; exact E|]. cbn [rval]. rewrite Hz, Dc. cbn [r_bin r_un]. rewrite Rpow_pos by auto.
           destruct (Rlt_dec 0 y); [|lra]. f_equal. cbn in Da. injection Da as <-. field. lra.
        -- assert (E : dexpr x (EBin BPow a c) = EBin BMul (EBin BPow a c) (EBin BAdd (EBin BMul (dexpr x c) (EUn ULog a))
                                           (EBin BMul c (EBin BMul (EBin BDiv (lit 1) a) (dexpr x a)))))
           by (destruct a; try discriminate; destruct c; try discriminate; reflexivity).
           rewrite E. cbn [rval lit]. rewrite Hy, Hz, Da, Dc. cbn [r_bin r_un n_ofZ Rops]. rewrite Rpow_pos by auto.
           destruct (Rlt_dec 0 y); [|lra]. destruct (Req_EM_T y 0); [lra|]. reflexivity.
Qed.
