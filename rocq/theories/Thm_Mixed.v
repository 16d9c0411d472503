(** C69: derivatives with respect to different variables can be taken in either order. *)
From Coq Require Import String List ZArith Bool Arith Lia Reals Lra FunctionalExtensionality.
From Coquelicot Require Import Coquelicot.
From Verif Require Import Base MathOp NodeModel ExprSpec RealSpec SimplifyModel DiffModel SimplifySpec DiffSpec DiffProofs DiffReal DiffSmooth DiffLax NodeProofs Thm_Node Thm_Simplify Thm_Diff ToStringModel IEEE.
Import ListNotations.
Local Open Scope string_scope. Local Open Scope list_scope. Local Open Scope R_scope.

Lemma smooth_other k x y env (e : expr Rops) : no_exp_of_var e -> smooth k x env e -> smooth k y env e.
Proof.
  induction e as [v|z|u a IH|b a IHa c IHc]; cbn [no_exp_of_var smooth]; auto.
  - intros [N NE] H. destruct a; auto; destruct H as (H1 & H2 & H3); repeat split; auto; destruct u; auto; destruct NE.
  - intros [Na Nc] H. specialize (IHa Na). specialize (IHc Nc).
    destruct b; try tauto. destruct a, c; tauto.
Qed.
Lemma smooth_near k x y env (e : expr Rops) : no_exp_of_var e -> smooth k x env e -> locally (env y) (fun t => smooth k x (upd env y t) e).
Proof.
  intros N H. pose proof (smooth_open_any k y env e (smooth_other k x y env e N H)) as L. revert L. apply filter_imp. intros t. now apply smooth_other.
Qed.
Lemma dexpr_val env x (e : expr Rops) d : smooth 1 x env e -> partial env x e d -> rval env (dexpr x e) = Some d.
Proof. intros H P. destruct (diff_value 0 x env e H) as (d' & E & P'). rewrite E. f_equal. eapply C20_partial_unique; eauto. Qed.
Definition val (env : string -> R) (e : expr Rops) : R := match rval env e with Some r => r | None => 0 end.
Lemma smooth_val k x env e : smooth k x env e -> rval env e = Some (val env e).
Proof. intros H. destruct (smooth_defined k x env e H) as [v E]. unfold val. now rewrite E. Qed.
Lemma smooth_dval x env e : smooth 1 x env e -> rval env (dexpr x e) = Some (val env (dexpr x e)) /\ partial env x e (val env (dexpr x e)).
Proof. intros H. destruct (diff_value 0 x env e H) as (d & E & P). unfold val. rewrite E. auto. Qed.
Lemma partial_val env y e d : partial env y e d -> is_derive (fun t => val (upd env y t) e) (env y) d.
Proof. intros [_ H]. exact H. Qed.

(** Second derivatives of the functions. *)
Lemma gder_derivable u v : un_smooth 2 u v -> ex_derive (gder u) v.
Proof.
  destruct u; cbn [un_smooth]; intros H; unfold gder; auto_derive; auto.
  - destruct H as [H _]. assert (P : 0 < 1 + - (v * v)) by nra. split; [exact P|]. split; [|exact I]. apply sqrt_lt_R0 in P. lra.
  - destruct H as [H _]. assert (P : 0 < 1 + - (v * v)) by nra. split; [exact P|]. split; [|exact I]. apply sqrt_lt_R0 in P. lra.
  - nra.
  - split; [exact H|]. split; [|exact I]. apply sqrt_lt_R0 in H. lra.
  - lra.
  - pose proof ln_2_nz. apply Rmult_integral_contrapositive_currified; lra.
  - pose proof ln_10_nz. apply Rmult_integral_contrapositive_currified; lra.
Qed.

(** ** One node *)
Section Node.
Context (env : string -> R) (x y : string).
(** a has the first derivatives p (by x) and q (by y), and the derivative of the first one by y is r. *)
Definition jet (a : expr Rops) (p q r : R) : Prop :=
  partial env x a p /\ partial env y a q /\ partial env y (dexpr x a) r /\
  locally (env y) (fun t => smooth 2 x (upd env y t) a).
Lemma jet_facts a p q r : jet a p q r -> let A t := val (upd env y t) a in let P t := val (upd env y t) (dexpr x a) in
  rval env a = Some (A (env y)) /\ P (env y) = p /\ is_derive A (env y) q /\ is_derive P (env y) r /\
  locally (env y) (fun t => rval (upd env y t) a = Some (A t) /\ rval (upd env y t) (dexpr x a) = Some (P t) /\ partial (upd env y t) x a (P t)).
Proof.
  intros (Hp & Hq & Hr & L) A P.
  assert (L2 : locally (env y) (fun t => rval (upd env y t) a = Some (A t) /\ rval (upd env y t) (dexpr x a) = Some (P t) /\ partial (upd env y t) x a (P t))).
  { revert L. apply filter_imp. intros t H. split; [eapply smooth_val; exact H|]. apply smooth_dval. now apply smooth_mono. }
  pose proof (locally_singleton _ _ L2) as (E1 & E2 & E3). rewrite upd_same in E1, E3.
  split; [exact E1|]. split; [eapply C20_partial_unique; eauto|]. split; [now apply partial_val|]. split; [now apply partial_val|]. exact L2.
Qed.

Lemma mixed_un u a p q r v : jet a p q r -> rval env a = Some v -> un_smooth 2 u v -> locally (env y) (fun t => smooth 2 x (upd env y t) (EUn u a)) ->
  partial env y (dexpr x (EUn u a)) (Derive (gder u) v * p * q + gder u v * r).
Proof.
  intros J Hv Hu L. destruct (jet_facts _ _ _ _ J) as (Ea & Ep & Da & Dp & La). set (A := fun t => val (upd env y t) a) in *. set (P := fun t => val (upd env y t) (dexpr x a)) in *.
  assert (Ev : A (env y) = v) by (unfold A, val; now rewrite upd_same, Hv).
  apply (partial_intro _ _ _ _ (fun t => P t * gder u (A t))).
  - pose proof (along A (env y) q v _ Da Ev (un_smooth_open 2 u v Hu)) as Lu. generalize (filter_and _ _ (filter_and _ _ La Lu) L). apply filter_imp.
    intros t [[(E1 & E2 & E3) Hu'] Hs]. apply dexpr_val; [now apply smooth_mono|]. eapply partial_un; eauto.
  - pose proof (Derive_correct _ _ (gder_derivable u v Hu)) as G. rewrite <- Ev in G at 1.
    pose proof (is_derive_comp (gder u) A (env y) _ _ G Da) as C. pose proof (is_derive_mult P (fun t => gder u (A t)) _ _ _ Dp C Rmult_comm) as M.
    cbv beta in M. change (P (env y) = p) in Ep. rewrite Ep, Ev in M. eapply is_derive_eq; [exact M|]. unfold scal, plus, mult; simpl; unfold mult; simpl. ring.
Qed.

Section Two.
Context (a c : expr Rops) (p q r p' q' r' v w : R).
Hypotheses (Ja : jet a p q r) (Jc : jet c p' q' r') (Hv : rval env a = Some v) (Hw : rval env c = Some w).

Lemma mixed_bin b (F : R -> R -> R -> R -> R) (Q : R -> Prop) d : locally v Q -> locally (env y) (fun t => smooth 2 x (upd env y t) (EBin b a c)) ->
  (forall envt vt pt wt pt', rval envt a = Some vt -> rval envt c = Some wt -> Q vt -> partial envt x a pt -> partial envt x c pt' -> smooth 2 x envt (EBin b a c) ->
     partial envt x (EBin b a c) (F vt pt wt pt')) ->
  (forall A P C P', A (env y) = v -> P (env y) = p -> C (env y) = w -> P' (env y) = p' -> is_derive A (env y) q -> is_derive P (env y) r -> is_derive C (env y) q' ->
     is_derive P' (env y) r' -> is_derive (fun t => F (A t) (P t) (C t) (P' t)) (env y) d) ->
  partial env y (dexpr x (EBin b a c)) d.
Proof.
  intros LQ L HF HD. destruct (jet_facts _ _ _ _ Ja) as (Ea & Ep & Da & Dp & La). destruct (jet_facts _ _ _ _ Jc) as (Ec & Ep' & Dc & Dp' & Lc).
  set (A := fun t => val (upd env y t) a) in *. set (P := fun t => val (upd env y t) (dexpr x a)) in *.
  set (C := fun t => val (upd env y t) c) in *. set (P' := fun t => val (upd env y t) (dexpr x c)) in *.
  apply (partial_intro _ _ _ _ (fun t => F (A t) (P t) (C t) (P' t))).
  - assert (Ev : A (env y) = v) by (unfold A, val; now rewrite upd_same, Hv).
    generalize (filter_and _ _ (filter_and _ _ La Lc) (filter_and _ _ L (along A _ _ _ _ Da Ev LQ))). apply filter_imp. intros t [[(A1 & A2 & A3) (C1 & C2 & C3)] [Hs HQ]].
    apply dexpr_val; [now apply smooth_mono|]. apply HF; auto.
  - apply HD; auto; [unfold A, val; now rewrite upd_same, Hv|unfold C, val; now rewrite upd_same, Hw].
Qed.
Lemma mixed_add : locally (env y) (fun t => smooth 2 x (upd env y t) (EBin BAdd a c)) -> partial env y (dexpr x (EBin BAdd a c)) (r + r').
Proof.
  intros L. apply (mixed_bin BAdd (fun _ pt _ pt' => pt + pt') (fun _ => True)); try (apply filter_true); auto; [intros; eapply partial_add; eauto|].
  intros A P C P' _ _ _ _ DA DP DC DP'. apply (is_derive_plus P P'); auto.
Qed.
Lemma mixed_sub : locally (env y) (fun t => smooth 2 x (upd env y t) (EBin BSub a c)) -> partial env y (dexpr x (EBin BSub a c)) (r - r').
Proof.
  intros L. apply (mixed_bin BSub (fun _ pt _ pt' => pt - pt') (fun _ => True)); try (apply filter_true); auto; [intros; eapply partial_sub; eauto|].
  intros A P C P' _ _ _ _ DA DP DC DP'. apply (is_derive_minus P P'); auto.
Qed.
Ltac auto_d A P C P' EA EP EC EP' DA DP DC DP' :=
  auto_derive; [repeat split; try (eexists; eassumption); rewrite ?EA, ?EC; auto|
    let G := fresh in
    (assert (G : Derive (fun t => A t) (env y) = q) by exact (is_derive_unique _ _ _ DA); rewrite ?G; clear G);
    (assert (G : Derive (fun t => P t) (env y) = r) by exact (is_derive_unique _ _ _ DP); rewrite ?G; clear G);
    (assert (G : Derive (fun t => C t) (env y) = q') by exact (is_derive_unique _ _ _ DC); rewrite ?G; clear G);
    (assert (G : Derive (fun t => P' t) (env y) = r') by exact (is_derive_unique _ _ _ DP'); rewrite ?G; clear G); rewrite ?EA, ?EP, ?EC, ?EP'].
Lemma mixed_mul : locally (env y) (fun t => smooth 2 x (upd env y t) (EBin BMul a c)) ->
  partial env y (dexpr x (EBin BMul a c)) (r * w + p * q' + q * p' + v * r').
Proof.
  intros L. apply (mixed_bin BMul (fun vt pt wt pt' => pt * wt + vt * pt') (fun _ => True)); try (apply filter_true); auto; [intros; eapply partial_mul; eauto|].
  intros A P C P' EA EP EC EP' DA DP DC DP'. auto_d A P C P' EA EP EC EP' DA DP DC DP'. ring.
Qed.
Lemma mixed_div : w <> 0 -> locally (env y) (fun t => smooth 2 x (upd env y t) (EBin BDiv a c)) ->
  partial env y (dexpr x (EBin BDiv a c)) (r / w - (p * q' + q * p') / (w * w) - v * r' / (w * w) + 2 * v * p' * q' / (w * w * w)).
Proof.
  intros Nw L. apply (mixed_bin BDiv (fun vt pt wt pt' => (pt * wt - vt * pt') / (wt * wt)) (fun _ => True)); try (apply filter_true); auto.
  - intros envt vt pt wt pt' E1 E2 _ P1 P2 S. eapply partial_div; eauto. cbn [smooth] in S. destruct S as (_ & _ & S). congruence.
  - intros A P C P' EA EP EC EP' DA DP DC DP'. auto_d A P C P' EA EP EC EP' DA DP DC DP'. field. auto.
Qed.
Lemma mixed_pow : 0 < v -> locally (env y) (fun t => smooth 2 x (upd env y t) (EBin BPow a c)) ->
  partial env y (dexpr x (EBin BPow a c))
    (exp (w * ln v) * (q' * ln v + w * (q / v)) * (p' * ln v + w * (p / v)) +
     exp (w * ln v) * (r' * ln v + (p' * q + q' * p) / v + w * (r / v) - w * p * q / (v * v))).
Proof.
  intros Pv L. apply (mixed_bin BPow (fun vt pt wt pt' => exp (wt * ln vt) * (pt' * ln vt + wt * (1 / vt * pt))) (fun z => 0 < z)); auto using open_lt_loc.
  - intros envt vt pt wt pt' E1 E2 Q P1 P2 S. eapply partial_pow_pos; eauto.
  - intros A P C P' EA EP EC EP' DA DP DC DP'. auto_d A P C P' EA EP EC EP' DA DP DC DP'; [lra|]. field. lra.
Qed.
Lemma mixed_pow_int n : c = ENum (Some (IZR n)) -> v <> 0 \/ (2 <= n)%Z -> locally (env y) (fun t => smooth 2 x (upd env y t) (EBin BPow a c)) ->
  partial env y (dexpr x (EBin BPow a c)) (IZR n * (IZR (n - 1) * powerRZ v (n - 1 - 1)) * (p * q) + IZR n * powerRZ v (n - 1) * r).
Proof.
  intros Ec Hn L. apply (mixed_bin BPow (fun vt pt _ _ => IZR n * powerRZ vt (n - 1) * pt) (fun z => z <> 0 \/ (2 <= n)%Z)); auto using loc_or_neq.
  - intros envt vt pt wt pt' E1 E2 Q P1 P2 S. rewrite Ec.
    destruct (partial_pow_lit 1 envt x a pt vt (IZR n) P1 E1) as (pp & E & H).
    { right. split; [eauto|]. destruct Q; [auto|]. right. cbn. apply IZR_le in H. lra. }
    rewrite <- minus_IZR, Rpow_int in E by (destruct Q; [auto|right; lia]). injection E as <-. exact H.
  - intros A P C P' EA EP EC EP' DA DP DC DP'.
    assert (Dz : is_derive (fun t => powerRZ (A t) (n - 1)) (env y) (q * (IZR (n - 1) * powerRZ v (n - 1 - 1)))).
    { apply (is_derive_comp (fun s => powerRZ s (n - 1)) A); [|exact DA]. rewrite EA. apply is_derive_powerRZ. destruct Hn; [auto|right; lia]. }
    pose proof (is_derive_mult (fun t => powerRZ (A t) (n - 1)) P _ _ _ Dz DP Rmult_comm) as M.
    pose proof (is_derive_scal _ _ (IZR n) _ M) as M2. cbv beta in M2. rewrite EA, EP in M2.
    eapply is_derive_ext; [|eapply is_derive_eq; [exact M2|]].
    + intros t. unfold mult; simpl. ring.
    + unfold scal, plus, mult; simpl; unfold mult; simpl. ring.
Qed.
End Two.
End Node.

Lemma mk_jet env x y e r : no_exp_of_var e -> smooth 2 x env e -> partial env y (dexpr x e) r ->
  jet env x y e (val env (dexpr x e)) (val env (dexpr y e)) r.
Proof.
  intros N H P. split; [apply smooth_dval; now apply smooth_mono|]. split; [apply smooth_dval, smooth_mono; eapply smooth_other; eauto|].
  split; auto. now apply smooth_near.
Qed.
Lemma partial_const_lit env y z : partial env y (lit z) 0.
Proof. apply (partial_const _ _ _ (IZR z)). reflexivity. Qed.

Lemma partial_eq env x e d d' : partial env x e d -> d = d' -> partial env x e d'.
Proof. now intros H <-. Qed.

Theorem mixed env x y e : no_exp_of_var e -> smooth 2 x env e -> exists r, partial env y (dexpr x e) r /\ partial env x (dexpr y e) r.
Proof.
  induction e as [v|z|u a IH|b a IHa c IHc]; intros N H.
  - exists 0. split; apply partial_const_lit.
  - exists 0. cbn [dexpr]. split; destruct (String.eqb z _); apply partial_const_lit.
  - pose proof N as [Na _]. destruct (smooth_un_inv _ _ _ _ _ H) as [[Nu D]|(Nu & Ha & (v & Hv & Hs) & _)].
    + exists 0. destruct a as [w| | |]; try discriminate. destruct u; cbn [dexpr DiffProofs.numb andb is_sign negb d_un]; split; try apply partial_const_lit;
        apply (partial_const _ _ _ (0)); intros t; cbn; f_equal; ring.
    + destruct (IH Na Ha) as (r & R1 & R2). pose proof (smooth_other 2 x y env a Na Ha) as Hay.
      eexists. split.
      * apply (mixed_un env x y u a _ _ r v (mk_jet env x y a r Na Ha R1) Hv Hs). now apply smooth_near.
      * eapply partial_eq; [apply (mixed_un env y x u a _ _ r v (mk_jet env y x a r Na Hay R2) Hv Hs); apply smooth_near; auto; now apply (smooth_other 2 x y)|]. ring.
  - pose proof N as [Na Nc]. pose proof (smooth_other 2 x y env _ N H) as Hy.
    assert (Lx : locally (env y) (fun t => smooth 2 x (upd env y t) (EBin b a c))) by now apply smooth_near.
    assert (Ly : locally (env x) (fun t => smooth 2 y (upd env x t) (EBin b a c))) by now apply smooth_near.
    assert (G : forall (f f' : R -> R -> R -> R -> R -> R -> R -> R -> R) v w, smooth 2 x env a -> smooth 2 x env c -> rval env a = Some v -> rval env c = Some w ->
      (forall z1 z2 z3 z4 z5 z6, f v w z1 z2 z3 z4 z5 z6 = f' v w z2 z1 z3 z5 z4 z6) ->
      (forall p q r p' q' r', jet env x y a p q r -> jet env x y c p' q' r' -> partial env y (dexpr x (EBin b a c)) (f v w p q r p' q' r')) ->
      (forall p q r p' q' r', jet env y x a p q r -> jet env y x c p' q' r' -> partial env x (dexpr y (EBin b a c)) (f' v w p q r p' q' r')) ->
      exists r, partial env y (dexpr x (EBin b a c)) r /\ partial env x (dexpr y (EBin b a c)) r).
    { intros f f' v w Ha Hc Hv Hw Sy F1 F2. destruct (IHa Na Ha) as (ra & A1 & A2). destruct (IHc Nc Hc) as (rc & C1 & C2).
      pose proof (smooth_other 2 x y env a Na Ha) as Hay. pose proof (smooth_other 2 x y env c Nc Hc) as Hcy.
      eexists. split; [exact (F1 _ _ _ _ _ _ (mk_jet env x y a ra Na Ha A1) (mk_jet env x y c rc Nc Hc C1))|].
      eapply partial_eq; [exact (F2 _ _ _ _ _ _ (mk_jet env y x a ra Na Hay A2) (mk_jet env y x c rc Nc Hcy C2))|]. now rewrite Sy. }
    destruct b; try (destruct H; fail).
    + destruct H as [Ha Hc]. destruct (smooth_defined _ _ _ _ Ha) as [v Hv]. destruct (smooth_defined _ _ _ _ Hc) as [w Hw].
      apply (G (fun _ _ _ _ r _ _ r' => r + r') (fun _ _ _ _ r _ _ r' => r + r') v w); auto; intros; [eapply mixed_add; eauto|eapply mixed_add; eauto].
    + destruct H as [Ha Hc]. destruct (smooth_defined _ _ _ _ Ha) as [v Hv]. destruct (smooth_defined _ _ _ _ Hc) as [w Hw].
      apply (G (fun _ _ _ _ r _ _ r' => r - r') (fun _ _ _ _ r _ _ r' => r - r') v w); auto; intros; [eapply mixed_sub; eauto|eapply mixed_sub; eauto].
    + destruct H as [Ha Hc]. destruct (smooth_defined _ _ _ _ Ha) as [v Hv]. destruct (smooth_defined _ _ _ _ Hc) as [w Hw].
      set (f := fun v w p q r p' q' r' => r * w + p * q' + q * p' + v * r').
      apply (G f f v w); auto; [intros; unfold f; ring|intros; eapply mixed_mul; eauto|intros; eapply mixed_mul; eauto].
    + destruct H as (Ha & Hc & Nz). destruct (smooth_defined _ _ _ _ Ha) as [v Hv]. destruct (smooth_defined _ _ _ _ Hc) as [w Hw].
      assert (Nw : w <> 0) by congruence.
      set (f := fun v w p q r p' q' r' => r / w - (p * q' + q * p') / (w * w) - v * r' / (w * w) + 2 * v * p' * q' / (w * w * w)).
      apply (G f f v w); auto; [intros; unfold f; field; auto|intros; eapply mixed_div; eauto|intros; eapply mixed_div; eauto].
    + destruct (smooth_pow_inv _ _ _ _ _ H) as [(Aa & Ac & D)|[(Aa & Ha & v & w & -> & Hv & Hs)|(Ac & Ha & Hc & v & Hv & Pv)]].
      * exists 0. destruct a; try discriminate. destruct c; try discriminate. split; apply partial_const_lit.
      * assert (Hc : smooth 2 x env (ENum (Some w))) by discriminate.
        destruct Hs as [Pv|[[n ->] Hn]].
        -- set (f := fun v w p q r p' q' r' => exp (w * ln v) * (q' * ln v + w * (q / v)) * (p' * ln v + w * (p / v)) +
             exp (w * ln v) * (r' * ln v + (p' * q + q' * p) / v + w * (r / v) - w * p * q / (v * v))).
           apply (G f f v w); auto; [intros; unfold f; field; lra|intros; eapply mixed_pow; eauto|intros; eapply mixed_pow; eauto].
        -- assert (Hn' : v <> 0 \/ (2 <= n)%Z). { destruct Hn as [Hn|Hn]; [auto|right]. cbn in Hn. apply le_IZR. lra. }
           set (f := fun v w p q r p' q' r' : R => IZR n * (IZR (n - 1) * powerRZ v (n - 1 - 1)) * (p * q) + IZR n * powerRZ v (n - 1) * r).
           apply (G f f v (IZR n)); auto; [intros; unfold f; ring|intros; eapply mixed_pow_int; eauto; reflexivity|intros; eapply mixed_pow_int; eauto; reflexivity].
      * destruct (smooth_defined _ _ _ _ Hc) as [w Hw].
        set (f := fun v w p q r p' q' r' => exp (w * ln v) * (q' * ln v + w * (q / v)) * (p' * ln v + w * (p / v)) +
             exp (w * ln v) * (r' * ln v + (p' * q + q' * p) / v + w * (r / v) - w * p * q / (v * v))).
        apply (G f f v w); auto; [intros; unfold f; field; lra|intros; eapply mixed_pow; eauto|intros; eapply mixed_pow; eauto].
Qed.

(** ** Simplify keeps smoothness *)
Lemma isnum_b (e : expr Rops) : is_num e \/ DiffProofs.numb e = false. Proof. destruct e; cbn; auto. Qed.
Lemma smooth_un_intro k x env u a v : smooth k x env a -> rval env a = Some v -> un_smooth k u v -> (u = UExp -> varb a = false) -> smooth k x env (EUn u a).
Proof.
  intros Ha Hv Hu He. destruct a; cbn [smooth] in *.
  - cbn [rval] in *. subst v0 || rewrite Hv. rewrite (un_smooth_defined k u v Hu). discriminate.
  - repeat split; eauto. destruct u; auto. specialize (He eq_refl). discriminate.
  - repeat split; eauto; try tauto. destruct u; auto.
  - repeat split; eauto; try tauto. destruct u; auto.
Qed.
Lemma smooth_num_val k x env (v : Rops) r : rval env (ENum v) = Some r -> smooth k x env (ENum v).
Proof. cbn. congruence. Qed.
Lemma contract_un_cases {K : num_ops} s u (a e : expr K) : contract s (EUn u a) (SDone e) -> is_num e \/ (e = EUn u a /\ ~ is_num a).
Proof.
  intros H. inversion H as [u0 v E1 E2|u0 a0 E0 E1 E2| | | |]; subst; auto. left. unfold finish in E2. destruct (s && _)%bool; [discriminate|]. injection E2 as <-. exact I.
Qed.
Lemma contract_bin_cases {K : num_ops} s b (a c e : expr K) : contract s (EBin b a c) (SDone e) -> is_num e \/ e = a \/ e = c \/ (e = EBin b a c /\ ~ (is_num a /\ is_num c)).
Proof.
  intros H. inversion H as [| |b0 v w E1 E2|b0 a0 c0 E0 E1 E2 E3|b0 a0 c0 d E0 E1 E2 E3|b0 a0 c0 E0 E1 E2 E3]; subst; auto.
  - left. unfold finish in E2. destruct (bin_sem b v w); [destruct (s && _)%bool|]; try discriminate. injection E2 as <-. exact I.
  - left. exact I.
  - destruct E2; auto.
Qed.
Lemma num_value env (e : expr Rops) r : is_num e -> rval env e = Some r -> e = ENum (Some r).
Proof. destruct e; cbn; intros H; try destruct H. now intros ->. Qed.
Lemma simplifies_smooth s (e : expr Rops) res : simplifies s e res -> forall k x env e', res = SDone e' -> smooth k x env e -> no_exp_of_var e' -> smooth k x env e'.
Proof.
  induction 1 as [v|z|u a a' r Sa IHa C|u a r Sa IHa Er|b a c a' c' r Sa IHa Sc IHc C|b a c r Sa IHa Er|b a c a' r Sa IHa Sc IHc Er]; intros k x env e' E H N; subst; try (exfalso; eapply Er; reflexivity); try (injection E as <-; exact H).
  - destruct (smooth_defined _ _ _ _ H) as [ve Hve].
    destruct (simplifies_value s _ _ (sp_un s u a a' _ Sa C) env ve Hve (smooth_no_0_pow_0 _ _ _ _ H)) as (e2 & [= <-] & Ve').
    destruct (contract_un_cases _ _ _ _ C) as [I|[-> Na]]; [rewrite (num_value env e' ve I Ve'); discriminate|].
    destruct (smooth_un_inv _ _ _ _ _ H) as [[Nu D]|(Nu & Ha & (v & Hv & Hs) & _)].
    { destruct a; try discriminate. inversion Sa; subst. destruct Na. exact I. }
    destruct (simplifies_value s _ _ Sa env v Hv (smooth_no_0_pow_0 _ _ _ _ Ha)) as (a2 & [= <-] & Va). destruct N as [Na' NE].
    eapply smooth_un_intro; eauto. intros ->. destruct a'; auto. destruct NE.
  - destruct (smooth_defined _ _ _ _ H) as [ve Hve].
    destruct (simplifies_value s _ _ (sp_bin s b a c a' c' _ Sa Sc C) env ve Hve (smooth_no_0_pow_0 _ _ _ _ H)) as (e2 & [= <-] & Ve').
    assert (SM : b <> BPow \/ (DiffProofs.numb a && DiffProofs.numb c = false) -> smooth k x env a /\ smooth k x env c).
    { intros Q. destruct b; cbn [smooth] in H; try tauto. destruct Q as [Q|Q]; [congruence|].
      destruct (smooth_pow_inv _ _ _ _ _ H) as [(Aa & Ac & D)|[(Aa & Ha & v & w & -> & Hv & Hs)|(Ac & Ha & Hc & v & Hv & Pv)]]; auto.
      - rewrite Aa, Ac in Q. discriminate.
      - split; auto. discriminate. }
    destruct (isnum_b e') as [Q0|Q0]; [rewrite (num_value env e' ve Q0 Ve'); discriminate|].
    destruct (contract_bin_cases _ _ _ _ _ C) as [I|I]; [destruct e'; try discriminate; destruct I|].
    assert (Hnn : DiffProofs.numb a && DiffProofs.numb c = false).
    { destruct (DiffProofs.numb a) eqn:Aa, (DiffProofs.numb c) eqn:Ac; auto. destruct a; try discriminate. destruct c; try discriminate. inversion Sa; subst. inversion Sc; subst.
      destruct I as [->|[->|[_ Q]]]; [discriminate|discriminate|]. destruct Q. split; exact Logic.I. }
    destruct (SM (or_intror Hnn)) as [Ha Hc]. clear SM.
    destruct I as [->|[->|[-> Nn]]]; [eapply IHa; eauto|eapply IHc; eauto|]. destruct N as [Na Nc].
    specialize (IHa k x env a' eq_refl Ha Na). specialize (IHc k x env c' eq_refl Hc Nc).
    destruct (smooth_defined _ _ _ _ Ha) as [va Hva]. destruct (smooth_defined _ _ _ _ Hc) as [vc Hvc].
    destruct (simplifies_value s _ _ Sa env va Hva (smooth_no_0_pow_0 _ _ _ _ Ha)) as (a2 & [= <-] & Va).
    destruct (simplifies_value s _ _ Sc env vc Hvc (smooth_no_0_pow_0 _ _ _ _ Hc)) as (c2 & [= <-] & Vc).
    destruct b; try (cbn [smooth] in *; tauto).
    + cbn [smooth] in *. destruct H as (_ & _ & H). repeat split; auto. congruence.
    + destruct (smooth_pow_inv _ _ _ _ _ H) as [(Aa & Ac & D)|[(Aa & _ & v & w & -> & Hv & Hs)|(Ac & _ & _ & v & Hv & Pv)]].
      * rewrite Aa, Ac in Hnn. discriminate.
      * inversion Sc; subst. destruct (isnum_b a') as [Q|Q]; [destruct Nn; split; [exact Q|exact I]|].
        rewrite Hv in Hva. injection Hva as <-. apply (sm_pow_lit k x env a' v w IHa Va Hs).
      * rewrite Hv in Hva. injection Hva as <-. destruct (isnum_b c') as [Q|Q].
        -- rewrite (num_value env c' vc Q Vc) in *. apply (sm_pow_lit k x env a' v vc IHa Va). now left.
        -- apply (sm_pow k x env a' c' v IHa IHc Va Pv).
Qed.

(** ** The theorem *)
Lemma diff_facts (cfg : config Rops) x env (e : expr Rops) k : smooth (S k) x env e ->
  exists e', Diff cfg (embed e) x 1 = Ok (embed e') /\ rval env e' = rval env (dexpr x e) /\ (no_exp_of_var e' -> smooth k x env e') /\
    simplifies (throwOnInvalidValue cfg) (dexpr x e) (SDone e').
Proof.
  intros H. assert (Hi : no_int_ops e) by (eapply smooth_no_int; exact H). destruct (diff_value k x env e H) as (d & Vd & _).
  pose proof (smooth_dexpr k x env e H) as Hs.
  destruct (C19_simplify_refines Rops cfg (dexpr x e)) as (r & Hr & R).
  destruct (simplifies_value _ _ _ Hr env d Vd (smooth_no_0_pow_0 _ _ _ _ Hs)) as (e' & -> & Hv'). exists e'.
  change 1%Z with (Z.of_nat 1). rewrite Diff_of_nat, DiffTimes_ok by exact Hi. split; [exact R|]. split; [congruence|]. split; [|exact Hr].
  intros N. eapply simplifies_smooth; eauto.
Qed.

(** At every point where e can be differentiated twice, the derivative by x and then by y and the
    derivative by y and then by x both exist, have the same value d, and d is the mixed partial
    derivative; provided that exp is nowhere applied to a bare variable, neither in e nor in its
    two first derivatives. *)
Theorem C69_mixed (cfg : config Rops) x y env (e ex ey : expr Rops) : no_exp_of_var e -> smooth 2 x env e ->
  Diff cfg (embed e) x 1 = Ok (embed ex) -> Diff cfg (embed e) y 1 = Ok (embed ey) -> no_exp_of_var ex -> no_exp_of_var ey ->
  exists exy eyx d, Diff cfg (embed ex) y 1 = Ok (embed exy) /\ Diff cfg (embed ey) x 1 = Ok (embed eyx) /\
    rval env exy = Some d /\ rval env eyx = Some d /\
    locally (env y) (fun t => exists p, rval (upd env y t) ex = Some p /\ partial (upd env y t) x e p) /\ partial env y ex d /\
    locally (env x) (fun t => exists p, rval (upd env x t) ey = Some p /\ partial (upd env x t) y e p) /\ partial env x ey d.
Proof.
  intros N H Ex Ey Nx Ny.
  assert (G : forall x y ex r, smooth 2 x env e -> partial env y (dexpr x e) r -> Diff cfg (embed e) x 1 = Ok (embed ex) -> no_exp_of_var ex ->
    exists exy, Diff cfg (embed ex) y 1 = Ok (embed exy) /\ rval env exy = Some r /\
      locally (env y) (fun t => exists p, rval (upd env y t) ex = Some p /\ partial (upd env y t) x e p) /\ partial env y ex r).
  { clear x y ex ey H Ex Ey Nx Ny. intros x y ex r H P Ex Nx.
    assert (V : locally (env y) (fun t => rval (upd env y t) ex = rval (upd env y t) (dexpr x e) /\ smooth 1 x (upd env y t) e)).
    { pose proof (smooth_near 2 x y env e N H) as L. revert L. apply filter_imp. intros t Ht.
      destruct (diff_facts cfg x _ e 1 Ht) as (e' & Ee & Ve & _). rewrite Ex in Ee. injection Ee as Ee. apply embed_inj in Ee. subst e'. split; [exact Ve|now apply smooth_mono]. }
    assert (Pex : partial env y ex r).
    { destruct P as [P1 P2]. split.
      - unfold defined_near in *. generalize (filter_and _ _ V P1). apply filter_imp. intros t [[-> _] Q]. exact Q.
      - eapply is_derive_ext_loc; [|exact P2]. revert V. apply filter_imp. intros t [Q _]. unfold as_function. now rewrite Q. }
    destruct (diff_facts cfg x env e 1 H) as (e' & Ee & _ & Se & _). rewrite Ex in Ee. injection Ee as Ee. apply embed_inj in Ee. subst e'.
    specialize (Se Nx). pose proof (smooth_other 1 x y env ex Nx Se) as Sy.
    destruct (C20_diff cfg y env ex Sy) as (exy & d & E1 & E2 & E3). exists exy. split; [exact E1|]. split; [|split; [|exact Pex]].
    - rewrite E2. f_equal. eapply C20_partial_unique; eauto.
    - revert V. apply filter_imp. intros t [Q S1]. destruct (smooth_dval x _ e S1) as [Q1 Q2]. rewrite Q. eauto. }
  destruct (mixed env x y e N H) as (r & P1 & P2).
  destruct (G x y ex r H P1 Ex Nx) as (exy & A1 & A2 & A3 & A4).
  destruct (G y x ey r (smooth_other 2 x y env e N H) P2 Ey Ny) as (eyx & B1 & B2 & B3 & B4).
  exists exy, eyx, r. repeat split; auto; try apply A4; apply B4.
Qed.

(** The condition on the first derivatives holds by itself for simplified expressions (such as the
    results of Simplify and Diff). *)
Section Exp.
Context {K : num_ops}.
Fixpoint exp_args_normal (e : expr K) : Prop :=
  match e with
  | ENum _ | EVar _ => True
  | EUn u a => exp_args_normal a /\ match u with UExp => normal a /\ varb a = false | _ => True end
  | EBin _ a c => exp_args_normal a /\ exp_args_normal c
  end.
Lemma normal_exp_args e : normal e -> no_exp_of_var e -> exp_args_normal e.
Proof.
  induction e as [v|z|u a IH|b a IHa c IHc]; cbn [normal no_exp_of_var exp_args_normal]; auto.
  - intros [Hn _] [N NE]. split; auto. destruct u; auto. split; auto. destruct a; auto. destruct NE.
  - intros (Ha & Hc & _) [Na Nc]. auto.
Qed.
Lemma dexpr_exp_args x e : exp_args_normal e -> exp_args_normal (dexpr x e).
Proof.
  induction e as [v|z|u a IH|b a IHa c IHc]; cbn [dexpr].
  - intros _. exact I.
  - destruct (String.eqb z x); intros _; exact I.
  - intros H. pose proof H as [Ha Hu]. specialize (IH Ha). destruct (DiffProofs.numb a && negb (is_sign u)); [exact I|].
    destruct u; cbn [d_un]; try (destruct (varb a) eqn:V); cbn; intuition congruence.
  - intros [Ha Hc]. specialize (IHa Ha). specialize (IHc Hc).
    destruct b; cbn; auto; try (destruct (DiffProofs.numb a), (DiffProofs.numb c); cbn; intuition; fail).
    destruct a, c; cbn in *; intuition.
Qed.
Lemma exp_args_simplifies s (e : expr K) res : simplifies s e res -> forall e', res = SDone e' -> exp_args_normal e -> no_exp_of_var e'.
Proof.
  induction 1 as [v|z|u a a' r Sa IHa C|u a r Sa IHa Er|b a c a' c' r Sa IHa Sc IHc C|b a c r Sa IHa Er|b a c a' r Sa IHa Sc IHc Er]; intros e' E H; subst; try (exfalso; eapply Er; reflexivity); try (injection E as <-; exact I).
  - destruct H as [Ha Hu]. destruct (contract_un_cases _ _ _ _ C) as [Q|[-> Q]]; [destruct e'; try destruct Q; exact I|].
    cbn [no_exp_of_var]. split; [auto|]. destruct u; auto. destruct Hu as [Hn Hv].
    pose proof (simplifies_det _ _ _ (normal_fixed s a Hn) _ Sa) as D. injection D as <-. destruct a; auto.
  - destruct H as [Ha Hc]. destruct (contract_bin_cases _ _ _ _ _ C) as [Q|[->|[->|[-> Q]]]]; auto; [destruct e'; try destruct Q; exact I|]. cbn. auto.
Qed.
Theorem C69_simplified (cfg : config K) x (e e' : expr K) : normal e -> no_exp_of_var e -> Diff cfg (embed e) x 1 = Ok (embed e') -> normal e' /\ no_exp_of_var e'.
Proof.
  intros Hn N H. destruct (no_int_dec e) as [Hi|Hi].
  2:{ destruct (proj2 (C22_diff_throws_iff K cfg e x 1 ltac:(lia)) Hi) as [msg E]. change (Z.of_nat 1) with 1%Z in E. congruence. }
  change 1%Z with (Z.of_nat 1) in H. rewrite Diff_of_nat, DiffTimes_ok in H by auto. cbn [bind] in H.
  destruct (C19_simplify_refines K cfg (dexpr x e)) as (r & Hr & R). change (dexpr_n 1 x e) with (dexpr x e) in H.
  rewrite H in R. destruct r as [e2| |]; simpl in R; [|discriminate|destruct R; discriminate]. injection R as R. apply embed_inj in R. subst e2.
  split; [eapply simplifies_normal; eauto|]. eapply exp_args_simplifies; eauto. now apply dexpr_exp_args, normal_exp_args.
Qed.
End Exp.

(** sin(x*y) in either order, everywhere. *)
Theorem C69_ex (cfg : config Rops) env : let e := EUn USin (EBin BMul (EVar "x") (EVar "y")) : expr Rops in
  exists ex ey exy eyx d, Diff cfg (embed e) "x" 1 = Ok (embed ex) /\ Diff cfg (embed e) "y" 1 = Ok (embed ey) /\
    Diff cfg (embed ex) "y" 1 = Ok (embed exy) /\ Diff cfg (embed ey) "x" 1 = Ok (embed eyx) /\ rval env exy = Some d /\ rval env eyx = Some d.
Proof.
  intros e. assert (Sm : forall x, smooth 2 x env e) by (intros x; cbn; repeat split; eauto).
  assert (Nm : normal e).
  { split; [|intros []]. split; [exact Logic.I|]. split; [exact Logic.I|]. split; [intros [[] _]|]. split.
    { intros Q. inversion Q as [? ? L|? ? L| |]; destruct L. }
    { intros d Q. inversion Q as [| | |? ? L|? ? L| |]; destruct L. } }
  assert (Ne : no_exp_of_var e) by (cbn; auto).
  destruct (C20_diff cfg "x" env e (smooth_mono _ _ _ _ (Sm "x"))) as (ex & _ & Ex & _). destruct (C20_diff cfg "y" env e (smooth_mono _ _ _ _ (Sm "y"))) as (ey & _ & Ey & _).
  destruct (C69_simplified cfg "x" e ex Nm Ne Ex) as [_ Nx]. destruct (C69_simplified cfg "y" e ey Nm Ne Ey) as [_ Ny].
  destruct (C69_mixed cfg "x" "y" env e ex ey Ne (Sm "x") Ex Ey Nx Ny) as (exy & eyx & d & A1 & A2 & A3 & A4 & _).
  exists ex, ey, exy, eyx, d. auto 10.
Qed.

(** The condition is needed: exp(x*1)*y contains no exp of a bare variable, but Simplify turns
    x*1 into x, and the derivative of exp(x) by y is wrong (see C20).  So the two orders give
    exp(x)*y+exp(x) and exp(x). *)
Definition diff_text (e : expr D) (x y : string) : string :=
  match Diff (default_config D) (embed e) x 1 with
  | Ok n => match Diff (default_config D) n y 1 with Ok n2 => match ToString n2 with Ok s => s | _ => "" end | _ => "" end
  | _ => "" end.
Theorem C69_exp_breaks : let e := EBin BMul (EUn UExp (EBin BMul (EVar "x") (ENum (n_ofZ 1)))) (EVar "y") in
  no_exp_of_var e /\ diff_text e "x" "y" = "exp(x)*y+exp(x)" /\ diff_text e "y" "x" = "exp(x)".
Proof. split; [cbn; auto|]. split; vm_compute; reflexivity. Qed.
