(** Smoothness is inherited by the derivative and is an open condition; n-th derivatives. *)
From Coq Require Import String List ZArith Reals Lra Lia Bool.
From Coquelicot Require Import Coquelicot.
From Verif Require Import Base MathOp NodeModel SimplifyModel SimplifySpec DiffModel ExprSpec RealSpec DiffSpec NodeProofs Thm_Simplify DiffProofs DiffReal.
Local Open Scope R_scope.
Implicit Types (env : string -> R) (e a c : expr Rops) (d : R) (k : nat).

Lemma sm_un k x env u a y : smooth k x env a -> rval env a = Some y -> un_smooth k u y ->
  (u = UExp -> varb a = true -> a = EVar x) -> smooth k x env (EUn u a).
Proof.
  intros Ha Hy Hs Hx. assert (D : rval env (EUn u a) <> None).
  { cbn [rval]. rewrite Hy, (un_smooth_defined _ _ _ Hs). discriminate. }
  destruct a; cbn [smooth]; [exact D|..]; (split; [exact Ha|split; [eauto|]]); destruct u; auto.
  specialize (Hx eq_refl eq_refl). congruence.
Qed.

Lemma sm_pow_lit k x env a y z : smooth k x env a -> rval env a = Some y -> pow_smooth k y z ->
  smooth k x env (EBin BPow a (ENum (Some z))).
Proof.
  intros Ha Hy Hp. assert (D : rval env (EBin BPow a (ENum (Some z))) <> None).
  { cbn [rval]. rewrite Hy. cbn [r_bin]. eapply pow_smooth_defined; exact Hp. }
  destruct a; cbn [smooth]; [exact D|..]; (split; [exact Ha|eauto]).
Qed.

Lemma sm_pow k x env a c y : smooth k x env a -> smooth k x env c -> rval env a = Some y -> 0 < y ->
  smooth k x env (EBin BPow a c).
Proof.
  intros Ha Hc Hy Py. destruct (numb c) eqn:Nc.
  - destruct c as [w| | |]; try discriminate. destruct w as [w|]; [|now destruct Hc].
    eapply sm_pow_lit; eauto. now left.
  - assert (G : smooth k x env a /\ smooth k x env c /\ exists y, rval env a = Some y /\ 0 < y) by eauto.
    destruct a; destruct c; try discriminate; exact G.
Qed.

Lemma un_smooth_mono k u y : un_smooth (S k) u y -> un_smooth k u y.
Proof. destruct u; simpl; auto; intros; intuition. Qed.

Lemma pow_smooth_mono k y z : pow_smooth (S k) y z -> pow_smooth k y z.
Proof.
  intros [H|[H [H'|H']]]; [left; auto|right; split; auto|right; split; auto].
  right. rewrite S_INR in H'. lra.
Qed.

Lemma smooth_mono k x env e : smooth (S k) x env e -> smooth k x env e.
Proof.
  induction e as [v|y|u a IH|b a IHa c IHc]; intros H.
  - exact H.
  - exact I.
  - destruct (smooth_un_inv _ _ _ _ _ H) as [[Na D]|(Na & Ha & (y & Hy & Hs) & Hx)].
    + destruct a; try discriminate. exact D.
    + eapply sm_un; eauto. now apply un_smooth_mono.
  - destruct b; try (now destruct H); try (cbn [smooth] in *; tauto).
    destruct (smooth_pow_inv _ _ _ _ _ H) as [(Na & Nc & D)|[(Na & Ha & y & z & -> & Hy & Hp)|(Nc & Ha & Hc & y & Hy & Py)]].
    + destruct a; try discriminate. destruct c; try discriminate. exact D.
    + eapply sm_pow_lit; eauto. now apply pow_smooth_mono.
    + eapply sm_pow; eauto.
Qed.

Lemma smooth_lit k x env z : smooth k x env (lit z). Proof. discriminate. Qed.

Lemma smooth_dexpr k x env e : smooth (S k) x env e -> smooth k x env (dexpr x e).
Proof.
  induction e as [v|y|u a IH|b a IHa c IHc]; intros H.
  - apply smooth_lit.
  - cbn [dexpr]. destruct (String.eqb y x); apply smooth_lit.
  - destruct (smooth_un_inv _ _ _ _ _ H) as [[Na D]|(Na & Ha & (y & Hy & Hs) & Hx)].
    + cbn [dexpr]. rewrite Na. destruct a; try discriminate. destruct u; cbn [andb is_sign negb]; (exact (smooth_lit k x env 0) || (intros E; discriminate E)).
    + cbn [dexpr]. rewrite Na. cbn [andb].
      pose proof (IH Ha) as Hd. pose proof (smooth_mono _ _ _ _ Ha) as Ha'. pose proof (un_smooth_mono _ _ _ Hs) as Hs'.
      destruct (diff_value k x env a Ha) as (d & Vd & _).
      assert (Sq : (y <> 0 \/ (S k <= 3)%nat) -> smooth k x env (EBin BPow a (lit 2))).
      { intros C. eapply (sm_pow_lit _ _ _ _ _ 2); [exact Ha'|exact Hy|]. right. split; [now exists 2%Z|].
        destruct C as [C|C]; [left; exact C|right]. replace 2 with (INR 2) by reflexivity. apply le_INR. lia. }
      destruct u; cbn [d_un].
      * eapply sm_un; eauto. discriminate.
      * eapply sm_un; eauto. discriminate.
      * split; [|exact Hd]. eapply sm_un; eauto; first [exact I|discriminate].
      * split; [|exact Hd]. eapply (sm_un _ _ _ _ _ (sin y)).
        -- eapply sm_un; eauto; first [exact I|discriminate].
        -- cbn [rval]. rewrite Hy. reflexivity.
        -- exact I.
        -- discriminate.
      * split; [|exact Hd]. split; [apply smooth_lit|]. split.
        -- eapply (sm_pow_lit _ _ _ _ (cos y) 2); [eapply sm_un; eauto; first [exact I|discriminate]|cbn [rval]; rewrite Hy; reflexivity|].
           right. split; [now exists 2%Z|left; exact Hs].
        -- cbn [rval lit]. rewrite Hy. cbn [r_un r_bin n_ofZ Rops]. rewrite Rpow_2. cbn in Hs.
           intros E. injection E as E. nra.
      * destruct Hs as [[H1 H2] H3]. specialize (Sq H3). split; [|exact Hd]. split; [apply smooth_lit|].
        assert (V : rval env (EBin BSub (lit 1) (EBin BPow a (lit 2))) = Some (1 - y * y)).
        { cbn [rval lit]. rewrite Hy. cbn [r_un r_bin n_ofZ Rops]. rewrite Rpow_2. reflexivity. }
        split.
        -- eapply sm_un; [split; [apply smooth_lit|exact Sq]|exact V| |discriminate]. cbn. nra.
        -- cbn [rval]. change (rval env (EBin BSub (lit 1) (EBin BPow a (lit 2)))) with (rval env (EBin BSub (lit 1) (EBin BPow a (lit 2)))) in V.
           cbn [rval] in V. rewrite V. cbn [r_un]. destruct (Rle_dec 0 (1 - y * y)); [|discriminate].
           assert (0 < sqrt (1 - y * y)) by (apply sqrt_lt_R0; nra). intros E. injection E as E. lra.
      * destruct Hs as [[H1 H2] H3]. specialize (Sq H3). split; [|exact Hd]. split; [apply smooth_lit|].
        assert (V : rval env (EBin BSub (lit 1) (EBin BPow a (lit 2))) = Some (1 - y * y)).
        { cbn [rval lit]. rewrite Hy. cbn [r_un r_bin n_ofZ Rops]. rewrite Rpow_2. reflexivity. }
        split.
        -- eapply sm_un; [split; [apply smooth_lit|exact Sq]|exact V| |discriminate]. cbn. nra.
        -- cbn [rval]. cbn [rval] in V. rewrite V. cbn [r_un]. destruct (Rle_dec 0 (1 - y * y)); [|discriminate].
           assert (0 < sqrt (1 - y * y)) by (apply sqrt_lt_R0; nra). intros E. injection E as E. lra.
      * specialize (Sq Hs). split; [|exact Hd]. split; [apply smooth_lit|]. split; [split; [apply smooth_lit|exact Sq]|].
        cbn [rval lit]. rewrite Hy. cbn [r_un r_bin n_ofZ Rops]. rewrite Rpow_2. intros E. injection E as E. nra.
      * cbn in Hs. split; [|exact Hd]. split; [apply smooth_lit|].
        split; [split; [apply smooth_lit|eapply sm_un; eauto; first [exact I|discriminate]]|].
        cbn [rval lit]. rewrite Hy. cbn [r_un r_bin n_ofZ Rops]. destruct (Rle_dec 0 y); [|discriminate].
        assert (0 < sqrt y) by (now apply sqrt_lt_R0). intros E. injection E as E. lra.
      * cbn in Hs. split; [|exact Hd]. split; [apply smooth_lit|]. split; [exact Ha'|]. rewrite Hy. intros E. injection E as E. lra.
      * cbn in Hs. split; [|exact Hd]. split; [apply smooth_lit|].
        assert (L : n_log (n_ofZ 2) = (Some (ln 2) : Rops)) by (cbn; destruct (Rlt_dec 0 2); [reflexivity|lra]).
        rewrite L. split; [split; [exact Ha'|discriminate]|].
        cbn [rval]. rewrite Hy. cbn [r_bin]. pose proof ln_2_nz. intros E. injection E as E. apply Rmult_integral in E. lra.
      * cbn in Hs. split; [|exact Hd]. split; [apply smooth_lit|].
        assert (L : n_log (n_ofZ 10) = (Some (ln 10) : Rops)) by (cbn; destruct (Rlt_dec 0 10); [reflexivity|lra]).
        rewrite L. split; [split; [exact Ha'|discriminate]|].
        cbn [rval]. rewrite Hy. cbn [r_bin]. pose proof ln_10_nz. intros E. injection E as E. apply Rmult_integral in E. lra.
      * destruct (varb a) eqn:Va; [|split; [|exact Hd]]; eapply sm_un; eauto.
  - destruct b; try (now destruct H).
    + destruct H as [Ha Hc]. cbn [dexpr]. destruct (numb a && numb c); [apply smooth_lit|split; auto].
    + destruct H as [Ha Hc]. cbn [dexpr]. destruct (numb a && numb c); [apply smooth_lit|split; auto].
    + destruct H as [Ha Hc]. pose proof (smooth_mono _ _ _ _ Ha) as Ha'. pose proof (smooth_mono _ _ _ _ Hc) as Hc'.
      cbn [dexpr]. destruct (numb a); [split; auto|]. destruct (numb c); [split; auto|]. repeat split; auto.
    + destruct H as (Ha & Hc & Hz). pose proof (smooth_mono _ _ _ _ Ha) as Ha'. pose proof (smooth_mono _ _ _ _ Hc) as Hc'.
      destruct (smooth_defined _ _ _ _ Hc) as [z Vz]. assert (Nz : z <> 0) by congruence.
      cbn [dexpr]. destruct (numb c); [split; auto|]. split; [repeat split; auto|]. split.
      * eapply (sm_pow_lit _ _ _ _ _ 2); eauto. right. split; [now exists 2%Z|auto].
      * cbn [rval lit]. rewrite Vz. cbn [r_bin n_ofZ Rops]. rewrite Rpow_2. intros E. injection E as E. nra.
    + destruct (smooth_pow_inv _ _ _ _ _ H) as [(Na & Nc & D)|[(Na & Ha & y & z & -> & Hy & Hp)|(Nc & Ha & Hc & y & Hy & Py)]].
      * destruct a; try discriminate. destruct c; discriminate.
      * pose proof (smooth_mono _ _ _ _ Ha) as Ha'.
        assert (E : dexpr x (EBin BPow a (ENum (Some z) : expr Rops)) =
           EBin BMul (EBin BMul (ENum (Some z)) (EBin BPow a (ENum (Some (z - 1))))) (dexpr x a))
          by (destruct a; try discriminate; reflexivity).
        refine (eq_ind_r (smooth k x env) _ E). split; [split; [discriminate|]|auto].
        eapply sm_pow_lit; eauto. destruct Hp as [Hp|[[n ->] Hp]]; [now left|right].
        split; [exists (n - 1)%Z; now rewrite minus_IZR|]. rewrite S_INR in Hp. destruct Hp; [auto|right; lra].
      * pose proof (smooth_mono _ _ _ _ Ha) as Ha'. pose proof (smooth_mono _ _ _ _ Hc) as Hc'.
        assert (L : smooth k x env (EUn ULog a)) by (eapply sm_un; eauto; first [exact I|discriminate]).
        assert (P : smooth k x env (EBin BPow a c)) by (eapply sm_pow; eauto).
        destruct (numb a) eqn:Na.
        -- destruct a as [v| | |]; try discriminate.
           destruct c; try discriminate; (split; [split; [exact P|exact L]|auto]).
        -- assert (E : dexpr x (EBin BPow a c) = EBin BMul (EBin BPow a c) (EBin BAdd (EBin BMul (dexpr x c) (EUn ULog a))
                                           (EBin BMul c (EBin BMul (EBin BDiv (lit 1) a) (dexpr x a)))))
           by (destruct a; try discriminate; destruct c; try discriminate; reflexivity).
           rewrite E. split; [exact P|]. split; [split; auto|]. split; [exact Hc'|]. split; [|auto].
           split; [apply smooth_lit|]. split; [exact Ha'|]. rewrite Hy. intros E'. injection E' as E'. lra.
Qed.

(** ** Smoothness is an open condition *)
Lemma along_val k env x e y (P : R -> Prop) : smooth (S k) x env e -> rval env e = Some y -> locally y P ->
  locally (env x) (fun t => exists z, rval (upd env x t) e = Some z /\ P z).
Proof.
  intros Hs Hy HP. destruct (diff_value k x env e Hs) as (d & _ & Pd).
  destruct (partial_elim _ _ _ _ _ Pd Hy) as (L & D & E).
  generalize (filter_and _ _ L (along _ _ _ _ _ D E HP)). apply filter_imp.
  intros t [H1 H2]. eauto.
Qed.

Lemma loc_or_neq y (Q : Prop) : y <> 0 \/ Q -> locally y (fun z => z <> 0 \/ Q).
Proof.
  intros [H|H].
  - generalize (open_neq_loc 0 y H). apply filter_imp. auto.
  - apply filter_forall. auto.
Qed.

Lemma un_smooth_open k u y : un_smooth k u y -> locally y (un_smooth k u).
Proof.
  intros H. destruct u; simpl in H; try (apply filter_forall; intros z; exact I).
  - now apply cos_neq_loc.
  - destruct H as [[H1 H2] H3].
    generalize (filter_and _ _ (filter_and _ _ (open_lt_loc _ _ H1) (open_gt_loc _ _ H2)) (loc_or_neq _ _ H3)).
    apply filter_imp. intros z [[? ?] ?]. simpl. auto.
  - destruct H as [[H1 H2] H3].
    generalize (filter_and _ _ (filter_and _ _ (open_lt_loc _ _ H1) (open_gt_loc _ _ H2)) (loc_or_neq _ _ H3)).
    apply filter_imp. intros z [[? ?] ?]. simpl. auto.
  - now apply loc_or_neq.
  - now apply open_lt_loc.
  - now apply open_lt_loc.
  - now apply open_lt_loc.
  - now apply open_lt_loc.
Qed.

Lemma pow_smooth_open k y w : pow_smooth k y w -> locally y (fun z => pow_smooth k z w).
Proof.
  intros [H|[H H']].
  - generalize (open_lt_loc _ _ H). apply filter_imp. intros z Hz. now left.
  - generalize (loc_or_neq _ _ H'). apply filter_imp. intros z Hz. right. auto.
Qed.

Lemma smooth_open k x env e : smooth (S k) x env e -> locally (env x) (fun t => smooth (S k) x (upd env x t) e).
Proof.
  induction e as [v|y|u a IH|b a IHa c IHc]; intros H.
  - apply filter_forall. intros t. exact H.
  - apply filter_forall. intros t. exact I.
  - destruct (smooth_un_inv _ _ _ _ _ H) as [[Na D]|(Na & Ha & (y & Hy & Hs) & Hx)].
    + apply filter_forall. intros t. destruct a; try discriminate. exact D.
    + generalize (filter_and _ _ (IH Ha) (along_val k env x a y _ Ha Hy (un_smooth_open _ _ _ Hs))).
      apply filter_imp. intros t [H1 (z & H2 & H3)]. eapply sm_un; eauto.
  - destruct b; try (now destruct H).
    1-3: destruct H as [Ha Hc]; generalize (filter_and _ _ (IHa Ha) (IHc Hc)); apply filter_imp; intros t [H1 H2]; now split.
    + destruct H as (Ha & Hc & Hz). destruct (smooth_defined _ _ _ _ Hc) as [z Vz]. assert (Nz : z <> 0) by congruence.
      generalize (filter_and _ _ (filter_and _ _ (IHa Ha) (IHc Hc)) (along_val k env x c z _ Hc Vz (open_neq_loc 0 z Nz))).
      apply filter_imp. intros t [[H1 H2] (w & H3 & H4)]. split; [exact H1|split; [exact H2|]]. rewrite H3. congruence.
    + destruct (smooth_pow_inv _ _ _ _ _ H) as [(Na & Nc & D)|[(Na & Ha & y & z & -> & Hy & Hp)|(Nc & Ha & Hc & y & Hy & Py)]].
      * apply filter_forall. intros t. destruct a; try discriminate. destruct c; try discriminate. exact D.
      * generalize (filter_and _ _ (IHa Ha) (along_val k env x a y _ Ha Hy (pow_smooth_open _ _ _ Hp))).
        apply filter_imp. intros t [H1 (w & H2 & H3)]. eapply sm_pow_lit; eauto.
      * generalize (filter_and _ _ (filter_and _ _ (IHa Ha) (IHc Hc)) (along_val k env x a y _ Ha Hy (open_lt_loc 0 y Py))).
        apply filter_imp. intros t [[H1 H2] (w & H3 & H4)]. eapply sm_pow; eauto.
Qed.

(** ** n-th derivatives *)
Lemma smooth_dexpr_n i : forall k x env e, smooth (i + k) x env e -> smooth k x env (dexpr_n i x e).
Proof.
  induction i as [|i IH]; intros k x env e H; [exact H|]. cbn [dexpr_n]. apply IH. apply smooth_dexpr. exact H.
Qed.

Lemma derive_step k x env e : smooth (S k) x env e ->
  is_derive (as_function env x e) (env x) (as_function env x (dexpr x e) (env x)).
Proof.
  intros H. destruct (diff_value k x env e H) as (d & Vd & _ & D).
  unfold as_function at 2. rewrite upd_same, Vd. exact D.
Qed.

Lemma as_function_upd env x t e : as_function (upd env x t) x e = as_function env x e.
Proof.
  apply FunctionalExtensionality.functional_extensionality. intros s. unfold as_function. now rewrite upd_upd.
Qed.

(** If e is smooth to order n at all points of an open set, the derivatives there are the
    values of the derived expressions. *)
Lemma derive_n_values n x env e (U : R -> Prop) : open U ->
  (forall t, U t -> smooth n x (upd env x t) e) ->
  forall j, (j <= n)%nat -> forall t, U t -> is_derive_n (as_function env x e) j t (as_function env x (dexpr_n j x e) t).
Proof.
  intros HU HS. induction j as [|j IH]; intros Hj t Ht; [reflexivity|].
  cbn [is_derive_n].
  apply (is_derive_ext_loc (as_function env x (dexpr_n j x e))).
  - generalize (HU t Ht). apply filter_imp. intros s Hs. symmetry.
    apply is_derive_n_unique. apply IH; [lia|exact Hs].
  - rewrite dexpr_n_S. pose proof (derive_step (n - S j) x (upd env x t) (dexpr_n j x e)) as D.
    rewrite !as_function_upd, upd_at in D. apply D.
    apply (smooth_dexpr_n j). replace (j + S (n - S j))%nat with n by lia. now apply HS.
Qed.

Theorem diff_n_value k x env e : smooth (S k) x env e ->
  exists d, rval env (dexpr_n (S k) x e) = Some d /\ partial_n (S k) env x e d.
Proof.
  intros H. pose proof (smooth_dexpr_n (S k) 0 x env e) as H0. rewrite Nat.add_0_r in H0. specialize (H0 H).
  destruct (smooth_defined _ _ _ _ H0) as [d Vd]. exists d. split; [exact Vd|]. split.
  - unfold defined_near. generalize (smooth_open _ _ _ _ H). apply filter_imp. intros t Ht.
    destruct (smooth_defined _ _ _ _ Ht) as [v ->]. discriminate.
  - apply smooth_open in H. apply locally_locally in H.
    set (U := fun t => locally t (fun s => smooth (S k) x (upd env x s) e)).
    assert (OU : open U) by (intros t Ht; exact (locally_locally _ _ Ht)).
    assert (V : as_function env x (dexpr_n (S k) x e) (env x) = d) by (unfold as_function; now rewrite upd_same, Vd).
    rewrite <- V. apply (derive_n_values (S k) x env e U OU); [|lia|].
    + intros t Ht. exact (locally_singleton _ _ Ht).
    + exact (locally_singleton _ _ H).
Qed.
