(** C56: Simplify preserves values computed in IEEE doubles. *)
From Coq Require Import String List ZArith Bool Arith Lia Reals Lra.
From Flocq Require Import IEEE754.BinarySingleNaN Core.
From Verif Require Import Base MathOp IEEE NodeModel SimplifyModel ExprSpec SimplifySpec SubsSpec NodeProofs Thm_Node Thm_Simplify
  FloatSpec FloatFacts.
Import ListNotations.
Local Open Scope string_scope.
Local Open Scope R_scope.

Section L.
Context (L : libm) (HL : ieee_libm L).
Notation K := (B64 L).
Notation expr := (expr K).
Implicit Types (v w : b64).

Lemma invalidb_fin v : invalidb (K:=K) (v : K) = negb (is_finite v).
Proof. exact (invalid_fin L v). Qed.
Lemma finish_val (o : option K) v : finish (K:=K) true o = Value (v : K) <-> o = Some (v : K) /\ fin v.
Proof.
  unfold finish. destruct o as [w|]; [|split; [discriminate|intros [H _]; discriminate]].
  cbn [andb]. rewrite invalidb_fin. unfold fin. destruct (is_finite w) eqn:E; cbn [negb]; split.
  - intros H. injection H as <-. auto.
  - intros [H _]. injection H as ->. reflexivity.
  - discriminate.
  - intros [H F]. injection H as ->. congruence.
Qed.

Lemma un_feq u v v' w : feq v v' -> un_sem (K:=K) u (v : K) = (w : K) -> fin w ->
  exists w', un_sem (K:=K) u (v' : K) = (w' : K) /\ feq w w'.
Proof.
  intros H <- F. eexists. split; [reflexivity|].
  destruct u; cbn [un_sem n_neg n_sin n_cos n_tan n_asin n_acos n_atan n_sqrt n_log n_log2 n_log10 n_exp B64] in *; auto.
  - now apply opp_feq.
  - now apply (il_sin L HL).
  - now apply (il_cos L HL).
  - now apply (il_tan L HL).
  - now apply (il_asin L HL).
  - now apply (il_acos L HL).
  - now apply (il_atan L HL).
  - now apply sqrt_feq.
  - now apply (il_log L HL).
  - now apply (il_log2 L HL).
  - now apply (il_log10 L HL).
  - now apply (il_exp L HL).
Qed.

Lemma bin_feq b v v' w w' r : feq v v' -> feq w w' -> bin_sem (K:=K) b (v : K) (w : K) = Some (r : K) -> fin r ->
  exists r', bin_sem (K:=K) b (v' : K) (w' : K) = Some (r' : K) /\ feq r r'.
Proof.
  intros H H' E F.
  destruct b; cbn [bin_sem n_add n_sub n_mul n_div n_pow n_toint n_ofZ B64] in *;
    try (injection E as <-; eexists; split; [reflexivity|]);
    try (rewrite <- (toint_feq v v' H), <- (toint_feq w w' H'); exists r; split; [exact E|now apply feq_refl]).
  - now apply add_feq.
  - now apply sub_feq.
  - now apply mul_feq.
  - now apply div_feq.
  - now apply (il_pow L HL).
Qed.

(** ** Evaluation *)
Section Env.
Context (env : string -> b64) (Henv : forall x, fin (env x)).

Definition ev (e : expr) (v : b64) : Prop := eval (K:=K) true (filled L env e) = Value (v : K).

Lemma ev_num v w : ev (ENum (v : K)) w <-> v = w.
Proof. unfold ev, filled. cbn. split; [intros H; now injection H|intros ->; reflexivity]. Qed.
Lemma ev_un u a v : ev (EUn u a) v <-> exists x, ev a x /\ un_sem (K:=K) u (x : K) = v /\ fin v.
Proof.
  unfold ev, filled. cbn [subst eval]. split.
  - destruct (eval true _) as [x| | |]; try discriminate. intros H. apply finish_val in H as [H F]. injection H as H. eauto.
  - intros (x & -> & <- & F). apply finish_val. auto.
Qed.
Lemma ev_bin b a c v : ev (EBin b a c) v <-> exists x y, ev a x /\ ev c y /\ bin_sem (K:=K) b (x : K) (y : K) = Some (v : K) /\ fin v.
Proof.
  unfold ev, filled. cbn [subst eval]. split.
  - destruct (eval true (subst _ a)) as [x| | |]; try discriminate. destruct (eval true (subst _ c)) as [y| | |]; try discriminate.
    intros H. apply finish_val in H. eauto 7.
  - intros (x & y & -> & -> & H). now apply finish_val.
Qed.
Lemma ev_fin e v : all_nums (K:=K) fin e -> ev e v -> fin v.
Proof.
  destruct e as [w|x|u a|b a c]; cbn [all_nums]; intros F H.
  - apply ev_num in H. now subst.
  - unfold ev, filled in H. cbn in H. injection H as <-. apply Henv.
  - apply ev_un in H. now destruct H as (? & ? & ? & ?).
  - apply ev_bin in H. now destruct H as (? & ? & ? & ? & ? & ?).
Qed.
Lemma ev_det e v w : ev e v -> ev e w -> v = w.
Proof. unfold ev. intros -> H. now injection H. Qed.

Lemma lit_ev z e v : (Z.abs z <= 1)%Z -> all_nums (K:=K) fin e -> is_lit (K:=K) z e -> ev e v -> fin v /\ B2R v = IZR z.
Proof.
  intros Hz F H E. destruct e as [w|x|u a|b a c]; cbn in H; try tauto. cbn [all_nums] in F. apply ev_num in E. subst v.
  assert (Z : fin (b_ofZ z) /\ B2R (b_ofZ z) = IZR z).
  { unfold b_ofZ. pose proof (binary_normalize_correct 53 1024 Hprec Hemax mode_NE z 0 false) as G. cbv zeta in G.
    assert (E1 : F2R (Float radix2 z 0) = IZR z) by (unfold F2R; cbn; ring).
    change (SpecFloat.fexp 53 1024) with fexp in G. rewrite E1 in G. fold (rnd (IZR z)) in G.
    assert (E2 : rnd (IZR z) = IZR z).
    { apply round_generic; [apply valid_rnd_round_mode|]. rewrite <- E1. apply generic_format_FLT. exists (Float radix2 z 0); auto; cbn; lia. }
    rewrite E2, Rlt_bool_true in G. { split; apply G. }
    rewrite <- abs_IZR. apply Rle_lt_trans with (IZR 1). { now apply IZR_le. }
    change (IZR 1) with (bpow radix2 0). now apply bpow_lt. }
  destruct Z as [Fz Ez]. split; auto. rewrite <- Ez. apply eqb_R; auto.
Qed.

(** The rules. *)
Lemma add_0_l x y : fin x -> fin y -> B2R x = 0 -> feq (Bplus mode_NE x y) y.
Proof.
  intros Fx Fy E. assert (F : fin (Bplus mode_NE x y)).
  { apply add_fin; auto. rewrite E, Rplus_0_l, rnd_B2R. apply abs_B2R_lt_emax. }
  repeat split; auto. rewrite add_R, E, Rplus_0_l by auto. apply rnd_B2R.
Qed.
Lemma add_0_r x y : fin x -> fin y -> B2R y = 0 -> feq (Bplus mode_NE x y) x.
Proof.
  intros Fx Fy E. assert (F : fin (Bplus mode_NE x y)).
  { apply add_fin; auto. rewrite E, Rplus_0_r, rnd_B2R. apply abs_B2R_lt_emax. }
  repeat split; auto. rewrite add_R, E, Rplus_0_r by auto. apply rnd_B2R.
Qed.
Lemma sub_0_r x y : fin x -> fin y -> B2R y = 0 -> feq (Bminus mode_NE x y) x.
Proof.
  intros Fx Fy E. assert (F : fin (Bminus mode_NE x y)).
  { apply sub_fin; auto. rewrite E, Rminus_0_r, rnd_B2R. apply abs_B2R_lt_emax. }
  repeat split; auto. rewrite sub_R, E, Rminus_0_r by auto. apply rnd_B2R.
Qed.
Lemma mul_1_l x y : fin x -> fin y -> B2R x = 1 -> feq (Bmult mode_NE x y) y.
Proof.
  intros Fx Fy E. assert (F : fin (Bmult mode_NE x y)).
  { apply mul_fin; auto. rewrite E, Rmult_1_l, rnd_B2R. apply abs_B2R_lt_emax. }
  repeat split; auto. rewrite mul_R, E, Rmult_1_l by auto. apply rnd_B2R.
Qed.
Lemma mul_1_r x y : fin x -> fin y -> B2R y = 1 -> feq (Bmult mode_NE x y) x.
Proof.
  intros Fx Fy E. assert (F : fin (Bmult mode_NE x y)).
  { apply mul_fin; auto. rewrite E, Rmult_1_r, rnd_B2R. apply abs_B2R_lt_emax. }
  repeat split; auto. rewrite mul_R, E, Rmult_1_r by auto. apply rnd_B2R.
Qed.
Lemma mul_0_l x y : fin x -> fin y -> B2R x = 0 -> feq (Bmult mode_NE x y) (b_ofZ 0).
Proof. intros Fx Fy E. destruct (zero_R x Fx E) as [s ->]. destruct y; try discriminate; repeat split. Qed.
Lemma mul_0_r x y : fin x -> fin y -> B2R y = 0 -> feq (Bmult mode_NE x y) (b_ofZ 0).
Proof. intros Fx Fy E. destruct (zero_R y Fy E) as [s ->]. destruct x; try discriminate; repeat split. Qed.
Lemma div_1_r x y : fin x -> fin y -> B2R y = 1 -> feq (Bdiv mode_NE x y) x.
Proof.
  intros Fx Fy E. assert (Hy : B2R y <> 0) by lra. assert (F : fin (Bdiv mode_NE x y)).
  { apply div_fin; auto. unfold Rdiv. rewrite E, Rinv_1, Rmult_1_r, rnd_B2R. apply abs_B2R_lt_emax. }
  repeat split; auto. rewrite Bdiv_R, E by auto. unfold Rdiv. rewrite Rinv_1, Rmult_1_r by auto. apply rnd_B2R.
Qed.
Lemma div_0_l x y : fin x -> fin y -> fin (Bdiv mode_NE x y) -> B2R x = 0 -> feq (Bdiv mode_NE x y) (b_ofZ 0).
Proof.
  intros Fx Fy F E. destruct (zero_R x Fx E) as [s ->]. destruct y; try discriminate; repeat split.
Qed.

Lemma contract_float (e : expr) r v : contract (K:=K) true e r -> all_nums (K:=K) fin e -> ev e v ->
  match e with EBin BPow a c => forall x y, ev a x -> ev c y -> ~ (B2R x = 0 /\ B2R y = 0) | _ => True end ->
  exists e' v', r = SDone e' /\ all_nums (K:=K) fin e' /\ ev e' v' /\ feq v v'.
Proof.
  intros H Fe Ev Hz.
  assert (Fv : fin v) by (eapply ev_fin; eauto).
  inversion H as [u w E1 E2|u a E1 E2|b w w' E1 E2|b a c E0 E1 E2 E3|b a c d E0 E1 E2 E3|b a c E0 E1 E2 E3]; subst.
  - apply ev_un in Ev as (x & Ex & Eu & F). apply ev_num in Ex. subst x.
    exists (ENum (v : K)), v. rewrite (proj2 (finish_val (Some (un_sem u w)) v)) by (rewrite Eu; auto). cbn [of_outcome].
    split; [reflexivity|]. split; [exact F|]. split; [now apply ev_num|now apply feq_refl].
  - exists (EUn u a), v. split; [reflexivity|]. split; [exact Fe|]. split; [exact Ev|now apply feq_refl].
  - apply ev_bin in Ev as (x & y & Ex & Ey & Eu & F). apply ev_num in Ex, Ey. subst x y.
    exists (ENum (v : K)), v. rewrite (proj2 (finish_val (bin_sem b w w') v)) by (rewrite Eu; auto). cbn [of_outcome].
    split; [reflexivity|]. split; [exact F|]. split; [now apply ev_num|now apply feq_refl].
  - exists (ENum (n_ofZ (n:=K) 0)), (b_ofZ 0). split; [reflexivity|]. split; [reflexivity|]. split; [now apply ev_num|].
    apply ev_bin in Ev as (x & y & Ex & Ey & Eu & F). destruct Fe as [Fa Fc].
    pose proof (ev_fin _ _ Fa Ex) as Fx. pose proof (ev_fin _ _ Fc Ey) as Fy.
    destruct E1 as [a c Hl|a c Hl|a c Hl|a c Hl]; cbn in Eu; injection Eu as <-.
    + destruct (lit_ev 0 a x ltac:(lia) Fa Hl Ex). now apply mul_0_l.
    + destruct (lit_ev 0 c y ltac:(lia) Fc Hl Ey). now apply mul_0_r.
    + destruct (lit_ev 0 a x ltac:(lia) Fa Hl Ex). now apply div_0_l.
    + destruct (lit_ev 0 a x ltac:(lia) Fa Hl Ex) as [_ Hx0].
      specialize (Hz x y Ex Ey). destruct (Rtotal_order (B2R y) 0) as [G|[G|G]].
      * exfalso. now apply (il_pow_inf L HL x y).
      * exfalso. auto.
      * eapply feq_trans; [now apply (il_pow_0 L HL)|]. repeat split; auto.
  - destruct Fe as [Fa Fc]. apply ev_bin in Ev as (x & y & Ex & Ey & Eu & F).
    pose proof (ev_fin _ _ Fa Ex) as Fx. pose proof (ev_fin _ _ Fc Ey) as Fy.
    assert (G : (d = a /\ feq v x) \/ (d = c /\ feq v y)).
    { destruct E2 as [a c Hl|a c Hl|a c Hl|a c Hl|a c Hl|a c Hl|a c Hl]; cbn in Eu; injection Eu as <-.
      - right. destruct (lit_ev 0 a x ltac:(lia) Fa Hl Ex). split; auto. now apply add_0_l.
      - left. destruct (lit_ev 0 c y ltac:(lia) Fc Hl Ey). split; auto. now apply add_0_r.
      - left. destruct (lit_ev 0 c y ltac:(lia) Fc Hl Ey). split; auto. now apply sub_0_r.
      - right. destruct (lit_ev 1 a x ltac:(lia) Fa Hl Ex). split; auto. now apply mul_1_l.
      - left. destruct (lit_ev 1 c y ltac:(lia) Fc Hl Ey). split; auto. now apply mul_1_r.
      - left. destruct (lit_ev 1 c y ltac:(lia) Fc Hl Ey). split; auto. now apply div_1_r.
      - left. destruct (lit_ev 1 c y ltac:(lia) Fc Hl Ey). split; auto. now apply (il_pow_1 L HL). }
    exists d. destruct G as [[-> G]|[-> G]]; eauto 7.
  - exists (EBin b a c), v. split; [reflexivity|]. split; [exact Fe|]. split; [exact Ev|now apply feq_refl].
Qed.

Lemma simplifies_float (e : expr) r : simplifies (K:=K) true e r -> forall v, all_nums (K:=K) fin e -> ev e v -> no_0_pow_0f L env e ->
  exists e' v', r = SDone e' /\ all_nums (K:=K) fin e' /\ ev e' v' /\ feq v v'.
Proof.
  induction 1 as [w|x|u a a' r H IH C|u a r H IH C|b a c a' c' r H IH H' IH' C|b a c r H IH C|b a c a' r H IH H' IH' C]; intros v Fe Ev Hz.
  - exists (ENum w), v. split; [reflexivity|]. split; [exact Fe|]. split; [exact Ev|]. apply feq_refl. eapply ev_fin; eauto.
  - exists (EVar x), v. split; [reflexivity|]. split; [exact Fe|]. split; [exact Ev|]. apply feq_refl. eapply ev_fin; eauto.
  - apply ev_un in Ev as (x & Ex & Eu & F). destruct (IH _ Fe Ex Hz) as (e1 & x' & E1 & F1 & Ex' & Q). injection E1 as <-.
    destruct (un_feq _ _ _ _ Q Eu F) as (w' & Ew & Qw).
    destruct (contract_float (EUn u a') r w' C F1) as (e' & v' & -> & F' & Ev' & Q'); [|exact I|].
    { apply ev_un. exists x'. split; [exact Ex'|]. split; [exact Ew|apply Qw]. }
    exists e', v'. split; [reflexivity|]. split; [exact F'|]. split; [exact Ev'|]. eapply feq_trans; eauto.
  - apply ev_un in Ev as (x & Ex & Eu & F). destruct (IH _ Fe Ex Hz) as (e1 & x' & E1 & _). exfalso. eapply C; eauto.
  - apply ev_bin in Ev as (x & y & Ex & Ey & Eu & F). destruct Fe as [Fa Fc]. destruct Hz as (Z1 & Z2 & Z3).
    destruct (IH _ Fa Ex Z1) as (e1 & x' & E1 & F1 & Ex' & Q). injection E1 as <-.
    destruct (IH' _ Fc Ey Z2) as (e1 & y' & E1 & F1' & Ey' & Q'). injection E1 as <-.
    destruct (bin_feq _ _ _ _ _ _ Q Q' Eu F) as (w' & Ew & Qw).
    destruct (contract_float (EBin b a' c') r w' C (conj F1 F1')) as (e' & v' & -> & F' & Ev' & Q'').
    { apply ev_bin. exists x', y'. split; [exact Ex'|]. split; [exact Ey'|]. split; [exact Ew|apply Qw]. }
    { destruct b; auto. intros x2 y2 Ex2 Ey2. rewrite <- (ev_det _ _ _ Ex' Ex2), <- (ev_det _ _ _ Ey' Ey2).
      destruct Q as (_ & _ & <-). destruct Q' as (_ & _ & <-). eapply Z3; eauto. }
    exists e', v'. split; [reflexivity|]. split; [exact F'|]. split; [exact Ev'|]. eapply feq_trans; eauto.
  - apply ev_bin in Ev as (x & y & Ex & Ey & Eu & F). destruct Fe as [Fa Fc]. destruct Hz as (Z1 & Z2 & Z3).
    destruct (IH _ Fa Ex Z1) as (e1 & x' & E1 & _). exfalso. eapply C; eauto.
  - apply ev_bin in Ev as (x & y & Ex & Ey & Eu & F). destruct Fe as [Fa Fc]. destruct Hz as (Z1 & Z2 & Z3).
    destruct (IH' _ Fc Ey Z2) as (e1 & x' & E1 & _). exfalso. eapply C; eauto.
Qed.
End Env.
End L.

(** If an expression over finite doubles has a value at a finite point (every intermediate result
    is then finite) and evaluates no 0^0 there, it can be simplified, and the simplified expression
    evaluates there to a double that compares equal. *)
Theorem C56_simplify_doubles (L : libm) (cfg : config (B64 L)) (e : expr (B64 L)) (env : string -> b64) (v : b64) :
  ieee_libm L -> throwOnInvalidValue cfg = true ->
  all_nums (K:=B64 L) fin e -> (forall x, fin (env x)) -> no_0_pow_0f L env e ->
  Vpa cfg (embed (filled L env e)) = Ok (v : B64 L) ->
  exists e' (v' : b64), Simplify cfg (embed e) = Ok (embed e') /\
    Vpa cfg (embed (filled L env e')) = Ok (v' : B64 L) /\ feq v v' /\ Beqb v v' = true.
Proof.
  intros HL Hc Fe Fenv Hz Hv.
  assert (Ev : ev L env e v).
  { apply C01_vpa_value_conv in Hv. rewrite Hc in Hv. exact Hv. }
  destruct (C19_simplify_refines (B64 L) cfg e) as (r & Hs & Rr). rewrite Hc in Hs.
  destruct (simplifies_float L HL env Fenv e r Hs v Fe Ev Hz) as (e' & v' & -> & F' & Ev' & Q).
  exists e', v'. split; [exact Rr|]. split; [|split; [exact Q|apply eqb_feq; [apply Q|apply Q|exact Q]]].
  apply C01_vpa_value. rewrite Hc. exact Ev'.
Qed.

(** An expression without variables becomes the number that evaluating it gives, bit for bit, in
    every arithmetic; if evaluating it throws, Simplify terminates the process. *)
Theorem C56_constants (K : num_ops) (cfg : config K) (e : expr K) : no_vars e ->
  (forall v, Simplify cfg (embed e) = Ok (embed (ENum v)) <-> Vpa cfg (embed e) = Ok v) /\
  (Simplify cfg (embed e) = Terminate <-> exists info, Vpa cfg (embed e) = Throw (MathError ERROR_INVALID_NUMBER info)) /\
  ((exists why, Simplify cfg (embed e) = Undef why) <-> exists why, Vpa cfg (embed e) = Undef why).
Proof.
  intros Hn.
  assert (G : simplifies (throwOnInvalidValue cfg) e (of_outcome (eval (throwOnInvalidValue cfg) e)) /\
              eval (throwOnInvalidValue cfg) e <> HasVariable).
  { induction e as [v|x|u a IH|b a IHa c IHc]; cbn [no_vars] in Hn.
    - split; [constructor|discriminate].
    - destruct Hn.
    - destruct (IH Hn) as [H1 H2]. cbn [eval].
      destruct (eval (throwOnInvalidValue cfg) a) as [w| | |] eqn:E; cbn [of_outcome] in H1; try congruence.
      + split; [|apply finish_nv]. eapply sp_un; [exact H1|apply ct_un_fold].
      + split; [|discriminate]. apply sp_un_err; [exact H1|discriminate].
      + split; [|discriminate]. apply sp_un_err; [exact H1|discriminate].
    - destruct Hn as [Hna Hnc]. destruct (IHa Hna) as [H1 H2]. destruct (IHc Hnc) as [H3 H4]. cbn [eval].
      destruct (eval (throwOnInvalidValue cfg) a) as [w| | |] eqn:E; cbn [of_outcome] in H1; try congruence.
      + destruct (eval (throwOnInvalidValue cfg) c) as [w'| | |] eqn:E'; cbn [of_outcome] in H3; try congruence.
        * split; [|apply finish_nv]. eapply sp_bin; [exact H1|exact H3|apply ct_bin_fold].
        * split; [|discriminate]. eapply sp_bin_err_r; [exact H1|exact H3|discriminate].
        * split; [|discriminate]. eapply sp_bin_err_r; [exact H1|exact H3|discriminate].
      + split; [|discriminate]. apply sp_bin_err_l; [exact H1|discriminate].
      + split; [|discriminate]. apply sp_bin_err_l; [exact H1|discriminate]. }
  destruct G as [G Nv]. destruct (C19_simplify_refines K cfg e) as (r & Hs & R).
  rewrite <- (simplifies_det _ _ _ G _ Hs) in R. pose proof (Vpa_reports cfg e) as V.
  destruct (eval (throwOnInvalidValue cfg) e) as [w| | |]; cbn [of_outcome s_reports reports] in R, V; try congruence.
  - rewrite R, V. split; [intros v; split; intros H; injection H as ->; reflexivity|]. split; split.
    + discriminate.
    + intros [i H]. discriminate.
    + intros [i H]. discriminate.
    + intros [i H]. discriminate.
  - destruct V as [i V]. rewrite R, V. split; [intros v; split; discriminate|]. split; split; eauto.
    + intros [x H]. discriminate.
    + intros [x H]. discriminate.
  - destruct V as [i V], R as [i' R]. rewrite R, V. split; [intros v; split; discriminate|]. split; split; eauto.
    + discriminate.
    + intros [x H]. discriminate.
Qed.

(** ** The conditions are needed *)

(** Equal, not identical: the sign of zero may change. x + 0 at x = -0 is +0, its simplification x is -0. *)
Theorem C56_sign_of_zero (L : libm) (cfg : config (B64 L)) :
  let e : expr (B64 L) := EBin BAdd (EVar "x") (ENum (b_ofZ 0 : B64 L)) in
  let env := fun _ : string => B754_zero true : b64 in
  Simplify cfg (embed e) = Ok (embed (EVar "x")) /\
  Vpa cfg (embed (filled L env e)) = Ok (B754_zero false : B64 L) /\
  Vpa cfg (embed (filled L env (EVar "x"))) = Ok (B754_zero true : B64 L).
Proof.
  cbv zeta. split; [|split; [|reflexivity]].
  - unfold Simplify, SimplifyWholeNode, SimplifySingleNode. cbn [embed]. reflexivity.
  - apply C01_vpa_value. unfold filled. cbn. destruct (throwOnInvalidValue cfg); reflexivity.
Qed.

(** 0^0: with a C library where pow(0,0) = 1 the value changes from 1 to 0. *)
Theorem C56_zero_to_zero (cfg : config (B64 correct_libm)) :
  let e : expr (B64 correct_libm) := EBin BPow (ENum (b_ofZ 0 : B64 correct_libm)) (EVar "x") in
  let env := fun _ : string => B754_zero false : b64 in
  Simplify cfg (embed e) = Ok (embed (ENum (b_ofZ 0 : B64 correct_libm))) /\
  exists v : b64, Vpa cfg (embed (filled correct_libm env e)) = Ok (v : B64 correct_libm) /\ B2R v = 1.
Proof.
  cbv zeta. split.
  - unfold Simplify, SimplifyWholeNode, SimplifySingleNode. cbn [embed]. reflexivity.
  - set (one := b_ofZ 1). assert (O : fin one) by reflexivity. assert (B2R one = 1) as O1 by (cbn; unfold F2R; cbn; lra).
    exists (Round 1). pose proof (Round_B2R one O) as (F & _ & E). rewrite O1 in F, E. split; [|exact E].
    apply C01_vpa_value.
    assert (P : m_pow correct_libm (b_ofZ 0) (B754_zero false) = Round 1).
    { cbn [m_pow correct_libm]. unfold rounded_pow. cbn [is_finite andb b_ofZ binary_normalize B2R].
      rewrite Rlt_bool_false, Req_bool_true by lra. reflexivity. }
    unfold filled. cbn [subst eval bin_sem n_pow B64]. change (n_ofZ (n:=B64 correct_libm) 0) with (b_ofZ 0).
    rewrite P. unfold finish. pose proof (invalidb_fin correct_libm (Round 1)) as I. unfold fin in F. rewrite F in I.
    change (num (B64 correct_libm)) with b64 in *. rewrite I, andb_false_r. reflexivity.
Qed.

(** ** A case meeting the hypotheses: ((x+0)*1)^1 - 0*y at x = 0.1, y = 1e300, with the correctly
    rounded library. *)
Definition C56_e : expr (B64 correct_libm) :=
  EBin BSub (EBin BPow (EBin BMul (EBin BAdd (EVar "x") (ENum (b_ofZ 0 : B64 correct_libm))) (ENum (b_ofZ 1 : B64 correct_libm)))
                       (ENum (b_ofZ 1 : B64 correct_libm)))
            (EBin BMul (ENum (b_ofZ 0 : B64 correct_libm)) (EVar "y")).
Definition C56_env (x : string) : b64 := if String.eqb x "x" then b_dec false 1 (-1) else b_dec false 1 300.

Example C56_ex : exists v : b64,
  all_nums (K:=B64 correct_libm) fin C56_e /\ (forall x, fin (C56_env x)) /\ no_0_pow_0f correct_libm C56_env C56_e /\
  Vpa (default_config (B64 correct_libm)) (embed (filled correct_libm C56_env C56_e)) = Ok (v : B64 correct_libm) /\
  Simplify (default_config (B64 correct_libm)) (embed C56_e) = Ok (embed (EVar "x")).
Proof.
  assert (Fx : fin (b_dec false 1 (-1))) by (vm_compute; reflexivity).
  assert (Fy : fin (b_dec false 1 300)) by (vm_compute; reflexivity).
  assert (O1 : B2R (b_ofZ 1) = 1) by (cbn; unfold F2R; cbn; lra).
  set (env := C56_env).
  assert (Fenv : forall x, fin (env x)). { intros x. unfold env, C56_env. destruct (String.eqb x "x"); auto. }
  set (x := b_dec false 1 (-1)) in *. set (y := b_dec false 1 300) in *.
  pose proof (add_0_r x (b_ofZ 0) Fx eq_refl eq_refl) as Q1.
  set (v1 := Bplus mode_NE x (b_ofZ 0)) in *.
  pose proof (mul_1_r v1 (b_ofZ 1) (proj1 Q1) eq_refl O1) as Q2. set (v2 := Bmult mode_NE v1 (b_ofZ 1)) in *.
  pose proof (il_pow_1 _ correct_libm_ieee v2 (b_ofZ 1) (proj1 Q2) eq_refl O1) as Q3. set (v3 := m_pow correct_libm v2 (b_ofZ 1)) in *.
  pose proof (mul_0_l (b_ofZ 0) y eq_refl Fy eq_refl) as Q4. set (v4 := Bmult mode_NE (b_ofZ 0) y) in *.
  pose proof (sub_0_r v3 v4 (proj1 Q3) (proj1 Q4)) as Q5. destruct Q4 as (F4 & _ & E4). specialize (Q5 E4).
  set (v5 := Bminus mode_NE v3 v4) in *.
  assert (E1 : ev correct_libm env (EBin BAdd (EVar "x") (ENum (b_ofZ 0 : B64 correct_libm))) v1).
  { apply ev_bin. exists x, (b_ofZ 0). split; [reflexivity|]. split; [reflexivity|]. split; [reflexivity|apply Q1]. }
  assert (E2 : ev correct_libm env (EBin BMul (EBin BAdd (EVar "x") (ENum (b_ofZ 0 : B64 correct_libm))) (ENum (b_ofZ 1 : B64 correct_libm))) v2).
  { apply ev_bin. exists v1, (b_ofZ 1). split; [exact E1|]. split; [reflexivity|]. split; [reflexivity|apply Q2]. }
  exists v5. split; [|split; [exact Fenv|split; [|split]]].
  - cbn [all_nums C56_e]. repeat split.
  - cbn [no_0_pow_0f C56_e]. repeat split. intros a b Ha Hb [_ Hb0].
    apply (f_equal (fun o : outcome (B64 correct_libm) => match o with Value v => B2R (v : b64) | _ => 2 end)) in Hb. cbn [filled subst eval] in Hb.
    change (B2R (b_ofZ 1) = B2R b) in Hb. lra.
  - apply C01_vpa_value. apply (proj2 (ev_bin correct_libm env BSub _ _ v5)). exists v3, v4. split; [|split; [|split; [reflexivity|apply Q5]]].
    + apply ev_bin. exists v2, (b_ofZ 1). split; [exact E2|]. split; [reflexivity|]. split; [reflexivity|apply Q3].
    + apply ev_bin. exists (b_ofZ 0), y. split; [reflexivity|]. split; [reflexivity|]. split; [reflexivity|exact F4].
  - reflexivity.
Qed.
