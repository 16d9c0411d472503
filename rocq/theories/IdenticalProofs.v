(** Identities that hold exactly in IEEE doubles. *)
From Coq Require Import String List ZArith Reals Bool Lia Lra.
From Flocq Require Import IEEE754.BinarySingleNaN Core.
From Verif Require Import Base MathOp IEEE NodeModel ExprSpec SubsSpec FloatSpec IntSpec FloatFacts IntProofs RewriteSpec.
Import ListNotations.
Local Open Scope R_scope.

Lemma minus_plus_opp (v w : b64) : Bminus mode_NE v w = Bplus mode_NE v (Bopp w).
Proof.
  destruct v as [s|s| |s m e He], w as [s'|s'| |s' m' e' He']; reflexivity.
Qed.
Lemma opp_opp (v : b64) : Bopp (Bopp v) = v. Proof. now apply Bopp_involutive. Qed.

Lemma SFopp_Bopp (v : b64) : B2SF (Bopp v) = SpecFloat.SFopp (B2SF v).
Proof. destruct v; reflexivity. Qed.
Lemma round_aux_opp s m e l : binary_round_aux 53 1024 mode_NE (negb s) m e l = SpecFloat.SFopp (binary_round_aux 53 1024 mode_NE s m e l).
Proof.
  unfold binary_round_aux. destruct (SpecFloat.shr_fexp 53 1024 m e l) as [r e1]. cbn [choice_mode].
  destruct (SpecFloat.shr_fexp 53 1024 _ e1 SpecFloat.loc_Exact) as [r2 e2].
  destruct (SpecFloat.shr_m r2); try reflexivity. unfold binary_fit_aux. destruct (Zle_bool e2 (1024 - 53)); reflexivity.
Qed.
Lemma xorb_negb_l s s' : xorb (negb s) s' = negb (xorb s s'). Proof. now destruct s, s'. Qed.
Lemma xorb_negb_r s s' : xorb s (negb s') = negb (xorb s s'). Proof. now destruct s, s'. Qed.
Lemma opp_mult (v w : b64) : Bopp (Bmult mode_NE v w) = Bmult mode_NE (Bopp v) w.
Proof.
  destruct v as [s|s| |s m e He], w as [s'|s'| |s' m' e' He']; cbn [Bopp Bmult]; rewrite ?xorb_negb_l; try reflexivity.
  apply B2SF_inj. rewrite SFopp_Bopp, !B2SF_SF2B, xorb_negb_l. symmetry. apply round_aux_opp.
Qed.
Lemma opp_div (v w : b64) : Bopp (Bdiv mode_NE v w) = Bdiv mode_NE (Bopp v) w.
Proof.
  destruct v as [s|s| |s m e He], w as [s'|s'| |s' m' e' He']; cbn [Bopp Bdiv]; rewrite ?xorb_negb_l; try reflexivity.
  apply B2SF_inj. rewrite SFopp_Bopp, !B2SF_SF2B. cbv zeta. destruct (SpecFloat.SFdiv_core_binary _ _ _ _ _ _) as [[mz ez] lz].
  rewrite xorb_negb_l. symmetry. apply round_aux_opp.
Qed.
Lemma div_opp (v w : b64) : Bdiv mode_NE v (Bopp w) = Bdiv mode_NE (Bopp v) w.
Proof.
  destruct v as [s|s| |s m e He], w as [s'|s'| |s' m' e' He']; cbn [Bopp Bdiv]; rewrite ?xorb_negb_l, ?xorb_negb_r; try reflexivity.
  apply B2SF_inj. rewrite !B2SF_SF2B. cbv zeta. now rewrite xorb_negb_l, xorb_negb_r.
Qed.

Lemma positive_shape (x : b64) r : B2R x = r -> 0 < r -> exists m e H, x = B754_finite false m e H.
Proof.
  intros H Hr. destruct x as [s|s| |[] m e He]; cbn [B2R] in H; try lra.
  - exfalso. assert (F2R (Float radix2 (SpecFloat.cond_Zopp true (Zpos m)) e) < 0) by now apply F2R_lt_0. lra.
  - now exists m, e, He.
Qed.
Lemma one_Z : is_Z (b_ofZ 1) 1. Proof. apply ofZ_is. unfold exact_range. lia. Qed.
Lemma two_Z : is_Z (b_ofZ 2) 2. Proof. apply ofZ_is. unfold exact_range. lia. Qed.

Lemma one_mult (v : b64) : Bmult mode_NE (b_ofZ 1) v = v.
Proof.
  destruct one_Z as [F1 E1]. destruct (positive_shape _ 1 E1 ltac:(lra)) as (m1 & e1 & H1 & S1).
  destruct (is_finite v) eqn:Fv.
  - pose proof (Bmult_correct 53 1024 Hprec Hemax mode_NE (b_ofZ 1) v) as G. change (SpecFloat.fexp 53 1024) with fexp in G.
    rewrite E1, Rmult_1_l in G. fold (rnd (B2R v)) in G. rewrite rnd_B2R, Rlt_bool_true in G by now apply fin_of.
    destruct G as (G1 & G2 & G3). rewrite F1, Fv in G2. cbn [andb] in G2.
    apply B2R_Bsign_inj; auto. rewrite G3 by (clear - G2; destruct (Bmult mode_NE (b_ofZ 1) v); try discriminate; reflexivity).
    rewrite S1. cbn [Bsign]. apply xorb_false_l.
  - rewrite S1. destruct v as [s|s| |s m e He]; try discriminate; [destruct s|]; reflexivity.
Qed.
Lemma div_one (v : b64) : Bdiv mode_NE v (b_ofZ 1) = v.
Proof.
  destruct one_Z as [F1 E1]. destruct (positive_shape _ 1 E1 ltac:(lra)) as (m1 & e1 & H1 & S1).
  destruct (is_finite v) eqn:Fv.
  - pose proof (Bdiv_correct 53 1024 Hprec Hemax mode_NE v (b_ofZ 1)) as G. change (SpecFloat.fexp 53 1024) with fexp in G.
    rewrite E1 in G. specialize (G ltac:(lra)). replace (B2R v / 1) with (B2R v) in G by field. fold (rnd (B2R v)) in G. rewrite rnd_B2R, Rlt_bool_true in G by now apply fin_of.
    destruct G as (G1 & G2 & G3). rewrite Fv in G2.
    apply B2R_Bsign_inj; auto. rewrite G3 by (clear - G2; destruct (Bdiv mode_NE v (b_ofZ 1)); try discriminate; reflexivity).
    rewrite S1. cbn [Bsign]. apply xorb_false_r.
  - rewrite S1. destruct v as [s|s| |s m e He]; try discriminate; [destruct s|]; reflexivity.
Qed.
Lemma two_mult (v : b64) : Bmult mode_NE (b_ofZ 2) v = Bplus mode_NE v v.
Proof.
  destruct two_Z as [F1 E1]. destruct (positive_shape _ 2 E1 ltac:(lra)) as (m1 & e1 & H1 & S1).
  destruct (is_finite v) eqn:Fv.
  - pose proof (Bmult_correct 53 1024 Hprec Hemax mode_NE (b_ofZ 2) v) as G. pose proof (Bplus_correct 53 1024 Hprec Hemax mode_NE v v Fv Fv) as P.
    change (SpecFloat.fexp 53 1024) with fexp in G, P. rewrite E1 in G. replace (B2R v + B2R v) with (2 * B2R v) in P by ring.
    destruct (Rlt_bool _ _).
    + destruct G as (G1 & G2 & G3), P as (P1 & P2 & P3). rewrite F1, Fv in G2. cbn [andb] in G2.
      apply B2R_Bsign_inj; auto; [congruence|].
      rewrite G3 by (clear - G2; destruct (Bmult mode_NE (b_ofZ 2) v); try discriminate; reflexivity).
      rewrite P3, S1. cbn [Bsign]. rewrite xorb_false_l. destruct v as [s|s| |s m e He]; try discriminate.
      * cbn [B2R Bsign]. rewrite Rcompare_Eq by ring. now destruct s.
      * destruct s; cbn [Bsign]; [rewrite Rcompare_Lt; [reflexivity|]|rewrite Rcompare_Gt; [reflexivity|]]; cbn [B2R].
        -- assert (F2R (Float radix2 (SpecFloat.cond_Zopp true (Zpos m)) e) < 0) by now apply F2R_lt_0. lra.
        -- assert (0 < F2R (Float radix2 (SpecFloat.cond_Zopp false (Zpos m)) e)) by now apply F2R_gt_0. lra.
    + apply B2SF_inj. rewrite G. rewrite (proj1 P), S1. cbn [Bsign]. now rewrite xorb_false_l.
  - rewrite S1. destruct v as [s|s| |s m e He]; try discriminate; [destruct s|]; reflexivity.
Qed.

(** ** Checked values *)
Definition chk (s : bool) (v : option b64) : option b64 :=
  match v with Some x => if s && negb (is_finite x) then None else Some x | None => None end.
Definition then_chk (s : bool) (f : b64 -> b64) (v : option b64) : option b64 := match v with Some x => chk s (Some (f x)) | None => None end.
Definition then_chk2 (s : bool) (f : b64 -> b64 -> b64) (v w : option b64) : option b64 :=
  match v, w with Some x, Some y => chk s (Some (f x y)) | _, _ => None end.
Definition good (s : bool) (v : option b64) : Prop := match v with Some x => s = true -> is_finite x = true | None => True end.
Lemma good_chk s v : good s (chk s v).
Proof. destruct v as [x|]; cbn; auto. destruct s; cbn; auto; [|discriminate]. destruct (is_finite x) eqn:E; cbn; auto. Qed.
Lemma chk_good s v : good s (Some v) -> chk s (Some v) = Some v.
Proof. cbn. destruct s; cbn; [intros H; now rewrite (H eq_refl)|reflexivity]. Qed.
Lemma good_opp s v : good s (Some v) -> good s (Some (Bopp v)).
Proof. cbn. now rewrite is_finite_Bopp. Qed.
Lemma chk_chk s v : chk s (chk s v) = chk s v.
Proof. destruct v as [x|]; [|reflexivity]. cbn [chk]. destruct (s && negb (is_finite x))%bool eqn:E; [reflexivity|]. cbn [chk]. now rewrite E. Qed.
Lemma opp_chk s v : then_chk s Bopp (chk s (Some v)) = chk s (Some (Bopp v)).
Proof.
  cbn [chk]. rewrite is_finite_Bopp. destruct (s && negb (is_finite v))%bool eqn:E; [reflexivity|]. cbn [then_chk chk]. now rewrite is_finite_Bopp, E.
Qed.

(** The identities, with checks. *)
Lemma q_sub s v w : good s w -> then_chk2 s (Bminus mode_NE) v w = then_chk2 s (Bplus mode_NE) v (then_chk s Bopp w).
Proof.
  intros H. destruct v as [v|], w as [w|]; try reflexivity. cbn [then_chk]. rewrite chk_good by now apply good_opp.
  cbn [then_chk2]. now rewrite minus_plus_opp.
Qed.
Lemma q_neg_neg s v : good s v -> then_chk s Bopp (then_chk s Bopp v) = v.
Proof.
  intros H. destruct v as [v|]; [|reflexivity]. cbn [then_chk]. rewrite chk_good by now apply good_opp. cbn [then_chk].
  rewrite opp_opp. now apply chk_good.
Qed.
Lemma q_neg2 s f v w : (forall x y, Bopp (f x y) = f (Bopp x) y) -> good s v ->
  then_chk s Bopp (then_chk2 s f v w) = then_chk2 s f (then_chk s Bopp v) w.
Proof.
  intros Hf H. destruct v as [v|], w as [w|]; try reflexivity.
  - change (then_chk s Bopp (Some v)) with (chk s (Some (Bopp v))). rewrite chk_good by now apply good_opp. cbn [then_chk2]. rewrite opp_chk. now rewrite Hf.
  - cbn. destruct (s && _)%bool; reflexivity.
Qed.
Lemma q_div_neg s v w : good s v -> good s w -> then_chk2 s (Bdiv mode_NE) v (then_chk s Bopp w) = then_chk2 s (Bdiv mode_NE) (then_chk s Bopp v) w.
Proof.
  intros H H'. destruct v as [v|], w as [w|]; try reflexivity.
  - cbn [then_chk]. rewrite !chk_good by now apply good_opp. cbn [then_chk2]. now rewrite div_opp.
  - cbn. destruct (s && _)%bool; reflexivity.
Qed.
Lemma q_id s f v : (forall x, f x = x) -> good s v -> then_chk s f v = v.
Proof. intros Hf H. destruct v as [v|]; [|reflexivity]. cbn [then_chk]. rewrite Hf. now apply chk_good. Qed.

(** ** Expressions *)
Section Identical.
Context (L : libm).
Notation expr := (expr (B64 L)).
Definition sem (s : bool) (e : expr) : option b64 := match eval s e with ExprSpec.Value v => Some v | _ => None end.
Definition un (s : bool) (u : unop) (a : option b64) : option b64 := then_chk s (un_sem (K:=B64 L) u) a.
Definition bi (s : bool) (b : binop) (a c : option b64) : option b64 :=
  match a, c with Some v, Some w => chk s (bin_sem (K:=B64 L) b v w) | _, _ => None end.
Lemma finish_chk s (v : option (B64 L)) : match finish s v with ExprSpec.Value x => Some x | _ => None end = chk s v.
Proof.
  destruct v as [x|]; [|reflexivity]. cbn [finish chk].
  assert (E : invalidb x = negb (is_finite (x : b64))) by exact (invalid_fin L x). rewrite E.
  destruct (s && _)%bool; reflexivity.
Qed.
Lemma sem_un s u a : sem s (EUn u a) = un s u (sem s a).
Proof. unfold sem, un. cbn [eval]. destruct (eval s a); try reflexivity. apply (finish_chk s (Some (un_sem u v))). Qed.
Lemma sem_bin s b a c : sem s (EBin b a c) = bi s b (sem s a) (sem s c).
Proof. unfold sem, bi. cbn [eval]. destruct (eval s a), (eval s c); try reflexivity. apply finish_chk. Qed.
Lemma sem_num s v : sem s (ENum v) = Some v. Proof. reflexivity. Qed.
Lemma good_sem s e : s = false \/ all_nums (K:=B64 L) (fun v : b64 => fin v) e -> good s (sem s e).
Proof.
  destruct e as [v|x|u a|b a c]; intros H.
  - rewrite sem_num. intros ->. destruct H as [H|H]; [discriminate|exact H].
  - exact Logic.I.
  - rewrite sem_un. unfold un. destruct (sem s a); [apply good_chk|exact Logic.I].
  - rewrite sem_bin. unfold bi. destruct (sem s a), (sem s c); try exact Logic.I. apply good_chk.
Qed.

Lemma lit_fin z : exact_range z -> fin (b_ofZ z). Proof. intros H. exact (proj1 (ofZ_is z H)). Qed.
Lemma identical_nums e e' : identical L e e' -> (all_nums (K:=B64 L) (fun v : b64 => fin v) e <-> all_nums (K:=B64 L) (fun v : b64 => fin v) e').
Proof.
  assert (F1 : fin (b_ofZ 1)) by (apply lit_fin; unfold exact_range; lia).
  assert (F2 : fin (b_ofZ 2)) by (apply lit_fin; unfold exact_range; lia).
  induction 1; cbn [all_nums]; tauto.
Qed.
Lemma bi_add s a c : bi s BAdd a c = then_chk2 s (Bplus mode_NE) a c. Proof. reflexivity. Qed.
Lemma bi_sub s a c : bi s BSub a c = then_chk2 s (Bminus mode_NE) a c. Proof. reflexivity. Qed.
Lemma bi_mul s a c : bi s BMul a c = then_chk2 s (Bmult mode_NE) a c. Proof. reflexivity. Qed.
Lemma bi_div s a c : bi s BDiv a c = then_chk2 s (Bdiv mode_NE) a c. Proof. reflexivity. Qed.
Lemma un_neg s a : un s UNeg a = then_chk s Bopp a. Proof. reflexivity. Qed.
Lemma un_pos s a : un s UPos a = then_chk s (fun x => x) a. Proof. reflexivity. Qed.
Lemma comm2 s f v w : (forall x y : b64, f x y = f y x) -> then_chk2 s f v w = then_chk2 s f w v.
Proof. intros H. destruct v, w; try reflexivity. cbn [then_chk2]. now rewrite H. Qed.

Lemma sem_identical (Co : commutative (B64 L)) s e e' : identical L e e' -> s = false \/ all_nums (K:=B64 L) (fun v : b64 => fin v) e -> sem s e = sem s e'.
Proof.
  assert (T : forall P Q : Prop, s = false \/ (P /\ Q) -> (s = false \/ P) /\ (s = false \/ Q)) by tauto.
  induction 1 as [e|e e' H IH|e e' e'' H1 IH1 H2 IH2|u a a' H IH|b a a' c c' H1 IH1 H2 IH2|a c|a c|a c|a|a|a c|a c|a c|a|a|a]; intros G.
  - reflexivity.
  - symmetry. apply IH. destruct G as [G|G]; [now left|right]. now apply (identical_nums _ _ H).
  - rewrite IH1 by exact G. apply IH2. destruct G as [G|G]; [now left|right]. now apply (identical_nums _ _ H1).
  - rewrite !sem_un, IH; [reflexivity|exact G].
  - apply T in G as [G1 G2]. rewrite !sem_bin, IH1, IH2; auto.
  - rewrite !sem_bin, !bi_add. apply comm2, (co_add _ Co).
  - rewrite !sem_bin, !bi_mul. apply comm2, (co_mul _ Co).
  - rewrite !sem_bin, sem_un, bi_add, bi_sub, un_neg. apply q_sub, good_sem. apply T in G. apply G.
  - rewrite !sem_un, !un_neg. apply q_neg_neg, good_sem, G.
  - rewrite sem_un, un_pos. apply q_id; [reflexivity|]. apply good_sem, G.
  - rewrite sem_un, !sem_bin, sem_un, !bi_mul, !un_neg. apply q_neg2; [apply opp_mult|]. apply good_sem. apply T in G. apply G.
  - rewrite sem_un, !sem_bin, sem_un, !bi_div, !un_neg. apply q_neg2; [apply opp_div|]. apply good_sem. apply T in G. apply G.
  - rewrite !sem_bin, !sem_un, !bi_div, !un_neg. apply T in G. apply q_div_neg; apply good_sem; apply G.
  - rewrite sem_bin, sem_num, bi_mul. apply T in G. change (then_chk s (fun x => Bmult mode_NE (b_ofZ 1) x) (sem s a) = sem s a).
    apply q_id; [apply one_mult|]. apply good_sem. apply G.
  - rewrite sem_bin, sem_num, bi_div. apply T in G.
    transitivity (then_chk s (fun x => Bdiv mode_NE x (b_ofZ 1)) (sem s a)); [destruct (sem s a); reflexivity|].
    apply q_id; [apply div_one|]. apply good_sem. apply G.
  - rewrite !sem_bin, sem_num, bi_mul, bi_add. destruct (sem s a) as [v|]; [|reflexivity]. cbn [then_chk2]. now rewrite two_mult.
Qed.
Lemma identical_subst (sb : substitution (K:=B64 L)) e e' : identical L e e' -> identical L (subst sb e) (subst sb e').
Proof.
  induction 1; cbn [subst]; [apply id_refl|now apply id_sym|eapply id_trans; eassumption|now apply id_un|now apply id_bin|apply id_add|apply id_mul
  |apply id_sub|apply id_neg_neg|apply id_pos|apply id_neg_mul|apply id_neg_div|apply id_div_neg|apply id_one_mul|apply id_div_one|apply id_double].
Qed.
End Identical.
