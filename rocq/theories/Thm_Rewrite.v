(** C86: exchanging the operands of + and *, and other rewritings that are exact in doubles. *)
From Coq Require Import String List ZArith Reals Bool Arith Lia Lra Sorting.Sorted.
From Flocq Require Import IEEE754.BinarySingleNaN Core.
From Verif Require Import Base MathOp IEEE NodeModel SimplifyModel DiffModel SubsModel MatModel LinearModel VarsTableModel
  SymMatModel NonlinearModel ExprSpec SubsSpec SimplifySpec RealSpec SymMatSpec NonlinearSpec FloatSpec RewriteSpec
  NodeProofs DiffProofs SymMatProofs NonlinearProofs FloatFacts IdenticalProofs Thm_Node Thm_Subs Thm_Simplify Thm_Diff Thm_SymMat Thm_Rename Thm_Relax.
Import ListNotations.
Local Open Scope string_scope. Local Open Scope list_scope. Local Open Scope nat_scope.

(** ** Expressions whose operands have been exchanged *)
Section Reordered.
Context {K : num_ops} (Co : commutative K).
Implicit Types (e a c d : expr K).
Notation reordered := (reordered (K:=K)).

Lemma ro_refl l e : reordered l e e.
Proof using. induction e; [apply ro_num|apply ro_var|apply ro_un; auto|apply ro_bin; auto]. Qed.
Lemma ro_a_number l e e' : reordered l e e' -> a_number e <-> a_number e'.
Proof using. intros H. destruct H; cbn; tauto. Qed.
Lemma ro_number l e v e' : reordered l e e' -> e = ENum v -> e' = ENum v.
Proof using. intros H. destruct H; congruence. Qed.
Lemma ro_sym l e e' : reordered l e e' -> reordered l e' e.
Proof using.
  induction 1 as [v|x|u a a' H IH|b a a' c c' H1 IH1 H2 IH2|a a' c c' H1 IH1 H2 IH2|a a' c c' H1 IH1 H2 IH2 N].
  - apply ro_num. - apply ro_var. - now apply ro_un. - now apply ro_bin. - now apply ro_add.
  - apply ro_mul; auto. destruct N as [N|N]; [now left|right]. rewrite <- (ro_a_number _ _ _ H1), <- (ro_a_number _ _ _ H2). tauto.
Qed.
Lemma ro_lits l e e' : reordered l e e' -> reordered true e e'.
Proof using. induction 1; [apply ro_num|apply ro_var|now apply ro_un|now apply ro_bin|now apply ro_add|apply ro_mul; auto]. Qed.

(** Same value, or failure (not necessarily the same one). *)
Lemma ro_eval strict l e e' v : reordered l e e' -> eval strict e = ExprSpec.Value v -> eval strict e' = ExprSpec.Value v.
Proof using Co.
  intros H. revert v. induction H as [w|x|u a a' H IH|b a a' c c' H1 IH1 H2 IH2|a a' c c' H1 IH1 H2 IH2|a a' c c' H1 IH1 H2 IH2 N]; intros v E; auto; cbn [eval] in *.
  - destruct (eval strict a) as [y| | |]; try discriminate. now rewrite (IH y eq_refl).
  - destruct (eval strict a) as [y| | |]; try discriminate. destruct (eval strict c) as [z| | |]; try discriminate.
    now rewrite (IH1 y eq_refl), (IH2 z eq_refl).
  - destruct (eval strict a) as [y| | |]; try discriminate. destruct (eval strict c) as [z| | |]; try discriminate.
    rewrite (IH1 y eq_refl), (IH2 z eq_refl). rewrite <- E. cbn [bin_sem]. now rewrite (co_add K Co z y).
  - destruct (eval strict a) as [y| | |]; try discriminate. destruct (eval strict c) as [z| | |]; try discriminate.
    rewrite (IH1 y eq_refl), (IH2 z eq_refl). rewrite <- E. cbn [bin_sem]. now rewrite (co_mul K Co z y).
Qed.
Theorem C86_vpa (cfg : config K) l e e' v : reordered l e e' -> Vpa cfg (embed e) = Ok v <-> Vpa cfg (embed e') = Ok v.
Proof using Co.
  intros H. split; intros E; apply C01_vpa_value_conv in E; apply C01_vpa_value; [|apply ro_sym in H]; eapply ro_eval; eauto.
Qed.

Lemma ro_occurs l e e' x : reordered l e e' -> occurs x e -> occurs x e'.
Proof using.
  induction 1 as [w|y|u a a' H IH|b a a' c c' H1 IH1 H2 IH2|a a' c c' H1 IH1 H2 IH2|a a' c c' H1 IH1 H2 IH2 N]; intros O; auto; inversion O; subst;
  first [apply occ_un; auto; fail|apply occ_l; auto; fail|apply occ_r; auto].
Qed.
Lemma ro_no_int l e e' : reordered l e e' -> no_int_ops e -> no_int_ops e'.
Proof using. induction 1; cbn [no_int_ops]; auto; [destruct b; tauto|tauto|tauto]. Qed.
Lemma ro_subst (s : substitution (K:=K)) e e' : reordered true e e' -> reordered true (subst s e) (subst s e').
Proof using.
  induction 1; cbn [subst]; [apply ro_num|apply ro_refl|now apply ro_un|now apply ro_bin|now apply ro_add|apply ro_mul; auto].
Qed.

(** ** Simplify *)
Definition sr_rel (r r' : sresult (K:=K)) : Prop :=
  match r, r' with SDone e, SDone e' => reordered true e e' | SDone _, _ | _, SDone _ => False | _, _ => True end.

Lemma ro_is_lit z l e e' : reordered l e e' -> is_lit z e -> is_lit z e'.
Proof using. intros H. destruct H; cbn; tauto. Qed.
Lemma ro_is_num l e e' : reordered l e e' -> is_num e <-> is_num e'.
Proof using. intros H. destruct H; cbn; tauto. Qed.
Lemma ro_absorbs b a c a' c' : reordered true a a' -> reordered true c c' -> absorbs b a c -> absorbs b a' c'.
Proof using.
  intros Ha Hc H. inversion H; subst; [apply ab_mul_l|apply ab_mul_r|apply ab_div|apply ab_pow]; eapply ro_is_lit; eauto.
Qed.
Lemma ro_neutral b a c a' c' d : reordered true a a' -> reordered true c c' -> neutral b a c d -> exists d', reordered true d d' /\ neutral b a' c' d'.
Proof using.
  intros Ha Hc H. inversion H; subst; eexists; (split; [|first [apply ne_add_l; eapply ro_is_lit; eauto; fail|apply ne_add_r; eapply ro_is_lit; eauto; fail|apply ne_sub; eapply ro_is_lit; eauto; fail
    |apply ne_mul_l; eapply ro_is_lit; eauto; fail|apply ne_mul_r; eapply ro_is_lit; eauto; fail|apply ne_div; eapply ro_is_lit; eauto; fail|apply ne_pow; eapply ro_is_lit; eauto; fail]]); assumption.
Qed.
Lemma swap_absorbs b a c : b = BAdd \/ b = BMul -> absorbs b a c -> absorbs b c a.
Proof using. intros Hb H. inversion H; subst; destruct Hb; try discriminate; [now apply ab_mul_r|now apply ab_mul_l]. Qed.
Lemma swap_neutral b a c d : b = BAdd \/ b = BMul -> neutral b a c d -> neutral b c a d.
Proof using.
  intros Hb H. inversion H; subst; destruct Hb; try discriminate; [now apply ne_add_r|now apply ne_add_l|now apply ne_mul_r|now apply ne_mul_l].
Qed.
Lemma sr_refl r : sr_rel r r. Proof using. destruct r; cbn; auto using ro_refl. Qed.

(** The rule applied to a node does not depend on the order of the operands... *)
Lemma contract_swap s b a c r : b = BAdd \/ b = BMul -> contract s (EBin b a c) r ->
  exists r', sr_rel r r' /\ contract s (EBin b c a) r'.
Proof using Co.
  intros Hb H. inversion H as [| |b0 v w E1|b0 a0 c0 N A|b0 a0 c0 d N A Ne|b0 a0 c0 N A Ne]; subst.
  - exists (of_outcome (finish s (bin_sem b w v))). split; [|apply ct_bin_fold].
    assert (E : bin_sem b w v = bin_sem b v w) by (destruct Hb; subst b; cbn [bin_sem]; [now rewrite (co_add K Co)|now rewrite (co_mul K Co)]).
    rewrite E. apply sr_refl.
  - exists (SDone (ENum (n_ofZ 0))). split; [apply ro_num|]. apply ct_absorb; [tauto|now apply swap_absorbs].
  - exists (SDone d). split; [apply ro_refl|]. apply ct_neutral; [tauto| |now apply swap_neutral].
    intros G. apply A. now apply swap_absorbs.
  - exists (SDone (EBin b c a)). split.
    + destruct Hb; subst b; [apply ro_add|apply ro_mul]; auto using ro_refl.
    + apply ct_keep; [tauto| |]; [intros G; apply A; now apply swap_absorbs|]. intros d G. apply (Ne d). now apply swap_neutral.
Qed.
(** ... nor on the order inside its operands. *)
Lemma contract_inside s b a c a' c' r : reordered true a a' -> reordered true c c' -> contract s (EBin b a c) r ->
  exists r', sr_rel r r' /\ contract s (EBin b a' c') r'.
Proof using.
  intros Ha Hc H. pose proof (ro_is_num _ _ _ Ha) as Na. pose proof (ro_is_num _ _ _ Hc) as Nc.
  inversion H as [| |b0 v w E1|b0 a0 c0 N A|b0 a0 c0 d N A Ne|b0 a0 c0 N A Ne]; subst.
  - rewrite (ro_number _ _ v _ Ha eq_refl), (ro_number _ _ w _ Hc eq_refl). exists (of_outcome (finish s (bin_sem b v w))).
    split; [apply sr_refl|apply ct_bin_fold].
  - exists (SDone (ENum (n_ofZ 0))). split; [apply ro_num|]. apply ct_absorb; [tauto|exact (ro_absorbs _ _ _ _ _ Ha Hc A)].
  - destruct (ro_neutral _ _ _ _ _ _ Ha Hc Ne) as (d' & Hd & Ne'). exists (SDone d'). split; [exact Hd|]. apply ct_neutral; [tauto| |exact Ne'].
    intros G. apply A. exact (ro_absorbs _ _ _ _ _ (ro_sym _ _ _ Ha) (ro_sym _ _ _ Hc) G).
  - exists (SDone (EBin b a' c')). split; [now apply ro_bin|]. apply ct_keep; [tauto| |].
    + intros G. apply A. exact (ro_absorbs _ _ _ _ _ (ro_sym _ _ _ Ha) (ro_sym _ _ _ Hc) G).
    + intros d G. destruct (ro_neutral _ _ _ _ _ _ (ro_sym _ _ _ Ha) (ro_sym _ _ _ Hc) G) as (d' & _ & G'). exact (Ne d' G').
Qed.
Lemma contract_un s u a a' r : reordered true a a' -> contract s (EUn u a) r -> exists r', sr_rel r r' /\ contract s (EUn u a') r'.
Proof using.
  intros Ha H. inversion H as [u0 v E1|u0 a0 N| | | |]; subst.
  - rewrite (ro_number _ _ v _ Ha eq_refl). exists (of_outcome (finish s (Some (un_sem u v)))). split; [apply sr_refl|apply ct_un_fold].
  - exists (SDone (EUn u a')). split; [now apply ro_un|]. apply ct_un_keep. now rewrite <- (ro_is_num _ _ _ Ha).
Qed.
Lemma sr_trans r r' r'' : (forall e e' e'', r = SDone e -> r' = SDone e' -> r'' = SDone e'' -> reordered true e e'' ) -> sr_rel r r' -> sr_rel r' r'' -> sr_rel r r''.
Proof using. intros T H1 H2. destruct r, r', r''; cbn in *; try tauto. eapply T; reflexivity. Qed.

(** Every pair of simplified operands, in either order. *)
Lemma contract_both s b a c a' c' r : b = BAdd \/ b = BMul -> reordered true a a' -> reordered true c c' -> contract s (EBin b a c) r ->
  exists r', sr_rel r r' /\ contract s (EBin b c' a') r'.
Proof using Co.
  intros Hb Ha Hc H. pose proof (ro_is_num _ _ _ Ha) as Na. pose proof (ro_is_num _ _ _ Hc) as Nc.
  inversion H as [| |b0 v w E1|b0 a0 c0 N A|b0 a0 c0 d N A Ne|b0 a0 c0 N A Ne]; subst.
  - rewrite (ro_number _ _ v _ Ha eq_refl), (ro_number _ _ w _ Hc eq_refl). exact (contract_swap s b _ _ _ Hb H).
  - exists (SDone (ENum (n_ofZ 0))). split; [apply ro_num|]. apply ct_absorb; [tauto|apply swap_absorbs; [exact Hb|exact (ro_absorbs _ _ _ _ _ Ha Hc A)]].
  - destruct (ro_neutral _ _ _ _ _ _ Ha Hc Ne) as (d' & Hd & Ne'). exists (SDone d'). split; [exact Hd|]. apply ct_neutral; [tauto| |now apply swap_neutral].
    intros G. apply A. apply swap_absorbs in G; [|exact Hb]. exact (ro_absorbs _ _ _ _ _ (ro_sym _ _ _ Ha) (ro_sym _ _ _ Hc) G).
  - exists (SDone (EBin b c' a')). split.
    + destruct Hb; subst b; [apply ro_add|apply ro_mul]; auto.
    + apply ct_keep; [tauto| |].
      * intros G. apply A. apply swap_absorbs in G; [|exact Hb]. exact (ro_absorbs _ _ _ _ _ (ro_sym _ _ _ Ha) (ro_sym _ _ _ Hc) G).
      * intros d G. apply swap_neutral in G; [|exact Hb].
        destruct (ro_neutral _ _ _ _ _ _ (ro_sym _ _ _ Ha) (ro_sym _ _ _ Hc) G) as (d' & _ & G'). exact (Ne d' G').
Qed.

Lemma simplifies_total s e : exists r, simplifies s e r.
Proof using.
  destruct (C19_simplify_refines K {| throwOnInvalidValue := s; epsilon := n_ofZ 0; maxIterations := 0; nonlinearMethod := NEWTON_RAPHSON;
    initialValue := n_ofZ 0; allowIndeterminateEquation := false |} e) as (r & H & _). exists r. exact H.
Qed.
Definition done (r : sresult (K:=K)) : Prop := match r with SDone _ => True | _ => False end.
Lemma sr_not_done r r' : ~ done r -> ~ done r' -> sr_rel r r'. Proof using. destruct r, r'; cbn; tauto. Qed.
Lemma sr_done e r' : sr_rel (SDone e) r' -> exists e', r' = SDone e' /\ reordered true e e'.
Proof using. destruct r' as [e'| |]; cbn; try tauto. intros H. exists e'. auto. Qed.
Lemma not_done r : ~ done r -> forall e, r <> SDone e. Proof using. intros H e ->. now apply H. Qed.
Lemma sr_dn r r' : sr_rel r r' -> done r <-> done r'. Proof using. destruct r, r'; cbn; tauto. Qed.

Lemma bin_shape s b a c r : simplifies s (EBin b a c) r ->
  (exists da dc, simplifies s a (SDone da) /\ simplifies s c (SDone dc) /\ contract s (EBin b da dc) r)
  \/ (~ done r /\ ((exists q, simplifies s a q /\ ~ done q) \/ (exists q, simplifies s c q /\ ~ done q))).
Proof using.
  intros H. inversion H as [| | | |b0 a0 c0 da dc r0 Q1 Q2 Q3|b0 a0 c0 r0 Q1 Q2|b0 a0 c0 da r0 Q0 Q1 Q2]; subst.
  - left. eauto.
  - right. assert (N : ~ done r) by (destruct r; cbn; try tauto; now destruct (Q2 e)). eauto.
  - right. assert (N : ~ done r) by (destruct r; cbn; try tauto; now destruct (Q2 e)). eauto.
Qed.
Lemma ro_swap s b a c a' c' r r' : b = BAdd \/ b = BMul -> reordered true a a' -> reordered true c c' ->
  (forall q q', simplifies s a q -> simplifies s a' q' -> sr_rel q q') -> (forall q q', simplifies s c q -> simplifies s c' q' -> sr_rel q q') ->
  simplifies s (EBin b a c) r -> simplifies s (EBin b c' a') r' -> sr_rel r r'.
Proof using Co.
  intros Hb H1 H2 IH1 IH2 S1 S2.
  destruct (bin_shape _ _ _ _ _ S1) as [(da & dc & A & C & T)|(N & F)]; destruct (bin_shape _ _ _ _ _ S2) as [(dc' & da' & C' & A' & T')|(N' & F')].
  - pose proof (IH1 _ _ A A') as Ra. pose proof (IH2 _ _ C C') as Rc. cbn in Ra, Rc.
    destruct (contract_both s b _ _ _ _ r Hb Ra Rc T) as (r1 & R1 & T1).
    assert (E : simplifies s (EBin b c' a') r1) by (eapply sp_bin; eauto). now rewrite (simplifies_det _ _ _ S2 _ E).
  - exfalso. destruct F' as [(q & Q & D)|(q & Q & D)]; apply D.
    + apply (sr_dn _ _ (IH2 _ _ C Q)). exact Logic.I.
    + apply (sr_dn _ _ (IH1 _ _ A Q)). exact Logic.I.
  - exfalso. destruct F as [(q & Q & D)|(q & Q & D)]; apply D.
    + apply (sr_dn _ _ (IH1 _ _ Q A')). exact Logic.I.
    + apply (sr_dn _ _ (IH2 _ _ Q C')). exact Logic.I.
  - now apply sr_not_done.
Qed.

Lemma ro_simplifies s e e' r r' : reordered true e e' -> simplifies s e r -> simplifies s e' r' -> sr_rel r r'.
Proof using Co.
  intros H. revert r r'. induction H as [v|x|u a a' H IH|b a a' c c' H1 IH1 H2 IH2|a a' c c' H1 IH1 H2 IH2|a a' c c' H1 IH1 H2 IH2 N]; intros r r' S1 S2.
  - rewrite (simplifies_det _ _ _ S1 _ S2). apply sr_refl.
  - rewrite (simplifies_det _ _ _ S1 _ S2). apply sr_refl.
  - inversion S1 as [| |u0 a0 d r0 Q1 Q2|u0 a0 r0 Q1 Q2| | |]; subst.
    + inversion S2 as [| |u0 a0 d' r0 P1 P2|u0 a0 r0 P1 P2| | |]; subst.
      * destruct (contract_un s u d d' r (IH _ _ Q1 P1) Q2) as (r1 & R1 & C1).
        assert (E : simplifies s (EUn u a') r1) by (eapply sp_un; eauto). now rewrite (simplifies_det _ _ _ S2 _ E).
      * exfalso. pose proof (IH _ _ Q1 P1) as G. apply sr_done in G as (d' & -> & _). now apply (P2 d').
    + inversion S2 as [| |u0 a0 d' r0 P1 P2|u0 a0 r0 P1 P2| | |]; subst; [|now apply IH].
      exfalso. pose proof (IH _ _ Q1 P1) as G. destruct r; cbn in G; try tauto. now apply (Q2 e).
  - destruct (simplifies_total s a) as (ra & Sa), (simplifies_total s c) as (rc & Sc), (simplifies_total s a') as (ra' & Sa'), (simplifies_total s c') as (rc' & Sc').
    pose proof (IH1 _ _ Sa Sa') as Ra. pose proof (IH2 _ _ Sc Sc') as Rc.
    destruct ra as [da| |].
    + apply sr_done in Ra as (da' & -> & Ra). destruct rc as [dc| |].
      * apply sr_done in Rc as (dc' & -> & Rc).
        assert (T1 : exists q, contract s (EBin b da dc) q /\ r = q).
        { inversion S1; subst; try (exfalso; repeat match goal with P : simplifies s ?z _, Q : simplifies s ?z _ |- _ => pose proof (simplifies_det _ _ _ P _ Q); clear P end; subst; match goal with G : forall _, SDone _ <> SDone _ |- _ => now apply (G _ eq_refl) end).
          repeat match goal with P : simplifies s ?z (SDone ?p), Q : simplifies s ?z (SDone ?q) |- _ => tryif constr_eq p q then fail else (pose proof (simplifies_det _ _ _ P _ Q) as EE; injection EE as ->; clear P) end.
          exists r. split; [assumption|reflexivity]. }
        destruct T1 as (q & Q & ->). destruct (contract_inside s b _ _ _ _ q Ra Rc Q) as (r1 & R1 & C1).
        assert (E : simplifies s (EBin b a' c') r1) by (eapply sp_bin; eauto). now rewrite (simplifies_det _ _ _ S2 _ E).
      * apply sr_not_done.
        -- assert (E : simplifies s (EBin b a c) SInvalid) by (eapply sp_bin_err_r; eauto; discriminate). rewrite (simplifies_det _ _ _ S1 _ E). cbn. tauto.
        -- assert (Nd : ~ done rc') by (destruct rc'; cbn in *; tauto).
           assert (E : simplifies s (EBin b a' c') rc') by (eapply sp_bin_err_r; eauto; now apply not_done). now rewrite (simplifies_det _ _ _ S2 _ E).
      * apply sr_not_done.
        -- assert (E : simplifies s (EBin b a c) SIntUndef) by (eapply sp_bin_err_r; eauto; discriminate). rewrite (simplifies_det _ _ _ S1 _ E). cbn. tauto.
        -- assert (Nd : ~ done rc') by (destruct rc'; cbn in *; tauto).
           assert (E : simplifies s (EBin b a' c') rc') by (eapply sp_bin_err_r; eauto; now apply not_done). now rewrite (simplifies_det _ _ _ S2 _ E).
    + apply sr_not_done.
      * assert (E : simplifies s (EBin b a c) SInvalid) by (eapply sp_bin_err_l; eauto; discriminate). rewrite (simplifies_det _ _ _ S1 _ E). cbn. tauto.
      * assert (Nd : ~ done ra') by (destruct ra'; cbn in *; tauto).
        assert (E : simplifies s (EBin b a' c') ra') by (eapply sp_bin_err_l; eauto; now apply not_done). now rewrite (simplifies_det _ _ _ S2 _ E).
    + apply sr_not_done.
      * assert (E : simplifies s (EBin b a c) SIntUndef) by (eapply sp_bin_err_l; eauto; discriminate). rewrite (simplifies_det _ _ _ S1 _ E). cbn. tauto.
      * assert (Nd : ~ done ra') by (destruct ra'; cbn in *; tauto).
        assert (E : simplifies s (EBin b a' c') ra') by (eapply sp_bin_err_l; eauto; now apply not_done). now rewrite (simplifies_det _ _ _ S2 _ E).
  - exact (ro_swap s BAdd a c a' c' r r' (or_introl eq_refl) H1 H2 IH1 IH2 S1 S2).
  - exact (ro_swap s BMul a c a' c' r r' (or_intror eq_refl) H1 H2 IH1 IH2 S1 S2).
Qed.

(** Simplify terminates the process for both or for neither, and otherwise its results differ only in
    the order of operands of + and *. *)
Theorem C86_simplify (cfg : config K) l e e' : reordered l e e' ->
  (forall d, Simplify cfg (embed e) = Ok (embed d) -> exists d', reordered true d d' /\ Simplify cfg (embed e') = Ok (embed d')) /\
  (no_int_ops e -> Simplify cfg (embed e) = Terminate -> Simplify cfg (embed e') = Terminate).
Proof using Co.
  intros H. apply ro_lits in H.
  destruct (C19_simplify_refines K cfg e) as (r & S1 & R1). destruct (C19_simplify_refines K cfg e') as (r' & S2 & R2).
  pose proof (ro_simplifies _ _ _ _ _ H S1 S2) as G. split.
  - intros d E. rewrite E in R1. destruct r as [e1| |]; cbn in R1; [|discriminate|destruct R1; discriminate].
    injection R1 as R1. apply embed_inj in R1. subst e1. apply sr_done in G as (d' & -> & G). exists d'. split; [exact G|exact R2].
  - intros Hi E. rewrite E in R1. destruct r as [e1| |]; cbn in R1; [discriminate| |destruct R1; discriminate].
    destruct (simplifies_no_int _ _ _ S2 (ro_no_int _ _ _ H Hi)) as [N2 _].
    destruct r' as [e2| |]; cbn in G; [contradiction|exact R2|congruence].
Qed.

(** ** Diff *)
Lemma ro_numb l e e' : reordered l e e' -> DiffProofs.numb e = DiffProofs.numb e'.
Proof using. intros H. destruct H; reflexivity. Qed.
Ltac ro := repeat first [assumption | apply ro_refl | apply ro_un | apply ro_bin].
Lemma ro_d_un u a a' d d' : reordered true a a' -> reordered true d d' -> reordered true (d_un u a d) (d_un u a' d').
Proof using. intros Ha Hd. assert (V : varb a = varb a') by (destruct Ha; reflexivity). destruct u; cbn [d_un]; ro. rewrite <- V. destruct (varb a); ro. Qed.
Lemma ro_dexpr x e e' : reordered false e e' -> reordered true (dexpr x e) (dexpr x e').
Proof using.
  induction 1 as [v|y|u a a' H IH|b a a' c c' H1 IH1 H2 IH2|a a' c c' H1 IH1 H2 IH2|a a' c c' H1 IH1 H2 IH2 N]; cbn [dexpr].
  - apply ro_refl. - apply ro_refl.
  - rewrite (ro_numb _ _ _ H). destruct (DiffProofs.numb a' && negb (is_sign u)); [apply ro_refl|]. apply ro_d_un; [eapply ro_lits; eauto|exact IH].
  - pose proof (ro_lits _ _ _ H1) as L1. pose proof (ro_lits _ _ _ H2) as L2.
    rewrite <- (ro_numb _ _ _ H1), <- (ro_numb _ _ _ H2). destruct b; ro.
    + destruct (DiffProofs.numb a && DiffProofs.numb c); ro. + destruct (DiffProofs.numb a && DiffProofs.numb c); ro.
    + destruct (DiffProofs.numb a); ro. destruct (DiffProofs.numb c); ro.
    + destruct (DiffProofs.numb c); ro.
    + destruct H1; destruct H2; ro; try (now apply ro_add); try (apply ro_mul; auto); ro; eauto using ro_lits.
  - rewrite <- (ro_numb _ _ _ H1), <- (ro_numb _ _ _ H2), Bool.andb_comm. destruct (DiffProofs.numb c && DiffProofs.numb a); [apply ro_refl|now apply ro_add].
  - pose proof (ro_lits _ _ _ H1) as L1. pose proof (ro_lits _ _ _ H2) as L2.
    rewrite <- (ro_numb _ _ _ H1), <- (ro_numb _ _ _ H2). destruct (DiffProofs.numb a) eqn:Na, (DiffProofs.numb c) eqn:Nc.
    + exfalso. destruct N as [N|N]; [discriminate|]. apply N. split; [destruct a|destruct c]; cbn; auto; discriminate.
    + apply ro_mul; auto.
    + apply ro_mul; auto.
    + apply ro_add; apply ro_mul; auto.
Qed.
(** The first derivatives of two expressions that differ in the order of operands of + and * (but not
    in a product of two literals) differ in the order of operands only. *)
Theorem C86_diff (cfg : config K) e e' x : reordered false e e' ->
  (forall d, Diff cfg (embed e) x 1 = Ok (embed d) -> exists d', reordered true d d' /\ Diff cfg (embed e') x 1 = Ok (embed d')) /\
  (Diff cfg (embed e) x 1 = Terminate -> Diff cfg (embed e') x 1 = Terminate).
Proof using Co.
  intros H. pose proof (ro_dexpr x _ _ H) as G.
  destruct (no_int_dec e) as [Hi|Hi].
  - pose proof (ro_no_int _ _ _ H Hi) as Hi'. pose proof (dexpr_no_int x e Hi) as Hd.
    change 1%Z with (Z.of_nat 1). rewrite !Diff_of_nat, !DiffTimes_ok by assumption. cbn [bind dexpr_n].
    destruct (C86_simplify cfg _ _ _ G) as [G1 G2]. split; auto.
  - destruct (proj2 (C22_diff_throws_iff K cfg e x 1 ltac:(lia)) Hi) as [msg E]. change (Z.of_nat 1) with 1%Z in E. rewrite E.
    split; [intros d F|intros F]; discriminate.
Qed.
End Reordered.

(** ** Doubles and reals are commutative *)
Lemma normalize_eq m e1 e2 n1 n2 : n1 = n2 -> e1 = e2 -> binary_normalize 53 1024 Hprec Hemax m n1 e1 false = binary_normalize 53 1024 Hprec Hemax m n2 e2 false.
Proof. now intros -> ->. Qed.
Lemma Bplus_comm (v w : b64) : Bplus mode_NE v w = Bplus mode_NE w v.
Proof.
  destruct v as [s|s| |s m e He], w as [s'|s'| |s' m' e' He']; cbn [Bplus]; try reflexivity.
  - destruct s, s'; reflexivity.
  - destruct s, s'; reflexivity.
  - cbv zeta. rewrite (Z.min_comm e' e). apply normalize_eq; [|reflexivity]. unfold Fplus_naive. apply Z.add_comm.
Qed.
Lemma Bmult_comm (v w : b64) : Bmult mode_NE v w = Bmult mode_NE w v.
Proof.
  destruct v as [s|s| |s m e He], w as [s'|s'| |s' m' e' He']; cbn [Bmult]; rewrite ?(Bool.xorb_comm s' s); try reflexivity.
  apply B2SF_inj. rewrite !B2SF_SF2B. rewrite (Bool.xorb_comm s' s), (Pos.mul_comm m' m), (Z.add_comm e' e). reflexivity.
Qed.
Theorem C86_doubles (L : libm) : commutative (B64 L).
Proof. split; [exact Bplus_comm|exact Bmult_comm]. Qed.
Theorem C86_reals : commutative Rops.
Proof.
  split; intros [v|] [w|]; try reflexivity; cbn [n_add n_mul Rops lift2 r_bin].
  - now rewrite Rplus_comm.
  - now rewrite Rmult_comm.
Qed.

(** ** Solving *)
Section Solve.
Context {K : num_ops} (Co : commutative K) (cfg : config K).
Notation symmat := (symmat K).

Definition keepsR {A B} (R : A -> B -> Prop) (r : res A) (r' : res B) : Prop := forall a, r = Ok a -> exists b, r' = Ok b /\ R a b.
Lemma kr_bind {A B C D} (R : A -> B -> Prop) (Q : C -> D -> Prop) r r' (f : A -> res C) (f' : B -> res D) :
  keepsR R r r' -> (forall a b, R a b -> keepsR Q (f a) (f' b)) -> keepsR Q (bind r f) (bind r' f').
Proof using.
  intros H Hf c E. apply bind_Ok_inv in E as (a & E1 & E2). destruct (H a E1) as (b & -> & Rab). cbn [bind]. exact (Hf a b Rab c E2).
Qed.
Lemma kr_eq {A C D} (Q : C -> D -> Prop) (r : res A) (f : A -> res C) (f' : A -> res D) :
  (forall a, keepsR Q (f a) (f' a)) -> keepsR Q (bind r f) (bind r f').
Proof using. intros Hf c E. apply bind_Ok_inv in E as (a & -> & E2). cbn [bind]. exact (Hf a c E2). Qed.
Lemma kr_noexcept {A B} (R : A -> B -> Prop) r r' : keepsR R r r' -> keepsR R (noexcept r) (noexcept r').
Proof using. intros H a E. destruct r; try discriminate E. injection E as ->. destruct (H a eq_refl) as (b & -> & Rb). exists b. auto. Qed.
Lemma kr_mapM {A A' B B'} (R : A -> A' -> Prop) (Q : B -> B' -> Prop) f f' l l' :
  Forall2 R l l' -> (forall a a', R a a' -> keepsR Q (f a) (f' a')) -> keepsR (Forall2 Q) (mapM f l) (mapM f' l').
Proof using.
  intros Hl H. induction Hl as [|a a' l l' Ha Hl IH]; cbn [mapM].
  - intros x E. injection E as <-. exists []. split; [reflexivity|constructor].
  - apply (kr_bind Q); [now apply H|]. intros b b' Hb. apply (kr_bind (Forall2 Q)); [exact IH|]. intros bs bs' Hbs x E.
    injection E as <-. exists (b' :: bs'). split; [reflexivity|constructor; assumption].
Qed.
Lemma kr_same {A} (r : res A) : keepsR eq r r. Proof using. intros a E. exists a. auto. Qed.
Lemma kr_keeps {A} (r r' : res A) : keepsR eq r r' -> keeps r r'.
Proof using. intros H a E. destruct (H a E) as (b & E' & ->). exact E'. Qed.

Definition alike (l : bool) (n n' : node K) : Prop := exists e e', n = embed e /\ n' = embed e' /\ reordered l e e'.
Definition alike_mat (l : bool) (A B : symmat) : Prop := s_rows B = s_rows A /\ s_cols B = s_cols A /\ Forall2 (alike l) (s_data A) (s_data B).
Lemma alike_get {l d d'} k : Forall2 (alike l) d d' -> keepsR (alike l) (va_get d k) (va_get d' k).
Proof using.
  intros H. revert k. unfold va_get. induction H as [|n n' d d' Hn Hd IH]; intros [|k]; cbn [nth_error]; try (intros a E; discriminate).
  - intros a E. injection E as <-. exists n'. auto.
  - apply IH.
Qed.
Lemma alike_clone l A B : alike_mat l A B -> keepsR (alike_mat l) (SymMat_Clone A) (SymMat_Clone B).
Proof using.
  intros (Hr & Hc & Hd). unfold SymMat_Clone. rewrite Hr, Hc. apply kr_eq. intros s. apply (kr_bind (Forall2 (alike l))).
  - apply (kr_mapM eq); [|]. { induction (seq 0 _); constructor; auto. }
    intros k k' <-. apply (kr_bind (alike l)); [now apply alike_get|]. intros n n' Hn x E. exists n'.
    destruct Hn as (e & e' & -> & -> & He). unfold clone_elem in *. pose proof (embed_not_nil e). pose proof (embed_not_nil e').
    destruct (embed e) eqn:Ee; [congruence|]. destruct (embed e') eqn:Ee'; [congruence|]. split; [reflexivity|].
    injection E as <-. exists e, e'. rewrite Ee, Ee'. auto.
  - intros d d' H x E. injection E as <-. eexists. split; [reflexivity|]. split; [reflexivity|]. split; [reflexivity|exact H].
Qed.
Lemma alike_subs A B t : alike_mat true A B -> keepsR (alike_mat true) (SymMat_SubsTable A t) (SymMat_SubsTable B t).
Proof using.
  intros (Hr & Hc & Hd). unfold SymMat_SubsTable, SymMat_Subs. rewrite Hr, Hc. apply (kr_bind (Forall2 (alike true))).
  - apply kr_noexcept, (kr_mapM (alike true)); [exact Hd|]. intros n n' (e & e' & -> & -> & He).
    set (s := fun x => option_map (fun v : K => ENum v) (map_find x (Items t))).
    assert (G : forall e : expr K, SubsValues (embed e) (Items t) = Ok (embed (subst s e))).
    { intros e0. unfold SubsValues. apply SubsRoot_ok. intros x. rewrite numbers_dict. unfold s. destruct (map_find x (Items t)); reflexivity. }
    rewrite !G. intros x E. injection E as <-. eexists. split; [reflexivity|]. exists (subst s e), (subst s e'). auto using ro_subst.
  - intros d d' H x E. injection E as <-. eexists. split; [reflexivity|]. split; [reflexivity|]. split; [reflexivity|exact H].
Qed.
Lemma alike_calc A B : alike_mat true A B -> keeps (SymMat_Calc_expr cfg A) (SymMat_Calc_expr cfg B).
Proof using Co.
  intros (Hr & Hc & Hd). unfold SymMat_Calc_expr, SymMat_Calc. rewrite Hr, Hc. generalize (s_rows A) (s_cols A). intros r c.
  assert (G : forall l', Calc_list cfg (s_data A) = (Ok tt, l') -> Calc_list cfg (s_data B) = (Ok tt, l')).
  { induction Hd as [|n n' d d' Hn Hd IH]; intros l' E; [exact E|]. cbn [Calc_list] in *. destruct Hn as (e & e' & -> & -> & He).
    unfold NodeCalc in *. destruct (Vpa cfg (embed e)) as [v| | | | | ] eqn:Ev; try discriminate E.
    rewrite (proj1 (C86_vpa Co cfg _ _ _ v He) Ev). destruct (Calc_list cfg d) as [q l2] eqn:E2. injection E as -> <-.
    now rewrite (IH l2 eq_refl). }
  intros M E. destruct (Calc_list cfg (s_data A)) as [q l] eqn:E2. destruct q as [[]| | | | | ]; try discriminate E.
  now rewrite (G l eq_refl).
Qed.
Lemma alike_eval_mat A B t : alike_mat true A B -> keeps (eval_mat cfg A t) (eval_mat cfg B t).
Proof using Co.
  intros H. apply kr_keeps. unfold eval_mat. apply (kr_bind (alike_mat true)); [now apply alike_clone|]. intros a b Hab.
  apply (kr_bind (alike_mat true)); [now apply alike_subs|]. intros a1 b1 H1.
  intros m E. exists m. split; [|reflexivity]. revert m E. change (keeps (bind (SymMat_Calc_expr cfg a1) ToMat) (bind (SymMat_Calc_expr cfg b1) ToMat)).
  apply keeps_bind; [now apply alike_calc|]. intros; apply keeps_refl.
Qed.
Lemma eval_vec_mat A t : eval_vec cfg A t = bind (eval_mat cfg A t) ToVec.
Proof using.
  unfold eval_vec, eval_mat. rewrite bind_assoc. apply bind_ext. intros a. rewrite bind_assoc. apply bind_ext. intros b.
  rewrite bind_assoc. apply bind_ext. reflexivity.
Qed.
Lemma alike_eval_vec A B t : alike_mat true A B -> keeps (eval_vec cfg A t) (eval_vec cfg B t).
Proof using Co. intros H. rewrite !eval_vec_mat. apply keeps_bind; [now apply alike_eval_mat|]. intros; apply keeps_refl. Qed.
Lemma alike_lits A B : alike_mat false A B -> alike_mat true A B.
Proof using.
  intros (Hr & Hc & Hd). split; [exact Hr|]. split; [exact Hc|]. induction Hd as [|n n' d d' (e & e' & -> & -> & He) Hd IH]; constructor; auto.
  exists e, e'. eauto using ro_lits.
Qed.
Lemma diff_is_expr (e : expr K) x m : Diff cfg (embed e) x 1 = Ok m -> exists d, m = embed d.
Proof using.
  intros H. destruct (no_int_dec e) as [Hi|Hi].
  - change 1%Z with (Z.of_nat 1) in H. destruct (C22_diff_outcome K cfg e x 1 ltac:(lia) Hi) as [(d & E & _)|[_ E]]; [|congruence]. exists d. congruence.
  - destruct (proj2 (C22_diff_throws_iff K cfg e x 1 ltac:(lia)) Hi) as [msg E]. change (Z.of_nat 1) with 1%Z in E. congruence.
Qed.
Lemma alike_jacobian A B xs : alike_mat false A B -> keepsR (alike_mat true) (Jacobian cfg A xs) (Jacobian cfg B xs).
Proof using Co.
  intros (Hr & Hc & Hd). unfold Jacobian. rewrite Hr. apply kr_eq. intros s. apply (kr_bind (Forall2 (alike true))).
  - apply kr_noexcept, (kr_mapM eq). { induction (seq 0 _); constructor; auto. }
    intros k k' <-. apply (kr_bind (alike false)); [now apply alike_get|]. intros n n' (e & e' & -> & -> & He).
    destruct (nth_error xs _) as [x|]; [|intros a E; discriminate]. intros m E.
    destruct (diff_is_expr e x m E) as (d & ->). destruct (proj1 (C86_diff Co cfg e e' x He) d E) as (d' & Hd' & ->).
    exists (embed d'). split; [reflexivity|]. exists d, d'. auto.
  - intros d d' H x E. injection E as <-. eexists. split; [reflexivity|]. split; [reflexivity|]. split; [reflexivity|exact H].
Qed.

Section Loops.
Variables A B J J' : symmat.
Hypothesis EA : forall t, keeps (eval_vec cfg A t) (eval_vec cfg B t).
Hypothesis EJ : forall t, keeps (eval_mat cfg J t) (eval_mat cfg J' t).
Lemma Newton_alike fuel : forall it q t, keeps (Newton_loop cfg fuel A J it q t) (Newton_loop cfg fuel B J' it q t).
Proof using EA EJ.
  induction fuel as [|f IH]; intros it q t; [apply keeps_refl|]. cbn [Newton_loop].
  apply keeps_bind; [apply EA|]. intros phi _. destruct (Mat_eq_num _ _ _); [apply keeps_refl|]. destruct (_ <? it)%Z; [apply keeps_refl|].
  apply keeps_bind; [apply EJ|]. intros ja _. apply keeps_bind; [apply keeps_refl|]. intros mphi _.
  apply keeps_bind; [apply keeps_refl|]. intros dq _. apply keeps_bind; [apply keeps_refl|]. intros q1 _.
  apply keeps_bind; [apply keeps_refl|]. intros t1 _. apply IH.
Qed.
Lemma LM_inner_alike fuel afuel : forall it mu q F t, keeps (LM_inner cfg fuel afuel A J it mu q F t) (LM_inner cfg fuel afuel B J' it mu q F t).
Proof using EA EJ.
  induction fuel as [|f IH]; intros it mu q F t; [apply keeps_refl|]. cbn [LM_inner].
  apply keeps_bind; [apply EJ|]. intros Jm _. do 9 (apply keeps_bind; [apply keeps_refl|]; intros ? _).
  apply keeps_bind.
  { unfold Armijo. apply keeps_Armijo; intros v.
    - unfold lm_f. apply keeps_bind; [apply keeps_refl|]. intros; apply EA.
    - unfold lm_df. apply keeps_bind; [apply keeps_refl|]. intros; apply EJ. }
  intros al _. do 3 (apply keeps_bind; [apply keeps_refl|]; intros ? _). apply keeps_bind; [apply EA|]. intros Fn _.
  destruct (n_ltb _ _); [apply keeps_refl|]. destruct (it =? _)%Z; [apply keeps_refl|]. apply IH.
Qed.
Lemma LM_alike fuel afuel : forall it q t, keeps (LM_loop cfg fuel afuel A J it q t) (LM_loop cfg fuel afuel B J' it q t).
Proof using EA EJ.
  induction fuel as [|f IH]; intros it q t; [apply keeps_refl|]. cbn [LM_loop].
  apply keeps_bind; [apply EA|]. intros F _. destruct (Mat_eq_num _ _ _); [apply keeps_refl|].
  apply keeps_bind; [apply LM_inner_alike|]. intros [[[it1 Fn] dq] t1] _.
  do 2 (apply keeps_bind; [apply keeps_refl|]; intros ? _). destruct (it1 =? _)%Z; [apply keeps_refl|]. apply IH.
Qed.
End Loops.

Lemma alike_solve A B fuel afuel t : alike_mat false A B -> keeps (Solve cfg fuel afuel A t) (Solve cfg fuel afuel B t).
Proof using Co.
  intros H. pose proof (alike_lits _ _ H) as HL. pose proof (alike_jacobian A B (Vars t) H) as HJ. unfold Solve. destruct (nonlinearMethod cfg).
  - unfold SolveByNewtonRaphson. apply keeps_bind; [apply keeps_refl|]. intros q _. apply kr_keeps.
    apply (kr_bind (alike_mat true)); [exact HJ|]. intros J J' Hj r E. exists r. split; [|reflexivity]. revert r E.
    apply Newton_alike; intros t1; [now apply alike_eval_vec|now apply alike_eval_mat].
  - unfold SolveByLM. cbv zeta. apply kr_keeps.
    apply (kr_bind (alike_mat true)); [exact HJ|]. intros J J' Hj r E. exists r. split; [|reflexivity]. revert r E.
    apply LM_alike; intros t1; [now apply alike_eval_vec|now apply alike_eval_mat].
Qed.

Lemma systems_alike l n (f g : nat -> expr K) A B : is_sym n 1 (fun i _ => f i) A -> is_sym n 1 (fun i _ => g i) B ->
  (forall i, i < n -> reordered l (f i) (g i)) -> alike_mat l A B.
Proof using.
  intros HA HB H. rewrite (is_sym_eq _ _ _ _ HA), (is_sym_eq _ _ _ _ HB). split; [reflexivity|]. split; [reflexivity|]. cbn [s_data].
  assert (G : forall k, In k (seq 0 (n * 1)) -> alike l (embed (f (k / 1))) (embed (g (k / 1)))).
  { intros k Hk. apply in_seq in Hk. rewrite Nat.div_1_r. exists (f k), (g k). split; [reflexivity|]. split; [reflexivity|]. apply H. lia. }
  induction (seq 0 (n * 1)) as [|k ks IH]; cbn [map]; constructor; [apply G; now left|apply IH; intros; apply G; now right].
Qed.

(** Two systems of equations that differ only in the order of operands of + and * have the same
    computed solution: from the same table both methods return the same table, bit for bit. *)
Theorem C86_solve n (f g : nat -> expr K) A B fuel afuel t0 t :
  is_sym n 1 (fun i _ => f i) A -> is_sym n 1 (fun i _ => g i) B -> (forall i, i < n -> reordered false (f i) (g i)) ->
  Solve cfg fuel afuel A t0 = Ok t <-> Solve cfg fuel afuel B t0 = Ok t.
Proof using Co.
  intros HA HB H. split; apply alike_solve; [eapply systems_alike; eauto|].
  eapply systems_alike; eauto. intros i Hi. apply ro_sym. now apply H.
Qed.
Theorem C86_solve1 n (f g : nat -> expr K) A B fuel afuel t :
  is_sym n 1 (fun i _ => f i) A -> is_sym n 1 (fun i _ => g i) B -> (forall i, i < n -> reordered false (f i) (g i)) ->
  Solve1 cfg fuel afuel A = Ok t <-> Solve1 cfg fuel afuel B = Ok t.
Proof using Co.
  intros HA HB H. destruct (C34_all_var_names _ _ _ _ HA) as (s & Es & Ss & Hs). destruct (C34_all_var_names _ _ _ _ HB) as (s' & Es' & Ss' & Hs').
  assert (E : s = s').
  { apply sorted_unique; auto. intros x. rewrite Hs, Hs'.
    split; intros (i & j & Hi & Hj & Ho); exists i, j; (split; [exact Hi|]; split; [exact Hj|]); eapply ro_occurs; [apply H, Hi|exact Ho|apply ro_sym, H, Hi|exact Ho]. }
  subst s'. unfold Solve1. rewrite Es, Es'. cbn [bind]. destruct (VarsTable_make s (initialValue cfg)); cbn [bind]; try reflexivity.
  eapply C86_solve; eauto.
Qed.
End Solve.

(** ** Identities of doubles *)
Section Identities.
Context (L : libm).
Notation expr := (expr (B64 L)).
Theorem C86_identical (cfg : config (B64 L)) (e e' : expr) v : identical L e e' ->
  throwOnInvalidValue cfg = false \/ all_nums (K:=B64 L) (fun x : b64 => fin x) e ->
  Vpa cfg (embed e) = Ok v <-> Vpa cfg (embed e') = Ok v.
Proof.
  intros H G. pose proof (sem_identical L (C86_doubles L) _ _ _ H G) as E. unfold sem in E.
  split; intros V; apply C01_vpa_value_conv in V; apply C01_vpa_value; rewrite V in E.
  - destruct (eval _ e'); try discriminate. congruence.
  - destruct (eval _ e); try discriminate. congruence.
Qed.

Lemma subst_nums (P : B64 L -> Prop) (s : substitution (K:=B64 L)) (e : expr) : all_nums P e ->
  (forall x t, s x = Some t -> all_nums P t) -> all_nums P (subst s e).
Proof.
  intros H Hs. induction e as [v|x|u a IH|b a IH c IH']; cbn [subst all_nums] in *; auto.
  - destruct (s x) as [t|] eqn:E; [exact (Hs x t E)|exact Logic.I].
  - destruct H. auto.
Qed.
(** The same for expressions with variables, after the variables have been given values. *)
Theorem C86_identical_subs (cfg : config (B64 L)) (e e' : expr) (d : smap (B64 L)) n n' v : identical L e e' ->
  throwOnInvalidValue cfg = false \/
    (all_nums (K:=B64 L) (fun x : b64 => fin x) e /\ forall x (w : B64 L), map_find x d = Some w -> fin w) ->
  SubsValues (embed e) d = Ok n -> SubsValues (embed e') d = Ok n' -> Vpa cfg n = Ok v <-> Vpa cfg n' = Ok v.
Proof.
  intros H G.
  set (s := fun x => option_map (fun v : B64 L => ENum v) (map_find x d)).
  assert (Q : forall e : expr, SubsValues (embed e) d = Ok (embed (subst s e))).
  { intros e0. unfold SubsValues. apply SubsRoot_ok. intros x. rewrite numbers_dict. unfold s. destruct (map_find x d); reflexivity. }
  rewrite !Q. intros E E'. injection E as <-. injection E' as <-. apply C86_identical; [now apply identical_subst|].
  destruct G as [G|[G1 G2]]; [now left|right]. apply subst_nums; [exact G1|]. intros x t Hx. unfold s in Hx.
  destruct (map_find x d) as [w|] eqn:Ex; [|discriminate]. cbn [option_map] in Hx. injection Hx as <-. exact (G2 x w Ex).
Qed.
End Identities.

(** ** Concrete cases *)
Local Notation DX := (EVar "x" : expr D).
Local Notation DY := (EVar "y" : expr D).
Local Notation dlit z := (ENum (b_ofZ z : D) : expr D).
(** (x + 2*y) * sin(x)  and  sin(x) * (y*2 + x). *)
Definition rw_e : expr D := EBin BMul (EBin BAdd DX (EBin BMul (dlit 2) DY)) (EUn USin DX).
Definition rw_e' : expr D := EBin BMul (EUn USin DX) (EBin BAdd (EBin BMul DY (dlit 2)) DX).
Example C86_ex : reordered false rw_e rw_e'.
Proof.
  apply ro_mul; [|apply ro_refl|right; cbn; tauto]. apply ro_add; [apply ro_refl|]. apply ro_mul; [apply ro_refl|apply ro_refl|right; cbn; tauto].
Qed.
(** x - 2*y  and  -y - y + x. *)
Example C86_identical_ex : identical tiny_libm (EBin BSub DX (EBin BMul (dlit 2) DY)) (EBin BAdd (EUn UNeg (EBin BAdd DY DY)) DX).
Proof.
  eapply id_trans; [apply id_sub|]. eapply id_trans; [apply id_add|]. apply id_bin; [|apply id_refl]. apply id_un, id_double.
Qed.
(** The order of two literals in a product shows in the sign of a zero of the derivative: d/dx (-3)*4
    is (-3)*0 = -0, and d/dx 4*(-3) is 4*0 = 0. *)
Definition is_neg_zero (r : res (node D)) : bool := match r with Ok (N NUMBER _ v _ _ _) => Bsign (v : b64) | _ => false end.
Theorem C86_literals_matter :
  is_neg_zero (Diff (default_config D) (embed (EBin BMul (dlit (-3)) (dlit 4))) "x" 1) = true /\
  is_neg_zero (Diff (default_config D) (embed (EBin BMul (dlit 4) (dlit (-3)))) "x" 1) = false.
Proof. split; [vm_cast_no_check (eq_refl true)|vm_cast_no_check (eq_refl false)]. Qed.
(** Association does matter: (2^53 + 1) + 1 is 2^53, and 2^53 + (1 + 1) is 2^53 + 2. *)
Definition assoc_l : expr D := EBin BAdd (EBin BAdd (dlit (2 ^ 53)) (dlit 1)) (dlit 1).
Definition assoc_r : expr D := EBin BAdd (dlit (2 ^ 53)) (EBin BAdd (dlit 1) (dlit 1)).
Definition is_Vpa (e : expr D) (z : Z) : bool := match Vpa (default_config D) (embed e) with Ok v => Beqb (v : b64) (b_ofZ z) | _ => false end.
Theorem C86_association_matters : is_Vpa assoc_l (2 ^ 53) = true /\ is_Vpa assoc_r (2 ^ 53 + 2) = true /\ is_Vpa assoc_r (2 ^ 53) = false.
Proof. split; [vm_cast_no_check (eq_refl true)|]. split; [vm_cast_no_check (eq_refl true)|vm_cast_no_check (eq_refl false)]. Qed.
