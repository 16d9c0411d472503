(** Theorems about Simplify: C17 - C19. *)
From Coq Require Import String List ZArith Bool Arith Lia Reals Lra.
From Verif Require Import Base MathOp IEEE NodeModel SimplifyModel ExprSpec SimplifySpec NodeProofs RealSpec.
Import ListNotations.
Local Open Scope string_scope.

Section Refine.
Context {K : num_ops}.
Implicit Types (e a c : expr K).

(** How Simplify reports. *)
Definition s_reports (r : res (node K)) (s : sresult (K:=K)) : Prop :=
  match s with
  | SDone e => r = Ok (embed e)
  | SInvalid => r = Terminate
  | SIntUndef => exists w, r = Undef w
  end.

Definition isop (e : expr K) : bool := match e with EUn _ _ | EBin _ _ _ => true | _ => false end.

Lemma embed_op e : match embed e with N OPERATOR _ _ _ _ _ => isop e = true | _ => isop e = false end.
Proof. destruct e; reflexivity. Qed.

Lemma whole_child cfg e (f : node K -> res (node K)) :
  (match embed e with N OPERATOR _ _ _ _ _ => SimplifyWholeNode cfg (embed e) | _ => Ok (embed e) end)
  = SimplifyWholeNode cfg (embed e).
Proof. destruct e; reflexivity. Qed.

Lemma isNumEq_lit e z : isNumEq (embed e) z = true <-> is_lit z e.
Proof. destruct e; simpl; try tauto; split; try discriminate; tauto. Qed.
Lemma isNumEq_lit_f e z : isNumEq (embed e) z = false <-> ~ is_lit z e.
Proof. rewrite <- isNumEq_lit. destruct (isNumEq (embed e) z); split; congruence. Qed.

Lemma lit_num e z : is_lit z e -> is_num e.
Proof. destruct e; simpl; tauto. Qed.

Definition numb (e : expr K) : bool := match e with ENum _ => true | _ => false end.
Lemma numb_spec e : numb e = true <-> is_num e.
Proof. destruct e; simpl; intuition congruence. Qed.

Lemma reports_fold (m : res K) (o : outcome K) : o <> HasVariable -> reports m o ->
  s_reports (let* d := noexcept m in Ok (N NUMBER MATH_NULL d "" Nil Nil)) (of_outcome o).
Proof.
  destruct o; simpl; intros H R; try congruence.
  - rewrite R. reflexivity.
  - destruct R as [i ->]. reflexivity.
  - destruct R as [i ->]. simpl. eauto.
Qed.

Lemma finish_nv s r : finish (K:=K) s r <> HasVariable.
Proof. unfold finish. destruct r; [destruct (_ && _)%bool|]; discriminate. Qed.

Lemma single_un cfg u a : exists r, contract (throwOnInvalidValue cfg) (EUn u a) r /\
  s_reports (SimplifySingleNode cfg (embed (EUn u a))) r.
Proof.
  cbn [embed SimplifySingleNode]. rewrite GetOperatorNum_unop.
  destruct a as [v|x|u' a'|b' a1 a2]; try (eexists; split; [apply ct_un_keep; simpl; tauto|reflexivity]).
  eexists; split; [apply ct_un_fold|]. cbn [embed]. apply reports_fold; [apply finish_nv|apply Calc_un].
Qed.

Lemma single_bin cfg b a c : exists r, contract (throwOnInvalidValue cfg) (EBin b a c) r /\
  s_reports (SimplifySingleNode cfg (embed (EBin b a c))) r.
Proof.
  destruct (numb a && numb c) eqn:Enum.
  - apply andb_true_iff in Enum as [Ea Ec]. destruct a as [v| | |]; try discriminate. destruct c as [w| | |]; try discriminate.
    eexists; split; [apply ct_bin_fold|]. cbn [embed SimplifySingleNode]. rewrite GetOperatorNum_binop.
    apply reports_fold; [apply finish_nv|apply Calc_bin].
  - assert (Hnn : ~ (is_num a /\ is_num c)).
    { rewrite <- !numb_spec. intros [H1 H2]. rewrite H1, H2 in Enum. discriminate. }
    cbn [embed SimplifySingleNode]. rewrite GetOperatorNum_binop.
    set (l0 := isNumEq (embed a) 0). set (r0 := isNumEq (embed c) 0).
    set (l1 := isNumEq (embed a) 1). set (r1 := isNumEq (embed c) 1).
    assert (E : forall T (x y z : T) (f : K -> K -> T),
      match embed a, embed c with
      | Nil, _ => x
      | N NUMBER _ lv _ _ _, Nil => y
      | N NUMBER _ lv _ _ _, N NUMBER _ rv _ _ _ => f lv rv
      | _, Nil => y
      | _, _ => z end = z).
    { intros. destruct a, c; simpl in *; try reflexivity; discriminate. }
    assert (E2 : forall X, X = (if match binop_op b with
                 | MATH_MULTIPLY => l0 || r0 | MATH_DIVIDE => l0 | MATH_POWER => l0 | _ => false end
              then Ok (mkNum (n_ofZ 0))
              else if match binop_op b with
                      | MATH_ADD => l0 || r0 | MATH_SUB => r0 | MATH_MULTIPLY => l1 || r1
                      | MATH_DIVIDE => r1 | MATH_POWER => r1 | _ => false end
              then (if l1 || l0 then Ok (embed c) else if r1 || r0 then Ok (embed a)
                    else Ok (embed (EBin b a c)))
              else Ok (embed (EBin b a c))) -> exists r, contract (throwOnInvalidValue cfg) (EBin b a c) r /\ s_reports X r).
    { intros X ->. clear E.
      assert (Hl0 : l0 = true <-> is_lit 0 a) by apply isNumEq_lit.
      assert (Hr0 : r0 = true <-> is_lit 0 c) by apply isNumEq_lit.
      assert (Hl1 : l1 = true <-> is_lit 1 a) by apply isNumEq_lit.
      assert (Hr1 : r1 = true <-> is_lit 1 c) by apply isNumEq_lit.
      assert (Hx : (l0 || l1 = true -> r0 || r1 = true -> False)%bool).
      { rewrite !orb_true_iff, Hl0, Hl1, Hr0, Hr1. intros [H|H] [H'|H']; apply Hnn; split; eapply lit_num; eauto. }
      assert (Fl0 : l0 = false -> ~ is_lit 0 a) by (intros; rewrite <- Hl0; congruence).
      assert (Fr0 : r0 = false -> ~ is_lit 0 c) by (intros; rewrite <- Hr0; congruence).
      assert (Fl1 : l1 = false -> ~ is_lit 1 a) by (intros; rewrite <- Hl1; congruence).
      assert (Fr1 : r1 = false -> ~ is_lit 1 c) by (intros; rewrite <- Hr1; congruence).
      clearbody l0 r0 l1 r1.
      destruct b; simpl;
        destruct l0, r0; simpl in *; try (exfalso; apply Hx; reflexivity);
        destruct l1, r1; simpl in *; try (exfalso; apply Hx; reflexivity);
        first
        [ (eexists; split; [apply ct_absorb; [exact Hnn|constructor; solve [intuition auto]]|reflexivity])
        | (eexists; split; [apply ct_neutral; [exact Hnn|intros HA; inversion HA; subst; intuition congruence|constructor; solve [intuition auto]]|reflexivity])
        | (eexists; split; [apply ct_keep; [exact Hnn|intros HA; inversion HA; subst; intuition congruence
                            |intros d HN; inversion HN; subst; intuition congruence]|reflexivity]) ]. }
    apply E2. clear E2. unfold l0, r0, l1, r1. 
    destruct a, c; simpl in Enum; try discriminate; try reflexivity.
Qed.

Lemma whole_un cfg u a : SimplifyWholeNode cfg (embed (EUn u a)) =
  let* l' := SimplifyWholeNode cfg (embed a) in SimplifySingleNode cfg (N OPERATOR (unop_op u) (n_ofZ 0) "" l' Nil).
Proof. cbn [embed SimplifyWholeNode]. rewrite (whole_child cfg a (fun x => Ok x)). reflexivity. Qed.
Lemma whole_bin cfg b a c : SimplifyWholeNode cfg (embed (EBin b a c)) =
  let* l' := SimplifyWholeNode cfg (embed a) in
  let* r' := SimplifyWholeNode cfg (embed c) in SimplifySingleNode cfg (N OPERATOR (binop_op b) (n_ofZ 0) "" l' r').
Proof.
  cbn [embed SimplifyWholeNode]. rewrite (whole_child cfg a (fun x => Ok x)), (whole_child cfg c (fun x => Ok x)). reflexivity.
Qed.

Lemma whole_ok cfg e : exists r, simplifies (throwOnInvalidValue cfg) e r /\
  s_reports (SimplifyWholeNode cfg (embed e)) r.
Proof.
  induction e as [v|x|u a IH|b a IHa c IHc].
  - eexists; split; [constructor|reflexivity].
  - eexists; split; [constructor|reflexivity].
  - rewrite whole_un. destruct IH as (r & Hr & R). destruct r as [a'| |]; simpl in R.
    + rewrite R. cbn [bind]. destruct (single_un cfg u a') as (r & Hc & Rr).
      exists r. split; [eapply sp_un; eauto|exact Rr].
    + rewrite R. exists SInvalid. split; [apply sp_un_err; auto; discriminate|reflexivity].
    + destruct R as [w ->]. exists SIntUndef. split; [apply sp_un_err; auto; discriminate|simpl; eauto].
  - rewrite whole_bin. destruct IHa as (r & Hr & R). destruct r as [a'| |]; simpl in R.
    + rewrite R. cbn [bind]. destruct IHc as (r & Hr' & R'). destruct r as [c'| |]; simpl in R'.
      * rewrite R'. cbn [bind]. destruct (single_bin cfg b a' c') as (r & Hc & Rr).
        exists r. split; [eapply sp_bin; eauto|exact Rr].
      * rewrite R'. exists SInvalid. split; [eapply sp_bin_err_r; eauto; discriminate|reflexivity].
      * destruct R' as [w ->]. exists SIntUndef. split; [eapply sp_bin_err_r; eauto; discriminate|simpl; eauto].
    + rewrite R. exists SInvalid. split; [apply sp_bin_err_l; auto; discriminate|reflexivity].
    + destruct R as [w ->]. exists SIntUndef. split; [apply sp_bin_err_l; auto; discriminate|simpl; eauto].
Qed.

Lemma neutral_det b a c d d' : ~ (is_num a /\ is_num c) -> neutral b a c d -> neutral b a c d' -> d = d'.
Proof.
  intros Hn H H'. destruct H; inversion H'; subst; auto; exfalso; apply Hn; split; eapply lit_num; eauto.
Qed.

Lemma contract_det s e r r' : contract s e r -> contract s e r' -> r = r'.
Proof.
  intros H H'. destruct H; inversion H'; subst; auto; try (exfalso; simpl in *; tauto).
  - f_equal. eapply neutral_det; eauto.
  - exfalso. firstorder.
  - exfalso. firstorder.
Qed.

Lemma simplifies_det s e r : simplifies s e r -> forall r', simplifies s e r' -> r = r'.
Proof.
  induction 1; intros r' H'; inversion H'; subst; auto;
    repeat match goal with
    | IH : forall r', simplifies _ ?a r' -> _ = r', H : simplifies _ ?a _ |- _ => apply IH in H; try (injection H as <-)
    end; subst; try congruence; try (eapply contract_det; eassumption); try (exfalso; congruence).
Qed.
End Refine.

(** ** What Simplify does, and C19 *)

(** Simplify performs the rules bottom up; it always ends in one of the three ways, and it
    terminates the process exactly when a folded constant is invalid. *)
Theorem C19_simplify_refines (K : num_ops) (cfg : config K) (e : expr K) :
  exists r, simplifies (throwOnInvalidValue cfg) e r /\ s_reports (Simplify cfg (embed e)) r.
Proof.
  destruct (whole_ok cfg e) as (r & H & R). exists r. split; auto. unfold Simplify.
  destruct r; simpl in *; [rewrite R; reflexivity|rewrite R; reflexivity|]. destruct R as [w ->]. simpl. eauto.
Qed.

Theorem C19_simplify_terminates_iff (K : num_ops) (cfg : config K) (e : expr K) :
  Simplify cfg (embed e) = Terminate <-> simplifies (throwOnInvalidValue cfg) e SInvalid.
Proof.
  destruct (C19_simplify_refines K cfg e) as (r & H & R). split; intros H'.
  - destruct r; simpl in R; try congruence. destruct R as [w R]; congruence.
  - rewrite (simplifies_det _ _ _ H _ H') in R. exact R.
Qed.

(** Without throwOnInvalidValue there is no termination. *)
Lemma contract_lenient {K : num_ops} (e : expr K) : ~ contract false e SInvalid.
Proof.
  intros H. inversion H as [u v E1 E2| |b v w E1 E2| | |]; subst.
  destruct (bin_sem b v w); discriminate.
Qed.
Theorem C19_simplify_lenient (K : num_ops) (cfg : config K) (e : expr K) :
  throwOnInvalidValue cfg = false -> Simplify cfg (embed e) <> Terminate.
Proof.
  intros Hc H. apply C19_simplify_terminates_iff in H. rewrite Hc in H. clear Hc.
  remember SInvalid as r. induction H; try discriminate; subst; auto; eapply contract_lenient; eauto.
Qed.

(** Over exact reals: an expression with a value under some assignment is simplified
    without terminating. *)
(** ** C18 *)

Section C18.
Context {K : num_ops}.

Lemma contract_normal s (e : expr K) e' :
  match e with EUn _ a => normal a | EBin _ a c => normal a /\ normal c | _ => True end ->
  contract s e (SDone e') -> normal e'.
Proof.
  intros Hn H. inversion H as [u v E1 E2|u a E1 E2|b v w E1 E2|b a c E0 E1 E2 E3|b a c d E0 E1 E2 E3|b a c E0 E1 E2 E3]; subst.
  - unfold finish in E2. destruct (s && _)%bool; simpl in E2; inversion E2; subst; exact I.
  - split; auto.
  - unfold finish in E2. destruct (bin_sem b v w); [destruct (s && _)%bool|]; simpl in E2; inversion E2; subst; exact I.
  - exact I.
  - destruct Hn. destruct E2; auto.
  - destruct Hn. repeat split; auto.
Qed.

Lemma simplifies_normal s (e : expr K) r : simplifies s e r -> forall e', r = SDone e' -> normal e'.
Proof.
  induction 1; intros e' E; subst; try (injection E as <-; exact I); try (exfalso; eapply H0; reflexivity);
    try (exfalso; eapply H1; reflexivity).
  - eapply contract_normal; [|exact H0]. simpl. auto.
  - eapply contract_normal; [|exact H1]. simpl. auto.
Qed.

Lemma normal_fixed s (e : expr K) : normal e -> simplifies s e (SDone e).
Proof.
  induction e as [v|x|u a IH|b a IHa c IHc]; simpl; intros Hn.
  - constructor. - constructor.
  - destruct Hn as [Hn1 Hn2]. eapply sp_un; [auto|]. now apply ct_un_keep.
  - destruct Hn as (H1 & H2 & H3 & H4 & H5). eapply sp_bin; [auto|auto|]. now apply ct_keep.
Qed.

Lemma contract_smaller s (e : expr K) e' : contract s e (SDone e') ->
  (esize e' <= esize e)%nat /\ (forall x, occurs x e' -> occurs x e).
Proof.
  intros H. inversion H as [u v E1 E2|u a E1 E2|b v w E1 E2|b a c E0 E1 E2 E3|b a c d E0 E1 E2 E3|b a c E0 E1 E2 E3]; subst.
  - unfold finish in E2. destruct (s && _)%bool; simpl in E2; inversion E2; subst. simpl. split; [lia|]. intros x Hx; inversion Hx.
  - split; auto.
  - unfold finish in E2. destruct (bin_sem b v w); [destruct (s && _)%bool|]; simpl in E2; inversion E2; subst.
    simpl. split; [lia|]. intros x Hx; inversion Hx.
  - simpl. split; [lia|]. intros x Hx; inversion Hx.
  - destruct E2; simpl; (split; [lia|]); intros x Hx; solve [now apply occ_l|now apply occ_r].
  - split; auto.
Qed.

Lemma simplifies_smaller s (e : expr K) r : simplifies s e r -> forall e', r = SDone e' ->
  (esize e' <= esize e)%nat /\ (forall x, occurs x e' -> occurs x e).
Proof.
  induction 1; intros e' E; subst; try (injection E as <-; auto; fail); try (exfalso; eapply H0; reflexivity);
    try (exfalso; eapply H1; reflexivity).
  - apply contract_smaller in H0 as [L V]. destruct (IHsimplifies _ eq_refl) as [L' V']. simpl in *. split; [lia|].
    intros x Hx. apply V in Hx. inversion Hx; subst. apply occ_un; auto.
  - apply contract_smaller in H1 as [L V]. destruct (IHsimplifies1 _ eq_refl) as [L1 V1].
    destruct (IHsimplifies2 _ eq_refl) as [L2 V2]. simpl in *. split; [lia|].
    intros x Hx. apply V in Hx. inversion Hx; subst; [apply occ_l; auto|apply occ_r; auto].
Qed.

(** The result is a normal form, not larger, without new variables, and a fixed point. *)
Theorem C18_simplify_normal (cfg : config K) (e : expr K) n : Simplify cfg (embed e) = Ok n ->
  exists e', n = embed e' /\ normal e' /\ (esize e' <= esize e)%nat /\
    (forall x, occurs x e' -> occurs x e) /\ forall cfg', Simplify cfg' n = Ok n.
Proof.
  intros H. destruct (C19_simplify_refines K cfg e) as (r & Hs & R).
  destruct r as [e'| |]; simpl in R; [|congruence|destruct R; congruence].
  rewrite H in R. injection R as ->. exists e'.
  pose proof (simplifies_normal _ _ _ Hs _ eq_refl) as Hn.
  destruct (simplifies_smaller _ _ _ Hs _ eq_refl) as [L V].
  repeat split; auto. intros cfg'.
  destruct (C19_simplify_refines K cfg' e') as (r & Hs' & R').
  rewrite <- (simplifies_det _ _ _ (normal_fixed (throwOnInvalidValue cfg') e' Hn) _ Hs') in R'. exact R'.
Qed.

End C18.

(** ** C17: values over the reals *)
Local Open Scope R_scope.

(** No sub-expression a^c with a non-literal exponent is 0^0 under the assignment. *)
Fixpoint no_0_pow_0 (env : string -> R) (e : expr Rops) : Prop :=
  match e with
  | ENum _ | EVar _ => True
  | EUn _ a => no_0_pow_0 env a
  | EBin b a c =>
      no_0_pow_0 env a /\ no_0_pow_0 env c /\
      match b with BPow => is_num c \/ ~ (rval env a = Some 0 /\ rval env c = Some 0) | _ => True end
  end.

Lemma is_lit_R z (e : expr Rops) env : is_lit z e -> rval env e = Some (IZR z).
Proof.
  destruct e as [[v|]| | |]; simpl; try tauto; try discriminate.
  intros H. apply Reqb_spec in H. now subst.
Qed.

Lemma Rpow_1 x : Rpow x 1 = Some x.
Proof.
  unfold Rpow. destruct (Rlt_dec 0 x); [now rewrite Rpower_1|].
  destruct (Req_EM_T x 0).
  - destruct (Rlt_dec 0 1); [now subst|lra].
  - assert (Int_part 1 = 1%Z) as ->.
    { symmetry. assert (E : (up 1 = 2)%Z) by (symmetry; apply tech_up; simpl; lra). unfold Int_part. rewrite E. reflexivity. }
    destruct (Req_EM_T (IZR 1) 1); [|simpl in *; lra]. simpl. f_equal. ring.
Qed.

Lemma finish_R s (o : option R) r : o = Some r -> finish (K:=Rops) s (Some o) = Value (Some r).
Proof. intros ->. unfold finish. rewrite invalidb_R. destruct s; reflexivity. Qed.

Lemma bin_sem_R b x y r : r_bin b x y = Some r -> bin_sem (K:=Rops) b (Some x) (Some y) = Some (Some r).
Proof.
  intros H. destruct b; simpl in *; try congruence.
  - destruct (Rtoint x); [|discriminate]. destruct (Rtoint y); congruence.
  - destruct (Rtoint x); [|discriminate]. destruct (Rtoint y); congruence.
  - destruct (Rtoint x); [|discriminate]. destruct (Rtoint y); [|discriminate]. destruct (_ || _)%bool; congruence.
Qed.

Lemma contract_value s (e : expr Rops) r env v :
  contract s e r -> rval env e = Some v ->
  match e with EBin BPow a c => is_num c \/ ~ (rval env a = Some 0 /\ rval env c = Some 0) | _ => True end ->
  exists e', r = SDone e' /\ rval env e' = Some v.
Proof.
  intros H Hv Hz.
  inversion H as [u w E1 E2|u a E1 E2|b w w' E1 E2|b a c E0 E1 E2 E3|b a c d E0 E1 E2 E3|b a c E0 E1 E2 E3]; subst; simpl in Hv.
  - destruct w as [w|]; [|discriminate]. rewrite un_sem_R. rewrite (finish_R s _ v) by auto. simpl. eauto.
  - eauto.
  - destruct w as [w|]; [|discriminate]. destruct w' as [w'|]; [|discriminate].
    rewrite (bin_sem_R _ _ _ _ Hv). rewrite (finish_R s _ v) by auto. simpl. eauto.
  - eexists. split; [reflexivity|]. simpl.
    destruct (rval env a) as [x|] eqn:Ea; [|discriminate]. destruct (rval env c) as [y|] eqn:Ec; [|discriminate].
    destruct E1; simpl in Hv.
    + rewrite (is_lit_R 0 a env) in Ea by auto. injection Ea as <-. injection Hv as <-. f_equal. ring.
    + rewrite (is_lit_R 0 c env) in Ec by auto. injection Ec as <-. injection Hv as <-. f_equal. ring.
    + rewrite (is_lit_R 0 a env) in Ea by auto. injection Ea as <-. destruct (Req_EM_T y 0); [discriminate|].
      injection Hv as <-. f_equal. field. auto.
    + rewrite (is_lit_R 0 a env) in Ea by auto. injection Ea as <-.
      unfold Rpow in Hv. destruct (Rlt_dec 0 0); [lra|]. destruct (Req_EM_T 0 0); [|lra].
      destruct (Rlt_dec 0 y); [injection Hv as <-; auto|]. destruct (Req_EM_T y 0); [|discriminate].
      exfalso. destruct Hz as [Hz|Hz]; [apply E0; split; [eapply lit_num; eassumption|exact Hz]|]. apply Hz. subst. auto.
  - eexists. split; [reflexivity|].
    destruct (rval env a) as [x|] eqn:Ea; [|discriminate]. destruct (rval env c) as [y|] eqn:Ec; [|discriminate].
    destruct E2; simpl in Hv.
    + rewrite (is_lit_R 0 a env) in Ea by auto. injection Ea as <-. rewrite Ec, <- Hv. f_equal. ring.
    + rewrite (is_lit_R 0 c env) in Ec by auto. injection Ec as <-. rewrite Ea, <- Hv. f_equal. ring.
    + rewrite (is_lit_R 0 c env) in Ec by auto. injection Ec as <-. rewrite Ea, <- Hv. f_equal. ring.
    + rewrite (is_lit_R 1 a env) in Ea by auto. injection Ea as <-. rewrite Ec, <- Hv. f_equal. ring.
    + rewrite (is_lit_R 1 c env) in Ec by auto. injection Ec as <-. rewrite Ea, <- Hv. f_equal. ring.
    + rewrite (is_lit_R 1 c env) in Ec by auto. injection Ec as <-. rewrite Ea, <- Hv.
      destruct (Req_EM_T 1 0); [lra|]. f_equal. field.
    + rewrite (is_lit_R 1 c env) in Ec by auto. injection Ec as <-. rewrite Rpow_1 in Hv. congruence.
  - eauto.
Qed.

Lemma simplifies_value s (e : expr Rops) r : simplifies s e r -> forall env v,
  rval env e = Some v -> no_0_pow_0 env e -> exists e', r = SDone e' /\ rval env e' = Some v.
Proof.
  induction 1; intros env v' Hv Hz; simpl in Hv, Hz; eauto.
  - destruct (rval env a) as [x|] eqn:Ea; [|discriminate].
    destruct (IHsimplifies _ _ Ea Hz) as (a0 & [= <-] & Ea'). 
    eapply contract_value; [exact H0|simpl; rewrite Ea'; exact Hv|exact I].
  - destruct (rval env a) as [x|] eqn:Ea; [|discriminate].
    destruct (IHsimplifies _ _ Ea Hz) as (a0 & -> & Ea'). exfalso. eapply H0; reflexivity.
  - destruct Hz as (Hz1 & Hz2 & Hz3).
    destruct (rval env a) as [x|] eqn:Ea; [|discriminate]. destruct (rval env c) as [y|] eqn:Ec; [|discriminate].
    destruct (IHsimplifies1 _ _ Ea Hz1) as (a0 & [= <-] & Ea'). destruct (IHsimplifies2 _ _ Ec Hz2) as (c0 & [= <-] & Ec').
    eapply contract_value; [exact H1|simpl; rewrite Ea', Ec'; exact Hv|].
    destruct b; auto. rewrite Ea', Ec'. destruct Hz3 as [Hz3|Hz3]; auto. left.
    destruct c; try (destruct Hz3; fail). inversion H0; subst. exact I.
  - destruct Hz as (Hz1 & Hz2 & Hz3).
    destruct (rval env a) as [x|] eqn:Ea; [|discriminate].
    destruct (IHsimplifies _ _ Ea Hz1) as (a0 & -> & Ea'). exfalso. eapply H0; reflexivity.
  - destruct Hz as (Hz1 & Hz2 & Hz3).
    destruct (rval env a) as [x|] eqn:Ea; [|discriminate]. destruct (rval env c) as [y|] eqn:Ec; [|discriminate].
    destruct (IHsimplifies2 _ _ Ec Hz2) as (c0 & -> & Ec'). exfalso. eapply H1; reflexivity.
Qed.

(** An expression with a value (and no 0^0) is simplified to one with the same value; in
    particular Simplify returns. *)
Theorem C17_simplify_value (cfg : config Rops) (e : expr Rops) env v :
  rval env e = Some v -> no_0_pow_0 env e ->
  exists e', Simplify cfg (embed e) = Ok (embed e') /\ rval env e' = Some v.
Proof.
  intros Hv Hz. destruct (C19_simplify_refines Rops cfg e) as (r & Hs & R).
  destruct (simplifies_value _ _ _ Hs env v Hv Hz) as (e' & -> & Hv'). exists e'. auto.
Qed.

(** The condition is needed: 0^x has the value 1 at x = 0, its simplification the value 0. *)
Theorem C17_zero_power_wrong (cfg : config Rops) :
  let e : expr Rops := EBin BPow (ENum (Some 0)) (EVar "x") in
  rval (fun _ => 0) e = Some 1 /\
  exists e', Simplify cfg (embed e) = Ok (embed e') /\ rval (fun _ => 0) e' = Some 0.
Proof.
  split.
  - simpl. unfold Rpow. destruct (Rlt_dec 0 0); [lra|]. destruct (Req_EM_T 0 0); [|lra]. reflexivity.
  - exists (ENum (Some 0)). split; [|reflexivity].
    unfold Simplify, SimplifyWholeNode, SimplifySingleNode. simpl.
    unfold Reqb. destruct (Req_EM_T 0 0); [|lra]. reflexivity.
Qed.

(** Simplification may also extend the domain: 0*log(x) and 0/x become 0. *)
Theorem C17_domain_extended (cfg : config Rops) :
  let e : expr Rops := EBin BMul (ENum (Some 0)) (EUn ULog (EVar "x")) in
  rval (fun _ => -1) e = None /\
  exists e', Simplify cfg (embed e) = Ok (embed e') /\ rval (fun _ => -1) e' = Some 0.
Proof.
  split.
  - simpl. destruct (Rlt_dec 0 (-1)); [lra|]. reflexivity.
  - exists (ENum (Some 0)). split; [|reflexivity].
    unfold Simplify, SimplifyWholeNode, SimplifySingleNode. simpl.
    unfold Reqb. destruct (Req_EM_T 0 0); [|lra]. reflexivity.
Qed.

(** A non-trivial instance: ((x+0)*(2*3)) ^ 1. *)
Example C17_ex : let env := fun _ : string => 7 in
  let e : expr Rops := EBin BPow (EBin BMul (EBin BAdd (EVar "x") (ENum (Some 0))) (EBin BMul (ENum (Some 2)) (ENum (Some 3)))) (ENum (Some 1)) in
  rval env e = Some 42 /\ no_0_pow_0 env e.
Proof.
  split; [|simpl; repeat split; auto].
  simpl. rewrite Rpow_1. f_equal. lra.
Qed.

(** Over exact reals Simplify does terminate the process on log(0). *)
Example C19_ex (cfg : config Rops) : throwOnInvalidValue cfg = true ->
  Simplify cfg (embed (EBin BAdd (EVar "x") (EUn ULog (ENum (Some 0))))) = Terminate.
Proof.
  intros H. apply C19_simplify_terminates_iff. rewrite H.
  eapply sp_bin_err_r; [constructor| |discriminate].
  eapply sp_un; [constructor|].
  assert (E : of_outcome (finish true (Some (un_sem ULog (Some 0 : Rops)))) = SInvalid).
  { rewrite un_sem_R. simpl. destruct (Rlt_dec 0 0); [lra|]. reflexivity. }
  rewrite <- E. apply ct_un_fold.
Qed.

(** A normal form that is not trivial. *)
Example C18_ex : exists n, Simplify (default_config D)
    (embed (EBin BMul (EBin BAdd (EVar "x") (ENum (b_ofZ 0 : D))) (EUn UNeg (EVar "y")))) = Ok n /\
  n = embed (EBin BMul (EVar "x") (EUn UNeg (EVar "y"))).
Proof. eexists. split; [|reflexivity]. cbv -[D]. reflexivity. Qed.
