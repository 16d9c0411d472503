(** C88: equations written the other way round; an example. *)
From Coq Require Import Sorting.Sorted String List ZArith Bool Arith Lia Permutation Reals Lra.
From Flocq Require Import IEEE754.BinarySingleNaN Core.
From Verif Require Import Base MathOp NodeModel DiffModel MatModel LinearModel VarsTableModel SymMatModel NonlinearModel
  ExprSpec SubsSpec MatSpec VarsSpec SymMatSpec NonlinearSpec NodeProofs SymMatProofs Thm_Node Thm_Vars Thm_SymMat Thm_Nonlinear NonlinearProofs IEEE
  SimplifyModel SimplifySpec DiffProofs ClearSpec SignSpec SignProofs NewtonRound FloatFacts RoundProofs Thm_Simplify Thm_Diff MatProofs Thm_Order Thm_OrderEx Thm_Sign.
Import ListNotations.
Local Open Scope string_scope.
Local Open Scope list_scope.
Local Open Scope nat_scope.

Section Swapped.
Context (L : libm) (cfg : config (B64 L)).
Notation K := (B64 L).

(** The same equation e = 0 as [a - b] and [b - a], or as e and -e (e not just a number). *)
Inductive reversed : expr K -> expr K -> Prop :=
| rev_sub a b : reversed (EBin BSub a b) (EBin BSub b a)
| rev_neg e : (forall v, e <> ENum v) -> reversed e (EUn UNeg e)
| rev_unneg e : reversed (EUn UNeg e) e.

(** The coordinates are finite, unless inf and nan are no errors. *)
Definition finite_point (xs : list string) (p : nat -> K) : Prop :=
  throwOnInvalidValue cfg = true -> forall j, j < length xs -> is_finite (p j : b64) = true.

Lemma invalid_twin s (a b : K) : twin s (a : b64) (b : b64) -> invalidb b = invalidb a.
Proof using.
  intros T. transitivity (negb (is_finite (b : b64))); [exact (invalid_fin L b)|].
  transitivity (negb (is_finite (a : b64))); [|symmetry; exact (invalid_fin L a)]. f_equal. rewrite <- (is_finite_Babs 53 1024 (b : b64)), <- (is_finite_Babs 53 1024 (a : b64)).
  now rewrite (SignProofs.twin_abs s (a : b64) (b : b64) T).
Qed.

Lemma finish_twin strict (r v x : K) : twin true (v : b64) (r : b64) -> ExprSpec.finish strict (Some v) = ExprSpec.Value x ->
  exists x', ExprSpec.finish strict (Some r) = ExprSpec.Value x' /\ twin true (x : b64) (x' : b64).
Proof using.
  intros T E. unfold ExprSpec.finish in *. rewrite (invalid_twin true v r T).
  destruct (strict && invalidb v); [discriminate|]. injection E as <-. exists r. split; [reflexivity|exact T].
Qed.
Lemma finish_valid strict (x : K) (r : option K) : ExprSpec.finish strict r = ExprSpec.Value x -> strict && invalidb x = false.
Proof using.
  destruct r as [v|]; [|discriminate]. unfold ExprSpec.finish. destruct (strict && invalidb v) eqn:E; [discriminate|]. intros Q. injection Q as <-. exact E.
Qed.
(** A value is finite if the variables are, except for a bare number. *)
Lemma value_valid strict (env : string -> K) (e : expr K) x : (forall v, e <> ENum v) -> (forall y, occurs y e -> strict && invalidb (env y) = false) ->
  eval_in strict env e = ExprSpec.Value x -> strict && invalidb x = false.
Proof using.
  intros N F E. destruct e as [v|y|u a|o a b]; cbn [eval_in] in E.
  - now destruct (N v). - injection E as <-. apply F, occ_var.
  - destruct (eval_in strict env a) as [va| | |]; try discriminate. eapply finish_valid; exact E.
  - destruct (eval_in strict env a) as [va| | |]; try discriminate.
    destruct (eval_in strict env b) as [vb| | |]; try discriminate. eapply finish_valid; exact E.
Qed.
Lemma sub_twin (a b : K) : twin true (n_sub a b : b64) (n_sub b a : b64).
Proof using.
  change (twin true (Bminus mode_NE (a : b64) (b : b64)) (Bminus mode_NE (b : b64) (a : b64))).
  rewrite !IdenticalProofs.minus_plus_opp. rewrite (mult_plus_comm (b : b64)).
  pose proof (plus_opp (a : b64) (Bopp (b : b64))) as P. rewrite IdenticalProofs.opp_opp in P. destruct P as [P|[P1 P2]]; [left; exact P|right; auto].
Qed.
Lemma twin_sym s (a b : b64) : twin s a b -> twin s b a.
Proof using. intros [->|[Ha Hb]]; [left; destruct s; [symmetry; apply IdenticalProofs.opp_opp|reflexivity]|now right]. Qed.
Lemma zero_sub (z x : K) : is_zero (z : b64) -> twin true (x : b64) (n_sub z x : b64).
Proof using.
  change (is_zero (z : b64) -> twin true (x : b64) (Bminus mode_NE (z : b64) (x : b64))). generalize (z : b64) (x : b64). clear.
  intros z x Hz. destruct z as [sz|sz| |sz mz ez Hz']; try contradiction. destruct x as [s|s| |s m e H]; [right|left..]; try reflexivity.
  split; [exact Logic.I|]. destruct sz, s; exact Logic.I.
Qed.

(** Expressions with opposite values: the forms that derivatives of reversed equations have. *)
Inductive opp_form : expr K -> expr K -> Prop :=
| of_num v w : twin true (v : b64) (w : b64) -> opp_form (ENum v) (ENum w)
| of_sub a b : opp_form (EBin BSub a b) (EBin BSub b a)
| of_zero_sub (z : K) e : is_zero (z : b64) -> (forall v, e <> ENum v) -> opp_form e (EBin BSub (ENum z) e)
| of_sub_zero (z : K) e : is_zero (z : b64) -> opp_form (EBin BSub (ENum z) e) e
| of_neg e : (forall v, e <> ENum v) -> opp_form e (EUn UNeg e)
| of_unneg e : opp_form (EUn UNeg e) e.
Lemma reversed_form e e' : reversed e e' -> opp_form e e'.
Proof using. intros []; [apply of_sub|now apply of_neg|apply of_unneg]. Qed.

Lemma form_eval strict (env : string -> K) e e' : opp_form e e' -> (forall y, occurs y e -> strict && invalidb (env y) = false) ->
  forall x, eval_in strict env e = ExprSpec.Value x -> exists x', eval_in strict env e' = ExprSpec.Value x' /\ twin true (x : b64) (x' : b64).
Proof using.
  intros H F x E. destruct H as [v w T|a b|z e Hz N|z e Hz|e N|e].
  - cbn in E. injection E as <-. exists w. split; [reflexivity|exact T].
  - cbn [eval_in] in *. destruct (eval_in strict env a) as [va| | |]; try discriminate. destruct (eval_in strict env b) as [vb| | |]; try discriminate.
    cbn [bin_sem] in *. apply (finish_twin strict (n_sub vb va) (n_sub va vb) x); [|exact E]. apply sub_twin.
  - pose proof (value_valid strict env e x N F E) as V. cbn [eval_in bin_sem]. rewrite E.
    apply (finish_twin strict (n_sub z x) x x); [now apply zero_sub|]. unfold ExprSpec.finish. now rewrite V.
  - cbn [eval_in bin_sem] in E. destruct (eval_in strict env e) as [v| | |]; try discriminate. exists v. split; [reflexivity|].
    unfold ExprSpec.finish in E. destruct (strict && invalidb (n_sub z v)); [discriminate|]. injection E as <-. apply twin_sym. now apply zero_sub.
  - pose proof (value_valid strict env e x N F E) as V. cbn [eval_in un_sem]. rewrite E.
    apply (finish_twin strict (n_neg x) x x); [now left|]. unfold ExprSpec.finish. now rewrite V.
  - cbn [eval_in un_sem] in E. destruct (eval_in strict env e) as [v| | |]; try discriminate. exists v. split; [reflexivity|].
    unfold ExprSpec.finish in E. destruct (strict && invalidb (n_neg v)); [discriminate|]. injection E as <-. apply twin_sym. now left.
Qed.
Lemma form_vars xs e e' : opp_form e e' -> vars_within xs e -> vars_within xs e'.
Proof using.
  intros R W x O. destruct R; try (apply W).
  - inversion O. - inversion O; subst; [now apply occ_r|now apply occ_l].
  - inversion O as [| |? ? ? Q|? ? ? Q]; subst; [inversion Q|assumption].
  - now apply occ_r. - inversion O; subst; assumption. - now apply occ_un.
Qed.

(** The values of finitely many expressions of opposite form. *)
Lemma forms_values m xs (e e' : nat -> expr K) (s : nat -> bool) p v : NoDup xs -> finite_point xs p ->
  (forall i, i < m -> vars_within xs (e i) /\ forall env, at_point xs env p -> eval_in (throwOnInvalidValue cfg) env (e i) = ExprSpec.Value (v i)) ->
  (forall i, i < m -> if s i then opp_form (e i) (e' i) else e' i = e i) ->
  exists v', values_at cfg xs p m e' v' /\ forall i, i < m -> twin (s i) (v i : b64) (v' i : b64).
Proof using.
  intros Nd Fin V H. destruct (point_exists xs p Nd) as [env0 He0].
  assert (Fv : forall env, at_point xs env p -> forall i, i < m -> forall y, occurs y (e i) -> throwOnInvalidValue cfg && invalidb (env y) = false).
  { intros env He i Hi y O. destruct (throwOnInvalidValue cfg) eqn:St; [|reflexivity]. cbn [andb].
    destruct (In_nth_error xs y (proj1 (V i Hi) y O)) as [j Hj]. rewrite (He j y Hj).
    transitivity (negb (is_finite (p j : b64))); [exact (invalid_fin L (p j))|]. rewrite (Fin St j); [reflexivity|]. apply nth_error_Some. congruence. }
  set (v' := fun i => match eval_in (throwOnInvalidValue cfg) env0 (e' i) with ExprSpec.Value x => x | _ => n_ofZ 0 : K end).
  assert (W' : forall i, i < m -> vars_within xs (e' i)).
  { intros i Hi. destruct (V i Hi) as [W _]. specialize (H i Hi). destruct (s i); [eapply form_vars; eauto|rewrite H; exact W]. }
  assert (E0 : forall i, i < m -> eval_in (throwOnInvalidValue cfg) env0 (e' i) = ExprSpec.Value (v' i) /\ twin (s i) (v i : b64) (v' i : b64)).
  { intros i Hi. destruct (V i Hi) as [_ E]. specialize (H i Hi). unfold v'. destruct (s i).
    - destruct (form_eval _ env0 _ _ H (Fv env0 He0 i Hi) _ (E env0 He0)) as (x' & -> & T). split; [reflexivity|exact T].
    - rewrite H, (E env0 He0). split; [reflexivity|now left]. }
  exists v'. split; [|intros i Hi; apply E0; exact Hi].
  intros i Hi. split; [now apply W'|]. intros env He. rewrite <- (proj1 (E0 i Hi)). apply eval_in_same. intros x O.
  destruct (In_nth_error xs x (W' i Hi x O)) as [j Hj]. rewrite (He j x Hj), (He0 j x Hj). reflexivity.
Qed.

(** Rearranging a system and writing some of its equations the other way round. *)
Theorem C88_reversed n xs (f f' : nat -> expr K) pi sg : rearrangement n pi -> NoDup xs ->
  (forall i, i < n -> if sg i : bool then reversed (f (pi i)) (f' i) else f' i = f (pi i)) -> signed_values L cfg n xs f f' pi sg (finite_point xs).
Proof using.
  intros Hpi Nd H p phi Fin V. apply (forms_values n xs (fun i => f (pi i)) f' sg p (fun i => phi (pi i)) Nd Fin).
  - intros i Hi. exact (V (pi i) (pi_lt n pi Hpi i Hi)).
  - intros i Hi. specialize (H i Hi). destruct (sg i); [now apply reversed_form|exact H].
Qed.

(** ** Their derivatives *)
Lemma lit_zero (v : K) : n_eqb v (n_ofZ 0) = true -> is_zero (v : b64).
Proof using.
  change (Beqb (v : b64) (B754_zero false) = true -> is_zero (v : b64)). generalize (v : b64). clear. intros v.
  destruct v as [s|[|]| |[|] m e H]; try discriminate; intros; exact Logic.I.
Qed.
Lemma contract_sub s a b r : contract s (EBin BSub a b) (SDone r) -> exists r', contract s (EBin BSub b a) (SDone r') /\ opp_form r r'.
Proof using.
  intros C. inversion C as [| |o v w E1 E2|o x y N A E1 E2|o x y d N A Ne E1 E2|o x y N A Ne E1 E2]; subst.
  - match goal with Q : of_outcome _ = _ |- _ => rename Q into Q2 end. change (of_outcome (if s && invalidb (n_sub v w) then ExprSpec.InvalidNumber else ExprSpec.Value (n_sub v w)) = SDone r) in Q2. destruct (s && invalidb (n_sub v w)) eqn:V; cbn in Q2; [discriminate|]. injection Q2 as <-.
    exists (ENum (n_sub w v)). split; [|apply of_num; apply sub_twin].
    replace (SDone (ENum (n_sub w v))) with (of_outcome (ExprSpec.finish s (bin_sem BSub w v))); [exact (@ct_bin_fold K s BSub w v)|].
    unfold ExprSpec.finish, bin_sem. rewrite (invalid_twin true (n_sub v w) (n_sub w v) (sub_twin v w)), V. reflexivity.
  - inversion A.
  - inversion Ne as [| |x y Z| | | |]; subst. destruct b as [z| | |]; try contradiction. exists (EBin BSub (ENum z) r).
    assert (Na : forall v, r <> ENum v) by (intros v ->; apply N; split; exact Logic.I). split.
    + apply ct_keep; [tauto|intros Q; inversion Q|]. intros d Q. inversion Q as [| |? ? Zr| | | |]; subst. destruct r as [v| | |]; try contradiction. now apply (Na v).
    + apply of_zero_sub; [now apply lit_zero|exact Na].
  - destruct a as [z|y|u a|o a1 a2].
    + destruct (n_eqb z (n_ofZ 0)) eqn:Ez.
      * exists b. split; [|apply of_sub_zero; now apply lit_zero]. apply ct_neutral; [tauto|intros Q; inversion Q|]. apply ne_sub. exact Ez.
      * exists (EBin BSub b (ENum z)). split; [|apply of_sub]. apply ct_keep; [tauto|intros Q; inversion Q|].
        intros d Q. inversion Q as [| |? ? Zr| | | |]; subst. assert (Zr2 : n_eqb z (n_ofZ 0) = true) by exact Zr. rewrite Ez in Zr2. discriminate.
    + exists (EBin BSub b (EVar y)). split; [|apply of_sub]. apply ct_keep; [tauto|intros Q; inversion Q|]. intros d Q. inversion Q as [| |? ? Zr| | | |]; subst. exact Zr.
    + exists (EBin BSub b (EUn u a)). split; [|apply of_sub]. apply ct_keep; [tauto|intros Q; inversion Q|]. intros d Q. inversion Q as [| |? ? Zr| | | |]; subst. exact Zr.
    + exists (EBin BSub b (EBin o a1 a2)). split; [|apply of_sub]. apply ct_keep; [tauto|intros Q; inversion Q|]. intros d Q. inversion Q as [| |? ? Zr| | | |]; subst. exact Zr.
Qed.
Lemma simplifies_sub s a b r : simplifies s (EBin BSub a b) (SDone r) -> exists r', simplifies s (EBin BSub b a) (SDone r') /\ opp_form r r'.
Proof using.
  intros H. inversion H as [| | | |o x y a' c' q Ha Hb C| |]; subst; try (exfalso; match goal with F : forall a', SDone ?r <> SDone a' |- _ => now apply (F r) end).
  destruct (contract_sub s a' c' r C) as (r' & C' & O). exists r'. split; [|exact O]. eapply sp_bin; eauto.
Qed.
Lemma ofZ_valid strict z : is_finite (b_ofZ z) = true -> strict && invalidb (n_ofZ z : K) = false.
Proof using. intros H. rewrite <- (andb_false_r strict). f_equal. transitivity (negb (is_finite (b_ofZ z))); [exact (invalid_fin L (b_ofZ z))|]. now rewrite H. Qed.
Lemma valid_0 strict : strict && invalidb (n_ofZ 0 : K) = false. Proof using. apply ofZ_valid. reflexivity. Qed.
Lemma valid_1 strict : strict && invalidb (n_ofZ 1 : K) = false. Proof using. apply ofZ_valid. reflexivity. Qed.
Lemma neutral_num b (a c : expr K) v : ~ (is_num a /\ is_num c) -> neutral b a c (ENum v) -> False.
Proof using.
  intros N Ne. apply N. remember (ENum v) as d eqn:Ed. destruct Ne as [a c H|a c H|a c H|a c H|a c H|a c H|a c H]; subst;
  match goal with H : is_lit _ ?e |- _ => destruct e; try contradiction end; split; exact Logic.I.
Qed.
(** A number that simplification produces is valid. *)
Lemma simplifies_num s (e : expr K) v : simplifies s e (SDone (ENum v)) -> e = ENum v \/ s && invalidb v = false.
Proof using.
  assert (F : forall (r : option K), of_outcome (ExprSpec.finish s r) = SDone (ENum v) -> s && invalidb v = false).
  { intros [w|]; unfold ExprSpec.finish; [|discriminate]. destruct (s && invalidb w) eqn:E; [discriminate|]. intros Q. injection Q as <-. exact E. }
  assert (C : forall e r, contract s e r -> r = SDone (ENum v) -> s && invalidb v = false).
  { intros e0 r H. destruct H as [u w|u a N|b w1 w2|b a c N A|b a c d N A Ne|b a c N A Ne]; intros Q.
    - eapply F; exact Q. - discriminate. - eapply F; exact Q. - injection Q as Q. rewrite <- Q. apply valid_0.
    - injection Q as ->. exfalso. eapply neutral_num; eauto. - discriminate. }
  intros H. remember (SDone (ENum v)) as r eqn:Er. destruct H as [w|y|u a a' r Ha Hc|u a r Ha N|b a c a' c' r Ha Hb Hc|b a c r Ha N|b a c a' r Ha Hb N].
  - injection Er as ->. now left. - discriminate. - right. eapply C; eauto. - now destruct (N (ENum v)).
  - right. eapply C; eauto. - now destruct (N (ENum v)). - now destruct (N (ENum v)).
Qed.
Lemma dexpr_num s x (e : expr K) v : no_int_ops e -> dexpr x e = ENum v -> s && invalidb v = false.
Proof using.
  intros Ni E. destruct e as [w|y|u a|b a c]; cbn [dexpr] in E.
  - injection E as <-. apply valid_0. - destruct (y =? x)%string; injection E as <-; [apply valid_1|apply valid_0].
  - destruct (DiffProofs.numb a && negb (is_sign u)); [injection E as <-; apply valid_0|]. destruct u; cbn [d_un] in E; try discriminate. destruct (varb a); discriminate.
  - destruct b; cbn in Ni; try (exfalso; tauto); try discriminate.
    + destruct (DiffProofs.numb a && DiffProofs.numb c); [injection E as <-; apply valid_0|discriminate].
    + destruct (DiffProofs.numb a && DiffProofs.numb c); [injection E as <-; apply valid_0|discriminate].
    + destruct (DiffProofs.numb a); [discriminate|]. destruct (DiffProofs.numb c); discriminate.
    + destruct (DiffProofs.numb c); discriminate.
    + destruct a, c; try discriminate. injection E as <-. apply valid_0.
Qed.
Lemma simplifies_neg s x (e : expr K) d : no_int_ops e -> simplifies s (dexpr x e) (SDone d) -> exists d', simplifies s (EUn UNeg (dexpr x e)) (SDone d') /\ opp_form d d'.
Proof using.
  intros Ni H. destruct (match d with ENum v => Some v | _ => None end) as [v|] eqn:Ed.
  - destruct d as [w| | |]; try discriminate. injection Ed as ->.
    assert (V : s && invalidb v = false). { destruct (simplifies_num _ _ _ H) as [E|V]; [|exact V]. eapply dexpr_num; eauto. }
    exists (ENum (n_neg v)). split; [|apply of_num; now left]. eapply sp_un; [exact H|].
    replace (SDone (ENum (n_neg v))) with (of_outcome (ExprSpec.finish s (Some (un_sem UNeg v)))); [exact (@ct_un_fold K s UNeg v)|].
    unfold ExprSpec.finish, un_sem. rewrite (invalid_twin true v (n_neg v)) by now left. now rewrite V.
  - assert (N : forall v, d <> ENum v) by (intros v ->; discriminate). exists (EUn UNeg d). split; [|now apply of_neg].
    eapply sp_un; [exact H|]. apply ct_un_keep. destruct d; cbn; auto. now destruct (N v).
Qed.
Lemma simplifies_unneg s (e : expr K) d : simplifies s (EUn UNeg e) (SDone d) -> exists d', simplifies s e (SDone d') /\ opp_form d d'.
Proof using.
  intros H. remember (EUn UNeg e) as e0 eqn:E0. remember (SDone d) as r eqn:Er. destruct H as [w|y|u a a' r Ha Hc|u a r Ha N|b a c a' c' r Ha Hb Hc|b a c r Ha N|b a c a' r Ha Hb N]; try discriminate.
  - injection E0 as -> ->. exists a'. split; [exact Ha|]. remember (EUn UNeg a') as e1 eqn:E1. destruct Hc as [u w|u a N|b w1 w2|b a c N A|b a c d1 N A Ne|b a c N A Ne]; try discriminate.
    + injection E1 as -> <-. unfold ExprSpec.finish in Er. destruct (s && invalidb (un_sem UNeg w)); [discriminate|]. injection Er as <-. apply of_num. apply twin_sym. now left.
    + injection E1 as -> ->. injection Er as <-. apply of_unneg.
  - now destruct (N d).
Qed.

(** The derivatives of reversed equations have opposite forms. *)
Theorem C88_derivatives e e' x d : reversed e e' -> Diff cfg (embed e) x 1 = Ok (embed d) ->
  exists d', Diff cfg (embed e') x 1 = Ok (embed d') /\ opp_form d d'.
Proof using.
  intros H E. destruct (no_int_dec e) as [Hi|Hi].
  2:{ exfalso. destruct (proj2 (C22_diff_throws_iff K cfg e x 1 ltac:(lia)) Hi) as [msg Q]. change (Z.of_nat 1) with 1%Z in Q. rewrite E in Q. discriminate. }
  assert (Hi' : no_int_ops e') by (destruct H; cbn in *; tauto).
  revert E. change 1%Z with (Z.of_nat 1). rewrite !Diff_of_nat, !DiffTimes_ok by assumption. cbn [bind dexpr_n]. intros E.
  assert (G : exists d', simplifies (throwOnInvalidValue cfg) (dexpr x e') (SDone d') /\ opp_form d d').
  { destruct (C19_simplify_refines K cfg (dexpr x e)) as (r & S1 & R1). rewrite E in R1.
    destruct r as [e1| |]; cbn in R1; [|discriminate|destruct R1; discriminate]. injection R1 as R1. apply (@embed_inj K) in R1. subst e1.
    destruct H as [a b|e N|e].
    - cbn [dexpr] in S1 |- *. rewrite (andb_comm (DiffProofs.numb b)). destruct (DiffProofs.numb a && DiffProofs.numb b).
      + inversion S1; subst. exists (lit 0). split; [constructor|]. apply of_num. right. split; exact Logic.I.
      + now apply simplifies_sub.
    - cbn [dexpr]. destruct (DiffProofs.numb e && negb (is_sign UNeg)) eqn:Q; [cbn in Q; rewrite andb_false_r in Q; discriminate|]. cbn [d_un]. now apply simplifies_neg.
    - cbn [dexpr] in S1. destruct (DiffProofs.numb e && negb (is_sign UNeg)) eqn:Q; [cbn in Q; rewrite andb_false_r in Q; discriminate|]. cbn [d_un] in S1. now apply simplifies_unneg. }
  destruct G as (d' & S2 & O). exists d'. split; [|exact O].
  destruct (C19_simplify_refines K cfg (dexpr x e')) as (r & S3 & R3). rewrite <- (simplifies_det _ _ _ S2 _ S3) in R3. exact R3.
Qed.

Lemma fin_choice {T} (dflt : T) m (Q : nat -> T -> Prop) : (forall i, i < m -> exists y, Q i y) -> exists g, forall i, i < m -> Q i (g i).
Proof using.
  induction m as [|m IH]; intros H; [exists (fun _ => dflt); lia|]. destruct IH as [g Hg]; [intros i Hi; apply H; lia|]. destruct (H m ltac:(lia)) as [y Hy].
  exists (fun i => if Nat.eqb i m then y else g i). intros i Hi. destruct (Nat.eqb_spec i m) as [->|N]; [exact Hy|]. apply Hg. lia.
Qed.
Lemma reversed_jacobian n xs (f f' : nat -> expr K) pi sg jac : rearrangement n pi -> NoDup xs ->
  (forall i, i < n -> if sg i : bool then reversed (f (pi i)) (f' i) else f' i = f (pi i)) -> jacobian cfg xs n f jac ->
  exists jac', jacobian cfg xs n f' jac' /\ signed_jacobian L cfg n xs pi sg (finite_point xs) jac jac'.
Proof using.
  intros Hpi Nd H HJ.
  destruct (fin_choice (fun _ => lit 0 : expr K) n (fun i g => forall j x, nth_error xs j = Some x ->
    Diff cfg (embed (f' i)) x 1 = Ok (embed (g j)) /\ if sg i then opp_form (jac (pi i) j) (g j) else g j = jac (pi i) j)) as [jac' HJ'].
  { intros i Hi. destruct (fin_choice (lit 0 : expr K) (length xs) (fun j d => forall x, nth_error xs j = Some x ->
      Diff cfg (embed (f' i)) x 1 = Ok (embed d) /\ if sg i then opp_form (jac (pi i) j) d else d = jac (pi i) j)) as [g Hg].
    - intros j Hj. destruct (nth_error xs j) as [x|] eqn:Ex; [|apply nth_error_None in Ex; lia].
      pose proof (HJ (pi i) j x (pi_lt n pi Hpi i Hi) Ex) as D1. specialize (H i Hi). destruct (sg i).
      + destruct (C88_derivatives _ _ x _ H D1) as (d' & E & O). exists d'. intros x' Q. injection Q as <-. split; [exact E|exact O].
      + rewrite H. exists (jac (pi i) j). intros x' Q. injection Q as <-. split; [exact D1|reflexivity].
    - exists g. intros j x Ex. apply (Hg j); [|exact Ex]. apply nth_error_Some. congruence. }
  exists jac'. split; [intros i j x Hi Ex; now apply (HJ' i Hi j x Ex)|].
  intros p M Fin VM.
  assert (R : forall i, i < n -> exists v', values_at cfg xs p (length xs) (jac' i) v' /\ forall j, j < length xs -> twin (sg i) (M (pi i) j : b64) (v' j : b64)).
  { intros i Hi. apply (forms_values (length xs) xs (jac (pi i)) (jac' i) (fun _ => sg i) p (M (pi i)) Nd Fin).
    - intros j Hj. exact (VM (pi i) (pi_lt n pi Hpi i Hi) j Hj).
    - intros j Hj. destruct (nth_error xs j) as [x|] eqn:Ex; [|apply nth_error_None in Ex; lia]. exact (proj2 (HJ' i Hi j x Ex)). }
  destruct (fin_choice (fun _ => n_ofZ 0 : K) n _ R) as [M' HM]. exists M'. split.
  - intros i Hi. apply HM. exact Hi. - intros i j Hi Hj. now apply HM.
Qed.
Lemma reversed_occurs e e' x : reversed e e' -> occurs x e <-> occurs x e'.
Proof using.
  intros [a b|a N|a]; split; intros O.
  - inversion O; subst; [now apply occ_r|now apply occ_l]. - inversion O; subst; [now apply occ_r|now apply occ_l].
  - now apply occ_un. - now inversion O. - now inversion O. - now apply occ_un.
Qed.

(** Newton-Raphson on a system, and on the system rearranged with some equations written the other way round. *)
Theorem C88_solve n xs (f f' : nat -> expr K) pi sg (A B : symmat K) t vs : n_ltb (n_ofZ 0 : K) (epsilon cfg) = true ->
  0 < n -> length xs = n -> rearrangement n pi -> is_sym n 1 (fun i _ => f i) A -> is_sym n 1 (fun i _ => f' i) B -> VarsSpec.holds t xs vs ->
  (forall i, i < n -> if sg i : bool then reversed (f (pi i)) (f' i) else f' i = f (pi i)) ->
  stays L cfg n xs f (finite_point xs) (fun j => nth j vs (n_ofZ 0)) -> clear_run cfg n f xs (fun j => nth j vs (n_ofZ 0)) ->
  (forall t', SolveByNewtonRaphson cfg A t = Ok t' -> SolveByNewtonRaphson cfg B t = Ok t') /\
  (SolveByNewtonRaphson cfg A t = Throw limit_exceeded -> SolveByNewtonRaphson cfg B t = Throw limit_exceeded).
Proof using.
  intros He Hn En Hpi HA HB Ht HR St C. destruct (table_at_vars _ _ _ (holds_table_at _ _ _ Ht)) as (_ & _ & Ne & Nd).
  apply (C88_newton L cfg n f f' pi sg A B xs (finite_point xs) t vs He Hn En Hpi HA HB Ht); [now apply C88_reversed| |exact St|exact C].
  intros jac HJ. now apply (reversed_jacobian n xs f f').
Qed.
(** Solve without a table: also the table built from the variables is the same. *)
Theorem C88_solve1 n xs (f f' : nat -> expr K) pi sg (A B : symmat K) fuel afuel t' : n_ltb (n_ofZ 0 : K) (epsilon cfg) = true ->
  0 < n -> rearrangement n pi -> nonlinearMethod cfg = NEWTON_RAPHSON -> is_sym n 1 (fun i _ => f i) A -> is_sym n 1 (fun i _ => f' i) B ->
  StronglySorted (fun x y => String.compare x y = Lt) xs -> length xs = n -> (forall x, In x xs <-> exists i, i < n /\ occurs x (f i)) ->
  (forall i, i < n -> if sg i : bool then reversed (f (pi i)) (f' i) else f' i = f (pi i)) ->
  stays L cfg n xs f (finite_point xs) (fun _ => initialValue cfg) -> clear_run cfg n f xs (fun _ => initialValue cfg) ->
  Solve1 cfg fuel afuel A = Ok t' -> Solve1 cfg fuel afuel B = Ok t'.
Proof using.
  intros He Hn Hpi Hm HA HB Ss En Hx HR St C.
  assert (Oc : forall i x, i < n -> occurs x (f (pi i)) <-> occurs x (f' i)).
  { intros i x Hi. specialize (HR i Hi). destruct (sg i); [now apply reversed_occurs|now rewrite HR]. }
  destruct (C34_all_var_names _ _ _ _ HA) as (s & Es & Ss' & Hs). destruct (C34_all_var_names _ _ _ _ HB) as (s2 & Es2 & Ss2 & Hs2).
  assert (E1 : s = xs).
  { apply sorted_unique; auto. intros x. rewrite Hs, Hx. split; [intros (i & j & Hi & _ & O); eauto|intros (i & Hi & O); exists i, 0; auto]. }
  assert (E2 : s2 = xs).
  { apply sorted_unique; auto. intros x. rewrite Hs2, Hx. split.
    - intros (i & j & Hi & _ & O). exists (pi i). split; [now apply (pi_lt n pi Hpi)|now apply Oc].
    - intros (i & Hi & O). destruct (pi_onto n pi Hpi i Hi) as (k & Hk & <-). exists k, 0. split; [exact Hk|]. split; [auto|]. now apply Oc. }
  subst s s2. unfold Solve1. rewrite Es, Es2. cbn [bind].
  destruct (VarsTable_make xs (initialValue cfg)) as [t| | | | |] eqn:Et; cbn [bind]; try congruence.
  destruct (C36_make K xs (initialValue cfg)) as (t0 & Et0 & H0).
  { intros ->. cbn in En. lia. } { now apply sorted_NoDup. }
  rewrite Et in Et0. injection Et0 as <-. unfold Solve. rewrite Hm.
  assert (Start : forall jac k ps, newton_points cfg xs n f jac (fun j => nth j (repeat (initialValue cfg) (length xs)) (n_ofZ 0)) ps k ->
    newton_points cfg xs n f jac (fun _ => initialValue cfg) ps k).
  { intros jac k ps [P0 PS]. split; [|exact PS].
    intros j Hj. rewrite P0 by auto. apply nth_error_nth with (d := n_ofZ 0 : K). now apply nth_error_repeat'. }
  apply (proj1 (C88_solve n xs f f' pi sg A B t _ He Hn En Hpi HA HB H0 HR
    (fun jac k ps HJ NP => St jac k ps HJ (Start jac k ps NP)) (fun jac k ps phi M HJ NP => C jac k ps phi M HJ (Start jac k ps NP)))).
Qed.
End Swapped.

(** 4x + y^2 - 5 = 0, 3y - 2 = 0; and -(3y - 2) = 0, 5 - (4x + y^2) = 0; inf and nan are no errors. *)
Local Notation DX := (EVar "x" : expr D).
Local Notation DY := (EVar "y" : expr D).
Local Notation dlit z := (ENum (b_ofZ z : D) : expr D).
Definition sgn_cfg : config D := {| throwOnInvalidValue := false; epsilon := epsilon ord_cfg; maxIterations := 100; nonlinearMethod := NEWTON_RAPHSON; initialValue := n_ofZ 1; allowIndeterminateEquation := false |}.
Definition sgn_f' (i : nat) : expr D := match i with
  | 0 => EUn UNeg (ord_f 1)
  | _ => EBin BSub (dlit 5) (EBin BAdd (EBin BMul (dlit 4) DX) (EBin BPow DY (dlit 2))) end.
Definition d_num (e : expr D) (x : string) : option D := num_of (Diff sgn_cfg (embed e) x 1).
Definition sgn_check : bool :=
  match d_num (ord_f 0) "x", d_num (ord_f 1) "x", d_num (ord_f 1) "y" with
  | Some a, Some b, Some c =>
      n_ltb (n_abs b) (n_abs a) && negb (n_ltb (n_abs a) (epsilon sgn_cfg)) && negb (n_leb (epsilon sgn_cfg) (n_abs b)) &&
      n_ltb (n_abs b) (n_abs c) && negb (n_ltb (n_abs c) (epsilon sgn_cfg))
  | _, _, _ => false
  end.
Lemma sgn_checked : sgn_check = true. Proof. vm_cast_no_check (eq_refl true). Qed.
Definition sgn_xs : list string := ["x"; "y"].

Lemma sgn_clear start : clear_run sgn_cfg 2 ord_f sgn_xs start.
Proof.
  intros jac k ps phi M HJ P _ _ VM.
  pose proof (HJ 0 0 "x" ltac:(lia) eq_refl) as J00. pose proof (HJ 1 0 "x" ltac:(lia) eq_refl) as J10. pose proof (HJ 1 1 "y" ltac:(lia) eq_refl) as J11.
  pose proof sgn_checked as C. unfold sgn_check, d_num in C.
  destruct (num_of (Diff sgn_cfg (embed (ord_f 0)) "x" 1)) as [a|] eqn:Ea; [|discriminate].
  destruct (num_of (Diff sgn_cfg (embed (ord_f 1)) "x" 1)) as [b|] eqn:Eb; [|discriminate].
  destruct (num_of (Diff sgn_cfg (embed (ord_f 1)) "y" 1)) as [c|] eqn:Ec; [|discriminate].
  pose proof (num_of_embed _ _ J00 _ Ea) as Qa. pose proof (num_of_embed _ _ J10 _ Eb) as Qb. pose proof (num_of_embed _ _ J11 _ Ec) as Qc.
  clear Ea Eb Ec J00 J10 J11 HJ P.
  repeat rewrite andb_true_iff in C. destruct C as ((((C1 & C2) & C3) & C4) & C5). rewrite negb_true_iff in C2, C3, C5.
  destruct (point_exists sgn_xs (ps k)) as [env He]; [repeat constructor; cbn; intuition discriminate|].
  assert (V : forall i j w, i < 2 -> j < 2 -> jac i j = ENum w -> M i j = w).
  { intros i j w Hi Hj E. destruct (VM i Hi j Hj) as [_ Q]. specialize (Q env He). rewrite E in Q.
    cbn [eval_in ExprSpec.eval] in Q. congruence. }
  pose proof (V 0 0 a ltac:(lia) ltac:(lia) Qa) as Ma. pose proof (V 1 0 b ltac:(lia) ltac:(lia) Qb) as Mb. pose proof (V 1 1 c ltac:(lia) ltac:(lia) Qc) as Mc.
  destruct (C87_doubles tiny_libm a b C1) as [L1 L2]. destruct (C87_doubles tiny_libm c b C4) as [L3 L4].
  exists [map (fun q => n_div q a) [M 0 1; n_neg (phi 0)]; map (fun q => n_div q c) [n_neg (phi 1)]].
  unfold row_of. cbn [seq map app]. rewrite Ma, Mb, Mc.
  eapply (el_pivot _ _ a [M 0 1; n_neg (phi 0)] [[b; c; n_neg (phi 1)]]); auto.
  { intros r [<-|[]]. exact L1. }
  cbn [map reduced]. rewrite C3.
  eapply (el_pivot _ _ c [n_neg (phi 1)] []); auto.
  { intros r []. }
  constructor.
Qed.

Definition sgn_A : symmat D := MkSym 2 1 [embed (ord_f 0); embed (ord_f 1)].
Definition sgn_B : symmat D := MkSym 2 1 [embed (sgn_f' 0); embed (sgn_f' 1)].
Lemma sgn_eps : n_ltb (n_ofZ 0 : D) (epsilon sgn_cfg) = true. Proof. vm_cast_no_check (eq_refl true). Qed.
(** Newton from every starting point. *)
Theorem C88_ex (x y : D) t t' : VarsSpec.holds t sgn_xs [x; y] ->
  SolveByNewtonRaphson sgn_cfg sgn_A t = Ok t' -> SolveByNewtonRaphson sgn_cfg sgn_B t = Ok t'.
Proof.
  intros Ht. apply (proj1 (C88_solve tiny_libm sgn_cfg 2 sgn_xs ord_f sgn_f' ord_pi (fun _ => true) sgn_A sgn_B t [x; y] sgn_eps ltac:(lia) eq_refl
    (perm_swap 0 1 []) ltac:(split; [reflexivity|]; split; [reflexivity|]; split; [reflexivity|]; intros [|[|i]] [|j] Hi Hj; try lia; reflexivity)
    ltac:(split; [reflexivity|]; split; [reflexivity|]; split; [reflexivity|]; intros [|[|i]] [|j] Hi Hj; try lia; reflexivity)
    Ht ltac:(intros [|[|i]] Hi; [apply rev_neg; discriminate|apply rev_sub|lia])
    ltac:(intros jac k ps _ _ F; discriminate F) (sgn_clear _))).
Qed.
Definition sgn_solved : bool := match VarsTable_make sgn_xs (n_ofZ 1 : D) with
  | Ok t0 => match SolveByNewtonRaphson sgn_cfg sgn_A t0 with
    | Ok t => match VarsTable_get t "x", VarsTable_get t "y" with
      | Ok x, Ok y => n_ltb (n_abs (n_sub x (n_dec 11388888 (-7)))) (n_dec 1 (-6)) && n_ltb (n_abs (n_sub y (n_dec 66666667 (-8)))) (n_dec 1 (-6))
      | _, _ => false end
    | _ => false end
  | _ => false end.
Example C88_ex_solved : sgn_solved = true. Proof. vm_cast_no_check (eq_refl true). Qed.
