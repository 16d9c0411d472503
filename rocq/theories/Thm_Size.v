(** C68: how large the expressions get that Parse, Subs, Diff and Simplify build. *)
From Coq Require Import String Ascii List ZArith Bool Arith Lia Permutation.
From Verif Require Import Base MathOp NodeModel ExprSpec SimplifyModel DiffModel SubsModel ParseModel SubsSpec SimplifySpec DiffSpec GrammarSpec SizeSpec DiffProofs
  Thm_Simplify Thm_Diff Thm_Subs Thm_Parse Thm_Names IEEE.
Import ListNotations.
Local Open Scope string_scope. Local Open Scope list_scope. Local Open Scope nat_scope.

Section P.
Context {K : num_ops}.
Implicit Types (e a c : expr K).

Lemma esize_pos e : 1 <= esize e. Proof. destruct e; cbn; lia. Qed.
Lemma levels_pos e : 1 <= levels e. Proof. destruct e; cbn; lia. Qed.
Lemma levels_size e : levels e <= esize e. Proof. induction e; cbn in *; lia. Qed.

(** ** Derivatives *)
Lemma dexpr_esize x e : esize (dexpr x e) <= 5 * (esize e * levels e).
Proof.
  induction e as [v|y|u a IH|b a IHa c IHc]; cbn [dexpr].
  - cbn. lia.
  - destruct (String.eqb y x); cbn; lia.
  - pose proof (esize_pos a) as Pa. pose proof (levels_pos a).
    assert (Q : esize (dexpr x a) + 5 * S (esize a) <= 5 * (esize (EUn u a) * levels (EUn u a))) by (cbn [esize levels]; nia).
    eapply Nat.le_trans; [|exact Q]. destruct (DiffProofs.numb a && negb (is_sign u)); [cbn [esize lit]; lia|].
    destruct u; cbn [d_un]; try (destruct (varb a)); cbn [esize lit] in *; lia.
  - pose proof (esize_pos a) as Pa. pose proof (levels_pos a). pose proof (esize_pos c) as Pc. pose proof (levels_pos c).
    assert (Q : esize (dexpr x a) + esize (dexpr x c) + 5 * S (esize a + esize c) <= 5 * (esize (EBin b a c) * levels (EBin b a c))).
    { cbn [esize levels]. pose proof (Nat.le_max_l (levels a) (levels c)). pose proof (Nat.le_max_r (levels a) (levels c)).
      set (m := Nat.max (levels a) (levels c)) in *. assert (esize a * levels a <= esize a * m) by (apply Nat.mul_le_mono_l; lia).
      assert (esize c * levels c <= esize c * m) by (apply Nat.mul_le_mono_l; lia). nia. }
    eapply Nat.le_trans; [|exact Q]. destruct b; try (destruct (DiffProofs.numb a), (DiffProofs.numb c); cbn [andb esize lit] in *; lia); try (cbn [esize] in *; lia).
    destruct a, c; cbn [esize lit] in *; lia.
Qed.
Lemma dexpr_levels x e : levels (dexpr x e) <= 4 * levels e + 3.
Proof.
  induction e as [v|y|u a IH|b a IHa c IHc]; cbn [dexpr].
  - cbn. lia.
  - destruct (String.eqb y x); cbn; lia.
  - destruct (DiffProofs.numb a && negb (is_sign u)); [cbn; lia|]. pose proof (levels_pos a).
    destruct u; cbn [d_un]; try (destruct (varb a)); cbn [levels lit] in *; lia.
  - pose proof (levels_pos a). pose proof (levels_pos c).
    destruct b; try (destruct (DiffProofs.numb a), (DiffProofs.numb c); cbn [andb levels lit] in *; lia); try (cbn [levels] in *; lia).
    destruct a, c; cbn [levels lit] in *; lia.
Qed.
Lemma dexpr_n_levels i x e : levels (dexpr_n i x e) <= 7 ^ i * levels e.
Proof.
  induction i as [|i IH]; [cbn; lia|]. rewrite dexpr_n_S, Nat.pow_succ_r'. pose proof (dexpr_levels x (dexpr_n i x e)). pose proof (levels_pos (dexpr_n i x e)). nia.
Qed.
Lemma dexpr_n_esize i x e : esize (dexpr_n i x e) <= (5 * 7 ^ i * levels e) ^ i * esize e.
Proof.
  induction i as [|i IH]; [cbn; lia|]. rewrite dexpr_n_S. eapply Nat.le_trans; [apply dexpr_esize|].
  pose proof (dexpr_n_levels i x e) as L. set (P := 7 ^ i) in *. set (M := levels e) in *.
  apply Nat.le_trans with (5 * ((5 * P * M) ^ i * esize e * (P * M))); [apply Nat.mul_le_mono_l, Nat.mul_le_mono; auto|].
  replace (5 * ((5 * P * M) ^ i * esize e * (P * M))) with ((5 * P * M) ^ (S i) * esize e) by (rewrite Nat.pow_succ_r'; ring).
  apply Nat.mul_le_mono_r, Nat.pow_le_mono_l. unfold P. rewrite Nat.pow_succ_r'. nia.
Qed.

(** The first derivative is at most 5 times as large as size times number of levels, so at most
    quadratic in the size of the expression. *)
Theorem C68_diff_size (cfg : config K) e x n : Diff cfg (embed e) x 1 = Ok n ->
  exists e', n = embed e' /\ esize e' <= 5 * (esize e * levels e).
Proof.
  intros H. destruct (no_int_dec e) as [Hi|Hi].
  2:{ destruct (proj2 (C22_diff_throws_iff K cfg e x 1 ltac:(lia)) Hi) as [msg E]. change (Z.of_nat 1) with 1%Z in E. congruence. }
  change 1%Z with (Z.of_nat 1) in H. rewrite Diff_of_nat, DiffTimes_ok in H by auto. cbn [bind] in H.
  apply C18_simplify_normal in H as (e' & -> & _ & L & _). exists e'. split; auto. eapply Nat.le_trans; [exact L|]. apply dexpr_esize.
Qed.

(** For every order the size stays polynomial in the size of the expression. *)
Theorem C68_diff_n_size (cfg : config K) e x i n : 0 < i -> Diff cfg (embed e) x (Z.of_nat i) = Ok n ->
  exists e', n = embed e' /\ esize e' <= (5 * 7 ^ i * levels e) ^ i * esize e.
Proof.
  intros Hp H. destruct (no_int_dec e) as [Hi|Hi].
  2:{ destruct (proj2 (C22_diff_throws_iff K cfg e x i ltac:(lia)) Hi) as [msg E]. congruence. }
  destruct i as [|i]; [lia|]. rewrite Diff_of_nat, DiffTimes_ok in H by auto. cbn [bind] in H.
  apply C18_simplify_normal in H as (e' & -> & _ & L & _). exists e'. split; auto. eapply Nat.le_trans; [exact L|]. apply dexpr_n_esize.
Qed.

(** ** Simplify *)
(** Simplify never makes an expression larger, and never deeper. *)
Lemma contract_levels s e e' : contract s e (SDone e') -> levels e' <= levels e.
Proof.
  intros H. inversion H as [u v E1 E2|u a E1 E2|b v w E1 E2|b a c E0 E1 E2 E3|b a c d E0 E1 E2 E3|b a c E0 E1 E2 E3]; subst; auto.
  - unfold finish in E2. destruct (s && _)%bool; simpl in E2; inversion E2; subst. simpl. lia.
  - unfold finish in E2. destruct (bin_sem b v w); [destruct (s && _)%bool|]; simpl in E2; inversion E2; subst. simpl. lia.
  - simpl. lia.
  - destruct E2; simpl; lia.
Qed.
Lemma simplifies_levels s e r : simplifies s e r -> forall e', r = SDone e' -> levels e' <= levels e.
Proof.
  induction 1; intros e' E; subst; try (injection E as <-; auto; fail); try (exfalso; eapply H0; reflexivity);
    try (exfalso; eapply H1; reflexivity).
  - apply contract_levels in H0. pose proof (IHsimplifies _ eq_refl). simpl in *. lia.
  - apply contract_levels in H1. pose proof (IHsimplifies1 _ eq_refl). pose proof (IHsimplifies2 _ eq_refl). simpl in *. lia.
Qed.
Theorem C68_simplify_size (cfg : config K) e n : Simplify cfg (embed e) = Ok n ->
  exists e', n = embed e' /\ esize e' <= esize e /\ levels e' <= levels e.
Proof.
  intros H. destruct (C19_simplify_refines K cfg e) as (r & Hs & R).
  destruct r as [e'| |]; simpl in R; [|congruence|destruct R; congruence]. rewrite H in R. injection R as ->. exists e'. split; auto. split.
  - eapply simplifies_smaller; eauto.
  - eapply simplifies_levels; eauto.
Qed.

(** ** Substitution *)
Theorem C68_subs_size (s : substitution (K:=K)) e M : (forall x t, occurs x e -> s x = Some t -> esize t <= M) -> 1 <= M -> esize (subst s e) <= esize e * M.
Proof.
  intros H HM. induction e as [v|y|u a IH|b a IHa c IHc]; cbn [subst esize].
  - lia.
  - destruct (s y) as [t|] eqn:E; [|cbn; lia]. specialize (H y t (occ_var y) E). lia.
  - assert (esize (subst s a) <= esize a * M) by (apply IH; intros x t O; apply H; now constructor). nia.
  - assert (esize (subst s a) <= esize a * M) by (apply IHa; intros x t O; apply H; now apply occ_l).
    assert (esize (subst s c) <= esize c * M) by (apply IHc; intros x t O; apply H; now apply occ_r). nia.
Qed.
Theorem C68_subs1_size e x t : exists e', Subs1 (embed e) x (embed t) = Ok (embed e') /\ esize e' + count x e = esize e + count x e * esize t.
Proof.
  eexists. split; [apply C24_subs_single|]. induction e as [v|y|u a IH|b a IHa c IHc]; cbn [subst esize count].
  - lia.
  - destruct (String.eqb y x); cbn [esize]; lia.
  - lia.
  - lia.
Qed.

(** ** Parse *)
Lemma esize_parts e : esize e = length (leaves e) + length (ops e).
Proof. induction e; cbn [esize leaves ops length]; rewrite ?app_length; cbn [length]; lia. Qed.
Theorem C68_parse_size s (n : node K) : Parse s = Ok n ->
  exists (ts : list (stok K)) e, renders (K:=K) fnv1a ts s /\ n = embed e /\ esize e + opens ts + closes ts = length ts /\ esize e <= String.length s.
Proof.
  intros H. destruct (C11_parse_sound s n H) as (ts & e & R & -> & L & O & _). exists ts, e. split; auto. split; auto.
  rewrite esize_parts, L, (Permutation_length O). clear - R. revert R. generalize true. intros u R. revert u.
  induction R as [ws Hw|ws t w ts rest Hw Hx R IH Hd]; intros u; [cbn; split; [reflexivity|lia]|].
  specialize (IH (after t)). destruct IH as [IH1 IH2].
  assert (Lw : 1 <= String.length w). { destruct Hx; try (destruct w; [congruence|cbn; lia]); cbn; try lia. destruct x; [destruct H|cbn; lia]. }
  assert (LL : forall p q, String.length (p ++ q)%string = String.length p + String.length q) by (induction p; cbn; intros; auto).
  rewrite !LL.
  assert (Q : length (operands (t :: ts)) + length (operators u (t :: ts)) + opens (t :: ts) + closes (t :: ts) = 1 + (length (operands ts) + length (operators (after t) ts) + opens ts + closes ts)).
  { cbn [operators]. rewrite app_length. destruct Hx; unfold opens, closes; cbn [operands filter length]; try lia.
    assert (S : exists o, sym_meaning c u = Some o).
    { unfold symbol in H. cbn in H. repeat (destruct H as [<-|H]; [try congruence; cbn; eauto|]). destruct H. }
    destruct S as [o ->]. cbn [length]. lia. }
  split; [cbn [length]; lia|].
  cbn [operators]. rewrite app_length. destruct Hx; cbn [operands length]; try lia.
  destruct (sym_meaning c u); cbn [length]; lia.
Qed.
End P.

(** x*sin(x) (4 nodes, 3 levels) has the derivative sin(x)+x*cos(x) with 7 nodes, and "((x))*2" has 7
    tokens and 3 nodes. *)
Fixpoint nodes {K : num_ops} (n : node K) : nat := match n with Nil => 0 | N _ _ _ _ l r => S (nodes l + nodes r) end.
Lemma nodes_embed {K : num_ops} (e : expr K) : nodes (embed e) = esize e.
Proof. induction e; cbn in *; lia. Qed.
Example C68_ex :
  match Diff (default_config D) (embed (EBin BMul (EVar "x") (EUn USin (EVar "x")))) "x" 1 with Ok n => nodes n | _ => 0 end = 7 /\
  match Parse (K:=D) "((x))*2" with Ok n => nodes n | _ => 0 end = 3.
Proof. split; vm_compute; reflexivity. Qed.
