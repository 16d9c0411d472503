(** Proofs about the parser on arbitrary token lists: the shunting-yard machine and the
    tree builder keep every operand and operator. *)
From Coq Require Import String Ascii List ZArith Bool Arith Lia Permutation.
From Verif Require Import Base MathOp NodeModel ParseModel ExprSpec GrammarSpec NodeProofs ParseProofs ParseSound.
Import ListNotations.
Local Open Scope string_scope. Local Open Scope list_scope.

Section Total.
Context {K : num_ops}.
Variable content : string.
Implicit Types (stk post : list (token K)) (t : token K).

(** What a token is: an operand, an operator, or a parenthesis. *)
Inductive item := IOpd (e : expr K) | IOp (o : unop + binop) | IL | IR.

Definition op_of (o : unop + binop) : math_op :=
  match o with inl u => unop_op u | inr b => binop_op b end.

(** [is_item t i]: token [t] is the item [i]. *)
Definition is_item (t : token K) (i : item) : Prop :=
  match i with
  | IOpd (ENum v) => t_node t = mkNum v
  | IOpd (EVar x) => t_node t = N VARIABLE MATH_NULL (n_ofZ 0) x Nil Nil
  | IOpd _ => False
  | IOp o => t_node t = op_node (op_of o)
  | IL => t_node t = op_node MATH_LEFT_PARENTHESIS
  | IR => t_node t = op_node MATH_RIGHT_PARENTHESIS
  end.

Definition i_opd (i : item) : list (expr K) := match i with IOpd e => [e] | _ => [] end.
Definition i_op (i : item) : list (unop + binop) := match i with IOp o => [o] | _ => [] end.
Definition i_l (i : item) : nat := match i with IL => 1 | _ => 0 end.
Definition i_r (i : item) : nat := match i with IR => 1 | _ => 0 end.
Definition opds (is : list item) := flat_map i_opd is.
Definition iops (is : list item) := flat_map i_op is.
Definition lps (is : list item) := list_sum (map i_l is).
Definition rps (is : list item) := list_sum (map i_r is).

Lemma opds_app a b : opds (a ++ b) = opds a ++ opds b. Proof. apply flat_map_app. Qed.
Lemma iops_app a b : iops (a ++ b) = iops a ++ iops b. Proof. apply flat_map_app. Qed.
Lemma lps_app a b : lps (a ++ b) = lps a + lps b. Proof. unfold lps. now rewrite map_app, list_sum_app. Qed.
Lemma rps_app a b : rps (a ++ b) = rps a + rps b. Proof. unfold rps. now rewrite map_app, list_sum_app. Qed.

(** The stack holds operators and left parentheses, the output operands and operators. *)
Definition stk_item (i : item) : Prop := match i with IOp _ | IL => True | _ => False end.
Definition out_item (i : item) : Prop := match i with IOp _ | IOpd _ => True | _ => False end.

Lemma op_of_not_lp o : op_of o <> MATH_LEFT_PARENTHESIS.
Proof. destruct o as [[]|[]]; discriminate. Qed.
Lemma op_of_not_rp o : op_of o <> MATH_RIGHT_PARENTHESIS.
Proof. destruct o as [[]|[]]; discriminate. Qed.

Lemma stk_opds si : Forall stk_item si -> opds si = [].
Proof. induction 1 as [|i si H _ IH]; auto. destruct i; simpl in *; tauto. Qed.

Lemma pop_while_split p stk : forall si post pi,
  Forall2 is_item stk si -> Forall2 is_item post pi -> Forall stk_item si -> Forall out_item pi ->
  p MATH_LEFT_PARENTHESIS = false ->
  exists stk' post' si' pi', pop_while p stk post = (stk', post') /\
    Forall2 is_item stk' si' /\ Forall2 is_item post' pi' /\ Forall stk_item si' /\ Forall out_item pi' /\
    pi' ++ si' = pi ++ si /\ lps si' = lps si /\ opds pi' = opds pi /\
    (forall Q : token K -> Prop, Forall Q stk -> Forall Q post -> Forall Q stk' /\ Forall Q post').
Proof.
  induction stk as [|t stk IH]; intros si post pi Hs Hp Hsi Hpi Hlp.
  - inversion Hs; subst. exists [], post, [], pi. repeat split; auto.
  - inversion Hs as [|? i ? si0 Ht Hs']; subst. cbn [pop_while].
    destruct (p (t_op t)) eqn:E.
    + inversion Hsi as [|? ? Hi Hsi']; subst.
      assert (Hop : exists o, i = IOp o).
      { destruct i; simpl in *; try tauto; eauto. unfold t_op in E. rewrite Ht in E. simpl in E. congruence. }
      destruct Hop as [o ->].
      destruct (IH si0 (post ++ [t]) (pi ++ [IOp o])) as (stk' & post' & si' & pi' & -> & A1 & A2 & A3 & A4 & A5 & A6 & A7 & A8); auto.
      * apply Forall2_app; auto.
      * apply Forall_app; split; auto.
      * exists stk', post', si', pi'. repeat split; auto.
        -- rewrite A5, <- app_assoc. reflexivity.
        -- rewrite A7, opds_app. apply app_nil_r.
        -- inversion H; subst. apply A8; auto. apply Forall_app; auto.
        -- inversion H; subst. apply A8; auto. apply Forall_app; auto.
    + exists (t :: stk), post, (i :: si0), pi. repeat split; auto.
Qed.

Lemma pop_to_paren_split stk : forall si post pi,
  Forall2 is_item stk si -> Forall2 is_item post pi -> Forall stk_item si -> Forall out_item pi ->
  lps si <> 0 ->
  exists stk' post' si' pi', pop_to_paren stk post = Ok (stk', post') /\
    Forall2 is_item stk' si' /\ Forall2 is_item post' pi' /\ Forall stk_item si' /\ Forall out_item pi' /\
    iops (pi' ++ si') = iops (pi ++ si) /\ S (lps si') = lps si /\ opds pi' = opds pi /\
    (forall Q : token K -> Prop, Forall Q stk -> Forall Q post -> Forall Q stk' /\ Forall Q post').
Proof.
  induction stk as [|t stk IH]; intros si post pi Hs Hp Hsi Hpi Hlp.
  - inversion Hs; subst. destruct (Hlp eq_refl).
  - inversion Hs as [|? i ? si0 Ht Hs']; subst. inversion Hsi as [|? ? Hi Hsi']; subst.
    destruct i as [e|o| |]; simpl in Hi; try tauto.
    + simpl in Ht. destruct (IH si0 (post ++ [t]) (pi ++ [IOp o])) as (stk' & post' & si' & pi' & E & A1 & A2 & A3 & A4 & A5 & A6 & A7 & A8); auto.
      * apply Forall2_app; auto.
      * apply Forall_app; split; auto.
      * exists stk', post', si', pi'. repeat split; auto.
        -- cbn [pop_to_paren]. pose proof (op_of_not_lp o) as Hn. unfold t_op. rewrite Ht. simpl.
           destruct (op_of o); auto; congruence.
        -- rewrite A5, <- app_assoc. reflexivity.
        -- rewrite A7, opds_app. apply app_nil_r.
        -- inversion H; subst. apply A8; auto. apply Forall_app; auto.
        -- inversion H; subst. apply A8; auto. apply Forall_app; auto.
    + simpl in Ht. exists stk, post, si0, pi. cbn [pop_to_paren]. unfold t_op. rewrite Ht. simpl.
      repeat split; auto.
      * rewrite !iops_app. reflexivity.
      * inversion H; auto.
Qed.

Lemma pop_to_paren_undef stk : forall si post,
  Forall2 is_item stk si -> Forall stk_item si -> lps si = 0 -> exists w, pop_to_paren stk post = Undef w.
Proof.
  induction stk as [|t stk IH]; intros si post Hs Hsi Hlp; [simpl; eauto|].
  inversion Hs as [|? i ? si0 Ht Hs']; subst. inversion Hsi as [|? ? Hi Hsi']; subst.
  destruct i as [e|o| |]; simpl in Hi; try tauto; [|discriminate].
  simpl in Ht. cbn [pop_to_paren]. unfold t_op. rewrite Ht. simpl.
  pose proof (op_of_not_lp o) as Hn. destruct (IH si0 (post ++ [t]) Hs' Hsi' Hlp) as [w Hw].
  exists w. destruct (op_of o); auto; congruence.
Qed.

(** Invariant of the shunting-yard loop after the items [done]. *)
Definition Inv (done : list item) (toks : list (token K)) (st : nat * list (token K) * list (token K)) : Prop :=
  let '(bal, stk, post) := st in
  exists si pi, Forall2 is_item stk si /\ Forall2 is_item post pi /\
    Forall stk_item si /\ Forall out_item pi /\
    bal = lps done /\ lps si + rps done = lps done /\
    opds pi = opds done /\ Permutation (iops (pi ++ si)) (iops done) /\
    (forall Q : token K -> Prop, Forall Q toks -> Forall Q stk /\ Forall Q post).

Lemma binary_step bal stk post f o :
  t_node f = op_node (op_of o) -> (forall u, o = inl u -> u <> UPos /\ u <> UNeg) ->
  InOrderStep content (bal, stk, post) f =
    let '(stk1, post1) := pop_while (squeezes (op_of o)) stk post in Ok (bal, f :: stk1, post1).
Proof.
  intros Hf Ho. unfold InOrderStep, t_type, t_op. rewrite Hf. simpl.
  destruct o as [u|b]; [destruct (Ho u eq_refl); destruct u; simpl; try reflexivity; congruence|].
  destruct b; reflexivity.
Qed.

Lemma squeezes_lp o : squeezes (op_of o) MATH_LEFT_PARENTHESIS = false.
Proof. destruct o as [[]|[]]; reflexivity. Qed.

Lemma Inv_step done toks st f i : Inv done toks st -> is_item f i ->
  (i <> IR \/ rps done < lps done) ->
  exists st', InOrderStep content st f = Ok st' /\ Inv (done ++ [i]) (toks ++ [f]) st'.
Proof.
  destruct st as [[bal stk] post].
  intros (si & pi & Hs & Hp & Hsi & Hpi & Hb & Hl & Ho & Hperm & HQ) Hf Hi.
  assert (HQ' : forall Q : token K -> Prop, Forall Q (toks ++ [f]) -> Forall Q stk /\ Forall Q post /\ Q f).
  { intros Q Hq. apply Forall_app in Hq as [Hq1 Hq2]. inversion Hq2; subst. destruct (HQ Q Hq1). auto. }
  destruct i as [e|o| |].
  - (* operand *)
    assert (Hst : InOrderStep content (bal, stk, post) f = Ok (bal, stk, post ++ [f])).
    { unfold InOrderStep, t_type. destruct e; simpl in Hf; try tauto; rewrite Hf; reflexivity. }
    exists (bal, stk, post ++ [f]). split; auto.
    exists si, (pi ++ [IOpd e]). repeat split; auto.
    + apply Forall2_app; auto.
    + apply Forall_app; split; auto. repeat constructor.
    + rewrite Hb, lps_app. simpl. unfold lps at 3. simpl. lia.
    + rewrite lps_app, rps_app. unfold lps at 3, rps at 2. simpl. lia.
    + rewrite !opds_app, Ho. reflexivity.
    + rewrite !iops_app in *. simpl. rewrite !app_nil_r. auto.
    + apply (HQ' Q H).
    + destruct (HQ' Q H) as (? & ? & ?). apply Forall_app; auto.
  - (* operator *)
    simpl in Hf.
    assert (Hc : (exists u, o = inl u /\ (u = UPos \/ u = UNeg)) \/ (forall u, o = inl u -> u <> UPos /\ u <> UNeg)).
    { destruct o as [u|b]; [|right; discriminate].
      destruct u; try (left; eexists; split; [reflexivity|tauto]); right; intros u [= <-]; split; discriminate. }
    destruct Hc as [(u & -> & Hu)|Hnu].
    + assert (Hst : InOrderStep content (bal, stk, post) f = Ok (bal, f :: stk, post)).
      { unfold InOrderStep, t_type, t_op. rewrite Hf. destruct Hu as [-> | ->]; reflexivity. }
      exists (bal, f :: stk, post). split; auto.
      exists (IOp (inl u) :: si), pi. repeat split; auto.
      * constructor; auto. exact I.
      * rewrite lps_app. unfold lps at 2. simpl. lia.
      * rewrite lps_app, rps_app. change (lps (IOp (inl u) :: si)) with (lps si). unfold lps at 3, rps at 2. simpl. lia.
      * rewrite opds_app, Ho. simpl. now rewrite app_nil_r.
      * rewrite iops_app in *. simpl. rewrite iops_app. simpl.
        rewrite <- Permutation_middle. rewrite <- Permutation_cons_append. constructor. exact Hperm.
      * destruct (HQ' Q H) as (? & ? & ?). constructor; auto.
      * apply (HQ' Q H).
    + rewrite (binary_step bal stk post f o Hf Hnu).
      destruct (pop_while_split (squeezes (op_of o)) stk si post pi Hs Hp Hsi Hpi (squeezes_lp o))
        as (stk' & post' & si' & pi' & -> & A1 & A2 & A3 & A4 & A5 & A6 & A7 & A8).
      exists (bal, f :: stk', post'). split; auto.
      exists (IOp o :: si'), pi'. repeat split; auto.
      * constructor; auto. exact I.
      * rewrite lps_app. unfold lps at 2. simpl. lia.
      * rewrite lps_app, rps_app. change (lps (IOp o :: si')) with (lps si'). rewrite A6. unfold lps at 3, rps at 2. simpl. lia.
      * rewrite opds_app, A7, Ho. simpl. now rewrite app_nil_r.
      * rewrite <- A5 in Hperm. rewrite iops_app in *. simpl. rewrite iops_app. simpl.
        rewrite <- Permutation_middle. rewrite <- Permutation_cons_append. constructor. exact Hperm.
      * destruct (HQ' Q H) as (B1 & B2 & ?). constructor; auto. apply (A8 Q B1 B2).
      * destruct (HQ' Q H) as (B1 & B2 & ?). apply (A8 Q B1 B2).
  - (* left parenthesis *)
    simpl in Hf.
    assert (Hst : InOrderStep content (bal, stk, post) f = Ok (S bal, f :: stk, post)).
    { unfold InOrderStep, t_type, t_op. rewrite Hf. reflexivity. }
    exists (S bal, f :: stk, post). split; auto.
    exists (IL :: si), pi. repeat split; auto.
    + constructor; auto. exact I.
    + rewrite lps_app. unfold lps at 2. simpl. lia.
    + rewrite lps_app, rps_app. change (lps (IL :: si)) with (S (lps si)). unfold lps at 3, rps at 2. simpl. lia.
    + rewrite opds_app, Ho. simpl. now rewrite app_nil_r.
    + rewrite !iops_app in *. simpl. rewrite app_nil_r. auto.
    + destruct (HQ' Q H) as (? & ? & ?). constructor; auto.
    + apply (HQ' Q H).
  - (* right parenthesis *)
    destruct Hi as [Hi|Hi]; [congruence|]. simpl in Hf.
    assert (Hst : InOrderStep content (bal, stk, post) f =
       let* st1 := pop_to_paren stk post in
       let '(stk2, post2) := pop_function st1 in
       let '(stk3, post3) := pop_while is_sign stk2 post2 in Ok (bal, stk3, post3)).
    { unfold InOrderStep, t_type, t_op. rewrite Hf. cbn [op_node].
      destruct bal; [lia|]. reflexivity. }
    rewrite Hst. clear Hst.
    destruct (pop_to_paren_split stk si post pi Hs Hp Hsi Hpi) as
      (stk1 & post1 & si1 & pi1 & -> & A1 & A2 & A3 & A4 & A5 & A6 & A7 & A8); [lia|].
    cbn [bind].
    assert (B : exists stk2 post2 si2 pi2, pop_function (stk1, post1) = (stk2, post2) /\
      Forall2 is_item stk2 si2 /\ Forall2 is_item post2 pi2 /\ Forall stk_item si2 /\ Forall out_item pi2 /\
      iops (pi2 ++ si2) = iops (pi ++ si) /\ S (lps si2) = lps si /\ opds pi2 = opds pi /\
      (forall Q : token K -> Prop, Forall Q stk -> Forall Q post -> Forall Q stk2 /\ Forall Q post2)).
    { unfold pop_function. cbn [fst snd]. destruct stk1 as [|t stk1].
      - exists [], post1, si1, pi1. repeat split; auto; apply (A8 Q H H0).
      - destruct (IsFunction (t_op t)) eqn:E.
        + inversion A1 as [|? i ? si0 Ht Hs']; subst. inversion A3 as [|? ? Hi0 A3']; subst.
          destruct i as [e|o| |]; simpl in Hi0; try tauto.
          2:{ simpl in Ht. unfold t_op in E. rewrite Ht in E. discriminate. }
          exists stk1, (post1 ++ [t]), si0, (pi1 ++ [IOp o]). repeat split; auto.
          * apply Forall2_app; auto.
          * apply Forall_app; split; auto.
          * rewrite <- A5, <- app_assoc. reflexivity.
          * rewrite opds_app, A7. apply app_nil_r.
          * destruct (A8 Q H H0) as [C1 C2]. inversion C1; auto.
          * destruct (A8 Q H H0) as [C1 C2]. inversion C1; subst. apply Forall_app; auto.
        + exists (t :: stk1), post1, si1, pi1. repeat split; auto; apply (A8 Q H H0). }
    destruct B as (stk2 & post2 & si2 & pi2 & -> & B1 & B2 & B3 & B4 & B5 & B6 & B7 & B8).
    destruct (pop_while_split is_sign stk2 si2 post2 pi2 B1 B2 B3 B4 eq_refl)
      as (stk3 & post3 & si3 & pi3 & -> & C1 & C2 & C3 & C4 & C5 & C6 & C7 & C8).
    exists (bal, stk3, post3). split; auto.
    exists si3, pi3. repeat split; auto.
    + rewrite lps_app. unfold lps at 2. simpl. lia.
    + rewrite lps_app, rps_app, C6. unfold lps at 3, rps at 2. simpl. lia.
    + rewrite C7, B7, Ho, opds_app. simpl. now rewrite app_nil_r.
    + rewrite C5, B5. rewrite (iops_app done). simpl. rewrite app_nil_r. auto.
    + destruct (HQ' Q H) as (D1 & D2 & _). destruct (B8 Q D1 D2) as (E1 & E2). apply (C8 Q E1 E2).
    + destruct (HQ' Q H) as (D1 & D2 & _). destruct (B8 Q D1 D2) as (E1 & E2). apply (C8 Q E1 E2).
Qed.

(** A ')' when no '(' is open. *)
Lemma Inv_overclose done toks st f : Inv done toks st -> is_item f IR -> lps done = rps done ->
  (lps done = 0 -> InOrderStep content st f = Throw (unmatched content f)) /\
  (lps done > 0 -> exists w, InOrderStep content st f = Undef w).
Proof.
  destruct st as [[bal stk] post].
  intros (si & pi & Hs & Hp & Hsi & Hpi & Hb & Hl & Ho & Hperm & HQ) Hf Hz. simpl in Hf.
  unfold InOrderStep, t_type, t_op. rewrite Hf. cbn [op_node]. split; intros H.
  - rewrite Hb, H. reflexivity.
  - destruct bal; [lia|]. cbn [Nat.eqb].
    destruct (pop_to_paren_undef stk si post Hs Hsi) as [w ->]; [lia|]. exists w. reflexivity.
Qed.

Definition inever (is : list item) : Prop := forall p q, is = p ++ q -> rps p <= lps p.

(** The whole loop. *)
Lemma run_total is : forall toks done dtoks st,
  Inv done dtoks st -> inever done -> Forall2 is_item toks is ->
  (exists st', run content toks st = Ok st' /\ Inv (done ++ is) (dtoks ++ toks) st' /\ inever (done ++ is)) \/
  (exists p q f, is = p ++ IR :: q /\ inever (done ++ p) /\ lps (done ++ p) = rps (done ++ p) /\ In f toks /\ is_item f IR /\
     (lps (done ++ p) = 0 -> run content toks st = Throw (unmatched content f)) /\
     (lps (done ++ p) > 0 -> exists w, run content toks st = Undef w)).
Proof.
  induction is as [|i is IH]; intros toks done dtoks st HI Hn Hf.
  - inversion Hf; subst. left. exists st. rewrite !app_nil_r. auto.
  - inversion Hf as [|f ? toks' ? Hfi Hf']; subst.
    assert (Hle : rps done <= lps done) by (apply (Hn done []); now rewrite app_nil_r).
    assert (Hdec : (i <> IR \/ rps done < lps done) \/ (i = IR /\ lps done = rps done)).
    { destruct i; try (left; left; discriminate). destruct (Nat.eq_dec (rps done) (lps done)); [right; auto|left; right; lia]. }
    destruct Hdec as [Hok|[-> Heq]].
    + destruct (Inv_step done dtoks st f i HI Hfi Hok) as (st' & Hst & HI').
      assert (Hn' : inever (done ++ [i])).
      { intros p q E. destruct q as [|x q] using rev_ind.
        - rewrite app_nil_r in E. subst p. rewrite lps_app, rps_app. unfold lps at 2, rps at 2.
          destruct i; simpl; try lia. destruct Hok as [Hok|Hok]; [congruence|lia].
        - rewrite app_assoc in E. apply app_inj_tail in E as [E ->]. eapply Hn; eauto. }
      destruct (IH toks' (done ++ [i]) (dtoks ++ [f]) st' HI' Hn' Hf')
        as [(st2 & R & HI2 & Hn2)|(p & q & f' & -> & Hnp & Hbp & Hin & Hff & R1 & R2)].
      * left. exists st2. rewrite <- !app_assoc in *. repeat split; auto.
        unfold run in *. cbn [foldM]. rewrite Hst. exact R.
      * right. exists (i :: p), q, f'. rewrite <- !app_assoc in *. simpl in *. repeat split; auto.
        -- intros H. unfold run in *. cbn [foldM]. rewrite Hst. auto.
        -- intros H. unfold run in *. cbn [foldM]. rewrite Hst. auto.
    + right. destruct (Inv_overclose done dtoks st f HI Hfi Heq) as [O1 O2].
      exists [], is, f. rewrite app_nil_r. repeat split; auto; [now left| |].
      * intros H. unfold run. cbn [foldM]. rewrite O1; auto.
      * intros H. destruct (O2 H) as [w Hw]. exists w. unfold run. cbn [foldM]. rewrite Hw; auto.
Qed.

Lemma Inv_init : Inv [] [] (0, [], []).
Proof. exists [], []. repeat split; auto. Qed.

Lemma inever_nil : inever [].
Proof. intros p q E. destruct p; [|discriminate]. auto. Qed.

(** Flushing. *)
Lemma flush_total stk : forall si post pi,
  Forall2 is_item stk si -> Forall2 is_item post pi -> Forall stk_item si ->
  (lps si = 0 /\ flush content stk post = Ok (post ++ stk)) \/
  (lps si <> 0 /\ exists t, In t stk /\ is_item t IL /\ flush content stk post = Throw (unmatched content t)).
Proof.
  induction stk as [|t stk IH]; intros si post pi Hs Hp Hsi.
  - inversion Hs; subst. left. split; auto. simpl. now rewrite app_nil_r.
  - inversion Hs as [|? i ? si0 Ht Hs']; subst. inversion Hsi as [|? ? Hi Hsi']; subst.
    destruct i as [e|o| |]; simpl in Hi; try tauto.
    + simpl in Ht.
      assert (E : flush content (t :: stk) post = flush content stk (post ++ [t])).
      { cbn [flush]. unfold t_op. rewrite Ht. simpl. pose proof (op_of_not_lp o). destruct (op_of o); auto; congruence. }
      destruct (IH si0 (post ++ [t]) (pi ++ [IOp o]) Hs') as [[H1 H2]|[H1 (t' & H2 & H3 & H4)]]; auto.
      * apply Forall2_app; auto.
      * left. split; auto. rewrite E, H2, <- app_assoc. reflexivity.
      * right. split; auto. exists t'. rewrite E. split; [now right|auto].
    + right. split; [discriminate|]. exists t. split; [now left|]. split; auto. simpl in Ht.
      cbn [flush]. unfold t_op. rewrite Ht. reflexivity.
Qed.

(** The conversion to postfix order on arbitrary tokens. *)
Lemma inorder_total toks is : Forall2 is_item toks is ->
  (exists post pi, InOrderToPostOrder content toks = Ok post /\ Forall2 is_item post pi /\ Forall out_item pi /\
     opds pi = opds is /\ Permutation (iops pi) (iops is) /\ inever is /\ lps is = rps is /\
     (forall Q : token K -> Prop, Forall Q toks -> Forall Q post)) \/
  (exists f, In f toks /\ InOrderToPostOrder content toks = Throw (unmatched content f) /\
     ((is_item f IR /\ exists p q, is = p ++ IR :: q /\ inever p /\ lps p = 0) \/
      (is_item f IL /\ inever is /\ rps is < lps is))) \/
  (exists w p q, InOrderToPostOrder content toks = Undef w /\ is = p ++ IR :: q /\ inever p /\ lps p = rps p /\ lps p > 0).
Proof.
  intros H. destruct (run_total is toks [] [] (0, [], []) Inv_init inever_nil H)
    as [(st & R & HI & Hn)|(p & q & f & E & Hnp & Hbp & Hin & Hf & R1 & R2)]; simpl in *.
  - destruct st as [[bal stk] post].
    destruct HI as (si & pi & Hs & Hp & Hsi & Hpi & Hb & Hl & Ho & Hperm & HQ).
    unfold InOrderToPostOrder. unfold run in R. rewrite R. cbn [bind].
    destruct (flush_total stk si post pi Hs Hp Hsi) as [[H1 H2]|[H1 (t & H2 & H3 & H4)]].
    + left. exists (post ++ stk), (pi ++ si). repeat split; auto.
      * apply Forall2_app; auto.
      * apply Forall_app; split; auto. clear -Hsi H1. induction Hsi as [|i si Hi Hsi IH]; constructor.
        -- destruct i; simpl in *; try tauto. discriminate.
        -- apply IH. destruct i; simpl in *; auto; discriminate.
      * rewrite opds_app, (stk_opds si) by auto. rewrite app_nil_r. auto.
      * lia.
      * intros Q HQ0. destruct (HQ Q HQ0). apply Forall_app; auto.
    + right. left. exists t. split; [|split; [auto|right; split; [auto|split; [auto|lia]]]].
      destruct (HQ (fun x => In x toks)) as [Q1 Q2]; [apply Forall_forall; auto|].
      rewrite Forall_forall in Q1. auto.
  - destruct (Nat.eq_dec (lps p) 0) as [Hz|Hz].
    + right. left. exists f. split; auto. split.
      * unfold InOrderToPostOrder. unfold run in R1. rewrite R1; auto.
      * left. split; auto. exists p, q. auto.
    + right. right. destruct R2 as [w Hw]; [lia|]. exists w, p, q. repeat split; auto; [|lia].
      unfold InOrderToPostOrder. unfold run in Hw. rewrite Hw. reflexivity.
Qed.

(** ** Building the tree *)
Definition is_expr (t : token K) (e : expr K) : Prop := t_node t = embed e.

Fixpoint items (e : expr K) : list item :=
  match e with
  | ENum _ | EVar _ => [IOpd e]
  | EUn u a => items a ++ [IOp (inl u)]
  | EBin b a c => items a ++ items c ++ [IOp (inr b)]
  end.

Lemma opds_items e : opds (items e) = leaves e.
Proof. induction e; simpl; auto; rewrite !opds_app; simpl; rewrite ?app_nil_r; congruence. Qed.
Lemma iops_items e : Permutation (iops (items e)) (ops e).
Proof.
  induction e; simpl; auto; rewrite !iops_app; simpl.
  - rewrite <- Permutation_cons_append. now constructor.
  - rewrite app_assoc. rewrite <- Permutation_cons_append. constructor. now apply Permutation_app.
Qed.

Lemma build_total pi : forall post stk es done,
  Forall2 is_item post pi -> Forall out_item pi -> Forall2 is_expr stk es ->
  concat (map items (rev es)) = done ->
  (exists stk' es', foldM BuildStep post stk = Ok stk' /\ Forall2 is_expr stk' es' /\
     concat (map items (rev es')) = done ++ pi /\
     (forall t', In t' stk' -> exists t, In t (post ++ stk) /\ t_pos t = t_pos t' /\ t_s t = t_s t')) \/
  foldM BuildStep post stk = Throw (MathError ERROR_WRONG_EXPRESSION "").
Proof.
  induction pi as [|i pi IH]; intros post stk es done Hp Hpi Hs Hd.
  - inversion Hp; subst. left. exists stk, es. rewrite app_nil_r. repeat split; auto.
    intros t' Ht'. exists t'. auto.
  - inversion Hp as [|t ? post' ? Ht Hp']; subst. inversion Hpi as [|? ? Hi Hpi']; subst.
    cbn [foldM].
    assert (Step : (exists t' stk0 stk1 es1, BuildStep stk t = Ok (t' :: stk1) /\ Forall2 is_expr (t' :: stk1) es1 /\
       concat (map items (rev es1)) = concat (map items (rev es)) ++ [i] /\ t_pos t' = t_pos t /\ t_s t' = t_s t /\ stk = stk0 ++ stk1) \/
       BuildStep stk t = Throw (MathError ERROR_WRONG_EXPRESSION "")).
    { destruct i as [e|o| |]; simpl in Hi; try tauto.
      - left. exists t, [], stk, (e :: es).
        assert (BuildStep stk t = Ok (t :: stk) /\ t_node t = embed e /\ items e = [IOpd e]) as (E1 & E2 & E3).
        { unfold BuildStep, t_type. destruct e; simpl in Ht; try tauto; rewrite Ht; auto. }
        repeat split; auto. simpl. rewrite map_app, concat_app. simpl. rewrite E3. reflexivity.
      - simpl in Ht. unfold BuildStep, t_type, t_op. rewrite Ht. cbn [op_node]. destruct o as [u|b]; simpl op_of.
        + rewrite GetOperatorNum_unop. destruct stk as [|ta stk1]; [right; reflexivity|].
          inversion Hs as [|? a ? es1 Ha Hs']; subst. left.
          eexists _, [ta], stk1, (EUn u a :: es1). split; [reflexivity|]. repeat split; auto.
          * constructor; auto. unfold is_expr in *. simpl. rewrite Ha. reflexivity.
          * simpl. rewrite !map_app, !concat_app. simpl. rewrite !app_nil_r, <- app_assoc. reflexivity.
        + rewrite GetOperatorNum_binop. destruct stk as [|tc [|ta stk1]]; [right; reflexivity|right; reflexivity|].
          inversion Hs as [|? c ? es0 Hc Hs0]; subst. inversion Hs0 as [|? a ? es1 Ha Hs']; subst. left.
          eexists _, [tc; ta], stk1, (EBin b a c :: es1). split; [reflexivity|]. repeat split; auto.
          * constructor; auto. unfold is_expr in *. simpl. rewrite Ha, Hc. reflexivity.
          * simpl. rewrite !map_app, !concat_app. simpl. rewrite !app_nil_r, <- !app_assoc. reflexivity. }
    destruct Step as [(t' & stk0 & stk1 & es1 & -> & Hes & Hdone & Hpos & Hts & Hstk)| -> ]; [|right; reflexivity].
    cbn [bind].
    destruct (IH post' (t' :: stk1) es1 _ Hp' Hpi' Hes Hdone) as [(stk' & es' & R & H1 & H2 & H3)|R]; [left|right; auto].
    exists stk', es'. repeat split; auto.
    + rewrite H2, <- app_assoc. reflexivity.
    + intros x Hx. destruct (H3 x Hx) as (y & Hy & E1 & E2).
      apply in_app_or in Hy as [Hy|[<-|Hy]].
      * exists y. split; [right; apply in_or_app; now left|auto].
      * exists t. split; [now left|]. rewrite <- Hpos, <- Hts. auto.
      * exists y. split; [right; apply in_or_app; right; rewrite Hstk; apply in_or_app; now right|auto].
Qed.

Lemma items_nonempty e : items e <> [].
Proof. destruct e; simpl; try discriminate; intros E; apply app_eq_nil in E as [_ E]; try discriminate.
  apply app_eq_nil in E as [_ E]; discriminate. Qed.

Lemma build_outcome post pi : Forall2 is_item post pi -> Forall out_item pi ->
  (exists e, BuildExpressionTree content post = Ok (embed e) /\ items e = pi) \/
  (exists w, BuildExpressionTree content post = Undef w /\ pi = []) \/
  BuildExpressionTree content post = Throw (MathError ERROR_WRONG_EXPRESSION "") \/
  (exists errs, BuildExpressionTree content post = Throw (MultiParseError errs) /\ errs <> [] /\
     forall line pos c msg, In (line, pos, c, msg) errs ->
       line = 0 /\ c = content /\ exists t, In t post /\ t_pos t = pos).
Proof.
  intros Hp Hpi. destruct (build_total pi post [] [] [] Hp Hpi) as [(stk & es & R & H1 & H2 & H3)|R]; auto.
  - unfold BuildExpressionTree. rewrite R. cbn [bind]. simpl in H2.
    destruct stk as [|t [|t1 stk]].
    + inversion H1; subst. right. left. eauto.
    + inversion H1 as [|? e ? es' He Hn]; subst. inversion Hn; subst. left. exists e. split.
      * unfold is_expr in He. now rewrite He.
      * simpl. now rewrite app_nil_r.
    + right. right. right. eexists. split; [reflexivity|]. split; [discriminate|].
      intros line pos c msg Hin. apply in_map_iff in Hin as (t' & E & Hin). injection E as <- <- <- <-.
      repeat split; auto. destruct (H3 t') as (y & Hy & E1 & E2); [now right|].
      rewrite app_nil_r in Hy. eauto.
  - unfold BuildExpressionTree. rewrite R. auto.
Qed.

End Total.
