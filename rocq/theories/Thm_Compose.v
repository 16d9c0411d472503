(** C78: replacing a variable in a text by another text in parentheses, and then reading it, is
    reading both and substituting; building a text from texts is building the expression. *)
From Coq Require Import String Ascii List ZArith Bool Arith Lia.
From Verif Require Import Base MathOp NodeModel SubsModel ParseModel IEEE ExprSpec SubsSpec GrammarSpec ComposeSpec NodeProofs ParseProofs ParseSound ParseTotal Thm_Parse Thm_Subs.
Import ListNotations.
Local Open Scope string_scope. Local Open Scope list_scope.

Section C.
Context {K : num_ops}.
Implicit Types (t : token K) (stk post : list (token K)) (ts us : list (stok K)).

(** Tokens with the same node, at whatever position. *)
Definition nsim t t' : Prop := t_node t = t_node t'.
Notation NS := (Forall2 nsim).

Lemma nsim_op t t' : nsim t t' -> t_op t = t_op t'. Proof. unfold nsim, t_op. now intros ->. Qed.
Lemma nsim_type t t' : nsim t t' -> t_type t = t_type t'. Proof. unfold nsim, t_type. now intros ->. Qed.

Lemma resolves_nsim us : forall u l l', resolves u us l -> resolves u us l' -> NS l l'.
Proof.
  induction us as [|s us IH]; intros u [|t l] [|t' l']; cbn; try tauto; [constructor|].
  intros [E H] [E' H']. constructor; [unfold nsim; congruence|eauto].
Qed.

(** Popping does not look below a left parenthesis. *)
Lemma pop_while_frame p tl B P : t_op tl = MATH_LEFT_PARENTHESIS -> p MATH_LEFT_PARENTHESIS = false ->
  forall s s', NS s s' -> forall q q', NS q q' -> forall s1 q1, pop_while p s q = (s1, q1) ->
  exists s1' q1', pop_while p (s' ++ tl :: B) (P ++ q') = (s1' ++ tl :: B, P ++ q1') /\ NS s1 s1' /\ NS q1 q1'.
Proof.
  intros El Hp s s' Hs. induction Hs as [|t t' s s' Ht Hs IH]; intros q q' Hq s1 q1 H; cbn [pop_while app] in *.
  - injection H as <- <-. rewrite El, Hp. exists [], q'. auto.
  - rewrite <- (nsim_op _ _ Ht). destruct (p (t_op t)).
    + rewrite <- app_assoc. eapply IH; [|exact H]. apply Forall2_app; auto.
    + injection H as <- <-. exists (t' :: s'), q'. auto.
Qed.

Lemma pop_to_paren_frame tl B P : forall s s', NS s s' -> forall q q', NS q q' -> forall s1 q1, pop_to_paren s q = Ok (s1, q1) ->
  exists s1' q1', pop_to_paren (s' ++ tl :: B) (P ++ q') = Ok (s1' ++ tl :: B, P ++ q1') /\ NS s1 s1' /\ NS q1 q1'.
Proof.
  intros s s' Hs. induction Hs as [|t t' s s' Ht Hs IH]; intros q q' Hq s1 q1 H; cbn [pop_to_paren app] in *; [discriminate|].
  rewrite <- (nsim_op _ _ Ht).
  assert (G : pop_to_paren s (q ++ [t]) = Ok (s1, q1) ->
    exists s1' q1', pop_to_paren (s' ++ tl :: B) ((P ++ q') ++ [t']) = Ok (s1' ++ tl :: B, P ++ q1') /\ NS s1 s1' /\ NS q1 q1').
  { intros G. rewrite <- app_assoc. eapply IH; [|exact G]. apply Forall2_app; auto. }
  destruct (t_op t); try exact (G H). injection H as <- <-. exists s', q'. auto.
Qed.

Lemma squeezes_paren op : (op <> MATH_LEFT_PARENTHESIS) -> (op <> MATH_RIGHT_PARENTHESIS) -> op <> MATH_NULL -> squeezes op MATH_LEFT_PARENTHESIS = false.
Proof. intros H1 H2 H3. destruct op; try congruence; reflexivity. Qed.

Definition frame_of (tl : token K) B P (d : nat) (st st' : nat * list (token K) * list (token K)) : Prop :=
  exists s q, st' = (d + fst (fst st), s ++ tl :: B, P ++ q) /\ NS (snd (fst st)) s /\ NS (snd st) q.

Lemma step_frame c c' tl B P d st st1 st' f f' : t_op tl = MATH_LEFT_PARENTHESIS -> frame_of tl B P d st st' ->
  nsim f f' -> (t_type f = OPERATOR -> t_op f <> MATH_NULL) -> InOrderStep c st f = Ok st1 ->
  exists st1', InOrderStep c' st' f' = Ok st1' /\ frame_of tl B P d st1 st1'.
Proof.
  intros El (s & q & -> & Hs & Hq) Hf Nn H. destruct st as [[bal stk] post]. cbn [fst snd] in *.
  unfold InOrderStep in *. rewrite <- (nsim_type _ _ Hf), <- (nsim_op _ _ Hf).
  assert (O : exists st1', Ok (d + bal, s ++ tl :: B, (P ++ q) ++ [f']) = Ok st1' /\ frame_of tl B P d (bal, stk, post ++ [f]) st1').
  { eexists. split; [reflexivity|]. exists s, (q ++ [f']). rewrite <- app_assoc. split; [reflexivity|]. split; [exact Hs|]. apply Forall2_app; auto. }
  assert (U : forall b, exists st1', Ok (d + b, f' :: s ++ tl :: B, P ++ q) = Ok st1' /\ frame_of tl B P d (b, f :: stk, post) st1').
  { intros b. eexists. split; [reflexivity|]. exists (f' :: s), q. cbn. auto. }
  assert (W : forall op, squeezes op MATH_LEFT_PARENTHESIS = false ->
    (let '(stk1, post1) := pop_while (squeezes op) stk post in Ok (bal, f :: stk1, post1)) = Ok st1 ->
    exists st1', (let '(stk1, post1) := pop_while (squeezes op) (s ++ tl :: B) (P ++ q) in Ok (d + bal, f' :: stk1, post1)) = Ok st1' /\ frame_of tl B P d st1 st1').
  { intros op Hsq Ho. destruct (pop_while (squeezes op) stk post) as [k1 p1] eqn:Ep.
    destruct (pop_while_frame _ tl B P El Hsq stk s Hs post q Hq k1 p1 Ep) as (k1' & p1' & -> & H1 & H2).
    injection Ho as <-. eexists. split; [reflexivity|]. exists (f' :: k1'), p1'. cbn. auto. }
  destruct (t_type f); [injection H as <-; exact O| |injection H as <-; exact O].
  specialize (Nn eq_refl).
  destruct (t_op f); try (now destruct Nn); try (apply W; [reflexivity|exact H]); try (injection H as <-; apply U).
  - injection H as <-. replace (S (d + bal)) with (d + S bal) by lia. apply U.
  - destruct (Nat.eqb_spec bal 0) as [|Nb]; [discriminate|]. destruct (Nat.eqb_spec (d + bal) 0) as [|_]; [lia|].
    destruct (pop_to_paren stk post) as [[k1 p1]| | | | |] eqn:Ep; try discriminate. cbn [bind] in H.
    destruct (pop_to_paren_frame tl B P stk s Hs post q Hq k1 p1 Ep) as (k1' & p1' & -> & H1 & H2). cbn [bind].
    assert (F : exists k2 p2 k2' p2', pop_function (k1, p1) = (k2, p2) /\ pop_function (k1' ++ tl :: B, P ++ p1') = (k2' ++ tl :: B, P ++ p2') /\ NS k2 k2' /\ NS p2 p2').
    { unfold pop_function. cbn [fst snd]. destruct H1 as [|t t' k k' Ht Hk]; cbn [app].
      - rewrite El. cbn. exists [], p1, [], p1'. auto.
      - rewrite <- (nsim_op _ _ Ht). destruct (IsFunction (t_op t)).
        + exists k, (p1 ++ [t]), k', (p1' ++ [t']). rewrite <- app_assoc. repeat split; auto. apply Forall2_app; auto.
        + exists (t :: k), p1, (t' :: k'), p1'. repeat split; auto. }
    destruct F as (k2 & p2 & k2' & p2' & F1 & F2 & F3 & F4). rewrite F1 in H. rewrite F2.
    destruct (pop_while is_sign k2 p2) as [k3 p3] eqn:E3.
    destruct (pop_while_frame is_sign tl B P El eq_refl k2 k2' F3 p2 p2' F4 k3 p3 E3) as (k3' & p3' & -> & H3 & H4).
    injection H as <-. eexists. split; [reflexivity|]. exists k3', p3'. cbn. auto.
Qed.

Lemma run_frame c c' tl B P d : t_op tl = MATH_LEFT_PARENTHESIS -> forall l l', NS l l' ->
  (forall t, In t l -> t_type t = OPERATOR -> t_op t <> MATH_NULL) ->
  forall st st1 st', frame_of tl B P d st st' -> foldM (InOrderStep c) l st = Ok st1 ->
  exists st1', foldM (InOrderStep c') l' st' = Ok st1' /\ frame_of tl B P d st1 st1'.
Proof.
  intros El l l' Hl. induction Hl as [|f f' l l' Hf Hl IH]; intros Nn st st1 st' F H; cbn [foldM] in *.
  - injection H as <-. eauto.
  - destruct (InOrderStep c st f) as [st2| | | | |] eqn:E; try discriminate. cbn [bind] in H.
    destruct (step_frame c c' tl B P d st st2 st' f f' El F Hf (Nn f (or_introl eq_refl)) E) as (st2' & -> & F2). cbn [bind].
    eapply IH; eauto. intros t Ht. apply Nn. now right.
Qed.

Lemma bal_mono c l : forall (st st1 : nat * list (token K) * list (token K)), foldM (InOrderStep c) l st = Ok st1 -> fst (fst st) <= fst (fst st1).
Proof.
  induction l as [|f l IH]; intros st st1 H; cbn [foldM] in H; [injection H as <-; auto|].
  destruct (InOrderStep c st f) as [st2| | | | |] eqn:E; try discriminate. cbn [bind] in H. apply IH in H.
  enough (fst (fst st) <= fst (fst st2)) by lia. clear IH H. destruct st as [[bal stk] post]. unfold InOrderStep in E. cbn [fst snd].
  destruct (t_type f); [injection E as <-; auto| |injection E as <-; auto].
  destruct (t_op f); try (injection E as <-; cbn; lia);
    try (destruct (pop_while _ stk post) as [a b]; injection E as <-; cbn; lia).
  destruct (Nat.eqb bal 0); [discriminate|]. destruct (pop_to_paren stk post) as [[a b]| | | | |]; try discriminate. cbn [bind] in E.
  destruct (pop_function (a, b)) as [a1 b1]. destruct (pop_while is_sign a1 b1) as [a2 b2]. injection E as <-. cbn. lia.
Qed.

Lemma flush_inv c stk : forall post r, flush c stk post = Ok r -> r = post ++ stk /\ Forall (fun t => t_op t <> MATH_LEFT_PARENTHESIS) stk.
Proof.
  induction stk as [|t stk IH]; intros post r H; cbn [flush] in H; [injection H as <-; rewrite app_nil_r; auto|].
  assert (G : flush c stk (post ++ [t]) = Ok r -> t_op t <> MATH_LEFT_PARENTHESIS -> r = post ++ t :: stk /\ Forall (fun t => t_op t <> MATH_LEFT_PARENTHESIS) (t :: stk)).
  { intros G Nt. apply IH in G as [-> G]. rewrite <- app_assoc. auto. }
  destruct (t_op t) eqn:E; try discriminate; apply G; auto; discriminate.
Qed.

Lemma items_rpn e : forall post, Forall2 is_item post (items e) -> map t_node post = rpn e.
Proof.
  induction e as [v|x|u a IH|b a IHa c IHc]; cbn [items rpn]; intros post H.
  - inversion H as [|t i l li H1 H2]; subst. inversion H2; subst. cbn in *. now rewrite H1.
  - inversion H as [|t i l li H1 H2]; subst. inversion H2; subst. cbn in *. now rewrite H1.
  - apply Forall2_app_inv_r in H as (l1 & l2 & H1 & H2 & ->). rewrite map_app, (IH _ H1). f_equal.
    inversion H2 as [|t i l li H3 H4]; subst. inversion H4; subst. cbn in *. now rewrite H3.
  - apply Forall2_app_inv_r in H as (l1 & l2 & H1 & H2 & ->). apply Forall2_app_inv_r in H2 as (l3 & l4 & H3 & H4 & ->).
    rewrite !map_app, (IHa _ H1), (IHc _ H3). do 2 f_equal.
    inversion H4 as [|t i l li H5 H6]; subst. inversion H6; subst. cbn in *. now rewrite H5.
Qed.

Lemma NS_map l l' : NS l l' -> map t_node l = map (t_node (K:=K)) l'.
Proof. induction 1 as [|t t' l l' H _ IH]; cbn; [auto|]. unfold nsim in H. now rewrite H, IH. Qed.
Lemma NS_not_lp l l' : NS l l' -> Forall (fun t => t_op t <> MATH_LEFT_PARENTHESIS) l -> Forall (fun t => t_op t <> MATH_LEFT_PARENTHESIS) l'.
Proof. induction 1 as [|t t' l l' H _ IH]; intros F; constructor; inversion F; subst; [now rewrite <- (nsim_op _ _ H)|auto]. Qed.

(** The tokens of an accepted text are a block, wherever they stand between parentheses. *)
Lemma block_of_parse s (a : expr K) us : Parse s = Ok (embed a) -> renders fnv1a us s ->
  forall toks, resolves true us toks -> tok_block toks a.
Proof.
  intros H Hr toks Ht. assert (Hne : s <> "") by (intros ->; discriminate).
  destruct (Parse_tokens us s Hne Hr) as (toks0 & Hres & Hit & _ & _ & E). rewrite E in H.
  destruct (inorder_total s toks0 _ Hit) as [(post & pi & Ep & Hpi & Hout & _)|[(f & _ & Ef & _)|(w & p & q & Ew & _)]].
  2:{ rewrite Ef in H. discriminate. }
  2:{ rewrite Ew in H. discriminate. }
  rewrite Ep in H. cbn [bind] in H.
  destruct (build_outcome s post pi Hpi Hout) as [(e & Ee & Hi)|[(w & Ew & _)|[Em|(errs & Em & _)]]]; try congruence.
  rewrite Ee in H. injection H as H. apply embed_inj in H. subst e. subst pi. apply items_rpn in Hpi.
  unfold InOrderToPostOrder in Ep. destruct (foldM (InOrderStep s) toks0 (0, [], [])) as [[[bal stk] q]| | | | |] eqn:Er; try discriminate.
  cbn [bind] in Ep. apply flush_inv in Ep as [-> Hlp].
  intros content b tl B P Htl.
  assert (El : t_op tl = MATH_LEFT_PARENTHESIS) by (unfold t_op; now rewrite Htl).
  destruct (run_frame s content tl B P (S b) El toks0 toks (resolves_nsim _ _ _ _ Hres Ht)) with (st := (0, @nil (token K), @nil (token K))) (st1 := (bal, stk, q)) (st' := (S b, tl :: B, P))
    as (st1' & R & k & p & -> & H1 & H2); auto.
  - intros t It Ty. revert Hit It. generalize (titems true us). clear -Ty. intros is F. induction F as [|t0 i l li Hi _ IH]; intros []; auto.
    subst t0. unfold t_op. unfold t_type in Ty. destruct i as [[]|[[]|[]]| |]; cbn in Hi; try tauto; rewrite Hi in *; discriminate.
  - exists [], []. cbn. rewrite Nat.add_0_r, app_nil_r. auto.
  - cbn [fst snd] in *. exists k, p, (S b + bal). split; [exact R|]. split; [|split; [eapply NS_not_lp; eauto|lia]].
    rewrite <- Hpi, !map_app, (NS_map _ _ H1), (NS_map _ _ H2). reflexivity.
Qed.

(** ** Contexts *)
Section Replace.
Context (rho : string -> option string) (s : substitution (K:=K)) (tks : string -> list (stok K)).
Hypothesis Hrho : forall x txt, rho x = Some txt ->
  exists a, s x = Some a /\ Parse txt = Ok (embed a) /\ renders fnv1a (tks x) txt.
Hypothesis Hs : forall x, rho x = None -> s x = None.

(** The tokens of the text after the replacement. *)
Definition rtok (t : stok K) : list (stok K) :=
  match t with
  | SVar x => match rho x with Some _ => SLP :: tks x ++ [SRP] | None => [t] end
  | _ => [t]
  end.
Definition rtoks (ts : list (stok K)) : list (stok K) := flat_map rtok ts.

Lemma rtoks_app a b : rtoks (a ++ b) = rtoks a ++ rtoks b. Proof. apply flat_map_app. Qed.
Lemma rtoks_cons (t : stok K) ts : rtoks (t :: ts) = rtok t ++ rtoks ts. Proof. reflexivity. Qed.

Lemma after_list_app2 u (a b : list (stok K)) : after_list u (a ++ b) = after_list (after_list u a) b.
Proof.
  revert u. induction a as [|t a IH]; intros u; [reflexivity|]. cbn [app]. now rewrite !after_list_cons.
Qed.
Lemma after_rtok u (t : stok K) : after_list u (rtok t) = after t.
Proof.
  destruct t as [v|x| | | |]; cbn [rtok]; try reflexivity. destruct (rho x); [|reflexivity].
  exact (after_list_app u (SLP :: tks x) SRP).
Qed.
Lemma after_rtoks u ts : after_list u (rtoks ts) = after_list u ts.
Proof.
  revert u. induction ts as [|t ts IH]; intros u; [reflexivity|].
  now rewrite rtoks_cons, after_list_app2, after_rtok, after_list_cons.
Qed.

Lemma derives_replace k ts (e : expr K) : derives k ts e -> forall toks,
  resolves true (rtoks ts) toks -> rder k toks (subst s e).
Proof using Hrho Hs.
  induction 1 as [k ts e Hk H IH|k c b ts1 e1 ts2 e2 Hop H1 IH1 H2 IH2
    |ts1 e1 ts2 e2 H1 IH1 H2 IH2|c u ts e Hop H IH|v|x|ts e H IH
    |u name ts e Hu H IH]; intros toks Hr; cbn [subst].
  - apply rd_up; auto.
  - rewrite rtoks_app, rtoks_cons in Hr. cbn [rtok app] in Hr.
    apply resolves_app in Hr as (k1 & k2 & -> & Hr1 & Hr2).
    destruct k2 as [|t k2]; [destruct Hr2|]. destruct Hr2 as [Ht Hr2].
    rewrite after_rtoks, (derives_after _ _ _ H1) in Ht.
    eapply rd_left; eauto. unfold tok_is. rewrite Ht. destruct Hop; reflexivity.
  - rewrite rtoks_app, rtoks_cons in Hr. cbn [rtok app] in Hr.
    apply resolves_app in Hr as (k1 & k2 & -> & Hr1 & Hr2).
    destruct k2 as [|t k2]; [destruct Hr2|]. destruct Hr2 as [Ht Hr2].
    eapply rd_pow; eauto.
  - rewrite rtoks_cons in Hr. cbn [rtok app] in Hr. destruct toks as [|t toks]; [destruct Hr|]. destruct Hr as [Ht Hr].
    eapply rd_sign; eauto. unfold tok_is. rewrite Ht. destruct Hop; reflexivity.
  - destruct toks as [|t [|? ?]]; simpl in Hr; try tauto. destruct Hr as [Ht _]. now apply rd_num.
  - unfold rtoks in Hr. cbn [flat_map rtok] in Hr. rewrite app_nil_r in Hr. destruct (rho x) as [txt|] eqn:E.
    + destruct (Hrho x txt E) as (a & -> & Pa & Ra).
      destruct toks as [|t toks]; [destruct Hr|]. destruct Hr as [Ht Hr].
      apply resolves_app in Hr as (k1 & k2 & -> & Hr1 & Hr2).
      destruct k2 as [|t' [|? ?]]; simpl in Hr2; try tauto. destruct Hr2 as [Ht' _].
      apply rd_block; [exact Ht|exact Ht'|]. eapply block_of_parse; eauto.
    + rewrite (Hs x E). destruct toks as [|t [|? ?]]; simpl in Hr; try tauto. destruct Hr as [Ht _]. now apply rd_var.
  - rewrite rtoks_cons, rtoks_app in Hr. cbn [rtok app] in Hr. destruct toks as [|t toks]; [destruct Hr|]. destruct Hr as [Ht Hr].
    apply resolves_app in Hr as (k1 & k2 & -> & Hr1 & Hr2).
    destruct k2 as [|t' [|? ?]]; simpl in Hr2; try tauto. destruct Hr2 as [Ht' _].
    apply rd_paren; auto.
  - rewrite !rtoks_cons, rtoks_app in Hr. cbn [rtok app] in Hr. destruct toks as [|tf toks]; [destruct Hr|]. destruct Hr as [Hf Hr].
    destruct toks as [|t toks]; [destruct Hr|]. destruct Hr as [Ht Hr].
    apply resolves_app in Hr as (k1 & k2 & -> & Hr1 & Hr2).
    destruct k2 as [|t' [|? ?]]; simpl in Hr2; try tauto. destruct Hr2 as [Ht' _].
    eapply rd_fun; eauto.
Qed.

Lemma parse_rder ts text e : renders fnv1a ts text -> text <> "" -> (forall toks, resolves true ts toks -> rder 0 toks e) ->
  Parse (K:=K) text = Ok (embed e).
Proof.
  intros Hr Hne H. unfold Parse, ParseToTokens.
  destruct (lex_renders _ _ Hr 0 []) as (toks & E & Hres). rewrite app_nil_r in E.
  destruct text as [|c text]; [congruence|]. rewrite E. cbn [bind]. rewrite rev_involutive.
  destruct (inorder_ok (String c text) _ _ (H toks Hres)) as (post & -> & Hm). cbn [bind].
  now apply build_tree_ok.
Qed.

(** Texts written one after the other. *)
Lemma renders_app a : forall (t : string) b (t' : string), renders (K:=K) fnv1a a t -> renders (K:=K) fnv1a b t' -> (delimited t' \/ t' = "") ->
  renders (K:=K) fnv1a (a ++ b) (t ++ t')%string.
Proof.
  intros t b t' H H' D. induction H as [ws Hws|ws x w ts rest Hws Hl Hr IH Hd].
  - cbn [app]. inversion H' as [ws' Hws'|ws' x w ts rest Hws' Hl Hr Hd]; subst.
    + apply r_nil. clear -Hws Hws'. induction ws as [|c ws IH]; cbn in *; tauto.
    + rewrite <- str_app_assoc. apply r_cons; auto. clear -Hws Hws'. induction ws as [|c ws IH]; cbn in *; tauto.
  - cbn [app]. rewrite !str_app_assoc. apply r_cons; auto. intros Hw. specialize (Hd Hw).
    destruct rest as [|c rest]; cbn [append]; [|exact Hd]. destruct D as [D|D]; [exact D|subst; exact Logic.I].
Qed.

Lemma renders_paren us txt : renders (K:=K) fnv1a us txt -> renders (K:=K) fnv1a (SLP :: us ++ [SRP]) ("(" ++ txt ++ ")")%string.
Proof.
  intros H. apply (r_cons fnv1a "" SLP "("); [exact Logic.I|constructor| |intros []].
  apply renders_app; auto.
  - apply (r_cons fnv1a "" SRP ")" [] ""); [exact Logic.I|constructor|constructor; exact Logic.I|intros []].
  - left. cbn. right. unfold symbol. cbn. tauto.
Qed.

Lemma replaced_renders ts text text' : replaced fnv1a rho ts text text' ->
  renders (K:=K) fnv1a ts text /\ renders (K:=K) fnv1a (rtoks ts) text' /\ (delimited text -> delimited text').
Proof using Hrho.
  induction 1 as [ws Hws|ws t w ts rest rest' Hws Hl H IH Hd Hk|ws x txt ts rest rest' Hws Hl H IH Hd Hx].
  - repeat split; try (now constructor). auto.
  - destruct IH as (I1 & I2 & I3). split; [|split].
    + now apply r_cons.
    + rewrite rtoks_cons. assert (E : rtok t = [t]) by (destruct t; cbn; auto; now rewrite (Hk _ eq_refl)). rewrite E.
      apply r_cons; auto.
    + destruct ws as [|c ws]; [|exact (fun D => D)]. cbn [append]. destruct w as [|c w]; [|exact (fun D => D)]. exact I3.
  - destruct IH as (I1 & I2 & I3). destruct (Hrho x txt Hx) as (a & _ & _ & Ra). split; [|split].
    + apply r_cons; auto.
    + rewrite rtoks_cons. cbn [rtok]. rewrite Hx.
      assert (Q : renders (K:=K) fnv1a (SLP :: tks x ++ [SRP]) (ws ++ "(" ++ txt ++ ")")%string).
      { apply (r_cons fnv1a ws SLP "("); [exact Hws|constructor| |intros []]. pose proof (renders_paren _ _ Ra) as Q.
        inversion Q as [|ws0 t0 w0 ts0 rest0 Hw0 Hl0 Hr0 Hd0 E1 E2]; subst. inversion Hl0; subst.
        destruct ws0 as [|c0 ws0]; cbn in E2; [|destruct Hw0 as [Hsp _]; injection E2 as E2 _; subst c0; unfold space in Hsp; cbn in Hsp; lia].
        injection E2 as E2. subst. exact Hr0. }
      replace (ws ++ "(" ++ txt ++ ")" ++ rest')%string with ((ws ++ "(" ++ txt ++ ")") ++ rest')%string by (now rewrite !str_app_assoc).
      apply renders_app; auto.
    + destruct ws as [|c ws]; [|exact (fun D => D)]. intros _. right. unfold symbol. cbn. tauto.
Qed.
End Replace.
End C.

Section Theorems.
Context {K : num_ops}.

(** The tokens of a text, computed. *)
Definition unstok (t : token K) : stok K :=
  match t_node t with
  | N NUMBER _ v _ _ _ => SNum v
  | N VARIABLE _ _ x _ _ => SVar x
  | N OPERATOR op _ _ _ _ =>
      match op with
      | MATH_LEFT_PARENTHESIS => SLP | MATH_RIGHT_PARENTHESIS => SRP
      | MATH_SIN => SFun USin | MATH_COS => SFun UCos | MATH_TAN => SFun UTan
      | MATH_ARCSIN => SFun UAsin | MATH_ARCCOS => SFun UAcos | MATH_ARCTAN => SFun UAtan
      | MATH_SQRT => SFun USqrt | MATH_LOG => SFun ULog | MATH_LOG2 => SFun ULog2 | MATH_LOG10 => SFun ULog10
      | MATH_EXP => SFun UExp
      | MATH_POSITIVE | MATH_ADD => SSym "+" | MATH_NEGATIVE | MATH_SUB => SSym "-"
      | MATH_MULTIPLY => SSym "*" | MATH_DIVIDE => SSym "/" | MATH_POWER => SSym "^"
      | MATH_AND => SSym "&" | MATH_OR => SSym "|" | _ => SSym "%"
      end
  | Nil => SLP
  end.

Lemma unstok_ok us : forall u (toks : list (token K)), resolves u us toks -> Forall2 (fun t k => lexeme (K:=K) fnv1a t (t_s k)) us toks -> map unstok toks = us.
Proof.
  induction us as [|t us IH]; intros u [|k toks]; cbn [resolves map]; try tauto.
  intros [E H] F. inversion F as [|? ? ? ? Hl F']; subst. f_equal; [|eauto].
  unfold unstok. rewrite E. inversion Hl as [| |f name w Hf| c Hc N1 N2| |]; subst; cbn; auto.
  - destruct f; try discriminate; reflexivity.
  - unfold symbol in Hc. cbn in Hc. repeat (destruct Hc as [<-|Hc]; [try congruence; destruct u; reflexivity|]). destruct Hc.
Qed.

Definition tokens_of (s : string) : list (stok K) :=
  match ParseToTokens (K:=K) s with Ok toks => map unstok toks | _ => [] end.

Lemma tokens_of_ok s n : Parse (K:=K) s = Ok n -> renders (K:=K) fnv1a (tokens_of s) s.
Proof.
  intros H. assert (Hne : s <> "") by (intros ->; discriminate).
  destruct (C11_parse_sound s n H) as (us & e & Hr & _).
  destruct (lexemes_total s 0) as [ws Hws].
  destruct (lex_total 0 ws s Hws (K:=K) []) as [(ts' & toks & Hr' & E & Hres & Hpos & _ & Hlx)|(w & p & msg & E & _)].
  - unfold tokens_of, ParseToTokens. destruct s as [|c s]; [congruence|]. rewrite (lex_lexemes 0 ws _ Hws), E. cbn [bind].
    rewrite app_nil_r, rev_involutive. now rewrite (unstok_ok _ _ _ Hres Hlx).
  - exfalso. destruct (lex_renders us s Hr 0 []) as (toks0 & E0 & _). rewrite (lex_lexemes 0 ws s Hws), E in E0. discriminate.
Qed.

(** Replacing variables of a well-formed text by accepted texts in parentheses, and then reading
    it, gives the expression of the text with the variables substituted, as Subs does. *)
Theorem C78_replace (rho : string -> option string) (s : substitution (K:=K)) ts (e : expr K) text text' :
  derives 0 ts e -> replaced fnv1a rho ts text text' ->
  (forall x, match rho x, s x with
             | Some txt, Some a => Parse (K:=K) txt = Ok (embed a)
             | None, None => True
             | _, _ => False end) ->
  Parse (K:=K) text = Ok (embed e) /\ Parse (K:=K) text' = Ok (embed (subst s e)).
Proof.
  intros D R H.
  set (tks := fun x => match rho x with Some txt => tokens_of txt | None => [] end).
  assert (Hrho : forall x txt, rho x = Some txt -> exists a, s x = Some a /\ Parse (K:=K) txt = Ok (embed a) /\ renders fnv1a (tks x) txt).
  { intros x txt E. specialize (H x). unfold tks. rewrite E in *. destruct (s x) as [a|]; [|tauto].
    exists a. split; [auto|]. split; [exact H|]. eapply tokens_of_ok; exact H. }
  assert (Hs : forall x, rho x = None -> s x = None).
  { intros x E. specialize (H x). rewrite E in H. destruct (s x); [tauto|auto]. }
  destruct (replaced_renders rho s tks Hrho ts text text' R) as (R1 & R2 & _).
  split; [now apply (parse_complete ts e text)|].
  apply (parse_rder (rtoks rho tks ts)); [exact R2| |].
  - apply (renders_not_empty _ _ R2). pose proof (derives_not_nil _ _ _ D) as N. destruct ts as [|t ts]; [congruence|].
    rewrite rtoks_cons. destruct t as [|x| | | |]; cbn [rtok]; try discriminate. destruct (rho x); discriminate.
  - intros toks Ht. eapply derives_replace; eauto.
Qed.

(** The same with the functions Parse and Subs only, for one variable. *)
Theorem C78_subs (x : string) (s : string) ts (e : expr K) text text' n :
  derives 0 ts e -> replaced fnv1a (fun y => if String.eqb y x then Some s else None) ts text text' ->
  Parse (K:=K) s = Ok n ->
  exists m r, Parse (K:=K) text = Ok m /\ Subs1 m x n = Ok r /\ Parse (K:=K) text' = Ok r.
Proof.
  intros D R P. destruct (C11_parse_sound s n P) as (us & a & _ & -> & _).
  destruct (C78_replace (fun y => if String.eqb y x then Some s else None) (fun y => if String.eqb y x then Some a else None) ts e text text' D R) as [H1 H2].
  { intros y. destruct (String.eqb y x); [exact P|exact Logic.I]. }
  exists (embed e), (embed (subst (fun y => if String.eqb y x then Some a else None) e)).
  split; [exact H1|]. split; [apply C24_subs_single|exact H2].
Qed.

(** ** Building texts *)
Lemma rder_up k (toks : list (token K)) e : k <= 6 -> rder 6 toks e -> rder k toks e.
Proof.
  intros Hk H. remember (6 - k) as d eqn:Ed. revert k Hk Ed. induction d as [|d IH]; intros k Hk Ed.
  - replace k with 6 by lia. exact H.
  - apply rd_up; [lia|]. apply IH; lia.
Qed.

Lemma rder_down k (toks : list (token K)) e : k <= 4 -> rder k toks e -> rder 0 toks e.
Proof. induction k as [|k IH]; intros Hk H; [exact H|]. apply IH; [lia|]. apply rd_up; [lia|exact H]. Qed.

Lemma paren_block s (a : expr K) toks u : Parse (K:=K) s = Ok (embed a) -> resolves u (SLP :: tokens_of s ++ [SRP]) toks -> rder 6 toks a.
Proof.
  intros P Hr. destruct toks as [|t toks]; [destruct Hr|]. destruct Hr as [Ht Hr].
  apply resolves_app in Hr as (k1 & k2 & -> & Hr1 & Hr2).
  destruct k2 as [|t' [|? ?]]; simpl in Hr2; try tauto. destruct Hr2 as [Ht' _].
  apply rd_block; [exact Ht|exact Ht'|]. eapply block_of_parse; [exact P|eapply tokens_of_ok; exact P|exact Hr1].
Qed.

Theorem C78_parens s (n : node K) : Parse (K:=K) s = Ok n -> Parse (K:=K) ("(" ++ s ++ ")") = Ok n.
Proof.
  intros P. destruct (C11_parse_sound s n P) as (us & a & _ & -> & _).
  apply (parse_rder (SLP :: tokens_of s ++ [SRP])).
  - apply renders_paren. eapply tokens_of_ok; exact P.
  - discriminate.
  - intros toks Hr. apply rder_up; [lia|]. eapply paren_block; eauto.
Qed.

(** "(s)op(s')" is the operator applied to the two expressions; the operators are the characters
    of the grammar. *)
Theorem C78_binary s s' (n n' : node K) c b : Parse (K:=K) s = Ok n -> Parse (K:=K) s' = Ok n' ->
  sym_meaning c false = Some (inr b) ->
  exists a a', n = embed a /\ n' = embed a' /\
    Parse (K:=K) ("(" ++ s ++ ")" ++ String c "" ++ "(" ++ s' ++ ")") = Ok (embed (EBin b a a')).
Proof.
  intros P P' M. destruct (C11_parse_sound s n P) as (us & a & _ & -> & _).
  destruct (C11_parse_sound s' n' P') as (us' & a' & _ & -> & _).
  exists a, a'. split; [reflexivity|]. split; [reflexivity|].
  assert (Sy : symbol c /\ c <> "("%char /\ c <> ")"%char).
  { unfold sym_meaning in M. assert (c <> "("%char /\ c <> ")"%char) by (split; intros ->; discriminate). split; [|auto].
    unfold symbol. destruct c as [[] [] [] [] [] [] [] []]; try discriminate; cbn; tauto. }
  destruct Sy as (Sy & N1 & N2).
  apply (parse_rder ((SLP :: tokens_of s ++ [SRP]) ++ SSym c :: (SLP :: tokens_of s' ++ [SRP]))).
  - replace ("(" ++ s ++ ")" ++ String c "" ++ "(" ++ s' ++ ")")%string with (("(" ++ s ++ ")") ++ ("" ++ String c "" ++ ("(" ++ s' ++ ")")))%string by (now rewrite !str_app_assoc).
    apply renders_app.
    + apply renders_paren. eapply tokens_of_ok; exact P.
    + apply r_cons; [exact Logic.I|now constructor|apply renders_paren; eapply tokens_of_ok; exact P'|intros []].
    + left. right. exact Sy.
  - discriminate.
  - intros toks Hr. apply resolves_app in Hr as (k1 & k2 & -> & Hr1 & Hr2).
    destruct k2 as [|t k2]; [destruct Hr2|]. destruct Hr2 as [Ht Hr2].
    change (SLP :: tokens_of s ++ [SRP]) with ((SLP :: tokens_of s) ++ [SRP]) in Ht.
    rewrite after_list_app in Ht. cbn [after] in Ht.
    pose proof (paren_block s a k1 true P Hr1) as B1. pose proof (paren_block s' a' k2 _ P' Hr2) as B2.
    assert (L : (exists k, left_op k c b /\ k <= 4) \/ (c = "^"%char /\ b = BPow)).
    { unfold sym_meaning in M. destruct c as [[] [] [] [] [] [] [] []]; try discriminate; injection M as <-;
        solve [right; auto|left; eexists; split; [constructor|lia]]. }
    destruct L as [(k & Hk & K4)|[-> ->]].
    + assert (G : rder k (k1 ++ t :: k2) (EBin b a a')).
      { eapply rd_left; [exact Hk| |apply rder_up; [lia|exact B1]|apply rder_up; [lia|exact B2]].
        unfold tok_is. rewrite Ht. destruct Hk; reflexivity. }
      exact (rder_down k _ _ K4 G).
    + do 2 (apply rd_up; [lia|]). apply rd_pow; [exact Ht|apply rder_up; [lia|exact B1]|apply rder_up; [lia|exact B2]].
Qed.

(** A sign in front of a text in parentheses. *)
Theorem C78_sign s (n : node K) c u : Parse (K:=K) s = Ok n -> sign_op c u ->
  exists a, n = embed a /\ Parse (K:=K) (String c "" ++ "(" ++ s ++ ")") = Ok (embed (EUn u a)).
Proof.
  intros P M. destruct (C11_parse_sound s n P) as (us & a & _ & -> & _). exists a. split; [reflexivity|].
  apply (parse_rder (SSym c :: SLP :: tokens_of s ++ [SRP])).
  - apply (r_cons fnv1a "" (SSym c) (String c "")); [exact Logic.I| |apply renders_paren; eapply tokens_of_ok; exact P|intros []].
    destruct M; constructor; try discriminate; unfold symbol; cbn; tauto.
  - discriminate.
  - intros [|t toks] Hr; [destruct Hr|]. destruct Hr as [Ht Hr]. do 5 (apply rd_up; [lia|]).
    eapply rd_sign; [exact M| |apply rder_up; [lia|eapply paren_block; [exact P|exact Hr]]].
    unfold tok_is. rewrite Ht. destruct M; reflexivity.
Qed.

(** A function name (a word the lexer takes for it) in front of a text in parentheses. *)
Theorem C78_function s (n : node K) w u name : Parse (K:=K) s = Ok n -> fun_name u = Some name -> lexeme (K:=K) fnv1a (SFun u) w ->
  exists a, n = embed a /\ Parse (K:=K) (w ++ "(" ++ s ++ ")") = Ok (embed (EUn u a)).
Proof.
  intros P Hn Hl. destruct (C11_parse_sound s n P) as (us & a & _ & -> & _). exists a. split; [reflexivity|].
  assert (R : renders (K:=K) fnv1a (SFun u :: SLP :: tokens_of s ++ [SRP]) (w ++ "(" ++ s ++ ")")).
  { apply (r_cons fnv1a "" (SFun u) w); [exact Logic.I|exact Hl|apply renders_paren; eapply tokens_of_ok; exact P|].
    intros _. right. unfold symbol. cbn. tauto. }
  apply (parse_rder _ _ _ R).
  - eapply renders_not_empty; [exact R|discriminate].
  - intros [|tf toks] Hr; [destruct Hr|]. destruct Hr as [Hf Hr]. apply rder_up; [lia|].
    destruct toks as [|t toks]; [destruct Hr|]. destruct Hr as [Ht Hr].
    apply resolves_app in Hr as (k1 & k2 & -> & Hr1 & Hr2).
    destruct k2 as [|t' [|? ?]]; simpl in Hr2; try tauto. destruct Hr2 as [Ht' _].
    eapply rd_fblock; eauto. eapply block_of_parse; [exact P|eapply tokens_of_ok; exact P|exact Hr1].
Qed.
End Theorems.

(** "x^ -y" with "a b +" (which Parse accepts) for x. *)
Example C78_ex_context : exists ts e, derives 0 ts e /\
  replaced (K:=D) fnv1a (fun y => if String.eqb y "x" then Some "a b +" else None) ts "x^ -y" "(a b +)^ -y".
Proof.
  exists ([SVar "x"] ++ SSym "^" :: [SSym "-"; SVar "y"]), (EBin BPow (EVar "x") (EUn UNeg (EVar "y"))). split.
  - apply d_up; [lia|]. apply d_up; [lia|]. apply d_pow.
    + repeat (apply d_up; [lia|]). apply d_var.
    + apply d_up; [lia|]. apply d_up; [lia|]. apply d_up; [lia|]. eapply d_sign; [constructor|]. apply d_up; [lia|]. apply d_var.
  - apply (rp_var fnv1a _ "" "x" "a b +" _ "^ -y" "^ -y"); [exact Logic.I|apply var_lexeme; vm_compute; reflexivity| |right; unfold symbol; cbn; tauto|reflexivity].
    apply (rp_keep fnv1a _ "" (SSym "^") "^" _ " -y" " -y"); [exact Logic.I|apply sym_lexeme; [reflexivity|discriminate|discriminate]| |intros []|discriminate].
    apply (rp_keep fnv1a _ " " (SSym "-") "-" _ "y" "y"); [exact spc|apply sym_lexeme; [reflexivity|discriminate|discriminate]| |intros []|discriminate].
    apply (rp_keep fnv1a _ "" (SVar "y") "y" _ "" ""); [exact Logic.I|apply var_lexeme; vm_compute; reflexivity|apply rp_nil; exact Logic.I|intros _; exact Logic.I|].
    intros y E. injection E as <-. reflexivity.
Qed.

Example C78_ex_read : Parse (K:=D) "(a b +)^ -y" = Ok (embed (EBin BPow (EBin BAdd (EVar "a") (EVar "b")) (EUn UNeg (EVar "y")))).
Proof. cbv -[D]. reflexivity. Qed.

(** The parentheses are needed; and so is a well-formed context: "- x y +" is accepted, but putting
    its x between parentheses changes its meaning. *)
Example C78_ex_needed :
  (let r : expr D := EBin BMul (EVar "x") (EVar "y") in let a : expr D := EBin BAdd (EVar "a") (EVar "b") in
   Parse (K:=D) "x*y" = Ok (embed r) /\ Parse (K:=D) "a+b" = Ok (embed a) /\
   Parse (K:=D) "(a+b)*y" = Ok (embed (EBin BMul a (EVar "y"))) /\
   Parse (K:=D) "a+b*y" = Ok (embed (EBin BAdd (EVar "a") (EBin BMul (EVar "b") (EVar "y"))))) /\
  Parse (K:=D) "- x y +" = Ok (embed (EBin BAdd (EVar "x") (EUn UNeg (EVar "y")))) /\
  Parse (K:=D) "- (x) y +" = Ok (embed (EBin BAdd (EUn UNeg (EVar "x")) (EVar "y"))).
Proof. repeat split; cbv -[D]; reflexivity. Qed.
