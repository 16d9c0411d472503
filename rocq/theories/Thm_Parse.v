(** Theorems about Parse: C10 - C13. *)
From Coq Require Import String Ascii List ZArith Bool Arith Lia Permutation.
From Verif Require Import Base MathOp IEEE NodeModel ParseModel ExprSpec GrammarSpec NodeProofs ParseProofs ParseSound ParseTotal.
Import ListNotations.
Local Open Scope string_scope. Local Open Scope list_scope.

(** ** Specification vocabulary for outcomes *)

(** [closes_too_much p q ts]: [ts] = [p ) q] where every ')' of [p] has its '(' but the ')'
    after [p] has none. *)
Definition first_overclose {V} (p q ts : list (stok V)) : Prop :=
  ts = p ++ SRP :: q /\ never_overclosed p /\ closes p = opens p.

Definition balanced {V} (ts : list (stok V)) : Prop :=
  never_overclosed ts /\ closes ts = opens ts.

(** Position [pos] of the text [s] shows the text [w]. *)
Definition shows (s : string) (pos : nat) (w : string) : Prop :=
  w <> "" /\ String.substring pos (String.length w) s = w /\ pos + String.length w <= String.length s.

Lemma F2_length {A B} (R : A -> B -> Prop) l l' : Forall2 R l l' -> length l = length l'.
Proof. induction 1; simpl; congruence. Qed.

Section Link.
Context {K : num_ops}.

Fixpoint titems (unary : bool) (ts : list (stok K)) : list (item (K:=K)) :=
  match ts with
  | [] => []
  | t :: ts' =>
      match t with
      | SNum v => [IOpd (ENum v)] | SVar x => [IOpd (EVar x)]
      | SFun u => [IOp (inl u)]
      | SSym c => match sym_meaning c unary with Some o => [IOp o] | None => [] end
      | SLP => [IL] | SRP => [IR]
      end ++ titems (after t) ts'
  end.

Definition lexed (ts : list (stok K)) : Prop := Forall (fun t => exists w, lexeme fnv1a t w) ts.

Lemma renders_lexed ts s : renders (K:=K) fnv1a ts s -> lexed ts.
Proof. induction 1; constructor; eauto. Qed.

Lemma sym_meaning_op c u : symbol c -> c <> "("%char -> c <> ")"%char ->
  exists o, sym_meaning c u = Some o /\ op_of o = BaseOperatorCharToEnum c u.
Proof.
  intros H N1 N2. unfold symbol in H. simpl in H.
  repeat (destruct H as [<-|H]; [destruct u; try congruence; eexists; split; reflexivity|]). destruct H.
Qed.

Lemma titems_is ts : forall u toks, lexed ts -> resolves u ts toks -> Forall2 is_item toks (titems u ts).
Proof.
  induction ts as [|t ts IH]; intros u toks Hl Hr; destruct toks as [|k toks]; simpl in Hr; try tauto.
  - constructor.
  - destruct Hr as [Hk Hr]. inversion Hl as [|? ? [w Hw] Hl']; subst.
    specialize (IH (after t) toks Hl' Hr). cbn [titems].
    destruct t as [v|x|f|c| |]; simpl in Hk |- *; try (constructor; [exact Hk|exact IH]).
    inversion Hw; subst. destruct (sym_meaning_op c u) as (o & -> & E); auto.
    constructor; auto. simpl. rewrite E. exact Hk.
Qed.

Lemma titems_opds ts : forall u, opds (titems u ts) = operands ts.
Proof.
  induction ts as [|t ts IH]; intros u; auto. cbn [titems operands]. rewrite opds_app, IH.
  destruct t; simpl; auto. destruct (sym_meaning c u); auto.
Qed.
Lemma titems_iops ts : forall u, iops (titems u ts) = operators u ts.
Proof.
  induction ts as [|t ts IH]; intros u; auto. cbn [titems operators]. rewrite iops_app, IH.
  destruct t; simpl; auto. destruct (sym_meaning c u); auto.
Qed.
Lemma titems_lps ts : forall u, lps (titems u ts) = opens ts.
Proof.
  induction ts as [|t ts IH]; intros u; auto. cbn [titems]. rewrite lps_app, IH.
  unfold opens. destruct t; simpl; auto. destruct (sym_meaning c u); auto.
Qed.
Lemma titems_rps ts : forall u, rps (titems u ts) = closes ts.
Proof.
  induction ts as [|t ts IH]; intros u; auto. cbn [titems]. rewrite rps_app, IH.
  unfold closes. destruct t; simpl; auto. destruct (sym_meaning c u); auto.
Qed.

Lemma titems_app ts1 : forall u ts2, titems u (ts1 ++ ts2) = titems u ts1 ++ titems (after_list u ts1) ts2.
Proof.
  induction ts1 as [|t ts1 IH]; intros u ts2; [reflexivity|].
  cbn [app titems]. rewrite IH, app_assoc, after_list_cons. reflexivity.
Qed.

(** Splitting the items splits the tokens. *)
Lemma titems_split ts : forall u p q, lexed ts -> titems u ts = p ++ q ->
  exists ts1 ts2, ts = ts1 ++ ts2 /\ titems u ts1 = p /\ titems (after_list u ts1) ts2 = q.
Proof.
  induction ts as [|t ts IH]; intros u p q Hl E.
  - simpl in E. symmetry in E. apply app_eq_nil in E as [-> ->]. exists [], []. auto.
  - inversion Hl as [|? ? [w Hw] Hl']; subst.
    assert (Hs : exists i, titems u (t :: ts) = i :: titems (after t) ts).
    { destruct t as [v|x|f|c| |]; try (eexists; reflexivity).
      cbn [titems]. inversion Hw; subst. destruct (sym_meaning_op c u) as (o & -> & _); auto. eexists; reflexivity. }
    destruct Hs as [i Hs]. destruct p as [|j p].
    + exists [], (t :: ts). simpl in E. auto.
    + rewrite Hs in E. injection E as -> E. destruct (IH _ _ _ Hl' E) as (ts1 & ts2 & -> & H1 & H2).
      exists (t :: ts1), ts2. repeat split; auto.
      * assert (titems u (t :: ts1) = j :: titems (after t) ts1) as ->.
        { clear -Hs. cbn [titems] in *.
          destruct t; simpl in *; try (injection Hs as <-; reflexivity).
          destruct (sym_meaning c u); simpl in *; [injection Hs as <-; reflexivity|].
          exfalso. apply (f_equal (@length _)) in Hs. simpl in Hs. lia. }
        now rewrite H1.
      * now rewrite after_list_cons.
Qed.

Lemma inever_never ts u : lexed ts -> inever (titems u ts) <-> never_overclosed ts.
Proof.
  intros Hl. split; intros H.
  - intros p q ->. rewrite <- (titems_rps p u), <- (titems_lps p u).
    eapply H. apply titems_app.
  - intros p q E. destruct (titems_split _ _ _ _ Hl E) as (ts1 & ts2 & -> & <- & _).
    rewrite titems_rps, titems_lps. eapply H. reflexivity.
Qed.

Lemma lexed_app ts1 ts2 : lexed (ts1 ++ ts2) <-> lexed ts1 /\ lexed ts2.
Proof. apply Forall_app. Qed.

(** An over-closing parenthesis in the items is one in the tokens. *)
Lemma titems_overclose ts u p : lexed ts ->
  (exists p' q', titems u ts = p' ++ IR :: q' /\ inever p' /\ lps p' = rps p' /\ lps p' = p) ->
  exists p0 q0, first_overclose p0 q0 ts /\ opens p0 = p.
Proof.
  intros Hl (p' & q' & E & Hn & Hb & Hp).
  destruct (titems_split _ _ _ _ Hl E) as (ts1 & ts2 & -> & <- & E2).
  apply lexed_app in Hl as [Hl1 Hl2].
  destruct ts2 as [|t ts2]; [discriminate|].
  assert (t = SRP) as ->.
  { inversion Hl2 as [|? ? [w Hw] _]; subst. cbn [titems] in E2. destruct t; simpl in E2; try discriminate; auto.
    inversion Hw; subst. destruct (sym_meaning_op c (after_list u ts1)) as (o & Ho & _); auto.
    rewrite Ho in E2. discriminate. }
  exists ts1, ts2. rewrite titems_lps, titems_rps in *. repeat split; auto.
  now apply (inever_never ts1 u).
Qed.

Lemma overclose_titems ts u p0 q0 : lexed ts -> first_overclose p0 q0 ts ->
  exists q, titems u ts = titems u p0 ++ IR :: q.
Proof.
  intros Hl (-> & _ & _). eexists. rewrite titems_app. simpl. reflexivity.
Qed.

(** Injectivity of tokens. *)
Definition tok_ok (t : stok K) : Prop :=
  match t with
  | SFun f => f <> UPos /\ f <> UNeg
  | SSym c => In c ["+"; "-"; "*"; "/"; "^"; "&"; "|"; "%"]%char
  | _ => True
  end.
Lemma lexeme_tok_ok t w : lexeme (K:=K) fnv1a t w -> tok_ok t.
Proof.
  destruct 1; simpl; auto.
  - split; intros ->; discriminate.
  - unfold symbol in H. simpl in H. decompose [or] H; auto; try tauto; congruence.
Qed.

Lemma stok_node_inj u t t' : tok_ok t -> tok_ok t' -> stok_node u t = stok_node u t' -> t = t'.
Proof.
  intros H H' E. destruct t as [v|x|f|c| |], t' as [v'|x'|f'|c'| |]; simpl in E; unfold mkNum, op_node in E; try discriminate; auto;
    try congruence; simpl in H, H'.
  - injection E as E. now rewrite (unop_op_inj _ _ E).
  - exfalso. injection E as E. destruct H.
    repeat (destruct H' as [<-|H']; [destruct u, f; simpl in *; try discriminate; congruence|]). destruct H'.
  - destruct f; discriminate.
  - destruct f; discriminate.
  - exfalso. injection E as E. destruct H'.
    repeat (destruct H as [<-|H]; [destruct u, f'; simpl in *; try discriminate; congruence|]). destruct H.
  - injection E as E.
    repeat (destruct H as [<-|H]; [repeat (destruct H' as [<-|H']; [destruct u; simpl in *; try discriminate; reflexivity|]); destruct H'|]).
    destruct H.
  - exfalso. injection E as E.
    repeat (destruct H as [<-|H]; [destruct u; simpl in *; discriminate|]). destruct H.
  - exfalso. injection E as E.
    repeat (destruct H as [<-|H]; [destruct u; simpl in *; discriminate|]). destruct H.
  - destruct f'; discriminate.
  - exfalso. injection E as E.
    repeat (destruct H' as [<-|H']; [destruct u; simpl in *; discriminate|]). destruct H'.
  - destruct f'; discriminate.
  - exfalso. injection E as E.
    repeat (destruct H' as [<-|H']; [destruct u; simpl in *; discriminate|]). destruct H'.
Qed.

Lemma resolves_inj ts : forall u ts' toks, lexed ts -> lexed ts' ->
  resolves u ts toks -> resolves u ts' toks -> ts = ts'.
Proof.
  induction ts as [|t ts IH]; intros u ts' toks Hl Hl' H H'; destruct toks as [|k toks], ts' as [|t' ts'];
    simpl in *; try tauto.
  destruct H as [H1 H2], H' as [H1' H2']. inversion Hl as [|? ? [w Hw] Hl1]; subst.
  inversion Hl' as [|? ? [w' Hw'] Hl1']; subst.
  assert (t = t') as <-. { apply (stok_node_inj u); [eapply lexeme_tok_ok; eauto|eapply lexeme_tok_ok; eauto|congruence]. }
  f_equal. eapply IH; eauto.
Qed.

(** What [Parse] does with the tokens of a text. *)
Lemma Parse_tokens (ts : list (stok K)) (s : string) : s <> "" -> renders (K:=K) fnv1a ts s ->
  exists toks, resolves true ts toks /\ Forall2 is_item toks (titems true ts) /\
    Forall (fun t => shows s (t_pos t) (t_s t)) toks /\
    Forall2 (fun t k => lexeme (K:=K) fnv1a t (t_s k)) ts toks /\
    Parse s = let* postOrder := InOrderToPostOrder s toks in BuildExpressionTree s postOrder.
Proof.
  intros Hne Hr. destruct (lexemes_total s 0) as [ws Hws].
  destruct (lex_renders ts s Hr 0 []) as (toks0 & E0 & Hres0).
  destruct (lex_total 0 ws s Hws (K:=K) []) as [(ts' & toks & Hr' & E & Hres & Hpos & _ & Hlx)|(w & p & msg & E & _)].
  2:{ rewrite (lex_lexemes 0 ws s Hws) in E0. rewrite E in E0. discriminate. }
  rewrite <- (lex_lexemes 0 ws s Hws) in E.
  assert (toks0 = toks) as ->.
  { rewrite E0 in E. injection E as E. rewrite !app_nil_r in E.
    rewrite <- (rev_involutive toks0), E. apply rev_involutive. }
  assert (ts' = ts) as -> by (eapply resolves_inj; eauto; eapply renders_lexed; eauto).
  exists toks. split; [auto|]. split; [apply titems_is; auto; eapply renders_lexed; eauto|]. split; [|split; [auto|]].
  - eapply Forall_impl; [|exact Hpos]. intros t (A1 & A2 & A3 & A4). rewrite Nat.sub_0_r in *. repeat split; auto.
  - unfold Parse, ParseToTokens. destruct s; [congruence|]. rewrite E. rewrite app_nil_r. cbn [bind].
    now rewrite rev_involutive.
Qed.

Lemma Parse_no_tokens s : s <> "" -> (forall ts, ~ renders (K:=K) fnv1a ts s) ->
  exists pos w msg, Parse (K:=K) s = Throw (SingleParseError 0 pos w msg) /\ shows s pos w /\
    forall t, ~ lexeme (K:=K) fnv1a t w.
Proof.
  intros Hne Hn. destruct (lexemes_total s 0) as [ws Hws].
  destruct (lex_total 0 ws s Hws (K:=K) []) as [(ts' & toks & Hr' & _)|(w & p & msg & E & _ & _ & Hw & Hl & Hsub & Hlen)].
  - exfalso. eapply Hn; eauto.
  - rewrite <- (lex_lexemes 0 ws s Hws) in E. rewrite Nat.sub_0_r in *.
    exists p, w, msg. split; [|repeat split; auto].
    + unfold Parse, ParseToTokens. destruct s; [congruence|]. rewrite E. reflexivity.
    + clear -Hw Hsub. revert p Hsub. induction s as [|c s IH]; intros p Hsub.
      * destruct p; simpl in Hsub; destruct w; simpl in *; congruence.
      * destruct p as [|p].
        -- simpl in *. clear IH. revert s c Hsub. induction w as [|d w IHw]; intros s c Hsub; simpl in *; [congruence|].
           injection Hsub as <- Hsub. destruct w as [|e w]; [simpl; lia|].
           destruct s as [|c' s]; [discriminate|]. specialize (IHw ltac:(discriminate) s c' Hsub). simpl in *. lia.
        -- simpl in *. specialize (IH p Hsub). lia.
Qed.

Lemma renders_dec s : (exists ts, renders (K:=K) fnv1a ts s) \/ (forall ts, ~ renders (K:=K) fnv1a ts s).
Proof.
  destruct (lexemes_total s 0) as [ws Hws].
  destruct (lex_total 0 ws s Hws (K:=K) []) as [(ts' & toks & Hr' & _)|(w & p & msg & E & _)]; [left; eauto|].
  right. intros ts Hr. destruct (lex_renders ts s Hr 0 []) as (toks0 & E0 & Hres0).
  rewrite (lex_lexemes 0 ws s Hws) in E0. congruence.
Qed.

End Link.

(** ** C10: the grammar *)
Section C10.
Context {K : num_ops}.

(** Every sentence of the grammar, however written, is parsed to what it denotes. *)
Theorem C10_parse_complete (ts : list (stok K)) e s :
  derives 0 ts e -> renders fnv1a ts s -> Parse s = Ok (embed e).
Proof. apply parse_complete. Qed.

(** The grammar is unambiguous. *)
Theorem C10_grammar_unambiguous (ts : list (stok K)) e e' :
  derives 0 ts e -> derives 0 ts e' -> e = e'.
Proof.
  intros H H'. apply embed_inj.
  assert (Ht : exists toks, resolves true ts toks).
  { generalize true. clear. induction ts as [|t ts IH]; intros u; [exists []; exact I|].
    destruct (IH (after t)) as [toks Ht].
    exists ({| t_node := stok_node u t; t_s := ""; t_pos := 0 |} :: toks). split; auto. }
  destruct Ht as [toks Ht].
  destruct (inorder_ok "" _ _ (derives_rder _ _ _ H _ Ht)) as (post & E & Hp).
  destruct (inorder_ok "" _ _ (derives_rder _ _ _ H' _ Ht)) as (post' & E' & Hp').
  rewrite E in E'. injection E' as <-.
  pose proof (build_tree_ok "" _ _ Hp) as B. pose proof (build_tree_ok "" _ _ Hp') as B'. congruence.
Qed.

(** A text is a way of writing at most one token sequence. *)
Theorem C10_tokens_unique (ts ts' : list (stok K)) s :
  renders fnv1a ts s -> renders fnv1a ts' s -> ts = ts'.
Proof.
  intros H H'.
  destruct (lex_renders ts s H 0 []) as (toks & E & Hr).
  destruct (lex_renders ts' s H' 0 []) as (toks' & E' & Hr').
  rewrite E in E'. injection E' as E'. rewrite !app_nil_r in E'.
  apply (f_equal (@rev _)) in E'. rewrite !rev_involutive in E'. subst toks'.
  eapply resolves_inj; eauto; eapply renders_lexed; eauto.
Qed.
End C10.

(** ** C11: nothing is invented or dropped *)
Theorem C11_parse_sound {K : num_ops} s (n : node K) : Parse s = Ok n ->
  exists ts e, renders fnv1a ts s /\ n = embed e /\
    leaves e = operands ts /\ Permutation (ops e) (operators true ts) /\ balanced ts.
Proof.
  intros H. destruct s as [|c0 s0] eqn:Es; [discriminate|]. rewrite <- Es in *.
  assert (Hne : s <> "") by (rewrite Es; discriminate). clear Es.
  destruct (renders_dec (K:=K) s) as [[ts Hr]|Hn].
  2:{ destruct (Parse_no_tokens s Hne Hn) as (p & w & msg & E & _). congruence. }
  destruct (Parse_tokens ts s Hne Hr) as (toks & Hres & Hit & Hpos & Hlx & E). rewrite E in H.
  pose proof (renders_lexed _ _ Hr) as Hl.
  destruct (inorder_total s toks _ Hit) as [(post & pi & Ep & Hpi & Hout & Ho & Hperm & Hnv & Hb & _)|[(f & _ & Ef & _)|(w & p & q & Ew & _)]].
  2:{ rewrite Ef in H. discriminate. }
  2:{ rewrite Ew in H. discriminate. }
  rewrite Ep in H. cbn [bind] in H.
  destruct (build_outcome s post pi Hpi Hout) as [(e & Ee & Hi)|[(w & Ew & _)|[Em|(errs & Em & _)]]]; try congruence.
  exists ts, e. rewrite Ee in H. injection H as <-.
  split; [auto|]. split; [auto|]. split; [|split].
  - rewrite <- opds_items, Hi, Ho. apply titems_opds.
  - rewrite <- iops_items, Hi, Hperm. rewrite titems_iops. reflexivity.
  - split; [now apply (inever_never ts true)|]. rewrite titems_lps, titems_rps in Hb. auto.
Qed.

(** ** C13: every outcome *)

(** The possible reactions to a text. *)
Inductive reaction {K : num_ops} (s : string) : res (node K) -> Prop :=
| rc_tree e : reaction s (Ok (embed e))
| rc_empty info msg : s = "" -> reaction s (Throw (SingleParseError 0 0 info msg))
| rc_single pos w info msg : shows s pos w -> reaction s (Throw (SingleParseError 0 pos info msg))
| rc_multi errs : errs <> [] ->
    (forall line pos info msg, In (line, pos, info, msg) errs -> line = 0 /\ exists w, shows s pos w) ->
    reaction s (Throw (MultiParseError errs))
| rc_math info : reaction s (Throw (MathError ERROR_WRONG_EXPRESSION info))
| rc_undefined why : reaction s (Undef why).

(** When the behaviour is undefined. *)
Definition parse_undefined {K : num_ops} (s : string) : Prop :=
  exists ts, renders (K:=K) fnv1a ts s /\ s <> "" /\
    ((exists p q, first_overclose p q ts /\ opens p > 0) \/
     (balanced ts /\ operands ts = [] /\ operators true ts = [])).

Section C13.
Context {K : num_ops}.

Lemma parse_cases (s : string) : reaction (K:=K) s (Parse s) /\
  ((exists w, Parse (K:=K) s = Undef w) -> parse_undefined (K:=K) s).
Proof.
  destruct s as [|c0 s0] eqn:Es.
  { split; [apply rc_empty; reflexivity|]. intros [w Hw]. discriminate. }
  rewrite <- Es. assert (Hne : s <> "") by (rewrite Es; discriminate). clear Es.
  destruct (renders_dec (K:=K) s) as [[ts Hr]|Hn].
  2:{ destruct (Parse_no_tokens s Hne Hn) as (p & w & msg & E & Hs & _). rewrite E.
      split; [eapply rc_single; eauto|]. intros [? ?]; discriminate. }
  destruct (Parse_tokens ts s Hne Hr) as (toks & Hres & Hit & Hpos & Hlx & E). rewrite E.
  pose proof (renders_lexed _ _ Hr) as Hl.
  destruct (inorder_total s toks _ Hit) as [(post & pi & Ep & Hpi & Hout & Ho & Hperm & Hnv & Hb & HQ)|[(f & Hin & Ef & _)|(w & p & q & Ew & Hov)]].
  - rewrite Ep. cbn [bind].
    destruct (build_outcome s post pi Hpi Hout) as [(e & Ee & Hi)|[(w & Ew & Hw)|[Em|(errs & Em & Hn & He)]]].
    + rewrite Ee. split; [constructor|]. intros [? ?]; discriminate.
    + rewrite Ew. split; [constructor|]. intros _. exists ts. split; [auto|]. split; [auto|]. right. subst pi.
      simpl in Ho, Hperm. rewrite titems_opds in Ho. rewrite titems_iops in Hperm.
      repeat split.
      * now apply (inever_never ts true).
      * rewrite titems_lps, titems_rps in Hb. auto.
      * auto.
      * now apply Permutation_nil in Hperm.
    + rewrite Em. split; [constructor|]. intros [? ?]; discriminate.
    + rewrite Em. split; [|intros [? ?]; discriminate]. apply rc_multi; auto.
      intros line pos info msg Hi. destruct (He _ _ _ _ Hi) as (-> & -> & t & Ht & <-). split; auto.
      specialize (HQ _ Hpos). rewrite Forall_forall in HQ. specialize (HQ t Ht). eauto.
  - rewrite Ef. cbn [bind]. split; [|intros [? ?]; discriminate].
    rewrite Forall_forall in Hpos. specialize (Hpos f Hin). eapply rc_single. exact Hpos.
  - rewrite Ew. cbn [bind]. split; [constructor|]. intros _. exists ts. split; [auto|]. split; [auto|]. left.
    destruct Hov as (E0 & Hn & Hb & Hg).
    destruct (titems_overclose ts true (lps p) Hl) as (p0 & q0 & Hf & Ho).
    { exists p, q. auto. }
    exists p0, q0. split; auto. lia.
Qed.

(** Every text gets one of the six reactions; reported positions lie inside the text. *)
Theorem C13_parse_outcome s : reaction (K:=K) s (Parse s).
Proof. apply parse_cases. Qed.

(** The texts of undefined behaviour, exactly. *)
Theorem C13_parse_undefined s : (exists w, Parse (K:=K) s = Undef w) <-> parse_undefined (K:=K) s.
Proof.
  split; [apply parse_cases|].
  intros (ts & Hr & Hne & [(p & q & Hf & Hg)|(Hb & Ho1 & Ho2)]).
  - destruct (Parse_tokens ts s Hne Hr) as (toks & Hres & Hit & Hpos & Hlx & E). rewrite E.
    pose proof (renders_lexed _ _ Hr) as Hl.
    destruct (overclose_titems ts true p q Hl Hf) as [q' Eq].
    destruct Hf as (Ets & Hnv & Hcl).
    assert (Hlp : lexed p) by (rewrite Ets in Hl; apply lexed_app in Hl; tauto).
    rewrite Eq in Hit.
    apply Forall2_app_inv_r in Hit as (k1 & k2 & H1 & H2 & ->).
    inversion H2 as [|f ? k3 ? Hf H3]; subst.
    destruct (run_total s (titems true p) k1 [] [] (0, [], []) Inv_init inever_nil H1)
      as [(st & R & HI & Hn)|(p0 & q0 & f0 & E0 & Hn0 & Hb0 & _)].
    + destruct (Inv_overclose s (titems true p) k1 st f HI Hf) as [_ O].
      { rewrite titems_lps, titems_rps. auto. }
      destruct O as [w Hw]; [rewrite titems_lps; lia|]. exists w.
      unfold InOrderToPostOrder. unfold run in R. rewrite foldM_app, R. cbn [bind foldM]. rewrite Hw. reflexivity.
    + exfalso. apply (inever_never p true Hlp) in Hnv.
      specialize (Hnv (p0 ++ [IR]) q0). rewrite E0, <- app_assoc in Hnv. specialize (Hnv eq_refl).
      rewrite lps_app, rps_app in Hnv. simpl in Hnv, Hb0. unfold lps at 2, rps at 2 in Hnv. simpl in Hnv. lia.
  - destruct (Parse_tokens ts s Hne Hr) as (toks & Hres & Hit & Hpos & Hlx & E). rewrite E.
    pose proof (renders_lexed _ _ Hr) as Hl. destruct Hb as [Hb1 Hb2].
    destruct (inorder_total s toks _ Hit) as [(post & pi & Ep & Hpi & Hout & Ho & Hperm & Hnv & Hb & HQ)|[(f & Hin & Ef & Hf)|(w & p & q & Ew & Hov)]].
    + rewrite titems_opds, Ho1 in Ho. rewrite titems_iops, Ho2 in Hperm.
      apply Permutation_sym, Permutation_nil in Hperm.
      assert (pi = []) as ->.
      { destruct pi as [|i pi]; auto. inversion Hout; subst. destruct i; simpl in *; try tauto; discriminate. }
      inversion Hpi; subst. rewrite Ep. exists "top() of an empty stack". reflexivity.
    + exfalso. destruct Hf as [(_ & p & q & E0 & Hn & Hz)|(_ & _ & Hlt)].
      * apply (inever_never ts true Hl) in Hb1. specialize (Hb1 (p ++ [IR]) q).
        rewrite E0, <- app_assoc in Hb1. specialize (Hb1 eq_refl). rewrite lps_app, rps_app in Hb1.
        unfold lps at 2, rps at 2 in Hb1. simpl in Hb1. lia.
      * rewrite titems_lps, titems_rps in Hlt. lia.
    + exists w. rewrite Ew. reflexivity.
Qed.

(** Words that are no tokens are reported at their offset. *)
Theorem C13_bad_word s : s <> "" -> (forall ts, ~ renders (K:=K) fnv1a ts s) ->
  exists pos w msg, Parse (K:=K) s = Throw (SingleParseError 0 pos w msg) /\ shows s pos w /\
    forall t, ~ lexeme (K:=K) fnv1a t w.
Proof. apply Parse_no_tokens. Qed.

Lemma item_text (ts : list (stok K)) toks f t : lexed ts -> Forall2 (fun t k => lexeme (K:=K) fnv1a t (t_s k)) ts toks ->
  resolves true ts toks -> In f toks -> (t = SLP \/ t = SRP) -> t_node f = stok_node true t -> lexeme (K:=K) fnv1a t (t_s f).
Proof.
  intros Hl Hx. generalize true at 1. intros u. revert u. induction Hx as [|a k ts toks Ha Hx IH]; intros u Hr Hin Ht Hn; [destruct Hin|].
  destruct Hr as [Hk Hr]. inversion Hl; subst. destruct Hin as [->|Hin]; [|eapply IH; eauto].
  assert (a = t) as <-; [|auto].
  apply (stok_node_inj u).
  - eapply lexeme_tok_ok; eauto.
  - destruct Ht as [-> | ->]; exact I.
  - rewrite <- Hk, Hn. destruct Ht as [-> | ->]; reflexivity.
Qed.

(** A ')' before any '(' is reported. *)
Theorem C13_unopened s ts p q : renders (K:=K) fnv1a ts s ->
  ts = p ++ SRP :: q -> opens p = 0 -> closes p = 0 ->
  exists pos msg, Parse (K:=K) s = Throw (SingleParseError 0 pos s msg) /\ shows s pos ")".
Proof.
  intros Hr Ets Hop Hcl.
  assert (Hne : s <> "") by (eapply renders_not_empty; [exact Hr|]; subst ts; destruct p; discriminate).
  destruct (Parse_tokens ts s Hne Hr) as (toks & Hres & Hit & Hpos & Hlx & E). rewrite E.
  pose proof (renders_lexed _ _ Hr) as Hl.
  assert (Hlp : lexed p) by (rewrite Ets in Hl; apply lexed_app in Hl; tauto).
  subst ts. rewrite titems_app in Hit. simpl in Hit.
  pose proof Hres as Hres'. apply resolves_app in Hres' as (r1 & r2 & Etk & Hr1 & Hr2).
  apply Forall2_app_inv_r in Hit as (k1 & k2 & H1 & H2 & ->).
  inversion H2 as [|f ? k3 ? Hf H3]; subst.
  destruct (run_total s (titems true p) k1 [] [] (0, [], []) Inv_init inever_nil H1)
    as [(st & R & HI & Hn)|(p0 & q0 & f0 & E0 & Hn0 & Hb0 & _)].
  - destruct (Inv_overclose s (titems true p) k1 st f HI Hf) as [O _].
    { rewrite titems_lps, titems_rps. lia. }
    rewrite titems_lps in O. specialize (O Hop).
    exists (t_pos f), ("Parenthesis not match: " ++ quote ++ t_s f ++ quote)%string. split.
    + unfold InOrderToPostOrder. unfold run in R. rewrite foldM_app, R. cbn [bind foldM]. rewrite O. reflexivity.
    + rewrite Forall_forall in Hpos.
      assert (Hin : In f (k1 ++ f :: k3)) by (apply in_or_app; right; now left).
      specialize (Hpos f Hin). simpl in Hf.
      assert (t_s f = ")") as <-; [|exact Hpos].
      assert (HL : lexeme (K:=K) fnv1a SRP (t_s f)).
      { eapply (item_text _ _ f SRP); [exact Hl|exact Hlx|exact Hres|exact Hin|auto|exact Hf]. }
      inversion HL; auto.
  - exfalso. assert (rps (titems true p) = 0) by (rewrite titems_rps; auto).
    rewrite E0, rps_app in H. unfold rps at 2 in H. simpl in H. lia.
Qed.

(** A '(' that is never closed is reported. *)
Theorem C13_unclosed s ts : renders (K:=K) fnv1a ts s -> never_overclosed ts -> closes ts < opens ts ->
  exists pos msg, Parse (K:=K) s = Throw (SingleParseError 0 pos s msg) /\ shows s pos "(".
Proof.
  intros Hr Hnv Hlt.
  assert (Hne : s <> "").
  { eapply renders_not_empty; [exact Hr|]. intros ->. cbv in Hlt. lia. }
  destruct (Parse_tokens ts s Hne Hr) as (toks & Hres & Hit & Hpos & Hlx & E). rewrite E.
  pose proof (renders_lexed _ _ Hr) as Hl.
  destruct (inorder_total s toks _ Hit) as [(post & pi & _ & _ & _ & _ & _ & _ & Hb & _)|[(f & Hin & Ef & Hf)|(w & p & q & Ew & E0 & Hn & Hb & Hg)]].
  - rewrite titems_lps, titems_rps in Hb. lia.
  - destruct Hf as [(_ & p & q & E0 & Hn & Hz)|(Hi & _)].
    + exfalso. apply (inever_never ts true Hl) in Hnv. specialize (Hnv (p ++ [IR]) q).
      rewrite E0, <- app_assoc in Hnv. specialize (Hnv eq_refl). rewrite lps_app, rps_app in Hnv.
      unfold lps at 2, rps at 2 in Hnv. simpl in Hnv. lia.
    + rewrite Ef. eexists _, _. split; [reflexivity|].
      rewrite Forall_forall in Hpos. specialize (Hpos f Hin).
      assert (HL : lexeme (K:=K) fnv1a SLP (t_s f)) by (eapply item_text; eauto).
      assert (t_s f = "(") as <- by (inversion HL; auto). exact Hpos.
  - exfalso. apply (inever_never ts true Hl) in Hnv. specialize (Hnv (p ++ [IR]) q).
    rewrite E0, <- app_assoc in Hnv. specialize (Hnv eq_refl). rewrite lps_app, rps_app in Hnv.
    unfold lps at 2, rps at 2 in Hnv. simpl in Hnv. lia.
Qed.
End C13.

(** ** C12: white space *)

(** [s'] is [s] with one white space character put next to an operator character, next to
    other white space, or at one end. *)
Inductive space_added : string -> string -> Prop :=
| sa a b c : space c ->
    (delimited b \/ a = "" \/ exists a' d, a = (a' ++ String d "")%string /\ (space d \/ symbol d)) ->
    space_added (a ++ b) (a ++ String c b).

(** Texts that differ in such white space only. *)
Inductive space_equiv : string -> string -> Prop :=
| se_refl s : space_equiv s s
| se_add s s' s'' : space_added s s' -> space_equiv s' s'' -> space_equiv s s''
| se_del s s' s'' : space_added s' s -> space_equiv s' s'' -> space_equiv s s''.

(** The same reaction, apart from positions and messages. *)
Definition same_reaction {A} (r r' : res A) : Prop :=
  match r, r' with
  | Ok n, Ok n' => n = n'
  | Throw (SingleParseError _ _ _ _), Throw (SingleParseError _ _ _ _) => True
  | Throw (MultiParseError errs), Throw (MultiParseError errs') => length errs = length errs'
  | Throw (MathError t _), Throw (MathError t' _) => t = t'
  | Undef _, Undef _ => True
  | _, _ => False
  end.

Section C12.
Context {K : num_ops}.

Definition wflush (w : string) : list string := match w with "" => [] | _ => [w] end.
Fixpoint words (cur s : string) : list string :=
  match s with
  | "" => wflush cur
  | String c s' =>
      if IsBasicOperator c then wflush cur ++ String c "" :: words "" s'
      else if is_space c then wflush cur ++ words "" s'
      else words (cur ++ String c "")%string s'
  end.

Lemma words_delim cur b : delimited b -> words cur b = wflush cur ++ words "" b.
Proof.
  destruct b as [|c b]; simpl; intros H; [now rewrite app_nil_r|].
  destruct (IsBasicOperator c) eqn:E; auto. destruct (is_space c) eqn:E'; auto.
  exfalso. destruct H as [H|H]; [apply is_space_space in H|apply IsBasicOperator_symbol in H]; congruence.
Qed.

Lemma words_add a : forall cur b c, space c ->
  (delimited b \/ (a = "" /\ cur = "") \/ exists a' d, a = (a' ++ String d "")%string /\ (space d \/ symbol d)) ->
  words cur (a ++ String c b) = words cur (a ++ b).
Proof.
  induction a as [|x a IH]; intros cur b c Hc Hb; simpl.
  - pose proof (space_not_symbol _ Hc) as Hn.
    destruct (IsBasicOperator c) eqn:E; [apply IsBasicOperator_symbol in E; contradiction|].
    apply is_space_space in Hc. rewrite Hc.
    destruct Hb as [Hb|[[_ ->]|(a' & d & E' & _)]]; [now rewrite (words_delim cur b)|reflexivity|].
    destruct a'; discriminate.
  - assert (Hb' : forall cur', (cur' = "" \/ a <> "" \/ delimited b) ->
      delimited b \/ (a = "" /\ cur' = "") \/ exists a' d, a = (a' ++ String d "")%string /\ (space d \/ symbol d)).
    { intros cur' H0. destruct Hb as [Hb|[[Hb _]|(a' & d & E & Hd)]]; [auto|discriminate|].
      destruct a' as [|y a']; simpl in E; injection E as -> E.
      - subst a. destruct H0 as [->|[H0|H0]]; [auto|congruence|auto].
      - right. right. eauto. }
    destruct (IsBasicOperator x) eqn:E; [rewrite IH; auto|].
    destruct (is_space x) eqn:E'; [rewrite IH; auto|].
    apply IH; auto. apply Hb'.
    destruct Hb as [Hb|[[Hb _]|(a' & d & E0 & Hd)]]; [auto|discriminate|].
    destruct a' as [|y a']; simpl in E0; injection E0 as -> E0.
    + exfalso. destruct Hd as [Hd|Hd]; [apply is_space_space in Hd|apply IsBasicOperator_symbol in Hd]; congruence.
    + right. left. subst a. destruct a'; discriminate.
Qed.

Lemma words_equiv s s' : space_equiv s s' -> words "" s = words "" s'.
Proof.
  assert (H : forall a b, space_added a b -> words "" a = words "" b).
  { intros a b [a' b' c Hc Hb]. symmetry. apply words_add; auto. destruct Hb as [Hb|[Hb|Hb]]; auto. }
  induction 1 as [|? ? ? Ha _ IH|? ? ? Ha _ IH]; auto; apply H in Ha; congruence.
Qed.

(** Tokens up to position. *)
Definition tsim (t t' : token K) : Prop := t_node t = t_node t' /\ t_s t = t_s t'.

Definition rsim {A} (R : A -> A -> Prop) (r r' : res A) : Prop :=
  match r, r' with
  | Ok a, Ok a' => R a a'
  | Throw (SingleParseError _ _ _ _), Throw (SingleParseError _ _ _ _) => True
  | Throw (MultiParseError errs), Throw (MultiParseError errs') => length errs = length errs'
  | Throw (MathError t _), Throw (MathError t' _) => t = t'
  | Throw (RuntimeError _), Throw (RuntimeError _) => True
  | Throw (OutOfRange _), Throw (OutOfRange _) => True
  | Undef _, Undef _ => True
  | AssertFail _, AssertFail _ => True
  | Terminate, Terminate => True
  | OutOfFuel, OutOfFuel => True
  | _, _ => False
  end.

Lemma rsim_bind {A B} (R : A -> A -> Prop) (S : B -> B -> Prop) m m' f f' :
  rsim R m m' -> (forall a a', R a a' -> rsim S (f a) (f' a')) -> rsim S (bind m f) (bind m' f').
Proof.
  destruct m as [a|e| | | |], m' as [a'|e'| | | |]; simpl; auto; try tauto; destruct e; try tauto; destruct e'; simpl; auto; tauto.
Qed.

Lemma rsim_foldM {A B} (R : A -> A -> Prop) (S : B -> B -> Prop) f f' :
  (forall b b' a a', S b b' -> R a a' -> rsim S (f b a) (f' b' a')) ->
  forall l l', Forall2 R l l' -> forall b b', S b b' -> rsim S (foldM f l b) (foldM f' l' b').
Proof.
  intros H. induction 1 as [|a a' l l' Ha Hl IH]; intros b b' Hb; simpl; auto.
  eapply rsim_bind; [apply H; eauto|]. auto.
Qed.

Lemma rsim_refl {A} (R : A -> A -> Prop) (m : res A) : (forall a, R a a) -> rsim R m m.
Proof. intros H. destruct m as [a|e| | | |]; simpl; auto. destruct e; simpl; auto. Qed.

Lemma confirm_sim w pos pos' : rsim tsim (confirm_word (K:=K) w pos) (confirm_word w pos').
Proof.
  unfold confirm_word.
  assert (F : rsim tsim
     (match Str2Function w with
      | MATH_NULL => if VarNameIsLegal w then let* n := mkVar w in Ok {| t_node := n; t_s := w; t_pos := pos |}
        else Throw (SingleParseError 0 pos w ("Invalid variable name: " ++ quote ++ w ++ quote)%string)
      | op => let* n := mkOp op in Ok {| t_node := n; t_s := w; t_pos := pos |} end)
     (match Str2Function w with
      | MATH_NULL => if VarNameIsLegal w then let* n := mkVar w in Ok {| t_node := n; t_s := w; t_pos := pos' |}
        else Throw (SingleParseError 0 pos' w ("Invalid variable name: " ++ quote ++ w ++ quote)%string)
      | op => let* n := mkOp op in Ok {| t_node := n; t_s := w; t_pos := pos' |} end)).
  { assert (G : forall m : res (node K), rsim tsim (let* n := m in Ok {| t_node := n; t_s := w; t_pos := pos |})
        (let* n := m in Ok {| t_node := n; t_s := w; t_pos := pos' |})).
    { intros m. eapply rsim_bind with (R := eq); [apply rsim_refl; auto|]. intros a a' <-. split; auto. }
    destruct (Str2Function w); try apply G. destruct (VarNameIsLegal w); [apply G|exact I]. }
  destruct (n_stod w) as [[d sz]|]; [|exact F].
  destruct (Nat.eqb sz (String.length w)); [split; reflexivity|exact F].
Qed.

Lemma unaryOp_sim ret ret' : Forall2 tsim ret ret' -> unaryOp ret = unaryOp ret'.
Proof. destruct 1 as [|t t' l l' [Hn _] _]; auto. unfold unaryOp, t_type, t_op. now rewrite Hn. Qed.

Definition wstep0 (ret : list (token K)) (w : string) : res (list (token K)) :=
  let* t := wtok ret w 0 in Ok (t :: ret).

Definition try_sim w pos ret ret' : Forall2 tsim ret ret' -> (forall c, w = String c "" -> IsBasicOperator c = false) ->
  rsim (Forall2 tsim) (tryComfirmToken w pos ret) (foldM wstep0 (wflush w) ret').
Proof.
  intros H Hc. destruct w as [|c w]; [exact H|]. cbn [wflush foldM tryComfirmToken].
  rewrite bind_ret. unfold wstep0.
  eapply rsim_bind with (R := tsim).
  - assert (E : wtok ret' (String c w) 0 = confirm_word (String c w) 0).
    { destruct w; auto. simpl. rewrite (Hc c eq_refl). reflexivity. }
    rewrite E. apply confirm_sim.
  - intros t t' Ht. constructor; auto.
Qed.

Lemma lex_words s : forall pos cur ret ret', Forall2 tsim ret ret' ->
  (forall c, cur = String c "" -> IsBasicOperator c = false) ->
  rsim (Forall2 tsim) (lex s pos cur ret) (foldM wstep0 (words cur s) ret').
Proof.
  induction s as [|c s IH]; intros pos cur ret ret' Hret Hcur; cbn [lex words].
  - now apply try_sim.
  - destruct (IsBasicOperator c) eqn:E; [|destruct (is_space c) eqn:E'].
    + rewrite foldM_app. eapply rsim_bind; [now apply try_sim|].
      intros r r' Hr. cbn [foldM].
      assert (Ew : wstep0 r' (String c "") = let* n := mkOp (BaseOperatorCharToEnum c (unaryOp r')) in
                   Ok ({| t_node := n; t_s := String c ""; t_pos := 0 |} :: r')).
      { unfold wstep0, wtok. rewrite E. rewrite !bind_assoc. apply bind_ext. reflexivity. }
      rewrite Ew, bind_assoc. rewrite (unaryOp_sim _ _ Hr).
      eapply rsim_bind with (R := eq); [apply rsim_refl; auto|]. intros n n' <-. cbn [bind].
      apply IH; [|discriminate]. constructor; auto. split; reflexivity.
    + rewrite foldM_app. eapply rsim_bind; [now apply try_sim|]. intros r r' Hr. apply IH; auto. discriminate.
    + apply IH; auto. intros d Hd. destruct cur as [|x [|y cur]]; simpl in Hd; try discriminate. congruence.
Qed.

Lemma F2_tsim_sym (l l' : list (token K)) : Forall2 tsim l l' -> Forall2 tsim l' l.
Proof. induction 1; constructor; auto. destruct H. split; auto. Qed.
Lemma F2_tsim_trans (a b c : list (token K)) : Forall2 tsim a b -> Forall2 tsim b c -> Forall2 tsim a c.
Proof.
  intros H. revert c. induction H as [|x y l l' [E1 E2] _ IH]; intros c H; inversion H as [|? z ? ? [F1 F2] H1]; subst; constructor; auto.
  split; congruence.
Qed.
Lemma rsim_sym {A} (R : A -> A -> Prop) r r' : (forall a b, R a b -> R b a) -> rsim R r r' -> rsim R r' r.
Proof. intros H. destruct r as [a|e| | | |], r' as [a'|e'| | | |]; simpl; auto; try tauto; destruct e; try tauto; destruct e'; simpl; auto. Qed.
Lemma rsim_trans {A} (R : A -> A -> Prop) r1 r2 r3 : (forall a b c, R a b -> R b c -> R a c) ->
  rsim R r1 r2 -> rsim R r2 r3 -> rsim R r1 r3.
Proof.
  intros H. destruct r1 as [a|e1| | | |], r2 as [b|e2| | | |]; simpl; try tauto; destruct r3 as [c|e3| | | |]; simpl; try tauto; eauto;
    try (destruct e1; tauto); destruct e1; try tauto; destruct e2; try tauto; destruct e3; simpl; try tauto; congruence.
Qed.

Lemma F2_app {A} (R : A -> A -> Prop) a a' b b' : Forall2 R a a' -> Forall2 R b b' -> Forall2 R (a ++ b) (a' ++ b').
Proof. apply Forall2_app. Qed.

Lemma pop_while_sim p s s' : Forall2 tsim s s' -> forall q q', Forall2 tsim q q' ->
  Forall2 tsim (fst (pop_while p s q)) (fst (pop_while p s' q')) /\
  Forall2 tsim (snd (pop_while p s q)) (snd (pop_while p s' q')).
Proof.
  induction 1 as [|t t' s s' Ht Hs IH]; intros q q' Hq; simpl; auto.
  assert (E : t_op t = t_op t') by (unfold t_op; destruct Ht as [-> _]; reflexivity). rewrite E.
  destruct (p (t_op t')).
  - apply IH. apply F2_app; auto.
  - simpl. auto.
Qed.

Lemma pop_to_paren_sim s s' : Forall2 tsim s s' -> forall q q', Forall2 tsim q q' ->
  rsim (fun a b => Forall2 tsim (fst a) (fst b) /\ Forall2 tsim (snd a) (snd b)) (pop_to_paren s q) (pop_to_paren s' q').
Proof.
  induction 1 as [|t t' s s' Ht Hs IH]; intros q q' Hq; cbn [pop_to_paren]; [exact I|].
  assert (E : t_op t = t_op t') by (unfold t_op; destruct Ht as [-> _]; reflexivity). rewrite E.
  assert (Hq' : Forall2 tsim (q ++ [t]) (q' ++ [t'])) by (apply F2_app; auto).
  destruct (t_op t'); try (apply IH; exact Hq'). simpl. auto.
Qed.

Definition ssim (a b : nat * list (token K) * list (token K)) : Prop :=
  fst (fst a) = fst (fst b) /\ Forall2 tsim (snd (fst a)) (snd (fst b)) /\ Forall2 tsim (snd a) (snd b).

Lemma step_sim c c' a b f g : ssim a b -> tsim f g -> rsim ssim (InOrderStep c a f) (InOrderStep c' b g).
Proof.
  destruct a as [[n s] q], b as [[n' s'] q']. intros (E & Hs & Hq) Hf. simpl in E, Hs, Hq. subst n'.
  assert (E1 : t_op f = t_op g) by (unfold t_op; destruct Hf as [-> _]; reflexivity).
  assert (E2 : t_type f = t_type g) by (unfold t_type; destruct Hf as [-> _]; reflexivity).
  unfold InOrderStep. rewrite E1, E2.
  assert (Hq' : Forall2 tsim (q ++ [f]) (q' ++ [g])) by (apply F2_app; auto).
  assert (Hs' : Forall2 tsim (f :: s) (g :: s')) by (constructor; auto).
  assert (Hbin : forall p, rsim ssim (let '(stk1, post1) := pop_while p s q in Ok (n, f :: stk1, post1))
                                     (let '(stk1, post1) := pop_while p s' q' in Ok (n, g :: stk1, post1))).
  { intros p. destruct (pop_while_sim p s s' Hs q q' Hq) as [H1 H2].
    destruct (pop_while p s q), (pop_while p s' q'). repeat split; auto. constructor; auto. }
  destruct (t_type g); [simpl; repeat split; auto| |simpl; repeat split; auto].
  destruct (t_op g); try apply Hbin; try (simpl; repeat split; auto; fail).
  destruct (Nat.eqb n 0); [exact I|].
  eapply rsim_bind; [apply pop_to_paren_sim; eauto|].
  intros [s1 q1] [s1' q1'] [H1 H2]. simpl in H1, H2.
  assert (H3 : Forall2 tsim (fst (pop_function (s1, q1))) (fst (pop_function (s1', q1'))) /\
               Forall2 tsim (snd (pop_function (s1, q1))) (snd (pop_function (s1', q1')))).
  { unfold pop_function. simpl. destruct H1 as [|t t' l l' Ht Hl]; simpl; auto.
    assert (E : t_op t = t_op t') by (unfold t_op; destruct Ht as [-> _]; reflexivity). rewrite E.
    destruct (IsFunction (t_op t')); simpl; auto. split; auto. apply F2_app; auto. }
  destruct (pop_function (s1, q1)) as [s2 q2], (pop_function (s1', q1')) as [s2' q2']. simpl in H3. destruct H3 as [H3 H4].
  destruct (pop_while_sim is_sign s2 s2' H3 q2 q2' H4) as [H5 H6].
  destruct (pop_while is_sign s2 q2), (pop_while is_sign s2' q2'). repeat split; auto.
Qed.

Lemma flush_sim c c' s s' : Forall2 tsim s s' -> forall q q', Forall2 tsim q q' ->
  rsim (Forall2 tsim) (flush c s q) (flush c' s' q').
Proof.
  induction 1 as [|t t' s s' Ht Hs IH]; intros q q' Hq; cbn [flush]; auto.
  assert (E : t_op t = t_op t') by (unfold t_op; destruct Ht as [-> _]; reflexivity). rewrite E.
  assert (Hq' : Forall2 tsim (q ++ [t]) (q' ++ [t'])) by (apply F2_app; auto).
  destruct (t_op t'); try (apply IH; exact Hq'). exact I.
Qed.

Lemma build_sim s s' t t' : Forall2 tsim s s' -> tsim t t' -> rsim (Forall2 tsim) (BuildStep s t) (BuildStep s' t').
Proof.
  intros Hs [Ht Hts]. unfold BuildStep, t_type, t_op. rewrite Ht.
  destruct (match t_node t' with Nil => NUMBER | N ty _ _ _ _ _ => ty end); try (constructor; auto; split; auto).
  destruct (GetOperatorNum _) as [|[|[|]]]; simpl; auto.
  - destruct Hs as [|a a' l l' [Ha _] Hl]; simpl; auto. constructor; auto. unfold with_node; split; simpl; auto. now rewrite Ha.
  - destruct Hs as [|a a' l l' [Ha _] Hl]; simpl; auto. destruct Hl as [|b b' l l' [Hb _] Hl]; simpl; auto.
    constructor; auto. unfold with_node; split; simpl; auto. now rewrite Ha, Hb.
Qed.

Lemma parse_sim s s' : s <> "" -> s' <> "" -> words "" s = words "" s' -> rsim eq (Parse (K:=K) s) (Parse s').
Proof.
  intros H H' E. unfold Parse, ParseToTokens. destruct s as [|c s]; [congruence|]. destruct s' as [|c' s']; [congruence|].
  eapply rsim_bind with (R := Forall2 tsim).
  - eapply rsim_bind with (R := Forall2 tsim).
    + eapply rsim_trans; [exact F2_tsim_trans|apply lex_words; [constructor|discriminate]|].
      rewrite E. apply rsim_sym; [exact F2_tsim_sym|]. apply lex_words; [constructor|discriminate].
    + intros a b Hab. simpl. clear -Hab. induction Hab; simpl; auto. apply F2_app; auto.
  - intros a b Hab. eapply rsim_bind with (R := Forall2 tsim).
    + unfold InOrderToPostOrder. eapply rsim_bind with (R := ssim).
      * eapply rsim_foldM; [intros; eapply step_sim; eauto|exact Hab|repeat split; constructor].
      * intros [[n k] q] [[n' k'] q'] (E1 & E2 & E3). apply flush_sim; auto.
    + intros p p' Hp. unfold BuildExpressionTree. eapply rsim_bind with (R := Forall2 tsim).
      * eapply rsim_foldM; [intros; eapply build_sim; eauto|exact Hp|constructor].
      * intros k k' Hk. destruct Hk as [|x y l l' [Hx _] Hl]; simpl; auto.
        destruct Hl as [|x' y' l l' Hx' Hl]; simpl; auto.
        f_equal. rewrite !map_length. apply (F2_length _ _ _ Hl).
Qed.

(** White space next to operators, next to other white space or at the ends does not matter. *)
Theorem C12_white_space s s' : s <> "" -> s' <> "" -> space_equiv s s' ->
  same_reaction (Parse (K:=K) s) (Parse s').
Proof.
  intros H H' E. pose proof (parse_sim s s' H H' (words_equiv _ _ E)) as P.
  pose proof (C13_parse_outcome (K:=K) s) as R.
  destruct R; destruct (Parse s'); simpl in *; auto; try tauto; destruct e; auto; tauto.
Qed.
End C12.

(** ** Concrete cases (binary64) *)
Definition not_number (w : string) : bool :=
  match b_stod w with None => true | Some (_, k) => negb (Nat.eqb k (String.length w)) end.
Lemma not_number_ok w : not_number w = true -> forall v : D, ~ number_word w v.
Proof.
  unfold not_number, number_word. intros H v E. change (@n_stod D w) with (b_stod w) in E.
  rewrite E, Nat.eqb_refl in H. discriminate.
Qed.

Lemma fun_lexeme (L : libm) u name : fun_name u = Some name -> lexeme (K:=B64 L) fnv1a (SFun u) name.
Proof.
  intros H. destruct u; try discriminate; injection H as <-; econstructor; try reflexivity; try discriminate;
    try (simpl; repeat split; try (intros Hs; cbv in Hs; decompose [or] Hs; discriminate)).
  all: try (intros Hs; unfold symbol in Hs; simpl in Hs; decompose [or] Hs; try discriminate; contradiction).
  all: try (intros Hs; unfold space in Hs; simpl in Hs; decompose [or] Hs; try discriminate; contradiction).
  all: intros v Hv; eapply not_number_ok; [|exact Hv]; vm_compute; reflexivity.
Qed.

Definition collides (w : string) : bool :=
  existsb (fun u => match fun_name u with Some name => Z.eqb (fnv1a w) (fnv1a name) | None => false end)
    [USin; UCos; UTan; UAsin; UAcos; UAtan; USqrt; ULog; ULog2; ULog10; UExp].
Lemma var_lexeme x : VarNameIsLegal x = true -> not_number x = true -> collides x = false ->
  lexeme (K:=D) fnv1a (SVar x) x.
Proof.
  intros H1 H2 H3. constructor.
  - now apply identifier_legal.
  - now apply not_number_ok.
  - intros u name Hu E. enough (collides x = true) by congruence.
    unfold collides. apply existsb_exists. exists u. split.
    + destruct u; simpl; try discriminate; tauto.
    + rewrite Hu. apply Z.eqb_eq. exact E.
Qed.
Lemma sym_lexeme c : IsBasicOperator c = true -> c <> "("%char -> c <> ")"%char -> lexeme (K:=D) fnv1a (SSym c) (String c "").
Proof. intros H. constructor; auto. now apply IsBasicOperator_symbol. Qed.

(** A sentence with a function, a sign, a power and white space. *)
Definition ex_toks : list (stok D) :=
  [SVar "x"; SSym "+"; SFun USin; SLP; SVar "y"; SSym "^"; SSym "-"; SVar "x"; SRP].
Definition ex_expr : expr D :=
  EBin BAdd (EVar "x") (EUn USin (EBin BPow (EVar "y") (EUn UNeg (EVar "x")))).

Example C10_ex_derives : derives 0 ex_toks ex_expr.
Proof.
  apply (d_left 0 "+" BAdd [SVar "x"] _ (SFun USin :: SLP :: [SVar "y"; SSym "^"; SSym "-"; SVar "x"] ++ [SRP])).
  - constructor.
  - repeat (apply d_up; [lia|]). apply d_var.
  - repeat (apply d_up; [lia|]). eapply d_fun; [reflexivity|].
    apply d_up; [lia|]. apply d_up; [lia|].
    apply (d_pow [SVar "y"] _ [SSym "-"; SVar "x"]).
    + repeat (apply d_up; [lia|]). apply d_var.
    + apply d_up; [lia|]. apply d_up; [lia|]. apply d_up; [lia|].
      eapply d_sign; [constructor|]. apply d_up; [lia|]. apply d_var.
Qed.

Ltac render :=
  lazymatch goal with
  | |- renders _ [] _ => apply r_nil; cbn; repeat split; unfold space; cbn; tauto
  end.
Lemma spc : all_chars space " ". Proof. split; [unfold space; cbn; tauto|exact I]. Qed.

Example C10_ex_renders : renders fnv1a ex_toks " x +sin(y^ -x)".
Proof.
  unfold ex_toks.
  assert (Hx : lexeme (K:=D) fnv1a (SVar "x") "x") by (apply var_lexeme; vm_compute; reflexivity).
  assert (Hy : lexeme (K:=D) fnv1a (SVar "y") "y") by (apply var_lexeme; vm_compute; reflexivity).
  assert (Hs : forall c, IsBasicOperator c = true -> symbol c) by (intros c Hc; now apply IsBasicOperator_symbol).
  apply (r_cons fnv1a " " (SVar "x") "x" _ " +sin(y^ -x)"); [exact spc|auto| |intros _; left; unfold space; cbn; tauto].
  apply (r_cons fnv1a " " (SSym "+") "+" _ "sin(y^ -x)"); [exact spc|apply sym_lexeme; [reflexivity|discriminate|discriminate]| |intros []].
  apply (r_cons fnv1a "" (SFun USin) "sin" _ "(y^ -x)"); [exact I|apply (fun_lexeme tiny_libm); reflexivity| |intros _; right; now apply Hs].
  apply (r_cons fnv1a "" SLP "(" _ "y^ -x)"); [exact I|constructor| |intros []].
  apply (r_cons fnv1a "" (SVar "y") "y" _ "^ -x)"); [exact I|auto| |intros _; right; now apply Hs].
  apply (r_cons fnv1a "" (SSym "^") "^" _ " -x)"); [exact I|apply sym_lexeme; [reflexivity|discriminate|discriminate]| |intros []].
  apply (r_cons fnv1a " " (SSym "-") "-" _ "x)"); [exact spc|apply sym_lexeme; [reflexivity|discriminate|discriminate]| |intros []].
  apply (r_cons fnv1a "" (SVar "x") "x" _ ")"); [exact I|auto| |intros _; right; now apply Hs].
  apply (r_cons fnv1a "" SRP ")" _ ""); [exact I|constructor| |intros []].
  apply r_nil. exact I.
Qed.

Example C10_ex : Parse " x +sin(y^ -x)" = Ok (embed ex_expr).
Proof. exact (C10_parse_complete _ _ _ C10_ex_derives C10_ex_renders). Qed.

(** The same text with other white space. *)
Example C12_ex : space_equiv "x+y" "x +y" /\ same_reaction (Parse (K:=D) "x+y") (Parse "x +y").
Proof.
  assert (E : space_equiv "x+y" "x +y").
  { eapply se_add; [|apply se_refl].
    apply (sa "x" "+y" " "%char); [unfold space; cbn; tauto|].
    left. right. now apply IsBasicOperator_symbol. }
  split; [exact E|]. apply C12_white_space; auto; discriminate.
Qed.

(** Undefined behaviour is reachable: "(x))", "()" and white space only. *)
Example C13_ex_undefined :
  (exists w, Parse (K:=D) "(x))" = Undef w) /\ (exists w, Parse (K:=D) "()" = Undef w) /\
  (exists w, Parse (K:=D) " " = Undef w).
Proof. repeat split; eexists; cbv -[D]; reflexivity. Qed.

(** Ill-formed texts that are accepted ([C11_parse_sound] still holds of them), and one that
    is rejected by the tree builder. *)
Example C11_ex_accepted :
  Parse (K:=D) "x sin" = Ok (embed (EUn USin (EVar "x"))) /\
  Parse (K:=D) "x y +" = Ok (embed (EBin BAdd (EVar "x") (EVar "y"))) /\
  (exists i, Parse (K:=D) "x+" = Throw (MathError ERROR_WRONG_EXPRESSION i)) /\
  (exists errs, Parse (K:=D) "x y" = Throw (MultiParseError errs)).
Proof. repeat split; try eexists; cbv -[D]; reflexivity. Qed.
