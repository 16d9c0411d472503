(** The printer against its specification, and reading back what was printed. *)
From Coq Require Import String Ascii List ZArith Bool Arith Lia.
From Verif Require Import Base MathOp NodeModel ParseModel ToStringModel ExprSpec GrammarSpec NodeProofs ParseProofs TextSpec.
Import ListNotations.
Local Open Scope string_scope. Local Open Scope list_scope.

Section Printer.
Context {K : num_ops}.
Implicit Types (e : expr K).

(** The printer's context of an operand. *)
Definition sctx (c : pctx) : option (binop * side) :=
  match c with
  | Some (MATH_ADD, r) => Some (BAdd, if r then RightOf else LeftOf)
  | Some (MATH_SUB, r) => Some (BSub, if r then RightOf else LeftOf)
  | Some (MATH_MULTIPLY, r) => Some (BMul, if r then RightOf else LeftOf)
  | Some (MATH_DIVIDE, r) => Some (BDiv, if r then RightOf else LeftOf)
  | Some (MATH_POWER, r) => Some (BPow, if r then RightOf else LeftOf)
  | Some (MATH_AND, r) => Some (BAnd, if r then RightOf else LeftOf)
  | Some (MATH_OR, r) => Some (BOr, if r then RightOf else LeftOf)
  | Some (MATH_MOD, r) => Some (BMod, if r then RightOf else LeftOf)
  | _ => None
  end.
Definition good_ctx (c : pctx) : Prop :=
  match c with None => True | Some (op, _) => GetOperatorNum op <> 0 end.

Lemma needsParens_spec c b : needsParens c (binop_op b) = match sctx c with Some (p, s) => parens p s b | None => false end.
Proof. destruct c as [[[] []]|], b; reflexivity. Qed.

Lemma bin_str b : MathOperatorToStr (binop_op b) = String (bin_char b) "".
Proof. destruct b; reflexivity. Qed.
Lemma un_str u : MathOperatorToStr (unop_op u) = un_text u.
Proof. destruct u; reflexivity. Qed.
Lemma un_num u : GetOperatorNum (unop_op u) = 1. Proof. destruct u; reflexivity. Qed.
Lemma bin_num b : GetOperatorNum (binop_op b) = 2. Proof. destruct b; reflexivity. Qed.
Lemma un_sign u : is_sign_op (unop_op u) = is_signop u. Proof. destruct u; reflexivity. Qed.
Lemma sctx_un u r : sctx (Some (unop_op u, r)) = None. Proof. destruct u; reflexivity. Qed.
Lemma sctx_bin b r : sctx (Some (binop_op b, r)) = Some (b, if r then RightOf else LeftOf).
Proof. destruct b; reflexivity. Qed.

Lemma loop_rp k stk out : ToStringLoop (K:=K) (S k) ((rightParenthesis, None) :: stk, out) = ToStringLoop k (stk, (out ++ ")")%string).
Proof. reflexivity. Qed.

Lemma emit_leaf e c : is_leaf e = true -> emit (embed e) c = text (sctx c) e.
Proof.
  destruct e; try discriminate; intros _; [|reflexivity].
  destruct c as [[[] []]|]; simpl; auto.
Qed.

Lemma loop_leaf k e c stk out : is_leaf e = true ->
  ToStringLoop (S k) ((embed e, c) :: stk, out) = ToStringLoop k (stk, (out ++ text (sctx c) e)%string).
Proof. intros H. rewrite <- (emit_leaf e c H). destruct e; try discriminate; reflexivity. Qed.

Lemma loop_bin k b e1 e2 c stk out :
  ToStringLoop (S k) ((embed (EBin b e1 e2), c) :: stk, out) =
  let* st := AddLeftLine (embed e2) (Some (binop_op b, true)) (stk, (out ++ String (bin_char b) "")%string) in ToStringLoop k st.
Proof.
  cbn [embed ToStringLoop]. change (emit (N OPERATOR (binop_op b) (n_ofZ 0) "" (embed e1) (embed e2)) c) with (MathOperatorToStr (binop_op b)).
  rewrite bin_str. destruct e2; reflexivity.
Qed.

Lemma embed_not_nil e : exists ty op v x l r, embed e = N ty op v x l r.
Proof. destruct e; simpl; eauto 10. Qed.

Lemma print_ok e : forall c stk out, good_ctx c -> exists st k,
  AddLeftLine (embed e) c (stk, out) = Ok st /\ k <= 2 * esize e /\
  forall f, ToStringLoop (k + f) st = ToStringLoop f (stk, (out ++ text (sctx c) e)%string).
Proof.
  induction e as [v|x|u a IH|b a IHa c' IHc]; intros c stk out Hc.
  - exists ((embed (ENum v), c) :: stk, out), 1. split; [reflexivity|]. split; [simpl; lia|].
    intros f. now apply (loop_leaf f (ENum v)).
  - exists ((embed (EVar x), c) :: stk, out), 1. split; [reflexivity|]. split; [simpl; lia|].
    intros f. now apply (loop_leaf f (EVar x)).
  - assert (Hc' : good_ctx (Some (unop_op u, false))) by (cbn; rewrite un_num; lia).
    cbn [embed AddLeftLine]. rewrite un_num, un_sign, un_str.
    assert (Hx : AddLeftLine (embed a) (Some (unop_op u, false)) = AddLeftLine (embed a) (Some (unop_op u, false))) by reflexivity.
    destruct (embed_not_nil a) as (ty & op & v & x & l & r & Ea).
    assert (Hty : negb (node_type_eqb ty OPERATOR) = is_leaf a) by (destruct a; simpl in Ea; injection Ea; intros; subst; reflexivity).
    rewrite Ea. cbn beta iota. rewrite Hty, <- Ea.
    destruct (is_signop u && is_leaf a) eqn:Hs.
    + destruct (IH (Some (unop_op u, false)) stk (out ++ un_text u)%string Hc') as (st & k & E & Hk & Hl).
      exists st, k. split; [exact E|]. split; [simpl; lia|]. intros f. rewrite Hl, sctx_un. cbn [text].
      rewrite Hs. cbn [negb in_parens]. now rewrite str_app_assoc.
    + destruct (IH (Some (unop_op u, false)) ((rightParenthesis, None) :: stk) (out ++ un_text u ++ "(")%string Hc') as (st & k & E & Hk & Hl).
      exists st, (k + 1). split; [exact E|]. split; [simpl; lia|]. intros f.
      rewrite <- Nat.add_assoc, Hl, sctx_un. cbn [Nat.add]. rewrite loop_rp. cbn [text]. rewrite Hs. cbn [negb in_parens].
      now rewrite !str_app_assoc.
  - assert (Hc1 : good_ctx (Some (binop_op b, false))) by (cbn; rewrite bin_num; lia).
    assert (Hc2 : good_ctx (Some (binop_op b, true))) by (cbn; rewrite bin_num; lia).
    assert (Hcom : forall stk0 out0, exists st k, 
       AddLeftLine (embed a) (Some (binop_op b, false)) ((embed (EBin b a c'), c) :: stk0, out0) = Ok st /\ k <= 1 + 2 * esize a + 2 * esize c' /\
       forall f, ToStringLoop (k + f) st = ToStringLoop f (stk0, (out0 ++ (text (Some (b, LeftOf)) a ++ String (bin_char b) (text (Some (b, RightOf)) c')))%string)).
    { intros stk0 out0.
      destruct (IHa (Some (binop_op b, false)) ((embed (EBin b a c'), c) :: stk0) out0 Hc1) as (st & k & E & Hk & Hl).
      destruct (IHc (Some (binop_op b, true)) stk0 ((out0 ++ text (Some (b, LeftOf)) a) ++ String (bin_char b) "")%string Hc2) as (st2 & k2 & E2 & Hk2 & Hl2).
      exists st, (k + S k2). split; [exact E|]. split; [lia|]. intros f.
      replace (k + S k2 + f) with (k + S (k2 + f)) by lia. rewrite Hl, loop_bin, sctx_bin.
      rewrite E2. cbn [bind]. rewrite Hl2, sctx_bin. rewrite !str_app_assoc. reflexivity. }
    assert (Hmain : exists st k, (if needsParens c (binop_op b)
        then AddLeftLine (embed a) (Some (binop_op b, false)) ((embed (EBin b a c'), c) :: (rightParenthesis, None) :: stk, (out ++ "(")%string)
        else AddLeftLine (embed a) (Some (binop_op b, false)) ((embed (EBin b a c'), c) :: stk, out)) = Ok st /\ k <= 2 * esize (EBin b a c') /\
       forall f, ToStringLoop (k + f) st = ToStringLoop f (stk, (out ++ text (sctx c) (EBin b a c'))%string)).
    { cbn [text]. rewrite needsParens_spec. destruct (match sctx c with Some (p, s) => parens p s b | None => false end).
      - destruct (Hcom ((rightParenthesis, None) :: stk) (out ++ "(")%string) as (st & k & E & Hk & Hl).
        exists st, (k + 1). split; [exact E|]. split; [cbn [esize]; lia|]. intros f.
        rewrite <- Nat.add_assoc, Hl. cbn [Nat.add]. rewrite loop_rp. cbn [in_parens]. now rewrite !str_app_assoc.
      - destruct (Hcom stk out) as (st & k & E & Hk & Hl).
        exists st, k. split; [exact E|]. split; [cbn [esize]; lia|]. intros f. now rewrite Hl. }
    destruct Hmain as (st & k & E & Hk & Hl). exists st, k. split; [|auto].
    rewrite <- E. cbn [embed AddLeftLine]. rewrite bin_num.
    destruct c as [[pop isR]|]; [|reflexivity].
    destruct (Nat.eqb_spec (GetOperatorNum pop) 0); [exfalso; now apply Hc|reflexivity].
Qed.

Theorem ToString_text e : ToString (embed e) = Ok (text None e).
Proof.
  destruct (print_ok e None [] "" I) as (st & k & E & Hk & Hl).
  assert (ToString (embed e) = let* st := AddLeftLine (embed e) None ([], "") in ToStringLoop (S (2 * node_size (embed e))) st) as ->
    by (destruct e; reflexivity).
  rewrite E. cbn [bind]. rewrite embed_size.
  replace (S (2 * esize e)) with (k + S (2 * esize e - k)) by lia. rewrite Hl. reflexivity.
Qed.

(** ** Reading back *)

(** The tokens of the text. *)
Definition paren_toks (b : bool) (ts : list (stok K)) : list (stok K) := if b then SLP :: ts ++ [SRP] else ts.
Variable rd : K -> K.
Fixpoint toks (ctx : option (binop * side)) (e : expr K) : list (stok K) :=
  match e with
  | ENum v => paren_toks (match ctx with Some (BSub, RightOf) => n_ltb v (n_ofZ 0) | _ => false end)
                (if n_ltb v (n_ofZ 0) then [SSym "-"; SNum (rd v)] else [SNum (rd v)])
  | EVar x => [SVar x]
  | EUn u a => (if is_signop u then SSym (match u with UPos => "+" | _ => "-" end)%char else SFun u)
               :: paren_toks (negb (is_signop u && is_leaf a)) (toks None a)
  | EBin b a c =>
      paren_toks (match ctx with Some (p, s) => parens p s b | None => false end)
        (toks (Some (b, LeftOf)) a ++ SSym (bin_char b) :: toks (Some (b, RightOf)) c)
  end.

Lemma lex_sym_ok c : symbol c -> c <> "("%char -> c <> ")"%char -> lexeme (K:=K) fnv1a (SSym c) (String c "").
Proof. now constructor. Qed.
Lemma bin_char_sym b : symbol (bin_char b) /\ bin_char b <> "("%char /\ bin_char b <> ")"%char.
Proof. destruct b; (split; [apply IsBasicOperator_symbol; reflexivity|split; discriminate]). Qed.

Lemma renders_word t w ts s : lexeme (K:=K) fnv1a t w -> renders fnv1a ts s -> delimited s -> renders fnv1a (t :: ts) (w ++ s)%string.
Proof. intros Hl Hr Hd. apply (r_cons fnv1a "" t w ts s); auto. exact I. Qed.
Lemma renders_sym t w ts s : lexeme (K:=K) fnv1a t w -> ~ is_word_tok t -> renders fnv1a ts s -> renders fnv1a (t :: ts) (w ++ s)%string.
Proof. intros Hl Hn Hr. apply (r_cons fnv1a "" t w ts s); auto; [exact I|]. intros Hw. contradiction. Qed.
Lemma renders_minus ts s c : symbol c -> c <> "("%char -> c <> ")"%char -> renders (K:=K) fnv1a ts s -> renders fnv1a (SSym c :: ts) (String c s).
Proof. intros H1 H2 H3. apply (renders_sym (SSym c) (String c "")); [now constructor|auto]. Qed.

Lemma delim_sym c s : symbol c -> delimited (String c s). Proof. intros H. now right. Qed.
Lemma sym_rp : symbol ")". Proof. apply IsBasicOperator_symbol. reflexivity. Qed.
Lemma sym_lp : symbol "(". Proof. apply IsBasicOperator_symbol. reflexivity. Qed.

Lemma renders_parens b (ts rest : list (stok K)) s r :
  (forall rest r, renders fnv1a rest r -> delimited r -> renders fnv1a (ts ++ rest) (s ++ r)%string) ->
  renders fnv1a rest r -> delimited r -> renders fnv1a (paren_toks b ts ++ rest) (in_parens b s ++ r)%string.
Proof.
  intros H Hr Hd. destruct b; [|now apply H]. cbn [paren_toks in_parens].
  change ((SLP :: ts ++ [SRP]) ++ rest) with (SLP :: (ts ++ [SRP]) ++ rest). rewrite <- app_assoc.
  rewrite !str_app_assoc. apply renders_sym; [constructor|intros []|].
  apply H; [|now apply delim_sym, sym_rp].
  cbn [app]. apply (renders_sym SRP ")"); [constructor|intros []|auto].
Qed.

Lemma toks_renders e : forall ctx rest r, legible rd e -> renders fnv1a rest r -> delimited r ->
  renders fnv1a (toks ctx e ++ rest) (text ctx e ++ r)%string.
Proof.
  induction e as [v|x|u a IH|b a IHa c IHc]; intros ctx rest r Hl Hr Hd.
  - destruct Hl as (w & Hw & Ev). cbn [toks text]. apply renders_parens; auto. clear rest r Hr Hd. intros rest r Hr Hd.
    rewrite Ev. destruct (n_ltb v (n_ofZ 0)); cbn [app].
    + cbn [String.append]. apply renders_minus; try discriminate; [apply IsBasicOperator_symbol; reflexivity|]. now apply renders_word.
    + now apply renders_word.
  - cbn [toks text app]. now apply renders_word.
  - destruct Hl as [Hu Ha]. cbn [toks text]. rewrite <- app_comm_cons, str_app_assoc.
    destruct u eqn:Eu; cbn [is_signop] in *; destruct Hu as [Hu|[Hn Hx]]; try discriminate;
    try (match goal with |- renders _ (SFun ?u :: _) _ => apply (renders_word (SFun u)); [exact Hx| |exact (delim_sym "(" _ sym_lp)] end;
         apply renders_parens; auto).
    + apply (renders_minus _ _ "+"%char); try discriminate; [apply IsBasicOperator_symbol; reflexivity|]. apply renders_parens; auto.
    + apply (renders_minus _ _ "-"%char); try discriminate; [apply IsBasicOperator_symbol; reflexivity|]. apply renders_parens; auto.
  - destruct Hl as [Ha Hc]. cbn [toks text]. apply renders_parens; auto. clear rest r Hr Hd. intros rest r Hr Hd.
    destruct (bin_char_sym b) as (S1 & S2 & S3).
    rewrite <- app_assoc, str_app_assoc, <- app_comm_cons. apply IHa; auto.
    + cbn [String.append]. apply renders_minus; auto.
    + now apply delim_sym.
Qed.

(** *** What the tokens denote *)
Definition elevel (e : expr K) : nat :=
  match e with
  | ENum v => if n_ltb v (n_ofZ 0) then 5 else 6
  | EVar _ => 6
  | EUn u _ => if is_signop u then 5 else 6
  | EBin b _ _ => bin_level b
  end.

Lemma derives_down k k' ts (e : expr K) : k' <= k -> k <= 6 -> derives k ts e -> derives k' ts e.
Proof.
  intros H. induction H as [|k H IH]; auto. intros Hk Hd. apply IH; [lia|]. apply d_up; [lia|auto].
Qed.

Lemma elevel_le e : elevel e <= 6.
Proof. destruct e; simpl; try destruct (n_ltb _ _); try destruct (is_signop _); try destruct b; simpl; lia. Qed.

Definition assoc_op (b : binop) : bool := match b with BAdd | BMul => true | _ => false end.

(** Root of a chain that [b] absorbs. *)
Definition absorbs (b : binop) (e : expr K) : bool :=
  match e with EBin b' _ _ => assoc_op b && (bin_level b' =? bin_level b)%nat | _ => false end.

Lemma attach_plain b (a c : expr K) : absorbs b c = false -> attach b a c = EBin b a c.
Proof. destruct b, c as [| | |[]]; try reflexivity; discriminate. Qed.

Lemma absorbs_reread b e : absorbs b (reread rd e) = absorbs b e.
Proof.
  destruct e as [v|x|u a|b' a c]; cbn [reread]; auto.
  - destruct (n_ltb v (n_ofZ 0)); reflexivity.
  - assert (H : exists b'' x y, attach b' (reread rd a) (reread rd c) = EBin b'' x y /\ bin_level b'' = bin_level b').
    { destruct b', (reread rd c) as [| | |[]]; cbn [attach]; do 3 eexists; (split; [reflexivity|reflexivity]). }
    destruct H as (b'' & x & y & -> & E). cbn [absorbs]. now rewrite E.
Qed.

Lemma attach_assoc b b' (a x y : expr K) : assoc_op b = true -> bin_level b' = bin_level b ->
  attach b a (attach b' x y) = attach b' (attach b a x) y.
Proof.
  intros Hb Hl. revert x. induction y as [v|z|u y IH|c y1 IH1 y2 IH2]; intros x.
  1-3: destruct b, b'; try discriminate; reflexivity.
  destruct b, b'; try discriminate; destruct c; cbn [attach]; try reflexivity; rewrite <- IH1; reflexivity.
Qed.

Definition left_like (b : binop) : bool := match b with BPow => false | _ => true end.
Lemma left_like_op b : left_like b = true -> left_op (bin_level b) (bin_char b) b.
Proof. destruct b; try discriminate; intros _; constructor. Qed.

(** The operand of [b] on side [s], if it is not absorbed, is a phrase of the next level. *)
Definition operand_ok (e : expr K) : Prop := derives (elevel e) (toks None e) (reread rd e).

Lemma toks_ctx e p s : toks (Some (p, s)) e =
  paren_toks (match e with EBin b _ _ => parens p s b | ENum v => match p, s with BSub, RightOf => n_ltb v (n_ofZ 0) | _, _ => false end | _ => false end) (toks None e).
Proof. destruct e; reflexivity. Qed.

Lemma paren_phrase (b : bool) k ts (e : expr K) : derives k ts e -> k <= 6 -> derives (if b then 6 else k) (paren_toks b ts) e.
Proof. intros H Hk. destruct b; [|auto]. apply d_paren. eapply derives_down; [|exact Hk|exact H]. lia. Qed.

Lemma operand_phrase e p s : operand_ok e -> absorbs p e = false ->
  (s = LeftOf -> p <> BPow -> derives (bin_level p) (toks (Some (p, s)) e) (reread rd e)) /\
  (s = LeftOf -> p = BPow -> derives 3 (toks (Some (p, s)) e) (reread rd e)) /\
  (s = RightOf -> derives (S (bin_level p)) (toks (Some (p, s)) e) (reread rd e)).
Proof.
  intros H Ha. rewrite toks_ctx. unfold operand_ok in H.
  match goal with |- context [paren_toks ?x _] => set (f := x) end.
  pose proof (paren_phrase f _ _ _ H (elevel_le e)) as P.
  assert (Hk : (if f then 6 else elevel e) <= 6) by (destruct f; [lia|apply elevel_le]).
  assert (L5 : forall b, bin_level b <= 4) by (intros []; simpl; lia).
  assert (Hlev : match s with LeftOf => if match p with BPow => true | _ => false end then 3 else bin_level p | RightOf => S (bin_level p) end <= (if f then 6 else elevel e)).
  { destruct f eqn:Ef; [destruct s; [destruct p; simpl; lia|specialize (L5 p); lia]|].
    subst f. destruct e as [v|x|u a|b a c]; cbn [elevel].
    - destruct (n_ltb v (n_ofZ 0)); destruct s; destruct p; simpl; lia.
    - destruct s; destruct p; simpl; lia.
    - destruct (is_signop u); destruct s; destruct p; simpl; lia.
    - revert Ef Ha. cbn [absorbs]. unfold parens. destruct p, s, b; simpl; intros; try discriminate; lia. }
  repeat split; intros; subst; eapply derives_down; try exact P; auto.
  destruct p; try exact Hlev; congruence.
Qed.

Definition right_ok (c : expr K) : Prop := forall b ts1 e1, left_like b = true ->
  derives (bin_level b) ts1 e1 ->
  derives (bin_level b) (ts1 ++ SSym (bin_char b) :: toks (Some (b, RightOf)) c) (attach b e1 (reread rd c)).

Lemma same_parens b b' x : assoc_op b = true -> bin_level b' = bin_level b -> parens b RightOf x = parens b' LeftOf x.
Proof. destruct b, b', x; try discriminate; reflexivity. Qed.

Lemma same_toks b b' e : assoc_op b = true -> bin_level b' = bin_level b ->
  toks (Some (b, RightOf)) e = toks (Some (b', LeftOf)) e.
Proof.
  intros H1 H2. rewrite !toks_ctx. f_equal. destruct e; auto.
  - destruct b, b'; try discriminate; reflexivity.
  - now apply same_parens.
Qed.

Lemma derive_ok e : legible rd e -> operand_ok e /\ right_ok e.
Proof.
  assert (Right : forall e, operand_ok e -> (forall b, absorbs b e = true -> forall ts1 e1,
     derives (bin_level b) ts1 e1 -> derives (bin_level b) (ts1 ++ SSym (bin_char b) :: toks (Some (b, RightOf)) e) (attach b e1 (reread rd e))) -> right_ok e).
  { intros x Hx Habs b ts1 e1 Hb H1. destruct (absorbs b x) eqn:Ea; [now apply Habs|].
    rewrite attach_plain by now rewrite absorbs_reread.
    apply d_left; auto; [now apply left_like_op|]. now apply (operand_phrase x b RightOf). }
  induction e as [v|x|u a IH|b a IHa c IHc]; intros Hl.
  - assert (O : operand_ok (ENum v)).
    { unfold operand_ok. cbn [elevel toks paren_toks reread]. destruct (n_ltb v (n_ofZ 0)); [|apply d_num].
      eapply d_sign; [constructor|]. apply d_up; [lia|apply d_num]. }
    split; auto. apply Right; auto. discriminate.
  - assert (O : operand_ok (EVar x)) by apply d_var.
    split; auto. apply Right; auto. discriminate.
  - destruct Hl as [Hu Ha]. destruct (IH Ha) as [Oa _].
    assert (O : operand_ok (EUn u a)).
    { unfold operand_ok in *. cbn [elevel toks reread].
      destruct (is_signop u) eqn:Es.
      - assert (P : derives 5 (paren_toks (negb (true && is_leaf a)) (toks None a)) (reread rd a)).
        { cbn [andb]. pose proof (paren_phrase (negb (is_leaf a)) _ _ _ Oa (elevel_le a)) as P.
          eapply derives_down; [| |exact P].
          - destruct a; simpl; try lia. destruct (n_ltb v (n_ofZ 0)); lia.
          - destruct (negb (is_leaf a)); [lia|apply elevel_le]. }
        destruct u; try discriminate; (eapply d_sign; [constructor|exact P]).
      - destruct Hu as [|[Hn _]]; [discriminate|]. cbn [andb negb paren_toks].
        eapply d_fun; [exact Hn|]. eapply derives_down; [|apply elevel_le|exact Oa]. lia. }
    split; auto. apply Right; auto. discriminate.
  - destruct Hl as [Ha Hc]. destruct (IHa Ha) as [Oa Ra]. destruct (IHc Hc) as [Oc Rc].
    assert (O : operand_ok (EBin b a c)).
    { unfold operand_ok. cbn [elevel toks paren_toks reread]. destruct (left_like b) eqn:Eb.
      - apply Rc; auto. destruct (absorbs b a) eqn:Ea.
        + rewrite toks_ctx. destruct a as [| | |b' a1 a2]; try discriminate.
          cbn [absorbs] in Ea. apply andb_prop in Ea as [Eas El]. apply Nat.eqb_eq in El.
          assert (parens b LeftOf b' = false) as -> by (destruct b, b'; try discriminate; reflexivity).
          unfold operand_ok in Oa. cbn [elevel] in Oa. rewrite El in Oa. exact Oa.
        + apply (operand_phrase a b LeftOf); auto. destruct b; discriminate.
      - destruct b; try discriminate. rewrite attach_plain by now destruct (reread rd c).
        assert (Hab : forall x, absorbs BPow x = false) by (intros []; reflexivity).
        apply d_pow; [exact (proj1 (proj2 (operand_phrase a BPow LeftOf Oa (Hab a))) eq_refl eq_refl)|].
        eapply derives_down; [| |exact (proj2 (proj2 (operand_phrase c BPow RightOf Oc (Hab c))) eq_refl)]; simpl; lia. }
    split; auto. apply Right; auto. intros p Hp ts1 e1 H1.
    cbn [absorbs] in Hp. apply andb_prop in Hp as [Hpa El]. apply Nat.eqb_eq in El.
    assert (Hlb : left_like b = true) by (destruct b, p; try discriminate; reflexivity).
    assert (Hlp : left_like p = true) by (destruct p; try discriminate; reflexivity).
    cbn [toks reread]. assert (parens p RightOf b = false) as -> by (destruct b, p; try discriminate; reflexivity).
    cbn [paren_toks]. rewrite attach_assoc by auto.
    pose proof (Ra p ts1 e1 Hlp H1) as P1. rewrite (same_toks p b) in P1 by auto.
    rewrite <- El in P1 |- *. pose proof (Rc b _ _ Hlb P1) as P2.
    rewrite <- app_assoc in P2. exact P2.
Qed.

Theorem ToString_Parse e : legible rd e -> exists s, ToString (embed e) = Ok s /\ Parse s = Ok (embed (reread rd e)).
Proof.
  intros H. exists (text None e). split; [apply ToString_text|].
  eapply parse_complete.
  - destruct (derive_ok e H) as [O _]. eapply derives_down; [|apply elevel_le|exact O]. lia.
  - pose proof (toks_renders e None [] "" H (r_nil fnv1a "" I) I) as R.
    rewrite app_nil_r, str_app_nil in R. exact R.
Qed.

Lemma reread_same e : left_nested e -> all_nums (fun v => rd v = v) e -> reread rd e = e.
Proof.
  induction e as [v|x|u a IH|b a IHa c IHc]; cbn [left_nested all_nums reread]; intros H Hn; auto.
  - now rewrite H, Hn.
  - now rewrite IH.
  - destruct H as (Ha & Hc & Hr), Hn as [Na Nc]. rewrite IHa, IHc by auto.
    apply attach_plain. destruct b, c as [| | |[]]; auto; contradiction.
Qed.
End Printer.
