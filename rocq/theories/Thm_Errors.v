(** C54: the texts of errors. *)
From Coq Require Import String Ascii DecimalString List ZArith Bool Arith Lia.
From Verif Require Import Base MathOp NodeModel ParseModel ErrorModel ExprSpec GrammarSpec ErrorSpec NodeProofs ParseProofs ParseSound ParseTotal Thm_Parse IEEE.
Import ListNotations.
Local Open Scope string_scope. Local Open Scope list_scope. Local Open Scope nat_scope.

Lemma sapp_assoc (a b c : string) : ((a ++ b) ++ c = a ++ (b ++ c))%string.
Proof. induction a as [|x a IH]; cbn; congruence. Qed.
Lemma substring_sat r : forall k n, String.length r <= n -> substring k n r = substring k (S n) r.
Proof.
  induction r as [|c r IH]; intros [|k] [|n] Hn; cbn in *; try reflexivity; try lia.
  - f_equal. apply (IH 0 n). lia.
  - apply IH. lia.
Qed.
Lemma substring_all r : substring 0 (String.length r) r = r.
Proof. induction r as [|c r IH]; cbn; congruence. Qed.
Lemma shows_start w : forall r, substring 0 (String.length w) r = w -> String.length w <= String.length r ->
  r = (w ++ substring (String.length w) (String.length r) r)%string.
Proof.
  induction w as [|d w IH]; intros r H2 H3; [cbn; symmetry; apply substring_all|].
  destruct r as [|c r]; [cbn in H3; lia|]. cbn [String.length substring append] in *. injection H2 as -> H2. f_equal.
  rewrite (IH r H2) at 1 by lia. f_equal. now apply substring_sat.
Qed.
Lemma shows_stands s col w : shows s col w -> stands s col w.
Proof.
  intros (H1 & H2 & H3). split; [exact H1|]. exists (substring 0 col s), (substring (col + String.length w) (String.length s) s).
  revert col H2 H3. induction s as [|c s IH]; intros col H2 H3.
  - cbn in H3. destruct w; [congruence|cbn in H3; lia].
  - destruct col as [|col].
    + split; [|reflexivity]. exact (shows_start w (String c s) H2 H3).
    + cbn [substring String.length Nat.add] in *. specialize (IH col H2 ltac:(lia)). destruct IH as [IH1 IH2]. cbn [append]. split.
      * f_equal. rewrite IH1 at 1. f_equal. f_equal. now apply substring_sat.
      * cbn [String.length]. now rewrite IH2.
Qed.

Lemma blanks_spaces n : blanks n = spaces n.
Proof. induction n as [|n IH]; [reflexivity|]. cbn [blanks]. rewrite IH. reflexivity. Qed.
Lemma single_block pos content info : SingleParseError_what 0 pos content info = block (at_col info pos) content pos.
Proof.
  unfold SingleParseError_what, block, at_col, nl, int_text, decimal. rewrite blanks_spaces. change (NilZero.string_of_uint (Nat.to_uint 0)) with "0".
  rewrite !sapp_assoc. reflexivity.
Qed.
Lemma quote_quoted w : (quote ++ w ++ quote)%string = quoted w.
Proof. reflexivity. Qed.

Section Parse.
Context {K : num_ops}.

Lemma try_throw w p (ret : list (token K)) e : tryComfirmToken w p ret = Throw e ->
  exists q, e = SingleParseError 0 q w ("Invalid variable name: " ++ quoted w)%string.
Proof.
  unfold tryComfirmToken. destruct w as [|c w]; [discriminate|]. set (x := String c w). unfold confirm_word.
  assert (G : (let* t := (match Str2Function x with MATH_NULL => if VarNameIsLegal x then let* n := mkVar x in Ok {| t_node := n; t_s := x; t_pos := p - String.length x |}
      else Throw (SingleParseError 0 (p - String.length x) x ("Invalid variable name: " ++ quote ++ x ++ quote))
      | op => let* n := mkOp op in Ok {| t_node := n; t_s := x; t_pos := p - String.length x |} end) in Ok (t :: ret)) = Throw (A:=list (token K)) e ->
    exists q, e = SingleParseError 0 q x ("Invalid variable name: " ++ quoted x)%string).
  { destruct (Str2Function x); try (intros H; discriminate H). destruct (VarNameIsLegal x) eqn:Ev.
    - unfold mkVar. rewrite Ev. intros H; discriminate H.
    - cbn [bind]. intros [= <-]. eexists. reflexivity. }
  destruct (n_stod x) as [[d sz]|]; [|exact G]. destruct (Nat.eqb sz (String.length x)); [intros H; discriminate H|exact G].
Qed.
Lemma lex_throw cs : forall p w (ret : list (token K)) e, lex cs p w ret = Throw e ->
  exists q v, e = SingleParseError 0 q v ("Invalid variable name: " ++ quoted v)%string.
Proof.
  induction cs as [|c cs IH]; intros p w ret e H; cbn [lex] in H.
  - destruct (try_throw _ _ _ _ H) as [q E]. eauto.
  - destruct (IsBasicOperator c) eqn:Ec; [|destruct (is_space c)].
    + destruct (tryComfirmToken w p ret) as [r|e'| | | |] eqn:E; cbn [bind] in H; try discriminate H.
      * assert (Hm : exists n : node K, mkOp (BaseOperatorCharToEnum c (unaryOp r)) = Ok n).
        { apply IsBasicOperator_symbol in Ec. rewrite (symbol_mkOp c _ Ec). eauto. }
        destruct Hm as [n Hm]. rewrite Hm in H. cbn [bind] in H. eauto.
      * injection H as ->. destruct (try_throw _ _ _ _ E) as [q ->]. eauto.
    + destruct (tryComfirmToken w p ret) as [r|e'| | | |] eqn:E; cbn [bind] in H; try discriminate H; [eauto|].
      injection H as ->. destruct (try_throw _ _ _ _ E) as [q ->]. eauto.
    + eauto.
Qed.
Lemma build_keeps toks : forall (stk stk' : list (token K)), foldM BuildStep toks stk = Ok stk' ->
  forall t, In t stk' -> exists t0, In t0 (toks ++ stk) /\ t_s t = t_s t0 /\ t_pos t = t_pos t0.
Proof.
  induction toks as [|k toks IH]; intros stk stk' H t Ht; cbn [foldM] in H.
  - injection H as <-. exists t. auto.
  - destruct (BuildStep stk k) as [s1| | | | |] eqn:E; cbn [bind] in H; try discriminate H.
    destruct (IH _ _ H t Ht) as (t0 & Hin & E1 & E2). apply in_app_or in Hin as [Hin|Hin].
    + exists t0. split; [|auto]. right. apply in_or_app. auto.
    + assert (G : exists t1, In t1 (k :: stk) /\ t_s t0 = t_s t1 /\ t_pos t0 = t_pos t1).
      { unfold BuildStep in E. destruct (t_type k); [injection E as <-; exists t0; auto| |injection E as <-; exists t0; auto].
        destruct (GetOperatorNum (t_op k)) as [|[|[|n]]]; try discriminate E.
        - destruct stk as [|tl stk]; [discriminate|]. injection E as <-. destruct Hin as [<-|Hin]; [exists k; split; [now left|split; reflexivity]|].
          exists t0. split; [right; right; auto|auto].
        - destruct stk as [|tr [|tl stk]]; try discriminate. injection E as <-. destruct Hin as [<-|Hin]; [exists k; split; [now left|split; reflexivity]|].
          exists t0. split; [right; right; right; auto|auto]. }
      destruct G as (t1 & [<-|G1] & G2 & G3); [exists k; split; [now left|split; congruence]|].
      exists t1. split; [right; apply in_or_app; auto|split; congruence].
Qed.

(** Every error report of Parse, literally. *)
Theorem C54_parse_error s e : Parse (K:=K) s = Throw e -> complaint (K:=K) fnv1a s (what e).
Proof.
  intros H. destruct s as [|c0 s0] eqn:Es.
  { injection H as <-. exact (cp_empty _ _ eq_refl). }
  rewrite <- Es in *. assert (Hne : s <> "") by (rewrite Es; discriminate). clear Es c0 s0.
  destruct (renders_dec (K:=K) s) as [[ts Hr]|Hn].
  2:{ destruct (Parse_no_tokens s Hne Hn) as (p & w & msg & E & Hs & Hw). rewrite E in H. injection H as <-.
      assert (Em : msg = ("Invalid variable name: " ++ quoted w)%string).
      { unfold Parse, ParseToTokens in E. destruct s as [|c s]; [congruence|].
        destruct (lexemes_total (String c s) 0) as [ws Hws].
        destruct (lex_total 0 ws _ Hws (K:=K) []) as [(ts' & toks & Hr' & _)|(w' & p' & msg' & El & _)]; [exfalso; exact (Hn _ Hr')|].
        rewrite <- (lex_lexemes 0 ws _ Hws) in El. rewrite El in E. cbn [bind] in E. injection E as -> -> ->.
        destruct (lex_throw _ _ _ _ _ El) as (q & v & [= -> -> ->]). reflexivity. }
      subst msg. cbn [what]. rewrite single_block. apply cp_word; [now apply shows_stands|exact Hw]. }
  destruct (Parse_tokens ts s Hne Hr) as (toks & Hres & Hit & Hpos & Hlx & E). rewrite E in H. clear E.
  pose proof (renders_lexed _ _ Hr) as Hl. rewrite Forall_forall in Hpos.
  destruct (inorder_total s toks _ Hit) as [(post & pi & Ep & Hpi & Hout & _ & _ & _ & _ & HQ)|[(f & Hin & Ef & Hf)|(w & p & q & Ew & _)]].
  - rewrite Ep in H. cbn [bind] in H. unfold BuildExpressionTree in H.
    destruct (foldM BuildStep post []) as [stk|e'| | | |] eqn:Eb; cbn [bind] in H; try discriminate H.
    + destruct stk as [|t [|t1 rest]]; try discriminate H.
      assert (He : e = MultiParseError (map (fun t => (0, t_pos t, s, ("Parse Error at: " ++ quote ++ t_s t ++ quote)%string)) (t1 :: rest))) by congruence.
      subst e. clear H. cbn [what].
      assert (Hplaces : forall t', In t' (t1 :: rest) -> stands s (t_pos t') (t_s t')).
      { intros t' Ht'. destruct (build_keeps _ _ _ Eb t' (or_intror Ht')) as (t0 & Hin & E1 & E2). rewrite app_nil_r in Hin.
        assert (HP : Forall (fun t => shows s (t_pos t) (t_s t)) post) by (apply HQ, Forall_forall; exact Hpos).
        rewrite Forall_forall in HP. rewrite E1, E2. apply shows_stands. auto. }
      set (l := t1 :: rest) in *. assert (Hl' : l <> []) by discriminate. clearbody l.
      assert (Et : MultiParseError_what (map (fun t => (0, t_pos t, s, ("Parse Error at: " ++ quote ++ t_s t ++ quote)%string)) l) =
        String.concat "" (map (fun '(col, w) => (block (at_col ("Parse Error at: " ++ quoted w) col) s col ++ String newline "")%string)
          (map (fun t => (t_pos t, t_s t)) (List.rev l)))).
      { unfold MultiParseError_what. rewrite <- map_rev. generalize (List.rev l) as r. clear. induction r as [|t r IH]; [reflexivity|].
        cbn [map fold_right]. rewrite IH, single_block, quote_quoted. change nl with (String newline "").
        cbn [map String.concat]. destruct (map _ (map _ r)) as [|a b] eqn:E; [cbn [String.concat]; now rewrite str_app_nil|].
        cbn [append]. rewrite !sapp_assoc. reflexivity. }
      rewrite Et. apply cp_several.
      * intros E0. apply map_eq_nil in E0. apply (f_equal (@List.rev _)) in E0. rewrite rev_involutive in E0. auto.
      * intros col w Hin. apply in_map_iff in Hin as (t' & [= <- <-] & Hin). apply in_rev in Hin. auto.
    + assert (Ee : e' = MathError ERROR_WRONG_EXPRESSION "").
      { clear -Eb. revert Eb. generalize (@nil (token K)) as stk. induction post as [|k post IH]; intros stk H; [discriminate|].
        cbn [foldM] in H. destruct (BuildStep stk k) as [s1|e1| | | |] eqn:E; cbn [bind] in H; try discriminate H; [eauto|].
        injection H as ->. unfold BuildStep in E. destruct (t_type k); try discriminate E.
        destruct (GetOperatorNum (t_op k)) as [|[|[|n]]]; try discriminate E.
        - destruct stk; [now injection E as <-|discriminate].
        - destruct stk as [|? [|? ?]]; [now injection E as <-|now injection E as <-|discriminate]. }
      injection H as <-. subst e'. apply cp_operands.
  - rewrite Ef in H. cbn [bind] in H. injection H as <-. unfold unmatched. cbn [what]. rewrite quote_quoted, single_block.
    apply cp_parenthesis.
    + destruct Hf as [(Hi & _)|(Hi & _)].
      * assert (HL : lexeme (K:=K) fnv1a SRP (t_s f)) by (eapply item_text; eauto). right. now inversion HL.
      * assert (HL : lexeme (K:=K) fnv1a SLP (t_s f)) by (eapply item_text; eauto). left. now inversion HL.
    + apply shows_stands. auto.
  - rewrite Ew in H. discriminate H.
Qed.
End Parse.

(** ** Where the mark stands *)
Lemma lines_app a b : one_line a -> lines (a ++ String newline b) = a :: lines b.
Proof.
  induction a as [|c a IH]; intros H; [reflexivity|]. destruct H as [H1 H2]. cbn [append lines].
  apply Ascii.eqb_neq in H1. rewrite H1, (IH H2). reflexivity.
Qed.
Lemma lines_one a : one_line a -> lines a = [a].
Proof.
  induction a as [|c a IH]; intros H; [reflexivity|]. destruct H as [H1 H2]. cbn [lines]. apply Ascii.eqb_neq in H1. rewrite H1, (IH H2). reflexivity.
Qed.
Lemma one_line_app a b : one_line a -> one_line b -> one_line (a ++ b)%string.
Proof. induction a as [|c a IH]; intros Ha Hb; [exact Hb|]. destruct Ha. cbn. split; auto. now apply IH. Qed.
Lemma spaces_one n : one_line (spaces n).
Proof. induction n as [|n IH]; [exact I|]. split; [discriminate|exact IH]. Qed.
Lemma get_spaces n rest : String.get n (spaces n ++ rest) = String.get 0 rest /\ forall j, j < n -> String.get j (spaces n ++ rest) = Some " "%char.
Proof.
  induction n as [|n [IH1 IH2]]; [split; [reflexivity|intros j Hj; lia]|]. split; [exact IH1|].
  intros [|j] Hj; [reflexivity|]. apply IH2. lia.
Qed.
Lemma get_stands s col w : stands s col w -> String.get col s = String.get 0 w.
Proof.
  intros (Hw & a & b & -> & <-). destruct w as [|c w]; [congruence|]. clear. induction a as [|d a IH]; [reflexivity|exact IH].
Qed.
Lemma stands_one s col w : one_line s -> stands s col w -> one_line w.
Proof.
  intros Hs (_ & a & b & -> & _). induction a as [|c a IH].
  - cbn [append] in Hs. induction w as [|d w IHw]; [exact I|]. destruct Hs. split; [assumption|now apply IHw].
  - destruct Hs. auto.
Qed.

(** In a report about a text without line breaks that shows the whole text, the second line is
    the text and the mark in the third line stands below the first character of the reported word. *)
Theorem C54_mark title s col w : one_line title -> one_line s -> stands s col w ->
  exists third, lines (block title s col) = [title; s; third] /\
    String.get col third = Some "^"%char /\ (forall j, j < col -> String.get j third = Some " "%char) /\
    String.get col s = String.get 0 w.
Proof.
  intros Ht Hs Hw. exists (spaces col ++ "^---- error position")%string. split.
  - unfold block. rewrite (lines_app title) by auto. rewrite (lines_app s) by auto. rewrite lines_one; [reflexivity|].
    apply one_line_app; [apply spaces_one|]. cbn. repeat split; first [exact I|discriminate].
  - destruct (get_spaces col "^---- error position") as [G1 G2]. split; [exact G1|]. split; [exact G2|now apply get_stands].
Qed.
Lemma uint_one_line u : one_line (NilEmpty.string_of_uint u).
Proof. induction u; cbn; try exact I; split; try exact IHu; discriminate. Qed.
Theorem C54_title_one_line s col w what : one_line s -> stands s col w -> one_line what -> one_line (at_col (what ++ quoted w) col).
Proof.
  intros Hs Hw H. pose proof (stands_one s col w Hs Hw) as H1. unfold at_col, quoted. 
  repeat apply one_line_app; auto; try (cbn; repeat split; first [exact I|discriminate]).
  unfold decimal, NilZero.string_of_uint. destruct (Nat.to_uint col); try (cbn; repeat split; first [exact I|discriminate]); apply (uint_one_line (_ _)).
Qed.
(** The report about an illegal word shows the word only, yet the mark is indented by the position of the word in the whole text:
    unless the word opens the text, the mark does not stand below its beginning, and often below nothing. *)
Theorem C54_mark_of_word title s col w : one_line title -> one_line s -> stands s col w ->
  exists third, lines (block title w col) = [title; w; third] /\ String.get col third = Some "^"%char /\
    (forall j, j < col -> String.get j third = Some " "%char) /\
    (String.length w <= col -> String.get col w = None).
Proof.
  intros Ht Hs Hw. pose proof (stands_one s col w Hs Hw) as H1. exists (spaces col ++ "^---- error position")%string. split.
  - unfold block. rewrite (lines_app title) by auto. rewrite (lines_app w) by auto. rewrite lines_one; [reflexivity|].
    apply one_line_app; [apply spaces_one|]. cbn. repeat split; first [exact I|discriminate].
  - destruct (get_spaces col "^---- error position") as [G1 G2]. split; [exact G1|]. split; [exact G2|].
    clear. revert col. induction w as [|c w IH]; intros [|col] H; cbn in *; try reflexivity; try lia. apply IH. lia.
Qed.

(** ** Errors of evaluation *)
(** Distinct errors have distinct texts. *)
Lemma sapp_cancel a : forall b c, (a ++ b)%string = (a ++ c)%string -> b = c.
Proof. induction a as [|x a IH]; intros b c H; [exact H|]. injection H as H. auto. Qed.
Lemma sapp_cancel_r q : forall b c, (b ++ String q "")%string = (c ++ String q "")%string -> b = c.
Proof.
  induction b as [|x b IH]; intros [|y c] H; cbn in H; try reflexivity.
  - injection H as _ H. destruct c; discriminate H.
  - injection H as _ H. destruct b; discriminate H.
  - injection H as -> H. f_equal. auto.
Qed.
Theorem C54_math_error_text t t' info info' :
  what (MathError t info) = what (MathError t' info') -> t = t' /\ info = info'.
Proof.
  cbn [what]. unfold MathError_what.
  assert (G : forall a x b, (a = a ++ String x b)%string -> False).
  { induction a as [|y a IH]; intros x b H; [discriminate H|]. injection H as H. eauto. }
  destruct info as [|c i], info' as [|c' i'].
  - destruct t, t'; try discriminate; auto.
  - intros H. exfalso. destruct t, t'; try discriminate H; exact (G _ _ _ H).
  - intros H. exfalso. destruct t, t'; try discriminate H; exact (G _ _ _ (eq_sym H)).
  - intros H. assert (E : t = t') by (destruct t, t'; try discriminate H; reflexivity). subst t'. split; [reflexivity|].
    apply sapp_cancel in H. apply (sapp_cancel (": " ++ quote)%string) in H. now apply sapp_cancel_r in H.
Qed.

Section Vpa.
Context {K : num_ops}.
Lemma value_true cfg (e : expr K) x : throwOnInvalidValue cfg = true -> evalC cfg e = Ok x -> eval true e = Value x.
Proof.
  intros Ht E. pose proof (evalC_eval cfg e) as R. rewrite Ht in R. unfold reports in R. destruct (eval true e).
  - congruence.
  - destruct R as [? R]. congruence.
  - destruct R as [? R]. congruence.
  - destruct R as [? R]. congruence.
Qed.
Lemma un_op_text u : MathOperatorToStr (unop_op u) = un_text u.
Proof. destruct u; reflexivity. Qed.
Lemma bin_op_text b : MathOperatorToStr (binop_op b) = bin_text b.
Proof. destruct b; reflexivity. Qed.
(** A MathError of Vpa: an invalid number, and the text shows an operation of the expression that
    has no valid result although its operands have. *)
Theorem C54_vpa_error cfg (e : expr K) t info : Vpa cfg (embed e) = Throw (MathError t info) ->
  t = ERROR_INVALID_NUMBER /\ throwOnInvalidValue cfg = true /\
  exists text, failing e text /\ what (MathError t info) = ("invalid number: " ++ quoted ("expression: " ++ quoted text))%string.
Proof.
  rewrite Vpa_evalC. induction e as [v|x|u a IH|b a IHa c IHc]; cbn [evalC]; try discriminate.
  - destruct (evalC cfg a) as [x|e'| | | |] eqn:Ea; cbn [bind]; try discriminate.
    + unfold Calc. replace (calc_raw (unop_op u) x n_nan) with (Ok (un_sem u x)) by (destruct u; reflexivity). cbn [bind].
      destruct (throwOnInvalidValue cfg) eqn:Ht; cbn [negb]; [|discriminate]. destruct (isInvalid (un_sem u x)) eqn:Ei; [|discriminate].
      intros [= <- <-]. split; [reflexivity|]. split; [reflexivity|]. exists (un_text u ++ " " ++ n_tostr x)%string. split.
      * left. exists u, a, x. split; [constructor|]. split; [exact (value_true cfg a x Ht Ea)|]. split; [now apply invalidb_spec|reflexivity].
      * unfold calc_info. rewrite GetOperatorNum_unop, un_op_text. reflexivity.
    + intros H. injection H as ->. destruct (IH eq_refl) as (H1 & H2 & text & Hf & E). split; [exact H1|]. split; [exact H2|]. exists text. split; [|exact E].
      destruct Hf as [(u' & a' & x & Hp & Hf)|(b' & a' & c' & x & y & z & Hp & Hf)].
      * left. exists u', a', x. split; [now constructor|exact Hf].
      * right. exists b', a', c', x, y, z. split; [now constructor|exact Hf].
  - destruct (evalC cfg a) as [x|e'| | | |] eqn:Ea; cbn [bind]; try discriminate.
    + destruct (evalC cfg c) as [y|e'| | | |] eqn:Ec; cbn [bind]; try discriminate.
      * intros H. unfold Calc in H. destruct (calc_raw (binop_op b) x y) as [z| | | | |] eqn:Er; cbn [bind] in H; try discriminate H.
        -- destruct (throwOnInvalidValue cfg) eqn:Ht; cbn [negb] in H; [|discriminate H]. destruct (isInvalid z) eqn:Ei; [|discriminate H].
           injection H as <- <-. split; [reflexivity|]. split; [reflexivity|]. exists (n_tostr x ++ " " ++ bin_text b ++ " " ++ n_tostr y)%string. split.
           ++ right. exists b, a, c, x, y, z. split; [constructor|]. split; [exact (value_true cfg a x Ht Ea)|]. split; [exact (value_true cfg c y Ht Ec)|].
              split; [|split; [now apply invalidb_spec|reflexivity]].
              destruct b; cbn in Er |- *; try (injection Er as <-; reflexivity); unfold int_op in Er;
                (destruct (n_toint x) as [p|]; [|discriminate Er]); (destruct (n_toint y) as [q|]; [|discriminate Er]); cbn [bind] in Er.
              ** injection Er as <-. reflexivity.
              ** injection Er as <-. reflexivity.
              ** unfold int_mod, INT_MIN in Er. destruct (Z.eqb q 0); [discriminate Er|].
                 destruct (Z.eqb p (-2147483648) && Z.eqb q (-1))%bool; [discriminate Er|]. injection Er as <-. reflexivity.
           ++ unfold calc_info. rewrite GetOperatorNum_binop, bin_op_text. reflexivity.
        -- destruct b; try discriminate Er; cbn in Er; unfold int_op in Er; destruct (n_toint x); try discriminate Er; destruct (n_toint y); try discriminate Er.
           cbn in Er. unfold int_mod in Er. destruct (Z.eqb _ 0); [discriminate Er|]. destruct (_ && _)%bool; discriminate Er.
      * intros H. injection H as ->. destruct (IHc eq_refl) as (H1 & H2 & text & Hf & E). split; [exact H1|]. split; [exact H2|]. exists text. split; [|exact E].
        destruct Hf as [(u' & a' & x' & Hp & Hf)|(b' & a' & c' & x' & y & z & Hp & Hf)].
        -- left. exists u', a', x'. split; [now apply po_right|exact Hf].
        -- right. exists b', a', c', x', y, z. split; [now apply po_right|exact Hf].
    + intros H. injection H as ->. destruct (IHa eq_refl) as (H1 & H2 & text & Hf & E). split; [exact H1|]. split; [exact H2|]. exists text. split; [|exact E].
      destruct Hf as [(u' & a' & x' & Hp & Hf)|(b' & a' & c' & x' & y & z & Hp & Hf)].
      * left. exists u', a', x'. split; [now apply po_left|exact Hf].
      * right. exists b', a', c', x', y, z. split; [now apply po_left|exact Hf].
Qed.
End Vpa.

(** Texts as a user sees them. *)
Definition report (s : string) : string := match Parse (K:=D) s with Throw e => what e | _ => "" end.
Example C54_ex_parenthesis : report "1+(x*2" = "[Parse Error] Parenthesis not match: ""("" at(0, 2):
1+(x*2
  ^---- error position".
Proof. vm_cast_no_check (eq_refl (report "1+(x*2")). Qed.
Example C54_ex_word : report "aa+bb+1c" = "[Parse Error] Invalid variable name: ""1c"" at(0, 6):
1c
      ^---- error position".
Proof. vm_cast_no_check (eq_refl (report "aa+bb+1c")). Qed.
(** Several places are reported in the order of the operands. *)
Example C54_ex_several : report "10 20 30" = "[Parse Error] Parse Error at: ""10"" at(0, 0):
10 20 30
^---- error position
[Parse Error] Parse Error at: ""20"" at(0, 3):
10 20 30
   ^---- error position
".
Proof. vm_cast_no_check (eq_refl (report "10 20 30")). Qed.
Example C54_ex_empty : report "" = "[Parse Error]  at(0, 0):
empty input
^---- error position".
Proof. reflexivity. Qed.
Definition vpa_report (s : string) : string :=
  match Parse (K:=D) s with Ok n => match Vpa (default_config D) n with Throw e => what e | _ => "" end | _ => "" end.
Example C54_ex_vpa : vpa_report "1+2/(3-3)" = "invalid number: ""expression: ""2 / 0""""".
Proof. vm_cast_no_check (eq_refl (vpa_report "1+2/(3-3)")). Qed.
