(** Proofs about the parser on arbitrary input. *)
From Coq Require Import String Ascii List ZArith Bool Arith Lia Permutation.
From Verif Require Import Base MathOp NodeModel ParseModel ExprSpec GrammarSpec NodeProofs ParseProofs.
Import ListNotations.
Local Open Scope string_scope. Local Open Scope list_scope.

(** ** Splitting a text into lexemes *)

(** [lexemes_at pos ws s]: [s], starting at offset [pos], consists of the lexemes [ws] (with
    their offsets), separated by optional white space. *)
Inductive lexemes_at : nat -> list (string * nat) -> string -> Prop :=
| la_nil pos ws : all_chars space ws -> lexemes_at pos [] ws
| la_sym pos ws c ts rest : all_chars space ws -> symbol c ->
    lexemes_at (pos + String.length ws + 1) ts rest ->
    lexemes_at pos ((String c "", pos + String.length ws) :: ts) (ws ++ String c rest)
| la_word pos ws w ts rest : all_chars space ws -> w <> "" -> all_chars word_char w -> delimited rest ->
    lexemes_at (pos + String.length ws + String.length w) ts rest ->
    lexemes_at pos ((w, pos + String.length ws) :: ts) (ws ++ w ++ rest).

Lemma lexemes_shift_space c pos ws s : space c ->
  lexemes_at (S pos) ws s -> lexemes_at pos ws (String c s).
Proof.
  intros Hc H. inversion H; subst.
  - apply la_nil. split; auto.
  - replace (S pos + String.length ws0) with (pos + String.length (String c ws0)) by (simpl; lia).
    change (String c (ws0 ++ String c0 rest)) with (String c ws0 ++ String c0 rest)%string.
    apply la_sym; [split; auto|auto|]. replace (pos + _ + 1) with (S pos + String.length ws0 + 1) by (simpl; lia). auto.
  - replace (S pos + String.length ws0) with (pos + String.length (String c ws0)) by (simpl; lia).
    change (String c (ws0 ++ w ++ rest)) with (String c ws0 ++ w ++ rest)%string.
    apply la_word; [split; auto|auto|auto|auto|].
    replace (pos + _ + _) with (S pos + String.length ws0 + String.length w) by (simpl; lia). auto.
Qed.

Lemma delimited_dec s : delimited s \/ exists c s', s = String c s' /\ word_char c.
Proof.
  destruct s as [|c s]; [left; exact I|].
  destruct (is_space c) eqn:E1; [left; left; now apply is_space_space|].
  destruct (IsBasicOperator c) eqn:E2; [left; right; now apply IsBasicOperator_symbol|].
  right. exists c, s. split; auto. split; intros H.
  - apply is_space_space in H. congruence.
  - apply IsBasicOperator_symbol in H. congruence.
Qed.

Lemma lexemes_total s : forall pos, exists ws, lexemes_at pos ws s.
Proof.
  induction s as [|c s IH]; intros pos.
  - exists []. now apply la_nil.
  - destruct (IH (S pos)) as [ws Hws].
    destruct (is_space c) eqn:E1.
    { exists ws. apply lexemes_shift_space; auto. now apply is_space_space. }
    destruct (IsBasicOperator c) eqn:E2.
    { exists ((String c "", pos + 0) :: ws). apply (la_sym pos "" c ws s); [exact I|now apply IsBasicOperator_symbol|].
      simpl. replace (pos + 0 + 1) with (S pos) by lia. auto. }
    assert (Hc : word_char c).
    { split; intros H; [apply is_space_space in H|apply IsBasicOperator_symbol in H]; congruence. }
    destruct (delimited_dec s) as [Hd|(d & s' & -> & Hd)].
    + exists ((String c "", pos + 0) :: ws).
      apply (la_word pos "" (String c "") ws s); [exact I|discriminate|split; [auto|exact I]|auto|].
      simpl. replace (pos + 0 + 1) with (S pos) by lia. auto.
    + inversion Hws; subst.
      * destruct Hd as [Hd _]. destruct H. contradiction.
      * destruct ws0 as [|x ws0]; simpl in *.
        -- injection H as -> _. destruct Hd; contradiction.
        -- injection H as -> _. destruct H0. destruct Hd; contradiction.
      * destruct ws0 as [|x ws0]; simpl in H.
        2:{ injection H as -> _. destruct H0. destruct Hd; contradiction. }
        exists ((String c w, pos + 0) :: ts).
        apply (la_word pos "" (String c w) ts rest); [exact I|discriminate|split; auto|auto|].
        simpl. replace (pos + 0 + S (String.length w)) with (S pos + 0 + String.length w) by lia. auto.
Qed.

Section Sound.
Context {K : num_ops}.

(** The token made of a lexeme. *)
Definition wtok (ret : list (token K)) (w : string) (pos : nat) : res (token K) :=
  match w with
  | String c "" =>
      if IsBasicOperator c then
        let* n := mkOp (BaseOperatorCharToEnum c (unaryOp ret)) in
        Ok {| t_node := n; t_s := String c ""; t_pos := pos |}
      else confirm_word w pos
  | _ => confirm_word w pos
  end.
Definition wstep (ret : list (token K)) (wp : string * nat) : res (list (token K)) :=
  let* t := wtok ret (fst wp) (snd wp) in Ok (t :: ret).

Lemma wtok_word ret w pos : w <> "" -> all_chars word_char w -> wtok ret w pos = confirm_word w pos.
Proof.
  destruct w as [|c [|d w]]; try congruence; auto. intros _ [[H1 H2] _]. simpl.
  destruct (IsBasicOperator c) eqn:E; auto. apply IsBasicOperator_symbol in E. contradiction.
Qed.

Lemma lex_delim_gen cs pos w ret : delimited cs -> w <> "" ->
  lex cs pos w ret = let* t := confirm_word (K:=K) w (pos - String.length w) in lex cs pos "" (t :: ret).
Proof.
  intros Hd Hw.
  assert (Ht : tryComfirmToken w pos ret = let* t := confirm_word (K:=K) w (pos - String.length w) in Ok (t :: ret)).
  { unfold tryComfirmToken. destruct w; [congruence|]. reflexivity. }
  destruct cs as [|c cs]; cbn [lex].
  - rewrite Ht. reflexivity.
  - rewrite Ht. rewrite !bind_assoc. cbn [bind]. simpl in Hd.
    destruct (IsBasicOperator c) eqn:E; [apply bind_ext; intros; reflexivity|].
    destruct (is_space c) eqn:E'; [apply bind_ext; intros; reflexivity|].
    exfalso. destruct Hd as [Hd|Hd].
    + apply is_space_space in Hd. congruence.
    + apply IsBasicOperator_symbol in Hd. congruence.
Qed.

Lemma lex_lexemes pos ws s : lexemes_at pos ws s -> forall ret,
  lex s pos "" ret = foldM wstep ws ret.
Proof.
  induction 1 as [pos ws Hws|pos ws c ts rest Hws Hc H IH|pos ws w ts rest Hws Hw Hch Hd H IH]; intros ret.
  - rewrite <- (str_app_nil ws), lex_space by auto. reflexivity.
  - rewrite lex_space by auto. cbn [lex foldM wstep fst snd wtok].
    apply IsBasicOperator_symbol in Hc. rewrite Hc. cbn [tryComfirmToken bind].
    unfold wstep at 1. cbn [fst snd wtok]. rewrite Hc.
    rewrite !bind_assoc. apply bind_ext. intros n. cbn [bind].
    replace (S (pos + String.length ws)) with (pos + String.length ws + 1) by lia. apply IH.
  - rewrite lex_space by auto. rewrite lex_word by auto. simpl.
    rewrite lex_delim_gen by auto.
    replace (pos + String.length ws + String.length w - String.length w) with (pos + String.length ws) by lia.
    cbn [foldM]. unfold wstep at 1. cbn [fst snd]. rewrite wtok_word by auto.
    rewrite !bind_assoc. apply bind_ext. intros t. cbn [bind]. apply IH.
Qed.

(** ** What a word becomes *)
Lemma Str2Function_cases w :
  Str2Function w = MATH_NULL /\ (forall u name, fun_name u = Some name -> fnv1a w <> fnv1a name) \/
  exists u name, Str2Function w = unop_op u /\ fun_name u = Some name /\ fnv1a w = fnv1a name.
Proof.
  destruct (Z.eq_dec (fnv1a w) (fnv1a "sin")) as [E|N1]; [right; exists USin, "sin"; split; auto; now apply (Str2Function_name USin "sin")|].
  destruct (Z.eq_dec (fnv1a w) (fnv1a "cos")) as [E|N2]; [right; exists UCos, "cos"; split; auto; now apply (Str2Function_name UCos "cos")|].
  destruct (Z.eq_dec (fnv1a w) (fnv1a "tan")) as [E|N3]; [right; exists UTan, "tan"; split; auto; now apply (Str2Function_name UTan "tan")|].
  destruct (Z.eq_dec (fnv1a w) (fnv1a "arcsin")) as [E|N4]; [right; exists UAsin, "arcsin"; split; auto; now apply (Str2Function_name UAsin "arcsin")|].
  destruct (Z.eq_dec (fnv1a w) (fnv1a "arccos")) as [E|N5]; [right; exists UAcos, "arccos"; split; auto; now apply (Str2Function_name UAcos "arccos")|].
  destruct (Z.eq_dec (fnv1a w) (fnv1a "arctan")) as [E|N6]; [right; exists UAtan, "arctan"; split; auto; now apply (Str2Function_name UAtan "arctan")|].
  destruct (Z.eq_dec (fnv1a w) (fnv1a "sqrt")) as [E|N7]; [right; exists USqrt, "sqrt"; split; auto; now apply (Str2Function_name USqrt "sqrt")|].
  destruct (Z.eq_dec (fnv1a w) (fnv1a "log")) as [E|N8]; [right; exists ULog, "log"; split; auto; now apply (Str2Function_name ULog "log")|].
  destruct (Z.eq_dec (fnv1a w) (fnv1a "log2")) as [E|N9]; [right; exists ULog2, "log2"; split; auto; now apply (Str2Function_name ULog2 "log2")|].
  destruct (Z.eq_dec (fnv1a w) (fnv1a "log10")) as [E|N10]; [right; exists ULog10, "log10"; split; auto; now apply (Str2Function_name ULog10 "log10")|].
  destruct (Z.eq_dec (fnv1a w) (fnv1a "exp")) as [E|N11]; [right; exists UExp, "exp"; split; auto; now apply (Str2Function_name UExp "exp")|].
  left. assert (A : forall u name, fun_name u = Some name -> fnv1a w <> fnv1a name).
  { intros u name Hu. destruct u; simpl in Hu; try discriminate Hu; injection Hu as <-; assumption. }
  split; auto. now apply Str2Function_none.
Qed.

(** A word is a number, a variable, a function, or an error at its position. *)
Lemma confirm_word_cases w pos : w <> "" -> all_chars word_char w ->
  (exists tk t, lexeme (K:=K) fnv1a tk w /\ is_word_tok tk /\ confirm_word w pos = Ok t /\
     (forall b, t_node t = stok_node b tk) /\ t_s t = w /\ t_pos t = pos) \/
  ((forall tk, ~ lexeme (K:=K) fnv1a tk w) /\
   exists msg, confirm_word (K:=K) w pos = Throw (SingleParseError 0 pos w msg)).
Proof.
  intros Hw Hch.
  assert (Hdec : (exists v : K, number_word w v) \/ (forall v : K, ~ number_word w v)).
  { unfold number_word. destruct (n_stod w) as [[d sz]|].
    - destruct (Nat.eq_dec sz (String.length w)) as [->|N]; [left; eauto|].
      right. intros v [= -> ->]. auto.
    - right. discriminate. }
  destruct Hdec as [[v Hv]|Hn].
  - left. exists (SNum v). unfold confirm_word. rewrite Hv, Nat.eqb_refl. eexists.
    split; [now constructor|]. repeat split; auto.
  - rewrite confirm_not_num by auto.
    destruct (Str2Function_cases w) as [[E Hf]|(u & name & E & Hu & Hh)]; rewrite E.
    + destruct (VarNameIsLegal w) eqn:El.
      * left. exists (SVar w). unfold mkVar. rewrite El. cbn [bind]. eexists.
        split; [constructor; auto; now apply identifier_legal|]. repeat split; auto.
      * right. split; [|eauto]. intros tk Hl. inversion Hl; subst.
        -- eapply Hn; eauto.
        -- apply identifier_legal in H. congruence.
        -- eapply Hf; eauto.
        -- destruct Hch as [[_ Hs] _]. contradiction.
        -- destruct Hch as [[_ Hs] _]. apply Hs. now apply IsBasicOperator_symbol.
        -- destruct Hch as [[_ Hs] _]. apply Hs. now apply IsBasicOperator_symbol.
    + left. exists (SFun u).
      destruct u; simpl in *; try discriminate Hu; eexists;
        (split; [econstructor; eauto; reflexivity|]); repeat split; auto.
Qed.

Lemma symbol_mkOp c b : symbol c -> mkOp (K:=K) (BaseOperatorCharToEnum c b) = Ok (op_node (BaseOperatorCharToEnum c b)).
Proof.
  intros H1. unfold symbol in H1. simpl in H1.
  repeat (destruct H1 as [<-|H1]; [destruct b; reflexivity|]). destruct H1.
Qed.

Lemma unaryOp_spec k ret b tk w : lexeme (K:=K) fnv1a tk w -> t_node k = stok_node b tk ->
  unaryOp (k :: ret) = after tk.
Proof.
  intros Hl H. destruct (unaryOp_node k ret b tk H) as [E|(c & -> & Hc)]; auto.
  inversion Hl; subst. destruct Hc; contradiction.
Qed.

Definition tok_at (s : string) (off : nat) (t : token K) : Prop :=
  off <= t_pos t /\ t_s t <> "" /\ String.substring (t_pos t - off) (String.length (t_s t)) s = t_s t /\
  t_pos t - off + String.length (t_s t) <= String.length s.

Lemma substring_app a b c : String.substring (String.length a) (String.length b) (a ++ b ++ c) = b.
Proof.
  induction a as [|x a IH]; simpl; auto.
  induction b as [|y b IHb]; simpl; [destruct c; reflexivity|]. now rewrite IHb.
Qed.
Lemma substring_skip a : forall n m s, String.substring (String.length a + n) m (a ++ s) = String.substring n m s.
Proof. induction a; simpl; auto. Qed.

(** Tokenization of any text: either the text reads as a token sequence, or it contains a
    word that is no token and the error carries its offset. *)
Lemma lex_total pos ws s : lexemes_at pos ws s -> forall ret,
  (exists ts toks, renders (K:=K) fnv1a ts s /\ foldM wstep ws ret = Ok (rev toks ++ ret) /\
      resolves (unaryOp ret) ts toks /\ Forall (tok_at s pos) toks /\ map t_s toks = map fst ws /\
      Forall2 (fun t k => lexeme (K:=K) fnv1a t (t_s k)) ts toks) \/
  (exists w p msg, foldM wstep ws ret = Throw (SingleParseError 0 p w msg) /\
      In (w, p) ws /\ pos <= p /\ w <> "" /\ (forall tk, ~ lexeme (K:=K) fnv1a tk w) /\
      String.substring (p - pos) (String.length w) s = w /\ p - pos < String.length s).
Proof.
  induction 1 as [pos ws Hws|pos ws c ts rest Hws Hc H IH|pos ws w ts rest Hws Hw Hch Hd H IH]; intros ret.
  - left. exists [], []. repeat split; auto. now constructor.
  - cbn [foldM]. unfold wstep at 1 3. cbn [fst snd wtok].
    apply IsBasicOperator_symbol in Hc as Hc'. rewrite Hc'. rewrite symbol_mkOp by auto. cbn [bind].
    set (k := {| t_node := op_node (BaseOperatorCharToEnum c (unaryOp ret)); t_s := String c "";
                 t_pos := pos + String.length ws |} : token K).
    assert (Htk : exists tk, lexeme (K:=K) fnv1a tk (String c "") /\ ~ is_word_tok tk /\ t_node k = stok_node (unaryOp ret) tk).
    { destruct (Ascii.eqb_spec c "("%char) as [->|N1]; [exists SLP; repeat split; auto; constructor|].
      destruct (Ascii.eqb_spec c ")"%char) as [->|N2]; [exists SRP; repeat split; auto; constructor|].
      exists (SSym c). repeat split; auto. constructor; auto. }
    destruct Htk as (tk & Hl & Hnw & Hk).
    assert (Hpos : tok_at (ws ++ String c rest) pos k).
    { unfold tok_at, k; cbn [t_pos t_s]. replace (pos + String.length ws - pos) with (String.length ws) by lia.
      repeat split; [lia|discriminate|apply (substring_app ws (String c "") rest)|rewrite str_app_length; simpl; lia]. }
    destruct (IH (k :: ret)) as [(tl & toks & Hr & E & Hres & Hpt & Hs & Hlx)|(w & p & msg & E & Hin & Hp & Hw & Hnl & Hsub & Hlen)].
    + left. exists (tk :: tl), (k :: toks). repeat split.
      * apply (r_cons fnv1a ws tk (String c "") tl rest); auto. intros; contradiction.
      * rewrite E. simpl. rewrite <- app_assoc. reflexivity.
      * exact Hk.
      * now rewrite <- (unaryOp_spec k ret _ tk _ Hl Hk).
      * constructor; auto. eapply Forall_impl; [|exact Hpt]. intros t (A1 & A2 & A3 & A4).
        unfold tok_at. repeat split; auto; [lia| |rewrite str_app_length; simpl; lia].
        replace (t_pos t - pos) with (String.length (ws ++ String c "") + (t_pos t - (pos + String.length ws + 1))).
        2:{ rewrite str_app_length. simpl. lia. }
        replace (ws ++ String c rest)%string with ((ws ++ String c "") ++ rest)%string by (rewrite str_app_assoc; reflexivity).
        rewrite substring_skip. auto.
      * simpl. now rewrite Hs.
      * constructor; auto.
    + right. exists w, p, msg. repeat split; auto; [now right|lia| |rewrite str_app_length; simpl; lia].
      replace (p - pos) with (String.length (ws ++ String c "") + (p - (pos + String.length ws + 1))).
      2:{ rewrite str_app_length. simpl. lia. }
      replace (ws ++ String c rest)%string with ((ws ++ String c "") ++ rest)%string by (rewrite str_app_assoc; reflexivity).
      rewrite substring_skip. auto.
  - cbn [foldM]. unfold wstep at 1 3. cbn [fst snd]. rewrite wtok_word by auto.
    destruct (confirm_word_cases w (pos + String.length ws) Hw Hch)
      as [(tk & k & Hl & Hwt & -> & Hk & Hks & Hkp)|[Hnl [msg ->]]]; cbn [bind].
    2:{ right. exists w, (pos + String.length ws), msg. repeat split; auto; [now left|lia| |].
        - replace (pos + String.length ws - pos) with (String.length ws) by lia. apply substring_app.
        - rewrite !str_app_length. destruct w; [congruence|simpl; lia]. }
    assert (Hpos : tok_at (ws ++ w ++ rest) pos k).
    { unfold tok_at. rewrite Hkp, Hks. replace (pos + String.length ws - pos) with (String.length ws) by lia.
      repeat split; [lia|auto|apply substring_app|rewrite !str_app_length; lia]. }
    destruct (IH (k :: ret)) as [(tl & toks & Hr & E & Hres & Hpt & Hs & Hlx)|(w' & p & msg & E & Hin & Hp & Hw' & Hnl & Hsub & Hlen)].
    + left. exists (tk :: tl), (k :: toks). repeat split.
      * apply (r_cons fnv1a ws tk w tl rest); auto.
      * rewrite E. simpl. rewrite <- app_assoc. reflexivity.
      * apply Hk.
      * now rewrite <- (unaryOp_spec k ret true tk _ Hl (Hk true)).
      * constructor; auto. eapply Forall_impl; [|exact Hpt]. intros t (A1 & A2 & A3 & A4).
        unfold tok_at. repeat split; auto; [lia| |rewrite !str_app_length; lia].
        replace (t_pos t - pos) with (String.length (ws ++ w) + (t_pos t - (pos + String.length ws + String.length w))).
        2:{ rewrite str_app_length. lia. }
        rewrite <- str_app_assoc. rewrite substring_skip. auto.
      * simpl. now rewrite Hs, Hks.
      * constructor; auto. now rewrite Hks.
    + right. exists w', p, msg. repeat split; auto; [now right|lia| |rewrite !str_app_length; lia].
      replace (p - pos) with (String.length (ws ++ w) + (p - (pos + String.length ws + String.length w))).
      2:{ rewrite str_app_length. lia. }
      rewrite <- str_app_assoc. rewrite substring_skip. auto.
Qed.

End Sound.
