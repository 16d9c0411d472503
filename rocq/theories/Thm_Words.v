(** C53: which words are functions, numbers, variables. *)
From Coq Require Import String Ascii List ZArith Bool Arith Lia.
From Verif Require Import Base MathOp NodeModel ParseModel ExprSpec GrammarSpec HashSpec NodeProofs ParseProofs ParseSound HashProofs Thm_Parse IEEE.
Import ListNotations.
Local Open Scope string_scope. Local Open Scope list_scope. Local Open Scope nat_scope.

(** ** The hash *)
Lemma char_u64_signed c : char_u64 c = signed_byte c.
Proof. unfold char_u64, signed_byte, byte_of, two64. cbv zeta. destruct (Z.ltb_spec (Z.of_nat (nat_of_ascii c)) 128); [reflexivity|lia]. Qed.
Lemma FNV1a_fold l : forall h, FNV1a_from h l = fold_left fwd l h.
Proof.
  induction l as [|b l IH]; intros h; [reflexivity|]. cbn [FNV1a_from fold_left]. rewrite IH. f_equal.
  unfold fwd. rewrite land_ones64, Z.mul_comm. reflexivity.
Qed.
Lemma fnv1a_hash w : fnv1a w = hash_from start (map signed_byte (list_ascii_of_string w)).
Proof.
  unfold fnv1a, hash_from. change 14695981039346656037%Z with start. generalize start as h.
  induction (list_ascii_of_string w) as [|c l IH]; intros h; [reflexivity|]. cbn [map fold_left]. rewrite IH. f_equal.
  unfold fnv_step, fwd. rewrite land_ones64, char_u64_signed, Z.mul_comm. reflexivity.
Qed.
(** The parser's hash is FNV-1a of the characters taken as signed bytes; for ASCII words it is FNV-1a. *)
Theorem C53_hash w : fnv1a w = FNV1a (map signed_byte (list_ascii_of_string w)).
Proof. rewrite fnv1a_hash. unfold FNV1a. now rewrite FNV1a_fold. Qed.
Theorem C53_hash_ascii w : (forall c, In c (list_ascii_of_string w) -> (byte_of c < 128)%Z) ->
  fnv1a w = FNV1a (map byte_of (list_ascii_of_string w)).
Proof.
  intros H. rewrite C53_hash. f_equal. apply map_ext_in. intros c Hc. unfold signed_byte. specialize (H c Hc).
  apply Z.ltb_lt in H. now rewrite H.
Qed.

(** One wrong letter: never mistaken for the function. *)
Lemma byte_range c : (0 <= byte_of c < 256)%Z.
Proof. unfold byte_of. pose proof (nat_ascii_bounded c). lia. Qed.
Lemma signed_inj c d : signed_byte c = signed_byte d -> c = d.
Proof.
  intros E. rewrite <- (ascii_nat_embedding c), <- (ascii_nat_embedding d). f_equal. apply Nat2Z.inj.
  unfold signed_byte in E. fold (byte_of c). fold (byte_of d). pose proof (byte_range c). pose proof (byte_range d).
  destruct (Z.ltb_spec (byte_of c) 128), (Z.ltb_spec (byte_of d) 128); lia.
Qed.
Lemma signed_is_byte c : is_byte (signed_byte c).
Proof. unfold is_byte, M64, signed_byte. pose proof (byte_range c). destruct (Z.ltb_spec (byte_of c) 128); lia. Qed.
Lemma list_ascii_app a b : list_ascii_of_string (a ++ b)%string = list_ascii_of_string a ++ list_ascii_of_string b.
Proof. induction a as [|c a IH]; [reflexivity|]. cbn. now rewrite IH. Qed.
Theorem C53_one_letter u c d v : c <> d -> fnv1a (u ++ String c v)%string <> fnv1a (u ++ String d v)%string.
Proof.
  intros N E. apply N. apply signed_inj. rewrite !fnv1a_hash, !list_ascii_app in E. cbn [list_ascii_of_string] in E.
  rewrite !map_app in E. cbn [map] in E. refine (hash_one_place _ _ _ _ _ _ _ _ E).
  - unfold start, M64. lia.
  - apply Forall_app. split; [|constructor; [apply signed_is_byte|]]; apply Forall_map, Forall_forall; intros; apply signed_is_byte.
  - apply Forall_app. split; [|constructor; [apply signed_is_byte|]]; apply Forall_map, Forall_forall; intros; apply signed_is_byte.
Qed.

(** Identifiers of at most five characters: no collision with any function name. *)
Lemma id_char_alphabet c : letter c \/ digit c \/ c = "_"%char -> In (signed_byte c) alphabet /\ signed_byte c = byte_of c.
Proof.
  intros H. assert (H' : letter c \/ digit c \/ nat_of_ascii c = 95) by (destruct H as [?|[?|H]]; auto; subst; auto).
  clear H. unfold letter, digit in H'. cbv zeta in H'. unfold signed_byte. assert (L : (byte_of c < 128)%Z) by (unfold byte_of; lia).
  apply Z.ltb_lt in L. rewrite L. split; [|reflexivity]. unfold alphabet. apply in_map_iff. exists (nat_of_ascii c). split; [reflexivity|].
  rewrite !in_app_iff, !in_seq. cbn [In]. lia.
Qed.
Lemma all_chars_in (P : ascii -> Prop) s : all_chars P s -> forall c, In c (list_ascii_of_string s) -> P c.
Proof. induction s as [|d s IH]; cbn; [tauto|]. intros [H1 H2] c [<-|H]; auto. Qed.
Lemma identifier_chars x : identifier x -> forall c, In c (list_ascii_of_string x) -> letter c \/ digit c \/ c = "_"%char.
Proof.
  destruct x as [|c0 x]; [contradiction|]. intros [H1 H2] c [<-|H]; [tauto|]. exact (all_chars_in _ _ H2 c H).
Qed.
Lemma byte_inj c d : byte_of c = byte_of d -> c = d.
Proof. intros E. rewrite <- (ascii_nat_embedding c), <- (ascii_nat_embedding d). f_equal. apply Nat2Z.inj. exact E. Qed.
Lemma codes_inj x y : codes x = codes y -> x = y.
Proof.
  unfold codes. revert y. induction x as [|c x IH]; intros [|d y] E; try discriminate E; [reflexivity|].
  injection E as E1 E2. f_equal; [now apply byte_inj|]. now apply IH.
Qed.
Lemma length_list_ascii s : length (list_ascii_of_string s) = String.length s.
Proof. induction s; cbn; congruence. Qed.
Theorem C53_short_words x u name : identifier x -> String.length x <= 5 -> fun_name u = Some name ->
  fnv1a x = fnv1a name -> x = name.
Proof.
  intros Hx Hl Hu E. apply codes_inj. rewrite !fnv1a_hash in E.
  assert (Hn : In (codes name) names /\ map signed_byte (list_ascii_of_string name) = codes name).
  { split.
    - unfold names. apply in_map. destruct u; try discriminate Hu; injection Hu as <-; cbn [In]; tauto.
    - destruct u; try discriminate Hu; injection Hu as <-; reflexivity. }
  assert (Ex : map signed_byte (list_ascii_of_string x) = codes x).
  { unfold codes. apply map_ext_in. intros c Hc. now apply id_char_alphabet, (identifier_chars x). }
  destruct Hn as [Hn En]. rewrite Ex, En in E. refine (short_words _ _ _ _ Hn E).
  - unfold codes. now rewrite map_length, length_list_ascii.
  - rewrite <- Ex. apply Forall_map, Forall_forall. intros c Hc. now apply id_char_alphabet, (identifier_chars x).
Qed.

(** ** Words in binary64 *)
Section B.
Context (L : libm).
Notation D := (B64 L).

Lemma lower_letter a b : (97 <= nat_of_ascii a <= 122) -> Ascii.eqb a (lower b) = true <-> b = a \/ nat_of_ascii b + 32 = nat_of_ascii a.
Proof.
  intros Ha. rewrite Ascii.eqb_eq. unfold lower, char_in. split.
  - destruct (Nat.leb_spec 65 (nat_of_ascii b)), (Nat.leb_spec (nat_of_ascii b) 90); cbn [andb]; intros ->; auto.
    right. rewrite nat_ascii_embedding by lia. reflexivity.
  - intros [->|E].
    + destruct (Nat.leb_spec 65 (nat_of_ascii a)), (Nat.leb_spec (nat_of_ascii a) 90); cbn [andb]; auto; lia.
    + destruct (Nat.leb_spec 65 (nat_of_ascii b)), (Nat.leb_spec (nat_of_ascii b) 90); cbn [andb]; try lia.
      rewrite E. now rewrite ascii_nat_embedding.
Qed.
Lemma same_starts p : all_chars (fun a => 97 <= nat_of_ascii a <= 122) p -> forall x,
  same_ci x p <-> starts_ci p x = true /\ String.length x = String.length p.
Proof.
  induction p as [|a p IH]; intros Hp x.
  - destruct x; cbn; split; intros H; auto; try tauto. destruct H; discriminate.
  - destruct Hp as [Ha Hp]. destruct x as [|b x]; cbn [same_ci starts_ci String.length]; [split; [tauto|intros [H _]; discriminate]|].
    rewrite andb_true_iff, (IH Hp x), (lower_letter a b Ha). split; intros H; intuition (try congruence; lia).
Qed.
Lemma starts_length p : forall x, starts_ci p x = true -> String.length p <= String.length x.
Proof. induction p as [|a p IH]; intros [|b x] H; cbn in *; try lia; try discriminate. apply andb_true_iff in H as [_ H]. apply IH in H. lia. Qed.
Lemma identifier_stod x : identifier x -> b_stod x =
  if starts_ci "infinity" x then Some (BinarySingleNaN.B754_infinity false, 8)
  else if starts_ci "inf" x then Some (BinarySingleNaN.B754_infinity false, 3)
  else if starts_ci "nan" x then Some (BinarySingleNaN.B754_nan, 3) else None.
Proof.
  intros Hx. destruct x as [|c x]; [contradiction|]. destruct Hx as [Hc _].
  assert (Hc' : letter c \/ nat_of_ascii c = 95) by (destruct Hc as [?|H]; auto; subst; auto). clear Hc. unfold letter in Hc'. cbv zeta in Hc'.
  assert (Hd : dec_digit c = None). { unfold dec_digit, char_in. destruct (Nat.leb_spec 48 (nat_of_ascii c)), (Nat.leb_spec (nat_of_ascii c) 57); cbn [andb]; auto; lia. }
  assert (Hne : forall k, nat_of_ascii c <> k -> Ascii.eqb c (ascii_of_nat k) = false \/ 256 <= k).
  { intros k Hk. destruct (Nat.lt_ge_cases k 256); [left|auto]. apply Ascii.eqb_neq. intros ->. now rewrite nat_ascii_embedding in Hk. }
  assert (Hm : Ascii.eqb c "-" = false) by (destruct (Hne 45 ltac:(lia)); [assumption|lia]).
  assert (Hp : Ascii.eqb c "+" = false) by (destruct (Hne 43 ltac:(lia)); [assumption|lia]).
  assert (H0 : Ascii.eqb c "0" = false) by (destruct (Hne 48 ltac:(lia)); [assumption|lia]).
  assert (Hdot : Ascii.eqb c "." = false) by (destruct (Hne 46 ltac:(lia)); [assumption|lia]).
  apply Ascii.eqb_neq in H0, Hdot.
  assert (Em : read_mant dec_digit 10 (String c x) = None).
  { unfold read_mant. cbn [read_digits]. rewrite Hd. destruct c as [[] [] [] [] [] [] [] []]; try reflexivity; congruence. }
  unfold b_stod. cbn [b_stod_ws]. rewrite Hm, Hp.
  assert (Hs : (nat_of_ascii c =? 32) = false) by (apply Nat.eqb_neq; lia). rewrite Hs.
  assert (Hw : char_in 9 13 c = false). { unfold char_in. destruct (Nat.leb_spec 9 (nat_of_ascii c)), (Nat.leb_spec (nat_of_ascii c) 13); cbn [andb]; auto; lia. }
  rewrite Hw. cbn [orb].
  assert (Eu : stod_unsigned false (String c x) =
    if starts_ci "infinity" (String c x) then Some (BinarySingleNaN.B754_infinity false, 8)
    else if starts_ci "inf" (String c x) then Some (BinarySingleNaN.B754_infinity false, 3)
    else if starts_ci "nan" (String c x) then Some (BinarySingleNaN.B754_nan, 3) else None).
  { unfold stod_unsigned. rewrite Em. destruct c as [[] [] [] [] [] [] [] []]; try reflexivity. congruence. }
  rewrite Eu. generalize (starts_ci "infinity" (String c x)), (starts_ci "inf" (String c x)), (starts_ci "nan" (String c x)).
  intros [] [] []; reflexivity.
Qed.
(** The identifiers that are read as numbers: inf, infinity, nan in any mixture of cases. *)
Theorem C53_number_names x : identifier x -> (exists v, number_word (K:=D) x v) <-> number_name x.
Proof.
  intros Hx. unfold number_word. change (n_stod (n:=D) x) with (b_stod x). rewrite (identifier_stod x Hx). unfold number_name.
  rewrite !same_starts by (cbn; lia). cbn [String.length].
  assert (I : starts_ci "infinity" x = true -> starts_ci "inf" x = true).
  { cbn [starts_ci]. destruct x as [|a1 [|a2 [|a3 x]]]; rewrite ?andb_true_iff; intros H; try (decompose [and] H; congruence); intuition. }
  assert (J : starts_ci "inf" x = true -> starts_ci "nan" x = false).
  { cbn [starts_ci]. destruct x as [|a1 x]; [discriminate|]. rewrite andb_true_iff. intros [H _]. apply Ascii.eqb_eq in H. rewrite <- H. reflexivity. }
  destruct (starts_ci "infinity" x) eqn:Ei.
  - rewrite (I eq_refl), (J (I eq_refl)). split.
    + intros [v E]. injection E as _ E. right. left. auto.
    + intros [[_ E]|[[_ E]|[E _]]]; [| |discriminate]; [|exists (BinarySingleNaN.B754_infinity false); now rewrite E].
      exfalso. pose proof (starts_length "infinity" x Ei). rewrite E in H. cbn in H. lia.
  - destruct (starts_ci "inf" x).
    + rewrite (J eq_refl). split; [intros [v E]; injection E as _ E; auto|]. intros [[_ E]|[[E _]|[E _]]]; try discriminate. rewrite E. eauto.
    + destruct (starts_ci "nan" x).
      * split; [intros [v E]; injection E as _ E; auto|]. intros [[E _]|[[E _]|[_ E]]]; try discriminate. rewrite E. eauto.
      * split; [intros [v E]; discriminate|]. intuition discriminate.
Qed.

Lemma Parse_word {K : num_ops} x : identifier x -> Parse (K:=K) x = let* t := confirm_word x 0 in
  let* post := InOrderToPostOrder x [t] in BuildExpressionTree x post.
Proof.
  intros Hx. destruct (ParseProofs.identifier_chars x Hx) as [Hne Hc]. unfold Parse, ParseToTokens.
  destruct x as [|c x]; [congruence|]. rewrite <- (str_app_nil (String c x)) at 1.
  rewrite (lex_word (K:=K) (String c x) "" 0 "" [] Hc). cbn [lex]. change ("" ++ String c x)%string with (String c x).
  cbn [tryComfirmToken]. rewrite Nat.add_0_l, Nat.sub_diag. destruct (confirm_word (K:=K) (String c x) 0); reflexivity.
Qed.
Lemma Parse_leaf {K : num_ops} x (t : token K) ty op v y l r : identifier x -> confirm_word x 0 = Ok t -> t_node t = N ty op v y l r ->
  ty = NUMBER \/ ty = VARIABLE -> Parse (K:=K) x = Ok (t_node t).
Proof.
  intros Hx E En Ht. rewrite (Parse_word x Hx), E. cbn [bind]. unfold InOrderToPostOrder, BuildExpressionTree.
  cbn [foldM InOrderStep BuildStep bind]. unfold t_type. rewrite En. destruct Ht as [->| ->]; cbn [bind flush foldM app];
    unfold BuildStep, t_type; rewrite En; cbn [bind]; now rewrite En.
Qed.
Lemma Parse_function_word {K : num_ops} x (t : token K) u : identifier x -> confirm_word x 0 = Ok t -> t_node t = op_node (unop_op u) ->
  fun_name u <> None -> Parse (K:=K) x = Throw (MathError ERROR_WRONG_EXPRESSION "").
Proof.
  intros Hx E En Hu. rewrite (Parse_word x Hx), E. cbn [bind]. unfold InOrderToPostOrder.
  assert (E1 : foldM (InOrderStep x) [t] (0, [], []) = Ok (0, [t], [])).
  { cbn [foldM InOrderStep bind]. unfold t_type, t_op. rewrite En. destruct u; try (cbn in Hu; congruence); reflexivity. }
  rewrite E1. cbn [bind].
  assert (E2 : flush x [t] [] = Ok [t]) by (cbn [flush app]; unfold t_op; rewrite En; destruct u; reflexivity).
  rewrite E2. cbn [bind]. unfold BuildExpressionTree. cbn [foldM]. 
  assert (E3 : BuildStep [] t = Throw (MathError ERROR_WRONG_EXPRESSION "")).
  { unfold BuildStep, t_type, t_op. rewrite En. destruct u; reflexivity. }
  now rewrite E3.
Qed.
Lemma hit_dec w : (exists u name, fun_name u = Some name /\ fnv1a w = fnv1a name) \/
  (forall u name, fun_name u = Some name -> fnv1a w <> fnv1a name).
Proof.
  destruct (Str2Function_cases w) as [[_ H]|(u & name & _ & Hu & E)]; [right; exact H|left; eauto].
Qed.
(** Words read as numbers. *)
Theorem C53_number_word x : identifier x -> number_name x ->
  exists v : D, Parse (K:=D) x = Ok (embed (ENum v)) /\ BinarySingleNaN.is_finite v = false.
Proof.
  intros Hx Hn. apply (C53_number_names x Hx) in Hn as [v Hv]. exists v. destruct (confirm_num (K:=D) x v 0 Hv) as (t & E & En). split.
  - rewrite (Parse_leaf x t _ _ _ _ _ _ Hx E En (or_introl eq_refl)), En. reflexivity.
  - unfold number_word in Hv. change (n_stod (n:=D) x) with (b_stod x) in Hv. rewrite (identifier_stod x Hx) in Hv.
    destruct (starts_ci "infinity" x); [injection Hv as <-; reflexivity|].
    destruct (starts_ci "inf" x); [injection Hv as <-; reflexivity|].
    destruct (starts_ci "nan" x); [injection Hv as <-; reflexivity|discriminate].
Qed.
(** Words taken for a function that has no argument. *)
Theorem C53_function_word x u name : identifier x -> ~ number_name x -> fun_name u = Some name -> fnv1a x = fnv1a name ->
  Parse (K:=D) x = Throw (MathError ERROR_WRONG_EXPRESSION "").
Proof.
  intros Hx Hn Hu E. assert (Hn' : forall v : D, ~ number_word x v) by (intros v Hv; apply Hn; apply (C53_number_names x Hx); eauto).
  destruct (confirm_fun (K:=D) u name x 0 Hu E Hn') as (t & Ec & En). refine (Parse_function_word x t u Hx Ec En _). congruence.
Qed.
(** An identifier is read as the variable of that name exactly when it is not read as a number and its hash is not that of a function name... *)
Theorem C53_variable_iff x : identifier x ->
  (Parse (K:=D) x = Ok (embed (EVar x)) <-> ~ number_name x /\ forall u name, fun_name u = Some name -> fnv1a x <> fnv1a name).
Proof.
  intros Hx. split.
  - intros E. split.
    + intros Hn. destruct (C53_number_word x Hx Hn) as (v & E' & _). rewrite E' in E. discriminate E.
    + intros u name Hu Eh. assert (Hn : ~ number_name x).
      { intros Hn. destruct (C53_number_word x Hx Hn) as (v & E' & _). rewrite E' in E. discriminate E. }
      rewrite (C53_function_word x u name Hx Hn Hu Eh) in E. discriminate E.
  - intros [Hn Hf]. assert (Hn' : forall v : D, ~ number_word x v) by (intros v Hv; apply Hn; apply (C53_number_names x Hx); eauto).
    destruct (confirm_var (K:=D) x 0 Hx Hn' Hf) as (t & E & En).
    rewrite (Parse_leaf x t _ _ _ _ _ _ Hx E En (or_intror eq_refl)), En. reflexivity.
Qed.
(** ... for names of at most five characters: exactly when it is none of the reserved words. *)
Theorem C53_short_variable x : identifier x -> String.length x <= 5 ->
  (Parse (K:=D) x = Ok (embed (EVar x)) <-> ~ number_name x /\ ~ function_name x).
Proof.
  intros Hx Hl. rewrite (C53_variable_iff x Hx). split; intros [H1 H2]; split; auto.
  - intros [u Hu]. exact (H2 u x Hu eq_refl).
  - intros u name Hu E. apply H2. exists u. rewrite Hu. f_equal. symmetry. exact (C53_short_words x u name Hx Hl Hu E).
Qed.
End B.

(** The bound five cannot be dropped: this is a legal variable name, not a reserved word, and the parser takes it for arccos. *)
Definition clash : string := "oklwutlfhkxtck".
Theorem C53_collision (L : libm) : identifier clash /\ ~ function_name clash /\ ~ number_name clash /\ fnv1a clash = fnv1a "arccos" /\
  Parse (K:=B64 L) clash = Throw (MathError ERROR_WRONG_EXPRESSION "").
Proof.
  assert (Hi : identifier clash) by (apply identifier_legal; reflexivity).
  assert (Hn : ~ number_name clash) by (unfold number_name, clash; cbn; intros [[[H|H] _]|[[[H|H] _]|[[H|H] _]]]; discriminate H).
  assert (Eh : fnv1a clash = fnv1a "arccos") by (vm_compute; reflexivity).
  split; [exact Hi|]. split; [intros [u Hu]; destruct u; discriminate Hu|]. split; [exact Hn|]. split; [exact Eh|].
  exact (C53_function_word L clash UAcos "arccos" Hi Hn eq_refl Eh).
Qed.
Example C53_ex_short : identifier "x_1" /\ String.length "x_1" <= 5 /\ ~ number_name "x_1" /\ ~ function_name "x_1".
Proof.
  split; [apply identifier_legal; reflexivity|]. split; [cbn; lia|]. split.
  - unfold number_name. cbn. intros [[[H|H] _]|[[[H|H] _]|[[H|H] _]]]; discriminate H.
  - intros [u Hu]; destruct u; discriminate Hu.
Qed.
Example C53_ex_number : number_name "NaN" /\ number_name "Inf" /\ number_name "INFINITY".
Proof. unfold number_name. cbn. intuition. Qed.
