(** C75: the diff machine. *)
From Coq Require Import String Ascii List ZArith Bool Arith Lia Sorting.Sorted Reals.
From Flocq Require Import IEEE754.BinarySingleNaN Core.
From Verif Require Import Base MathOp NodeModel ParseModel ToStringModel SubsModel DiffModel VarsTableModel ErrorModel
  ExprSpec GrammarSpec TextSpec ErrorSpec VarsSpec NodeProofs ParseProofs Thm_Parse TextProofs Thm_Text Thm_Node Thm_Vars DiffProofs Thm_Diff MachineModel MachineSpec
  IEEE RealSpec DiffSpec FloatSpec RoundSpec DerivSpec Thm_Round Thm_Deriv.
Import ListNotations.
Local Open Scope string_scope. Local Open Scope list_scope. Local Open Scope nat_scope.

(** ** Reading words *)
Lemma not_space c : is_space c = false <-> ~ space c.
Proof. rewrite <- is_space_space. destruct (is_space c); intuition congruence. Qed.
Lemma skip_spaces ws : forall s, all_chars space ws -> skip_space (ws ++ s) = skip_space s.
Proof.
  induction ws as [|c ws IH]; intros s H; [reflexivity|]. destruct H as [H1 H2]. cbn [append skip_space].
  apply is_space_space in H1. rewrite H1. auto.
Qed.
Lemma skip_space_split s : exists ws, all_chars space ws /\ s = (ws ++ skip_space s)%string /\ (skip_space s = "" \/ exists c r, skip_space s = String c r /\ ~ space c).
Proof.
  induction s as [|c s IH]; [exists ""; repeat split; auto|]. cbn [skip_space]. destruct (is_space c) eqn:E.
  - destruct IH as (ws & H & Es & D). exists (String c ws). split; [split; [now apply is_space_space|exact H]|]. split; [cbn [append]; now rewrite <- Es|exact D].
  - exists "". split; [exact Logic.I|]. split; [reflexivity|]. right. exists c, s. split; [reflexivity|now apply not_space].
Qed.
Lemma take_word_split s : let '(w, r) := take_word s in s = (w ++ r)%string /\ all_chars (fun c => ~ space c) w /\ (r = "" \/ exists c r', r = String c r' /\ space c).
Proof.
  induction s as [|c s IH]; [cbn; auto|]. cbn [take_word]. destruct (is_space c) eqn:E.
  - split; [reflexivity|]. split; [exact Logic.I|]. right. exists c, s. split; [reflexivity|now apply is_space_space].
  - destruct (take_word s) as [w r]. destruct IH as (Es & H & D). split; [cbn [append]; now rewrite <- Es|]. split; [split; [now apply not_space|exact H]|exact D].
Qed.
Lemma take_word_app w : forall r, all_chars (fun c => ~ space c) w -> (r = "" \/ exists c r', r = String c r' /\ space c) -> take_word (w ++ r) = (w, r).
Proof.
  induction w as [|c w IH]; intros r H D.
  - destruct D as [->|(c & r' & -> & Hc)]; [reflexivity|]. cbn [append take_word]. apply is_space_space in Hc. now rewrite Hc.
  - destruct H as [H1 H2]. cbn [append take_word]. apply not_space in H1. rewrite H1, IH by auto. reflexivity.
Qed.
(** [cin >> s] reads the next word, and there is only one next word. *)
Theorem C75_read_word input w rest : read_word input = (w, rest) <-> next_word input w rest.
Proof.
  unfold read_word. split.
  - intros E. destruct (skip_space_split input) as (ws & H & Es & D). pose proof (take_word_split (skip_space input)) as T. rewrite E in T.
    destruct T as (Et & Hw & Dr). split; [exists ws; split; [exact H|now rewrite <- Et]|]. split; [exact Hw|]. split; [|exact Dr].
    intros ->. cbn [append] in Et. destruct D as [D|(c & r & D & Hc)]; [congruence|].
    rewrite D in Et. destruct Dr as [->|(c' & r' & -> & Hc')]; [reflexivity|]. injection Et as -> _. contradiction.
  - intros ((ws & H & ->) & Hw & Hn & Dr). rewrite skip_spaces by exact H. destruct w as [|c w].
    + rewrite (Hn eq_refl). reflexivity.
    + assert (Q : skip_space (String c w ++ rest) = (String c w ++ rest)%string).
      { cbn [append skip_space]. destruct Hw as [Hc _]. apply not_space in Hc. now rewrite Hc. }
      rewrite Q. now apply take_word_app.
Qed.

Section M.
Context {K : num_ops} (cfg : config K).

Lemma answer_ok evs (e : expr K) x rest evs' a : answers cfg e x rest evs' a -> answer cfg evs (embed e) x rest = (evs ++ evs', a).
Proof.
  intros [d E|ex E|E]; unfold answer; rewrite E.
  - rewrite C15_to_string, <- app_assoc. unfold line. cbn [app]. rewrite (str_app_assoc "  " (text None d)). reflexivity.
  - cbn [failed]. assert (C : caught ex = true).
    { destruct (no_int_dec e) as [Ni|Ni].
      - destruct (C22_diff_outcome K cfg e x 1 ltac:(lia) Ni) as [(e' & E' & _)|[_ E']]; change (Z.of_nat 1) with 1%Z in E'; congruence.
      - destruct (proj2 (C22_diff_throws_iff K cfg e x 1 ltac:(lia)) Ni) as [msg E']. change (Z.of_nat 1) with 1%Z in E'. rewrite E in E'. injection E' as ->. reflexivity. }
    rewrite C. reflexivity.
  - cbn [failed]. now rewrite app_nil_r.
Qed.
Lemma answers_total (e : expr K) x rest : exists evs a, answers cfg e x rest evs a.
Proof.
  destruct (no_int_dec e) as [Ni|Ni].
  - destruct (C22_diff_outcome K cfg e x 1 ltac:(lia) Ni) as [(e' & E' & _)|[_ E']]; change (Z.of_nat 1) with 1%Z in E'; [do 2 eexists; now apply (an_text cfg e x rest e')|do 2 eexists; now apply (an_dies cfg e x rest)].
  - destruct (proj2 (C22_diff_throws_iff K cfg e x 1 ltac:(lia)) Ni) as [msg E']. change (Z.of_nat 1) with 1%Z in E'. do 2 eexists. apply (an_error cfg e x rest _ E').
Qed.
Lemma parse_caught w ex : Parse (K:=K) w = Throw ex -> caught ex = true.
Proof. intros E. pose proof (C13_parse_outcome (K:=K) w) as R. rewrite E in R. inversion R; reflexivity. Qed.

Lemma names_of (e : expr K) (P : string -> Prop) : (forall x, occurs x e <-> P x) -> exists s, GetAllVarNames (embed e) = Ok s /\
  StronglySorted (fun x y => String.compare x y = Lt) s /\ forall x, In x s <-> P x.
Proof. intros H. destruct (C07_all_var_names K e) as (s & E & So & Is). exists s. split; [exact E|]. split; [exact So|]. intros x. now rewrite Is, H. Qed.
Lemma sorted_nodup_s s : StronglySorted (fun x y => String.compare x y = Lt) s -> NoDup s.
Proof.
  induction 1 as [|x s Hs IH Hx]; constructor; auto. intros Hi. rewrite Forall_forall in Hx. specialize (Hx x Hi).
  pose proof (str_compare_eq x x) as [_ Q]. rewrite Q in Hx by reflexivity. discriminate.
Qed.

(** The machine reacts as specified to every input ... *)
Theorem C75_round input evs a : round cfg input evs a -> turn cfg input = (evs, a).
Proof.
  intros [w rest ex N E|w rest why N E|w rest e why N E Hv ->|w rest e x evs' a' N E Hv A|w rest e x x' y rest' evs' a' N E O1 O2 D N' Oy A|w rest e x x' y rest' N E O1 O2 D N' Oy];
    unfold turn; rewrite (proj2 (C75_read_word input w rest) N), E; cbn [bind].
  - cbn [failed]. rewrite (parse_caught _ _ E). reflexivity.
  - reflexivity.
  - destruct (names_of e (fun _ => False)) as (s & -> & _ & Is); [intros x; split; [apply Hv|tauto]|]. cbn [bind].
    destruct s as [|x s]; [reflexivity|]. destruct (proj1 (Is x) (or_introl eq_refl)).
  - destruct (names_of e (fun y => y = x) Hv) as (s & -> & So & Is). cbn [bind].
    assert (s = [x]) as ->.
    { pose proof (sorted_nodup_s s So) as Nd. destruct s as [|y [|z s]].
      - destruct (proj2 (Is x) eq_refl).
      - now rewrite (proj1 (Is y) (or_introl eq_refl)).
      - exfalso. inversion Nd as [|? ? Hn]; subst. apply Hn. rewrite (proj1 (Is y) (or_introl eq_refl)), (proj1 (Is z) (or_intror (or_introl eq_refl))). now left. }
    destruct (C36_make K [x] (n_ofZ 0)) as (t & -> & Ht); [discriminate|repeat constructor; auto|]. cbn [bind]. rewrite (h_vars _ _ _ Ht).
    rewrite (answer_ok _ e x rest _ _ A). reflexivity.
  - destruct (names_of e (fun z => occurs z e)) as (s & -> & So & Is); [tauto|]. cbn [bind].
    assert (L : exists p q r, s = p :: q :: r).
    { pose proof (proj2 (Is x) O1) as I1. pose proof (proj2 (Is x') O2) as I2. destruct s as [|p [|q r]]; [destruct I1| |eauto].
      destruct I1 as [<-|[]], I2 as [<-|[]]. congruence. }
    destruct (C36_make K s (n_ofZ 0)) as (t & -> & Ht); [destruct L as (p & q & r & ->); discriminate|now apply sorted_nodup_s|]. cbn [bind]. rewrite (h_vars _ _ _ Ht).
    assert (Hh : Has t y = true) by (apply (h_has _ _ _ Ht), Is, Oy).
    destruct L as (p & q & r & ->). rewrite (proj2 (C75_read_word rest y rest') N'), Hh. rewrite (answer_ok _ e y rest' _ _ A). reflexivity.
  - destruct (names_of e (fun z => occurs z e)) as (s & -> & So & Is); [tauto|]. cbn [bind].
    assert (L : exists p q r, s = p :: q :: r).
    { pose proof (proj2 (Is x) O1) as I1. pose proof (proj2 (Is x') O2) as I2. destruct s as [|p [|q r]]; [destruct I1| |eauto].
      destruct I1 as [<-|[]], I2 as [<-|[]]. congruence. }
    destruct (C36_make K s (n_ofZ 0)) as (t & -> & Ht); [destruct L as (p & q & r & ->); discriminate|now apply sorted_nodup_s|]. cbn [bind]. rewrite (h_vars _ _ _ Ht).
    assert (Hh : Has t y = false). { destruct (Has t y) eqn:Hh; [|reflexivity]. apply (h_has _ _ _ Ht), Is in Hh. contradiction. }
    destruct L as (p & q & r & ->). rewrite (proj2 (C75_read_word rest y rest') N'), Hh. cbn [failed caught what app question].
    unfold line, quoted. rewrite !str_app_assoc. reflexivity.
Qed.
(** ... and the specification leaves no input out. *)
Theorem C75_every_input input : exists evs a, round cfg input evs a.
Proof.
  destruct (read_word input) as [w rest] eqn:N. apply C75_read_word in N.
  pose proof (C13_parse_outcome (K:=K) w) as R.
  destruct (Parse (K:=K) w) as [n|ex|why| | |] eqn:E; try (inversion R; fail).
  2:{ do 2 eexists. eapply rd_error; eauto. }
  2:{ do 2 eexists. eapply rd_undefined; eauto. }
  inversion R as [e Ee| | | | |]; subst n. clear R.
  destruct (C07_all_var_names K e) as (s & _ & So & Is). pose proof (sorted_nodup_s s So) as Nd.
  destruct s as [|x [|x' s]].
  - exists [prompt], (Dies (AssertFail "rows > 0")). eapply rd_constant; eauto. intros x O. now apply Is in O.
  - destruct (answers_total e x rest) as (evs & a & A). exists (prompt :: evs), a. eapply rd_one; eauto. intros y. rewrite <- Is. cbn. intuition congruence.
  - assert (O1 : occurs x e) by (apply Is; now left). assert (O2 : occurs x' e) by (apply Is; right; now left).
    assert (D : x <> x') by (inversion Nd as [|? ? Hn]; subst; intros ->; apply Hn; now left).
    destruct (read_word rest) as [y rest'] eqn:N'. apply C75_read_word in N'.
    destruct (in_dec string_dec y (x :: x' :: s)) as [I|I].
    + destruct (answers_total e y rest') as (evs & a & A). exists (prompt :: question ++ evs), a. apply (rd_several cfg input w rest e x x' y rest' evs a); auto. now apply Is.
    + do 2 eexists. apply (rd_unknown cfg input w rest e x x' y rest'); auto. intros O. now apply I, Is.
Qed.

(** At the end of the input the machine does not stop: it complains again and again. *)
Theorem C75_end_of_input input : all_chars space input -> forall k,
  turns cfg k input = (concat (repeat [prompt; Err (line (block "[Parse Error]  at(0, 0):" "empty input" 0))] k), Reads match k with O => input | _ => "" end).
Proof.
  assert (One : forall s, all_chars space s -> turn cfg s = ([prompt; Err (line (block "[Parse Error]  at(0, 0):" "empty input" 0))], Reads "")).
  { intros s Hs. apply C75_round. apply (rd_error cfg s "" "" (SingleParseError 0 0 "empty input" "")); [|reflexivity].
    split; [exists s; split; [exact Hs|cbn [append]; induction s as [|c s IH]; [reflexivity|cbn [append]; rewrite <- IH at 1; [reflexivity|apply Hs]]]|].
    split; [exact Logic.I|]. split; auto. }
  intros Hs k. revert input Hs. induction k as [|k IH]; intros input Hs; [reflexivity|].
  cbn [turns repeat concat]. rewrite (One input Hs). rewrite (IH "" Logic.I). destruct k; reflexivity.
Qed.

(** A conversation: one word per line, each an expression with one variable that can be
    differentiated, is answered line by line. *)
Theorem C75_conversation (l : list (string * expr K)) rest :
  (forall w d, In (w, d) l -> w <> "" /\ all_chars (fun c => ~ space c) w /\
     exists e x, Parse w = Ok (embed e) /\ (forall y, occurs y e <-> y = x) /\ Diff cfg (embed e) x 1 = Ok (embed d)) ->
  exists rest', turns cfg (length l) (fold_right (fun wd s => line (fst wd) ++ s)%string rest l) =
    (flat_map (fun wd => [prompt; Out (line "ans = "); Out (line ("  " ++ text None (snd wd)))]) l, Reads rest') /\
  (rest' = rest \/ rest' = String newline rest).
Proof.
  assert (G : forall input, (input = fold_right (fun wd s => line (fst wd) ++ s)%string rest l \/ input = String newline (fold_right (fun wd s => line (fst wd) ++ s)%string rest l)) ->
    (forall w d, In (w, d) l -> w <> "" /\ all_chars (fun c => ~ space c) w /\
     exists e x, Parse w = Ok (embed e) /\ (forall y, occurs y e <-> y = x) /\ Diff cfg (embed e) x 1 = Ok (embed d)) ->
    exists rest', turns cfg (length l) input = (flat_map (fun wd => [prompt; Out (line "ans = "); Out (line ("  " ++ text None (snd wd)))]) l, Reads rest') /\ (rest' = rest \/ rest' = String newline rest)).
  { induction l as [|[w d] l IH]; intros input Hi H; [exists input; split; [reflexivity|exact Hi]|].
    destruct (H w d (or_introl eq_refl)) as (Nw & Hw & e & x & E & Hv & Ed).
    set (tail := fold_right (fun wd s => line (fst wd) ++ s)%string rest l) in *.
    assert (T : turn cfg input = ([prompt; Out (line "ans = "); Out (line ("  " ++ text None d))], Reads (String newline tail))).
    { apply C75_round. apply (rd_one cfg input w (String newline tail) e x [Out (line "ans = "); Out (line ("  " ++ text None d))]); [|exact E|exact Hv|now apply an_text].
      cbn [fold_right fst] in Hi. fold tail in Hi. unfold line in Hi. rewrite str_app_assoc in Hi. cbn [append] in Hi.
      assert (Sn : space newline) by (unfold space; cbn; auto).
      split; [destruct Hi as [->| ->]; [exists ""; split; [exact Logic.I|reflexivity]|exists (String newline ""); split; [split; [exact Sn|exact Logic.I]|reflexivity]]|].
      split; [exact Hw|]. split; [congruence|]. right. eauto. }
    cbn [length turns flat_map snd]. rewrite T. destruct (IH (String newline tail)) as (rest' & E' & D); [now right|intros w' d' I; apply H; now right|].
    rewrite E'. exists rest'. split; [reflexivity|exact D]. }
  intros H. apply G; [now left|exact H].
Qed.
End M.

(** ** What the answer means *)
Section L.
Context (L : libm).
Notation K := (B64 L).
(** The user types an expression e of the grammar in one variable x, smooth at [renv].  The machine
    prints an expression d whose value, computed in doubles near that point, is the derivative
    of e up to the accuracy of the rules of differentiation (C59, C63). *)
Theorem C75_derivative (cfg : config K) c (ts : list (stok K)) (e : expr K) w input rest x (env : string -> b64) (renv err : string -> R) y E :
  ieee_libm L -> accurate_libm L c -> throwOnInvalidValue cfg = true -> all_nums (K:=K) fin e -> (forall z, fin (env z)) ->
  (forall z, (Rabs (B2R (env z) - renv z) <= err z)%R) ->
  smooth 1 x renv (real_expr L e) -> no_0_pow_0f L env (deriv x e) -> accuracy L c renv err (deriv x e) y E ->
  derives 0 ts e -> renders fnv1a ts w -> next_word input w rest -> (forall z, occurs z e <-> z = x) ->
  partial renv x (real_expr L e) y /\
  exists d (v : b64), turn cfg input = ([prompt; Out (line "ans = "); Out (line ("  " ++ text None d))], Reads rest) /\
    Vpa cfg (embed (filled L env d)) = Ok (v : K) /\ fin v /\ (Rabs (B2R v - y) <= E)%R.
Proof.
  intros HL HA Hc Fe Fenv Herr Hs Hz Ha Hd Hr N Hv.
  destruct (C63_accuracy L cfg c e x env renv err y E HL HA Hc Fe Fenv Herr Hs Hz Ha) as (P & d & v & Ed & Ev & Fv & B).
  split; [exact P|]. exists d, v. split; [|auto]. apply C75_round.
  apply (rd_one cfg input w rest e x [Out (line "ans = "); Out (line ("  " ++ text None d))]); [exact N|now apply C10_parse_complete with ts|exact Hv|now apply an_text].
Qed.
End L.

(** ** Examples *)
(** The example of the usage text, two questions with several variables, and the end of the input. *)
Example C75_ex_session : machine (default_config D) 4 (line "x^5" ++ line "a*b b" ++ line "a*b c") =
  ([Out (usage ++ nl)%string;
    prompt; Out (line "ans = "); Out (line "  5*x^4");
    prompt; Out (line "more than 1 variable. who do you want to differentiate?"); prompt; Out (line "ans = "); Out (line "  a");
    prompt; Out (line "more than 1 variable. who do you want to differentiate?"); prompt; Err (line "no variable ""c"" in expression: a*b");
    prompt; Err (line (block "[Parse Error]  at(0, 0):" "empty input" 0))], Reads "").
Proof. vm_compute. reflexivity. Qed.
(** White space ends an expression: "x + 1" is taken for three, the last of which (a constant) kills the machine. *)
Example C75_ex_spaces : turns (default_config D) 9 "x + 1" =
  ([prompt; Out (line "ans = "); Out (line "  1"); prompt; Err (line "invalid expression"); prompt], Dies (AssertFail "rows > 0")).
Proof. vm_compute. reflexivity. Qed.
(** The usage text offers asin(x), which is not understood; the derivative of 0^x terminates the program. *)
Example C75_ex_usage : turns (default_config D) 9 "asin(x) 0^x" =
  ([prompt; Err (line (line (block "[Parse Error] Parse Error at: ""asin"" at(0, 0):" "asin(x)" 0))); prompt], Dies Terminate).
Proof. vm_compute. reflexivity. Qed.
(** The user types x*x-sin(x): the answer, evaluated at 3/2 in doubles with correctly rounded library functions, is within
    2 units of 10^-15 of the derivative 3 - cos(3/2). *)
Section Ex.
Notation L := rounded_libm.
Notation K := (B64 rounded_libm).
Lemma ex75_written : exists ts, derives 0 ts C63_e /\ renders fnv1a ts "x*x-sin(x)".
Proof.
  assert (Hx : lexeme (K:=K) fnv1a (SVar "x") "x") 
    by (pose proof (var_lexeme "x" eq_refl ltac:(vm_compute; reflexivity) ltac:(vm_compute; reflexivity)) as Q; inversion Q; subst; constructor; auto).
  assert (Hs : forall c, IsBasicOperator c = true -> symbol c) by (intros c Hc; now apply IsBasicOperator_symbol).
  exists (([SVar "x"; SSym "*"; SVar "x"] ++ SSym "-" :: (SFun USin :: SLP :: [SVar "x"] ++ [SRP])))%char. split.
  - assert (V : forall k, k <= 6 -> derives k [SVar "x"] (EVar "x" : expr K)).
    { intros k Hk. remember (6 - k) as j eqn:Ej. revert k Hk Ej. induction j as [|j IH]; intros k Hk Ej.
      - replace k with 6 by lia. apply d_var.
      - apply d_up; [lia|]. apply IH; lia. }
    apply d_left; [constructor| |].
    + apply d_up; [lia|]. apply (d_left 1 "*"%char BMul [SVar "x"] _ [SVar "x"]); [constructor|apply V; lia|apply V; lia].
    + repeat (apply d_up; [lia|]). apply (d_fun USin "sin" [SVar "x"]); [reflexivity|apply V; lia].
  - cbn [app].
    apply (r_cons fnv1a "" (SVar "x") "x" _ "*x-sin(x)"); [exact Logic.I|auto| |intros _; right; now apply Hs].
    apply (r_cons fnv1a "" (SSym "*") "*" _ "x-sin(x)"); [exact Logic.I|apply lx_sym; [now apply Hs|discriminate|discriminate]| |intros []].
    apply (r_cons fnv1a "" (SVar "x") "x" _ "-sin(x)"); [exact Logic.I|auto| |intros _; right; now apply Hs].
    apply (r_cons fnv1a "" (SSym "-") "-" _ "sin(x)"); [exact Logic.I|apply lx_sym; [now apply Hs|discriminate|discriminate]| |intros []].
    apply (r_cons fnv1a "" (SFun USin) "sin" _ "(x)"); [exact Logic.I|now apply fun_lexeme| |intros _; right; now apply Hs].
    apply (r_cons fnv1a "" SLP "(" _ "x)"); [exact Logic.I|constructor| |intros []].
    apply (r_cons fnv1a "" (SVar "x") "x" _ ")"); [exact Logic.I|auto| |intros _; right; now apply Hs].
    apply (r_cons fnv1a "" SRP ")" _ ""); [exact Logic.I|constructor| |intros []].
    apply r_nil. exact Logic.I.
Qed.
Theorem C75_ex_derivative (cfg : config K) : throwOnInvalidValue cfg = true ->
  exists d (v : b64), turn cfg "x*x-sin(x)" = ([prompt; Out (line "ans = "); Out (line ("  " ++ text None d))], Reads "") /\
    Vpa cfg (embed (filled L (fun _ => three_halves) d)) = Ok (v : K) /\ (Rabs (B2R v - (3 - cos (3 / 2))) <= 2 / 10 ^ 15)%R.
Proof.
  intros Hc. destruct (C63_ex cfg Hc) as (_ & d & v & E & V & B). exists d, v. split; [|auto].
  destruct ex75_written as (ts & Hd & Hr). apply C75_round.
  apply (rd_one cfg "x*x-sin(x)" "x*x-sin(x)" "" C63_e "x" [Out (line "ans = "); Out (line ("  " ++ text None d))]).
  - apply C75_read_word. vm_compute. reflexivity.
  - now apply C10_parse_complete with ts.
  - intros y. split.
    + intros O. unfold C63_e in O. repeat match goal with H : occurs _ _ |- _ => inversion H; subst; clear H end; reflexivity.
    + intros ->. apply occ_l, occ_l. constructor.
  - now apply an_text.
Qed.
End Ex.
