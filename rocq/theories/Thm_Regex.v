(** C09, C16: VarNameIsLegal as written is the test for identifiers, and ToString(double) as written (snprintf, then the regular expressions) gives the text that
    the theorems on C16 and C55 are about. *)
From Coq Require Import String Ascii ZArith Bool List Lia Arith.
From Flocq Require Import IEEE754.BinarySingleNaN.
From Verif Require Import GrammarSpec IEEE RegexModel NumText NodeModel ParseProofs.
Import ListNotations.
Local Open Scope string_scope. Local Open Scope list_scope. Local Open Scope nat_scope.

(** ** The regular expressions *)
(** What follows the leading zeros of [s]; [None] if there is none. *)
Fixpoint after_zeros (s : string) : option string :=
  match s with
  | String c s' => if Ascii.eqb "0" c then match after_zeros s' with Some t => Some t | None => Some s' end else None
  | EmptyString => None
  end.
Definition look (e : option ascii) (s : string) : bool :=
  match e, s with None, EmptyString => true | Some c, String d _ => Ascii.eqb c d | _, _ => false end.
Definition look_re (e : option ascii) : regex := match e with None => RLookEnd | Some c => RLook c end.
Definition zeros (e : option ascii) (s : string) : option string :=
  match after_zeros s with Some t => if look e t then Some t else None | None => None end.

Lemma look_match e s : rmatch (look_re e) s Some = if look e s then Some s else None.
Proof. destruct e as [c|], s as [|d s]; cbn; try reflexivity; try (destruct (Ascii.eqb c d)); reflexivity. Qed.
Lemma plus_zeros e s : e <> Some "0"%char ->
  plus_match "0" s (fun s1 => rmatch (look_re e) s1 Some) = zeros e s.
Proof.
  intros He. unfold zeros. induction s as [|c s IH]; [reflexivity|]. cbn [plus_match after_zeros].
  destruct (Ascii.eqb_spec "0" c) as [<-|Hc]; [|reflexivity]. rewrite IH, look_match. destruct (after_zeros s) as [t|] eqn:At.
  - destruct (look e t) eqn:L; [reflexivity|]. destruct s as [|d s]; [discriminate At|]. cbn [after_zeros] in At. destruct (Ascii.eqb_spec "0" d) as [<-|Hd]; [|discriminate].
    destruct e as [c|]; cbn [look]; [|reflexivity]. destruct (Ascii.eqb_spec c "0"); [subst; contradiction|reflexivity].
  - reflexivity.
Qed.
Definition the_re (e : option ascii) : regex := RSeq (ROpt (RChar ".")) (RSeq (RPlus "0") (look_re e)).
Lemma re_match e s : e <> Some "0"%char ->
  rmatch (the_re e) s Some = match s with String "." s' => zeros e s' | _ => zeros e s end.
Proof.
  intros He. unfold the_re. cbn [rmatch]. rewrite !plus_zeros by exact He. destruct s as [|c s]; [reflexivity|].
  rewrite plus_zeros by exact He. destruct (Ascii.eqb_spec "." c) as [<-|Hc].
  - destruct (zeros e s); [reflexivity|]. unfold zeros. reflexivity.
  - unfold zeros. destruct c as [[] [] [] [] [] [] [] []]; try reflexivity. contradiction.
Qed.
Lemma after_zeros_len s t : after_zeros s = Some t -> String.length t < String.length s.
Proof.
  revert t. induction s as [|c s IH]; intros t; cbn [after_zeros String.length]; [discriminate|]. destruct (Ascii.eqb "0" c); [|discriminate].
  destruct (after_zeros s) as [u|] eqn:A; intros [= <-]; [specialize (IH u eq_refl); lia|lia].
Qed.
Lemma zeros_len e s t : zeros e s = Some t -> String.length t < String.length s.
Proof. unfold zeros. destruct (after_zeros s) as [u|] eqn:A; [|discriminate]. destruct (look e u); intros [= <-]. now apply after_zeros_len. Qed.
Lemma match_len e s t : e <> Some "0"%char -> rmatch (the_re e) s Some = Some t -> String.length t < String.length s.
Proof.
  intros He. rewrite re_match by exact He. destruct s as [|c s]; [discriminate|]. destruct c as [[] [] [] [] [] [] [] []]; try apply zeros_len.
  intros H. apply zeros_len in H. cbn [String.length]. lia.
Qed.
(** The replacement without fuel. *)
Lemma replace_fuel e : e <> Some "0"%char -> forall n m s, String.length s < n -> String.length s < m -> replace_rec n (the_re e) s = replace_rec m (the_re e) s.
Proof.
  intros He. induction n as [|n IH]; intros m s Hn Hm; [lia|]. destruct m as [|m]; [lia|]. destruct s as [|c s]; [reflexivity|].
  cbn [replace_rec]. destruct (rmatch (the_re e) (String c s) Some) as [t|] eqn:Q.
  - pose proof (match_len e _ _ He Q) as Hl. cbn [String.length] in *. destruct (Nat.eqb_spec (String.length t) (S (String.length s))); [lia|]. apply IH; lia.
  - f_equal. cbn [String.length] in *. apply IH; lia.
Qed.
Lemma replace_eq e c s : e <> Some "0"%char -> regex_replace (String c s) (the_re e) =
  match rmatch (the_re e) (String c s) Some with Some t => regex_replace t (the_re e) | None => String c (regex_replace s (the_re e)) end.
Proof.
  intros He. unfold regex_replace at 1 3. cbn [replace_rec]. destruct (rmatch (the_re e) (String c s) Some) as [t|] eqn:Q; [|reflexivity].
  pose proof (match_len e _ _ He Q) as Hl. cbn [String.length] in *. destruct (Nat.eqb_spec (String.length t) (S (String.length s))); [lia|]. unfold regex_replace. apply replace_fuel; auto; cbn [String.length]; lia.
Qed.
Lemma replace_nil e : regex_replace "" (the_re e) = "". Proof. reflexivity. Qed.

(** ** Digits *)
Lemma all_app_ P s t : all_chars P (s ++ t) <-> all_chars P s /\ all_chars P t.
Proof. induction s as [|c s IH]; cbn [append all_chars]; [tauto|]. rewrite IH. tauto. Qed.
Lemma fixdigits_digits w : forall n acc, all_chars digit acc -> all_chars digit (fixdigits w n acc) /\ String.length (fixdigits w n acc) = w + String.length acc.
Proof.
  induction w as [|w IH]; intros n acc Ha; cbn [fixdigits]; [auto|].
  destruct (IH (n / 10)%Z (String (digit_char (n mod 10)) acc)) as [I1 I2].
  { split; [|exact Ha]. apply digit_char_ok. apply Z.mod_pos_bound. lia. }
  split; [exact I1|]. rewrite I2. cbn [String.length]. lia.
Qed.
Lemma strip_leading_digits s : all_chars digit s -> all_chars digit (strip_leading s) /\ String.length (strip_leading s) <= String.length s.
Proof.
  induction s as [|c s IH]; [auto|]. intros [Hc Hs]. destruct (IH Hs) as [I1 I2].
  assert (E : strip_leading (String c s) = if Ascii.eqb c "0" then match s with EmptyString => String c s | _ => strip_leading s end else String c s).
  { destruct c as [[] [] [] [] [] [] [] []]; reflexivity. }
  rewrite E. destruct (Ascii.eqb c "0"); [destruct s as [|d s]|].
  - split; [split; [exact Hc|exact Logic.I]|cbn; lia].
  - split; [exact I1|cbn [String.length] in *; lia].
  - split; [split; assumption|reflexivity].
Qed.
(** Where the digits of [s] are followed by [u]: the zeros at the end of [s] are removed if [u]
    is what the expression looks for. *)
Lemma zeros_digits e s u : (forall k, e = Some k -> ~ digit k) -> all_chars digit s -> after_zeros u = None ->
  zeros e (s ++ u) = if String.eqb (strip_trailing s) "" && negb (String.eqb s "") && look e u then Some u else None.
Proof.
  intros He Hs Hu. unfold zeros. induction s as [|c s IH]; [cbn [append]; now rewrite Hu|]. destruct Hs as [Hc Hs]. specialize (IH Hs).
  cbn [append after_zeros strip_trailing]. destruct (Ascii.eqb_spec "0" c) as [<-|Hne].
  - destruct s as [|d s].
    + cbn [append] in *. rewrite Hu. cbn. reflexivity.
    + destruct (after_zeros (String d s ++ u)) as [t|] eqn:A.
      * rewrite IH. destruct (strip_trailing (String d s)); cbn [String.eqb andb negb]; reflexivity.
      * assert (strip_trailing (String d s) <> ""). 
        { intros Z. cbn [append after_zeros strip_trailing] in *. destruct (strip_trailing s); [|discriminate Z]. destruct (Ascii.eqb_spec d "0") as [->|]; [|discriminate Z].
          cbn in A. destruct (after_zeros (s ++ u)); discriminate A. }
        destruct (strip_trailing (String d s)) as [|x y] eqn:St; [contradiction|]. cbn [String.eqb andb negb].
        destruct e as [k|]; cbn [look append]; [|reflexivity]. destruct (Ascii.eqb_spec k d) as [->|]; [|reflexivity]. exfalso. exact (He d eq_refl (proj1 Hs)).
  - destruct (Ascii.eqb_spec c "0"); [subst; contradiction|]. destruct (strip_trailing s); reflexivity.
Qed.

Lemma digit_not_point c : digit c -> c <> "."%char. Proof. unfold digit. intros H ->. cbn in H. lia. Qed.
Lemma re_match_other e c s : e <> Some "0"%char -> c <> "."%char -> rmatch (the_re e) (String c s) Some = zeros e (String c s).
Proof. intros He Hc. rewrite re_match by exact He. destruct c as [[] [] [] [] [] [] [] []]; try reflexivity. contradiction. Qed.

Section Replace.
Variable e : option ascii.
Hypothesis He : forall k, e = Some k -> ~ digit k.
Local Lemma He0 : e <> Some "0"%char. Proof. intros E. apply (He _ E). unfold digit. cbn. lia. Qed.
Lemma replace_digits s u : all_chars digit s -> after_zeros u = None ->
  regex_replace (s ++ u) (the_re e) = ((if look e u then strip_trailing s else s) ++ regex_replace u (the_re e))%string.
Proof.
  intros Hs Hu. induction s as [|c s IH]; [now destruct (look e u)|]. destruct Hs as [Hc Hs]. specialize (IH Hs).
  change ((String c s ++ u)%string) with (String c (s ++ u)). rewrite replace_eq by exact He0. rewrite re_match_other by (exact He0 || now apply digit_not_point).
  change (String c (s ++ u)) with ((String c s ++ u)%string). rewrite zeros_digits by (try split; auto). rewrite IH.
  destruct (look e u); [|now rewrite !andb_false_r]. cbn [String.eqb negb]. rewrite !andb_true_r. cbn [strip_trailing].
  destruct (strip_trailing s); [destruct (Ascii.eqb c "0")|]; reflexivity.
Qed.
Lemma replace_frac fd u : fd <> "" -> all_chars digit fd -> after_zeros u = None -> look e u = true ->
  regex_replace (String "." (fd ++ u)) (the_re e) = (frac_part fd ++ regex_replace u (the_re e))%string.
Proof.
  intros Hn Hd Hu Hl. rewrite replace_eq by exact He0. rewrite re_match by exact He0. rewrite zeros_digits by auto. rewrite Hl, andb_true_r.
  unfold frac_part. destruct (String.eqb_spec fd "") as [->|_]; [contradiction|]. cbn [negb]. rewrite andb_true_r, replace_digits by auto. rewrite Hl.
  destruct (strip_trailing fd); reflexivity.
Qed.
Lemma replace_copy c s : c <> "."%char -> c <> "0"%char -> regex_replace (String c s) (the_re e) = String c (regex_replace s (the_re e)).
Proof.
  intros H1 H2. rewrite replace_eq by exact He0. rewrite re_match_other by (exact He0 || exact H1). unfold zeros. cbn [after_zeros].
  destruct (Ascii.eqb_spec "0" c); [congruence|reflexivity].
Qed.
Lemma replace_number (neg : bool) ip fd u : all_chars digit ip -> fd <> "" -> all_chars digit fd -> after_zeros u = None -> look e u = true -> look e "." = false ->
  regex_replace ((if neg then "-" else "") ++ ip ++ "." ++ fd ++ u)%string (the_re e) = ((if neg then "-" else "") ++ ip ++ frac_part fd ++ regex_replace u (the_re e))%string.
Proof.
  intros Hi Hn Hd Hu Hl Hp.
  assert (Q : regex_replace (ip ++ "." ++ fd ++ u)%string (the_re e) = (ip ++ frac_part fd ++ regex_replace u (the_re e))%string).
  { change ("." ++ fd ++ u)%string with (String "." (fd ++ u)). rewrite replace_digits by auto.
    assert (look e (String "." (fd ++ u)) = false) as ->. { destruct e as [k|]; [exact Hp|reflexivity]. }
    now rewrite replace_frac by auto. }
  destruct neg; [|exact Q]. change (regex_replace (String "-" (ip ++ "." ++ fd ++ u)) (the_re e) = String "-" (ip ++ frac_part fd ++ regex_replace u (the_re e))).
  rewrite replace_copy by discriminate. now rewrite Q.
Qed.
End Replace.

Lemma slen_app_ s t : String.length (s ++ t) = String.length s + String.length t.
Proof. induction s; cbn [append String.length]; lia. Qed.
Lemma substring_all n s : String.length s <= n -> substring 0 n s = s.
Proof. revert n. induction s as [|c s IH]; intros [|n] H; cbn [String.length substring] in *; try lia; try reflexivity. f_equal. apply IH. lia. Qed.

Lemma len_f neg num den : String.length (printf_f neg num den) <= 63.
Proof.
  unfold printf_f. cbv zeta. set (n := rhe _ _). rewrite !slen_app_.
  destruct (fixdigits_digits 20 (n / 10 ^ 16) "" Logic.I) as [A1 A2]. destruct (strip_leading_digits _ A1) as [_ A3]. rewrite A2 in A3.
  destruct (fixdigits_digits 16 (n mod 10 ^ 16) "" Logic.I) as [_ B2]. rewrite B2. destruct neg; cbn [String.length] in *; lia.
Qed.
Lemma len_e neg num den : String.length (printf_e neg num den) <= 63.
Proof.
  unfold printf_e. cbv zeta. set (k0 := dec_exp _ _ _ _). set (n0 := if (16 - k0 <? 0)%Z then _ else _). 
  destruct (if (n0 =? 10 ^ 17)%Z then ((10 ^ 16)%Z, (k0 + 1)%Z) else (n0, k0)) as [n k]. rewrite !slen_app_.
  destruct (fixdigits_digits 1 (n / 10 ^ 16) "" Logic.I) as [_ A2]. destruct (fixdigits_digits 16 (n mod 10 ^ 16) "" Logic.I) as [_ B2].
  destruct (fixdigits_digits 2 (Z.abs k) "" Logic.I) as [_ C2]. destruct (fixdigits_digits 3 (Z.abs k) "" Logic.I) as [_ D2].
  rewrite A2, B2. destruct neg, (k <? 0)%Z, (Z.abs k <? 100)%Z; rewrite ?C2, ?D2; cbn [String.length]; lia.
Qed.
Lemma fix_nonempty w n acc : w <> 0 -> all_chars digit acc -> fixdigits w n acc <> "".
Proof. intros Hw Ha E. destruct (fixdigits_digits w n acc Ha) as [_ L]. rewrite E in L. cbn in L. lia. Qed.

Lemma replace_f neg num den : regex_replace (printf_f neg num den) (the_re None) = fmt_f neg num den.
Proof.
  unfold printf_f, fmt_f. cbv zeta. set (n := rhe _ _).
  destruct (fixdigits_digits 20 (n / 10 ^ 16) "" Logic.I) as [A1 _]. destruct (strip_leading_digits _ A1) as [A3 _].
  destruct (fixdigits_digits 16 (n mod 10 ^ 16) "" Logic.I) as [B1 _].
  pose proof (replace_number None ltac:(discriminate) neg (strip_leading (fixdigits 20 (n / 10 ^ 16) "")) (fixdigits 16 (n mod 10 ^ 16) "") "" A3 (fix_nonempty 16 _ "" ltac:(discriminate) Logic.I) B1 eq_refl eq_refl eq_refl) as Q.
  rewrite replace_nil in Q. rewrite !sapp_nil in Q. exact Q.
Qed.
Lemma e_no_digit k : Some "e"%char = Some k -> ~ digit k. Proof. intros [= <-]. unfold digit. cbn. lia. Qed.
Lemma replace_e neg num den : regex_replace (printf_e neg num den) (the_re (Some "e"%char)) = fmt_e neg num den.
Proof.
  unfold printf_e, fmt_e. cbv zeta. set (k0 := dec_exp _ _ _ _). set (n0 := if (16 - k0 <? 0)%Z then _ else _). 
  destruct (if (n0 =? 10 ^ 17)%Z then ((10 ^ 16)%Z, (k0 + 1)%Z) else (n0, k0)) as [n k].
  destruct (fixdigits_digits 1 (n / 10 ^ 16) "" Logic.I) as [A1 _]. destruct (fixdigits_digits 16 (n mod 10 ^ 16) "" Logic.I) as [B1 _].
  set (ex := if (Z.abs k <? 100)%Z then fixdigits 2 (Z.abs k) "" else fixdigits 3 (Z.abs k) "").
  assert (Dx : all_chars digit ex).
  { unfold ex. destruct (Z.abs k <? 100)%Z; apply fixdigits_digits; exact Logic.I. }
  rewrite (replace_number (Some "e"%char) e_no_digit neg _ _ ("e" ++ (if (k <? 0)%Z then "-" else "+") ++ ex)%string A1 (fix_nonempty 16 _ "" ltac:(discriminate) Logic.I) B1 eq_refl eq_refl eq_refl).
  f_equal. f_equal. f_equal. change ("e" ++ (if (k <? 0)%Z then "-" else "+") ++ ex)%string with (String "e" ((if (k <? 0)%Z then "-" else "+") ++ ex)).
  rewrite (replace_copy _ e_no_digit) by discriminate. cbn [append]. f_equal.
  pose proof (replace_digits _ e_no_digit ex "" Dx eq_refl) as Q. rewrite sapp_nil, replace_nil in Q. cbn [look] in Q. rewrite sapp_nil in Q.
  destruct (k <? 0)%Z; cbn [append]; rewrite (replace_copy _ e_no_digit) by discriminate; now rewrite Q.
Qed.

(** The text computed by the code as written, for every double. *)
Theorem C16_as_written (v : b64) : ToString_double v = b_tostr v.
Proof.
  unfold ToString_double. destruct v as [s|s| |s m e Hb].
  - assert (Beqb (B754_zero s) (b_ofZ 0) = true) as -> by (destruct s; reflexivity). reflexivity.
  - assert (Beqb (B754_infinity s) (b_ofZ 0) = false) as -> by (destruct s; reflexivity).
    assert (G : forall x : b64, is_finite x = true -> Bleb x (Babs (B754_infinity s)) = true) by (intros [[]| | |[]]; destruct s; (reflexivity || discriminate)).
    cbv zeta. rewrite G by (vm_compute; reflexivity). destruct s; vm_compute; reflexivity.
  - assert (Beqb B754_nan (b_ofZ 0) = false) as -> by reflexivity.
    assert (G1 : forall x : b64, Bleb x (Babs B754_nan) = false) by (intros [[]| | |[]]; reflexivity).
    assert (G2 : forall x : b64, Bleb (Babs B754_nan) x = false) by (intros [[]| | |[]]; reflexivity).
    cbv zeta. rewrite G1, G2. vm_compute. reflexivity.
  - assert (Beqb (B754_finite s m e Hb) (b_ofZ 0) = false) as -> by (destruct s; reflexivity).
    cbv zeta. unfold b_tostr, printf. destruct (frac_of m e) as [num den].
    destruct (Bleb (b_ofZ (10 ^ 16)) (Babs (B754_finite s m e Hb)) || Bleb (Babs (B754_finite s m e Hb)) (b_dec false 1 (-16))); cbn [nth_error strategies].
    + rewrite substring_all by apply len_e. apply replace_e.
    + rewrite substring_all by apply len_f. apply replace_f.
Qed.
Example written_half : ToString_double (b_dec false 15 (-1)) = "1.5". Proof. vm_compute. reflexivity. Qed.
Example written_large : ToString_double (b_dec true 25 20) = "-2.5e+21". Proof. vm_compute. reflexivity. Qed.
Example written_hundred : ToString_double (b_ofZ 100) = "100". Proof. vm_compute. reflexivity. Qed.

(** ** C09 *)
Lemma star_whole p s : star_match p s (fun t => match t with EmptyString => Some t | _ => None end) = if forallb p (list_ascii_of_string s) then Some "" else None.
Proof.
  induction s as [|c s IH]; [reflexivity|]. cbn [star_match list_ascii_of_string forallb]. destruct (p c); [|reflexivity]. rewrite IH.
  cbn [andb]. destruct (forallb p (list_ascii_of_string s)); reflexivity.
Qed.
Theorem C09_as_written (s : string) : legal_name s = VarNameIsLegal s /\ (legal_name s = true <-> identifier s).
Proof.
  assert (E : legal_name s = VarNameIsLegal s).
  { unfold legal_name, regex_match, VarNameIsLegal. destruct s as [|c s]; [reflexivity|]. cbn [rmatch]. destruct (is_word c); [|reflexivity].
    destruct (is_digit c); [reflexivity|]. cbn [negb andb]. rewrite star_whole. destruct (forallb is_word (list_ascii_of_string s)); reflexivity. }
  split; [exact E|]. rewrite E. symmetry. apply identifier_legal.
Qed.
Example written_names : legal_name "_a1" = true /\ legal_name "1a" = false /\ legal_name "a b" = false /\ legal_name "" = false.
Proof. repeat split. Qed.
