(** C79: which words of a text are numbers, and which numbers they are. *)
From Coq Require Import String Ascii List ZArith Reals Lia Lra Bool.
From Flocq Require Import Core BinarySingleNaN.
From Verif Require Import Base MathOp IEEE NodeModel ParseModel ExprSpec GrammarSpec NumTextSpec NumeralSpec ErrorSpec NumText NumeralProofs NodeProofs ParseProofs ParseSound Thm_Parse.
Import ListNotations.
Local Open Scope string_scope. Local Open Scope list_scope. Local Open Scope R_scope.

(** The double nearest to x (ties to even), if doubles had no largest exponent. *)
Definition nearest (x : R) : R := round radix2 (FLT_exp (-1074) 53) ZnearestE x.
Lemma nearest_rne x : nearest x = rne x. Proof. reflexivity. Qed.

#[local] Instance fexp64_valid' : Valid_exp (SpecFloat.fexp 53 1024).
Proof. apply fexp_correct. exact Hprec. Qed.

Section Words.
Context (L : libm).
Notation K := (B64 L).
Implicit Types (v : K).

(** A word (no white space, no operator) is a number if and only if it is a numeral whose nearest
    double is finite, and normal unless it is exact, or one of inf, infinity and nan in any case. *)
Theorem C79_number_words w v : w <> "" -> all_chars (fun c => ~ space c /\ ~ symbol c) w ->
  (number_word w v <->
    (exists x, numeral w x /\ nearest x < bpow radix2 1024 /\ (nearest x = x \/ bpow radix2 (-1022) <= nearest x) /\
       is_finite (v : b64) = true /\ Bsign (v : b64) = false /\ B2R (v : b64) = nearest x) \/
    (same_letters "inf" w = true \/ same_letters "infinity" w = true) /\ v = n_inf \/
    same_letters "nan" w = true /\ v = n_nan).
Proof.
  intros Hn Hw. transitivity (b_stod w = Some (v : b64, String.length w)); [reflexivity|]. rewrite (stod_iff w v Hn Hw).
  unfold special, readable, reads. split.
  - intros [(x & H1 & (H2 & H3) & H4 & H5 & H6)|H]; [left; exists x; repeat split; auto|right; exact H].
  - intros [(x & H1 & H2 & H3 & H4 & H5 & H6)|H]; [left; exists x; repeat split; auto|right; exact H].
Qed.

(** The bounds: below 2^1024 - 2^970 (half a unit beyond the largest double) the nearest double is
    finite; from 2^-1022 on it is normal. *)
Definition top : R := bpow radix2 1024 - bpow radix2 970.
Lemma top_round : nearest top = bpow radix2 1024.
Proof.
  unfold nearest. assert (Hm : mag_val radix2 _ (mag radix2 top) = 1024%Z).
  { apply mag_unique_pos. unfold top. split.
    - change (1024 - 1)%Z with 1023%Z. replace (bpow radix2 1024) with (bpow radix2 1023 + bpow radix2 1023).
      + pose proof (bpow_le radix2 970 1023 ltac:(lia)). lra.
      + change 1024%Z with (1023 + 1)%Z. rewrite bpow_plus_1. cbn. lra.
    - pose proof (bpow_gt_0 radix2 970). lra. }
  unfold round, scaled_mantissa, cexp. rewrite Hm. change (FLT_exp (-1074) 53 1024) with 971%Z.
  assert (Es : top * bpow radix2 (- (971)) = IZR (2 ^ 53 - 1) + / 2).
  { unfold top. rewrite Rmult_minus_distr_r, <- !bpow_plus. change (1024 + - (971))%Z with 53%Z. change (970 + - (971))%Z with (-1)%Z.
    change (bpow radix2 53) with (IZR (2 ^ 53)). change (bpow radix2 (-1)) with (/ 2). rewrite minus_IZR. lra. }
  rewrite Es. unfold Znearest.
  assert (Ef : Zfloor (IZR (2 ^ 53 - 1) + / 2) = (2 ^ 53 - 1)%Z) by (apply Zfloor_imp; rewrite plus_IZR; lra).
  rewrite Ef. replace (IZR (2 ^ 53 - 1) + / 2 - IZR (2 ^ 53 - 1)) with (/ 2) by ring. rewrite Rcompare_Eq by reflexivity.
  assert (Ec : Zceil (IZR (2 ^ 53 - 1) + / 2) = (2 ^ 53)%Z).
  { apply Zceil_imp. change (2 ^ 53 - 1)%Z with 9007199254740991%Z. change (2 ^ 53)%Z with 9007199254740992%Z. split; [change (9007199254740992 - 1)%Z with 9007199254740991%Z|]; lra. }
  rewrite Ec. change (negb (Z.even (2 ^ 53 - 1))) with true. cbv iota. unfold F2R. cbn [Fnum Fexp].
  change (IZR (2 ^ 53)) with (bpow radix2 53). rewrite <- bpow_plus. reflexivity.
Qed.

Theorem C79_bound x : nearest x < bpow radix2 1024 <-> x < top.
Proof.
  split.
  - intros H. destruct (Rlt_or_le x top) as [Hx|Hx]; [exact Hx|]. exfalso. apply rne_le in Hx.
    change (rne top) with (nearest top) in Hx. rewrite top_round in Hx. change (rne x) with (nearest x) in Hx. lra.
  - intros H. set (u := bpow radix2 1024 - bpow radix2 971).
    assert (Fu : generic_format radix2 (SpecFloat.fexp 53 1024) u /\ pred radix2 (SpecFloat.fexp 53 1024) (bpow radix2 1024) = u).
    { assert (Ep : pred radix2 (SpecFloat.fexp 53 1024) (bpow radix2 1024) = u).
      { rewrite pred_bpow. reflexivity. }
      split; [|exact Ep]. rewrite <- Ep. apply generic_format_pred; [typeclasses eauto|]. apply generic_format_bpow. unfold SpecFloat.fexp, SpecFloat.emin. lia. }
    destruct Fu as [Fu Ep].
    assert (Es : succ radix2 (SpecFloat.fexp 53 1024) u = bpow radix2 1024).
    { rewrite <- Ep. apply succ_pred; [typeclasses eauto|]. apply generic_format_bpow. unfold SpecFloat.fexp, SpecFloat.emin. lia. }
    apply Rle_lt_trans with u.
    + apply (round_N_le_midp radix2 (SpecFloat.fexp 53 1024) (fun z => negb (Z.even z)) u x Fu). rewrite Es.
      replace ((u + bpow radix2 1024) / 2) with top; [exact H|]. unfold u, top.
      replace (bpow radix2 971) with (2 * bpow radix2 970) by (change 971%Z with (970 + 1)%Z; rewrite bpow_plus_1; cbn; lra). lra.
    + unfold u. pose proof (bpow_gt_0 radix2 971). lra.
Qed.
Theorem C79_normal x : bpow radix2 (-1022) <= x -> bpow radix2 (-1022) <= nearest x.
Proof. intros H. apply rne_le in H. rewrite rne_bpow in H by lia. exact H. Qed.

(** A word has one value. *)
Theorem C79_one_value w x y : numeral w x -> numeral w y -> x = y.
Proof.
  intros Hx Hy.
  assert (Re : forall c r n, ("e" = c \/ "p" = c)%char -> expo c r n -> ends_mant (if Ascii.eqb c "e" then dec_digit else hex_digit) r).
  { intros c r n Hc He. destruct He as [|a t n Ha _ _]; [exact I|].
    destruct Hc as [<-|<-]; [apply (proj1 (lower_is "e" a ltac:(cbn; tauto))) in Ha|apply (proj1 (lower_is "p" a ltac:(cbn; tauto))) in Ha];
      destruct Ha as [-> | ->]; split; try reflexivity; discriminate. }
  destruct (numeral_cases w x Hx) as [(s & a & r & n & -> & Hm & He & ->)|(c & s & a & r & n & -> & Hc & Hm & He & ->)];
    destruct (numeral_cases _ y Hy) as [(s' & a' & r' & n' & E & Hm' & He' & ->)|(c' & s' & a' & r' & n' & E & Hc' & Hm' & He' & ->)].
  - destruct (read_mant_ok dec_digit 10 ltac:(lia) dec_digit_value eq_refl s a r Hm (Re "e"%char r n (or_introl eq_refl) He)) as (m & k & E1 & _ & ->).
    destruct (read_mant_ok dec_digit 10 ltac:(lia) dec_digit_value eq_refl s' a' r' Hm' (Re "e"%char r' n' (or_introl eq_refl) He')) as (m' & k' & E2 & _ & ->).
    rewrite E in E1. rewrite E1 in E2. injection E2 as <- <- _ <-.
    destruct (expo_read _ _ _ He) as [Q1 _]. destruct (expo_read _ _ _ He') as [Q2 _]. rewrite Q1 in Q2. injection Q2 as <-. reflexivity.
  - exfalso. exact (dec_not_x s a r n c' (s' ++ r') Hm He E Hc').
  - exfalso. exact (dec_not_x s' a' r' n' c (s ++ r) Hm' He' (eq_sym E) Hc).
  - injection E as <- E.
    destruct (read_mant_ok hex_digit 16 ltac:(lia) hex_digit_value eq_refl s a r Hm (Re "p"%char r n (or_intror eq_refl) He)) as (m & k & E1 & _ & ->).
    destruct (read_mant_ok hex_digit 16 ltac:(lia) hex_digit_value eq_refl s' a' r' Hm' (Re "p"%char r' n' (or_intror eq_refl) He')) as (m' & k' & E2 & _ & ->).
    rewrite E in E1. rewrite E1 in E2. injection E2 as <- <- _ <-.
    destruct (expo_read _ _ _ He) as [Q1 _]. destruct (expo_read _ _ _ He') as [Q2 _]. rewrite Q1 in Q2. injection Q2 as <-. reflexivity.
Qed.

(** What Parse answers for one word. *)
Theorem C79_parse_number w v : w <> "" -> all_chars (fun c => ~ space c /\ ~ symbol c) w -> number_word w v ->
  Parse (K:=K) w = Ok (embed (ENum v)).
Proof.
  intros Hn Hw H. apply (C10_parse_complete [SNum v]).
  - repeat (apply d_up; [lia|]). apply d_num.
  - replace w with ("" ++ w ++ "")%string by apply sapp_nil. apply (r_cons fnv1a "" (SNum v) w [] ""); [exact I|now constructor|apply r_nil; exact I|intros _; exact I].
Qed.

Theorem C79_parse_invalid w : w <> "" -> all_chars (fun c => ~ space c /\ ~ symbol c) w -> (forall v, ~ number_word w v) ->
  (forall u name, fun_name u = Some name -> fnv1a w <> fnv1a name) -> ~ identifier w ->
  Parse (K:=K) w = Throw (SingleParseError 0 0 w ("Invalid variable name: " ++ quoted w)).
Proof.
  intros Hn Hw H Hf Hi. unfold Parse, ParseToTokens.
  pose proof (lex_word (K:=K) w "" 0 "" [] Hw) as E. rewrite sapp_nil in E. cbn [Nat.add String.append] in E.
  assert (Em : forall A (x y : A), match w with EmptyString => x | _ => y end = y) by (destruct w; [congruence|reflexivity]).
  rewrite Em, E. cbn [lex]. unfold tryComfirmToken. rewrite Em, confirm_not_num by auto. rewrite Str2Function_none by auto.
  assert (El : VarNameIsLegal w = false) by (destruct (VarNameIsLegal w) eqn:El; [exfalso; apply Hi; now apply identifier_legal|reflexivity]).
  rewrite El. cbn [bind]. rewrite Nat.sub_diag. reflexivity.
Qed.

(** ** Numerals are words *)
Lemma digit_word c d : digit_value c d -> (d < 16)%Z -> ~ space c /\ ~ symbol c.
Proof.
  intros H Hd. assert (E : hex_digit c = Some d) by (apply hex_digit_value; auto). clear -E. split; intros Hs.
  - unfold space in Hs. destruct c as [[] [] [] [] [] [] [] []]; try discriminate E; cbn in Hs; lia.
  - unfold symbol in Hs. cbn [In] in Hs. decompose [or] Hs; subst; try discriminate E; tauto.
Qed.
Lemma digits_word b s m : (b <= 16)%Z -> digits b s m -> all_chars (fun c => ~ space c /\ ~ symbol c) s.
Proof.
  intros Hb. induction 1 as [|s c v d H IH Hv Hd]; [exact I|]. apply all_app. split; [exact IH|]. split; [|exact I]. apply (digit_word c d Hv). lia.
Qed.
Lemma letter_word c : In c ["e"; "E"; "p"; "P"; "x"; "X"; "."; "0"]%char -> ~ space c /\ ~ symbol c.
Proof.
  intros H. cbn [In] in H. decompose [or] H; subst; try tauto;
    (split; intros Hs; [unfold space in Hs; cbn in Hs; lia|unfold symbol in Hs; cbn [In] in Hs; decompose [or] Hs; try discriminate; tauto]).
Qed.
Lemma mantissa_word b s x : (b <= 16)%Z -> mantissa b s x -> s <> "" /\ all_chars (fun c => ~ space c /\ ~ symbol c) s.
Proof.
  intros Hb H. destruct H as [s m Hs H|s t m f Hs H H'].
  - split; [exact Hs|]. eapply digits_word; eauto.
  - split; [destruct s; discriminate|]. apply all_app. split; [eapply digits_word; eauto|]. split; [apply letter_word; cbn; tauto|eapply digits_word; eauto].
Qed.
Theorem C79_numeral_word w x : numeral w x -> w <> "" /\ all_chars (fun c => ~ space c /\ ~ symbol c) w.
Proof.
  destruct 1 as [s x H|s x c t n H Hc Ht Hd|a s x Ha H|a s x c t n Ha H Hc Ht Hd].
  - apply (mantissa_word 10 s x ltac:(lia) H).
  - destruct (mantissa_word 10 s x ltac:(lia) H) as [H1 H2]. split; [destruct s; [congruence|discriminate]|]. apply all_app. split; [exact H2|].
    split; [apply letter_word; cbn in *; tauto|]. apply (digits_word 10 t n ltac:(lia) Hd).
  - destruct (mantissa_word 16 s x ltac:(lia) H) as [H1 H2]. split; [discriminate|]. split; [apply letter_word; cbn; tauto|]. split; [apply letter_word; cbn in *; tauto|exact H2].
  - destruct (mantissa_word 16 s x ltac:(lia) H) as [H1 H2]. split; [discriminate|]. split; [apply letter_word; cbn; tauto|]. split; [apply letter_word; cbn in *; tauto|].
    apply all_app. split; [exact H2|]. split; [apply letter_word; cbn in *; tauto|]. apply (digits_word 10 t n ltac:(lia) Hd).
Qed.
(** Numerals begin with a digit or a point. *)
Lemma numeral_start w x : numeral w x -> exists c s, w = String c s /\ (digit c \/ c = "."%char).
Proof.
  assert (G : forall c, dec_digit c <> None \/ c = "."%char -> digit c \/ c = "."%char).
  { intros c [H|H]; [left|now right]. unfold dec_digit, char_in in H. unfold digit. destruct (Nat.leb_spec 48 (nat_of_ascii c)); [|now destruct H].
    destruct (Nat.leb_spec (nat_of_ascii c) 57); [lia|now destruct H]. }
  intros H. destruct (numeral_cases w x H) as [(s & a & r & n & -> & Hm & _ & _)|(c & s & a & r & n & -> & _ & _ & _ & _)].
  - destruct (mantissa_word 10 s a ltac:(lia) Hm) as [Hn _]. pose proof (mantissa_chars 10 dec_digit s a dec_digit_value Hm) as Hc.
    destruct s as [|c s]; [congruence|]. exists c, (s ++ r)%string. split; [reflexivity|]. apply G. apply Hc.
  - exists "0"%char, (String c (s ++ r)). split; [reflexivity|]. left. unfold digit. cbn. lia.
Qed.

(** A numeral in the range of doubles is read as the nearest one; one that is too large, or smaller
    than every normal double and not a double itself, is not read. *)
Theorem C79_read w x : numeral w x -> x < top -> nearest x = x \/ bpow radix2 (-1022) <= nearest x ->
  exists v, Parse (K:=K) w = Ok (embed (ENum v)) /\ is_finite (v : b64) = true /\ Bsign (v : b64) = false /\ B2R (v : b64) = nearest x.
Proof.
  intros H Hx Hs. destruct (C79_numeral_word w x H) as [Hn Hw]. apply C79_bound in Hx.
  assert (R : exists v : b64, stod_unsigned false w = Some (v, String.length w)).
  { destruct (numeral_value w x H) as (num & den & Hnum & Hden & Ex).
    exists (ratio false num den). apply (numeral_reads w x _ H). assert (Rd : readable x) by (split; auto). split; [exact Rd|].
    destruct (ratio_range num den Hnum Hden) as [_ G]. rewrite <- Ex in G. auto. }
  destruct R as [v R]. exists v. pose proof (proj1 (numeral_reads w x v H) R) as [_ (F1 & F2 & F3)]. split; [|auto].
  apply C79_parse_number; auto. unfold number_word. transitivity (b_stod w); [reflexivity|]. rewrite (stod_word w Hn Hw). exact R.
Qed.

Theorem C79_unread w x : numeral w x -> top <= x \/ nearest x <> x /\ nearest x < bpow radix2 (-1022) ->
  (forall u name, fun_name u = Some name -> fnv1a w <> fnv1a name) ->
  Parse (K:=K) w = Throw (SingleParseError 0 0 w ("Invalid variable name: " ++ quoted w)).
Proof.
  intros H Hx Hf. destruct (C79_numeral_word w x H) as [Hn Hw]. destruct (numeral_start w x H) as (c & s & E & Hc).
  apply C79_parse_invalid; auto.
  - intros v Hv. apply (C79_number_words w v Hn Hw) in Hv as [(y & Hy & H1 & H2 & _)|Hs].
    + rewrite (C79_one_value w y x Hy H) in *. apply C79_bound in H1. destruct Hx as [Hx|[Hx1 Hx2]]; [lra|]. destruct H2; [congruence|lra].
    + assert (U : upper c = "I"%char \/ upper c = "N"%char).
      { rewrite E in Hs. destruct Hs as [[[Hs|Hs] _]|[Hs _]]; cbn [same_letters] in Hs; apply andb_prop in Hs as [Hs _]; apply Ascii.eqb_eq in Hs; rewrite <- Hs; cbn; auto. }
      clear -U Hc. destruct Hc as [Hc| ->]; [|destruct U; discriminate]. unfold digit in Hc. unfold upper in U.
      destruct (Nat.leb_spec 97 (nat_of_ascii c)); [lia|]. cbn [andb] in U. destruct U as [-> | ->]; cbn in Hc; lia.
  - rewrite E. intros [Hi _]. unfold letter in Hi. unfold digit in Hc. destruct Hc as [Hc| ->]; [destruct Hi as [Hi| ->]; [lia|cbn in Hc; lia]|destruct Hi as [Hi|Hi]; [cbn in Hi; lia|discriminate]].
Qed.
End Words.

(** Examples of numerals: 1.5e3 and 0x1Fp2. *)
Lemma digit_at b n c : String.get n "0123456789abcdef" = Some c \/ String.get n "0123456789ABCDEF" = Some c -> (Z.of_nat n < b)%Z ->
  digit_value c (Z.of_nat n) /\ (Z.of_nat n < b)%Z.
Proof. intros H Hb. split; [split; [lia|rewrite Nat2Z.id; exact H]|exact Hb]. Qed.
Lemma digits_1 b n c : String.get n "0123456789abcdef" = Some c \/ String.get n "0123456789ABCDEF" = Some c -> (Z.of_nat n < b)%Z -> digits b (String c "") (Z.of_nat n).
Proof. intros H Hb. destruct (digit_at b n c H Hb) as [H1 H2]. exact (ds_snoc b "" c 0 _ (ds_nil b) H1 H2). Qed.

Example C79_ex_dec : numeral "1.5e3" 1500.
Proof.
  replace 1500 with ((IZR 1 + IZR 5 / IZR 10 ^ String.length "5") * 10 ^ Z.to_nat 3) by (cbn [String.length]; change (Z.to_nat 3) with 3%nat; simpl; lra).
  apply (num_dec_exp "1.5" _ "e" "3" 3); [|cbn; auto|discriminate|apply (digits_1 10 3); [auto|lia]].
  apply (mant_frac 10 "1" "5" 1 5); [discriminate|apply (digits_1 10 1); [auto|lia]|apply (digits_1 10 5); [auto|lia]].
Qed.
Example C79_ex_hex : numeral "0X1Fp2" 124.
Proof.
  replace 124 with (IZR (1 * 16 + 15) * 2 ^ Z.to_nat 2) by (change (Z.to_nat 2) with 2%nat; simpl; lra).
  apply (num_hex_exp "X" "1F" _ "p" "2" 2); [cbn; auto| |cbn; auto|discriminate|apply (digits_1 10 2); [auto|lia]].
  apply mant_int; [discriminate|]. destruct (digit_at 16 15 "F" (or_intror eq_refl) ltac:(lia)) as [H1 H2].
  apply (ds_snoc 16 "1" "F" 1 15); [apply (digits_1 16 1); [auto|lia]|exact H1|exact H2].
Qed.
(** They are read exactly. *)
Lemma small_int_nearest z : (Z.abs z <= 2 ^ 53)%Z -> nearest (IZR z) = IZR z.
Proof.
  intros Hz. unfold nearest. apply round_generic; [typeclasses eauto|]. apply generic_format_FLT.
  destruct (Z.eq_dec (Z.abs z) (2 ^ 53)) as [E|E].
  - apply (FLT_spec radix2 (-1074) 53 _ (Float radix2 (z / 2) 1)); cbn [Fnum Fexp].
    + unfold F2R. cbn [Fnum Fexp]. change (bpow radix2 1) with 2. rewrite <- mult_IZR. f_equal. assert (z = 2 ^ 53 \/ z = - 2 ^ 53)%Z as [-> | ->] by lia; reflexivity.
    + assert (z = 2 ^ 53 \/ z = - 2 ^ 53)%Z as [-> | ->] by lia; reflexivity.
    + lia.
  - apply (FLT_spec radix2 (-1074) 53 _ (Float radix2 z 0)); cbn [Fnum Fexp].
    + unfold F2R. cbn [Fnum Fexp bpow]. ring.
    + change (Zpower radix2 53) with (2 ^ 53)%Z. lia.
    + lia.
Qed.
Lemma top_big : IZR (2 ^ 1000) < top.
Proof.
  unfold top. change (IZR (2 ^ 1000)) with (bpow radix2 1000). replace (bpow radix2 1024) with (bpow radix2 1023 + bpow radix2 1023).
  - pose proof (bpow_lt radix2 970 1023 ltac:(lia)). pose proof (bpow_lt radix2 1000 1023 ltac:(lia)). lra.
  - change 1024%Z with (1023 + 1)%Z. rewrite bpow_plus_1. cbn. lra.
Qed.
Example C79_ex_read L : exists v : B64 L, Parse "1.5e3" = Ok (embed (ENum v)) /\ B2R (v : b64) = 1500.
Proof.
  destruct (C79_read L "1.5e3" 1500 C79_ex_dec) as (v & H1 & _ & _ & H2).
  - apply Rlt_trans with (2 := top_big). apply IZR_lt. reflexivity.
  - left. apply small_int_nearest. lia.
  - exists v. rewrite (small_int_nearest 1500) in H2 by lia. auto.
Qed.

(** A numeral beyond the largest double, and one below the smallest, are taken for bad names. *)
Lemma no_collision w : collides w = false -> forall u name, fun_name u = Some name -> fnv1a w <> fnv1a name.
Proof.
  intros H u name Hu E. enough (collides w = true) by congruence. unfold collides. apply existsb_exists. exists u. split.
  - destruct u; simpl; try discriminate; tauto.
  - rewrite Hu. apply Z.eqb_eq. exact E.
Qed.
Example C79_ex_large L : Parse (K:=B64 L) "1e400" = Throw (SingleParseError 0 0 "1e400" ("Invalid variable name: " ++ quoted "1e400")).
Proof.
  assert (N : numeral "1e400" (IZR 1 * 10 ^ Z.to_nat ((0 * 10 + 4) * 10 * 10 + 0))).
  { apply (num_dec_exp "1" _ "e" "400"); [apply mant_int; [discriminate|apply (digits_1 10 1); [auto|lia]]|cbn; auto|discriminate|].
    replace ((0 * 10 + 4) * 10 * 10 + 0)%Z with ((4 * 10 + 0) * 10 + 0)%Z by lia.
    destruct (digit_at 10 0 "0" (or_introl eq_refl) ltac:(lia)) as [H1 H2].
    apply (ds_snoc 10 "40" "0" 40 0); auto. apply (ds_snoc 10 "4" "0" 4 0); auto. apply (digits_1 10 4); [auto|lia]. }
  apply (C79_unread L _ _ N); [left|apply no_collision; vm_compute; reflexivity].
  rewrite Rmult_1_l. rewrite pow_IZR. unfold top. apply Rle_trans with (IZR (2 ^ 1024)).
  - change (IZR (2 ^ 1024)) with (bpow radix2 1024). pose proof (bpow_gt_0 radix2 970). lra.
  - apply IZR_le. apply Z.leb_le. vm_compute. reflexivity.
Qed.

Definition zeros (n : nat) : string := Nat.iter n (String "0") "".
Lemma zeros_snoc n : zeros (S n) = (zeros n ++ "0")%string.
Proof. induction n as [|n IH]; [reflexivity|]. change (String "0" (zeros (S n)) = String "0" (zeros n ++ "0")). now rewrite IH. Qed.
Lemma zeros_digits n : digits 10 (zeros n ++ "1") 1.
Proof.
  destruct (digit_at 10 0 "0" (or_introl eq_refl) ltac:(lia)) as [H1 H2]. destruct (digit_at 10 1 "1" (or_introl eq_refl) ltac:(lia)) as [H3 H4].
  apply (ds_snoc 10 (zeros n) "1" 0 1); auto.
  induction n as [|n IH]; [constructor|].
  assert (E := zeros_snoc n).
  rewrite E. apply (ds_snoc 10 (zeros n) "0" 0 0); auto.
Qed.
Example C79_ex_small L : let w := ("0." ++ (zeros 400 ++ "1"))%string in
  Parse (K:=B64 L) w = Throw (SingleParseError 0 0 w ("Invalid variable name: " ++ quoted w)).
Proof.
  intros w. assert (Len : String.length (zeros 400 ++ "1") = 401%nat) by (vm_compute; reflexivity).
  assert (N : numeral w (IZR 0 + IZR 1 / IZR 10 ^ String.length (zeros 400 ++ "1"))).
  { apply num_dec. apply (mant_frac 10 "0" (zeros 400 ++ "1") 0 1); [discriminate|apply (digits_1 10 0); [auto|lia]|apply zeros_digits]. }
  rewrite Len in N.
  assert (B : bpow radix2 1100 < IZR 10 ^ 401).
  { rewrite pow_IZR. change (bpow radix2 1100) with (IZR (2 ^ 1100)). apply IZR_lt. apply Z.ltb_lt. vm_compute. reflexivity. }
  assert (B0 : 0 < bpow radix2 1100) by apply bpow_gt_0.
  assert (Bi : bpow radix2 (-1100) = / bpow radix2 1100) by (change (-1100)%Z with (- (1100))%Z; apply bpow_opp).
  revert N B. generalize (IZR 10 ^ 401). intros q N B. set (x := IZR 0 + IZR 1 / q) in *.
  assert (Ex : x = / q) by (unfold x; field; lra).
  assert (P : 0 < x) by (rewrite Ex; apply Rinv_0_lt_compat; lra).
  assert (Sm : x < bpow radix2 (-1100)).
  { rewrite Ex, Bi. apply Rinv_lt_contravar; [apply Rmult_lt_0_compat; lra|exact B]. }
  assert (Z0 : nearest x = 0).
  { unfold nearest. apply (round_N_small radix2 (FLT_exp (-1074) 53) (fun z => negb (Z.even z)) _ (mag radix2 x)).
    - destruct (mag radix2 x) as [m Hm]. cbn. apply Hm. lra.
    - assert (M : (mag radix2 x <= -1100)%Z) by (apply mag_le_bpow; [lra|rewrite Rabs_pos_eq; lra]).
      unfold FLT_exp. lia. }
  apply (C79_unread L _ _ N); [|apply no_collision; vm_compute; reflexivity].
  right. rewrite Z0. split; [lra|apply bpow_gt_0].
Qed.

Fixpoint plain_word (s : string) : bool :=
  match s with EmptyString => true | String c s' => negb (is_space c) && negb (IsBasicOperator c) && plain_word s' end.
Lemma plain_word_ok s : plain_word s = true -> all_chars (fun c => ~ space c /\ ~ symbol c) s.
Proof.
  induction s as [|c s IH]; cbn [plain_word all_chars]; [auto|]. intros H. apply andb_prop in H as [H H3]. apply andb_prop in H as [H1 H2].
  split; [|auto]. split; intros Hs.
  - apply is_space_space in Hs. rewrite Hs in H1. discriminate.
  - apply IsBasicOperator_symbol in Hs. rewrite Hs in H2. discriminate.
Qed.
Example C79_ex_inf L : Parse (K:=B64 L) "Infinity" = Ok (embed (ENum (n_inf : B64 L))) /\ number_word (K:=B64 L) "nAn" n_nan.
Proof.
  split.
  - apply C79_parse_number; [discriminate|apply plain_word_ok; reflexivity|]. apply C79_number_words; [discriminate|apply plain_word_ok; reflexivity|].
    right. left. split; [right; reflexivity|reflexivity].
  - apply C79_number_words; [discriminate|apply plain_word_ok; reflexivity|]. right. right. split; reflexivity.
Qed.
