(** C14-C16: printing expressions and numbers, and reading them back. *)
From Coq Require Import String Ascii List ZArith Bool Arith Lia Reals Lra.
From Flocq Require Import IEEE754.BinarySingleNaN Core.
From Verif Require Import Base MathOp IEEE NodeModel ParseModel ToStringModel ExprSpec RealSpec GrammarSpec
  NodeProofs ParseProofs Thm_Parse TextSpec TextProofs NumTextSpec NumText.
Import ListNotations.
Local Open Scope string_scope. Local Open Scope list_scope. Local Open Scope nat_scope.

(** ** C15: ToString writes the text of the specification, for every expression *)
Theorem C15_to_string {K : num_ops} (e : expr K) : ToString (embed e) = Ok (text None e).
Proof. apply ToString_text. Qed.

Fixpoint no_signs {K : num_ops} (e : expr K) : Prop :=
  match e with
  | ENum _ | EVar _ => True
  | EUn u a => is_signop u = false /\ no_signs a
  | EBin _ a c => no_signs a /\ no_signs c
  end.

(** The (unused) recursive printer writes the same text if there are no signs... *)
Lemma recursive_text {K : num_ops} (e : expr K) : no_signs e -> forall c,
  ToStringRecursively (embed e) c = text (sctx c) e.
Proof.
  induction e as [v|x|u a IH|b a IHa d IHd]; intros Hs c.
  - apply (emit_leaf (ENum v) c eq_refl).
  - reflexivity.
  - destruct Hs as [Hu Ha]. cbn [embed ToStringRecursively text].
    rewrite un_num. cbn [Nat.eqb]. rewrite un_sign, Hu. rewrite (IH Ha), sctx_un. cbn [andb negb in_parens ToStringRecursively].
    change (NodeToStr (N OPERATOR (unop_op u) (n_ofZ 0) "" (embed a) Nil)) with (MathOperatorToStr (unop_op u)).
    rewrite un_str, !str_app_assoc. reflexivity.
  - destruct Hs as [Ha Hd]. cbn [embed ToStringRecursively text]. rewrite bin_num. cbn [Nat.eqb].
    rewrite (IHa Ha), (IHd Hd), !sctx_bin, !needsParens_spec.
    change (NodeToStr (N OPERATOR (binop_op b) (n_ofZ 0) "" (embed a) (embed d))) with (MathOperatorToStr (binop_op b)).
    rewrite bin_str. destruct (match sctx c with Some (p, s) => parens p s b | None => false end); cbn [in_parens].
    + rewrite !str_app_assoc. reflexivity.
    + rewrite str_app_nil. reflexivity.
Qed.
Theorem C15_recursive {K : num_ops} (e : expr K) : no_signs e -> ToString (embed e) = Ok (ToStringRecursively (embed e) None).
Proof. intros H. rewrite C15_to_string, (recursive_text e H None). reflexivity. Qed.

(** ... but with signs it can lose parentheses: -(x+y) becomes "(-x+y)". *)
Theorem C15_recursive_loses_parentheses {K : num_ops} :
  let e : expr K := EUn UNeg (EBin BAdd (EVar "x") (EVar "y")) in
  ToStringRecursively (embed e) None = "(-x+y)" /\ ToString (embed e) = Ok "-(x+y)".
Proof. split; reflexivity. Qed.

Example C15_ex {K : num_ops} : ToString (K:=K) (embed (EBin BSub (EVar "a") (EBin BSub (EVar "b")
  (EBin BMul (EBin BPow (EUn UNeg (EVar "c")) (EVar "d")) (EBin BDiv (EVar "e") (EUn USin (EBin BMod (EVar "f") (EVar "g"))))))))
  = Ok "a-(b--c^d*e/sin(f%g))".
Proof. reflexivity. Qed.

(** ** C16: the text of a number *)
Section C16.
Variable L : libm.
Local Open Scope R_scope.

(** Between the (double) 1e-16 and 1e16 a number is written as a sign and a plain decimal
    numeral, with at most 16 decimals and no needless zeros, that is off by at most half a
    unit of the 16th decimal. *)
Theorem C16_text (v : B64 L) : is_finite v = true -> B2R (n_dec 1 (-16) : B64 L) < Rabs (B2R v) < 10 ^ 16 ->
  exists s x k, n_tostr v = ((if n_ltb v (n_ofZ 0) then "-" else "") ++ s)%string /\
    decimal s x k /\ (k <= 16)%nat /\ tidy s /\ Rabs (x - Rabs (B2R v)) <= / 2 * / 10 ^ 16.
Proof.
  intros Hf Hr. destruct (tostr_ok v (conj Hf Hr)) as (s & x & k & A & B & C & E & F & _).
  exists s, x, k. auto.
Qed.

(** A plain decimal numeral is read as the nearest double. *)
Theorem C16_read s x k : decimal s x k -> x = 0 \/ bpow radix2 (-1022) <= x <= bpow radix2 1023 ->
  exists r : B64 L, number_word s r /\ is_finite r = true /\
    B2R r = round radix2 (FLT_exp (-1074) 53) ZnearestE x.
Proof. intros H Hx. destruct (stod_ok s x k H Hx) as (r & A & B & C & _). exists r. auto. Qed.

Lemma half_plain (v : b64) : is_finite v = true -> / 2 <= Rabs (B2R v) < 10 ^ 16 -> plain_range v.
Proof.
  intros Hf [H1 H2]. split; [exact Hf|]. split; [|exact H2].
  rewrite B2R_SF. assert (B2SF (b_dec false 1 (-16)) = SpecFloat.S754_finite false 8112963841460668 (-106)) as -> by (vm_compute; reflexivity).
  unfold SF2R, F2R. cbn [SpecFloat.cond_Zopp Fnum Fexp].
  change (bpow radix2 (-106)) with (/ IZR (2 ^ 106)).
  apply Rlt_le_trans with (2 := H1).
  apply Rmult_lt_reg_r with (IZR (2 ^ 106)); [apply IZR_lt; reflexivity|].
  rewrite Rmult_assoc, Rinv_l by (apply Rgt_not_eq, IZR_lt; reflexivity). rewrite Rmult_1_r.
  apply Rmult_lt_reg_l with 2; [lra|]. rewrite <- Rmult_assoc, Rinv_r by lra. rewrite Rmult_1_l, <- mult_IZR.
  apply IZR_lt. reflexivity.
Qed.

(** Reading the text back gives exactly the number, for 1/2 <= |v| < 1e16. *)
Theorem C16_exact (v : B64 L) : is_finite v = true -> / 2 <= Rabs (B2R v) < 10 ^ 16 ->
  exists s, n_tostr v = ((if n_ltb v (n_ofZ 0) then "-" else "") ++ s)%string /\ number_word s (n_abs v).
Proof.
  intros Hf Hr. destruct (tostr_ok v (half_plain v Hf Hr)) as (s & x & k & A & B & _ & _ & C & E).
  exists s. split; [exact A|]. exact (roundtrip v s x k Hf Hr B C E).
Qed.

Lemma digit_not c : digit c -> ~ space c /\ ~ symbol c.
Proof.
  intros H. split; intros Hs.
  - unfold digit in H. unfold space in Hs. cbn [In] in Hs. lia.
  - unfold symbol in Hs. cbn [In] in Hs. unfold digit in H.
    repeat destruct Hs as [<-|Hs]; try (cbn in H; lia).
Qed.
Lemma dot_not : ~ space "." /\ ~ symbol ".".
Proof.
  split; intros Hs.
  - unfold space in Hs. cbn in Hs. lia.
  - unfold symbol in Hs. cbn [In] in Hs. repeat destruct Hs as [Hs|Hs]; try discriminate; contradiction.
Qed.
Lemma all_impl (P Q : ascii -> Prop) s : (forall c, P c -> Q c) -> all_chars P s -> all_chars Q s.
Proof. intros H. induction s; cbn; intuition. Qed.

Lemma decimal_word s x k (v : B64 L) : decimal s x k -> number_word s v -> lexeme (K:=B64 L) fnv1a (SNum v) s.
Proof.
  intros H Hv. constructor; auto.
  - destruct H as [s Hs _|s t Hs _ _ _]; [exact Hs|]. destruct s; discriminate || congruence.
  - destruct H as [s Hs Hd|s t Hs Ht Hd Hdt].
    + apply (all_impl digit); auto. apply digit_not.
    + apply all_app. split; [apply (all_impl digit); auto; apply digit_not|]. split; [apply dot_not|].
      apply (all_impl digit); auto. apply digit_not.
Qed.

(** ** C14: reading back what ToString writes *)

(** How literals are written. *)
Lemma written_exact (v : B64 L) : is_finite v = true -> / 2 <= Rabs (B2R v) < 10 ^ 16 -> written_as v (n_abs v).
Proof.
  intros Hf Hr. destruct (tostr_ok v (half_plain v Hf Hr)) as (s & x & k & A & B & _ & _ & C & E).
  exists s. split; [apply (decimal_word s x k); auto; exact (roundtrip v s x k Hf Hr B C E)|].
  transitivity ((if Bltb v (b_ofZ 0) then "-" else "") ++ s)%string; [exact A|].
  change (n_ltb v (n_ofZ 0)) with (Bltb v (b_ofZ 0)). destruct (Bltb v (b_ofZ 0)); reflexivity.
Qed.
Lemma dec_0 : decimal "0" 0 0.
Proof. apply (dec_int "0"); [discriminate|]. split; [|exact I]. unfold digit. cbn. lia. Qed.
Lemma written_zero s : written_as (K:=B64 L) (B754_zero s : b64) (B754_zero false : b64).
Proof.
  exists "0". split; [|destruct s; reflexivity]. apply (decimal_word "0" 0 0); [exact dec_0|].
  destruct (stod_ok "0" 0 0 dec_0 (or_introl eq_refl)) as (r & E & _ & _ & Hr). rewrite (Hr eq_refl) in E. exact E.
Qed.

(** Literals that survive exactly, variables that can only be variables, and functions other
    than asin, acos, atan. *)
Fixpoint printable (e : expr (B64 L)) : Prop :=
  match e with
  | ENum v => is_finite v = true /\ (B2R v = 0 \/ / 2 <= Rabs (B2R v) < 10 ^ 16)
  | EVar x => identifier x /\ (forall v : B64 L, ~ number_word x v) /\
              (forall u name, fun_name u = Some name -> fnv1a x <> fnv1a name)
  | EUn u a => u <> UAsin /\ u <> UAcos /\ u <> UAtan /\ printable a
  | EBin _ a c => printable a /\ printable c
  end.

Lemma fun_legible u : u <> UAsin -> u <> UAcos -> u <> UAtan ->
  is_signop u = true \/ fun_name u = Some (un_text u) /\ lexeme (K:=B64 L) fnv1a (SFun u) (un_text u).
Proof. intros H1 H2 H3. destruct u; try congruence; auto; right; (split; [reflexivity|now apply fun_lexeme]). Qed.

Lemma printable_legible e : printable e -> legible (n_abs (n:=B64 L)) e.
Proof.
  induction e as [v|x|u a IH|b a IHa c IHc]; cbn [printable legible].
  - intros [Hf [Hz|Hr]]; [|now apply written_exact].
    destruct v as [s|s| |s m e H]; try discriminate.
    + apply written_zero.
    + exfalso. cbn [B2R] in Hz. apply eq_0_F2R in Hz. cbn in Hz. destruct s; discriminate.
  - intros (H1 & H2 & H3). now constructor.
  - intros (H1 & H2 & H3 & H4). split; [now apply fun_legible|auto].
  - intros [H1 H2]. split; auto.
Qed.

(** ToString followed by Parse gives the expression back, up to writing negative literals with
    a unary minus and associating chains of + - and of * / to the left. *)
Theorem C14_roundtrip (e : expr (B64 L)) : printable e ->
  exists s, ToString (embed e) = Ok s /\ Parse s = Ok (embed (reread n_abs e)).
Proof. intros H. apply ToString_Parse. now apply printable_legible. Qed.

(** Expressions without negative literals and without right-nested chains come back unchanged. *)
Theorem C14_identity (e : expr (B64 L)) : printable e -> left_nested e -> all_nums (K:=B64 L) (fun v : b64 => Bsign v = false) e ->
  exists s, ToString (embed e) = Ok s /\ Parse s = Ok (embed e).
Proof.
  intros H Hl Hn. destruct (C14_roundtrip e H) as (s & A & B). exists s. split; [exact A|].
  rewrite B. do 2 f_equal. apply reread_same; auto.
  clear - Hn H. induction e as [v|x|u a IH|b a IHa c IHc]; cbn [all_nums printable] in *; auto; try tauto.
  destruct v; cbn in *; subst; try reflexivity.
Qed.

(** *** All literals the printer writes without exponent *)
Definition reading (v : B64 L) : B64 L :=
  match v : b64 with
  | B754_zero _ => (B754_zero false : b64)
  | _ => match b_stod (b_tostr (Babs v)) with Some (r, _) => r | None => v end
  end.

Lemma tostr_abs (v : b64) : (match v with B754_nan => False | B754_zero _ => False | _ => True end) ->
  b_tostr v = ((if Bltb v (b_ofZ 0) then "-" else "") ++ b_tostr (Babs v))%string.
Proof.
  destruct v as [s|s| |s m e H]; try contradiction; intros _.
  - destruct s; reflexivity.
  - assert (Hneg : Bltb (B754_finite s m e H : b64) (b_ofZ 0) = s).
    { rewrite Bltb_correct by reflexivity. change (B2R (b_ofZ 0)) with 0.
      cbn [B2R]. destruct s; cbn [SpecFloat.cond_Zopp].
      - apply Rlt_bool_true. now apply F2R_lt_0.
      - apply Rlt_bool_false. apply F2R_ge_0. cbn. lia. }
    rewrite Hneg. destruct s; [|reflexivity].
    unfold b_tostr, Babs. destruct (frac_of m e) as [num den].
    match goal with |- context [if ?c then fmt_e _ _ _ else _] => destruct c end.
    + unfold fmt_e. destruct (if (_ =? _)%Z then _ else _). reflexivity.
    + reflexivity.
Qed.

(** Within 1e-16 .. 1e16 a literal is read back as a number that is off by at most one unit of the
    16th decimal plus the rounding error of a double. *)
Lemma written_plain (v : B64 L) : is_finite v = true -> B2R (n_dec 1 (-16) : B64 L) < Rabs (B2R v) < 10 ^ 16 ->
  written_as v (reading v) /\ is_finite (reading v) = true /\
  Rabs (B2R (reading v) - Rabs (B2R v)) <= bpow radix2 (-53) * Rabs (B2R v) + / 10 ^ 16.
Proof.
  intros Hf Hr. destruct (tostr_ok v (conj Hf Hr)) as (s & x & k & A & B & _ & _ & C & (n & E)).
  assert (Hv : match v : b64 with B754_nan => False | B754_zero _ => False | _ => True end).
  { destruct Hr as [Hr _]. pose proof b_1em16 as [_ Hp]. pose proof (Rinv_0_lt_compat _ (pow10_pos 17)).
    change (n_dec 1 (-16) : B64 L) with (b_dec false 1 (-16)) in Hr.
    destruct v; try exact I; try discriminate Hf. cbn [B2R] in Hr. rewrite Rabs_R0 in Hr. lra. }
  assert (Es : b_tostr (Babs v) = s).
  { pose proof (tostr_abs v Hv) as T. rewrite A in T. destruct (Bltb v (b_ofZ 0)); cbn in T; [now injection T|now symmetry]. }
  assert (Hsmall : / 10 ^ 17 = / 10 * / 10 ^ 16) by (simpl; field).
  pose proof (Rinv_0_lt_compat _ (pow10_pos 16)) as P16.
  assert (Hx1 : 0 < IZR n).
  { destruct Hr as [Hr _]. pose proof b_1em16 as [_ Hp]. change (n_dec 1 (-16) : B64 L) with (b_dec false 1 (-16)) in Hr.
    assert (E1 : b_dec false 1 (-16) = b_dec false 1 (-16)) by reflexivity.
    assert (Hp' : 9 * / 10 ^ 17 < B2R (b_dec false 1 (-16))).
    { rewrite B2R_SF. assert (B2SF (b_dec false 1 (-16)) = SpecFloat.S754_finite false 8112963841460668 (-106)) as -> by (vm_compute; reflexivity).
      unfold SF2R, F2R. cbn [SpecFloat.cond_Zopp Fnum Fexp].
      change (bpow radix2 (-106)) with (/ IZR (2 ^ 106)).
      apply Rmult_lt_reg_r with (IZR (2 ^ 106)); [apply IZR_lt; reflexivity|].
      rewrite (Rmult_assoc (IZR _) (/ IZR (2 ^ 106))), Rinv_l by (apply Rgt_not_eq, IZR_lt; reflexivity). rewrite Rmult_1_r.
      apply Rmult_lt_reg_l with (10 ^ 17); [apply pow10_pos|].
      replace (10 ^ 17 * (9 * / 10 ^ 17 * IZR (2 ^ 106))) with (9 * IZR (2 ^ 106)) by (field; apply Rgt_not_eq, pow10_pos).
      change 17%nat with (Z.to_nat 17). rewrite <- pow10_IZR by lia. rewrite <- !mult_IZR. apply IZR_lt. reflexivity. }
    apply Rabs_le_inv in C. assert (0 < x) by lra. rewrite E in H. apply Rmult_lt_reg_r with (/ 10 ^ 16); [exact P16|]. rewrite Rmult_0_l. exact H. }
  assert (Hx2 : / 10 ^ 16 <= x).
  { rewrite E. rewrite <- (Rmult_1_l (/ 10 ^ 16)) at 1. apply Rmult_le_compat_r; [lra|].
    apply (IZR_lt 0) in Hx1 || apply lt_IZR in Hx1. apply IZR_le. lia. }
  assert (Hlo : bpow radix2 (-1022) <= x).
  { apply Rle_trans with (2 := Hx2). apply Rle_trans with (bpow radix2 (-54)); [apply bpow_le; lia|].
    change (bpow radix2 (-54)) with (/ IZR (2 ^ 54)). apply Rinv_le_contravar; [apply pow10_pos|].
    change 16%nat with (Z.to_nat 16). rewrite <- pow10_IZR by lia. apply IZR_le. vm_compute. discriminate. }
  assert (Hhi : x <= bpow radix2 1023).
  { apply Rabs_le_inv in C. apply Rle_trans with (10 ^ 16 + 1).
    - assert (/ 10 ^ 16 < 1) by (rewrite <- Rinv_1; apply Rinv_lt_contravar; [pose proof (pow10_pos 16); lra|simpl; lra]). lra.
    - apply Rle_trans with (bpow radix2 54); [|apply bpow_le; lia].
      change (bpow radix2 54) with (IZR (2 ^ 54)). change 16%nat with (Z.to_nat 16). rewrite <- pow10_IZR by lia.
      rewrite <- plus_IZR. apply IZR_le. vm_compute. discriminate. }
  destruct (stod_ok s x k B (or_intror (conj Hlo Hhi))) as (r & S1 & S2 & S3 & _).
  assert (Hrd : reading v = r).
  { unfold reading. destruct v; try contradiction; try discriminate Hf; rewrite Es, S1; reflexivity. }
  rewrite Hrd. split; [|split; [exact S2|]].
  - exists s. split; [now apply (decimal_word s x k)|]. 
    transitivity ((if Bltb v (b_ofZ 0) then "-" else "") ++ s)%string; [exact A|].
    change (n_ltb v (n_ofZ 0)) with (Bltb v (b_ofZ 0)). destruct (Bltb v (b_ofZ 0)); reflexivity.
  - rewrite S3. unfold rne.
    pose proof (error_le_half_ulp radix2 (SpecFloat.fexp 53 1024) (fun t => negb (Z.even t)) x) as Hu.
    assert (Hul : ulp radix2 (FLT_exp (-1074) 53) x <= Rabs x * bpow radix2 (1 - 53)).
    { apply ulp_FLT_le. rewrite Rabs_pos_eq by lra. exact Hlo. }
    change (FLT_exp (-1074) 53) with (SpecFloat.fexp 53 1024) in Hul.
    change (1 - 53)%Z with (-52)%Z in Hul. change (-53)%Z with (-1 + -52)%Z. rewrite bpow_plus. change (bpow radix2 (-1)) with (/ 2).
    rewrite (Rabs_pos_eq x) in Hul by lra.
    assert (Hb : 0 < bpow radix2 (-52) <= / 2).
    { split; [apply bpow_gt_0|]. change (/ 2) with (bpow radix2 (-1)). apply bpow_le. lia. }
    apply Rabs_le_inv in C. apply Rabs_le_inv in Hu. set (y := round _ _ _ x) in *. set (w := Rabs (B2R v)) in *.
    set (bb := bpow radix2 (-52)) in *. apply Rabs_le.
    assert (bb * x <= bb * w + / 2 * (/ 2 * / 10 ^ 16)).
    { apply Rle_trans with (bb * (w + / 2 * / 10 ^ 16)); [apply Rmult_le_compat_l; lra|].
      rewrite Rmult_plus_distr_l. apply Rplus_le_compat_l. apply Rmult_le_compat_r; lra. }
    split; lra.
Qed.

Lemma written_special (v : b64) : v = B754_nan \/ (exists s, v = B754_infinity s) ->
  written_as (K:=B64 L) v (match v with B754_nan => B754_nan | _ => B754_infinity false end : b64).
Proof.
  assert (W : forall w (r : B64 L), w = "inf" \/ w = "nan" -> number_word w r -> lexeme (K:=B64 L) fnv1a (SNum r) w).
  { intros w r Hw Hn. constructor; auto; [destruct Hw as [-> | ->]; discriminate|].
    destruct Hw as [-> | ->]; cbn [all_chars]; repeat split; intros Hs;
    try (unfold space in Hs; cbn in Hs; lia); unfold symbol in Hs; cbn [In] in Hs; repeat destruct Hs as [Hs|Hs]; try discriminate; contradiction. }
  intros [->|[s ->]].
  - exists "nan". split; [apply W; auto; reflexivity|reflexivity].
  - exists "inf". split; [apply W; auto; reflexivity|]. destruct s; reflexivity.
Qed.

(** As [printable], but literals may be any number written without exponent, or inf/nan. *)
Fixpoint exponent_free (e : expr (B64 L)) : Prop :=
  match e with
  | ENum v => is_finite v = true -> B2R v = 0 \/ B2R (n_dec 1 (-16) : B64 L) < Rabs (B2R v) < 10 ^ 16
  | EVar x => identifier x /\ (forall v : B64 L, ~ number_word x v) /\
              (forall u name, fun_name u = Some name -> fnv1a x <> fnv1a name)
  | EUn u a => u <> UAsin /\ u <> UAcos /\ u <> UAtan /\ exponent_free a
  | EBin _ a c => exponent_free a /\ exponent_free c
  end.

Lemma reading_special (v : B64 L) : is_finite v = false -> reading v = (match v : b64 with B754_nan => B754_nan | _ => B754_infinity false end : b64).
Proof. destruct v; try discriminate; intros _; reflexivity. Qed.

Lemma exponent_free_legible e : exponent_free e -> legible reading e.
Proof.
  intros He. induction e as [v|x|u a IH|b a IHa c IHc]; cbn [exponent_free legible] in *.
  - destruct (is_finite v) eqn:Ef.
    + destruct (He eq_refl) as [Hz|Hr]; [|now apply written_plain].
      destruct v as [s|s| |s m e H]; try discriminate; [apply written_zero|].
      exfalso. cbn [B2R] in Hz. apply eq_0_F2R in Hz. cbn in Hz. destruct s; discriminate.
    + rewrite reading_special by auto. apply written_special.
      destruct v; try discriminate; [right; eauto|now left].
  - destruct He as (H1 & H2 & H3). now constructor.
  - destruct He as (H1 & H2 & H3 & H4). split; [now apply fun_legible|auto].
  - destruct He. split; auto.
Qed.

Theorem C14_any_literals : exists rd : B64 L -> B64 L,
  (forall v, is_finite v = true -> B2R v = 0 -> B2R (rd v) = 0) /\
  (forall v, is_finite v = true -> B2R (n_dec 1 (-16) : B64 L) < Rabs (B2R v) < 10 ^ 16 ->
     Rabs (B2R (rd v) - Rabs (B2R v)) <= bpow radix2 (-53) * Rabs (B2R v) + / 10 ^ 16) /\
  forall e, exponent_free e -> exists s, ToString (embed e) = Ok s /\ Parse s = Ok (embed (reread rd e)).
Proof.
  exists reading. split; [|split].
  - intros v Hf Hz. destruct v as [s|s| |s m e H]; try discriminate; [reflexivity|].
    exfalso. cbn [B2R] in Hz. apply eq_0_F2R in Hz. cbn in Hz. destruct s; discriminate.
  - intros v Hf Hr. now apply written_plain.
  - intros e He. apply ToString_Parse. now apply exponent_free_legible.
Qed.

(** *** The value *)
Fixpoint to_real (e : expr (B64 L)) : expr (option R) :=
  match e with
  | ENum v => ENum (Some (B2R v))
  | EVar x => EVar x
  | EUn u a => EUn u (to_real a)
  | EBin b a c => EBin b (to_real a) (to_real c)
  end.

Lemma to_real_attach b a c : to_real (attach b a c) = attach (K:=Rops) b (to_real a) (to_real c).
Proof.
  induction c as [v|x|u c IH|b' c1 IH1 c2 IH2]; destruct b; try reflexivity; destruct b'; try reflexivity;
    cbn [attach to_real]; now rewrite IH1.
Qed.

Lemma rval_attach env b (a c : expr Rops) : rval env (attach (K:=Rops) b a c) = rval env (EBin b a c).
Proof.
  induction c as [v|x|u c IH|b' c1 IH1 c2 IH2]; destruct b; try reflexivity; destruct b'; try reflexivity;
    cbn [attach rval]; rewrite IH1; cbn [rval];
    destruct (rval env a) as [x|], (rval env c1) as [y|], (rval env c2) as [z|]; try reflexivity; cbn [r_bin].
  - f_equal. ring.
  - f_equal. ring.
  - f_equal. ring.
  - destruct (Req_EM_T z 0); [reflexivity|]. f_equal. field. assumption.
Qed.

(** In exact arithmetic the value does not change, wherever it is defined or not. *)
Theorem C14_value env (e : expr (B64 L)) : printable e -> rval env (to_real (reread n_abs e)) = rval env (to_real e).
Proof.
  induction e as [v|x|u a IH|b a IHa c IHc]; cbn [printable reread to_real]; auto.
  - intros [Hf _]. change (n_ltb v (n_ofZ 0)) with (Bltb v (b_ofZ 0)).
    rewrite Bltb_correct by (auto; reflexivity). change (B2R (b_ofZ 0)) with 0.
    destruct (Rlt_bool_spec (B2R v) 0) as [Hl|Hl]; cbn [to_real rval r_un];
    change (n_abs v) with (Babs v : b64); rewrite B2R_Babs; f_equal.
    + rewrite Rabs_left by exact Hl. ring.
    + now apply Rabs_pos_eq.
  - intros (_ & _ & _ & H). cbn [rval]. now rewrite IH.
  - intros [Ha Hc]. rewrite to_real_attach, rval_attach. cbn [rval]. now rewrite IHa, IHc.
Qed.
End C16.

(** ** Concrete cases (binary64) *)
Lemma name_ok x : VarNameIsLegal x = true -> not_number x = true -> collides x = false -> printable tiny_libm (EVar x).
Proof.
  intros H1 H2 H3. pose proof (var_lexeme x H1 H2 H3) as H. inversion H; subst. split; [assumption|]. split; assumption.
Qed.
Lemma lit_ok (v : b64) s m e : B2SF v = SpecFloat.S754_finite s m e ->
  (Z.pow 2 (- e) <=? 2 * Zpos m)%Z && (-53 <=? e)%Z && (e <=? 0)%Z = true -> (/ 2 <= Rabs (B2R v) < 10 ^ 16)%R.
Proof.
  intros E H. apply andb_prop in H as [H He2]. apply andb_prop in H as [H He].
  apply Z.leb_le in H, He, He2. rewrite B2R_SF, E. unfold SF2R.
  rewrite <- F2R_Zabs, abs_cond_Zopp. cbn [Z.abs]. unfold F2R. cbn [Fnum Fexp].
  assert (Hp : (Zpos m < 2 ^ 53)%Z).
  { pose proof (abs_B2R_lt_emax _ _ v) as _. destruct v as [| | |s' m' e' Hb]; try discriminate E. injection E as -> -> ->.
    pose proof Hb as Hb'. unfold SpecFloat.bounded, SpecFloat.canonical_mantissa in Hb'. apply andb_prop in Hb' as [Hc _]. apply Zeq_bool_eq in Hc.
    assert (SpecFloat.digits2_pos m <= 53)%positive.
    { unfold SpecFloat.fexp, SpecFloat.emin in Hc. lia. }
    pose proof (Digits.Zdigits_correct radix2 (Zpos m)) as [_ Hd]. change (Z.abs (Z.pos m)) with (Z.pos m) in Hd.
    rewrite <- Digits.Zpos_digits2_pos in Hd. change (Digits.digits2_pos m) with (SpecFloat.digits2_pos m) in Hd.
    eapply Z.lt_le_trans; [exact Hd|]. apply Z.pow_le_mono_r; [reflexivity|]. lia. }
  assert (Hb : (bpow radix2 e * IZR (2 ^ (- e)) = 1)%R).
  { replace (IZR (2 ^ (- e))) with (bpow radix2 (- e)) by (rewrite <- IZR_Zpower by lia; reflexivity).
    rewrite <- bpow_plus. replace (e + - e)%Z with 0%Z by lia. reflexivity. }
  pose proof (bpow_gt_0 radix2 e) as Hpos. split.
  - apply IZR_le in H. rewrite mult_IZR in H.
    apply Rmult_le_reg_l with 2%R; [lra|]. rewrite Rinv_r by lra. rewrite <- Hb.
    rewrite (Rmult_comm (bpow _ _)). rewrite <- Rmult_assoc. apply Rmult_le_compat_r; [lra|exact H].
  - apply Rle_lt_trans with (IZR (Zpos m) * 1)%R.
    + apply Rmult_le_compat_l; [apply IZR_le; lia|]. change 1%R with (bpow radix2 0). apply bpow_le. exact He2.
    + rewrite Rmult_1_r. change 16 with (Z.to_nat 16). rewrite <- pow10_IZR by lia. apply IZR_lt. lia.
Qed.

(** -1.25*x + (sin(y)-2)^(-3) *)
Definition print_ex : expr D :=
  EBin BAdd (EBin BMul (ENum (b_dec true 125 (-2))) (EVar "x"))
    (EBin BPow (EBin BSub (EUn USin (EVar "y")) (ENum (b_ofZ 2))) (ENum (b_ofZ (-3)))).
Example C14_ex_printable : printable tiny_libm print_ex.
Proof.
  cbn [printable print_ex].
  assert (N : forall v : b64, forall s m e, B2SF v = SpecFloat.S754_finite s m e ->
     (Z.pow 2 (- e) <=? 2 * Zpos m)%Z && (-53 <=? e)%Z && (e <=? 0)%Z = true ->
     is_finite v = true /\ (B2R v = 0 \/ / 2 <= Rabs (B2R v) < 10 ^ 16)%R).
  { intros v s m e E H. split; [destruct v; try discriminate E; reflexivity|right; exact (lit_ok v s m e E H)]. }
  split; [split; [eapply N; [vm_compute; reflexivity|reflexivity]|apply name_ok; vm_compute; reflexivity]|].
  split; [split|].
  - split; [discriminate|]. split; [discriminate|]. split; [discriminate|]. apply name_ok; vm_compute; reflexivity.
  - eapply N; [vm_compute; reflexivity|reflexivity].
  - eapply N; [vm_compute; reflexivity|reflexivity].
Qed.
Example C14_ex_text : ToString (embed print_ex) = Ok "-1.25*x+(sin(y)-2)^-3".
Proof. rewrite C15_to_string. vm_cast_no_check (eq_refl (Ok "-1.25*x+(sin(y)-2)^-3")). Qed.

(** What does not come back. *)
Definition reads {K : num_ops} (s : string) : bool := match Parse (K:=K) s with Ok _ => true | _ => false end.


Theorem C14_inverse_functions : ToString (K:=D) (embed (EUn UAsin (EVar "x"))) = Ok "asin(x)" /\ reads (K:=D) "asin(x)" = false /\
  ToString (K:=D) (embed (EUn UAcos (EVar "x"))) = Ok "acos(x)" /\ reads (K:=D) "acos(x)" = false /\
  ToString (K:=D) (embed (EUn UAtan (EVar "x"))) = Ok "atan(x)" /\ reads (K:=D) "atan(x)" = false.
Proof.
  rewrite !C15_to_string. split; [reflexivity|]. split; [vm_cast_no_check (eq_refl false)|].
  split; [reflexivity|]. split; [vm_cast_no_check (eq_refl false)|].
  split; [reflexivity|]. vm_cast_no_check (eq_refl false).
Qed.

(** Numbers written with an exponent cannot be read: its sign is taken for an operator. *)
Theorem C14_exponents : ToString (K:=D) (embed (K:=D) (ENum (b_dec false 1 (-300)))) = Ok "1e-300" /\ reads (K:=D) "1e-300" = false /\
  ToString (K:=D) (embed (K:=D) (ENum (b_dec false 1 17))) = Ok "1e+17" /\ reads (K:=D) "1e+17" = false.
Proof.
  rewrite !C15_to_string.
  split; [vm_cast_no_check (eq_refl (@Ok string "1e-300"))|]. split; [vm_cast_no_check (eq_refl false)|].
  split; [vm_cast_no_check (eq_refl (@Ok string "1e+17"))|]. vm_cast_no_check (eq_refl false).
Qed.

(** 0.1 + 0.2 is written as 0.3, which is another double. *)
Theorem C14_sixteen_decimals : exists v : D, n_tostr v = "0.3" /\ exists r : D, number_word "0.3" r /\ (B2R r < B2R v)%R.
Proof.
  exists (Bplus mode_NE (b_dec false 1 (-1)) (b_dec false 2 (-1))). split; [vm_compute; reflexivity|].
  exists (b_dec false 3 (-1)). split; [reflexivity|].
  assert (F1 : is_finite (b_dec false 3 (-1)) = true) by (vm_compute; reflexivity).
  assert (F2 : is_finite (Bplus mode_NE (b_dec false 1 (-1)) (b_dec false 2 (-1))) = true) by (vm_compute; reflexivity).
  pose proof (Bltb_correct _ _ _ _ F1 F2) as H.
  assert (E : Bltb (b_dec false 3 (-1)) (Bplus mode_NE (b_dec false 1 (-1)) (b_dec false 2 (-1))) = true) by (vm_compute; reflexivity).
  rewrite E in H. symmetry in H. revert H. destruct (Rlt_bool_spec (B2R (b_dec false 3 (-1))) (B2R (Bplus mode_NE (b_dec false 1 (-1)) (b_dec false 2 (-1))))); [auto|discriminate].
Qed.

(** In binary64, associating to the left can change the value: 2^53+(1+1). *)
Definition assoc_ex : expr D := EBin BAdd (ENum (b_ofZ (2 ^ 53))) (EBin BAdd (ENum (b_ofZ 1)) (ENum (b_ofZ 1))).
Definition value_is (r : res D) (z : Z) : bool := match r with Ok v => Beqb (v : b64) (b_ofZ z) | _ => false end.
Definition reread_vpa (s : string) : res D := bind (Parse (K:=D) s) (Vpa (default_config D)).
Theorem C14_float_value :
  value_is (Vpa (default_config D) (embed assoc_ex)) (2 ^ 53 + 2) = true /\
  ToString (embed assoc_ex) = Ok "9007199254740992+1+1" /\
  value_is (reread_vpa "9007199254740992+1+1") (2 ^ 53) = true.
Proof.
  rewrite C15_to_string.
  split; [vm_cast_no_check (eq_refl true)|]. split; [|vm_cast_no_check (eq_refl true)].
  vm_cast_no_check (eq_refl (@Ok string "9007199254740992+1+1")).
Qed.
