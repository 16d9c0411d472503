(** C71: saving and reloading an expression a second time changes nothing any more. *)
From Coq Require Import String Ascii List ZArith Bool Arith Lia Reals Lra.
From Flocq Require Import IEEE754.BinarySingleNaN Core.
From Verif Require Import Base MathOp IEEE NodeModel ParseModel ToStringModel ExprSpec RealSpec GrammarSpec
  NodeProofs ParseProofs Thm_Parse TextSpec TextProofs NumTextSpec NumText Thm_Text.
Import ListNotations.
Local Open Scope string_scope. Local Open Scope list_scope. Local Open Scope nat_scope.

(** ** Numbers *)
Local Open Scope R_scope.
Definition E16 : R := 10000000000000000.
Lemma E16_pow : 10 ^ 16 = E16. Proof. unfold E16. simpl. lra. Qed.
Lemma E16_pos : 0 < E16. Proof. unfold E16. lra. Qed.
Definition fmt_n (n : Z) : string := fmt_pos n (10 ^ 16).

Lemma rhe_self n : rhe (n * 10 ^ 16) (10 ^ 16) = n.
Proof.
  unfold rhe. rewrite Z.mod_mul, Z.div_mul by discriminate. reflexivity.
Qed.

Lemma rhe_unique num den n : (0 <= num)%Z -> (0 < den)%Z -> Rabs (IZR n - IZR num / IZR den) < / 2 -> rhe num den = n.
Proof.
  intros Hn Hd H. pose proof (rhe_R num den Hn Hd) as H2.
  apply Rabs_le_inv in H2. apply Rabs_lt_inv in H.
  assert (Hl : IZR (rhe num den) - IZR n < 1) by lra. assert (Hg : IZR n - IZR (rhe num den) < 1) by lra.
  rewrite <- minus_IZR in Hl, Hg. apply lt_IZR in Hl, Hg. lia.
Qed.

Lemma fmt_pos_n num den : fmt_pos num den = fmt_n (rhe (num * 10 ^ 16) den).
Proof. unfold fmt_n, fmt_pos, fmt_f. now rewrite rhe_self. Qed.

(** The text of a positive number in the plain range depends only on its nearest multiple of
    1e-16. *)
Lemma tostr_frac (v : b64) : plain_range v -> exists num den, (0 < num)%Z /\ (0 < den)%Z /\
  IZR num / IZR den = Rabs (B2R v) /\ b_tostr (Babs v) = fmt_pos num den.
Proof.
  intros (Hf & Hlo & Hhi). destruct b_1em16 as [F1 V1]. destruct b_1e16 as [V2 F2].
  destruct v as [s|s| |s m e Hb]; [ |discriminate Hf|discriminate Hf| ].
  { cbn [B2R] in Hlo. rewrite Rabs_R0 in Hlo. pose proof (Rinv_0_lt_compat _ (pow10_pos 17)). lra. }
  set (v := B754_finite s m e Hb : b64) in *.
  assert (Habs : Rabs (B2R v) = F2R (beta:=radix2) {| Fnum := Zpos m; Fexp := e |}).
  { unfold v. cbn [B2R]. rewrite <- F2R_Zabs. f_equal. f_equal. now destruct s. }
  pose proof (frac_of_ok m e) as Hq. rewrite <- Habs in Hq.
  assert (Et : b_tostr (Babs v) = let '(num, den) := frac_of m e in fmt_pos num den).
  { unfold b_tostr. change (Babs v) with (B754_finite false m e Hb : b64). cbv iota.
    change (B754_finite false m e Hb : b64) with (Babs v).
    assert (Bleb (b_ofZ (10 ^ 16)) (Babs (Babs v)) = false) as ->.
    { rewrite Bleb_correct by (try exact F2; reflexivity). rewrite V2, !B2R_Babs, Rabs_Rabsolu. now apply Rle_bool_false. }
    assert (Bleb (Babs (Babs v)) (b_dec false 1 (-16)) = false) as ->.
    { rewrite Bleb_correct by (try exact F1; reflexivity). rewrite !B2R_Babs, Rabs_Rabsolu. now apply Rle_bool_false. }
    cbn [orb]. destruct (frac_of m e). reflexivity. }
  destruct (frac_of m e) as [num den]. destruct Hq as (Hn & Hd & Hq). exists num, den. auto.
Qed.

Lemma tostr_n (v : b64) : plain_range v -> exists n, Rabs (IZR n - Rabs (B2R v) * E16) <= / 2 /\ b_tostr (Babs v) = fmt_n n.
Proof.
  intros H. destruct (tostr_frac v H) as (num & den & Hn & Hd & Hq & Ht).
  exists (rhe (num * 10 ^ 16) den). split; [|now rewrite Ht, fmt_pos_n].
  pose proof (rhe_R (num * 10 ^ 16) den ltac:(lia) Hd) as Hr. rewrite mult_IZR in Hr.
  change (IZR (10 ^ 16)) with E16 in Hr. rewrite <- Hq.
  replace (IZR num / IZR den * E16) with (IZR num * E16 / IZR den); [exact Hr|].
  apply IZR_lt in Hd. field. lra.
Qed.

Lemma tostr_n_unique (v : b64) n : plain_range v -> Rabs (IZR n - Rabs (B2R v) * E16) < / 2 -> b_tostr (Babs v) = fmt_n n.
Proof.
  intros H Hn'. destruct (tostr_frac v H) as (num & den & Hn & Hd & Hq & Ht).
  rewrite Ht, fmt_pos_n. f_equal. apply rhe_unique; [lia|exact Hd|].
  rewrite mult_IZR. change (IZR (10 ^ 16)) with E16. rewrite <- Hq in Hn'.
  replace (IZR num * E16 / IZR den) with (IZR num / IZR den * E16); [exact Hn'|].
  apply IZR_lt in Hd. field. lra.
Qed.

Lemma fmt_n_decimal n : (0 <= n)%Z -> (n < 10 ^ 32)%Z -> exists k, decimal (fmt_n n) (IZR n / E16) k.
Proof.
  intros H1 H2. destruct (fmt_pos_ok n (10 ^ 16) H1 eq_refl) as (k & D & _).
  { change (10 ^ 16 * 10 ^ 16)%Z with (10 ^ 32)%Z. exact H2. }
  exists k. rewrite rhe_self in D. rewrite E16_pow in D. exact D.
Qed.

(** The double nearest to 1e-16. *)
Lemma em16_val : B2R (b_dec false 1 (-16)) = 8112963841460668 * / IZR (2 ^ 106).
Proof.
  rewrite B2R_SF. assert (B2SF (b_dec false 1 (-16)) = SpecFloat.S754_finite false 8112963841460668 (-106)) as -> by (vm_compute; reflexivity).
  unfold SF2R, F2R. cbn [SpecFloat.cond_Zopp Fnum Fexp]. reflexivity.
Qed.
Lemma em16_bounds : 9 / 10 < B2R (b_dec false 1 (-16)) * E16 < 11 / 10.
Proof.
  rewrite em16_val. unfold E16. change (2 ^ 106)%Z with 81129638414606681695789005144064%Z. lra.
Qed.

Section Reading.
Variable L : libm.

(** Literals that survive any number of round trips: 0, infinities, NaN, and magnitudes between
    1.5e-16 and 1e16. *)
Definition lasting (v : b64) : Prop :=
  is_finite v = true -> B2R v = 0 \/ 3 / 2 * / 10 ^ 16 < Rabs (B2R v) < 10 ^ 16.

Lemma inv_pow : / 10 ^ 16 = / E16. Proof. now rewrite E16_pow. Qed.

Lemma lasting_plain (v : b64) : is_finite v = true -> 3 / 2 * / 10 ^ 16 < Rabs (B2R v) < 10 ^ 16 -> plain_range v.
Proof.
  intros Hf [H1 H2]. split; [exact Hf|]. split; [|exact H2].
  apply Rlt_trans with (2 := H1). rewrite inv_pow. destruct em16_bounds as [_ H].
  apply Rmult_lt_reg_r with E16; [exact E16_pos|].
  rewrite Rmult_assoc, Rinv_l by (pose proof E16_pos; lra). lra.
Qed.

Lemma rne_half_ulp x : 0 <= x < / 2 -> Rabs (rne x - x) <= bpow radix2 (-55).
Proof.
  intros [H0 H].
  pose proof (error_le_half_ulp radix2 (SpecFloat.fexp 53 1024) (fun t => negb (Z.even t)) x) as Hu.
  apply Rle_trans with (1 := Hu). change (-55)%Z with (-1 + -54)%Z. rewrite bpow_plus. change (bpow radix2 (-1)) with (/ 2).
  apply Rmult_le_compat_l; [lra|].
  destruct (Req_dec x 0) as [->|Hz].
  - change (SpecFloat.fexp 53 1024) with (FLT_exp (-1074) 53). rewrite ulp_FLT_0 by reflexivity. apply bpow_le. lia.
  - rewrite ulp_neq_0 by exact Hz. apply bpow_le. unfold cexp, SpecFloat.fexp, SpecFloat.emin.
    assert (mag radix2 x <= -1)%Z.
    { apply mag_le_bpow; [exact Hz|]. rewrite Rabs_pos_eq by exact H0. exact H. }
    lia.
Qed.

Lemma abs_pos (q : b64) : is_finite q = true -> Bsign q = false -> Babs q = q.
Proof. destruct q as [s|s| |s m e H]; intros F S; try discriminate F; cbn [Bsign] in S; subst s; reflexivity. Qed.

Lemma rne_half : rne (/ 2) = / 2.
Proof. change (/ 2) with (bpow radix2 (-1)). apply rne_bpow. lia. Qed.

(** Reading the text of a lasting number gives a number with the same text. *)
Lemma reading_plain (v : b64) : is_finite v = true -> 3 / 2 * / 10 ^ 16 < Rabs (B2R v) < 10 ^ 16 ->
  let r : b64 := reading L v in
  is_finite r = true /\ Bsign r = false /\ 3 / 2 * / 10 ^ 16 < B2R r < 10 ^ 16 /\ b_tostr r = b_tostr (Babs v).
Proof.
  intros Hf Hv r. pose proof (lasting_plain v Hf Hv) as Hp.
  assert (Hnz : match v with B754_nan => False | B754_zero _ => False | _ => True end).
  { destruct v; try exact Logic.I; try discriminate Hf. destruct Hv as [Hv _]. cbn [B2R] in Hv. rewrite Rabs_R0 in Hv.
    pose proof (Rinv_0_lt_compat _ (pow10_pos 16)). lra. }
  assert (Hrd : forall q n, b_stod (b_tostr (Babs v)) = Some (q, n) -> r = q).
  { intros q n E. unfold r, reading. destruct v; try contradiction; try discriminate Hf; now rewrite E. }
  destruct (Rle_lt_dec (/ 2) (Rabs (B2R v))) as [Hbig|Hsmall].
  - assert (Es : b_stod (b_tostr (Babs v)) = Some (Babs v, String.length (b_tostr (Babs v)))).
    { destruct (tostr_ok v Hp) as (s & x & k & A & B & _ & _ & C & E).
      assert (b_tostr (Babs v) = s) as ->.
      { pose proof (tostr_abs v Hnz) as T. rewrite A in T. destruct (Bltb v (b_ofZ 0)); cbn in T; [now injection T|now symmetry]. }
      exact (roundtrip v s x k Hf (conj Hbig (proj2 Hv)) B C E). }
    rewrite (Hrd _ _ Es). split; [now destruct v|]. split; [now destruct v|]. split; [now rewrite B2R_Babs|reflexivity].
  - destruct (tostr_n v Hp) as (n & Hn & Ht). pose proof E16_pos as P.
    set (w := Rabs (B2R v)) in *. destruct Hv as [Hlo _]. rewrite inv_pow in Hlo.
    assert (Hlo' : 3 / 2 < w * E16).
    { apply Rmult_lt_compat_r with (r := E16) in Hlo; [|exact P]. rewrite Rmult_assoc, Rinv_l in Hlo by lra. lra. }
    assert (Hhi' : w * E16 < E16 / 2) by (apply Rmult_lt_compat_r with (r := E16) in Hsmall; lra).
    apply Rabs_le_inv in Hn.
    assert (N2 : (2 <= n)%Z) by (assert (1 < n)%Z by (apply lt_IZR; lra); lia).
    assert (N5 : (n <= 5000000000000000)%Z).
    { assert (n < 5000000000000001)%Z; [|lia]. apply lt_IZR. unfold E16 in Hhi', Hn. lra. }
    destruct (fmt_n_decimal n ltac:(lia) ltac:(lia)) as (k & Hd).
    apply IZR_le in N2, N5. set (x := IZR n / E16) in *.
    assert (Xe : x * E16 = IZR n) by (unfold x; field; lra).
    assert (X1 : 2 / E16 <= x).
    { unfold x, Rdiv. apply Rmult_le_compat_r; [left; now apply Rinv_0_lt_compat|exact N2]. }
    assert (X2 : x <= / 2).
    { apply Rmult_le_reg_r with E16; [exact P|]. rewrite Xe. unfold E16. lra. }
    assert (Hlow : bpow radix2 (-1022) <= x).
    { apply Rle_trans with (2 := X1). apply Rle_trans with (bpow radix2 (-53)); [apply bpow_le; lia|].
      change (bpow radix2 (-53)) with (/ IZR (2 ^ 53)). change (2 ^ 53)%Z with 9007199254740992%Z. unfold E16. lra. }
    destruct (stod_ok (fmt_n n) x k Hd) as (q & S1 & S2 & S3 & _).
    { right. split; [exact Hlow|]. apply Rle_trans with (1 := X2). change (/ 2) with (bpow radix2 (-1)). apply bpow_le. lia. }
    rewrite <- Ht in S1. assert (Rq : r = q) by exact (Hrd _ _ S1). rewrite Rq.
    assert (Herr : Rabs (B2R q - x) <= bpow radix2 (-55)).
    { rewrite S3. destruct (Rle_lt_or_eq_dec _ _ X2) as [X2'|X2'].
      - apply rne_half_ulp. split; [|exact X2']. apply Rle_trans with (2 := Hlow). apply bpow_ge_0.
      - rewrite X2', rne_half. replace (/ 2 - / 2) with 0 by ring. rewrite Rabs_R0. apply bpow_ge_0. }
    assert (Hb : bpow radix2 (-55) * E16 < 3 / 10).
    { change (bpow radix2 (-55)) with (/ IZR (2 ^ 55)). change (2 ^ 55)%Z with 36028797018963968%Z. unfold E16. lra. }
    assert (Hq : IZR n - 3 / 10 < B2R q * E16 < IZR n + 3 / 10).
    { apply Rabs_le_inv in Herr. destruct Herr as [He1 He2].
      apply Rmult_le_compat_r with (r := E16) in He1; [|lra]. apply Rmult_le_compat_r with (r := E16) in He2; [|lra].
      rewrite Rmult_minus_distr_r, Xe in He1, He2. lra. }
    assert (Hq2 : 3 / 2 * / 10 ^ 16 < B2R q < 10 ^ 16).
    { rewrite inv_pow, E16_pow. split.
      - apply Rmult_lt_reg_r with E16; [exact P|]. rewrite Rmult_assoc, Rinv_l by lra. lra.
      - apply Rmult_lt_reg_r with E16; [exact P|]. unfold E16 in *. lra. }
    assert (Q0 : 0 < B2R q) by (pose proof (Rinv_0_lt_compat _ (pow10_pos 16)); lra).
    assert (Qa : Rabs (B2R q) = B2R q) by (apply Rabs_pos_eq; lra).
    assert (Hs : Bsign q = false).
    { destruct q as [s| | |s m e Hb']; try discriminate S2; [cbn [B2R] in Q0; lra|]. destruct s; [|reflexivity].
      exfalso. cbn [B2R SpecFloat.cond_Zopp] in Q0. pose proof (F2R_lt_0 radix2 (Float radix2 (Zneg m) e) eq_refl). cbn in H. cbn in Q0. lra. }
    split; [exact S2|]. split; [exact Hs|]. split; [exact Hq2|].
    assert (Eq : Babs q = q) by (revert S2 Hs; apply abs_pos).
    rewrite Ht. rewrite <- Eq. apply tostr_n_unique.
    + apply lasting_plain; [exact S2|]. rewrite Qa. exact Hq2.
    + rewrite Qa. apply Rabs_lt. lra.
Qed.
End Reading.

(** ** Expressions *)
Section Settle.
Variable L : libm.

(** Names of variables that can only be variables, functions other than asin, acos and atan,
    and lasting literals. *)
Fixpoint storable (e : expr (B64 L)) : Prop :=
  match e with
  | ENum v => lasting v
  | EVar x => identifier x /\ (forall v : B64 L, ~ number_word x v) /\
              (forall u name, fun_name u = Some name -> fnv1a x <> fnv1a name)
  | EUn u a => u <> UAsin /\ u <> UAcos /\ u <> UAtan /\ storable a
  | EBin _ a c => storable a /\ storable c
  end.

(** No literal is less than zero. *)
Definition no_negatives (e : expr (B64 L)) : Prop := all_nums (fun v : B64 L => n_ltb v (n_ofZ 0) = false) e.

Notation rd := (reading L).

Lemma storable_free e : storable e -> exponent_free L e.
Proof.
  induction e as [v|x|u a IH|b a IHa c IHc]; cbn [storable exponent_free]; try tauto.
  intros H Hf. destruct (H Hf) as [Hz|Hr]; [now left|right]. exact (proj2 (lasting_plain v Hf Hr)).
Qed.

(** What is read is again lasting, not negative, and read as itself. *)
Lemma reading_settled (v : b64) : lasting v ->
  lasting (rd v) /\ Bltb (rd v : b64) (b_ofZ 0) = false /\ rd (rd v) = rd v /\
  (Bltb v (b_ofZ 0) = false -> b_tostr (rd v) = b_tostr v).
Proof.
  intros H. destruct (is_finite v) eqn:Ef.
  - destruct (H Ef) as [Hz|Hr].
    + assert (exists s, v = B754_zero s) as [s ->].
      { destruct v as [s|s| |s m e Hb]; try discriminate Ef; [eauto|].
        exfalso. cbn [B2R] in Hz. apply eq_0_F2R in Hz. cbn in Hz. destruct s; discriminate. }
      split; [intros _; now left|]. split; [reflexivity|]. split; reflexivity.
    + pose proof (reading_plain L v Ef Hr) as (F & Sg & Hq & Ht).
      set (q := rd v : b64) in *. assert (Qp : 0 < B2R q) by (pose proof (Rinv_0_lt_compat _ (pow10_pos 16)); lra).
      assert (Qa : Babs q = q) by (now apply abs_pos).
      split; [intros _; right; rewrite Rabs_pos_eq by lra; exact Hq|].
      split.
      { rewrite Bltb_correct by (auto; reflexivity). change (B2R (b_ofZ 0)) with 0. apply Rlt_bool_false. lra. }
      assert (Vz : match v with B754_nan => False | B754_zero _ => False | _ => True end).
      { destruct v; try exact Logic.I; try discriminate Ef. destruct Hr as [Hr _]. cbn [B2R] in Hr. rewrite Rabs_R0 in Hr.
        pose proof (Rinv_0_lt_compat _ (pow10_pos 16)). lra. }
      split.
      * assert (E1 : match q with B754_zero _ => False | _ => True end).
        { destruct q; try exact Logic.I. cbn [B2R] in Qp. lra. }
        transitivity (match b_stod (b_tostr (Babs q)) with Some (r, _) => r | None => q end).
        { unfold reading. destruct q; try contradiction; reflexivity. }
        rewrite Qa, Ht. unfold q, reading. destruct v; try contradiction; try discriminate Ef;
          destruct (b_stod _) as [[r k]|]; reflexivity.
      * intros Hneg. rewrite Ht. pose proof (tostr_abs v Vz) as T. rewrite Hneg in T. now symmetry.
  - destruct v as [s|s| |s m e Hb]; try discriminate Ef.
    + split; [intros D; discriminate D|]. split; [reflexivity|]. split; [reflexivity|]. destruct s; [discriminate|reflexivity].
    + split; [intros D; discriminate D|]. split; [reflexivity|]. split; reflexivity.
Qed.

Lemma attach_storable b a c : storable a -> storable c -> storable (attach b a c).
Proof.
  revert a. induction c as [v|x|u c IH|b' c1 IH1 c2 IH2]; intros a Ha Hc; destruct b; try (split; assumption);
    destruct b'; try (split; assumption); destruct Hc as [Hc1 Hc2]; cbn [attach]; split; auto.
Qed.
Lemma reread_storable e : storable e -> storable (reread rd e).
Proof.
  induction e as [v|x|u a IH|b a IHa c IHc]; cbn [storable reread]; auto.
  - intros H. pose proof (reading_settled v H) as (H1 & _). destruct (n_ltb v (n_ofZ 0)); [|exact H1].
    cbn [storable]. repeat (split; [discriminate|]). exact H1.
  - intros (H1 & H2 & H3 & H4). auto.
  - intros [Ha Hc]. apply attach_storable; auto.
Qed.

Lemma attach_nums {K : num_ops} (P : K -> Prop) b a c : all_nums P a -> all_nums P c -> all_nums P (attach b a c).
Proof.
  revert a. induction c as [v|x|u c IH|b' c1 IH1 c2 IH2]; intros a Ha Hc; destruct b; try (split; assumption);
    destruct b'; try (split; assumption); destruct Hc as [Hc1 Hc2]; cbn [attach]; split; auto.
Qed.
Lemma reread_nums e : storable e ->
  all_nums (fun v : B64 L => rd v = v) (reread rd e) /\ no_negatives (reread rd e).
Proof.
  unfold no_negatives. induction e as [v|x|u a IH|b a IHa c IHc]; cbn [storable reread]; auto.
  - intros H. pose proof (reading_settled v H) as (_ & H2 & H3 & _).
    destruct (n_ltb v (n_ofZ 0)); cbn [all_nums]; split; assumption.
  - intros _. split; exact Logic.I.
  - intros (H1 & H2 & H3 & H4). auto.
  - intros [Ha Hc]. destruct (IHa Ha), (IHc Hc). split; apply attach_nums; auto.
Qed.

Lemma attach_nested {K : num_ops} b (a c : expr K) : left_nested a -> left_nested c -> left_nested (attach b a c).
Proof.
  revert a. induction c as [v|x|u c IH|b' c1 IH1 c2 IH2]; intros a Ha Hc; destruct b; cbn [attach]; try (repeat split; assumption);
    destruct b'; try (repeat split; assumption); cbn [left_nested] in Hc; destruct Hc as (Hc1 & Hc2 & Hr);
    first [exact (conj Ha (conj (conj Hc1 (conj Hc2 Hr)) Logic.I))|exact (conj (IH1 a Ha Hc1) (conj Hc2 Hr))].
Qed.
Lemma reread_nested e : storable e -> left_nested (reread rd e).
Proof.
  induction e as [v|x|u a IH|b a IHa c IHc]; cbn [storable reread]; auto.
  - intros H. pose proof (reading_settled v H) as (_ & H2 & _).
    destruct (n_ltb v (n_ofZ 0)); exact H2.
  - intros _. exact Logic.I.
  - intros (H1 & H2 & H3 & H4). cbn [left_nested]. auto.
  - intros [Ha Hc]. apply attach_nested; auto.
Qed.

(** Chains are written alike however they are associated. *)
Lemma text_side {K : num_ops} (e : expr K) : 
  text (Some (BAdd, RightOf)) e = text (Some (BAdd, LeftOf)) e /\ text (Some (BAdd, RightOf)) e = text (Some (BSub, LeftOf)) e /\
  text (Some (BMul, RightOf)) e = text (Some (BMul, LeftOf)) e /\ text (Some (BMul, RightOf)) e = text (Some (BDiv, LeftOf)) e.
Proof. destruct e as [v|x|u a|b a c]; repeat split; destruct b; reflexivity. Qed.
Definition chains (p b : binop) : bool := match p, b with BAdd, BAdd | BAdd, BSub | BMul, BMul | BMul, BDiv => true | _, _ => false end.
Lemma text_shift {K : num_ops} p b (a c1 c2 : expr K) ctx : chains p b = true ->
  text ctx (EBin b (EBin p a c1) c2) = text ctx (EBin p a (EBin b c1 c2)).
Proof.
  intros H. destruct (text_side a) as (A1 & A2 & A3 & A4), (text_side c1) as (C1 & C2 & C3 & C4).
  destruct p, b; try discriminate H; cbn [text]; cbn [parens bin_level Nat.ltb Nat.leb Nat.eqb andb orb in_parens bin_char];
    rewrite <- ?C1, <- ?C2, <- ?C3, <- ?C4; rewrite !str_app_assoc; cbn [append];
    destruct ctx as [[[] []]|]; reflexivity.
Qed.
Lemma text_bin {K : num_ops} b (a a' c c' : expr K) ctx : (forall s, text (Some (b, s)) a = text (Some (b, s)) a') ->
  (forall s, text (Some (b, s)) c = text (Some (b, s)) c') -> text ctx (EBin b a c) = text ctx (EBin b a' c').
Proof. intros Ha Hc. cbn [text]. now rewrite Ha, Hc. Qed.
Lemma text_attach {K : num_ops} b (a c : expr K) : forall ctx, text ctx (attach b a c) = text ctx (EBin b a c).
Proof.
  revert a. induction c as [v|x|u c IH|b' c1 IH1 c2 IH2]; intros a ctx; destruct b; try reflexivity; destruct b'; try reflexivity;
    cbn [attach];
    (rewrite <- text_shift by reflexivity; apply text_bin; [intros s; apply IH1|reflexivity]).
Qed.
Lemma text_same_ctx {K : num_ops} (v v' : K) ctx : n_ltb v (n_ofZ 0) = false -> n_ltb v' (n_ofZ 0) = false -> n_tostr v' = n_tostr v ->
  text ctx (ENum v') = text ctx (ENum v).
Proof. intros H H' E. cbn [text]. rewrite H, H', E. reflexivity. Qed.
Lemma reread_leaf {K : num_ops} (f : K -> K) e : (forall v, e = ENum v -> n_ltb v (n_ofZ 0) = false) -> is_leaf (reread f e) = is_leaf e.
Proof.
  destruct e as [v|x|u a|b a c]; intros H; try reflexivity.
  - cbn [reread]. now rewrite (H v eq_refl).
  - cbn [reread is_leaf]. generalize (reread f a). induction (reread f c) as [w|y|u' c' IH|b' c1 IH1 c2 IH2]; intros a';
      destruct b; try reflexivity; destruct b'; reflexivity.
Qed.
Lemma reread_text e : storable e -> no_negatives e -> forall ctx, text ctx (reread rd e) = text ctx e.
Proof.
  unfold no_negatives. induction e as [v|x|u a IH|b a IHa c IHc]; cbn [storable all_nums]; intros Hs Hn ctx.
  - pose proof (reading_settled v Hs) as (_ & H2 & _ & H4).
    cbn [reread]. rewrite Hn. apply text_same_ctx; [exact Hn|exact H2|exact (H4 Hn)].
  - reflexivity.
  - destruct Hs as (_ & _ & _ & Hs). cbn [reread text]. rewrite (IH Hs Hn).
    rewrite reread_leaf; [reflexivity|]. intros v ->. exact Hn.
  - destruct Hs as [Ha Hc], Hn as [Na Nc]. cbn [reread]. rewrite text_attach.
    apply text_bin; intros s; auto.
Qed.

(** An expression is saved and reloaded; saving and reloading the result gives the same
    expression again. The saved text is the same both times if there is no negative literal. *)
Theorem C71_settles (e : expr (B64 L)) : storable e ->
  exists s (e1 : expr (B64 L)) s1, ToString (embed e) = Ok s /\ Parse s = Ok (embed e1) /\
    ToString (embed e1) = Ok s1 /\ Parse s1 = Ok (embed e1) /\ (no_negatives e -> s1 = s).
Proof.
  intros H. exists (text None e), (reread rd e), (text None (reread rd e)).
  destruct (ToString_Parse rd e (exponent_free_legible L e (storable_free e H))) as (s & A & B).
  rewrite C15_to_string in A. injection A as <-. split; [apply C15_to_string|]. split; [exact B|].
  split; [apply C15_to_string|]. split; [|intros N; now apply reread_text].
  pose proof (reread_storable e H) as H1.
  destruct (ToString_Parse rd _ (exponent_free_legible L _ (storable_free _ H1))) as (s1 & A1 & B1).
  rewrite C15_to_string in A1. injection A1 as <-. rewrite B1.
  rewrite (reread_same rd (reread rd e)); [reflexivity|now apply reread_nested|now apply reread_nums].
Qed.

Lemma finite_nz (v : b64) : is_finite v = true -> 0 < Rabs (B2R v) ->
  match v with B754_nan => False | B754_zero _ => False | _ => True end.
Proof. destruct v; intros Hf H; try exact Logic.I; try discriminate Hf. cbn [B2R] in H. rewrite Rabs_R0 in H. lra. Qed.
Lemma reading_nz (v : b64) : (match v with B754_nan => False | B754_zero _ => False | _ => True end) ->
  (rd v : b64) = match b_stod (b_tostr (Babs v)) with Some (r, _) => r | None => v end.
Proof. destruct v; try contradiction; reflexivity. Qed.
Lemma stod_em16 (v : b64) : match b_stod "0.0000000000000001" with Some (r, _) => r | None => v end = b_dec false 1 (-16).
Proof.
  assert (E : option_map (fun p => B2SF (fst p)) (b_stod "0.0000000000000001") = Some (SpecFloat.S754_finite false 8112963841460668 (-106)))
    by (vm_compute; reflexivity).
  assert (E2 : B2SF (b_dec false 1 (-16)) = SpecFloat.S754_finite false 8112963841460668 (-106)) by (vm_compute; reflexivity).
  destruct (b_stod "0.0000000000000001") as [[r k]|]; [|discriminate E]. cbn [option_map fst] in E.
  apply B2SF_inj. rewrite E2. congruence.
Qed.

(** The range is exact: any other number that the printer writes without exponent becomes
    unreadable after one round trip. *)
Theorem C71_too_small (v : B64 L) : is_finite v = true ->
  B2R (n_dec 1 (-16) : B64 L) < Rabs (B2R v) < 3 / 2 * / 10 ^ 16 ->
  exists s (v1 : B64 L), ToString (embed (ENum v)) = Ok s /\
    Parse s = Ok (embed (if n_ltb v (n_ofZ 0) then EUn UNeg (ENum v1) else ENum v1)) /\
    ToString (embed (ENum v1)) = Ok "9.9999999999999998e-17" /\ reads (K:=B64 L) "9.9999999999999998e-17" = false.
Proof.
  intros Hf Hr.
  assert (P : plain_range v).
  { split; [exact Hf|]. split; [exact (proj1 Hr)|]. apply Rlt_trans with (1 := proj2 Hr). rewrite inv_pow, E16_pow. unfold E16. lra. }
  exists (text None (ENum v)), (rd v). split; [apply C15_to_string|].
  assert (Hfree : exponent_free L (ENum v)) by (intros _; right; exact (proj2 P)).
  destruct (ToString_Parse rd _ (exponent_free_legible L _ Hfree)) as (s & A & B).
  rewrite C15_to_string in A. injection A as <-. split; [exact B|].
  rewrite C15_to_string.
  assert (T : b_tostr (Babs v) = "0.0000000000000001").
  { transitivity (fmt_n 1); [|vm_compute; reflexivity]. apply tostr_n_unique; [exact P|].
    destruct em16_bounds as [Hb _]. pose proof E16_pos as P16. destruct Hr as [R1 R2]. rewrite inv_pow in R2.
    change (n_dec 1 (-16) : B64 L) with (b_dec false 1 (-16)) in R1.
    apply Rmult_lt_compat_r with (r := E16) in R1; [|exact P16]. apply Rmult_lt_compat_r with (r := E16) in R2; [|exact P16].
    rewrite Rmult_assoc, Rinv_l in R2 by lra. apply Rabs_lt. lra. }
  assert (Q : rd v = b_dec false 1 (-16)).
  { assert (Vz : match v : b64 with B754_nan => False | B754_zero _ => False | _ => True end).
    { apply (finite_nz v Hf). destruct em16_bounds as [Hb _]. apply Rlt_trans with (2 := proj1 Hr).
      change (n_dec 1 (-16) : B64 L) with (b_dec false 1 (-16)). apply Rmult_lt_reg_r with E16; [exact E16_pos|]. lra. }
    transitivity (match b_stod (b_tostr (Babs v)) with Some (r, _) => r | None => (v : b64) end).
    { exact (reading_nz v Vz). }
    rewrite T. exact (stod_em16 v). }
  rewrite Q. split; [|vm_cast_no_check (eq_refl false)].
  cbn [text in_parens]. enough (E : b_tostr (b_dec false 1 (-16)) = "9.9999999999999998e-17") by exact (f_equal (@Ok string) E).
  vm_cast_no_check (eq_refl "9.9999999999999998e-17").
Qed.
End Settle.

(** ** A concrete case: 0.1*x+(y-(2-x)) *)
Definition settle_ex : expr D :=
  EBin BAdd (EBin BMul (ENum (b_dec false 1 (-1))) (EVar "x")) (EBin BSub (EVar "y") (EBin BSub (ENum (b_ofZ 2)) (EVar "x"))).
Lemma name_storable x : VarNameIsLegal x = true -> not_number x = true -> collides x = false -> storable tiny_libm (EVar x).
Proof. intros A B C. exact (name_ok x A B C). Qed.
Lemma lasting_lit (v : b64) m e : B2SF v = SpecFloat.S754_finite false m e ->
  3 / 2 * / E16 < IZR (Zpos m) * bpow radix2 e < E16 -> lasting v.
Proof.
  intros E H _. right. rewrite inv_pow, E16_pow. rewrite B2R_SF, E. unfold SF2R, F2R. cbn [SpecFloat.cond_Zopp Fnum Fexp].
  rewrite Rabs_pos_eq; [exact H|]. apply Rmult_le_pos; [apply IZR_le; lia|apply bpow_ge_0].
Qed.
Example C71_ex_storable : storable tiny_libm settle_ex /\ no_negatives tiny_libm settle_ex.
Proof.
  split.
  - unfold settle_ex. cbn [storable]. split; [split|split; [|split]].
    + eapply lasting_lit; [vm_compute; reflexivity|]. change (bpow radix2 (-56)) with (/ 72057594037927936). unfold E16. lra.
    + apply name_storable; vm_compute; reflexivity.
    + apply name_storable; vm_compute; reflexivity.
    + eapply lasting_lit; [vm_compute; reflexivity|]. change (bpow radix2 (-51)) with (/ 2251799813685248). unfold E16. lra.
    + apply name_storable; vm_compute; reflexivity.
  - assert (H : forall v : b64, Bltb v (b_ofZ 0) = false -> all_nums (K:=D) (fun v : D => n_ltb v (n_ofZ 0) = false) (ENum (v : D))).
    { intros v Hv. exact Hv. }
    unfold no_negatives, settle_ex. cbn [all_nums].
    split; [split; [apply H; vm_compute; reflexivity|exact Logic.I]|].
    split; [exact Logic.I|]. split; [apply H; vm_compute; reflexivity|exact Logic.I].
Qed.
(** The text that is read and written again. *)
Definition resave (s : string) : res string := bind (Parse (K:=D) s) (fun n => ToString n).
Example C71_ex_text : ToString (embed settle_ex) = Ok "0.1*x+y-(2-x)" /\ resave "0.1*x+y-(2-x)" = Ok "0.1*x+y-(2-x)".
Proof.
  rewrite C15_to_string. split.
  - vm_cast_no_check (eq_refl (@Ok string "0.1*x+y-(2-x)")).
  - vm_cast_no_check (eq_refl (@Ok string "0.1*x+y-(2-x)")).
Qed.

(** With negative literals the second text can differ from the first: a-(-3). *)
Theorem C71_negative_literal :
  ToString (embed (EBin BSub (EVar "a") (ENum (b_ofZ (-3) : D)))) = Ok "a-(-3)" /\
  resave "a-(-3)" = Ok "a--3" /\ resave "a--3" = Ok "a--3".
Proof.
  rewrite C15_to_string. split; [vm_cast_no_check (eq_refl (@Ok string "a-(-3)"))|].
  split; vm_cast_no_check (eq_refl (@Ok string "a--3")).
Qed.
