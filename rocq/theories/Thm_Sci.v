(** C55: the text of very large and very small numbers. *)
From Coq Require Import String Ascii List ZArith Bool Arith Lia Reals Lra.
From Flocq Require Import IEEE754.BinarySingleNaN Core.
From Verif Require Import Base MathOp IEEE GrammarSpec NumTextSpec NumText SciText.
Local Open Scope string_scope.

Section C55.
Variable L : libm.
Local Open Scope R_scope.
Implicit Types v w : B64 L.

(** Beyond the thresholds (from 1e16 up, and down from the double 1e-16) a number is written in
    scientific notation. The number written is off by at most half a unit of the 17th significant
    digit, and the double is the nearest one to the number written: no information is lost. *)
Theorem C55_text v : is_finite v = true -> B2R v <> 0 ->
  10 ^ 16 <= Rabs (B2R v) \/ Rabs (B2R v) <= B2R (n_dec 1 (-16) : B64 L) ->
  exists s x k, n_tostr v = ((if n_ltb v (n_ofZ 0) then "-" else "") ++ s)%string /\
    scientific s x k /\ Rabs (x - Rabs (B2R v)) <= / 2 * powerRZ 10 (k - 16) /\
    round radix2 (FLT_exp (-1074) 53) ZnearestE x = Rabs (B2R v).
Proof.
  intros Hf H0 Hr. destruct (sci_tostr v (conj Hf (conj H0 Hr))) as (s & x & k & k0 & A & B & C & D & E).
  exists s, x, k. split; [exact A|]. split; [exact B|]. split.
  - apply Rle_trans with (1 := D). apply Rmult_le_compat_l; [lra|]. apply p10_le. lia.
  - exact (sci_back v x k0 Hf H0 (proj1 C) D).
Qed.

(** A reader of scientific notation gives back exactly the number, if it is not subnormal. *)
Theorem C55_read v : is_finite v = true -> bpow radix2 (-1022) <= Rabs (B2R v) ->
  10 ^ 16 <= Rabs (B2R v) \/ Rabs (B2R v) <= B2R (n_dec 1 (-16) : B64 L) ->
  exists s, n_tostr v = ((if n_ltb v (n_ofZ 0) then "-" else "") ++ s)%string /\ number_word s (n_abs v).
Proof.
  intros Hf Hn Hr. pose proof (bpow_gt_0 radix2 (-1022)) as Hb.
  assert (H0 : B2R v <> 0). { intros E. rewrite E, Rabs_R0 in Hn. lra. }
  destruct (sci_tostr v (conj Hf (conj H0 Hr))) as (s & x & k & k0 & A & B & C & D & _).
  pose proof (sci_back v x k0 Hf H0 (proj1 C) D) as Hx.
  exists s. split; [exact A|].
  destruct (stod_sci s x k B) as (r & E & Hfr & Hv).
  { rewrite Hx. exact Hn. }
  { rewrite Hx. apply (abs_B2R_lt_emax 53 1024). }
  unfold number_word. transitivity (b_stod s); [reflexivity|]. rewrite E.
  enough (Er : r = Babs v) by (rewrite Er; reflexivity). apply finite_pos_inj; auto.
  - now destruct v.
  - rewrite B2R_Babs. lra.
  - now rewrite B2R_Babs, Hv.
Qed.

(** Numbers outside the two intervals of magnitude 1e-16 to 1/2 have different texts. *)
Definition told_apart v : Prop :=
  is_finite v = true /\ B2R v <> 0 /\ (/ 2 <= Rabs (B2R v) \/ Rabs (B2R v) <= B2R (n_dec 1 (-16) : B64 L)).

Lemma told_text v : told_apart v -> exists s x, n_tostr v = ((if n_ltb v (n_ofZ 0) then "-" else "") ++ s)%string /\
  ((exists k, decimal s x k) \/ (exists k, scientific s x k)) /\ rne x = Rabs (B2R v).
Proof.
  intros (Hf & H0 & Hr). destruct (Rlt_le_dec (Rabs (B2R v)) (10 ^ 16)) as [Hlt|Hge].
  - destruct Hr as [Hh|Hs].
    + destruct (tostr_ok v) as (s & x & k & A & B & _ & _ & C & E).
      { split; [exact Hf|]. split; [|exact Hlt]. pose proof b_1em16_small. lra. }
      exists s, x. split; [exact A|]. split; [eauto|]. apply round_back; auto.
      rewrite <- B2R_Babs. apply generic_format_B2R.
    + destruct (C55_text v Hf H0 (or_intror Hs)) as (s & x & k & A & B & _ & E). exists s, x. split; [exact A|]. split; [eauto|exact E].
  - destruct (C55_text v Hf H0 (or_introl Hge)) as (s & x & k & A & B & _ & E). exists s, x. split; [exact A|]. split; [eauto|exact E].
Qed.
Lemma start_digit s x : (exists k, decimal s x k) \/ (exists k, scientific s x k) -> exists c s', s = String c s' /\ digit c.
Proof.
  intros [[k H]|[k H]].
  - destruct (decimal_start _ _ _ H) as (c & s' & -> & Hc & _). eauto.
  - destruct H as [s0 y j t k Hd _ _ _ _]. destruct (decimal_start _ _ _ Hd) as (c & s' & -> & Hc & _). cbn. eauto.
Qed.
Lemma same_value s x y : (exists k, decimal s x k) \/ (exists k, scientific s x k) ->
  (exists k, decimal s y k) \/ (exists k, scientific s y k) -> x = y.
Proof.
  assert (Hno : forall x y k k', decimal s x k -> scientific s y k' -> False).
  { intros x0 y0 k k' H H'. destruct (decimal_read _ _ _ H) as (m & E & _).
    destruct H' as [s0 z j t k' Hd _ _ _ He].
    destruct (decimal_read_app s0 z j (String "e" t) Hd (sci_stop _ _ He)) as (m' & E' & _).
    { intros c r' [= <- _]. discriminate. }
    rewrite E in E'. discriminate. }
  intros [[k H]|[k H]] [[k' H']|[k' H']].
  - destruct (decimal_read _ _ _ H) as (m & E & _ & ->). destruct (decimal_read _ _ _ H') as (m' & E' & _ & ->).
    rewrite E in E'. injection E' as <- <-. reflexivity.
  - exfalso. eauto.
  - exfalso. eauto.
  - exact (proj1 (sci_unique _ _ _ _ _ H H')).
Qed.

Theorem C55_injective v w : told_apart v -> told_apart w -> n_tostr v = n_tostr w -> v = w.
Proof.
  intros Hv Hw E. destruct (told_text v Hv) as (s & x & Ev & Dv & Rv). destruct (told_text w Hw) as (t & y & Ew & Dw & Rw).
  rewrite Ev, Ew in E. clear Ev Ew.
  destruct (start_digit _ _ Dv) as (c & s' & Es & Hc). destruct (start_digit _ _ Dw) as (d & t' & Et & Hd).
  assert (Hst : s = t /\ n_ltb v (n_ofZ 0) = n_ltb w (n_ofZ 0)).
  { destruct (n_ltb v (n_ofZ 0)), (n_ltb w (n_ofZ 0)); cbn [String.append] in E.
    - injection E as E. auto.
    - rewrite Et in E. injection E as <- _. unfold digit in Hd. cbn in Hd. lia.
    - rewrite Es in E. injection E as -> _. unfold digit in Hc. cbn in Hc. lia.
    - auto. }
  destruct Hst as [<- Hs]. rewrite (same_value s x y Dv Dw), Rw in Rv.
  destruct Hv as (Hfv & Hv0 & _), Hw as (Hfw & Hw0 & _).
  assert (Hsg : forall u : B64 L, is_finite u = true -> n_ltb u (n_ofZ 0) = Rlt_bool (B2R u) 0).
  { intros u Hu. change (n_ltb u (n_ofZ 0)) with (Bltb u (b_ofZ 0)). rewrite Bltb_correct by (auto; reflexivity). reflexivity. }
  rewrite !Hsg in Hs by auto.
  assert (HE : B2R v = B2R w).
  { destruct (Rlt_bool_spec (B2R v) 0), (Rlt_bool_spec (B2R w) 0); try discriminate.
    - rewrite !Rabs_left in Rv by auto. lra.
    - rewrite !Rabs_pos_eq in Rv by auto. lra. }
  apply B2R_inj.
  - destruct v; try discriminate; [cbn in Hv0; lra|reflexivity].
  - destruct w; try discriminate; [cbn in Hw0; lra|reflexivity].
  - exact HE.
Qed.

(** Zero and the values that are not finite. *)
Theorem C55_special : (forall v, is_finite v = true -> B2R v = 0 -> n_tostr v = "0") /\
  n_tostr (B754_infinity false : B64 L) = "inf" /\ n_tostr (B754_infinity true : B64 L) = "-inf" /\
  n_tostr (B754_nan : B64 L) = "nan".
Proof.
  split; [|auto]. intros v Hf H0. destruct v as [s|s| |s m e Hb]; try discriminate; [reflexivity|].
  exfalso. cbn [B2R] in H0. apply eq_0_F2R in H0. destruct s; discriminate.
Qed.
End C55.

Section Examples.
Variable L : libm.
(** 3e16 and the smallest positive double are covered. *)
Example C55_ex_large : exists s x k, n_tostr (b_dec true 3 16 : B64 L) = ("-" ++ s)%string /\ s = "3e+16" /\ scientific s x k.
Proof.
  destruct (C55_text L (b_dec true 3 16)) as (s & x & k & A & B & _).
  - vm_compute. reflexivity.
  - rewrite B2R_SF. intros H. assert (B2SF (b_dec true 3 16) = SpecFloat.S754_finite true 7500000000000000 2) as E by (vm_compute; reflexivity).
    rewrite E in H. clear E.
    unfold SF2R, F2R in H. cbn [SpecFloat.cond_Zopp Z.opp Fnum Fexp] in H. change (bpow radix2 2) with 4%R in H. lra.
  - left. rewrite B2R_SF. assert (B2SF (b_dec true 3 16) = SpecFloat.S754_finite true 7500000000000000 2) as -> by (vm_compute; reflexivity).
    unfold SF2R, F2R. cbn [SpecFloat.cond_Zopp Z.opp Fnum Fexp]. change (bpow radix2 2) with 4%R. rewrite Rabs_left by lra. simpl pow. lra.
  - assert (n_ltb (b_dec true 3 16 : B64 L) (n_ofZ 0) = true) as E by (vm_compute; reflexivity). rewrite E in A.
    exists s, x, k. split; [exact A|]. split; [|exact B].
    assert (n_tostr (b_dec true 3 16 : B64 L) = "-3e+16") as E2 by (vm_compute; reflexivity).
    rewrite E2 in A. cbn [String.append] in A. injection A as <-. reflexivity.
Qed.
End Examples.
