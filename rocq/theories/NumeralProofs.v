(** Reading numerals: the lexical part of strtod. *)
From Coq Require Import String Ascii List ZArith Reals Lia Lra Bool.
From Flocq Require Import Core BinarySingleNaN.
From Verif Require Import Base MathOp IEEE GrammarSpec NumTextSpec NumeralSpec NumText.
Import ListNotations.
Local Open Scope string_scope. Local Open Scope list_scope.

Lemma dec_digit_value c d : dec_digit c = Some d <-> digit_value c d /\ (d < 10)%Z.
Proof.
  split.
  - intros H. destruct c as [[] [] [] [] [] [] [] []]; try discriminate H; vm_compute in H; injection H as <-; (split; [split; [lia|left; reflexivity]|lia]).
  - intros [[H0 H] Hd]. assert (E : (d = 0 \/ d = 1 \/ d = 2 \/ d = 3 \/ d = 4 \/ d = 5 \/ d = 6 \/ d = 7 \/ d = 8 \/ d = 9)%Z) by lia.
    decompose [or] E; subst d; destruct H as [H|H]; injection H as <-; reflexivity.
Qed.
Lemma hex_digit_value c d : hex_digit c = Some d <-> digit_value c d /\ (d < 16)%Z.
Proof.
  split.
  - intros H. destruct c as [[] [] [] [] [] [] [] []]; try discriminate H; vm_compute in H; injection H as <-; (split; [split; [lia|(left; reflexivity) || (right; reflexivity)]|lia]).
  - intros [[H0 H] Hd]. assert (E : (d = 0 \/ d = 1 \/ d = 2 \/ d = 3 \/ d = 4 \/ d = 5 \/ d = 6 \/ d = 7 \/ d = 8 \/ d = 9 \/ d = 10 \/ d = 11 \/ d = 12 \/ d = 13 \/ d = 14 \/ d = 15)%Z) by lia.
    decompose [or] E; subst d; destruct H as [H|H]; injection H as <-; reflexivity.
Qed.

Lemma sapp_assoc (a b c : string) : ((a ++ b) ++ c)%string = (a ++ (b ++ c))%string.
Proof. induction a as [|x a IH]; cbn; congruence. Qed.

Section Base.
Context (dig : ascii -> option Z) (b : Z).
Hypothesis Hb : (0 < b)%Z.
Hypothesis Hdig : forall c d, dig c = Some d <-> digit_value c d /\ (d < b)%Z.

Lemma digits_cons c d s w : dig c = Some d -> digits b s w ->
  digits b (String c s) (d * b ^ Z.of_nat (String.length s) + w).
Proof using Hdig Hb.
  intros Hc H. induction H as [|s c' v d' H IH Hv Hd].
  - cbn [String.length Z.of_nat]. rewrite Z.pow_0_r. replace (d * 1 + 0)%Z with (0 * b + d)%Z by ring.
    apply Hdig in Hc as [H1 H2]. apply (ds_snoc b "" c 0 d); auto. constructor.
  - rewrite slen_app. cbn [String.length].
    replace (d * b ^ Z.of_nat (String.length s + 1) + (v * b + d'))%Z with ((d * b ^ Z.of_nat (String.length s) + v) * b + d')%Z.
    + exact (ds_snoc b (String c s) c' _ d' IH Hv Hd).
    + rewrite Nat2Z.inj_add, Z.pow_add_r by lia. change (b ^ Z.of_nat 1)%Z with (b ^ 1)%Z. rewrite Z.pow_1_r. ring.
Qed.

Lemma digits_chars s v : digits b s v -> all_chars (fun c => dig c <> None) s.
Proof using Hdig.
  induction 1 as [|s c v d H IH Hv Hd]; [exact I|]. apply all_app. split; [exact IH|]. split; [|exact I].
  assert (E : dig c = Some d) by (apply Hdig; auto). congruence.
Qed.
Lemma digits_nonneg s v : digits b s v -> (0 <= v)%Z.
Proof using Hb. induction 1 as [|s c v d H IH [H0 _] Hd]; nia. Qed.

Definition stops_at (r : string) : Prop := match r with EmptyString => True | String c _ => dig c = None end.

Lemma read_digits_inv s : forall acc n v n' t, read_digits dig b s acc n = (v, n', t) ->
  exists p w, s = (p ++ t)%string /\ digits b p w /\ v = (acc * b ^ Z.of_nat (String.length p) + w)%Z /\ n' = (n + String.length p)%nat /\ stops_at t.
Proof using Hdig Hb.
  induction s as [|c s IH]; intros acc n v n' t H; cbn [read_digits] in H.
  - injection H as <- <- <-. exists "", 0%Z. cbn. rewrite Nat.add_0_r. repeat split; auto; [constructor|lia].
  - destruct (dig c) as [d|] eqn:E.
    + destruct (IH _ _ _ _ _ H) as (p & w & -> & Hp & -> & -> & Ht). exists (String c p), (d * b ^ Z.of_nat (String.length p) + w)%Z.
      split; [reflexivity|]. split; [now apply digits_cons|]. split; [|split; [cbn; lia|exact Ht]].
      cbn [String.length]. rewrite Nat2Z.inj_succ, Z.pow_succ_r by lia. ring.
    + injection H as <- <- <-. exists "", 0%Z. cbn. rewrite Nat.add_0_r. repeat split; auto; [constructor|lia].
Qed.

Lemma digits_fun s : forall v w, digits b s v -> digits b s w -> v = w.
Proof using Hdig.
  assert (G : forall s v, digits b s v -> forall s' w, digits b s' w -> s = s' -> v = w); [|eauto].
  induction 1 as [|s0 c v d H IH Hv Hd]; intros s' w H' E.
  - inversion H' as [|s1 c1 v1 d1 H1 Hv1 Hd1 E1]; [reflexivity|]. rewrite <- E1 in E. apply (f_equal String.length) in E. rewrite slen_app in E. cbn in E. lia.
  - inversion H' as [E1|s1 c1 v1 d1 H1 Hv1 Hd1 E1]; rewrite <- E1 in E.
    + apply (f_equal String.length) in E. rewrite slen_app in E. cbn in E. lia.
    + assert (E2 : s0 = s1 /\ c = c1).
      { clear -E. revert s1 E. induction s0 as [|x s0 IH]; intros [|y s1] E; cbn in E.
        - injection E. auto.
        - injection E as -> E. destruct s1; discriminate.
        - injection E as -> E. destruct s0; discriminate.
        - injection E as -> E. destruct (IH s1 E) as [-> ->]. auto. }
      destruct E2 as [-> ->]. rewrite (IH s1 v1 H1 eq_refl).
      assert (A1 : dig c1 = Some d) by (apply Hdig; auto). assert (A2 : dig c1 = Some d1) by (apply Hdig; auto). congruence.
Qed.

Lemma read_digits_ok2 p w r acc n : digits b p w -> stops_at r ->
  read_digits dig b (p ++ r) acc n = ((acc * b ^ Z.of_nat (String.length p) + w)%Z, (n + String.length p)%nat, r).
Proof using Hdig Hb.
  intros Hp Hr.
  assert (Hc : all_chars (fun c => dig c <> None) p) by (eapply digits_chars; eauto).
  assert (G : forall acc n, exists v, read_digits dig b (p ++ r) acc n = (v, (n + String.length p)%nat, r)).
  { clear Hp. induction p as [|c p IH]; intros a k; cbn [String.append read_digits String.length].
    - exists a. rewrite Nat.add_0_r. destruct r as [|c r]; [reflexivity|]. cbn in *. now rewrite Hr.
    - destruct Hc as [Hc1 Hc]. destruct (dig c) as [d|]; [|congruence]. destruct (IH Hc (a * b + d)%Z (S k)) as [v ->]. exists v. do 2 f_equal. lia. }
  destruct (G acc n) as [v E]. rewrite E. destruct (read_digits_inv _ _ _ _ _ _ E) as (p' & w' & E1 & Hp' & -> & E2 & _).
  assert (p' = p).
  { clear -E1. assert (L : String.length p = String.length p') by (apply (f_equal String.length) in E1; rewrite !slen_app in E1; lia).
    revert p' E1 L. induction p as [|c p IH]; intros [|c' p'] E1 L; cbn in *; try discriminate; auto. injection E1 as -> E1. f_equal. apply IH; auto. }
  subst p'. now rewrite (digits_fun _ _ _ Hp Hp').
Qed.

(** [read_mant]. *)
Definition ends_mant (r : string) : Prop := match r with EmptyString => True | String c _ => dig c = None /\ c <> "."%char end.

Lemma IZR_pow_b k : IZR (b ^ Z.of_nat k) = (IZR b ^ k)%R.
Proof. rewrite <- pow_IZR. reflexivity. Qed.

Hypothesis Hdot : dig "." = None.

Lemma read_mant_ok p x r : mantissa b p x -> ends_mant r ->
  exists m k, read_mant dig b (p ++ r) = Some (m, k, String.length p, r) /\ (0 <= m)%Z /\ x = (IZR m / IZR b ^ k)%R.
Proof using Hdig Hb Hdot.
  intros H Hr. assert (Hst : stops_at r) by (destruct r; cbn in *; tauto).
  destruct H as [s m Hs Hd|s t m f Hs Hd Ht].
  - exists m, 0%nat. unfold read_mant. rewrite (read_digits_ok2 s m r 0 0 Hd Hst). rewrite Z.mul_0_l, Z.add_0_l, Nat.add_0_l.
    split; [|split; [eapply digits_nonneg; eauto|cbn; field]].
    assert (L : exists n, String.length s = S n) by (destruct s; [congruence|eexists; reflexivity]). destruct L as [n ->].
    destruct r as [|c r]; [reflexivity|]. cbn in Hr. destruct Hr as [_ Hn].
    destruct c as [[] [] [] [] [] [] [] []]; try reflexivity. congruence.
  - exists (m * b ^ Z.of_nat (String.length t) + f)%Z, (String.length t).
    replace ((s ++ "." ++ t) ++ r)%string with (s ++ String "." (t ++ r))%string by (rewrite sapp_assoc; reflexivity).
    unfold read_mant. rewrite (read_digits_ok2 s m (String "." (t ++ r)) 0 0 Hd Hdot).
    rewrite (read_digits_ok2 t f r _ 0 Ht Hst). rewrite Z.mul_0_l, Z.add_0_l, !Nat.add_0_l. split; [|split].
    + replace (String.length (s ++ "." ++ t)) with (String.length s + 1 + String.length t)%nat by (rewrite slen_app; cbn [String.append String.length]; lia).
      destruct s; [|destruct (String.length t); reflexivity]. cbn [String.length]. destruct t; [cbn in Hs; congruence|reflexivity].
    + pose proof (digits_nonneg _ _ Hd). pose proof (digits_nonneg _ _ Ht). pose proof (Z.pow_nonneg b (Z.of_nat (String.length t)) ltac:(lia)). nia.
    + rewrite plus_IZR, mult_IZR, IZR_pow_b. field. apply pow_nonzero. apply not_0_IZR. lia.
Qed.

Lemma read_mant_inv s m k n t : read_mant dig b s = Some (m, k, n, t) ->
  exists p, s = (p ++ t)%string /\ n = String.length p /\ (0 <= m)%Z /\ mantissa b p (IZR m / IZR b ^ k).
Proof using Hdig Hb.
  unfold read_mant. destruct (read_digits dig b s 0 0) as [[m1 n1] t1] eqn:E1. intros H.
  destruct (read_digits_inv _ _ _ _ _ _ E1) as (p & w & -> & Hp & E & -> & _). rewrite Z.mul_0_l, Z.add_0_l in E. subst w. cbn [Nat.add] in *.
  assert (Hm : (0 <= m1)%Z) by (eapply digits_nonneg; eauto).
  assert (A : match String.length p with O => None | _ => Some (m1, 0%nat, String.length p, t1) end = Some (m, k, n, t) ->
    exists p', (p ++ t1)%string = (p' ++ t)%string /\ n = String.length p' /\ (0 <= m)%Z /\ mantissa b p' (IZR m / IZR b ^ k)).
  { intros A. assert (Hn : p <> "") by (intros ->; discriminate). destruct (String.length p) eqn:El; [destruct p; [congruence|discriminate]|].
    injection A as <- <- <- <-. exists p. repeat split; auto. replace (IZR m1 / IZR b ^ 0)%R with (IZR m1) by (cbn; field). now constructor. }
  destruct t1 as [|c t1]; [exact (A H)|].
  destruct (ascii_dec c ".") as [->|Hn].
  2:{ apply A. destruct c as [[] [] [] [] [] [] [] []]; try exact H. congruence. }
  destruct (read_digits dig b t1 m1 0) as [[m2 k2] t2] eqn:E2.
  destruct (read_digits_inv _ _ _ _ _ _ E2) as (q & f & -> & Hq & E & -> & _). cbn [Nat.add] in *.
  assert (Hne : (p ++ q)%string <> "").
  { destruct p; [|discriminate]. destruct q; [discriminate H|discriminate]. }
  assert (H' : Some (m2, String.length q, (String.length p + 1 + String.length q)%nat, t2) = Some (m, k, n, t)).
  { destruct p; [destruct q; [now destruct Hne|]|]; exact H. }
  injection H' as <- <- <- <-. exists (p ++ "." ++ q)%string. split; [rewrite sapp_assoc; reflexivity|].
  split; [rewrite slen_app; cbn [String.append String.length]; lia|].
  pose proof (digits_nonneg _ _ Hq). pose proof (Z.pow_nonneg b (Z.of_nat (String.length q)) ltac:(lia)).
  split; [subst m2; nia|].
  replace (IZR m2 / IZR b ^ String.length q)%R with (IZR m1 + IZR f / IZR b ^ String.length q)%R; [now constructor|].
  subst m2. rewrite plus_IZR, mult_IZR, IZR_pow_b. field. apply pow_nonzero. apply not_0_IZR. lia.
Qed.
End Base.

(** ** Values *)
Local Open Scope R_scope.
Notation fexp64 := (SpecFloat.fexp 53 1024).

(** The double nearest to x is finite, and normal unless it is x itself. *)
Definition readable (x : R) : Prop := rne x < bpow radix2 1024 /\ (rne x = x \/ bpow radix2 (-1022) <= rne x).
Definition reads (x : R) (v : b64) : Prop := is_finite v = true /\ Bsign v = false /\ B2R v = rne x.

Lemma b_ofQ_full p q : let x := IZR (Zpos p) / IZR (Zpos q) in
  (rne x < bpow radix2 1024 -> reads x (b_ofQ false p q)) /\
  (bpow radix2 1024 <= rne x -> b_ofQ false p q = B754_infinity false).
Proof.
  intros x.
  assert (Hx0 : 0 <= x) by (unfold x; apply Rle_mult_inv_pos; [apply IZR_le|apply IZR_lt]; lia).
  assert (R0 : 0 <= rne x) by (rewrite <- (round_0 radix2 fexp64 ZnearestE); apply rne_le; exact Hx0).
  pose proof (proj2 (Bdiv_correct_aux 53 1024 Hprec Hemax mode_NE false p 0 false q 0)) as Hc. cbv zeta in Hc.
  assert (Ez := B2SF_SF2B 53 1024 _ (proj1 (Bdiv_correct_aux 53 1024 Hprec Hemax mode_NE false p 0 false q 0))).
  change (SF2B _ _) with (b_ofQ false p q) in Ez. rewrite <- Ez in Hc. clear Ez.
  unfold reads. rewrite B2R_SF. rewrite <- is_finite_SF_B2SF.
  assert (Es : Bsign (b_ofQ false p q) = sign_SF (B2SF (b_ofQ false p q))) by (now destruct (b_ofQ false p q)). rewrite Es.
  unfold round_mode in Hc.
  assert (Hxy : F2R (beta:=radix2) {| Fnum := SpecFloat.cond_Zopp false (Z.pos p); Fexp := 0 |} / F2R (beta:=radix2) {| Fnum := SpecFloat.cond_Zopp false (Z.pos q); Fexp := 0 |} = x).
  { unfold F2R, x. cbn [Fnum Fexp bpow SpecFloat.cond_Zopp]. rewrite !Rmult_1_r. reflexivity. }
  rewrite Hxy in Hc. fold (rne x) in Hc. rewrite (Rabs_pos_eq _ R0) in Hc. split; intros H.
  - rewrite Rlt_bool_true in Hc by exact H. destruct Hc as (H1 & H2 & H3). auto.
  - rewrite Rlt_bool_false in Hc by exact H. apply B2SF_inj. rewrite Hc. reflexivity.
Qed.

Lemma finite_pos (v : b64) : is_finite v = true -> Bsign v = false -> v = B754_zero false \/ exists m e H, v = B754_finite false m e H.
Proof. destruct v as [s|s| |s m e H]; try discriminate; intros _ E; cbn in E; subst s; eauto. Qed.

Lemma normal_value m e H : (2 ^ 52 <= Zpos m)%Z -> bpow radix2 (-1022) <= B2R (B754_finite false m e H : b64).
Proof.
  intros Hm. cbn [B2R SpecFloat.cond_Zopp].
  assert (He : (-1074 <= e)%Z).
  { unfold SpecFloat.bounded in H. apply andb_prop in H as [Hc _]. unfold SpecFloat.canonical_mantissa in Hc.
    apply Zeq_bool_eq in Hc. unfold SpecFloat.fexp, SpecFloat.emin in Hc. lia. }
  unfold F2R. cbn [Fnum Fexp]. replace (bpow radix2 (-1022)) with (bpow radix2 52 * bpow radix2 (-1074)).
  2:{ rewrite <- bpow_plus. reflexivity. }
  apply Rmult_le_compat; try apply bpow_ge_0.
  - change (bpow radix2 52) with (IZR (2 ^ 52)). now apply IZR_le.
  - now apply bpow_le.
Qed.

Lemma ratio_range num den : (0 <= num)%Z -> (0 < den)%Z -> let x := IZR num / IZR den in let v := ratio false num den in
  (in_range v (is_exact v num den) = true <-> readable x) /\ (readable x -> reads x v).
Proof.
  intros Hn Hd x v. destruct den as [|q|q]; try lia. destruct num as [|p|p]; [| |lia].
  - assert (Ex : x = 0) by (unfold x, Rdiv; ring).
    assert (Er : rne x = 0) by (rewrite Ex; apply round_0; typeclasses eauto).
    assert (R : readable x) by (unfold readable; rewrite Er; split; [apply bpow_gt_0|left; now rewrite Ex]).
    split; [split; [intros _; exact R|reflexivity]|]. intros _. unfold reads. rewrite Er. auto.
  - destruct (b_ofQ_full p q) as [H1 H2]. fold x in H1, H2. change (b_ofQ false p q) with v in H1, H2.
    assert (G : readable x -> reads x v) by (intros [R _]; auto). split; [|exact G].
    destruct (Rlt_or_le (rne x) (bpow radix2 1024)) as [L|L].
    2:{ rewrite (H2 L). split; [discriminate|]. intros [R _]. exfalso. lra. }
    destruct (H1 L) as (Hf & Hs & Hv).
    assert (Hx : 0 < x) by (unfold x; apply Rdiv_lt_0_compat; apply IZR_lt; lia).
    clearbody v. unfold readable. rewrite <- Hv.
    destruct (finite_pos v Hf Hs) as [-> |(m & e & Hb & ->)].
    + cbn [in_range is_exact B2R]. split; [discriminate|]. intros [_ [R|R]]; [lra|]. pose proof (bpow_gt_0 radix2 (-1022)). lra.
    + cbn [in_range is_exact]. pose proof (frac_of_ok m e) as Hq. destruct (frac_of m e) as [a b]. destruct Hq as (Ha & Hb' & Hab).
      assert (Eab : B2R (B754_finite false m e Hb : b64) = IZR a / IZR b) by (rewrite Hab; reflexivity).
      assert (Iff : (a * Zpos q)%Z = (Zpos p * b)%Z <-> B2R (B754_finite false m e Hb : b64) = x).
      { rewrite Eab. unfold x. assert (IZR b <> 0) by (apply not_0_IZR; lia). assert (IZR (Zpos q) <> 0) by (apply not_0_IZR; lia). split.
        - intros E. apply (f_equal IZR) in E. rewrite !mult_IZR in E. apply Rmult_eq_reg_r with (IZR b * IZR (Zpos q)); [|now apply Rmult_integral_contrapositive].
          replace (IZR a / IZR b * (IZR b * IZR (Zpos q))) with (IZR a * IZR (Zpos q)) by (field; auto).
          replace (IZR (Zpos p) / IZR (Zpos q) * (IZR b * IZR (Zpos q))) with (IZR (Zpos p) * IZR b) by (field; auto). exact E.
        - intros E. apply eq_IZR. rewrite !mult_IZR. 
          replace (IZR a * IZR (Zpos q)) with (IZR a / IZR b * (IZR b * IZR (Zpos q))) by (field; auto).
          replace (IZR (Zpos p) * IZR b) with (IZR (Zpos p) / IZR (Zpos q) * (IZR b * IZR (Zpos q))) by (field; auto). now rewrite E. }
      rewrite orb_true_iff, Z.eqb_eq, Z.leb_le, Iff. rewrite <- Hv in L. split.
      * intros [E|E]; [auto|]. split; [exact L|right]. now apply normal_value.
      * intros [_ [E|E]]; [now left|right]. apply (normal_mantissa false m e Hb).
        rewrite Rabs_pos_eq; [exact E|]. pose proof (bpow_gt_0 radix2 (-1022)). lra.
Qed.

(** ** Exponents *)
Lemma lower_is l c : In l ["e"; "p"; "x"]%char -> (lower c = l <-> c = l \/ c = upper l).
Proof.
  intros Hl. cbn [In] in Hl. decompose [or] Hl; subst; try tauto;
    (split; [destruct c as [[] [] [] [] [] [] [] []]; vm_compute; intros E; try discriminate E; auto|intros [-> | ->]; reflexivity]).
Qed.

Notation D10 := dec_digit_value.
Lemma read_exp_ok l c t n : lower c = l -> t <> "" -> digits 10 t n -> read_exp l (String c t) = (n, S (String.length t)).
Proof.
  intros Hc Ht Hd. unfold read_exp. rewrite Hc, Ascii.eqb_refl.
  pose proof (read_digits_ok2 dec_digit 10 ltac:(lia) D10 t n "" 0 0 Hd I) as E. rewrite sapp_nil in E. rewrite Z.mul_0_l, Z.add_0_l, Nat.add_0_l in E.
  pose proof (digits_chars dec_digit 10 D10 t n Hd) as Hch. destruct t as [|a t]; [congruence|]. destruct Hch as [Ha _].
  match goal with |- (match ?M with _ => _ end) = _ => assert (Es : M = (false, 1%nat, String a t)) end.
  { destruct a as [[] [] [] [] [] [] [] []]; try reflexivity; exfalso; apply Ha; reflexivity. }
  rewrite Es, E. reflexivity.
Qed.

Definition no_sign (s : string) : Prop := all_chars (fun c => c <> "-"%char /\ c <> "+"%char) s.

Lemma read_exp_inv l t ex ne : read_exp l t = (ex, ne) -> ne = String.length t -> no_sign t ->
  t = "" /\ ex = 0%Z \/ exists c t', t = String c t' /\ lower c = l /\ t' <> "" /\ digits 10 t' ex.
Proof.
  unfold read_exp. destruct t as [|c t]; [intros H _ _; injection H as <- _; auto|]. intros H Hl Hs. right.
  destruct (Ascii.eqb_spec (lower c) l) as [Ec|]; [|injection H as <- <-; discriminate].
  match type of H with (match ?M with _ => _ end) = _ => assert (Es : M = (false, 1%nat, t)) end.
  { destruct t as [|a t]; [reflexivity|]. destruct Hs as [_ [[H1 H2] _]]. destruct a as [[] [] [] [] [] [] [] []]; try reflexivity; congruence. }
  rewrite Es in H. destruct (read_digits dec_digit 10 t 0 0) as [[v n] r] eqn:E.
  destruct (read_digits_inv dec_digit 10 ltac:(lia) D10 _ _ _ _ _ _ E) as (p & w & -> & Hp & -> & -> & _).
  rewrite Z.mul_0_l, Z.add_0_l, Nat.add_0_l in *.
  assert (Lp : String.length p <> 0%nat) by (intros El; rewrite El in H; injection H as <- <-; discriminate).
  destruct (String.length p) as [|k] eqn:Ek; [congruence|]. injection H as <- <-. cbn [String.length] in Hl. rewrite slen_app in Hl.
  assert (Er : r = "") by (destruct r; [reflexivity|cbn [String.length] in Hl; lia]). subst r. rewrite sapp_nil.
  exists c, p. repeat split; auto. intros ->. discriminate.
Qed.

(** ** strtod *)
Definition wordy (w : string) : Prop := all_chars (fun c => ~ space c /\ ~ symbol c) w.
Lemma wordy_no_sign w : wordy w -> no_sign w.
Proof.
  unfold wordy, no_sign. induction w as [|c w IH]; cbn; [auto|]. intros [[_ Hs] H]. split; [|auto].
  split; intros ->; apply Hs; unfold symbol; cbn; tauto.
Qed.
Lemma no_sign_app a b : no_sign (a ++ b) -> no_sign b. Proof. unfold no_sign. rewrite all_app. tauto. Qed.

Lemma stod_word w : w <> "" -> wordy w -> b_stod w = stod_unsigned false w.
Proof.
  intros Hn Hw. destruct w as [|c w]; [congruence|]. destruct Hw as [[Hs Hy] _]. unfold b_stod. cbn [b_stod_ws].
  assert (E1 : (Nat.eqb (nat_of_ascii c) 32 || char_in 9 13 c)%bool = false).
  { apply orb_false_iff. unfold space in Hs. cbn [In] in Hs. split; [apply Nat.eqb_neq; lia|].
    unfold char_in. destruct (Nat.leb_spec 9 (nat_of_ascii c)); [|reflexivity]. destruct (Nat.leb_spec (nat_of_ascii c) 13); [|reflexivity]. lia. }
  rewrite E1. destruct (Ascii.eqb_spec c "-") as [->|_]; [exfalso; apply Hy; unfold symbol; cbn; tauto|].
  destruct (Ascii.eqb_spec c "+") as [->|_]; [exfalso; apply Hy; unfold symbol; cbn; tauto|].
  destruct (stod_unsigned false (String c w)) as [[v n]|]; reflexivity.
Qed.

Lemma ranged_iff v num den sz w n : ranged v num den sz = Some (w, n) <-> w = v /\ n = sz /\ in_range v (is_exact v num den) = true.
Proof. unfold ranged. destruct (in_range v (is_exact v num den)); split; [intros E; injection E; auto|intros (-> & -> & _); reflexivity|discriminate|intros (_ & _ & E); discriminate]. Qed.

Lemma reads_inj x (v w : b64) : reads x v -> reads x w -> v = w.
Proof.
  intros (F1 & S1 & V1) (F2 & S2 & V2). apply B2R_Bsign_inj; auto; congruence.
Qed.

Lemma ranged_reads num den sz v n x : (0 <= num)%Z -> (0 < den)%Z -> x = IZR num / IZR den ->
  (ranged (ratio false num den) num den sz = Some (v, n) <-> n = sz /\ readable x /\ reads x v).
Proof.
  intros Hn Hd ->. destruct (ratio_range num den Hn Hd) as [H1 H2]. rewrite ranged_iff, H1. split.
  - intros (-> & -> & R). auto.
  - intros (-> & R & V). split; [|auto]. eapply reads_inj; eauto.
Qed.

(** The decimal branch. *)
Definition dec_value (m e : Z) (sz : nat) : option (b64 * nat) :=
  if (e <? 0)%Z then ranged (b_dec false m e) m (10 ^ (- e)) sz else ranged (b_dec false m e) (m * 10 ^ e) 1 sz.

Lemma dec_value_iff m k n sz v c x : (0 <= m)%Z -> (0 <= n)%Z -> x = IZR m / IZR 10 ^ k * 10 ^ Z.to_nat n ->
  (dec_value m (n - Z.of_nat k) sz = Some (v, c) <-> c = sz /\ readable x /\ reads x v).
Proof.
  intros Hm Hn Ex. unfold dec_value. set (e := (n - Z.of_nat k)%Z).
  assert (P : forall j, IZR (10 ^ Z.of_nat j) = 10 ^ j) by (intros j; rewrite (pow10_IZR (Z.of_nat j)), Nat2Z.id by lia; reflexivity).
  assert (Pk : 10 ^ k <> 0) by (apply pow_nonzero; lra).
  destruct (Z.ltb_spec e 0) as [He|He].
  - assert (Eb : b_dec false m e = ratio false m (10 ^ (- e))).
    { unfold b_dec, ratio. destruct m as [|p|p]; [reflexivity| |lia]. destruct e as [|q|q] eqn:Eq; try lia.
      change (- Z.neg q)%Z with (Z.pos q). rewrite <- Pos2Z.inj_pow. reflexivity. }
    rewrite Eb. apply ranged_reads; [exact Hm|apply Z.pow_pos_nonneg; lia|].
    rewrite Ex. replace (- e)%Z with (Z.of_nat (k - Z.to_nat n)) by lia. rewrite P.
    assert (E10 : 10 ^ k = 10 ^ (k - Z.to_nat n) * 10 ^ Z.to_nat n) by (rewrite <- pow_add; f_equal; lia).
    assert (10 ^ (k - Z.to_nat n) <> 0) by (apply pow_nonzero; lra). assert (10 ^ Z.to_nat n <> 0) by (apply pow_nonzero; lra).
    rewrite E10. field. auto.
  - assert (Eb : b_dec false m e = ratio false (m * 10 ^ e) 1).
    { unfold b_dec, ratio. destruct m as [|p|p]; [reflexivity| |lia]. destruct e as [|q|q] eqn:Eq; try lia; reflexivity. }
    rewrite Eb. apply ranged_reads; [|lia|].
    + pose proof (Z.pow_nonneg 10 e ltac:(lia)). nia.
    + rewrite Ex, mult_IZR. replace e with (Z.of_nat (Z.to_nat n - k)) by lia. rewrite P.
      assert (E10 : 10 ^ Z.to_nat n = 10 ^ (Z.to_nat n - k) * 10 ^ k) by (rewrite <- pow_add; f_equal; lia).
      rewrite E10. field. exact Pk.
Qed.

Definition hex_value (m e : Z) (sz : nat) : option (b64 * nat) :=
  let num := (m * 2 ^ (Z.max e 0))%Z in let den := (2 ^ (Z.max (- e) 0))%Z in ranged (ratio false num den) num den sz.

Lemma hex_value_iff m k n sz v c x : (0 <= m)%Z -> (0 <= n)%Z -> x = IZR m / IZR 16 ^ k * 2 ^ Z.to_nat n ->
  (hex_value m (n - 4 * Z.of_nat k) sz = Some (v, c) <-> c = sz /\ readable x /\ reads x v).
Proof.
  intros Hm Hn Ex. unfold hex_value. set (e := (n - 4 * Z.of_nat k)%Z).
  assert (P : forall j, IZR (2 ^ Z.of_nat j) = 2 ^ j) by (intros j; rewrite <- pow_IZR; reflexivity).
  assert (P16 : IZR 16 ^ k = 2 ^ (4 * k)) by (rewrite pow_mult; f_equal; lra).
  assert (N2 : forall j, 2 ^ j <> 0) by (intros j; apply pow_nonzero; lra).
  apply ranged_reads.
  - pose proof (Z.pow_nonneg 2 (Z.max e 0) ltac:(lia)). nia.
  - apply Z.pow_pos_nonneg; lia.
  - rewrite Ex, P16, mult_IZR. destruct (Z.ltb_spec e 0) as [He|He].
    + replace (Z.max e 0) with (Z.of_nat 0) by lia. replace (Z.max (- e) 0) with (Z.of_nat (4 * k - Z.to_nat n)) by lia. rewrite !P.
      assert (E : 2 ^ (4 * k) = 2 ^ (4 * k - Z.to_nat n) * 2 ^ Z.to_nat n) by (rewrite <- pow_add; f_equal; lia).
      rewrite E, pow_O. field. auto.
    + replace (Z.max (- e) 0) with (Z.of_nat 0) by lia. replace (Z.max e 0) with (Z.of_nat (Z.to_nat n - 4 * k)) by lia. rewrite !P.
      assert (E : 2 ^ Z.to_nat n = 2 ^ (Z.to_nat n - 4 * k) * 2 ^ (4 * k)) by (rewrite <- pow_add; f_equal; lia).
      rewrite E, pow_O. field. auto.
Qed.

(** The words that are numbers. *)
Definition dec_branch (s : string) : option (b64 * nat) :=
  match read_mant dec_digit 10 s with
  | None => if starts_ci "infinity" s then Some (B754_infinity false, 8%nat)
            else if starts_ci "inf" s then Some (B754_infinity false, 3%nat)
            else if starts_ci "nan" s then Some (B754_nan, 3%nat) else None
  | Some (m, k, n, t) => let '(ex, ne) := read_exp "e" t in dec_value m (ex - Z.of_nat k) (n + ne)
  end.
Definition hex_branch (s : string) : option (b64 * nat) :=
  match read_mant hex_digit 16 s with
  | None => None
  | Some (m, k, n, t) => let '(ex, ne) := read_exp "p" t in hex_value m (ex - 4 * Z.of_nat k) (2 + n + ne)
  end.

Lemma stod_dec s : (forall c s', s = String "0" (String c s') -> lower c <> "x"%char) -> stod_unsigned false s = dec_branch s.
Proof.
  intros H. unfold stod_unsigned. fold (dec_branch s).
  destruct s as [|a [|c s]]; [reflexivity|destruct a as [[] [] [] [] [] [] [] []]; reflexivity|].
  destruct (ascii_dec a "0") as [->|Hn].
  - specialize (H c s eq_refl). destruct (Ascii.eqb_spec (lower c) "x"); [congruence|reflexivity].
  - destruct a as [[] [] [] [] [] [] [] []]; try reflexivity. congruence.
Qed.
Lemma stod_hex c s : lower c = "x"%char -> stod_unsigned false (String "0" (String c s)) =
  match hex_branch s with None => match read_mant hex_digit 16 s with None => dec_branch (String "0" (String c s)) | Some _ => None end | r => r end.
Proof.
  intros H. unfold stod_unsigned. fold (dec_branch (String "0" (String c s))). rewrite H. cbn [Ascii.eqb eqb]. unfold hex_branch.
  change (Ascii.eqb "x" "x") with true. cbv iota.
  destruct (read_mant hex_digit 16 s) as [[[[m k] n] t]|]; [|reflexivity]. destruct (read_exp "p" t) as [ex ne].
  unfold hex_value. destruct (ranged _ _ _ _); reflexivity.
Qed.

Lemma all_impl' (P Q : ascii -> Prop) s : (forall c, P c -> Q c) -> all_chars P s -> all_chars Q s.
Proof. intros H. induction s; cbn; intuition. Qed.

Notation D16 := hex_digit_value.
Lemma mantissa_chars b dig s x : (forall c d, dig c = Some d <-> digit_value c d /\ (d < b)%Z) -> mantissa b s x ->
  all_chars (fun c => dig c <> None \/ c = "."%char) s.
Proof.
  intros Hd H. destruct H as [s m Hs H|s t m f Hs H H'].
  - eapply all_impl'; [|eapply digits_chars; eauto]. auto.
  - apply all_app. split; [eapply all_impl'; [|eapply digits_chars; eauto]; auto|]. split; [auto|].
    eapply all_impl'; [|eapply digits_chars; eauto]. auto.
Qed.

(** Exponent parts. *)
Inductive expo (l : ascii) : string -> Z -> Prop :=
| expo_none : expo l "" 0
| expo_some c t n : lower c = l -> t <> "" -> digits 10 t n -> expo l (String c t) n.

Lemma expo_read l r n : expo l r n -> read_exp l r = (n, String.length r) /\ (0 <= n)%Z.
Proof.
  destruct 1 as [|c t n Hc Ht Hd]; [split; [reflexivity|lia]|]. split; [now apply read_exp_ok|]. apply (digits_nonneg 10 ltac:(lia) _ _ Hd).
Qed.

Lemma dec_branch_iff s x r n v c : mantissa 10 s x -> expo "e" r n ->
  (dec_branch (s ++ r) = Some (v, c) <-> c = String.length (s ++ r) /\ readable (x * 10 ^ Z.to_nat n) /\ reads (x * 10 ^ Z.to_nat n) v).
Proof.
  intros Hm He. assert (Hr : ends_mant dec_digit r).
  { destruct He as [|a t n Ha _ _]; [exact I|]. apply (proj1 (lower_is "e" a ltac:(cbn; tauto))) in Ha. destruct Ha as [-> | ->]; split; try reflexivity; discriminate. }
  destruct (read_mant_ok dec_digit 10 ltac:(lia) D10 eq_refl s x r Hm Hr) as (m & k & E & Hm0 & ->).
  destruct (expo_read "e" r n He) as [Ex Hn]. unfold dec_branch. rewrite E, Ex, slen_app. now apply dec_value_iff.
Qed.
Lemma hex_branch_iff s x r n v c : mantissa 16 s x -> expo "p" r n ->
  (hex_branch (s ++ r) = Some (v, c) <-> c = (2 + String.length (s ++ r))%nat /\ readable (x * 2 ^ Z.to_nat n) /\ reads (x * 2 ^ Z.to_nat n) v).
Proof.
  intros Hm He. assert (Hr : ends_mant hex_digit r).
  { destruct He as [|a t n Ha _ _]; [exact I|]. apply (proj1 (lower_is "p" a ltac:(cbn; tauto))) in Ha. destruct Ha as [-> | ->]; split; try reflexivity; discriminate. }
  destruct (read_mant_ok hex_digit 16 ltac:(lia) D16 eq_refl s x r Hm Hr) as (m & k & E & Hm0 & ->).
  destruct (expo_read "p" r n He) as [Ex Hn]. unfold hex_branch. rewrite E, Ex, slen_app.
  replace (2 + (String.length s + String.length r))%nat with (2 + String.length s + String.length r)%nat by lia. now apply hex_value_iff.
Qed.

Lemma numeral_dec s x r n : mantissa 10 s x -> expo "e" r n -> numeral (s ++ r) (x * 10 ^ Z.to_nat n).
Proof.
  intros Hm He. destruct He as [|c t n Hc Ht Hd].
  - rewrite sapp_nil. change (Z.to_nat 0) with 0%nat. rewrite pow_O, Rmult_1_r. now constructor.
  - apply num_dec_exp; auto. apply (proj1 (lower_is "e" c ltac:(cbn; tauto))) in Hc. cbn. destruct Hc as [-> | ->]; auto.
Qed.
Lemma numeral_hex a s x r n : lower a = "x"%char -> mantissa 16 s x -> expo "p" r n -> numeral (String "0" (String a (s ++ r))) (x * 2 ^ Z.to_nat n).
Proof.
  intros Ha Hm He. assert (Ia : In a ["x"; "X"]%char) by (apply (proj1 (lower_is "x" a ltac:(cbn; tauto))) in Ha; cbn; destruct Ha as [-> | ->]; auto).
  destruct He as [|c t n Hc Ht Hd].
  - rewrite sapp_nil. change (Z.to_nat 0) with 0%nat. rewrite pow_O, Rmult_1_r. now apply num_hex.
  - apply num_hex_exp; auto. apply (proj1 (lower_is "p" c ltac:(cbn; tauto))) in Hc. cbn. destruct Hc as [-> | ->]; auto.
Qed.

Lemma numeral_cases w y : numeral w y ->
  (exists s x r n, w = (s ++ r)%string /\ mantissa 10 s x /\ expo "e" r n /\ y = x * 10 ^ Z.to_nat n) \/
  (exists a s x r n, w = String "0" (String a (s ++ r)) /\ lower a = "x"%char /\ mantissa 16 s x /\ expo "p" r n /\ y = x * 2 ^ Z.to_nat n).
Proof.
  destruct 1 as [s x H|s x c t n H Hc Ht Hd|a s x Ha H|a s x c t n Ha H Hc Ht Hd].
  - left. exists s, x, "", 0%Z. rewrite sapp_nil. change (Z.to_nat 0) with 0%nat. rewrite pow_O, Rmult_1_r. repeat split; auto. constructor.
  - left. exists s, x, (String c t), n. repeat split; auto. constructor; auto. cbn in Hc. destruct Hc as [<-|[<-|[]]]; reflexivity.
  - right. exists a, s, x, "", 0%Z. rewrite sapp_nil. change (Z.to_nat 0) with 0%nat. rewrite pow_O, Rmult_1_r. repeat split; auto; [|constructor].
    cbn in Ha. destruct Ha as [<-|[<-|[]]]; reflexivity.
  - right. exists a, s, x, (String c t), n. repeat split; auto.
    + cbn in Ha. destruct Ha as [<-|[<-|[]]]; reflexivity.
    + constructor; auto. cbn in Hc. destruct Hc as [<-|[<-|[]]]; reflexivity.
Qed.

Lemma dec_not_x s x r n c s' : mantissa 10 s x -> expo "e" r n -> (s ++ r)%string = String "0" (String c s') -> lower c <> "x"%char.
Proof.
  intros Hm He E. pose proof (mantissa_chars 10 dec_digit s x D10 Hm) as Hc.
  assert (G : dec_digit c <> None \/ c = "."%char \/ lower c = "e"%char).
  { destruct s as [|a [|b s]]; cbn in E.
    - exfalso. inversion Hm as [s0 m Hs Hd E1|s0 t m f Hs Hd Ht E1]; [congruence|]. destruct s0; discriminate.
    - injection E as _ ->. inversion He; subst; auto.
    - injection E as _ -> _. destruct Hc as [_ [[Hc|Hc] _]]; auto. }
  intros El. apply (proj1 (lower_is "x" c ltac:(cbn; tauto))) in El. destruct El as [-> | ->]; destruct G as [G|[G|G]]; try discriminate; apply G; reflexivity.
Qed.

Lemma numeral_reads w y v : numeral w y -> (stod_unsigned false w = Some (v, String.length w) <-> readable y /\ reads y v).
Proof.
  intros H. destruct (numeral_cases w y H) as [(s & x & r & n & -> & Hm & He & ->)|(a & s & x & r & n & -> & Ha & Hm & He & ->)].
  - rewrite stod_dec by (intros c s' E; eapply dec_not_x; eauto). rewrite (dec_branch_iff s x r n v _ Hm He). tauto.
  - rewrite (stod_hex a _ Ha). pose proof (fun c => hex_branch_iff s x r n v c Hm He) as Hh. cbn [String.length].
    destruct (hex_branch (s ++ r)) as [[v' c']|] eqn:E.
    + specialize (Hh (2 + String.length (s ++ r))%nat). cbn [Nat.add] in Hh. tauto.
    + assert (Hr : ends_mant hex_digit r).
      { destruct He as [|q t n Hq _ _]; [exact I|]. apply (proj1 (lower_is "p" q ltac:(cbn; tauto))) in Hq. destruct Hq as [-> | ->]; split; try reflexivity; discriminate. }
      destruct (read_mant_ok hex_digit 16 ltac:(lia) D16 eq_refl s x r Hm Hr) as (m & k & -> & _). split; [discriminate|].
      intros RR. specialize (Hh (2 + String.length (s ++ r))%nat). destruct Hh as [_ Hh]. specialize (Hh (conj eq_refl RR)). discriminate.
Qed.

Lemma mantissa_value b s x : (0 < b)%Z -> mantissa b s x -> exists m k, (0 <= m)%Z /\ x = IZR m / IZR b ^ k.
Proof.
  intros Hb H. assert (N : forall s v, digits b s v -> (0 <= v)%Z) by (induction 1 as [|s0 c v d H0 IH [H1 _] Hd]; nia).
  destruct H as [s m Hs H|s t m f Hs H H'].
  - exists m, 0%nat. split; [eauto|]. cbn. field.
  - exists (m * b ^ Z.of_nat (String.length t) + f)%Z, (String.length t). split.
    + pose proof (N _ _ H). pose proof (N _ _ H'). pose proof (Z.pow_nonneg b (Z.of_nat (String.length t)) ltac:(lia)). nia.
    + rewrite plus_IZR, mult_IZR, <- pow_IZR. field. apply pow_nonzero. apply not_0_IZR. lia.
Qed.
Lemma numeral_value w y : numeral w y -> exists num den, (0 <= num)%Z /\ (0 < den)%Z /\ y = IZR num / IZR den.
Proof.
  assert (G : forall b s x c n, (0 < b)%Z -> (0 < c)%Z -> mantissa b s x -> exists num den, (0 <= num)%Z /\ (0 < den)%Z /\ x * IZR c ^ n = IZR num / IZR den).
  { intros b s x c n Hb Hc Hm. destruct (mantissa_value b s x Hb Hm) as (m & k & Hm0 & ->).
    exists (m * c ^ Z.of_nat n)%Z, (b ^ Z.of_nat k)%Z. pose proof (Z.pow_pos_nonneg c (Z.of_nat n) Hc ltac:(lia)). pose proof (Z.pow_pos_nonneg b (Z.of_nat k) Hb ltac:(lia)).
    split; [nia|]. split; [lia|]. rewrite mult_IZR, <- !pow_IZR. field. apply pow_nonzero. apply not_0_IZR. lia. }
  intros H. destruct (numeral_cases w y H) as [(s & x & r & n & -> & Hm & _ & ->)|(a & s & x & r & n & -> & _ & Hm & _ & ->)].
  - apply (G 10%Z s x 10%Z (Z.to_nat n)); auto; lia.
  - apply (G 16%Z s x 2%Z (Z.to_nat n)); auto; lia.
Qed.

(** ** inf, nan *)
Lemma starts_same p s : (forall c, In c (list_ascii_of_string p) -> In c (list_ascii_of_string "infityan")) ->
  String.length p = String.length s -> starts_ci p s = same_letters p s.
Proof.
  revert s. induction p as [|a p IH]; intros [|b s] Hp L; try reflexivity; try discriminate. cbn [starts_ci same_letters].
  rewrite IH; [|intros c Hc; apply Hp; now right|now injection L]. f_equal.
  assert (Ha : In a (list_ascii_of_string "infityan")) by (apply Hp; now left). cbn in Ha. clear -Ha.
  decompose [or] Ha; subst; try tauto; destruct b as [[] [] [] [] [] [] [] []]; reflexivity.
Qed.

Lemma starts_len p s : starts_ci p s = true -> (String.length p <= String.length s)%nat.
Proof. revert s. induction p as [|a p IH]; intros [|b s] H; cbn in *; try lia; try discriminate. apply andb_prop in H as [_ H]. specialize (IH _ H). lia. Qed.

Lemma same_len p s : same_letters p s = true -> String.length p = String.length s.
Proof. revert s. induction p as [|a p IH]; intros [|b s] H; cbn in *; try discriminate; auto. apply andb_prop in H as [_ H]. now rewrite (IH _ H). Qed.

Definition special (w : string) (v : b64) : Prop :=
  (same_letters "inf" w = true \/ same_letters "infinity" w = true) /\ v = B754_infinity false \/
  same_letters "nan" w = true /\ v = B754_nan.

Lemma special_reads w v : special w v -> stod_unsigned false w = Some (v, String.length w).
Proof.
  intros H. assert (Hc : exists c s, w = String c s /\ In c ["i"; "I"; "n"; "N"]%char).
  { destruct w as [|c w]; [destruct H as [[[H|H] _]|[H _]]; discriminate|]. exists c, w. split; [reflexivity|].
    assert (E : upper c = "I"%char \/ upper c = "N"%char).
    { destruct H as [[[H|H] _]|[H _]]; cbn [same_letters] in H; apply andb_prop in H as [H _]; apply Ascii.eqb_eq in H; rewrite <- H; cbn; auto. }
    clear -E. destruct c as [[] [] [] [] [] [] [] []]; vm_compute in E; destruct E as [E|E]; try discriminate E; cbn; auto. }
  assert (Em : read_mant dec_digit 10 w = None).
  { destruct Hc as (c & s & -> & Hc). unfold read_mant. cbn [read_digits]. cbn in Hc. decompose [or] Hc; subst; try tauto; reflexivity. }
  rewrite stod_dec.
  2:{ intros c' s' ->. destruct Hc as (c & s & E & Hc). injection E as <- _. cbn in Hc. decompose [or] Hc; discriminate || tauto. }
  unfold dec_branch. rewrite Em.
  assert (Sl : forall p, In p ["infinity"; "inf"; "nan"] -> same_letters p w = true -> starts_ci p w = true).
  { intros p Hp Hs. rewrite starts_same; auto; [|now apply same_len]. intros c Hc'. cbn in Hp. decompose [or] Hp; subst; try tauto; cbn in Hc' |- *; tauto. }
  destruct H as [[[H|H] ->]|[H ->]].
  - destruct (starts_ci "infinity" w) eqn:E; [apply starts_len in E; apply same_len in H; rewrite <- H in E; cbn in E; lia|].
    rewrite (Sl "inf") by (cbn; auto). apply same_len in H. now rewrite <- H.
  - rewrite (Sl "infinity") by (cbn; auto). apply same_len in H. now rewrite <- H.
  - assert (En : starts_ci "infinity" w = false /\ starts_ci "inf" w = false).
    { destruct w as [|c w]; [discriminate|]. cbn [same_letters] in H. apply andb_prop in H as [H _]. apply Ascii.eqb_eq in H. cbn [starts_ci].
      assert (N : Ascii.eqb "i" (lower c) = false) by (clear -H; destruct c as [[] [] [] [] [] [] [] []]; vm_compute in H; try discriminate H; reflexivity).
      now rewrite N. }
    destruct En as [-> ->]. rewrite (Sl "nan") by (cbn; auto). apply same_len in H. now rewrite <- H.
Qed.

Lemma dec_branch_inv w v : no_sign w -> dec_branch w = Some (v, String.length w) -> (exists y, numeral w y) \/ special w v.
Proof.
  intros Hs H. unfold dec_branch in H. destruct (read_mant dec_digit 10 w) as [[[[m k] n] t]|] eqn:E.
  - left. destruct (read_mant_inv dec_digit 10 ltac:(lia) D10 _ _ _ _ _ E) as (p & -> & -> & Hm & Hp).
    destruct (read_exp "e" t) as [ex ne] eqn:Ex.
    assert (Hl : ne = String.length t).
    { unfold dec_value in H. rewrite slen_app in H. destruct (ex - Z.of_nat k <? 0)%Z; apply ranged_iff in H as (_ & H & _); lia. }
    destruct (read_exp_inv "e" t ex ne Ex Hl (no_sign_app _ _ Hs)) as [[-> ->]|(c & t' & -> & Hc & Ht & Hd)].
    + eexists. apply (numeral_dec p _ "" 0 Hp). constructor.
    + eexists. apply (numeral_dec p _ (String c t') ex Hp). now constructor.
  - right. assert (Sl : forall p, In p ["infinity"; "inf"; "nan"] -> String.length p = String.length w -> starts_ci p w = true -> same_letters p w = true).
    { intros p Hp Hlen Hst. rewrite <- starts_same; auto. intros c Hc'. cbn in Hp. decompose [or] Hp; subst; try tauto; cbn in Hc' |- *; tauto. }
    destruct (starts_ci "infinity" w) eqn:E1.
    { injection H as <- H. left. split; [right; apply Sl; cbn; auto|reflexivity]. }
    destruct (starts_ci "inf" w) eqn:E2.
    { injection H as <- H. left. split; [left; apply Sl; cbn; auto|reflexivity]. }
    destruct (starts_ci "nan" w) eqn:E3; [|discriminate].
    injection H as <- H. right. split; [apply Sl; cbn; auto|reflexivity].
Qed.

Lemma stod_inv w v : no_sign w -> stod_unsigned false w = Some (v, String.length w) -> (exists y, numeral w y) \/ special w v.
Proof.
  intros Hs H.
  assert (C : (exists c s, w = String "0" (String c s) /\ lower c = "x"%char) \/ (forall c s', w = String "0" (String c s') -> lower c <> "x"%char)).
  { destruct w as [|a [|c w]]; try (right; intros; discriminate). destruct (ascii_dec a "0") as [->|Hn]; [|right; intros c' s' E; congruence].
    destruct (ascii_dec (lower c) "x") as [Hc|Hc]; [left; eauto|]. right. intros c' s' E. injection E as -> _. exact Hc. }
  destruct C as [(c & s & -> & Hc)|C]; [|rewrite (stod_dec w C) in H; now apply dec_branch_inv].
  rewrite (stod_hex c s Hc) in H. unfold hex_branch in H.
  destruct (read_mant hex_digit 16 s) as [[[[m k] n] t]|] eqn:E; [|now apply dec_branch_inv].
  left. destruct (read_mant_inv hex_digit 16 ltac:(lia) D16 _ _ _ _ _ E) as (p & -> & -> & Hm & Hp).
  destruct (read_exp "p" t) as [ex ne] eqn:Ex.
  assert (Hl : ne = String.length t).
  { unfold hex_value in H. cbn [String.length] in H. rewrite slen_app in H. match type of H with match ?r with _ => _ end = _ => destruct r as [[v' c']|] eqn:Er end; [|discriminate].
    injection H as -> H. apply ranged_iff in Er as (_ & Er & _). lia. }
  assert (Hs' : no_sign t) by (destruct Hs as [_ [_ Hs]]; exact (no_sign_app _ _ Hs)).
  destruct (read_exp_inv "p" t ex ne Ex Hl Hs') as [[-> ->]|(q & t' & -> & Hq & Ht & Hd)].
  + eexists. apply (numeral_hex c p _ "" 0 Hc Hp). constructor.
  + eexists. apply (numeral_hex c p _ (String q t') ex Hc Hp). now constructor.
Qed.

Theorem stod_iff w v : w <> "" -> wordy w ->
  (b_stod w = Some (v, String.length w) <-> (exists x, numeral w x /\ readable x /\ reads x v) \/ special w v).
Proof.
  intros Hn Hw. rewrite (stod_word w Hn Hw). split.
  - intros H. destruct (stod_inv w v (wordy_no_sign w Hw) H) as [(y & Hy)|Hs]; [|now right].
    left. exists y. split; [exact Hy|]. now apply (numeral_reads w y v Hy).
  - intros [(x & Hx & R)|Hs]; [now apply (numeral_reads w x v Hx)|now apply special_reads].
Qed.
