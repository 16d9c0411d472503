(** Integer computations in doubles are exact. *)
From Coq Require Import String List ZArith Bool Arith Lia Reals Lra.
From Flocq Require Import IEEE754.BinarySingleNaN Core.
From Verif Require Import Base MathOp IEEE NodeModel ExprSpec SubsSpec FloatSpec FloatFacts IntSpec MatModel MatSpec MatProofs DetProofs RealSpec.
Import ListNotations.
Local Open Scope R_scope.

Lemma rnd_int z : exact_range z -> rnd (IZR z) = IZR z.
Proof.
  unfold exact_range. intros H. apply round_generic; [apply valid_rnd_round_mode|].
  destruct (Z.eq_dec (Z.abs z) (2 ^ 53)) as [E|E].
  - assert (G : generic_format radix2 fexp (bpow radix2 53)).
    { apply generic_format_bpow. vm_compute. discriminate. }
    change (bpow radix2 53) with (IZR (2 ^ 53)) in G.
    destruct (Z.abs_eq_or_opp z) as [H'|H'].
    + replace z with (2 ^ 53)%Z by lia. exact G.
    + replace z with (- (2 ^ 53))%Z by lia. rewrite opp_IZR. apply generic_format_opp. exact G.
  - apply generic_format_FLT. exists (Float radix2 z 0); [unfold F2R; cbn; ring|cbn; lia|cbn; lia].
Qed.
Lemma int_small z : exact_range z -> Rabs (IZR z) < bpow radix2 1024.
Proof.
  unfold exact_range. intros H. rewrite <- abs_IZR. apply Rle_lt_trans with (IZR (2 ^ 53)); [now apply IZR_le|].
  change (IZR (2 ^ 53)) with (bpow radix2 53). now apply bpow_lt.
Qed.

Lemma ofZ_is z : exact_range z -> is_Z (b_ofZ z) z.
Proof.
  intros H. unfold b_ofZ. pose proof (binary_normalize_correct 53 1024 Hprec Hemax mode_NE z 0 false) as G. cbv zeta in G.
  assert (E1 : F2R (Float radix2 z 0) = IZR z) by (unfold F2R; cbn; ring).
  change (SpecFloat.fexp 53 1024) with fexp in G. rewrite E1 in G. fold (rnd (IZR z)) in G.
  rewrite rnd_int, Rlt_bool_true in G by (auto; now apply int_small). split; apply G.
Qed.
Lemma opp_is x z : is_Z x z -> is_Z (Bopp x) (- z).
Proof. intros [F E]. split; [unfold fin; now rewrite is_finite_Bopp|]. now rewrite B2R_Bopp, E, opp_IZR. Qed.
Lemma abs_is x z : is_Z x z -> is_Z (Babs x) (Z.abs z).
Proof. intros [F E]. split; [unfold fin; now rewrite is_finite_Babs|]. now rewrite B2R_Babs, E, abs_IZR. Qed.
Lemma add_is x y a b : is_Z x a -> is_Z y b -> exact_range (a + b) -> is_Z (Bplus mode_NE x y) (a + b).
Proof.
  intros [Fx Ex] [Fy Ey] H. assert (F : fin (Bplus mode_NE x y)).
  { apply add_fin; auto. rewrite Ex, Ey, <- plus_IZR, rnd_int by auto. now apply int_small. }
  split; auto. rewrite add_R, Ex, Ey, <- plus_IZR by auto. now apply rnd_int.
Qed.
Lemma sub_is x y a b : is_Z x a -> is_Z y b -> exact_range (a - b) -> is_Z (Bminus mode_NE x y) (a - b).
Proof.
  intros [Fx Ex] [Fy Ey] H. assert (F : fin (Bminus mode_NE x y)).
  { apply sub_fin; auto. rewrite Ex, Ey, <- minus_IZR, rnd_int by auto. now apply int_small. }
  split; auto. rewrite sub_R, Ex, Ey, <- minus_IZR by auto. now apply rnd_int.
Qed.
Lemma mul_is x y a b : is_Z x a -> is_Z y b -> exact_range (a * b) -> is_Z (Bmult mode_NE x y) (a * b).
Proof.
  intros [Fx Ex] [Fy Ey] H. assert (F : fin (Bmult mode_NE x y)).
  { apply mul_fin; auto. rewrite Ex, Ey, <- mult_IZR, rnd_int by auto. now apply int_small. }
  split; auto. rewrite mul_R, Ex, Ey, <- mult_IZR by auto. now apply rnd_int.
Qed.
(** Division is correctly rounded, and exact if there is no remainder. *)
Lemma div_rnd x y a b : is_Z x a -> is_Z y b -> b <> 0%Z -> exact_range a ->
  fin (Bdiv mode_NE x y) /\ B2R (Bdiv mode_NE x y) = rnd (IZR a / IZR b).
Proof.
  intros [Fx Ex] [Fy Ey] Hb Ha. assert (Hb' : IZR b <> 0) by now apply not_0_IZR.
  assert (Hy : B2R y <> 0) by (rewrite Ey; auto).
  assert (F : fin (Bdiv mode_NE x y)).
  { apply div_fin; auto. rewrite Ex, Ey. apply Rle_lt_trans with (Rabs (IZR a)); [|now apply int_small].
    assert (Q : Rabs (IZR a / IZR b) <= Rabs (IZR a)).
    { unfold Rdiv. rewrite Rabs_mult, Rabs_Rinv by auto. rewrite <- (Rmult_1_r (Rabs (IZR a))) at 2.
      apply Rmult_le_compat_l; [apply Rabs_pos|]. rewrite <- Rinv_1. apply Rinv_le; [lra|].
      rewrite <- abs_IZR. apply IZR_le. lia. }
    unfold rnd. apply abs_round_le_generic; [apply fexp_valid|apply valid_rnd_round_mode| |exact Q].
    rewrite <- abs_IZR. rewrite <- (rnd_int (Z.abs a)) by (unfold exact_range in *; lia). apply rnd_format. }
  split; auto. rewrite Bdiv_R, Ex, Ey by auto. reflexivity.
Qed.
Lemma div_is x y a b q : is_Z x a -> is_Z y b -> b <> 0%Z -> exact_range a -> a = (q * b)%Z -> is_Z (Bdiv mode_NE x y) q.
Proof.
  intros Hx Hy Hb Ha E. destruct (div_rnd x y a b Hx Hy Hb Ha) as [F R]. split; auto. rewrite R.
  assert (Hb' : IZR b <> 0) by now apply not_0_IZR.
  replace (IZR a / IZR b) with (IZR q) by (rewrite E, mult_IZR; field; auto).
  apply rnd_int. unfold exact_range in *. nia.
Qed.
Lemma sqrt_is x z : is_Z x (z * z) -> (0 <= z)%Z -> exact_range (z * z) -> is_Z (Bsqrt mode_NE x) z.
Proof.
  intros [F E] Hz Hr. assert (Hs : sqrt (IZR (z * z)) = IZR z). { rewrite mult_IZR. apply sqrt_square. now apply IZR_le. }
  assert (Hs' : B2R (Bsqrt mode_NE x) = IZR z).
  { rewrite sqrt_R, E, Hs. apply rnd_int. unfold exact_range in *. nia. }
  split; auto. pose proof (Bsqrt_correct 53 1024 Hprec Hemax mode_NE x) as (_ & G & _).
  unfold fin. rewrite G. destruct x as [s|s| |s m e He]; try discriminate; auto. destruct s; auto.
  exfalso. assert (B2R (B754_finite true m e He) < 0) by (apply F2R_lt_0; reflexivity).
  assert (0 <= IZR (z * z)) by (apply IZR_le; nia). lra.
Qed.
Lemma toint_is x z : is_Z x z -> int32 z -> b_toint x = Some z.
Proof.
  intros [F E] H. unfold int32 in H. destruct x as [s|s| |s m e He]; try discriminate.
  - cbn in *. f_equal. apply eq_IZR. now rewrite <- E.
  - unfold b_toint. assert (T : Btrunc (B754_finite s m e He) = z).
    { apply eq_IZR. rewrite Btrunc_correct by exact (refl_equal Lt). rewrite E. apply round_generic; [apply valid_rnd_ZR|].
      apply generic_format_FIX. exists (Float radix2 z 0); [unfold F2R; cbn; ring|reflexivity]. }
    rewrite T. rewrite (proj2 (Z.leb_le _ _)), (proj2 (Z.leb_le _ _)) by lia. reflexivity.
Qed.
Lemma is_inj x y z : is_Z x z -> is_Z y z -> Beqb x y = true.
Proof. intros [F E] [F' E']. apply eqb_R; congruence. Qed.
Lemma is_fun x y z : is_Z x y -> is_Z x z -> y = z.
Proof. intros [_ E] [_ E']. apply eq_IZR. congruence. Qed.

(** ** Expressions *)
Lemma int32_bits z : int32 z <-> (Z.shiftr z 31 = 0 \/ Z.shiftr z 31 = -1)%Z.
Proof.
  unfold int32. rewrite Z.shiftr_div_pow2 by lia. change (2 ^ 31)%Z with 2147483648%Z.
  pose proof (Z.div_mod z 2147483648). pose proof (Z.mod_pos_bound z 2147483648). lia.
Qed.
Lemma int32_land y z : int32 y -> int32 z -> int32 (Z.land y z).
Proof. rewrite !int32_bits, Z.shiftr_land. intros [-> | ->] [-> | ->]; cbn; auto. Qed.
Lemma int32_lor y z : int32 y -> int32 z -> int32 (Z.lor y z).
Proof. rewrite !int32_bits, Z.shiftr_lor. intros [-> | ->] [-> | ->]; cbn; auto. Qed.
Lemma int32_rem y z : int32 y -> int32 z -> z <> 0%Z -> int32 (Z.rem y z).
Proof.
  unfold int32. intros H H' Hz. pose proof (Z.rem_bound_abs y z Hz). lia.
Qed.
Lemma int32_range z : int32 z -> exact_range z.
Proof. unfold int32, exact_range. change (2 ^ 53)%Z with 9007199254740992%Z. lia. Qed.

Lemma zvalue_range V is env (e : expr V) z : zvalue is env e z -> exact_range z.
Proof.
  induction 1; auto.
  - unfold exact_range in *. lia.
  - unfold exact_range in *. nia.
  - unfold exact_range in *. nia.
  - now apply int32_range, int32_rem.
  - now apply int32_range, int32_land.
  - now apply int32_range, int32_lor.
Qed.

Section E.
Context (L : libm).
Notation K := (B64 L).

Lemma finish_is s (x : b64) z : is_Z x z -> finish (K:=K) s (Some (x : K)) = ExprSpec.Value (x : K).
Proof.
  intros [F _]. unfold finish. pose proof (invalid_fin L x) as I. rewrite F in I.
  change (invalidb (K:=K) (x : K) = false) in I. now rewrite I, andb_false_r.
Qed.

Lemma eval_zvalue s (env : string -> b64) (zenv : string -> Z) (e : expr K) z :
  (forall x, is_Z (env x) (zenv x)) -> zvalue (V:=K) is_Z zenv e z ->
  exists v : b64, eval (K:=K) s (filled L env e) = ExprSpec.Value (v : K) /\ is_Z v z.
Proof.
  intros Henv H. unfold filled.
  assert (Fin1 : forall u (a : expr K) x r z, eval (K:=K) s (subst (fun x => Some (ENum (env x : K))) a) = ExprSpec.Value (x : K) ->
    un_sem (K:=K) u (x : K) = (r : K) -> is_Z r z ->
    exists v : b64, eval (K:=K) s (subst (fun x => Some (ENum (env x : K))) (EUn u a)) = ExprSpec.Value (v : K) /\ is_Z v z).
  { intros u a x r z0 E1 E2 E3. exists r. split; auto. cbn [subst eval]. rewrite E1, E2. now apply (finish_is s r z0). }
  assert (Fin2 : forall b (a c : expr K) x y r z, eval (K:=K) s (subst (fun x => Some (ENum (env x : K))) a) = ExprSpec.Value (x : K) ->
    eval (K:=K) s (subst (fun x => Some (ENum (env x : K))) c) = ExprSpec.Value (y : K) ->
    bin_sem (K:=K) b (x : K) (y : K) = Some (r : K) -> is_Z r z ->
    exists v : b64, eval (K:=K) s (subst (fun x => Some (ENum (env x : K))) (EBin b a c)) = ExprSpec.Value (v : K) /\ is_Z v z).
  { intros b a c x y r z0 E1 E1' E2 E3. exists r. split; auto. cbn [subst eval]. rewrite E1, E1', E2. now apply (finish_is s r z0). }
  induction H.
  - exists (v : b64). split; [reflexivity|auto].
  - exists (env x). split; [reflexivity|auto].
  - destruct IHzvalue as (v & E & I). eapply Fin1; [exact E|reflexivity|exact I].
  - destruct IHzvalue as (v & E & I). eapply Fin1; [exact E|reflexivity|]. now apply opp_is.
  - destruct IHzvalue1 as (v & E & I). destruct IHzvalue2 as (w & E' & I'). eapply Fin2; [exact E|exact E'|reflexivity|]. now apply add_is.
  - destruct IHzvalue1 as (v & E & I). destruct IHzvalue2 as (w & E' & I'). eapply Fin2; [exact E|exact E'|reflexivity|]. now apply sub_is.
  - destruct IHzvalue1 as (v & E & I). destruct IHzvalue2 as (w & E' & I'). eapply Fin2; [exact E|exact E'|reflexivity|]. now apply mul_is.
  - destruct IHzvalue1 as (v & E & I). destruct IHzvalue2 as (w & E' & I'). eapply Fin2; [exact E|exact E'|reflexivity|].
    eapply div_is; eauto. eapply zvalue_range; eauto.
  - destruct IHzvalue as (v & E & I). eapply Fin1; [exact E|reflexivity|]. apply sqrt_is; auto. eapply zvalue_range; eauto.
  - destruct IHzvalue1 as (v & E & I). destruct IHzvalue2 as (w & E' & I'). eapply Fin2; [exact E|exact E'| |].
    + cbn [bin_sem n_toint B64]. rewrite (toint_is v y), (toint_is w z) by auto.
      rewrite (proj2 (Z.eqb_neq z 0)) by auto. destruct (Z.eqb_spec y (-2147483648)), (Z.eqb_spec z (-1)); try (exfalso; tauto); reflexivity.
    + apply ofZ_is. now apply int32_range, int32_rem.
  - destruct IHzvalue1 as (v & E & I). destruct IHzvalue2 as (w & E' & I'). eapply Fin2; [exact E|exact E'| |].
    + cbn [bin_sem n_toint B64]. rewrite (toint_is v y), (toint_is w z) by auto. reflexivity.
    + apply ofZ_is. now apply int32_range, int32_land.
  - destruct IHzvalue1 as (v & E & I). destruct IHzvalue2 as (w & E' & I'). eapply Fin2; [exact E|exact E'| |].
    + cbn [bin_sem n_toint B64]. rewrite (toint_is v y), (toint_is w z) by auto. reflexivity.
    + apply ofZ_is. now apply int32_range, int32_lor.
Qed.

(** ** Sums *)
Lemma sum_is (n : nat) (f : nat -> b64) (g : nat -> Z) (B : Z) : (forall i, (i < n)%nat -> is_Z (f i) (g i)) ->
  (forall i, (i < n)%nat -> Z.abs (g i) <= B)%Z -> (Z.of_nat n * B <= 2 ^ 53)%Z ->
  exists z, is_Z (ksum (K:=K) n (fun i => f i : K)) z /\ (Z.abs z <= Z.of_nat n * B)%Z /\
    ksum (K:=Rops) n (fun i => Some (IZR (g i)) : Rops) = (Some (IZR z) : Rops).
Proof.
  intros Hf Hg HB. unfold ksum.
  destruct n as [|n]. { exists 0%Z. split; [apply ofZ_is; unfold exact_range; lia|]. split; [lia|reflexivity]. }
  cbn [seq map va_sum].
  assert (G : forall l (x : b64) a k, is_Z x a -> (Z.abs a <= Z.of_nat k * B)%Z -> (k + length l <= S n)%nat -> (forall i, In i l -> (i < S n)%nat) ->
    exists z, is_Z (fold_left (n_add (n:=K)) (map (fun i => f i : K) l) (x : K) : b64) z /\ (Z.abs z <= Z.of_nat (k + length l) * B)%Z /\
      fold_left (n_add (n:=Rops)) (map (fun i => Some (IZR (g i)) : Rops) l) (Some (IZR a) : Rops) = (Some (IZR z) : Rops)).
  { induction l as [|i l IH]; intros x a k Hx Ha Hk Hl; cbn [map fold_left].
    - exists a. rewrite Nat.add_0_r. auto.
    - pose proof (Hg i (Hl i (or_introl eq_refl))) as Gi. cbn [length] in Hk.
      destruct (IH (Bplus mode_NE x (f i)) (a + g i)%Z (S k)) as (z & Z1 & Z2 & Z3).
      + apply add_is; auto. { apply Hf, Hl. now left. } unfold exact_range.
        assert (Z.of_nat (S k) * B <= Z.of_nat (S n) * B)%Z by (apply Z.mul_le_mono_nonneg_r; lia). lia.
      + lia.
      + lia.
      + intros j Hj. apply Hl. now right.
      + exists z. split; [exact Z1|]. split; [cbn [length]; now rewrite Nat.add_succ_r|]. cbn [n_add Rops lift2 r_bin]. rewrite <- plus_IZR. exact Z3. }
  destruct (G (seq 1 n) (f 0%nat) (g 0%nat) 1%nat) as (z & Z1 & Z2 & Z3).
  - apply Hf. lia.
  - specialize (Hg 0%nat). lia.
  - rewrite seq_length. lia.
  - intros i Hi. apply in_seq in Hi. lia.
  - exists z. rewrite seq_length in Z2. auto.
Qed.

(** ** Determinants *)
Lemma det_bound_pos n M : (1 <= M)%Z -> (1 <= det_bound n M)%Z.
Proof. intros HM. induction n as [|n IH]; cbn [det_bound]; nia. Qed.
Lemma det_bound_mono n M : (1 <= M)%Z -> (det_bound n M <= det_bound (S n) M)%Z.
Proof. intros HM. cbn [det_bound]. pose proof (det_bound_pos n M HM). nia. Qed.
Lemma det_bound_le k n M : (1 <= M)%Z -> (k <= n)%nat -> (det_bound k M <= det_bound n M)%Z.
Proof. intros HM H. induction H; [lia|]. pose proof (det_bound_mono m M HM). lia. Qed.

Lemma kdet_is M n : forall (f : nat -> nat -> b64) (g : nat -> nat -> Z), (1 <= M)%Z -> (0 < n)%nat ->
  (forall i j, (i < n)%nat -> (j < n)%nat -> is_Z (f i j) (g i j)) ->
  (forall i j, (i < n)%nat -> (j < n)%nat -> Z.abs (g i j) <= M)%Z -> (det_bound n M <= 2 ^ 53)%Z ->
  exists z, is_Z (kdet (K:=K) n (fun i j => f i j : K)) z /\ (Z.abs z <= det_bound n M)%Z /\
    kdet (K:=Rops) n (fun i j => Some (IZR (g i j)) : Rops) = (Some (IZR z) : Rops).
Proof.
  induction n as [|n IH]; intros f g HM Hn Hf Hg HB; [lia|]. clear Hn. destruct n as [|[|n]].
  - exists (g 0 0)%nat. cbn [kdet]. split; [apply Hf; lia|]. split; [|reflexivity]. specialize (Hg 0 0)%nat. cbn [det_bound]. lia.
  - clear IH. cbn [det_bound] in *. cbn [kdet]. exists (g 0%nat 0%nat * g 1%nat 1%nat - g 1%nat 0%nat * g 0%nat 1%nat)%Z.
    pose proof (Hg 0 0)%nat as G00. pose proof (Hg 0 1)%nat as G01. pose proof (Hg 1 0)%nat as G10. pose proof (Hg 1 1)%nat as G11.
    assert (P1 : (Z.abs (g 0%nat 0%nat * g 1%nat 1%nat) <= M * M)%Z). { rewrite Z.abs_mul. apply Z.mul_le_mono_nonneg; lia. }
    assert (P2 : (Z.abs (g 1%nat 0%nat * g 0%nat 1%nat) <= M * M)%Z). { rewrite Z.abs_mul. apply Z.mul_le_mono_nonneg; lia. }
    split.
    + apply sub_is; [apply mul_is; [apply Hf; lia|apply Hf; lia|unfold exact_range; nia]|apply mul_is; [apply Hf; lia|apply Hf; lia|unfold exact_range; nia]|unfold exact_range; nia].
    + split; [lia|]. cbn [n_sub n_mul Rops lift2 r_bin]. now rewrite minus_IZR, !mult_IZR.
  - set (m := S (S n)) in *. rewrite (kdet_step (K:=K) (S m)), (kdet_step (K:=Rops) (S m)) by (unfold m; lia).
    replace (S m - 1)%nat with m by lia.
    assert (HB' : (det_bound m M <= 2 ^ 53)%Z) by (pose proof (det_bound_mono m M HM); lia).
    set (T := (M * det_bound m M)%Z). pose proof (det_bound_pos m M HM) as Bp.
    assert (HT : (Z.of_nat (S m) * T <= 2 ^ 53)%Z) by (cbn [det_bound] in HB; unfold T; lia).
    assert (HT' : det_bound (S m) M = (Z.of_nat (S m) * T)%Z) by (cbn [det_bound]; unfold T; lia). rewrite HT'.
    assert (Tp : (1 <= T)%Z) by (unfold T; nia).
    match goal with |- exists z, is_Z (fst (fold_left ?s _ _)) z /\ _ /\ fst (fold_left ?t _ _) = _ => set (stepB := s); set (stepR := t) end.
    assert (G : forall l (x : b64) a s k, is_Z x a -> (Z.abs a <= Z.of_nat k * T)%Z -> (s = 1 \/ s = -1)%Z -> (k + length l <= S m)%nat ->
      (forall i, In i l -> (i < S m)%nat) ->
      exists z, is_Z (fst (fold_left stepB l (x : K, s)) : b64) z /\ (Z.abs z <= Z.of_nat (k + length l) * T)%Z /\
        fst (fold_left stepR l ((Some (IZR a) : Rops), s)) = (Some (IZR z) : Rops)).
    { induction l as [|q l IHl]; intros x a s k Hx Ha Hs Hk Hl; cbn [fold_left].
      - exists a. cbn [length]. rewrite Nat.add_0_r. auto.
      - cbn [length] in Hk. assert (Hq : (q < S m)%nat) by (apply Hl; now left).
        destruct (IH (fun i j => f (S i) (skip q j)) (fun i j => g (S i) (skip q j))) as (d & D1 & D2 & D3); auto.
        + unfold m. lia.
        + intros i j Hi Hj. apply Hf; [lia|]. unfold skip. destruct (Nat.ltb j q); lia.
        + intros i j Hi Hj. apply Hg; [lia|]. unfold skip. destruct (Nat.ltb j q); lia.
        + pose proof (Hg 0%nat q ltac:(lia) Hq) as Gq.
          assert (P : (Z.abs (s * g 0%nat q * d) <= T)%Z).
          { rewrite !Z.abs_mul. replace (Z.abs s) with 1%Z by lia. rewrite Z.mul_1_l. unfold T. apply Z.mul_le_mono_nonneg; lia. }
          assert (Hk1 : (Z.of_nat (S k) * T <= Z.of_nat (S m) * T)%Z) by (apply Z.mul_le_mono_nonneg_r; lia).
          destruct (IHl (Bplus mode_NE x (Bmult mode_NE (Bmult mode_NE (b_ofZ s) (f 0%nat q)) (kdet (K:=K) m (fun i j => f (S i) (skip q j) : K))))
            (a + s * g 0%nat q * d)%Z (- s)%Z (S k)) as (z & Z1 & Z2 & Z3).
          * apply add_is; auto; [|unfold exact_range; lia]. apply mul_is; [|exact D1|unfold exact_range; lia].
            apply mul_is; [apply ofZ_is; unfold exact_range; lia|apply Hf; lia|].
            unfold exact_range. rewrite Z.abs_mul. replace (Z.abs s) with 1%Z by lia. unfold T in *. nia.
          * lia.
          * lia.
          * lia.
          * intros i Hi. apply Hl. now right.
          * exists z. split; [exact Z1|]. split; [cbn [length]; now rewrite Nat.add_succ_r|].
            rewrite <- Z3. unfold stepR at 2. rewrite D3. cbn [n_add n_mul n_ofZ Rops lift2 r_bin].
            now rewrite plus_IZR, !mult_IZR. }
    destruct (G (seq 0 (S m)) (b_ofZ 0) 0%Z 1%Z 0%nat) as (z & Z1 & Z2 & Z3).
    + apply ofZ_is. unfold exact_range. lia.
    + lia.
    + now left.
    + rewrite seq_length. lia.
    + intros i Hi. apply in_seq in Hi. lia.
    + exists z. rewrite seq_length in Z2. auto.
Qed.

Lemma kcof_is M n (f : nat -> nat -> b64) (g : nat -> nat -> Z) p q : (1 <= M)%Z -> (1 < n)%nat ->
  (forall i j, (i < n)%nat -> (j < n)%nat -> is_Z (f i j) (g i j)) ->
  (forall i j, (i < n)%nat -> (j < n)%nat -> Z.abs (g i j) <= M)%Z -> (det_bound n M <= 2 ^ 53)%Z ->
  exists z, is_Z (kcof (K:=K) n (fun i j => f i j : K) p q) z /\ exact_range z /\
    kcof (K:=Rops) n (fun i j => Some (IZR (g i j)) : Rops) p q = (Some (IZR z) : Rops).
Proof.
  intros HM Hn Hf Hg HB. unfold kcof.
  pose proof (det_bound_le (n - 1) n M HM ltac:(lia)) as Hle.
  assert (Sk : forall k i, (i < n - 1)%nat -> (skip k i < n)%nat). { intros k i Hi. unfold skip. destruct (Nat.ltb i k); lia. }
  destruct (kdet_is M (n - 1) (fun i j => f (skip p i) (skip q j)) (fun i j => g (skip p i) (skip q j))) as (z & Z1 & Z2 & Z3); auto; try lia.
  rewrite Z3. destruct (_ =? 0)%nat.
  - exists z. split; [exact Z1|]. split; [unfold exact_range; lia|reflexivity].
  - exists (- z)%Z. split; [now apply opp_is|]. split; [unfold exact_range; lia|]. cbn [n_neg Rops lift1 r_un]. now rewrite opp_IZR.
Qed.
End E.

Lemma leb_is (x y : b64) a b : is_Z x a -> is_Z y b -> Bleb x y = (a <=? b)%Z.
Proof.
  intros [Fx Ex] [Fy Ey]. rewrite (Bleb_correct 53 1024 x y Fx Fy), Ex, Ey.
  destruct (Z.leb_spec a b); [apply Rle_bool_true|apply Rle_bool_false]; [now apply IZR_le|now apply IZR_lt].
Qed.
