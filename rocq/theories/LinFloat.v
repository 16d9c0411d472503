(** SolveLinear in doubles: every step satisfies the hypotheses of LinRound.v. *)
From Coq Require Import String List ZArith Bool Arith Lia Reals Lra.
From Flocq Require Import IEEE754.BinarySingleNaN Core.
From Verif Require Import Base MathOp IEEE MatModel LinearModel MatSpec MatProofs LinGen AffineSpec FloatSpec FloatFacts RoundSpec RoundProofs SolveSpec LinRound.
Import ListNotations.
Local Open Scope list_scope.
Local Open Scope R_scope.

(** ** Magnitudes *)
Lemma large_bpow : large = bpow radix2 1000. Proof. unfold large. rewrite <- IZR_Zpower by lia. reflexivity. Qed.
Lemma large_pos : 1 <= large. Proof. rewrite large_bpow. change 1 with (bpow radix2 0). apply bpow_le. lia. Qed.
Lemma large_tiny : large * tiny <= ulp1 * / 1000.
Proof.
  rewrite large_bpow, tiny_bpow, ulp1_bpow, <- bpow_plus. replace (1000 + -1075)%Z with (-53 + -22)%Z by lia. rewrite bpow_plus.
  apply Rmult_le_compat_l; [apply bpow_ge_0|]. change (bpow radix2 (-22)) with (/ IZR (Z.pow_pos 2 22)).
  apply Rinv_le_contravar; [lra|]. apply (IZR_le 1000). vm_compute. discriminate.
Qed.
Lemma large_huge : 1000 * large <= huge.
Proof.
  rewrite large_bpow, huge_bpow. replace 1024%Z with (24 + 1000)%Z by lia. rewrite bpow_plus.
  apply Rmult_le_compat_r; [apply bpow_ge_0|]. change (bpow radix2 24) with (IZR (Z.pow_pos 2 24)).
  apply (IZR_le 1000). vm_compute. discriminate.
Qed.
Lemma large_pow : large = 2 ^ 1000.
Proof. unfold large. rewrite (pow_IZR 2 1000). reflexivity. Qed.
Global Opaque large.

Lemma Rabs_le_mult a b x y : Rabs a <= x -> Rabs b <= y -> Rabs (a * b) <= x * y.
Proof. intros. rewrite Rabs_mult. apply Rmult_le_compat; auto using Rabs_pos. Qed.
Lemma Rabs_le_plus a b x y : Rabs a <= x -> Rabs b <= y -> Rabs (a + b) <= x + y.
Proof. intros. eapply Rle_trans; [apply Rabs_triang|]. lra. Qed.
Lemma Rabs_le_minus a b x y : Rabs a <= x -> Rabs b <= y -> Rabs (a - b) <= x + y.
Proof. intros. unfold Rminus. apply Rabs_le_plus; auto. now rewrite Rabs_Ropp. Qed.

(** ** One entry *)
Section Entry.
Variables (eps : R).
Hypothesis He : / large <= eps <= 1.
Lemma eps_pos : 0 < eps.
Proof. pose proof large_pos. assert (0 < / large) by (apply Rinv_0_lt_compat; lra). lra. Qed.
Lemma tiny_eps : tiny <= ulp1 * / 1000 * eps.
Proof.
  pose proof large_pos as P. pose proof large_tiny as T. pose proof ulp1_pos.
  apply Rle_trans with (ulp1 * / 1000 * / large); [|apply Rmult_le_compat_l; lra].
  apply Rmult_le_reg_l with large; [lra|]. replace (large * (ulp1 * / 1000 * / large)) with (ulp1 * / 1000) by (field; lra). exact T.
Qed.

Lemma quotient (a p : b64) Q : fin a -> fin p -> eps <= Rabs (B2R p) <= large * eps -> Rabs (B2R a) <= Q -> eps <= Q <= large * eps ->
  fin (Bdiv mode_NE a p) /\ Rabs (B2R p * B2R (Bdiv mode_NE a p) - B2R a) <= 2 * ulp1 * Q.
Proof.
  intros Fa Fp Hp Ha HQ. pose proof eps_pos as P. pose proof large_pos as PL. pose proof ulp1_pos as U. pose proof ulp1_small as U'. pose proof tiny_pos as Ut.
  assert (Np : B2R p <> 0). { intros E. rewrite E, Rabs_R0 in Hp. lra. }
  assert (Hq : Rabs (B2R a / B2R p) <= large).
  { unfold Rdiv. rewrite Rabs_mult, Rabs_inv. apply Rmult_le_reg_r with (Rabs (B2R p)); [lra|].
    rewrite Rmult_assoc, Rinv_l, Rmult_1_r by lra. apply Rle_trans with (large * eps); [lra|]. apply Rmult_le_compat_l; lra. }
  pose proof tiny_eps as Te. pose proof large_tiny as LT. pose proof large_huge as LH.
  assert (F : fin (Bdiv mode_NE a p)).
  { apply div_fin; auto. apply rnd_small. apply Rle_lt_trans with (large * (1 + ulp1) + tiny); [|nra].
    apply Rplus_le_compat_r. apply Rmult_le_compat_r; [lra|exact Hq]. }
  split; [exact F|]. rewrite Bdiv_R by auto. destruct (rnd_model (B2R a / B2R p)) as (d & t & Hd & Ht & ->).
  replace (B2R p * (B2R a / B2R p * (1 + d) + t) - B2R a) with (B2R a * d + B2R p * t) by (field; auto).
  eapply Rle_trans; [apply Rabs_le_plus; apply Rabs_le_mult; [exact Ha|exact Hd|apply Hp|exact Ht]|].
  replace (large * eps * tiny) with (large * tiny * eps) by ring.
  assert (large * tiny * eps <= ulp1 * / 1000 * eps) by (apply Rmult_le_compat_r; lra). 
  assert (ulp1 * / 1000 * eps <= ulp1 * / 1000 * Q) by (apply Rmult_le_compat_l; lra).
  assert (ulp1 * / 1000 * Q <= ulp1 * Q). { apply Rmult_le_compat_r; lra. } lra.
Qed.

Lemma update (x q l : b64) Q : fin x -> fin q -> fin l -> Rabs (B2R x) <= Q -> Rabs (B2R q * B2R l) <= (1 + 2 * ulp1) * Q -> eps <= Q <= large * eps ->
  let w := Bminus mode_NE x (Bmult mode_NE q l) in
  fin w /\ Rabs (B2R w - (B2R x - B2R q * B2R l)) <= 5 * ulp1 * Q /\ Rabs (B2R w) <= kap * Q.
Proof.
  intros Fx Fq Fl Hx Hm HQ. pose proof eps_pos as P. pose proof large_pos as PL. pose proof ulp1_pos as U. pose proof ulp1_small as U'. pose proof tiny_pos as Ut.
  pose proof tiny_eps as Te. pose proof large_tiny as LT. pose proof large_huge as LH.
  assert (QL : Q <= large). { apply Rle_trans with (large * eps); [lra|]. nra. }
  assert (TQ : tiny <= / 2 * ulp1 * Q). { assert (ulp1 * / 1000 * eps <= ulp1 * / 1000 * Q) by (apply Rmult_le_compat_l; lra). nra. }
  assert (UQ : 0 <= ulp1 * Q) by nra.
  assert (UUQ : ulp1 * (ulp1 * Q) <= / 1000 * (ulp1 * Q)) by (apply Rmult_le_compat_r; lra).
  assert (Ft : fin (Bmult mode_NE q l)).
  { apply mul_fin; auto. apply rnd_small. apply Rle_lt_trans with ((1 + 2 * ulp1) * Q * (1 + ulp1) + tiny); [|nra].
    apply Rplus_le_compat_r. apply Rmult_le_compat_r; [lra|exact Hm]. }
  assert (Et : Rabs (B2R (Bmult mode_NE q l) - B2R q * B2R l) <= 2 * ulp1 * Q).
  { rewrite mul_R by auto. destruct (rnd_model (B2R q * B2R l)) as (d & t & Hd & Ht & ->).
    replace (B2R q * B2R l * (1 + d) + t - B2R q * B2R l) with (B2R q * B2R l * d + t) by ring.
    eapply Rle_trans; [apply Rabs_le_plus; [apply Rabs_le_mult; [exact Hm|exact Hd]|exact Ht]|]. nra. }
  set (t := Bmult mode_NE q l) in *.
  assert (Ht : Rabs (B2R t) <= (1 + 4 * ulp1) * Q).
  { replace (B2R t) with (B2R t - B2R q * B2R l + B2R q * B2R l) by ring.
    eapply Rle_trans; [apply Rabs_le_plus; [exact Et|exact Hm]|]. lra. }
  assert (Hd : Rabs (B2R x - B2R t) <= (2 + 4 * ulp1) * Q).
  { eapply Rle_trans; [apply Rabs_le_minus; [exact Hx|exact Ht]|]. lra. }
  assert (Fw : fin (Bminus mode_NE x t)).
  { apply sub_fin; auto. apply rnd_small. apply Rle_lt_trans with ((2 + 4 * ulp1) * Q * (1 + ulp1) + tiny); [|nra].
    apply Rplus_le_compat_r. apply Rmult_le_compat_r; [lra|exact Hd]. }
  intros w. unfold w. split; [exact Fw|]. rewrite sub_R by auto. destruct (rnd_minus_model x t) as (d & Hdd & ->). split.
  - replace ((B2R x - B2R t) * (1 + d) - (B2R x - B2R q * B2R l)) with ((B2R x - B2R t) * d - (B2R t - B2R q * B2R l)) by ring.
    eapply Rle_trans; [apply Rabs_le_minus; [apply Rabs_le_mult; [exact Hd|exact Hdd]|exact Et]|]. nra.
  - assert (H1 : Rabs (1 + d) <= 1 + ulp1). { apply Rabs_le_plus; auto. rewrite Rabs_R1. lra. }
    eapply Rle_trans; [apply Rabs_le_mult; [exact Hd|exact H1]|]. unfold kap.
    replace (2 * (1 + ulp1) ^ 3 * Q) with (2 * (1 + ulp1) ^ 2 * Q * (1 + ulp1)) by ring.
    apply Rmult_le_compat_r; [lra|]. apply Rmult_le_compat_r; [lra|]. nra.
Qed.
End Entry.

(** ** The pivot search *)
Section Pivot.
Context (L : libm).
Notation K := (B64 L).

Lemma fold_max_64 (g : nat -> b64) (l : list nat) : forall a : b64, fin a -> (forall k, In k l -> fin (g k)) ->
  exists m : b64, fold_left (fun m x => if n_ltb (n:=K) m x then x else m) (map (fun k => g k : K) l) (a : K) = (m : K) /\ fin m /\
    B2R a <= B2R m /\ (forall k, In k l -> B2R (g k) <= B2R m) /\ (m = a \/ exists k, In k l /\ m = g k).
Proof.
  induction l as [|k l IH]; intros a Fa Fg; cbn [map fold_left].
  - exists a. repeat split; auto; [lra|]. intros k [].
  - change (n_ltb (n:=K) (a : K) (g k : K)) with (Bltb a (g k)).
    assert (Fk : fin (g k)) by (apply Fg; now left). rewrite (Bltb_correct _ _ a (g k) Fa Fk).
    destruct (Rlt_bool_spec (B2R a) (B2R (g k))) as [E|E].
    + destruct (IH (g k) Fk ltac:(intros; apply Fg; now right)) as (m & Em & Fm & H1 & H2 & H3). exists m. split; [exact Em|]. split; [exact Fm|].
      split; [lra|]. split.
      * intros k' [<-|Hk]; auto.
      * right. destruct H3 as [->|(k' & Hk' & ->)]; [exists k|exists k']; simpl; auto.
    + destruct (IH a Fa ltac:(intros; apply Fg; now right)) as (m & Em & Fm & H1 & H2 & H3). exists m. split; [exact Em|]. split; [exact Fm|]. split; [lra|]. split.
      * intros k' [<-|Hk]; auto. lra.
      * destruct H3 as [->|(k' & Hk' & ->)]; [now left|]. right. exists k'. simpl; auto.
Qed.
Lemma va_max_64 (g : nat -> b64) s n : (0 < n)%nat -> (forall k, (s <= k < s + n)%nat -> fin (g k)) ->
  exists m : b64, va_max (map (fun k => g k : K) (seq s n)) = Ok (m : K) /\ fin m /\
  (forall k, (s <= k < s + n)%nat -> B2R (g k) <= B2R m) /\ exists k, (s <= k < s + n)%nat /\ g k = m.
Proof.
  intros Hn Fg. destruct n as [|n]; [lia|]. cbn [seq map]. unfold va_max, pick.
  destruct (fold_max_64 g (seq (S s) n) (g s)) as (m & E & Fm & H1 & H2 & H3).
  { apply Fg; lia. } { intros k Hk. apply in_seq in Hk. apply Fg. lia. }
  exists m. split; [f_equal; exact E|]. split; [exact Fm|]. split.
  - intros k Hk. destruct (Nat.eq_dec k s) as [->|]; [auto|]. apply H2. apply in_seq. lia.
  - destruct H3 as [->|(k & Hk & ->)]; [exists s; split; [lia|auto]|]. apply in_seq in Hk. exists k. split; [lia|auto].
Qed.
Lemma find_index_64 (g : nat -> b64) (m : b64) n : forall s, fin m -> (forall k, (s <= k < s + n)%nat -> fin (g k)) ->
  (exists k, (s <= k < s + n)%nat /\ B2R (g k) = B2R m) ->
  let p := find_index (fun v => n_eqb (n:=K) v (m : K)) (map (fun k => g k : K) (seq s n)) in
  (p < n)%nat /\ B2R (g (s + p)%nat) = B2R m.
Proof.
  induction n as [|n IH]; intros s Fm Fg (k & Hk & Ek); [lia|]. cbn [seq map find_index].
  change (n_eqb (n:=K) (g s : K) (m : K)) with (Beqb (g s) m).
  assert (Fs : fin (g s)) by (apply Fg; lia). pose proof (eqb_R (g s) m Fs Fm) as E. destruct (Beqb (g s) m).
  - rewrite Nat.add_0_r. split; [lia|]. now apply E.
  - assert (Hne : B2R (g s) <> B2R m) by (intros Q; apply E in Q; discriminate).
    destruct (IH (S s) Fm ltac:(intros; apply Fg; lia)) as (H1 & H2).
    { exists k. split; [|auto]. assert (k <> s) by (intros ->; auto). lia. }
    set (p := find_index _ _) in *. clearbody p. replace (s + S p)%nat with (S s + p)%nat by lia. split; [lia|exact H2].
Qed.
Lemma GetMaxAbs_64 r c (f : nat -> nat -> b64) (A : mat K) s e col :
  is_mat (K:=K) r c (fun i j => f i j : K) A -> (s <= e)%nat -> (e < r)%nat -> (col < c)%nat -> (forall k, (s <= k <= e)%nat -> fin (f k col)) ->
  exists p, GetMaxAbsRowIndex A s e col = Ok p /\ (s <= p <= e)%nat /\
    (forall k, (s <= k <= e)%nat -> Rabs (B2R (f k col)) <= Rabs (B2R (f p col))).
Proof.
  intros HA Hs He Hc Ff. unfold GetMaxAbsRowIndex. rewrite (Col_ok _ _ _ _ col 0 HA Hc) by lia. cbn [bind].
  destruct (Nat.leb_spec s (S e)); [|lia]. unfold slice.
  rewrite (va_read_map _ _ (fun k => f (s + k)%nat col : K)).
  2:{ intros k Hk. apply in_seq in Hk. rewrite nth_error_map, Nat.sub_0_r, Nat.mul_1_r.
      rewrite (nth_error_nth' _ 0%nat) by (rewrite seq_length; lia). rewrite seq_nth by lia. reflexivity. }
  cbn [bind]. rewrite map_map. set (g := fun k => Babs (f (s + k)%nat col)).
  change (map (fun x : nat => n_abs (n:=K) (f (s + x)%nat col : K)) (seq 0 (S e - s))) with (map (fun k => g k : K) (seq 0 (S e - s))).
  assert (Fg : forall k, (0 <= k < 0 + (S e - s))%nat -> fin (g k)).
  { intros k Hk. unfold fin, g. rewrite is_finite_Babs. apply Ff. lia. }
  destruct (va_max_64 g 0 (S e - s)) as (m & -> & Fm & M1 & (k0 & Hk0 & Ek0)); [lia|exact Fg|]. cbn [bind].
  destruct (find_index_64 g m (S e - s) 0 Fm Fg) as (P1 & P2); [exists k0; split; [auto|now rewrite Ek0]|]. cbn zeta in *.
  set (p := find_index _ _) in *. exists (p + s)%nat. split; [reflexivity|]. split; [lia|].
  assert (Ep : Rabs (B2R (f (p + s)%nat col)) = B2R m). { rewrite <- P2. unfold g. rewrite B2R_Babs. simpl. now rewrite Nat.add_comm. }
  rewrite Ep. intros k Hk. specialize (M1 (k - s)%nat). unfold g in M1. rewrite B2R_Babs in M1. replace (s + (k - s))%nat with k in M1 by lia. apply M1. lia.
Qed.
End Pivot.
