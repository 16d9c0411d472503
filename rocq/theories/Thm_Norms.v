(** C47: norms, minimum, dot product.  C48: FindAlpha. *)
From Coq Require Import String List ZArith Bool Arith Lia Reals Lra.
From Flocq Require Import Core IEEE754.BinarySingleNaN.
From Verif Require Import Base MathOp MatModel NonlinearModel MatSpec MatProofs SymMatProofs RealSpec IEEE AffineSpec.
Import ListNotations.
Local Open Scope string_scope.
Local Open Scope list_scope.
Local Open Scope nat_scope.

Section Any.
Context {K : num_ops}.
Implicit Types (A B : mat K) (f g : nat -> nat -> K).

Lemma entry_in r c f A v : is_mat r c f A -> In v (m_data A) <-> exists i j, i < r /\ j < c /\ v = f i j.
Proof.
  intros H. rewrite (is_mat_data _ _ _ _ H), in_map_iff. split.
  - intros ([i j] & <- & Hi). apply in_prod_iff in Hi as [Hi Hj]. apply in_seq in Hi, Hj. exists i, j. repeat split; lia.
  - intros (i & j & Hi & Hj & ->). exists (i, j). split; [reflexivity|]. apply in_prod; apply in_seq; lia.
Qed.

Lemma entries_nonempty r c f A : 0 < r -> 0 < c -> is_mat r c f A -> m_data A <> [].
Proof. intros Hr Hc (_ & _ & L & _) E. rewrite E in L. simpl in L. nia. Qed.

(** The element [pick] chooses, for a comparison that orders the elements. *)
Lemma pick_best (better : K -> K -> bool) (P : K -> Prop) l :
  (forall a b c, P a -> P b -> P c -> better a b = false -> better b c = false -> better a c = false) ->
  (forall a b, P a -> P b -> better a b = true -> better b a = false) -> (forall a, P a -> better a a = false) ->
  l <> [] -> (forall v, In v l -> P v) ->
  exists m, pick better l = Ok m /\ In m l /\ forall v, In v l -> better m v = false.
Proof.
  intros Tr As Ir Ne HP. destruct l as [|a l]; [congruence|]. cbn [pick].
  assert (G : forall l a, P a -> (forall v, In v l -> P v) -> let m := fold_left (fun m x => if better m x then x else m) l a in
    In m (a :: l) /\ P m /\ better m a = false /\ forall v, In v l -> better m v = false).
  { clear l a Ne HP. induction l as [|b l IH]; intros a Pa Hl; cbn [fold_left].
    - split; [now left|]. split; [exact Pa|]. split; [now apply Ir|]. intros v [].
    - assert (Pb : P b) by (apply Hl; now left). assert (Hl' : forall v, In v l -> P v) by (intros v Hv; apply Hl; now right).
      destruct (better a b) eqn:E.
      + destruct (IH b Pb Hl') as (I1 & I2 & I3 & I4). split; [simpl; destruct I1 as [<-|I1]; auto|]. split; [exact I2|].
        split; [eapply Tr; [exact I2|exact Pb|exact Pa|exact I3|now apply As]|]. intros v [<-|Hv]; auto.
      + destruct (IH a Pa Hl') as (I1 & I2 & I3 & I4). split; [simpl; destruct I1 as [<-|I1]; auto|]. split; [exact I2|].
        split; [exact I3|]. intros v [<-|Hv]; auto. eapply Tr; [exact I2|exact Pa|exact Pb|exact I3|exact E]. }
  destruct (G l a) as (I1 & _ & I2 & I3); [apply HP; now left|intros v Hv; apply HP; now right|].
  eexists. split; [reflexivity|]. split; [exact I1|]. intros v [<-|Hv]; auto.
Qed.

(** ** C47 *)
(** In every arithmetic: Norm2 is the sum of the squares of the entries, row by row (there is
    no square root). *)
Theorem C47_norm2 r c f A : is_mat r c f A ->
  Norm2 A = ksum (r * c) (fun k => n_mul (f (k / c) (k mod c)) (f (k / c) (k mod c))).
Proof.
  intros H. unfold Norm2, ksum. f_equal. pose proof (is_mat_nth _ _ _ _ H) as N. destruct H as (_ & _ & L & _).
  apply nth_error_ext. intros k. rewrite !nth_error_map. destruct (Nat.ltb_spec k (r * c)) as [Hk|Hk].
  - assert (c <> 0) by (intros ->; lia). destruct (divmod_lt r c k Hk) as [L1 L2]. specialize (N (k / c) (k mod c) L1 L2).
    rewrite Nat.mul_comm, <- Nat.div_mod in N by auto. rewrite N. rewrite (nth_error_nth' _ 0) by (rewrite seq_length; lia). rewrite seq_nth by lia. reflexivity.
  - rewrite (proj2 (nth_error_None _ _)) by lia. rewrite (proj2 (nth_error_None _ _)) by (rewrite seq_length; lia). reflexivity.
Qed.

Theorem C47_dot n x y (v w : mat K) : is_vec n x v -> is_vec n y w -> Dot v w = Ok (ksum n (fun k => n_mul (x k) (y k))).
Proof.
  intros Hv Hw. pose proof (is_mat_nth _ _ _ _ Hv) as N1. pose proof (is_mat_nth _ _ _ _ Hw) as N2. destruct Hv as (E1 & _ & L1 & _), Hw as (E2 & _ & L2 & _).
  unfold Dot. rewrite E1, E2, Nat.eqb_refl. unfold ksum.
  assert (G : forall (l1 l2 : list K) s, length l1 = length l2 -> (forall i, i < length l1 -> nth_error l1 i = Some (x (s + i)) /\ nth_error l2 i = Some (y (s + i))) ->
    va_map2 n_mul l1 l2 = Ok (map (fun k => n_mul (x k) (y k)) (seq s (length l1)))).
  { induction l1 as [|a l1 IH]; intros [|b l2] s L H; try discriminate; [reflexivity|]. cbn [va_map2 length seq map].
    rewrite (IH l2 (S s)); [|now injection L|].
    - cbn [bind]. destruct (H 0 ltac:(simpl; lia)) as [Ha Hb]. cbn in Ha, Hb. rewrite Nat.add_0_r in Ha, Hb. injection Ha as ->. injection Hb as ->. reflexivity.
    - intros i Hi. destruct (H (S i) ltac:(simpl; lia)) as [Ha Hb]. cbn in Ha, Hb. rewrite <- plus_n_Sm in Ha, Hb. auto. }
  rewrite (G _ _ 0); [|lia|].
  - cbn [bind]. do 3 f_equal. f_equal. lia.
  - intros i Hi. rewrite L1, Nat.mul_1_r in Hi. specialize (N1 i 0 Hi Nat.lt_0_1). specialize (N2 i 0 Hi Nat.lt_0_1).
    rewrite Nat.mul_1_r, Nat.add_0_r in N1, N2. auto.
Qed.
End Any.

(** Exact reals. *)
Section Reals.
Local Open Scope R_scope.
Implicit Types (f g : nat -> nat -> R) (A B : mat Rops).
Definition rmat r c f A : Prop := is_mat (K:=Rops) r c (fun i j => Some (f i j)) A.

Lemma ksum_rsum n (g : nat -> R) : ksum (K:=Rops) n (fun k => Some (g k)) = Some (rsum n g) :> Rops.
Proof.
  assert (S1 : forall n (g : nat -> R), rsum (S n) g = g 0%nat + rsum n (fun k => g (S k))).
  { clear. induction n as [|m IH]; intros h; cbn [rsum] in *; [lra|]. rewrite IH. lra. }
  assert (G : forall n s a, fold_left (n_add : Rops -> Rops -> Rops) (map (fun k => Some (g k) : Rops) (seq s n)) (Some a : Rops) = Some (a + rsum n (fun k => g (s + k)%nat))).
  { clear n. induction n as [|m IH]; intros s a; [cbn; f_equal; lra|]. cbn [seq map fold_left]. rewrite S1.
    change (n_add (Some a : Rops) (Some (g s))) with (Some (a + g s) : Rops). rewrite IH. f_equal. rewrite Nat.add_0_r, Rplus_assoc. do 2 f_equal.
    clear. induction m as [|m IH]; cbn [rsum]; [reflexivity|]. rewrite IH. do 2 f_equal. lia. }
  unfold ksum, va_sum. destruct n as [|n]; [reflexivity|]. cbn [seq map]. etransitivity; [apply G|]. rewrite S1. reflexivity.
Qed.

Lemma rsum_ext' n (g h : nat -> R) : (forall j, (j < n)%nat -> g j = h j) -> rsum n g = rsum n h.
Proof. induction n as [|n IH]; intros H; cbn [rsum]; [reflexivity|]. rewrite IH, H; auto. Qed.

Lemma rsum_nonneg n (g : nat -> R) : (forall j, (j < n)%nat -> 0 <= g j) -> 0 <= rsum n g.
Proof. induction n as [|n IH]; intros H; cbn [rsum]; [lra|]. pose proof (IH (fun j Hj => H j (Nat.lt_lt_succ_r _ _ Hj))). pose proof (H n (Nat.lt_succ_diag_r n)). lra. Qed.
Lemma rsum_zero n (g : nat -> R) : (forall j, (j < n)%nat -> 0 <= g j) -> rsum n g = 0 -> forall j, (j < n)%nat -> g j = 0.
Proof.
  induction n as [|n IH]; intros H E j Hj; [lia|]. cbn [rsum] in E.
  assert (0 <= rsum n g) by (apply rsum_nonneg; intros k Hk; apply H; lia). pose proof (H n (Nat.lt_succ_diag_r n)).
  destruct (Nat.eq_dec j n) as [->|]; [lra|]. apply IH; [intros k Hk; apply H; lia|lra|lia].
Qed.

Lemma rsum_split r c (g : nat -> R) : rsum (r * c) g = rsum r (fun i => rsum c (fun j => g (i * c + j)%nat)).
Proof.
  induction r as [|r IH]; cbn [rsum]; [reflexivity|]. rewrite <- IH. replace (S r * c)%nat with (r * c + c)%nat by lia.
  generalize c at 2 4. intros c'. induction c' as [|m IHm]; cbn [rsum]; [rewrite Nat.add_0_r; lra|]. rewrite <- plus_n_Sm. cbn [rsum]. rewrite IHm. lra.
Qed.

Theorem C47_norm2_real r c f A : rmat r c f A -> Norm2 A = (Some (rsum r (fun i => rsum c (fun j => f i j * f i j))) : Rops).
Proof.
  intros H. rewrite (C47_norm2 _ _ _ _ H). etransitivity; [exact (ksum_rsum (r * c) (fun k => f (k / c)%nat (k mod c)%nat * f (k / c)%nat (k mod c)%nat))|].
  f_equal. rewrite rsum_split. apply rsum_ext'. intros i _. apply rsum_ext'. intros j Hj.
  rewrite Nat.add_comm, Nat.div_add, Nat.div_small, Nat.mod_add, Nat.mod_small by lia. reflexivity.
Qed.

Theorem C47_norm2_zero r c f A : rmat r c f A -> (Norm2 A = (Some 0 : Rops) <-> forall i j, (i < r)%nat -> (j < c)%nat -> f i j = 0).
Proof.
  intros H. rewrite (C47_norm2_real _ _ _ _ H). split.
  - intros E i j Hi Hj. injection E as E.
    assert (P : forall i, 0 <= rsum c (fun j => f i j * f i j)) by (intros k; apply rsum_nonneg; intros; apply Rle_0_sqr).
    pose proof (rsum_zero _ _ (fun k _ => P k) E i Hi) as Q. pose proof (rsum_zero _ _ (fun k _ => Rle_0_sqr (f i k)) Q j Hj) as Z. now apply Rsqr_0_uniq.
  - intros Z. f_equal. transitivity (rsum r (fun _ => 0)).
    + apply rsum_ext'. intros i Hi. transitivity (rsum c (fun _ => 0)); [apply rsum_ext'; intros j Hj; rewrite Z by auto; lra|].
      clear. induction c as [|m IH]; cbn [rsum]; [reflexivity|]. rewrite IH. lra.
    + clear. induction r as [|m IH]; cbn [rsum]; [reflexivity|]. rewrite IH. lra.
Qed.

Lemma ltb_some a b : n_ltb (Some a : Rops) (Some b : Rops) = false <-> b <= a.
Proof. cbn. unfold Rltb. destruct (Rlt_dec a b); split; intros; try discriminate; try reflexivity; lra. Qed.

Lemma pick_max (l : list Rops) : l <> [] -> (forall v, In v l -> v <> None) ->
  exists m, va_max l = Ok (Some m : Rops) /\ In (Some m : Rops) l /\ forall x, In (Some x : Rops) l -> x <= m.
Proof.
  intros Ne HP. destruct (pick_best (K:=Rops) n_ltb (fun v => v <> None) l) as (m & E & I1 & I2); auto.
  - intros [a|] [b|] [c|] Ha Hb Hc; try congruence. rewrite !ltb_some. lra.
  - intros [a|] [b|] Ha Hb; try congruence. cbn. unfold Rltb. destruct (Rlt_dec a b); [|discriminate]. destruct (Rlt_dec b a); [lra|reflexivity].
  - intros [a|] Ha; try congruence. apply ltb_some. lra.
  - destruct m as [m|]; [|exfalso; exact (HP _ I1 eq_refl)]. exists m. split; [exact E|]. split; [exact I1|]. intros x Hx. now apply ltb_some, I2.
Qed.
Lemma pick_min (l : list Rops) : l <> [] -> (forall v, In v l -> v <> None) ->
  exists m, va_min l = Ok (Some m : Rops) /\ In (Some m : Rops) l /\ forall x, In (Some x : Rops) l -> m <= x.
Proof.
  intros Ne HP. destruct (pick_best (K:=Rops) (fun m x => n_ltb x m) (fun v => v <> None) l) as (m & E & I1 & I2); auto.
  - intros [a|] [b|] [c|] Ha Hb Hc; try congruence. rewrite !ltb_some. lra.
  - intros [a|] [b|] Ha Hb; try congruence. cbn. unfold Rltb. destruct (Rlt_dec b a); [|discriminate]. destruct (Rlt_dec a b); [lra|reflexivity].
  - intros [a|] Ha; try congruence. apply ltb_some. lra.
  - destruct m as [m|]; [|exfalso; exact (HP _ I1 eq_refl)]. exists m. split; [exact E|]. split; [exact I1|]. intros x Hx. now apply ltb_some, I2.
Qed.

Section Extrema.
Variables (r c : nat) (f : nat -> nat -> R) (A : mat Rops).
Hypotheses (Hr : (0 < r)%nat) (Hc : (0 < c)%nat) (HA : rmat r c f A).

Lemma abs_entries : rmat r c (fun i j => Rabs (f i j)) (MkMat (m_rows A) (m_cols A) (map n_abs (m_data A))).
Proof. exact (map_is_mat r c _ A n_abs HA). Qed.

Theorem C47_norm_infinity : exists m, NormInfinity A = Ok (Some m : Rops) /\
  (forall i j, (i < r)%nat -> (j < c)%nat -> Rabs (f i j) <= m) /\ exists i j, (i < r)%nat /\ (j < c)%nat /\ m = Rabs (f i j).
Proof.
  pose proof abs_entries as H. destruct (pick_max (map n_abs (m_data A))) as (m & E & I1 & I2).
  - exact (entries_nonempty _ _ _ _ Hr Hc H).
  - intros v Hv E. apply (entry_in _ _ _ _ v H) in Hv as (i & j & _ & _ & Hv). congruence.
  - exists m. split; [exact E|]. split.
    + intros i j Hi Hj. apply I2. apply (entry_in _ _ _ _ _ H). exists i, j. auto.
    + apply (entry_in _ _ _ _ _ H) in I1 as (i & j & Hi & Hj & Ev). exists i, j. injection Ev as ->. auto.
Qed.
Theorem C47_norm_neg_infinity : exists m, NormNegInfinity A = Ok (Some m : Rops) /\
  (forall i j, (i < r)%nat -> (j < c)%nat -> m <= Rabs (f i j)) /\ exists i j, (i < r)%nat /\ (j < c)%nat /\ m = Rabs (f i j).
Proof.
  pose proof abs_entries as H. destruct (pick_min (map n_abs (m_data A))) as (m & E & I1 & I2).
  - exact (entries_nonempty _ _ _ _ Hr Hc H).
  - intros v Hv E. apply (entry_in _ _ _ _ v H) in Hv as (i & j & _ & _ & Hv). congruence.
  - exists m. split; [exact E|]. split.
    + intros i j Hi Hj. apply I2. apply (entry_in _ _ _ _ _ H). exists i, j. auto.
    + apply (entry_in _ _ _ _ _ H) in I1 as (i & j & Hi & Hj & Ev). exists i, j. injection Ev as ->. auto.
Qed.
Theorem C47_min : exists m, Mat_Min A = Ok (Some m : Rops) /\
  (forall i j, (i < r)%nat -> (j < c)%nat -> m <= f i j) /\ exists i j, (i < r)%nat /\ (j < c)%nat /\ m = f i j.
Proof.
  destruct (pick_min (m_data A)) as (m & E & I1 & I2).
  - exact (entries_nonempty _ _ _ _ Hr Hc HA).
  - intros v Hv E. apply (entry_in _ _ _ _ v HA) in Hv as (i & j & _ & _ & Hv). congruence.
  - exists m. split; [exact E|]. split.
    + intros i j Hi Hj. apply I2. apply (entry_in _ _ _ _ _ HA). exists i, j. auto.
    + apply (entry_in _ _ _ _ _ HA) in I1 as (i & j & Hi & Hj & Ev). exists i, j. injection Ev as ->. auto.
Qed.
End Extrema.

(** NormInfinity is a norm: triangle inequality, zero only for the zero matrix. *)
Theorem C47_norm_infinity_triangle r c f g A B C : (0 < r)%nat -> (0 < c)%nat -> rmat r c f A -> rmat r c g B -> Mat_add A B = Ok C ->
  exists a b s, NormInfinity A = Ok (Some a : Rops) /\ NormInfinity B = Ok (Some b : Rops) /\ NormInfinity C = Ok (Some s : Rops) /\ s <= a + b.
Proof.
  intros Hr Hc HA HB E. destruct (Mat_map2_ok (K:=Rops) n_add _ _ _ _ _ _ HA HB) as (C' & E' & HC). unfold Mat_add in E. rewrite E in E'. injection E' as <-.
  destruct (C47_norm_infinity r c f A Hr Hc HA) as (a & Ea & Ua & _). destruct (C47_norm_infinity r c g B Hr Hc HB) as (b & Eb & Ub & _).
  destruct (C47_norm_infinity r c (fun i j => f i j + g i j) C Hr Hc HC) as (s & Es & _ & i & j & Hi & Hj & ->). exists a, b, (Rabs (f i j + g i j)).
  split; [exact Ea|]. split; [exact Eb|]. split; [exact Es|]. pose proof (Rabs_triang (f i j) (g i j)). pose proof (Ua i j Hi Hj). pose proof (Ub i j Hi Hj). lra.
Qed.
Theorem C47_norm_infinity_zero r c f A : (0 < r)%nat -> (0 < c)%nat -> rmat r c f A ->
  (NormInfinity A = Ok (Some 0 : Rops) <-> forall i j, (i < r)%nat -> (j < c)%nat -> f i j = 0).
Proof.
  intros Hr Hc HA. destruct (C47_norm_infinity r c f A Hr Hc HA) as (a & Ea & Ua & i & j & Hi & Hj & E). rewrite Ea. split.
  - intros Ez i' j' Hi' Hj'. injection Ez as ->. pose proof (Ua i' j' Hi' Hj'). destruct (Req_dec (f i' j') 0) as [|N]; auto. pose proof (Rabs_pos_lt _ N). lra.
  - intros Z. rewrite E, Z by auto. now rewrite Rabs_R0.
Qed.

(** Cauchy-Schwarz. *)
Theorem C47_cauchy_schwarz n x y (v w : mat Rops) : rmat n 1 (fun i _ => x i) v -> rmat n 1 (fun i _ => y i) w ->
  exists d a b, Dot v w = Ok (Some d : Rops) /\ Norm2 v = (Some a : Rops) /\ Norm2 w = (Some b : Rops) /\ d * d <= a * b.
Proof.
  intros Hv Hw. exists (rsum n (fun k => x k * y k)), (rsum n (fun k => x k * x k)), (rsum n (fun k => y k * y k)).
  assert (E : forall z (u : mat Rops), rmat n 1 (fun i _ => z i) u -> Norm2 u = (Some (rsum n (fun k => z k * z k)) : Rops)).
  { intros z u Hu. rewrite (C47_norm2_real _ _ _ _ Hu). f_equal. apply rsum_ext'. intros i _. cbn [rsum]. lra. }
  split; [|split; [exact (E x v Hv)|split; [exact (E y w Hw)|]]].
  - rewrite (C47_dot (K:=Rops) n (fun i => Some (x i)) (fun i => Some (y i)) v w Hv Hw). f_equal. exact (ksum_rsum n (fun k => x k * y k)).
  - set (a := rsum n (fun k => x k * x k)). set (b := rsum n (fun k => x k * y k)). set (c := rsum n (fun k => y k * y k)).
    assert (Q : forall t, 0 <= a * (t * t) + 2 * b * t + c).
    { intros t. replace (a * (t * t) + 2 * b * t + c) with (rsum n (fun k => (x k * t + y k) * (x k * t + y k))); [apply rsum_nonneg; intros; apply Rle_0_sqr|].
      unfold a, b, c. clear. induction n as [|n IH]; cbn [rsum]; [lra|]. rewrite IH. ring. }
    assert (0 <= a) by (apply rsum_nonneg; intros; apply Rle_0_sqr).
    destruct (Req_dec a 0) as [E0|N0].
    + destruct (Req_dec b 0) as [->|Nb]; [rewrite E0; lra|]. exfalso. specialize (Q (- (c + 1) / (2 * b))). rewrite E0 in Q.
      replace (2 * b * (- (c + 1) / (2 * b))) with (- (c + 1)) in Q by (field; exact Nb). lra.
    + specialize (Q (- b / a)). assert (0 < a) by lra.
      replace (a * (- b / a * (- b / a)) + 2 * b * (- b / a) + c) with (c - b * b / a) in Q by (field; lra).
      assert (b * b / a <= c) by lra. apply Rmult_le_compat_r with (r := a) in H1; [|lra]. replace (b * b / a * a) with (b * b) in H1 by (field; lra). lra.
Qed.
End Reals.

(** Machine numbers, all finite: the same, no rounding happens. *)
Section Machine.
Variable L : libm.
Local Notation b64 := (binary_float 53 1024).
Variables (r c : nat) (f : nat -> nat -> b64) (A : mat (B64 L)).
Hypotheses (Hr : 0 < r) (Hc : 0 < c) (HA : is_mat (K:=B64 L) r c f A) (Hf : forall i j, i < r -> j < c -> is_finite (f i j) = true).

Lemma fin_ltb (x y : b64) : is_finite x = true -> is_finite y = true -> (Bltb x y = false <-> (B2R y <= B2R x)%R).
Proof. intros Hx Hy. rewrite Bltb_correct by auto. destruct (Rlt_bool_spec (B2R x) (B2R y)); split; intros; try discriminate; try reflexivity; lra. Qed.
Lemma fin_ltb_true (x y : b64) : is_finite x = true -> is_finite y = true -> Bltb x y = true -> (B2R x < B2R y)%R.
Proof. intros Hx Hy. rewrite Bltb_correct by auto. destruct (Rlt_bool_spec (B2R x) (B2R y)); [auto|discriminate]. Qed.

Lemma pick_max_64 (l : list (B64 L)) : l <> [] -> (forall v, In v l -> is_finite (v : b64) = true) ->
  exists m : b64, va_max l = Ok (m : B64 L) /\ In (m : B64 L) l /\ forall x : b64, In (x : B64 L) l -> (B2R x <= B2R m)%R.
Proof.
  intros Ne HP. destruct (pick_best (K:=B64 L) n_ltb (fun v => is_finite (v : b64) = true) l) as (m & E & I1 & I2); auto.
  - intros x y z Hx Hy Hz. change (Bltb x y = false -> Bltb y z = false -> Bltb x z = false). rewrite !fin_ltb by auto. lra.
  - intros x y Hx Hy H. apply fin_ltb; auto. apply fin_ltb_true in H; auto. lra.
  - intros x Hx. apply fin_ltb; auto. lra.
  - exists m. split; [exact E|]. split; [exact I1|]. intros x Hx. apply fin_ltb; auto. now apply I2.
Qed.
Lemma pick_min_64 (l : list (B64 L)) : l <> [] -> (forall v, In v l -> is_finite (v : b64) = true) ->
  exists m : b64, va_min l = Ok (m : B64 L) /\ In (m : B64 L) l /\ forall x : b64, In (x : B64 L) l -> (B2R m <= B2R x)%R.
Proof.
  intros Ne HP. destruct (pick_best (K:=B64 L) (fun m x => n_ltb x m) (fun v => is_finite (v : b64) = true) l) as (m & E & I1 & I2); auto.
  - intros x y z Hx Hy Hz. change (Bltb y x = false -> Bltb z y = false -> Bltb z x = false). rewrite !fin_ltb by auto. lra.
  - intros x y Hx Hy H. apply fin_ltb; auto. apply fin_ltb_true in H; auto. lra.
  - intros x Hx. apply fin_ltb; auto. lra.
  - exists m. split; [exact E|]. split; [exact I1|]. intros x Hx. apply fin_ltb; auto. now apply I2.
Qed.

Theorem C47_norm_infinity_64 : exists m : b64, NormInfinity A = Ok (m : B64 L) /\
  (forall i j, i < r -> j < c -> (Rabs (B2R (f i j)) <= B2R m)%R) /\ exists i j, i < r /\ j < c /\ m = Babs (f i j).
Proof.
  pose proof (map_is_mat (K:=B64 L) r c f A (Babs : B64 L -> B64 L) HA) as H. destruct (pick_max_64 (map (Babs : B64 L -> B64 L) (m_data A))) as (m & E & I1 & I2).
  - exact (entries_nonempty (K:=B64 L) _ _ _ _ Hr Hc H).
  - intros v Hv. apply (entry_in (K:=B64 L) _ _ _ _ v H) in Hv as (i & j & Hi & Hj & ->). rewrite is_finite_Babs. auto.
  - exists m. split; [exact E|]. split.
    + intros i j Hi Hj. rewrite <- B2R_Babs. apply I2. apply (entry_in (K:=B64 L) _ _ _ _ _ H). exists i, j. auto.
    + now apply (entry_in (K:=B64 L) _ _ _ _ _ H) in I1.
Qed.
Theorem C47_norm_neg_infinity_64 : exists m : b64, NormNegInfinity A = Ok (m : B64 L) /\
  (forall i j, i < r -> j < c -> (B2R m <= Rabs (B2R (f i j)))%R) /\ exists i j, i < r /\ j < c /\ m = Babs (f i j).
Proof.
  pose proof (map_is_mat (K:=B64 L) r c f A (Babs : B64 L -> B64 L) HA) as H. destruct (pick_min_64 (map (Babs : B64 L -> B64 L) (m_data A))) as (m & E & I1 & I2).
  - exact (entries_nonempty (K:=B64 L) _ _ _ _ Hr Hc H).
  - intros v Hv. apply (entry_in (K:=B64 L) _ _ _ _ v H) in Hv as (i & j & Hi & Hj & ->). rewrite is_finite_Babs. auto.
  - exists m. split; [exact E|]. split.
    + intros i j Hi Hj. rewrite <- B2R_Babs. apply I2. apply (entry_in (K:=B64 L) _ _ _ _ _ H). exists i, j. auto.
    + now apply (entry_in (K:=B64 L) _ _ _ _ _ H) in I1.
Qed.
Theorem C47_min_64 : exists m : b64, Mat_Min A = Ok (m : B64 L) /\
  (forall i j, i < r -> j < c -> (B2R m <= B2R (f i j))%R) /\ exists i j, i < r /\ j < c /\ m = f i j.
Proof.
  destruct (pick_min_64 (m_data A)) as (m & E & I1 & I2).
  - exact (entries_nonempty (K:=B64 L) _ _ _ _ Hr Hc HA).
  - intros v Hv. apply (entry_in (K:=B64 L) _ _ _ _ v HA) in Hv as (i & j & Hi & Hj & ->). auto.
  - exists m. split; [exact E|]. split.
    + intros i j Hi Hj. apply I2. apply (entry_in (K:=B64 L) _ _ _ _ _ HA). exists i, j. auto.
    + now apply (entry_in (K:=B64 L) _ _ _ _ _ HA) in I1.
Qed.
End Machine.

(** ** C48: FindAlpha *)
(** The arithmetic divides every number by itself to 1 or nan. *)
Record self_division (K : num_ops) : Prop := {
  sd_div : forall x : K, n_div x x = n_ofZ 1 \/ n_div x x = n_nan;
  sd_abs_1 : n_abs (n_ofZ 1 : K) = n_ofZ 1;
  sd_abs_nan : n_abs (n_nan : K) = n_nan
}.
Lemma self_division_R : self_division Rops.
Proof.
  constructor; [|cbn; f_equal; apply Rabs_R1|reflexivity]. intros [x|]; [|right; reflexivity]. cbn. destruct (Req_EM_T x 0) as [E|N]; [right; reflexivity|left].
  f_equal. field. exact N.
Qed.
Lemma self_division_64 L : self_division (B64 L).
Proof.
  constructor; [|reflexivity|reflexivity]. intros x. change ((Bdiv mode_NE x x : binary_float 53 1024) = b_ofZ 1 \/ Bdiv mode_NE x x = B754_nan).
  destruct x as [s|s| |s m e H]; try (right; destruct s; reflexivity); [right; reflexivity|left].
  set (x := B754_finite s m e H : binary_float 53 1024).
  assert (Nz : B2R x <> 0%R).
  { unfold x. cbn [B2R]. destruct s; [apply Rlt_not_eq, Float_prop.F2R_lt_0|apply Rgt_not_eq, Float_prop.F2R_gt_0]; cbn; lia. }
  pose proof (Bdiv_correct 53 1024 Hprec Hemax mode_NE x x Nz) as C. unfold Rdiv in C. rewrite Rinv_r in C by exact Nz.
  assert (R1 : round radix2 (SpecFloat.fexp 53 1024) (round_mode mode_NE) 1 = 1%R).
  { apply round_generic; [apply valid_rnd_round_mode|]. apply (generic_format_bpow radix2 _ 0). cbn. lia. }
  rewrite R1 in C. rewrite Rlt_bool_true in C by (rewrite Rabs_R1; apply (bpow_lt radix2 0 1024); lia).
  destruct C as (C1 & C2 & C3). apply B2R_Bsign_inj; [exact C2|reflexivity|rewrite C1; vm_compute; lra|].
  rewrite C3; [rewrite xorb_nilpotent; reflexivity|]. destruct (Bdiv mode_NE x x); try reflexivity; discriminate.
Qed.

Section FindAlpha.
Context {K : num_ops} (x d : mat K) (f : mat K -> res (mat K)) (uncert : K).

Lemma va_map2_self (h : K -> K -> K) l : va_map2 h l l = Ok (map (fun v => h v v) l).
Proof. induction l as [|a l IH]; cbn [va_map2]; [reflexivity|]. rewrite IH. reflexivity. Qed.

(** What the routine calls a quotient does not depend on its first argument. *)
Theorem C48_each_divide (A B : mat K) : self_division K -> m_rows A = m_rows B -> m_cols A = m_cols B ->
  exists C, EachDivide A B = Ok C /\ forall v, In v (m_data C) -> v = n_ofZ 1 \/ v = n_nan.
Proof.
  intros SD E1 E2. unfold EachDivide. rewrite (proj2 (same_shape_spec A B)) by auto. rewrite va_map2_self. cbn [bind]. eexists. split; [reflexivity|].
  cbn [m_data]. intros v Hv. apply in_map_iff in Hv as (w & <- & _). apply (sd_div _ SD).
Qed.

Lemma pick_in (better : K -> K -> bool) l m : pick better l = Ok m -> In m l.
Proof.
  destruct l as [|a l]; [discriminate|]. cbn [pick]. intros [= <-]. revert a. induction l as [|b l IH]; intros a; [now left|]. cbn [fold_left].
  destruct (IH (if better a b then b else a)) as [E|E]; [destruct (better a b); simpl; auto|simpl; auto].
Qed.

Definition one_or_nan (v : K) : Prop := v = n_ofZ 1 \/ v = n_nan.

Lemma quotient_norm (A B C : mat K) m : self_division K -> EachDivide A B = Ok C -> NormNegInfinity C = Ok m -> one_or_nan m.
Proof.
  intros SD E N. unfold EachDivide in E. destruct (same_shape A B); [|discriminate]. rewrite va_map2_self in E. cbn [bind] in E. injection E as <-.
  apply pick_in in N. cbn [m_data] in N. apply in_map_iff in N as (v & <- & Hv). apply in_map_iff in Hv as (w & <- & _).
  destruct (sd_div _ SD w) as [->| ->]; [left; apply sd_abs_1|right; apply sd_abs_nan]; exact SD.
Qed.

Ltac step H := match type of H with bind ?r _ = _ => let E := fresh "E" in destruct r eqn:E; cbn [bind] in H; try discriminate end.

Lemma loop_one : self_division K -> forall fuel it ac an g r, one_or_nan an -> FindAlpha_loop fuel x d f uncert it ac an g = Ok r -> one_or_nan r.
Proof.
  intros SD. induction fuel as [|fuel IH]; intros it ac an g r Ha H; [discriminate|]. cbn [FindAlpha_loop] in H.
  destruct (n_ltb _ _); [|injection H as <-; exact Ha].
  do 4 step H. destruct a2; [injection H as <-; exact Ha|]. do 6 step H.
  pose proof (quotient_norm _ _ _ _ SD E7 E8) as Q. destruct (100 <? it)%Z; [injection H as <-; exact Q|]. exact (IH _ _ _ _ _ Q H).
Qed.

(** Whatever the function and the direction, the only step lengths FindAlpha ever returns are 1
    and nan. *)
Theorem C48_find_alpha_is_one r : self_division K -> FindAlpha x d f uncert = Ok r -> r = n_ofZ 1 \/ r = n_nan.
Proof.
  intros SD H. unfold FindAlpha in H. do 3 step H. eapply loop_one; [exact SD|left; reflexivity|exact H].
Qed.

(** It ends: at most 102 rounds are made, more would not change anything. *)
Definition stops {T} (r : res T) : Prop := r <> OutOfFuel.
Lemma stops_bind {T U} (m : res T) (k : T -> res U) : stops m -> (forall a, stops (k a)) -> stops (bind m k).
Proof. intros H1 H2. destruct m; cbn [bind]; try discriminate; [apply H2|now destruct H1]. Qed.
Lemma stops_map2 h (l l' : list K) : stops (va_map2 h l l').
Proof. revert l'. induction l as [|a l IH]; intros [|b l']; cbn [va_map2]; try discriminate. apply stops_bind; [apply IH|discriminate]. Qed.
Lemma stops_all2 p (l l' : list K) : stops (va_all2 p l l').
Proof. revert l'. induction l as [|a l IH]; intros [|b l']; cbn [va_all2]; try discriminate. destruct (p a b); [apply IH|discriminate]. Qed.
Lemma stops_Vec_of (l : list K) : stops (Vec_of l).
Proof. unfold Vec_of, Vec_make, Mat_make. destruct (_ =? 0); [discriminate|]. destruct (1 =? 0); discriminate. Qed.
Lemma stops_Vec_map2 h (v w : mat K) : stops (Vec_map2 h v w).
Proof. unfold Vec_map2. destruct (_ =? _); [|discriminate]. apply stops_bind; [apply stops_map2|intros; apply stops_Vec_of]. Qed.
Lemma stops_Vec_add (v w : mat K) : stops (Vec_add v w).
Proof. unfold Vec_add. destruct (_ =? _); [|discriminate]. destruct (_ && _)%bool; [apply stops_Vec_map2|discriminate]. Qed.
Lemma stops_EachDivide (v w : mat K) : stops (EachDivide v w).
Proof. unfold EachDivide. destruct (same_shape _ _); [|discriminate]. apply stops_bind; [apply stops_map2|discriminate]. Qed.
Lemma stops_Vec_lt (v w : mat K) : stops (Vec_lt v w).
Proof. unfold Vec_lt. destruct (_ =? _); [apply stops_all2|discriminate]. Qed.
Lemma stops_norm (v : mat K) : stops (NormNegInfinity v).
Proof. unfold NormNegInfinity, va_min, pick. destruct (map _ _); discriminate. Qed.

Lemma loop_stops : (forall v, f v <> OutOfFuel) -> forall fuel it ac an g, (it <= 101)%Z -> (102 - it <= Z.of_nat fuel)%Z ->
  stops (FindAlpha_loop fuel x d f uncert it ac an g).
Proof.
  intros Hf. induction fuel as [|fuel IH]; intros it ac an g Hi He; cbn [FindAlpha_loop]; [lia|].
  destruct (n_ltb _ _); [|discriminate].
  apply stops_bind; [apply stops_Vec_of|intros a0]. apply stops_bind; [apply stops_Vec_add|intros y]. apply stops_bind; [apply Hf|intros g'].
  apply stops_bind; [apply stops_Vec_lt|intros b]. destruct b; [discriminate|].
  apply stops_bind; [apply stops_Vec_of|intros p]. apply stops_bind; [apply stops_Vec_of|intros q].
  apply stops_bind; [apply stops_Vec_map2|intros n1]. apply stops_bind; [apply stops_Vec_map2|intros n2].
  apply stops_bind; [apply stops_EachDivide|intros u]. apply stops_bind; [apply stops_norm|intros a1].
  destruct (Z.ltb_spec 100 it); [discriminate|]. apply IH; lia.
Qed.

Theorem C48_find_alpha_ends : (forall v, f v <> OutOfFuel) -> FindAlpha x d f uncert <> OutOfFuel.
Proof.
  intros Hf. unfold FindAlpha. apply stops_bind; [apply stops_Vec_of|intros a0]. apply stops_bind; [apply stops_Vec_add|intros y]. apply stops_bind; [apply Hf|intros g].
  apply loop_stops; [exact Hf|lia|lia].
Qed.

(** The bound on the number of rounds plays no role: any larger one gives the same result. *)
Theorem C48_find_alpha_rounds : (forall v, f v <> OutOfFuel) -> forall fuel ac an g, 102 <= fuel ->
  FindAlpha_loop fuel x d f uncert 0 ac an g = FindAlpha_loop 103 x d f uncert 0 ac an g.
Proof.
  intros Hf.
  assert (G : forall fuel fuel' it ac an g, fuel <= fuel' -> stops (FindAlpha_loop fuel x d f uncert it ac an g) ->
    FindAlpha_loop fuel' x d f uncert it ac an g = FindAlpha_loop fuel x d f uncert it ac an g).
  { induction fuel as [|fuel IH]; intros fuel' it ac an g Hl Hs; [now destruct Hs|]. destruct fuel' as [|fuel']; [lia|]. cbn [FindAlpha_loop] in *.
    destruct (n_ltb _ _); [|reflexivity].
    do 4 (match goal with |- bind ?r _ = _ => destruct r eqn:?; cbn [bind] in *; try reflexivity end). destruct a2; [reflexivity|].
    do 6 (match goal with |- bind ?r _ = _ => destruct r eqn:?; cbn [bind] in *; try reflexivity end).
    destruct (100 <? it)%Z; [reflexivity|]. apply IH; [lia|exact Hs]. }
  intros fuel ac an g H. assert (St : stops (FindAlpha_loop 102 x d f uncert 0 ac an g)) by (apply loop_stops; [exact Hf|lia|lia]).
  rewrite (G 102 fuel 0%Z ac an g H St), (G 102 103 0%Z ac an g ltac:(lia) St). reflexivity.
Qed.
End FindAlpha.

(** Both results occur.  f(v) = v on the line from 1 in direction 1 is not decreasing: 1 is
    returned although the step 0 is better; with direction 0 the quotient is 0/0. *)
Section FindAlphaEx.
Let one : mat D := MkMat 1 1 [b_ofZ 1 : D].
Let zero : mat D := MkMat 1 1 [b_ofZ 0 : D].
Let uncert : D := b_dec false 1 (-5).
Theorem C48_ex_one : match FindAlpha one one (fun v => Ok v) uncert with Ok r => Beqb r (b_ofZ 1) | _ => false end = true.
Proof. vm_compute. reflexivity. Qed.
Theorem C48_ex_nan : match FindAlpha one zero (fun v => Ok v) uncert with Ok r => is_nan (r : binary_float 53 1024) | _ => false end = true.
Proof. vm_compute. reflexivity. Qed.
End FindAlphaEx.
