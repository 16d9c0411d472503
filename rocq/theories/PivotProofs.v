(** Comparisons, maxima and the pivot search over exact reals. *)
From Coq Require Import String List ZArith Bool Arith Lia Reals Lra.
From Verif Require Import Base MathOp RealSpec MatModel MatSpec MatProofs.
Import ListNotations.
Local Open Scope list_scope.

Section Pivot.
Implicit Types g : nat -> R.
Definition some_fun (g : nat -> R) (k : nat) : Rops := Some (g k).

Lemma fold_max_R g l : forall a,
  exists m, fold_left (fun m x => if n_ltb m x then x else m) (map (some_fun g) l) (Some a : Rops) = (Some m : Rops) /\
    (a <= m)%R /\ (forall k, In k l -> (g k <= m)%R) /\ (m = a \/ exists k, In k l /\ m = g k).
Proof.
  induction l as [|k l IH]; intros a; cbn [map fold_left].
  - exists a. repeat split; [lra| |auto]. intros k [].
  - change (n_ltb (Some a : Rops) (some_fun g k)) with (Rltb a (g k)).
    destruct (Rltb a (g k)) eqn:E.
    + apply Rltb_spec in E. destruct (IH (g k)) as (m & Em & H1 & H2 & H3). exists m. split; [exact Em|].
      split; [lra|]. split.
      * intros k' [<-|Hk]; auto.
      * right. destruct H3 as [->|(k' & Hk' & ->)]; [exists k|exists k']; simpl; auto.
    + assert (E' : (g k <= a)%R). { destruct (Rle_or_lt (g k) a); auto. apply Rltb_spec in H. congruence. }
      destruct (IH a) as (m & Em & H1 & H2 & H3). exists m. split; [exact Em|]. split; [lra|]. split.
      * intros k' [<-|Hk]; auto. lra.
      * destruct H3 as [->|(k' & Hk' & ->)]; [now left|]. right. exists k'. simpl; auto.
Qed.

Lemma va_max_R g s n : 0 < n -> exists m, va_max (map (some_fun g) (seq s n)) = Ok (Some m : Rops) /\
  (forall k, s <= k < s + n -> (g k <= m)%R) /\ exists k, s <= k < s + n /\ g k = m.
Proof.
  intros Hn. destruct n as [|n]; [lia|]. cbn [seq map]. unfold va_max, pick.
  destruct (fold_max_R g (seq (S s) n) (g s)) as (m & E & H1 & H2 & H3).
  exists m. split; [f_equal; exact E|]. split.
  - intros k Hk. destruct (Nat.eq_dec k s) as [->|]; [auto|]. apply H2. apply in_seq. lia.
  - destruct H3 as [->|(k & Hk & ->)]; [exists s; split; [lia|auto]|]. apply in_seq in Hk. exists k. split; [lia|auto].
Qed.

Lemma find_index_R g m n : forall s, (exists k, s <= k < s + n /\ g k = m) ->
  let p := find_index (fun v => n_eqb v (Some m : Rops)) (map (some_fun g) (seq s n)) in
  p < n /\ g (s + p) = m /\ forall k, s <= k < s + p -> g k <> m.
Proof.
  induction n as [|n IH]; intros s (k & Hk & Ek); [lia|]. cbn [seq map find_index].
  change (n_eqb (some_fun g s) (Some m : Rops)) with (Reqb (g s) m). destruct (Reqb (g s) m) eqn:E.
  - apply Reqb_spec in E. rewrite Nat.add_0_r. repeat split; auto; lia.
  - assert (Hne : g s <> m) by (intros Q; apply Reqb_spec in Q; congruence).
    destruct (IH (S s)) as (H1 & H2 & H3).
    { exists k. split; [|auto]. assert (k <> s) by (intros ->; auto). lia. }
    set (p := find_index _ _) in *. clearbody p. replace (s + S p) with (S s + p) by lia.
    split; [lia|]. split; [exact H2|]. intros k' Hk'. destruct (Nat.eq_dec k' s) as [->|]; auto. apply H3. lia.
Qed.

(** [f] holds the entries of A; rows s..e of column col are searched. *)
Lemma GetMaxAbs_ok r c (f : nat -> nat -> R) (A : mat Rops) s e col :
  is_mat r c (fun i j => Some (f i j) : Rops) A -> s <= e -> e < r -> col < c ->
  exists p, GetMaxAbsRowIndex A s e col = Ok p /\ s <= p <= e /\
    (forall k, s <= k <= e -> (Rabs (f k col) <= Rabs (f p col))%R) /\
    (forall k, s <= k < p -> (Rabs (f k col) < Rabs (f p col))%R).
Proof.
  intros HA Hs He Hc. unfold GetMaxAbsRowIndex. rewrite (Col_ok _ _ _ _ col 0 HA Hc) by lia. cbn [bind].
  destruct (Nat.leb_spec s (S e)); [|lia]. unfold slice.
  rewrite (va_read_map _ _ (fun k => Some (f (s + k) col) : Rops)).
  2:{ intros k Hk. apply in_seq in Hk. rewrite nth_error_map, Nat.sub_0_r, Nat.mul_1_r.
      rewrite (nth_error_nth' _ 0) by (rewrite seq_length; lia). rewrite seq_nth by lia. reflexivity. }
  cbn [bind]. rewrite map_map. set (g := fun k => Rabs (f (s + k) col)).
  change (map (fun x : nat => n_abs (Some (f (s + x) col) : Rops)) (seq 0 (S e - s))) with (map (some_fun g) (seq 0 (S e - s))).
  destruct (va_max_R g 0 (S e - s)) as (m & -> & M1 & M2); [lia|]. cbn [bind].
  destruct (find_index_R g m (S e - s) 0 M2) as (P1 & P2 & P3). cbn zeta in *.
  set (p := find_index _ _) in *. exists (p + s). split; [reflexivity|]. split; [lia|].
  assert (Ep : Rabs (f (p + s) col) = m). { rewrite <- P2. unfold g. simpl. now rewrite Nat.add_comm. }
  rewrite Ep. split.
  - intros k Hk. specialize (M1 (k - s)). unfold g in M1. replace (s + (k - s)) with k in M1 by lia. apply M1. lia.
  - intros k Hk. specialize (M1 (k - s)). specialize (P3 (k - s)). unfold g in M1, P3.
    replace (s + (k - s)) with k in * by lia. assert (Rabs (f k col) <= m)%R by (apply M1; lia).
    assert (Rabs (f k col) <> m) by (apply P3; lia). lra.
Qed.
End Pivot.

Section Cmp.
Context {K : num_ops}.
Lemma Mat_eq_ok (cfg : config K) r c f g A B : is_mat r c f A -> is_mat r c g B ->
  exists b, Mat_eq cfg A B = Ok b /\
    (b = true <-> forall i j, i < r -> j < c -> n_ltb (n_abs (n_sub (f i j) (g i j))) (epsilon cfg) = true).
Proof.
  intros HA HB. unfold Mat_eq. rewrite (is_mat_same_shape _ _ _ _ _ _ HA HB), (is_mat_data _ _ _ _ HA), (is_mat_data _ _ _ _ HB), all2_pairs.
  eexists. split; [reflexivity|]. rewrite (forallb_pairs (fun i j => n_ltb (n_abs (n_sub (f i j) (g i j))) (epsilon cfg))). reflexivity.
Qed.
Lemma Mat_eq_num_ok (cfg : config K) r c f A m : is_mat r c f A ->
  Mat_eq_num cfg A m = true <-> forall i j, i < r -> j < c -> n_ltb (n_abs (n_sub (f i j) m)) (epsilon cfg) = true.
Proof.
  intros HA. unfold Mat_eq_num. rewrite (is_mat_data _ _ _ _ HA), <- (forallb_pairs (fun i j => n_ltb (n_abs (n_sub (f i j) m)) (epsilon cfg))).
  rewrite !forallb_forall. split.
  - intros H [i j] Hi. apply H. apply in_map_iff. exists (i, j). auto.
  - intros H v Hv. apply in_map_iff in Hv as ([i j] & <- & Hi). exact (H (i, j) Hi).
Qed.
Lemma IsZero_ok (cfg : config K) r c f A : is_mat r c f A ->
  IsZero cfg A = true <-> forall i j, i < r -> j < c -> n_leb (n_abs (f i j)) (epsilon cfg) = true.
Proof.
  intros HA. unfold IsZero. rewrite (is_mat_data _ _ _ _ HA), <- (forallb_pairs (fun i j => n_leb (n_abs (f i j)) (epsilon cfg))).
  rewrite !forallb_forall. split.
  - intros H [i j] Hi. apply H. apply in_map_iff. exists (i, j). auto.
  - intros H v Hv. apply in_map_iff in Hv as ([i j] & <- & Hi). exact (H (i, j) Hi).
Qed.
Lemma AllIsLessThan_ok r c (f g : nat -> nat -> K) A B : is_mat r c f A -> is_mat r c g B ->
  exists b, AllIsLessThan A B = Ok b /\ (b = true <-> forall i j, i < r -> j < c -> n_ltb (f i j) (g i j) = true).
Proof.
  intros HA HB. unfold AllIsLessThan. rewrite (is_mat_same_shape _ _ _ _ _ _ HA HB), (is_mat_data _ _ _ _ HA), (is_mat_data _ _ _ _ HB), all2_pairs.
  eexists. split; [reflexivity|]. rewrite (forallb_pairs (fun i j => n_ltb (f i j) (g i j))). reflexivity.
Qed.
Lemma Vec_lt_ok r c (f g : nat -> nat -> K) A B : is_mat r c f A -> is_mat r c g B ->
  exists b, Vec_lt A B = Ok b /\ (b = true <-> forall i j, i < r -> j < c -> n_ltb (f i j) (g i j) = true).
Proof.
  intros HA HB. destruct (AllIsLessThan_ok r c f g A B HA HB) as (b & E & H). exists b. split; [|exact H].
  unfold AllIsLessThan in E. unfold Vec_lt. rewrite (is_mat_same_shape _ _ _ _ _ _ HA HB) in E.
  destruct HA as (-> & _), HB as (-> & _). now rewrite Nat.eqb_refl.
Qed.
End Cmp.
