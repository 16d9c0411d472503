(** Exact-real matrix arithmetic: the program's operations are those of linear algebra. *)
From Coq Require Import Reals Lra Lia List.
From mathcomp Require Import all_ssreflect all_algebra zify.
From Verif Require Import Base MathOp RealSpec RField MatModel MatSpec MatProofs DetProofs MatRealSpec.
Set Implicit Arguments.
Unset Strict Implicit.
Unset Printing Implicit Defensive.
Delimit Scope R_scope with coqR.
Import GRing.Theory.
Local Open Scope ring_scope.

(** ** Entries *)
Lemma entryE r c (M : 'M[R]_(r, c)) (i : 'I_r) (j : 'I_c) : entry M i j = Some (M i j).
Proof. by rewrite /entry !valK. Qed.

Lemma entry_lt r c (M : 'M[R]_(r, c)) i j (Hi : (i < r)%N) (Hj : (j < c)%N) :
  entry M i j = Some (M (Ordinal Hi) (Ordinal Hj)).
Proof. exact: (entryE M (Ordinal Hi) (Ordinal Hj)). Qed.

(** Entries as a total function of the indices. *)
Definition rentry r c (M : 'M[R]_(r, c)) (i j : nat) : R := odflt R0 (entry M i j).
Lemma rentryE r c (M : 'M[R]_(r, c)) (i : 'I_r) (j : 'I_c) : rentry M i j = M i j.
Proof. by rewrite /rentry entryE. Qed.
Lemma entry_rentry r c (M : 'M[R]_(r, c)) i j : (i < r)%coq_nat -> (j < c)%coq_nat -> entry M i j = Some (rentry M i j).
Proof. by move=> /ltP Hi /ltP Hj; rewrite /rentry (entry_lt M Hi Hj). Qed.

Lemma mx_is_intro r c (M : 'M[R]_(r, c)) (f : nat -> nat -> Rops) A :
  is_mat r c f A -> (forall (i : 'I_r) (j : 'I_c), f i j = Some (M i j)) -> mx_is M A.
Proof.
  move=> H E. apply: (is_mat_ext _ _ _ _ _ _ H) => i j /ltP Hi /ltP Hj.
  by rewrite (entry_lt M Hi Hj) -(E (Ordinal Hi) (Ordinal Hj)).
Qed.

Lemma mx_is_inj r c (M N : 'M[R]_(r, c)) A : mx_is M A -> mx_is N A -> M = N.
Proof.
  move=> HM HN; apply/matrixP => i j.
  have := is_mat_agree _ _ _ _ _ HM HN i j (ltP (ltn_ord i)) (ltP (ltn_ord j)).
  by rewrite !entryE => -[].
Qed.

(** ** Sums *)
Lemma va_sum_R (g : nat -> R) s n :
  va_sum (List.map (fun k => Some (g k) : Rops) (List.seq s n)) = Some (\sum_(k < n) g (s + k)%N) :> Rops.
Proof.
  rewrite /va_sum. case: n => [|n]; first by rewrite big_ord0.
  rewrite big_ord_recl /= addn0.
  have G : forall n s a, fold_left (n_add : Rops -> Rops -> Rops) (List.map (fun k => Some (g k) : Rops) (List.seq s n)) (Some a : Rops)
    = Some (a + \sum_(k < n) g (s + k)%N) :> Rops.
  { elim=> [|m IH] t a /=; first by rewrite big_ord0 addr0.
    rewrite IH big_ord_recl addn0 addrA. congr (Some (_ + _)). by apply: eq_bigr => k _; rewrite -addSnnS. }
  rewrite G. congr (Some (_ + _)). by apply: eq_bigr => k _; rewrite -addSnnS.
Qed.

Lemma ksum_R n (g : nat -> R) : ksum n (fun k => Some (g k) : Rops) = Some (\sum_(k < n) g k) :> Rops.
Proof. by rewrite /ksum va_sum_R. Qed.

Lemma ksum_ext (K : num_ops) n (g h : nat -> K) : (forall k, (k < n)%coq_nat -> g k = h k) -> ksum n g = ksum n h.
Proof.
  move=> H; rewrite /ksum; congr (va_sum _). apply: List.map_ext_in => k /List.in_seq [_ Hk]. exact: H.
Qed.

Lemma odd_mod2 m : Nat.eqb (Nat.modulo m 2) 0 = ~~ odd m.
Proof.
  have G : Nat.eqb (Nat.modulo m 2) 0 = ~~ odd m /\ Nat.eqb (Nat.modulo m.+1 2) 0 = odd m.
  { elim: m => // m [IH1 IH2]. split; first by rewrite IH2 oddS negbK.
    rewrite oddS -IH1. congr (Nat.eqb _ 0). change (m.+2) with (Nat.add 2 m). rewrite Nat.add_comm.
    exact: (Nat.mod_add m 1 2). }
  by case: G.
Qed.

(** ** Determinant *)
Lemma skip_bump q j : skip q j = bump q j.
Proof. rewrite /skip /bump. case: (Nat.ltb_spec j q) => [/ltP H|/leP H]. by rewrite leqNgt H. by rewrite H. Qed.

Lemma Z_sign (s : Z) : IZR (Z.opp s) = - (IZR s).
Proof. exact: opp_IZR. Qed.

Lemma kdet_R n (f : nat -> nat -> R) : (0 < n)%N ->
  kdet n (fun i j => Some (f i j) : Rops) = Some (\det (\matrix_(i < n, j < n) f i j)) :> Rops.
Proof.
  elim: n f => // n IH f _. case: n IH => [|[|n]] IH.
  - by rewrite /= det_mx11 mxE.
  - rewrite /= (expand_det_row _ ord0) !big_ord_recl big_ord0 /cofactor !det_mx11 !mxE /=.
    congr Some. rewrite !RminusE !RmultE /bump /=. rewrite addr0 expr0 expr1 mul1r mulN1r mulrN. by rewrite [f 1%N 0%N * _]mulrC.
  - rewrite kdet_step; last by lia.
    set d := fun q => \det (\matrix_(i < n.+2, j < n.+2) f i.+1 (bump q j)).
    have E : forall q, kdet (n.+3 - 1)%coq_nat (fun i j => Some (f (S i) (skip q j)) : Rops) = Some (d q) :> Rops.
    { move=> q. replace (n.+3 - 1)%coq_nat with n.+2 by lia.
      rewrite (IH (fun i j => f i.+1 (skip q j))) //. congr (Some (\det _)).
      by apply/matrixP => i j; rewrite !mxE skip_bump. }
    have G : forall kd : nat -> Rops, (forall q, kd q = Some (d q)) -> forall m, let r := fold_left (fun '(D, sign) q =>
       (n_add D (n_mul (n_mul (n_ofZ sign) (Some (f 0%N q) : Rops)) (kd q)), Z.opp sign))
       (List.seq 0 m) (n_ofZ Z0 : Rops, Zpos xH) in
       fst r = Some (\sum_(q < m) (-1) ^+ q * f 0%N q * d q) :> Rops /\ IZR (snd r) = (-1) ^+ m.
    { move=> kd Ekd. elim=> [|m [IH1 IH2]]; first by rewrite /= big_ord0 expr0.
      rewrite List.seq_S List.fold_left_app /=. move: IH1 IH2.
      case: (fold_left _ _ _) => D s /= -> IH2. rewrite Ekd /= big_ord_recr /= -IH2. split=> //.
      by rewrite Z_sign exprS mulN1r IH2. }
    etransitivity; first exact: (proj1 (G _ E n.+3)). congr Some. rewrite (expand_det_row _ ord0). apply: eq_bigr => q _.
    rewrite /cofactor mxE add0n mulrCA mulrA. congr (_ * _). rewrite /d.
    congr (\det _). by apply/matrixP => i j; rewrite !mxE.
Qed.

Lemma kdet_entry r c n (M : 'M[R]_(r, c)) : (0 < n)%N -> (n <= r)%N -> (n <= c)%N ->
  kdet n (entry M : nat -> nat -> Rops) = Some (\det (\matrix_(i < n, j < n) rentry M i j)) :> Rops.
Proof.
  move=> Hn Hr Hc. rewrite -kdet_R //. apply: kdet_ext => i j /ltP Hi /ltP Hj.
  apply: entry_rentry; apply/ltP; [exact: leq_trans Hi Hr|exact: leq_trans Hj Hc].
Qed.

Lemma matrix_rentry n (M : 'M[R]_n) : \matrix_(i < n, j < n) rentry M i j = M.
Proof. by apply/matrixP => i j; rewrite mxE rentryE. Qed.

Lemma leading_rentry n k (Hk : (k <= n)%N) (M : 'M[R]_n) : \matrix_(i < k, j < k) rentry M i j = leading Hk M.
Proof. by apply/matrixP => i j; rewrite !mxE -(rentryE M (widen_ord Hk i) (widen_ord Hk j)). Qed.

Lemma kcof_R n (M : 'M[R]_n) (i j : 'I_n) : (1 < n)%N ->
  kcof n (entry M : nat -> nat -> Rops) i j = Some (cofactor M i j) :> Rops.
Proof.
  move=> Hn. rewrite /kcof.
  have -> : kdet (n - 1)%coq_nat (fun i' j' => entry M (skip i i') (skip j j') : Rops)
    = Some (\det (row' i (col' j M))) :> Rops.
  { rewrite (kdet_ext _ _ (fun i' j' => Some (rentry M (bump i i') (bump j j')) : Rops)).
    - have -> : (n - 1)%coq_nat = n.-1 by lia.
      rewrite (@kdet_R n.-1 (fun i' j' => rentry M (bump i i') (bump j j'))); last by case: n Hn {M i j} => [|[]].
      congr (Some (\det _)). apply/matrixP => i' j'. rewrite !mxE.
      by rewrite -(rentryE M (lift i i') (lift j j')).
    - have B : forall (p : 'I_n) k, (k < n - 1)%coq_nat -> (bump p k < n)%coq_nat.
      { move=> p k Hk. rewrite /bump. case: (p <= k)%N; rewrite /= ?add1n ?add0n; lia. }
      move=> i' j' Hi' Hj'. rewrite !skip_bump. by apply: entry_rentry; apply: B. }
  rewrite /cofactor. have -> : Nat.eqb (Nat.modulo (i + j)%coq_nat 2) 0 = ~~ odd (i + j).
  { have -> : (i + j)%coq_nat = (i + j)%N by []. move: (i + j)%N => m. by rewrite odd_mod2. }
  rewrite -signr_odd. by case: (odd _) => /=; rewrite ?expr0 ?expr1 ?mul1r ?mulN1r.
Qed.

Lemma det2 (M : 'M[R]_2) : \det M = (M ord0 ord0 * M ord_max ord_max - M ord0 ord_max * M ord_max ord0)%coqR.
Proof.
  rewrite (expand_det_row _ ord0) !big_ord_recl big_ord0 /cofactor !det_mx11 !mxE /=.
  rewrite expr0 addr0 mul1r /bump /= expr1 mulN1r mulrN.
  by congr (M _ _ * M _ _ - M _ _ * M _ _); apply: val_inj.
Qed.
