(** Sylvester's criterion: a symmetric real matrix is positive definite iff its leading
    principal minors are positive. *)
From Coq Require Import Reals Lra Lia List.
From mathcomp Require Import all_ssreflect all_algebra zify.
From Verif Require Import Base MathOp RealSpec RField MatRealSpec.
Set Implicit Arguments.
Unset Strict Implicit.
Unset Printing Implicit Defensive.
Delimit Scope R_scope with coqR.
Import GRing.Theory.
Local Open Scope ring_scope.

Section Step.
Variables (n : nat) (B : 'M[R]_n) (u : 'cV[R]_n) (d : 'M[R]_1).
Hypothesis UB : B \in unitmx.
Hypothesis SB : B^T = B.
Let M : 'M[R]_(n + 1) := block_mx B u u^T d.
Let w : 'cV[R]_n := invmx B *m u.
Let s : 'M[R]_1 := d - u^T *m w.

Lemma Bw : B *m w = u. Proof. by rewrite /w mulmxA mulmxV // mul1mx. Qed.
Lemma wB : w^T *m B = u^T. Proof. by rewrite -[B in LHS]SB -trmx_mul Bw. Qed.

Lemma det_schur : \det M = \det B * s ord0 ord0.
Proof.
  have E : M *m block_mx 1%:M (- w) 0 1%:M = block_mx B 0 u^T s.
  { rewrite /M mulmx_block !mulmx1 !mulmx0 !mulmxN Bw !addr0 addNr. congr (block_mx _ _ _ _). by rewrite addrC. }
  have := congr1 determinant E. rewrite det_mulmx det_ublock !det1 !mulr1 det_lblock => ->. by rewrite det_mx11.
Qed.

Lemma quad_schur (x : 'cV[R]_n) (t : 'cV[R]_1) :
  quad M (col_mx x t) = quad B (x + w *m t) + t ord0 ord0 * s ord0 ord0 * t ord0 ord0.
Proof.
  have E : (col_mx x t)^T *m M *m col_mx x t = (x + w *m t)^T *m B *m (x + w *m t) + t^T *m s *m t.
  { have E1 : (x + w *m t)^T *m B *m (x + w *m t)
      = x^T *m B *m x + x^T *m u *m t + (t^T *m u^T *m x + t^T *m u^T *m w *m t).
    { rewrite [(x + _)^T]linearD /= trmx_mul.
      have -> : (x^T + t^T *m w^T) *m B = x^T *m B + t^T *m u^T by rewrite mulmxDl -[t^T *m w^T *m B]mulmxA wB.
      rewrite mulmxDl !mulmxDr. congr (_ + _ + (_ + _)); last by rewrite !mulmxA.
      by rewrite -[x^T *m B *m _]mulmxA [B *m _]mulmxA Bw mulmxA. }
    have E2 : t^T *m s *m t = t^T *m d *m t - t^T *m u^T *m w *m t.
    { rewrite /s mulmxBr mulmxBl. by rewrite !mulmxA. }
    have E3 : (col_mx x t)^T *m M *m col_mx x t
      = x^T *m B *m x + t^T *m u^T *m x + (x^T *m u *m t + t^T *m d *m t).
    { rewrite tr_col_mx /M mul_row_block mul_row_col !mulmxDl. by []. }
    rewrite E1 E2 E3. move: (x^T *m B *m x) (t^T *m u^T *m x) (x^T *m u *m t) (t^T *m d *m t) (t^T *m u^T *m w *m t).
    move=> p q a b c. apply/matrixP => i j. rewrite !mxE. rewrite -!RplusE -!RoppE. lra. }
  rewrite /quad E mxE. congr (_ + _).
  move: s => s'. by rewrite mxE big_ord1 mxE big_ord1 mxE.
Qed.
End Step.


Lemma square_pos (t s : R) : (0 < s)%coqR -> (0 <= t * s * t)%coqR /\ (t <> R0 -> 0 < t * s * t)%coqR.
Proof. move=> H. have -> : (t * s * t)%coqR = (s * Rsqr t)%coqR by rewrite /Rsqr; ring.
  have ? := Rle_0_sqr t. split; first by nra. move=> /Rsqr_pos_lt ?. exact: Rmult_lt_0_compat. Qed.

Lemma minors_block n (M : 'M[R]_(n + 1)) : minors_pos M <-> minors_pos (ulsubmx M) /\ (0 < \det M)%coqR.
Proof.
  have L k (Hk : (k <= n)%N) (Hk' : (k <= n + 1)%N) : leading Hk (ulsubmx M) = leading Hk' M.
  { apply/matrixP => i j. rewrite !mxE. by congr (M _ _); apply: val_inj. }
  have LM (H : (n + 1 <= n + 1)%N) : leading H M = M.
  { apply/matrixP => i j. rewrite !mxE. by congr (M _ _); apply: val_inj. }
  split.
  - move=> H. split.
    + move=> k Hk Hk0. have Hk' : (k <= n + 1)%N by lia. rewrite (L k Hk Hk'). exact: H.
    + have := H (n + 1)%N (leqnn _) ltac:(lia). by rewrite LM.
  - move=> [H1 H2] k Hk Hk0. case: (leqP k n) => Hkn.
    + rewrite -(L k Hkn Hk). exact: H1.
    + have E : k = (n + 1)%N by lia. subst k. by rewrite LM.
Qed.

Lemma quad0 n (M : 'M[R]_n) : quad M 0 = R0.
Proof. rewrite /quad mulmx0 mxE. by []. Qed.

Lemma unit_of_pos n (M : 'M[R]_n) : (0 < \det M)%coqR -> M \in unitmx.
Proof. move=> H. rewrite unitmxE unitfE. apply/eqP => E. rewrite E in H. exact: (Rlt_irrefl _ H). Qed.

Lemma minors_det n (M : 'M[R]_n) : minors_pos M -> (0 < \det M)%coqR.
Proof.
  case: n M => [|n] M H.
  - rewrite det_mx00. exact: Rlt_0_1.
  - have := H n.+1 (leqnn _) isT. have -> : leading (leqnn n.+1) M = M => //.
    apply/matrixP => i j. rewrite !mxE. by congr (M _ _); apply: val_inj.
Qed.

Theorem sylvester_plus n : forall M : 'M[R]_n, M^T = M -> (minors_pos M <-> posdef M).
Proof.
  elim: n => [|n IH] M SM.
  { split.
    - move=> _ v Hv. exfalso. apply: Hv. by apply/matrixP => -[].
    - move=> _ k Hk Hk0. exfalso. move: Hk0 Hk. by case: k. }
  move: M SM. rewrite -addn1 => M SM.
  have EM : M = block_mx (ulsubmx M) (ursubmx M) (ursubmx M)^T (drsubmx M).
  { rewrite -[M in LHS]submxK. congr (block_mx _ _ _ _). by rewrite -[dlsubmx M]trmxK trmx_dlsub SM. }
  have SB : (ulsubmx M)^T = ulsubmx M by rewrite trmx_ulsub SM.
  set B := ulsubmx M in EM SB *. set u := ursubmx M in EM. set d := drsubmx M in EM.
  rewrite minors_block -/B (IH B SB).
  have key : posdef B -> \det M = \det B * (d - u^T *m (invmx B *m u)) ord0 ord0 /\
     forall x t, quad M (col_mx x t) = quad B (x + invmx B *m u *m t)
        + t ord0 ord0 * (d - u^T *m (invmx B *m u)) ord0 ord0 * t ord0 ord0.
  { move=> /(IH B SB) /minors_det /unit_of_pos UB. rewrite EM. split; first exact: det_schur.
    move=> x t. exact: quad_schur. }
  split.
  - move=> [PB DM] v Hv. have [ED EQ] := key PB. rewrite -[v]vsubmxK.
    have DB : (0 < \det B)%coqR by apply/minors_det/(IH B SB).
    move: ED EQ. set s : R := (d - _) ord0 ord0 => ED EQ.
    have Hs : (0 < s)%coqR.
    { rewrite ED in DM. move: DM. rewrite -RmultE => DM. by have := Rmult_lt_reg_l _ 0 s DB; rewrite Rmult_0_r; apply. }
    set x := usubmx v. set t := dsubmx v.
    rewrite EQ. have [T1 T2] := square_pos (t ord0 ord0) Hs. rewrite -!RmultE -RplusE.
    have Q : (0 <= quad B (x + invmx B *m u *m t))%coqR.
    { case: (eqVneq (x + invmx B *m u *m t) 0) => [->|/eqP H]; first by rewrite quad0; apply: Rle_refl.
      exact: Rlt_le (PB _ H). }
    case: (eqVneq (t ord0 ord0) 0) => [T|/eqP T]; last by have := T2 T; lra.
    have T' : t = 0 by apply/matrixP => i j; rewrite !ord1 T mxE.
    have X : x + invmx B *m u *m t <> 0.
    { rewrite T' mulmx0 addr0 => X. apply: Hv. rewrite -[v]vsubmxK -/x -/t X T'. exact: col_mx0. }
    have := PB _ X. lra.
  - move=> PM.
    have PB : posdef B.
    { move=> x Hx. have C : col_mx x (0 : 'cV[R]_1) <> 0.
      { move=> C. apply: Hx. have := congr1 usubmx C. by rewrite col_mxKu linear0. }
      have := PM _ C. suff -> : quad M (col_mx x 0) = quad B x by [].
      rewrite EM /quad tr_col_mx trmx0 mul_row_block mul_row_col mulmx0 addr0 !mul0mx addr0. by []. }
    split=> //. have [ED EQ] := key PB.
    have DB : (0 < \det B)%coqR by apply/minors_det/(IH B SB).
    have C : col_mx (- (invmx B *m u)) (1%:M : 'cV[R]_1) <> 0.
    { move=> C. have := congr1 dsubmx C. rewrite col_mxKd linear0 => /matrixP /(_ ord0 ord0). rewrite !mxE /= => /eqP. by rewrite oner_eq0. }
    have := PM _ C. rewrite EQ mulmx1 addNr quad0 ED mxE eqxx /= mulr1n mul1r mulr1 add0r -RmultE => H.
    exact: Rmult_lt_0_compat.
Qed.
