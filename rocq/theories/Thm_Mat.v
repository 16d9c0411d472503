(** C26-C30: matrices. *)
From Coq Require Import String Reals Lra Lia List.
From mathcomp Require Import all_ssreflect all_algebra zify.
From Verif Require Import Base MathOp IEEE RealSpec RField MatModel MatSpec MatProofs DetProofs PivotProofs MatRealSpec MatReal Sylvester.
Set Implicit Arguments.
Unset Strict Implicit.
Unset Printing Implicit Defensive.
Delimit Scope R_scope with coqR.
Import GRing.Theory.
Local Open Scope ring_scope.

(** ** C26: Det *)
Theorem C26_det n (M : 'M[R]_n) A : (0 < n)%N -> mx_is M A -> Det A n = Ok (Some (\det M) : Rops).
Proof.
  move=> Hn H. rewrite (Det_ok _ _ _ _ n H); [|lia|lia]. by rewrite (kdet_entry M Hn (leqnn n) (leqnn n)) matrix_rentry.
Qed.

(** For k < n the leading principal minor. *)
Theorem C26_det_leading n k (Hk : (k <= n)%N) (M : 'M[R]_n) A : (0 < k)%N -> mx_is M A ->
  Det A k = Ok (Some (\det (leading Hk M)) : Rops).
Proof.
  move=> Hk0 H. rewrite (Det_ok _ _ _ _ k H); [|lia|lia]. by rewrite (kdet_entry M Hk0 Hk Hk) (leading_rentry Hk).
Qed.

(** n = 0 is answered with 0 (the determinant of the empty matrix is 1). *)
Theorem C26_det_zero (K : num_ops) (A : mat K) : Det A 0 = Ok (n_ofZ Z0).
Proof. by []. Qed.

(** ** C27: Inverse *)
Lemma adjugate1 (M : 'M[R]_1) : \adj M = 1.
Proof. apply/matrixP => i j. rewrite !mxE /cofactor det_mx00 mulr1 !ord1 /=. by rewrite expr0. Qed.

Lemma div_R (x y : R) : y <> R0 -> n_div (Some x : Rops) (Some y : Rops) = Some (x * y^-1) :> Rops.
Proof. move=> H /=. case: (Req_EM_T y _) => // _. by rewrite /Rdiv -(RinvE H). Qed.

Theorem C27_inverse (cfg : config Rops) (e : R) n (M : 'M[R]_n) A :
  epsilon cfg = Some e -> (0 <= e)%coqR -> (0 < n)%N -> mx_is M A ->
  if Rle_dec (Rabs (\det M)) e
  then Inverse cfg A = Throw (MathError ERROR_SINGULAR_MATRIX EmptyString)
  else exists B N, Inverse cfg A = Ok B /\ mx_is N B /\ M *m N = 1%:M /\ N *m M = 1%:M.
Proof.
  move=> He He0 Hn H. have Hn' : (0 < n)%coq_nat by lia.
  have := Inverse_ok cfg n (entry M : nat -> nat -> Rops) A Hn' H.
  rewrite (kdet_entry M Hn (leqnn n) (leqnn n)) matrix_rentry He /= /Rleb.
  case: (Rle_dec _ _) => // Hd [B [EB HB]].
  have D0 : \det M <> R0. { move=> D. apply: Hd. rewrite D Rabs_R0. exact: He0. }
  have U : \det M \is a GRing.unit by rewrite unitfE; apply/eqP.
  have UM : M \in unitmx by rewrite unitmxE.
  exists B, (invmx M). split=> //. split; last by rewrite mulmxV // mulVmx.
  apply: (mx_is_intro HB) => i j. rewrite /invmx UM mxE.
  have -> : (if Nat.eqb n 1 then n_ofZ (Zpos xH) else kcof n (entry M : nat -> nat -> Rops) j i) = Some (\adj M i j) :> Rops.
  { case: (Nat.eqb_spec n 1) => [E|E].
    - subst n. by rewrite adjugate1 !ord1 mxE.
    - rewrite kcof_R; last by lia. by rewrite mxE. }
  rewrite div_R //. congr Some. by rewrite mulrC.
Qed.

(** Adjoint writes the adjugate (whatever the target held before). *)
Theorem C27_adjoint n (M N : 'M[R]_n) A adj : (0 < n)%N -> mx_is M A -> mx_is N adj ->
  exists B, Adjoint A adj = Ok B /\ mx_is (\adj M) B.
Proof.
  move=> Hn H Hadj. have Hn' : (0 < n)%coq_nat by lia.
  have [B [EB HB]] := @Adjoint_ok _ n (entry M : nat -> nat -> Rops) A _ adj Hn' H Hadj.
  exists B. split=> //. apply: (mx_is_intro HB) => i j.
  case: (Nat.eqb_spec n 1) => [E|E].
  - subst n. by rewrite adjugate1 !ord1 mxE.
  - rewrite kcof_R; last by lia. by rewrite mxE.
Qed.

(** ** C28: arithmetic of matrices *)
Section Entries.
Variables (K : num_ops) (r c m : nat) (f g : nat -> nat -> K) (A B : mat K).

Theorem C28_add : is_mat r c f A -> is_mat r c g B ->
  exists C, Mat_add A B = Ok C /\ is_mat r c (fun i j => n_add (f i j) (g i j)) C.
Proof. exact: Mat_map2_ok. Qed.
Theorem C28_sub : is_mat r c f A -> is_mat r c g B ->
  exists C, Mat_sub A B = Ok C /\ is_mat r c (fun i j => n_sub (f i j) (g i j)) C.
Proof. exact: Mat_map2_ok. Qed.
Theorem C28_neg : is_mat r c f A -> is_mat r c (fun i j => n_neg (f i j)) (Mat_neg A).
Proof. exact: (map_is_mat r c f A n_neg). Qed.
Theorem C28_scale k : is_mat r c f A ->
  is_mat r c (fun i j => n_mul (f i j) k) (Mat_scale A k) /\ Mat_scale_l k A = Mat_scale A k.
Proof. move=> H. split=> //. exact: (map_is_mat r c f A (fun v => n_mul v k)). Qed.
Theorem C28_mul : (0 < r)%N -> (0 < c)%N -> is_mat r m f A -> is_mat m c g B ->
  exists C, Mat_mul A B = Ok C /\ is_mat r c (fun i j => ksum m (fun k => n_mul (f i k) (g k j))) C.
Proof. move=> Hr Hc. apply: Mat_mul_ok; lia. Qed.
Theorem C28_transpose : (0 < r)%N -> (0 < c)%N -> is_mat r c f A ->
  exists C, Transpose A = Ok C /\ is_mat c r (fun i j => f j i) C /\ Transpose C = Ok A.
Proof.
  move=> Hr Hc H. have [C [E HC]] := Transpose_ok r c f A ltac:(lia) ltac:(lia) H.
  have [A' [E' HA']] := Transpose_ok c r _ C ltac:(lia) ltac:(lia) HC.
  exists C. split=> //. split=> //. rewrite E'. congr Ok. exact: is_mat_unique HA' H.
Qed.
(** Shapes that do not fit are caught by an assert. *)
Theorem C28_shape : m_rows A <> m_rows B \/ m_cols A <> m_cols B ->
  exists why, Mat_add A B = AssertFail why /\ Mat_sub A B = AssertFail why.
Proof.
  move=> H. have E : same_shape A B = false.
  { case E: (same_shape A B) => //. move/same_shape_spec: E => [? ?]. by case: H. }
  eexists. rewrite /Mat_add /Mat_sub /Mat_map2 E. by split.
Qed.
Theorem C28_shape_mul : m_cols A <> m_rows B -> exists why, Mat_mul A B = AssertFail why.
Proof. move=> H. rewrite /Mat_mul. case: (Nat.eqb_spec _ _) => // _. by eexists. Qed.
Theorem C28_identity n : is_mat n n f A ->
  exists C, Ones A = Ok C /\ is_mat n n (fun i j => if Nat.eqb i j then n_ofZ (Zpos xH) else n_ofZ Z0) C.
Proof. exact: Ones_ok. Qed.
End Entries.

(** Over exact reals: the operations of linear algebra. *)
Theorem C28_real_add r c (M N : 'M[R]_(r, c)) A B : mx_is M A -> mx_is N B ->
  exists C, Mat_add A B = Ok C /\ mx_is (M + N) C.
Proof.
  move=> HA HB. have [C [E H]] := C28_add HA HB. exists C. split=> //.
  apply: (mx_is_intro H) => i j. by rewrite !entryE mxE.
Qed.
Theorem C28_real_sub r c (M N : 'M[R]_(r, c)) A B : mx_is M A -> mx_is N B ->
  exists C, Mat_sub A B = Ok C /\ mx_is (M - N) C.
Proof.
  move=> HA HB. have [C [E H]] := C28_sub HA HB. exists C. split=> //.
  apply: (mx_is_intro H) => i j. by rewrite !entryE !mxE.
Qed.
Theorem C28_real_neg r c (M : 'M[R]_(r, c)) A : mx_is M A -> mx_is (- M) (Mat_neg A).
Proof. move=> HA. apply: (mx_is_intro (C28_neg HA)) => i j. by rewrite !entryE !mxE. Qed.
Theorem C28_real_scale r c (M : 'M[R]_(r, c)) (k : R) A : mx_is M A -> mx_is (k *: M) (Mat_scale A (Some k : Rops)).
Proof. move=> HA. apply: (mx_is_intro (proj1 (C28_scale (Some k : Rops) HA))) => i j. rewrite !entryE !mxE /=. by rewrite mulrC. Qed.
Theorem C28_real_mul r m c (M : 'M[R]_(r, m)) (N : 'M[R]_(m, c)) A B : (0 < r)%N -> (0 < c)%N ->
  mx_is M A -> mx_is N B -> exists C, Mat_mul A B = Ok C /\ mx_is (M *m N) C.
Proof.
  move=> Hr Hc HA HB. have [C [E H]] := C28_mul Hr Hc HA HB. exists C. split=> //.
  apply: (mx_is_intro H) => i j. rewrite (@ksum_ext _ m _ (fun k => Some (rentry M i k * rentry N k j) : Rops)).
  - rewrite (ksum_R m (fun k => rentry M i k * rentry N k j)). rewrite mxE. congr Some. by apply: eq_bigr => k _; rewrite !rentryE.
  - move=> k Hk. rewrite !entry_rentry //; by apply/ltP.
Qed.
Theorem C28_real_transpose r c (M : 'M[R]_(r, c)) A : (0 < r)%N -> (0 < c)%N -> mx_is M A ->
  exists C, Transpose A = Ok C /\ mx_is (M^T) C.
Proof.
  move=> Hr Hc HA. have [C [E [H _]]] := C28_transpose Hr Hc HA. exists C. split=> //.
  apply: (mx_is_intro H) => i j. by rewrite entryE mxE.
Qed.

(** Consequences for the program: A*(B*C) and (A*B)*C are the same object, and so on. *)
Theorem C28_mul_assoc p q r s (L : 'M[R]_(p, q)) (M : 'M[R]_(q, r)) (N : 'M[R]_(r, s)) A B C :
  (0 < p)%N -> (0 < q)%N -> (0 < r)%N -> (0 < s)%N -> mx_is L A -> mx_is M B -> mx_is N C ->
  exists X, bind (Mat_mul A B) (fun AB => Mat_mul AB C) = Ok X /\ bind (Mat_mul B C) (fun BC => Mat_mul A BC) = Ok X.
Proof.
  move=> Hp Hq Hr Hs HA HB HC.
  have [AB [E1 H1]] := C28_real_mul Hp Hr HA HB. have [X [E2 H2]] := C28_real_mul Hp Hs H1 HC.
  have [BC [E3 H3]] := C28_real_mul Hq Hs HB HC. have [Y [E4 H4]] := C28_real_mul Hp Hs HA H3.
  exists X. rewrite E1 E3 /= E2 E4. split=> //. congr Ok. rewrite mulmxA in H4. exact: is_mat_unique H4 H2.
Qed.
Theorem C28_mul_add p q r (L : 'M[R]_(p, q)) (M N : 'M[R]_(q, r)) A B C :
  (0 < p)%N -> (0 < q)%N -> (0 < r)%N -> mx_is L A -> mx_is M B -> mx_is N C ->
  exists X, bind (Mat_add B C) (fun BC => Mat_mul A BC) = Ok X /\
            bind (Mat_mul A B) (fun AB => bind (Mat_mul A C) (fun AC => Mat_add AB AC)) = Ok X.
Proof.
  move=> Hp Hq Hr HA HB HC.
  have [BC [E1 H1]] := C28_real_add HB HC. have [X [E2 H2]] := C28_real_mul Hp Hr HA H1.
  have [AB [E3 H3]] := C28_real_mul Hp Hr HA HB. have [AC [E4 H4]] := C28_real_mul Hp Hr HA HC.
  have [Y [E5 H5]] := C28_real_add H3 H4.
  exists X. rewrite E1 E3 /= E4 /= E2 E5. split=> //. congr Ok. rewrite -mulmxDr in H5. exact: is_mat_unique H5 H2.
Qed.
Theorem C28_mul_transpose p q r (M : 'M[R]_(p, q)) (N : 'M[R]_(q, r)) A B :
  (0 < p)%N -> (0 < q)%N -> (0 < r)%N -> mx_is M A -> mx_is N B ->
  exists X, bind (Mat_mul A B) Transpose = Ok X /\
            bind (Transpose B) (fun BT => bind (Transpose A) (fun AT => Mat_mul BT AT)) = Ok X.
Proof.
  move=> Hp Hq Hr HA HB.
  have [AB [E1 H1]] := C28_real_mul Hp Hr HA HB. have [X [E2 H2]] := C28_real_transpose Hp Hr H1.
  have [BT [E3 H3]] := C28_real_transpose Hq Hr HB. have [AT [E4 H4]] := C28_real_transpose Hp Hq HA.
  have [Y [E5 H5]] := C28_real_mul Hr Hp H3 H4.
  exists X. rewrite E1 E3 /= E4 /= E2 E5. split=> //. congr Ok. rewrite -trmx_mul in H5. exact: is_mat_unique H5 H2.
Qed.

(** EachDivide ignores its first operand: every quotient is b/b. *)
Theorem C28_each_divide_wrong (K : num_ops) r c (f g : nat -> nat -> K) A B : is_mat r c f A -> is_mat r c g B ->
  exists C, EachDivide A B = Ok C /\ is_mat r c (fun i j => n_div (g i j) (g i j)) C.
Proof.
  move=> HA HB. have [C [E H]] := Mat_map2_ok n_div r c g g B B HB HB. exists C. split=> //.
  rewrite /EachDivide (is_mat_same_shape _ _ _ _ _ _ HA HB). move: E. rewrite /Mat_map2.
  case: HA => -> [_ _]. case: (HB) => -> [-> _]. by case: (same_shape B B).
Qed.

(** ** C29: rows, columns, resizing *)
Theorem C29_swap_row (K : num_ops) r c (f : nat -> nat -> K) A i j : is_mat r c f A -> (i < r)%N -> (j < r)%N ->
  exists B, SwapRow A i j = Ok B /\ is_mat r c (fun k l => f (swap_idx i j k) l) B.
Proof. move=> H Hi Hj. apply: SwapRow_ok => //; lia. Qed.
Theorem C29_swap_col (K : num_ops) r c (f : nat -> nat -> K) A i j : is_mat r c f A -> (i < c)%N -> (j < c)%N ->
  exists B, SwapCol A i j = Ok B /\ is_mat r c (fun k l => f k (swap_idx i j l)) B.
Proof. move=> H Hi Hj. apply: SwapCol_ok => //; lia. Qed.
(** Indices outside the matrix are caught by an assert (unless i = j, when nothing is done). *)
Theorem C29_swap_range (K : num_ops) (A : mat K) i j : i <> j ->
  ((m_rows A <= i)%N \/ (m_rows A <= j)%N -> exists why, SwapRow A i j = AssertFail why) /\
  ((m_cols A <= i)%N \/ (m_cols A <= j)%N -> exists why, SwapCol A i j = AssertFail why).
Proof.
  move=> Hij. rewrite /SwapRow /SwapCol. case: (Nat.eqb_spec i j) => // _.
  split=> H; do 2 (case: Nat.ltb_spec => ?; try by eexists); lia.
Qed.
Theorem C29_swap_twice (K : num_ops) r c (f : nat -> nat -> K) A i j : is_mat r c f A -> (i < r)%N -> (j < r)%N ->
  bind (SwapRow A i j) (fun B => SwapRow B i j) = Ok A.
Proof.
  move=> H Hi Hj. have [B [E HB]] := C29_swap_row H Hi Hj. have [C [E' HC]] := C29_swap_row HB Hi Hj.
  rewrite E /= E'. congr Ok. refine (is_mat_unique _ _ _ _ _ HC _). refine (is_mat_ext _ _ _ _ _ _ H) => k l _ _.
  congr (f _ l). rewrite /swap_idx.
  case: (Nat.eqb_spec k i) => [->|E1]; last case: (Nat.eqb_spec k j) => [->|E2].
  - rewrite Nat.eqb_refl. by case: (Nat.eqb_spec j i).
  - by rewrite Nat.eqb_refl.
  - by case: (Nat.eqb_spec k i) => // _; case: (Nat.eqb_spec k j).
Qed.
Theorem C29_resize (K : num_ops) r c (f : nat -> nat -> K) A r' c' : is_mat r c f A -> (0 < r')%N -> (0 < c')%N ->
  exists B, Resize A r' c' = Ok B /\
    is_mat r' c' (fun i j => if (i < r)%N && (j < c)%N then f i j else n_ofZ Z0) B.
Proof.
  move=> H Hr Hc. have [B [E HB]] := Resize_ok r c f A r' c' H ltac:(lia) ltac:(lia). exists B. split=> //.
  apply: (is_mat_ext _ _ _ _ _ _ HB) => i j _ _. 
  by case: (Nat.ltb_spec i r) => ?; case: (ltnP i r) => ? /=; try lia; case: (Nat.ltb_spec j c) => ?; case: (ltnP j c) => ? /=; try lia.
Qed.

(** ** C30: comparisons *)
Theorem C30_eq (cfg : config Rops) (e : R) r c (M N : 'M[R]_(r, c)) A B : epsilon cfg = Some e -> mx_is M A -> mx_is N B ->
  exists b, Mat_eq cfg A B = Ok b /\ (b = true <-> forall i j, (Rabs (M i j - N i j)%coqR < e)%coqR).
Proof.
  move=> He HA HB. have [b [E H]] := Mat_eq_ok cfg r c _ _ A B HA HB. exists b. split=> //. rewrite {}H He. split=> H.
  - move=> i j. have := H i j (ltP (ltn_ord i)) (ltP (ltn_ord j)). rewrite !entryE. exact: (proj1 (Rltb_spec _ _)).
  - move=> i j /ltP Hi /ltP Hj. rewrite (entry_lt M Hi Hj) (entry_lt N Hi Hj). exact: (proj2 (Rltb_spec _ _)).
Qed.
Theorem C30_eq_num (cfg : config Rops) (e m : R) r c (M : 'M[R]_(r, c)) A : epsilon cfg = Some e -> mx_is M A ->
  (Mat_eq_num cfg A (Some m) = true <-> forall i j, (Rabs (M i j - m)%coqR < e)%coqR).
Proof.
  move=> He HA. rewrite (Mat_eq_num_ok cfg r c _ A (Some m : Rops) HA) He. split=> H.
  - move=> i j. have := H i j (ltP (ltn_ord i)) (ltP (ltn_ord j)). rewrite !entryE. exact: (proj1 (Rltb_spec _ _)).
  - move=> i j /ltP Hi /ltP Hj. rewrite (entry_lt M Hi Hj). exact: (proj2 (Rltb_spec _ _)).
Qed.
(** The two tests differ at the boundary: IsZero uses <=. *)
Theorem C30_is_zero (cfg : config Rops) (e : R) r c (M : 'M[R]_(r, c)) A : epsilon cfg = Some e -> mx_is M A ->
  (IsZero cfg A = true <-> forall i j, (Rabs (M i j) <= e)%coqR).
Proof.
  move=> He HA. rewrite (IsZero_ok cfg r c _ A HA) He. split=> H.
  - move=> i j. have := H i j (ltP (ltn_ord i)) (ltP (ltn_ord j)). rewrite !entryE. exact: (proj1 (Rleb_spec _ _)).
  - move=> i j /ltP Hi /ltP Hj. rewrite (entry_lt M Hi Hj). exact: (proj2 (Rleb_spec _ _)).
Qed.
Theorem C30_all_less r c (M N : 'M[R]_(r, c)) A B : mx_is M A -> mx_is N B ->
  exists b, AllIsLessThan A B = Ok b /\ Vec_lt A B = Ok b /\ (b = true <-> forall i j, (M i j < N i j)%coqR).
Proof.
  move=> HA HB. have [b [E H]] := AllIsLessThan_ok r c _ _ A B HA HB. have [b' [E' H']] := Vec_lt_ok r c _ _ A B HA HB.
  exists b. split=> //. have -> : b = b'. { case: b b' H H' {E E'} => -[] // H1 H2. - by symmetry; apply/H2/H1. - by apply/H1/H2. }
  split=> //. rewrite {}H'. split=> H'.
  - move=> i j. have := H' i j (ltP (ltn_ord i)) (ltP (ltn_ord j)). rewrite !entryE. exact: (proj1 (Rltb_spec _ _)).
  - move=> i j /ltP Hi /ltP Hj. rewrite (entry_lt M Hi Hj) (entry_lt N Hi Hj). exact: (proj2 (Rltb_spec _ _)).
Qed.

(** The first row of largest absolute value in column [col] between rows s and e. *)
Theorem C30_max_abs_row r c (M : 'M[R]_(r, c)) A (s e : 'I_r) (col : 'I_c) : mx_is M A -> (s <= e)%N ->
  exists p : 'I_r, GetMaxAbsRowIndex A s e col = Ok (p : nat) /\ (s <= p <= e)%N /\
    (forall k : 'I_r, (s <= k <= e)%N -> (Rabs (M k col) <= Rabs (M p col))%coqR) /\
    (forall k : 'I_r, (s <= k < p)%N -> (Rabs (M k col) < Rabs (M p col))%coqR).
Proof.
  move=> HA Hs. have HA' : is_mat r c (fun i j => Some (rentry M i j) : Rops) A.
  { apply: (is_mat_ext _ _ _ _ _ _ HA) => i j Hi Hj. exact: entry_rentry. }
  have [p [E [Hp [H1 H2]]]] := GetMaxAbs_ok r c _ A s e col HA' (elimT leP Hs) (ltP (ltn_ord e)) (ltP (ltn_ord col)).
  have Hpr : (p < r)%N by have := ltn_ord e; lia.
  exists (Ordinal Hpr). split=> //. split=> /=; first by lia.
  have Ep : rentry M p col = M (Ordinal Hpr) col by rewrite -(rentryE M (Ordinal Hpr) col).
  split=> k Hk.
  - have := H1 k ltac:(lia). by rewrite Ep rentryE.
  - have := H2 k ltac:(lia). by rewrite Ep rentryE.
Qed.

(** ** C31: PositiveDetermine *)
Theorem C31_minors n (M : 'M[R]_n) A : mx_is M A ->
  exists b, PositiveDetermine A = Ok b /\ (b = true <-> minors_pos M).
Proof.
  move=> H. rewrite (PositiveDetermine_ok _ _ _ H). eexists. split; first by []. rewrite forallb_forall.
  have K k (Hk : (k <= n)%N) : (0 < k)%N -> kdet k (entry M : nat -> nat -> Rops) = Some (\det (leading Hk M)) :> Rops.
  { move=> Hk0. by rewrite (kdet_entry M Hk0 Hk Hk) (leading_rentry Hk). }
  split.
  - move=> P k Hk Hk0. have I : List.In k (List.seq 1 n) by apply/in_seq; lia.
    have := P _ I. rewrite (K k Hk Hk0) => /negP N. apply: Rnot_le_lt => L. apply: N. exact/(proj2 (Rleb_spec _ _)).
  - move=> P k /in_seq [Hk0 Hk1]. have Hk : (k <= n)%N by lia. have Hk' : (0 < k)%N by lia.
    rewrite (K k Hk Hk'). apply/negP => /(proj1 (Rleb_spec _ _)) L. exact: Rle_not_lt L (P k Hk Hk').
Qed.
(** For a symmetric matrix this decides positive definiteness (Sylvester). *)
Theorem C31_positive_definite n (M : 'M[R]_n) A : mx_is M A -> M^T = M ->
  exists b, PositiveDetermine A = Ok b /\ (b = true <-> posdef M).
Proof.
  move=> H S. have [b [E Hb]] := C31_minors H. exists b. split=> //. rewrite Hb. exact: sylvester_plus.
Qed.

(** Not so for a general square matrix: [[1,-3],[0,1]] has positive minors, but v = (1,1) gives -1. *)
Definition asym : 'M[R]_2 := \matrix_(i, j) (if i == j then 1%coqR else if i == ord0 then (-3)%coqR else 0%coqR).
Theorem C31_not_symmetric : minors_pos asym /\ ~ posdef asym.
Proof.
  split.
  - move=> k Hk Hk0. have : (k = 1 \/ k = 2)%N by lia. case=> E; subst k.
    + rewrite det_mx11 !mxE /=. lra.
    + rewrite det2 !mxE /=. lra.
  - move=> P. have V : const_mx 1%coqR <> 0 :> 'cV[R]_2.
    { move=> /matrixP /(_ ord0 ord0). rewrite !mxE => E. exact: R1_neq_R0. }
    have := P _ V. rewrite /quad !mxE !big_ord_recl !big_ord0 !mxE !big_ord_recl !big_ord0 !mxE /=.
    rewrite -!RplusE -!RmultE -?R0E. lra.
Qed.
Theorem C31_not_square (K : num_ops) (A : mat K) : m_rows A <> m_cols A -> exists why, PositiveDetermine A = AssertFail why.
Proof. move=> H. rewrite /PositiveDetermine. case: (Nat.eqb_spec _ _) => // _. by eexists. Qed.

(** ** Construction from braces, and concrete instances of the hypotheses above. *)
Theorem C28_init (K : num_ops) (rows : list (list K)) c : (0 < length rows)%N -> (0 < c)%N ->
  (forall l, List.In l rows -> length l = c) ->
  exists A, Mat_init rows = Ok A /\ is_mat (length rows) c (lentry rows) A.
Proof. move=> Hr Hc H. apply: Mat_init_ok => //; lia. Qed.

(** Every mathematical matrix is held by some object, so [mx_is] is never vacuous. *)
Theorem C28_mx_is_exists r c (M : 'M[R]_(r, c)) : (0 < r)%N -> (0 < c)%N -> exists A, mx_is M A.
Proof.
  move=> Hr Hc.
  set rows := [seq [seq entry M i j : Rops | j <- iota 0 c] | i <- iota 0 r].
  have Hlen : length rows = r by rewrite -[length rows]/(size rows) /rows size_map size_iota.
  have Hrow : forall l, List.In l rows -> length l = c.
  { move=> l /List.in_map_iff [i [<- _]]. by rewrite -[length _]/(size _) size_map size_iota. }
  have := C28_init (rows := rows) (c := c). rewrite Hlen => /(_ Hr Hc Hrow) [A [_ HA]].
  exists A. apply: (is_mat_ext _ _ _ _ _ _ HA) => i j /ltP Hi /ltP Hj.
  rewrite /lentry.
  have N : forall T (d : T) (l : seq T) k, List.nth k l d = nth d l k.
  { move=> T d l k. elim: l k => [|a l IH] [|k] //=. }
  rewrite !N (nth_map 0%N) ?size_iota // (nth_map 0%N) ?size_iota // !nth_iota //.
Qed.

Section Examples.
Let cfg : config Rops := default_config Rops.
Let two : Rops := Some 2%coqR.  Let one : Rops := Some 1%coqR.
Let sym2 : 'M[R]_2 := \matrix_(i, j) (if i == j then 2%coqR else 1%coqR).
Lemma det_sym2 : \det sym2 = 3%coqR.
Proof. rewrite det2 !mxE /=. lra. Qed.
Lemma sym2_held : exists A, Mat_init ((two :: one :: nil) :: (one :: two :: nil) :: nil)%list = Ok A /\ mx_is sym2 A.
Proof.
  have [A [E H]] := C28_init (rows := ((two :: one :: nil) :: (one :: two :: nil) :: nil)%list) (c := 2) isT isT
     ltac:(by move=> l [<-|[<-|[]]]).
  exists A. split=> //. apply: (mx_is_intro H). case=> -[|[]] // Hi; case=> -[|[]] // Hj; by rewrite mxE.
Qed.
(** The matrix {{2,1},{1,2}}: determinant 3, invertible, positive definite by the program's answer. *)
Example C26_ex : exists A, Mat_init ((two :: one :: nil) :: (one :: two :: nil) :: nil)%list = Ok A /\ Det A 2 = Ok (Some 3%coqR : Rops).
Proof. have [A [E H]] := sym2_held. exists A. split=> //. by rewrite (C26_det _ H) // det_sym2. Qed.
Example C27_ex : exists A, Mat_init ((two :: one :: nil) :: (one :: two :: nil) :: nil)%list = Ok A /\
  exists B N, Inverse cfg A = Ok B /\ mx_is N B /\ sym2 *m N = 1%:M /\ N *m sym2 = 1%:M.
Proof.
  have [A [E H]] := sym2_held. exists A. split=> //.
  have Ee : exists e, epsilon cfg = Some e /\ (0 <= e <= 1)%coqR.
  { rewrite /cfg /default_config /=. eexists. split; [reflexivity|]. lra. }
  case: Ee => e [Ee He]. have := C27_inverse Ee (proj1 He) (isT : (0 < 2)%N) H.
  case: (Rle_dec _ _) => // L. exfalso. move: L. rewrite det_sym2 Rabs_pos_eq; lra.
Qed.
Example C31_ex : exists A, Mat_init ((two :: one :: nil) :: (one :: two :: nil) :: nil)%list = Ok A /\ PositiveDetermine A = Ok true /\ posdef sym2.
Proof.
  have [A [E H]] := sym2_held. exists A. split=> //.
  have S : sym2^T = sym2 by apply/matrixP => i j; rewrite !mxE eq_sym.
  have P : minors_pos sym2.
  { move=> k Hk Hk0. have : (k = 1 \/ k = 2)%N by lia. case=> E'; subst k.
    - rewrite det_mx11 !mxE /=. lra.
    - have -> : leading Hk sym2 = sym2 by apply/matrixP => i j; rewrite !mxE. rewrite det_sym2. lra. }
  have [b [Eb Hb]] := C31_minors H. split; last by apply/sylvester_plus. rewrite Eb. congr Ok. exact/Hb.
Qed.
End Examples.
