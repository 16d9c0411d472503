(** C32, C33: SolveLinear over exact reals. *)
From Coq Require Import String Reals Lra Lia List.
From mathcomp Require Import all_ssreflect all_algebra all_fingroup zify.
From Verif Require Import Base MathOp RealSpec RField MatModel MatSpec MatProofs PivotProofs LinearModel LinearProofs
  MatRealSpec MatReal LinearReal LinearSolve Thm_Mat IEEE.
Set Implicit Arguments.
Unset Strict Implicit.
Unset Printing Implicit Defensive.
Delimit Scope R_scope with coqR.
Import GRing.Theory.
Local Open Scope ring_scope.

Lemma mx_is_rmat r c (M : 'M[R]_(r, c)) A : mx_is M A -> rmat r c (rentry M) A.
Proof. move=> H. apply: (is_mat_ext _ _ _ _ _ _ H) => i j Hi Hj. exact: entry_rentry. Qed.
Lemma mx_is_rvec r (w : 'cV[R]_r) b : mx_is w b -> rvec r (fun i => rentry w i 0) b.
Proof.
  move=> H. apply: (is_mat_ext _ _ _ _ _ _ H) => i j Hi Hj. have -> : j = 0%N by lia. apply: entry_rentry => //.
Qed.
Lemma rvec_mx_is r (h : nat -> R) b : rvec r h b -> mx_is (\matrix_(i, j) h i : 'cV[R]_r) b.
Proof. move=> H. apply: (mx_is_intro H) => i j. by rewrite mxE. Qed.

Section Linear.
Variables (cfg : config Rops) (eps : R).
Hypothesis Heps : epsilon cfg = Some eps.

(** ** The general analysis *)
Section Analysis.
Variables (m n : nat) (M : 'M[R]_(m, n)) (v : 'cV[R]_m) (A b : mat Rops).
Hypotheses (Hm : (0 < m)%N) (Hmn : (m <= n)%N) (HA : mx_is M A) (Hb : mx_is v b).

Let indet s := Throw (A := mat Rops) (MathError ERROR_INDETERMINATE_EQUATION s).

Lemma solve_cases : exists y x f g p, [/\ (y <= m)%N, (y <= x <= n)%N, LinearReal.Inv eps M v y x f g p &
   [\/ exists X (h : nat -> R) s, [/\ y = m \/ x = n, rvec n h X,
         SolveLinear cfg A b = (if (m == n) || allowIndeterminateEquation cfg then Ok X else indet s) &
         y = m -> Cm m n p f *m (\matrix_(j, k) h j : 'cV_n) = gv m g],
       [/\ (y < m)%N, x = n & exists X h s, rvec n h X /\
         SolveLinear cfg A b = (if (m == n) then Throw (MathError ERROR_INFINITY_SOLUTIONS EmptyString)
                                else if allowIndeterminateEquation cfg then Ok X else indet s)],
       [/\ (y < m)%N, x = n, (eps <= Rabs (g y))%coqR & SolveLinear cfg A b = Throw (MathError ERROR_SINGULAR_MATRIX EmptyString)] |
       [/\ (eps <= 0)%coqR, (y < m)%N, (x < n)%N & forall k, (y <= k)%N -> (k < m)%N -> f k x = 0]]].
Proof.
  have HA' := mx_is_rmat HA. have Hb' := mx_is_rvec Hb.
  have HI0 : LinearReal.Inv eps M v 0 0 (rentry M) (fun i => rentry v i 0) (fun _ => 0%N).
  { apply: Inv_start => [i j|i]; [exact: rentryE|exact: (rentryE v i ord0)]. }
  have HT0 : T_is n 0 (fun _ => 0%N) (List.repeat 0%N n).
  { split; first exact: repeat_length. move=> i Hi. rewrite nth_error_repeat'; last by lia. by []. }
  have [y [x [f [g [p [Hy Hx HI HC]]]]]] := @elim_loop_ok cfg eps Heps m n M v m.+1 0%N 0%N _ _ _ A b _
     ltac:(lia) ltac:(lia) ltac:(lia) Hmn HA' Hb' HI0 HT0.
  have Hp7 := HI. case: Hp7 => [? [? [? [_ _ _ _ [_ _ H7 H8 H9]]]]].
  exists y, x, f, g, p. split=> //.
  have EA : m_rows A = m by case: HA. have EAc : m_cols A = n by case: HA => _ []. have Eb : m_rows b = m by case: Hb.
  (* the head of SolveLinear *)
  have [ret0 [Er Hr]] : exists ret0, bind (Vec_make m (n_ofZ Z0)) (fun ret =>
      (if Nat.eqb n m then Ok ret else if Nat.ltb n m then Throw (MathError ERROR_OVER_DETERMINED_EQUATIONS EmptyString) else Vec_Resize ret n)) = Ok ret0
      /\ rvec n (fun _ => 0%coqR) ret0.
  { have [r0 [E0 H0]] := Mat_make_ok m 1 (n_ofZ Z0 : Rops) ltac:(lia) ltac:(lia). rewrite /Vec_make E0. cbn [bind].
    case: (Nat.eqb_spec n m) => [E|Hne]; first by exists r0; split; [|rewrite E].
    case: (Nat.ltb_spec n m) => [|_]; first by lia.
    have [b' [E' H']] := Vec_Resize_R m (fun _ => 0%coqR) r0 n H0 ltac:(lia). exists b'. split=> //.
    apply: (rvec_ext _ _ _ _ _ H') => i Hi. by case: Nat.ltb. }
  have EQ : SolveLinear cfg A b = bind (elim_loop cfg m.+1 m n 0 0 A b (List.repeat 0%N n)) (fun st =>
     let indeterminate := negb (Nat.eqb m n) in
     bind (if indeterminate then
      bind (Resize (el_A st) n n) (fun A => bind (Vec_Resize (el_b st) n) (fun b => reorder n (el_T st) A b))
      else Ok (el_A st, el_b st)) (fun '(A, b) =>
     bind (back_substitute n A b ret0) (fun ret =>
     if (Nat.ltb (el_rankA st) n && Nat.eqb (el_rankA st) (el_rankAb st))%bool then
       if indeterminate then (if allowIndeterminateEquation cfg then Ok ret else indet (indeterminate_text A b))
       else Throw (MathError ERROR_INFINITY_SOLUTIONS EmptyString)
     else Ok ret))).
  { rewrite /SolveLinear EA EAc Eb Nat.eqb_refl. cbn [negb].
    have -> : Nat.ltb 0 m by apply/Nat.ltb_spec0; lia.
    move: Er. case: (Vec_make m _) => // r0. cbn [bind]. move=> ->. by []. }
  rewrite EQ {EQ}. case: HC.
  - move=> [A' [b' [T' [-> HT HA1 Hb1 Hex]]]]. cbn [bind el_A el_b el_T el_rankA el_rankAb]. apply: Or41.
    rewrite Nat.eqb_refl andbT.
    case: (Nat.eqb_spec m n) => Emn; cbn [negb bind].
    + have HA2 : rmat n n f A' by rewrite -{1}Emn. have Hb2 : rvec n g b' by rewrite -Emn.
      have [h [ret' [-> [Hh Eh]]]] := back_substitute_ok n f g _ A' b' ret0 HA2 Hb2 Hr. cbn [bind].
      have -> : Nat.ltb m n = false by apply/Nat.ltb_ge; lia.
      exists ret', h, EmptyString. split=> //; first by have -> : (m == n) by apply/eqP.
      move=> Eym. subst y. have Ep i : (i < m)%N -> p i = i.
      { move=> Hi. have G k : (k < m)%N -> (p (m.-1 - k) <= m.-1 - k)%N.
        { elim: k => [|k IH] Hk.
          - rewrite subn0. have := H7 m.-1 ltac:(lia) ltac:(lia). lia.
          - have := IH ltac:(lia). have := H9 (m.-1 - k.+1)%N (m.-1 - k)%N ltac:(lia) ltac:(lia). lia. }
        have := G (m.-1 - i)%N ltac:(lia). have -> : (m.-1 - (m.-1 - i) = i)%N by lia. have := H7 i Hi Hi. lia. }
      apply: Cm_solution => i Hi.
      * have [P1 P2] := H7 i Hi Hi. by split=> //; lia.
      * rewrite !Ep //. rewrite (Eh i); last by lia. by [].
    + have [A2 [-> HA2]] := Resize_R m n f A' n n HA1 ltac:(lia) ltac:(lia). cbn [bind].
      have [b2 [-> Hb2]] := Vec_Resize_R m g b' n Hb1 ltac:(lia). cbn [bind].
      have -> : Nat.ltb m n by apply/Nat.ltb_spec0; lia. have -> : (m == n) = false by apply/eqP. rewrite orFb.
      case: (HT) => HTL HTN. case: (eqVneq y m) => [Eym|Hym].
      * subst y. have [F [G [A3 [b3 [-> [HA3 [Hb3 [HF HF0]]]]]]]] := reorder_ok n m _ _ p T' A2 b2 HA2 Hb2 ltac:(lia) HTL
          (fun i Hi => ltac:(have := H7 i (introT ltP Hi) (introT ltP Hi); lia))
          (fun i j Hij Hj => ltac:(have := H9 i j (introT ltP Hij) (introT ltP Hj); lia))
          (fun i Hi => HTN i (introT ltP Hi))
          (fun i Hi => ltac:(by have -> : Nat.ltb i m = false by apply/Nat.ltb_ge; lia))
          (fun i j Hi Hj => ltac:(by have -> : Nat.ltb i m = false by apply/Nat.ltb_ge; lia)). cbn [bind].
        have [h [ret' [-> [Hh Eh]]]] := back_substitute_ok n F G _ A3 b3 ret0 HA3 Hb3 Hr. cbn [bind].
        exists ret', h, (indeterminate_text A3 b3). split=> //. move=> _. apply: Cm_solution => i Hi.
        -- have [P1 P2] := H7 i Hi Hi. by split=> //; lia.
        -- have [P1 P2] := H7 i Hi Hi. have Hpi : (p i < n)%coq_nat by lia. rewrite (Eh (p i) Hpi).
           have Hi' : (i < m)%coq_nat by lia. have [-> FE] := HF i Hi'. have -> : Nat.ltb i m by apply/Nat.ltb_spec0.
           congr (_ - _)%coqR. apply: rsum_ext => j Hj. rewrite FE; last by lia.
           have -> : Nat.ltb i m by apply/Nat.ltb_spec0. have -> : Nat.ltb j n by apply/Nat.ltb_spec0; lia. by [].
      * have HTt : forall i, (i < n)%coq_nat -> exists t, nth_error T' i = Some t /\ (t < n)%coq_nat.
        { move=> i Hi. eexists. split; first by apply: HTN; lia. case: (Nat.ltb_spec i y) => Hiy /=; last by lia.
          have := H7 i ltac:(lia) ltac:(lia). case: (Nat.ltb_spec i (p i)); lia. }
        have [F [G [A3 [b3 [-> [HA3 Hb3]]]]]] := reorder_total n T' _ _ A2 b2 HA2 Hb2 HTt. cbn [bind].
        have [h [ret' [-> [Hh Eh]]]] := back_substitute_ok n F G _ A3 b3 ret0 HA3 Hb3 Hr. cbn [bind].
        exists ret', h, (indeterminate_text A3 b3). split=> //. by move=> Ey; rewrite Ey eqxx in Hym.
  - move=> [A' [b' [T' [-> HT [HA1 Hb1] [Hym Ex] Hs]]]]. cbn [bind el_A el_b el_T el_rankA el_rankAb]. apply: Or42.
    rewrite Nat.eqb_refl andbT. have -> : Nat.ltb y n by apply/Nat.ltb_spec0; lia. split=> //.
    case: (Nat.eqb_spec m n) => Emn; cbn [negb bind].
    + have HA2 : rmat n n f A' by rewrite -{1}Emn. have Hb2 : rvec n g b' by rewrite -Emn.
      have [h [ret' [-> [Hh _]]]] := back_substitute_ok n f g _ A' b' ret0 HA2 Hb2 Hr. cbn [bind].
      exists ret', h, EmptyString. split=> //. by have -> : (m == n) by apply/eqP.
    + have [A2 [-> HA2]] := Resize_R m n f A' n n HA1 ltac:(lia) ltac:(lia). cbn [bind].
      have [b2 [-> Hb2]] := Vec_Resize_R m g b' n Hb1 ltac:(lia). cbn [bind].
      have -> : (m == n) = false by apply/eqP. case: (HT) => HTL HTN.
      have HTt : forall i, (i < n)%coq_nat -> exists t, nth_error T' i = Some t /\ (t < n)%coq_nat.
      { move=> i Hi. eexists. split; first by apply: HTN; lia. case: (Nat.ltb_spec i y) => Hiy /=; last by lia.
        have := H7 i ltac:(lia) ltac:(lia). case: (Nat.ltb_spec i (p i)); lia. }
      have [F [G [A3 [b3 [-> [HA3 Hb3]]]]]] := reorder_total n T' _ _ A2 b2 HA2 Hb2 HTt. cbn [bind].
      have [h [ret' [-> [Hh _]]]] := back_substitute_ok n F G _ A3 b3 ret0 HA3 Hb3 Hr. cbn [bind].
      by exists ret', h, (indeterminate_text A3 b3).
  - move=> [-> H1 H2 H3]. by apply: Or43.
  - move=> [H1 H2 H3 H4]. by apply: Or44.
Qed.
End Analysis.

(** A square matrix whose first x+1 columns live in the first y <= x rows is singular. *)
Lemma tall_columns n (C : 'M[R]_n) y x : (y <= x)%N -> (x < n)%N ->
  (forall (i j : 'I_n), (y <= i)%N -> (j <= x)%N -> C i j = 0) -> C \notin unitmx.
Proof.
  move=> Hyx Hx HZ. apply/negP => U.
  have RX : \rank (pid_mx x.+1 : 'M[R]_n) = x.+1 by rewrite rank_pid_mx.
  have RY : \rank (pid_mx y : 'M[R]_n) = y by rewrite rank_pid_mx //; lia.
  have E : C *m (pid_mx x.+1 : 'M[R]_n) = (pid_mx y : 'M[R]_n) *m (C *m (pid_mx x.+1 : 'M[R]_n)).
  { apply/matrixP => i j. rewrite [RHS]mxE (bigD1 i) //= big1 ?addr0.
    - rewrite [pid_mx y i i]mxE eqxx /=. case: (ltnP i y) => Hi; first by rewrite mul1r.
      rewrite mul0r mxE big1 // => k _. rewrite mxE. case: eqP => [Ekj|_] /=; last by rewrite mulr0.
      case: (ltnP k x.+1) => Hk; last by rewrite mulr0. by rewrite (HZ i k Hi) ?mul0r.
    - move=> k Hk. rewrite mxE. case: eqP => [Eik|_] /=; last by rewrite mul0r.
      exfalso. move/eqP: Hk. apply. exact: val_inj. }
  have R1 : \rank (C *m (pid_mx x.+1 : 'M[R]_n)) = x.+1 by rewrite eqmxMfull ?row_full_unit.
  have R2 := mxrankM_maxl (pid_mx y : 'M[R]_n) (C *m (pid_mx x.+1 : 'M[R]_n)).
  rewrite -E R1 RY in R2. lia.
Qed.

Lemma row_free_square n (C : 'M[R]_n) : row_free C = (C \in unitmx).
Proof. by rewrite -row_free_unit. Qed.

(** ** C32: solutions.
    There is always a matrix M' = M + E, with every |E i j| < epsilon, such that the call is
    correct for M': either M' is singular, or the returned vector solves M' x = b exactly. *)
Theorem C32_solve_linear n (M : 'M[R]_n) (v : 'cV[R]_n) A b :
  (0 <= eps)%coqR -> (0 < n)%N -> mx_is M A -> mx_is v b ->
  exists E, small_mx eps E /\
    (M + E \notin unitmx \/
     exists X x, SolveLinear cfg A b = Ok X /\ mx_is x X /\ (M + E) *m x = v).
Proof.
  move=> He Hn HA Hb. have [y [x [f [g [p [Hy Hx HI HC]]]]]] := solve_cases Hn (leqnn n) HA Hb.
  have Sing : (y < n)%N -> (n <= x)%N -> exists E, small_mx eps E /\ (M + E \notin unitmx \/
     exists X x, SolveLinear cfg A b = Ok X /\ mx_is x X /\ (M + E) *m x = v).
  { move=> H1 H2. have [E [E1 E2 _]] := Inv_zero_row H1 H2 HI. exists E. split=> //. left. by rewrite -row_free_square E2. }
  case: HC.
  - move=> [X [h [txt [Hex HX ES Hsol]]]]. case: (eqVneq y n) => [Ey|Hyn]; last first.
    { apply: Sing; first by lia. case: Hex => Hex; [by rewrite Hex eqxx in Hyn|by rewrite Hex]. }
    have Hs := Hsol Ey. case: HI => [E [L [s [H1 H2 H3 H4 [H5 H6 H7 H8 H9]]]]]. exists E. split=> //. right.
    exists X, (\matrix_(j, k) h j). rewrite ES eqxx /=. split=> //. split; first exact: rvec_mx_is.
    have := congr1 (mulmx (invmx L)) Hs. rewrite -H2 -H3 -mulmxA !(mulKmx H1) => <-. by [].
  - move=> [H1 H2 _]. apply: Sing => //. by rewrite H2.
  - move=> [H1 H2 _ _]. apply: Sing => //. by rewrite H2.
  - move=> [_ Hyn Hxn HZ]. case: HI => [E [L [s [H1 H2 H3 H4 [H5 H6 H7 H8 H9]]]]]. exists E. split=> //. left.
    apply/negP => U. have : L *m (M + E) \in unitmx by rewrite unitmx_mul H1.
    rewrite H2. apply/negP. apply: (@tall_columns n _ y x) => // [|i j Hi Hj]; first by lia.
    rewrite mxE H8 //. case: (ltngtP j x) Hj => // Ej _. rewrite Ej. exact: HZ.
Qed.

(** More unknowns than equations (allowIndeterminateEquation). *)
Theorem C32_solve_wide m n (M : 'M[R]_(m, n)) (v : 'cV[R]_m) A b :
  (0 < eps)%coqR -> (0 < m)%N -> (m < n)%N -> allowIndeterminateEquation cfg = true -> mx_is M A -> mx_is v b ->
  exists E, small_mx eps E /\
    (row_free (M + E) = false \/
     exists X x, SolveLinear cfg A b = Ok X /\ mx_is x X /\ (M + E) *m x = v).
Proof.
  move=> He Hm Hmn Hal HA Hb. have [y [x [f [g [p [Hy Hx HI HC]]]]]] := solve_cases Hm (ltnW Hmn) HA Hb.
  have Sing : (y < m)%N -> (n <= x)%N -> exists E, small_mx eps E /\ (row_free (M + E) = false \/
     exists X x, SolveLinear cfg A b = Ok X /\ mx_is x X /\ (M + E) *m x = v).
  { move=> H1 H2. have [E [E1 E2 _]] := Inv_zero_row H1 H2 HI. exists E. split=> //. by left. }
  case: HC.
  - move=> [X [h [txt [Hex HX ES Hsol]]]]. case: (eqVneq y m) => [Ey|Hyn]; last first.
    { apply: Sing; first by lia. case: Hex => Hex; [by rewrite Hex eqxx in Hyn|by rewrite Hex]. }
    have Hs := Hsol Ey. case: HI => [E [L [s [H1 H2 H3 H4 [H5 H6 H7 H8 H9]]]]]. exists E. split=> //. right.
    exists X, (\matrix_(j, k) h j). rewrite ES Hal orbT. split=> //. split; first exact: rvec_mx_is.
    have := congr1 (mulmx (invmx L)) Hs. rewrite -H2 -H3 -mulmxA !(mulKmx H1) => <-. by [].
  - move=> [H1 H2 _]. apply: Sing => //. by rewrite H2.
  - move=> [H1 H2 _ _]. apply: Sing => //. by rewrite H2.
  - move=> [H1 _ _ _]. exfalso. lra.
Qed.

(** Hence: a matrix that stays regular under such perturbations is solved, with residual
    at most epsilon times the sum of the |x j|. *)
Theorem C32_residual n (M : 'M[R]_n) (v : 'cV[R]_n) A b :
  (0 <= eps)%coqR -> (0 < n)%N -> mx_is M A -> mx_is v b -> (forall E, small_mx eps E -> M + E \in unitmx) ->
  exists X (x : 'cV[R]_n), SolveLinear cfg A b = Ok X /\ mx_is x X /\
    forall i, (Rabs ((M *m x) i ord0 - v i ord0)%coqR <= eps * \sum_(j < n) Rabs (x j ord0))%coqR.
Proof.
  move=> He Hn HA Hb HR. have [E [HE [HS|[X [x [ES [HX Hx]]]]]]] := C32_solve_linear He Hn HA Hb.
  { by rewrite HR in HS. }
  exists X, x. split=> //. split=> // i. rewrite -Hx mulmxDl.
  have -> : (M *m x + E *m x) i ord0 = (M *m x) i ord0 + (E *m x) i ord0 by rewrite mxE.
  have -> : ((M *m x) i ord0 - ((M *m x) i ord0 + (E *m x) i ord0))%coqR = Ropp ((E *m x) i ord0).
  { lra. }
  rewrite Rabs_Ropp mxE. elim/big_ind2: _.
  - rewrite -R0E Rabs_R0. lra.
  - move=> a1 s1 a2 s2 H1 H2. have := Rabs_triang s1 s2. rewrite -!RplusE. lra.
  - move=> j _. rewrite -RmultE Rabs_mult. have ? := Rabs_pos (x j ord0). apply: Rmult_le_compat_r => //.
    case: (HE i j) => [->|]; last exact: Rlt_le. rewrite -R0E Rabs_R0. lra.
Qed.
End Linear.

(** With epsilon = 0 every regular system is solved exactly. *)
Theorem C32_exact (cfg : config Rops) n (M : 'M[R]_n) (v : 'cV[R]_n) A b :
  epsilon cfg = Some R0 -> (0 < n)%N -> mx_is M A -> mx_is v b -> M \in unitmx ->
  exists X, SolveLinear cfg A b = Ok X /\ mx_is (invmx M *m v) X.
Proof.
  move=> He Hn HA Hb U. have [E [HE HC]] := C32_solve_linear He (Rle_refl _) Hn HA Hb.
  have E0 : E = 0. { apply/matrixP => i j. rewrite mxE. case: (HE i j) => // H. have := Rabs_pos (E i j). lra. }
  subst E. rewrite addr0 in HC. case: HC => [H|[X [x [ES [HX Hx]]]]]; first by rewrite U in H.
  exists X. split=> //. by rewrite -Hx (mulKmx U).
Qed.

(** ** C33: errors *)
(** More equations than unknowns: always refused, whatever the numbers. *)
Theorem C33_over_determined (K : num_ops) (cfg : config K) (A b : mat K) :
  wf_mat A -> m_rows b = m_rows A -> (m_cols A < m_rows A)%N ->
  SolveLinear cfg A b = Throw (MathError ERROR_OVER_DETERMINED_EQUATIONS EmptyString).
Proof.
  move=> [Hr [Hc _]] Eb Hlt. rewrite /SolveLinear Eb Nat.eqb_refl. cbn [negb].
  have [r0 [E0 _]] := Mat_make_ok (m_rows A) 1 (n_ofZ Z0 : K) Hr ltac:(lia). rewrite /Vec_make E0. cbn [bind].
  have -> : Nat.ltb 0 (m_rows A) by apply/Nat.ltb_spec0.
  have -> : Nat.eqb (m_cols A) (m_rows A) = false by apply/Nat.eqb_spec; lia.
  by have -> : Nat.ltb (m_cols A) (m_rows A) by apply/Nat.ltb_spec0; lia.
Qed.
Theorem C33_size_mismatch (K : num_ops) (cfg : config K) (A b : mat K) : m_rows b <> m_rows A ->
  exists why, SolveLinear cfg A b = AssertFail why.
Proof. move=> H. rewrite /SolveLinear. case: (Nat.eqb_spec _ _) => [E|_]; first by case: H. by eexists. Qed.

Section Errors.
Variables (cfg : config Rops) (eps : R).
Hypotheses (Heps : epsilon cfg = Some eps) (Hpos : (0 < eps)%coqR).
Variables (m n : nat) (M : 'M[R]_(m, n)) (v : 'cV[R]_m) (A b : mat Rops).
Hypotheses (Hm : (0 < m)%N) (Hmn : (m <= n)%N) (HA : mx_is M A) (Hb : mx_is v b).

(** Fewer equations than unknowns, not allowed: never a result. *)
Theorem C33_indeterminate : (m < n)%N -> allowIndeterminateEquation cfg = false ->
  (exists s, SolveLinear cfg A b = Throw (MathError ERROR_INDETERMINATE_EQUATION s)) \/
  SolveLinear cfg A b = Throw (MathError ERROR_SINGULAR_MATRIX EmptyString).
Proof.
  move=> Hlt Hal. have [y [x [f [g [p [Hy Hx HI HC]]]]]] := solve_cases Heps Hm Hmn HA Hb.
  have Ene : (m == n) = false by lia.
  case: HC.
  - move=> [X [h [txt [_ _ -> _]]]]. rewrite Ene Hal /=. left. by eexists.
  - move=> [_ _ [X [h [txt [_ ->]]]]]. rewrite Ene Hal. left. by eexists.
  - move=> [_ _ _ ->]. by right.
  - move=> [H _ _ _]. exfalso. lra.
Qed.

(** ERROR_SINGULAR_MATRIX: some nearby system really has no solution. *)
Theorem C33_singular s : SolveLinear cfg A b = Throw (MathError ERROR_SINGULAR_MATRIX s) ->
  exists E, small_mx eps E /\ forall x : 'cV[R]_n, (M + E) *m x <> v.
Proof.
  move=> HS. have [y [x [f [g [p [Hy Hx HI HC]]]]]] := solve_cases Heps Hm Hmn HA Hb. case: HC.
  - move=> [X [h [txt [_ _ ES _]]]]. rewrite HS in ES. by case: ifP ES.
  - move=> [_ _ [X [h [txt [_ ES]]]]]. rewrite HS in ES. case: ifP ES => // _. by case: ifP.
  - move=> [H1 H2 Hg _]. have [E [E1 E2 E3]] := Inv_zero_row H1 (eq_leq (esym H2)) HI. exists E. split=> // z. apply: E3 => G0.
    rewrite G0 in Hg. rewrite -R0E Rabs_R0 in Hg. lra.
  - move=> [H _ _ _]. exfalso. lra.
Qed.

(** ERROR_INFINITY_SOLUTIONS: the system is square and some nearby matrix is singular. *)
Theorem C33_infinity s : SolveLinear cfg A b = Throw (MathError ERROR_INFINITY_SOLUTIONS s) ->
  m = n /\ exists E, small_mx eps E /\ row_free (M + E) = false.
Proof.
  move=> HS. have [y [x [f [g [p [Hy Hx HI HC]]]]]] := solve_cases Heps Hm Hmn HA Hb. case: HC.
  - move=> [X [h [txt [_ _ ES _]]]]. rewrite HS in ES. by case: ifP ES.
  - move=> [H1 H2 [X [h [txt [_ ES]]]]]. rewrite HS in ES. case: eqP ES => [Emn _|_].
    + split=> //. have [E [E1 E2 E3]] := Inv_zero_row H1 (eq_leq (esym H2)) HI. by exists E.
    + by case: ifP.
  - move=> [_ _ _ ES]. by rewrite HS in ES.
  - move=> [H _ _ _]. exfalso. lra.
Qed.

(** Every outcome: a vector of n numbers or one of three errors; no undefined behaviour, no assert. *)
Theorem C33_outcome :
  (exists X x, SolveLinear cfg A b = Ok X /\ mx_is (x : 'cV[R]_n) X) \/
  (exists t s, SolveLinear cfg A b = Throw (MathError t s) /\
     (t = ERROR_SINGULAR_MATRIX \/ (t = ERROR_INFINITY_SOLUTIONS /\ m = n) \/ (t = ERROR_INDETERMINATE_EQUATION /\ (m < n)%N))).
Proof.
  have [y [x [f [g [p [Hy Hx HI HC]]]]]] := solve_cases Heps Hm Hmn HA Hb. case: HC.
  - move=> [X [h [txt [_ HX -> _]]]]. case: eqP => [_|Hne] /=; first by left; exists X, (\matrix_(j, k) h j); split=> //; exact: rvec_mx_is.
    case: ifP => _; first by left; exists X, (\matrix_(j, k) h j); split=> //; exact: rvec_mx_is.
    right. do 2 eexists. split; first by []. right; right. split=> //. lia.
  - move=> [_ _ [X [h [txt [HX ->]]]]]. case: eqP => [Emn|Hne] /=.
    + right. do 2 eexists. split; first by []. right; left. by split.
    + case: ifP => _; first by left; exists X, (\matrix_(j, k) h j); split=> //; exact: rvec_mx_is.
      right. do 2 eexists. split; first by []. right; right. split=> //. lia.
  - move=> [_ _ _ ->]. right. do 2 eexists. split; first by []. by left.
  - move=> [H _ _ _]. exfalso. lra.
Qed.
End Errors.

(** ** Undetected singular systems, run in the machine arithmetic (binary64).
    0*x0 + 1*x1 = 1, 0*x0 + 1*x1 = 2 has no solution, yet (0, 1) is returned. *)
Section Undetected.
Local Notation d := (b_ofZ : Z -> D).
Let z := d Z0. Let o := d (Zpos xH). Let t := d (Zpos (xO xH)).
Definition returns_exactly (r : res (mat D)) (l : list D) : bool :=
  match r with Ok X => match va_all2 n_eqb (m_data X) l with Ok true => true | _ => false end | _ => false end.

Theorem C33_undetected_square :
  returns_exactly (bind (Mat_init ((z :: o :: nil) :: (z :: o :: nil) :: nil)%list) (fun A =>
    bind (Vec_of (o :: t :: nil)%list) (fun b => SolveLinear (default_config D) A b))) (z :: o :: nil)%list = true
  /\ forall x0 x1 : R, ~ (0 * x0 + 1 * x1 = 1 /\ 0 * x0 + 1 * x1 = 2)%coqR.
Proof. split; first by vm_compute. move=> x0 x1 [H1 H2]. lra. Qed.

(** x0+x1+x2+x3 = 1, = 1, = 2 (three equations), with allowIndeterminateEquation set. *)
Definition allow_config (c : config D) : config D :=
  {| throwOnInvalidValue := throwOnInvalidValue c; epsilon := epsilon c; maxIterations := maxIterations c;
     nonlinearMethod := nonlinearMethod c; initialValue := initialValue c; allowIndeterminateEquation := true |}.
Theorem C33_undetected_wide :
  returns_exactly (bind (Mat_init ((o :: o :: o :: o :: nil) :: (o :: o :: o :: o :: nil) :: (o :: o :: o :: o :: nil) :: nil)%list) (fun A =>
    bind (Vec_of (o :: o :: t :: nil)%list) (fun b => SolveLinear (allow_config (default_config D)) A b))) (z :: z :: o :: z :: nil)%list = true
  /\ forall x0 x1 x2 x3 : R, ~ (x0 + x1 + x2 + x3 = 1 /\ x0 + x1 + x2 + x3 = 2)%coqR.
Proof. split; first by vm_compute. move=> x0 x1 x2 x3 [H1 H2]. lra. Qed.
End Undetected.

(** ** A concrete instance of the hypotheses of C32_residual: the identity matrix with the default epsilon. *)
Lemma identity_regular : forall E : 'M[R]_2, small_mx (1 / 2)%coqR E -> (1%:M + E : 'M[R]_2) \in unitmx.
Proof.
  move=> E HE. rewrite unitmxE unitfE det2 !mxE /=. apply/eqP => H.
  have G i j : (- (1 / 2) < E i j < 1 / 2)%coqR.
  { case: (HE i j) => [->|H1]; first by rewrite -R0E; lra. by have := Rabs_def2 _ _ H1; lra. }
  have G1 := G ord0 ord0. have G2 := G ord_max ord_max. have G3 := G ord0 ord_max. have G4 := G ord_max ord0.
  move: H G1 G2 G3 G4. rewrite -?RplusE /=. change (1%R : R) with 1%coqR. rewrite -?R0E.
  change (true%:R : R) with 1%coqR. change (false%:R : R) with 0%coqR.
  move: (E ord0 ord0) (E ord_max ord_max) (E ord0 ord_max) (E ord_max ord0) => p q r s H G1 G2 G3 G4.
  have T1 : (0 < (1 / 2 - r) * (1 / 2 + s))%coqR by apply: Rmult_lt_0_compat; lra.
  have T2 : (0 < (1 / 2 + r) * (1 / 2 - s))%coqR by apply: Rmult_lt_0_compat; lra.
  have T3 : (0 < (1 / 2 + p) * (1 / 2 + q))%coqR by apply: Rmult_lt_0_compat; lra.
  move: H. rewrite mulr1n mulr0n -R0E. lra.
Qed.
Example C32_ex (cfg : config Rops) (v : 'cV[R]_2) : epsilon cfg = Some (1 / 2)%coqR ->
  exists A b X (x : 'cV[R]_2), mx_is (1%:M : 'M[R]_2) A /\ mx_is v b /\ SolveLinear cfg A b = Ok X /\ mx_is x X.
Proof.
  move=> He.
  have [A HA] : exists A, mx_is (1%:M : 'M[R]_2) A by exact: C28_mx_is_exists.
  have [b Hb] : exists b, mx_is v b by exact: C28_mx_is_exists.
  have [X [x [E [H _]]]] := C32_residual He ltac:(lra) (isT : (0 < 2)%N) HA Hb identity_regular.
  by exists A, b, X, x.
Qed.
