(** C84: systems of linear equations, written out term by term, are solved in doubles. *)
From Coq Require Import Sorting.Sorted String List ZArith Bool Arith Lia Reals Lra.
From Coquelicot Require Import Coquelicot.
From Flocq Require Import IEEE754.BinarySingleNaN Core.
From Verif Require Import Base MathOp NodeModel SubsModel DiffModel MatModel LinearModel VarsTableModel SymMatModel NonlinearModel
  ExprSpec SubsSpec MatSpec VarsSpec SymMatSpec NonlinearSpec DiffSpec AffineSpec NewtonSpec NodeProofs SymMatProofs Thm_Node Thm_Subs Thm_Vars Thm_SymMat DiffProofs Thm_Diff
  NonlinearProofs Thm_Nonlinear IEEE RealSpec AffineSolve Thm_Affine NewtonProofs FloatSpec FloatFacts IntSpec IntProofs RoundSpec RoundProofs Thm_Round
  SolveSpec LinRound LinFloat LinLoop Thm_Solve DerivSpec Thm_Deriv Newton64Spec NewtonRound Thm_Newton64 NumText LinearSpec.
Import ListNotations.
Local Open Scope string_scope.
Local Open Scope list_scope.
Local Open Scope R_scope.

(** ** Error analysis of linear terms *)
Section Lin.
Context (L : libm) (lc : R).
Notation K := (B64 L).

Fixpoint sum_terms (e0 : expr K) (T : nat -> expr K) (m : nat) : expr K :=
  match m with O => e0 | S m => EBin BAdd (sum_terms e0 T m) (T m) end.
Lemma power_ge_1 k : 1 <= (1 + ulp1) ^ k.
Proof. apply pow_R1_Rle. pose proof ulp1_pos. lra. Qed.

Lemma sum_error renv e0 T y0 y E m : accuracy L lc renv (fun _ => 0) e0 y0 0 ->
  (forall j, (j < m)%nat -> accuracy L lc renv (fun _ => 0) (T j) (y j) (E j) /\ 0 <= E j <= ulp1 * Rabs (y j) + tiny) ->
  let A := Rabs y0 + rsum m (fun j => Rabs (y j)) in (1 + ulp1) ^ (m + 1) * (A + INR m * tiny) < huge ->
  exists E', accuracy L lc renv (fun _ => 0) (sum_terms e0 T m) (y0 + rsum m y) E' /\ 0 <= E' <= (1 + ulp1) ^ (m + 1) * (A + INR m * tiny) - A.
Proof.
  intros H0. induction m as [|m IH]; intros HT A HA; cbn [sum_terms rsum] in *; pose proof ulp1_pos as U; pose proof tiny_pos as Tp; pose proof (Rabs_pos y0) as P0.
  - exists 0. replace (y0 + 0) with y0 by ring. split; [exact H0|]. unfold A. simpl INR. rewrite pow_1. nra.
  - unfold A in HA |- *. set (A1 := Rabs y0 + rsum m (fun j => Rabs (y j))) in *.
    replace (Rabs y0 + (rsum m (fun j => Rabs (y j)) + Rabs (y m))) with (A1 + Rabs (y m)) in HA |- * by (unfold A1; ring).
    assert (PA1 : 0 <= A1). { unfold A1. pose proof (RoundProofs.rsum_pos m (fun j => Rabs (y j)) (fun i _ => Rabs_pos _)). lra. }
    pose proof (Rabs_pos (y m)) as Pm. rewrite S_INR in HA |- *. pose proof (pos_INR m) as Pi. replace (S m + 1)%nat with (S (m + 1)) in HA |- * by lia. cbn [pow] in HA |- *.
    pose proof (power_ge_1 (m + 1)) as P1. set (p := (1 + ulp1) ^ (m + 1)) in *.
    assert (Pit : 0 <= INR m * tiny) by (apply Rmult_le_pos; lra).
    assert (Q1 : p * (A1 + INR m * tiny) <= (1 + ulp1) * p * (A1 + Rabs (y m) + (INR m + 1) * tiny)).
    { apply Rmult_le_compat; [lra|lra|nra|]. lra. }
    destruct (IH (fun j Hj => HT j (Nat.lt_lt_succ_r _ _ Hj)) (Rle_lt_trans _ _ _ Q1 HA)) as (E1 & Ac1 & B1).
    destruct (HT m (Nat.lt_succ_diag_r m)) as [Ac2 B2].
    assert (V : Rabs (y0 + rsum m y + y m) <= A1 + Rabs (y m)).
    { eapply Rle_trans; [apply Rabs_triang|]. apply Rplus_le_compat_r. eapply Rle_trans; [apply Rabs_triang|]. unfold A1. apply Rplus_le_compat_l. apply LinRound.rsum_abs. }
    set (W := with_rounding ulp1 0 (y0 + rsum m y + y m) (E1 + E m)).
    assert (BW : 0 <= W <= (1 + ulp1) * p * (A1 + Rabs (y m) + (INR m + 1) * tiny) - (A1 + Rabs (y m))).
    { unfold W, with_rounding. pose proof (Rabs_pos (y0 + rsum m y + y m)) as Pv. split; [nra|].
      assert (G : E1 + E m + ulp1 * (A1 + Rabs (y m) + (E1 + E m)) <= (1 + ulp1) * p * (A1 + Rabs (y m) + (INR m + 1) * tiny) - (A1 + Rabs (y m))).
      { assert (G1 : E1 + E m + A1 + Rabs (y m) <= p * (A1 + INR m * tiny) + (1 + ulp1) * Rabs (y m) + tiny) by lra.
        assert (Ppu : 1 + ulp1 <= p). { unfold p. rewrite <- (pow_1 (1 + ulp1)) at 1. apply Rle_pow; [lra|lia]. }
        assert (G2 : (1 + ulp1) * Rabs (y m) + tiny <= p * (Rabs (y m) + tiny)) by nra.
        assert (G3 : E1 + E m + A1 + Rabs (y m) <= p * (A1 + Rabs (y m) + (INR m + 1) * tiny)) by lra.
        apply (Rmult_le_compat_l (1 + ulp1)) in G3; [|lra]. lra. }
      assert (ulp1 * (Rabs (y0 + rsum m y + y m) + (E1 + E m)) <= ulp1 * (A1 + Rabs (y m) + (E1 + E m))) by (apply Rmult_le_compat_l; lra). lra. }
    exists W. replace (y0 + (rsum m y + y m)) with (y0 + rsum m y + y m) by ring. split.
    + apply C59_add; auto. fold W. lra.
    + exact BW.
Qed.

(** The row of a system, its derivatives, and their values. *)
Variables (xs : list string) (n : nat) (b : b64) (c : nat -> b64).
Hypotheses (Nd : NoDup xs) (Hx : length xs = n) (Fb : fin b) (Fc : forall j, (j < n)%nat -> fin (c j)).
Notation row := (linear_terms (K:=K) xs (b : K) (fun j => c j : K)).

Lemma row_sum m : row m = sum_terms (ENum (b : K)) (fun j => EBin BMul (ENum (c j : K)) (EVar (nth j xs EmptyString))) m.
Proof. induction m as [|m IH]; cbn [linear_terms sum_terms]; [reflexivity|]. now rewrite IH. Qed.
Lemma row_deriv x m : deriv x (row m) = sum_terms (number 0) (fun j => EBin BMul (ENum (c j : K)) (deriv x (EVar (nth j xs EmptyString)))) m.
Proof. induction m as [|m IH]; cbn [linear_terms sum_terms]; [reflexivity|]. cbn [deriv literal]. rewrite andb_false_r, IH. reflexivity. Qed.
Lemma row_nums m : (m <= n)%nat -> all_nums (K:=K) fin (row m).
Proof.
  induction m as [|m IH]; intros Hm; cbn [linear_terms all_nums]; [exact Fb|]. split; [apply IH; lia|]. split; [apply Fc; lia|exact Logic.I].
Qed.
Lemma row_no_pow env x m : no_0_pow_0f L env (deriv x (row m)).
Proof.
  rewrite row_deriv. induction m as [|m IH]; cbn [sum_terms no_0_pow_0f]; [exact Logic.I|]. split; [exact IH|]. split; [|exact Logic.I].
  split; [exact Logic.I|]. split; [|exact Logic.I]. cbn [deriv]. destruct (String.eqb _ x); exact Logic.I.
Qed.

Lemma row_value env m : rval env (real_expr L (row m)) = Some (B2R b + rsum m (fun j => B2R (c j) * env (nth j xs EmptyString))).
Proof.
  induction m as [|m IH]; cbn [linear_terms real_expr rval rsum]; [now rewrite Rplus_0_r|]. rewrite IH. cbn [r_bin]. f_equal. ring.
Qed.
Lemma row_smooth x env m : smooth 1 x env (real_expr L (row m)).
Proof. induction m as [|m IH]; cbn [linear_terms real_expr smooth]; [discriminate|]. split; [exact IH|]. split; [discriminate|exact Logic.I]. Qed.
Lemma row_vars m : (m <= n)%nat -> vars_within xs (real_expr L (row m)).
Proof using Hx.
  clear Fb Fc Nd. induction m as [|m IH]; intros Hm x O; cbn [linear_terms real_expr] in O; inversion O as [| |? ? ? O'|? ? ? O']; subst; [apply IH; [lia|exact O']|].
  inversion O' as [| |? ? ? O2|? ? ? O2]; subst; inversion O2; subst. apply nth_In. lia.
Qed.
Lemma row_affine : affine xs (real_expr L (row n)) (fun j => B2R (c j)) (- B2R b).
Proof using Hx.
  split; [exact (row_vars n (Nat.le_refl n))|]. split; [intros x env _; apply row_smooth|]. intros env. rewrite row_value. f_equal. rewrite Hx. ring.
Qed.

(** The error of the row at a point. *)
Lemma row_error renv q A : (forall j, (j < n)%nat -> renv (nth j xs EmptyString) = q j) ->
  Rabs (B2R b) + rsum n (fun j => Rabs (B2R (c j)) * Rabs (q j)) <= A -> (1 + ulp1) ^ (n + 1) * (A + INR n * tiny) < huge ->
  exists E, accuracy L lc renv (fun _ => 0) (row n) (B2R b + rsum n (fun j => B2R (c j) * q j)) E /\ E <= linear_error n A.
Proof.
  intros Hq HA Hh. rewrite row_sum. pose proof ulp1_pos as U. pose proof tiny_pos as Tp. pose proof (power_ge_1 (n + 1)) as P1. pose proof (pos_INR n) as Pn.
  set (y := fun j => B2R (c j) * q j). set (A0 := Rabs (B2R b) + rsum n (fun j => Rabs (y j))).
  assert (HA0 : A0 <= A). { unfold A0. rewrite (RoundProofs.rsum_eq n _ (fun j => Rabs (B2R (c j)) * Rabs (q j))); [exact HA|]. intros j _. unfold y. apply Rabs_mult. }
  assert (P0 : 0 <= A0). { unfold A0. pose proof (Rabs_pos (B2R b)). pose proof (RoundProofs.rsum_pos n (fun j => Rabs (y j)) (fun i _ => Rabs_pos _)). lra. }
  assert (Q : (1 + ulp1) ^ (n + 1) * (A0 + INR n * tiny) < huge). { eapply Rle_lt_trans; [|exact Hh]. apply Rmult_le_compat_l; lra. }
  destruct (sum_error renv (ENum (b : K)) (fun j => EBin BMul (ENum (c j : K)) (EVar (nth j xs EmptyString))) (B2R b) y (fun j => with_rounding ulp1 tiny (y j) 0) n) as (E & Ac & _ & B2).
  - exact (ac_num L lc renv (fun _ => 0) b Fb).
  - intros j Hj. assert (BW : 0 <= with_rounding ulp1 tiny (y j) 0 <= ulp1 * Rabs (y j) + tiny).
    { unfold with_rounding. pose proof (Rabs_pos (y j)). assert (0 <= ulp1 * Rabs (y j)) by (apply Rmult_le_pos; lra). lra. }
    split; [|exact BW].
    assert (Fy : Rabs (y j) <= A0). { unfold A0. pose proof (LinRound.rsum_in n (fun j => Rabs (y j)) j (fun i _ => Rabs_pos _) Hj) as Q'. cbv beta in Q'. pose proof (Rabs_pos (B2R b)). lra. }
    assert (In1 : 1 <= INR n). { replace 1 with (INR 1) by reflexivity. apply le_INR. lia. }
    assert (Hf : Rabs (y j) + with_rounding ulp1 tiny (y j) 0 < huge).
    { eapply Rle_lt_trans; [|exact Q]. assert (Q1 : (1 + ulp1) * (A0 + INR n * tiny) <= (1 + ulp1) ^ (n + 1) * (A0 + INR n * tiny)).
      { apply Rmult_le_compat_r; [assert (0 <= INR n * tiny) by (apply Rmult_le_pos; lra); lra|]. rewrite <- (pow_1 (1 + ulp1)) at 1. apply Rle_pow; [lra|lia]. }
      assert (tiny <= INR n * tiny) by (rewrite <- (Rmult_1_l tiny) at 1; apply Rmult_le_compat_r; lra). nra. }
    pose proof (ac_var L lc renv (fun _ => 0) (nth j xs EmptyString)) as Av. rewrite (Hq j Hj) in Av.
    pose proof (C59_times L lc renv (fun _ => 0) (ENum (c j : K)) (EVar (nth j xs EmptyString)) (B2R (c j)) (q j) 0 0 (ac_num L lc renv (fun _ => 0) (c j) (Fc j Hj)) Av) as T.
    cbv zeta in T. replace (Rabs (B2R (c j)) * 0 + 0 * Rabs (q j) + 0 * 0) with 0 in T by ring. apply T. exact Hf.
  - exact Q.
  - exists E. split; [exact Ac|]. eapply Rle_trans; [exact B2|]. unfold linear_error, rounding_bound. fold A0. nra.
Qed.

(** The error of a derivative, which is constant. *)
Lemma row_deriv_error renv k M : (k < n)%nat -> (forall j, (j < n)%nat -> Rabs (B2R (c j)) <= M) -> (1 + ulp1) ^ (n + 1) * (M + INR n * tiny) < huge ->
  exists E, accuracy L lc renv (fun _ => 0) (deriv (nth k xs EmptyString) (row n)) (B2R (c k)) E /\ E <= linear_error n M.
Proof.
  intros Hk HM Hh. rewrite row_deriv. pose proof ulp1_pos as U. pose proof tiny_pos as Tp. pose proof (power_ge_1 (n + 1)) as P1. pose proof (pos_INR n) as Pn.
  set (y := fun j => if (j =? k)%nat then B2R (c k) else 0).
  assert (Ey : rsum n y = B2R (c k)) by (apply LinRound.rsum_one; exact Hk).
  assert (Ea : rsum n (fun j => Rabs (y j)) = Rabs (B2R (c k))).
  { rewrite (RoundProofs.rsum_eq n _ (fun j => if (j =? k)%nat then Rabs (B2R (c k)) else 0)); [apply LinRound.rsum_one; exact Hk|]. intros j _. unfold y. destruct (j =? k)%nat; [reflexivity|apply Rabs_R0]. }
  destruct (ofZ_is 0 ltac:(unfold exact_range; lia)) as [F0 E0]. destruct (ofZ_is 1 ltac:(unfold exact_range; lia)) as [F1 E1].
  assert (Q : (1 + ulp1) ^ (n + 1) * (Rabs 0 + rsum n (fun j => Rabs (y j)) + INR n * tiny) < huge).
  { rewrite Ea, Rabs_R0, Rplus_0_l. eapply Rle_lt_trans; [|exact Hh]. apply Rmult_le_compat_l; [lra|]. pose proof (HM k Hk). lra. }
  destruct (sum_error renv (number 0) (fun j => EBin BMul (ENum (c j : K)) (deriv (nth k xs EmptyString) (EVar (nth j xs EmptyString)))) 0 y (fun j => with_rounding ulp1 tiny (y j) 0) n) as (E & Ac & _ & B2).
  - pose proof (ac_num L lc renv (fun _ => 0) (b_ofZ 0) F0) as A0. rewrite E0 in A0. exact A0.
  - intros j Hj. split.
    2:{ unfold with_rounding. pose proof (Rabs_pos (y j)). assert (0 <= ulp1 * Rabs (y j)) by (apply Rmult_le_pos; lra). lra. }
    assert (In1 : 1 <= INR n). { replace 1 with (INR 1) by reflexivity. apply le_INR. lia. }
    assert (Hf : Rabs (y j) + with_rounding ulp1 tiny (y j) 0 < huge).
    { eapply Rle_lt_trans; [|exact Q]. set (S := rsum n (fun j => Rabs (y j))) in *. rewrite Rabs_R0, Rplus_0_l.
      pose proof (LinRound.rsum_in n (fun j => Rabs (y j)) j (fun i _ => Rabs_pos _) Hj) as Fy. cbv beta in Fy. fold S in Fy. pose proof (Rabs_pos (y j)) as Py.
      assert (Q1 : (1 + ulp1) * (S + INR n * tiny) <= (1 + ulp1) ^ (n + 1) * (S + INR n * tiny)).
      { apply Rmult_le_compat_r; [assert (0 <= INR n * tiny) by (apply Rmult_le_pos; lra); lra|]. rewrite <- (pow_1 (1 + ulp1)) at 1. apply Rle_pow; [lra|lia]. }
      assert (tiny <= INR n * tiny) by (rewrite <- (Rmult_1_l tiny) at 1; apply Rmult_le_compat_r; lra). unfold with_rounding. nra. }
    assert (Ed : deriv (nth k xs EmptyString) (EVar (nth j xs EmptyString)) = number (K:=K) (if (j =? k)%nat then 1 else 0)).
    { cbn [deriv]. destruct (Nat.eqb_spec j k) as [->|Hne]; [now rewrite String.eqb_refl|].
      destruct (String.eqb_spec (nth j xs EmptyString) (nth k xs EmptyString)) as [Eq|]; [|reflexivity].
      exfalso. apply Hne. apply (proj1 (NoDup_nth xs EmptyString) Nd); [lia|lia|exact Eq]. }
    rewrite Ed. assert (Hz : exists z : Z, fin (b_ofZ z) /\ B2R (b_ofZ z) = (if (j =? k)%nat then 1 else 0) /\ number (K:=K) (if (j =? k)%nat then 1 else 0) = ENum (b_ofZ z : K)).
    { destruct (j =? k)%nat; [exists 1%Z|exists 0%Z]; auto. }
    destruct Hz as (z & Fz & Ez & En). rewrite En.
    assert (Ey' : y j = B2R (c j) * B2R (b_ofZ z)). { unfold y. rewrite Ez. destruct (Nat.eqb_spec j k) as [->|]; ring. }
    pose proof (C59_times L lc renv (fun _ => 0) (ENum (c j : K)) (ENum (b_ofZ z : K)) (B2R (c j)) (B2R (b_ofZ z)) 0 0 (ac_num L lc renv (fun _ => 0) (c j) (Fc j Hj)) (ac_num L lc renv (fun _ => 0) (b_ofZ z) Fz)) as T.
    cbv zeta in T. replace (Rabs (B2R (c j)) * 0 + 0 * Rabs (B2R (b_ofZ z)) + 0 * 0) with 0 in T by ring. rewrite <- Ey' in T. apply T. exact Hf.
  - exact Q.
  - exists E. rewrite Ey, Rplus_0_l in Ac. split; [exact Ac|]. eapply Rle_trans; [exact B2|]. unfold linear_error, rounding_bound. rewrite Ea, Rabs_R0, Rplus_0_l.
    pose proof (HM k Hk). pose proof (Rabs_pos (B2R (c k))). nra.
Qed.
End Lin.

(** ** Systems *)
Section Systems.
Context (L : libm) (lc : R) (cfg : config (B64 L)).
Notation K := (B64 L).
Variables (n : nat) (xs : list string) (M : nat -> nat -> b64) (b : nat -> b64) (A : symmat K) (t : vars_table K) (s : nat -> R) (s0 : nat -> b64).
Notation rows := (fun i => linear_terms (K:=K) xs (b i : K) (fun j => M i j : K) n).
Notation Mr := (fun i j => B2R (M i j)).

Lemma linear_system P : NoDup xs -> xs <> [] -> length xs = n -> system xs n (fun i => real_expr L (rows i)) (fun i p => left_side n M b p i) (fun i j _ => B2R (M i j)) P.
Proof.
  intros Nd Ne Hx i Hi. pose proof (row_affine L xs n (b i) (M i) Hx) as Ha. split; [exact (proj1 Ha)|]. intros p env _ Hp. split.
  - rewrite row_value. f_equal. unfold left_side, row_times. f_equal. apply RoundProofs.rsum_eq. intros j Hj. f_equal. apply Hp. lia.
  - intros j Hj. split; [apply row_smooth|]. apply (affine_partial xs _ _ _ Nd Ha env j). exact Hj.
Qed.

Theorem C84_linear r d Mc bc rho N :
  ieee_libm L -> accurate_libm L lc -> throwOnInvalidValue cfg = true -> fin (epsilon cfg) -> let eps := B2R (epsilon cfg : b64) in
  (0 < n)%nat -> length xs = n -> is_sym n 1 (fun i _ => rows i) A ->
  (forall i j, (i < n)%nat -> (j < n)%nat -> fin (M i j) /\ Rabs (B2R (M i j)) <= Mc) -> (forall i, (i < n)%nat -> fin (b i) /\ Rabs (B2R (b i)) <= bc) ->
  table_at (K:=K) xs t (fun j => s0 j : K) -> (forall j, (j < n)%nat -> fin (s0 j)) -> norm1 n (reals s0) <= r ->
  (forall i, (i < n)%nat -> left_side n M b s i = 0) -> far_from_singular n Mr d ->
  let B0 := bc + Mc * (norm1 n s + INR n * r) in 2 ^ (n + 1) * (B0 + Mc + 1) <= large -> norm1 n s + r <= large ->
  let eF := linear_error n B0 in let eD := linear_error n Mc in let M1 := Mc + eD in let B := bc + M1 * r + eF in
  solve_range n eps M1 B ->
  let tol := solve_tolerance n eps M1 in 2 * tol + eD <= d ->
  let rate := newton_rate n eps M1 eD 0 d in let noise := newton_noise n eps M1 B eF eD 0 d s in
  rate * r + noise <= r ->
  (1 + ulp1) * ((Mc * norm1 n (reals s0) + eF + solve_factor n * B + (tol + eD) * norm1 n s) / (d - tol - eD)) + ulp1 * norm1 n s <= r ->
  0 <= rho -> rate * rho + noise <= rho -> M1 * (rate ^ N * r + rho) + eF < eps ->
  (Z.of_nat N <= maxIterations cfg)%Z ->
  exists t' (p : nat -> b64), SolveByNewtonRaphson cfg A t = Ok t' /\ table_at (K:=K) xs t' (fun j => p j : K) /\ (forall j, (j < n)%nat -> fin (p j)) /\
    (forall i, (i < n)%nat -> Rabs (left_side n M b (reals p) i) < eps + eF) /\
    norm1 n (fun j => reals p j - s j) <= (eps + eF) / d.
Proof.
  intros HI HL Hth Feps eps Hn Hx HA HM Hb Ht F0 Hs0 Root Far B0 Big Hl eF eD M1 B HR tol Hd rate noise Hstay Land Prho Hrho Stop HN.
  pose proof (h_nonempty _ _ _ Ht) as Ne. pose proof (h_nodup _ _ _ Ht) as Nd. pose proof ulp1_pos as U. pose proof tiny_pos as Tp.
  pose proof (norm1_pos n s) as Ps. pose proof (norm1_pos n (reals s0)) as Ps0. pose proof (pos_INR n) as Pn.
  assert (PM : 0 <= Mc). { destruct (HM 0%nat 0%nat Hn Hn) as [_ Q]. pose proof (Rabs_pos (B2R (M 0%nat 0%nat))). lra. }
  assert (Pb : 0 <= bc). { destruct (Hb 0%nat Hn) as [_ Q]. pose proof (Rabs_pos (B2R (b 0%nat))). lra. }
  assert (Pr : 0 <= r) by lra. assert (Pnr : 0 <= INR n * r) by (apply Rmult_le_pos; lra).
  assert (PB0 : 0 <= B0). { unfold B0. assert (0 <= Mc * (norm1 n s + INR n * r)) by (apply Rmult_le_pos; lra). lra. }
  pose proof (power_ge_1 (n + 1)) as P1.
  assert (Pint : 0 <= INR n * tiny) by (apply Rmult_le_pos; lra).
  assert (PeF : 0 <= eF). { unfold eF, linear_error, rounding_bound. nra. }
  assert (PeD : 0 <= eD). { unfold eD, linear_error, rounding_bound. nra. }
  assert (Small : forall X, 0 <= X <= B0 + Mc -> (1 + ulp1) ^ (n + 1) * (X + INR n * tiny) < huge).
  { intros X HX. assert (Pw : (1 + ulp1) ^ (n + 1) <= 2 ^ (n + 1)). { apply pow_incr. pose proof ulp1_small. lra. }
    assert (P2 : 1 <= 2 ^ (n + 1)) by (apply pow_R1_Rle; lra).
    assert (Pl : 2 ^ (n + 1) <= large). { eapply Rle_trans; [|exact Big]. rewrite <- (Rmult_1_r (2 ^ (n + 1))) at 1. apply Rmult_le_compat_l; lra. }
    assert (Nt : INR n * tiny <= 1).
    { assert (In2 : INR n <= 2 ^ (n + 1)). { clear. induction n as [|m IH]; [simpl; lra|]. rewrite S_INR. replace (S m + 1)%nat with (S (m + 1)) by lia. cbn [pow]. assert (1 <= 2 ^ (m + 1)) by (apply pow_R1_Rle; lra). lra. }
      rewrite tiny_bpow. apply Rle_trans with (large * bpow radix2 (-1075)).
      - apply Rmult_le_compat_r; [apply bpow_ge_0|lra].
      - assert (El : large = bpow radix2 1000) by reflexivity. rewrite El, <- bpow_plus. apply (bpow_le radix2 _ 0). lia. }
    apply Rle_lt_trans with (2 ^ (n + 1) * (B0 + Mc + 1)).
    - apply Rmult_le_compat; try lra.
    - eapply Rle_lt_trans; [exact Big|]. assert (El : large = bpow radix2 1000) by reflexivity. rewrite El, huge_bpow. apply bpow_lt. lia. }
  set (here := fun p => box n s r p \/ p = reals s0).
  assert (Mass : forall q, here (reals q) -> forall i, (i < n)%nat -> Rabs (B2R (b i)) + rsum n (fun j => Rabs (B2R (M i j)) * Rabs (reals q j)) <= B0).
  { intros q Hq i Hi. destruct (Hb i Hi) as [_ Qb].
    assert (Qs : rsum n (fun j => Rabs (B2R (M i j)) * Rabs (reals q j)) <= Mc * norm1 n (reals q)).
    { unfold norm1. rewrite <- LinRound.rsum_scale. apply RoundProofs.rsum_le. intros j Hj. apply Rmult_le_compat_r; [apply Rabs_pos|]. now apply HM. }
    assert (Qn : norm1 n (reals q) <= norm1 n s + INR n * r).
    { destruct Hq as [Hq|Hq].
      - replace (norm1 n s + INR n * r) with (rsum n (fun j => Rabs (s j) + r)) by (rewrite LinRound.rsum_plus, RoundProofs.rsum_const; reflexivity). unfold norm1. apply RoundProofs.rsum_le. intros j Hj. specialize (Hq j Hj).
        replace (reals q j) with ((reals q j - s j) + s j) by ring. eapply Rle_trans; [apply Rabs_triang|]. lra.
      - rewrite Hq. assert (1 <= INR n) by (replace 1 with (INR 1) by reflexivity; apply le_INR; lia). nra. }
    unfold B0. apply (Rmult_le_compat_l Mc) in Qn; [|exact PM]. lra. }
  assert (An : analysed L lc xs n rows (fun i p => left_side n M b p i) (fun i j _ => B2R (M i j)) eF eD here).
  { intros q env Hq Fenv Ha i Hi. split.
    - assert (Hq' : forall j, (j < n)%nat -> (fun x => B2R (env x)) (nth j xs EmptyString) = reals q j).
      { intros j Hj. assert (Hj' : (j < length xs)%nat) by lia. pose proof (Ha j _ (nth_error_nth' xs EmptyString Hj')) as E. cbv beta in E |- *. unfold reals. now rewrite E. }
      exact (row_error L lc xs n (b i) (M i) Hx (proj1 (Hb i Hi)) (fun j Hj => proj1 (HM i j Hi Hj)) (fun x => B2R (env x)) (reals q) B0 Hq' (Mass q Hq i Hi) (Small B0 ltac:(lra))).
    - intros j Hj. cbv zeta. split; [apply row_no_pow|].
      exact (row_deriv_error L lc xs n (b i) (M i) Nd Hx (fun j Hj => proj1 (HM i j Hi Hj)) (fun x => B2R (env x)) j Mc Hj (fun k Hk => proj2 (HM i k Hi Hk)) (Small Mc ltac:(lra))). }
  assert (Fs0 : forall i, (i < n)%nat -> Rabs (row_times n Mr (reals s0) i) <= Mc * norm1 n (reals s0)).
  { intros i Hi. unfold row_times. apply rsum_bound1; [exact PM|]. intros j Hj. now apply HM. }
  destruct (C64_newton_converges L lc cfg n rows A t xs (fun i p => left_side n M b p i) (fun i j _ => B2R (M i j)) eF eD s s0 r 0 d M1 B d (Mc * norm1 n (reals s0)) rho N) as (t' & p & E & T & Fp & V & Q); auto.
  - intros i Hi. apply (row_nums L xs n (b i) (M i) Hx (proj1 (Hb i Hi)) (fun j Hj => proj1 (HM i j Hi Hj)) n (Nat.le_refl n)).
  - now apply linear_system.
  - intros p i j _ _ _. rewrite Rminus_diag_eq, Rabs_R0 by reflexivity. lra.
  - intros i j Hi Hj. destruct (HM i j Hi Hj) as [_ Q]. unfold M1. lra.
  - unfold B. lra.
  - fold eps. fold tol. lra.
  - intros i j Hi Hj. destruct (HM i j Hi Hj) as [_ Q]. unfold M1. lra.
  - intros i Hi. unfold left_side. destruct (Hb i Hi) as [_ Qb]. pose proof (Fs0 i Hi) as Qf. pose proof (Rabs_triang (B2R (b i)) (row_times n Mr (reals s0) i)) as Tr.
    assert (Mc * norm1 n (reals s0) <= M1 * r) by (unfold M1; apply Rmult_le_compat; lra). unfold B. lra.
  - intros i Hi. cbv beta. pose proof (Root i Hi) as Z. unfold left_side in Z |- *.
    replace (B2R (b i) + row_times n Mr (reals s0) i + row_times n Mr s i) with (row_times n Mr (reals s0) i) by lra. now apply Fs0.
  - exists t', p. split; [exact E|]. split; [exact T|]. split; [exact Fp|]. split; [exact V|]. clear Q.
    assert (PT : 0 < tol).
    { destruct HR as (He & HM1 & _). pose proof (eps_pos _ He). unfold tol, solve_tolerance, solve_factor. pose proof (pos_INR (n + 1)). assert (0 <= 2 ^ n) by (apply pow_le; lra).
      assert (0 <= 12 * INR (n + 1) * 2 ^ n * ulp1 * M1) by (repeat apply Rmult_le_pos; lra). lra. }
    assert (Pd : 0 < d) by lra.
    destruct (Rle_or_lt (norm1 n (fun j => reals p j - s j)) 0) as [Z0|Z0].
    { assert (0 <= (eps + eF) / d); [|lra]. apply Rmult_le_pos; [|left; now apply Rinv_0_lt_compat]. destruct HR as (He & _). pose proof (eps_pos _ He). lra. }
    destruct (Far _ (norm1_nonzero n _ Z0)) as (i & Hi & Q). specialize (V i Hi).
    assert (Er : row_times n Mr (fun j => reals p j - s j) i = left_side n M b (reals p) i).
    { specialize (Root i Hi). unfold left_side in Root |- *. rewrite <- (Rminus_0_r (B2R (b i) + _)), <- Root. unfold row_times.
      assert (Q1 : rsum n (fun j => Mr i j * (reals p j - s j)) = rsum n (fun j => Mr i j * reals p j) + rsum n (fun j => (-1) * (Mr i j * s j))) by (rewrite <- LinRound.rsum_plus; apply RoundProofs.rsum_eq; intros j _; ring).
      rewrite Q1, LinRound.rsum_scale. ring. }
    rewrite Er in Q. apply Rmult_le_reg_l with d; [exact Pd|]. unfold Rdiv. replace (d * ((eps + eF) * / d)) with (eps + eF) by (field; lra). left. eapply Rlt_trans; [exact Q|exact V].
Qed.
End Systems.

(** ** Diagonally dominant matrices are far from singular *)
Theorem C84_dominant n (M : nat -> nat -> R) d : 0 <= d -> dominant n M (INR n * d) -> far_from_singular n M d.
Proof.
  intros Hd HM z (j0 & Hj0 & Zj0).
  assert (Mx : forall m, (0 < m)%nat -> exists i, (i < m)%nat /\ forall j, (j < m)%nat -> Rabs (z j) <= Rabs (z i)).
  { induction m as [|m IH]; intros Hm; [lia|]. destruct m as [|m].
    - exists 0%nat. split; [lia|]. intros j Hj. assert (j = 0%nat) as -> by lia. lra.
    - destruct (IH ltac:(lia)) as (i & Hi & Q). destruct (Rle_or_lt (Rabs (z i)) (Rabs (z (S m)))) as [G|G].
      + exists (S m). split; [lia|]. intros j Hj. destruct (Nat.eq_dec j (S m)) as [->|Nj]; [lra|]. specialize (Q j ltac:(lia)). lra.
      + exists i. split; [lia|]. intros j Hj. destruct (Nat.eq_dec j (S m)) as [->|Nj]; [lra|]. exact (Q j ltac:(lia)). }
  destruct (Mx n ltac:(lia)) as (i & Hi & Q). clear Mx. exists i. split; [exact Hi|].
  assert (Pz : 0 < Rabs (z i)). { pose proof (Q j0 Hj0). pose proof (Rabs_pos_lt _ Zj0). lra. }
  assert (Nz : norm1 n z <= INR n * Rabs (z i)). { rewrite <- RoundProofs.rsum_const. unfold norm1. apply RoundProofs.rsum_le. exact Q. }
  assert (Sp : row_times n M z i = M i i * z i + rsum n (fun j => if Nat.eqb j i then 0 else M i j * z j)).
  { clear - Hi. unfold row_times. induction n as [|m IH]; [lia|]. cbn [rsum]. destruct (Nat.eq_dec i m) as [->|Ni].
    - rewrite Nat.eqb_refl. assert (E : rsum m (fun j => if Nat.eqb j m then 0 else M m j * z j) = rsum m (fun j => M m j * z j)).
      { apply RoundProofs.rsum_eq. intros j Hj. rewrite (proj2 (Nat.eqb_neq j m)) by lia. reflexivity. }
      rewrite E. ring.
    - rewrite IH by lia. rewrite (proj2 (Nat.eqb_neq m i)) by lia. ring. }
  assert (Off : Rabs (rsum n (fun j => if Nat.eqb j i then 0 else M i j * z j)) <= rsum n (fun j => if Nat.eqb j i then 0 else Rabs (M i j)) * Rabs (z i)).
  { eapply Rle_trans; [apply LinRound.rsum_abs|]. rewrite Rmult_comm, <- LinRound.rsum_scale. apply RoundProofs.rsum_le. intros j Hj. destruct (Nat.eqb j i); [rewrite Rabs_R0; lra|].
    rewrite Rabs_mult, Rmult_comm. apply Rmult_le_compat_r; [apply Rabs_pos|]. now apply Q. }
  specialize (HM i Hi). rewrite Sp. set (o := rsum n (fun j => if Nat.eqb j i then 0 else Rabs (M i j))) in *. set (w := rsum n (fun j => if Nat.eqb j i then 0 else M i j * z j)) in *.
  assert (T : Rabs (M i i * z i) - Rabs w <= Rabs (M i i * z i + w)). { pose proof (Rabs_triang (M i i * z i + w) (- w)) as Q1. rewrite Rabs_Ropp in Q1. replace (M i i * z i + w + - w) with (M i i * z i) in Q1 by ring. lra. }
  rewrite Rabs_mult in T. assert (Q2 : (o + INR n * d) * Rabs (z i) < Rabs (M i i) * Rabs (z i)) by (apply Rmult_lt_compat_r; lra).
  assert (Q3 : d * norm1 n z <= d * (INR n * Rabs (z i))) by (apply Rmult_le_compat_l; lra). lra.
Qed.


(** ... and so the system has exactly one solution in the real numbers. *)
Theorem C84_root n (M : nat -> nat -> R) (b : nat -> R) d : 0 < d -> far_from_singular n M d ->
  exists s, (forall i, (i < n)%nat -> b i + row_times n M s i = 0) /\
    forall s', (forall i, (i < n)%nat -> b i + row_times n M s' i = 0) -> forall j, (j < n)%nat -> s' j = s j.
Proof.
  intros Hd Far. destruct n as [|n]; [exists (fun _ => 0); split; intros; lia|].
  assert (C : conditioned (S n) M d).
  { intros y m Hm j Hj. destruct (Req_dec (y j) 0) as [Z0|N0].
    - rewrite Z0, Rabs_R0, Rmult_0_r. pose proof (Hm j Hj). pose proof (Rabs_pos (row_times (S n) M y j)). lra.
    - destruct (Far y (ex_intro _ j (conj Hj N0))) as (i & Hi & Q). pose proof (Hm i Hi). pose proof (norm1_ge (S n) y j Hj). assert (d * Rabs (y j) <= d * norm1 (S n) y) by (apply Rmult_le_compat_l; lra). lra. }
  set (cfg := {| throwOnInvalidValue := true; epsilon := (Some 0 : Rops); maxIterations := 100; nonlinearMethod := NEWTON_RAPHSON; initialValue := (Some 1 : Rops); allowIndeterminateEquation := false |} : config Rops).
  destruct (solve_conditioned (cfg:=cfg) (eps:=0) (mu:=d) (n:=S n) (M:=M) eq_refl ltac:(lra) ltac:(lia) C ltac:(lra) (fun i => - b i)) as (s & _ & Hs).
  assert (Hr : forall i, (i < S n)%nat -> b i + row_times (S n) M s i = 0).
  { intros i Hi. specialize (Hs i Hi). rewrite Rmult_0_l in Hs. pose proof (Rabs_pos (row_times (S n) M s i - - b i)). assert (E : Rabs (row_times (S n) M s i - - b i) = 0) by lra.
    assert (E' : row_times (S n) M s i - - b i = 0) by (destruct (Req_dec (row_times (S n) M s i - - b i) 0) as [e|N]; [exact e|exfalso; exact (Rabs_no_R0 _ N E)]). lra. }
  exists s. split; [exact Hr|]. intros s' Hr' j Hj. destruct (Req_dec (s' j) (s j)) as [E|N]; [exact E|exfalso].
  destruct (Far (fun k => s' k - s k) (ex_intro _ j (conj Hj (Rminus_eq_contra _ _ N)))) as (i & Hi & Q).
  assert (Er : row_times (S n) M (fun k => s' k - s k) i = 0).
  { specialize (Hr i Hi). specialize (Hr' i Hi). assert (Q1 : rsum (S n) (fun k => M i k * (s' k - s k)) = rsum (S n) (fun k => M i k * s' k) + rsum (S n) (fun k => (-1) * (M i k * s k))) by (rewrite <- LinRound.rsum_plus; apply RoundProofs.rsum_eq; intros k _; ring).
    unfold row_times in *. rewrite Q1, LinRound.rsum_scale. lra. }
  rewrite Er, Rabs_R0 in Q. pose proof (norm1_pos (S n) (fun k => s' k - s k)). assert (0 <= d * norm1 (S n) (fun k => s' k - s k)) by (apply Rmult_le_pos; lra). lra.
Qed.

(** ** Systems of at most four equations with coefficients up to 10, with the default settings *)
Lemma eps_sharp : 99 / 10 ^ 11 <= B2R (b_dec false 1 (-9)) <= 101 / 10 ^ 11.
Proof.
  rewrite NumText.B2R_SF. assert (B2SF (b_dec false 1 (-9)) = SpecFloat.S754_finite false 4835703278458517 (-82)) as -> by (vm_compute; reflexivity).
  unfold SF2R, F2R. cbn [SpecFloat.cond_Zopp Fnum Fexp].
  change (bpow radix2 (-82)) with (/ IZR (2 ^ 82)).
  assert (P : 0 < IZR (2 ^ 82)) by (apply IZR_lt; reflexivity).
  assert (E11 : 10 ^ 11 = IZR (10 ^ 11)) by (simpl; lra). rewrite E11. assert (P11 : 0 < IZR (10 ^ 11)) by (apply IZR_lt; reflexivity).
  split; (apply Rmult_le_reg_r with (IZR (2 ^ 82)); [exact P|]; rewrite Rmult_assoc, Rinv_l, Rmult_1_r by lra;
    apply Rmult_le_reg_l with (IZR (10 ^ 11)); [exact P11|]; unfold Rdiv; rewrite (Rmult_comm _ (/ IZR (10 ^ 11))), <- !Rmult_assoc, Rinv_r, Rmult_1_l by lra;
    rewrite <- !mult_IZR; apply IZR_le; vm_compute; discriminate).
Qed.

Theorem C84_small L lc n xs (M : nat -> nat -> b64) (b : nat -> b64) (A : symmat (B64 L)) (t : vars_table (B64 L)) (s0 : nat -> b64) :
  ieee_libm L -> accurate_libm L lc -> (1 <= n <= 4)%nat -> length xs = n -> is_sym n 1 (fun i _ => linear_terms (K:=B64 L) xs (b i) (M i) n) A ->
  (forall i j, (i < n)%nat -> (j < n)%nat -> fin (M i j) /\ Rabs (B2R (M i j)) <= 10) -> (forall i, (i < n)%nat -> fin (b i) /\ Rabs (B2R (b i)) <= 10) ->
  dominant n (fun i j => B2R (M i j)) (INR n) ->
  table_at (K:=B64 L) xs t (fun j => s0 j : B64 L) -> (forall j, (j < n)%nat -> fin (s0 j) /\ Rabs (B2R (s0 j)) <= 1) ->
  exists t' (s : nat -> R) (p : nat -> b64), (forall i, (i < n)%nat -> left_side n M b s i = 0) /\
    SolveByNewtonRaphson (default_config (B64 L)) A t = Ok t' /\ table_at (K:=B64 L) xs t' (fun j => p j : B64 L) /\
    (forall j, (j < n)%nat -> fin (p j)) /\ (forall i, (i < n)%nat -> Rabs (left_side n M b (reals p) i) < 11 / 10 ^ 10) /\
    norm1 n (fun j => reals p j - s j) <= 11 / 10 ^ 10.
Proof.
  intros HI HL Hn Hx HA HM Hb Hdom Ht Hs.
  pose proof ulp1_16 as U16. pose proof ulp1_pos as U. pose proof tiny_18 as T18. pose proof tiny_pos as Tp. pose proof eps_sharp as HE. set (e := b_dec false 1 (-9)) in HE.
  assert (Far : far_from_singular n (fun i j => B2R (M i j)) 1) by (apply C84_dominant; [lra|rewrite Rmult_1_r; exact Hdom]).
  destruct (C84_root n (fun i j => B2R (M i j)) (fun i => B2R (b i)) 1 ltac:(lra) Far) as (s & Root & _). change (forall i, (i < n)%nat -> left_side n M b s i = 0) in Root.
  assert (In4 : 1 <= INR n <= 4). { split; [change 1 with (INR 1)|replace 4 with (INR 4) by (simpl; lra)]; apply le_INR; lia. }
  assert (Ns : 0 <= norm1 n s <= 10).
  { split; [apply norm1_pos|]. destruct (Rle_or_lt (norm1 n s) 0) as [Z0|Z0]; [lra|]. destruct (Far s (norm1_nonzero n s Z0)) as (i & Hi & Q). specialize (Root i Hi). unfold left_side in Root.
    assert (Er : row_times n (fun i j => B2R (M i j)) s i = - B2R (b i)) by lra. rewrite Er, Rabs_Ropp in Q. destruct (Hb i Hi) as [_ Qb]. lra. }
  assert (Ns0 : 0 <= norm1 n (reals s0) <= 4).
  { split; [apply norm1_pos|]. apply Rle_trans with (INR n * 1); [|lra]. rewrite <- RoundProofs.rsum_const. unfold norm1. apply RoundProofs.rsum_le. intros j Hj. now apply Hs. }
  assert (Pw : 1 <= (1 + ulp1) ^ (n + 1) <= 1 + 5 / 10 ^ 16 + 11 / 10 ^ 17).
  { split; [apply power_ge_1|]. apply Rle_trans with ((1 + ulp1) ^ 5); [apply Rle_pow; [lra|lia]|]. apply Rle_trans with ((1 + 12 / 10 ^ 17) ^ 5); [apply pow_incr; lra|]. lra. }
  assert (Lin : forall X, 0 <= X <= 2000 -> 0 <= linear_error n X <= X * (62 / 10 ^ 17) + 5 / 10 ^ 18).
  { intros X HX. unfold linear_error, rounding_bound. assert (0 <= INR n * tiny <= 4 * (1 / 10 ^ 18)) by (split; [apply Rmult_le_pos; lra|apply Rmult_le_compat; lra]).
    set (w := (1 + ulp1) ^ (n + 1)) in *. set (it := INR n * tiny) in *. assert (1 * (X + it) <= w * (X + it)) by (apply Rmult_le_compat_r; lra).
    assert (w * (X + it) <= (1 + 5 / 10 ^ 16 + 11 / 10 ^ 17) * (X + it)) by (apply Rmult_le_compat_r; lra). lra. }
  assert (HB0 : 0 <= 10 + 10 * (norm1 n s + INR n * 41) <= 1750) by nra.
  set (B0 := 10 + 10 * (norm1 n s + INR n * 41)) in *.
  pose proof (Lin B0 ltac:(lra)) as HeF. set (eF := linear_error n B0) in *. assert (HeF' : 0 <= eF <= 12 / 10 ^ 13) by lra.
  pose proof (Lin 10 ltac:(lra)) as HeD. set (eD := linear_error n 10) in *. assert (HeD' : 0 <= eD <= 1 / 10 ^ 14) by lra.
  set (M1 := 10 + eD) in *. assert (HM1 : 10 <= M1 <= 10 + 1 / 10 ^ 14) by (unfold M1; lra).
  assert (HMr : 0 <= M1 * 41 <= 411) by lra.
  set (B := 10 + M1 * 41 + eF) in *. assert (HB : 420 <= B <= 421) by (unfold B, M1; lra).
  assert (Pw2 : 1 <= 2 ^ n <= 16). { split; [apply pow_R1_Rle; lra|]. replace 16 with (2 ^ 4) by lra. apply Rle_pow; [lra|lia]. }
  assert (Hfac : 0 <= solve_factor n <= 116 / 10 ^ 15).
  { unfold solve_factor. rewrite plus_INR. simpl (INR 1). assert (Q1 : 0 <= (INR n + 1) * 2 ^ n <= 5 * 16) by (split; [apply Rmult_le_pos; lra|apply Rmult_le_compat; lra]).
    replace (12 * (INR n + 1) * 2 ^ n * ulp1) with (12 * (((INR n + 1) * 2 ^ n) * ulp1)) by ring. set (q := (INR n + 1) * 2 ^ n) in *.
    assert (0 <= q * ulp1 <= 80 * (12 / 10 ^ 17)) by (split; [apply Rmult_le_pos; lra|apply Rmult_le_compat; lra]). lra. }
  set (tol := solve_tolerance n (B2R e) M1).
  assert (Htol : 99 / 10 ^ 11 <= tol <= 102 / 10 ^ 11).
  { unfold tol, solve_tolerance. assert (0 <= solve_factor n * M1 <= (116 / 10 ^ 15) * 11) by (split; [apply Rmult_le_pos; lra|apply Rmult_le_compat; lra]). lra. }
  set (mg := newton_margin n (B2R e) M1 eD 0 1). assert (Hmg : 1 - 2 / 10 ^ 9 <= mg <= 1) by (unfold mg, newton_margin; fold tol; lra).
  assert (Hinv : 0 < / mg <= 1 + 3 / 10 ^ 9).
  { split; [apply Rinv_0_lt_compat; lra|]. apply Rmult_le_reg_r with mg; [lra|]. rewrite Rinv_l by lra. apply Rle_trans with ((1 + 3 / 10 ^ 9) * (1 - 2 / 10 ^ 9)); [lra|apply Rmult_le_compat_l; lra]. }
  set (rt := newton_rate n (B2R e) M1 eD 0 1).
  assert (Hrt : 0 <= rt <= 2 / 10 ^ 9).
  { unfold rt, newton_rate. fold tol mg. unfold Rdiv at 1. assert (Q : 0 <= (1 + ulp1) * (2 * 0 + tol + eD) <= 2 * (102 / 10 ^ 11 + 1 / 10 ^ 14)) by (split; [apply Rmult_le_pos; lra|apply Rmult_le_compat; lra]).
    assert (Q' : (1 + ulp1) * (2 * 0 + tol + eD) <= (1 + 12 / 10 ^ 17) * (102 / 10 ^ 11 + 1 / 10 ^ 14)) by (apply Rmult_le_compat; lra).
    set (q := (1 + ulp1) * (2 * 0 + tol + eD)) in *. split; [apply Rmult_le_pos; lra|]. unfold Rdiv. apply Rle_trans with (11 / 10 ^ 10 * (1 + 3 / 10 ^ 9)); [apply Rmult_le_compat; lra|lra]. }
  assert (HfB : 0 <= solve_factor n * B <= 489 / 10 ^ 13).
  { split; [apply Rmult_le_pos; lra|]. apply Rle_trans with ((116 / 10 ^ 15) * 421); [apply Rmult_le_compat; lra|lra]. }
  assert (Hus : 0 <= ulp1 * norm1 n s <= 12 / 10 ^ 16) by (split; [apply Rmult_le_pos; lra|apply Rle_trans with ((12 / 10 ^ 17) * 10); [apply Rmult_le_compat; lra|lra]]).
  set (ns := newton_noise n (B2R e) M1 B eF eD 0 1 s).
  assert (Hns : 0 <= ns <= 502 / 10 ^ 13).
  { unfold ns, newton_noise. fold mg. unfold Rdiv at 1. assert (Q : 0 <= (1 + ulp1) * (eF + solve_factor n * B) <= (1 + 12 / 10 ^ 17) * (501 / 10 ^ 13)) by (split; [apply Rmult_le_pos; lra|apply Rmult_le_compat; lra]).
    set (q := (1 + ulp1) * (eF + solve_factor n * B)) in *. assert (0 <= q * / mg <= (1 + 12 / 10 ^ 17) * (501 / 10 ^ 13) * (1 + 3 / 10 ^ 9)) by (split; [apply Rmult_le_pos; lra|apply Rmult_le_compat; lra]). unfold Rdiv. lra. }
  assert (G : 10 ^ 30 <= large). { assert (El : large = IZR (2 ^ 1000)) by reflexivity. rewrite El, (pow_IZR 10 30). apply IZR_le. vm_compute. discriminate. }
  destruct (C84_linear L lc (default_config (B64 L)) n xs M b A t s s0 41 1 10 10 (6 / 10 ^ 11) 2) as (t' & p & E & T & Fp & V & Q).
  - exact HI.
  - exact HL.
  - reflexivity.
  - exact eps_default_fin.
  - lia.
  - exact Hx.
  - exact HA.
  - exact HM.
  - exact Hb.
  - exact Ht.
  - intros j Hj. now apply Hs.
  - lra.
  - exact Root.
  - exact Far.
  - fold B0. rewrite pow_add, pow_1. apply Rle_trans with ((16 * 2) * (1750 + 10 + 1)); [apply Rmult_le_compat; try lra; apply Rmult_le_pos; lra|lra].
  - lra.
  - change (epsilon (default_config (B64 L)) : b64) with e. fold B0 eF eD. fold M1. fold B. split; [|split; [lra|split; [lra|]]].
    + split; [|lra]. apply Rle_trans with (/ 10 ^ 30); [apply Rinv_le_contravar; lra|lra].
    + rewrite pow_add, pow_1. apply Rle_trans with ((16 * 2) * 11 * 421); [apply Rmult_le_compat; try lra; repeat apply Rmult_le_pos; try lra; apply Rmult_le_compat; try lra; repeat apply Rmult_le_pos; lra|].
      assert (Q1 : (99 / 10 ^ 11) * (99 / 10 ^ 11) <= B2R e * B2R e) by (apply Rmult_le_compat; lra).
      assert (Q2 : 10 ^ 30 * ((99 / 10 ^ 11) * (99 / 10 ^ 11)) <= large * (B2R e * B2R e)) by (apply Rmult_le_compat; lra). lra.
  - change (epsilon (default_config (B64 L)) : b64) with e. fold B0 eF eD. fold M1. fold tol. lra.
  - change (epsilon (default_config (B64 L)) : b64) with e. fold B0 eF eD. fold M1. fold B. fold rt ns. lra.
  - change (epsilon (default_config (B64 L)) : b64) with e. fold B0 eF eD. fold M1. fold B. fold tol.
    assert (Hm : 0 <= 10 * norm1 n (reals s0) + eF + solve_factor n * B + (tol + eD) * norm1 n s <= 40 + 1 / 10 ^ 7).
    { assert (0 <= (tol + eD) * norm1 n s <= (2 / 10 ^ 9) * 10) by (split; [apply Rmult_le_pos; lra|apply Rmult_le_compat; lra]). lra. }
    set (q := 10 * norm1 n (reals s0) + eF + solve_factor n * B + (tol + eD) * norm1 n s) in *.
    assert (Em : 1 - tol - eD = mg) by (unfold mg, newton_margin; fold tol; ring). rewrite Em.
    assert (Q1 : 0 <= q / mg <= (40 + 1 / 10 ^ 7) * (1 + 3 / 10 ^ 9)) by (split; [apply Rmult_le_pos; lra|apply Rmult_le_compat; lra]).
    assert (Q2 : (1 + ulp1) * (q / mg) <= (1 + 12 / 10 ^ 17) * ((40 + 1 / 10 ^ 7) * (1 + 3 / 10 ^ 9))) by (apply Rmult_le_compat; lra). lra.
  - lra.
  - change (epsilon (default_config (B64 L)) : b64) with e. fold B0 eF eD. fold M1. fold B. fold rt ns. lra.
  - change (epsilon (default_config (B64 L)) : b64) with e. fold B0 eF eD. fold M1. fold rt.
    assert (P2 : 0 <= rt ^ 2 <= 4 / 10 ^ 18) by (split; [apply pow_le; lra|apply Rle_trans with ((2 / 10 ^ 9) ^ 2); [apply pow_incr; lra|lra]]).
    assert (M1 * (rt ^ 2 * 41 + 6 / 10 ^ 11) <= 11 * (4 / 10 ^ 18 * 41) + (10 + 1 / 10 ^ 14) * (6 / 10 ^ 11)) by (rewrite Rmult_plus_distr_l; apply Rplus_le_compat; [apply Rmult_le_compat; lra|apply Rmult_le_compat; lra]). lra.
  - cbn. lia.
  - change (epsilon (default_config (B64 L)) : b64) with e in V, Q. fold B0 eF in V, Q. exists t', s, p. split; [exact Root|]. split; [exact E|]. split; [exact T|]. split; [exact Fp|]. split.
    + intros i Hi. specialize (V i Hi). lra.
    + eapply Rle_trans; [exact Q|]. lra.
Qed.

(** Without a table of initial values: every variable starts at 1, the default initial value. *)
Lemma linear_vars {K : num_ops} xs (b : K) c m x : (m <= length xs)%nat -> occurs x (linear_terms xs b c m) <-> In x (firstn m xs).
Proof.
  intros Hm. induction m as [|m IH].
  - cbn. split; [intros O; inversion O|tauto].
  - assert (Ef : firstn (S m) xs = firstn m xs ++ [nth m xs EmptyString]).
    { clear IH b c. revert m Hm. induction xs as [|y ys IHy]; intros m Hm; [cbn in Hm; lia|]. destruct m as [|m]; [reflexivity|]. cbn [length] in Hm. cbn [nth]. rewrite (firstn_cons (S m)), (IHy m) by lia. reflexivity. }
    rewrite Ef, in_app_iff, <- IH by lia. cbn [linear_terms]. split.
    + intros O. inversion O; subst; [left; assumption|]. match goal with H : occurs _ (EBin BMul _ _) |- _ => inversion H; clear H; subst end; match goal with H : occurs _ _ |- _ => inversion H; subst end. right. left. reflexivity.
    + intros [O|[O|[]]]; [apply occ_l; exact O|]. apply occ_r, occ_r. rewrite O. apply occ_var.
Qed.
Theorem C84_solve L lc n xs (M : nat -> nat -> b64) (b : nat -> b64) (A : symmat (B64 L)) fuel afuel :
  ieee_libm L -> accurate_libm L lc -> (1 <= n <= 4)%nat -> length xs = n -> StronglySorted (fun x y => String.compare x y = Lt) xs ->
  is_sym n 1 (fun i _ => linear_terms (K:=B64 L) xs (b i) (M i) n) A ->
  (forall i j, (i < n)%nat -> (j < n)%nat -> fin (M i j) /\ Rabs (B2R (M i j)) <= 10) -> (forall i, (i < n)%nat -> fin (b i) /\ Rabs (B2R (b i)) <= 10) ->
  dominant n (fun i j => B2R (M i j)) (INR n) ->
  exists t' (s : nat -> R) (p : nat -> b64), (forall i, (i < n)%nat -> left_side n M b s i = 0) /\
    Solve1 (default_config (B64 L)) fuel afuel A = Ok t' /\ table_at (K:=B64 L) xs t' (fun j => p j : B64 L) /\
    (forall j, (j < n)%nat -> fin (p j)) /\ norm1 n (fun j => reals p j - s j) <= 11 / 10 ^ 10.
Proof.
  intros HI HL Hn Hx So HA HM Hb Hd.
  destruct (C40_solve_all_variables (default_config (B64 L)) n _ A HA fuel afuel) as (ys & Sy & Hy & Q).
  assert (E : ys = xs).
  { apply sorted_unique; [exact Sy|exact So|]. intros x. rewrite Hy. assert (Fa : firstn n xs = xs) by (rewrite <- Hx; apply firstn_all). split.
    - intros (i & _ & O). apply linear_vars in O; [rewrite Fa in O; exact O|lia].
    - intros O. exists 0%nat. split; [lia|]. apply linear_vars; [lia|rewrite Fa; exact O]. }
  subst ys. destruct Q as [(why & E & _)|(t & Ht & E)]; [rewrite E in Hx; cbn in Hx; lia|].
  destruct (ofZ_small 1 ltac:(lia)) as [F1 E1]. pose proof (holds_table_at _ _ _ Ht) as Ht'.
  assert (Hs : table_at (K:=B64 L) xs t (fun j => b_ofZ 1 : B64 L)).
  { unfold table_at in *. assert (Em : map (fun j => nth j (repeat (initialValue (default_config (B64 L))) (length xs)) (n_ofZ 0 : B64 L)) (seq 0 (length xs)) = map (fun _ => b_ofZ 1 : B64 L) (seq 0 (length xs))).
    { apply map_ext_in. intros j Hj. apply in_seq in Hj. change (b_ofZ 1 : B64 L) with (initialValue (default_config (B64 L))). generalize (length xs) j Hj. clear. induction n as [|n IH]; intros j Hj; [lia|]. destruct j as [|j]; [reflexivity|]. cbn [repeat nth]. apply IH. lia. }
    rewrite Em in Ht'. exact Ht'. }
  destruct (C84_small L lc n xs M b A t (fun _ => b_ofZ 1) HI HL Hn Hx HA HM Hb Hd Hs) as (t' & s & p & Root & Es & T & Fp & _ & Qp).
  { intros j _. split; [exact F1|]. rewrite E1, Rabs_R1. lra. }
  exists t', s, p. split; [exact Root|]. split; [rewrite E; exact Es|]. split; [exact T|]. split; [exact Fp|exact Qp].
Qed.

(** ** Example: 5x + y = 1, x + 4y = 1, whose solution (3/19, 4/19) is not representable, from (1, 1), with
       correctly rounded library functions *)
Section Ex84.
Notation L := rounded_libm.
Notation K := (B64 rounded_libm).
Definition M84z (i j : nat) : Z := match i, j with 0%nat, 0%nat => 5 | 1%nat, 1%nat => 4 | _, _ => 1 end%Z.
Definition M84 (i j : nat) : b64 := b_ofZ (M84z i j).
Definition row84 (i : nat) : expr K := linear_terms (K:=K) ["x"; "y"] (b_ofZ (-1)) (M84 i) 2.

Lemma M84_ok i j : fin (M84 i j) /\ B2R (M84 i j) = IZR (M84z i j).
Proof. apply ofZ_small. unfold M84z. destruct i as [|[|i]], j as [|[|j]]; lia. Qed.
Lemma M84_in i j : fin (M84 i j) /\ Rabs (B2R (M84 i j)) <= 10.
Proof. destruct (M84_ok i j) as [Q1 Q2]. split; [exact Q1|]. rewrite Q2. apply Rabs_le. unfold M84z. destruct i as [|[|i]], j as [|[|j]]; lra. Qed.

Theorem C84_ex : exists t t' (x y : b64), VarsTable_make ["x"; "y"] (n_ofZ 1 : K) = Ok t /\
  SolveByNewtonRaphson (default_config K) (MkSym 2 1 [embed (row84 0); embed (row84 1)]) t = Ok t' /\
  VarsTable_get t' "x" = Ok (x : K) /\ VarsTable_get t' "y" = Ok (y : K) /\ fin x /\ fin y /\
  Rabs (B2R x - 3 / 19) <= 11 / 10 ^ 10 /\ Rabs (B2R y - 4 / 19) <= 11 / 10 ^ 10.
Proof.
  destruct (C36_make K ["x"; "y"] (n_ofZ 1)) as (t & Et & Ht); [discriminate|repeat constructor; cbn; intuition discriminate|].
  destruct (ofZ_small (-1) ltac:(lia)) as [Fm1 Em1]. destruct (ofZ_small 1 ltac:(lia)) as [F1 E1].
  pose proof (fun i j => proj2 (M84_ok i j)) as EM.
  destruct (C84_small L ulp1 2 ["x"; "y"] M84 (fun _ => b_ofZ (-1)) (MkSym 2 1 [embed (row84 0); embed (row84 1)]) t (fun _ => b_ofZ 1)) as (t' & s & p & Root & E & T & Fp & _ & Q).
  - exact rounded_libm_ieee.
  - exact C59_libm_exists.
  - lia.
  - reflexivity.
  - split; [reflexivity|]. split; [reflexivity|]. split; [reflexivity|]. intros [|[|i]] [|j] Hi Hj; try lia; reflexivity.
  - intros i j _ _. apply M84_in.
  - intros i _. split; [exact Fm1|]. rewrite Em1. apply Rabs_le. lra.
  - intros i Hi. rewrite EM. unfold rsum. rewrite !EM. destruct i as [|[|i]]; [| |lia]; cbn [Nat.eqb M84z]; simpl INR; rewrite Rabs_R1, Rabs_pos_eq by lra; lra.
  - exact Ht.
  - intros j _. split; [exact F1|]. rewrite E1, Rabs_R1. lra.
  - pose proof (Root 0%nat ltac:(lia)) as R0'. pose proof (Root 1%nat ltac:(lia)) as R1'. unfold left_side, row_times, rsum in R0', R1'. rewrite !EM, Em1 in R0', R1'. cbn [M84z] in R0', R1'.
    assert (Sx : s 0%nat = 3 / 19) by lra. assert (Sy : s 1%nat = 4 / 19) by lra.
    unfold norm1, rsum, reals in Q. rewrite Sx, Sy in Q. pose proof (Rabs_pos (B2R (p 0%nat) - 3 / 19)). pose proof (Rabs_pos (B2R (p 1%nat) - 4 / 19)).
    exists t, t', (p 0%nat), (p 1%nat). split; [exact Et|]. split; [exact E|].
    split; [apply (h_get _ _ _ T); exists 0%nat; auto|]. split; [apply (h_get _ _ _ T); exists 1%nat; auto|].
    split; [apply Fp; lia|]. split; [apply Fp; lia|]. split; lra.
Qed.
End Ex84.
