(** The elimination loop and the back substitution of SolveLinear in doubles. *)
From Coq Require Import String List ZArith Bool Arith Lia Reals Lra.
From Flocq Require Import IEEE754.BinarySingleNaN Core.
From Verif Require Import Base MathOp IEEE MatModel LinearModel MatSpec MatProofs LinGen AffineSpec FloatSpec FloatFacts RoundSpec RoundProofs SolveSpec LinRound LinFloat.
Import ListNotations.
Local Open Scope list_scope.
Local Open Scope R_scope.

Lemma norm1_nonzero n z : 0 < norm1 n z -> exists j, (j < n)%nat /\ z j <> 0.
Proof.
  unfold norm1. induction n as [|m IH]; cbn [rsum]; [lra|]. intros H. destruct (Req_dec (z m) 0) as [E|E]; [|exists m; auto].
  rewrite E, Rabs_R0, Rplus_0_r in H. destruct (IH H) as (j & Hj & Hz). exists j. auto.
Qed.


Section Solve.
Context (L : libm) (cfg : config (B64 L)).
Notation K := (B64 L).
Variables (n : nat) (M B : R).
Notation eps64 := (epsilon cfg : b64).
Notation eps := (B2R eps64).
Hypotheses (Feps : fin eps64) (HR : solve_range n eps M B).
Notation kap := LinRound.kap.
Notation bnd := (LinRound.bnd n M B).

Let He : / large <= eps <= 1 := proj1 HR.
Let HM : eps <= M := proj1 (proj2 HR).
Let HB : eps <= B := proj1 (proj2 (proj2 HR)).
Let Hov : 2 ^ (n + 1) * M * B <= large * (eps * eps) := proj2 (proj2 (proj2 HR)).
Let Pe : 0 < eps := eps_pos eps He.

Lemma range_M : 2 ^ (n + 1) * M <= large * eps.
Proof.
  apply Rmult_le_reg_r with eps; [exact Pe|]. rewrite !Rmult_assoc. rewrite <- !Rmult_assoc.
  assert (0 <= 2 ^ (n + 1)) by (apply pow_le; lra). assert (0 <= 2 ^ (n + 1) * M) by (apply Rmult_le_pos; lra).
  apply Rle_trans with (2 ^ (n + 1) * M * B); [apply Rmult_le_compat_l; lra|]. lra.
Qed.
Lemma range_B : 2 ^ (n + 1) * B <= large * eps.
Proof.
  apply Rmult_le_reg_r with eps; [exact Pe|].
  assert (0 <= 2 ^ (n + 1)) by (apply pow_le; lra). assert (0 <= 2 ^ (n + 1) * B) by (apply Rmult_le_pos; lra).
  apply Rle_trans with (2 ^ (n + 1) * B * M); [apply Rmult_le_compat_l; lra|]. lra.
Qed.
Lemma range_n : (n <= 1000)%nat.
Proof.
  destruct (Nat.le_gt_cases n 1000) as [|Hn]; [auto|exfalso].
  assert (Q : 2 ^ (n + 1) <= large).
  { apply Rmult_le_reg_r with M; [lra|]. eapply Rle_trans; [exact range_M|]. apply Rmult_le_compat_l; [pose proof large_pos; lra|exact HM]. }
  rewrite large_pow in Q. assert (Q2 : 2 ^ 1000 < 2 ^ (n + 1)) by (apply Rlt_pow; [lra|lia]). lra.
Qed.
Lemma range_entry y j : (y <= n)%nat -> eps <= kap ^ y * bnd j <= large * eps.
Proof.
  intros Hy. pose proof (bnd_eps n eps M B HM HB j) as Hb. pose proof (kap_pow y) as Pk. split; [nra|].
  apply Rle_trans with (2 ^ (n + 1) * bnd j).
  - apply Rmult_le_compat_r; [lra|]. eapply Rle_trans; [apply kap_le; pose proof range_n; lia|]. rewrite tech_pow_Rmult.
    apply Rle_pow; [lra|lia].
  - unfold LinRound.bnd. destruct (j =? n)%nat; [exact range_B|exact range_M].
Qed.

(** ** The matrix and the right-hand side as one matrix *)
Definition aug (f : nat -> nat -> b64) (g : nat -> b64) (i j : nat) : b64 := if (j =? n)%nat then g i else f i j.
Definition raug f g i j : R := B2R (aug f g i j).
Definition ef (y : nat) (f : nat -> nat -> b64) : nat -> nat -> b64 := elim_fK cfg y y (fun i j => f i j : K).
Definition eg (y : nat) (f : nat -> nat -> b64) (g : nat -> b64) : nat -> b64 := elim_gK cfg y y (fun i j => f i j : K) (fun i => g i : K).

Lemma aug_elim y f g i j : (y < n)%nat -> aug (ef y f) (eg y f g) i j =
  if (j <? y)%nat then f i j else if (i =? y)%nat then Bdiv mode_NE (aug f g y j) (f y y)
  else if ((y <? i)%nat && Bleb eps64 (Babs (f i y)))%bool
       then Bminus mode_NE (aug f g i j) (Bmult mode_NE (Bdiv mode_NE (aug f g y j) (f y y)) (f i y)) else aug f g i j.
Proof.
  intros Hy. unfold aug, ef, eg, elim_fK, elim_gK. destruct (Nat.eqb_spec j n) as [->|Hj].
  - destruct (Nat.ltb_spec n y); [lia|]. reflexivity.
  - reflexivity.
Qed.

(** State before step y. *)
Record LI (f0 : nat -> nat -> R) (y : nat) (f : nat -> nat -> b64) (g : nat -> b64) (pv : nat -> R) : Prop := {
  li_chain : chain n eps M B f0 y (raug f g) pv;
  li_f : forall i j, (i < n)%nat -> (j < n)%nat -> fin (f i j);
  li_g : forall i, (i < n)%nat -> fin (g i);
  li_bnd : forall i j, (y <= i < n)%nat -> (y <= j <= n)%nat -> Rabs (raug f g i j) <= kap ^ y * bnd j;
  li_piv : forall i, (i < y)%nat -> eps <= Rabs (pv i) <= kap ^ i * M;
  li_row : forall i j, (i < y)%nat -> (i < j <= n)%nat -> Rabs (pv i * raug f g i j) <= 2 * kap ^ i * bnd j }.

Definition swapf (y q : nat) (f : nat -> nat -> b64) i j := f (swap_idx y q i) j.
Definition swapg (y q : nat) (g : nat -> b64) i := g (swap_idx y q i).

Lemma aug_swap y q f g i j : aug (swapf y q f) (swapg y q g) i j = aug f g (swap_idx y q i) j.
Proof. reflexivity. Qed.
Lemma swap_lt y q i : (y <= q < n)%nat -> (i < n)%nat -> (swap_idx y q i < n)%nat.
Proof. intros Hq Hi. unfold swap_idx. destruct (Nat.eqb_spec i y), (Nat.eqb_spec i q); lia. Qed.
Lemma swap_ge y q i : (y <= q < n)%nat -> (y <= i < n)%nat -> (y <= swap_idx y q i < n)%nat.
Proof. intros Hq Hi. unfold swap_idx. destruct (Nat.eqb_spec i y), (Nat.eqb_spec i q); lia. Qed.
Lemma swap_old y q i : (y <= q)%nat -> (i < y)%nat -> swap_idx y q i = i.
Proof. intros Hq Hi. unfold swap_idx. destruct (Nat.eqb_spec i y), (Nat.eqb_spec i q); lia. Qed.

Lemma LI_step f0 y q f g pv : (y < n)%nat -> (y <= q < n)%nat -> LI f0 y f g pv ->
  (forall i, (y <= i < n)%nat -> Rabs (B2R (f i y)) <= Rabs (B2R (f q y))) -> eps <= Rabs (B2R (f q y)) ->
  LI f0 (S y) (ef y (swapf y q f)) (eg y (swapf y q f) (swapg y q g)) (fun i => if (i =? y)%nat then B2R (f q y) else pv i).
Proof.
  intros Hy Hq [HC Hf Hg Hb Hpv Hrow] Hmax Hbig.
  set (F := swapf y q f). set (G := swapg y q g). set (p := f q y) in *.
  assert (EF : F y y = p). { unfold F, swapf, swap_idx. now rewrite Nat.eqb_refl. }
  assert (FF : forall i j, (i < n)%nat -> (j < n)%nat -> fin (F i j)). { intros i j Hi Hj. apply Hf; [now apply swap_lt|auto]. }
  assert (FG : forall i, (i < n)%nat -> fin (G i)). { intros i Hi. apply Hg. now apply swap_lt. }
  assert (FA : forall i j, (i < n)%nat -> (j <= n)%nat -> fin (aug F G i j)).
  { intros i j Hi Hj. unfold aug. destruct (Nat.eqb_spec j n); [now apply FG|apply FF; lia]. }
  assert (BA : forall i j, (y <= i < n)%nat -> (y <= j <= n)%nat -> Rabs (B2R (aug F G i j)) <= kap ^ y * bnd j).
  { intros i j Hi Hj. unfold F, G. rewrite aug_swap. apply Hb; [now apply swap_ge|auto]. }
  assert (EA : forall i, aug F G i y = F i y). { intros i. unfold aug. destruct (Nat.eqb_spec y n); [lia|reflexivity]. }
  assert (By : bnd y = M). { unfold LinRound.bnd. destruct (Nat.eqb_spec y n); [lia|reflexivity]. }
  assert (Fp : fin p). { unfold p. apply Hf; lia. }
  assert (Hp : eps <= Rabs (B2R p) <= large * eps).
  { split; [exact Hbig|]. pose proof (BA y y ltac:(lia) ltac:(lia)) as Q. rewrite EA, EF in Q. pose proof (range_entry y y ltac:(lia)). lra. }
  assert (Hl : forall i, (y <= i < n)%nat -> Rabs (B2R (F i y)) <= Rabs (B2R p)).
  { intros i Hi. unfold F, swapf. apply Hmax. now apply swap_ge. }
  (* the pivot row *)
  set (u := fun j => Bdiv mode_NE (aug F G y j) p).
  assert (Hu : forall j, (y <= j <= n)%nat -> fin (u j) /\ Rabs (B2R p * B2R (u j) - B2R (aug F G y j)) <= 2 * ulp1 * (kap ^ y * bnd j)).
  { intros j Hj. apply (quotient eps He); [apply FA; lia|exact Fp|exact Hp|apply BA; lia|apply range_entry; lia]. }
  assert (Hpu : forall j, (y <= j <= n)%nat -> Rabs (B2R p * B2R (u j)) <= (1 + 2 * ulp1) * (kap ^ y * bnd j)).
  { intros j Hj. destruct (Hu j Hj) as [_ Q]. pose proof (BA y j ltac:(lia) Hj) as Q2.
    replace (B2R p * B2R (u j)) with (B2R p * B2R (u j) - B2R (aug F G y j) + B2R (aug F G y j)) by ring.
    eapply Rle_trans; [apply Rabs_le_plus; [exact Q|exact Q2]|]. lra. }
  assert (Hlu : forall i j, (y <= i < n)%nat -> (y <= j <= n)%nat -> Rabs (B2R (u j) * B2R (F i y)) <= (1 + 2 * ulp1) * (kap ^ y * bnd j)).
  { intros i j Hi Hj. eapply Rle_trans; [|exact (Hpu j Hj)]. rewrite !Rabs_mult, Rmult_comm. apply Rmult_le_compat_r; [apply Rabs_pos|now apply Hl]. }
  (* the other rows *)
  set (w := fun i j => Bminus mode_NE (aug F G i j) (Bmult mode_NE (u j) (F i y))).
  assert (Hw : forall i j, (y <= i < n)%nat -> (y <= j <= n)%nat -> fin (w i j) /\
     Rabs (B2R (w i j) - (B2R (aug F G i j) - B2R (u j) * B2R (F i y))) <= 5 * ulp1 * (kap ^ y * bnd j) /\ Rabs (B2R (w i j)) <= kap * (kap ^ y * bnd j)).
  { intros i j Hi Hj. apply (update eps He); [apply FA; lia|apply Hu; lia|apply FF; lia|apply BA; lia|apply Hlu; lia|apply range_entry; lia]. }
  set (A' := aug (ef y F) (eg y F G)).
  assert (EA' : forall i j, (y <= j)%nat -> A' i j = if (i =? y)%nat then u j else
       if ((y <? i)%nat && Bleb eps64 (Babs (F i y)))%bool then w i j else aug F G i j).
  { intros i j Hj. unfold A'. rewrite aug_elim by lia. destruct (Nat.ltb_spec j y); [lia|]. rewrite EF. reflexivity. }
  assert (Ebig : forall i, (i < n)%nat -> Bleb eps64 (Babs (F i y)) = Rle_bool eps (Rabs (B2R (F i y)))).
  { intros i Hi. rewrite Bleb_correct, B2R_Babs; auto. unfold fin in FF. rewrite is_finite_Babs. apply FF; lia. }
  assert (HU : 0 < ulp1) by apply ulp1_pos.
  assert (Pk := kap_pow y). assert (Gk := kap_ge).
  assert (Pb : forall j, 0 < bnd j). { intros j. pose proof (bnd_eps n eps M B HM HB j). lra. }
  assert (F' : forall i j, (i < n)%nat -> (y <= j <= n)%nat -> fin (A' i j)).
  { intros i j Hi Hj. rewrite EA' by lia. destruct (Nat.eqb_spec i y); [now apply Hu|].
    destruct (Nat.ltb_spec y i); cbn [andb]; [|apply FA; lia]. destruct (Bleb _ _); [apply Hw; lia|apply FA; lia]. }
  constructor.
  - econstructor; [exact HC| |now rewrite Nat.eqb_refl|].
    2:{ intros i Hi. destruct (Nat.eqb_spec i y); [lia|reflexivity]. }
    exists q. split; [exact Hq|]. cbv zeta.
    split. { unfold raug. rewrite <- aug_swap. fold F G. now rewrite EA, EF. }
    split; [exact Hbig|]. split.
    { intros i Hi. unfold raug. rewrite <- aug_swap. fold F G. rewrite EA. now apply Hl. }
    split.
    { intros i j Hi. unfold raug. fold A'. destruct (Nat.ltb_spec j y) as [Hj|Hj].
      - unfold A'. rewrite aug_elim by lia. destruct (Nat.ltb_spec j y); [|lia]. unfold F, swapf. rewrite swap_old by lia.
        unfold aug. destruct (Nat.eqb_spec j n); [lia|reflexivity].
      - rewrite EA' by lia. destruct (Nat.eqb_spec i y); [lia|]. destruct (Nat.ltb_spec y i); [lia|]. cbn [andb].
        unfold F, G. rewrite aug_swap, swap_old by lia. reflexivity. }
    split.
    { intros j Hj. unfold raug. rewrite <- aug_swap. fold F G. fold A'. rewrite EA', Nat.eqb_refl by lia.
      eapply Rle_trans; [apply Hu; lia|]. assert (0 <= kap ^ y * bnd j) by (specialize (Pb j); nra). nra. }
    intros i Hi. unfold raug. rewrite <- (aug_swap y q). fold F G. fold A'. rewrite EA.
    pose proof (Ebig i ltac:(lia)) as Eb. destruct (Rle_bool_spec eps (Rabs (B2R (F i y)))) as [Hs|Hs].
    + right. intros j Hj. rewrite <- (aug_swap y q). fold F G. rewrite !EA' by lia.
      destruct (Nat.eqb_spec i y); [lia|]. destruct (Nat.ltb_spec y i); [|lia]. rewrite Eb, Nat.eqb_refl. cbn [andb].
      rewrite (Rmult_comm (B2R (F i y))). rewrite (Rmult_assoc (5 * ulp1)). apply Hw; lia.
    + left. split; [exact Hs|]. intros j Hj. rewrite <- (aug_swap y q). fold F G. rewrite EA' by lia.
      destruct (Nat.eqb_spec i y); [lia|]. destruct (Nat.ltb_spec y i); [|lia]. rewrite Eb. reflexivity.
  - intros i j Hi Hj. destruct (Nat.ltb_spec j y) as [Hjy|Hjy].
    + unfold ef, elim_fK. destruct (Nat.ltb_spec j y); [|lia]. now apply FF.
    + specialize (F' i j Hi ltac:(lia)). unfold A', aug in F'. destruct (Nat.eqb_spec j n); [lia|exact F'].
  - intros i Hi. specialize (F' i n Hi ltac:(lia)). unfold A', aug in F'. now rewrite Nat.eqb_refl in F'.
  - intros i j Hi Hj. unfold raug. fold A'. rewrite EA' by lia. destruct (Nat.eqb_spec i y); [lia|]. destruct (Nat.ltb_spec y i); [|lia].
    rewrite <- tech_pow_Rmult, Rmult_assoc. cbn [andb]. destruct (Bleb _ _); [apply Hw; lia|].
    eapply Rle_trans; [apply BA; lia|]. assert (0 <= kap ^ y * bnd j) by (specialize (Pb j); nra). nra.
  - intros i Hi. destruct (Nat.eqb_spec i y) as [->|]; [|apply Hpv; lia]. split; [exact Hbig|].
    pose proof (BA y y ltac:(lia) ltac:(lia)) as Q. rewrite EA, EF, By in Q. exact Q.
  - intros i j Hi Hj. destruct (Nat.eqb_spec i y) as [->|].
    + unfold raug. fold A'. rewrite EA', Nat.eqb_refl by lia. eapply Rle_trans; [apply Hpu; lia|].
      pose proof ulp1_small. assert (0 <= kap ^ y * bnd j) by (specialize (Pb j); nra). rewrite (Rmult_assoc 2). apply Rmult_le_compat_r; lra.
    + assert (E : raug (ef y F) (eg y F G) i j = raug f g i j).
      { unfold raug. destruct (Nat.ltb_spec j y) as [Hjy|Hjy].
        - rewrite aug_elim by lia. destruct (Nat.ltb_spec j y); [|lia]. unfold F, swapf. rewrite swap_old by lia. unfold aug. destruct (Nat.eqb_spec j n); [lia|reflexivity].
        - fold A'. rewrite EA' by lia. destruct (Nat.eqb_spec i y); [lia|]. destruct (Nat.ltb_spec y i); [lia|]. cbn [andb].
          unfold F, G. rewrite aug_swap, swap_old by lia. reflexivity. }
      rewrite E. apply Hrow; lia.
Qed.

Lemma LI_start f g : (forall i j, (i < n)%nat -> (j < n)%nat -> fin (f i j) /\ Rabs (B2R (f i j)) <= M) ->
  (forall i, (i < n)%nat -> fin (g i) /\ Rabs (B2R (g i)) <= B) -> LI (raug f g) 0 f g (fun _ => 0).
Proof.
  intros Hf Hg. constructor.
  - constructor.
  - intros. now apply Hf.
  - intros. now apply Hg.
  - intros i j Hi Hj. rewrite Rmult_1_l. unfold raug, aug, LinRound.bnd. destruct (Nat.eqb_spec j n); [apply Hg; lia|apply Hf; lia].
  - intros; lia.
  - intros; lia.
Qed.

Lemma row_split f0 z i : rsum (S n) (fun j => f0 i j * z j) = row_times n f0 z i + f0 i n * z n.
Proof. reflexivity. Qed.

Lemma Rabs_m1 : Rabs (-1) = 1. Proof. rewrite Rabs_left; lra. Qed.
Lemma pow2_le a b : (a <= b)%nat -> 2 ^ a <= 2 ^ b. Proof. intros. apply Rle_pow; [lra|auto]. Qed.

(** If all remaining entries of column y are small, the matrix is close to a singular one. *)
Lemma column_small f0 y f g pv : (y < n)%nat -> LI f0 y f g pv -> (forall i, (y <= i < n)%nat -> Rabs (B2R (f i y)) < eps) ->
  exists z, (exists j, (j < n)%nat /\ z j <> 0) /\ forall i, (i < n)%nat -> Rabs (row_times n f0 z i) <= solve_tolerance n eps M * norm1 n z.
Proof.
  intros Hy HL Hs. set (z0 := fun j => if (j =? y)%nat then 1 else 0). set (z := solve_up n (raug f g) y z0).
  assert (Zy : z y = 1). { unfold z. rewrite solve_up_same by lia. unfold z0. now rewrite Nat.eqb_refl. }
  assert (Zl : forall j, (y < j)%nat -> z j = 0). { intros j Hj. unfold z. rewrite solve_up_same by lia. unfold z0. destruct (Nat.eqb_spec j y); [lia|reflexivity]. }
  exists z. split; [exists y; split; [auto|rewrite Zy; lra]|]. intros i Hi.
  pose proof (chain_residual n eps M B Pe HM HB f0 y (raug f g) pv (li_chain _ _ _ _ _ HL) ltac:(lia) z eps ltac:(lra)) as Q.
  assert (H1 : forall k, (y <= k < n)%nat -> Rabs (tl n y (fun j => raug f g k j * z j)) <= eps).
  { intros k Hk. rewrite tl_first by lia. rewrite Zy, Rmult_1_r.
    rewrite (tl_ext n (S y) _ (fun j => 0 * z j)) by (intros j Hj; rewrite Zl by lia; ring). rewrite tl_scale, Rmult_0_l, Rplus_0_r.
    unfold raug, aug. destruct (Nat.eqb_spec y n); [lia|]. apply Rlt_le, Hs. lia. }
  specialize (Q H1 i Hi). rewrite row_split, (Zl n Hy), Rmult_0_r, Rplus_0_r in Q.
  eapply Rle_trans; [exact Q|].
  assert (E : rsum y (fun y0 => Rabs (pv y0) * Rabs (rho n (raug f g) z y0) + step_err n eps M B z y0) = rsum y (step_err n eps M B z)).
  { apply rsum_eq. intros k Hk. unfold z. rewrite solve_up_rho by lia. rewrite Rabs_R0. ring. }
  rewrite E. pose proof (step_errs n eps M B Pe HM HB z y ltac:(lia) ltac:(pose proof range_n; lia)) as S1.
  assert (N : rsum y (fun y0 => Rabs (z y0)) + 1 <= norm1 n z).
  { unfold norm1. pose proof (rsum_mono (S y) n (fun j => Rabs (z j)) ltac:(lia) ltac:(intros; apply Rabs_pos)) as Q2. cbn [rsum] in Q2.
    rewrite Zy, Rabs_R1 in Q2. lra. }
  assert (S2 : size n M B z = M * norm1 n z). { unfold size. rewrite (Zl n Hy), Rabs_R0. ring. }
  rewrite S2 in S1. unfold solve_tolerance, solve_factor.
  assert (C : 10 * ulp1 * 2 ^ y <= 12 * INR (n + 1) * 2 ^ n * ulp1).
  { pose proof ulp1_pos as U. pose proof (pow2_le y n ltac:(lia)) as P2. assert (P1 : 1 <= INR (n + 1)). { apply (le_INR 1). lia. }
    assert (0 <= 2 ^ y) by (apply pow_le; lra). assert (2 ^ y <= INR (n + 1) * 2 ^ n) by nra. nra. }
  assert (PN : 0 <= norm1 n z) by apply norm1_pos.
  assert (PMN : 0 <= M * norm1 n z) by (apply Rmult_le_pos; lra).
  pose proof (Rmult_le_compat_r _ _ _ PMN C) as Q3. pose proof (Rmult_le_compat_l eps _ _ ltac:(lra) N) as Q4. lra.
Qed.

Definition entries0 (f : nat -> nat -> b64) i j : R := B2R (f i j).

Lemma far_ext m f f' d : (forall i j, (i < m)%nat -> (j < m)%nat -> f i j = f' i j) -> far_from_singular m f d -> far_from_singular m f' d.
Proof.
  intros E H z Hz. destruct (H z Hz) as (i & Hi & Q). exists i. split; [exact Hi|]. unfold row_times in *.
  rewrite (rsum_eq m _ (fun j => f i j * z j)); [exact Q|]. intros j Hj. now rewrite E.
Qed.

Lemma elim_64 f0 : far_from_singular n f0 (solve_tolerance n eps M) ->
  forall fuel y f g pv A b T, (y <= n)%nat -> (n - y < fuel)%nat -> LI f0 y f g pv ->
  is_mat (K:=K) n n (fun i j => f i j : K) A -> is_vec (K:=K) n (fun i => g i : K) b ->
  exists A' b' f' g' pv', elim_loop cfg fuel n n y y A b T = Ok (MkElim A' b' T n n) /\ LI f0 n f' g' pv' /\
    is_mat (K:=K) n n (fun i j => f' i j : K) A' /\ is_vec (K:=K) n (fun i => g' i : K) b'.
Proof.
  intros Hfar. induction fuel as [|fuel IH]; intros y f g pv A b T Hy Hfuel HL HA Hb; [lia|]. cbn [elim_loop].
  destruct (Nat.ltb_spec y n) as [Hyn|Hyn]; cbn [andb].
  2:{ assert (y = n) by lia. subst y. exists A, b, f, g, pv. auto. }
  unfold bring_up at 1.
  destruct (GetMaxAbs_64 L n n f A y (n - 1) y HA) as (q & Eq & Hq & Hmax); [lia|lia|lia|intros; apply (li_f _ _ _ _ _ HL); lia|].
  rewrite Eq. cbn [bind].
  destruct (SwapRow_ok (K:=K) n n _ A y q HA) as (A1 & EA1 & HA1); [lia|lia|]. rewrite EA1. cbn [bind].
  destruct (SwapRow_ok (K:=K) n 1 _ b y q Hb) as (b1 & Eb1 & Hb1); [lia|lia|]. rewrite Eb1. cbn [bind].
  change (is_mat (K:=K) n n (fun i j => swapf y q f i j : K) A1) in HA1.
  change (is_vec (K:=K) n (fun i => swapg y q g i : K) b1) in Hb1.
  cbn [skip_columns]. rewrite (Value_K _ _ _ _ _ _ HA1 Hyn Hyn). cbn [bind].
  assert (Ep : swapf y q f y y = f q y). { unfold swapf, swap_idx. now rewrite Nat.eqb_refl. }
  rewrite Ep. change (n_ltb (n:=K) (n_abs (f q y : K)) (epsilon cfg)) with (Bltb (Babs (f q y)) eps64).
  assert (Fq : fin (f q y)) by (apply (li_f _ _ _ _ _ HL); lia).
  rewrite Bltb_correct, B2R_Babs by (auto; now rewrite is_finite_Babs).
  destruct (Rlt_bool_spec (Rabs (B2R (f q y))) eps) as [Hsm|Hbig].
  { exfalso. destruct (column_small f0 y f g pv Hyn HL) as (z & Hz & Q).
    - intros i Hi. eapply Rle_lt_trans; [apply Hmax; lia|exact Hsm].
    - destruct (Hfar z Hz) as (i & Hi & Q'). specialize (Q i Hi). lra. }
  cbn [bind]. destruct (Nat.eqb_spec y n); [lia|]. rewrite Nat.ltb_irrefl. cbn [negb andb bind].
  destruct (eliminate_okK (K:=K) cfg n n _ _ A1 b1 y y HA1 Hb1 Hyn Hyn) as (A2 & b2 & E2 & HA2 & Hb2). rewrite E2. cbn [bind].
  apply (IH (S y) (ef y (swapf y q f)) (eg y (swapf y q f) (swapg y q g)) (fun i => if (i =? y)%nat then B2R (f q y) else pv i)).
  - lia.
  - lia.
  - apply LI_step; auto; [lia|]. intros i Hi. apply Hmax. lia.
  - exact HA2.
  - exact Hb2.
Qed.

(** ** Back substitution *)
Definition solved (f : nat -> nat -> b64) (g h : nat -> b64) : Prop :=
  forall i, (i < n)%nat -> h i = Bminus mode_NE (g i) (ksum (K:=K) (n - S i) (fun k => n_mul (f i (S i + k)%nat : K) (h (S i + k)%nat : K))).
Definition zof (h : nat -> b64) (j : nat) : R := if (j =? n)%nat then -1 else B2R (h j).

Lemma rsum_app a b h : rsum (a + b) h = rsum a h + rsum b (fun k => h (a + k)%nat).
Proof. induction b as [|b IH]; [rewrite Nat.add_0_r; cbn [rsum]; ring|]. rewrite Nat.add_succ_r. cbn [rsum]. rewrite IH. ring. Qed.
Lemma tl_shift i h : (i < n)%nat -> tl n (S i) h = rsum (n - S i) (fun k => h (S i + k)%nat) + h n.
Proof.
  intros Hi. unfold tl. cbn [rsum]. destruct (Nat.leb_spec (S i) n); [|lia]. f_equal.
  replace n with (S i + (n - S i))%nat at 1 by lia. rewrite rsum_app. rewrite rsum_zero.
  - rewrite Rplus_0_l. apply rsum_eq. intros k Hk. destruct (Nat.leb_spec (S i) (S i + k)); [reflexivity|lia].
  - intros k Hk. destruct (Nat.leb_spec (S i) k); [lia|reflexivity].
Qed.

Lemma dot_near0 m (a b : nat -> b64) : (forall i, (i < m)%nat -> fin (a i) /\ fin (b i)) ->
  fin (ksum (K:=K) m (fun i => n_mul (a i : K) (b i : K))) ->
  near m (ksum (K:=K) m (fun i => n_mul (a i : K) (b i : K))) (rsum m (fun i => B2R (a i) * B2R (b i))) (rsum m (fun i => Rabs (B2R (a i)) * Rabs (B2R (b i)))) (INR m * tiny).
Proof.
  intros H F. destruct m as [|m]; [|apply dot_near; auto; lia]. cbn [rsum INR]. rewrite Rmult_0_l.
  change (ksum (K:=K) 0 (fun i => n_mul (a i : K) (b i : K)) : b64) with (B754_zero false : b64).
  split; [reflexivity|]. cbn [B2R]. rewrite Rabs_R0, Rminus_0_r, Rabs_R0. unfold rounding_bound. simpl. repeat split; lra.
Qed.

(** The terms of row i. *)
Lemma row_terms f0 f g h pv i : (i < n)%nat -> LI f0 n f g pv -> forall z, (forall j, (i < j <= n)%nat -> z j = zof h j) ->
  Rabs (pv i) * (Rabs (B2R (g i)) + rsum (n - S i) (fun k => Rabs (B2R (f i (S i + k)%nat)) * Rabs (B2R (h (S i + k)%nat)))) <= 2 * kap ^ i * size n M B z.
Proof.
  intros Hi HL z Hz.
  apply Rle_trans with (2 * kap ^ i * tl n (S i) (fun j => bnd j * Rabs (z j))).
  2:{ pose proof (size_tl n eps M B Pe HM HB z (S i)). pose proof (kap_pow i). apply Rmult_le_compat_l; [lra|auto]. }
  rewrite <- tl_scale, tl_shift by auto. rewrite Rmult_plus_distr_l, Rplus_comm. apply Rplus_le_compat.
  - rewrite <- rsum_scale. apply rsum_le. intros k Hk. rewrite Hz by lia. unfold zof. destruct (Nat.eqb_spec (S i + k) n); [lia|].
    pose proof (li_row _ _ _ _ _ HL i (S i + k)%nat Hi ltac:(lia)) as Q. unfold raug, aug in Q. destruct (Nat.eqb_spec (S i + k) n); [lia|].
    rewrite Rabs_mult in Q. rewrite <- !Rmult_assoc. apply Rmult_le_compat_r; [apply Rabs_pos|exact Q].
  - rewrite Hz by lia. unfold zof. rewrite Nat.eqb_refl. rewrite Rabs_m1, Rmult_1_r.
    pose proof (li_row _ _ _ _ _ HL i n Hi ltac:(lia)) as Q. unfold raug, aug in Q. rewrite Nat.eqb_refl in Q. rewrite Rabs_mult in Q. exact Q.
Qed.

Lemma bound_lin m D T : (m <= 1000)%nat -> 0 <= D -> 0 <= T -> rounding_bound m D T <= 2 * INR m * ulp1 * D + 2 * T.
Proof.
  intros Hm HD HT. unfold rounding_bound. pose proof (pow_lin m ltac:(lia)) as Q. pose proof ulp1_pos. pose proof ulp1_small.
  assert (I : INR m <= 1000). { replace 1000 with (INR 1000) by (rewrite INR_IZR_INZ; apply f_equal; reflexivity). apply le_INR. lia. }
  pose proof (pos_INR m). assert (INR m * ulp1 <= 1000 * / 1000000000000000) by (apply Rmult_le_compat; lra).
  assert (0 <= INR m * ulp1) by nra.
  pose proof (Rmult_le_compat_r (D + T) _ _ ltac:(lra) Q). nra.
Qed.

(** The error of the back substitution in one row. *)
Lemma row_error f0 f g h pv i : (i < n)%nat -> LI f0 n f g pv -> solved f g h -> (forall j, (i <= j < n)%nat -> fin (h j)) ->
  forall z, (forall j, (i <= j <= n)%nat -> z j = zof h j) ->
  Rabs (pv i) * Rabs (rho n (raug f g) z i) <= 6 * INR n * ulp1 * kap ^ i * size n M B z.
Proof.
  intros Hi HL HS Fh z Hz. set (m := (n - S i)%nat). pose proof range_n as Hn.
  pose proof (HS i Hi) as Eh. fold m in Eh.
  pose (s := ksum (K:=K) m (fun k => n_mul (f i (S i + k)%nat : K) (h (S i + k)%nat : K)) : b64).
  change (h i = Bminus mode_NE (g i) s) in Eh.
  pose proof (Fh i ltac:(lia)) as Fi. rewrite Eh in Fi. destruct (minus_fin_inv _ _ Fi) as [Fg Fs].
  pose proof (dot_near0 m (fun k => f i (S i + k)%nat) (fun k => h (S i + k)%nat)) as N1.
  specialize (N1 ltac:(intros k Hk; split; [apply (li_f _ _ _ _ _ HL); lia|apply Fh; lia]) Fs). cbv beta in N1.
  pose proof (near_sub m _ _ _ _ _ _ _ _ (near_mono 0 m _ _ _ _ (Nat.le_0_l m) (near_exact _ Fg)) N1 Fi) as N2. fold s in N2.
  rewrite <- Eh in N2. destruct N2 as (_ & _ & _ & N2). rewrite Rplus_0_l in N2.
  set (D := Rabs (B2R (g i)) + rsum m (fun k => Rabs (B2R (f i (S i + k)%nat)) * Rabs (B2R (h (S i + k)%nat)))) in *.
  assert (PD : 0 <= D).
  { unfold D. pose proof (Rabs_pos (B2R (g i))). pose proof (rsum_pos m (fun k => Rabs (B2R (f i (S i + k)%nat)) * Rabs (B2R (h (S i + k)%nat)))) as Q.
    specialize (Q ltac:(intros; apply Rmult_le_pos; apply Rabs_pos)). lra. }
  assert (Er : rho n (raug f g) z i = B2R (h i) - (B2R (g i) - rsum m (fun k => B2R (f i (S i + k)%nat) * B2R (h (S i + k)%nat)))).
  { unfold rho. rewrite tl_shift by auto. fold m. rewrite (Hz i) by lia. unfold zof at 1. destruct (Nat.eqb_spec i n); [lia|].
    rewrite (Hz n) by lia. unfold zof, raug, aug. rewrite Nat.eqb_refl.
    rewrite (rsum_eq m _ (fun k => B2R (f i (S i + k)%nat) * B2R (h (S i + k)%nat))); [ring|].
    intros k Hk. unfold m in Hk. rewrite Hz by lia. unfold zof. destruct (Nat.eqb_spec (S i + k) n); [lia|reflexivity]. }
  rewrite Er. pose proof (pos_INR m) as Pm. pose proof tiny_pos as Pt. pose proof ulp1_pos as U.
  pose proof (bound_lin (S m) D (INR m * tiny) ltac:(unfold m; lia) PD ltac:(nra)) as BL.
  assert (Im : INR (S m) <= INR n) by (apply le_INR; unfold m; lia).
  assert (Im2 : INR m <= INR n) by (apply le_INR; unfold m; lia).
  pose proof (row_terms f0 f g h pv i Hi HL z ltac:(intros; apply Hz; lia)) as RT. fold m D in RT.
  pose proof (li_piv _ _ _ _ _ HL i Hi) as Hp. pose proof (kap_pow i) as Pk.
  assert (Sz : eps <= size n M B z).
  { unfold size. rewrite (Hz n) by lia. unfold zof. rewrite Nat.eqb_refl, Rabs_m1.
    pose proof (norm1_pos n z). assert (0 <= M * norm1 n z) by (apply Rmult_le_pos; lra). lra. }
  assert (Hpt : Rabs (pv i) * tiny <= ulp1 * size n M B z).
  { pose proof (range_entry i i ltac:(lia)) as Re. unfold LinRound.bnd in Re. destruct (Nat.eqb_spec i n); [lia|].
    pose proof large_tiny as LT. apply Rle_trans with (large * eps * tiny); [apply Rmult_le_compat_r; lra|].
    replace (large * eps * tiny) with (large * tiny * eps) by ring.
    apply Rle_trans with (ulp1 * / 1000 * eps); [apply Rmult_le_compat_r; lra|]. nra. }
  apply Rle_trans with (Rabs (pv i) * (2 * INR (S m) * ulp1 * D + 2 * (INR m * tiny))).
  { apply Rmult_le_compat_l; [apply Rabs_pos|]. lra. }
  replace (Rabs (pv i) * (2 * INR (S m) * ulp1 * D + 2 * (INR m * tiny))) with
    (2 * ulp1 * (INR (S m) * (Rabs (pv i) * D)) + 2 * (INR m * (Rabs (pv i) * tiny))) by ring.
  set (Z := size n M B z) in *. assert (PZ : 0 <= Z) by lra.
  assert (PpD : 0 <= Rabs (pv i) * D) by (apply Rmult_le_pos; [apply Rabs_pos|auto]).
  assert (PpT : 0 <= Rabs (pv i) * tiny) by (apply Rmult_le_pos; [apply Rabs_pos|lra]).
  assert (G1 : INR (S m) * (Rabs (pv i) * D) <= INR n * (2 * kap ^ i * Z)) by (apply Rmult_le_compat; auto using pos_INR).
  assert (G2 : INR m * (Rabs (pv i) * tiny) <= INR n * (ulp1 * Z)) by (apply Rmult_le_compat; auto).
  assert (G3 : INR n * (ulp1 * Z) <= INR n * (ulp1 * Z) * kap ^ i).
  { rewrite <- (Rmult_1_r (INR n * (ulp1 * Z))) at 1. apply Rmult_le_compat_l; [|exact Pk]. apply Rmult_le_pos; [apply pos_INR|apply Rmult_le_pos; lra]. }
  pose proof (Rmult_le_compat_l (2 * ulp1) _ _ ltac:(lra) G1) as G4.
  replace (6 * INR n * ulp1 * kap ^ i * Z) with (2 * ulp1 * (INR n * (2 * kap ^ i * Z)) + 2 * (INR n * (ulp1 * Z) * kap ^ i)) by ring. lra.
Qed.

(** The residual when the entries from k on are the computed ones and the others are exact. *)
Lemma tail_residual f0 f g h pv k : (k <= n)%nat -> LI f0 n f g pv -> solved f g h -> (forall j, (k <= j < n)%nat -> fin (h j)) ->
  let z := solve_up n (raug f g) k (zof h) in
  forall i, (i < n)%nat -> Rabs (row_times n f0 z i - f0 i n) <= eps * norm1 n z + solve_factor n * (M * norm1 n z + B).
Proof.
  intros Hk HL HS Fh z i Hi. pose proof range_n as Hn.
  assert (Zk : forall j, (k <= j)%nat -> z j = zof h j) by (intros j Hj; now apply solve_up_same).
  assert (Zn : z n = -1). { rewrite Zk by lia. unfold zof. now rewrite Nat.eqb_refl. }
  pose proof (chain_residual n eps M B Pe HM HB f0 n (raug f g) pv (li_chain _ _ _ _ _ HL) ltac:(lia) z 0 ltac:(lra) ltac:(intros; lia) i Hi) as Q.
  rewrite row_split, Zn, Rplus_0_l in Q. replace (row_times n f0 z i - f0 i n) with (row_times n f0 z i + f0 i n * -1) by ring.
  eapply Rle_trans; [exact Q|]. rewrite rsum_plus.
  assert (Ez : size n M B z = M * norm1 n z + B). { unfold size. rewrite Zn, Rabs_m1. ring. }
  set (Z := size n M B z) in *. assert (PZ : 0 <= Z) by (apply (size_pos n eps); auto).
  pose proof ulp1_pos as U. pose proof (pos_INR n) as Pn.
  assert (R1 : rsum n (fun y => Rabs (pv y) * Rabs (rho n (raug f g) z y)) <= 6 * INR n * ulp1 * Z * (2 * 2 ^ n)).
  { apply Rle_trans with (6 * INR n * ulp1 * Z * rsum n (fun y => kap ^ y)).
    - rewrite <- rsum_scale. apply rsum_le. intros y Hy. destruct (Nat.lt_ge_cases y k) as [Hyk|Hyk].
      + unfold z. rewrite solve_up_rho by lia. rewrite Rabs_R0, Rmult_0_r. pose proof (kap_pow y).
        repeat apply Rmult_le_pos; lra.
      + pose proof (row_error f0 f g h pv y Hy HL HS ltac:(intros; apply Fh; lia) z ltac:(intros; apply Zk; lia)) as RE.
        fold Z in RE. lra.
    - apply Rmult_le_compat_l; [repeat apply Rmult_le_pos; lra|apply kap_sum; lia]. }
  pose proof (step_errs n eps M B Pe HM HB z n ltac:(lia) ltac:(lia)) as R2. fold (norm1 n z) in R2. fold Z in R2.
  rewrite <- Ez. unfold solve_factor. rewrite plus_INR.
  assert (P2 : 0 <= ulp1 * 2 ^ n * Z) by (repeat apply Rmult_le_pos; try lra; apply pow_le; lra). change (INR 1) with 1.
  replace (12 * (INR n + 1) * 2 ^ n * ulp1 * Z) with (6 * INR n * ulp1 * Z * (2 * 2 ^ n) + 12 * (ulp1 * 2 ^ n * Z)) by ring.
  replace (10 * ulp1 * 2 ^ n * Z) with (10 * (ulp1 * 2 ^ n * Z)) in R2 by ring. lra.
Qed.

(** ** No overflow in the back substitution *)
Lemma tail_finite f0 f g h pv : (0 < n)%nat -> LI f0 n f g pv -> solved f g h ->
  far_from_singular n f0 (2 * solve_tolerance n eps M) -> (forall i j, (i < n)%nat -> (j < n)%nat -> Rabs (f0 i j) <= M) -> (forall i, (i < n)%nat -> Rabs (f0 i n) <= B) ->
  forall i, (i < n)%nat -> fin (h i).
Proof.
  intros Hn0 HL HS Hfar HfM HfB. pose proof range_n as Hn. pose proof ulp1_pos as U. pose proof (pos_INR n) as Pn.
  assert (P2 : forall k, 1 <= 2 ^ k) by (intros; apply pow_R1_Rle; lra).
  set (tol := solve_tolerance n eps M) in *. set (fac := solve_factor n).
  assert (Pf : 0 <= fac). { unfold fac, solve_factor. pose proof (pos_INR (n + 1)). pose proof (P2 n). repeat apply Rmult_le_pos; lra. }
  assert (Et : tol = eps + fac * M) by reflexivity.
  assert (PfM : 0 <= fac * M) by (apply Rmult_le_pos; lra).
  (* the factor is below 1 *)
  assert (Hfac : fac <= 1).
  { destruct (Hfar (fun j => if (j =? 0)%nat then 1 else 0)) as (i & Hi & Q); [exists 0%nat; split; [auto|simpl; lra]|].
    assert (N1 : norm1 n (fun j => if (j =? 0)%nat then 1 else 0) = 1).
    { unfold norm1. transitivity (rsum n (fun j => if (j =? 0)%nat then 1 else 0)); [|now apply rsum_one]. apply rsum_eq. intros j Hj. destruct (j =? 0)%nat; [apply Rabs_R1|apply Rabs_R0]. }
    assert (N2 : row_times n f0 (fun j => if (j =? 0)%nat then 1 else 0) i = f0 i 0%nat).
    { unfold row_times. transitivity (rsum n (fun j => if (j =? 0)%nat then f0 i 0%nat else 0)); [|now apply rsum_one]. apply rsum_eq. intros j Hj. destruct (Nat.eqb_spec j 0) as [->|]; ring. }
    rewrite N1, N2 in Q. pose proof (HfM i 0%nat Hi Hn0). assert (fac * M <= 1 * M) by lra. apply Rmult_le_reg_r with M; lra. }
  assert (G : forall m k, (k + m = n)%nat -> forall i, (k <= i < n)%nat -> fin (h i)).
  2:{ intros i Hi. apply (G n 0%nat); lia. }
  induction m as [|m IH]; intros k Hk i Hi; [lia|]. destruct (Nat.eq_dec i k) as [->|]; [|apply (IH (S k)); lia].
  assert (Fh : forall j, (S k <= j < n)%nat -> fin (h j)) by (intros j Hj; apply (IH (S k)); lia).
  set (z := solve_up n (raug f g) (S k) (zof h)).
  pose proof (tail_residual f0 f g h pv (S k) ltac:(lia) HL HS Fh) as TR. cbv zeta in TR. fold z in TR. fold fac in TR.
  assert (PN := norm1_pos n z).
  assert (Nb : norm1 n z * eps <= 2 * B).
  { destruct (Rle_or_lt (norm1 n z) 0) as [Hz|Hz]; [nra|].
    destruct (Hfar z (norm1_nonzero n z Hz)) as (r & Hr & Q). specialize (TR r Hr). specialize (HfB r Hr).
    assert (Q2 : Rabs (row_times n f0 z r) <= B + (eps * norm1 n z + fac * (M * norm1 n z + B))).
    { replace (row_times n f0 z r) with (f0 r n + (row_times n f0 z r - f0 r n)) by ring. now apply Rabs_le_plus. }
    rewrite Et in Q. assert (fac * B <= 1 * B) by (apply Rmult_le_compat_r; lra).
    assert (0 <= fac * M * norm1 n z) by (apply Rmult_le_pos; lra). lra. }
  assert (Zk : forall j, (S k <= j)%nat -> z j = zof h j) by (intros j Hj; now apply solve_up_same).
  assert (Zn : z n = -1). { rewrite Zk by lia. unfold zof. now rewrite Nat.eqb_refl. }
  pose proof (row_terms f0 f g h pv k ltac:(lia) HL z ltac:(intros; apply Zk; lia)) as RT.
  set (q := (n - S k)%nat) in *. set (D := Rabs (B2R (g k)) + _) in RT.
  assert (PD : 0 <= D).
  { unfold D. pose proof (Rabs_pos (B2R (g k))). pose proof (rsum_pos q (fun j => Rabs (B2R (f k (S k + j)%nat)) * Rabs (B2R (h (S k + j)%nat)))) as Q.
    specialize (Q ltac:(intros; apply Rmult_le_pos; apply Rabs_pos)). lra. }
  assert (DL : D <= 3 * large).
  { pose proof (li_piv _ _ _ _ _ HL k ltac:(lia)) as Hp.
    assert (Q : eps * D <= 2 * kap ^ k * size n M B z). { eapply Rle_trans; [apply Rmult_le_compat_r; [exact PD|apply Hp]|exact RT]. }
    assert (Ez : size n M B z = M * norm1 n z + B). { unfold size. rewrite Zn, Rabs_m1. ring. }
    rewrite Ez in Q.
    assert (K2 : 2 * kap ^ k <= 2 ^ (n + 1)).
    { pose proof (kap_le k ltac:(lia)) as KL. pose proof (pow2_le (S (S k)) (n + 1) ltac:(lia)) as PL. cbn [pow] in PL. lra. }
    assert (S1 : eps * (M * norm1 n z + B) <= 3 * (M * B)).
    { assert (M * (norm1 n z * eps) <= M * (2 * B)) by (apply Rmult_le_compat_l; lra). assert (eps * B <= M * B) by (apply Rmult_le_compat_r; lra). lra. }
    assert (PS : 0 <= M * norm1 n z + B) by (assert (0 <= M * norm1 n z) by (apply Rmult_le_pos; lra); lra).
    assert (Q2 : eps * (eps * D) <= 3 * (large * (eps * eps))).
    { apply Rle_trans with (eps * (2 ^ (n + 1) * (M * norm1 n z + B))).
      - apply Rmult_le_compat_l; [lra|]. eapply Rle_trans; [exact Q|]. apply Rmult_le_compat_r; auto.
      - replace (eps * (2 ^ (n + 1) * (M * norm1 n z + B))) with (2 ^ (n + 1) * (eps * (M * norm1 n z + B))) by ring.
        apply Rle_trans with (2 ^ (n + 1) * (3 * (M * B))); [apply Rmult_le_compat_l; [apply pow_le; lra|exact S1]|]. lra. }
    apply Rmult_le_reg_l with (eps * eps); [apply Rmult_lt_0_compat; lra|]. lra. }
  pose proof large_huge as LH. pose proof large_pos as LP. pose proof tiny_pos as Pt. pose proof large_tiny as LT. pose proof ulp1_small as US.
  assert (Iq : INR q <= 1000). { replace 1000 with (INR 1000) by (rewrite INR_IZR_INZ; apply f_equal; reflexivity). apply le_INR. unfold q. lia. }
  pose proof (pos_INR q) as Pq.
  assert (Tb : INR q * tiny <= 1).
  { assert (tiny <= large * tiny) by nra. assert (INR q * tiny <= 1000 * (ulp1 * / 1000)) by (apply Rmult_le_compat; lra). lra. }
  assert (PQ : forall m, (m <= 1000)%nat -> (1 + ulp1) ^ m <= 2).
  { intros m' Hm'. eapply Rle_trans; [apply pow_lin; lia|].
    assert (INR m' <= 1000). { replace 1000 with (INR 1000) by (rewrite INR_IZR_INZ; apply f_equal; reflexivity). apply le_INR. lia. }
    pose proof (pos_INR m'). assert (INR m' * ulp1 <= 1000 * / 1000000000000000) by (apply Rmult_le_compat; lra). lra. }
  assert (HD : Rabs (B2R (g k)) <= D /\ rsum q (fun j => Rabs (B2R (f k (S k + j)%nat)) * Rabs (B2R (h (S k + j)%nat))) <= D).
  { unfold D. pose proof (Rabs_pos (B2R (g k))). pose proof (rsum_pos q (fun j => Rabs (B2R (f k (S k + j)%nat)) * Rabs (B2R (h (S k + j)%nat)))) as Q.
    specialize (Q ltac:(intros; apply Rmult_le_pos; apply Rabs_pos)). lra. }
  assert (Ff : forall j, (j < q)%nat -> fin (f k (S k + j)%nat) /\ fin (h (S k + j)%nat)).
  { intros j Hj. unfold q in Hj. split; [apply (li_f _ _ _ _ _ HL); lia|apply Fh; lia]. }
  assert (Fs : fin (ksum (K:=K) q (fun j => n_mul (f k (S k + j)%nat : K) (h (S k + j)%nat : K)))).
  { destruct (Nat.eq_dec q 0) as [->|Hq]; [reflexivity|].
    apply (dot_fin L q (fun j => f k (S k + j)%nat) (fun j => h (S k + j)%nat)); [lia|exact Ff|].
    pose proof (PQ q ltac:(unfold q; lia)). pose proof (pow_ge_1 q).
    apply Rle_lt_trans with (2 * (3 * large + 1)); [|lra]. apply Rmult_le_compat; try lra.
    pose proof (rsum_pos q (fun j => Rabs (B2R (f k (S k + j)%nat)) * Rabs (B2R (h (S k + j)%nat)))) as Q.
    specialize (Q ltac:(intros; apply Rmult_le_pos; apply Rabs_pos)). assert (0 <= INR q * tiny) by nra. lra. }
  rewrite (HS k) by lia. fold q.
  pose (s := ksum (K:=K) q (fun j => n_mul (f k (S k + j)%nat : K) (h (S k + j)%nat : K)) : b64).
  change (fin (Bminus mode_NE (g k) s)).
  pose proof (dot_near0 q (fun j => f k (S k + j)%nat) (fun j => h (S k + j)%nat) Ff Fs) as N1. cbv beta in N1. fold s in N1.
  assert (Fg : fin (g k)) by (apply (li_g _ _ _ _ _ HL); lia).
  pose proof (near_mono 0 q _ _ _ _ (Nat.le_0_l q) (near_exact _ Fg)) as N0.
  assert (EB : Bminus mode_NE (g k) s = Bplus mode_NE (g k) (Bopp s)) by (clearbody s; destruct (g k), s; reflexivity). rewrite EB.
  apply (near_add_fin q _ _ _ _ _ _ _ _ N0 (near_opp _ _ _ _ _ N1)).
  change (Rabs (B2R (g k)) + rsum q (fun j => Rabs (B2R (f k (S k + j)%nat)) * Rabs (B2R (h (S k + j)%nat)))) with D.
  pose proof (PQ (S q) ltac:(unfold q; lia)). pose proof (pow_ge_1 (S q)). assert (0 <= INR q * tiny) by nra.
  apply Rle_lt_trans with (2 * (3 * large + 1)); [|lra]. apply Rmult_le_compat; lra.
Qed.
End Solve.
