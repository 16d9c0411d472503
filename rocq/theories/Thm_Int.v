(** C57: integer computations in doubles are exact. *)
From Coq Require Import String ZArith Reals Lra Lia List.
From Flocq Require Import IEEE754.BinarySingleNaN Core.Raux.
From mathcomp Require Import all_ssreflect all_algebra zify.
From Verif Require Import Base MathOp IEEE RealSpec RField NodeModel ExprSpec MatModel MatSpec MatProofs DetProofs PivotProofs MatRealSpec MatReal
  Sylvester Thm_Mat Thm_Node FloatSpec FloatFacts IntSpec IntProofs.
Set Implicit Arguments.
Unset Strict Implicit.
Unset Printing Implicit Defensive.
Delimit Scope R_scope with coqR.
Delimit Scope Z_scope with coqZ.
Import GRing.Theory.
Local Open Scope ring_scope.

(** Expressions: if integer arithmetic gives z without leaving the exact range, the program gives
    exactly z (for every C library and configuration). *)
Theorem C57_vpa (L : libm) (cfg : config (B64 L)) (e : expr (B64 L)) (env : string -> b64) (zenv : string -> Z) (z : Z) :
  (forall x, is_Z (env x) (zenv x)) -> @zvalue (B64 L) is_Z zenv e z ->
  exists v : b64, Vpa cfg (embed (filled L env e)) = Ok (v : B64 L) /\ is_Z v z.
Proof.
  move=> Henv H. have [v [E I]] := @eval_zvalue L (throwOnInvalidValue cfg) env zenv e z Henv H.
  exists v. split=> //. exact: C01_vpa_value.
Qed.

(** Matrices. *)
Section M.
Context (L : libm).
Notation K := (B64 L).

(** The mathematical matrix of the integers g. *)
Definition zmx r c (g : nat -> nat -> Z) : 'M[R]_(r, c) := \matrix_(i < r, j < c) IZR (g i j).
Definition bounded r c (g : nat -> nat -> Z) (M : Z) : Prop :=
  forall i j, (i < r)%N -> (j < c)%N -> (Z.abs (g i j) <= M)%coqZ.

Lemma zmx_is r c g A : mx_is (zmx r c g) A -> is_mat (K:=Rops) r c (fun i j => Some (IZR (g i j)) : Rops) A.
Proof.
  move=> H. apply: (is_mat_ext _ _ _ _ _ _ H) => i j /ltP Hi /ltP Hj.
  rewrite -[i]/(nat_of_ord (Ordinal Hi)) -[j]/(nat_of_ord (Ordinal Hj)) entryE. by rewrite mxE.
Qed.

Theorem C57_det n (g : nat -> nat -> Z) (M : Z) (A : mat K) : (0 < n)%N -> holds_Z L n n g A ->
  (Zpos xH <= M)%coqZ -> bounded n n g M -> (det_bound n M <= 2 ^ 53)%coqZ ->
  exists d : b64, Det A n = Ok (d : K) /\ fin d /\ B2R d = \det (zmx n n g).
Proof.
  move=> Hn [f [HA Hf]] HM Hb HB.
  have [| |z [[Z1 Z1'] [Z2 Z3]]] := @kdet_is L M n f g HM _ Hf _ HB; first by lia.
  { move=> i j Hi Hj. apply: Hb; lia. }
  exists (kdet (K:=K) n f). rewrite (Det_ok _ _ _ _ n HA); [|lia|lia]. split=> //. split=> //. rewrite Z1'.
  have := Z3. rewrite (@kdet_R n (fun i j => IZR (g i j)) Hn) => E. by injection E.
Qed.

Theorem C57_mul r m c (g h : nat -> nat -> Z) (M N : Z) (A B : mat K) : (0 < r)%N -> (0 < c)%N ->
  holds_Z L r m g A -> holds_Z L m c h B -> bounded r m g M -> bounded m c h N -> (Z0 <= M)%coqZ -> (Z0 <= N)%coqZ ->
  (Z.of_nat m * (M * N) <= 2 ^ 53)%coqZ ->
  exists C p, Mat_mul A B = Ok C /\ holds_Z L r c p C /\ zmx r c p = zmx r m g *m zmx m c h.
Proof.
  move=> Hr Hc [f [HA Hf]] [f' [HB Hf']] Hg Hh HM0 HN0 HB2.
  have [C [E HC]] := C28_mul Hr Hc HA HB.
  have G i j : (i < r)%N -> (j < c)%N -> exists z, is_Z (ksum (K:=K) m (fun k => n_mul (f i k : K) (f' k j : K))) z /\
    ksum (K:=Rops) m (fun k => Some (IZR (g i k * h k j)%coqZ) : Rops) = Some (IZR z) :> Rops.
  { move=> Hi Hj.
    have P k : (k < m)%coq_nat -> (Z.abs (g i k * h k j) <= M * N)%coqZ.
    { move=> Hk. rewrite Z.abs_mul. apply: Z.mul_le_mono_nonneg; try exact: Z.abs_nonneg; [apply: Hg|apply: Hh]; lia. }
    have [|z [Z1 [Z2 Z3]]] := @sum_is L m (fun k => Bmult mode_NE (f i k) (f' k j)) (fun k => (g i k * h k j)%coqZ) (M * N)%coqZ _ P HB2; last by exists z.
    move=> k Hk. apply: mul_is; [apply: Hf; lia|apply: Hf'; lia|]. rewrite /exact_range. have := P k Hk.
    have : (Zpos xH * (M * N) <= Z.of_nat m * (M * N))%coqZ. { apply: Z.mul_le_mono_nonneg_r; [exact: Z.mul_nonneg_nonneg|lia]. }
    lia. }
  exists C, (fun i j => up (B2R (ksum (K:=K) m (fun k => n_mul (f i k : K) (f' k j : K))) - 1)%coqR).
  have U z : up (IZR z - 1)%coqR = z. { symmetry. apply: tech_up; lra. }
  split=> //. split.
  - exists (fun i j => ksum (K:=K) m (fun k => n_mul (f i k : K) (f' k j : K))). split=> // i j Hi Hj.
    have [||z [[Z1 Z1'] _]] := G i j; try lia. by rewrite Z1' U.
  - apply/matrixP => i j. rewrite !mxE. have [z [[Z1 Z1'] Z3]] := G i j (ltn_ord i) (ltn_ord j). rewrite Z1' U.
    have := Z3. rewrite (ksum_R m (fun k => IZR (g i k * h k j))) => E4. injection E4 as <-.
    apply: eq_bigr => k _. by rewrite !mxE mult_IZR.
Qed.

(** The inverse: singular exactly when the determinant is zero, and otherwise every entry is the
    exact quotient correctly rounded. *)
Theorem C57_inverse (cfg : config K) n (g : nat -> nat -> Z) (M : Z) (A : mat K) : (0 < n)%N -> holds_Z L n n g A ->
  (Zpos xH <= M)%coqZ -> bounded n n g M -> (det_bound n M <= 2 ^ 53)%coqZ ->
  fin (epsilon cfg) -> (R0 <= B2R (epsilon cfg : b64) < R1)%coqR ->
  (\det (zmx n n g) = R0 -> Inverse cfg A = Throw (MathError ERROR_SINGULAR_MATRIX EmptyString)) /\
  (\det (zmx n n g) <> R0 -> exists B (h : nat -> nat -> b64), Inverse cfg A = Ok B /\ is_mat (K:=K) n n h B /\
     forall i j : 'I_n, fin (h i j) /\ B2R (h i j) = rnd (invmx (zmx n n g) i j)).
Proof.
  move=> Hn [f [HA Hf]] HM Hb HB Fe He. have Hb' i j : (i < n)%coq_nat -> (j < n)%coq_nat -> (Z.abs (g i j) <= M)%coqZ by move=> Hi Hj; apply: Hb; lia.
  have [|z [Z1 [Z2 Z3]]] := @kdet_is L M n f g HM _ Hf Hb' HB; first by lia.
  have D : \det (zmx n n g) = IZR z.
  { have := Z3. rewrite (@kdet_R n (fun i j => IZR (g i j)) Hn) => E. by injection E. }
  rewrite D. have Hn' : (0 < n)%coq_nat by lia. have := Inverse_ok cfg n (fun i j => f i j : K) A Hn' HA.
  set d := kdet (K:=K) n _ in Z1 *. 
  have [Fa Ea] := abs_is _ _ Z1.
  have -> : n_leb (n_abs (d : K)) (epsilon cfg) = Rle_bool (IZR (Z.abs z)) (B2R (epsilon cfg : b64)).
  { rewrite -[n_leb _ _]/(Bleb (Babs d) (epsilon cfg : b64)) Bleb_correct // Ea. by []. }
  move=> HI. split.
  - move=> E0. have {}E0 : z = Z0 by apply: eq_IZR. move: HI. rewrite E0 Rle_bool_true //. by case: He.
  - move=> E0. have {}E0 : z <> Z0 by move=> E; apply: E0; rewrite E.
    move: HI. rewrite Rle_bool_false; last first.
    { have : (IZR 1 <= IZR (Z.abs z))%coqR by apply: IZR_le; lia. case: He. lra. }
    move=> [B [EB HBm]].
    eexists B, _. split; first exact: EB. split; first exact: HBm. move=> i j.
    have U : \det (zmx n n g) \is a GRing.unit by rewrite unitfE D; apply/eqP => /eq_IZR.
    have UM : zmx n n g \in unitmx by rewrite unitmxE.
    have [a [A1 [A2 A3]]] : exists a, is_Z (if Nat.eqb n 1 then n_ofZ (n:=K) (Zpos xH) else kcof (K:=K) n (fun i j => f i j : K) j i) a /\ exact_range a /\
      (if Nat.eqb n 1 then n_ofZ (n:=Rops) (Zpos xH) else kcof (K:=Rops) n (fun i j => Some (IZR (g i j)) : Rops) j i) = Some (IZR a) :> Rops.
    { case: (Nat.eqb_spec n 1) => E1.
      - exists (Zpos xH). split; first by apply: ofZ_is; rewrite /exact_range; lia. split=> //; rewrite /exact_range; lia.
      - apply: (@kcof_is L M n f g j i HM _ Hf Hb' HB). lia. }
    have [F R] := div_rnd _ _ _ _ A1 Z1 E0 A2. split; first exact: F. rewrite [LHS]R. congr rnd.
    rewrite /invmx UM mxE D.
    have -> : \adj (zmx n n g) i j = IZR a.
    { case: (Nat.eqb_spec n 1) A3 => E1 A3.
      - subst n. rewrite adjugate1 !ord1 mxE. by injection A3.
      - have [X HX] := C28_mx_is_exists (zmx n n g) Hn Hn.
        have := @kcof_R n (zmx n n g) j i ltac:(lia).
        rewrite [LHS](_ : _ = kcof (K:=Rops) n (fun i j => Some (IZR (g i j)) : Rops) j i).
        + rewrite A3 mxE => E. by injection E.
        + rewrite /kcof. rewrite (kdet_ext _ _ (fun i' j' => Some (IZR (g (skip j i') (skip i j'))) : Rops)) // => i' j' Hi' Hj'.
          have Sk k k' : (k' < n - 1)%coq_nat -> (skip k k' < n)%N. { move=> Hk. rewrite /skip. case: (Nat.ltb k' k); lia. }
          rewrite -[skip j i']/(nat_of_ord (Ordinal (Sk j i' Hi'))) -[skip i j']/(nat_of_ord (Ordinal (Sk i j' Hj'))) entryE.
          by rewrite mxE. }
    rewrite mulrC /Rdiv. by rewrite -(RinvE (fun E => E0 (eq_IZR _ _ E))).
Qed.

Lemma forallb_ext_in T (p q : T -> bool) l : (forall x, List.In x l -> p x = q x) -> List.forallb p l = List.forallb q l.
Proof. elim: l => //= x l IH H. rewrite H; last by left. rewrite IH // => y Hy. apply: H. by right. Qed.

(** PositiveDetermine decides positive definiteness of symmetric integer matrices. *)
Theorem C57_minors n (g : nat -> nat -> Z) (M : Z) (A : mat K) : (0 < n)%N -> holds_Z L n n g A ->
  (Zpos xH <= M)%coqZ -> bounded n n g M -> (det_bound n M <= 2 ^ 53)%coqZ ->
  exists b, PositiveDetermine A = Ok b /\ (b = true <-> minors_pos (zmx n n g)).
Proof.
  move=> Hn [f [HA Hf]] HM Hb HB.
  have [X HX] := C28_mx_is_exists (zmx n n g) Hn Hn. have [b [E Hb2]] := C31_minors HX.
  exists b. split=> //. rewrite (PositiveDetermine_ok _ _ _ HA).
  rewrite (PositiveDetermine_ok _ _ _ (zmx_is HX)) in E. injection E as <-. congr Ok.
  apply: forallb_ext_in => k /in_seq Hk. congr negb.
  have [||||z [Z1 [Z2 Z3]]] := @kdet_is L M k f g HM; try lia.
  { move=> i j Hi Hj. apply: Hf; lia. }
  { move=> i j Hi Hj. apply: Hb; lia. }
  { have := @det_bound_le k n M HM ltac:(lia). lia. }
  rewrite Z3. have E0 : is_Z (b_ofZ Z0) Z0 by apply: ofZ_is.
  rewrite -[n_leb _ (n_ofZ (n:=K) Z0)]/(Bleb (kdet (K:=K) k f) (b_ofZ Z0)) (leb_is _ _ _ _ Z1 E0).
  rewrite -[RHS]/(Rleb (IZR z) (IZR Z0)).
  case: (Z.leb_spec z Z0) => Hz; symmetry.
  - apply/Rleb_spec. exact: IZR_le.
  - case E1: (Rleb _ _) => //. move/Rleb_spec in E1. have := IZR_lt _ _ Hz. lra.
Qed.
Theorem C57_positive_definite n (g : nat -> nat -> Z) (M : Z) (A : mat K) : (0 < n)%N -> holds_Z L n n g A ->
  (forall i j, (i < n)%N -> (j < n)%N -> g i j = g j i) ->
  (Zpos xH <= M)%coqZ -> bounded n n g M -> (det_bound n M <= 2 ^ 53)%coqZ ->
  exists b, PositiveDetermine A = Ok b /\ (b = true <-> posdef (zmx n n g)).
Proof.
  move=> Hn HA Hs HM Hb HB. have [b [E Hb2]] := C57_minors Hn HA HM Hb HB. exists b. split=> //. rewrite Hb2.
  apply: sylvester_plus. apply/matrixP => i j. by rewrite !mxE Hs ?ltn_ord.
Qed.
End M.

(** Matrices built from braces of integer literals are such matrices. *)
Theorem C57_init (L : libm) (rows : list (list Z)) c : (0 < length rows)%N -> (0 < c)%N ->
  (forall l, List.In l rows -> length l = c) -> (forall l z, List.In l rows -> List.In z l -> exact_range z) ->
  exists A, Mat_init (K:=B64 L) (List.map (List.map (fun z => b_ofZ z : B64 L)) rows) = Ok A /\
    holds_Z L (length rows) c (fun i j => List.nth j (List.nth i rows nil) Z0) A.
Proof.
  move=> Hr Hc Hl Hz.
  have [|||A [E H]] := @Mat_init_ok (B64 L) (List.map (List.map (fun z => b_ofZ z : B64 L)) rows) c.
  - rewrite map_length. lia.
  - lia.
  - move=> l /in_map_iff [l' [<- Hl']]. rewrite map_length. exact: Hl.
  - exists A. split=> //. rewrite map_length in H. exists (lentry (K:=B64 L) (List.map (List.map (fun z => b_ofZ z : B64 L)) rows)). split=> // i j Hi Hj.
    rewrite /lentry. rewrite (nth_indep _ _ (List.map (fun z => b_ofZ z : B64 L) nil)); last by rewrite map_length.
    rewrite map_nth. have Il := nth_In rows nil Hi. have Ll := Hl _ Il.
    rewrite (nth_indep _ _ (b_ofZ Z0 : B64 L)); last by rewrite map_length Ll.
    rewrite (map_nth (fun z => b_ofZ z : B64 L)). apply: ofZ_is. apply: (Hz _ _ Il). apply: nth_In. by rewrite Ll.
Qed.

(** The bound is sharp: 2^53 + 1 is computed as 2^53. *)
Theorem C57_sharp (L : libm) (cfg : config (B64 L)) :
  exists v : b64, Vpa cfg (embed (EBin BAdd (ENum (b_ofZ (2 ^ 53)%coqZ : B64 L)) (ENum (b_ofZ (Zpos xH) : B64 L)))) = Ok (v : B64 L) /\
    is_Z v (2 ^ 53)%coqZ.
Proof.
  set a := b_ofZ (2 ^ 53)%coqZ. set o := b_ofZ (Zpos xH).
  have Ia : is_Z a (2 ^ 53)%coqZ by apply: ofZ_is; rewrite /exact_range; lia.
  have Q : B2SF (Bplus mode_NE a o) = B2SF a by vm_compute.
  have E : Bplus mode_NE a o = a by apply: B2SF_inj.
  exists a. split=> //. apply: C01_vpa_value. cbn [eval]. rewrite -[bin_sem _ _ _]/(Some (Bplus mode_NE a o : B64 L)) E. exact: (finish_is L _ _ _ Ia).
Qed.

(** Cases meeting the hypotheses: ((3*x - 4)/2) % 5 at x = 10, and a 3 x 3 matrix. *)
Example C57_ex_vpa (L : libm) :
  let k z := ENum (b_ofZ z : B64 L) in
  @zvalue (B64 L) is_Z (fun _ => 10%coqZ)
    (EBin BMod (EBin BDiv (EBin BSub (EBin BMul (k 3%coqZ) (EVar "x"%string)) (k 4%coqZ)) (k 2%coqZ)) (k 5%coqZ)) 3%coqZ.
Proof.
  move=> k. have N z : exact_range z -> @zvalue (B64 L) is_Z (fun _ => 10%coqZ) (k z) z.
  { move=> H. constructor=> //. exact: ofZ_is. }
  have R z : (Z.abs z <= 100)%coqZ -> exact_range z by rewrite /exact_range; lia.
  apply: (@zv_mod _ _ _ _ _ 13%coqZ 5%coqZ); try (rewrite /int32; lia); last by apply/N/R.
  apply: (@zv_div _ _ _ _ _ 26%coqZ 2%coqZ) => //; last by apply/N/R.
  apply: (@zv_sub _ _ _ _ _ 30%coqZ 4%coqZ); try exact: R; last by apply/N/R.
  apply: (@zv_mul _ _ _ _ _ 3%coqZ 10%coqZ); try exact: R; first by apply/N/R.
  apply: (@zv_var _ _ (fun _ => 10%coqZ)). exact: R.
Qed.

Definition ex_rows : list (list Z) := ((2 :: 1 :: 0 :: nil) :: (1 :: 3 :: 1 :: nil) :: (0 :: 1 :: 2 :: nil) :: nil)%coqZ%list.
Example C57_ex_det (L : libm) : exists A,
  Mat_init (K:=B64 L) (List.map (List.map (fun z => b_ofZ z : B64 L)) ex_rows) = Ok A /\
  holds_Z L 3 3 (fun i j => List.nth j (List.nth i ex_rows nil) Z0) A /\
  bounded 3 3 (fun i j => List.nth j (List.nth i ex_rows nil) Z0) 3%coqZ /\ (det_bound 3 3 <= 2 ^ 53)%coqZ /\
  (forall i j, (i < 3)%N -> (j < 3)%N -> List.nth j (List.nth i ex_rows nil) Z0 = List.nth i (List.nth j ex_rows nil) Z0).
Proof.
  have [||||A [E H]] := @C57_init L ex_rows 3 => //.
  - move=> l [<-|[<-|[<-|[]]]] //.
  - rewrite /exact_range. move=> l z [<-|[<-|[<-|[]]]] [<-|[<-|[<-|[]]]]; lia.
  - exists A. split=> //. split=> //. split; last split.
    + move=> [|[|[|i]]] [|[|[|j]]] //= _ _; lia.
    + rewrite /det_bound. lia.
    + by move=> [|[|[|i]]] [|[|[|j]]].
Qed.
