(** C59: accuracy of the determinant in doubles. *)
From Coq Require Import String ZArith Reals Lra Lia List.
From Flocq Require Import IEEE754.BinarySingleNaN Core.Raux.
From mathcomp Require Import all_ssreflect all_algebra zify.
From Verif Require Import Base MathOp IEEE RealSpec RField NodeModel ExprSpec MatModel MatSpec MatProofs DetProofs PivotProofs MatRealSpec MatReal
  Sylvester Thm_Mat Thm_Node FloatSpec FloatFacts IntSpec IntProofs RoundSpec RoundProofs.
Set Implicit Arguments.
Unset Strict Implicit.
Unset Printing Implicit Defensive.
Delimit Scope R_scope with coqR.
Delimit Scope Z_scope with coqZ.
Import GRing.Theory.
Local Open Scope ring_scope.

Section M.
Context (L : libm).
Notation K := (B64 L).

(** The mathematical matrix of the doubles f. *)
Definition bmx r c (f : nat -> nat -> b64) : 'M[R]_(r, c) := \matrix_(i < r, j < c) B2R (f i j).

(** The determinant of finite numbers is near the exact determinant, relative to the sum of the
    absolute values of its terms. *)
Theorem C59_det n (f : nat -> nat -> b64) (A : mat K) : (0 < n)%N -> is_mat n n (fun i j => f i j : K) A ->
  (forall i j, (i < n)%N -> (j < n)%N -> fin (f i j)) ->
  exists d : b64, Det A n = Ok (d : K) /\
    (fin d -> (Rabs (B2R d - \det (bmx n n f)) <=
      rounding_bound (det_roundings n) (permanent n (fun i j => B2R (f i j))) (det_underflow n (fun i j => B2R (f i j))))%coqR).
Proof.
  move=> Hn HA Hf. exists (kdet (K:=K) n (fun i j => f i j : K) : b64).
  rewrite (Det_ok _ _ _ _ n HA); [|lia|lia]. split=> // Fd.
  have [||D [[_ [_ [_ N]]] E]] := @kdet_near L n f _ _ Fd; first by lia.
  { move=> i j Hi Hj. apply: Hf; lia. }
  have := E. rewrite (@kdet_R n (fun i j => B2R (f i j)) Hn) => E2. injection E2 as E3. rewrite -/(bmx n n f) in E3. rewrite E3. exact: N.
Qed.
(** If the entries are at most M >= 1 in absolute value and n! * M^n stays below 2^1024 with the
    roundings, the determinant is finite and within ((1 + 2^-53)^k (1 + n 2^-1075) - 1) n! M^n of the
    exact one, where k is the number of roundings. *)
Theorem C59_det_bounded n (f : nat -> nat -> b64) (M : R) (A : mat K) : (0 < n)%N -> is_mat n n (fun i j => f i j : K) A ->
  (1 <= M)%coqR -> (forall i j, (i < n)%N -> (j < n)%N -> fin (f i j) /\ (Rabs (B2R (f i j)) <= M)%coqR) ->
  let size := (INR (Factorial.fact n) * M ^ n)%coqR in
  ((1 + ulp1) ^ det_roundings n * (size * (1 + INR n * tiny)) < huge)%coqR ->
  exists d : b64, Det A n = Ok (d : K) /\ fin d /\
    (Rabs (B2R d - \det (bmx n n f)) <= ((1 + ulp1) ^ det_roundings n * (1 + INR n * tiny) - 1) * size)%coqR.
Proof.
  move=> Hn HA HM Hf size Hs. have [|d [Ed Hd]] := @C59_det n f A Hn HA. { by move=> i j Hi Hj; case: (Hf i j Hi Hj). }
  exists d. split=> //.
  have Hf' : forall i j, (i < n)%coq_nat -> (j < n)%coq_nat -> fin (f i j) /\ (Rabs (B2R (f i j)) <= M)%coqR.
  { move=> i j Hi Hj. apply: Hf; lia. }
  have Fd : fin d.
  { have F := @kdet_fin L n M f _ HM Hf' Hs. rewrite (Det_ok _ _ _ _ n HA) in Ed; [|lia|lia]. injection Ed as <-. apply: F. lia. }
  split=> //. apply: Rle_trans; first exact: Hd Fd.
  have [P1 P2] := @permanent_bound n M (fun i j => B2R (f i j)) HM (fun i j Hi Hj => proj2 (Hf' i j Hi Hj)).
  rewrite /size -/(fact_bound n M). apply: rounding_bound_le; [exact: (proj2 P1)|exact: (proj2 P2)].
Qed.

(** For example, the determinant of every 3 x 3 matrix with entries between -10 and 10 is exact up
    to 5 * 10^-12. *)
Theorem C59_det_ex (f : nat -> nat -> b64) (A : mat K) : is_mat 3 3 (fun i j => f i j : K) A ->
  (forall i j, (i < 3)%N -> (j < 3)%N -> fin (f i j) /\ (Rabs (B2R (f i j)) <= 10)%coqR) ->
  exists d : b64, Det A 3 = Ok (d : K) /\ fin d /\ (Rabs (B2R d - \det (bmx 3 3 f)) <= 5 / 10 ^ 12)%coqR.
Proof.
  move=> HA Hf. have [S1 S2] := three_ten.
  have [|d [Ed [Fd Hd]]] := @C59_det_bounded 3 f 10%coqR A isT HA _ Hf S1; first by lra.
  exists d. split=> //. split=> //. exact: Rle_trans Hd S2.
Qed.
End M.
