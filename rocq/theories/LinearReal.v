(** The elimination of SolveLinear as row operations on a slightly perturbed system. *)
From Coq Require Import Reals Lra Lia List.
From mathcomp Require Import all_ssreflect all_algebra all_fingroup zify.
From Verif Require Import Base MathOp RealSpec RField MatModel MatSpec MatProofs PivotProofs LinearModel LinearProofs MatRealSpec MatReal.
Set Implicit Arguments.
Unset Strict Implicit.
Unset Printing Implicit Defensive.
Delimit Scope R_scope with coqR.
Import GRing.Theory.
Local Open Scope ring_scope.

Section Elim.
Variables (eps : R) (m n : nat) (A : 'M[R]_(m, n)) (b : 'cV[R]_m).

(** Entries left of the pivot of their row count as zero. *)
Definition Cm (p : nat -> nat) (f : nat -> nat -> R) : 'M[R]_(m, n) :=
  \matrix_(i, j) (if (j < p i)%N then 0 else f i j).
Definition gv (g : nat -> R) : 'cV[R]_m := \matrix_(i, j) g i.

Definition Inv (y x : nat) (f : nat -> nat -> R) (g : nat -> R) (p : nat -> nat) : Prop :=
  exists (E : 'M[R]_(m, n)) (L : 'M[R]_m) (s : 'S_m),
    [/\ L \in unitmx, L *m (A + E) = Cm p f, L *m b = gv g,
        forall k r : 'I_m, (y <= r)%N -> L k (s r) = (k == r)%:R &
        [/\ small_mx eps E, forall (i : 'I_m) (j : 'I_n), (x <= j)%N -> E i j = 0,
            forall i, (i < y)%N -> (i < m)%N -> (i <= p i < x)%N /\ f i (p i) = 1,
            forall i, (y <= i)%N -> p i = x &
            forall i j, (i < j)%N -> (j < y)%N -> (p i < p j)%N]].

Lemma Inv_start (f : nat -> nat -> R) (g : nat -> R) : (forall (i : 'I_m) (j : 'I_n), f i j = A i j) -> (forall i : 'I_m, g i = b i ord0) ->
  Inv 0 0 f g (fun _ => 0%N).
Proof.
  move=> Hf Hg. exists 0, 1%:M, 1%g. split.
  - exact: unitmx1.
  - rewrite mul1mx addr0. apply/matrixP => i j. by rewrite !mxE ltn0 Hf.
  - rewrite mul1mx. apply/matrixP => i j. by rewrite !mxE Hg ord1.
  - move=> k r _. by rewrite perm1 mxE.
  - split=> //; by [move=> i j; left; rewrite mxE|move=> i j _; rewrite mxE].
Qed.

Lemma Inv_ext y x (f f' : nat -> nat -> R) (g g' : nat -> R) p : (forall i j, (i < m)%N -> (j < n)%N -> f i j = f' i j) -> (forall i, (i < m)%N -> g i = g' i) ->
  (x <= n)%N -> Inv y x f g p -> Inv y x f' g' p.
Proof.
  move=> Ef Eg Hx [E [L [s [H1 H2 H3 H4 [H5 H6 H7 H8 H9]]]]]. exists E, L, s. split=> //.
  - rewrite H2. apply/matrixP => i j. rewrite !mxE. by case: ifP => // _; apply: Ef.
  - rewrite H3. apply/matrixP => i j. rewrite !mxE. by apply: Eg.
  - split=> // i Hy Hm. have [P1 P2] := H7 i Hy Hm. split=> //. rewrite -Ef //. lia.
Qed.

Lemma swap_tperm (y q : 'I_m) (k : 'I_m) : swap_idx y q k = tperm y q k.
Proof.
  rewrite /swap_idx. case: tpermP => [->|->|Hy Hq]; rewrite ?Nat.eqb_refl //.
  - case: (Nat.eqb_spec q y) => [E|//]. by rewrite E.
  - case: (Nat.eqb_spec k y) => [E|_]; first by case: Hy; apply: val_inj.
    by case: (Nat.eqb_spec k q) => [E|//]; case: Hq; apply: val_inj.
Qed.

Lemma Inv_swap y x q f g p : (y <= q)%N -> (q < m)%N -> Inv y x f g p ->
  Inv y x (fun i j => f (swap_idx y q i) j) (fun i => g (swap_idx y q i)) p.
Proof.
  move=> Hyq Hq [E [L [s [H1 H2 H3 H4 [H5 H6 H7 H8 H9]]]]].
  have Hy : (y < m)%N by lia.
  pose y' := Ordinal Hy. pose q' := Ordinal Hq.
  have T (k : 'I_m) : swap_idx y q k = tperm y' q' k by exact: (swap_tperm y' q' k).
  have TP (k : 'I_m) : p (tperm y' q' k) = p k by case: tpermP => [->|->|] //=; rewrite !H8.
  exists E, (tperm_mx y' q' *m L), (tperm y' q' * s)%g. split.
  - rewrite unitmx_mul H1 andbT. exact: unitmx_perm.
  - rewrite -mulmxA H2 -xrowE. apply/matrixP => i j. rewrite !mxE T TP. by [].
  - rewrite -mulmxA H3 -xrowE. apply/matrixP => i j. by rewrite !mxE T.
  - move=> k r Hr. rewrite -xrowE !mxE permM.
    have Ht : (y <= tperm y' q' r)%N by case: tpermP => [_|_|_ _] //=.
    rewrite H4 //. by rewrite (inj_eq perm_inj).
  - split=> //. move=> i Hi Hm. have -> : swap_idx y q i = i.
    { rewrite /swap_idx. case: (Nat.eqb_spec i y) => [|_]; first by lia. case: (Nat.eqb_spec i q) => //; lia. }
    exact: H7.
Qed.

(** Removing small entries of column x in the unfinished rows listed in S is a small perturbation. *)
Lemma perturb y x (p : nat -> nat) (E : 'M[R]_(m, n)) (L : 'M[R]_m) (s : 'S_m) (f : nat -> nat -> R) (S : pred 'I_m) :
  (x < n)%N -> L *m (A + E) = Cm p f -> (forall k r : 'I_m, (y <= r)%N -> L k (s r) = (k == r)%:R) ->
  small_mx eps E -> (forall (i : 'I_m) (j : 'I_n), (x <= j)%N -> E i j = 0) -> (forall i, (y <= i)%N -> p i = x) ->
  (forall r, S r -> (y <= r)%N /\ (Rabs (f r x) < eps)%coqR) ->
  exists E', [/\ L *m (A + E') = \matrix_(i, j) (if (j == x :> nat) && S i then 0 else Cm p f i j),
     small_mx eps E' & forall (i : 'I_m) (j : 'I_n), (x < j)%N -> E' i j = 0].
Proof.
  move=> Hx H2 H4 H5 H6 H8 HS.
  pose D : 'M[R]_(m, n) := \matrix_(r, j) (if (j == x :> nat) && S r then f r j else 0).
  pose D' : 'M[R]_(m, n) := row_perm (s^-1)%g D.
  have LD : L *m D' = D.
  { apply/matrixP => k j. rewrite !mxE (reindex_perm s) /= (bigD1 k) //=.
    rewrite big1 ?addr0.
    - rewrite !mxE permK. case: ifP => [/andP [_ /HS [Hy _]]|_]; last by rewrite mulr0.
      by rewrite H4 // eqxx mul1r.
    - move=> i Hi. rewrite !mxE permK. case: ifP => [/andP [_ /HS [Hy _]]|_]; last by rewrite mulr0.
      by rewrite H4 // eq_sym (negPf Hi) mul0r. }
  exists (E - D'). split.
  - rewrite addrA mulmxBr H2 LD. apply/matrixP => i j. rewrite !mxE.
    case E1: (j == x :> nat) => /=; last by rewrite subr0.
    case E2: (S i) => /=; last by rewrite subr0.
    have [Hy _] := HS i E2. rewrite H8 // (eqP E1) ltnn. exact: subrr.
  - move=> i j. rewrite !mxE. case: ifP => [/andP [/eqP E1 /HS [Hy Hs]]|_].
    + right. rewrite H6 ?E1 // sub0r. move: Hs. rewrite -RoppE Rabs_Ropp. by [].
    + rewrite subr0. exact: H5.
  - move=> i j Hj. rewrite !mxE H6; last by lia. case: eqP => [|_] /=; first by lia. by rewrite subr0.
Qed.

Lemma Inv_skip y x (f : nat -> nat -> R) g p : (x < n)%N -> (forall r, (y <= r)%N -> (r < m)%N -> (Rabs (f r x) < eps)%coqR) ->
  Inv y x f g p -> Inv y x.+1 f g (fun i => if (i < y)%N then p i else x.+1).
Proof.
  move=> Hx Hs [E [L [s [H1 H2 H3 H4 [H5 H6 H7 H8 H9]]]]].
  have [E' [G1 G2 G3]] := @perturb y x p E L s f (fun i => y <= i)%N Hx H2 H4 H5 H6 H8 (fun r Hr => conj Hr (Hs r Hr (ltn_ord r))).
  exists E', L, s. split=> //.
  - rewrite G1. apply/matrixP => i j. rewrite !mxE. case: (leqP y i) => Hyi.
    + rewrite H8 // andbT. have -> : (j < x.+1)%N = (j == x :> nat) || (j < x)%N by rewrite ltnS leq_eqVlt.
      by case: (j == x :> nat).
    + by rewrite andbF.
  - split=> //.
    + move=> i Hy Hm. rewrite Hy. have [P1 P2] := H7 i Hy Hm. split=> //. lia.
    + move=> i Hy. by rewrite ltnNge Hy.
    + move=> i j Hij Hj. rewrite (ltn_trans Hij Hj) Hj. exact: H9.
Qed.

Definition step_mx (y : nat) (piv : R) (r : 'I_m -> R) : 'M[R]_m :=
  \matrix_(k, i) (if (k == y :> nat) then (if (i == y :> nat) then piv^-1 else 0)
                  else (k == i)%:R - (if (y < k)%N && (i == y :> nat) then r k * piv^-1 else 0)).

Lemma step_mx_unit y piv r : piv <> 0 -> step_mx y piv r \in unitmx.
Proof.
  move=> Hp. rewrite unitmxE det_trig.
  - rewrite unitfE. apply/prodf_neq0 => i _. rewrite mxE. case: (i == y :> nat) => /=.
    + rewrite invr_eq0. exact/eqP.
    + rewrite eqxx andbF subr0. exact: oner_neq0.
  - apply/is_trig_mxP => i j Hij. rewrite mxE.
    case: (eqVneq (i : nat) y) => [Ei|Hi].
    + case: (eqVneq (j : nat) y) => // Ej. lia.
    + case: (eqVneq i j) => [E|_]; first by subst j; lia.
      case: (ltnP y i) => Hy /=; last by rewrite subr0.
      case: (eqVneq (j : nat) y) => [Ej|_]; last by rewrite subr0. lia.
Qed.

Lemma step_mxE y (Hy : (y < m)%N) piv r q (B : 'M[R]_(m, q)) k j :
  (step_mx y piv r *m B) k j =
    if (k == y :> nat) then piv^-1 * B (Ordinal Hy) j
    else if (y < k)%N then B k j - r k * piv^-1 * B (Ordinal Hy) j else B k j.
Proof.
  rewrite mxE. case: (eqVneq (k : nat) y) => [Ek|Hk].
  - rewrite (bigD1 (Ordinal Hy)) //= mxE Ek /= eqxx. rewrite big1 ?addr0 //.
    move=> i Hi. rewrite mxE Ek eqxx. case: (eqVneq (i : nat) y) => [Ei|_]; last by rewrite mul0r.
    exfalso. move/eqP: Hi. apply. exact: val_inj.
  - under eq_bigr => i _ do rewrite mxE (negPf Hk) mulrBl.
    rewrite sumrB (bigD1 k) //= eqxx mul1r big1 ?addr0; last first.
    { move=> i Hi. by rewrite eq_sym (negPf Hi) mul0r. }
    case: (ltnP y k) => Hyk /=; last by rewrite big1 ?subr0 // => i _; rewrite mul0r.
    rewrite (bigD1 (Ordinal Hy)) //= eqxx big1 ?addr0 //.
    move=> i Hi. case: (eqVneq (i : nat) y) => [Ei|_]; last by rewrite mul0r.
    exfalso. move/eqP: Hi. apply. exact: val_inj.
Qed.

Lemma Inv_elim y x (f : nat -> nat -> R) g p : (y < m)%N -> (x < n)%N -> (y <= x)%N -> f y x <> 0 ->
  Inv y x f g p -> Inv y.+1 x.+1 (elim_f eps y x f) (elim_g eps y x f g) (fun i => if (i <= y)%N then p i else x.+1).
Proof.
  move=> Hy Hx Hyx Hp [E [L [s [H1 H2 H3 H4 [H5 H6 H7 H8 H9]]]]].
  pose S := fun i : 'I_m => (y < i)%N && ~~ Rleb eps (Rabs (f i x)).
  have HS r : S r -> (y <= r)%N /\ (Rabs (f r x) < eps)%coqR.
  { move=> /andP [Hr /negP Hb]. split; first by lia. apply: Rnot_le_lt => Hle. apply: Hb. exact/(proj2 (Rleb_spec _ _)). }
  have [E' [G1 G2 G3]] := @perturb y x p E L s f S Hx H2 H4 H5 H6 H8 HS.
  move: G1. set C' := (\matrix_(i, j) _) => G1.
  pose rt := fun k : 'I_m => if S k then 0 else f k x.
  pose P := step_mx y (f y x) rt.
  have Sy : S (Ordinal Hy) = false by rewrite /S /= ltnn.
  have CY j : C' (Ordinal Hy) j = if (j < x)%N then 0 else f y j.
  { rewrite !mxE Sy andbF /= H8 //. }
  have CK (k : 'I_m) j : (y < k)%N -> C' k j = if (j < x)%N then 0 else if (j == x :> nat) && S k then 0 else f k j.
  { move=> Hk. rewrite !mxE H8; last by lia. case: (j == x :> nat) / eqP => [->|_] /=; last by [].
    by rewrite ltnn. }
  have CI (k : 'I_m) j : (k < y)%N -> C' k j = Cm p f k j.
  { move=> Hk. rewrite !mxE. have -> : S k = false by rewrite /S; lia. by rewrite andbF. }
  exists E', (P *m L), s. split.
  - rewrite unitmx_mul H1 andbT. exact: step_mx_unit.
  - rewrite -mulmxA G1. apply/matrixP => k j. rewrite (step_mxE Hy) [RHS]mxE CY.
    have EQ : (f y j / f y x)%coqR = (f y x)^-1 * f y j by rewrite /Rdiv (RinvE Hp) RmultE mulrC.
    have [Hk|[Hk|Hk]] : (y < k)%N \/ (k < y)%N \/ (k = y :> nat) by lia.
    + have -> : (k == y :> nat) = false by lia. have -> : (k <= y)%N = false by lia. rewrite Hk CK //.
      rewrite /elim_f. case: (Nat.ltb_spec j x) => Hj.
      * have -> : (j < x)%N by lia. have -> : (j < x.+1)%N by lia. by rewrite mulr0 subr0.
      * have -> : (j < x)%N = false by lia. case: (Nat.eqb_spec k y) => [|_]; first by lia.
        case: (Nat.ltb_spec y k) => [_|]; last by lia. rewrite /= EQ.
        rewrite /rt. have ES : S k = ~~ Rleb eps (Rabs (f k x)) by rewrite /S Hk.
        rewrite ES. case: (Rleb eps _) => /=.
        -- rewrite andbF. case: (ltnP j x.+1) => Hj'.
           ++ have -> : (j : nat) = x by lia. by rewrite -mulrA mulVf ?mulr1 ?subrr //; apply/eqP.
           ++ rewrite RminusE RmultE. by rewrite -!mulrA [f k x * _]mulrC -!mulrA.
        -- rewrite andbT !mul0r subr0. have -> : (j < x.+1)%N = (j == x :> nat) by lia. by [].
    + have -> : (k == y :> nat) = false by lia. have -> : (k <= y)%N by lia. have -> : (y < k)%N = false by lia. rewrite CI // mxE.
      case: ifP => // Hj. rewrite /elim_f. have P7 := H7 k Hk (ltn_ord k).
      case: (Nat.ltb_spec j x) => // Hj'. case: (Nat.eqb_spec k y) => [|_]; first by lia.
      by case: (Nat.ltb_spec y k) => [|_]; first by lia.
    + have -> : (k == y :> nat) by lia. have -> : (k <= y)%N by lia. have -> : p k = x by apply: H8; lia.
      case: ifP => Hj; first by rewrite mulr0. rewrite /elim_f. case: (Nat.ltb_spec j x) => [|_]; first by lia.
      case: (Nat.eqb_spec k y) => [_|]; last by lia. by rewrite EQ.
  - rewrite -mulmxA H3. apply/matrixP => k j. rewrite (step_mxE Hy) !mxE /= /elim_g.
    have EQ : (g y / f y x)%coqR = (f y x)^-1 * g y by rewrite /Rdiv (RinvE Hp) RmultE mulrC.
    have [Hk|[Hk|Hk]] : (y < k)%N \/ (k < y)%N \/ (k = y :> nat) by lia.
    + have -> : (k == y :> nat) = false by lia. case: (Nat.eqb_spec k y) => [|_]; first by lia.
      case: (Nat.ltb_spec y k) => [_|]; last by lia. rewrite /= EQ /rt /S Hk /=. case: (Rleb eps _) => /=.
      * rewrite RminusE RmultE. by rewrite -!mulrA [f k x * _]mulrC -!mulrA.
      * by rewrite !mul0r subr0.
    + have -> : (k == y :> nat) = false by lia. have -> : (y < k)%N = false by lia. case: (Nat.eqb_spec k y) => [|_]; first by lia.
      by case: (Nat.ltb_spec y k) => [|_]; first by lia.
    + have -> : (k == y :> nat) by lia. case: (Nat.eqb_spec k y) => [_|]; last by lia. by rewrite EQ.
  - move=> k r Hr. rewrite (step_mxE Hy) !H4; try lia.
    have -> : (Ordinal Hy == r) = false by apply/eqP => Ey; move: Hr; rewrite -Ey /= ltnn.
    rewrite !mulr0 subr0. case: (eqVneq (k : nat) y) => [Ek|_]; last by case: ifP.
    case: eqP => // Ekr. subst r. lia.
  - split=> //.
    + move=> i Hi Him. have -> : (i <= y)%N by lia. have [Hiy|Hiy] : (i < y)%N \/ i = y by lia.
      * have [P1 P2] := H7 i Hiy Him. split; first by lia. rewrite /elim_f.
        case: (Nat.ltb_spec (p i) x) => [_|]; last by lia. exact: P2.
      * subst i. rewrite H8 //. split; first by lia. rewrite /elim_f. case: (Nat.ltb_spec x x) => [|_]; first by lia.
        rewrite Nat.eqb_refl /Rdiv. exact: Rinv_r.
    + move=> i Hi. by have -> : (i <= y)%N = false by lia.
    + move=> i j Hij Hj. have -> : (i <= y)%N by lia. have -> : (j <= y)%N by lia.
      have [Hjy|Hjy] : (j < y)%N \/ j = y by lia. { exact: H9. } subst j. rewrite (H8 y) //.
      have [P1 _] := H7 i Hij ltac:(lia). lia.
Qed.

(** Consequences at the end of the elimination. *)
Lemma Inv_zero_row y x f g p : (y < m)%N -> (n <= x)%N -> Inv y x f g p ->
  exists E, [/\ small_mx eps E, row_free (A + E) = false & g y <> 0 -> forall v : 'cV[R]_n, (A + E) *m v <> b].
Proof.
  move=> Hy Hx [E [L [s [H1 H2 H3 H4 [H5 H6 H7 H8 H9]]]]]. exists E.
  have Z j : Cm p f (Ordinal Hy) j = 0.
  { rewrite mxE H8 //. by have -> : (j < x)%N by have := ltn_ord j; lia. }
  split=> //.
  - apply/negP => RF. have : row_free (L *m (A + E)) by rewrite /row_free eqmxMfull ?row_full_unit.
    rewrite H2 => /row_freeP [B] HB. move/matrixP: HB => /(_ (Ordinal Hy) (Ordinal Hy)).
    rewrite mxE [RHS]mxE eqxx big1 => [|j _]; last by rewrite Z mul0r. move=> /eqP. by rewrite eq_sym oner_eq0.
  - move=> Hg v Ev. apply: Hg. have := congr1 (mulmx L) Ev. rewrite mulmxA H2 H3 => /matrixP /(_ (Ordinal Hy) ord0).
    rewrite mxE [RHS]mxE big1 => [<-//|j _]. by rewrite Z mul0r.
Qed.
End Elim.
