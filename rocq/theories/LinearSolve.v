(** The loops of SolveLinear keep the invariant of LinearReal.v. *)
From Coq Require Import String Reals Lra Lia List.
From mathcomp Require Import all_ssreflect all_algebra all_fingroup zify.
From Verif Require Import Base MathOp RealSpec RField MatModel MatSpec MatProofs PivotProofs LinearModel LinearProofs MatRealSpec MatReal LinearReal.
Set Implicit Arguments.
Unset Strict Implicit.
Unset Printing Implicit Defensive.
Delimit Scope R_scope with coqR.
Import GRing.Theory.
Local Open Scope ring_scope.

Section Loop.
Variables (cfg : config Rops) (eps : R).
Hypothesis Heps : epsilon cfg = Some eps.
Variables (m n : nat) (M : 'M[R]_(m, n)) (v : 'cV[R]_m).
Notation Inv := (Inv eps M v).

Lemma skip_columns_ok y fuel : forall x f g p A b, (n - x < fuel)%N -> (y < m)%N -> (x < n)%N -> (y <= x)%N ->
  rmat m n f A -> rvec m g b -> Inv y x f g p ->
  (forall k, (y <= k)%N -> (k < m)%N -> (Rabs (f k x) <= Rabs (f y x))%coqR) ->
  exists x' f' g' p' A' b', [/\ skip_columns cfg fuel m n y x A b = Ok (x', A', b'),
    rmat m n f' A' /\ rvec m g' b', Inv y x' f' g' p', (x <= x' <= n)%N /\ (forall i, (i < y)%N -> p' i = p i) &
    (x' < n)%N -> (eps <= Rabs (f' y x'))%coqR /\
      (forall k, (y <= k)%N -> (k < m)%N -> (Rabs (f' k x') <= Rabs (f' y x'))%coqR)].
Proof.
  elim: fuel => [|fuel IH] x f g p A b Hf Hy Hx Hyx HA Hb HI Hmax; first by lia.
  cbn [skip_columns]. rewrite (Value_R _ _ _ _ _ _ HA (elimT ltP Hy) (elimT ltP Hx)). cbn [bind].
  rewrite (small_R _ _ Heps). case Es: (Rltb _ _).
  - move/(proj1 (Rltb_spec _ _)): Es => Es.
    have HI' : Inv y x.+1 f g (fun i => if (i < y)%N then p i else x.+1).
    { apply: Inv_skip => // r Hr Hm. exact: Rle_lt_trans (Hmax r Hr Hm) Es. }
    case: (Nat.eqb_spec x.+1 n) => En.
    + exists x.+1, f, g, (fun i => if (i < y)%N then p i else x.+1), A, b. split=> //.
      * by split; [lia|move=> i ->].
      * by lia.
    + have [q [A' [b' [E [Hq [HA' [Hb' Hmax']]]]]]] := bring_up_ok m n f g A b y x.+1 HA Hb (elimT ltP Hy) ltac:(lia).
      rewrite E. cbn [bind].
      have HI2 := @Inv_swap eps m n M v y x.+1 q f g _ ltac:(lia) ltac:(lia) HI'.
      have [x' [f' [g' [p' [A2 [b2 [E2 H2 H3 [H4 H4'] H5]]]]]]] :=
         IH x.+1 _ _ _ A' b' ltac:(lia) Hy ltac:(lia) ltac:(lia) HA' Hb' HI2
           (fun k H1 H2 => Hmax' k (conj (elimT leP H1) (elimT ltP H2))).
      exists x', f', g', p', A2, b2. split=> //. split; first by lia. move=> i Hi. by rewrite H4' // Hi.
  - have Es' : (eps <= Rabs (f y x))%coqR.
    { apply: Rnot_lt_le => Hl. have := proj2 (Rltb_spec _ _) Hl. by rewrite Es. }
    exists x, f, g, p, A, b. split=> //. by split; [lia|].
Qed.

(** What [TrueRowNumber] holds. *)
Definition T_is (y : nat) (p : nat -> nat) (T : list nat) : Prop :=
  length T = n /\ forall i, (i < n)%N -> nth_error T i = Some (if ((Nat.ltb i y) && (Nat.ltb i (p i)))%bool then p i else 0%N).

Lemma elim_loop_ok fuel : forall y x f g p A b T, (m - y < fuel)%N -> (y <= m)%N -> (y <= x <= n)%N -> (m <= n)%N ->
  rmat m n f A -> rvec m g b -> Inv y x f g p -> T_is y p T ->
  exists y' x' f' g' p', [/\ (y' <= m)%N, (y' <= x' <= n)%N, Inv y' x' f' g' p' &
    [\/ exists A' b' T', [/\ elim_loop cfg fuel m n y x A b T = Ok (MkElim A' b' T' m m), T_is y' p' T',
          rmat m n f' A', rvec m g' b' & y' = m \/ x' = n],
        exists A' b' T', [/\ elim_loop cfg fuel m n y x A b T = Ok (MkElim A' b' T' y' y'), T_is y' p' T',
          rmat m n f' A' /\ rvec m g' b', (y' < m)%N /\ x' = n & (Rabs (g' y') < eps)%coqR],
        [/\ elim_loop cfg fuel m n y x A b T = Throw (MathError ERROR_SINGULAR_MATRIX EmptyString),
          (y' < m)%N, x' = n & (eps <= Rabs (g' y'))%coqR] |
        [/\ (eps <= 0)%coqR, (y' < m)%N, (x' < n)%N & forall k, (y' <= k)%N -> (k < m)%N -> f' k x' = 0]]].
Proof.
  elim: fuel => [|fuel IH] y x f g p A b T Hf Hy Hx Hmn HA Hb HI HT; first by lia.
  cbn [elim_loop]. case: (Nat.ltb_spec y m) => Hym; last first.
  { have E : y = m by lia. subst y. exists m, x, f, g, p. split=> //. apply: Or41. exists A, b, T. split=> //. by left. }
  case: (Nat.ltb_spec x n) => Hxn; cbn [andb]; last first.
  { have E : x = n by lia. subst x. exists y, n, f, g, p. split=> //. apply: Or41. exists A, b, T. split=> //. by right. }
  have [q [A1 [b1 [E1 [Hq [HA1 [Hb1 Hmax]]]]]]] := bring_up_ok m n f g A b y x HA Hb Hym Hxn.
  rewrite E1. cbn [bind].
  have HI1 := @Inv_swap eps m n M v y x q f g p ltac:(lia) ltac:(lia) HI.
  have [x' [f' [g' [p' [A2 [b2 [E2 [HA2 Hb2] HI2 [Hx' Hp'] HP]]]]]]] :=
    @skip_columns_ok y n.+1 x _ _ p A1 b1 ltac:(lia) ltac:(lia) ltac:(lia) ltac:(lia) HA1 Hb1 HI1
      (fun k H1 H2 => Hmax k (conj (elimT leP H1) (elimT ltP H2))).
  rewrite E2. cbn [bind].
  have HT' : T_is y p' T.
  { split; first by case: HT. move=> i Hi. rewrite (proj2 HT i Hi). case: (Nat.ltb_spec i y) => //= Hiy. rewrite Hp' //. lia. }
  case: (Nat.eqb_spec x' n) => Ex.
  - subst x'. rewrite andFb. cbn [bind].
    rewrite (Vec_get_R _ _ _ _ Hb2 Hym). cbn [bind]. rewrite (small_R _ _ Heps).
    exists y, n, f', g', p'. split=> //; first by lia.
    case Es: (Rltb _ _).
    + rewrite Nat.eqb_refl. apply: Or42. exists A2, b2, T. split=> //; first by split; [lia|].
      exact/(proj1 (Rltb_spec _ _)).
    + case: (Nat.eqb_spec y m) => [|_]; first by lia. apply: Or43. split=> //; first by lia.
      apply: Rnot_lt_le => Hl. have := proj2 (Rltb_spec _ _) Hl. by rewrite Es.
  - have Hx'n : (x' < n)%N by lia. have [Hbig Hmax'] := HP Hx'n.
    (* the new table *)
    have [T' [ET HT2]] : exists T', (if (negb false && Nat.ltb y x')%bool then va_set T y x' else Ok T) = Ok T' /\
        T_is y.+1 (fun i => if (i <= y)%N then p' i else x'.+1) T'.
    { have Ep : p' y = x' by case: HI2 => [? [? [? [_ _ _ _ [_ _ _ H8 _]]]]]; apply: H8.
      case: (HT') => HL HN.
      have G i : (i < n)%N -> (if (Nat.ltb i y.+1 && Nat.ltb i (if i <= y then p' i else x'.+1)%N)%bool then (if (i <= y)%N then p' i else x'.+1) else 0%N)
         = if (Nat.eqb i y) then (if Nat.ltb y x' then x' else 0%N) else (if (Nat.ltb i y && Nat.ltb i (p' i))%bool then p' i else 0%N).
      { move=> Hi. case: (Nat.eqb_spec i y) => [->|Hne].
        - rewrite leqnn Ep. case: (Nat.ltb_spec y y.+1) => //= ; lia.
        - case: (Nat.ltb_spec i y) => Hiy; case: (Nat.ltb_spec i y.+1) => Hiy'; try lia; rewrite //=.
          by have -> : (i <= y)%N by lia. }
      cbn [negb andb]. case: (Nat.ltb_spec y x') => Hyx.
      - have [w [Ew [Lw Nw]]] := va_set_ok T y x' ltac:(lia). exists w. split=> //. split; first by lia.
        move=> i Hi. rewrite Nw G //. case: (Nat.eqb_spec i y) => [_|Hne]; last exact: HN.
        by case: (Nat.ltb_spec y x'); [|lia].
      - exists T. split=> //. split=> // i Hi. rewrite G //. case: (Nat.eqb_spec i y) => [Ei|Hne]; last exact: HN.
        subst i. rewrite HN //. by case: (Nat.ltb_spec y y) => [|_]; [lia|]; case: (Nat.ltb_spec y x') => [|_]; [lia|]. }
    rewrite ET. cbn [bind].
    case: (Req_EM_T (f' y x') 0) => Hz.
    + exists y, x', f', g', p'. split=> //; first by lia. apply: Or44. split=> //; try lia.
      * rewrite Hz Rabs_R0 in Hbig. exact: Hbig.
      * move=> k Hk Hkm. have := Hmax' k Hk Hkm. rewrite Hz Rabs_R0 => Hle. have ? := Rabs_pos (f' k x').
        case: (Req_dec (f' k x') 0) => // /Rabs_no_R0 Hn. exfalso. lra.
    + have [A3 [b3 [E3 [HA3 Hb3]]]] := eliminate_ok cfg eps Heps m n f' g' A2 b2 y x' HA2 Hb2 Hym ltac:(lia) Hz.
      rewrite E3. cbn [bind].
      have HI3 := @Inv_elim eps m n M v y x' f' g' p' ltac:(lia) Hx'n ltac:(lia) Hz HI2.
      exact: (IH y.+1 x'.+1 _ _ _ A3 b3 T' ltac:(lia) ltac:(lia) ltac:(lia) Hmn HA3 Hb3 HI3 HT2).
Qed.

(** A vector that back substitution produces solves the perturbed system. *)
Lemma rsumE (g : nat -> R) s k : rsum g s k = \sum_(i < k) g (s + i)%N.
Proof.
  elim: k s => [|k IH] s /=; first by rewrite big_ord0.
  rewrite big_ord_recl addn0 IH RplusE. congr (_ + _). apply: eq_bigr => i _. by rewrite /= /bump /= addnA addn1.
Qed.
Lemma Cm_solution p f g (h : nat -> R) :
  (forall i, (i < m)%N -> (p i < n)%N /\ f i (p i) = 1) ->
  (forall i, (i < m)%N -> h (p i) = (g i - rsum (fun j => f i j * h j) (p i).+1 (n - (p i).+1))%coqR) ->
  Cm m n p f *m (\matrix_(j, k) h j : 'cV_n) = gv m g.
Proof.
  move=> Hp Hh. apply/matrixP => i k. rewrite mxE [RHS]mxE.
  have [Hpn H1] := Hp i (ltn_ord i). have := Hh i (ltn_ord i).
  pose F := fun j : nat => if (j < p i)%N then 0 else f i j * h j.
  have -> : \sum_j Cm m n p f i j * (\matrix_(j, k) h j : 'cV_n) j k = \sum_(0 <= j < n) F j.
  { rewrite big_mkord. apply: eq_bigr => j _. rewrite !mxE /F. case: ifP => // _. by rewrite mul0r. }
  rewrite rsumE (@big_cat_nat _ _ _ (p i)) //=; last by lia.
  have -> : \sum_(0 <= j < p i) F j = 0.
  { rewrite big_nat_cond big1 // => j Hj. rewrite /F. by have -> : (j < p i)%N by lia. }
  rewrite add0r.
  rewrite big_ltn // {1}/F ltnn H1 mul1r => ->.
  have -> : \sum_((p i).+1 <= j < n) F j = \sum_(j < n - (p i).+1) f i ((p i).+1 + j)%N * h ((p i).+1 + j)%N.
  { rewrite -{1}[(p i).+1]add0n big_addn big_mkord. apply: eq_bigr => j _. rewrite /F addnC. by have -> : ((p i).+1 + j < p i)%N = false by lia. }
  rewrite RminusE -addrA addNr addr0. by [].
Qed.
End Loop.
