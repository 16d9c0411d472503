(** C81: Newton-Raphson on one convex (or concave) strictly monotone equation finds the root from far away (exact reals). *)
From Coq Require Import String List ZArith Bool Arith Lia Reals Lra.
From Coquelicot Require Import Coquelicot.
From Verif Require Import Base MathOp NodeModel SubsModel DiffModel MatModel LinearModel VarsTableModel SymMatModel NonlinearModel
  ExprSpec SubsSpec MatSpec VarsSpec SymMatSpec NonlinearSpec DiffSpec AffineSpec NewtonSpec ScalarSpec NodeProofs SymMatProofs Thm_Node Thm_Subs Thm_Vars Thm_SymMat DiffProofs Thm_Diff
  MatProofs NonlinearProofs Thm_Nonlinear RealSpec AffineSolve Thm_Affine NewtonProofs.
Import ListNotations.
Local Open Scope string_scope.
Local Open Scope list_scope.
Local Open Scope R_scope.

(** ** The real sequence *)
Section Sequence.
Context (F D : R -> R) (dom : R -> Prop) (s a b : R).
Hypotheses (Hd : interval dom)
  (MV : forall p q, dom p -> dom q -> exists c, Rmin p q <= c <= Rmax p q /\ F q - F p = D c * (q - p))
  (Ha : a = 1 \/ a = -1) (Hb : b = 1 \/ b = -1) (Pos : forall p, dom p -> 0 < a * D p)
  (Mon : forall p q, dom p -> dom q -> p <= q -> b * D p <= b * D q) (Ds : dom s) (Root : F s = 0).
(** The distance from the root, counted positive on the side where the derivative is larger. *)
Let dist p := a * b * (p - s).
Let m p := a * D p.

Lemma ratio p : dom p -> exists th, dist (next F D p) = th * dist p /\ F p = (1 - th) * D p * (p - s) /\ th <= 1 /\
  (0 <= dist p -> 0 <= th <= 1 - m s / m p /\ m s <= m p) /\ (dist p <= 0 -> th <= 0).
Proof using All.
  intros Hp. destruct (MV s p Ds Hp) as (c & Hc & E). rewrite Root, Rminus_0_r in E.
  assert (Dc : dom c).
  { revert Hc. unfold Rmin, Rmax. destruct (Rle_dec s p); intros Hc; [apply (Hd s p); auto|apply (Hd p s); auto]. }
  pose proof (Pos p Hp) as Pp. pose proof (Pos c Dc) as Pc. pose proof (Pos s Ds) as Ps. unfold m.
  assert (Dp : D p <> 0) by (intros Z; rewrite Z in Pp; lra).
  exists (1 - (a * D c) / (a * D p)).
  assert (Q : D c / D p = (a * D c) / (a * D p)) by (field; split; [exact Dp|destruct Ha; lra]).
  split; [|split; [|split; [|split]]].
  - unfold dist, next. rewrite E. rewrite <- Q. field. exact Dp.
  - rewrite E, <- Q. field. exact Dp.
  - assert (0 < (a * D c) / (a * D p)) by (apply Rdiv_lt_0_compat; assumption). lra.
  - intros Dist. assert (Cm : a * D s <= a * D c <= a * D p).
    { unfold dist in Dist. revert Hc. unfold Rmin, Rmax. destruct (Rle_dec s p) as [L|L]; intros Hc.
      - pose proof (Mon s c Ds Dc (proj1 Hc)). pose proof (Mon c p Dc Hp (proj2 Hc)).
        destruct Ha as [-> | ->], Hb as [-> | ->]; try lra; assert (p = s) by lra; subst p; assert (c = s) by lra; subst c; lra.
      - pose proof (Mon p c Hp Dc (proj1 Hc)). pose proof (Mon c s Dc Ds (proj2 Hc)).
        destruct Ha as [-> | ->], Hb as [-> | ->]; try lra. }
    split; [|lra]. split.
    + assert ((a * D c) / (a * D p) <= 1); [|lra]. apply Rmult_le_reg_r with (a * D p); [exact Pp|]. unfold Rdiv. rewrite Rmult_assoc, Rinv_l by lra. lra.
    + assert (a * D s / (a * D p) <= a * D c / (a * D p)); [|lra]. apply Rmult_le_compat_r; [left; now apply Rinv_0_lt_compat|lra].
  - intros Dist. assert (Cm : a * D p <= a * D c).
    { unfold dist in Dist. revert Hc. unfold Rmin, Rmax. destruct (Rle_dec s p) as [L|L]; intros Hc.
      - pose proof (Mon c p Dc Hp (proj2 Hc)).
        destruct Ha as [-> | ->], Hb as [-> | ->]; try lra; assert (p = s) by lra; subst p; assert (c = s) by lra; subst c; lra.
      - pose proof (Mon p c Hp Dc (proj1 Hc)). destruct Ha as [-> | ->], Hb as [-> | ->]; try lra. }
    assert (1 <= (a * D c) / (a * D p)); [|lra]. apply Rmult_le_reg_r with (a * D p); [exact Pp|]. unfold Rdiv. rewrite Rmult_assoc, Rinv_l by lra. lra.
Qed.

(** After one step the point is on that side. *)
Lemma far_side p : dom p -> 0 <= dist (next F D p).
Proof using All.
  intros Hp. destruct (ratio p Hp) as (th & E & _ & _ & H1 & H2). rewrite E. destruct (Rle_dec 0 (dist p)) as [L|L].
  - apply Rmult_le_pos; [apply H1|]; auto.
  - replace (th * dist p) with ((- th) * (- dist p)) by ring. assert (dist p <= 0) by lra. apply Rmult_le_pos; [|lra]. specialize (H2 ltac:(lra)). lra.
Qed.

Lemma dist_between p q : 0 <= dist p <= dist q -> dom q -> dom p.
Proof using All.
  intros [H1 H2] Hq. unfold dist in *. destruct Ha as [-> | ->], Hb as [-> | ->]; first [solve [apply (Hd s q); auto; lra] | solve [apply (Hd q s); auto; lra]].
Qed.
Lemma m_mon p q : 0 <= dist p <= dist q -> dom q -> m p <= m q.
Proof using All.
  intros H Hq. pose proof (dist_between p q H Hq) as Hp. destruct H as [H1 H2]. unfold dist, m in *.
  destruct Ha as [-> | ->], Hb as [-> | ->]; [pose proof (Mon p q Hp Hq ltac:(lra))|pose proof (Mon q p Hq Hp ltac:(lra))|pose proof (Mon q p Hq Hp ltac:(lra))|pose proof (Mon p q Hp Hq ltac:(lra))]; lra.
Qed.

(** From there the distance shrinks geometrically. *)
Lemma shrink y : dom y -> 0 <= dist y -> forall k, let p := Nat.iter k (next F D) y in
  dom p /\ m s <= m p <= m y /\ 0 <= dist p <= (1 - m s / m y) ^ k * dist y /\ dist p <= dist y.
Proof using All.
  intros Hy Sy. pose proof (Pos y Hy) as Py. pose proof (Pos s Ds) as Ps.
  assert (MS : m s <= m y). { destruct (ratio y Hy) as (th0 & _ & _ & _ & H1 & _). now apply H1. }
  assert (Th : 0 <= 1 - m s / m y).
  { assert (m s / m y <= 1); [|lra]. apply Rmult_le_reg_r with (m y); [exact Py|]. unfold Rdiv. rewrite Rmult_assoc, Rinv_l; unfold m in *; lra. }
  induction k as [|k IH].
  - cbn. repeat split; auto; try lra.
  - cbv zeta in *. cbn [Nat.iter nat_rect]. change (nat_rect (fun _ => R) y (fun _ => next F D) k) with (Nat.iter k (next F D) y). set (p := Nat.iter k (next F D) y) in *.
    destruct IH as (Hp & [M1 M2] & [D1 D2] & D3). destruct (ratio p Hp) as (th & E & _ & T1 & H1 & _). destruct (H1 D1) as [[T2 T3] _].
    assert (D4 : dist (next F D p) <= dist p). { rewrite E. rewrite <- (Rmult_1_l (dist p)) at 2. apply Rmult_le_compat_r; [exact D1|exact T1]. }
    assert (D5 : 0 <= dist (next F D p)) by now apply far_side.
    assert (Hq : dom (next F D p)) by (apply (dist_between _ p); auto).
    split; [exact Hq|]. split; [|split; [split; [exact D5|]|lra]].
    + split; [|pose proof (m_mon (next F D p) p (conj D5 D4) Hp); lra].
      assert (Z : dist s = 0) by (unfold dist; ring). apply (m_mon s (next F D p)); [lra|exact Hq].
    + rewrite E. cbn [pow]. rewrite Rmult_assoc. apply Rmult_le_compat; auto. apply Rle_trans with (1 - m s / m p); [exact T3|].
      assert (m s / m y <= m s / m p); [|lra]. apply Rmult_le_compat_l; [unfold m; lra|]. apply Rinv_le_contravar; [unfold m; apply Pos, Hp|exact M2].
Qed.

Lemma abs_dist p : 0 <= dist p -> Rabs (p - s) = dist p.
Proof using All. unfold dist. intros H. destruct Ha as [-> | ->], Hb as [-> | ->]; unfold Rabs; destruct (Rcase_abs _); lra. Qed.
Lemma abs_m p : dom p -> Rabs (D p) = m p.
Proof using All. unfold m. intros H. pose proof (Pos p H). destruct Ha as [-> | ->]; unfold Rabs; destruct (Rcase_abs _); lra. Qed.

(** Values: between |D s| |p - s| and |D p| |p - s|. *)
Lemma value_size p : dom p -> 0 <= dist p -> m s * dist p <= Rabs (F p) <= m p * dist p.
Proof using All.
  intros Hp Sp. destruct (ratio p Hp) as (th & _ & E & T1 & H1 & _). destruct (H1 Sp) as [[T2 T3] MS]. pose proof (Pos p Hp) as Pp. pose proof (Pos s Ds) as Ps.
  assert (A : Rabs (F p) = (1 - th) * m p * dist p).
  { rewrite E, Rabs_mult, (abs_dist p Sp). f_equal. rewrite Rabs_mult, (abs_m p Hp). rewrite (Rabs_right (1 - th)) by lra. reflexivity. }
  rewrite A. assert (m s <= (1 - th) * m p).
  { apply Rle_trans with (m s / m p * m p); [right; field; unfold m; lra|]. apply Rmult_le_compat_r; [unfold m; lra|lra]. }
  split; apply Rmult_le_compat_r; auto. rewrite <- (Rmult_1_l (m p)) at 2. apply Rmult_le_compat_r; [unfold m; lra|lra].
Qed.
End Sequence.

(** ** The program *)
(** A 1 x 1 system with a pivot that is not small is solved by one division. *)
Lemma solve_scalar (cfg : config Rops) eps (M : nat -> nat -> Rops) (v : nat -> Rops) (a b : R) : epsilon cfg = Some eps -> eps <= Rabs a -> a <> 0 ->
  M 0%nat 0%nat = Some a -> v 0%nat = Some b -> linear_solution cfg 1 1 M v (fun _ => Some (b / a) : Rops).
Proof.
  intros He Ha Na EM Ev. exists (MkMat 1 1 [Some a : Rops]), (MkMat 1 1 [Some b : Rops]), (MkMat 1 1 [Some (b / a) : Rops]).
  split; [|split; [|split]].
  - repeat split. intros i j Hi Hj. assert (i = 0%nat) by lia. assert (j = 0%nat) by lia. subst. rewrite EM. reflexivity.
  - repeat split. intros i j Hi Hj. assert (i = 0%nat) by lia. assert (j = 0%nat) by lia. subst. rewrite Ev. reflexivity.
  - assert (E1 : Reqb (Rabs a) (Rabs a) = true) by (apply Reqb_spec; reflexivity).
    assert (E2 : Rltb (Rabs a) eps = false) by (destruct (Rltb (Rabs a) eps) eqn:Q; [apply Rltb_spec in Q; lra|reflexivity]).
    set (A := MkMat 1 1 [Some a : Rops]). set (B := MkMat 1 1 [Some b : Rops]).
    assert (S1 : bring_up 1 0 0 A B = Ok (A, B)) by (unfold bring_up; cbn; rewrite ?E1; cbn; reflexivity).
    assert (S2 : skip_columns cfg 2 1 1 0 0 A B = Ok (0%nat, A, B)) by (cbn; rewrite He; cbn; rewrite E2; reflexivity).
    assert (S3 : eliminate cfg 1 0 0 A B = Ok (MkMat 1 1 [n_div (Some a : Rops) (Some a : Rops)], MkMat 1 1 [n_div (Some b : Rops) (Some a : Rops)])) by reflexivity.
    unfold SolveLinear. cbn [elim_loop m_rows m_cols A B Nat.eqb negb].
    change (MkMat 1 1 [Some a : Rops]) with A. change (MkMat 1 1 [Some b : Rops]) with B. 
    cbn [Nat.ltb Nat.leb andb]. rewrite S1. cbn [bind]. rewrite S2. cbn [bind Nat.eqb negb andb Nat.ltb Nat.leb]. rewrite S3. cbn.
    destruct (Req_EM_T a 0) as [Z|_]; [contradiction|]. cbn. rewrite Rminus_0_r. reflexivity.
  - repeat split. intros i j Hi Hj. assert (i = 0%nat) by lia. assert (j = 0%nat) by lia. subst. reflexivity.
Qed.

(** The least index up to N with a decidable property. *)
Lemma least (P : nat -> Prop) N : (forall i, {P i} + {~ P i}) -> P N -> exists k, (k <= N)%nat /\ P k /\ forall i, (i < k)%nat -> ~ P i.
Proof.
  intros Dec. revert P Dec. induction N as [|N IH]; intros P Dec H.
  - exists 0%nat. repeat split; auto. intros i Hi. lia.
  - destruct (Dec 0%nat) as [H0|H0]; [exists 0%nat; split; [lia|split; [exact H0|intros i Hi; lia]]|].
    destruct (IH (fun i => P (S i)) (fun i => Dec (S i)) H) as (k & Hk & Pk & Mk). exists (S k). split; [lia|]. split; [exact Pk|].
    intros [|i] Hi; [exact H0|]. apply Mk. lia.
Qed.

Section Program.
Context (cfg : config Rops) (eps : R) (x : string) (e : expr Rops) (F D : R -> R) (dom : R -> Prop) (A : symmat Rops) (t : vars_table Rops) (s0 : R).
Hypotheses (Heps : epsilon cfg = Some eps) (He : 0 < eps) (HA : is_sym 1 1 (fun _ _ => e) A)
  (Ht : table_at (K:=Rops) [x] t (fun _ => Some s0)) (HC : curve x e F D dom).
Let FF (_ : nat) (p : nat -> R) := F (p 0%nat).
Let DD (_ _ : nat) (p : nat -> R) := D (p 0%nat).
Let PP (p : nat -> R) := dom (p 0%nat).
Notation pt s := (fun _ : nat => Some s : Rops).

Lemma curve_system : system [x] 1 (fun _ => e) FF DD PP.
Proof using HC.
  intros i _. destruct HC as [W H]. split; [exact W|]. intros p env Hp Ha. pose proof (Ha 0%nat ltac:(cbn; lia)) as Ex. cbn [nth] in Ex.
  unfold PP in Hp. rewrite <- Ex in Hp. destruct (H env Hp) as (V & S & P). unfold FF, DD. rewrite <- Ex. split; [exact V|].
  intros j Hj. assert (j = 0%nat) by (cbn in Hj; lia). subst j. cbn [nth]. auto.
Qed.
Lemma mean_value : interval dom -> forall p q, dom p -> dom q -> exists c, Rmin p q <= c <= Rmax p q /\ F q - F p = D c * (q - p).
Proof using All.
  intros Hd p q Hp Hq.
  assert (Nd : NoDup [x]) by (repeat constructor; simpl; tauto).
  destruct (move_coord [x] 1 (fun _ => e) FF DD PP Nd eq_refl curve_system 0 0 (fun _ => 0) p q) as (c & Hc & E); auto.
  - intros v Hv. unfold PP, setpt. cbn. revert Hv. unfold Rmin, Rmax. destruct (Rle_dec p q); intros Hv; [apply (Hd p q)|apply (Hd q p)]; auto.
  - exists c. split; [exact Hc|exact E].
Qed.

(** One step of the program from a point p of the domain with |D p| >= epsilon. *)
Lemma scalar_step jac p q : jacobian cfg [x] 1 (fun _ => e) jac -> dom p -> eps <= Rabs (D p) ->
  newton_step cfg [x] 1 (fun _ => e) jac (pt p) (pt q) (pt (q - F p / D p)).
Proof using All.
  intros HJ Hp Hd. assert (Nd : NoDup [x]) by (repeat constructor; simpl; tauto).
  assert (Dp : D p <> 0) by (intros Z; rewrite Z, Rabs_R0 in Hd; lra).
  exists (fun _ => Some (F p)), (fun _ _ => Some (D p)), (fun _ => Some ((- F p) / D p)). split; [|split; [|split]].
  - exact (values_here cfg [x] 1 (fun _ => e) FF DD PP Nat.lt_0_1 Nd eq_refl curve_system (fun _ => p) Hp).
  - intros i Hi j Hj. exact (jac_here cfg [x] 1 (fun _ => e) jac FF DD PP Nat.lt_0_1 Nd eq_refl curve_system HJ i j (fun _ => p) Hi Hj Hp).
  - apply (solve_scalar cfg eps _ _ (D p) (- F p)); auto.
  - intros j Hj. cbn. f_equal. field. exact Dp.
Qed.
Lemma scalar_solved p : dom p -> solved cfg [x] 1 (fun _ => e) (pt p) <-> Rabs (F p) < eps.
Proof using All.
  intros Hp. assert (Nd : NoDup [x]) by (repeat constructor; simpl; tauto).
  rewrite (solved_here cfg eps [x] 1 (fun _ => e) FF DD PP Nat.lt_0_1 Nd eq_refl Heps curve_system (fun _ => p) Hp). unfold FF.
  split; [intros H; apply (H 0%nat); lia|auto].
Qed.
Lemma scalar_jacobian : (exists p, dom p) -> exists J jac, Jacobian cfg A [x] = Ok J /\ jacobian cfg [x] 1 (fun _ => e) jac /\ is_sym 1 (length [x]) jac J.
Proof using All.
  intros [p Hp]. destruct (Jacobian_cases cfg 1 (fun _ => e) A [x] Nat.lt_0_1 ltac:(discriminate) HA) as [(J & jac & EJ & HJ & SJ)|E]; [exists J, jac; auto|].
  exfalso. destruct (C35_jacobian_value cfg 1 (fun _ => e) A [x] (fun _ => p) Nat.lt_0_1 ltac:(discriminate) HA) as (J & h & E' & _); [|congruence].
  intros i y Hi [<-|[]]. now apply (proj2 HC (fun _ => p)).
Qed.

(** The points of the program, while the derivative is large enough. *)
Definition points (k : nat) : R := match k with O => s0 | S k => Nat.iter k (next F D) (landing F D s0) end.
Lemma points_run jac k : jacobian cfg [x] 1 (fun _ => e) jac -> (forall i, (i < k)%nat -> dom (points i) /\ eps <= Rabs (D (points i))) ->
  newton_points cfg [x] 1 (fun _ => e) jac (pt s0) (fun i => pt (points i)) k.
Proof using All.
  intros HJ H. split; [reflexivity|]. intros i Hi. destruct (H i Hi) as [H1 H2]. destruct i as [|i].
  - exact (scalar_step jac s0 0 HJ H1 H2).
  - exact (scalar_step jac (points (S i)) (points (S i)) HJ H1 H2).
Qed.

Lemma start_is j : (j < length [x])%nat -> nth j (map (fun _ => Some s0 : Rops) (seq 0 (length [x]))) (n_ofZ 0) = (Some s0 : Rops).
Proof using All. intros Hj. assert (j = 0%nat) by (cbn in Hj; lia). subst j. reflexivity. Qed.

(** If point k is the first that solves the equation (and the derivative is not small before), it is returned. *)
Lemma scalar_result k : (forall i, (i <= k)%nat -> dom (points i)) -> (forall i, (i < k)%nat -> eps <= Rabs (D (points i)) /\ eps <= Rabs (F (points i))) ->
  Rabs (F (points k)) < eps -> (Z.of_nat k <= maxIterations cfg + 1)%Z ->
  exists t', SolveByNewtonRaphson cfg A t = Ok t' /\ table_at (K:=Rops) [x] t' (pt (points k)).
Proof using All.
  intros Hd H1 H2 Hk. destruct (scalar_jacobian (ex_intro _ _ (Hd k (Nat.le_refl k)))) as (J & jac & EJ & HJ & SJ).
  apply (C39_newton_result cfg 1 (fun _ => e) A t [x] _ Nat.lt_0_1 HA Ht J jac EJ SJ).
  exists k, (fun i => pt (points i)). split; [|split; [reflexivity|split; [|split; [|right; exact Hk]]]].
  - assert (R : newton_points cfg [x] 1 (fun _ => e) jac (pt s0) (fun i => pt (points i)) k).
    { apply points_run; [exact HJ|]. intros i Hi. split; [apply Hd; lia|now apply H1]. }
    split; [|exact (proj2 R)]. intros j Hj. now rewrite start_is.
  - apply scalar_solved; auto.
  - intros i Hi So. apply scalar_solved in So; [|apply Hd; lia]. destruct (H1 i Hi). lra.
Qed.

(** If none of the points solves it, the limit is reported. *)
Lemma scalar_limit : (forall i, (Z.of_nat i <= Z.max 0 (maxIterations cfg + 1))%Z -> dom (points i) /\ eps <= Rabs (D (points i)) /\ eps <= Rabs (F (points i))) ->
  SolveByNewtonRaphson cfg A t = Throw limit_exceeded.
Proof using All.
  intros H. destruct (scalar_jacobian (ex_intro _ _ (proj1 (H 0%nat ltac:(lia))))) as (J & jac & EJ & HJ & SJ).
  apply (C39_newton_limit cfg 1 (fun _ => e) A t [x] _ Nat.lt_0_1 HA Ht J jac EJ SJ).
  exists (fun i => pt (points i)), (Z.to_nat (Z.max 0 (maxIterations cfg + 1))). split; [lia|]. split.
  - assert (R : newton_points cfg [x] 1 (fun _ => e) jac (pt s0) (fun i => pt (points i)) (Z.to_nat (Z.max 0 (maxIterations cfg + 1)))).
    { apply points_run; [exact HJ|]. intros i Hi. destruct (H i ltac:(lia)) as (? & ? & ?). auto. }
    split; [|exact (proj2 R)]. intros j Hj. now rewrite start_is.
  - intros i Hi. destruct (H i ltac:(lia)) as (H1 & _ & H3). exists (fun _ => Some (F (points i))). split.
    + assert (Nd : NoDup [x]) by (repeat constructor; simpl; tauto).
      exact (values_here cfg [x] 1 (fun _ => e) FF DD PP Nat.lt_0_1 Nd eq_refl curve_system (fun _ => points i) H1).
    + intros V. specialize (V 0%nat Nat.lt_0_1). rewrite Heps in V. cbn in V. rewrite Rminus_0_r in V. apply Rltb_spec in V. lra.
Qed.
End Program.

(** ** C81 *)
Lemma signs dom D : one_sign dom D -> monotone dom D -> exists a b, (a = 1 \/ a = -1) /\ (b = 1 \/ b = -1) /\
  (forall p, dom p -> 0 < a * D p) /\ (forall p q, dom p -> dom q -> p <= q -> b * D p <= b * D q).
Proof.
  intros [H|H] [M|M]; [exists 1, 1|exists 1, (-1)|exists (-1), 1|exists (-1), (-1)]; repeat split; auto;
    first [intros p Hp; specialize (H p Hp); lra|intros p q Hp Hq L; specialize (M p q Hp Hq L); lra].
Qed.

Theorem C81_finds_root (cfg : config Rops) eps x e F D dom A t s0 s N :
  epsilon cfg = Some eps -> 0 < eps -> is_sym 1 1 (fun _ _ => e) A -> table_at (K:=Rops) [x] t (fun _ => Some s0) ->
  curve x e F D dom -> interval dom -> one_sign dom D -> monotone dom D ->
  dom s -> F s = 0 -> eps <= Rabs (D s) ->
  dom s0 -> eps <= Rabs (D s0) ->
  let x1 := landing F D s0 in dom x1 -> eps <= Rabs (D x1) ->
  let x2 := next F D x1 in dom x2 ->
  (1 - Rabs (D s) / Rabs (D x2)) ^ N * (Rabs (D x2) * Rabs (x2 - s)) < eps -> (Z.of_nat N + 1 <= maxIterations cfg)%Z ->
  exists t' p, SolveByNewtonRaphson cfg A t = Ok t' /\ table_at (K:=Rops) [x] t' (fun _ => Some p) /\
    Rabs (F p) < eps /\ (p = s0 \/ p = x1 \/ Rabs (p - s) < eps / Rabs (D s)).
Proof.
  intros Heps He HA Ht HC Hd Os Mo Ds Root Es D0 E0 x1 D1 E1 x2 D2 HN HM.
  destruct (signs dom D Os Mo) as (a & b & Ha & Hb & Pos & Mon).
  pose proof (mean_value cfg eps x e F D dom A t s0 Heps He HA Ht HC Hd) as MV.
  pose proof (far_side F D dom s a b Hd MV Ha Hb Pos Mon Ds Root x1 D1) as Side. fold x2 in Side.
  pose proof (shrink F D dom s a b Hd MV Ha Hb Pos Mon Ds Root x2 D2 Side) as Sh. cbv zeta in Sh.
  pose proof (abs_m F D dom s a b Hd MV Ha Hb Pos Mon Ds Root) as Am.
  assert (Pt : forall k, points F D s0 (S (S k)) = Nat.iter k (next F D) x2).
  { intros k. cbn [points]. unfold x2, x1. induction k as [|k IH]; [reflexivity|]. exact (f_equal (next F D) IH). }
  pose proof (value_size F D dom s a b Hd MV Ha Hb Pos Mon Ds Root) as VS.
  assert (Dm : forall k, dom (points F D s0 k)) by (intros [|[|k]]; [exact D0|exact D1|rewrite Pt; apply Sh]).
  assert (Dv : forall k, eps <= Rabs (D (points F D s0 k))).
  { intros [|[|k]]; [exact E0|exact E1|]. rewrite (Am _ (Dm _)), Pt. rewrite (Am _ Ds) in Es. destruct (Sh k) as (_ & [M1 _] & _). lra. }
  assert (Last : Rabs (F (points F D s0 (S (S N)))) < eps).
  { rewrite Pt. destruct (Sh N) as (Hp & [M1 M2] & [S1 S2] & _). eapply Rle_lt_trans; [apply (VS _ Hp S1)|]. eapply Rle_lt_trans; [|exact HN].
    rewrite (Am _ Ds), (Am _ D2), (abs_dist F D dom s a b Hd MV Ha Hb Pos Mon Ds Root x2 Side).
    pose proof (Pos _ Hp). eapply Rle_trans; [apply Rmult_le_compat; [lra|exact S1|exact M2|exact S2]|]. right. ring. }
  destruct (least (fun k => Rabs (F (points F D s0 k)) < eps) (S (S N)) (fun i => Rlt_dec _ _) Last) as (k & Hk & Sk & Mk).
  destruct (scalar_result cfg eps x e F D dom A t s0 Heps He HA Ht HC k) as (t' & E & T); auto.
  - intros i Hi. split; [apply Dv|]. apply Rnot_lt_le. now apply Mk.
  - lia.
  - exists t', (points F D s0 k). split; [exact E|]. split; [exact T|]. split; [exact Sk|].
    destruct k as [|[|k]]; [now left|right; now left|]. right; right. rewrite Pt in *. destruct (Sh k) as (Hp & _ & [S1 _] & _).
    rewrite (abs_dist F D dom s a b Hd MV Ha Hb Pos Mon Ds Root _ S1). rewrite (Am _ Ds) in *. pose proof (Pos _ Ds). pose proof (proj1 (VS _ Hp S1)) as Lo.
    cbv beta in Lo |- *. set (q := a * D s) in *. clearbody q. apply Rmult_lt_reg_l with q; [assumption|]. replace (q * (eps / q)) with eps by (field; lra). lra.
Qed.

(** Whatever the starting point, if the derivative is bounded: m <= |D| <= M on the whole line. *)
Theorem C81_any_start (cfg : config Rops) eps x e F D A t s0 s m M :
  epsilon cfg = Some eps -> 0 < eps -> is_sym 1 1 (fun _ _ => e) A -> table_at (K:=Rops) [x] t (fun _ => Some s0) ->
  curve x e F D (fun _ => True) -> one_sign (fun _ => True) D -> monotone (fun _ => True) D ->
  F s = 0 -> eps <= m -> (forall p, m <= Rabs (D p) <= M) ->
  let x1 := landing F D s0 in
  forall N, (1 - m / M) ^ N * (M * (M / m - 1) * Rabs (x1 - s)) < eps -> (Z.of_nat N + 1 <= maxIterations cfg)%Z ->
  exists t' p, SolveByNewtonRaphson cfg A t = Ok t' /\ table_at (K:=Rops) [x] t' (fun _ => Some p) /\ Rabs (F p) < eps /\ Rabs (p - s) < eps / m.
Proof.
  intros Heps He HA Ht HC Os Mo Root Em Bd x1 N HN HM.
  assert (Iv : interval (fun _ => True)) by (intros p q c _ _ _; exact I).
  pose proof (mean_value cfg eps x e F D _ A t s0 Heps He HA Ht HC Iv) as MV.
  assert (Mp : 0 < m) by lra. assert (MM : 0 < M) by (pose proof (Bd 0); lra).
  assert (Fp : forall p, m * Rabs (p - s) <= Rabs (F p)).
  { intros p. destruct (MV s p I I) as (c & _ & E). rewrite Root, Rminus_0_r in E. rewrite E, Rabs_mult. apply Rmult_le_compat_r; [apply Rabs_pos|apply Bd]. }
  set (x2 := next F D x1).
  assert (mM : 0 <= m / M <= 1).
  { split; [left; now apply Rdiv_lt_0_compat|]. apply Rmult_le_reg_r with M; [exact MM|]. unfold Rdiv. rewrite Rmult_assoc, Rinv_l by lra. pose proof (Bd 0). lra. }
  assert (X2 : Rabs (x2 - s) <= (M / m - 1) * Rabs (x1 - s)).
  { destruct (MV s x1 I I) as (c & _ & E). rewrite Root, Rminus_0_r in E. unfold x2, next. rewrite E.
    destruct Os as [Os|Os]; pose proof (Os c I); pose proof (Os x1 I) as Px; pose proof (Bd c) as Bc; pose proof (Bd x1) as Bx.
    - rewrite !Rabs_right in Bc, Bx by lra. replace (x1 - D c * (x1 - s) / D x1 - s) with ((1 - D c / D x1) * (x1 - s)) by (field; lra).
      rewrite Rabs_mult. apply Rmult_le_compat_r; [apply Rabs_pos|].
      assert (Q1 : D c / D x1 <= M / m) by (apply Rmult_le_compat; [lra|left; now apply Rinv_0_lt_compat|lra|apply Rinv_le_contravar; lra]).
      assert (Q2 : m / M <= D c / D x1) by (apply Rmult_le_compat; [lra|left; now apply Rinv_0_lt_compat|lra|apply Rinv_le_contravar; lra]).
      assert (Q3 : 1 - m / M <= M / m - 1).
      { apply Rmult_le_reg_r with (m * M); [now apply Rmult_lt_0_compat|]. replace ((1 - m / M) * (m * M)) with (m * M - m * m) by (field; lra).
        replace ((M / m - 1) * (m * M)) with (M * M - m * M) by (field; lra). pose proof (Rle_0_sqr (M - m)) as Sq. unfold Rsqr in Sq. lra. }
      unfold Rabs. destruct (Rcase_abs _); lra.
    - rewrite !Rabs_left in Bc, Bx by lra. replace (x1 - D c * (x1 - s) / D x1 - s) with ((1 - (- D c) / (- D x1)) * (x1 - s)) by (field; lra).
      rewrite Rabs_mult. apply Rmult_le_compat_r; [apply Rabs_pos|].
      assert (Q1 : (- D c) / (- D x1) <= M / m) by (apply Rmult_le_compat; [lra|left; apply Rinv_0_lt_compat; lra|lra|apply Rinv_le_contravar; lra]).
      assert (Q2 : m / M <= (- D c) / (- D x1)) by (apply Rmult_le_compat; [lra|left; now apply Rinv_0_lt_compat|lra|apply Rinv_le_contravar; lra]).
      assert (Q3 : 1 - m / M <= M / m - 1).
      { apply Rmult_le_reg_r with (m * M); [now apply Rmult_lt_0_compat|]. replace ((1 - m / M) * (m * M)) with (m * M - m * m) by (field; lra).
        replace ((M / m - 1) * (m * M)) with (M * M - m * M) by (field; lra). pose proof (Rle_0_sqr (M - m)) as Sq. unfold Rsqr in Sq. lra. }
      unfold Rabs. destruct (Rcase_abs _); lra. }
  destruct (C81_finds_root cfg eps x e F D (fun _ => True) A t s0 s N) as (t' & p & E & T & V & _); auto; try (eapply Rle_trans; [exact Em|apply Bd]).
  - eapply Rle_lt_trans; [|exact HN]. fold x1 x2. pose proof (Bd s) as Bs. pose proof (Bd x2) as Bx.
    apply Rmult_le_compat; [apply pow_le| |apply pow_incr|].
    + destruct (signs _ _ Os Mo) as (a & b & Ha & Hb & Pos & Mon).
      pose proof (far_side F D _ s a b Iv MV Ha Hb Pos Mon I Root x1 I) as Side. fold x2 in Side.
      destruct (ratio F D _ s a b Iv MV Ha Hb Pos Mon I Root x2 I) as (th & _ & _ & _ & H1 & _). destruct (H1 Side) as [[T1 T2] _].
      rewrite !(abs_m F D _ s a b Iv MV Ha Hb Pos Mon I Root); auto. lra.
    + apply Rmult_le_pos; apply Rabs_pos.
    + assert (Q : m / M <= Rabs (D s) / Rabs (D x2)) by (apply Rmult_le_compat; [lra|left; now apply Rinv_0_lt_compat|lra|apply Rinv_le_contravar; lra]).
      split; [|lra].
      destruct (signs _ _ Os Mo) as (a & b & Ha & Hb & Pos & Mon).
      pose proof (far_side F D _ s a b Iv MV Ha Hb Pos Mon I Root x1 I) as Side. fold x2 in Side.
      destruct (ratio F D _ s a b Iv MV Ha Hb Pos Mon I Root x2 I) as (th & _ & _ & _ & H1 & _). destruct (H1 Side) as [[T1 T2] _].
      rewrite !(abs_m F D _ s a b Iv MV Ha Hb Pos Mon I Root); auto. lra.
    + rewrite Rmult_assoc. apply Rmult_le_compat; [apply Rabs_pos|apply Rabs_pos|lra|exact X2].
  - exists t', p. split; [exact E|]. split; [exact T|]. split; [exact V|]. specialize (Fp p). apply Rmult_lt_reg_l with m; [exact Mp|]. replace (m * (eps / m)) with eps by (field; lra). lra.
Qed.

(** ** Examples *)
Section Ex81.
Notation num r := (ENum (Some r : Rops)) (only parsing).
Ltac one_var := let z := fresh in let O := fresh in intros z O; repeat match goal with H : occurs _ _ |- _ => inversion H; clear H; subst end; simpl; auto.

(** x x - 2 = 0 from the default starting value 1, with the default configuration: the square root of 2. *)
Definition sq_eq : expr Rops := EBin BSub (EBin BMul (EVar "x") (EVar "x")) (num 2).
Lemma sq_curve : curve "x" sq_eq (fun v => v * v - 2) (fun v => 2 * v) (fun v => 0 < v).
Proof.
  split; [one_var|]. intros env Hp. split; [reflexivity|]. split; [cbn; repeat split; discriminate|].
  split; [unfold defined_near; apply filter_forall; intros y; cbn; discriminate|].
  apply (is_derive_ext (fun u => u * u - 2)); [intros u; reflexivity|]. auto_derive; auto; ring.
Qed.

Theorem C81_ex_sqrt : exists t t' p, VarsTable_make ["x"] (n_ofZ 1 : Rops) = Ok t /\
  SolveByNewtonRaphson (default_config Rops) (MkSym 1 1 [embed sq_eq]) t = Ok t' /\
  VarsTable_get t' "x" = Ok (Some p : Rops) /\ Rabs (p * p - 2) < / 10 ^ 9.
Proof.
  destruct (C36_make Rops ["x"] (n_ofZ 1)) as (t & Et & Ht); [discriminate|repeat constructor; simpl; tauto|].
  assert (Hs : 1414 / 1000 < sqrt 2 < 1415 / 1000).
  { split; [rewrite <- (sqrt_Rsqr (1414/1000)) by lra|rewrite <- (sqrt_Rsqr (1415/1000)) by lra]; apply sqrt_lt_1; unfold Rsqr; lra. }
  assert (Sq : sqrt 2 * sqrt 2 = 2) by (apply sqrt_sqrt; lra).
  assert (Eps : 0 < / 10 ^ 9 < 1) by (simpl; lra).
  assert (X1 : landing (fun v => v * v - 2) (fun v => 2 * v) 1 = 1 / 2) by (unfold landing; field).
  assert (X2 : next (fun v => v * v - 2) (fun v => 2 * v) (1 / 2) = 9 / 4) by (unfold next; field).
  destruct (C81_finds_root (default_config Rops) (/ 10 ^ 9) "x" sq_eq (fun v => v * v - 2) (fun v => 2 * v) (fun v => 0 < v) (MkSym 1 1 [embed sq_eq]) t 1 (sqrt 2) 26) as (t' & p & E & T & V & _).
  - cbn. f_equal. simpl. field.
  - apply Eps.
  - repeat split; cbn. intros i j Hi Hj. assert (i = 0%nat) by lia. assert (j = 0%nat) by lia. subst. reflexivity.
  - exact Ht.
  - exact sq_curve.
  - intros p q c Hp Hq Hc. lra.
  - left. intros p Hp. lra.
  - left. intros p q Hp Hq L. lra.
  - lra.
  - rewrite Sq. lra.
  - rewrite Rabs_right; lra.
  - lra.
  - rewrite Rabs_right; lra.
  - rewrite X1. lra.
  - rewrite X1, Rabs_right; lra.
  - rewrite X1, X2. lra.
  - rewrite X1, X2. rewrite !(Rabs_right (2 * _)) by lra. rewrite Rabs_right by lra.
    apply Rle_lt_trans with ((2 / 5) ^ 26 * (9 / 2 * 1)); [|simpl; lra].
    assert (Q : 3 / 5 <= 2 * sqrt 2 / (2 * (9 / 4)) <= 1) by (replace (2 * sqrt 2 / (2 * (9 / 4))) with (4 / 9 * sqrt 2) by field; lra).
    apply Rmult_le_compat; [apply pow_le; lra|lra|apply pow_incr; lra|lra].
  - cbn. lia.
  - exists t, t', p. split; [exact Et|]. split; [exact E|]. split; [apply (h_get _ _ _ T); exists 0%nat; auto|exact V].
Qed.

(** ln(1 + exp(x)) + x - ln 2 = 0: the derivative lies between 1 and 2. *)
Definition soft_eq : expr Rops := EBin BSub (EBin BAdd (EUn ULog (EBin BAdd (num 1) (EUn UExp (EVar "x")))) (EVar "x")) (num (ln 2)).
Definition soft_F (v : R) : R := ln (1 + exp v) + v - ln 2.
Definition soft_D (v : R) : R := 2 - / (1 + exp v).
Lemma soft_curve : curve "x" soft_eq soft_F soft_D (fun _ => True).
Proof.
  split; [one_var|]. intros env _. pose proof (exp_pos (env "x")) as P.
  assert (V : forall v, rval (upd env "x" v) soft_eq = Some (soft_F v)).
  { intros v. pose proof (exp_pos v). cbn. destruct (Rlt_dec 0 (1 + exp v)); [reflexivity|lra]. }
  split; [pose proof (exp_pos (env "x")); cbn; destruct (Rlt_dec 0 (1 + exp (env "x"))); [reflexivity|lra]|].
  split; [cbn; repeat split; try discriminate; eexists; split; try reflexivity; cbn; auto; lra|].
  split; [unfold defined_near; apply filter_forall; intros y; rewrite V; discriminate|].
  apply (is_derive_ext soft_F); [intros u; unfold as_function; now rewrite V|]. unfold soft_F, soft_D. auto_derive; [lra|]. field. lra.
Qed.

(** It is solved from every starting value with |s0| <= 1000, whichever it is: the solution is 0. *)
Theorem C81_ex_soft (s0 : R) : Rabs s0 <= 1000 -> exists t t' p, VarsTable_make ["x"] (Some s0 : Rops) = Ok t /\
  SolveByNewtonRaphson (default_config Rops) (MkSym 1 1 [embed soft_eq]) t = Ok t' /\
  VarsTable_get t' "x" = Ok (Some p : Rops) /\ Rabs p < / 10 ^ 9.
Proof.
  intros H0. destruct (C36_make Rops ["x"] (Some s0 : Rops)) as (t & Et & Ht); [discriminate|repeat constructor; simpl; tauto|].
  assert (Eps : 0 < / 10 ^ 9 < 1) by (simpl; lra).
  assert (Bd : forall p, 1 <= Rabs (soft_D p) <= 2).
  { intros p. pose proof (exp_pos p). unfold soft_D. assert (0 < / (1 + exp p) <= 1) by (split; [apply Rinv_0_lt_compat; lra|apply Rle_trans with (/ 1); [apply Rinv_le_contravar; lra|lra]]).
    rewrite Rabs_right; lra. }
  assert (HA : is_sym 1 1 (fun _ _ => soft_eq) (MkSym 1 1 [embed soft_eq])).
  { repeat split; cbn. intros i j Hi Hj. assert (i = 0%nat) by lia. assert (j = 0%nat) by lia. subst. reflexivity. }
  assert (Root : soft_F 0 = 0) by (unfold soft_F; rewrite exp_0; replace (1 + 1) with 2 by lra; lra).
  assert (Iv : interval (fun _ => True)) by (intros p q c _ _ _; exact I).
  assert (Heps : epsilon (default_config Rops) = Some (/ 10 ^ 9)) by (cbn; f_equal; simpl; field).
  pose proof (mean_value (default_config Rops) (/ 10 ^ 9) "x" soft_eq soft_F soft_D _ _ t s0 Heps (proj1 Eps) HA Ht soft_curve Iv) as MV.
  assert (X1 : Rabs (landing soft_F soft_D s0 - 0) <= 2000).
  { destruct (MV 0 s0 I I) as (c & _ & E). rewrite Root, !Rminus_0_r in E. unfold landing. rewrite Rminus_0_r, Rminus_0_l, Rabs_Ropp, E.
    pose proof (Bd c) as Bc. pose proof (Bd s0) as B0. unfold Rdiv. rewrite !Rabs_mult, Rabs_inv.
    assert (/ Rabs (soft_D s0) <= 1) by (rewrite <- Rinv_1; apply Rinv_le_contravar; lra). assert (0 < / Rabs (soft_D s0)) by (apply Rinv_0_lt_compat; lra).
    replace 2000 with (2 * 1000 * 1) by lra. pose proof (Rabs_pos s0). apply Rmult_le_compat; try lra; [apply Rmult_le_pos; lra|apply Rmult_le_compat; lra]. }
  destruct (C81_any_start (default_config Rops) (/ 10 ^ 9) "x" soft_eq soft_F soft_D (MkSym 1 1 [embed soft_eq]) t s0 0 1 2) with (N := 50%nat) as (t' & p & E & T & _ & V); auto; try lra.
  - exact soft_curve.
  - left. intros p _. pose proof (Bd p) as Q. pose proof (exp_pos p). assert (/ (1 + exp p) < 1) by (rewrite <- Rinv_1; apply Rinv_lt_contravar; lra). unfold soft_D. lra.
  - left. intros p q _ _ L. unfold soft_D. assert (exp p <= exp q) by (destruct L as [L| ->]; [left; now apply exp_increasing|lra]).
    assert (/ (1 + exp q) <= / (1 + exp p)) by (apply Rinv_le_contravar; [pose proof (exp_pos p)|]; lra). lra.
  - cbn. lia.
  - exists t, t', p. split; [exact Et|]. split; [exact E|]. split; [apply (h_get _ _ _ T); exists 0%nat; auto|].
    rewrite Rminus_0_r in V. replace (/ 10 ^ 9) with (/ 10 ^ 9 / 1) by (field; apply pow_nonzero; lra). exact V.
Qed.

(** Convexity is needed: x x x - 2 x + 2 = 0 from 0 alternates between 0 and 1 for ever, with every iteration limit,
    although the equation has a root. *)
Definition cycle_eq : expr Rops := EBin BAdd (EBin BSub (EBin BMul (EBin BMul (EVar "x") (EVar "x")) (EVar "x")) (EBin BMul (num 2) (EVar "x"))) (num 2).
Definition cycle_F (v : R) : R := v * v * v - 2 * v + 2.
Definition cycle_D (v : R) : R := 3 * (v * v) - 2.
Lemma cycle_curve : curve "x" cycle_eq cycle_F cycle_D (fun _ => True).
Proof.
  split; [one_var|]. intros env Hp. split; [reflexivity|]. split; [cbn; repeat split; discriminate|].
  split; [unfold defined_near; apply filter_forall; intros y; cbn; discriminate|].
  apply (is_derive_ext cycle_F); [intros u; reflexivity|]. unfold cycle_F, cycle_D. auto_derive; auto; ring.
Qed.
Theorem C81_cycle (cfg : config Rops) eps : epsilon cfg = Some eps -> 0 < eps <= 1 ->
  (exists r, cycle_F r = 0) /\
  exists t, VarsTable_make ["x"] (n_ofZ 0 : Rops) = Ok t /\
    SolveByNewtonRaphson cfg (MkSym 1 1 [embed cycle_eq]) t = Throw limit_exceeded.
Proof.
  intros Heps He. split.
  { destruct (IVT cycle_F (-2) 0) as (r & _ & Er); [intros v; unfold cycle_F; reg|lra|unfold cycle_F; lra|unfold cycle_F; lra|]. now exists r. }
  destruct (C36_make Rops ["x"] (n_ofZ 0)) as (t & Et & Ht); [discriminate|repeat constructor; simpl; tauto|].
  exists t. split; [exact Et|].
  apply (scalar_limit cfg eps "x" cycle_eq cycle_F cycle_D (fun _ => True) (MkSym 1 1 [embed cycle_eq]) t 0 Heps (proj1 He)); auto.
  - repeat split; cbn. intros i j Hi Hj. assert (i = 0%nat) by lia. assert (j = 0%nat) by lia. subst. reflexivity.
  - exact cycle_curve.
  - assert (L : landing cycle_F cycle_D 0 = 1) by (unfold landing, cycle_F, cycle_D; field).
    assert (N0 : next cycle_F cycle_D 0 = 1) by (unfold next, cycle_F, cycle_D; field).
    assert (N1 : next cycle_F cycle_D 1 = 0) by (unfold next, cycle_F, cycle_D; field).
    assert (Two : forall i, points cycle_F cycle_D 0 i = 0 \/ points cycle_F cycle_D 0 i = 1).
    { intros [|i]; [now left|]. cbn [points]. rewrite L. induction i as [|i [IH|IH]]; [now right|right|left]; (etransitivity; [exact (f_equal (next cycle_F cycle_D) IH)|assumption]). }
    intros i _. split; [exact I|]. destruct (Two i) as [-> | ->]; unfold cycle_F, cycle_D; split; unfold Rabs; destruct (Rcase_abs _); lra.
Qed.
End Ex81.
