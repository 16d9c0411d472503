(** C50: Newton-Raphson near a regular root, exact reals. *)
From Coq Require Import String List ZArith Bool Arith Lia Reals Lra.
From Coquelicot Require Import Coquelicot.
From Verif Require Import Base MathOp NodeModel SubsModel DiffModel MatModel LinearModel VarsTableModel SymMatModel NonlinearModel
  ExprSpec SubsSpec MatSpec VarsSpec SymMatSpec NonlinearSpec DiffSpec AffineSpec NewtonSpec NodeProofs SymMatProofs Thm_Node Thm_Subs Thm_Vars Thm_SymMat DiffProofs Thm_Diff
  MatProofs NonlinearProofs Thm_Nonlinear RealSpec AffineSolve Thm_Affine NewtonProofs.
Import ListNotations.
Local Open Scope string_scope.
Local Open Scope list_scope.
Local Open Scope R_scope.

(** [s] is a root of the equations; on the box of radius r around s (and at the starting point s0) the
    equations have values F and partial derivatives D, which vary by at most kappa over the box; the
    Jacobian at s is well conditioned: n (3 kappa + 2 epsilon) < mu; and the first point of the iteration,
    the solution of  J(s0) x = - F(s0)  (x, not s0 + x: the program adds to the zero vector), lands in the
    box.  Then a result is returned, within N + 1 linear solves, where N is such that
    theta^N (G + n kappa) r < epsilon; every equation is smaller than epsilon there, and it is the
    starting point or within epsilon / (mu - n kappa) of the root. *)
Theorem C50_newton_converges (cfg : config Rops) eps n (f : nat -> expr Rops) A t xs F D s s0 r mu kappa G mu0 B0 S0 N :
  (0 < n)%nat -> epsilon cfg = Some eps -> 0 < eps -> length xs = n -> is_sym n 1 (fun i _ => f i) A ->
  table_at (K:=Rops) xs t (fun j => Some (s0 j)) ->
  system xs n f F D (fun p => box n s r p \/ p = s0) -> 0 <= r ->
  (forall i, (i < n)%nat -> F i s = 0) ->
  conditioned n (fun i j => D i j s) mu ->
  (forall p i j, box n s r p -> (i < n)%nat -> (j < n)%nat -> Rabs (D i j p - D i j s) <= kappa) ->
  INR n * (3 * kappa + 2 * eps) < mu ->
  (forall i, (i < n)%nat -> rsum n (fun j => Rabs (D i j s)) <= G) ->
  conditioned n (fun i j => D i j s0) mu0 -> INR n * eps < mu0 ->
  (forall i, (i < n)%nat -> Rabs (F i s0 + row_times n (fun i j => D i j s0) s i) <= B0) ->
  (forall j, (j < n)%nat -> Rabs (s j) <= S0) -> (B0 + INR n * eps * S0) / (mu0 - INR n * eps) <= r ->
  (let theta := INR n * (2 * kappa + eps) / (mu - INR n * kappa - INR n * eps) in theta ^ N * (G + INR n * kappa) * r < eps) ->
  (Z.of_nat N <= maxIterations cfg)%Z ->
  exists t' p, SolveByNewtonRaphson cfg A t = Ok t' /\ table_at (K:=Rops) xs t' (fun j => Some (p j)) /\
    (forall i, (i < n)%nat -> Rabs (F i p) < eps) /\ (p = s0 \/ box n s (eps / (mu - INR n * kappa)) p).
Proof.
  intros Hn Heps He Hx HA Ht HS Hr Root HM Var Hmu HG HM0 Hmu0 HB0 HS0 Land Hth HN.
  pose proof (h_nonempty _ _ _ Ht) as Ne. pose proof (h_nodup _ _ _ Ht) as Nd.
  assert (Bs : box n s r s) by (intros j Hj; rewrite Rminus_eq_0, Rabs_R0; exact Hr).
  assert (Hk : 0 <= kappa) by (pose proof (Var s 0%nat 0%nat Bs Hn Hn); pose proof (Rabs_pos (D 0%nat 0%nat s - D 0%nat 0%nat s)); lra).
  destruct (Jacobian_cases cfg n f A xs Hn Ne HA) as [(J & jac & EJ & HJ & SJ)|E].
  2:{ exfalso. destruct (C35_jacobian_value cfg n f A xs (env_of xs s) Hn Ne HA) as (J & h & E' & _); [|congruence].
      intros i x Hi Hxi. destruct (HS i Hi) as [_ H]. destruct (H s _ (or_introl Bs) (env_of_at xs s Nd)) as [_ Hd].
      destruct (In_nth xs x EmptyString Hxi) as (j & Hj & <-). now apply Hd. }
  pose proof (run_here cfg eps xs n f jac F D s s0 r mu kappa Hn Nd Hx Heps He HS Hr Hk Root HM Var Hmu HJ mu0 B0 S0 HM0 Hmu0 HB0 HS0 Land (S N)) as Run.
  pose proof (theta_range eps n mu kappa Hn He Hk Hmu) as Th.
  pose proof (solved_here cfg eps xs n f F D (fun p => box n s r p \/ p = s0) Hn Nd Hx Heps HS) as Sol.
  destruct Run as [(k & ps & Hkn & P & So & Ns & Hh)|(ps & P & Ns & Hb)].
  2:{ exfalso. apply (Ns (S N) (Nat.le_refl _)).
      assert (Bx : box n s r (ps (S N))).
      { intros j Hj. specialize (Hb j Hj). eapply Rle_trans; [exact Hb|]. rewrite <- (Rmult_1_l r) at 2. apply Rmult_le_compat_r; [exact Hr|].
        rewrite <- (pow1 N). apply pow_incr. lra. }
      apply Sol; [now left|]. intros i Hi. eapply Rle_lt_trans; [|exact Hth].
      eapply Rle_trans; [exact (value_bound xs n f F D s s0 r kappa G Nd Hx HS Hr Root Var HG (ps (S N)) _ i Hi Bx Hb)|].
      right. cbv zeta. fold (theta eps n mu kappa). ring. }
  assert (Hs : forall j, (j < length xs)%nat -> nth j (map (fun j => Some (s0 j)) (seq 0 (length xs))) (n_ofZ 0) = (Some (s0 j) : Rops)).
  { intros j Hj. apply nth_error_nth. exact (nth_error_map_seq (fun j => Some (s0 j) : Rops) (length xs) j Hj). }
  destruct (proj2 (C39_newton_result cfg n f A t xs _ Hn HA Ht J jac EJ SJ (fun j => Some (ps k j) : Rops))) as (t' & E & T).
  { exists k, (fun i j => Some (ps i j) : Rops). split; [|split; [reflexivity|split; [exact So|split; [exact Ns|right; lia]]]].
    split; [|exact (proj2 P)]. intros j Hj. rewrite Hs by exact Hj. exact (proj1 P j Hj). }
  exists t', (ps k). split; [exact E|]. split; [exact T|].
  assert (R0 : forall i, (i < n)%nat -> Rabs (F i (ps k)) < eps) by exact (proj1 (Sol (ps k) Hh) So). split; [exact R0|].
  destruct Hh as [Bx|Es]; [right|now left].
  apply (root_bound eps xs n f F D s s0 r mu kappa Hn Nd Hx He HS Hr Hk Root HM Var Hmu (ps k) eps Bx). intros i Hi. left. auto.
Qed.

(** With all starting values 0 ([Config::initialValue] = 0) the iteration is the textbook one, and it is
    enough that 0 lies in the box. *)
Theorem C50_newton_from_zero (cfg : config Rops) eps n (f : nat -> expr Rops) A t xs F D s r mu kappa G N :
  (0 < n)%nat -> epsilon cfg = Some eps -> 0 < eps -> length xs = n -> is_sym n 1 (fun i _ => f i) A ->
  table_at (K:=Rops) xs t (fun _ => Some 0) -> box n s r (fun _ => 0) ->
  system xs n f F D (box n s r) -> (forall i, (i < n)%nat -> F i s = 0) ->
  conditioned n (fun i j => D i j s) mu ->
  (forall p i j, box n s r p -> (i < n)%nat -> (j < n)%nat -> Rabs (D i j p - D i j s) <= kappa) ->
  INR n * (3 * kappa + 2 * eps) < mu ->
  (forall i, (i < n)%nat -> rsum n (fun j => Rabs (D i j s)) <= G) ->
  (let theta := INR n * (2 * kappa + eps) / (mu - INR n * kappa - INR n * eps) in theta ^ N * (G + INR n * kappa) * r < eps) ->
  (Z.of_nat N <= maxIterations cfg)%Z ->
  exists t' p, SolveByNewtonRaphson cfg A t = Ok t' /\ table_at (K:=Rops) xs t' (fun j => Some (p j)) /\
    (forall i, (i < n)%nat -> Rabs (F i p) < eps) /\ box n s (eps / (mu - INR n * kappa)) p.
Proof.
  intros Hn Heps He Hx HA Ht B0 HS Root HM Var Hmu HG Hth HN.
  assert (Hr : 0 <= r) by (pose proof (B0 0%nat Hn); pose proof (Rabs_pos (0 - s 0%nat)); lra).
  assert (Bs : box n s r s) by (intros j Hj; rewrite Rminus_eq_0, Rabs_R0; exact Hr).
  assert (Hk : 0 <= kappa) by (pose proof (Var s 0%nat 0%nat Bs Hn Hn); pose proof (Rabs_pos (D 0%nat 0%nat s - D 0%nat 0%nat s)); lra).
  pose proof (h_nodup _ _ _ Ht) as Nd.
  assert (nk : 0 <= INR n * kappa) by (apply Rmult_le_pos; auto using pos_INR).
  assert (ne : 0 < INR n * eps) by (apply Rmult_lt_0_compat; auto; now apply lt_0_INR).
  set (z := fun _ : nat => 0) in *.
  assert (HS' : system xs n f F D (fun p => box n s r p \/ p = z)).
  { intros i Hi. destruct (HS i Hi) as [W H]. split; [exact W|]. intros p env [Hp| ->] Ha; now apply H. }
  destruct (C50_newton_converges cfg eps n f A t xs F D s z r mu kappa G (mu - INR n * kappa) (INR n * (2 * kappa * r)) r N) as (t' & p & E & T & V & Q); auto.
  - apply (conditioned_near n (fun i j => D i j s)); auto.
  - lra.
  - intros i Hi. destruct (staircase xs n f F D _ Nd Hx HS s r (fun p H => H) i z Hi Hr B0) as (xi & Hxi & E).
    rewrite (Root i Hi), Rminus_0_r in E. rewrite E. unfold row_times. rewrite <- rsum_plus.
    rewrite (rsum_ext n _ (fun j => (D i j (xi j) - D i j z) * (z j - s j))) by (intros; unfold z; ring).
    apply rsum_bound; [lra| |exact B0]. intros j Hj.
    replace (D i j (xi j) - D i j z) with ((D i j (xi j) - D i j s) + - (D i j z - D i j s)) by ring.
    eapply Rle_trans; [apply Rabs_triang|]. rewrite Rabs_Ropp. pose proof (Var (xi j) i j (proj1 (Hxi j Hj)) Hi Hj). pose proof (Var z i j B0 Hi Hj). lra.
  - intros j Hj. replace (s j) with (- (0 - s j)) by ring. rewrite Rabs_Ropp. now apply B0.
  - apply Rmult_le_reg_r with (mu - INR n * kappa - INR n * eps); [lra|]. unfold Rdiv. rewrite Rmult_assoc, Rinv_l by lra. nra.
  - exists t', p. split; [exact E|]. split; [exact T|]. split; [exact V|]. destruct Q as [->|Q]; [|exact Q].
    apply (root_bound eps xs n f F D s z r mu kappa Hn Nd Hx He HS' Hr Hk Root HM Var Hmu z eps B0). intros i Hi. left. auto.
Qed.

(** Any number system: the next point is determined by the point. *)
Theorem C50_step_unique (K : num_ops) (cfg : config K) xs n (f : nat -> expr K) jac p q q1 q2 : NoDup xs ->
  newton_step cfg xs n f jac p q q1 -> newton_step cfg xs n f jac p q q2 -> forall j, (j < length xs)%nat -> q1 j = q2 j.
Proof.
  intros Nd (phi & M & d & V & VM & (A & B & X & HA & HB & E & HX) & Q) (phi' & M' & d' & V' & VM' & (A' & B' & X' & HA' & HB' & E' & HX') & Q') j Hj.
  assert (Env : exists env : string -> K, at_point xs env p).
  { exists (fun x => p (index x xs)). intros i x Hi. rewrite <- (nth_error_nth xs i EmptyString Hi). rewrite index_nth; auto. apply nth_error_Some. congruence. }
  destruct Env as [env Env].
  assert (U : forall k e v w, values_at cfg xs p k e v -> values_at cfg xs p k e w -> forall i, (i < k)%nat -> v i = w i).
  { intros k e v w Hv Hw i Hi. destruct (Hv i Hi) as [_ H1]. destruct (Hw i Hi) as [_ H2]. specialize (H1 env Env). specialize (H2 env Env). congruence. }
  assert (EA : A = A').
  { refine (is_mat_unique _ _ _ _ _ HA _). refine (is_mat_ext _ _ _ _ _ _ HA'). intros i k Hi Hk. exact (U _ _ _ _ (VM' i Hi) (VM i Hi) k Hk). }
  assert (EB : B = B').
  { refine (is_mat_unique _ _ _ _ _ HB _). refine (is_mat_ext _ _ _ _ _ _ HB'). intros i k Hi Hk. now rewrite (U _ _ _ _ V' V i Hi). }
  subst A' B'. assert (X = X') by congruence. subst X'. rewrite (Q j Hj), (Q' j Hj). f_equal.
  pose proof (is_mat_nth _ _ _ _ HX j 0%nat Hj (Nat.lt_0_succ 0)). pose proof (is_mat_nth _ _ _ _ HX' j 0%nat Hj (Nat.lt_0_succ 0)). congruence.
Qed.

(** The rate: if the partial derivatives are Lipschitz on the box (constant L, maximum norm), a step from a point
    at distance e of the root leads to a point at distance (n L e^2 + n epsilon e) / (mu - n L e - n epsilon)
    at most: quadratic convergence, up to the tolerance of the linear solver. *)
Theorem C50_quadratic (cfg : config Rops) eps n (f : nat -> expr Rops) jac xs F D s r mu L p e :
  (0 < n)%nat -> epsilon cfg = Some eps -> 0 < eps -> length xs = n -> NoDup xs -> jacobian cfg xs n f jac ->
  system xs n f F D (box n s r) -> (forall i, (i < n)%nat -> F i s = 0) ->
  conditioned n (fun i j => D i j s) mu ->
  (forall p p' d i j, box n s r p -> box n s r p' -> (i < n)%nat -> (j < n)%nat -> (forall k, (k < n)%nat -> Rabs (p k - p' k) <= d) -> Rabs (D i j p - D i j p') <= L * d) ->
  box n s r p -> box n s e p -> INR n * (L * e + eps) < mu ->
  exists p', newton_step cfg xs n f jac (fun j => Some (p j) : Rops) (fun j => Some (p j) : Rops) (fun j => Some (p' j) : Rops) /\
    box n s ((INR n * L * e ^ 2 + INR n * eps * e) / (mu - INR n * L * e - INR n * eps)) p'.
Proof.
  intros Hn Heps He Hx Nd HJ HS Root HM Lip Hp Hpe Hm.
  assert (Hr : 0 <= r) by (pose proof (Hp 0%nat Hn); pose proof (Rabs_pos (p 0%nat - s 0%nat)); lra).
  assert (He0 : 0 <= e) by (pose proof (Hpe 0%nat Hn); pose proof (Rabs_pos (p 0%nat - s 0%nat)); lra).
  assert (Bs : box n s r s) by (intros j Hj; rewrite Rminus_eq_0, Rabs_R0; exact Hr).
  assert (Le : 0 <= L * e) by (eapply Rle_trans; [|exact (Lip p s e 0%nat 0%nat Hp Bs Hn Hn Hpe)]; apply Rabs_pos).
  assert (C : conditioned n (fun i j => D i j p) (mu - INR n * (L * e))) by (apply (conditioned_near n (fun i j => D i j s)); auto).
  destruct (step_here cfg eps xs n f jac F D _ Hn Nd Hx Heps He HS HJ p p s (mu - INR n * (L * e)) (INR n * (L * e * e)) e) as (x & St & B); auto.
  - lra.
  - intros i Hi. destruct (staircase xs n f F D _ Nd Hx HS s r (fun p H => H) i p Hi Hr Hp) as (xi & Hxi & E).
    rewrite (Root i Hi), Rminus_0_r in E. rewrite E. unfold row_times. rewrite <- rsum_plus.
    rewrite (rsum_ext n _ (fun j => (D i j (xi j) - D i j p) * (p j - s j))) by (intros; ring).
    apply rsum_bound; [exact Le| |exact Hpe]. intros j Hj. destruct (Hxi j Hj) as [H1 H2]. apply Lip; auto.
    intros k Hk. eapply Rle_trans; [now apply H2|]. now apply Hpe.
  - exists (fun j => p j + x j). split; [exact St|].
    replace ((INR n * L * e ^ 2 + INR n * eps * e) / (mu - INR n * L * e - INR n * eps)) with ((INR n * (L * e * e) + INR n * eps * e) / (mu - INR n * (L * e) - INR n * eps)); [exact B|].
    f_equal; [ring|]. f_equal. ring.
Qed.

(** ** Example: 8 x + y y - 33/16 = 0, 8 y + x x - 33/16 = 0, whose root near 0 is (1/4, 1/4) *)
Section Ex50.
Notation num r := (ENum (Some r : Rops)) (only parsing).
Definition ex_eq (i : nat) : expr Rops := match i with
  | O => EBin BSub (EBin BAdd (EBin BMul (num 8) (EVar "x")) (EBin BMul (EVar "y") (EVar "y"))) (num (33 / 16))
  | _ => EBin BSub (EBin BAdd (EBin BMul (num 8) (EVar "y")) (EBin BMul (EVar "x") (EVar "x"))) (num (33 / 16)) end.
Definition ex_F (i : nat) (p : nat -> R) : R := match i with O => 8 * p 0%nat + p 1%nat * p 1%nat - 33 / 16 | _ => 8 * p 1%nat + p 0%nat * p 0%nat - 33 / 16 end.
Definition ex_D (i j : nat) (p : nat -> R) : R := match i, j with O, O => 8 | O, _ => 2 * p 1%nat | _, O => 2 * p 0%nat | _, _ => 8 end.

Lemma ex_system P : system ["x"; "y"] 2 ex_eq ex_F ex_D P.
Proof.
  intros i Hi. split.
  { destruct i as [|[|i]]; [| |lia]; intros z O; repeat match goal with H : occurs _ _ |- _ => inversion H; clear H; subst end; simpl; auto. }
  intros p env _ Ha. pose proof (Ha 0%nat ltac:(cbn; lia)) as Hx. pose proof (Ha 1%nat ltac:(cbn; lia)) as Hy. cbn [nth] in Hx, Hy. clear Ha.
  split. { destruct i as [|[|i]]; [| |lia]; cbn [ex_eq ex_F rval r_bin]; rewrite Hx, Hy; reflexivity. }
  intros j Hj. cbn [length] in Hj. split.
  { destruct i as [|[|i]]; [| |lia]; (destruct j as [|[|j]]; [| |lia]); cbn; repeat split; discriminate. }
  destruct i as [|[|i]]; [| |lia]; (destruct j as [|[|j]]; [| |lia]); (split; [unfold defined_near; apply filter_forall; intros y; cbn; discriminate|]); cbn [nth ex_D];
    [ apply (is_derive_ext (fun u => 8 * u + env "y" * env "y" - 33 / 16)); [intros u; reflexivity|]
    | apply (is_derive_ext (fun u => 8 * env "x" + u * u - 33 / 16)); [intros u; reflexivity|]
    | apply (is_derive_ext (fun u => 8 * env "y" + u * u - 33 / 16)); [intros u; reflexivity|]
    | apply (is_derive_ext (fun u => 8 * u + env "x" * env "x" - 33 / 16)); [intros u; reflexivity|] ];
    auto_derive; auto; rewrite ?Hx, ?Hy; ring.
Qed.

Theorem C50_ex : exists t t' p, VarsTable_make ["x"; "y"] (n_ofZ 0 : Rops) = Ok t /\
  SolveByNewtonRaphson (default_config Rops) (MkSym 2 1 [embed (ex_eq 0); embed (ex_eq 1)]) t = Ok t' /\
  VarsTable_get t' "x" = Ok (Some (p 0%nat) : Rops) /\ VarsTable_get t' "y" = Ok (Some (p 1%nat) : Rops) /\
  Rabs (p 0%nat - 1 / 4) <= / 10 ^ 9 /\ Rabs (p 1%nat - 1 / 4) <= / 10 ^ 9.
Proof.
  assert (Nd : NoDup ["x"; "y"]) by (repeat constructor; simpl; intuition discriminate).
  destruct (C36_make Rops ["x"; "y"] (n_ofZ 0)) as (t & Et & Ht); [discriminate|exact Nd|].
  set (s := fun _ : nat => 1 / 4).
  destruct (C50_newton_from_zero (default_config Rops) (/ 10 ^ 9) 2 ex_eq (MkSym 2 1 [embed (ex_eq 0); embed (ex_eq 1)]) t ["x"; "y"] ex_F ex_D s (1 / 4) (15 / 2) (1 / 2) (17 / 2) 25) as (t' & p & E & T & V & B).
  - lia.
  - cbn. f_equal. simpl. field.
  - apply Rinv_0_lt_compat, pow_lt. lra.
  - reflexivity.
  - repeat split; cbn. intros i j Hi Hj. destruct i as [|[|i]]; [| |lia]; (destruct j as [|j]; [reflexivity|lia]).
  - exact Ht.
  - intros j Hj. unfold s. unfold Rabs. destruct (Rcase_abs _); lra.
  - apply ex_system.
  - intros i Hi. destruct i as [|[|i]]; [| |lia]; cbn; unfold s; lra.
  - apply (C43_conditioned_by_inverse 2 _ (fun i j => if Nat.eqb i j then 32 / 255 else - (2 / 255)) (15 / 2)); [lra| |].
    + intros i j Hi Hj. destruct i as [|[|i]]; [| |lia]; destruct j as [|[|j]]; try lia; cbn; unfold s; lra.
    + intros i Hi. destruct i as [|[|i]]; [| |lia]; cbn; unfold Rabs; repeat destruct (Rcase_abs _); lra.
  - intros q i j Hq Hi Hj. pose proof (Hq 0%nat ltac:(lia)) as H0. pose proof (Hq 1%nat ltac:(lia)) as H1. unfold s in *.
    destruct i as [|[|i]]; [| |lia]; destruct j as [|[|j]]; try lia; cbn; revert H0 H1; unfold Rabs; repeat destruct (Rcase_abs _); lra.
  - simpl. lra.
  - intros i Hi. destruct i as [|[|i]]; [| |lia]; cbn; unfold s, Rabs; repeat destruct (Rcase_abs _); lra.
  - cbv zeta. apply Rle_lt_trans with ((2 / 5) ^ 25 * (17 / 2 + 1) * (1 / 4)); [|simpl; lra].
    assert (Th : 0 <= INR 2 * (2 * (1 / 2) + / 10 ^ 9) / (15 / 2 - INR 2 * (1 / 2) - INR 2 * / 10 ^ 9) <= 2 / 5).
    { simpl INR. assert (E : 0 < / 10 ^ 9 < 1 / 1000) by (simpl; lra). set (e := / 10 ^ 9) in *. clearbody e.
      split; [apply Rmult_le_pos; [lra|left; apply Rinv_0_lt_compat; lra]|].
      apply Rmult_le_reg_r with (15 / 2 - (1 + 1) * (1 / 2) - (1 + 1) * e); [lra|]. unfold Rdiv at 1. rewrite Rmult_assoc, Rinv_l by lra. lra. }
    apply Rmult_le_compat_r; [lra|]. apply Rmult_le_compat; [apply pow_le, Th|simpl; lra|apply pow_incr, Th|simpl; lra].
  - cbn. lia.
  - exists t, t', p. split; [exact Et|]. split; [exact E|].
    split; [apply (h_get _ _ _ T); exists 0%nat; auto|]. split; [apply (h_get _ _ _ T); exists 1%nat; auto|].
    assert (Q : / 10 ^ 9 / (15 / 2 - INR 2 * (1 / 2)) <= / 10 ^ 9) by (simpl; lra).
    split; (eapply Rle_trans; [apply (B _); lia|exact Q]).
Qed.
End Ex50.
