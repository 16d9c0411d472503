(** C65: the damped iteration (LM) on systems with a symmetric Jacobian, and what goes wrong with others (exact reals). *)
From Coq Require Import String List ZArith Bool Arith Lia Reals Lra FunctionalExtensionality.
From Coquelicot Require Import Coquelicot.
From Verif Require Import Base MathOp NodeModel SubsModel DiffModel MatModel LinearModel VarsTableModel SymMatModel NonlinearModel
  ExprSpec SubsSpec MatSpec VarsSpec SymMatSpec NonlinearSpec DiffSpec AffineSpec NewtonSpec LMSpec NodeProofs SymMatProofs Thm_Node Thm_Subs Thm_Vars Thm_SymMat DiffProofs Thm_Diff
  MatProofs NonlinearProofs Thm_Nonlinear RealSpec AffineSolve Thm_Affine NewtonProofs LMProofs.
From Verif Require Thm_Round LMSolve.
Import ListNotations.
Local Open Scope string_scope.
Local Open Scope list_scope.
Local Open Scope R_scope.

(** On the box of radius r around s, the equations have values F and partial derivatives D that form a
    symmetric matrix at every point (the equations are the gradient of something; one equation in one
    unknown always qualifies), with singular values between m > 0 and G, and Lipschitz constant L; the
    equations grow at least m times as fast as the distance from s (s is their root), and the starting
    point s0 lies in the box, with 2 |F(s0)| <= m r.  The tolerance satisfies n epsilon < 1e-5.
    Then SolveByLM returns a table, within N steps, where a <= m^2 / (13 n L |F(s0)|), c <= m^2 / (G m + 2e-5) and
    (1 - 0.64 a c^2)^N |F(s0)|^2 < epsilon^2; every equation is smaller than epsilon there, and it is near s.
    No closeness of s0 to s is needed beyond this: the convergence is global. *)
Theorem C65_lm_converges (cfg : config Rops) eps n (f : nat -> expr Rops) A t xs F D s s0 r m G L a c N :
  (0 < n)%nat -> epsilon cfg = Some eps -> 0 < eps -> INR n * eps < / 10 ^ 5 -> length xs = n -> is_sym n 1 (fun i _ => f i) A ->
  table_at (K:=Rops) xs t (fun j => Some (s0 j)) ->
  system xs n f F D (box n s r) -> box n s r s0 ->
  (forall p i j, box n s r p -> (i < n)%nat -> (j < n)%nat -> D i j p = D j i p) ->
  (forall p, box n s r p -> stretches n (fun i j => D i j p) m G) -> 0 < m ->
  (forall p q d i j, box n s r p -> box n s r q -> (i < n)%nat -> (j < n)%nat -> near n p q d -> Rabs (D i j p - D i j q) <= L * d) ->
  (forall p, box n s r p -> m * norm n (fun j => p j - s j) <= norm n (fun i => F i p)) ->
  (let F0 := norm n (fun i => F i s0) in
   2 * F0 <= m * r /\ 0 < a <= 1 /\ 13 * a * (INR n * L) * F0 <= m * m /\ 0 < c /\ c * (G * m + 2 / 10 ^ 5) <= m * m /\
   (1 - 64 / 100 * a * (c * c)) ^ N * (F0 * F0) < eps * eps) ->
  (Z.of_nat N <= maxIterations cfg)%Z ->
  exists fuel afuel t' p, SolveByLM cfg fuel afuel A t = Ok t' /\ table_at (K:=Rops) xs t' (fun j => Some (p j)) /\
    (forall i, (i < n)%nat -> Rabs (F i p) < eps) /\ m * norm n (fun j => p j - s j) <= INR n * eps.
Proof.
  intros Hn Heps He Hne Hx HA Ht HS Hs0 Sym Str Hm Lip Gro (Hr & Ha & HaL & Hc & HcG & Hth) HN.
  pose proof (h_nonempty _ _ _ Ht) as Ne. pose proof (h_nodup _ _ _ Ht) as Nd.
  destruct (Jacobian_cases cfg n f A xs Hn Ne HA) as [(J & jac & EJ & HJ & SJ)|E].
  2:{ exfalso. destruct (C35_jacobian_value cfg n f A xs (env_of xs s0) Hn Ne HA) as (J & h & E' & _); [|congruence].
      intros i x Hi Hxi. destruct (HS i Hi) as [_ H]. destruct (H s0 _ Hs0 (env_of_at xs s0 Nd)) as [_ Hd].
      destruct (In_nth xs x EmptyString Hxi) as (j & Hj & <-). now apply Hd. }
  set (s1 := fun j => if (j <? n)%nat then s0 j else 0).
  assert (Es1 : forall j, (j < n)%nat -> s1 j = s0 j) by (intros j Hj; unfold s1; destruct (Nat.ltb_spec j n); [reflexivity|lia]).
  assert (Hs1 : box n s r s1) by (intros j Hj; rewrite Es1 by exact Hj; now apply Hs0).
  assert (EF : norm n (fun i => F i s1) = norm n (fun i => F i s0)).
  { apply norm_ext. intros i Hi. apply (F_ext xs n f F D (box n s r) Nd Hx HS i s1 s0 Hi Hs1 Hs0 Es1). }
  rewrite <- EF in Hr, HaL, Hth. set (F0 := norm n (fun i => F i s1)) in *. set (th := 1 - 64 / 100 * a * (c * c)) in *.
  assert (Th1 : th <= 1) by (unfold th; assert (0 < a * (c * c)) by (repeat apply Rmult_lt_0_compat; lra); lra).
  pose proof (solved_here cfg eps xs n f F D (box n s r) Hn Nd Hx Heps HS) as Sol.
  assert (Run : forall k, exists k' (ps : nat -> nat -> R), (k' <= k)%nat /\
     lm_points cfg xs n f jac (fun j => Some (s1 j) : Rops) (fun i j => Some (ps i j) : Rops) (fun _ => 0%nat) k' /\ box n s r (ps k') /\ norm n (fun i => F i (ps k')) <= F0 /\
     (solved cfg xs n f (fun j => Some (ps k' j) : Rops) \/ (k' = k /\ dot n (fun i => F i (ps k')) (fun i => F i (ps k')) <= th ^ k * (F0 * F0)))).
  { induction k as [|k (k' & ps & Hk & P & B & NF & Q)].
    - exists 0%nat, (fun _ => s1). split; [lia|]. split; [split; [reflexivity|intros i Hi; lia]|]. split; [exact Hs1|]. split; [apply Rle_refl|]. right. split; [reflexivity|].
      unfold F0. rewrite norm_sq. simpl. lra.
    - destruct Q as [So|[-> Q]]; [exists k', ps; repeat split; auto; try apply P; now left|].
      destruct (Classical_Prop.classic (vanish cfg n (fun i => Some (F i (ps k)) : Rops))) as [V|V].
      { exists k, ps. repeat split; auto; try apply P. left. exists (fun i => Some (F i (ps k)) : Rops). split; [|exact V].
        now apply (values_here cfg xs n f F D (box n s r) Hn Nd Hx HS). }
      destruct (lm_step_here cfg eps xs n f jac F D s s1 r m G L a c Hn Nd Hx Heps He Hne HS HJ Sym Lip Str Gro Hm Hr Ha HaL Hc HcG (ps k) B NF V) as (p' & St & B' & Dc).
      fold th in Dc.
      assert (Dp : 0 <= dot n (fun i => F i (ps k)) (fun i => F i (ps k))) by apply dot_pos.
      assert (Dp' : 0 <= dot n (fun i => F i p') (fun i => F i p')) by apply dot_pos.
      exists (S k), (fun i => if (i <=? k)%nat then ps i else p').
      assert (Lk : (S k <=? k)%nat = false) by (destruct (Nat.leb_spec (S k) k); [lia|reflexivity]).
      rewrite Lk. split; [lia|]. split; [|split; [exact B'|split]].
      + destruct P as [P0 P]. split; [cbn [Nat.leb]; exact P0|]. intros i Hi. destruct (Nat.leb_spec i k); [|lia].
        destruct (Nat.leb_spec (S i) k); [apply P; lia|]. replace i with k by lia. exact St.
      + apply norm_le; [unfold F0; apply norm_pos|]. unfold F0. rewrite norm_sq. fold F0. eapply Rle_trans; [exact Dc|].
        assert (NF2 : dot n (fun i => F i (ps k)) (fun i => F i (ps k)) <= dot n (fun i => F i s1) (fun i => F i s1)).
        { rewrite <- !norm_sq. fold F0. pose proof (norm_pos n (fun i => F i (ps k))). apply Rmult_le_compat; lra. }
        nra.
      + right. split; [reflexivity|]. eapply Rle_trans; [exact Dc|]. cbn [pow]. rewrite Rmult_assoc.
        destruct (Rle_lt_dec 0 th) as [T0|T0]; [apply Rmult_le_compat_l; lra|].
        assert (Z : dot n (fun i => F i (ps k)) (fun i => F i (ps k)) = 0) by nra. exfalso. apply V. intros i Hi.
        assert (Zn : norm n (fun i => F i (ps k)) = 0) by (apply Rle_antisym; [apply norm_le; lra|apply norm_pos]).
        pose proof (norm_zero n _ Zn i Hi) as Zi. cbv beta in Zi. rewrite Zi, Heps. cbn. rewrite Rminus_eq_0, Rabs_R0. now apply Rltb_spec. }
  destruct (Run N) as (k & ps & Hk & P & B & NF & Q).
  assert (So : solved cfg xs n f (fun j => Some (ps k j) : Rops)).
  { destruct Q as [So|[-> Q]]; [exact So|]. apply Sol; [exact B|]. intros i Hi.
    assert (Nn : norm n (fun i => F i (ps N)) < eps).
    { destruct (Rlt_le_dec (norm n (fun i => F i (ps N))) eps) as [|C]; [assumption|]. exfalso. rewrite <- norm_sq in Q.
      assert (eps * eps <= norm n (fun i => F i (ps N)) * norm n (fun i => F i (ps N))) by (apply Rmult_le_compat; lra). lra. }
    eapply Rle_lt_trans; [apply (norm_coord n (fun i => F i (ps N)) i Hi)|exact Nn]. }
  assert (Cnt : forall k, lm_count (fun _ => 0%nat) k = k) by (induction k0 as [|k0 IH]; cbn [lm_count]; [reflexivity|rewrite IH; lia]).
  assert (Est : (fun j => nth j (map (fun j => Some (s0 j) : Rops) (seq 0 (length xs))) (n_ofZ 0)) = (fun j => Some (s1 j) : Rops)).
  { apply functional_extensionality. intros j. unfold s1. destruct (Nat.ltb_spec j n) as [C|C].
    - apply nth_error_nth. exact (nth_error_map_seq (fun j => Some (s0 j) : Rops) (length xs) j ltac:(lia)).
    - rewrite nth_overflow; [reflexivity|]. rewrite map_length, seq_length. lia. }
  destruct (proj2 (C49_lm_result cfg n f A t xs _ Hn HA Ht J jac EJ SJ (fun j => Some (ps k j) : Rops) (eq_sym Hx))) as (fuel & afuel & t' & E & T).
  { exists k, (fun i j => Some (ps i j) : Rops), (fun _ => 0%nat). rewrite Est. split; [exact P|]. split; [reflexivity|]. split; [exact So|]. intros _. rewrite Cnt. lia. }
  exists fuel, afuel, t', (ps k). split; [exact E|]. split; [exact T|].
  assert (R0 : forall i, (i < n)%nat -> Rabs (F i (ps k)) < eps) by exact (proj1 (Sol (ps k) B) So). split; [exact R0|].
  eapply Rle_trans; [now apply Gro|]. pose proof (pos_INR n) as Pn. apply norm_le; [apply Rmult_le_pos; lra|].
  eapply Rle_trans; [apply (norm_entries n _ eps); [lra|]; intros i Hi; left; now apply R0|].
  assert (1 <= INR n) by (change 1 with (INR 1); apply le_INR; lia). assert (0 <= eps * eps) by nra. nra.
Qed.

(** ** When LM never returns *)
(** The fuels of the model only bound the loops: a result obtained with some fuel is the result with more. *)
Section Fuel.
Context {K : num_ops} (cfg : config K).
Local Open Scope nat_scope.
Lemma armijo_more x d f df f1 f2 (a : K) : f1 <= f2 -> Armijo_loop f1 x d f df a <> OutOfFuel -> Armijo_loop f2 x d f df a = Armijo_loop f1 x d f df a.
Proof.
  revert f2 a. induction f1 as [|f1 IH]; intros f2 a L N; [now destruct N|]. destruct f2 as [|f2]; [lia|]. cbn [Armijo_loop] in *.
  repeat match goal with |- context [bind ?m _] => lazymatch m with context [bind] => fail | _ => destruct m; cbn [bind] in *; try reflexivity end end.
  destruct (n_leb _ _); [reflexivity|]. apply IH; [lia|exact N].
Qed.
Lemma inner_more A J q F f1 a1 f2 a2 it mu t : f1 <= f2 -> a1 <= a2 -> LM_inner cfg f1 a1 A J it mu q F t <> OutOfFuel ->
  LM_inner cfg f2 a2 A J it mu q F t = LM_inner cfg f1 a1 A J it mu q F t.
Proof.
  intros L La. revert f2 it mu t L. induction f1 as [|f1 IH]; intros f2 it mu t L N; [now destruct N|]. destruct f2 as [|f2]; [lia|]. cbn [LM_inner] in *.
  repeat match goal with |- context [bind ?m _] => lazymatch m with context [bind] => fail | context [Armijo] => fail | _ => destruct m; cbn [bind] in *; try reflexivity end end.
  match type of N with context [Armijo a1 q ?m8 _ _] => assert (E : Armijo a1 q m8 (lm_f cfg A t) (lm_df cfg J t) <> OutOfFuel) by (intros E; rewrite E in N; now apply N) end.
  unfold Armijo in *. rewrite (armijo_more _ _ _ _ a1 a2 _ La E).
  repeat match goal with |- context [bind ?m _] => lazymatch m with context [bind] => fail | _ => destruct m; cbn [bind] in *; try reflexivity end end.
  destruct (n_ltb _ _); [reflexivity|]. destruct (_ =? _)%Z; [reflexivity|]. apply IH; [lia|exact N].
Qed.
Lemma loop_more A J f1 a1 f2 a2 it q t : f1 <= f2 -> a1 <= a2 -> LM_loop cfg f1 a1 A J it q t <> OutOfFuel ->
  LM_loop cfg f2 a2 A J it q t = LM_loop cfg f1 a1 A J it q t.
Proof.
  intros L La. revert f2 it q t L. induction f1 as [|f1 IH]; intros f2 it q t L N; [now destruct N|]. destruct f2 as [|f2]; [lia|].
  cbn [LM_loop] in *. destruct (eval_vec cfg A t) as [F| | | | |]; cbn [bind] in *; try reflexivity. destruct (Mat_eq_num _ _ _); [reflexivity|].
  assert (E : LM_inner cfg (S f1) a1 A J it (n_dec 1 (-5)) q F t <> OutOfFuel) by (intros E; rewrite E in N; now apply N).
  rewrite (inner_more A J q F (S f1) a1 (S f2) a2 _ _ _ L La E). destruct (LM_inner cfg (S f1) a1 A J it (n_dec 1 (-5)) q F t) as [[[[it' FN] dq] t']| | | | |]; cbn [bind] in *; try reflexivity.
  destruct (Mat_add q dq) as [q'| | | | |]; cbn [bind] in *; try reflexivity. destruct (SetValues t' q') as [t2| | | | |]; cbn [bind] in *; try reflexivity.
  destruct (_ =? _)%Z; [reflexivity|]. apply IH; [lia|exact N].
Qed.
Theorem C49_lm_more_fuel A t f1 a1 f2 a2 : f1 <= f2 -> a1 <= a2 -> SolveByLM cfg f1 a1 A t <> OutOfFuel ->
  SolveByLM cfg f2 a2 A t = SolveByLM cfg f1 a1 A t.
Proof.
  intros L La N. unfold SolveByLM in *. destruct (Jacobian cfg A (Vars t)) as [J| | | | |]; cbn [bind] in *; try reflexivity. now apply loop_more.
Qed.

(** Any number system.  If the iteration reaches, within the limit, a point and a direction for which every step
    length 1, 1/2, 1/4, ... fails the test of the line search, SolveByLM never returns, whatever the
    bounds on its loops. *)
Theorem C49_lm_endless n (f : nat -> expr K) A t xs start jac k ps rej r phi mu z d :
  0 < n -> n = length xs -> is_sym n 1 (fun i _ => f i) A -> table_at xs t start -> jacobian cfg xs n f jac ->
  lm_points cfg xs n f jac start ps rej k ->
  values_at cfg xs (ps k) n f phi -> ~ vanish cfg n phi -> lm_tries cfg xs n f jac (ps k) phi r mu z ->
  lm_direction cfg xs n jac phi mu z d -> (forall l, armijo_test cfg xs n f jac (ps k) d (step_length l) false) ->
  ((0 <= maxIterations cfg)%Z -> (Z.of_nat (lm_count rej k + r) <= maxIterations cfg)%Z) ->
  forall fuel afuel, SolveByLM cfg fuel afuel A t = OutOfFuel.
Proof.
  intros Hn En HA Ht HJ P V Nv Tr (M & VM & (AA & b & X & HAA & Hb & EX & HX)) Te Lim.
  destruct (table_at_vars _ _ _ Ht) as (Ev & _ & Ne & _). pose proof (length_pos _ _ _ Ht) as Hm. rewrite En in HX.
  destruct (Jacobian_ok cfg n 1 (fun i _ => f i) A xs (fun i j => embed (jac i j)) Hn Nat.lt_0_1 Ne HA) as (J & EJ & J1 & J2 & J3 & J4).
  { intros i j x Hi Hj. cbv beta. rewrite Nat.div_1_r. now apply HJ. }
  assert (SJ : is_sym n (length xs) jac J) by (repeat split; auto).
  assert (Big : exists f0 a0, forall f1 a1, f0 <= f1 -> a0 <= a1 -> SolveByLM cfg f1 a1 A t = OutOfFuel).
  { unfold SolveByLM. rewrite Ev, EJ. cbn [bind].
    destruct (lm_follow cfg xs n f jac A J Hn HA SJ En k ps rej start P) as [a0 G].
    destruct (vec_exists (length xs) (ps k)) as [Q0 HQ0]. destruct (vec_exists n phi) as [F0 HF0].
    destruct (lm_tries_follow cfg xs n f jac A J Hn HA SJ Q0 F0 (ps k) phi r mu z En HQ0 HF0 Tr) as [a2 G2].
    exists (k + S (lm_count rej k + r)), (max a0 a2). intros f1 a1 Hf Ha.
    destruct (G a1 ltac:(lia) (Values t) t Ht (table_values _ _ _ Ht)) as (Q' & t' & T & HQ' & E).
    replace f1 with (k + (f1 - k)) by lia. rewrite E; [|lia|intros i Hi; lia].
    destruct (f1 - k) as [|f3] eqn:Ef; [lia|]. cbn [LM_loop].
    destruct (eval_vec_at cfg xs n f A Hn HA t' _ phi T V) as (F & -> & HF). cbn [bind].
    destruct (Mat_eq_num cfg F (n_ofZ 0)) eqn:Eq; [apply (Mat_eq_num_vanish cfg n phi F HF) in Eq; tauto|].
    rewrite (is_mat_unique _ _ _ _ _ HF HF0), (is_mat_unique _ _ _ _ _ HQ' HQ0).
    destruct (G2 a1 ltac:(lia) t' T) as (t3 & T3 & E3).
    replace (S f3) with (r + S (f3 - r)) by lia. rewrite E3; [|intros i Hi; lia].
    match goal with |- bind ?m _ = _ => assert (Q : m = OutOfFuel); [|rewrite Q; reflexivity] end.
    cbn [LM_inner].
    destruct (eval_mat_at cfg xs n jac J Hn SJ t3 _ M T3 VM) as (B & -> & HB). cbn [bind].
    destruct (Transpose_ok _ _ _ _ Hn Hm HB) as (Bt & -> & HBt). cbn [bind].
    destruct (Mat_mul_ok _ _ _ _ _ _ _ Hm Hm HBt HB) as (BtB & -> & HBtB). cbn [bind].
    pose proof HB as (R1 & R2 & _). rewrite R1, R2.
    destruct (Mat_make_ok n (length xs) (n_ofZ 0 : K) Hn Hm) as (I0 & -> & HI0). cbn [bind].
    rewrite <- En in HI0, HBtB. destruct (Ones_ok n _ I0 HI0) as (I1 & -> & HI1). cbn [bind].
    pose proof (map_is_mat _ _ _ _ (fun v => n_mul v mu) HI1) as HI2.
    destruct (Mat_map2_ok n_add _ _ _ _ _ _ HBtB HI2) as (AA' & EAA & HAA'). unfold Mat_add at 1, Mat_scale_l at 1. rewrite EAA. cbn [bind].
    destruct (Mat_mul_ok _ _ _ _ _ _ _ Hm Nat.lt_0_1 HBt HF0) as (BtF & -> & HBtF). cbn [bind].
    destruct (ToVec_ok _ _ _ Hm HBtF) as (g & -> & Hg). cbn [bind].
    assert (Hg' : is_vec (length xs) (fun i => ksum n (fun l => n_mul (M l i) (phi l))) g) by exact Hg.
    unfold Vec_neg. destruct (Vec_map_ok _ _ _ n_neg Hm Hg') as (b' & -> & Hb'). cbn [bind]. rewrite <- En in Hb'.
    rewrite (is_mat_unique _ _ _ _ _ HAA' HAA), (is_mat_unique _ _ _ _ _ Hb' Hb), EX. cbn [bind]. unfold Armijo at 1.
    assert (Q : forall fu l, Armijo_loop fu Q0 X (lm_f cfg A t3) (lm_df cfg J t3) (step_length l) = OutOfFuel).
    { induction fu as [|fu IH]; intros l; [reflexivity|].
      rewrite (armijo_follow cfg xs n f jac A J Hn HA SJ t3 z (ps k) Q0 d X (step_length l) false fu En T3 HQ0 HX (Te l)). exact (IH (S l)). }
    rewrite (Q a1 0 : Armijo_loop a1 Q0 X (lm_f cfg A t3) (lm_df cfg J t3) (n_ofZ 1) = OutOfFuel). reflexivity. }
  destruct Big as (f0 & a0 & Big). intros fuel afuel.
  assert (Dec : {SolveByLM cfg fuel afuel A t = OutOfFuel} + {SolveByLM cfg fuel afuel A t <> OutOfFuel}) by (destruct (SolveByLM cfg fuel afuel A t); ((left; reflexivity) || (right; discriminate))).
  destruct Dec as [E|N]; [exact E|]. rewrite <- (C49_lm_more_fuel A t fuel afuel (max fuel f0) (max afuel a0) ltac:(lia) ltac:(lia) N). apply Big; lia.
Qed.
End Fuel.

(** ** Example: 200 x + sin x + y = 0, x + 200 y = 0 from (1, 1) *)
Section Ex65.
Notation num r := (ENum (Some r : Rops)) (only parsing).
Definition lm_eq (i : nat) : expr Rops := match i with
  | O => EBin BAdd (EBin BAdd (EBin BMul (num 200) (EVar "x")) (EUn USin (EVar "x"))) (EVar "y")
  | _ => EBin BAdd (EVar "x") (EBin BMul (num 200) (EVar "y")) end.
Definition lm_F (i : nat) (p : nat -> R) : R := match i with O => 200 * p 0%nat + sin (p 0%nat) + p 1%nat | _ => p 0%nat + 200 * p 1%nat end.
Definition lm_D (i j : nat) (p : nat -> R) : R := match i, j with O, O => 200 + cos (p 0%nat) | O, _ => 1 | _, O => 1 | _, _ => 200 end.

Lemma lm_system P : system ["x"; "y"] 2 lm_eq lm_F lm_D P.
Proof.
  intros i Hi. split.
  { destruct i as [|[|i]]; [| |lia]; intros z O; repeat match goal with H : occurs _ _ |- _ => inversion H; clear H; subst end; simpl; auto. }
  intros p env _ Ha. pose proof (Ha 0%nat ltac:(cbn; lia)) as Hx. pose proof (Ha 1%nat ltac:(cbn; lia)) as Hy. cbn [nth] in Hx, Hy. clear Ha.
  split. { destruct i as [|[|i]]; [| |lia]; cbn [lm_eq lm_F rval r_bin r_un]; rewrite Hx, Hy; reflexivity. }
  intros j Hj. cbn [length] in Hj. split.
  { destruct i as [|[|i]]; [| |lia]; (destruct j as [|[|j]]; [| |lia]); cbn; repeat split; try discriminate; auto; eauto. }
  destruct i as [|[|i]]; [| |lia]; (destruct j as [|[|j]]; [| |lia]); (split; [unfold defined_near; apply filter_forall; intros y; cbn; discriminate|]); cbn [nth lm_D];
    [ apply (is_derive_ext (fun u => 200 * u + sin u + env "y")); [intros u; reflexivity|]
    | apply (is_derive_ext (fun u => 200 * env "x" + sin (env "x") + u)); [intros u; reflexivity|]
    | apply (is_derive_ext (fun u => u + 200 * env "y")); [intros u; reflexivity|]
    | apply (is_derive_ext (fun u => env "x" + 200 * u)); [intros u; reflexivity|] ];
    auto_derive; auto; rewrite ?Hx, ?Hy; ring.
Qed.

Lemma cos_lip p q : Rabs (cos p - cos q) <= Rabs (p - q).
Proof.
  rewrite form2, !Rabs_mult. replace (Rabs (-2)) with 2 by (rewrite Rabs_left; lra). pose proof (SIN_bound ((p + q) / 2)) as C.
  assert (Rabs (sin ((p + q) / 2)) <= 1) by (apply Rabs_le; lra). pose proof (Thm_Round.sin_abs ((p - q) / 2)) as S1.
  assert (E : Rabs ((p - q) / 2) = Rabs (p - q) / 2). { unfold Rdiv. rewrite Rabs_mult, (Rabs_pos_eq (/ 2)) by lra. reflexivity. } rewrite E in S1.
  pose proof (Rabs_pos (sin ((p + q) / 2))). pose proof (Rabs_pos (sin ((p - q) / 2))). pose proof (Rabs_pos (p - q)). nra.
Qed.

Lemma dot2 u v : dot 2 u v = u 0%nat * v 0%nat + u 1%nat * v 1%nat. Proof. unfold dot. cbn [rsum]. ring. Qed.
Lemma times2 M v i : row_times 2 M v i = M i 0%nat * v 0%nat + M i 1%nat * v 1%nat. Proof. unfold row_times. cbn [rsum]. ring. Qed.
Lemma norm_between n c u v : 0 <= c -> c * c * dot n u u <= dot n v v -> c * norm n u <= norm n v.
Proof.
  intros Hc H. rewrite <- !norm_sq in H. pose proof (norm_pos n u). pose proof (norm_pos n v). destruct (Rle_lt_dec (c * norm n u) (norm n v)) as [|C]; auto. exfalso.
  assert (0 <= c * norm n u) by (apply Rmult_le_pos; lra). nra.
Qed.
Lemma norm_below n c u v : 0 <= c -> dot n v v <= c * c * dot n u u -> norm n v <= c * norm n u.
Proof.
  intros Hc H. pose proof (norm_pos n u). apply norm_le; [apply Rmult_le_pos; lra|]. rewrite <- (norm_sq n u) in H. nra.
Qed.

Definition lm_cfg (limit : Z) : config Rops := {| throwOnInvalidValue := true; epsilon := Some (/ 10 ^ 9) : Rops; maxIterations := limit;
  nonlinearMethod := LM; initialValue := n_ofZ (n:=Rops) 1; allowIndeterminateEquation := false |}.

Theorem C65_ex : exists t fuel afuel t' p, VarsTable_make ["x"; "y"] (n_ofZ 1 : Rops) = Ok t /\
  Solve (lm_cfg 100) fuel afuel (MkSym 2 1 [embed (lm_eq 0); embed (lm_eq 1)]) t = Ok t' /\
  VarsTable_get t' "x" = Ok (Some (p 0%nat) : Rops) /\ VarsTable_get t' "y" = Ok (Some (p 1%nat) : Rops) /\
  Rabs (p 0%nat) <= / 10 ^ 9 /\ Rabs (p 1%nat) <= / 10 ^ 9.
Proof.
  assert (Nd : NoDup ["x"; "y"]) by (repeat constructor; simpl; intuition discriminate).
  destruct (C36_make Rops ["x"; "y"] (n_ofZ 1)) as (t & Et & Ht); [discriminate|exact Nd|].
  assert (E9 : 0 < / 10 ^ 9) by (apply Rinv_0_lt_compat, pow_lt; lra).
  assert (Sn : forall x, exists k, sin x = k * x /\ -1 <= k <= 1).
  { intros x. destruct (Req_dec x 0) as [->|Nx]; [exists 0; rewrite sin_0; lra|]. exists (sin x / x). split; [field; exact Nx|].
    assert (Q : Rabs (sin x / x) <= 1).
    { unfold Rdiv. rewrite Rabs_mult, Rabs_inv. apply Rmult_le_reg_r with (Rabs x); [now apply Rabs_pos_lt|]. rewrite Rmult_assoc, Rinv_l, Rmult_1_l by now apply Rabs_no_R0.
      rewrite Rmult_1_r. apply Thm_Round.sin_abs. }
    apply Rabs_le_between in Q. lra. }
  destruct (C65_lm_converges (lm_cfg 100) (/ 10 ^ 9) 2 lm_eq (MkSym 2 1 [embed (lm_eq 0); embed (lm_eq 1)]) t ["x"; "y"] lm_F lm_D (fun _ => 0) (fun _ => 1) 3 197 202 1 1 (97 / 100) 80) as (fuel & afuel & t' & p & E & T & V & B).
  - lia.
  - reflexivity.
  - exact E9.
  - simpl. lra.
  - reflexivity.
  - repeat split; cbn. intros i j Hi Hj. destruct i as [|[|i]]; [| |lia]; (destruct j as [|j]; [reflexivity|lia]).
  - exact Ht.
  - apply lm_system.
  - intros j Hj. rewrite Rminus_0_r, Rabs_R1. lra.
  - intros q i j _ Hi Hj. destruct i as [|[|i]]; [| |lia]; destruct j as [|[|j]]; try lia; reflexivity.
  - intros q _ v. pose proof (COS_bound (q 0%nat)) as C.
    split; [apply norm_between|apply norm_below]; try lra; rewrite !dot2, !times2; cbn [lm_D]; set (c := cos (q 0%nat)) in *; clearbody c; set (x := v 0%nat); set (y := v 1%nat); clearbody x y.
    + assert (-1 * (x * x) <= c * (x * x)) by (apply Rmult_le_compat_r; nra). assert (- (x * x + y * y) <= 2 * (x * y)) by (pose proof (Rle_0_sqr (x + y)) as Sq; unfold Rsqr in Sq; lra).
      replace (((200 + c) * x + 1 * y) * ((200 + c) * x + 1 * y) + (1 * x + 200 * y) * (1 * x + 200 * y)) with (40000 * (x * x + y * y) + 400 * (c * (x * x) + 2 * (x * y)) + ((c * x + y) * (c * x + y) + x * x)) by ring.
      pose proof (Rle_0_sqr (c * x + y)) as Sq; unfold Rsqr in Sq. pose proof (Rle_0_sqr x) as Sx; pose proof (Rle_0_sqr y) as Sy; unfold Rsqr in Sx, Sy. lra.
    + assert (c * (x * x) <= 1 * (x * x)) by (apply Rmult_le_compat_r; nra). assert (2 * (x * y) <= (x * x + y * y)) by (pose proof (Rle_0_sqr (x - y)) as Sq; unfold Rsqr in Sq; lra). assert (c * c <= 1) by nra.
      assert (c * c * (x * x) <= 1 * (x * x)) by (apply Rmult_le_compat_r; nra). assert (2 * (c * x * y) <= c * c * (x * x) + y * y) by (pose proof (Rle_0_sqr (c * x - y)) as Sq; unfold Rsqr in Sq; lra).
      replace (((200 + c) * x + 1 * y) * ((200 + c) * x + 1 * y) + (1 * x + 200 * y) * (1 * x + 200 * y)) with (40000 * (x * x + y * y) + 400 * (c * (x * x) + 2 * (x * y)) + (c * c * (x * x) + 2 * (c * x * y) + y * y + x * x)) by ring. pose proof (Rle_0_sqr x) as Sx; pose proof (Rle_0_sqr y) as Sy; unfold Rsqr in Sx, Sy. lra.
  - lra.
  - intros q q' d i j _ _ Hi Hj Nr. pose proof (Nr 0%nat ltac:(lia)) as N0. pose proof (Rabs_pos (q 0%nat - q' 0%nat)).
    destruct i as [|[|i]]; [| |lia]; destruct j as [|[|j]]; try lia; cbn [lm_D]; rewrite ?Rminus_eq_0, ?Rabs_R0; try lra.
    replace (200 + cos (q 0%nat) - (200 + cos (q' 0%nat))) with (cos (q 0%nat) - cos (q' 0%nat)) by ring. pose proof (cos_lip (q 0%nat) (q' 0%nat)). lra.
  - intros q _. apply norm_between; [lra|]. rewrite !dot2. cbn [lm_F]. rewrite !Rminus_0_r. destruct (Sn (q 0%nat)) as (k & -> & Hk).
    set (x := q 0%nat); set (y := q 1%nat); clearbody x y.
    assert (-1 * (x * x) <= k * (x * x)) by (apply Rmult_le_compat_r; nra). assert (- (x * x + y * y) <= 2 * (x * y)) by (pose proof (Rle_0_sqr (x + y)) as Sq; unfold Rsqr in Sq; lra).
    replace ((200 * x + k * x + y) * (200 * x + k * x + y) + (x + 200 * y) * (x + 200 * y)) with (40000 * (x * x + y * y) + 400 * (k * (x * x) + 2 * (x * y)) + ((k * x + y) * (k * x + y) + x * x)) by ring.
    pose proof (Rle_0_sqr (k * x + y)) as Sq; unfold Rsqr in Sq. pose proof (Rle_0_sqr x) as Sx; pose proof (Rle_0_sqr y) as Sy; unfold Rsqr in Sx, Sy. lra.
  - assert (F0 : norm 2 (fun i => lm_F i (fun _ => 1)) <= 286).
    { apply norm_le; [lra|]. rewrite dot2. cbn [lm_F]. pose proof (SIN_bound 1). nra. }
    pose proof (norm_pos 2 (fun i => lm_F i (fun _ => 1))) as P0. cbv zeta. set (N0 := norm 2 (fun i => lm_F i (fun _ => 1))) in *. clearbody N0. simpl INR.
    split; [lra|]. split; [lra|]. split; [nra|]. split; [lra|]. split; [simpl; lra|].
    assert (Q : N0 * N0 <= 100000) by nra.
    apply Rle_lt_trans with ((4 / 10) ^ 80 * 100000); [|simpl; lra].
    apply Rmult_le_compat; [apply pow_le; lra|nra| |exact Q]. apply pow_incr. lra.
  - cbn. lia.
  - exists t, fuel, afuel, t', p. split; [exact Et|]. split; [exact E|].
    split; [apply (h_get _ _ _ T); exists 0%nat; auto|]. split; [apply (h_get _ _ _ T); exists 1%nat; auto|].
    simpl INR in B. pose proof (norm_coord 2 (fun j => p j - 0) 0%nat ltac:(lia)) as C0. pose proof (norm_coord 2 (fun j => p j - 0) 1%nat ltac:(lia)) as C1.
    cbv beta in C0, C1. rewrite !Rminus_0_r in C0, C1. set (nn := norm 2 (fun j => p j - 0)) in *. set (e := / 10 ^ 9) in *. lra.
Qed.

(** ** The line search multiplies the direction by the transposed matrix (nonlinear.cpp:25) *)
(** Two equations whose order decides: 0.01 y - 1 = 0 and 0.028 x = 0.  The solution is (0, 100). *)
Definition y_eq : expr Rops := EBin BSub (EBin BMul (num (1 / 100)) (EVar "y")) (num 1).
Definition x_eq : expr Rops := EBin BMul (num (28 / 1000)) (EVar "x").
Definition yx (i : nat) : expr Rops := match i with O => y_eq | _ => x_eq end.
Definition xy (i : nat) : expr Rops := match i with O => x_eq | _ => y_eq end.
Definition yx_F (i : nat) (p : nat -> R) : R := match i with O => 1 / 100 * p 1%nat - 1 | _ => 28 / 1000 * p 0%nat end.
Definition xy_F (i : nat) (p : nat -> R) : R := match i with O => 28 / 1000 * p 0%nat | _ => 1 / 100 * p 1%nat - 1 end.
Definition yx_D (i j : nat) (p : nat -> R) : R := match i, j with O, O => 0 | O, _ => 1 / 100 | _, O => 28 / 1000 | _, _ => 0 end.
Definition xy_D (i j : nat) (p : nat -> R) : R := match i, j with O, O => 28 / 1000 | O, _ => 0 | _, O => 0 | _, _ => 1 / 100 end.

Lemma yx_system P : system ["x"; "y"] 2 yx yx_F yx_D P.
Proof.
  intros i Hi. split.
  { destruct i as [|[|i]]; [| |lia]; intros z O; repeat match goal with H : occurs _ _ |- _ => inversion H; clear H; subst end; simpl; auto. }
  intros p env _ Ha. pose proof (Ha 0%nat ltac:(cbn; lia)) as Hx. pose proof (Ha 1%nat ltac:(cbn; lia)) as Hy. cbn [nth] in Hx, Hy. clear Ha.
  split. { destruct i as [|[|i]]; [| |lia]; cbn [yx x_eq y_eq yx_F rval r_bin r_un]; rewrite ?Hx, ?Hy; reflexivity. }
  intros j Hj. cbn [length] in Hj. split.
  { destruct i as [|[|i]]; [| |lia]; (destruct j as [|[|j]]; [| |lia]); cbn; repeat split; try discriminate; auto; eauto. }
  destruct i as [|[|i]]; [| |lia]; (destruct j as [|[|j]]; [| |lia]); (split; [unfold defined_near; apply filter_forall; intros y; cbn; discriminate|]); cbn [nth yx_D];
    [ apply (is_derive_ext (fun u => 1 / 100 * env "y" - 1)); [intros u; reflexivity|]
    | apply (is_derive_ext (fun u => 1 / 100 * u - 1)); [intros u; reflexivity|]
    | apply (is_derive_ext (fun u => 28 / 1000 * u)); [intros u; reflexivity|]
    | apply (is_derive_ext (fun u => 28 / 1000 * env "x")); [intros u; reflexivity|] ];
    auto_derive; auto; ring.
Qed.
Lemma xy_system P : system ["x"; "y"] 2 xy xy_F xy_D P.
Proof.
  intros i Hi. destruct i as [|[|i]]; [destruct (yx_system P 1%nat ltac:(lia)) as [W H]|destruct (yx_system P 0%nat ltac:(lia)) as [W H]|lia]; (split; [exact W|]); intros p env Hp Ha; destruct (H p env Hp Ha) as [V Q];
    (split; [exact V|]); intros j Hj; specialize (Q j Hj); cbn [length] in Hj; (destruct j as [|[|j]]; [exact Q|exact Q|lia]).
Qed.

Definition start_table (t : vars_table Rops) : Prop := VarsTable_make ["x"; "y"] (n_ofZ 1 : Rops) = Ok t.

(** With LM, from (1, 1), up to 1000 steps: in one order the equations are solved, in the other LM never returns. *)
Theorem C65_order_matters : exists t, start_table t /\
  (exists fuel afuel t' p, Solve (lm_cfg 1000) fuel afuel (MkSym 2 1 [embed x_eq; embed y_eq]) t = Ok t' /\
     VarsTable_get t' "x" = Ok (Some (p 0%nat) : Rops) /\ VarsTable_get t' "y" = Ok (Some (p 1%nat) : Rops) /\
     Rabs (p 0%nat) <= / 10 ^ 6 /\ Rabs (p 1%nat - 100) <= / 10 ^ 6) /\
  forall fuel afuel, Solve (lm_cfg 1000) fuel afuel (MkSym 2 1 [embed y_eq; embed x_eq]) t = OutOfFuel.
Proof.
  assert (Nd : NoDup ["x"; "y"]) by (repeat constructor; simpl; intuition discriminate).
  destruct (C36_make Rops ["x"; "y"] (n_ofZ 1)) as (t & Et & Ht); [discriminate|exact Nd|].
  assert (E9 : 0 < / 10 ^ 9) by (apply Rinv_0_lt_compat, pow_lt; lra).
  exists t. split; [exact Et|]. split.
  - set (s := fun j : nat => match j with O => 0 | _ => 100 end).
    destruct (C65_lm_converges (lm_cfg 1000) (/ 10 ^ 9) 2 xy (MkSym 2 1 [embed x_eq; embed y_eq]) t ["x"; "y"] xy_F xy_D s (fun _ => 1) 200 (1 / 100) (28 / 1000) 0 1 (1 / 3) 600) as (fuel & afuel & t' & p & E & T & V & B).
    + lia.
    + reflexivity.
    + exact E9.
    + simpl. lra.
    + reflexivity.
    + repeat split; cbn. intros i j Hi Hj. destruct i as [|[|i]]; [| |lia]; (destruct j as [|j]; [reflexivity|lia]).
    + exact Ht.
    + apply xy_system.
    + intros j Hj. destruct j as [|[|j]]; [| |lia]; unfold s, Rabs; destruct (Rcase_abs _); lra.
    + intros q i j _ Hi Hj. destruct i as [|[|i]]; [| |lia]; destruct j as [|[|j]]; try lia; reflexivity.
    + intros q _ v. split; [apply norm_between|apply norm_below]; try lra; rewrite !dot2, !times2; cbn [xy_D]; nra.
    + lra.
    + intros q q' d i j _ _ Hi Hj _. destruct i as [|[|i]]; [| |lia]; destruct j as [|[|j]]; try lia; cbn [xy_D]; rewrite Rminus_eq_0, Rabs_R0; lra.
    + intros q _. apply norm_between; [lra|]. rewrite !dot2. cbn [xy_F s]. nra.
    + assert (F0 : norm 2 (fun i => xy_F i (fun _ => 1)) <= 1).
      { apply norm_le; [lra|]. rewrite dot2. cbn [xy_F]. lra. }
      pose proof (norm_pos 2 (fun i => xy_F i (fun _ => 1))) as P0. cbv zeta. set (N0 := norm 2 (fun i => xy_F i (fun _ => 1))) in *. clearbody N0.
      split; [lra|]. split; [lra|]. split; [nra|]. split; [lra|]. split; [simpl; lra|].
      assert (Q : N0 * N0 <= 1) by nra.
      apply Rle_lt_trans with ((1 / 3) ^ 40 * 1); [|simpl; lra].
      assert (H15 : (1 - 64 / 100 * 1 * (1 / 3 * (1 / 3))) ^ 15 <= 1 / 3) by (simpl; lra).
      set (th := 1 - 64 / 100 * 1 * (1 / 3 * (1 / 3))) in *. assert (Th : 0 <= th) by (unfold th; lra). clearbody th.
      apply Rmult_le_compat; [now apply pow_le|nra| |exact Q]. replace (th ^ 600) with ((th ^ 15) ^ 40) by (rewrite <- pow_mult; reflexivity).
      apply pow_incr. split; [now apply pow_le|exact H15].
    + cbn. lia.
    + exists fuel, afuel, t', p. split; [exact E|].
      split; [apply (h_get _ _ _ T); exists 0%nat; auto|]. split; [apply (h_get _ _ _ T); exists 1%nat; auto|].
      simpl INR in B. pose proof (norm_coord 2 (fun j => p j - s j) 0%nat ltac:(lia)) as C0. pose proof (norm_coord 2 (fun j => p j - s j) 1%nat ltac:(lia)) as C1.
      cbv beta in C0, C1. cbn [s] in C0, C1. rewrite Rminus_0_r in C0. set (nn := norm 2 _) in *. assert (E96 : 200 * / 10 ^ 9 <= / 10 ^ 6) by (simpl; lra). set (e := / 10 ^ 9) in *. set (e6 := / 10 ^ 6) in *. lra.
  - set (mu := / 10 ^ 5). set (A := fun i j : nat => match i, j with O, O => (28 / 1000) * (28 / 1000) + mu | S _, S _ => 1 / 100 * (1 / 100) + mu | _, _ => 0 end).
    set (b := fun i : nat => match i with O => - (28 / 1000 * (28 / 1000)) | _ => 1 / 100 * (99 / 100) end).
    assert (Def : forall y, mu * rsum 2 (fun j => y j * y j) <= rsum 2 (fun i => y i * row_times 2 A y i)).
    { intros y. cbn [rsum]. rewrite !times2. unfold A, mu. simpl. nra. }
    assert (Hne : INR 2 * / 10 ^ 9 < mu) by (unfold mu; simpl; lra).
    destruct (@LMSolve.solve_definite (lm_cfg 1000) (/ 10 ^ 9) mu 2 A eq_refl (Rlt_le _ _ E9) Nat.lt_0_2 Def Hne b) as (d & Sol & Res).
    set (one := fun _ : nat => 1 : R).
    assert (HA : is_sym 2 1 (fun i _ => yx i) (MkSym 2 1 [embed y_eq; embed x_eq])).
    { repeat split; cbn. intros i j Hi Hj. destruct i as [|[|i]]; [| |lia]; (destruct j as [|j]; [reflexivity|lia]). }
    assert (Nx : ["x"; "y"] <> []) by discriminate.
    destruct (Jacobian_cases (lm_cfg 1000) 2 yx (MkSym 2 1 [embed y_eq; embed x_eq]) ["x"; "y"] Nat.lt_0_2 Nx HA) as [(J & jac & EJ & HJ & SJ)|E].
    2:{ exfalso. destruct (C35_jacobian_value (lm_cfg 1000) 2 yx _ ["x"; "y"] (fun _ => 1) Nat.lt_0_2 Nx HA) as (J & h & E' & _); [|congruence].
        intros i x Hi Hxi. destruct (yx_system (fun _ => True) i Hi) as [_ H]. destruct (H (fun _ => 1) (fun _ => 1) Logic.I (fun _ _ => eq_refl)) as [_ Hd].
        destruct (In_nth ["x"; "y"] x EmptyString Hxi) as (j & Hj & <-). now apply Hd. }
    assert (HS : system ["x"; "y"] 2 yx yx_F yx_D (fun _ => True)) by apply yx_system.
    assert (VF : forall p, values_at (lm_cfg 1000) ["x"; "y"] (fun j => Some (p j) : Rops) 2 yx (fun i => Some (yx_F i p) : Rops)).
    { intros p. now apply (values_here (lm_cfg 1000) ["x"; "y"] 2 yx yx_F yx_D (fun _ => True) Nat.lt_0_2 Nd eq_refl HS). }
    assert (VJ : forall p i, (i < 2)%nat -> values_at (lm_cfg 1000) ["x"; "y"] (fun j => Some (p j) : Rops) (length ["x"; "y"]) (jac i) (fun j => Some (yx_D i j p) : Rops)).
    { intros p i Hi j Hj. apply (jac_here (lm_cfg 1000) ["x"; "y"] 2 yx jac yx_F yx_D (fun _ => True) Nat.lt_0_2 Nd eq_refl HS HJ i j p); auto. }
    intros fuel afuel. unfold Solve. cbn [lm_cfg nonlinearMethod].
    apply (C49_lm_endless (lm_cfg 1000) 2 yx _ t ["x"; "y"] (fun _ => Some 1 : Rops) jac 0 (fun _ _ => Some 1 : Rops) (fun _ => 0%nat) 0 (fun i => Some (yx_F i one) : Rops) (n_dec 1 (-5)) (fun _ => Some 1 : Rops) (fun j => Some (d j) : Rops)).
    + lia.
    + reflexivity.
    + exact HA.
    + exact Ht.
    + exact HJ.
    + split; [reflexivity|intros i Hi; lia].
    + exact (VF one).
    + intros Q. specialize (Q 0%nat Nat.lt_0_2). cbn in Q. apply Rltb_spec in Q. unfold one in Q. revert Q. unfold Rabs. destruct (Rcase_abs _); simpl; lra.
    + apply lm_first.
    + exists (fun i j => Some (yx_D i j one) : Rops). split; [exact (VJ one)|].
      destruct Sol as (A1 & B1 & X1 & HA1 & HB1 & E1 & HX1). exists A1, B1, X1. split; [|split; [|split; [exact E1|exact HX1]]].
      * eapply is_mat_ext; [|exact HA1]. intros i j Hi Hj. unfold A.
        change (n_dec 1 (-5) : Rops) with (Some (1 * powerRZ 10 (-5)) : Rops). replace (1 * powerRZ 10 (-5)) with mu by (unfold mu; rewrite Rmult_1_l; reflexivity).
        destruct i as [|[|i]]; [| |lia]; destruct j as [|[|j]]; try lia; cbn; f_equal; ring.
      * eapply is_mat_ext; [|exact HB1]. intros i j Hi Hj. unfold b. destruct i as [|[|i]]; [| |lia]; cbn; f_equal; unfold one; lra.
    + pose proof (Res 0%nat Nat.lt_0_2) as R0. pose proof (Res 1%nat ltac:(lia)) as R1. rewrite times2 in R0, R1. cbn [rsum] in R0, R1. unfold A, b, mu in R0, R1.
      set (d0 := d 0%nat) in *. set (d1 := d 1%nat) in *.
      assert (D1 : 899 / 10 <= d1 <= 901 / 10 /\ -1 <= d0 <= 0).
      { clearbody d0 d1. revert R0 R1. unfold Rabs. repeat destruct (Rcase_abs _); simpl; intros; lra. }
      intros l. exists (fun i => Some (yx_F i (fun j => 1 + d j * / 2 ^ l)) : Rops), (fun i => Some (yx_F i one) : Rops), (fun i j => Some (yx_D i j one) : Rops).
      rewrite step_length_R. split; [exact (VF (fun j => 1 + d j * / 2 ^ l))|]. split; [exact (VF one)|]. split; [exact (VJ one)|].
      pose proof (pow2_le1 l) as Hal. set (a := / 2 ^ l) in *. clearbody a.
      cbn. fold d0 d1. clearbody d0 d1. unfold one.
      match goal with |- Rleb ?u ?v = false => destruct (Rleb u v) eqn:Q; [|reflexivity]; apply Rleb_spec in Q; exfalso end.
      replace (10 ^ Pos.to_nat 1) with 10 in Q by (simpl; ring). clear R0 R1. destruct D1 as [D1 D0].
      assert (U1 : 899 / 10 * a <= d1 * a) by (apply Rmult_le_compat_r; lra).
      assert (U2 : d1 * a <= 901 / 10) by (apply Rle_trans with (901 / 10 * a); [apply Rmult_le_compat_r; lra|lra]).
      assert (V1 : -1 * a <= d0 * a) by (apply Rmult_le_compat_r; lra). assert (V2 : d0 * a <= 0 * a) by (apply Rmult_le_compat_r; lra).
      assert (G : 12 / 10000 * (d1 * a) * (198 / 100 - 212 / 10000 * (d1 * a)) + 24 / 1000 * (d0 * a) * (56 / 1000 + 32 / 1000 * (d0 * a)) <= 0) by lra.
      set (u := d1 * a) in *. set (v := d0 * a) in *. clearbody u v.
      assert (P1 : 0 <= u * (901 / 10 - u)) by (apply Rmult_le_pos; lra). assert (P2 : 0 <= v * v) by (pose proof (Rle_0_sqr v); exact H).
      lra.
    + intros _. cbn. lia.
Qed.
End Ex65.
