(** C43: Newton-Raphson on affine systems, exact reals. *)
From Coq Require Import String List ZArith Bool Arith Lia Reals Lra.
From Coquelicot Require Import Coquelicot.
From Verif Require Import Base MathOp NodeModel SubsModel DiffModel MatModel LinearModel VarsTableModel SymMatModel NonlinearModel
  ExprSpec SubsSpec MatSpec VarsSpec SymMatSpec NonlinearSpec DiffSpec AffineSpec NodeProofs SymMatProofs Thm_Node Thm_Subs Thm_Vars Thm_SymMat DiffProofs Thm_Diff
  NonlinearProofs Thm_Nonlinear RealSpec AffineSolve.
Import ListNotations.
Local Open Scope string_scope.
Local Open Scope list_scope.
Local Open Scope R_scope.

(** ** Sums *)
Lemma rsum_ext n g h : (forall j, (j < n)%nat -> g j = h j) -> rsum n g = rsum n h.
Proof. induction n as [|n IH]; intros H; cbn [rsum]; [reflexivity|]. rewrite IH, H; auto. Qed.
Lemma rsum_plus n g h : rsum n (fun j => g j + h j) = rsum n g + rsum n h.
Proof. induction n as [|n IH]; cbn [rsum]; [lra|]. rewrite IH. lra. Qed.
Lemma rsum_scal n c g : rsum n (fun j => c * g j) = c * rsum n g.
Proof. induction n as [|n IH]; cbn [rsum]; [lra|]. rewrite IH. lra. Qed.
Lemma rsum_le n g B : (forall j, (j < n)%nat -> g j <= B) -> rsum n g <= INR n * B.
Proof. induction n as [|n IH]; intros H; cbn [rsum]; [simpl; lra|]. rewrite S_INR. pose proof (IH (fun j Hj => H j (Nat.lt_lt_succ_r _ _ Hj))). pose proof (H n (Nat.lt_succ_diag_r n)). lra. Qed.
Lemma rsum_ge0 n g : (forall j, (j < n)%nat -> 0 <= g j) -> 0 <= rsum n g.
Proof. induction n as [|n IH]; intros H; cbn [rsum]; [lra|]. pose proof (IH (fun j Hj => H j (Nat.lt_lt_succ_r _ _ Hj))). pose proof (H n (Nat.lt_succ_diag_r n)). lra. Qed.
Lemma row_times_plus n M x y i : row_times n M (fun j => x j + y j) i = row_times n M x i + row_times n M y i.
Proof. unfold row_times. rewrite <- rsum_plus. apply rsum_ext. intros j _. lra. Qed.
Lemma row_times_minus n M x y i : row_times n M (fun j => x j - y j) i = row_times n M x i - row_times n M y i.
Proof.
  replace (row_times n M x i - row_times n M y i) with (row_times n M x i + (-1) * row_times n M y i) by lra.
  unfold row_times. rewrite <- rsum_scal, <- rsum_plus. apply rsum_ext. intros j _. lra.
Qed.

(** ** The value and the derivatives of an affine expression *)
Lemma eval_rval st (r : string -> R) (env : string -> option R) (e : expr Rops) : forall v, rval r e = Some v -> no_int_ops e ->
  (forall x, occurs x e -> env x = Some (r x)) -> eval_in (K:=Rops) st env e = Value (Some v).
Proof.
  induction e as [w|x|u a IH|b a IHa c IHc]; intros v E Ni H; cbn [eval_in rval] in *.
  - now subst.
  - rewrite H by constructor. now injection E as ->.
  - destruct (rval r a) as [y|] eqn:Ea; [|discriminate]. rewrite (IH y); auto; [|intros x O; apply H; now constructor].
    unfold finish. rewrite un_sem_R, E, invalidb_R, andb_false_r. reflexivity.
  - destruct (rval r a) as [y|] eqn:Ea; [|discriminate]. destruct (rval r c) as [z|] eqn:Ec; [|discriminate].
    assert (Nb : b <> BAnd /\ b <> BOr /\ b <> BMod /\ no_int_ops a /\ no_int_ops c) by (destruct b; simpl in Ni; try tauto; repeat split; try discriminate; tauto).
    destruct Nb as (N1 & N2 & N3 & Na & Nc).
    rewrite (IHa y eq_refl Na (fun x O => H x (occ_l x b a c O))), (IHc z eq_refl Nc (fun x O => H x (occ_r x b a c O))).
    unfold finish. assert (Eb : bin_sem b (Some y : Rops) (Some z : Rops) = Some (Some v : Rops)).
    { destruct b; try congruence; cbn in E |- *; now rewrite E. }
    rewrite Eb, invalidb_R, andb_false_r. reflexivity.
Qed.

Lemma smooth_rval_int x env (e : expr Rops) : smooth 1 x env e -> no_int_ops e.
Proof. apply smooth_no_int. Qed.

Section Form.
Context (xs : list string) (e : expr Rops) (a : nat -> R) (c : R).
Hypotheses (Nd : NoDup xs) (Ne : xs <> []) (HA : affine xs e a c).
Notation n := (length xs).

Lemma affine_no_int : no_int_ops e.
Proof.
  destruct xs as [|x l] eqn:E; [congruence|]. destruct HA as (_ & Hs & _). exact (smooth_no_int _ _ _ _ (Hs x (fun _ => 0) (or_introl eq_refl))).
Qed.

Lemma at_point_nth env (s : nat -> R) : at_point (K:=Rops) xs env (fun j => Some (s j)) -> forall j, (j < n)%nat -> env (nth j xs EmptyString) = Some (s j).
Proof. intros H j Hj. apply H. now apply nth_error_nth'. Qed.

(** An expression in the unknowns with value [v env]. *)
Lemma eval_at (e' : expr Rops) st env (s : nat -> R) v : vars_within xs e' -> no_int_ops e' ->
  at_point (K:=Rops) xs env (fun j => Some (s j)) -> rval (reals_of env) e' = Some v -> eval_in (K:=Rops) st env e' = Value (Some v).
Proof.
  intros W Ni H E. apply (eval_rval st (reals_of env)); auto. intros x O. apply W in O. apply In_nth_error in O as [j Hj]. unfold reals_of. now rewrite (H j x Hj).
Qed.

Lemma affine_eval st env (s : nat -> R) : at_point (K:=Rops) xs env (fun j => Some (s j)) ->
  eval_in (K:=Rops) st env e = Value (Some (rsum n (fun j => a j * s j) - c)).
Proof.
  intros H. destruct HA as (W & _ & V). apply (eval_at e st env s); auto; [exact affine_no_int|]. rewrite V. do 2 f_equal.
  apply rsum_ext. intros j Hj. unfold reals_of. now rewrite (at_point_nth env s H j Hj).
Qed.

Lemma upd_sum env j t m : (j < n)%nat -> (m <= n)%nat ->
  rsum m (fun k => a k * upd env (nth j xs EmptyString) t (nth k xs EmptyString)) =
  rsum m (fun k => a k * env (nth k xs EmptyString)) + (if (j <? m)%nat then a j * (t - env (nth j xs EmptyString)) else 0).
Proof.
  intros Hj. induction m as [|m IH]; intros Hm; cbn [rsum]; [simpl; lra|]. rewrite IH by lia. unfold upd.
  destruct (String.eqb_spec (nth m xs EmptyString) (nth j xs EmptyString)) as [E|E].
  - apply NoDup_nth in E; auto; try lia. subst m. destruct (Nat.ltb_spec j j); [lia|]. destruct (Nat.ltb_spec j (S j)); [|lia]. lra.
  - assert (m <> j) by congruence. destruct (Nat.ltb_spec j m), (Nat.ltb_spec j (S m)); try lia; lra.
Qed.

Lemma affine_partial env j : (j < n)%nat -> partial env (nth j xs EmptyString) e (a j).
Proof.
  intros Hj. destruct HA as (_ & _ & V). split.
  - unfold defined_near. apply filter_forall. intros t. rewrite V. discriminate.
  - set (x := nth j xs EmptyString).
    apply (is_derive_ext (fun t => (rsum n (fun k => a k * env (nth k xs EmptyString)) - c) + a j * (t - env x))).
    + intros t. unfold as_function. rewrite V. unfold x. rewrite (upd_sum env j t n Hj (Nat.le_refl n)). destruct (Nat.ltb_spec j n); [|lia]. match goal with |- @eq _ ?a ?b => change (@eq R a b) end. ring.
    + auto_derive; [exact I|]. ring.
Qed.

(** Its derivative, computed symbolically, has the value a j everywhere. *)
Lemma affine_diff cfg j e' st env (s : nat -> R) : (j < n)%nat -> Diff cfg (embed e) (nth j xs EmptyString) 1 = Ok (embed e') ->
  vars_within xs e' /\ (at_point (K:=Rops) xs env (fun j => Some (s j)) -> eval_in (K:=Rops) st env e' = Value (Some (a j))).
Proof.
  intros Hj D. destruct HA as (W & Hs & _).
  destruct (C22_diff_outcome Rops cfg e (nth j xs EmptyString) 1) as [(e2 & D2 & _ & Ni & O)|[_ D2]]; [lia|exact affine_no_int| |change (Z.of_nat 1) with 1%Z in D2; congruence].
  change (Z.of_nat 1) with 1%Z in D2. rewrite D in D2. injection D2 as D2. apply embed_inj in D2. subst e2.
  assert (W' : vars_within xs e') by (intros x Ox; apply W, O, Ox). split; [exact W'|]. intros H.
  destruct (C20_diff cfg (nth j xs EmptyString) (reals_of env) e) as (e2 & d & D2 & Vd & P); [apply Hs, nth_In; auto|].
  rewrite D in D2. injection D2 as D2. apply embed_inj in D2. subst e2.
  rewrite (C20_partial_unique _ _ _ _ _ P (affine_partial (reals_of env) j Hj)) in Vd. exact (eval_at e' st env s _ W' Ni H Vd).
Qed.
End Form.

Lemma all_dec n (g : nat -> R) e : {forall i, (i < n)%nat -> g i < e} + {~ forall i, (i < n)%nat -> g i < e}.
Proof.
  induction n as [|n [IH|IH]].
  - left. intros i Hi. lia.
  - destruct (Rlt_dec (g n) e) as [H|H].
    + left. intros i Hi. destruct (Nat.eq_dec i n) as [->|]; [exact H|apply IH; lia].
    + right. intros F. apply H, F. lia.
  - right. intros F. apply IH. intros i Hi. apply F. lia.
Qed.

Section Run.
Context (cfg : config Rops) (eps mu : R) (n : nat) (M : nat -> nat -> R) (b : nat -> R) (f : nat -> expr Rops) (A : symmat Rops)
  (t : vars_table Rops) (xs : list string) (s0 : nat -> R) (B0 Bb : R).
Hypotheses (Hn : (0 < n)%nat) (Heps : epsilon cfg = Some eps) (He : 0 < eps) (Hx : length xs = n) (HA : is_sym n 1 (fun i _ => f i) A)
  (Haff : forall i, (i < n)%nat -> affine xs (f i) (M i) (b i)) (HM : conditioned n M mu) (Hmu : INR n * eps < mu)
  (Ht : table_at (K:=Rops) xs t (fun j => Some (s0 j))).
Definition resid (s : nat -> R) (i : nat) : R := row_times n M s i - b i.
Hypotheses (HB0 : forall i, (i < n)%nat -> Rabs (resid s0 i) <= B0) (HBb : forall i, (i < n)%nat -> Rabs (b i) <= Bb).
Let theta := INR n * eps / (mu - INR n * eps).
Notation pt s := (fun j => Some (s j) : Rops).

Let Nd : NoDup xs. Proof. exact (h_nodup _ _ _ Ht). Qed.
Let Ne : xs <> []. Proof. exact (h_nonempty _ _ _ Ht). Qed.

Lemma theta_pos : 0 <= theta.
Proof. unfold theta. apply Rmult_le_pos; [apply Rmult_le_pos; [apply pos_INR|lra]|]. left. apply Rinv_0_lt_compat. lra. Qed.

Lemma values_pt s : values_at cfg xs (pt s) n f (fun i => Some (resid s i) : Rops).
Proof.
  intros i Hi. destruct (Haff i Hi) as (W & _). split; [exact W|]. intros env He'.
  rewrite (affine_eval xs (f i) (M i) (b i) Nd Ne (Haff i Hi) _ env s He'). unfold resid, row_times. now rewrite Hx.
Qed.

Lemma at_pt s : exists env, at_point (K:=Rops) xs env (pt s).
Proof.
  pose (nthb := fun x => (fix go (l : list string) (j : nat) : nat := match l with [] => O | y :: l' => if String.eqb x y then j else go l' (S j) end) xs O).
  exists (fun x => Some (s (nthb x))). intros j x Hj. do 2 f_equal. unfold nthb.
  assert (G : forall l k j, NoDup l -> nth_error l j = Some x ->
    (fix go (l : list string) (j : nat) : nat := match l with [] => O | y :: l' => if String.eqb x y then j else go l' (S j) end) l k = (k + j)%nat).
  { induction l as [|y l IH]; intros k [|j'] Nd' E; try discriminate; cbn in E.
    - injection E as ->. rewrite String.eqb_refl. lia.
    - inversion Nd'; subst. destruct (String.eqb_spec x y) as [->|]; [apply nth_error_In in E; tauto|]. rewrite IH with (j := j'); auto. lia. }
  rewrite (G xs O j Nd Hj). reflexivity.
Qed.

Lemma solved_pt s : solved cfg xs n f (pt s) <-> forall i, (i < n)%nat -> Rabs (resid s i) < eps.
Proof.
  split.
  - intros (phi & V & Va) i Hi. destruct (at_pt s) as [env He']. destruct (V i Hi) as [_ E1]. destruct (values_pt s i Hi) as [_ E2].
    specialize (E1 env He'). specialize (E2 env He'). rewrite E1 in E2. injection E2 as E2. specialize (Va i Hi). rewrite Heps, E2 in Va.
    cbn in Va. rewrite Rminus_0_r in Va. now apply Rltb_spec in Va.
  - intros H. exists (fun i => Some (resid s i)). split; [apply values_pt|]. intros i Hi. rewrite Heps. cbn. rewrite Rminus_0_r. apply Rltb_spec. auto.
Qed.

Context (jac : nat -> nat -> expr Rops) (HJ : jacobian cfg xs n f jac).

(** One step: J d = - residual, solved up to theta times the residual. *)
Lemma step_pt s q B : (forall i, (i < n)%nat -> Rabs (resid s i) <= B) ->
  exists x, newton_step cfg xs n f jac (pt s) (pt q) (pt (fun j => q j + x j)) /\
    forall i, (i < n)%nat -> Rabs (row_times n M x i + resid s i) <= theta * B.
Proof.
  intros HB. destruct (@solve_conditioned cfg eps mu n M Heps (Rlt_le _ _ He) Hn HM Hmu (fun i => - resid s i)) as (x & L & Hr).
  exists x. split.
  - exists (fun i => Some (resid s i)), (fun i j => Some (M i j)), (pt x). split; [apply values_pt|]. split; [|split].
    + intros i Hi j Hj. destruct (Haff i Hi) as (W & _).
      assert (D : Diff cfg (embed (f i)) (nth j xs EmptyString) 1 = Ok (embed (jac i j))) by (apply HJ; [exact Hi|now apply nth_error_nth']).
      split; [exact (proj1 (affine_diff xs (f i) (M i) (b i) Nd Ne (Haff i Hi) cfg j (jac i j) true (fun _ => None) s Hj D))|].
      intros env He'. exact (proj2 (affine_diff xs (f i) (M i) (b i) Nd Ne (Haff i Hi) cfg j (jac i j) _ env s Hj D) He').
    + rewrite Hx. exact L.
    + reflexivity.
  - set (S0 := rsum n (fun j => Rabs (x j))) in *.
    assert (HS : 0 <= S0) by (apply rsum_ge0; intros; apply Rabs_pos).
    assert (Hr' : forall i, (i < n)%nat -> Rabs (row_times n M x i + resid s i) <= eps * S0).
    { intros i Hi. specialize (Hr i Hi). now replace (row_times n M x i - - resid s i) with (row_times n M x i + resid s i) in Hr by ring. }
    assert (Hm : forall j, (j < n)%nat -> mu * Rabs (x j) <= B + eps * S0).
    { apply HM. intros i Hi. replace (row_times n M x i) with ((row_times n M x i + resid s i) + - resid s i) by ring.
      eapply Rle_trans; [apply Rabs_triang|]. rewrite Rabs_Ropp. pose proof (Hr' i Hi). pose proof (HB i Hi). lra. }
    assert (HS2 : mu * S0 <= INR n * (B + eps * S0)).
    { unfold S0 at 1. rewrite <- rsum_scal. apply rsum_le. exact Hm. }
    assert (eps * S0 <= theta * B).
    { unfold theta. set (d := mu - INR n * eps). assert (Hd : 0 < d) by (unfold d; lra).
      replace (INR n * eps / d * B) with ((eps * (INR n * B)) / d) by (field; lra).
      apply Rmult_le_reg_r with d; [exact Hd|]. replace (eps * (INR n * B) / d * d) with (eps * (INR n * B)) by (field; lra).
      rewrite Rmult_assoc. apply Rmult_le_compat_l; [lra|]. unfold d. nra. }
    intros i Hi. pose proof (Hr' i Hi). lra.
Qed.

Definition bound (k : nat) : R := match k with O => B0 | S k' => theta ^ k' * (Bb + (1 + theta) * B0) end.

Lemma B0_pos : 0 <= B0. Proof. pose proof (HB0 0 Hn). pose proof (Rabs_pos (resid s0 0)). lra. Qed.

(** After k steps: a solution has been found, or the residual is at most [bound k]. *)
Lemma run_pt k : (exists k' ps, (k' <= k)%nat /\ newton_points cfg xs n f jac (pt s0) (fun i => pt (ps i)) k' /\ solved cfg xs n f (pt (ps k')) /\
      forall i, (i < k')%nat -> ~ solved cfg xs n f (pt (ps i))) \/
  exists ps, newton_points cfg xs n f jac (pt s0) (fun i => pt (ps i)) k /\ (forall i, (i <= k)%nat -> ~ solved cfg xs n f (pt (ps i))) /\
    forall i, (i < n)%nat -> Rabs (resid (ps k) i) <= bound k.
Proof.
  assert (Dec : forall s, {solved cfg xs n f (pt s)} + {~ solved cfg xs n f (pt s)}).
  { intros s. destruct (all_dec n (fun i => Rabs (resid s i)) eps) as [H|H]; [left|right]; rewrite solved_pt; exact H. }
  assert (Z : newton_points cfg xs n f jac (pt s0) (fun _ => pt s0) 0) by (split; [reflexivity|intros i Hi; lia]).
  induction k as [|k IH].
  - destruct (Dec s0) as [D|D].
    + left. exists 0%nat, (fun _ => s0). repeat split; auto; intros; lia.
    + right. exists (fun _ => s0). repeat split; auto; intros; lia.
  - destruct IH as [(k' & ps & Hk & H)|(ps & P & Ns & Hb)]; [left; exists k', ps; split; [lia|exact H]|].
    set (q := match k with O => fun _ => 0 | S _ => ps k end).
    destruct (step_pt (ps k) q (bound k) Hb) as (x & St & Hr).
    set (ps' := fun i => if (i <=? k)%nat then ps i else fun j => q j + x j).
    assert (Old : forall i, (i <= k)%nat -> ps' i = ps i) by (intros i Hi; unfold ps'; destruct (Nat.leb_spec i k); [reflexivity|lia]).
    assert (New : ps' (S k) = fun j => q j + x j) by (unfold ps'; destruct (Nat.leb_spec (S k) k); [lia|reflexivity]).
    assert (P' : newton_points cfg xs n f jac (pt s0) (fun i => pt (ps' i)) (S k)).
    { destruct P as [P0 Ps]. split; [intros j Hj; cbv beta; rewrite Old by lia; exact (P0 j Hj)|].
      intros i Hi. destruct (Nat.eq_dec i k) as [->|Hik].
      - rewrite New, (Old k) by lia. unfold q in *. destruct k; exact St.
      - specialize (Ps i ltac:(lia)). rewrite (Old i), (Old (S i)) by lia. destruct i; exact Ps. }
    assert (Rn : forall i, (i < n)%nat -> Rabs (resid (ps' (S k)) i) <= bound (S k)).
    { intros i Hi. rewrite New. unfold resid at 1. rewrite row_times_plus. specialize (Hr i Hi). unfold q. destruct k as [|k].
      - assert (E0 : row_times n M (fun _ => 0) i = 0) by (unfold row_times; rewrite (rsum_ext n _ (fun _ => 0 * 0)) by (intros; lra); rewrite rsum_scal; lra).
        rewrite E0. replace (0 + row_times n M x i - b i) with ((row_times n M x i + resid (ps 0%nat) i) + (- resid (ps 0%nat) i + - b i)) by ring.
        eapply Rle_trans; [apply Rabs_triang|]. eapply Rle_trans; [apply Rplus_le_compat_l, Rabs_triang|]. rewrite !Rabs_Ropp.
        pose proof (Hb i Hi). pose proof (HBb i Hi). cbn [bound pow] in *. lra.
      - replace (row_times n M (ps (S k)) i + row_times n M x i - b i) with (row_times n M x i + resid (ps (S k)) i) by (unfold resid; ring).
        eapply Rle_trans; [exact Hr|]. cbn [bound pow]. lra. }
    destruct (Dec (ps' (S k))) as [D|D].
    + left. exists (S k), ps'. split; [lia|]. split; [exact P'|]. split; [exact D|]. intros i Hi. rewrite Old by lia. apply Ns. lia.
    + right. exists ps'. split; [exact P'|]. split; [|exact Rn]. intros i Hi. destruct (Nat.eq_dec i (S k)) as [->|]; [exact D|]. rewrite Old by lia. apply Ns. lia.
Qed.
End Run.

(** The iteration ends within N + 1 linear solves if theta^N (max|b i| + (1 + theta) max|residual of
    the start|) < epsilon, where theta = n epsilon / (mu - n epsilon); the result is within
    epsilon / mu of every solution. *)
Theorem C43_newton_affine (cfg : config Rops) eps mu n M b (f : nat -> expr Rops) A t xs s0 B0 Bb N :
  (0 < n)%nat -> epsilon cfg = Some eps -> 0 < eps -> length xs = n -> is_sym n 1 (fun i _ => f i) A ->
  (forall i, (i < n)%nat -> affine xs (f i) (M i) (b i)) ->
  conditioned n M mu -> INR n * eps < mu ->
  table_at (K:=Rops) xs t (fun j => Some (s0 j)) ->
  (forall i, (i < n)%nat -> Rabs (row_times n M s0 i - b i) <= B0) -> (forall i, (i < n)%nat -> Rabs (b i) <= Bb) ->
  (let theta := INR n * eps / (mu - INR n * eps) in theta ^ N * (Bb + (1 + theta) * B0) < eps) -> (Z.of_nat N <= maxIterations cfg)%Z ->
  exists t' p, SolveByNewtonRaphson cfg A t = Ok t' /\ table_at (K:=Rops) xs t' (fun j => Some (p j)) /\
    (forall i, (i < n)%nat -> Rabs (row_times n M p i - b i) < eps) /\
    forall s, (forall i, (i < n)%nat -> row_times n M s i = b i) -> forall j, (j < n)%nat -> Rabs (p j - s j) <= eps / mu.
Proof.
  intros Hn Heps He Hx HA Haff HM Hmu Ht HB0 HBb Hth HN.
  pose proof (h_nonempty _ _ _ Ht) as Ne. pose proof (h_nodup _ _ _ Ht) as Nd.
  destruct (Jacobian_cases cfg n f A xs Hn Ne HA) as [(J & jac & EJ & HJ & SJ)|E].
  2:{ exfalso. destruct (C35_jacobian_value cfg n f A xs (fun _ => 0) Hn Ne HA) as (J & h & E' & _); [|congruence].
      intros i x Hi Hxi. now apply (Haff i Hi). }
  destruct (run_pt cfg eps mu n M b f t xs s0 B0 Bb Hn Heps He Hx Haff HM Hmu Ht HB0 HBb jac HJ (S N)) as [(k & ps & Hk & P & So & Ns)|(ps & P & Ns & Hb)].
  2:{ exfalso. apply (Ns (S N) (Nat.le_refl _)). apply (solved_pt cfg eps n M b f t xs s0 Hn Heps Hx Haff Ht).
      intros i Hi. eapply Rle_lt_trans; [exact (Hb i Hi)|exact Hth]. }
  assert (Mu : 0 < mu). { pose proof (Rmult_le_pos (INR n) eps (pos_INR n) (Rlt_le _ _ He)). lra. }
  assert (Hs : forall j, (j < length xs)%nat -> nth j (map (fun j => Some (s0 j)) (seq 0 (length xs))) (n_ofZ 0) = (Some (s0 j) : Rops)).
  { intros j Hj. apply nth_error_nth. exact (nth_error_map_seq (fun j => Some (s0 j) : Rops) (length xs) j Hj). }
  destruct (proj2 (C39_newton_result cfg n f A t xs _ Hn HA Ht J jac EJ SJ (fun j => Some (ps k j) : Rops))) as (t' & E & T).
  { exists k, (fun i j => Some (ps i j) : Rops). split; [|split; [reflexivity|split; [exact So|split; [exact Ns|right; lia]]]].
    split; [|exact (proj2 P)]. intros j Hj. rewrite Hs by exact Hj. exact (proj1 P j Hj). }
  assert (R0 : forall i, (i < n)%nat -> Rabs (row_times n M (ps k) i - b i) < eps) by exact (proj1 (solved_pt cfg eps n M b f t xs s0 Hn Heps Hx Haff Ht (ps k)) So).
  exists t', (ps k). split; [exact E|]. split; [exact T|]. split; [exact R0|].
  intros s Hsol j Hj. assert (G : mu * Rabs (ps k j - s j) <= eps).
  { apply (HM (fun j => ps k j - s j)); [|exact Hj]. intros i Hi. rewrite row_times_minus, Hsol by exact Hi. left. now apply R0. }
  apply Rmult_le_reg_l with mu; [exact Mu|]. replace (mu * (eps / mu)) with eps by (field; lra). exact G.
Qed.

(** With the default limits (epsilon 1e-9, 100 iterations): every affine system with
    11 n 1e-9 <= mu and data up to 1e80 is solved. *)
Corollary C43_newton_affine_defaults (cfg : config Rops) mu n M b (f : nat -> expr Rops) A t xs s0 :
  (0 < n)%nat -> epsilon cfg = Some (/ 10 ^ 9) -> (100 <= maxIterations cfg)%Z -> length xs = n -> is_sym n 1 (fun i _ => f i) A ->
  (forall i, (i < n)%nat -> affine xs (f i) (M i) (b i)) ->
  conditioned n M mu -> 11 * INR n / 10 ^ 9 <= mu ->
  table_at (K:=Rops) xs t (fun j => Some (s0 j)) ->
  (forall i, (i < n)%nat -> Rabs (row_times n M s0 i - b i) <= 10 ^ 80) -> (forall i, (i < n)%nat -> Rabs (b i) <= 10 ^ 80) ->
  exists t' p, SolveByNewtonRaphson cfg A t = Ok t' /\ table_at (K:=Rops) xs t' (fun j => Some (p j)) /\
    forall s, (forall i, (i < n)%nat -> row_times n M s i = b i) -> forall j, (j < n)%nat -> Rabs (p j - s j) <= / 10 ^ 9 / mu.
Proof.
  intros Hn Heps Hit Hx HA Haff HM Hmu Ht HB0 HBb.
  assert (Hn' : 1 <= INR n) by (change 1 with (INR 1); apply le_INR; lia).
  assert (Ee : 0 < / 10 ^ 9) by (apply Rinv_0_lt_compat, pow_lt; lra).
  set (eps := / 10 ^ 9) in *.
  assert (Hmu' : 11 * (INR n * eps) <= mu) by (unfold eps; unfold Rdiv in Hmu; lra).
  assert (P : 0 < INR n * eps) by (apply Rmult_lt_0_compat; lra).
  destruct (C43_newton_affine cfg eps mu n M b f A t xs s0 (10 ^ 80) (10 ^ 80) 100 Hn Heps Ee Hx HA Haff HM ltac:(lra) Ht HB0 HBb) as (t' & p & E & T & _ & Hs); [|lia|exists t', p; auto].
  cbv zeta. set (theta := INR n * eps / (mu - INR n * eps)).
  assert (T1 : 0 <= theta <= / 10).
  { unfold theta. split; [left; apply Rmult_lt_0_compat; [exact P|apply Rinv_0_lt_compat; lra]|].
    apply Rmult_le_reg_r with (mu - INR n * eps); [lra|]. unfold Rdiv. rewrite Rmult_assoc, Rinv_l by lra. lra. }
  eapply Rle_lt_trans with ((/ 10) ^ 100 * (3 * 10 ^ 80)).
  - apply Rmult_le_compat; [apply pow_le; lra| |apply pow_incr; lra|].
    + pose proof (pow_lt 10 80 ltac:(lra)). nra.
    + pose proof (pow_lt 10 80 ltac:(lra)). nra.
  - rewrite <- Rinv_pow by lra. replace 100%nat with (80 + 20)%nat by reflexivity. rewrite pow_add. pose proof (pow_lt 10 80 ltac:(lra)) as Q1.
    rewrite Rinv_mult_distr by (apply Rgt_not_eq, pow_lt; lra).
    replace (/ 10 ^ 80 * / 10 ^ 20 * (3 * 10 ^ 80)) with (3 * / 10 ^ 20) by (field; split; apply Rgt_not_eq, pow_lt; lra).
    unfold eps. apply Rmult_lt_reg_r with (10 ^ 20); [apply pow_lt; lra|]. rewrite Rmult_assoc, Rinv_l by (apply Rgt_not_eq, pow_lt; lra).
    replace (10 ^ 20) with (10 ^ 9 * 10 ^ 11) by (rewrite <- pow_add; reflexivity). rewrite <- Rmult_assoc, Rinv_l by (apply Rgt_not_eq, pow_lt; lra). lra.
Qed.

(** A left inverse with small rows shows that M is well conditioned. *)
Theorem C43_conditioned_by_inverse n M W mu : 0 < mu ->
  (forall i j, (i < n)%nat -> (j < n)%nat -> rsum n (fun k => W i k * M k j) = if Nat.eqb i j then 1 else 0) ->
  (forall i, (i < n)%nat -> mu * rsum n (fun k => Rabs (W i k)) <= 1) -> conditioned n M mu.
Proof.
  intros Hmu HW HR y B HB j Hj.
  assert (Sw : forall m g, rsum m (fun k => rsum n (fun l => g k l)) = rsum n (fun l => rsum m (fun k => g k l))).
  { clear. induction m as [|m IH]; intros g; cbn [rsum]; [symmetry; rewrite (rsum_ext n _ (fun _ => 0 * 0)) by (intros; lra); rewrite rsum_scal; lra|]. rewrite IH, <- rsum_plus. reflexivity. }
  assert (Id : forall m, (m <= n)%nat -> rsum m (fun l => (if Nat.eqb j l then 1 else 0) * y l) = if (j <? m)%nat then y j else 0).
  { induction m as [|m IH]; intros Hm; cbn [rsum]; [reflexivity|]. rewrite IH by lia. destruct (Nat.eqb_spec j m) as [->|Hjm].
    - destruct (Nat.ltb_spec m m), (Nat.ltb_spec m (S m)); try lia. lra.
    - destruct (Nat.ltb_spec j m), (Nat.ltb_spec j (S m)); try lia; lra. }
  assert (E : y j = rsum n (fun k => W j k * row_times n M y k)).
  { transitivity (rsum n (fun l => (if Nat.eqb j l then 1 else 0) * y l)); [rewrite Id by lia; destruct (Nat.ltb_spec j n); [reflexivity|lia]|].
    rewrite (rsum_ext n _ (fun l => rsum n (fun k => W j k * M k l * y l))).
    - rewrite <- Sw. apply rsum_ext. intros k _. unfold row_times. rewrite <- rsum_scal. apply rsum_ext. intros l _. lra.
    - intros l Hl. rewrite <- (HW j l Hj Hl). rewrite (rsum_ext n (fun k => W j k * M k l * y l) (fun k => y l * (W j k * M k l))) by (intros; lra). rewrite rsum_scal. lra. }
  assert (B0 : 0 <= B) by (pose proof (HB j Hj); pose proof (Rabs_pos (row_times n M y j)); lra).
  assert (Ab : forall m, (m <= n)%nat -> Rabs (rsum m (fun k => W j k * row_times n M y k)) <= rsum m (fun k => Rabs (W j k)) * B).
  { induction m as [|m IH]; intros Hm; cbn [rsum]; [rewrite Rabs_R0; lra|]. eapply Rle_trans; [apply Rabs_triang|]. rewrite Rabs_mult.
    pose proof (IH ltac:(lia)). pose proof (HB m ltac:(lia)). pose proof (Rabs_pos (W j m)). nra. }
  pose proof (Ab n (Nat.le_refl n)) as Q. rewrite <- E in Q. pose proof (HR j Hj). 
  apply Rle_trans with (mu * (rsum n (fun k => Rabs (W j k)) * B)); [apply Rmult_le_compat_l; lra|]. rewrite <- Rmult_assoc. nra.
Qed.

(** ** The usual way to write such equations: sums, differences, constant multiples *)
Inductive linear_expr (xs : list string) : expr Rops -> (nat -> R) -> R -> Prop :=
| le_num v : linear_expr xs (ENum (Some v)) (fun _ => 0) (- v)
| le_var j x : nth_error xs j = Some x -> linear_expr xs (EVar x) (fun k => if Nat.eqb k j then 1 else 0) 0
| le_neg e a c : linear_expr xs e a c -> (forall v, e <> ENum v) -> linear_expr xs (EUn UNeg e) (fun k => - a k) (- c)
| le_add e a c e' a' c' : linear_expr xs e a c -> linear_expr xs e' a' c' -> linear_expr xs (EBin BAdd e e') (fun k => a k + a' k) (c + c')
| le_sub e a c e' a' c' : linear_expr xs e a c -> linear_expr xs e' a' c' -> linear_expr xs (EBin BSub e e') (fun k => a k - a' k) (c - c')
| le_mul_l v e a c : linear_expr xs e a c -> linear_expr xs (EBin BMul (ENum (Some v)) e) (fun k => v * a k) (v * c)
| le_mul_r v e a c : linear_expr xs e a c -> linear_expr xs (EBin BMul e (ENum (Some v))) (fun k => v * a k) (v * c)
| le_div v e a c : v <> 0 -> linear_expr xs e a c -> linear_expr xs (EBin BDiv e (ENum (Some v))) (fun k => a k / v) (c / v).

Theorem C43_linear_expr_affine xs e a c : NoDup xs -> linear_expr xs e a c -> affine xs e a c.
Proof.
  intros Nd H. induction H as [v|j x Hj|e a c H (W & Sm & V) Nn|e a c e' a' c' H1 (W1 & S1 & V1) H2 (W2 & S2 & V2)|e a c e' a' c' H1 (W1 & S1 & V1) H2 (W2 & S2 & V2)|v e a c H (W & Sm & V)|v e a c H (W & Sm & V)|v e a c Hv H (W & Sm & V)].
  - split; [intros x O; inversion O|]. split; [intros; simpl; discriminate|]. intros env. cbn [rval].
    rewrite rsum_scal. f_equal. lra.
  - split; [intros y O; inversion O; subst; eapply nth_error_In; eassumption|]. split; [intros; exact I|]. intros env. cbn [rval].
    assert (G : forall m, rsum m (fun k => (if Nat.eqb k j then 1 else 0) * env (nth k xs EmptyString)) = if (j <? m)%nat then env (nth j xs EmptyString) else 0).
    { induction m as [|m IH]; cbn [rsum]; [reflexivity|]. rewrite IH. destruct (Nat.eqb_spec m j) as [->|Hm].
      - destruct (Nat.ltb_spec j j), (Nat.ltb_spec j (S j)); try lia. lra.
      - destruct (Nat.ltb_spec j m), (Nat.ltb_spec j (S m)); try lia; lra. }
    rewrite G. rewrite (nth_error_nth xs j EmptyString Hj). assert (j < length xs)%nat by (apply nth_error_Some; congruence).
    destruct (Nat.ltb_spec j (length xs)); [|lia]. f_equal. lra.
  - split; [intros x O; inversion O; subst; auto|]. split.
    + intros x env Hx. specialize (Sm x env Hx). assert (G : smooth 1 x env e /\ (exists y, rval env e = Some y /\ un_smooth 1 UNeg y) /\ True) by (split; [exact Sm|]; split; [eexists; split; [apply V|exact I]|exact I]).
      destruct e; try exact G. exfalso. eapply Nn. reflexivity.
    + intros env. cbn [rval]. rewrite V. cbn [r_un]. f_equal.
      rewrite (rsum_ext _ (fun j => - a j * env (nth j xs EmptyString)) (fun j => (-1) * (a j * env (nth j xs EmptyString)))) by (intros; lra). rewrite rsum_scal. lra.
  - split; [intros x O; inversion O; subst; auto|]. split; [intros x env Hx; split; auto|]. intros env. cbn [rval]. rewrite V1, V2. cbn [r_bin]. f_equal.
    rewrite (rsum_ext _ (fun j => (a j + a' j) * env (nth j xs EmptyString)) (fun j => a j * env (nth j xs EmptyString) + a' j * env (nth j xs EmptyString))) by (intros; lra). rewrite rsum_plus. lra.
  - split; [intros x O; inversion O; subst; auto|]. split; [intros x env Hx; split; auto|]. intros env. cbn [rval]. rewrite V1, V2. cbn [r_bin]. f_equal.
    rewrite (rsum_ext _ (fun j => (a j - a' j) * env (nth j xs EmptyString)) (fun j => a j * env (nth j xs EmptyString) + (-1) * (a' j * env (nth j xs EmptyString)))) by (intros; lra).
    rewrite rsum_plus, rsum_scal. lra.
  - split; [intros x O; inversion O as [|?|? ? ? O'|? ? ? O']; subst; [inversion O'|auto]|]. split; [intros x env Hx; split; [simpl; discriminate|auto]|].
    intros env. cbn [rval]. rewrite V. cbn [r_bin]. f_equal.
    rewrite (rsum_ext _ (fun j => v * a j * env (nth j xs EmptyString)) (fun j => v * (a j * env (nth j xs EmptyString)))) by (intros; lra). rewrite rsum_scal. lra.
  - split; [intros x O; inversion O as [|?|? ? ? O'|? ? ? O']; subst; [auto|inversion O']|]. split; [intros x env Hx; split; [auto|simpl; discriminate]|].
    intros env. cbn [rval]. rewrite V. cbn [r_bin]. f_equal.
    rewrite (rsum_ext _ (fun j => v * a j * env (nth j xs EmptyString)) (fun j => v * (a j * env (nth j xs EmptyString)))) by (intros; lra). rewrite rsum_scal. lra.
  - split; [intros x O; inversion O as [|?|? ? ? O'|? ? ? O']; subst; [auto|inversion O']|]. split.
    + intros x env Hx. split; [auto|]. split; [simpl; discriminate|]. cbn [rval]. intros E. injection E. exact Hv.
    + intros env. cbn [rval]. rewrite V. cbn [r_bin]. destruct (Req_EM_T v 0); [contradiction|]. f_equal.
      rewrite (rsum_ext _ (fun j => a j / v * env (nth j xs EmptyString)) (fun j => / v * (a j * env (nth j xs EmptyString)))) by (intros; unfold Rdiv; lra). rewrite rsum_scal. unfold Rdiv. lra.
Qed.

(** ** Example: 2*x + y - 3 = 0, x + 3*y - 5 = 0, whose solution is (4/5, 7/5) *)
Section Ex.
Notation num r := (ENum (Some r : Rops)) (only parsing).
Definition ex_aff (i : nat) : expr Rops := match i with
  | O => EBin BSub (EBin BAdd (EBin BMul (num 2) (EVar "x")) (EVar "y")) (num 3)
  | _ => EBin BSub (EBin BAdd (EVar "x") (EBin BMul (num 3) (EVar "y"))) (num 5) end.
Definition ex_M (i j : nat) : R := match i, j with O, O => 2 | O, _ => 1 | _, O => 1 | _, _ => 3 end.
Definition ex_b (i : nat) : R := match i with O => 3 | _ => 5 end.
Definition ex_W (i j : nat) : R := match i, j with O, O => 3/5 | O, _ => -1/5 | _, O => -1/5 | _, _ => 2/5 end.

Lemma affine_ext xs e a c a' c' : affine xs e a c -> (forall j, (j < length xs)%nat -> a j = a' j) -> c = c' -> affine xs e a' c'.
Proof.
  intros (W & Sm & V) Ha <-. split; [exact W|]. split; [exact Sm|]. intros env. rewrite V. do 2 f_equal. apply rsum_ext. intros j Hj. now rewrite Ha.
Qed.

Theorem C43_ex : exists t t' p, VarsTable_make ["x"; "y"] (n_ofZ 1 : Rops) = Ok t /\
  SolveByNewtonRaphson (default_config Rops) (MkSym 2 1 [embed (ex_aff 0); embed (ex_aff 1)]) t = Ok t' /\
  VarsTable_get t' "x" = Ok (Some (p 0%nat) : Rops) /\ VarsTable_get t' "y" = Ok (Some (p 1%nat) : Rops) /\
  Rabs (p 0%nat - 4 / 5) <= / 10 ^ 9 /\ Rabs (p 1%nat - 7 / 5) <= / 10 ^ 9.
Proof.
  assert (Nd : NoDup ["x"; "y"]) by (repeat constructor; simpl; intuition discriminate).
  destruct (C36_make Rops ["x"; "y"] (n_ofZ 1)) as (t & Et & Ht); [discriminate|exact Nd|].
  destruct (C43_newton_affine_defaults (default_config Rops) 1 2 ex_M ex_b ex_aff (MkSym 2 1 [embed (ex_aff 0); embed (ex_aff 1)]) t ["x"; "y"] (fun _ => 1)) as (t' & p & E & T & Hs).
  - lia.
  - cbn. f_equal. simpl. field.
  - cbn. lia.
  - reflexivity.
  - repeat split; cbn. intros i j Hi Hj. destruct i as [|[|i]]; [| |lia]; (destruct j as [|j]; [reflexivity|lia]).
  - intros i Hi. destruct i as [|[|i]]; [| |lia]; (eapply affine_ext; [apply (C43_linear_expr_affine ["x"; "y"] _ _ _ Nd)| |]).
    + eapply le_sub; [eapply le_add; [eapply le_mul_l|]|]; [apply (le_var ["x"; "y"] 0 "x" eq_refl)|apply (le_var ["x"; "y"] 1 "y" eq_refl)|apply le_num].
    + intros j Hj. cbn in Hj. destruct j as [|[|j]]; try lia; cbn; lra.
    + cbn. lra.
    + eapply le_sub; [eapply le_add; [|eapply le_mul_l]|]; [apply (le_var ["x"; "y"] 0 "x" eq_refl)|apply (le_var ["x"; "y"] 1 "y" eq_refl)|apply le_num].
    + intros j Hj. cbn in Hj. destruct j as [|[|j]]; try lia; cbn; lra.
    + cbn. lra.
  - apply (C43_conditioned_by_inverse 2 ex_M ex_W 1); [lra| |].
    + intros i j Hi Hj. destruct i as [|[|i]]; [| |lia]; destruct j as [|[|j]]; try lia; cbn; lra.
    + intros i Hi. destruct i as [|[|i]]; [| |lia]; cbn; unfold Rabs; repeat destruct (Rcase_abs _); lra.
  - cbn. lra.
  - exact Ht.
  - intros i Hi. apply Rle_trans with 1; [|apply pow_R1_Rle; lra]. destruct i as [|[|i]]; [| |lia]; cbn; unfold Rabs; destruct (Rcase_abs _); lra.
  - intros i Hi. apply Rle_trans with (10 ^ 1); [|apply Rle_pow; [lra|lia]]. destruct i as [|[|i]]; [| |lia]; cbn; unfold Rabs; destruct (Rcase_abs _); lra.
  - exists t, t', p. split; [exact Et|]. split; [exact E|].
    assert (G : forall i, (i < 2)%nat -> row_times 2 ex_M (fun j => match j with O => 4/5 | _ => 7/5 end) i = ex_b i).
    { intros i Hi. destruct i as [|[|i]]; [| |lia]; cbn; lra. }
    specialize (Hs _ G). replace (/ 10 ^ 9 / 1) with (/ 10 ^ 9) in Hs by (unfold Rdiv; rewrite Rinv_1, Rmult_1_r; reflexivity).
    split; [apply (h_get _ _ _ T); exists 0%nat; auto|]. split; [apply (h_get _ _ _ T); exists 1%nat; auto|]. split; [apply (Hs 0%nat)|apply (Hs 1%nat)]; lia.
Qed.
End Ex.
