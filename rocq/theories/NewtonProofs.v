(** Newton-Raphson near a regular root (exact reals). *)
From Coq Require Import String List ZArith Bool Arith Lia Reals Lra.
From Coquelicot Require Import Coquelicot.
From Verif Require Import Base MathOp NodeModel SubsModel DiffModel MatModel LinearModel VarsTableModel SymMatModel NonlinearModel
  ExprSpec SubsSpec MatSpec VarsSpec SymMatSpec NonlinearSpec DiffSpec AffineSpec NewtonSpec NodeProofs SymMatProofs Thm_Node Thm_Subs Thm_Vars Thm_SymMat DiffProofs Thm_Diff
  NonlinearProofs Thm_Nonlinear RealSpec AffineSolve Thm_Affine.
Import ListNotations.
Local Open Scope string_scope.
Local Open Scope list_scope.
Local Open Scope R_scope.

(** ** Points as environments *)
Fixpoint index (x : string) (l : list string) : nat :=
  match l with [] => O | y :: l' => if String.eqb x y then O else S (index x l') end.
Lemma index_nth l : NoDup l -> forall j, (j < length l)%nat -> index (nth j l EmptyString) l = j.
Proof.
  induction 1 as [|y l Hy Nd IH]; intros j Hj; [simpl in Hj; lia|]. destruct j as [|j]; simpl.
  - now rewrite String.eqb_refl.
  - simpl in Hj. destruct (String.eqb_spec (nth j l EmptyString) y) as [E|_]; [|rewrite IH; lia].
    exfalso. apply Hy. rewrite <- E. apply nth_In. lia.
Qed.
Definition env_of (xs : list string) (p : nat -> R) (x : string) : R := p (index x xs).
Lemma env_of_at xs p : NoDup xs -> at_reals xs (env_of xs p) p.
Proof. intros Nd j Hj. unfold env_of. now rewrite index_nth. Qed.

Lemma rval_same env env' (e : expr Rops) : (forall y, env y = env' y) -> rval env e = rval env' e.
Proof. intros H. induction e as [w|x|u a IH|b a IHa c IHc]; cbn [rval]; [reflexivity|now rewrite H|now rewrite IH|now rewrite IHa, IHc]. Qed.

Lemma max_exists n (y : nat -> R) : (0 < n)%nat -> exists j0, (j0 < n)%nat /\ forall j, (j < n)%nat -> Rabs (y j) <= Rabs (y j0).
Proof.
  induction n as [|n IH]; intros Hn; [lia|]. destruct (Nat.eq_dec n 0) as [->|Hn0].
  - exists 0%nat. split; [lia|]. intros j Hj. replace j with 0%nat by lia. lra.
  - destruct IH as (j0 & H0 & H); [lia|]. destruct (Rle_lt_dec (Rabs (y j0)) (Rabs (y n))) as [C|C].
    + exists n. split; [lia|]. intros j Hj. destruct (Nat.eq_dec j n) as [->|]; [lra|]. specialize (H j ltac:(lia)). lra.
    + exists j0. split; [lia|]. intros j Hj. destruct (Nat.eq_dec j n) as [->|]; [lra|]. apply H. lia.
Qed.

Lemma rsum_le2 n g h : (forall j, (j < n)%nat -> g j <= h j) -> rsum n g <= rsum n h.
Proof. induction n as [|n IH]; intros H; cbn [rsum]; [lra|]. apply Rplus_le_compat; [apply IH; auto|apply H; lia]. Qed.
Lemma rsum_abs n g : Rabs (rsum n g) <= rsum n (fun j => Rabs (g j)).
Proof. induction n as [|n IH]; cbn [rsum]; [rewrite Rabs_R0; lra|]. eapply Rle_trans; [apply Rabs_triang|]. lra. Qed.
Lemma rsum_bound n a y e m : 0 <= e -> (forall j, (j < n)%nat -> Rabs (a j) <= e) -> (forall j, (j < n)%nat -> Rabs (y j) <= m) ->
  Rabs (rsum n (fun j => a j * y j)) <= INR n * (e * m).
Proof.
  intros He Ha Hy. eapply Rle_trans; [apply rsum_abs|]. apply rsum_le. intros j Hj. rewrite Rabs_mult.
  apply Rmult_le_compat; auto using Rabs_pos.
Qed.

(** A matrix close to a well conditioned one is well conditioned. *)
Lemma conditioned_near n M0 M mu kappa : (0 < n)%nat -> 0 <= kappa -> conditioned n M0 mu ->
  (forall i j, (i < n)%nat -> (j < n)%nat -> Rabs (M i j - M0 i j) <= kappa) -> conditioned n M (mu - INR n * kappa).
Proof.
  intros Hn Hk H0 HM y B HB j Hj. destruct (max_exists n y Hn) as (j0 & Hj0 & Hmax).
  assert (B0 : 0 <= B) by (eapply Rle_trans; [apply Rabs_pos|apply (HB 0%nat Hn)]).
  assert (G : mu * Rabs (y j0) <= B + INR n * (kappa * Rabs (y j0))).
  { apply H0; [|exact Hj0]. intros i Hi.
    replace (row_times n M0 y i) with (row_times n M y i + - rsum n (fun j => (M i j - M0 i j) * y j)).
    - eapply Rle_trans; [apply Rabs_triang|]. rewrite Rabs_Ropp. apply Rplus_le_compat; [now apply HB|].
      apply rsum_bound; auto.
    - unfold row_times. rewrite <- (Rmult_1_l (rsum n (fun j1 => (M i j1 - M0 i j1) * y j1))), Ropp_mult_distr_l, <- rsum_scal, <- rsum_plus.
      apply rsum_ext. intros k _. lra. }
  destruct (Rle_lt_dec 0 (mu - INR n * kappa)) as [C|C].
  - eapply Rle_trans; [apply Rmult_le_compat_l; [exact C|apply Hmax, Hj]|]. lra.
  - pose proof (Rabs_pos (y j)). nra.
Qed.

Section Box.
Context (xs : list string) (n : nat) (f : nat -> expr Rops) (F : nat -> (nat -> R) -> R) (D : nat -> nat -> (nat -> R) -> R)
  (P : (nat -> R) -> Prop).
Hypotheses (Nd : NoDup xs) (Hx : length xs = n) (HS : system xs n f F D P).

Lemma F_ext i p q : (i < n)%nat -> P p -> P q -> (forall j, (j < n)%nat -> p j = q j) -> F i p = F i q.
Proof.
  intros Hi Pp Pq E. destruct (HS i Hi) as [_ H]. destruct (H p (env_of xs p) Pp (env_of_at xs p Nd)) as [E1 _].
  destruct (H q (env_of xs p) Pq) as [E2 _]; [|congruence]. intros j Hj. rewrite (env_of_at xs p Nd j Hj). apply E. lia.
Qed.

(** One coordinate moves from a to b. *)
Definition setpt (p : nat -> R) (k : nat) (v : R) (j : nat) : R := if Nat.eqb j k then v else p j.

Lemma move_coord i k p a b : (i < n)%nat -> (k < n)%nat -> (forall v, Rmin a b <= v <= Rmax a b -> P (setpt p k v)) ->
  exists c, Rmin a b <= c <= Rmax a b /\ F i (setpt p k b) - F i (setpt p k a) = D i k (setpt p k c) * (b - a).
Proof.
  intros Hi Hk HP. destruct (HS i Hi) as [_ H]. set (x := nth k xs EmptyString). set (env := env_of xs p).
  assert (At : forall v, at_reals xs (upd env x v) (setpt p k v)).
  { intros v j Hj. unfold upd, setpt. destruct (Nat.eqb_spec j k) as [->|Hjk].
    - fold x. now rewrite String.eqb_refl.
    - destruct (String.eqb_spec (nth j xs EmptyString) x) as [E|_]; [|exact (env_of_at xs p Nd j Hj)].
      exfalso. apply Hjk. unfold x in E. apply NoDup_nth in E; auto; lia. }
  assert (V : forall v, Rmin a b <= v <= Rmax a b -> as_function env x (f i) v = F i (setpt p k v)).
  { intros v Hv. unfold as_function. destruct (H _ _ (HP v Hv) (At v)) as [-> _]. reflexivity. }
  assert (Dv : forall v, Rmin a b <= v <= Rmax a b -> is_derive (as_function env x (f i)) v (D i k (setpt p k v))).
  { intros v Hv. destruct (H _ _ (HP v Hv) (At v)) as [_ Hd]. destruct (Hd k ltac:(lia)) as [_ [_ Hd']]. fold x in Hd'.
    assert (Eu : upd env x v x = v) by (unfold upd; now rewrite String.eqb_refl). rewrite Eu in Hd'.
    eapply is_derive_ext; [|exact Hd']. intros t. unfold as_function.
    assert (Ev : forall e, rval (upd (upd env x v) x t) e = rval (upd env x t) e).
    { intros e. apply rval_same. intros y. unfold upd. now destruct (String.eqb y x). }
    now rewrite Ev. }
  destruct (MVT_gen (as_function env x (f i)) a b (fun v => D i k (setpt p k v))) as (c & Hc & E).
  - intros v Hv. apply Dv. lra.
  - intros v Hv. apply continuity_pt_filterlim. apply (ex_derive_continuous (as_function env x (f i)) v). eexists. apply Dv. exact Hv.
  - exists c. split; [exact Hc|]. pose proof (Rmin_l a b). pose proof (Rmin_r a b). pose proof (Rmax_l a b). pose proof (Rmax_r a b).
    rewrite <- !V by lra. exact E.
Qed.

(** The difference of two values, as a sum of partial derivatives at intermediate points times differences of coordinates. *)
Context (s : nat -> R) (r : R).
Hypothesis HB : forall p, box n s r p -> P p.

Lemma staircase i p : (i < n)%nat -> 0 <= r -> box n s r p ->
  exists xi : nat -> nat -> R, (forall k, (k < n)%nat -> box n s r (xi k) /\ forall j, (j < n)%nat -> Rabs (xi k j - p j) <= Rabs (p j - s j)) /\
    F i p - F i s = rsum n (fun k => D i k (xi k) * (p k - s k)).
Proof.
  intros Hi Hr Hp. set (path := fun k j => if (j <? k)%nat then s j else p j).
  assert (Bp : forall k, box n s r (path k)).
  { intros k j Hj. unfold path. destruct (j <? k)%nat; [rewrite Rminus_eq_0, Rabs_R0; lra|auto]. }
  assert (St : forall k v, (k < n)%nat -> Rmin (s k) (p k) <= v <= Rmax (s k) (p k) -> box n s r (setpt (path k) k v) /\
     forall j, (j < n)%nat -> Rabs (setpt (path k) k v j - p j) <= Rabs (p j - s j)).
  { intros k v Hk Hv. assert (G : Rabs (v - s k) <= Rabs (p k - s k) /\ Rabs (v - p k) <= Rabs (p k - s k)).
    { revert Hv. unfold Rmin, Rmax. destruct (Rle_dec (s k) (p k)); unfold Rabs; repeat destruct (Rcase_abs _); lra. }
    split; intros j Hj; unfold setpt; destruct (Nat.eqb_spec j k) as [->|Hjk].
    - eapply Rle_trans; [apply G|apply Hp, Hk].
    - apply Bp, Hj.
    - apply G.
    - unfold path. destruct (j <? k)%nat.
      + rewrite Rabs_minus_sym. lra.
      + rewrite Rminus_eq_0, Rabs_R0. apply Rabs_pos. }
  assert (Step : forall k, (k < n)%nat -> exists xi : nat -> R, (box n s r xi /\ forall j, (j < n)%nat -> Rabs (xi j - p j) <= Rabs (p j - s j)) /\
     F i (path k) - F i (path (S k)) = D i k xi * (p k - s k)).
  { intros k Hk. destruct (move_coord i k (path k) (s k) (p k) Hi Hk) as (c & Hc & E).
    - intros v Hv. apply HB. now apply St.
    - exists (setpt (path k) k c). split; [apply St; auto|]. rewrite <- E. pose proof (Rmin_l (s k) (p k)). pose proof (Rmin_r (s k) (p k)). pose proof (Rmax_l (s k) (p k)). pose proof (Rmax_r (s k) (p k)).
      rewrite (F_ext i (path k) (setpt (path k) k (p k))), (F_ext i (path (S k)) (setpt (path k) k (s k))); auto; try (apply HB; apply St; auto; lra).
      + intros j _. unfold setpt, path. destruct (Nat.eqb_spec j k) as [->|Hjk].
        * destruct (Nat.ltb_spec k (S k)); [reflexivity|lia].
        * destruct (Nat.ltb_spec j k), (Nat.ltb_spec j (S k)); try lia; reflexivity.
      + intros j _. unfold setpt, path. destruct (Nat.eqb_spec j k) as [->|]; [|reflexivity]. destruct (Nat.ltb_spec k k); [lia|reflexivity]. }
  assert (Sum : forall m, (m <= n)%nat -> exists xi : nat -> nat -> R, (forall k, (k < m)%nat -> box n s r (xi k) /\ forall j, (j < n)%nat -> Rabs (xi k j - p j) <= Rabs (p j - s j)) /\
     F i (path 0%nat) - F i (path m) = rsum m (fun k => D i k (xi k) * (p k - s k))).
  { induction m as [|m IH]; intros Hm.
    - exists (fun _ => p). split; [intros; lia|]. cbn [rsum]. lra.
    - destruct IH as (xi & Hxi & E); [lia|]. destruct (Step m ltac:(lia)) as (x1 & Hx1 & E1).
      exists (fun k => if Nat.eqb k m then x1 else xi k). split.
      + intros k Hk. destruct (Nat.eqb_spec k m); [exact Hx1|apply Hxi; lia].
      + cbn [rsum]. rewrite Nat.eqb_refl. rewrite (rsum_ext m _ (fun k => D i k (xi k) * (p k - s k))); [lra|].
        intros k Hk. destruct (Nat.eqb_spec k m); [lia|reflexivity]. }
  destruct (Sum n (Nat.le_refl n)) as (xi & Hxi & E). exists xi. split; [exact Hxi|]. rewrite <- E.
  rewrite (F_ext i s (path n)); [reflexivity|exact Hi| |apply HB, Bp|].
  - apply HB. intros j Hj. rewrite Rminus_eq_0, Rabs_R0. lra.
  - intros j Hj. unfold path. destruct (Nat.ltb_spec j n); [reflexivity|lia].
Qed.
End Box.

(** ** One Newton step *)
Section Step.
Context (cfg : config Rops) (eps : R) (xs : list string) (n : nat) (f : nat -> expr Rops) (jac : nat -> nat -> expr Rops)
  (F : nat -> (nat -> R) -> R) (D : nat -> nat -> (nat -> R) -> R) (P : (nat -> R) -> Prop).
Hypotheses (Hn : (0 < n)%nat) (Nd : NoDup xs) (Hx : length xs = n) (Heps : epsilon cfg = Some eps) (He : 0 < eps)
  (HS : system xs n f F D P) (HJ : jacobian cfg xs n f jac).
Notation pt s := (fun j => Some (s j) : Rops).

Lemma smooth_here i p : (i < n)%nat -> P p -> no_int_ops (f i).
Proof.
  intros Hi Hp. destruct (HS i Hi) as [_ H]. destruct (H p (env_of xs p) Hp (env_of_at xs p Nd)) as [_ Hd].
  destruct (Hd 0%nat ltac:(lia)) as [Sm _]. exact (smooth_no_int _ _ _ _ Sm).
Qed.

Lemma at_reals_of env p : at_point (K:=Rops) xs env (pt p) -> at_reals xs (reals_of env) p.
Proof. intros H j Hj. unfold reals_of. now rewrite (H j (nth j xs EmptyString) (nth_error_nth' xs EmptyString Hj)). Qed.

Lemma eval_here (e : expr Rops) st env p v : vars_within xs e -> no_int_ops e ->
  at_point (K:=Rops) xs env (pt p) -> rval (reals_of env) e = Some v -> eval_in (K:=Rops) st env e = Value (Some v).
Proof.
  intros W Ni H E. apply (eval_rval st (reals_of env)); auto. intros x O. apply W in O. apply In_nth_error in O as [j Hj]. unfold reals_of. now rewrite (H j x Hj).
Qed.

Lemma values_here p : P p -> values_at cfg xs (pt p) n f (fun i => Some (F i p) : Rops).
Proof.
  intros Hp i Hi. destruct (HS i Hi) as [W H]. split; [exact W|]. intros env Ha.
  apply (eval_here (f i) _ env p); auto; [now apply (smooth_here i p)|]. now apply (H p _ Hp (at_reals_of env p Ha)).
Qed.

Lemma jac_here i j p : (i < n)%nat -> (j < n)%nat -> P p ->
  vars_within xs (jac i j) /\ forall env, at_point (K:=Rops) xs env (pt p) -> eval_in (K:=Rops) (throwOnInvalidValue cfg) env (jac i j) = Value (Some (D i j p)).
Proof.
  intros Hi Hj Hp. destruct (HS i Hi) as [W H].
  assert (Df : Diff cfg (embed (f i)) (nth j xs EmptyString) 1 = Ok (embed (jac i j))) by (apply HJ; [exact Hi|apply nth_error_nth'; lia]).
  destruct (C22_diff_outcome Rops cfg (f i) (nth j xs EmptyString) 1) as [(e2 & D2 & _ & Ni & O)|[_ D2]]; [lia|now apply (smooth_here i p)| |change (Z.of_nat 1) with 1%Z in D2; congruence].
  change (Z.of_nat 1) with 1%Z in D2. rewrite Df in D2. injection D2 as D2. apply embed_inj in D2. subst e2.
  assert (W' : vars_within xs (jac i j)) by (intros x Ox; apply W, O, Ox). split; [exact W'|]. intros env Ha.
  destruct (H p _ Hp (at_reals_of env p Ha)) as [_ Hd]. destruct (Hd j ltac:(lia)) as [Sm Pa].
  destruct (C20_diff cfg (nth j xs EmptyString) (reals_of env) (f i) Sm) as (e2 & d & D2 & Vd & P2).
  rewrite Df in D2. injection D2 as D2. apply embed_inj in D2. subst e2.
  rewrite (C20_partial_unique _ _ _ _ _ P2 Pa) in Vd. exact (eval_here (jac i j) _ env p _ W' Ni Ha Vd).
Qed.

Lemma solved_here p : P p -> (solved cfg xs n f (pt p) <-> forall i, (i < n)%nat -> Rabs (F i p) < eps).
Proof.
  intros Hp. split.
  - intros (phi & V & Va) i Hi.
    assert (E : exists env, at_point (K:=Rops) xs env (pt p)).
    { exists (fun x => Some (env_of xs p x)). intros j x Hj. unfold env_of. rewrite <- (nth_error_nth xs j EmptyString Hj). rewrite index_nth; auto. apply nth_error_Some. congruence. }
    destruct E as [env Ha]. destruct (V i Hi) as [_ E1]. destruct (values_here p Hp i Hi) as [_ E2].
    specialize (E1 env Ha). specialize (E2 env Ha). rewrite E1 in E2. injection E2 as E2. specialize (Va i Hi). rewrite Heps, E2 in Va.
    cbn in Va. rewrite Rminus_0_r in Va. now apply Rltb_spec in Va.
  - intros H. exists (fun i => Some (F i p)). split; [now apply values_here|]. intros i Hi. rewrite Heps. cbn. rewrite Rminus_0_r. apply Rltb_spec. auto.
Qed.

(** The next point q + x: how far from [s]. *)
Lemma step_here p q s m B Eq : P p -> conditioned n (fun i j => D i j p) m -> INR n * eps < m ->
  (forall i, (i < n)%nat -> Rabs (F i p + row_times n (fun i j => D i j p) (fun j => s j - q j) i) <= B) ->
  (forall j, (j < n)%nat -> Rabs (q j - s j) <= Eq) ->
  exists x, newton_step cfg xs n f jac (pt p) (pt q) (pt (fun j => q j + x j)) /\
    box n s ((B + INR n * eps * Eq) / (m - INR n * eps)) (fun j => q j + x j).
Proof.
  intros Hp HM Hm HB HE. set (M := fun i j => D i j p) in *.
  destruct (@solve_conditioned cfg eps m n M Heps (Rlt_le _ _ He) Hn HM Hm (fun i => - F i p)) as (x & L & Hr).
  exists x. split.
  - exists (fun i => Some (F i p)), (fun i j => Some (M i j)), (pt x). split; [now apply values_here|]. split; [|split].
    + intros i Hi j Hj. apply (jac_here i j p); auto. lia.
    + rewrite Hx. exact L.
    + reflexivity.
  - set (y := fun j => q j + x j - s j). destruct (max_exists n y Hn) as (j0 & Hj0 & Hmax). set (E' := Rabs (y j0)) in *.
    assert (HX : rsum n (fun j => Rabs (x j)) <= INR n * (E' + Eq)).
    { apply rsum_le. intros j Hj. replace (x j) with (y j + - (q j - s j)) by (unfold y; ring).
      eapply Rle_trans; [apply Rabs_triang|]. rewrite Rabs_Ropp. specialize (Hmax j Hj). specialize (HE j Hj). lra. }
    assert (G : m * E' <= B + eps * (INR n * (E' + Eq))).
    { apply (HM y); [|exact Hj0]. intros i Hi.
      replace (row_times n M y i) with ((row_times n M x i - - F i p) + - (F i p + row_times n M (fun j => s j - q j) i)).
      - eapply Rle_trans; [apply Rabs_triang|]. rewrite Rabs_Ropp, Rplus_comm. apply Rplus_le_compat; [now apply HB|].
        eapply Rle_trans; [now apply Hr|]. apply Rmult_le_compat_l; lra.
      - unfold y. rewrite row_times_minus, (row_times_minus n M (fun j => q j + x j) s), row_times_plus. ring. }
    intros j Hj. apply Rmult_le_reg_r with (m - INR n * eps); [lra|].
    replace ((B + INR n * eps * Eq) / (m - INR n * eps) * (m - INR n * eps)) with (B + INR n * eps * Eq) by (field; lra).
    apply Rle_trans with (E' * (m - INR n * eps)); [|lra]. apply Rmult_le_compat_r; [lra|]. exact (Hmax j Hj).
Qed.
End Step.

(** ** The iteration *)
Section Run.
Context (cfg : config Rops) (eps : R) (xs : list string) (n : nat) (f : nat -> expr Rops) (jac : nat -> nat -> expr Rops)
  (F : nat -> (nat -> R) -> R) (D : nat -> nat -> (nat -> R) -> R) (s s0 : nat -> R) (r mu kappa G : R).
Definition here (p : nat -> R) : Prop := box n s r p \/ p = s0.
Hypotheses (Hn : (0 < n)%nat) (Nd : NoDup xs) (Hx : length xs = n) (Heps : epsilon cfg = Some eps) (He : 0 < eps)
  (HS : system xs n f F D here)
  (Hr : 0 <= r) (Hk : 0 <= kappa)
  (Root : forall i, (i < n)%nat -> F i s = 0)
  (HM : conditioned n (fun i j => D i j s) mu)
  (Var : forall p i j, box n s r p -> (i < n)%nat -> (j < n)%nat -> Rabs (D i j p - D i j s) <= kappa)
  (Hmu : INR n * (3 * kappa + 2 * eps) < mu)
  (HG : forall i, (i < n)%nat -> rsum n (fun j => Rabs (D i j s)) <= G).
Notation pt s := (fun j => Some (s j) : Rops).
Let m := mu - INR n * kappa.
Definition theta := INR n * (2 * kappa + eps) / (mu - INR n * kappa - INR n * eps).

Let nk : 0 <= INR n * kappa. Proof. apply Rmult_le_pos; auto using pos_INR. Qed.
Let ne : 0 < INR n * eps. Proof. apply Rmult_lt_0_compat; auto. now apply lt_0_INR. Qed.
Let mpos : INR n * eps < m. Proof. unfold m. lra. Qed.
Lemma theta_range : 0 <= theta < 1.
Proof.
  unfold theta. fold m. assert (0 < m - INR n * eps) by lra. split.
  - apply Rmult_le_pos; [lra|]. left. now apply Rinv_0_lt_compat.
  - apply Rmult_lt_reg_r with (m - INR n * eps); [auto|]. unfold Rdiv. rewrite Rmult_assoc, Rinv_l by lra. unfold m. lra.
Qed.

Lemma box_here p : box n s r p -> here p. Proof. now left. Qed.
Lemma box_mono p r1 r2 : r1 <= r2 -> box n s r1 p -> box n s r2 p.
Proof. intros H B j Hj. specialize (B j Hj). lra. Qed.

(** The values near the root, and the root near small values. *)
Lemma value_bound p e i : (i < n)%nat -> box n s r p -> box n s e p -> Rabs (F i p) <= (G + INR n * kappa) * e.
Proof.
  intros Hi Hp Hpe. destruct (staircase xs n f F D here Nd Hx HS s r box_here i p Hi Hr Hp) as (xi & Hxi & E).
  rewrite (Root i Hi), Rminus_0_r in E. rewrite E. eapply Rle_trans; [apply rsum_abs|].
  assert (He0 : 0 <= e) by (specialize (Hpe i Hi); pose proof (Rabs_pos (p i - s i)); lra).
  apply Rle_trans with (rsum n (fun k => (Rabs (D i k s) + kappa) * e)).
  - apply rsum_le2. intros k Hkn. rewrite Rabs_mult. apply Rmult_le_compat; auto using Rabs_pos.
    replace (D i k (xi k)) with (D i k s + (D i k (xi k) - D i k s)) by ring. eapply Rle_trans; [apply Rabs_triang|].
    apply Rplus_le_compat_l, Var; auto. now apply Hxi.
  - rewrite (rsum_ext n _ (fun k => e * (Rabs (D i k s) + kappa))) by (intros; ring). rewrite rsum_scal, rsum_plus.
    assert (Ek : rsum n (fun _ => kappa) = INR n * kappa).
    { clear. induction n as [|k IH]; cbn [rsum]; [simpl; lra|]. rewrite S_INR, IH. lra. }
    rewrite Ek, Rmult_comm. apply Rmult_le_compat_r; [exact He0|]. specialize (HG i Hi). lra.
Qed.

Lemma root_bound p B : box n s r p -> (forall i, (i < n)%nat -> Rabs (F i p) <= B) -> box n s (B / m) p.
Proof.
  intros Hp HB. assert (H : forall i, exists xi : nat -> nat -> R, (i < n)%nat -> (forall k, (k < n)%nat -> box n s r (xi k)) /\ F i p = rsum n (fun k => D i k (xi k) * (p k - s k))).
  { intros i. destruct (lt_dec i n) as [Hi|]; [|exists (fun _ => p); lia].
    destruct (staircase xs n f F D here Nd Hx HS s r box_here i p Hi Hr Hp) as (xi & Hxi & E). exists xi. intros _. split; [intros k Hkn; now apply Hxi|].
    rewrite (Root i Hi), Rminus_0_r in E. exact E. }
  assert (H' : exists X : nat -> nat -> nat -> R, forall i, (i < n)%nat -> (forall k, (k < n)%nat -> box n s r (X i k)) /\ F i p = rsum n (fun k => D i k (X i k) * (p k - s k))).
  { clear - H. assert (G : forall k, (k <= n)%nat -> exists X : nat -> nat -> nat -> R, forall i, (i < k)%nat -> (forall k, (k < n)%nat -> box n s r (X i k)) /\ F i p = rsum n (fun k => D i k (X i k) * (p k - s k))).
    { induction k as [|k IH]; intros Hk; [exists (fun _ _ _ => 0); lia|]. destruct IH as [X HX]; [lia|]. destruct (H k) as [xi Hxi].
      exists (fun i => if Nat.eqb i k then xi else X i). intros i Hi. destruct (Nat.eqb_spec i k) as [->|]; [apply Hxi; lia|apply HX; lia]. }
    destruct (G n (Nat.le_refl n)) as [X HX]. now exists X. }
  destruct H' as [X HX]. intros j Hj.
  assert (C : conditioned n (fun i k => D i k (X i k)) m).
  { apply (conditioned_near n (fun i j => D i j s)); auto. intros i k Hi Hkn. apply Var; auto. now apply HX. }
  apply Rmult_le_reg_l with m; [lra|]. replace (m * (B / m)) with B by (field; lra).
  apply (C (fun j => p j - s j)); auto. intros i Hi. destruct (HX i Hi) as [_ E]. unfold row_times. rewrite <- E. now apply HB.
Qed.

Hypothesis HJ : jacobian cfg xs n f jac.

Lemma near_step p e : box n s r p -> box n s e p -> 0 <= e ->
  exists p', newton_step cfg xs n f jac (pt p) (pt p) (pt p') /\ box n s (theta * e) p'.
Proof.
  intros Hp Hpe He0.
  assert (C : conditioned n (fun i j => D i j p) m) by (apply (conditioned_near n (fun i j => D i j s)); auto).
  destruct (step_here cfg eps xs n f jac F D here Hn Nd Hx Heps He HS HJ p p s m (INR n * (2 * kappa * e)) e) as (x & St & B); auto.
  - now left.
  - intros i Hi. destruct (staircase xs n f F D here Nd Hx HS s r box_here i p Hi Hr Hp) as (xi & Hxi & E).
    rewrite (Root i Hi), Rminus_0_r in E. rewrite E. unfold row_times. rewrite <- rsum_plus.
    rewrite (rsum_ext n _ (fun j => (D i j (xi j) - D i j p) * (p j - s j))) by (intros; ring).
    apply rsum_bound; [lra| |exact Hpe]. intros j Hj.
    replace (D i j (xi j) - D i j p) with ((D i j (xi j) - D i j s) + - (D i j p - D i j s)) by ring.
    eapply Rle_trans; [apply Rabs_triang|]. rewrite Rabs_Ropp. pose proof (Var (xi j) i j (proj1 (Hxi j Hj)) Hi Hj). pose proof (Var p i j Hp Hi Hj). lra.
  - exists (fun j => p j + x j). split; [exact St|]. eapply box_mono; [|exact B]. right. unfold theta. fold m. field. lra.
Qed.

(** The first step starts at s0 but adds to 0. *)
Context (mu0 B0 S0 : R).
Hypotheses (HM0 : conditioned n (fun i j => D i j s0) mu0) (Hmu0 : INR n * eps < mu0)
  (HB0 : forall i, (i < n)%nat -> Rabs (F i s0 + row_times n (fun i j => D i j s0) s i) <= B0)
  (HS0 : forall j, (j < n)%nat -> Rabs (s j) <= S0)
  (Land : (B0 + INR n * eps * S0) / (mu0 - INR n * eps) <= r).

Lemma first_step : exists p', newton_step cfg xs n f jac (pt s0) (fun _ => n_ofZ 0) (pt p') /\ box n s r p'.
Proof.
  destruct (step_here cfg eps xs n f jac F D here Hn Nd Hx Heps He HS HJ s0 (fun _ => 0) s mu0 B0 S0) as (x & St & B); auto.
  - now right.
  - intros i Hi. unfold row_times. rewrite (rsum_ext n _ (fun j => D i j s0 * s j)) by (intros; ring). now apply HB0.
  - intros j Hj. replace (0 - s j) with (- s j) by ring. rewrite Rabs_Ropp. auto.
  - exists (fun j => 0 + x j). split; [exact St|]. eapply box_mono; [exact Land|exact B].
Qed.

Lemma run_here k : (exists k' ps, (k' <= k)%nat /\ newton_points cfg xs n f jac (pt s0) (fun i => pt (ps i)) k' /\ solved cfg xs n f (pt (ps k')) /\
      (forall i, (i < k')%nat -> ~ solved cfg xs n f (pt (ps i))) /\ here (ps k')) \/
  exists ps, newton_points cfg xs n f jac (pt s0) (fun i => pt (ps i)) k /\ (forall i, (i <= k)%nat -> ~ solved cfg xs n f (pt (ps i))) /\
    match k with O => ps O = s0 | S k' => box n s (theta ^ k' * r) (ps k) end.
Proof.
  pose proof theta_range as Th.
  assert (Dec : forall p, here p -> {solved cfg xs n f (pt p)} + {~ solved cfg xs n f (pt p)}).
  { intros p Hp. destruct (all_dec n (fun i => Rabs (F i p)) eps) as [H|H]; [left|right]; rewrite (solved_here cfg eps xs n f F D here Hn Nd Hx Heps HS p Hp); exact H. }
  assert (Z : newton_points cfg xs n f jac (pt s0) (fun _ => pt s0) 0) by (split; [reflexivity|intros i Hi; lia]).
  induction k as [|k IH].
  - destruct (Dec s0 (or_intror eq_refl)) as [Q|Q].
    + left. exists 0%nat, (fun _ => s0). repeat split; auto; try (intros; lia). now right.
    + right. exists (fun _ => s0). repeat split; auto; intros; lia.
  - destruct IH as [(k' & ps & Hk' & H)|(ps & PP & Ns & Hb)]; [left; exists k', ps; split; [lia|exact H]|].
    assert (Pow : forall k, theta ^ k * r <= r). { intros j. rewrite <- (Rmult_1_l r) at 2. apply Rmult_le_compat_r; [exact Hr|]. rewrite <- (pow1 j). apply pow_incr. lra. }
    assert (St : exists p', newton_step cfg xs n f jac (pt (ps k)) (match k with O => fun _ => n_ofZ 0 | _ => pt (ps k) end) (pt p') /\ box n s (theta ^ k * r) p').
    { destruct k as [|k].
      - rewrite Hb. destruct first_step as (p' & St & B). exists p'. split; [exact St|]. simpl. now rewrite Rmult_1_l.
      - destruct (near_step (ps (S k)) (theta ^ k * r)) as (p' & St & B); auto.
        + eapply box_mono; [apply Pow|exact Hb].
        + apply Rmult_le_pos; [apply pow_le; lra|exact Hr].
        + exists p'. split; [exact St|]. simpl. now rewrite Rmult_assoc. }
    destruct St as (p' & St & B).
    set (ps' := fun i => if (i <=? k)%nat then ps i else p').
    assert (Old : forall i, (i <= k)%nat -> ps' i = ps i) by (intros i Hi; unfold ps'; destruct (Nat.leb_spec i k); [reflexivity|lia]).
    assert (New : ps' (S k) = p') by (unfold ps'; destruct (Nat.leb_spec (S k) k); [lia|reflexivity]).
    assert (P' : newton_points cfg xs n f jac (pt s0) (fun i => pt (ps' i)) (S k)).
    { destruct PP as [P0 Ps]. split; [intros j Hj; cbv beta; rewrite Old by lia; exact (P0 j Hj)|].
      intros i Hi. destruct (Nat.eq_dec i k) as [->|Hik].
      - rewrite New, (Old k) by lia. destruct k; exact St.
      - specialize (Ps i ltac:(lia)). rewrite (Old i), (Old (S i)) by lia. destruct i; exact Ps. }
    assert (Hp' : here p') by (left; eapply box_mono; [apply Pow|exact B]).
    destruct (Dec p' Hp') as [Q|Q].
    + left. exists (S k), ps'. split; [lia|]. split; [exact P'|]. rewrite New. split; [exact Q|]. split; [|exact Hp']. intros i Hi. rewrite Old by lia. apply Ns. lia.
    + right. exists ps'. split; [exact P'|]. rewrite New. split; [|exact B]. intros i Hi. destruct (Nat.eq_dec i (S k)) as [->|]; [rewrite New; exact Q|]. rewrite Old by lia. apply Ns. lia.
Qed.
End Run.
