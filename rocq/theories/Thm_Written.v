(** C74: Solve depends on the functions, not on how they are written (exact reals). *)
From Coq Require Import String List ZArith Bool Arith Lia Reals Lra.
From Coquelicot Require Import Coquelicot.
From Verif Require Import Base MathOp NodeModel SubsModel DiffModel MatModel LinearModel VarsTableModel SymMatModel NonlinearModel
  ExprSpec SubsSpec MatSpec VarsSpec SymMatSpec NonlinearSpec DiffSpec AffineSpec NewtonSpec NodeProofs MatProofs SymMatProofs Thm_Node Thm_Subs Thm_Vars Thm_SymMat DiffProofs Thm_Diff
  NonlinearProofs Thm_Nonlinear RealSpec Thm_Affine SolveFinite WrittenSpec.
Import ListNotations.
Local Open Scope string_scope. Local Open Scope list_scope. Local Open Scope nat_scope.

(** Strict evaluation gives the mathematical value. *)
Lemma eval_gives (r : string -> R) (env : string -> option R) (e : expr Rops) : forall v, eval_in (K:=Rops) true env e = ExprSpec.Value v ->
  all_nums finite e -> (forall x, occurs x e -> env x = Some (r x)) -> v <> None /\ rval r e = v.
Proof.
  induction e as [w|x|u a IH|b a IHa c IHc]; intros v E Hf H; cbn [eval_in rval all_nums] in *.
  - injection E as <-. now split.
  - rewrite H in E by constructor. injection E as <-. now split.
  - destruct (eval_in true env a) as [y| | |] eqn:Ea; try discriminate.
    destruct (IH y eq_refl Hf (fun x O => H x (occ_un x u a O))) as [Ny Ey]. destruct y as [y|]; [|now destruct Ny]. rewrite Ey.
    unfold finish in E. rewrite un_sem_R, invalidb_R in E. destruct (r_un u y) as [z|]; cbn [andb] in E; [|discriminate].
    injection E as <-. split; [discriminate|reflexivity].
  - destruct Hf as [Hf1 Hf2].
    destruct (eval_in true env a) as [y| | |] eqn:Ea; try discriminate.
    destruct (IHa y eq_refl Hf1 (fun x O => H x (occ_l x b a c O))) as [Ny Ey]. destruct y as [y|]; [|now destruct Ny]. rewrite Ey.
    destruct (eval_in true env c) as [z| | |] eqn:Ec; try discriminate.
    destruct (IHc z eq_refl Hf2 (fun x O => H x (occ_r x b a c O))) as [Nz Ez]. destruct z as [z|]; [|now destruct Nz]. rewrite Ez.
    assert (B : forall o, bin_sem b (Some y : Rops) (Some z : Rops) = Some o -> r_bin b y z = o).
    { intros o. destruct b; cbn; try (intros [= <-]; reflexivity).
      - destruct (Rtoint y), (Rtoint z); cbn; intros Q; try discriminate; now injection Q as <-.
      - destruct (Rtoint y), (Rtoint z); cbn; intros Q; try discriminate; now injection Q as <-.
      - destruct (Rtoint y), (Rtoint z); cbn; intros Q; try discriminate. destruct (_ || _)%bool; [discriminate|]. now injection Q as <-. }
    unfold finish in E. destruct (bin_sem b (Some y : Rops) (Some z : Rops)) as [o|] eqn:Eb; [|discriminate]. rewrite (B o eq_refl).
    rewrite invalidb_R in E. destruct o as [o|]; cbn [andb] in E; [|discriminate]. injection E as <-. split; [discriminate|reflexivity].
Qed.

Definition fin (k : nat) (p : nat -> Rops) : Prop := forall j, j < k -> p j <> None.
Definition real_of (v : Rops) : R := match v with Some r => r | None => 0%R end.
Lemma fin_real k (p : nat -> Rops) j : fin k p -> j < k -> p j = Some (real_of (p j)).
Proof. intros H Hj. specialize (H j Hj). destruct (p j) as [r|]; [reflexivity|now destruct H]. Qed.
Lemma fin_add (a b : Rops) : a <> None -> b <> None -> (n_add a b : Rops) <> None.
Proof. destruct a, b; cbn; congruence. Qed.
Lemma fin_mul (a b : Rops) : a <> None -> b <> None -> (n_mul a b : Rops) <> None.
Proof. destruct a, b; cbn; congruence. Qed.
Lemma fin_neg (a : Rops) : a <> None -> (n_neg a : Rops) <> None.
Proof. destruct a; cbn; congruence. Qed.
Lemma fin_ksum k (h : nat -> Rops) : fin k h -> (ksum k h : Rops) <> None.
Proof.
  intros H. unfold ksum. assert (G : forall l (a : Rops), a <> None -> (forall v, In v l -> v <> None) -> fold_left (n_add (n:=Rops)) l a <> None).
  { induction l as [|v l IH]; intros a Ha Hl; [exact Ha|]. cbn [fold_left]. apply IH; [|intros w Hw; apply Hl; now right].
    apply fin_add; [exact Ha|apply Hl; now left]. }
  assert (A : forall v, In v (map h (seq 0 k)) -> v <> None).
  { intros v Hv. apply in_map_iff in Hv as (j & <- & Hj). apply in_seq in Hj. apply H. lia. }
  unfold va_sum. destruct (map h (seq 0 k)) as [|v l]; [discriminate|]. apply G; [apply A; now left|]. intros w Hw. apply A. now right.
Qed.
Lemma fin_step_length k : (step_length k : Rops) <> None.
Proof. induction k as [|k IH]; [discriminate|]. cbn [step_length Nat.iter]. apply fin_mul; [exact IH|discriminate]. Qed.

Section Written.
Context (cfg : config Rops) (eps : R) (xs : list string) (n : nat) (f g : nat -> expr Rops).
Hypotheses (Heps : epsilon cfg = Some eps) (Hpos : (0 < eps)%R) (Hthrow : throwOnInvalidValue cfg = true)
  (Hn : 0 < n) (Ne : xs <> []) (Nd : NoDup xs) (Same : same_equations xs n f g).
Notation m := (length xs).

Lemma m_pos : 0 < m. Proof using Ne. clear -Ne. destruct xs as [|x l]; [exfalso; now apply Ne|apply Nat.lt_0_succ]. Qed.
Lemma env_reals (env : string -> Rops) p : fin m p -> at_point xs env p -> forall x, In x xs -> env x = Some (reals_of env x).
Proof using All.
  intros Hp He x Hx. apply In_nth_error in Hx as [j Hj]. assert (Lj : j < m) by (apply nth_error_Some; congruence).
  pose proof (He j x Hj) as E. unfold reals_of. rewrite E. exact (fin_real m p j Hp Lj).
Qed.
(** Where the first system has values, these are its mathematical values. *)
Lemma values_f p phi : fin m p -> values_at cfg xs p n f phi -> forall env, at_point xs env p ->
  forall i, i < n -> phi i <> None /\ rval (reals_of env) (f i) = phi i.
Proof using All.
  intros Hp V env He i Hi. destruct (V i Hi) as [W E]. specialize (E env He). rewrite Hthrow in E.
  destruct (proj1 Same i Hi) as (Hf & _). apply (eval_gives (reals_of env) env (f i) (phi i) E Hf).
  intros x O. exact (env_reals env p Hp He x (W x O)).
Qed.
Lemma values_def p phi : fin m p -> values_at cfg xs p n f phi -> forall env, at_point xs env p ->
  forall i, i < n -> rval (reals_of env) (f i) <> None.
Proof using All. intros Hp V env He i Hi. destruct (values_f p phi Hp V env He i Hi) as [N E]. now rewrite E. Qed.
Lemma values_here p phi : fin m p -> values_at cfg xs p n f phi -> forall env, at_point xs env p -> forall i, i < n ->
  rval (reals_of env) (g i) = rval (reals_of env) (f i) /\ forall x, In x xs -> smooth 1 x (reals_of env) (f i) /\ smooth 1 x (reals_of env) (g i).
Proof using All. intros Hp V env He i Hi. exact (proj2 Same (reals_of env) (values_def p phi Hp V env He) i Hi). Qed.
Lemma some_x : exists x, In x xs. Proof using Ne. clear -Ne. destruct xs as [|x l]; [exfalso; now apply Ne|]. exists x. now left. Qed.

Lemma values_same p phi : fin m p -> values_at cfg xs p n f phi -> values_at cfg xs p n g phi /\ fin n phi.
Proof using All.
  intros Hp V. split.
  - intros i Hi. destruct (proj1 Same i Hi) as (_ & _ & W). split; [exact W|]. intros env He.
    destruct (values_f p phi Hp V env He i Hi) as [N E]. destruct (values_here p phi Hp V env He i Hi) as [Eg Sm].
    destruct some_x as [x Hx]. destruct (Sm x Hx) as [_ Sg]. destruct (phi i) as [v|] eqn:Ev; [|now destruct N].
    apply (Thm_Affine.eval_rval _ (reals_of env) env (g i) v); [congruence|exact (smooth_no_int _ _ _ _ Sg)|].
    intros y O. exact (env_reals env p Hp He y (W y O)).
  - intros i Hi. destruct (point_exists xs p Nd) as [env He]. exact (proj1 (values_f p phi Hp V env He i Hi)).
Qed.
Lemma values_agree p e k v w : values_at cfg xs p k e v -> values_at cfg xs p k e w -> forall i, i < k -> v i = w i.
Proof using All.
  intros Hv Hw i Hi. destruct (point_exists xs p Nd) as [env He]. destruct (Hv i Hi) as [_ V]. destruct (Hw i Hi) as [_ W].
  specialize (V env He). specialize (W env He). congruence.
Qed.
Lemma solved_same p phi : fin m p -> values_at cfg xs p n f phi -> solved cfg xs n g p <-> solved cfg xs n f p.
Proof using All.
  intros Hp V. destruct (values_same p phi Hp V) as [Vg _]. split; intros (psi & V' & Va).
  - exists phi. split; [exact V|]. eapply vanish_ext; [|exact Va]. exact (values_agree p g n psi phi V' Vg).
  - exists phi. split; [exact Vg|]. eapply vanish_ext; [|exact Va]. exact (values_agree p f n psi phi V' V).
Qed.

(** ** Derivatives *)
Lemma near_all (P : nat -> R -> Prop) k (x : R) : (forall i, i < k -> locally x (P i)) -> locally x (fun t => forall i, i < k -> P i t).
Proof using All.
  induction k as [|k IH]; intros H.
  - apply (filter_forall (F := locally x)). intros t i Hi. lia.
  - assert (H1 := IH (fun i Hi => H i (Nat.lt_lt_succ_r _ _ Hi))). assert (H2 := H k (Nat.lt_succ_diag_r k)).
    generalize (filter_and _ _ H1 H2). apply filter_imp. intros t [Q1 Q2] i Hi.
    destruct (Nat.eq_dec i k) as [->|Nk]; [exact Q2|]. apply Q1. lia.
Qed.
(** At a point where the first system has values, both have the same partial derivatives. *)
Lemma partial_same env x d : (forall i, i < n -> rval env (f i) <> None) -> In x xs -> forall i, i < n ->
  partial env x (f i) d -> partial env x (g i) d.
Proof using All.
  intros Hd Hx i Hi [_ Df].
  assert (Nr : locally (env x) (fun t => forall k, k < n -> rval (upd env x t) (f k) <> None)).
  { apply near_all. intros k Hk. destruct (proj2 Same env Hd k Hk) as [_ Sm]. destruct (Sm x Hx) as [Sf _].
    destruct (C20_diff (default_config Rops) x env (f k) Sf) as (_ & d' & _ & _ & Pd). exact (proj1 Pd). }
  split.
  - unfold defined_near. generalize Nr. apply filter_imp. intros t Ht. rewrite (proj1 (proj2 Same (upd env x t) Ht i Hi)). now apply Ht.
  - eapply is_derive_ext_loc; [|exact Df]. generalize Nr. apply filter_imp. intros t Ht. unfold as_function.
    now rewrite (proj1 (proj2 Same (upd env x t) Ht i Hi)).
Qed.

Section WithJ.
Variables (jac jac' : nat -> nat -> expr Rops).
Hypotheses (HJ : jacobian cfg xs n f jac) (HJ' : jacobian cfg xs n g jac').

Lemma jac_value (h : nat -> expr Rops) (jh : nat -> nat -> expr Rops) i j x (env : string -> Rops) p : fin m p -> at_point xs env p ->
  jacobian cfg xs n h jh -> i < n -> nth_error xs j = Some x -> vars_within xs (h i) -> smooth 1 x (reals_of env) (h i) ->
  vars_within xs (jh i j) /\ exists d, partial (reals_of env) x (h i) d /\ eval_in (K:=Rops) (throwOnInvalidValue cfg) env (jh i j) = ExprSpec.Value (Some d).
Proof using All.
  intros Hp He Hj Hi Hx W Sm. pose proof (Hj i j x Hi Hx) as Df. pose proof (smooth_no_int _ _ _ _ Sm) as Ni.
  destruct (C22_diff_outcome Rops cfg (h i) x 1) as [(e2 & D2 & _ & Ni2 & O)|[_ D2]]; [lia|exact Ni| |change (Z.of_nat 1) with 1%Z in D2; congruence].
  change (Z.of_nat 1) with 1%Z in D2. rewrite Df in D2. injection D2 as D2. apply embed_inj in D2. subst e2.
  assert (W' : vars_within xs (jh i j)) by (intros y Oy; apply W, O, Oy). split; [exact W'|].
  destruct (C20_diff cfg x (reals_of env) (h i) Sm) as (e2 & d & D2 & Vd & P2).
  rewrite Df in D2. injection D2 as D2. apply embed_inj in D2. subst e2. exists d. split; [exact P2|].
  apply (Thm_Affine.eval_rval _ (reals_of env) env (jh i j) d Vd Ni2). intros y O'. exact (env_reals env p Hp He y (W' y O')).
Qed.
Lemma jac_same p phi (M : nat -> nat -> Rops) : fin m p -> values_at cfg xs p n f phi ->
  (forall i, i < n -> values_at cfg xs p m (jac i) (M i)) ->
  (forall i, i < n -> values_at cfg xs p m (jac' i) (M i)) /\ forall i, i < n -> fin m (M i).
Proof using All.
  intros Hp V VM.
  assert (Q : forall env, at_point xs env p -> forall i j, i < n -> j < m -> vars_within xs (jac' i j) /\ M i j <> None /\
    eval_in (K:=Rops) (throwOnInvalidValue cfg) env (jac' i j) = ExprSpec.Value (M i j)).
  { intros env He i j Hi Hj. destruct (nth_error xs j) as [x|] eqn:Hx; [|apply nth_error_None in Hx; lia].
    assert (Ix : In x xs) by (eapply nth_error_In; eauto).
    destruct (values_here p phi Hp V env He i Hi) as [_ Sm]. destruct (Sm x Ix) as [Sf Sg]. destruct (proj1 Same i Hi) as (_ & Wf & Wg).
    destruct (jac_value f jac i j x env p Hp He HJ Hi Hx Wf Sf) as (_ & d & Pd & Ed).
    destruct (jac_value g jac' i j x env p Hp He HJ' Hi Hx Wg Sg) as (W' & d' & Pd' & Ed').
    pose proof (partial_same (reals_of env) x d (values_def p phi Hp V env He) Ix i Hi Pd) as Pg.
    rewrite (C20_partial_unique _ _ _ _ _ Pg Pd') in Ed. destruct (VM i Hi j Hj) as [_ Vj]. rewrite (Vj env He) in Ed. injection Ed as Ed.
    split; [exact W'|]. rewrite Ed. split; [discriminate|exact Ed']. }
  destruct (point_exists xs p Nd) as [env0 He0]. split.
  - intros i Hi j Hj. split; [exact (proj1 (Q env0 He0 i j Hi Hj))|]. intros env He. exact (proj2 (proj2 (Q env He i j Hi Hj))).
  - intros i Hi j Hj. exact (proj1 (proj2 (Q env0 He0 i j Hi Hj))).
Qed.

Lemma linear_fin n' m' (M : nat -> nat -> Rops) (b d : nat -> Rops) : 0 < n' -> 0 < m' -> (forall i, i < n' -> fin m' (M i)) -> fin n' b ->
  linear_solution cfg n' m' M b d -> fin m' d.
Proof using All.
  intros Hn' Hm' HM Hb (A & B & X & HA & HB & E & HX).
  assert (HA' : is_mat n' m' (fun i j => Some (real_of (M i j)) : Rops) A).
  { eapply is_mat_ext; [|exact HA]. intros i j Hi Hj. exact (fin_real m' (M i) j (HM i Hi) Hj). }
  assert (HB' : is_mat n' 1 (fun i _ => Some (real_of (b i)) : Rops) B).
  { eapply is_mat_ext; [|exact HB]. intros i j Hi Hj. exact (fin_real n' b i Hb Hi). }
  destruct (solve_finite Heps Hpos Hn' Hm' HA' HB' E) as [h Hh]. intros j Hj.
  pose proof (is_mat_agree _ _ _ _ _ HX Hh j 0 Hj Nat.lt_0_1) as Ej. cbv beta in Ej. rewrite Ej. discriminate.
Qed.

(** ** Newton-Raphson *)
Lemma step_same p q q' : fin m p -> fin m q -> newton_step cfg xs n f jac p q q' -> newton_step cfg xs n g jac' p q q' /\ fin m q'.
Proof using All.
  intros Hp Hq (phi & M & d & V & VM & L & E). destruct (values_same p phi Hp V) as [Vg Fp]. destruct (jac_same p phi M Hp V VM) as [VM' FM].
  split; [exists phi, M, d; auto|]. intros j Hj. rewrite E by exact Hj. apply fin_add; [now apply Hq|].
  refine (linear_fin n m M _ d Hn m_pos FM _ L j Hj). intros i Hi. apply fin_neg. now apply Fp.
Qed.
Lemma points_same p0 ps k : fin m p0 -> newton_points cfg xs n f jac p0 ps k ->
  newton_points cfg xs n g jac' p0 ps k /\ forall i, i <= k -> fin m (ps i).
Proof using All.
  intros Hp [E0 St].
  assert (F : forall i, i <= k -> fin m (ps i)).
  { induction i as [|i IH]; intros Hi.
    - intros j Hj. rewrite E0 by exact Hj. now apply Hp.
    - assert (Fi : fin m (ps i)) by (apply IH; lia). refine (proj2 (step_same (ps i) _ (ps (S i)) Fi _ (St i ltac:(lia)))).
      destruct i; [intros j _; discriminate|exact Fi]. }
  split; [|exact F]. split; [exact E0|]. intros i Hi. refine (proj1 (step_same (ps i) _ (ps (S i)) (F i ltac:(lia)) _ (St i Hi))).
  destruct i; [intros j _; discriminate|apply F; lia].
Qed.

(** ** LM *)
Lemma armijo_same p d a b : n = m -> fin m p -> fin m d -> a <> None -> armijo_test cfg xs n f jac p d a b -> armijo_test cfg xs n g jac' p d a b.
Proof using All.
  intros En Hp Hd Ha (phi1 & phi & M & V1 & V & VM & E). exists phi1, phi, M.
  assert (F1 : fin m (fun j => n_add (p j) (n_mul (d j) a))) by (intros j Hj; apply fin_add; [now apply Hp|apply fin_mul; [now apply Hd|exact Ha]]).
  split; [exact (proj1 (values_same _ _ F1 V1))|]. split; [exact (proj1 (values_same _ _ Hp V))|]. split; [exact (proj1 (jac_same p phi M Hp V VM))|exact E].
Qed.
Lemma direction_same phi mu z psi d : n = m -> fin n phi -> mu <> None -> fin m z -> values_at cfg xs z n f psi ->
  lm_direction cfg xs n jac phi mu z d -> lm_direction cfg xs n jac' phi mu z d /\ fin n d.
Proof using All.
  intros En Fp Fmu Hz V (M & VM & L). destruct (jac_same z psi M Hz V VM) as [VM' FM]. split; [exists M; auto|].
  refine (linear_fin n n _ _ d Hn Hn _ _ L).
  - intros i Hi j Hj. apply fin_add; [apply fin_ksum; intros l Hl; apply fin_mul; apply FM; lia|].
    apply fin_mul; [destruct (Nat.eqb i j); discriminate|exact Fmu].
  - intros i Hi. apply fin_neg, fin_ksum. intros l Hl. apply fin_mul; [apply FM; lia|now apply Fp].
Qed.
Lemma trial_same p phi mu z psi z' : n = m -> fin m p -> fin n phi -> mu <> None -> fin m z -> values_at cfg xs z n f psi ->
  lm_trial cfg xs n f jac p phi mu z z' -> lm_trial cfg xs n g jac' p phi mu z z' /\ fin m z'.
Proof using All.
  intros En Hp Fp Fmu Hz V (d & k & Di & T1 & T0 & E). destruct (direction_same phi mu z psi d En Fp Fmu Hz V Di) as [Di' Fd].
  assert (Fd' : fin m d) by (rewrite <- En; exact Fd). split.
  - exists d, k. split; [exact Di'|]. split; [apply armijo_same; auto using fin_step_length|]. split; [|exact E].
    intros k' Hk. apply armijo_same; auto using fin_step_length.
  - intros j Hj. rewrite E by lia. apply fin_add; [now apply Hp|]. apply fin_mul; [now apply Fd'|apply fin_step_length].
Qed.
Lemma tries_same p phi k mu z : n = m -> fin m p -> values_at cfg xs p n f phi -> lm_tries cfg xs n f jac p phi k mu z ->
  lm_tries cfg xs n g jac' p phi k mu z /\ mu <> None /\ fin m z /\ exists psi, values_at cfg xs z n f psi.
Proof using All.
  intros En Hp V. destruct (values_same p phi Hp V) as [Vg Fp]. induction 1 as [|k mu z z' phi' T IH Tr V' L].
  - split; [constructor|]. split; [discriminate|]. eauto.
  - destruct IH as (T' & Fmu & Fz & psi & Vz). destruct (trial_same p phi mu z psi z' En Hp Fp Fmu Fz Vz Tr) as [Tr' Fz'].
    split; [econstructor; eauto; exact (proj1 (values_same z' phi' Fz' V'))|]. split; [now apply fin_mul|]. eauto.
Qed.
Lemma lm_step_same k p p' : n = m -> fin m p -> lm_step cfg xs n f jac k p p' -> lm_step cfg xs n g jac' k p p' /\ fin m p'.
Proof using All.
  intros En Hp (phi & phi' & mu & z & V & Nv & T & Tr & V' & L).
  destruct (values_same p phi Hp V) as [Vg Fp]. destruct (tries_same p phi k mu z En Hp V T) as (T' & Fmu & Fz & psi & Vz).
  destruct (trial_same p phi mu z psi p' En Hp Fp Fmu Fz Vz Tr) as [Tr' Fp']. split; [|exact Fp'].
  exists phi, phi', mu, z. repeat (split; [assumption|]). split; [exact (proj1 (values_same p' phi' Fp' V'))|exact L].
Qed.
Lemma lm_points_same p0 ps rej k : n = m -> fin m p0 -> lm_points cfg xs n f jac p0 ps rej k ->
  lm_points cfg xs n g jac' p0 ps rej k /\ forall i, i <= k -> fin m (ps i).
Proof using All.
  intros En Hp [E0 St].
  assert (F : forall i, i <= k -> fin m (ps i)).
  { induction i as [|i IH]; intros Hi; [now rewrite E0|]. exact (proj2 (lm_step_same (rej i) _ _ En (IH ltac:(lia)) (St i ltac:(lia)))). }
  split; [|exact F]. split; [exact E0|]. intros i Hi. exact (proj1 (lm_step_same (rej i) _ _ En (F i ltac:(lia)) (St i Hi))).
Qed.
Lemma rejected_same p r : n = m -> fin m p -> lm_rejected cfg xs n f jac p r -> lm_rejected cfg xs n g jac' p r.
Proof using All.
  intros En Hp [H|(phi & mu & z & V & Nv & T)]; [now left|]. right. exists phi, mu, z.
  split; [exact (proj1 (values_same p phi Hp V))|]. split; [exact Nv|]. exact (proj1 (tries_same p phi r mu z En Hp V T)).
Qed.
End WithJ.

(** ** The theorems *)
Section Theorems.
Variables (A B : symmat Rops) (t : vars_table Rops) (vs : list Rops).
Hypotheses (HA : is_sym n 1 (fun i _ => f i) A) (HB : is_sym n 1 (fun i _ => g i) B) (Ht : holds t xs vs) (Hvs : List.Forall finite vs).
Notation start := (fun j => nth j vs (n_ofZ 0 : Rops)).

Lemma start_fin : fin m start.
Proof using Ht Hvs.
  clear -Ht Hvs. intros j Hj. rewrite List.Forall_forall in Hvs. apply Hvs, nth_In. rewrite <- (h_len _ _ _ Ht). exact Hj.
Qed.
(** If the first system has values at the start, the second can be differentiated. *)
Lemma jacobians phi : values_at cfg xs start n f phi ->
  exists J' jac', Jacobian cfg B xs = Ok J' /\ is_sym n m jac' J' /\ jacobian cfg xs n g jac'.
Proof using All.
  intros V. destruct (point_exists xs start Nd) as [env He].
  destruct (Jacobian_cases cfg n g B xs Hn Ne HB) as [(J & jac & E & Hj & S)|E]; [eauto|exfalso].
  destruct (C35_jacobian_value cfg n g B xs (reals_of env) Hn Ne HB) as (J & h & E' & _).
  { intros i x Hi Hx. exact (proj2 (proj2 (values_here start phi start_fin V env He i Hi) x Hx)). }
  rewrite E in E'. discriminate.
Qed.
Lemma first_values jac k ps : newton_points cfg xs n f jac start ps k -> (exists phi, values_at cfg xs (ps k) n f phi) -> exists phi, values_at cfg xs start n f phi.
Proof using All.
  intros [E0 St] [phi V]. destruct k as [|k].
  - exists phi. eapply values_ext; [exact E0|exact V].
  - destruct (St 0 ltac:(lia)) as (phi0 & M & d & V0 & _). exists phi0. eapply values_ext; [exact E0|exact V0].
Qed.
Lemma lm_first_values jac k ps rej : lm_points cfg xs n f jac start ps rej k -> (exists phi, values_at cfg xs (ps k) n f phi) -> exists phi, values_at cfg xs start n f phi.
Proof using All.
  intros [E0 St] [phi V]. destruct k as [|k].
  - exists phi. rewrite <- E0. exact V.
  - destruct (St 0 ltac:(lia)) as (phi0 & phi1 & mu & z & V0 & _). exists phi0. rewrite <- E0. exact V0.
Qed.

Theorem C74_newton p : 
  (exists t1, SolveByNewtonRaphson cfg A t = Ok t1 /\ table_at xs t1 p) -> exists t2, SolveByNewtonRaphson cfg B t = Ok t2 /\ table_at xs t2 p.
Proof using All.
  intros (t1 & E & T).
  destruct (Jacobian_cases cfg n f A xs Hn Ne HA) as [(J & jac & EJ & HJ & SJ)|EJ].
  2:{ exfalso. destruct (newton_all cfg n f A t xs vs Hn HA Ht) as [[E' _]|(jac & HJ & _)]; [congruence|].
      unfold SolveByNewtonRaphson in E. rewrite (proj1 (table_at_vars _ _ _ (holds_table_at _ _ _ Ht))), EJ in E.
      destruct (Vec_make _ _) in E; cbn [bind] in E; discriminate E. }
  destruct (proj1 (C39_newton_result cfg n f A t xs vs Hn HA Ht J jac EJ SJ p) (ex_intro _ t1 (conj E T))) as (k & ps & P & Ep & So & Ns & Hk).
  destruct (first_values jac k ps P) as [phi0 V0]; [destruct So as (phi & V & _); eauto|].
  destruct (jacobians phi0 V0) as (J' & jac' & EJ' & SJ' & HJ').
  destruct (points_same jac jac' HJ HJ' start ps k start_fin P) as [P' Fin].
  apply (proj2 (C39_newton_result cfg n g B t xs vs Hn HB Ht J' jac' EJ' SJ' p)). exists k, ps. split; [exact P'|]. split; [exact Ep|].
  split; [destruct So as (phi & V & Va); apply (solved_same (ps k) phi (Fin k (le_n k)) V); exists phi; auto|]. split; [|exact Hk].
  intros i Hi So'. destruct (proj2 P i Hi) as (phi & M & d & V & _). apply (Ns i Hi). apply (solved_same (ps i) phi (Fin i ltac:(lia)) V). exact So'.
Qed.
Theorem C74_newton_limit : SolveByNewtonRaphson cfg A t = Throw limit_exceeded -> SolveByNewtonRaphson cfg B t = Throw limit_exceeded.
Proof using All.
  intros E. destruct (Jacobian_cases cfg n f A xs Hn Ne HA) as [(J & jac & EJ & HJ & SJ)|EJ].
  2:{ exfalso. unfold SolveByNewtonRaphson in E. rewrite (proj1 (table_at_vars _ _ _ (holds_table_at _ _ _ Ht))), EJ in E.
      unfold Vec_make in E. destruct (start_zero n t xs vs Hn Ht) as (Q & E0 & _). unfold Vec_make in E0. rewrite E0 in E. cbn [bind] in E. discriminate E. }
  destruct (proj1 (C39_newton_limit cfg n f A t xs vs Hn HA Ht J jac EJ SJ) E) as (ps & k & Ek & P & Vs).
  destruct (first_values jac k ps P) as [phi0 V0]; [destruct (Vs k (le_n k)) as (phi & V & _); eauto|].
  destruct (jacobians phi0 V0) as (J' & jac' & EJ' & SJ' & HJ').
  destruct (points_same jac jac' HJ HJ' start ps k start_fin P) as [P' Fin].
  apply (proj2 (C39_newton_limit cfg n g B t xs vs Hn HB Ht J' jac' EJ' SJ')). exists ps, k. split; [exact Ek|]. split; [exact P'|].
  intros i Hi. destruct (Vs i Hi) as (phi & V & Nv). exists phi. split; [exact (proj1 (values_same (ps i) phi (Fin i Hi) V))|exact Nv].
Qed.
Lemma lm_jacobian fuel afuel : SolveByLM cfg fuel afuel A t <> Terminate -> exists J jac, Jacobian cfg A xs = Ok J /\ is_sym n m jac J /\ jacobian cfg xs n f jac.
Proof using All.
  intros H. destruct (Jacobian_cases cfg n f A xs Hn Ne HA) as [(J & jac & EJ & HJ & SJ)|EJ]; [eauto|exfalso; apply H].
  unfold SolveByLM. rewrite (proj1 (table_at_vars _ _ _ (holds_table_at _ _ _ Ht))), EJ. reflexivity.
Qed.
Theorem C74_lm p : n = m -> (exists fuel afuel t1, SolveByLM cfg fuel afuel A t = Ok t1 /\ table_at xs t1 p) ->
  exists fuel afuel t2, SolveByLM cfg fuel afuel B t = Ok t2 /\ table_at xs t2 p.
Proof using All.
  intros En (fuel & afuel & t1 & E & T). destruct (lm_jacobian fuel afuel) as (J & jac & EJ & SJ & HJ); [congruence|].
  destruct (proj1 (C49_lm_result cfg n f A t xs vs Hn HA Ht J jac EJ SJ p En)) as (k & ps & rej & P & Ep & So & Hk); [eauto|].
  destruct (lm_first_values jac k ps rej P) as [phi0 V0]; [destruct So as (phi & V & _); eauto|].
  destruct (jacobians phi0 V0) as (J' & jac' & EJ' & SJ' & HJ').
  destruct (lm_points_same jac jac' HJ HJ' start ps rej k En start_fin P) as [P' Fin].
  apply (proj2 (C49_lm_result cfg n g B t xs vs Hn HB Ht J' jac' EJ' SJ' p En)). exists k, ps, rej. split; [exact P'|]. split; [exact Ep|].
  split; [|exact Hk]. destruct So as (phi & V & Va). apply (solved_same (ps k) phi (Fin k (le_n k)) V). exists phi. auto.
Qed.
Theorem C74_lm_limit : n = m -> (exists fuel afuel, SolveByLM cfg fuel afuel A t = Throw limit_exceeded) ->
  exists fuel afuel, SolveByLM cfg fuel afuel B t = Throw limit_exceeded.
Proof using All.
  intros En (fuel & afuel & E). destruct (lm_jacobian fuel afuel) as (J & jac & EJ & SJ & HJ); [congruence|].
  destruct (proj1 (C49_lm_limit cfg n f A t xs vs Hn HA Ht J jac EJ SJ En)) as (H0 & k & ps & rej & r & P & R & Hk); [eauto|].
  assert (V : exists phi, values_at cfg xs start n f phi).
  { destruct k as [|k].
    - cbn [lm_count] in Hk. destruct R as [R|(phi & mu & z & V & _)]; [lia|]. exists phi. rewrite <- (proj1 P). exact V.
    - destruct (proj2 P 0 ltac:(lia)) as (phi & phi1 & mu & z & V & _). exists phi. rewrite <- (proj1 P). exact V. }
  destruct V as [phi0 V0].
  destruct (jacobians phi0 V0) as (J' & jac' & EJ' & SJ' & HJ').
  destruct (lm_points_same jac jac' HJ HJ' start ps rej k En start_fin P) as [P' Fin].
  apply (proj2 (C49_lm_limit cfg n g B t xs vs Hn HB Ht J' jac' EJ' SJ' En)). split; [exact H0|]. exists k, ps, rej, r.
  split; [exact P'|]. split; [exact (rejected_same jac jac' HJ HJ' (ps k) r En (Fin k (le_n k)) R)|exact Hk].
Qed.
(** Solve: the same answer, and the same report when the limit is reached. *)
Theorem C74_solve p : (nonlinearMethod cfg = LM -> n = m) ->
  (exists fuel afuel t1, Solve cfg fuel afuel A t = Ok t1 /\ table_at xs t1 p) -> exists fuel afuel t2, Solve cfg fuel afuel B t = Ok t2 /\ table_at xs t2 p.
Proof using All.
  intros Hm (fuel & afuel & t1 & E & T). unfold Solve in *. destruct (nonlinearMethod cfg).
  - destruct (C74_newton p) as (t2 & E2 & T2); [eauto|]. exists 0, 0, t2. auto.
  - apply (C74_lm p); [now apply Hm|eauto].
Qed.
Theorem C74_solve_limit : (nonlinearMethod cfg = LM -> n = m) ->
  (exists fuel afuel, Solve cfg fuel afuel A t = Throw limit_exceeded) -> exists fuel afuel, Solve cfg fuel afuel B t = Throw limit_exceeded.
Proof using All.
  intros Hm (fuel & afuel & E). unfold Solve in *. destruct (nonlinearMethod cfg).
  - exists 0, 0. now apply C74_newton_limit.
  - apply C74_lm_limit; [now apply Hm|eauto].
Qed.
End Theorems.

(** Solve without initial values, when the same variables occur in both systems. *)
Theorem C74_solve1 A B : is_sym n 1 (fun i _ => f i) A -> is_sym n 1 (fun i _ => g i) B ->
  SymMat_GetAllVarNames A = Ok xs -> SymMat_GetAllVarNames B = Ok xs -> initialValue cfg <> None -> (nonlinearMethod cfg = LM -> n = m) ->
  (forall p, (exists fuel afuel t1, Solve1 cfg fuel afuel A = Ok t1 /\ table_at xs t1 p) -> exists fuel afuel t2, Solve1 cfg fuel afuel B = Ok t2 /\ table_at xs t2 p) /\
  ((exists fuel afuel, Solve1 cfg fuel afuel A = Throw limit_exceeded) -> exists fuel afuel, Solve1 cfg fuel afuel B = Throw limit_exceeded).
Proof using All.
  intros HA HB EA EB Hi Hm. unfold Solve1. rewrite EA, EB. cbn [bind].
  destruct (C36_make Rops xs (initialValue cfg) Ne Nd) as (t & -> & Ht). cbn [bind].
  assert (Fv : List.Forall finite (repeat (initialValue cfg) (length xs))).
  { apply List.Forall_forall. intros v Hv. apply repeat_spec in Hv. rewrite Hv. exact Hi. }
  split; [intros p; exact (C74_solve A B t _ HA HB Ht Fv p Hm)|exact (C74_solve_limit A B t _ HA HB Ht Fv Hm)].
Qed.
End Written.

(** x*x - 4 and (x-2)*(x+2): the first is solved from 1 with answers near 2, so the second is,
    with the same answer. *)
Definition ex_f : expr Rops := EBin BSub (EBin BMul (EVar "x") (EVar "x")) (ENum (Some 4%R)).
Definition ex_g : expr Rops := EBin BMul (EBin BSub (EVar "x") (ENum (Some 2%R))) (EBin BAdd (EVar "x") (ENum (Some 2%R))).
Example C74_ex : same_equations ["x"] 1 (fun _ => ex_f) (fun _ => ex_g).
Proof.
  split.
  - intros i _. split; [cbn; unfold finite; intuition discriminate|]. split; intros x O; inversion O; subst;
      repeat match goal with H : occurs _ _ |- _ => inversion H; subst; clear H end; simpl; auto.
  - intros env _ i _. split.
    + cbn. enough (Q : ((env "x" - 2) * (env "x" + 2) = env "x" * env "x" - 4)%R) by (rewrite Q; reflexivity). ring.
    + intros x _. cbn. repeat split; discriminate.
Qed.

(** 2*x + y - 3 and x + 3*y - 5 (C43_ex) written as 2*(x-1) + (y-1) and 3*y - (5-x): Newton solves
    both from (1, 1) and finds the same point, near (4/5, 7/5). *)
Definition ex_aff' (i : nat) : expr Rops := match i with
  | O => EBin BAdd (EBin BMul (ENum (Some 2%R)) (EBin BSub (EVar "x") (ENum (Some 1%R)))) (EBin BSub (EVar "y") (ENum (Some 1%R)))
  | _ => EBin BSub (EBin BMul (ENum (Some 3%R)) (EVar "y")) (EBin BSub (ENum (Some 5%R)) (EVar "x")) end.
Example C74_ex_solved : exists t t1 t2 (a b : R), VarsTable_make ["x"; "y"] (n_ofZ 1 : Rops) = Ok t /\
  SolveByNewtonRaphson (default_config Rops) (MkSym 2 1 [embed (ex_aff 0); embed (ex_aff 1)]) t = Ok t1 /\
  SolveByNewtonRaphson (default_config Rops) (MkSym 2 1 [embed (ex_aff' 0); embed (ex_aff' 1)]) t = Ok t2 /\
  VarsTable_get t1 "x" = Ok (Some a : Rops) /\ VarsTable_get t2 "x" = Ok (Some a : Rops) /\
  VarsTable_get t1 "y" = Ok (Some b : Rops) /\ VarsTable_get t2 "y" = Ok (Some b : Rops) /\
  (Rabs (a - 4 / 5) <= / 10 ^ 9)%R /\ (Rabs (b - 7 / 5) <= / 10 ^ 9)%R.
Proof.
  destruct C43_ex as (t & t1 & p & Et & E1 & Gx & Gy & Bx & By).
  assert (Nd : NoDup ["x"; "y"]) by (repeat constructor; simpl; intuition discriminate).
  destruct (C36_make Rops ["x"; "y"] (n_ofZ 1)) as (t0 & Et0 & Ht); [discriminate|exact Nd|].
  assert (t0 = t) by congruence. subst t0. clear Et0.
  assert (HA : forall h : nat -> expr Rops, is_sym 2 1 (fun i _ => h i) (MkSym 2 1 [embed (h 0); embed (h 1)])).
  { intros h. repeat split; cbn. intros i j Hi Hj. destruct i as [|[|i]]; [| |lia]; (destruct j as [|j]; [reflexivity|lia]). }
  assert (T1 : exists q, table_at ["x"; "y"] t1 q).
  { destruct (newton_all (default_config Rops) 2 ex_aff _ t ["x"; "y"] _ ltac:(lia) (HA ex_aff) Ht) as [[E _]|(jac & _ & [(k & ps & t' & _ & T & _ & _ & _ & E)|[(k & ps & _ & _ & _ & E)|Fl]])].
    - rewrite E in E1. discriminate.
    - assert (t' = t1) by congruence. subst t'. eauto.
    - rewrite E in E1. discriminate.
    - rewrite E1 in Fl. destruct Fl. }
  destruct T1 as [q T1].
  assert (Sm : same_equations ["x"; "y"] 2 ex_aff ex_aff').
  { split.
    - intros i _. split; [destruct i; cbn; unfold finite; intuition discriminate|].
      split; intros x O; destruct i; cbn in O;
      repeat match goal with H : occurs _ _ |- _ => inversion H; subst; clear H end; simpl; auto.
    - intros env _ i _. split.
      + destruct i; cbn; [enough (Q : (2 * (env "x" - 1) + (env "y" - 1) = 2 * env "x" + env "y" - 3)%R) by (rewrite Q; reflexivity); ring|].
        enough (Q : (3 * env "y" - (5 - env "x") = env "x" + 3 * env "y" - 5)%R) by (rewrite Q; reflexivity). ring.
      + intros x _. destruct i; cbn; repeat split; discriminate. }
  assert (Fv : List.Forall finite (repeat (n_ofZ 1 : Rops) 2)) by (repeat constructor; discriminate).
  assert (He : epsilon (default_config Rops) = Some (/ 10 ^ 9)%R) by (cbn; f_equal; simpl; field).
  destruct (C74_newton (default_config Rops) (/ 10 ^ 9)%R ["x"; "y"] 2 ex_aff ex_aff' He ltac:(apply Rinv_0_lt_compat, pow_lt; lra) eq_refl ltac:(lia)
    ltac:(discriminate) Nd Sm _ _ t _ (HA ex_aff) (HA ex_aff') Ht Fv q) as (t2 & E2 & T2); [eauto|].
  exists t, t1, t2, (p 0), (p 1). split; [exact Et|]. split; [exact E1|]. split; [exact E2|].
  assert (Q0 : q 0 = Some (p 0)).
  { enough (Q : Ok (q 0) = Ok (Some (p 0) : Rops)) by congruence. rewrite <- Gx. symmetry. apply (h_get _ _ _ T1). exists 0. auto. }
  assert (Q1 : q 1 = Some (p 1)).
  { enough (Q : Ok (q 1) = Ok (Some (p 1) : Rops)) by congruence. rewrite <- Gy. symmetry. apply (h_get _ _ _ T1). exists 1. auto. }
  split; [exact Gx|]. split; [apply (h_get _ _ _ T2); exists 0; cbn [map seq nth_error length]; rewrite Q0; auto|].
  split; [exact Gy|]. split; [apply (h_get _ _ _ T2); exists 1; cbn [map seq nth_error length]; rewrite Q1; auto|].
  auto.
Qed.
