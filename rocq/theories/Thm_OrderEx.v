(** C87: the hypotheses for doubles and for reals; an example. *)
From Coq Require Import Sorting.Sorted String List ZArith Bool Arith Lia Permutation Reals Lra.
From Flocq Require Import IEEE754.BinarySingleNaN Core.
From Verif Require Import Base MathOp NodeModel DiffModel MatModel LinearModel VarsTableModel SymMatModel NonlinearModel
  ExprSpec SubsSpec MatSpec VarsSpec SymMatSpec NonlinearSpec NodeProofs SymMatProofs Thm_Node Thm_Vars NonlinearProofs IEEE RealSpec ClearSpec Thm_Order.
Import ListNotations.
Local Open Scope string_scope.
Local Open Scope list_scope.
Local Open Scope nat_scope.

(** In doubles (NaN and infinities included), one comparison decides. *)
Theorem C87_doubles (L : libm) (a b : B64 L) : n_ltb (n_abs b) (n_abs a) = true ->
  strictly_larger a b /\ n_eqb (n_abs a) (n_abs a) = true.
Proof.
  unfold strictly_larger. change (n_ltb (n_abs b) (n_abs a)) with (Bltb (Babs (b : b64)) (Babs (a : b64))).
  change (n_ltb (n_abs a) (n_abs b)) with (Bltb (Babs (a : b64)) (Babs (b : b64))).
  change (n_eqb (n_abs b) (n_abs a)) with (Beqb (Babs (b : b64)) (Babs (a : b64))).
  change (n_eqb (n_abs a) (n_abs a)) with (Beqb (Babs (a : b64)) (Babs (a : b64))).
  generalize (Babs (a : b64)) (Babs (b : b64)). clear a b. intros a b. unfold Bltb, Beqb, SpecFloat.SFltb, SpecFloat.SFeqb.
  pose proof (Bcompare_swap 53 1024 a b) as Sw. unfold Bcompare in Sw.
  pose proof (Bcompare_swap 53 1024 a a) as Sa. unfold Bcompare in Sa.
  destruct (SpecFloat.SFcompare (B2SF b) (B2SF a)) as [[]|] eqn:E; try discriminate. intros _.
  destruct (SpecFloat.SFcompare (B2SF a) (B2SF b)) as [[]|] eqn:E'; try discriminate Sw.
  split; [auto|].
  destruct (SpecFloat.SFcompare (B2SF a) (B2SF a)) as [[]|] eqn:Ea; try discriminate Sa; [reflexivity|].
  exfalso. destruct (B2SF a) as [sa|sa| |sa ma ea]; cbn in *; try discriminate; destruct (B2SF b), sa; cbn in *; discriminate.
Qed.

(** Over the reals: |b| < |a|. *)
Theorem C87_reals (a b : R) : (Rabs b < Rabs a)%R ->
  strictly_larger (Some a : Rops) (Some b : Rops) /\ n_eqb (n_abs (Some a : Rops)) (n_abs (Some a : Rops)) = true.
Proof.
  intros H. unfold strictly_larger.
  change (n_ltb (n_abs (Some b : Rops)) (n_abs (Some a : Rops))) with (Rltb (Rabs b) (Rabs a)).
  change (n_ltb (n_abs (Some a : Rops)) (n_abs (Some b : Rops))) with (Rltb (Rabs a) (Rabs b)).
  change (n_eqb (n_abs (Some b : Rops)) (n_abs (Some a : Rops))) with (Reqb (Rabs b) (Rabs a)).
  change (n_eqb (n_abs (Some a : Rops)) (n_abs (Some a : Rops))) with (Reqb (Rabs a) (Rabs a)).
  split; [split; [now apply Rltb_spec|]; split|now apply Reqb_spec].
  - destruct (Rltb (Rabs a) (Rabs b)) eqn:E; [apply Rltb_spec in E; lra|reflexivity].
  - destruct (Reqb (Rabs b) (Rabs a)) eqn:E; [apply Reqb_spec in E; lra|reflexivity].
Qed.

(** 4x + y^2 - 5 = 0, 3y - 2 = 0. *)
Notation D := (B64 tiny_libm).
Local Notation DX := (EVar "x" : expr D).
Local Notation DY := (EVar "y" : expr D).
Local Notation dlit z := (ENum (b_ofZ z : D) : expr D).
Definition ord_f (i : nat) : expr D := match i with
  | 0 => EBin BSub (EBin BAdd (EBin BMul (dlit 4) DX) (EBin BPow DY (dlit 2))) (dlit 5)
  | _ => EBin BSub (EBin BMul (dlit 3) DY) (dlit 2) end.
Definition ord_pi (i : nat) : nat := 1 - i.
Definition ord_cfg : config D := default_config D.
Definition num_of (r : res (node D)) : option D := match r with Ok (N NUMBER MATH_NULL v "" Nil Nil) => Some v | _ => None end.
Definition ord_check : bool :=
  match num_of (Diff ord_cfg (embed (ord_f 0)) "x" 1), num_of (Diff ord_cfg (embed (ord_f 1)) "x" 1), num_of (Diff ord_cfg (embed (ord_f 1)) "y" 1) with
  | Some a, Some b, Some c =>
      n_ltb (n_abs b) (n_abs a) && negb (n_ltb (n_abs a) (epsilon ord_cfg)) && negb (n_leb (epsilon ord_cfg) (n_abs b)) &&
      n_ltb (n_abs b) (n_abs c) && negb (n_ltb (n_abs c) (epsilon ord_cfg))
  | _, _, _ => false
  end.
Lemma ord_checked : ord_check = true. Proof. vm_cast_no_check (eq_refl true). Qed.

Lemma num_of_embed r (e : expr D) : r = Ok (embed e) -> forall v, num_of r = Some v -> e = ENum v.
Proof. intros -> v. destruct e; cbn; intros E; try discriminate. injection E as <-. reflexivity. Qed.

Lemma ord_clear start : clear_run ord_cfg 2 ord_f ["x"; "y"] start.
Proof.
  intros jac k ps phi M HJ P _ _ VM.
  pose proof (HJ 0 0 "x" ltac:(lia) eq_refl) as J00. pose proof (HJ 1 0 "x" ltac:(lia) eq_refl) as J10. pose proof (HJ 1 1 "y" ltac:(lia) eq_refl) as J11.
  pose proof ord_checked as C. unfold ord_check in C.
  destruct (num_of (Diff ord_cfg (embed (ord_f 0)) "x" 1)) as [a|] eqn:Ea; [|discriminate].
  destruct (num_of (Diff ord_cfg (embed (ord_f 1)) "x" 1)) as [b|] eqn:Eb; [|discriminate].
  destruct (num_of (Diff ord_cfg (embed (ord_f 1)) "y" 1)) as [c|] eqn:Ec; [|discriminate].
  pose proof (num_of_embed _ _ J00 _ Ea) as Qa. pose proof (num_of_embed _ _ J10 _ Eb) as Qb. pose proof (num_of_embed _ _ J11 _ Ec) as Qc.
  clear Ea Eb Ec J00 J10 J11 HJ P.
  repeat rewrite andb_true_iff in C. destruct C as ((((C1 & C2) & C3) & C4) & C5). rewrite negb_true_iff in C2, C3, C5.
  destruct (point_exists ["x"; "y"] (ps k)) as [env He]; [repeat constructor; cbn; intuition discriminate|].
  assert (V : forall i j w, i < 2 -> j < 2 -> jac i j = ENum w -> M i j = w).
  { intros i j w Hi Hj E. destruct (VM i Hi j Hj) as [_ Q]. specialize (Q env He). rewrite E in Q.
    cbn [eval_in ExprSpec.eval] in Q. congruence. }
  pose proof (V 0 0 a ltac:(lia) ltac:(lia) Qa) as Ma. pose proof (V 1 0 b ltac:(lia) ltac:(lia) Qb) as Mb. pose proof (V 1 1 c ltac:(lia) ltac:(lia) Qc) as Mc.
  destruct (C87_doubles tiny_libm a b C1) as [L1 L2]. destruct (C87_doubles tiny_libm c b C4) as [L3 L4].
  exists [map (fun q => n_div q a) [M 0 1; n_neg (phi 0)]; map (fun q => n_div q c) [n_neg (phi 1)]].
  unfold row_of. cbn [seq map app]. rewrite Ma, Mb, Mc.
  eapply (el_pivot _ _ a [M 0 1; n_neg (phi 0)] [[b; c; n_neg (phi 1)]]); auto.
  { intros r [<-|[]]. exact L1. }
  cbn [map reduced]. rewrite C3.
  eapply (el_pivot _ _ c [n_neg (phi 1)] []); auto.
  { intros r []. }
  constructor.
Qed.

(** The two systems, and their solution from (1, 1). *)
Definition ord_A : symmat D := MkSym 2 1 [embed (ord_f 0); embed (ord_f 1)].
Definition ord_B : symmat D := MkSym 2 1 [embed (ord_f 1); embed (ord_f 0)].
Theorem C87_ex fuel afuel t' : Solve1 ord_cfg fuel afuel ord_A = Ok t' -> Solve1 ord_cfg fuel afuel ord_B = Ok t'.
Proof.
  apply (C87_solve1 ord_cfg 2 ord_f ord_pi ord_A ord_B ["x"; "y"]).
  - lia.
  - unfold rearrangement. cbn. apply perm_swap.
  - reflexivity.
  - split; [reflexivity|]. split; [reflexivity|]. split; [reflexivity|]. intros [|[|i]] [|j] Hi Hj; try lia; reflexivity.
  - split; [reflexivity|]. split; [reflexivity|]. split; [reflexivity|]. intros [|[|i]] [|j] Hi Hj; try lia; reflexivity.
  - repeat constructor.
  - reflexivity.
  - intros x. split.
    + intros [<-|[<-|[]]].
      * exists 0. split; [lia|]. apply occ_l, occ_l, occ_r, occ_var.
      * exists 1. split; [lia|]. apply occ_l, occ_r, occ_var.
    + intros (i & Hi & O). assert (W : vars_within ["x"; "y"] (ord_f i)); [|now apply W].
      clear O. intros y O. destruct i as [|i]; cbn [ord_f] in O;
      repeat match goal with H : occurs _ (EBin _ _ _) |- _ => inversion H; subst; clear H | H : occurs _ (ENum _) |- _ => inversion H | H : occurs _ (EVar _) |- _ => inversion H; subst; clear H end; cbn; auto.
  - apply ord_clear.
Qed.
Definition ord_solved : bool := match Solve1 ord_cfg 0 0 ord_A with
  | Ok t => match VarsTable_get t "x", VarsTable_get t "y" with
    | Ok x, Ok y => n_ltb (n_abs (n_sub x (n_dec 11388888 (-7)))) (n_dec 1 (-6)) && n_ltb (n_abs (n_sub y (n_dec 66666667 (-8)))) (n_dec 1 (-6))
    | _, _ => false end
  | _ => false end.
Example C87_ex_solved : ord_solved = true. Proof. vm_cast_no_check (eq_refl true). Qed.

(** With a tie the order matters: 3x + y = 1, 3x + 2y = 3 in either order, solved in doubles. *)
Definition tie_mat (l : list (list Z)) (v : list Z) : res (mat D) :=
  let* A := Mat_init (map (map (fun z => b_ofZ z : D)) l) in
  let* b := Mat_init (map (fun z => [b_ofZ z : D]) v) in
  SolveLinear ord_cfg A b.
Definition tie_first (r : res (mat D)) : option D := match r with Ok X => match Vec_get X 0 with Ok x => Some x | _ => None end | _ => None end.
Definition tie_same : option bool :=
  match tie_first (tie_mat [[3; 1]; [3; 2]]%Z [1; 3]%Z), tie_first (tie_mat [[3; 2]; [3; 1]]%Z [3; 1]%Z) with
  | Some x, Some y => Some (n_eqb x y) | _, _ => None end.
Theorem C87_ties_matter : tie_same = Some false. Proof. vm_cast_no_check (eq_refl (Some false)). Qed.
