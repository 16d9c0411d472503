(** C67: the second implementations of Vpa and Clone, and Operator. *)
From Coq Require Import String List ZArith Bool Arith Lia Permutation.
From Verif Require Import Base MathOp NodeModel ExprSpec NodeProofs Thm_Node HeapModel HeapSpec HeapProofs AltModel IEEE.
Import ListNotations.
Local Open Scope string_scope. Local Open Scope list_scope. Local Open Scope nat_scope.

Section Tree.
Context {K : num_ops}.
Implicit Types (e : expr K).

Lemma is_null_embed' e : is_null (embed e) = false. Proof. destruct e; reflexivity. Qed.
Lemma vpa_child_embed cfg e : vpa_child cfg (embed e) = Vpa cfg (embed e).
Proof. destruct e; reflexivity. Qed.

(** With the operands evaluated from left to right, VpaRecursively reports what Vpa reports. *)
Theorem C67_vpa (cfg : config K) e : reports (VpaRecursively false cfg (embed e)) (eval (throwOnInvalidValue cfg) e).
Proof.
  destruct e as [v|x|u a|b a c]; cbn [embed VpaRecursively eval].
  - reflexivity.
  - eexists. reflexivity.
  - replace (Nat.eqb (GetOperatorNum (unop_op u)) 1) with true by (destruct u; reflexivity). rewrite is_null_embed'. cbn [negb is_null andb orb].
    rewrite vpa_child_embed. pose proof (Vpa_reports cfg a) as R. destruct (eval (throwOnInvalidValue cfg) a) as [x| | |]; cbn [reports] in R.
    + rewrite R. cbn [bind vpa_child]. apply Calc_un.
    + destruct R as [m ->]. eexists. reflexivity.
    + destruct R as [m ->]. eexists. reflexivity.
    + destruct R as [m ->]. eexists. reflexivity.
  - replace (Nat.eqb (GetOperatorNum (binop_op b)) 1) with false by (destruct b; reflexivity).
    replace (Nat.eqb (GetOperatorNum (binop_op b)) 2) with true by (destruct b; reflexivity). rewrite !is_null_embed'. cbn [negb andb orb].
    rewrite !vpa_child_embed. pose proof (Vpa_reports cfg a) as R. pose proof (Vpa_reports cfg c) as R2.
    destruct (eval (throwOnInvalidValue cfg) a) as [x| | |]; cbn [reports] in R.
    + rewrite R. cbn [bind]. destruct (eval (throwOnInvalidValue cfg) c) as [y| | |]; cbn [reports] in R2.
      * rewrite R2. cbn [bind]. apply Calc_bin.
      * destruct R2 as [m ->]. eexists. reflexivity.
      * destruct R2 as [m ->]. eexists. reflexivity.
      * destruct R2 as [m ->]. eexists. reflexivity.
    + destruct R as [m ->]. eexists. reflexivity.
    + destruct R as [m ->]. eexists. reflexivity.
    + destruct R as [m ->]. eexists. reflexivity.
Qed.

(** In whichever order, it returns a number exactly when Vpa does, and the same one. *)
Theorem C67_vpa_order (right_first : bool) (cfg : config K) e v :
  VpaRecursively right_first cfg (embed e) = Ok v <-> Vpa cfg (embed e) = Ok v.
Proof.
  assert (G : VpaRecursively false cfg (embed e) = Ok v <-> Vpa cfg (embed e) = Ok v).
  { pose proof (C67_vpa cfg e) as R. pose proof (Vpa_reports cfg e) as R2. destruct (eval (throwOnInvalidValue cfg) e) as [x| | |]; cbn [reports] in *.
    - rewrite R, R2. reflexivity.
    - destruct R as [m ->], R2 as [m' ->]. split; discriminate.
    - destruct R as [m ->], R2 as [m' ->]. split; discriminate.
    - destruct R as [m ->], R2 as [m' ->]. split; discriminate. }
  destruct right_first; [|exact G]. rewrite <- G. clear G.
  destruct e as [w|x|u a|b a c]; cbn [embed VpaRecursively]; [reflexivity|reflexivity| |].
  - destruct ((_ && _ && _) || _)%bool; [|reflexivity]. change (vpa_child cfg (Nil : node K)) with (Ok (n_ofZ 0 : K)). cbn [bind]. destruct (vpa_child cfg (embed a)); reflexivity.
  - destruct (_ || _)%bool; [|reflexivity].
    destruct (vpa_child cfg (embed a)), (vpa_child cfg (embed c)); cbn [bind]; split; intros H; try discriminate; auto.
Qed.

(** Which error is reported can depend on the order (here: a variable, or 1/0). *)
Example C67_vpa_order_ex : let e : expr D := EBin BAdd (EVar "x") (EBin BDiv (ENum (n_ofZ 1)) (ENum (n_ofZ 0))) in
  match VpaRecursively false (default_config D) (embed e), VpaRecursively true (default_config D) (embed e) with
  | Throw (RuntimeError _), Throw (MathError ERROR_INVALID_NUMBER _) => true | _, _ => false end = true.
Proof. vm_compute. reflexivity. Qed.
End Tree.

Section Memory.
Context {K : num_ops} (pick : heap K -> addr) (Hpick : allocator pick).
Notation node := (node K).
Notation heap := (heap K).

Lemma wp_CloneChild this rhs c d f s its (Q : unit -> heap -> Prop) h :
  owns h (ICell rhs c :: ITree (Some rhs) (child c f) s :: ICell this (with_child d f None) :: its) ->
  (forall q h', owns h' (ICell rhs c :: ITree (Some rhs) (child c f) s :: ICell this (with_child d f q) :: ITree (Some this) q s :: its) -> Q tt h') ->
  wp (CloneChild pick this rhs f) Q h.
Proof.
  intros H HQ. unfold CloneChild. apply wp_bind. eapply wp_load; [exact H|].
  front H (ITree (Some rhs) (child c f) s). destruct (own_tree_cases _ _ _ _ _ H) as [[E ->]|(b & E & Hs)].
  - rewrite E in *. apply wp_ret. apply (HQ None). refine (owns_perm _ _ _ _ (own_nil _ (Some this) _ H)). perm.
  - rewrite E in *. apply wp_bind. eapply wp_Clone; [exact Hpick|exact H|exact Hs|]. intros q h1 H1. apply wp_bind.
    front H1 (ICell this (with_child d f None)).
    eapply wp_reset_null; [apply (sa_fld this f d)|exact H1|]. intros h2 H2. apply wp_bind. eapply wp_load; [exact H2|].
    rewrite child_with. apply wp_bind, wp_deref. eapply wp_adopt; [ownf H2|]. intros h3 H3. apply (HQ (Some q)). own H3.
Qed.

(** CloneRecursively makes a new copy of the whole tree, with correct parent links, and changes nothing else. *)
Theorem C67_clone h par p (t : node) its : t <> Nil -> owns h (ITree par p t :: its) ->
  exists b h', HCloneRecursively pick p h = (Ok b, h') /\ owns h' (ITree None (Some b) t :: ITree par p t :: its).
Proof.
  intros Ht H. enough (W : wp (HCloneRecursively pick p) (fun b h' => owns h' (ITree None (Some b) t :: ITree par p t :: its)) h) by exact W.
  destruct t as [|ty op v x l r]; [congruence|]. apply own_open in H as (a & pl & pr & -> & H).
  unfold HCloneRecursively. apply wp_bind, wp_deref, wp_bind. eapply wp_load; [exact H|]. cbn [c_type c_op c_value c_name].
  apply wp_bind. eapply wp_make_node; [exact Hpick|exact H|]. intros b h1 H1. apply wp_bind.
  eapply (wp_CloneChild b a (MkCell ty op v x par pl pr) (MkCell ty op v x None None None) L l); [cbn [child c_left with_child]; own H1|].
  intros q h2 H2. cbn [child c_left with_child c_type c_op c_value c_name c_parent c_right] in H2. apply wp_bind.
  eapply (wp_CloneChild b a (MkCell ty op v x par pl pr) (MkCell ty op v x None q None) R r); [cbn [child c_right with_child c_left]; own H2|].
  intros q' h3 H3. cbn [child c_left with_child c_type c_op c_value c_name c_parent c_right] in H3. apply wp_ret.
  front H3 (ITree (Some b) q' r). front H3 (ITree (Some b) q l). front H3 (ICell b (MkCell ty op v x None q q')). apply own_close in H3.
  front H3 (ITree (Some a) pr r). front H3 (ITree (Some a) pl l). front H3 (ICell a (MkCell ty op v x par pl pr)). apply own_close in H3. own H3.
Qed.

Lemma wp_SetChild this f p t c its (Q : unit -> heap -> Prop) h :
  owns h (ICell this (with_child c f None) :: ITree None p t :: its) ->
  (forall q h', owns h' (ICell this (with_child c f q) :: ITree (Some this) q t :: its) -> Q tt h') -> wp (SetChild this f p) Q h.
Proof.
  intros H HQ. front H (ITree None p t). destruct (own_tree_cases _ _ _ _ _ H) as [[-> ->]|(a & -> & _)]; cbn [SetChild].
  - apply own_nil_inv in H as [_ H]. apply wp_ret. apply (HQ None). refine (owns_perm _ _ _ _ (own_nil _ (Some this) _ H)). perm.
  - apply wp_bind. eapply wp_adopt; [exact H|]. intros h1 H1. eapply wp_reset_null; [apply (sa_fld this f c)|ownf H1|].
    intros h2 H2. apply (HQ (Some a)). own H2.
Qed.

(** Operator(op, left, right) owns its operands (which may be missing) as children, correctly linked. *)
Theorem C67_operator h op pl pr (l r : node) its : owns h (ITree None pl l :: ITree None pr r :: its) ->
  exists b h', HOperator pick op pl pr h = (Ok b, h') /\ owns h' (ITree None (Some b) (N OPERATOR op (n_ofZ 0) "" l r) :: its).
Proof.
  intros H. enough (W : wp (HOperator pick op pl pr) (fun b h' => owns h' (ITree None (Some b) (N OPERATOR op (n_ofZ 0) "" l r) :: its)) h) by exact W.
  unfold HOperator. apply wp_bind. eapply wp_make_node; [exact Hpick|exact H|]. intros b h1 H1. apply wp_bind.
  eapply (wp_SetChild b L pl l (MkCell OPERATOR op (n_ofZ 0) "" None None None)); [cbn [with_child]; own H1|].
  intros q h2 H2. cbn [with_child c_type c_op c_value c_name c_parent c_left c_right] in H2. apply wp_bind.
  eapply (wp_SetChild b R pr r (MkCell OPERATOR op (n_ofZ 0) "" None q None)); [cbn [with_child]; own H2|].
  intros q' h3 H3. cbn [with_child c_type c_op c_value c_name c_parent c_left c_right] in H3. apply wp_ret.
  apply own_close with q q'. own H3.
Qed.
End Memory.
