(** Subs on the heap refines Subs on trees. *)
From Coq Require Import String List ZArith Bool Arith Lia Permutation.
From Verif Require Import Base MathOp NodeModel SubsModel HeapModel HeapSpec HeapProofs.
Import ListNotations.
Local Open Scope string_scope. Local Open Scope list_scope. Local Open Scope nat_scope.

Section HSubs.
Context {K : num_ops}.
Notation node := (node K).
Notation heap := (heap K).
Implicit Types h : heap.
Notation item := (item (K:=K)).
Variable pick : heap -> addr.
Hypothesis Hpick : allocator pick.

(** A dictionary in memory: name, pointer, contents. *)
Variable D : list (string * (option addr * node)).
Definition ptrs : smap (option addr) := map (fun e => (fst e, fst (snd e))) D.
Definition trees : smap node := map (fun e => (fst e, snd (snd e))) D.
Definition dict_items : list item := map (fun e => ITree None (fst (snd e)) (snd (snd e))) D.

Lemma dict_find x : match map_find x ptrs with
  | None => map_find x trees = None
  | Some p => exists t I, map_find x trees = Some t /\ Permutation dict_items (ITree None p t :: I)
  end.
Proof.
  unfold ptrs, trees, dict_items. induction D as [|[y [p t]] D' IH]; cbn; [reflexivity|].
  destruct (String.eqb x y); [eauto|]. destruct (map_find x (map (fun e => (fst e, fst (snd e))) D')); [|exact IH].
  destruct IH as (t' & I & E & P). exists t', (ITree None p t :: I). split; [exact E|]. rewrite P. apply perm_swap.
Qed.

(** [HReplace] either replaces a variable, or does nothing. *)
Lemma wp_HReplace s upd par a t t' its (Q : bool -> heap -> Prop) h : slot_at s upd -> SubsInner trees t = Ok t' ->
  owns h (upd (Some a) :: ITree par (Some a) t :: dict_items ++ its) ->
  (forall q h', owns h' (upd (Some q) :: ITree par (Some q) t' :: dict_items ++ its) -> Q true h') ->
  (forall ty op v x l r l' r', t = N ty op v x l r -> t' = N ty op v x l' r' -> SubsInner trees l = Ok l' -> SubsInner trees r = Ok r' -> Q false h) ->
  wp (HReplace pick ptrs s) Q h.
Proof.
  intros Sl E H HQ1 HQ2. unfold HReplace. apply wp_bind. eapply wp_get; [exact Sl|exact H|]. apply wp_bind, wp_deref.
  front H (ITree par (Some a) t). destruct (own_some _ _ _ _ _ H) as (ty & op & v & x & l & r & ->).
  assert (Hd : match ty with VARIABLE => map_find x trees = None | _ => True end -> Q false h).
  { intros Hn. cbn [SubsInner] in E.
    assert (E' : (let* r' := SubsInner trees r in let* l' := SubsInner trees l in Ok (N ty op v x l' r')) = Ok t').
    { destruct ty; auto. now rewrite Hn in E. }
    destruct (SubsInner trees r) as [r'| | | | |] eqn:Er; try discriminate. cbn [bind] in E'.
    destruct (SubsInner trees l) as [l'| | | | |] eqn:El; try discriminate. cbn [bind] in E'. injection E' as <-. eapply HQ2; eauto. }
  pose proof H as H0. apply own_open in H as (b & pl & pr & [= <-] & H). apply wp_bind. eapply wp_load; [exact H|]. cbn [c_type c_name c_parent].
  destruct ty; try (apply wp_ret; now apply Hd).
  pose proof (dict_find x) as F. destruct (map_find x ptrs) as [p|] eqn:Ep; [|apply wp_ret; now apply Hd].
  destruct F as (t1 & I & Et & P). cbn [SubsInner] in E. rewrite Et in E.
  assert (t1 <> Nil /\ t' = t1) as [Hn ->]. { destruct t1; [discriminate|]. split; [discriminate|congruence]. }
  assert (H1 : owns h (ITree None p t1 :: ITree par (Some a) (N VARIABLE op v x l r) :: upd (Some a) :: I ++ its)).
  { refine (owns_perm _ _ _ _ H0). rewrite P. perm. }
  apply wp_bind. eapply wp_Clone; [exact Hpick|exact H1|exact Hn|]. intros q h1 H2. apply wp_bind.
  front H2 (ITree par (Some a) (N VARIABLE op v x l r)). front H2 (upd (Some a)).
  eapply wp_reset; [exact Sl|exact H2|]. intros h2 H3. apply wp_bind. eapply wp_adopt; [ownf H3|]. intros h3 H4. apply wp_ret.
  apply (HQ1 q). refine (owns_perm _ _ _ _ H4). rewrite P. perm.
Qed.

Lemma wp_TryReplace s upd par p t t' its stk (Q : list addr -> heap -> Prop) h : slot_at s upd -> SubsInner trees t = Ok t' ->
  owns h (upd p :: ITree par p t :: dict_items ++ its) ->
  (forall q h', owns h' (upd q :: ITree par q t' :: dict_items ++ its) -> Q stk h') ->
  (forall a ty op v x l r l' r', p = Some a -> t = N ty op v x l r -> t' = N ty op v x l' r' ->
     SubsInner trees l = Ok l' -> SubsInner trees r = Ok r' -> Q (a :: stk) h) ->
  wp (TryReplace pick ptrs s stk) Q h.
Proof.
  intros Sl E H HQ1 HQ2. unfold TryReplace. apply wp_bind. eapply wp_get; [exact Sl|exact H|].
  destruct p as [a|].
  - apply wp_bind. eapply wp_HReplace; [exact Sl|exact E|exact H| |].
    + intros q h' H'. apply wp_ret. eauto.
    + intros. apply wp_bind. eapply wp_get; [exact Sl|exact H|]. apply wp_bind, wp_deref, wp_ret. eapply HQ2; eauto.
  - front H (ITree par None t). pose proof (own_none _ _ _ _ H) as ->. cbn [SubsInner] in E. injection E as <-. apply wp_ret. apply (HQ1 None). own H.
Qed.

Lemma wp_SubsLoop (t : node) : forall ty op v x l r l' r' par a its stk fuel fuel' (Q : unit -> heap -> Prop) h,
  t = N ty op v x l r -> SubsInner trees l = Ok l' -> SubsInner trees r = Ok r' ->
  owns h (ITree par (Some a) t :: dict_items ++ its) -> node_size t + fuel <= fuel' ->
  (forall h' fuel', fuel <= fuel' -> owns h' (ITree par (Some a) (N ty op v x l' r') :: dict_items ++ its) -> wp (SubsLoop pick fuel' ptrs stk) Q h') ->
  wp (SubsLoop pick fuel' ptrs (a :: stk)) Q h.
Proof.
  induction t as [|ty0 op0 v0 x0 l0 IHl r0 IHr]; [discriminate|].
  intros ty op v x l r l' r' par a its stk fuel fuel' Q h [= -> -> -> -> -> ->] El Er H Hf HQ.
  cbn [node_size] in Hf. destruct fuel' as [|fuel']; [lia|]. cbn [SubsLoop].
  apply own_open in H as (b & pl & pr & [= <-] & H).
  (* process the left child, given a continuation *)
  assert (HL : forall pr stk1 fuel1 (Q1 : unit -> heap -> Prop) h r1, owns h (ICell a (MkCell ty op v x par pl pr) :: ITree (Some a) pl l :: ITree (Some a) pr r1 :: dict_items ++ its) ->
    node_size l + fuel1 <= fuel' ->
    (forall ql h' fuel2, fuel1 <= fuel2 -> owns h' (ICell a (MkCell ty op v x par ql pr) :: ITree (Some a) ql l' :: ITree (Some a) pr r1 :: dict_items ++ its) -> wp (SubsLoop pick fuel2 ptrs stk1) Q1 h') ->
    wp (TryReplace pick ptrs (SFld a L) stk1) (fun stk2 h' => wp (SubsLoop pick fuel' ptrs stk2) Q1 h') h).
  { clear - IHl Hpick El. intros pr stk1 fuel1 Q1 h r1 H Hf HQ.
    eapply wp_TryReplace with (its := ITree (Some a) pr r1 :: its); [apply (sa_fld a L (MkCell ty op v x par pl pr))|exact El| | |].
    - cbn [with_child c_type c_op c_value c_name c_parent c_left c_right]. refine (owns_perm _ _ _ _ H). perm.
    - cbn [with_child c_type c_op c_value c_name c_parent c_left c_right]. intros q h' H'. apply (HQ q); [lia|]. refine (owns_perm _ _ _ _ H'). perm.
    - intros a1 ty1 op1 v1 x1 l1 r2 l1' r2' -> El1 -> E1 E2. 
      eapply (IHl _ _ _ _ _ _ _ _ (Some a) a1 (ICell a (MkCell ty op v x par (Some a1) pr) :: ITree (Some a) pr r1 :: its)); [exact El1|exact E1|exact E2| |exact Hf|].
      + refine (owns_perm _ _ _ _ H). perm.
      + intros h' f2 Hf2 H'. apply (HQ (Some a1)); [exact Hf2|]. refine (owns_perm _ _ _ _ H'). perm. }
  apply wp_bind. eapply wp_TryReplace with (its := ITree (Some a) pl l :: its) (t := r); [apply (sa_fld a R (MkCell ty op v x par pl pr))|exact Er| | |].
  - cbn [with_child c_type c_op c_value c_name c_parent c_left c_right]. refine (owns_perm _ _ _ _ H). perm.
  - cbn [with_child c_type c_op c_value c_name c_parent c_left c_right]. intros q h1 H1. apply wp_bind.
    eapply (HL q stk fuel) with (r1 := r'); [|lia|].
    + refine (owns_perm _ _ _ _ H1). perm.
    + intros ql h2 f2 Hf2 H2. apply HQ; [exact Hf2|]. apply own_close with ql q. exact H2.
  - intros a1 ty1 op1 v1 x1 l1 r2 l1' r2' -> Er1 -> E1 E2. apply wp_bind.
    eapply (HL (Some a1) (a1 :: stk) (node_size r + fuel)) with (r1 := r); [exact H|lia|].
    intros ql h2 f2 Hf2 H2.
    eapply (IHr _ _ _ _ _ _ _ _ (Some a) a1 (ICell a (MkCell ty op v x par ql (Some a1)) :: ITree (Some a) ql l' :: its)); [exact Er1|exact E1|exact E2| |exact Hf2|].
    + refine (owns_perm _ _ _ _ H2). perm.
    + intros h' f3 Hf3 H'. apply HQ; [exact Hf3|]. apply own_close with ql (Some a1). refine (owns_perm _ _ _ _ H'). perm.
Qed.

Lemma wp_HSubsInner s upd par p t t' its (Q : unit -> heap -> Prop) h : slot_at s upd -> t <> Nil -> SubsInner trees t = Ok t' ->
  owns h (upd p :: ITree par p t :: dict_items ++ its) ->
  (forall q h', owns h' (upd (Some q) :: ITree par (Some q) t' :: dict_items ++ its) -> Q tt h') ->
  wp (HSubsInner pick s ptrs) Q h.
Proof.
  intros Sl Ht E H HQ. pose proof H as H0. front H0 (ITree par p t). pose proof (own_size _ _ _ _ _ H0) as Hs.
  destruct (own_tree_cases _ _ _ _ _ H0) as [[_ ->]|(a & -> & _)]; [congruence|].
  apply (wp_fuel (fun n => bindM (HReplace pick ptrs s) (fun b : bool => if b then ret tt else
     bindM (get_slot s) (fun p => bindM (deref p) (fun a => bindM (TryReplace pick ptrs (SFld a R) []) (fun stk1 =>
     bindM (TryReplace pick ptrs (SFld a L) stk1) (fun stk2 => SubsLoop pick (S n) ptrs stk2))))))).
  apply wp_bind. eapply wp_HReplace; [exact Sl|exact E|exact H| |].
  - intros q h' H'. apply wp_ret. eauto.
  - intros ty op v x l r l' r' Et Et' El Er. apply wp_bind. eapply wp_get; [exact Sl|exact H|]. apply wp_bind, wp_deref.
    assert (W : wp (SubsLoop pick (S (S (length h))) ptrs [a]) Q h).
    { eapply wp_SubsLoop with (fuel := 1) (its := upd (Some a) :: its); [exact Et|exact El|exact Er| |lia|].
      - own H0.
      - intros h' f2 Hf2 H'. destruct f2; [lia|]. cbn [SubsLoop]. apply wp_ret. apply (HQ a). rewrite Et'. own H'. }
    exact W.
Qed.
End HSubs.
