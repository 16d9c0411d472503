(** Simplify on the heap refines Simplify on trees. *)
From Coq Require Import String List ZArith Bool Arith Lia Permutation.
From Verif Require Import Base MathOp NodeModel SimplifyModel HeapModel HeapSpec HeapProofs.
Import ListNotations.
Local Open Scope string_scope. Local Open Scope list_scope. Local Open Scope nat_scope.

Section HSimplify.
Context {K : num_ops}.
Notation node := (node K).
Notation heap := (heap K).
Implicit Types h : heap.
Notation item := (item (K:=K)).
Variable pick : heap -> addr.
Hypothesis Hpick : allocator pick.

(** Computations that end in std::terminate. *)
Definition dies {A} (m : M (K:=K) A) (h : heap) : Prop := exists h', m h = (Terminate, h').
Lemma dies_bind {A B} (m : M A) (f : A -> M B) h : wp m (fun a h' => dies (f a) h') h -> dies (bindM m f) h.
Proof. intros (a & h1 & E & h2 & E2). exists h2. unfold bindM. now rewrite E. Qed.
Lemma dies_here {A B} (m : M A) (f : A -> M B) h : dies m h -> dies (bindM m f) h.
Proof. intros (h1 & E). exists h1. unfold bindM. now rewrite E. Qed.
Lemma dies_noexcept {A} (m : M A) h : dies m h -> dies (noexceptM m) h.
Proof. intros (h1 & E). exists h1. unfold noexceptM. now rewrite E. Qed.
Lemma dies_throw {A B} (r : res A) (f : A -> M B) h : noexcept r = Terminate -> dies (noexceptM (bindM (fail r) f)) h.
Proof. intros E. exists h. unfold noexceptM, bindM, fail. destruct r; try discriminate; reflexivity. Qed.

(** ** Trees annotated with addresses *)
Inductive atree := ANil | AN (a : addr) (ty : node_type) (op : math_op) (v : K) (x : string) (l r : atree).
Fixpoint erase (T : atree) : node := match T with ANil => Nil | AN _ ty op v x l r => N ty op v x (erase l) (erase r) end.
Definition root (T : atree) : option addr := match T with ANil => None | AN a _ _ _ _ _ _ => Some a end.
Fixpoint cells (par : option addr) (T : atree) : list item :=
  match T with
  | ANil => []
  | AN a ty op v x l r => ICell a (MkCell ty op v x par (root l) (root r)) :: cells (Some a) l ++ cells (Some a) r
  end.

Lemma own_annot (t : node) : forall par p its h, owns h (ITree par p t :: its) ->
  exists T, erase T = t /\ root T = p /\ owns h (cells par T ++ its).
Proof.
  induction t as [|ty op v x l IHl r IHr]; intros par p its h H.
  - apply own_nil_inv in H as [-> H]. now exists ANil.
  - apply own_open in H as (a & pl & pr & -> & H). front H (ITree (Some a) pl l). apply IHl in H as (Tl & El & Rl & H).
    assert (H' : owns h (ITree (Some a) pr r :: cells (Some a) Tl ++ ICell a (MkCell ty op v x par pl pr) :: its)) by own H.
    apply IHr in H' as (Tr & Er & Rr & H'). exists (AN a ty op v x Tl Tr). cbn. rewrite El, Er, Rl, Rr. repeat split.
    refine (owns_perm _ _ _ _ H'). rewrite <- app_assoc. perm.
Qed.
Lemma own_unannot (T : atree) : forall par its h, owns h (cells par T ++ its) -> owns h (ITree par (root T) (erase T) :: its).
Proof.
  induction T as [|a ty op v x l IHl r IHr]; intros par its h H; cbn in *.
  - now apply own_nil.
  - apply own_close with (root l) (root r). rewrite <- app_assoc in H.
    assert (H1 : owns h (cells (Some a) l ++ cells (Some a) r ++ ICell a (MkCell ty op v x par (root l) (root r)) :: its)) by own H.
    apply IHl in H1. assert (H2 : owns h (cells (Some a) r ++ ITree (Some a) (root l) (erase l) :: ICell a (MkCell ty op v x par (root l) (root r)) :: its)) by own H1.
    apply IHr in H2. own H2.
Qed.
Lemma own_distinct a c c' its h : owns h (ICell a c :: ICell a c' :: its) -> False.
Proof.
  intros H. apply own_cell in H as (h1 & h2 & -> & N1 & N2 & os & F & Q & Nd).
  apply flat_cons_inv in F as (o & os' & S1 & F & ->). inversion S1; subst.
  assert (Hin : In (KObj a) (map fst (h1 ++ h2))).
  { apply (in_map fst (h1 ++ h2) (KObj a, OCell c')). apply (Permutation_in _ (Permutation_sym Q)). now left. }
  rewrite map_app, in_app_iff in Hin. tauto.
Qed.

(** ** One node *)
Lemma wp_HSimplifySingleNode cfg s upd par p t t' its (Q : unit -> heap -> Prop) h : slot_at s upd ->
  SimplifySingleNode cfg t = Ok t' -> owns h (upd p :: ITree par p t :: its) ->
  (forall q h', owns h' (upd q :: ITree par q t' :: its) -> Q tt h') -> wp (HSimplifySingleNode pick cfg s) Q h.
Proof.
  intros Sl E H HQ. unfold HSimplifySingleNode. apply wp_noexcept, wp_bind. eapply wp_get; [exact Sl|exact H|].
  destruct t as [|ty op v x l r]; [discriminate|]. pose proof H as H0. front H (ITree par p (N ty op v x l r)).
  apply own_open in H as (a & pl & pr & -> & H). apply wp_bind, wp_deref, wp_bind. eapply wp_load; [exact H|].
  cbn [c_parent c_op c_left c_right c_name]. cbn [SimplifySingleNode] in E.
  destruct (GetOperatorNum op) as [|[|[|]]] eqn:Eop; try discriminate.
  - destruct l as [|lty lop lv lx ll lr]; [discriminate|]. front H (ITree (Some a) pl (N lty lop lv lx ll lr)).
    apply own_open in H as (la & pll & plr & -> & H). apply wp_bind, wp_deref, wp_bind. eapply wp_load; [exact H|].
    apply own_close in H. unfold isNumber_c. cbn [c_type c_value].
    destruct lty; cbn [node_type_eqb]; try (injection E as <-; apply wp_ret; apply (HQ (Some a)); exact H0).
    destruct (Calc cfg op lv (n_ofZ 0)) as [d| | | | |] eqn:Ec; try discriminate. cbn [noexcept bind] in E. injection E as <-.
    apply wp_bind. exists d, h. split; [reflexivity|]. apply wp_bind. eapply wp_store; [ownf H|]. intros h1 H1.
    cbn [with_data c_parent c_left c_right] in H1. front H1 (ITree (Some a) (Some la) (N NUMBER lop lv lx ll lr)).
    front H1 (ICell a (MkCell NUMBER MATH_NULL d x par (Some la) pr)).
    eapply wp_reset; [apply (sa_fld a L (MkCell NUMBER MATH_NULL d x par None pr))|exact H1|]. intros h2 H2.
    cbn [with_child c_type c_op c_value c_name c_parent c_left c_right] in H2. apply (HQ (Some a)).
    apply (own_nil _ (Some a)) in H2. front H2 (ICell a (MkCell NUMBER MATH_NULL d x par None pr)).
    apply owns_perm with (ITree par (Some a) (N NUMBER MATH_NULL d x Nil r) :: upd (Some a) :: its); [perm|].
    apply own_close with None pr. own H2.
  - destruct l as [|lty lop lv lx ll lr]; [discriminate|]. front H (ITree (Some a) pl (N lty lop lv lx ll lr)).
    apply own_open in H as (la & pll & plr & -> & H). apply wp_bind, wp_deref, wp_bind. eapply wp_load; [exact H|].
    assert (Hl : owns h (ITree (Some a) (Some la) (N lty lop lv lx ll lr) :: ICell a (MkCell ty op v x par (Some la) pr) :: ITree (Some a) pr r :: upd (Some a) :: its)).
    { apply own_close with pll plr. exact H. }
    destruct r as [|rty rop rv rx rl rr].
    { destruct lty; discriminate. }
    front Hl (ITree (Some a) pr (N rty rop rv rx rl rr)). pose proof Hl as Hr. apply own_open in Hr as (ra & prl & prr & -> & Hr).
    (* reading the right operand *)
    assert (RR : forall (Q : cell K -> heap -> Prop), Q (MkCell rty rop rv rx (Some a) prl prr) h -> wp (load ra) Q h).
    { intros Q0 H0'. eapply wp_load; [exact Hr|exact H0']. }
    apply wp_bind. apply wp_mono with (Q := fun (b : bool) h' => h' = h /\ b = (node_type_eqb lty NUMBER && node_type_eqb rty NUMBER)%bool).
    { unfold isNumber_c. cbn [c_type]. destruct (node_type_eqb lty NUMBER).
      - apply wp_bind, wp_deref, wp_bind. apply RR. cbn [c_type]. now apply wp_ret.
      - now apply wp_ret. }
    intros b h' [-> ->]. 
    assert (Hgen : node_type_eqb lty NUMBER && node_type_eqb rty NUMBER = true \/
      (if match op with MATH_MULTIPLY => isNumEq (N lty lop lv lx ll lr) 0 || isNumEq (N rty rop rv rx rl rr) 0 | MATH_DIVIDE => isNumEq (N lty lop lv lx ll lr) 0 | MATH_POWER => isNumEq (N lty lop lv lx ll lr) 0 | _ => false end
       then Ok (mkNum (n_ofZ 0))
       else if match op with MATH_ADD => isNumEq (N lty lop lv lx ll lr) 0 || isNumEq (N rty rop rv rx rl rr) 0 | MATH_SUB => isNumEq (N rty rop rv rx rl rr) 0
         | MATH_MULTIPLY => isNumEq (N lty lop lv lx ll lr) 1 || isNumEq (N rty rop rv rx rl rr) 1 | MATH_DIVIDE => isNumEq (N rty rop rv rx rl rr) 1 | MATH_POWER => isNumEq (N rty rop rv rx rl rr) 1 | _ => false end
       then (if isNumEq (N lty lop lv lx ll lr) 1 || isNumEq (N lty lop lv lx ll lr) 0 then Ok (N rty rop rv rx rl rr)
             else if isNumEq (N rty rop rv rx rl rr) 1 || isNumEq (N rty rop rv rx rl rr) 0 then Ok (N lty lop lv lx ll lr) else Ok (N ty op v x (N lty lop lv lx ll lr) (N rty rop rv rx rl rr)))
       else Ok (N ty op v x (N lty lop lv lx ll lr) (N rty rop rv rx rl rr))) = Ok t').
    { destruct lty, rty; auto. }
    destruct (node_type_eqb lty NUMBER && node_type_eqb rty NUMBER) eqn:Eb.
    + clear Hgen. destruct lty, rty; try discriminate Eb. apply wp_bind, wp_deref, wp_bind. apply RR. cbn [c_value].
      destruct (Calc cfg op lv rv) as [d| | | | |] eqn:Ec; try discriminate. cbn [noexcept bind] in E. injection E as <-.
      apply wp_bind. exists d, h. split; [reflexivity|]. apply wp_bind. eapply wp_store; [ownf Hl|]. intros h1 H1.
      cbn [with_data c_parent c_left c_right] in H1. apply wp_bind. front H1 (ITree (Some a) (Some la) (N NUMBER lop lv lx ll lr)).
      front H1 (ICell a (MkCell NUMBER MATH_NULL d x par (Some la) (Some ra))).
      eapply wp_reset; [apply (sa_fld a L (MkCell NUMBER MATH_NULL d x par None (Some ra)))|exact H1|]. intros h2 H2.
      cbn [with_child c_type c_op c_value c_name c_parent c_left c_right] in H2.
      eapply wp_reset; [apply (sa_fld a R (MkCell NUMBER MATH_NULL d x par None None))|exact H2|]. intros h3 H3.
      cbn [with_child c_type c_op c_value c_name c_parent c_left c_right] in H3. apply (HQ (Some a)). apply own_leaf in H3. own H3.
    + destruct Hgen as [Hgen|Hgen]; [discriminate|]. clear E. rename Hgen into E. apply wp_bind. apply RR.
      unfold isNum_c, isNumber_c. cbn [c_type c_value].
      assert (I : forall ty op (v : K) x (l r : node) z, (node_type_eqb ty NUMBER && n_eqb v (n_ofZ z))%bool = isNumEq (N ty op v x l r) z).
      { intros []; intros; reflexivity. }
      rewrite (I lty lop lv lx ll lr 0%Z), (I lty lop lv lx ll lr 1%Z), (I rty rop rv rx rl rr 0%Z), (I rty rop rv rx rl rr 1%Z).
      set (tl := N lty lop lv lx ll lr) in *. set (tr := N rty rop rv rx rl rr) in *.
      assert (HN : owns h (upd (Some a) :: ITree par (Some a) (N ty op v x tl tr) :: its)) by exact H0.
      match type of E with (if ?b then _ else _) = _ => destruct b end.
      { injection E as <-. apply wp_bind. eapply wp_make_node; [exact Hpick|exact HN|]. intros z h1 H1. apply own_leaf in H1.
        apply wp_bind. front H1 (ITree par (Some a) (N ty op v x tl tr)). front H1 (upd (Some a)). eapply wp_reset; [exact Sl|exact H1|]. intros h2 H2. eapply wp_adopt; [ownf H2|].
        intros h3 H3. apply (HQ (Some z)). own H3. }
      match type of E with (if ?b then _ else _) = _ => destruct b end.
      2:{ injection E as <-. apply wp_ret. apply (HQ (Some a)). exact HN. }
      match type of E with (if ?b then _ else _) = _ => destruct b end.
      { injection E as <-. apply wp_bind. front Hl (ITree (Some a) (Some la) tl). front Hl (ICell a (MkCell ty op v x par (Some la) (Some ra))).
        eapply wp_reset; [apply (sa_fld a L (MkCell ty op v x par None (Some ra)))|exact Hl|]. intros h1 H1.
        cbn [with_child c_type c_op c_value c_name c_parent c_left c_right] in H1. apply wp_bind.
        eapply wp_move_out; [apply (sa_fld a R (MkCell ty op v x par None None))|exact H1|]. intros h2 H2.
        cbn [with_child c_type c_op c_value c_name c_parent c_left c_right] in H2. apply own_leaf in H2.
        apply wp_bind. front H2 (ITree par (Some a) (N ty op v x Nil Nil)). front H2 (upd (Some a)). eapply wp_reset; [exact Sl|exact H2|].
        intros h3 H3. apply wp_bind. eapply wp_get; [exact Sl|exact H3|]. apply wp_bind, wp_deref. eapply wp_adopt; [ownf H3|].
        intros h4 H4. apply (HQ (Some ra)). own H4. }
      match type of E with (if ?b then _ else _) = _ => destruct b end.
      { injection E as <-. apply wp_bind. front Hl (ICell a (MkCell ty op v x par (Some la) (Some ra))).
        eapply wp_reset; [apply (sa_fld a R (MkCell ty op v x par (Some la) None))|exact Hl|]. intros h1 H1.
        cbn [with_child c_type c_op c_value c_name c_parent c_left c_right] in H1. apply wp_bind.
        eapply wp_move_out; [apply (sa_fld a L (MkCell ty op v x par None None))|exact H1|]. intros h2 H2.
        cbn [with_child c_type c_op c_value c_name c_parent c_left c_right] in H2. apply own_leaf in H2.
        apply wp_bind. front H2 (ITree par (Some a) (N ty op v x Nil Nil)). front H2 (upd (Some a)). eapply wp_reset; [exact Sl|exact H2|].
        intros h3 H3. apply wp_bind. eapply wp_get; [exact Sl|exact H3|]. apply wp_bind, wp_deref. eapply wp_adopt; [ownf H3|].
        intros h4 H4. apply (HQ (Some la)). own H4. }
      injection E as <-. apply wp_ret. apply (HQ (Some a)). exact HN.
Qed.

(** Exceptions inside a noexcept function. *)
Definition aborts {A} (m : M (K:=K) A) (h : heap) : Prop := exists r h', m h = (r, h') /\ (r = Terminate \/ exists e, r = Throw e).
Lemma aborts_bind {A B} (m : M A) (f : A -> M B) h : wp m (fun a h' => aborts (f a) h') h -> aborts (bindM m f) h.
Proof.
  intros (a & h1 & E & r & h2 & E2 & Hr). exists r, h2. unfold bindM. rewrite E. auto.
Qed.
Lemma aborts_fail {A B} (r : res A) (f : A -> M B) h : noexcept r = Terminate -> aborts (bindM (fail r) f) h.
Proof.
  intros E. unfold aborts, bindM, fail. destruct r; try discriminate E; eauto 6.
Qed.
Lemma dies_aborts {A} (m : M A) h : aborts m h -> dies (noexceptM m) h.
Proof. intros (r & h' & E & [->|(e & ->)]); exists h'; unfold noexceptM; now rewrite E. Qed.
Lemma aborts_dies {A} (m : M A) h : dies m h -> aborts m h.
Proof. intros (h' & E). exists Terminate, h'. auto. Qed.
Lemma aborts_here {A B} (m : M A) (f : A -> M B) h : aborts m h -> aborts (bindM m f) h.
Proof. intros (r & h' & E & [->|(e & ->)]); unfold aborts, bindM; rewrite E; eauto 6. Qed.

Lemma dies_HSimplifySingleNode cfg s upd par p t its h : slot_at s upd ->
  SimplifySingleNode cfg t = Terminate -> owns h (upd p :: ITree par p t :: its) -> dies (HSimplifySingleNode pick cfg s) h.
Proof.
  intros Sl E H. unfold HSimplifySingleNode. apply dies_aborts, aborts_bind. eapply wp_get; [exact Sl|exact H|].
  destruct t as [|ty op v x l r]; [discriminate|]. pose proof H as H0. front H (ITree par p (N ty op v x l r)).
  apply own_open in H as (a & pl & pr & -> & H). apply aborts_bind, wp_deref, aborts_bind. eapply wp_load; [exact H|].
  cbn [c_parent c_op c_left c_right c_name]. cbn [SimplifySingleNode] in E.
  destruct (GetOperatorNum op) as [|[|[|]]] eqn:Eop; try discriminate.
  - destruct l as [|lty lop lv lx ll lr]; [discriminate|]. front H (ITree (Some a) pl (N lty lop lv lx ll lr)).
    apply own_open in H as (la & pll & plr & -> & H). apply aborts_bind, wp_deref, aborts_bind. eapply wp_load; [exact H|].
    destruct lty; try discriminate. cbn. apply aborts_fail. destruct (Calc cfg op lv (n_ofZ 0)); try discriminate; reflexivity.
  - destruct l as [|lty lop lv lx ll lr]; [discriminate|]. front H (ITree (Some a) pl (N lty lop lv lx ll lr)).
    apply own_open in H as (la & pll & plr & -> & H). apply aborts_bind, wp_deref, aborts_bind. eapply wp_load; [exact H|].
    destruct r as [|rty rop rv rx rl rr]; [destruct lty; discriminate|].
    front H (ITree (Some a) pr (N rty rop rv rx rl rr)). apply own_open in H as (ra & prl & prr & -> & Hr).
    assert (RR : forall (Q : cell K -> heap -> Prop), Q (MkCell rty rop rv rx (Some a) prl prr) h -> wp (load ra) Q h).
    { intros Q0 H0'. eapply wp_load; [exact Hr|exact H0']. }
    destruct lty, rty; try (cbn in E; repeat match type of E with (if ?b then _ else _) = _ => destruct b end; discriminate).
    cbn [isNumber_c c_type node_type_eqb]. apply aborts_bind, wp_bind, wp_deref, wp_bind, RR. cbn. apply wp_ret.
    apply aborts_bind, wp_deref, aborts_bind, RR. cbn [c_value]. apply aborts_fail. destruct (Calc cfg op lv rv); try discriminate; reflexivity.
Qed.

(** ** The order of the nodes *)
Fixpoint post (T : atree) (b : bool) : list (addr * bool) :=
  match T with
  | AN a OPERATOR _ _ _ l r => post l true ++ post r false ++ [(a, b)]
  | _ => []
  end.
Definition pushed (T : atree) (b : bool) (stk : list (addr * bool)) : list (addr * bool) :=
  match T with AN a OPERATOR _ _ _ _ _ => (a, b) :: stk | _ => stk end.

Lemma own_root T par its h : owns h (cells par T ++ its) -> forall a, root T = Some a -> exists c I, owns h (ICell a c :: I) /\ c_parent c = par.
Proof. intros H a E. destruct T; [discriminate|]. injection E as ->. cbn in H. eexists. eexists. split; [exact H|reflexivity]. Qed.

Lemma wp_pushOperator_l a ty op v x par l r its stk (Q : _ -> heap -> Prop) h :
  owns h (ICell a (MkCell ty op v x par (root l) (root r)) :: cells (Some a) l ++ cells (Some a) r ++ its) ->
  Q (pushed l true stk) h -> wp (pushOperator (root l) stk) Q h.
Proof.
  intros H HQ. destruct l as [|la lty lop lv lx ll lr]; cbn [root pushOperator]; [now apply wp_ret|].
  cbn [cells root app] in H. apply wp_bind. eapply wp_load; [ownf H|]. cbn [c_type].
  destruct lty; try now apply wp_ret. apply wp_bind. unfold mkSimplifyNode. apply wp_bind. eapply wp_load; [ownf H|]. cbn [c_parent].
  apply wp_bind. eapply wp_load; [exact H|]. cbn [c_left is_ptr]. rewrite Nat.eqb_refl. apply wp_ret, wp_ret. exact HQ.
Qed.
Lemma wp_pushOperator_r a ty op v x par l r its stk (Q : _ -> heap -> Prop) h :
  owns h (ICell a (MkCell ty op v x par (root l) (root r)) :: cells (Some a) l ++ cells (Some a) r ++ its) ->
  Q (pushed r false stk) h -> wp (pushOperator (root r) stk) Q h.
Proof.
  intros H HQ. destruct r as [|ra rty rop rv rx rl rr]; cbn [root pushOperator]; [now apply wp_ret|].
  cbn [cells root app] in H. apply wp_bind. eapply wp_load; [ownf H|]. cbn [c_type].
  destruct rty; try now apply wp_ret. apply wp_bind. unfold mkSimplifyNode. apply wp_bind. eapply wp_load; [ownf H|]. cbn [c_parent].
  apply wp_bind. eapply wp_load; [exact H|]. cbn [c_left is_ptr].
  assert (is_ptr (root l) ra = false) as ->.
  { destruct l as [|la lty lop lv lx ll lr]; [reflexivity|]. cbn [root is_ptr]. apply Nat.eqb_neq. intros ->. cbn [cells root app] in H.
    front H (ICell ra (MkCell OPERATOR rop rv rx (Some a) (root rl) (root rr))).
    front H (ICell ra (MkCell lty lop lv lx (Some a) (root ll) (root lr))). exact (own_distinct _ _ _ _ _ H). }
  apply wp_ret, wp_ret. exact HQ.
Qed.

Fixpoint asize (T : atree) : nat := match T with ANil => 0 | AN _ _ _ _ _ l r => S (asize l + asize r) end.
Lemma asize_erase T : asize T = node_size (erase T).
Proof. induction T as [|a ty op v x l IHl r IHr]; cbn; congruence. Qed.

Lemma wp_SimplifyOrder (T : atree) : forall b par its stk acc fuel fuel' (Q : _ -> heap -> Prop) h,
  owns h (cells par T ++ its) -> asize T + fuel <= fuel' ->
  (forall fuel', fuel <= fuel' -> wp (SimplifyOrder fuel' stk (post T b ++ acc)) Q h) -> wp (SimplifyOrder fuel' (pushed T b stk) acc) Q h.
Proof.
  induction T as [|a ty op v x l IHl r IHr]; intros b par its stk acc fuel fuel' Q h H Hf HQ.
  - apply HQ. cbn in Hf. lia.
  - cbn [asize] in Hf. destruct ty; cbn [pushed]; try (apply HQ; lia).
    destruct fuel' as [|fuel']; [lia|]. cbn [SimplifyOrder fst]. cbn [cells app] in H. rewrite <- app_assoc in H.
    apply wp_bind. eapply wp_load; [exact H|]. cbn [c_left c_right]. apply wp_bind. eapply wp_pushOperator_l; [exact H|].
    apply wp_bind. eapply wp_pushOperator_r; [exact H|].
    eapply IHr with (its := cells (Some a) l ++ ICell a (MkCell OPERATOR op v x par (root l) (root r)) :: its) (fuel := asize l + fuel); [own H|lia|].
    intros f1 Hf1. eapply IHl with (its := cells (Some a) r ++ ICell a (MkCell OPERATOR op v x par (root l) (root r)) :: its) (fuel := fuel); [own H|lia|].
    intros f2 Hf2. specialize (HQ f2 Hf2). cbn [post] in HQ. rewrite <- !app_assoc in HQ. exact HQ.
Qed.

(** ** The traversal *)
Notation is_op T := (match T with N OPERATOR _ _ _ _ _ => True | _ => False end).
Definition simp cfg (t : node) : res node := match t with N OPERATOR _ _ _ _ _ => SimplifyWholeNode cfg t | _ => Ok t end.
Lemma simp_node cfg op v x l r : SimplifyWholeNode cfg (N OPERATOR op v x l r) =
  let* l' := simp cfg l in let* r' := simp cfg r in SimplifySingleNode cfg (N OPERATOR op v x l' r').
Proof. reflexivity. Qed.
Definition fside (f : side) : bool := match f with L => true | R => false end.

Lemma wp_steps cfg (T : atree) : forall b c f its t' rest (Q : unit -> heap -> Prop) h,
  simp cfg (erase T) = Ok t' ->
  owns h (ICell b (with_child c f (root T)) :: cells (Some b) T ++ its) ->
  (forall q h', owns h' (ICell b (with_child c f q) :: ITree (Some b) q t' :: its) -> wp (forM (SimplifyStep pick cfg) rest) Q h') ->
  wp (forM (SimplifyStep pick cfg) (post T (fside f) ++ rest)) Q h.
Proof.
  induction T as [|a ty op v x l IHl r IHr]; intros b c f its t' rest Q h E H HQ.
  - cbn in *. injection E as <-. apply (HQ None). apply (own_nil _ (Some b)) in H. own H.
  - destruct ty; try (cbn [simp erase] in E; injection E as <-; apply (HQ (Some a));
      assert (H' : owns h (cells (Some b) (AN a _ op v x l r) ++ ICell b (with_child c f (Some a)) :: its)) by own H;
      apply own_unannot in H'; own H').
    cbn [erase simp] in E. rewrite simp_node in E. destruct (simp cfg (erase l)) as [l'| | | | |] eqn:El; try discriminate. cbn [bind] in E.
    destruct (simp cfg (erase r)) as [r'| | | | |] eqn:Er; try discriminate. cbn [bind] in E.
    cbn [post]. rewrite <- !app_assoc. cbn [cells root app] in H. rewrite <- app_assoc in H.
    eapply (IHl a (MkCell OPERATOR op v x (Some b) None (root r)) L); [reflexivity| |].
    { cbn [with_child c_type c_op c_value c_name c_parent c_left c_right]. own H. }
    intros ql h1 H1. cbn [with_child c_type c_op c_value c_name c_parent c_left c_right] in H1.
    eapply (IHr a (MkCell OPERATOR op v x (Some b) ql None) R); [reflexivity| |].
    { cbn [with_child c_type c_op c_value c_name c_parent c_left c_right]. own H1. }
    intros qr h2 H2. cbn [with_child c_type c_op c_value c_name c_parent c_left c_right] in H2.
    cbn [app forM]. apply wp_bind. unfold SimplifyStep. cbn [fst snd]. apply wp_bind. eapply wp_load; [exact H2|]. cbn [c_parent].
    apply wp_bind, wp_deref.
    replace (if fside f then L else R) with f by now destruct f.
    eapply wp_HSimplifySingleNode with (p := Some a) (par := Some b); [apply (sa_fld b f c)|exact E| |].
    + apply owns_perm with (ITree (Some b) (Some a) (N OPERATOR op v x l' r') :: ICell b (with_child c f (Some a)) :: its); [perm|].
      apply own_close with ql qr. own H2.
    + intros q h3 H3. apply (HQ q). exact H3.
Qed.
Lemma dies_steps cfg (T : atree) : forall b c f its rest h,
  simp cfg (erase T) = Terminate ->
  owns h (ICell b (with_child c f (root T)) :: cells (Some b) T ++ its) ->
  dies (forM (SimplifyStep pick cfg) (post T (fside f) ++ rest)) h.
Proof.
  induction T as [|a ty op v x l IHl r IHr]; intros b c f its rest h E H; [discriminate|].
  destruct ty; try discriminate.
  cbn [erase simp] in E. rewrite simp_node in E.
  cbn [post]. rewrite <- !app_assoc. cbn [cells root app] in H. rewrite <- app_assoc in H.
  destruct (simp cfg (erase l)) as [l'| | | | |] eqn:El; try discriminate; cbn [bind] in E.
  2:{ eapply (IHl a (MkCell OPERATOR op v x (Some b) None (root r)) L); [reflexivity|].
    cbn [with_child c_type c_op c_value c_name c_parent c_left c_right]. own H. }
  assert (W : wp (forM (SimplifyStep pick cfg) (post l true ++ [])) (fun _ h' => dies (forM (SimplifyStep pick cfg) (post r false ++ [(a, fside f)] ++ rest)) h') h).
  2:{ clear - W. rewrite app_nil_r in W. revert h W. induction (post l true) as [|s0 l0 IH]; intros h W; cbn [forM app] in *.
      - destruct W as (u & h' & [= <- <-] & D0). exact D0.
      - apply dies_bind. destruct W as (u & h' & E & D0). unfold bindM in E. destruct (SimplifyStep pick cfg s0 h) as [[u0| | | | |] h0] eqn:E0; try discriminate.
        exists u0, h0. split; [exact E0|]. apply IH. exists u, h'. auto. }
  eapply (wp_steps cfg l a (MkCell OPERATOR op v x (Some b) None (root r)) L); [exact El| |].
  { cbn [with_child c_type c_op c_value c_name c_parent c_left c_right]. own H. }
  intros ql h1 H1. cbn [with_child c_type c_op c_value c_name c_parent c_left c_right] in H1. cbn [forM]. apply wp_ret.
  destruct (simp cfg (erase r)) as [r'| | | | |] eqn:Er; try discriminate; cbn [bind] in E.
  2:{ eapply (IHr a (MkCell OPERATOR op v x (Some b) ql None) R); [reflexivity|].
    cbn [with_child c_type c_op c_value c_name c_parent c_left c_right]. own H1. }
  assert (W : wp (forM (SimplifyStep pick cfg) (post r false ++ [])) (fun _ h' => dies (forM (SimplifyStep pick cfg) ([(a, fside f)] ++ rest)) h') h1).
  2:{ clear - W. rewrite app_nil_r in W. revert h1 W. induction (post r false) as [|s0 l0 IH]; intros h W; cbn [forM app] in *.
      - destruct W as (u & h' & [= <- <-] & D0). exact D0.
      - apply dies_bind. destruct W as (u & h' & E & D0). unfold bindM in E. destruct (SimplifyStep pick cfg s0 h) as [[u0| | | | |] h0] eqn:E0; try discriminate.
        exists u0, h0. split; [exact E0|]. apply IH. exists u, h'. auto. }
  eapply (wp_steps cfg r a (MkCell OPERATOR op v x (Some b) ql None) R); [exact Er| |].
  { cbn [with_child c_type c_op c_value c_name c_parent c_left c_right]. own H1. }
  intros qr h2 H2. cbn [with_child c_type c_op c_value c_name c_parent c_left c_right] in H2. cbn [forM app]. apply wp_ret.
  apply dies_here. unfold SimplifyStep. cbn [fst snd]. apply dies_bind. eapply wp_load; [exact H2|]. cbn [c_parent].
  apply dies_bind, wp_deref.
  replace (if fside f then L else R) with f by now destruct f.
  eapply dies_HSimplifySingleNode with (p := Some a) (par := Some b); [apply (sa_fld b f c)|exact E|].
  apply owns_perm with (ITree (Some b) (Some a) (N OPERATOR op v x l' r') :: ICell b (with_child c f (Some a)) :: its); [perm|].
  apply own_close with ql qr. own H2.
Qed.

Lemma wp_HSimplify cfg s upd p t t' its (Q : unit -> heap -> Prop) h : slot_at s upd ->
  Simplify cfg t = Ok t' -> owns h (upd p :: ITree None p t :: its) ->
  (forall q h', owns h' (upd q :: ITree None q t' :: its) -> Q tt h') -> wp (HSimplify pick cfg s) Q h.
Proof.
  intros Sl E H HQ. assert (E' : SimplifyWholeNode cfg t = Ok t') by (unfold Simplify in E; destruct (SimplifyWholeNode cfg t); cbn in E; congruence).
  clear E. unfold HSimplify.
  destruct t as [|ty op v x l r]; [discriminate|]. pose proof H as H0. front H (ITree None p (N ty op v x l r)).
  apply own_annot in H as (T & ET & RT & H). destruct T as [|a ty' op' v' x' Tl Tr]; [discriminate|]. cbn [erase] in ET. injection ET as -> -> -> -> El Er. cbn [root] in RT. subst p.
  cbn [cells app] in H. rewrite <- app_assoc in H.
  apply (wp_fuel (fun n => noexceptM (bindM (get_slot s) (fun p => bindM (deref p) (fun a => bindM (load a) (fun c => match c_type c with
    | OPERATOR => bindM (mkSimplifyNode a) (fun s0 => bindM (SimplifyOrder (S n) [s0] []) (fun order => bindM (forM (SimplifyStep pick cfg) (removelast order)) (fun _ => HSimplifySingleNode pick cfg s)))
    | _ => ret tt end)))))).
  apply wp_noexcept, wp_bind. eapply wp_get; [exact Sl|exact H0|]. apply wp_bind, wp_deref, wp_bind. eapply wp_load; [exact H|]. cbn [c_type].
  destruct ty; try (injection E' as <-; apply wp_ret; apply (HQ (Some a)); exact H0).
  apply wp_bind. unfold mkSimplifyNode. apply wp_bind. eapply wp_load; [exact H|]. cbn [c_parent]. apply wp_ret.
  apply wp_bind. eapply (wp_SimplifyOrder (AN a OPERATOR op v x Tl Tr) true None _ [] [] 1); [cbn [cells app]; rewrite <- app_assoc; exact H| |].
  { pose proof H0 as H1. front H1 (ITree None (Some a) (N OPERATOR op v x l r)). apply own_size in H1. rewrite asize_erase. cbn [erase]. rewrite El, Er. lia. }
  intros fu Hfu. destruct fu; [lia|]. cbn [SimplifyOrder]. apply wp_ret. cbn [post]. rewrite app_nil_r, !app_assoc, removelast_last.
  rewrite simp_node in E'. destruct (simp cfg l) as [l'| | | | |] eqn:Es; try discriminate. cbn [bind] in E'.
  destruct (simp cfg r) as [r'| | | | |] eqn:Es2; try discriminate. cbn [bind] in E'.
  apply wp_bind. eapply (wp_steps cfg Tl a (MkCell OPERATOR op v x None None (root Tr)) L); [rewrite El; exact Es| |].
  { cbn [with_child c_type c_op c_value c_name c_parent c_left c_right]. exact H. }
  intros ql h1 H1. cbn [with_child c_type c_op c_value c_name c_parent c_left c_right] in H1.
  rewrite <- (app_nil_r (post Tr false)). eapply (wp_steps cfg Tr a (MkCell OPERATOR op v x None ql None) R); [rewrite Er; exact Es2| |].
  { cbn [with_child c_type c_op c_value c_name c_parent c_left c_right]. own H1. }
  intros qr h2 H2. cbn [with_child c_type c_op c_value c_name c_parent c_left c_right] in H2. cbn [forM]. apply wp_ret.
  eapply wp_HSimplifySingleNode with (p := Some a) (par := None); [exact Sl|exact E'| |exact HQ].
  apply owns_perm with (ITree None (Some a) (N OPERATOR op v x l' r') :: upd (Some a) :: its); [perm|].
  apply own_close with ql qr. own H2.
Qed.
Lemma forM_app {A} (f : A -> M (K:=K) unit) l1 l2 (Q : unit -> heap -> Prop) h : wp (forM f l1) (fun _ h' => wp (forM f l2) Q h') h -> wp (forM f (l1 ++ l2)) Q h.
Proof.
  revert h. induction l1 as [|a l1 IH]; intros h W; cbn [forM app] in *.
  - destruct W as (u & h' & [= <- <-] & D0). exact D0.
  - apply wp_bind. destruct W as (u & h' & E & D0). unfold bindM in E. destruct (f a h) as [[u0| | | | |] h0] eqn:E0; try discriminate.
    exists u0, h0. split; [exact E0|]. apply IH. exists u, h'. auto.
Qed.
Lemma dies_forM_app {A} (f : A -> M (K:=K) unit) l1 l2 h : wp (forM f l1) (fun _ h' => dies (forM f l2) h') h -> dies (forM f (l1 ++ l2)) h.
Proof.
  revert h. induction l1 as [|a l1 IH]; intros h W; cbn [forM app] in *.
  - destruct W as (u & h' & [= <- <-] & D0). exact D0.
  - apply dies_bind. destruct W as (u & h' & E & D0). unfold bindM in E. destruct (f a h) as [[u0| | | | |] h0] eqn:E0; try discriminate.
    exists u0, h0. split; [exact E0|]. apply IH. exists u, h'. auto.
Qed.
Lemma dies_HSimplify cfg s upd p t its h : slot_at s upd ->
  Simplify cfg t = Terminate -> owns h (upd p :: ITree None p t :: its) -> dies (HSimplify pick cfg s) h.
Proof.
  intros Sl E H. unfold HSimplify.
  assert (E' : SimplifyWholeNode cfg t = Terminate \/ exists e, SimplifyWholeNode cfg t = Throw e) by (unfold Simplify in E; destruct (SimplifyWholeNode cfg t); try discriminate; eauto).
  clear E.
  assert (NT : forall t e, SimplifySingleNode cfg t <> Throw e).
  { intros [|ty op v x l r] e; [discriminate|]. cbn [SimplifySingleNode].
    destruct (GetOperatorNum op) as [|[|[|]]]; try discriminate.
    - destruct l as [|[] ? ? ? ? ?]; try discriminate. destruct (Calc cfg op v0 (n_ofZ 0)); discriminate.
    - destruct l as [|[] ? ? ? ? ?]; try discriminate; destruct r as [|[] ? ? ? ? ?]; try discriminate;
      try (repeat match goal with |- (if ?b then _ else _) <> _ => destruct b end; discriminate).
      destruct (Calc cfg op v0 v1); discriminate. }
  assert (NT2 : forall t e, SimplifyWholeNode cfg t <> Throw e).
  { induction t0 as [|ty op v x l IHl r IHr]; intros e; [discriminate|]. destruct ty; try discriminate.
    rewrite simp_node. unfold simp. 
    assert (Hl : forall e, match l with N OPERATOR _ _ _ _ _ => SimplifyWholeNode cfg l | _ => Ok l end <> Throw e).
    { intros e0. destruct l as [|[] ? ? ? ? ?]; try discriminate. apply IHl. }
    assert (Hr : forall e, match r with N OPERATOR _ _ _ _ _ => SimplifyWholeNode cfg r | _ => Ok r end <> Throw e).
    { intros e0. destruct r as [|[] ? ? ? ? ?]; try discriminate. apply IHr. }
    intros Ex. destruct (match l with N OPERATOR _ _ _ _ _ => SimplifyWholeNode cfg l | _ => Ok l end); try discriminate Ex; cbn [bind] in Ex; [|injection Ex as ->; now apply (Hl e)].
    destruct (match r with N OPERATOR _ _ _ _ _ => SimplifyWholeNode cfg r | _ => Ok r end); try discriminate Ex; cbn [bind] in Ex; [|injection Ex as ->; now apply (Hr e)].
    now apply NT in Ex. }
  destruct E' as [E'|[e E']]; [|now apply NT2 in E'].
  destruct t as [|ty op v x l r]; [discriminate|]. destruct ty; try discriminate. pose proof H as H0. front H (ITree None p (N OPERATOR op v x l r)).
  apply own_annot in H as (T & ET & RT & H). destruct T as [|a ty' op' v' x' Tl Tr]; [discriminate|]. cbn [erase] in ET. injection ET as -> -> -> -> El Er. cbn [root] in RT. subst p.
  cbn [cells app] in H. rewrite <- app_assoc in H.
  pose proof H0 as Hs. front Hs (ITree None (Some a) (N OPERATOR op v x l r)). apply own_size in Hs.
  apply dies_noexcept, dies_bind. eapply wp_get; [exact Sl|exact H0|]. apply dies_bind, wp_deref, dies_bind. eapply wp_load; [exact H|]. cbn [c_type].
  apply dies_bind. unfold mkSimplifyNode. apply wp_bind. eapply wp_load; [exact H|]. cbn [c_parent]. apply wp_ret.
  apply dies_bind. eapply (wp_SimplifyOrder (AN a OPERATOR op v x Tl Tr) true None _ [] [] 1); [cbn [cells app]; rewrite <- app_assoc; exact H| |].
  { rewrite asize_erase. cbn [erase]. rewrite El, Er. lia. }
  intros fu Hfu. destruct fu; [lia|]. cbn [SimplifyOrder]. apply wp_ret. cbn [post]. rewrite app_nil_r, !app_assoc, removelast_last.
  rewrite simp_node in E'. destruct (simp cfg l) as [l'| | | | |] eqn:Es; try discriminate; cbn [bind] in E'.
  2:{ apply dies_here. eapply (dies_steps cfg Tl a (MkCell OPERATOR op v x None None (root Tr)) L); [rewrite El; exact Es|].
      cbn [with_child c_type c_op c_value c_name c_parent c_left c_right]. exact H. }
  destruct (simp cfg r) as [r'| | | | |] eqn:Es2; try discriminate; cbn [bind] in E'.
  2:{ apply dies_here, dies_forM_app. rewrite <- (app_nil_r (post Tl true)).
      eapply (wp_steps cfg Tl a (MkCell OPERATOR op v x None None (root Tr)) L); [rewrite El; exact Es| |].
      { cbn [with_child c_type c_op c_value c_name c_parent c_left c_right]. exact H. }
      intros ql h1 H1. cbn [with_child c_type c_op c_value c_name c_parent c_left c_right] in H1. cbn [forM]. apply wp_ret.
      rewrite <- (app_nil_r (post Tr false)). eapply (dies_steps cfg Tr a (MkCell OPERATOR op v x None ql None) R); [rewrite Er; exact Es2|].
      cbn [with_child c_type c_op c_value c_name c_parent c_left c_right]. own H1. }
  apply dies_bind. eapply (wp_steps cfg Tl a (MkCell OPERATOR op v x None None (root Tr)) L); [rewrite El; exact Es| |].
  { cbn [with_child c_type c_op c_value c_name c_parent c_left c_right]. exact H. }
  intros ql h1 H1. cbn [with_child c_type c_op c_value c_name c_parent c_left c_right] in H1.
  rewrite <- (app_nil_r (post Tr false)). eapply (wp_steps cfg Tr a (MkCell OPERATOR op v x None ql None) R); [rewrite Er; exact Es2| |].
  { cbn [with_child c_type c_op c_value c_name c_parent c_left c_right]. own H1. }
  intros qr h2 H2. cbn [with_child c_type c_op c_value c_name c_parent c_left c_right] in H2. cbn [forM]. apply wp_ret.
  eapply dies_HSimplifySingleNode with (p := Some a) (par := None); [exact Sl|exact E'|].
  apply owns_perm with (ITree None (Some a) (N OPERATOR op v x l' r') :: upd (Some a) :: its); [perm|].
  apply own_close with ql qr. own H2.
Qed.

End HSimplify.
