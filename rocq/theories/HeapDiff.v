(** Diff on the heap (with its queue of pending sub-trees) refines Diff on trees. *)
From Coq Require Import String List ZArith Bool Arith Lia Permutation.
From Verif Require Import Base MathOp NodeModel SimplifyModel DiffModel ExprSpec NodeProofs DiffProofs HeapModel HeapSpec HeapProofs HeapSimplify.
Import ListNotations.
Local Open Scope string_scope. Local Open Scope list_scope. Local Open Scope nat_scope.

Section HDiff.
Context {K : num_ops}.
Notation node := (node K).
Notation heap := (heap K).
Implicit Types h : heap.
Notation item := (item (K:=K)).
Implicit Types (e a c : expr K).

(** ** Expressions with sub-expressions that still have to be differentiated *)
Inductive mexpr := MPend (e : expr K) | MDone (e : expr K) | MUn (u : unop) (m : mexpr) | MBin (b : binop) (m1 m2 : mexpr).
Fixpoint fin (x : string) (m : mexpr) : expr K :=
  match m with MPend e => dexpr x e | MDone e => e | MUn u m => EUn u (fin x m) | MBin b m1 m2 => EBin b (fin x m1) (fin x m2) end.
Fixpoint cur (m : mexpr) : expr K :=
  match m with MPend e | MDone e => e | MUn u m => EUn u (cur m) | MBin b m1 m2 => EBin b (cur m1) (cur m2) end.
Fixpoint mpend (m : mexpr) : list (expr K) :=
  match m with MPend e => [e] | MDone e => [] | MUn u m => mpend m | MBin b m1 m2 => mpend m1 ++ mpend m2 end.

(** What one rewriting step makes of an operator. *)
Definition dstep e : mexpr :=
  match e with
  | ENum _ | EVar _ => MDone e
  | EUn u a =>
      if numb a && negb (is_sign u) then MDone (lit 0) else
      let p := MPend a in
      match u with
      | UPos => MUn UPos p
      | UNeg => MUn UNeg p
      | USin => MBin BMul (MDone (EUn UCos a)) p
      | UCos => MBin BMul (MDone (EUn UNeg (EUn USin a))) p
      | UTan => MBin BMul (MDone (EBin BDiv (lit 1) (EBin BPow (EUn UCos a) (lit 2)))) p
      | UAsin => MBin BMul (MDone (EBin BDiv (lit 1) (EUn USqrt (EBin BSub (lit 1) (EBin BPow a (lit 2)))))) p
      | UAcos => MBin BMul (MDone (EBin BDiv (lit (-1)) (EUn USqrt (EBin BSub (lit 1) (EBin BPow a (lit 2)))))) p
      | UAtan => MBin BMul (MDone (EBin BDiv (lit 1) (EBin BAdd (lit 1) (EBin BPow a (lit 2))))) p
      | USqrt => MBin BMul (MDone (EBin BDiv (lit 1) (EBin BMul (lit 2) (EUn USqrt a)))) p
      | ULog => MBin BMul (MDone (EBin BDiv (lit 1) a)) p
      | ULog2 => MBin BMul (MDone (EBin BDiv (lit 1) (EBin BMul a (ENum (n_log (n_ofZ 2)))))) p
      | ULog10 => MBin BMul (MDone (EBin BDiv (lit 1) (EBin BMul a (ENum (n_log (n_ofZ 10)))))) p
      | UExp => if varb a then MDone (EUn UExp a) else MBin BMul (MDone (EUn UExp a)) p
      end
  | EBin b a c =>
      match b with
      | BAdd | BSub => if numb a && numb c then MDone (lit 0) else MBin b (MPend a) (MPend c)
      | BMul => if numb a then MBin BMul (MDone a) (MPend c)
                else if numb c then MBin BMul (MPend a) (MDone c)
                else MBin BAdd (MBin BMul (MPend a) (MDone c)) (MBin BMul (MDone a) (MPend c))
      | BDiv => if numb c then MBin BDiv (MPend a) (MDone c)
                else MBin BDiv (MBin BSub (MBin BMul (MPend a) (MDone c)) (MBin BMul (MDone a) (MPend c)))
                       (MDone (EBin BPow c (lit 2)))
      | BPow =>
          match a, c with
          | ENum _, ENum _ => MDone (lit 0)
          | _, ENum w => MBin BMul (MDone (EBin BMul c (EBin BPow a (ENum (n_sub w (n_ofZ 1)))))) (MPend a)
          | ENum v, _ => MBin BMul (MDone (EBin BMul (EBin BPow a c) (EUn ULog (ENum v)))) (MPend c)
          | _, _ => MBin BMul (MDone e) (MPend (EBin BMul c (EUn ULog a)))
          end
      | _ => MDone e
      end
  end.

Definition top_int e : bool := match e with EBin (BAnd | BOr | BMod) _ _ => true | _ => false end.
Definition is_operator e : bool := match e with EUn _ _ | EBin _ _ _ => true | _ => false end.

Lemma fin_dstep x e : is_operator e = true -> top_int e = false -> fin x (dstep e) = dexpr x e.
Proof.
  destruct e as [v|y|u a|b a c]; try discriminate; intros _ Ht.
  - cbn [dstep dexpr]. destruct (numb a && negb (is_sign u)); [reflexivity|]. destruct u; try reflexivity.
    cbn [d_un]. now destruct (varb a).
  - destruct b; try discriminate Ht; cbn [dstep dexpr].
    + now destruct (numb a && numb c).
    + now destruct (numb a && numb c).
    + destruct (numb a); [reflexivity|]. now destruct (numb c).
    + now destruct (numb c).
    + destruct a; destruct c; reflexivity.
Qed.

(** A measure that each step decreases. *)
Fixpoint wt e : nat :=
  match e with
  | ENum _ | EVar _ => 1
  | EUn _ a => 1 + wt a
  | EBin b a c => match b with BPow => 3 | _ => 1 end + wt a + wt c
  end.
Fixpoint wts (l : list (expr K)) : nat := match l with [] => 0 | e :: l' => wt e + wts l' end.
Lemma wts_app l1 l2 : wts (l1 ++ l2) = wts l1 + wts l2.
Proof. induction l1; cbn; lia. Qed.
Lemma wts_perm l1 l2 : Permutation l1 l2 -> wts l1 = wts l2.
Proof. induction 1; cbn; lia. Qed.
Lemma wt_pos e : 1 <= wt e.
Proof. destruct e as [| | |[]]; cbn; lia. Qed.
Lemma wt_size e : wt e <= 3 * node_size (embed e).
Proof. induction e as [| | |[]]; cbn [wt embed node_size]; lia. Qed.
Lemma wts_dstep e : wts (mpend (dstep e)) < wt e.
Proof.
  destruct e as [v|y|u a|b a c]; try (cbn; lia).
  - cbn [dstep wt]. destruct (numb a && negb (is_sign u)); [cbn; lia|]. destruct u; try (cbn; lia). destruct (varb a); cbn; lia.
  - cbn [dstep]. destruct b; cbn [wt]; try (cbn; lia).
    + destruct (numb a && numb c); cbn; lia.
    + destruct (numb a && numb c); cbn; lia.
    + destruct (numb a); [cbn; lia|]. destruct (numb c); cbn; lia.
    + destruct (numb c); cbn; lia.
    + destruct a; destruct c; cbn; lia.
Qed.
(** &, |, % are found sooner or later. *)
Lemma no_int_dstep e : is_operator e = true -> top_int e = false -> (Forall no_int_ops (mpend (dstep e)) <-> no_int_ops e).
Proof.
  destruct e as [v|y|u a|b a c]; try discriminate; intros _ Ht.
  - cbn [dstep no_int_ops]. destruct (numb a && negb (is_sign u)) eqn:E.
    + apply andb_true_iff in E as [E _]. apply numb_no_int in E. split; auto. constructor.
    + destruct u; cbn [mpend app]; try (rewrite Forall_cons_iff; intuition constructor).
      destruct (varb a) eqn:Ev; cbn [mpend app]; [|rewrite Forall_cons_iff; intuition constructor].
      apply varb_no_int in Ev. split; auto.
  - destruct b; try discriminate Ht; cbn [dstep no_int_ops].
    + destruct (numb a && numb c) eqn:E.
      * apply andb_true_iff in E as [E1 E2]. apply numb_no_int in E1, E2. split; auto. constructor.
      * cbn [mpend app]. rewrite !Forall_cons_iff. intuition constructor.
    + destruct (numb a && numb c) eqn:E.
      * apply andb_true_iff in E as [E1 E2]. apply numb_no_int in E1, E2. split; auto. constructor.
      * cbn [mpend app]. rewrite !Forall_cons_iff. intuition constructor.
    + destruct (numb a) eqn:E1; [apply numb_no_int in E1|destruct (numb c) eqn:E2; [apply numb_no_int in E2|]]; cbn [mpend app]; rewrite !Forall_cons_iff; intuition constructor.
    + destruct (numb c) eqn:E1; [apply numb_no_int in E1|]; cbn [mpend app]; rewrite !Forall_cons_iff; intuition constructor.
    + destruct a; destruct c; cbn [mpend app no_int_ops]; rewrite ?Forall_cons_iff; cbn [no_int_ops]; intuition constructor.
Qed.

End HDiff.

Section HDiff2.
Context {K : num_ops}.
Notation node := (node K).
Notation heap := (heap K).
Implicit Types h : heap.
Notation item := (item (K:=K)).
Notation mexpr := (mexpr (K:=K)).
Variable pick : heap -> addr.
Hypothesis Hpick : allocator pick.
Implicit Types e : expr K.

(** ** Memory *)
Definition pend := list (addr * bool * expr K).
Inductive shape : option addr -> bool -> option addr -> mexpr -> list item -> pend -> Prop :=
| sh_pend par f (a : addr) e : shape par f (Some a) (MPend e) [ITree par (Some a) (embed e)] [(a, f, e)]
| sh_done par f p e : shape par f p (MDone e) [ITree par p (embed e)] []
| sh_un par f (a : addr) u pl m its q : shape (Some a) true pl m its q ->
    shape par f (Some a) (MUn u m) (ICell a (MkCell OPERATOR (unop_op u) (n_ofZ 0) "" par pl None) :: its) q
| sh_bin par f (a : addr) b pl pr m1 m2 i1 i2 q1 q2 : shape (Some a) true pl m1 i1 q1 -> shape (Some a) false pr m2 i2 q2 ->
    shape par f (Some a) (MBin b m1 m2) (ICell a (MkCell OPERATOR (binop_op b) (n_ofZ 0) "" par pl pr) :: i1 ++ i2) (q1 ++ q2).

Lemma shape_mpend par f p m its q : shape par f p m its q -> map snd q = mpend m.
Proof. induction 1; cbn; try reflexivity; [assumption|]. rewrite map_app. congruence. Qed.
Lemma shape_cur par f p m its q : shape par f p m its q -> forall h rest, owns h (its ++ rest) -> owns h (ITree par p (embed (cur m)) :: rest).
Proof.
  induction 1 as [| |par f a u pl m its q S1 IH|par f a b pl pr m1 m2 i1 i2 q1 q2 S1 IH1 S2 IH2]; intros h rest H; cbn [app] in H; auto.
  - cbn [cur embed]. apply own_close with pl None.
    assert (H1 : owns h (its ++ ICell a (MkCell OPERATOR (unop_op u) (n_ofZ 0) "" par pl None) :: rest)) by own H.
    apply IH in H1. apply (own_nil _ (Some a)) in H1. own H1.
  - cbn [cur embed]. apply own_close with pl pr. rewrite <- app_assoc in H.
    assert (H1 : owns h (i1 ++ i2 ++ ICell a (MkCell OPERATOR (binop_op b) (n_ofZ 0) "" par pl pr) :: rest)) by own H.
    apply IH1 in H1.
    assert (H2 : owns h (i2 ++ ITree (Some a) pl (embed (cur m1)) :: ICell a (MkCell OPERATOR (binop_op b) (n_ofZ 0) "" par pl pr) :: rest)) by own H1.
    apply IH2 in H2. own H2.
Qed.
Lemma shape_done par f p m its : shape par f p m its [] -> forall x, cur m = fin x m.
Proof.
  intros S x. remember [] as q eqn:Eq. revert Eq. induction S as [| |? ? ? ? ? ? ? ? S IH|? ? ? ? ? ? ? ? ? ? ? ? S1 IH1 S2 IH2]; intros E; cbn; try discriminate; try reflexivity.
  - now rewrite IH.
  - apply app_eq_nil in E as [E1 E2]. now rewrite IH1, IH2.
Qed.

Definition sd (f : bool) : side := if f then L else R.
Lemma perm_cons_app {A} (x : A) l l1 l2 : Permutation (l1 ++ l2) (x :: l) ->
  (exists l1', Permutation l1 (x :: l1') /\ Permutation l (l1' ++ l2)) \/ (exists l2', Permutation l2 (x :: l2') /\ Permutation l (l1 ++ l2')).
Proof.
  intros P. assert (Hin : In x (l1 ++ l2)) by (apply (Permutation_in _ (Permutation_sym P)); now left).
  apply in_app_or in Hin as [Hin|Hin]; apply in_split in Hin as (a & b & ->).
  - left. exists (a ++ b). split; [symmetry; apply Permutation_middle|]. apply Permutation_cons_inv with x. rewrite <- P.
    rewrite <- app_assoc. cbn. rewrite <- app_assoc. symmetry. apply Permutation_middle.
  - right. exists (a ++ b). split; [symmetry; apply Permutation_middle|]. apply Permutation_cons_inv with x. rewrite <- P.
    rewrite !app_assoc. symmetry. apply Permutation_middle.
Qed.

(** The place of a pending sub-tree. *)
Lemma focus x par0 f p m its q : shape par0 f p m its q -> forall b (c : cell K) (a : addr) g e q', par0 = Some b -> Permutation q ((a, g, e) :: q') ->
  exists b' c' oth, Permutation (ICell b (with_child c (sd f) p) :: its) (ICell b' (with_child c' (sd g) (Some a)) :: ITree (Some b') (Some a) (embed e) :: oth) /\
  forall p1 m1 its1 q1, shape (Some b') g p1 m1 its1 q1 -> fin x m1 = dexpr x e ->
  exists p2 m2 its2 q2, shape par0 f p2 m2 its2 q2 /\ fin x m2 = fin x m /\
    Permutation (ICell b (with_child c (sd f) p2) :: its2) (ICell b' (with_child c' (sd g) p1) :: its1 ++ oth) /\ Permutation q2 (q1 ++ q').
Proof.
  induction 1 as [par f a0 e0|par f p e0|par f a0 u pl m its q S1 IH|par f a0 bo pl pr m1 m2 i1 i2 q1 q2 S1 IH1 S2 IH2]; intros b c a g e q' Eb P.
  - apply Permutation_length_1_inv in P. injection P as -> -> -> ->. subst par. exists b, c, []. split; [perm|].
    intros p1 m1 its1 q1 S E. exists p1, m1, its1, q1. rewrite !app_nil_r. repeat split; auto.
  - apply Permutation_nil in P. discriminate.
  - destruct (IH a0 (MkCell OPERATOR (unop_op u) (n_ofZ 0) "" par None None) a g e q' eq_refl P) as (b' & c' & oth & P1 & F). cbn [with_child sd c_type c_op c_value c_name c_parent c_left c_right] in *.
    exists b', c', (ICell b (with_child c (sd f) (Some a0)) :: oth). split.
    { rewrite P1. perm. }
    intros p1 m1 its1 q1 S E. destruct (F _ _ _ _ S E) as (p2 & m2 & its2 & q2 & S2 & E2 & P2 & P3).
    exists (Some a0), (MUn u m2). eexists. exists q2. split; [apply sh_un; exact S2|]. cbn [fin]. rewrite E2. split; [reflexivity|]. split; [|exact P3].
    rewrite P2. perm.
  - apply perm_cons_app in P as [(l1 & P & Pq)|(l1 & P & Pq)].
    + destruct (IH1 a0 (MkCell OPERATOR (binop_op bo) (n_ofZ 0) "" par None pr) a g e l1 eq_refl P) as (b' & c' & oth & P1 & F). cbn [with_child sd c_type c_op c_value c_name c_parent c_left c_right] in *.
      exists b', c', (ICell b (with_child c (sd f) (Some a0)) :: oth ++ i2). split.
      { rewrite (app_comm_cons i1), P1. cbn. perm. }
      intros p1 m0 its1 q0 S E. destruct (F _ _ _ _ S E) as (p2 & m3 & its2 & q3 & S3 & E2 & P2 & P3).
      exists (Some a0), (MBin bo m3 m2). eexists. eexists. split; [apply sh_bin; eassumption|]. cbn [fin]. rewrite E2. split; [reflexivity|]. split.
      * rewrite (app_comm_cons its2), P2. cbn. rewrite <- app_assoc. perm.
      * rewrite P3, Pq, app_assoc. reflexivity.
    + destruct (IH2 a0 (MkCell OPERATOR (binop_op bo) (n_ofZ 0) "" par pl None) a g e l1 eq_refl P) as (b' & c' & oth & P1 & F). cbn [with_child sd c_type c_op c_value c_name c_parent c_left c_right] in *.
      exists b', c', (ICell b (with_child c (sd f) (Some a0)) :: i1 ++ oth). split.
      { match goal with |- Permutation (?x :: ?y :: i1 ++ i2) _ => transitivity (x :: i1 ++ (y :: i2)); [perm|] end. rewrite P1. perm. }
      intros p1 m0 its1 q0 S E. destruct (F _ _ _ _ S E) as (p2 & m3 & its2 & q3 & S3 & E2 & P2 & P3).
      exists (Some a0), (MBin bo m1 m3). eexists. eexists. split; [apply sh_bin; eassumption|]. cbn [fin]. rewrite E2. split; [reflexivity|]. split.
      * match goal with |- Permutation (?x :: ?y :: i1 ++ its2) _ => transitivity (x :: i1 ++ (y :: its2)); [perm|] end. rewrite P2. perm.
      * rewrite P3, Pq. perm.
Qed.

(** ** Building blocks *)
(** Something with a root object that has a parent pointer. *)
Inductive hd : addr -> (option addr -> item) -> Prop :=
| hd_tree a t : hd a (fun par => ITree par (Some a) t)
| hd_cell a ty op v x l r : hd a (fun par => ICell a (MkCell ty op v x par l r)).
Lemma wp_adopt_hd a f p p' its (Q : unit -> heap -> Prop) h : hd a f -> owns h (f p :: its) ->
  (forall h', owns h' (f p' :: its) -> Q tt h') -> wp (set_parent a p') Q h.
Proof.
  destruct 1; intros H HQ.
  - eapply wp_adopt; eauto.
  - eapply wp_set_parent; [exact H|]. exact HQ.
Qed.
Lemma wp_temp_child r f c a g p its (Q : unit -> heap -> Prop) h : hd a g -> owns h (ICell r (with_child c f None) :: g p :: its) ->
  (forall h', owns h' (ICell r (with_child c f (Some a)) :: g (Some r) :: its) -> Q tt h') -> wp (CopyOrMoveTo pick r f (Temp (Some a))) Q h.
Proof.
  intros G H HQ. cbn [CopyOrMoveTo]. apply wp_bind, wp_deref, wp_bind.
  eapply wp_adopt_hd; [exact G|ownf H|]. intros h1 H1. eapply wp_reset_null; [apply (sa_fld r f c)|ownf H1|]. intros h2 H2. apply HQ. exact H2.
Qed.
Lemma wp_bin_temp op a1 a2 f1 f2 p1 p2 its (Q : addr -> heap -> Prop) h : hd a1 f1 -> hd a2 f2 -> owns h (f1 p1 :: f2 p2 :: its) ->
  (forall r h', owns h' (ICell r (MkCell OPERATOR op (n_ofZ 0) "" None (Some a1) (Some a2)) :: f1 (Some r) :: f2 (Some r) :: its) -> Q r h') ->
  wp (HBinaryOperator pick op (Temp (Some a1)) (Temp (Some a2))) Q h.
Proof.
  intros G1 G2 H HQ. unfold HBinaryOperator. apply wp_bind. eapply wp_make_node; [exact Hpick|exact H|]. intros r h1 H1. apply wp_bind.
  eapply (wp_temp_child r L (MkCell OPERATOR op (n_ofZ 0) "" None None None)); [exact G1|exact H1|]. intros h2 H2. apply wp_bind.
  cbn [with_child c_type c_op c_value c_name c_parent c_left c_right] in H2.
  eapply (wp_temp_child r R (MkCell OPERATOR op (n_ofZ 0) "" None (Some a1) None)); [exact G2|cbn [with_child c_type c_op c_value c_name c_parent c_left c_right]; own H2|].
  intros h3 H3. cbn [with_child c_type c_op c_value c_name c_parent c_left c_right] in H3. apply wp_ret. apply HQ. own H3.
Qed.
Lemma wp_un_temp op a1 f1 p1 its (Q : addr -> heap -> Prop) h : hd a1 f1 -> owns h (f1 p1 :: its) ->
  (forall r h', owns h' (ICell r (MkCell OPERATOR op (n_ofZ 0) "" None (Some a1) None) :: f1 (Some r) :: its) -> Q r h') ->
  wp (HUnaryOperator pick op (Temp (Some a1))) Q h.
Proof.
  intros G1 H HQ. unfold HUnaryOperator. apply wp_bind. eapply wp_make_node; [exact Hpick|exact H|]. intros r h1 H1. apply wp_bind.
  eapply (wp_temp_child r L (MkCell OPERATOR op (n_ofZ 0) "" None None None)); [exact G1|exact H1|]. intros h2 H2.
  cbn [with_child c_type c_op c_value c_name c_parent c_left c_right] in H2. apply wp_ret. apply HQ. exact H2.
Qed.
Lemma wp_assign_null s upd parent m (Q : unit -> heap -> Prop) h : slot_at s upd ->
  wp m (fun a h' => exists f par' rest, hd a f /\ owns h' (f par' :: upd None :: rest) /\ (forall h'', owns h'' (f parent :: upd (Some a) :: rest) -> Q tt h'')) h ->
  wp (assign s parent m) Q h.
Proof.
  intros Sl W. unfold assign. apply wp_bind. eapply wp_mono; [exact W|]. intros a h1 (f & par' & rest & G & H & HQ). apply wp_bind.
  eapply wp_reset_null; [exact Sl|ownf H|]. intros h2 H2. apply wp_bind. eapply wp_get; [exact Sl|exact H2|]. apply wp_bind, wp_deref.
  eapply wp_adopt_hd; [exact G|ownf H2|]. intros h3 H3. apply HQ. exact H3.
Qed.
Lemma wp_assign_old s upd parent m par0 n t (Q : unit -> heap -> Prop) h : slot_at s upd ->
  wp m (fun a h' => exists f par' rest, hd a f /\ owns h' (f par' :: upd (Some n) :: ITree par0 (Some n) t :: rest) /\ (forall h'', owns h'' (f parent :: upd (Some a) :: rest) -> Q tt h'')) h ->
  wp (assign s parent m) Q h.
Proof.
  intros Sl W. unfold assign. apply wp_bind. eapply wp_mono; [exact W|]. intros a h1 (f & par' & rest & G & H & HQ). apply wp_bind.
  front H (ITree par0 (Some n) t). front H (upd (Some n)).
  eapply wp_reset; [exact Sl|exact H|]. intros h2 H2. apply wp_bind. eapply wp_get; [exact Sl|exact H2|]. apply wp_bind, wp_deref.
  eapply wp_adopt_hd; [exact G|ownf H2|]. intros h3 H3. apply HQ. own H3.
Qed.

(** Temporaries that are complete trees. *)
Definition makes (m : M (K:=K) addr) (i : list item) (t : node) (j : list item) : Prop :=
  forall rest h, owns h (i ++ rest) -> wp m (fun a h' => exists par, owns h' (ITree par (Some a) t :: j ++ rest)) h.
Lemma makes_num v i : makes (tNum pick v) i (embed (ENum v)) i.
Proof. intros rest h H. eapply wp_make_node; [exact Hpick|exact H|]. intros a h1 H1. exists None. apply own_leaf. exact H1. Qed.
Lemma makes_bin op m1 m2 i j k t1 t2 : makes m1 i t1 j -> makes m2 j t2 k -> makes (tBin pick op m1 m2) i (N OPERATOR op (n_ofZ 0) "" t1 t2) k.
Proof.
  intros M1 M2 rest h H. unfold tBin. apply wp_bind. eapply wp_mono; [apply M1; exact H|]. intros a1 h1 (p1 & H1). cbv beta.
  apply wp_bind. eapply wp_mono; [apply (M2 (ITree p1 (Some a1) t1 :: rest)); own H1|]. intros a2 h2 (p2 & H2). cbv beta.
  eapply (wp_bin_temp op a1 a2); [apply hd_tree|apply (hd_tree a2 t2)|own H2|]. intros r h3 H3. exists None. apply own_close in H3. exact H3.
Qed.
Lemma makes_un op m1 i j t1 : makes m1 i t1 j -> makes (tUn pick op m1) i (N OPERATOR op (n_ofZ 0) "" t1 Nil) j.
Proof.
  intros M1 rest h H. unfold tUn. apply wp_bind. eapply wp_mono; [apply M1; exact H|]. intros a1 h1 (p1 & H1). cbv beta.
  eapply (wp_un_temp op a1); [apply hd_tree|exact H1|]. intros r h3 H3. exists None.
  apply own_close with (Some a1) None. apply (own_nil _ (Some r)) in H3. own H3.
Qed.
Lemma makes_move s upd n par t i : slot_at s upd -> makes (tMove s) (upd (Some n) :: ITree par (Some n) t :: i) t (upd None :: i).
Proof.
  intros Sl rest h H. unfold tMove. apply wp_bind. eapply wp_move_out; [exact Sl|exact H|]. intros h1 H1. apply wp_deref. exists par. own H1.
Qed.
Lemma makes_move_left s upd n ty op v x par la r t i : slot_at s upd ->
  makes (do l <- left s; tMove l) (upd (Some n) :: ICell n (MkCell ty op v x par (Some la) r) :: ITree (Some n) (Some la) t :: i) t
        (upd (Some n) :: ICell n (MkCell ty op v x par None r) :: i).
Proof.
  intros Sl rest h H. apply wp_bind. unfold left. apply wp_bind. eapply wp_get; [exact Sl|exact H|]. apply wp_bind, wp_deref, wp_ret.
  unfold tMove. apply wp_bind. eapply wp_move_out with (p := Some la); [apply (sa_fld n L (MkCell ty op v x par None r))|ownf H|].
  intros h1 H1. cbn [with_child c_type c_op c_value c_name c_parent c_left c_right] in H1. apply wp_deref. exists (Some n). own H1.
Qed.

(** Reading through slots. *)
Lemma wp_cell_at s upd n c its (Q : cell K -> heap -> Prop) h : slot_at s upd -> owns h (upd (Some n) :: ICell n c :: its) -> Q c h -> wp (cell_at s) Q h.
Proof. intros Sl H HQ. unfold cell_at. apply wp_bind. eapply wp_get; [exact Sl|exact H|]. apply wp_bind, wp_deref. eapply wp_load; [ownf H|exact HQ]. Qed.
Lemma wp_left s upd n its (Q : slot -> heap -> Prop) h : slot_at s upd -> owns h (upd (Some n) :: its) -> Q (SFld n L) h -> wp (left s) Q h.
Proof. intros Sl H HQ. unfold left. apply wp_bind. eapply wp_get; [exact Sl|exact H|]. apply wp_bind, wp_deref, wp_ret. exact HQ. Qed.
Lemma wp_right s upd n its (Q : slot -> heap -> Prop) h : slot_at s upd -> owns h (upd (Some n) :: its) -> Q (SFld n R) h -> wp (right s) Q h.
Proof. intros Sl H HQ. unfold right. apply wp_bind. eapply wp_get; [exact Sl|exact H|]. apply wp_bind, wp_deref, wp_ret. exact HQ. Qed.
Lemma wp_tClone_fld n c f a t its (Q : addr -> heap -> Prop) h : child c f = Some a ->
  owns h (ICell n c :: ITree (Some n) (Some a) t :: its) ->
  (forall q h', owns h' (ITree None (Some q) t :: ICell n c :: ITree (Some n) (Some a) t :: its) -> Q q h') -> wp (tClone pick (SFld n f)) Q h.
Proof.
  intros E H HQ. unfold tClone. apply wp_bind. eapply wp_get_fld; [exact H|]. rewrite E. 
  assert (Ht : t <> Nil). { intros ->. front H (ITree (Some n) (Some a) (Nil : node)). apply own_nil_inv in H as [? _]. discriminate. }
  eapply wp_Clone; [exact Hpick|ownf H|exact Ht|]. intros q h1 H1. apply HQ. own H1.
Qed.
Lemma wp_emplace_tree a t its q (Q : dqueue -> heap -> Prop) h : owns h (ITree None (Some a) t :: its) -> Q (q ++ [(a, false)]) h -> wp (emplace a q) Q h.
Proof.
  intros H HQ. destruct (own_some _ _ _ _ _ H) as (ty & op & v & x & l & r & ->). apply own_open in H as (b & pl & pr & [= <-] & H).
  unfold emplace. apply wp_bind. eapply wp_load; [exact H|]. apply wp_ret. exact HQ.
Qed.
Lemma wp_emplace_cell a t its q n c (Q : dqueue -> heap -> Prop) h : owns h (ITree (Some n) (Some a) t :: ICell n c :: its) ->
  Q (q ++ [(a, is_ptr (c_left c) a)]) h -> wp (emplace a q) Q h.
Proof.
  intros H HQ. destruct (own_some _ _ _ _ _ H) as (ty & op & v & x & l & r & ->). apply own_open in H as (b & pl & pr & [= <-] & H).
  unfold emplace. apply wp_bind. eapply wp_load; [exact H|]. cbn [c_parent]. apply wp_bind. eapply wp_load; [ownf H|]. apply wp_ret. exact HQ.
Qed.
Lemma own_tree_distinct p1 p2 a t1 t2 its h : owns h (ITree p1 (Some a) t1 :: ITree p2 (Some a) t2 :: its) -> False.
Proof.
  intros H. destruct (own_some _ _ _ _ _ H) as (ty & op & v & x & l & r & ->). apply own_open in H as (b & pl & pr & [= <-] & H).
  front H (ITree p2 (Some a) t2).
  destruct (own_some _ _ _ _ _ H) as (ty' & op' & v' & x' & l' & r' & ->). apply own_open in H as (b & pl' & pr' & [= <-] & H).
  front H (ICell a (MkCell ty op v x p1 pl pr)). apply (own_distinct a (MkCell ty op v x p1 pl pr) (MkCell ty' op' v' x' p2 pl' pr')
    (ITree (Some a) pl' l' :: ITree (Some a) pr' r' :: ITree (Some a) pl l :: ITree (Some a) pr r :: its) h). own H.
Qed.
Lemma left_flag n la ra ty op v x par t1 t2 its h : owns h (ICell n (MkCell ty op v x par (Some la) (Some ra)) :: ITree (Some n) (Some la) t1 :: ITree (Some n) (Some ra) t2 :: its) ->
  is_ptr (Some la) ra = false.
Proof.
  intros H. cbn. apply Nat.eqb_neq. intros ->. front H (ITree (Some n) (Some ra) t2). front H (ITree (Some n) (Some ra) t1).
  eapply own_tree_distinct. exact H.
Qed.

(** A child that is an expression. *)
Lemma own_expr h par p e its : owns h (ITree par p (embed e) :: its) -> exists a, p = Some a.
Proof. intros H. destruct (own_tree_cases _ _ _ _ _ H) as [[_ E]|(a & E & _)]; [|eauto]. now destruct e. Qed.
Definition typ e : node_type := match e with ENum _ => NUMBER | EVar _ => VARIABLE | _ => OPERATOR end.
Lemma wp_load_expr par a e its (Q : cell K -> heap -> Prop) h : owns h (ITree par (Some a) (embed e) :: its) ->
  (forall c, c_type c = typ e -> c_value c = match e with ENum v => v | _ => n_ofZ 0 end -> Q c h) -> wp (load a) Q h.
Proof.
  intros H HQ. assert (exists op x l r, embed e = N (typ e) op (match e with ENum v => v | _ => n_ofZ 0 end) x l r) as (op & x & l & r & E) by (destruct e; cbn; eauto 6).
  rewrite E in H. apply own_open in H as (b & pl & pr & [= <-] & H). eapply wp_load; [exact H|]. now apply HQ.
Qed.
Lemma typ_number e : node_type_eqb (typ e) NUMBER = numb e.
Proof. destruct e; reflexivity. Qed.
Lemma typ_variable e : node_type_eqb (typ e) VARIABLE = varb e.
Proof. destruct e; reflexivity. Qed.

(** ** The operators *)
(** The state after one step. *)
Definition stepped upd par (m : mexpr) (rest : list item) (q q' : dqueue) h : Prop :=
  exists g p1 its1 pd, shape par g p1 m its1 pd /\ owns h (upd p1 :: its1 ++ rest) /\ q' = q ++ map fst pd.
Lemma stepped_done upd par p e rest q h : owns h (upd p :: ITree par p (embed e) :: rest) -> stepped upd par (MDone e) rest q q h.
Proof. intros H. exists true, p, [ITree par p (embed e)], []. split; [constructor|]. split; [exact H|]. cbn. now rewrite app_nil_r. Qed.

Lemma wp_CullNumberMember s upd n op v x par la r0 a rest (Q : bool -> heap -> Prop) h : slot_at s upd ->
  owns h (upd (Some n) :: ICell n (MkCell OPERATOR op v x par (Some la) r0) :: ITree (Some n) (Some la) (embed a) :: rest) ->
  (numb a = true -> forall h', owns h' (upd (Some n) :: ICell n (MkCell NUMBER MATH_NULL (n_ofZ 0) x par None r0) :: rest) -> Q true h') ->
  (numb a = false -> Q false h) -> wp (CullNumberMember s) Q h.
Proof.
  intros Sl H HQ1 HQ2. unfold CullNumberMember. apply wp_bind. eapply wp_get; [exact Sl|exact H|]. apply wp_bind, wp_deref, wp_bind.
  eapply wp_load; [ownf H|]. cbn [c_left]. apply wp_bind. eapply wp_load_expr; [ownf H|]. intros c Ec _. unfold isNumber_c. rewrite Ec, typ_number.
  destruct (numb a); [|now apply wp_ret, HQ2]. apply wp_bind. front H (ITree (Some n) (Some la) (embed a)). front H (ICell n (MkCell OPERATOR op v x par (Some la) r0)).
  eapply wp_reset; [apply (sa_fld n L (MkCell OPERATOR op v x par None r0))|exact H|]. intros h1 H1. cbn [with_child c_type c_op c_value c_name c_parent c_left c_right] in H1.
  apply wp_bind. eapply wp_load; [exact H1|]. apply wp_bind. eapply wp_store; [exact H1|]. intros h2 H2. apply wp_ret. apply HQ1; [reflexivity|].
  cbn [with_data c_type c_op c_value c_name c_parent c_left c_right] in H2. own H2.
Qed.
Lemma wp_CullNumberMemberBinary s upd n op v x par la ra a c rest (Q : bool -> heap -> Prop) h : slot_at s upd ->
  owns h (upd (Some n) :: ICell n (MkCell OPERATOR op v x par (Some la) (Some ra)) :: ITree (Some n) (Some la) (embed a) :: ITree (Some n) (Some ra) (embed c) :: rest) ->
  (numb a && numb c = true -> forall h', owns h' (upd (Some n) :: ICell n (MkCell NUMBER MATH_NULL (n_ofZ 0) x par None None) :: rest) -> Q true h') ->
  (numb a && numb c = false -> Q false h) -> wp (CullNumberMemberBinary s) Q h.
Proof.
  intros Sl H HQ1 HQ2. unfold CullNumberMemberBinary. apply wp_bind. eapply wp_get; [exact Sl|exact H|]. apply wp_bind, wp_deref, wp_bind.
  eapply wp_load; [ownf H|]. cbn [c_left c_right]. apply wp_bind. eapply wp_load_expr; [ownf H|]. intros c1 Ec1 _. apply wp_bind.
  front H (ITree (Some n) (Some ra) (embed c)). eapply wp_load_expr; [exact H|]. intros c2 Ec2 _. unfold isNumber_c. rewrite Ec1, Ec2, !typ_number.
  destruct (numb a && numb c); [|now apply wp_ret, HQ2]. apply wp_bind. front H (ITree (Some n) (Some la) (embed a)). front H (ICell n (MkCell OPERATOR op v x par (Some la) (Some ra))).
  eapply wp_reset; [apply (sa_fld n L (MkCell OPERATOR op v x par None (Some ra)))|exact H|]. intros h1 H1. cbn [with_child c_type c_op c_value c_name c_parent c_left c_right] in H1.
  apply wp_bind. eapply wp_reset; [apply (sa_fld n R (MkCell OPERATOR op v x par None None))|exact H1|]. intros h3 H3. cbn [with_child c_type c_op c_value c_name c_parent c_left c_right] in H3.
  apply wp_bind. eapply wp_load; [exact H3|]. apply wp_bind. eapply wp_store; [exact H3|]. intros h2 H2. apply wp_ret. apply HQ1; [reflexivity|].
  cbn [with_data c_type c_op c_value c_name c_parent c_left c_right] in H2. own H2.
Qed.

(** What remains in the slot after the operand has been used: nothing, or the stripped node. *)
Definition leftover (upd : option addr -> item) n op (par : option addr) (j : list item) : Prop :=
  j = [upd None] \/ exists pr, j = [upd (Some n); ITree par (Some n) (N OPERATOR op (n_ofZ 0) "" Nil pr)].

Lemma wp_assign_mul s upd n op par m1 i j d u2 e rest q h : slot_at s upd -> makes m1 i (embed d) j -> leftover upd n op par j ->
  owns h (i ++ ITree None (Some u2) (embed e) :: rest) ->
  wp (do _ <- assign s par (tBin pick MATH_MULTIPLY m1 (ret u2)); ret (q ++ [(u2, false)]))
     (fun q' h' => stepped upd par (MBin BMul (MDone d) (MPend e)) rest q q' h') h.
Proof.
  intros Sl Mk J H.
  assert (W : wp (tBin pick MATH_MULTIPLY m1 (ret u2)) (fun r h' => exists a1, owns h' (ICell r (MkCell OPERATOR MATH_MULTIPLY (n_ofZ 0) "" None (Some a1) (Some u2)) :: ITree (Some r) (Some a1) (embed d) :: ITree (Some r) (Some u2) (embed e) :: j ++ rest)) h).
  { unfold tBin. apply wp_bind. eapply wp_mono; [apply Mk; exact H|]. intros a1 h1 (p1 & H1). cbv beta. apply wp_bind, wp_ret.
    eapply (wp_bin_temp MATH_MULTIPLY a1 u2); [apply hd_tree|apply (hd_tree u2 (embed e))|own H1|]. intros r h2 H2. exists a1. exact H2. }
  assert (F : forall r a1 h', owns h' (ICell r (MkCell OPERATOR MATH_MULTIPLY (n_ofZ 0) "" par (Some a1) (Some u2)) :: upd (Some r) :: ITree (Some r) (Some a1) (embed d) :: ITree (Some r) (Some u2) (embed e) :: rest) ->
    stepped upd par (MBin BMul (MDone d) (MPend e)) rest q (q ++ [(u2, false)]) h').
  { intros r a1 h' H'. exists true, (Some r).
    exists (ICell r (MkCell OPERATOR (binop_op BMul) (n_ofZ 0) "" par (Some a1) (Some u2)) :: [ITree (Some r) (Some a1) (embed d)] ++ [ITree (Some r) (Some u2) (embed e)]).
    exists ([] ++ [(u2, false, e)]). split; [|split; [|reflexivity]].
    - apply sh_bin; constructor.
    - cbn. own H'. }
  apply wp_bind. destruct J as [->|(pr & ->)].
  - eapply wp_assign_null; [exact Sl|]. eapply wp_mono; [exact W|]. intros r h1 (a1 & H1).
    exists (fun par => ICell r (MkCell OPERATOR MATH_MULTIPLY (n_ofZ 0) "" par (Some a1) (Some u2))), None. eexists. split; [apply (hd_cell r)|].
    split; [|intros h2 H2; apply wp_ret; eapply F; exact H2]. own H1.
  - eapply wp_assign_old; [exact Sl|]. eapply wp_mono; [exact W|]. intros r h1 (a1 & H1).
    exists (fun par => ICell r (MkCell OPERATOR MATH_MULTIPLY (n_ofZ 0) "" par (Some a1) (Some u2))), None. eexists. split; [apply (hd_cell r)|].
    split; [|intros h2 H2; apply wp_ret; eapply F; exact H2]. own H1.
Qed.

Lemma makes_from m i i' t j : (forall rest h, owns h (i' ++ rest) -> owns h (i ++ rest)) -> makes m i t j -> makes m i' t j.
Proof. intros Hi Mk rest h H. apply Mk, Hi, H. Qed.
Lemma makes_to m i t j j' : (forall rest h, owns h (j ++ rest) -> owns h (j' ++ rest)) -> makes m i t j -> makes m i t j'.
Proof.
  intros Hj Mk rest h H. eapply wp_mono; [apply Mk, H|]. intros a h1 (par & H1). exists par.
  assert (H2 : owns h1 (j ++ ITree par (Some a) t :: rest)) by own H1. apply Hj in H2. own H2.
Qed.

(** The whole node, or its operand, as a temporary. *)
Lemma makes_node s upd n op par la u a : slot_at s upd -> op = unop_op u ->
  makes (tMove s) [upd (Some n); ICell n (MkCell OPERATOR op (n_ofZ 0) "" par (Some la) None); ITree (Some n) (Some la) (embed a)] (embed (EUn u a)) [upd None].
Proof.
  intros Sl ->. eapply makes_from; [|apply (makes_move s upd n par (embed (EUn u a)) []); exact Sl]. intros rest h H. cbn [app] in *. cbn [embed].
  apply owns_perm with (ITree par (Some n) (N OPERATOR (unop_op u) (n_ofZ 0) "" (embed a) Nil) :: upd (Some n) :: rest); [perm|].
  apply own_close with (Some la) None. apply (own_nil _ (Some n)) in H. own H.
Qed.
Lemma makes_operand s upd n op par la a : slot_at s upd ->
  makes (do l <- left s; tMove l) [upd (Some n); ICell n (MkCell OPERATOR op (n_ofZ 0) "" par (Some la) None); ITree (Some n) (Some la) (embed a)] (embed a)
     [upd (Some n); ITree par (Some n) (N OPERATOR op (n_ofZ 0) "" Nil Nil)].
Proof.
  intros Sl. eapply makes_to; [|apply (makes_move_left s upd n OPERATOR op (n_ofZ 0) "" par la None (embed a) []); exact Sl]. intros rest h H. cbn [app] in *.
  front H (ICell n (MkCell OPERATOR op (n_ofZ (n:=K) 0) "" par None None)). apply own_leaf in H. own H.
Qed.
Lemma leftover_none upd n op par : leftover upd n op par [upd None].
Proof. now left. Qed.
Lemma leftover_node upd n op par : leftover upd n op par [upd (Some n); ITree par (Some n) (N OPERATOR op (n_ofZ 0) "" Nil Nil)].
Proof. right. now exists Nil. Qed.

Lemma wp_diff_function s upd n op op' par la (a : expr K) rest q (prepare : M (K:=K) unit) (m1 : M (K:=K) addr) j (d : expr K) h : slot_at s upd ->
  owns h (upd (Some n) :: ICell n (MkCell OPERATOR op (n_ofZ 0) "" par (Some la) None) :: ITree (Some n) (Some la) (embed a) :: rest) ->
  (forall I h, owns h (upd (Some n) :: ICell n (MkCell OPERATOR op (n_ofZ 0) "" par (Some la) None) :: I) ->
     wp prepare (fun _ h' => owns h' (upd (Some n) :: ICell n (MkCell OPERATOR op' (n_ofZ 0) "" par (Some la) None) :: I)) h) ->
  makes m1 [upd (Some n); ICell n (MkCell OPERATOR op' (n_ofZ 0) "" par (Some la) None); ITree (Some n) (Some la) (embed a)] (embed d) j -> leftover upd n op' par j ->
  wp (diff_function pick s par q prepare (fun u2 => tBin pick MATH_MULTIPLY m1 (ret u2)))
     (fun q' h' => stepped upd par (if numb a then MDone (lit 0) else MBin BMul (MDone d) (MPend a)) rest q q' h') h.
Proof.
  intros Sl H Pr Mk J. unfold diff_function. apply wp_bind. eapply wp_CullNumberMember; [exact Sl|exact H| |].
  - intros -> h1 H1. apply wp_ret. apply stepped_done with (Some n). front H1 (ICell n (MkCell NUMBER MATH_NULL (n_ofZ (n:=K) 0) "" par None None)). apply own_leaf in H1. own H1.
  - intros ->. apply wp_bind. eapply wp_mono; [apply Pr; exact H|]. intros [] h1 H1. cbv beta.
    apply wp_bind. eapply wp_left; [exact Sl|exact H1|]. apply wp_bind.
    front H1 (ITree (Some n) (Some la) (embed a)). front H1 (ICell n (MkCell OPERATOR op' (n_ofZ (n:=K) 0) "" par (Some la) None)).
    eapply wp_tClone_fld; [|exact H1|]; [reflexivity|]. intros u2 h2 H2. apply wp_bind.
    eapply wp_emplace_tree; [exact H2|].
    eapply wp_assign_mul; [exact Sl|exact Mk|exact J|]. cbn [app]. own H2.
Qed.
Lemma prepare_ret upd n c : forall I h, owns h (upd (Some n) :: ICell n c :: I) -> wp (ret tt) (fun _ h' => owns h' (upd (Some n) :: ICell n c :: I)) h.
Proof. intros I h H. now apply wp_ret. Qed.
Lemma prepare_op s upd n op op' v x par l r : slot_at s upd ->
  forall I h, owns h (upd (Some n) :: ICell n (MkCell OPERATOR op v x par l r) :: I) -> wp (set_op s op') (fun _ h' => owns h' (upd (Some n) :: ICell n (MkCell OPERATOR op' v x par l r) :: I)) h.
Proof.
  intros Sl I h H. unfold set_op. apply wp_bind. eapply wp_get; [exact Sl|exact H|]. apply wp_bind, wp_deref, wp_bind.
  front H (ICell n (MkCell OPERATOR op v x par l r)). eapply wp_load; [exact H|]. eapply wp_store; [exact H|]. intros h1 H1.
  cbn [with_data c_type c_op c_value c_name c_parent c_left c_right] in H1. own H1.
Qed.

Lemma wp_step_un s upd n par u a rest q h : slot_at s upd -> owns h (upd (Some n) :: ITree par (Some n) (embed (EUn u a)) :: rest) ->
  wp (DiffOnceOperator pick s q) (fun q' h' => stepped upd par (dstep (EUn u a)) rest q q' h') h.
Proof.
  intros Sl H. cbn [embed] in H. front H (ITree par (Some n) (N OPERATOR (unop_op u) (n_ofZ 0) "" (embed a) Nil)).
  apply own_open in H as (b & pl & pr & [= <-] & H). front H (ITree (Some n) pr (Nil : node)). apply own_nil_inv in H as [-> H].
  front H (ITree (Some n) pl (embed a)). destruct (own_expr _ _ _ _ _ H) as (la & ->).
  assert (H0 : owns h (upd (Some n) :: ICell n (MkCell OPERATOR (unop_op u) (n_ofZ 0) "" par (Some la) None) :: ITree (Some n) (Some la) (embed a) :: rest)) by own H.
  clear H. rename H0 into H. unfold DiffOnceOperator. apply wp_bind. eapply wp_cell_at; [exact Sl|exact H|]. cbn [c_op c_parent]. cbn [dstep].
  assert (D : forall d : mexpr, (if numb a && negb false then MDone (lit 0) else d) = (if numb a then MDone (lit 0) else d)) by (intros; now rewrite andb_true_r).
  destruct u; cbn [unop_op is_sign] in *; rewrite ?andb_false_r, ?D.
  - apply wp_bind. eapply wp_left; [exact Sl|exact H|]. unfold emplace_at. apply wp_bind. eapply wp_get_fld; [ownf H|]. cbn [child c_left]. apply wp_bind, wp_deref.
    front H (ICell n (MkCell OPERATOR MATH_POSITIVE (n_ofZ (n:=K) 0) "" par (Some la) None)). front H (ITree (Some n) (Some la) (embed a)).
    eapply wp_emplace_cell; [exact H|]. cbn [c_left is_ptr]. rewrite Nat.eqb_refl.
    exists true, (Some n). eexists. exists [(la, true, a)]. split; [apply (sh_un par true n UPos (Some la)), sh_pend|]. split; [|reflexivity]. cbn. own H.
  - apply wp_bind. eapply wp_left; [exact Sl|exact H|]. unfold emplace_at. apply wp_bind. eapply wp_get_fld; [ownf H|]. cbn [child c_left]. apply wp_bind, wp_deref.
    front H (ICell n (MkCell OPERATOR MATH_NEGATIVE (n_ofZ (n:=K) 0) "" par (Some la) None)). front H (ITree (Some n) (Some la) (embed a)).
    eapply wp_emplace_cell; [exact H|]. cbn [c_left is_ptr]. rewrite Nat.eqb_refl.
    exists true, (Some n). eexists. exists [(la, true, a)]. split; [apply (sh_un par true n UNeg (Some la)), sh_pend|]. split; [|reflexivity]. cbn. own H.
  - eapply wp_diff_function; [exact Sl|exact H|apply prepare_op; exact Sl| |apply leftover_none]. apply makes_node; [exact Sl|reflexivity].
  - eapply wp_diff_function; [exact Sl|exact H|apply prepare_op; exact Sl| |apply leftover_none]. apply (makes_un MATH_NEGATIVE). apply (makes_node s upd n MATH_SIN par la USin); [exact Sl|reflexivity].
  - eapply wp_diff_function; [exact Sl|exact H|apply prepare_op; exact Sl| |apply leftover_none]. cbn [embed].
    eapply makes_bin; [apply makes_num|]. eapply makes_bin; [|apply makes_num]. apply (makes_node s upd n MATH_COS par la UCos); [exact Sl|reflexivity].
  - eapply wp_diff_function; [exact Sl|exact H|apply prepare_ret| |apply leftover_node]. cbn [embed].
    eapply makes_bin; [apply makes_num|]. eapply makes_un, makes_bin; [apply makes_num|]. eapply makes_bin; [|apply makes_num]. apply makes_operand; exact Sl.
  - eapply wp_diff_function; [exact Sl|exact H|apply prepare_ret| |apply leftover_node]. cbn [embed].
    eapply makes_bin; [apply makes_num|]. eapply makes_un, makes_bin; [apply makes_num|]. eapply makes_bin; [|apply makes_num]. apply makes_operand; exact Sl.
  - eapply wp_diff_function; [exact Sl|exact H|apply prepare_ret| |apply leftover_node]. cbn [embed].
    eapply makes_bin; [apply makes_num|]. eapply makes_bin; [apply makes_num|]. eapply makes_bin; [|apply makes_num]. apply makes_operand; exact Sl.
  - eapply wp_diff_function; [exact Sl|exact H|apply prepare_ret| |apply leftover_none]. cbn [embed].
    eapply makes_bin; [apply makes_num|]. eapply makes_bin; [apply makes_num|]. apply (makes_node s upd n MATH_SQRT par la USqrt); [exact Sl|reflexivity].
  - eapply wp_diff_function; [exact Sl|exact H|apply prepare_ret| |apply leftover_node]. cbn [embed].
    eapply makes_bin; [apply makes_num|]. apply makes_operand; exact Sl.
  - eapply wp_diff_function; [exact Sl|exact H|apply prepare_ret| |apply leftover_node]. cbn [embed].
    eapply makes_bin; [apply makes_num|]. eapply makes_bin; [|apply makes_num]. apply makes_operand; exact Sl.
  - eapply wp_diff_function; [exact Sl|exact H|apply prepare_ret| |apply leftover_node]. cbn [embed].
    eapply makes_bin; [apply makes_num|]. eapply makes_bin; [|apply makes_num]. apply makes_operand; exact Sl.
  - apply wp_bind. eapply wp_CullNumberMember; [exact Sl|exact H| |].
    + intros -> h1 H1. apply wp_ret. apply stepped_done with (Some n). front H1 (ICell n (MkCell NUMBER MATH_NULL (n_ofZ (n:=K) 0) "" par None None)). apply own_leaf in H1. own H1.
    + intros ->. apply wp_bind. eapply wp_left; [exact Sl|exact H|]. apply wp_bind. unfold cell_at. apply wp_bind. eapply wp_get_fld; [ownf H|]. cbn [child c_left].
      apply wp_bind, wp_deref. eapply wp_load_expr; [ownf H|]. intros c Ec _. rewrite Ec, typ_variable. destruct (varb a).
      * apply wp_ret. apply stepped_done with (Some n). cbn [embed unop_op].
        apply owns_perm with (ITree par (Some n) (N OPERATOR MATH_EXP (n_ofZ 0) "" (embed a) Nil) :: upd (Some n) :: rest); [perm|].
        apply own_close with (Some la) None. apply (own_nil _ (Some n)) in H. own H.
      * front H (ITree (Some n) (Some la) (embed a)). front H (ICell n (MkCell OPERATOR MATH_EXP (n_ofZ (n:=K) 0) "" par (Some la) None)).
        apply wp_bind. eapply wp_tClone_fld; [|exact H|]; [reflexivity|]. intros u2 h2 H2. apply wp_bind.
        eapply wp_emplace_tree; [exact H2|].
        eapply wp_assign_mul; [exact Sl|apply (makes_node s upd n MATH_EXP par la UExp a); [exact Sl|reflexivity]|apply leftover_none with (n := n) (op := MATH_EXP)|].
        cbn [app]. own H2.
Qed.

(** Binary nodes. *)
Lemma own_bin upd n par b (a c : expr K) rest h : owns h (upd (Some n) :: ITree par (Some n) (embed (EBin b a c)) :: rest) ->
  exists la ra, owns h (upd (Some n) :: ICell n (MkCell OPERATOR (binop_op b) (n_ofZ 0) "" par (Some la) (Some ra)) :: ITree (Some n) (Some la) (embed a) :: ITree (Some n) (Some ra) (embed c) :: rest).
Proof.
  intros H. cbn [embed] in H. front H (ITree par (Some n) (N OPERATOR (binop_op b) (n_ofZ 0) "" (embed a) (embed c))).
  apply own_open in H as (n' & pl & pr & [= <-] & H).
  front H (ITree (Some n) pl (embed a)). destruct (own_expr _ _ _ _ _ H) as (la & ->).
  front H (ITree (Some n) pr (embed c)). destruct (own_expr _ _ _ _ _ H) as (ra & ->). exists la, ra. own H.
Qed.
Lemma makes_move_L n ty op v x par la r t i : 
  makes (tMove (SFld n L)) (ICell n (MkCell ty op v x par (Some la) r) :: ITree (Some n) (Some la) t :: i) t (ICell n (MkCell ty op v x par None r) :: i).
Proof.
  intros rest h H. unfold tMove. apply wp_bind. eapply wp_move_out with (p := Some la); [apply (sa_fld n L (MkCell ty op v x par None r))|ownf H|].
  intros h1 H1. cbn [with_child c_type c_op c_value c_name c_parent c_left c_right] in H1. apply wp_deref. exists (Some n). own H1.
Qed.
Lemma makes_move_R n ty op v x par l ra t i : 
  makes (tMove (SFld n R)) (ICell n (MkCell ty op v x par l (Some ra)) :: ITree (Some n) (Some ra) t :: i) t (ICell n (MkCell ty op v x par l None) :: i).
Proof.
  intros rest h H. unfold tMove. apply wp_bind. eapply wp_move_out with (p := Some ra); [apply (sa_fld n R (MkCell ty op v x par l None))|ownf H|].
  intros h1 H1. cbn [with_child c_type c_op c_value c_name c_parent c_left c_right] in H1. apply wp_deref. exists (Some n). own H1.
Qed.
Lemma makes_perm m i i' t j j' : Permutation i i' -> Permutation j j' -> makes m i t j -> makes m i' t j'.
Proof.
  intros Pi Pj Mk. apply makes_to with j; [intros rest h H; apply owns_perm with (j ++ rest); [now apply Permutation_app_tail|exact H]|].
  apply makes_from with i; [intros rest h H; apply owns_perm with (i' ++ rest); [now apply Permutation_app_tail, Permutation_sym|exact H]|exact Mk].
Qed.

Lemma wp_step_add s upd n par b a c rest q h : b = BAdd \/ b = BSub -> slot_at s upd -> owns h (upd (Some n) :: ITree par (Some n) (embed (EBin b a c)) :: rest) ->
  wp (DiffOnceOperator pick s q) (fun q' h' => stepped upd par (dstep (EBin b a c)) rest q q' h') h.
Proof.
  intros Hb Sl H. destruct (own_bin _ _ _ _ _ _ _ _ H) as (la & ra & H1). clear H. rename H1 into H.
  unfold DiffOnceOperator. apply wp_bind. eapply wp_cell_at; [exact Sl|exact H|]. cbn [c_op c_parent].
  assert (G : wp (do b0 <- CullNumberMemberBinary s;
      if b0 : bool then ret q else
      (do c' <- cell_at s;
       do q1 <- match c_left c' with Some la => emplace la q | None => ret q end;
       match c_right c' with Some ra => emplace ra q1 | None => ret q1 end))
     (fun q' h' => stepped upd par (if numb a && numb c then MDone (lit 0) else MBin b (MPend a) (MPend c)) rest q q' h') h).
  { apply wp_bind. eapply wp_CullNumberMemberBinary; [exact Sl|exact H| |].
    - intros -> h1 H1. apply wp_ret. apply stepped_done with (Some n). front H1 (ICell n (MkCell NUMBER MATH_NULL (n_ofZ (n:=K) 0) "" par None None)). apply own_leaf in H1. own H1.
    - intros ->. apply wp_bind. eapply wp_cell_at; [exact Sl|exact H|]. cbn [c_left c_right].
      pose proof H as H0. front H0 (ITree (Some n) (Some ra) (embed c)). front H0 (ITree (Some n) (Some la) (embed a)).
      front H0 (ICell n (MkCell OPERATOR (binop_op b) (n_ofZ (n:=K) 0) "" par (Some la) (Some ra))). pose proof (left_flag _ _ _ _ _ _ _ _ _ _ _ _ H0) as Fl.
      front H (ICell n (MkCell OPERATOR (binop_op b) (n_ofZ (n:=K) 0) "" par (Some la) (Some ra))). front H (ITree (Some n) (Some la) (embed a)).
      apply wp_bind. eapply wp_emplace_cell; [exact H|]. front H0 (ITree (Some n) (Some ra) (embed c)).
      eapply wp_emplace_cell; [exact H0|]. cbn [c_left]. rewrite Fl. cbn [is_ptr]. rewrite Nat.eqb_refl.
      exists true, (Some n). eexists. eexists. split; [apply (sh_bin par true n b (Some la) (Some ra)); apply sh_pend|]. split; [|cbn; now rewrite <- app_assoc]. cbn. own H. }
  destruct Hb as [-> | ->]; exact G.
Qed.

Lemma wp_step_mul s upd n par a c rest q h : slot_at s upd -> owns h (upd (Some n) :: ITree par (Some n) (embed (EBin BMul a c)) :: rest) ->
  wp (DiffOnceOperator pick s q) (fun q' h' => stepped upd par (dstep (EBin BMul a c)) rest q q' h') h.
Proof.
  intros Sl H. destruct (own_bin _ _ _ _ _ _ _ _ H) as (la & ra & H1). clear H. rename H1 into H.
  unfold DiffOnceOperator. apply wp_bind. eapply wp_cell_at; [exact Sl|exact H|]. cbn [c_op c_parent binop_op] in *. cbn [dstep].
  apply wp_bind. eapply wp_left; [exact Sl|exact H|]. apply wp_bind. unfold cell_at at 1. apply wp_bind. eapply wp_get_fld; [ownf H|]. cbn [child c_left].
  apply wp_bind, wp_deref. eapply wp_load_expr; [ownf H|]. intros cl Ecl _. apply wp_bind. eapply wp_right; [exact Sl|exact H|].
  unfold isNumber_c. rewrite Ecl, typ_number.
  pose proof H as H0. front H0 (ITree (Some n) (Some ra) (embed c)). front H0 (ITree (Some n) (Some la) (embed a)).
  front H0 (ICell n (MkCell OPERATOR MATH_MULTIPLY (n_ofZ (n:=K) 0) "" par (Some la) (Some ra))). pose proof (left_flag _ _ _ _ _ _ _ _ _ _ _ _ H0) as Fl.
  destruct (numb a) eqn:Na.
  - unfold emplace_at. apply wp_bind. eapply wp_get_fld; [ownf H|]. cbn [child c_right]. apply wp_bind, wp_deref.
    front H0 (ITree (Some n) (Some ra) (embed c)). eapply wp_emplace_cell; [exact H0|]. cbn [c_left]. rewrite Fl.
    exists true, (Some n). eexists. eexists. split; [apply (sh_bin par true n BMul (Some la) (Some ra)); [apply sh_done|apply sh_pend]|]. split; [|reflexivity]. cbn. own H.
  - apply wp_bind. unfold cell_at at 1. apply wp_bind. eapply wp_get_fld; [ownf H|]. cbn [child c_right]. apply wp_bind, wp_deref.
    front H0 (ITree (Some n) (Some ra) (embed c)). eapply wp_load_expr; [exact H0|]. intros cr Ecr _. rewrite Ecr, typ_number.
    destruct (numb c) eqn:Nc.
    + unfold emplace_at. apply wp_bind. eapply wp_get_fld; [ownf H|]. cbn [child c_left]. apply wp_bind, wp_deref.
      front H (ICell n (MkCell OPERATOR MATH_MULTIPLY (n_ofZ (n:=K) 0) "" par (Some la) (Some ra))). front H (ITree (Some n) (Some la) (embed a)).
      eapply wp_emplace_cell; [exact H|]. cbn [c_left is_ptr]. rewrite Nat.eqb_refl.
      exists true, (Some n). eexists. eexists. split; [apply (sh_bin par true n BMul (Some la) (Some ra)); [apply sh_pend|apply sh_done]|]. split; [|reflexivity]. cbn. own H.
    + apply wp_bind. eapply wp_CullNumberMemberBinary; [exact Sl|exact H|intros E; rewrite Na in E; discriminate E|]. intros _.
      apply wp_bind. unfold emplace_at. apply wp_bind. eapply wp_get_fld; [ownf H|]. cbn [child c_left]. apply wp_bind, wp_deref.
      front H (ICell n (MkCell OPERATOR MATH_MULTIPLY (n_ofZ (n:=K) 0) "" par (Some la) (Some ra))). front H (ITree (Some n) (Some la) (embed a)).
      eapply wp_emplace_cell; [exact H|]. cbn [c_left is_ptr]. rewrite Nat.eqb_refl.
      front H (ICell n (MkCell OPERATOR MATH_MULTIPLY (n_ofZ (n:=K) 0) "" par (Some la) (Some ra))).
      apply wp_bind. eapply wp_tClone_fld; [|exact H|]; [reflexivity|]. intros u2 h2 H2.
      front H2 (ITree (Some n) (Some ra) (embed c)). front H2 (ICell n (MkCell OPERATOR MATH_MULTIPLY (n_ofZ (n:=K) 0) "" par (Some la) (Some ra))).
      apply wp_bind. eapply wp_tClone_fld; [|exact H2|]; [reflexivity|]. intros v2 h3 H3.
      apply wp_bind. eapply wp_emplace_tree; [exact H3|]. apply wp_bind. eapply wp_assign_null; [exact Sl|].
      unfold tBin at 1. apply wp_bind. unfold tMove. apply wp_bind. eapply wp_move_out with (p := Some n); [exact Sl|ownf H3|]. intros h4 H4. apply wp_deref.
      apply wp_bind. unfold tBin. apply wp_bind, wp_ret, wp_bind, wp_ret.
      front H4 (ITree None (Some v2) (embed c)). front H4 (ITree None (Some u2) (embed a)).
      eapply (wp_bin_temp MATH_MULTIPLY u2 v2 (fun par => ITree par (Some u2) (embed a)) (fun par => ITree par (Some v2) (embed c))); [apply hd_tree|apply hd_tree|exact H4|].
      intros r1 h5 H5. cbv beta in H5.
      front H5 (ICell r1 (MkCell OPERATOR MATH_MULTIPLY (n_ofZ (n:=K) 0) "" None (Some u2) (Some v2))).
      front H5 (ICell n (MkCell OPERATOR MATH_MULTIPLY (n_ofZ (n:=K) 0) "" par (Some la) (Some ra))).
      eapply (wp_bin_temp MATH_ADD n r1 (fun par => ICell n (MkCell OPERATOR MATH_MULTIPLY (n_ofZ 0) "" par (Some la) (Some ra)))
         (fun par => ICell r1 (MkCell OPERATOR MATH_MULTIPLY (n_ofZ (n:=K) 0) "" par (Some u2) (Some v2)))); [apply hd_cell|apply hd_cell|exact H5|].
      intros r h6 H6. cbv beta in H6.
      exists (fun par => ICell r (MkCell OPERATOR MATH_ADD (n_ofZ 0) "" par (Some n) (Some r1))), None. eexists. split; [apply hd_cell|].
      split; [own H6|]. intros h7 H7. apply wp_ret.
      exists true, (Some r). eexists. eexists. split.
      { apply (sh_bin par true r BAdd (Some n) (Some r1)).
        - apply (sh_bin (Some r) true n BMul (Some la) (Some ra)); [apply sh_pend|apply sh_done].
        - apply (sh_bin (Some r) false r1 BMul (Some u2) (Some v2)); [apply sh_done|apply sh_pend]. }
      split; [|cbn; now rewrite <- app_assoc]. cbn. own H7.
Qed.

Lemma wp_step_div s upd n par a c rest q h : slot_at s upd -> owns h (upd (Some n) :: ITree par (Some n) (embed (EBin BDiv a c)) :: rest) ->
  wp (DiffOnceOperator pick s q) (fun q' h' => stepped upd par (dstep (EBin BDiv a c)) rest q q' h') h.
Proof.
  intros Sl H. destruct (own_bin _ _ _ _ _ _ _ _ H) as (la & ra & H1). clear H. rename H1 into H.
  unfold DiffOnceOperator. apply wp_bind. eapply wp_cell_at; [exact Sl|exact H|]. cbn [c_op c_parent binop_op] in *. cbn [dstep].
  apply wp_bind. eapply wp_left; [exact Sl|exact H|]. apply wp_bind. eapply wp_right; [exact Sl|exact H|].
  apply wp_bind. unfold cell_at at 1. apply wp_bind. eapply wp_get_fld; [ownf H|]. cbn [child c_right]. apply wp_bind, wp_deref.
  pose proof H as H0. front H0 (ITree (Some n) (Some ra) (embed c)). eapply wp_load_expr; [exact H0|]. intros cr Ecr _. unfold isNumber_c. rewrite Ecr, typ_number. clear H0.
  destruct (numb c) eqn:Nc.
  - unfold emplace_at. apply wp_bind. eapply wp_get_fld; [ownf H|]. cbn [child c_left]. apply wp_bind, wp_deref.
    front H (ICell n (MkCell OPERATOR MATH_DIVIDE (n_ofZ (n:=K) 0) "" par (Some la) (Some ra))). front H (ITree (Some n) (Some la) (embed a)).
    eapply wp_emplace_cell; [exact H|]. cbn [c_left is_ptr]. rewrite Nat.eqb_refl.
    exists true, (Some n). eexists. eexists. split; [apply (sh_bin par true n BDiv (Some la) (Some ra)); [apply sh_pend|apply sh_done]|]. split; [|reflexivity]. cbn. own H.
  - apply wp_bind. eapply wp_CullNumberMemberBinary; [exact Sl|exact H|intros E; rewrite Nc, andb_false_r in E; discriminate E|]. intros _.
    front H (ITree (Some n) (Some la) (embed a)). front H (ICell n (MkCell OPERATOR MATH_DIVIDE (n_ofZ (n:=K) 0) "" par (Some la) (Some ra))).
    apply wp_bind. eapply wp_tClone_fld; [|exact H|]; [reflexivity|]. intros u2 h1 H1.
    front H1 (ITree (Some n) (Some ra) (embed c)). front H1 (ICell n (MkCell OPERATOR MATH_DIVIDE (n_ofZ (n:=K) 0) "" par (Some la) (Some ra))).
    apply wp_bind. eapply wp_tClone_fld; [|exact H1|]; [reflexivity|]. intros v2 h2 H2.
    front H2 (ITree (Some n) (Some ra) (embed c)). front H2 (ICell n (MkCell OPERATOR MATH_DIVIDE (n_ofZ (n:=K) 0) "" par (Some la) (Some ra))).
    apply wp_bind. eapply wp_tClone_fld; [|exact H2|]; [reflexivity|]. intros v3 h3 H3.
    apply wp_bind. unfold emplace_at. apply wp_bind. eapply wp_get_fld; [ownf H3|]. cbn [child c_left]. apply wp_bind, wp_deref.
    front H3 (ICell n (MkCell OPERATOR MATH_DIVIDE (n_ofZ (n:=K) 0) "" par (Some la) (Some ra))). front H3 (ITree (Some n) (Some la) (embed a)).
    eapply wp_emplace_cell; [exact H3|]. cbn [c_left is_ptr]. rewrite Nat.eqb_refl.
    front H3 (ITree None (Some v2) (embed c)). apply wp_bind. eapply wp_emplace_tree; [exact H3|]. apply wp_bind.
    eapply wp_assign_old; [exact Sl|].
    unfold tBin at 1. apply wp_bind. unfold tBin at 1. apply wp_bind. unfold tBin at 1. apply wp_bind.
    (* the two moves *)
    unfold tMove at 1. apply wp_bind. eapply wp_move_out with (p := Some la); [apply (sa_fld n L (MkCell OPERATOR MATH_DIVIDE (n_ofZ 0) "" par None (Some ra)))|ownf H3|].
    intros h4 H4. cbn [with_child c_type c_op c_value c_name c_parent c_left c_right] in H4. apply wp_deref.
    apply wp_bind. unfold tMove at 1. apply wp_bind. eapply wp_move_out with (p := Some ra); [apply (sa_fld n R (MkCell OPERATOR MATH_DIVIDE (n_ofZ 0) "" par None None))|ownf H4|].
    intros h5 H5. cbn [with_child c_type c_op c_value c_name c_parent c_left c_right] in H5. apply wp_deref.
    apply own_leaf in H5.
    front H5 (ITree (Some n) (Some ra) (embed c)). front H5 (ITree (Some n) (Some la) (embed a)).
    eapply (wp_bin_temp MATH_MULTIPLY la ra (fun par => ITree par (Some la) (embed a)) (fun par => ITree par (Some ra) (embed c))); [apply hd_tree|apply hd_tree|exact H5|].
    intros r1 h6 H6. cbv beta in H6. apply wp_bind. unfold tBin at 1. apply wp_bind, wp_ret, wp_bind, wp_ret.
    front H6 (ITree None (Some v2) (embed c)). front H6 (ITree None (Some u2) (embed a)).
    eapply (wp_bin_temp MATH_MULTIPLY u2 v2 (fun par => ITree par (Some u2) (embed a)) (fun par => ITree par (Some v2) (embed c))); [apply hd_tree|apply hd_tree|exact H6|].
    intros r2 h7 H7. cbv beta in H7.
    front H7 (ICell r2 (MkCell OPERATOR MATH_MULTIPLY (n_ofZ (n:=K) 0) "" None (Some u2) (Some v2))).
    front H7 (ICell r1 (MkCell OPERATOR MATH_MULTIPLY (n_ofZ (n:=K) 0) "" None (Some la) (Some ra))).
    eapply (wp_bin_temp MATH_SUB r1 r2 (fun par => ICell r1 (MkCell OPERATOR MATH_MULTIPLY (n_ofZ 0) "" par (Some la) (Some ra)))
         (fun par => ICell r2 (MkCell OPERATOR MATH_MULTIPLY (n_ofZ (n:=K) 0) "" par (Some u2) (Some v2)))); [apply hd_cell|apply hd_cell|exact H7|].
    intros r3 h8 H8. cbv beta in H8. apply wp_bind. unfold tBin. apply wp_bind, wp_ret, wp_bind.
    unfold tNum. eapply wp_make_node; [exact Hpick|exact H8|]. intros m2 h9 H9. apply own_leaf in H9.
    front H9 (ITree None (Some m2) (embed (lit (K:=K) 2))). front H9 (ITree None (Some v3) (embed c)).
    eapply (wp_bin_temp MATH_POWER v3 m2 (fun par => ITree par (Some v3) (embed c)) (fun par => ITree par (Some m2) (embed (lit 2)))); [apply hd_tree|apply hd_tree|exact H9|].
    intros r4 h10 H10. cbv beta in H10. apply own_close in H10.
    front H10 (ITree None (Some r4) (embed (EBin BPow c (lit 2)))).
    front H10 (ICell r3 (MkCell OPERATOR MATH_SUB (n_ofZ (n:=K) 0) "" None (Some r1) (Some r2))).
    eapply (wp_bin_temp MATH_DIVIDE r3 r4 (fun par => ICell r3 (MkCell OPERATOR MATH_SUB (n_ofZ (n:=K) 0) "" par (Some r1) (Some r2)))
      (fun par => ITree par (Some r4) (embed (EBin BPow c (lit 2))))); [apply hd_cell|apply hd_tree|exact H10|].
    intros r h11 H11. cbv beta in H11.
    exists (fun par => ICell r (MkCell OPERATOR MATH_DIVIDE (n_ofZ 0) "" par (Some r3) (Some r4))), None. eexists. split; [apply hd_cell|].
    split; [own H11|]. intros h12 H12. apply wp_ret.
    exists true, (Some r). eexists. eexists. split.
    { apply (sh_bin par true r BDiv (Some r3) (Some r4)); [|apply sh_done].
      apply (sh_bin (Some r) true r3 BSub (Some r1) (Some r2)).
      - apply (sh_bin (Some r3) true r1 BMul (Some la) (Some ra)); [apply sh_pend|apply sh_done].
      - apply (sh_bin (Some r3) false r2 BMul (Some u2) (Some v2)); [apply sh_done|apply sh_pend]. }
    split; [|cbn; now rewrite <- app_assoc]. cbn. own H12.
Qed.

Definition pow_num_step (a : expr K) (c : expr K) (w : K) : mexpr :=
  MBin BMul (MDone (EBin BMul c (EBin BPow a (ENum (n_sub w (n_ofZ 1)))))) (MPend a).
Lemma wp_step_pow s upd n par a c rest q h : slot_at s upd -> owns h (upd (Some n) :: ITree par (Some n) (embed (EBin BPow a c)) :: rest) ->
  wp (DiffOnceOperator pick s q) (fun q' h' => stepped upd par (dstep (EBin BPow a c)) rest q q' h') h.
Proof.
  intros Sl H. destruct (own_bin _ _ _ _ _ _ _ _ H) as (la & ra & H1). clear H. rename H1 into H.
  unfold DiffOnceOperator. apply wp_bind. eapply wp_cell_at; [exact Sl|exact H|]. cbn [c_op c_parent binop_op] in *.
  apply wp_bind. eapply wp_CullNumberMemberBinary; [exact Sl|exact H| |].
  { intros E h1 H1. apply wp_ret. destruct a; try discriminate E; destruct c; try discriminate E. cbn [dstep]. apply stepped_done with (Some n).
    front H1 (ICell n (MkCell NUMBER MATH_NULL (n_ofZ (n:=K) 0) "" par None None)). apply own_leaf in H1. own H1. }
  intros E. apply wp_bind. eapply wp_left; [exact Sl|exact H|]. apply wp_bind. eapply wp_right; [exact Sl|exact H|].
  apply wp_bind. unfold cell_at at 1. apply wp_bind. eapply wp_get_fld; [ownf H|]. cbn [child c_left]. apply wp_bind, wp_deref.
  eapply wp_load_expr; [ownf H|]. intros cl Ecl Vl.
  apply wp_bind. unfold cell_at at 1. apply wp_bind. eapply wp_get_fld; [ownf H|]. cbn [child c_right]. apply wp_bind, wp_deref.
  pose proof H as H0. front H0 (ITree (Some n) (Some ra) (embed c)). eapply wp_load_expr; [exact H0|]. intros cr Ecr Vr. unfold isNumber_c. rewrite Ecr, Ecl, !typ_number. clear H0.
  destruct (numb c) eqn:Nc; [|destruct (numb a) eqn:Na].
  - rewrite andb_true_r in E. destruct c as [w| | |]; try discriminate Nc. rewrite Vr.
    replace (dstep (EBin BPow a (ENum w))) with (pow_num_step a (ENum w) w) by (destruct a; [discriminate E|reflexivity..]).
    front H (ITree (Some n) (Some la) (embed a)). front H (ICell n (MkCell OPERATOR MATH_POWER (n_ofZ (n:=K) 0) "" par (Some la) (Some ra))).
    apply wp_bind. eapply wp_tClone_fld; [|exact H|]; [reflexivity|]. intros u2 h2 H2. apply wp_bind.
    eapply wp_emplace_tree; [exact H2|].
    eapply wp_assign_mul with (i := [upd (Some n); ICell n (MkCell OPERATOR MATH_POWER (n_ofZ 0) "" par (Some la) (Some ra)); ITree (Some n) (Some la) (embed a); ITree (Some n) (Some ra) (embed (ENum w))]);
      [exact Sl| |apply (leftover_node upd n MATH_POWER)|cbn [app]; own H2].
    cbn [embed]. eapply makes_bin.
    { eapply makes_perm; [| |apply (makes_move_R n OPERATOR MATH_POWER (n_ofZ 0) "" par (Some la) ra (embed (ENum w)) [upd (Some n); ITree (Some n) (Some la) (embed a)])]; [perm|reflexivity]. }
    eapply makes_bin; [|apply makes_num].
    eapply makes_to; [|eapply makes_perm; [| |apply (makes_move_L n OPERATOR MATH_POWER (n_ofZ 0) "" par la None (embed a) [upd (Some n)])]; [perm|reflexivity]].
    intros rest' h' H'. cbn [app] in *. apply own_leaf in H'. own H'.
  - destruct a as [w| | |]; try discriminate Na. rewrite Vl.
    replace (dstep (EBin BPow (ENum w) c)) with (MBin BMul (MDone (EBin BMul (EBin BPow (ENum w) c) (EUn ULog (ENum w)))) (MPend c)) by (destruct c; [discriminate Nc|reflexivity..]).
    front H (ITree (Some n) (Some ra) (embed c)). front H (ICell n (MkCell OPERATOR MATH_POWER (n_ofZ (n:=K) 0) "" par (Some la) (Some ra))).
    apply wp_bind. eapply wp_tClone_fld; [|exact H|]; [reflexivity|]. intros u2 h2 H2. apply wp_bind.
    eapply wp_emplace_tree; [exact H2|].
    eapply wp_assign_mul with (i := [upd (Some n); ICell n (MkCell OPERATOR MATH_POWER (n_ofZ 0) "" par (Some la) (Some ra)); ITree (Some n) (Some la) (embed (ENum w)); ITree (Some n) (Some ra) (embed c)]);
      [exact Sl| |apply (leftover_node upd n MATH_POWER)|cbn [app]; own H2].
    cbn [embed]. eapply makes_bin; [|eapply makes_un, makes_num]. eapply makes_bin.
    { eapply makes_perm; [| |apply (makes_move_L n OPERATOR MATH_POWER (n_ofZ 0) "" par la (Some ra) (embed (ENum w)) [upd (Some n); ITree (Some n) (Some ra) (embed c)])]; [perm|reflexivity]. }
    eapply makes_to; [|eapply makes_perm; [| |apply (makes_move_R n OPERATOR MATH_POWER (n_ofZ 0) "" par None ra (embed c) [upd (Some n)])]; [perm|reflexivity]].
    intros rest' h' H'. cbn [app] in *. apply own_leaf in H'. own H'.
  - replace (dstep (EBin BPow a c)) with (MBin BMul (MDone (EBin BPow a c)) (MPend (EBin BMul c (EUn ULog a)))) by (destruct a; [discriminate Na| | |]; (destruct c; [discriminate Nc|reflexivity..])).
    apply wp_bind. unfold tBin at 1. apply wp_bind.
    front H (ITree (Some n) (Some ra) (embed c)). front H (ICell n (MkCell OPERATOR MATH_POWER (n_ofZ (n:=K) 0) "" par (Some la) (Some ra))).
    eapply wp_tClone_fld; [|exact H|]; [reflexivity|]. intros v2 h1 H1. apply wp_bind. unfold tUn at 1. apply wp_bind.
    front H1 (ITree (Some n) (Some la) (embed a)). front H1 (ICell n (MkCell OPERATOR MATH_POWER (n_ofZ (n:=K) 0) "" par (Some la) (Some ra))).
    eapply wp_tClone_fld; [|exact H1|]; [reflexivity|]. intros u2 h2 H2.
    eapply (wp_un_temp MATH_LOG u2 (fun par => ITree par (Some u2) (embed a))); [apply hd_tree|exact H2|]. intros r1 h3 H3. cbv beta in H3.
    apply (own_nil _ (Some r1)) in H3.
    assert (H4 : owns h3 (ITree None (Some r1) (embed (EUn ULog a)) :: ITree None (Some v2) (embed c) :: upd (Some n) :: ICell n (MkCell OPERATOR MATH_POWER (n_ofZ (n:=K) 0) "" par (Some la) (Some ra))
       :: ITree (Some n) (Some la) (embed a) :: ITree (Some n) (Some ra) (embed c) :: rest)).
    { cbn [embed unop_op]. apply own_close with (Some u2) None. own H3. }
    front H4 (ITree None (Some v2) (embed c)).
    eapply (wp_bin_temp MATH_MULTIPLY v2 r1 (fun par => ITree par (Some v2) (embed c)) (fun par => ITree par (Some r1) (embed (EUn ULog a)))); [apply hd_tree|apply hd_tree|exact H4|].
    intros w h5 H5. cbv beta in H5. apply own_close in H5. apply wp_bind. eapply wp_emplace_tree; [exact H5|].
    eapply wp_assign_mul with (e := EBin BMul c (EUn ULog a)) (i := [upd (Some n); ICell n (MkCell OPERATOR MATH_POWER (n_ofZ 0) "" par (Some la) (Some ra)); ITree (Some n) (Some la) (embed a); ITree (Some n) (Some ra) (embed c)]);
      [exact Sl| |apply (leftover_none upd n MATH_POWER)|cbn [app]; own H5].
    eapply makes_from; [|apply (makes_move s upd n par (embed (EBin BPow a c)) []); exact Sl]. intros rest' h' H'. cbn [app] in *. cbn [embed].
    apply owns_perm with (ITree par (Some n) (N OPERATOR MATH_POWER (n_ofZ 0) "" (embed a) (embed c)) :: upd (Some n) :: rest'); [perm|].
    apply own_close with (Some la) (Some ra). own H'.
Qed.

(** One step, whatever the operator. *)
Lemma wp_step s upd n par e rest q h : slot_at s upd -> is_operator e = true -> top_int e = false -> owns h (upd (Some n) :: ITree par (Some n) (embed e) :: rest) ->
  wp (DiffOnceOperator pick s q) (fun q' h' => stepped upd par (dstep e) rest q q' h') h.
Proof.
  intros Sl Ho Ht H. destruct e as [v|y|u a|b a c]; try discriminate Ho.
  - eapply wp_step_un; [exact Sl|exact H].
  - destruct b; try discriminate Ht.
    + eapply wp_step_add; [now left|exact Sl|exact H].
    + eapply wp_step_add; [now right|exact Sl|exact H].
    + eapply wp_step_mul; [exact Sl|exact H].
    + eapply wp_step_div; [exact Sl|exact H].
    + eapply wp_step_pow; [exact Sl|exact H].
Qed.
Lemma step_throws s upd n par e rest q h : slot_at s upd -> top_int e = true -> owns h (upd (Some n) :: ITree par (Some n) (embed e) :: rest) ->
  exists w, DiffOnceOperator pick s q h = (Throw (RuntimeError w), h).
Proof.
  intros Sl Ht H. destruct e as [v|y|u a|b a c]; try discriminate Ht. destruct (own_bin _ _ _ _ _ _ _ _ H) as (la & ra & H1).
  assert (W : wp (cell_at s) (fun c' h' => c_op c' = binop_op b /\ h' = h) h) by (eapply wp_cell_at; [exact Sl|exact H1|]; split; reflexivity).
  destruct W as (c' & h' & E & Ec & ->). unfold DiffOnceOperator, bindM. rewrite E. rewrite Ec.
  destruct b; try discriminate Ht; cbn [binop_op]; eexists; reflexivity.
Qed.

(** ** The loop *)
Definition notpend (m : mexpr) : Prop := match m with MPend _ => False | _ => True end.
Lemma shape_flag par f g p m its q : notpend m -> shape par f p m its q -> shape par g p m its q.
Proof. intros Hm S. destruct S; [destruct Hm|constructor..]; assumption. Qed.
Lemma notpend_dstep e : is_operator e = true -> notpend (dstep e).
Proof.
  destruct e as [v|y|u a|b a c]; try discriminate; intros _.
  - cbn [dstep]. destruct (numb a && negb (is_sign u)); [exact I|]. destruct u; try exact I. now destruct (varb a).
  - cbn [dstep]. destruct b; try exact I.
    + now destruct (numb a && numb c).
    + now destruct (numb a && numb c).
    + destruct (numb a); [exact I|]. now destruct (numb c).
    + now destruct (numb c).
    + destruct a; destruct c; exact I.
Qed.

Lemma focus_root x f p m its q a g e q' : shape None f p m its q -> notpend m -> Permutation q ((a, g, e) :: q') ->
  exists b' c' oth, Permutation its (ICell b' (with_child c' (sd g) (Some a)) :: ITree (Some b') (Some a) (embed e) :: oth) /\
  forall p1 m1 its1 q1, shape (Some b') g p1 m1 its1 q1 -> fin x m1 = dexpr x e ->
  exists m2 its2 q2, shape None f p m2 its2 q2 /\ notpend m2 /\ fin x m2 = fin x m /\
    Permutation its2 (ICell b' (with_child c' (sd g) p1) :: its1 ++ oth) /\ Permutation q2 (q1 ++ q').
Proof.
  intros S Hm P. remember None as par eqn:Epar. destruct S as [|par f p e0|par f a0 u pl m its q S1|par f a0 bo pl pr m1 m2 i1 i2 q1 q2 S1 S2]; subst par.
  - destruct Hm.
  - apply Permutation_nil in P. discriminate.
  - destruct (focus x _ _ _ _ _ _ S1 a0 (MkCell OPERATOR (unop_op u) (n_ofZ 0) "" None None None) a g e q' eq_refl P) as (b' & c' & oth & P1 & F). cbn [with_child sd c_type c_op c_value c_name c_parent c_left c_right] in *.
    exists b', c', oth. split; [exact P1|].
    intros p1 m1 its1 q1 S E. destruct (F _ _ _ _ S E) as (p2 & m2 & its2 & q2 & S2 & E2 & P2 & P3).
    exists (MUn u m2). eexists. exists q2. split; [apply sh_un; exact S2|]. split; [exact I|]. cbn [fin]. rewrite E2. auto.
  - apply perm_cons_app in P as [(l1 & P & Pq)|(l1 & P & Pq)].
    + destruct (focus x _ _ _ _ _ _ S1 a0 (MkCell OPERATOR (binop_op bo) (n_ofZ 0) "" None None pr) a g e l1 eq_refl P) as (b' & c' & oth & P1 & F). cbn [with_child sd c_type c_op c_value c_name c_parent c_left c_right] in *.
      exists b', c', (oth ++ i2). split.
      { rewrite (app_comm_cons i1), P1. reflexivity. }
      intros p1 m0 its1 q0 S E. destruct (F _ _ _ _ S E) as (p2 & m3 & its2 & q3 & S3 & E2 & P2 & P3).
      exists (MBin bo m3 m2). eexists. eexists. split; [apply sh_bin; eassumption|]. split; [exact I|]. cbn [fin]. rewrite E2. split; [reflexivity|]. split.
      * rewrite (app_comm_cons its2), P2. cbn. now rewrite <- app_assoc.
      * rewrite P3, Pq, app_assoc. reflexivity.
    + destruct (focus x _ _ _ _ _ _ S2 a0 (MkCell OPERATOR (binop_op bo) (n_ofZ 0) "" None pl None) a g e l1 eq_refl P) as (b' & c' & oth & P1 & F). cbn [with_child sd c_type c_op c_value c_name c_parent c_left c_right] in *.
      exists b', c', (i1 ++ oth). split.
      { match goal with |- Permutation (?y :: i1 ++ i2) _ => transitivity (i1 ++ (y :: i2)); [perm|] end. rewrite P1. perm. }
      intros p1 m0 its1 q0 S E. destruct (F _ _ _ _ S E) as (p2 & m3 & its2 & q3 & S3 & E2 & P2 & P3).
      exists (MBin bo m1 m3). eexists. eexists. split; [apply sh_bin; eassumption|]. split; [exact I|]. cbn [fin]. rewrite E2. split; [reflexivity|]. split.
      * match goal with |- Permutation (?y :: i1 ++ its2) _ => transitivity (i1 ++ (y :: its2)); [perm|] end. rewrite P2. perm.
      * rewrite P3, Pq. perm.
Qed.

Lemma Forall_perm {A} (P : A -> Prop) l l' : Permutation l l' -> (Forall P l <-> Forall P l').
Proof. intros Hp. rewrite !Forall_forall. split; intros H y Hy; apply H; [apply (Permutation_in _ (Permutation_sym Hp))|apply (Permutation_in _ Hp)]; exact Hy. Qed.
Lemma no_int_dec e : no_int_ops e \/ ~ no_int_ops e.
Proof. induction e as [| |u a IH|b a IH1 c IH2]; cbn; [tauto..|]. destruct b; tauto. Qed.

(** What differentiation does: success, or an exception that leaves some expression behind. *)
Definition diff_outcome (good : Prop) (m : M (K:=K) unit) (upd : option addr -> item) (d : expr K) rest h : Prop :=
  (good -> wp m (fun _ h' => exists r, owns h' (upd (Some r) :: ITree None (Some r) (embed d) :: rest)) h) /\
  (~ good -> exists w h' r e', m h = (Throw (RuntimeError w), h') /\ owns h' (upd (Some r) :: ITree None (Some r) (embed e') :: rest)).

Lemma DiffLoop_op x upd r rest fuel m (pd pd' : pend) b c (a : addr) g e oth h : is_operator e = true ->
  Permutation pd ((a, g, e) :: pd') ->
  owns h (ICell b (with_child c (sd g) (Some a)) :: ITree (Some b) (Some a) (embed e) :: upd (Some r) :: oth ++ rest) ->
  (exists e', owns h (upd (Some r) :: ITree None (Some r) (embed e') :: rest)) ->
  (forall p1 m1 its1 q1 h1, shape (Some b) g p1 m1 its1 q1 -> fin x m1 = dexpr x e -> wts (mpend m1) < wt e ->
       (Forall no_int_ops (mpend m1) <-> no_int_ops e) -> owns h1 (ICell b (with_child c (sd g) p1) :: its1 ++ upd (Some r) :: oth ++ rest) ->
       diff_outcome (Forall no_int_ops (map snd pd)) (DiffLoop pick fuel x (map fst pd' ++ map fst q1)) upd (fin x m) rest h1) ->
  diff_outcome (Forall no_int_ops (map snd pd)) (DiffLoop pick (S fuel) x ((a, g) :: map fst pd')) upd (fin x m) rest h.
Proof.
  intros Ho P H Cur Cont. cbn [DiffLoop].
  assert (L0 : wp (load a) (fun c0 h' => c_type c0 = OPERATOR /\ c_parent c0 = Some b /\ h' = h) h).
  { pose proof H as H2. front H2 (ITree (Some b) (Some a) (embed e)). destruct e; try discriminate Ho; cbn [embed] in H2; apply own_open in H2 as (a0 & pl & pr & [= <-] & H2); (eapply wp_load; [exact H2|]; repeat split). }
  destruct L0 as (c0 & h' & El & Ec & Ep & ->).
  assert (Sl : slot_at (SFld b (if g then L else R)) (fun q => ICell b (with_child c (sd g) q))) by apply sa_fld.
  destruct (top_int e) eqn:Ht.
  - destruct (step_throws _ _ _ _ _ _ (map fst pd') _ Sl Ht H) as (w & Ew).
    split.
    + intros G. exfalso. assert (Pe : Permutation (map snd pd) (e :: map snd pd')) by (rewrite P; reflexivity). rewrite (Forall_perm _ _ _ Pe), Forall_cons_iff in G. destruct G as [G _].
      destruct e as [| | |[]]; try discriminate Ht; destruct G.
    + intros _. destruct Cur as (e' & Hc). exists w, h, r, e'. split; [|exact Hc]. unfold bindM. rewrite El, Ec, Ep. cbn [deref ret]. now rewrite Ew.
  - destruct (wp_step _ _ _ _ _ _ (map fst pd') _ Sl Ho Ht H) as (q1 & h1 & E1 & (g1 & p1 & its1 & pd1 & S1 & H1 & ->)).
    apply (shape_flag _ _ g _ _ _ _ (notpend_dstep _ Ho)) in S1.
    assert (O := Cont _ _ _ _ h1 S1 (fin_dstep x e Ho Ht) (wts_dstep e) (no_int_dstep e Ho Ht) H1).
    assert (E2 : forall A B, (do c1 <- load a; match c_type c1 with NUMBER => A c1 | OPERATOR => do p <- deref (c_parent c1); do q1 <- DiffOnceOperator pick (SFld p (if g then L else R)) (map fst pd'); DiffLoop pick fuel x q1 | VARIABLE => B c1 end) h
              = DiffLoop pick fuel x (map fst pd' ++ map fst pd1) h1).
    { intros A B. unfold bindM. rewrite El, Ec, Ep. cbn [deref ret]. now rewrite E1. }
    destruct O as [O1 O2]. split.
    + intros G. destruct (O1 G) as (u & h2 & E3 & O3). exists u, h2. split; [|exact O3]. rewrite <- E3. apply E2.
    + intros G. destruct (O2 G) as (w & h2 & r2 & e2 & E3 & O3). exists w, h2, r2, e2. split; [|exact O3]. rewrite <- E3. apply E2.
Qed.

Lemma DiffLoop_ok x upd r rest : forall fuel m its pd q h, shape None true (Some r) m its pd -> notpend m ->
  owns h (upd (Some r) :: its ++ rest) -> Permutation q (map fst pd) -> wts (map snd pd) < fuel ->
  diff_outcome (Forall no_int_ops (map snd pd)) (DiffLoop pick fuel x q) upd (fin x m) rest h.
Proof.
  induction fuel as [|fuel IH]; intros m its pd q h S Hm H P Hf; [lia|]. cbn [DiffLoop].
  destruct q as [|(a, g) q'].
  - apply Permutation_nil in P. apply map_eq_nil in P. subst pd. split; [|intros []; constructor]. intros _. apply wp_ret. exists r.
    rewrite <- (shape_done _ _ _ _ _ S x). front H (upd (Some r)).
    assert (H1 : owns h (its ++ upd (Some r) :: rest)) by own H. apply (shape_cur _ _ _ _ _ _ S) in H1. own H1.
  - apply Permutation_map_inv in P as (pd' & E & P). destruct pd' as [|((a', g'), e) pd']; [discriminate|]. cbn [map fst] in E. injection E as <- <- ->.
    assert (Pe : Permutation (map snd pd) (e :: map snd pd')) by (rewrite P; reflexivity).
    destruct (focus_root x _ _ _ _ _ _ _ _ _ S Hm P) as (b & c & oth & Pi & F).
    assert (H1 : owns h (ICell b (with_child c (sd g) (Some a)) :: ITree (Some b) (Some a) (embed e) :: upd (Some r) :: oth ++ rest)).
    { eapply owns_perm; [|exact H]. rewrite Pi. cbn. perm. }
    assert (Cur : exists e', owns h (upd (Some r) :: ITree None (Some r) (embed e') :: rest)).
    { exists (cur m). assert (H2 : owns h (its ++ upd (Some r) :: rest)) by own H. apply (shape_cur _ _ _ _ _ _ S) in H2. own H2. }
    rewrite (wts_perm _ _ Pe) in Hf. cbn [wts] in Hf.
    assert (Cont : forall p1 m1 its1 q1 h1, shape (Some b) g p1 m1 its1 q1 -> fin x m1 = dexpr x e -> wts (mpend m1) < wt e ->
       (Forall no_int_ops (mpend m1) <-> no_int_ops e) -> owns h1 (ICell b (with_child c (sd g) p1) :: its1 ++ upd (Some r) :: oth ++ rest) ->
       diff_outcome (Forall no_int_ops (map snd pd)) (DiffLoop pick fuel x (map fst pd' ++ map fst q1)) upd (fin x m) rest h1).
    { intros p1 m1 its1 q1 h1 S1 E1 W1 N1 H2. destruct (F _ _ _ _ S1 E1) as (m2 & its2 & q2 & S2 & Hm2 & E2 & P2 & P3).
      rewrite <- E2.
      assert (Pm : Permutation (map snd q2) (mpend m1 ++ map snd pd')) by (rewrite P3, map_app, (shape_mpend _ _ _ _ _ _ S1); reflexivity).
      assert (O : diff_outcome (Forall no_int_ops (map snd q2)) (DiffLoop pick fuel x (map fst pd' ++ map fst q1)) upd (fin x m2) rest h1).
      { eapply IH; [exact S2|exact Hm2| | |].
        - eapply owns_perm; [|exact H2]. rewrite P2. cbn. rewrite <- ?app_assoc. perm.
        - rewrite P3, map_app. apply Permutation_app_comm.
        - rewrite (wts_perm _ _ Pm), wts_app. lia. }
      assert (Eq : Forall no_int_ops (map snd q2) <-> Forall no_int_ops (map snd pd)).
      { rewrite (Forall_perm _ _ _ Pm), (Forall_perm _ _ _ Pe), Forall_app, Forall_cons_iff, N1. tauto. }
      destruct O as [O1 O2]. split; [intros G; apply O1; tauto|intros G; apply O2; tauto]. }
    destruct e as [v|y|u e1|bo e1 e2].
    + (* a number *)
      pose proof H1 as H2. cbn [embed] in H2. front H2 (ITree (Some b) (Some a) (N NUMBER MATH_NULL v "" Nil Nil)). apply own_open in H2 as (a0 & pl & pr & [= <-] & H2).
      assert (Hk : wp (do c0 <- load a; store a (with_data c0 NUMBER (c_op c0) (n_ofZ 0) (c_name c0))) (fun _ h' => owns h' (ICell b (with_child c (sd g) (Some a)) :: [ITree (Some b) (Some a) (embed (lit 0))] ++ upd (Some r) :: oth ++ rest)) h).
      { apply wp_bind. eapply wp_load; [exact H2|]. eapply wp_store; [exact H2|]. intros h1 H3. cbn [with_data c_type c_op c_value c_name c_parent c_left c_right] in H3.
        apply own_close in H3. cbn [app]. own H3. }
      destruct Hk as ([] & h1 & E1 & H3).
      assert (O := Cont _ (MDone (lit 0)) _ [] h1 (sh_done (Some b) g (Some a) (lit 0)) eq_refl (wt_pos (ENum v)) ltac:(cbn; split; auto) H3).
      cbn [map] in O. rewrite app_nil_r in O.
      assert (E2 : (do c0 <- load a;
        match c_type c0 with
        | OPERATOR => do p <- deref (c_parent c0); do q1 <- DiffOnceOperator pick (SFld p (if g then L else R)) (map fst pd'); DiffLoop pick fuel x q1
        | VARIABLE => store a (with_data c0 NUMBER (c_op c0) (if (c_name c0 =? x)%string then n_ofZ 1 else n_ofZ 0) "");; DiffLoop pick fuel x (map fst pd')
        | NUMBER => store a (with_data c0 NUMBER (c_op c0) (n_ofZ 0) (c_name c0));; DiffLoop pick fuel x (map fst pd') end) h = DiffLoop pick fuel x (map fst pd') h1).
      { assert (W : wp (load a) (fun c0 h' => c_type c0 = NUMBER /\ h' = h) h) by (eapply wp_load; [exact H2|]; split; reflexivity).
        destruct W as (c0 & h' & El & Ec & ->). unfold bindM in E1 |- *. rewrite El in *. rewrite Ec. now rewrite E1. }
      destruct O as [O1 O2]. split.
      * intros G. destruct (O1 G) as (u & h2 & E3 & O3). exists u, h2. rewrite E2. auto.
      * intros G. destruct (O2 G) as (w & h2 & r2 & e2 & E3 & O3). exists w, h2, r2, e2. rewrite E2. auto.
    + (* a variable *)
      pose proof H1 as H2. cbn [embed] in H2. front H2 (ITree (Some b) (Some a) (N VARIABLE MATH_NULL (n_ofZ (n:=K) 0) y Nil Nil)). apply own_open in H2 as (a0 & pl & pr & [= <-] & H2).
      assert (Hk : wp (do c0 <- load a; store a (with_data c0 NUMBER (c_op c0) (if (c_name c0 =? x)%string then n_ofZ 1 else n_ofZ 0) "")) (fun _ h' => owns h' (ICell b (with_child c (sd g) (Some a)) :: [ITree (Some b) (Some a) (embed (dexpr x (EVar y)))] ++ upd (Some r) :: oth ++ rest)) h).
      { apply wp_bind. eapply wp_load; [exact H2|]. eapply wp_store; [exact H2|]. intros h1 H3. cbn [with_data c_type c_op c_value c_name c_parent c_left c_right] in H3.
        apply own_close in H3. cbn [app dexpr]. destruct (y =? x)%string; cbn [embed lit]; own H3. }
      destruct Hk as ([] & h1 & E1 & H3).
      assert (O := Cont _ (MDone (dexpr x (EVar y))) _ [] h1 (sh_done (Some b) g (Some a) _) eq_refl (wt_pos (EVar y)) ltac:(cbn; split; auto) H3).
      cbn [map] in O. rewrite app_nil_r in O.
      assert (E2 : (do c0 <- load a;
        match c_type c0 with
        | OPERATOR => do p <- deref (c_parent c0); do q1 <- DiffOnceOperator pick (SFld p (if g then L else R)) (map fst pd'); DiffLoop pick fuel x q1
        | VARIABLE => store a (with_data c0 NUMBER (c_op c0) (if (c_name c0 =? x)%string then n_ofZ 1 else n_ofZ 0) "");; DiffLoop pick fuel x (map fst pd')
        | NUMBER => store a (with_data c0 NUMBER (c_op c0) (n_ofZ 0) (c_name c0));; DiffLoop pick fuel x (map fst pd') end) h = DiffLoop pick fuel x (map fst pd') h1).
      { assert (W : wp (load a) (fun c0 h' => c_type c0 = VARIABLE /\ h' = h) h) by (eapply wp_load; [exact H2|]; split; reflexivity).
        destruct W as (c0 & h' & El & Ec & ->). unfold bindM in E1 |- *. rewrite El in *. rewrite Ec. now rewrite E1. }
      destruct O as [O1 O2]. split.
      * intros G. destruct (O1 G) as (u & h2 & E3 & O3). exists u, h2. rewrite E2. auto.
      * intros G. destruct (O2 G) as (w & h2 & r2 & e2 & E3 & O3). exists w, h2, r2, e2. rewrite E2. auto.
    + apply (DiffLoop_op x upd r rest fuel m pd pd' b c a g (EUn u e1) oth h); auto.
    + apply (DiffLoop_op x upd r rest fuel m pd pd' b c a g (EBin bo e1 e2) oth h); auto.
Qed.

Lemma shape_root par f p m its q : shape par f p m its q -> forall h rest, owns h (its ++ rest) -> exists a, p = Some a.
Proof. intros S h rest H. apply (shape_cur _ _ _ _ _ _ S) in H. now apply own_expr in H. Qed.

Lemma HDiffOnce_ok x s upd r e rest h : slot_at s upd -> owns h (upd (Some r) :: ITree None (Some r) (embed e) :: rest) ->
  diff_outcome (no_int_ops e) (HDiffOnce pick s x) upd (dexpr x e) rest h.
Proof.
  intros Sl H.
  assert (Sz : wt e <= 3 * length h).
  { pose proof H as H2. front H2 (ITree None (Some r) (embed e)). apply own_size in H2. pose proof (wt_size e). lia. }
  assert (L0 : wp (cell_at s) (fun c h' => c_type c = typ e /\ h' = h) h).
  { unfold cell_at. apply wp_bind. eapply wp_get; [exact Sl|exact H|]. apply wp_bind, wp_deref. eapply wp_load_expr; [ownf H|]. auto. }
  destruct L0 as (c & h' & El & Ec & ->).
  destruct (is_operator e) eqn:Ho.
  - assert (Et : typ e = OPERATOR) by (destruct e; [discriminate Ho..|reflexivity|reflexivity]). destruct (top_int e) eqn:Ht.
    + destruct (step_throws _ _ _ _ _ _ [] _ Sl Ht H) as (w & Ew). split.
      * intros G. destruct e as [| | |[]]; try discriminate Ht; destruct G.
      * intros _. exists w, h, r, e. split; [|exact H]. unfold HDiffOnce, bindM. now rewrite El, Ec, Et, Ew.
    + destruct (wp_step _ _ _ _ _ _ [] _ Sl Ho Ht H) as (q1 & h1 & E1 & (g1 & p1 & its1 & pd1 & S1 & H1 & ->)).
      apply (shape_flag _ _ true _ _ _ _ (notpend_dstep _ Ho)) in S1.
      assert (exists r1, p1 = Some r1) as (r1 & ->). { eapply (shape_root _ _ _ _ _ _ S1 h1 (upd p1 :: rest)). own H1. }
      assert (O : diff_outcome (Forall no_int_ops (map snd pd1)) (DiffLoop pick (S (3 * length h)) x (map fst pd1)) upd (fin x (dstep e)) rest h1).
      { eapply DiffLoop_ok; [exact S1|now apply notpend_dstep|exact H1|reflexivity|].
        rewrite (shape_mpend _ _ _ _ _ _ S1). pose proof (wts_dstep e). lia. }
      rewrite (shape_mpend _ _ _ _ _ _ S1), (fin_dstep x e Ho Ht) in O.
      pose proof (no_int_dstep e Ho Ht) as Ni.
      assert (E2 : HDiffOnce pick s x h = DiffLoop pick (S (3 * length h)) x (map fst pd1) h1) by (unfold HDiffOnce, bindM; now rewrite El, Ec, Et, E1).
      destruct O as [O1 O2]. split.
      * intros G. destruct (O1 (proj2 Ni G)) as (u & h2 & E3 & O3). exists u, h2. now rewrite E2.
      * intros G. destruct O2 as (w & h2 & r2 & e2 & E3 & O3); [tauto|]. exists w, h2, r2, e2. now rewrite E2.
  - assert (G : no_int_ops e) by (destruct e; try discriminate Ho; exact I). split; [intros _|tauto].
    assert (W : wp (do q <- emplace_at s []; DiffLoop pick (S (3 * length h)) x q) (fun _ h' => exists r, owns h' (upd (Some r) :: ITree None (Some r) (embed (dexpr x e)) :: rest)) h).
    { apply wp_bind. unfold emplace_at. apply wp_bind. eapply wp_get; [exact Sl|exact H|]. apply wp_bind, wp_deref.
      front H (ITree None (Some r) (embed e)). eapply wp_emplace_tree; [exact H|]. cbn [app]. set (f := 3 * length h) in *. clearbody f.
      destruct f as [|f]; [pose proof (wt_pos e); lia|].
      destruct e as [v|y| |]; try discriminate Ho; cbn [embed] in H; apply own_open in H as (a0 & pl & pr & [= <-] & H);
        cbn [DiffLoop]; apply wp_bind; (eapply wp_load; [exact H|]); cbn [c_type c_op c_name]; apply wp_bind; (eapply wp_store; [exact H|]); intros h1 H1; apply wp_ret;
        cbn [with_data c_type c_op c_value c_name c_parent c_left c_right] in H1; apply own_close in H1; exists r; cbn [dexpr]; [|destruct (y =? x)%string]; cbn [embed lit]; own H1. }
    destruct W as (u & h1 & E1 & O1). exists u, h1. split; [|exact O1]. unfold HDiffOnce, bindM at 1. rewrite El, Ec.
    destruct e; try discriminate Ho; cbn [typ]; exact E1.
Qed.

Lemma HDiffTimes_ok x s upd rest : slot_at s upd -> forall i e r h, owns h (upd (Some r) :: ITree None (Some r) (embed e) :: rest) ->
  diff_outcome (i = 0 \/ no_int_ops e) (HDiffTimes pick i s x) upd (dexpr_n i x e) rest h.
Proof.
  intros Sl. induction i as [|i IH]; intros e r h H; cbn [HDiffTimes dexpr_n].
  - split; [|tauto]. intros _. apply wp_ret. eauto.
  - destruct (HDiffOnce_ok x s upd r e rest h Sl H) as [O1 O2]. split.
    + intros [G|G]; [discriminate G|]. apply wp_bind. eapply wp_mono; [exact (O1 G)|]. intros [] h1 (r1 & H1). cbv beta.
      apply (proj1 (IH _ _ _ H1)). right. now apply dexpr_no_int.
    + intros G. destruct O2 as (w & h1 & r1 & e1 & E1 & H1); [tauto|]. exists w, h1, r1, e1. split; [|exact H1]. unfold bindM. now rewrite E1.
Qed.

(** ** Diff *)
Lemma wp_HDiff cfg x i s upd r e t' rest (Q : unit -> heap -> Prop) h : slot_at s upd -> Diff cfg (embed e) x i = Ok t' ->
  owns h (upd (Some r) :: ITree None (Some r) (embed e) :: rest) ->
  (forall q h', owns h' (upd q :: ITree None q t' :: rest) -> Q tt h') -> wp (HDiff pick cfg s x i) Q h.
Proof.
  intros Sl E H HQ. unfold HDiff. unfold Diff in E. destruct (i <=? 0)%Z eqn:Ei; [discriminate E|].
  assert (Hi : Z.to_nat i <> 0) by lia.
  assert (G : no_int_ops e).
  { destruct (no_int_dec e) as [G|G]; [exact G|]. exfalso. pose proof (DiffOnce_throws x e G (diff_fuel (embed e)) (le_n _)) as (w & Ew).
    destruct (Z.to_nat i) as [|k]; [lia|]. cbn [DiffTimes] in E. unfold DiffOnceRoot in E. rewrite Ew in E. destruct e; discriminate E. }
  assert (E' : Simplify cfg (embed (dexpr_n (Z.to_nat i) x e)) = Ok t').
  { rewrite (DiffTimes_ok _ _ _ G) in E. cbn [bind] in E. destruct e; exact E. }
  destruct (HDiffTimes_ok x s upd rest Sl (Z.to_nat i) e r h H) as [O1 _]. apply wp_bind. eapply wp_mono; [apply O1; now right|].
  intros [] h1 (r1 & H1). cbv beta. eapply wp_HSimplify; [exact Hpick|exact Sl|exact E'|exact H1|exact HQ].
Qed.
Lemma HDiff_throws cfg x i s upd r e w rest h : slot_at s upd -> Diff cfg (embed e) x i = Throw w ->
  owns h (upd (Some r) :: ITree None (Some r) (embed e) :: rest) ->
  exists w' h' r' e', HDiff pick cfg s x i h = (Throw (RuntimeError w'), h') /\ owns h' (upd (Some r') :: ITree None (Some r') (embed e') :: rest).
Proof.
  intros Sl E H. unfold HDiff. unfold Diff in E. destruct (i <=? 0)%Z eqn:Ei; [discriminate E|].
  assert (G : ~ no_int_ops e).
  { intros G. rewrite (DiffTimes_ok _ _ _ G) in E. cbn [bind] in E. unfold Simplify in E.
    destruct (SimplifyWholeNode cfg (embed (dexpr_n (Z.to_nat i) x e))); destruct e; discriminate E. }
  destruct (HDiffTimes_ok x s upd rest Sl (Z.to_nat i) e r h H) as [_ O2]. destruct O2 as (w' & h' & r' & e' & E1 & H1); [intros [?|?]; [lia|tauto]|].
  exists w', h', r', e'. split; [|exact H1]. unfold bindM. now rewrite E1.
Qed.
Lemma dies_HDiff cfg x i s upd r e rest h : slot_at s upd -> Diff cfg (embed e) x i = Terminate ->
  owns h (upd (Some r) :: ITree None (Some r) (embed e) :: rest) -> dies (HDiff pick cfg s x i) h.
Proof.
  intros Sl E H. unfold HDiff. unfold Diff in E. destruct (i <=? 0)%Z eqn:Ei; [discriminate E|].
  assert (G : no_int_ops e).
  { destruct (no_int_dec e) as [G|G]; [exact G|]. exfalso. pose proof (DiffOnce_throws x e G (diff_fuel (embed e)) (le_n _)) as (w & Ew).
    assert (Hi : Z.to_nat i <> 0) by lia.
    destruct (Z.to_nat i) as [|k]; [lia|]. cbn [DiffTimes] in E. unfold DiffOnceRoot in E. rewrite Ew in E. destruct e; discriminate E. }
  assert (E' : Simplify cfg (embed (dexpr_n (Z.to_nat i) x e)) = Terminate).
  { rewrite (DiffTimes_ok _ _ _ G) in E. cbn [bind] in E. destruct e; exact E. }
  destruct (HDiffTimes_ok x s upd rest Sl (Z.to_nat i) e r h H) as [O1 _]. apply dies_bind. eapply wp_mono; [apply O1; now right|].
  intros [] h1 (r1 & H1). cbv beta. eapply dies_HSimplify; [exact Hpick|exact Sl|exact E'|exact H1].
Qed.

End HDiff2.
