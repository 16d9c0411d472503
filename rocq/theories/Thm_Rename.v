(** C73: the names of the variables do not matter. *)
From Coq Require Import String List ZArith Bool Arith Lia Sorted.
From Verif Require Import Base MathOp NodeModel SimplifyModel DiffModel SubsModel MatModel LinearModel VarsTableModel
  SymMatModel NonlinearModel ExprSpec NodeProofs Thm_Node Thm_Subs IEEE Thm_Relax RenameSpec.
Import ListNotations.
Local Open Scope string_scope. Local Open Scope list_scope.

Section Rename.
Context {K : num_ops} (f : string -> string) (names : list string).
Notation node := (node K).
Notation ren := (rename f).

Lemma ren_null (n : node) : is_null (ren n) = is_null n. Proof. now destruct n. Qed.
Lemma ren_number (n : node) : isNumber (ren n) = isNumber n. Proof. now destruct n as [|[]]. Qed.
Lemma ren_variable (n : node) : isVariable (ren n) = isVariable n. Proof. now destruct n as [|[]]. Qed.
Lemma ren_size (n : node) : node_size (ren n) = node_size n. Proof. induction n; cbn; auto. Qed.
Lemma ren_fuel (n : node) : diff_fuel (ren n) = diff_fuel n. Proof. induction n; cbn; auto. Qed.
Lemma ren_isNumEq (n : node) z : isNumEq (ren n) z = isNumEq n z. Proof. now destruct n as [|[]]. Qed.

Lemma map_res_bind {A B C} (g : B -> C) (r : res A) (h : A -> res B) : res_map g (bind r h) = bind r (fun a => res_map g (h a)).
Proof. destruct r; reflexivity. Qed.
Lemma bind_map_res {A B C} (g : A -> B) (r : res A) (h : B -> res C) : bind (res_map g r) h = bind r (fun a => h (g a)).
Proof. destruct r; reflexivity. Qed.
Lemma noexcept_map {A B} (g : A -> B) (r : res A) : noexcept (res_map g r) = res_map g (noexcept r).
Proof. destruct r; reflexivity. Qed.

(** ** Vpa *)
Lemma ren_order fuel : forall stk acc : list node, VpaOrder fuel (map ren stk) (map ren acc) = res_map (map ren) (VpaOrder fuel stk acc).
Proof.
  induction fuel as [|k IH]; intros stk acc; [reflexivity|]. cbn [VpaOrder]. destruct stk as [|[|ty op v x l r] stk]; try reflexivity.
  cbn [map rename]. rewrite <- IH. cbn [map rename]. f_equal. destruct l, r; reflexivity.
Qed.
Lemma ren_step (cfg : config K) stk n : VpaStep cfg stk (ren n) = VpaStep cfg stk n.
Proof. destruct n as [|[]]; reflexivity. Qed.
Lemma ren_steps (cfg : config K) l : forall stk, foldM (VpaStep cfg) (map ren l) stk = foldM (VpaStep cfg) l stk.
Proof. induction l as [|n l IH]; intros stk; cbn [map foldM]; [reflexivity|]. rewrite ren_step. apply bind_ext. intros; apply IH. Qed.
Theorem C73_vpa (cfg : config K) n : Vpa cfg (ren n) = Vpa cfg n.
Proof.
  destruct n as [|ty op v x l r]; [reflexivity|]. set (n := N ty op v x l r). unfold Vpa.
  change (VpaOrder (S (node_size (ren n))) [ren n] []) with (VpaOrder (S (node_size (ren n))) (map ren [n]) (map ren [])).
  rewrite ren_size, ren_order. change (ren n) with (N ty op v (match ty with VARIABLE => f x | _ => x end) (ren l) (ren r)). cbv iota.
  rewrite bind_map_res. apply bind_ext. intros o. now rewrite ren_steps.
Qed.

(** ** Simplify *)
Lemma ren_single (cfg : config K) op v x l r :
  SimplifySingleNode cfg (ren (N OPERATOR op v x l r)) = res_map ren (SimplifySingleNode cfg (N OPERATOR op v x l r)).
Proof.
  cbn [rename SimplifySingleNode]. destruct (GetOperatorNum op) as [|[|[|k]]]; try reflexivity.
  - destruct l as [|[] lop lv lx ll lr]; try reflexivity. cbn [rename]. destruct (noexcept _); reflexivity.
  - destruct l as [|lt lop lv lx ll lr]; [reflexivity|]. destruct r as [|rt rop rv rx rl rr]; [destruct lt; reflexivity|].
    assert (G : forall lt', (match lt' with NUMBER => match rt with NUMBER => False | _ => True end | _ => True end) -> True) by auto.
    set (L := N lt lop lv lx ll lr). set (R := N rt rop rv rx rl rr).
    destruct lt; destruct rt;
      try (cbn [rename L R]; destruct (noexcept _); reflexivity);
      unfold L, R; cbn [rename isNumEq];
      repeat match goal with |- context [if ?c then _ else _] => destruct c end; reflexivity.
Qed.
Lemma ren_whole (cfg : config K) n : SimplifyWholeNode cfg (ren n) = res_map ren (SimplifyWholeNode cfg n).
Proof.
  induction n as [|ty op v x l IHl r IHr]; [reflexivity|]. destruct ty; try reflexivity. cbn [rename SimplifyWholeNode].
  assert (El : (match ren l with N OPERATOR _ _ _ _ _ => SimplifyWholeNode cfg (ren l) | _ => Ok (ren l) end)
    = res_map ren (match l with N OPERATOR _ _ _ _ _ => SimplifyWholeNode cfg l | _ => Ok l end)).
  { destruct l as [|[] lop lv lx ll lr]; try reflexivity. exact IHl. }
  assert (Er : (match ren r with N OPERATOR _ _ _ _ _ => SimplifyWholeNode cfg (ren r) | _ => Ok (ren r) end)
    = res_map ren (match r with N OPERATOR _ _ _ _ _ => SimplifyWholeNode cfg r | _ => Ok r end)).
  { destruct r as [|[] lop lv lx ll lr]; try reflexivity. exact IHr. }
  rewrite El, Er, bind_map_res, map_res_bind. apply bind_ext. intros l'.
  rewrite bind_map_res, map_res_bind. apply bind_ext. intros r'. exact (ren_single cfg op v x l' r').
Qed.
Theorem C73_simplify (cfg : config K) n : Simplify cfg (ren n) = res_map ren (Simplify cfg n).
Proof. unfold Simplify. now rewrite ren_whole, noexcept_map. Qed.

(** ** Diff *)
Hypothesis inj : distinct_on f names.
Lemma ren_eqb x y : In x names -> In y names -> String.eqb (f x) (f y) = String.eqb x y.
Proof using inj.
  intros Hx Hy. destruct (String.eqb_spec x y) as [->|N]; [apply String.eqb_refl|].
  apply String.eqb_neq. intros E. apply N. now apply inj.
Qed.

Ltac go IH := 
  repeat first
  [ reflexivity
  | match goal with
    | |- (let* _ := DiffOnce ?k (f ?x) (ren ?n) in _) = res_map _ (let* _ := DiffOnce ?k ?x ?n in _) =>
        rewrite (IH n) by tauto; rewrite bind_map_res, map_res_bind; apply bind_ext; intros ?
    | |- (if ?c then _ else _) = res_map _ (if ?c then _ else _) => destruct c
    end ].

Lemma ren_DiffOnce fuel x : In x names -> forall n : node, mentions_only names n ->
  DiffOnce fuel (f x) (ren n) = res_map ren (DiffOnce fuel x n).
Proof using inj.
  intros Hx. induction fuel as [|k IH]; intros n Hn; [reflexivity|].
  destruct n as [|ty op v y l r]; [reflexivity|]. destruct Hn as (Hy & Hl & Hr). destruct ty.
  - reflexivity.
  - assert (Pow : op <> MATH_POWER \/ op = MATH_POWER) by (destruct op; (left; discriminate) || (right; reflexivity)).
    destruct Pow as [Np| ->].
    { cbn [rename DiffOnce]. destruct op; try (now destruct Np); cbv zeta; rewrite ?ren_null, ?ren_number, ?ren_variable; go IH. }
    destruct l as [|lt lop lv lx ll lr]; [reflexivity|]. destruct r as [|rt rop rv rx rl rr]; [destruct lt; reflexivity|].
    assert (IHl := IH (N lt lop lv lx ll lr) Hl). assert (IHr := IH (N rt rop rv rx rl rr) Hr).
    assert (IHw := IH (op2 MATH_MULTIPLY (N rt rop rv rx rl rr) (op1 MATH_LOG (N lt lop lv lx ll lr)))
      (conj Logic.I (conj Hr (conj Logic.I (conj Hl Logic.I))))).
    unfold op1, op2 in IHw. cbn [rename] in IHl, IHr, IHw. cbn [rename DiffOnce]. cbn [is_null orb].
    destruct lt, rt; cbn [isNumber andb]; try reflexivity; unfold op1, op2 in *;
      first [rewrite IHl|rewrite IHr|rewrite IHw]; rewrite bind_map_res, map_res_bind; apply bind_ext; intros ?; reflexivity.
  - cbn [rename DiffOnce]. rewrite ren_eqb by assumption. reflexivity.
Qed.

Ltac okgo IH H :=
  repeat first
  [ discriminate H
  | match type of H with
    | Ok _ = Ok _ => injection H as <-; cbn; tauto
    | bind _ _ = Ok _ => let m := fresh "m" in let E := fresh "E" in let G := fresh "G" in
        apply bind_Ok_inv in H as (m & E & H);
        assert (G : mentions_only names m) by (refine (IH _ _ _ E); cbn; tauto)
    | (if ?c then _ else _) = _ => destruct c
    end ].
Lemma DiffOnce_only fuel x : forall n m : node, mentions_only names n -> DiffOnce fuel x n = Ok m -> mentions_only names m.
Proof using.
  induction fuel as [|k IH]; intros n m Hn H; [discriminate|].
  destruct n as [|ty op v y l r]; [discriminate|]. pose proof Hn as (Hy & Hl & Hr). destruct ty; cbn [DiffOnce] in H.
  - injection H as <-. cbn. tauto.
  - assert (Pow : op <> MATH_POWER \/ op = MATH_POWER) by (destruct op; (left; discriminate) || (right; reflexivity)).
    destruct Pow as [Np| ->].
    { destruct op; try (now destruct Np); cbv zeta in H; okgo IH H. }
    destruct l as [|lt lop lv lx ll lr]; [discriminate|]. destruct r as [|rt rop rv rx rl rr]; [destruct lt; discriminate|].
    cbn [is_null orb] in H. destruct lt, rt; cbn [isNumber andb] in H; cbv zeta in H; okgo IH H.
  - injection H as <-. cbn. tauto.
Qed.
Lemma ren_times i x : In x names -> forall n : node, mentions_only names n ->
  DiffTimes i (f x) (ren n) = res_map ren (DiffTimes i x n).
Proof using inj.
  intros Hx. induction i as [|i IH]; intros n Hn; [reflexivity|]. cbn [DiffTimes]. unfold DiffOnceRoot.
  rewrite ren_fuel, (ren_DiffOnce _ x Hx n Hn), bind_map_res, map_res_bind.
  destruct (DiffOnce (diff_fuel n) x n) as [m| | | | | ] eqn:E; try reflexivity.
  apply IH. exact (DiffOnce_only _ x n m Hn E).
Qed.
Lemma times_only i x : forall n m : node, mentions_only names n -> DiffTimes i x n = Ok m -> mentions_only names m.
Proof using.
  induction i as [|i IH]; intros n m Hn H; cbn [DiffTimes] in H; [now injection H as <-|].
  apply bind_Ok_inv in H as (n' & E & H). apply (IH n' m); [|exact H]. exact (DiffOnce_only _ x n n' Hn E).
Qed.
Theorem C73_diff (cfg : config K) x i n : In x names -> mentions_only names n ->
  Diff cfg (ren n) (f x) i = res_map ren (Diff cfg n x i).
Proof using inj.
  intros Hx Hn. unfold Diff. destruct (i <=? 0)%Z; [reflexivity|]. destruct n as [|ty op v y l r]; [reflexivity|].
  rewrite (ren_times _ x Hx _ Hn). change (ren (N ty op v y l r)) with (N ty op v (match ty with VARIABLE => f y | _ => y end) (ren l) (ren r)).
  cbv iota. rewrite bind_map_res, map_res_bind. apply bind_ext. intros m. apply C73_simplify.
Qed.

Lemma single_only (cfg : config K) n m : mentions_only names n -> SimplifySingleNode cfg n = Ok m -> mentions_only names m.
Proof using.
  intros Hn H. destruct n as [|ty op v x l r]; [discriminate|]. pose proof Hn as (Hx & Hl & Hr). cbn [SimplifySingleNode] in H.
  destruct (GetOperatorNum op) as [|[|[|k]]]; try discriminate.
  - destruct l as [|[] lop lv lx ll lr]; try discriminate; try (injection H as <-; exact Hn).
    apply bind_Ok_inv in H as (d & _ & H). injection H as <-. cbn. tauto.
  - destruct l as [|[] lop lv lx ll lr]; try discriminate; destruct r as [|[] rop rv rx rl rr]; try discriminate;
      try (apply bind_Ok_inv in H as (d & _ & H); injection H as <-; cbn; tauto);
      cbn [isNumEq] in H;
      repeat match type of H with (if ?c then _ else _) = _ => destruct c end; injection H as <-; cbn in *; tauto.
Qed.
Lemma whole_only (cfg : config K) n : forall m, mentions_only names n -> SimplifyWholeNode cfg n = Ok m -> mentions_only names m.
Proof using.
  induction n as [|ty op v x l IHl r IHr]; intros m Hn H; [discriminate|].
  destruct ty; try (injection H as <-; exact Hn). pose proof Hn as (Hx & Hl & Hr). cbn [SimplifyWholeNode] in H.
  apply bind_Ok_inv in H as (l' & El & H). apply bind_Ok_inv in H as (r' & Er & H).
  assert (L : mentions_only names l').
  { destruct l as [|[] lop lv lx ll lr]; try (injection El as <-; exact Hl). exact (IHl l' Hl El). }
  assert (R : mentions_only names r').
  { destruct r as [|[] lop lv lx ll lr]; try (injection Er as <-; exact Hr). exact (IHr r' Hr Er). }
  apply (single_only cfg (N OPERATOR op v x l' r') m); [cbn; tauto|exact H].
Qed.
Lemma diff_only (cfg : config K) x i n m : mentions_only names n -> Diff cfg n x i = Ok m -> mentions_only names m.
Proof using.
  intros Hn H. unfold Diff in H. destruct (i <=? 0)%Z; [discriminate|]. destruct n as [|ty op v y l r]; [discriminate|].
  apply bind_Ok_inv in H as (n' & E & H). unfold Simplify in H.
  apply (whole_only cfg n' m); [exact (times_only _ x _ n' Hn E)|].
  destruct (SimplifyWholeNode cfg n'); try discriminate H; exact H.
Qed.

(** ** Subs, Equal, GetAllVarNames *)
Lemma ren_subs (d d' : smap node) : (forall x, In x names -> map_find (f x) d' = option_map ren (map_find x d)) ->
  forall n, mentions_only names n -> SubsInner d' (ren n) = res_map ren (SubsInner d n).
Proof using.
  intros Hd. induction n as [|ty op v x l IHl r IHr]; intros Hn; [reflexivity|]. destruct Hn as (Hx & Hl & Hr).
  cbn [rename SubsInner].
  assert (Desc : forall y, (let* r' := SubsInner d' (ren r) in let* l' := SubsInner d' (ren l) in Ok (N ty op v y l' r'))
    = (let* r' := SubsInner d r in let* l' := SubsInner d l in Ok (N ty op v y (ren l') (ren r')))).
  { intros y. rewrite IHl, IHr, bind_map_res by assumption. apply bind_ext. intros r'. rewrite bind_map_res. reflexivity. }
  rewrite Desc. destruct ty; [| |rewrite (Hd x Hx); destruct (map_find x d) as [[|tt o w z l1 r1]|]; try reflexivity];
    cbn [option_map]; rewrite map_res_bind; apply bind_ext; intros r'; rewrite map_res_bind; apply bind_ext; intros l'; reflexivity.
Qed.
Lemma ren_subs_root (d d' : smap node) : (forall x, In x names -> map_find (f x) d' = option_map ren (map_find x d)) ->
  forall n, mentions_only names n -> SubsRoot d' (ren n) = res_map ren (SubsRoot d n).
Proof using.
  intros Hd n Hn. unfold SubsRoot. destruct n as [|ty op v x l r] eqn:En; [reflexivity|].
  pose proof (ren_subs d d' Hd n) as H. rewrite En in H. exact (H Hn).
Qed.
Lemma find_rename {T U} (g : T -> U) x (l : list (string * T)) : In x names -> incl (map fst l) names ->
  map_find (f x) (map (fun p => (f (fst p), g (snd p))) l) = option_map g (map_find x l).
Proof using inj.
  intros Hx. induction l as [|[y t] l IH]; intros Hl; [reflexivity|]. cbn [map map_find fst snd].
  rewrite ren_eqb by (auto; apply Hl; now left). destruct (String.eqb x y); [reflexivity|].
  apply IH. intros z Hz. apply Hl. now right.
Qed.

(** Substitution with a dictionary, and of one variable. *)
Theorem C73_subs (d : smap node) n : mentions_only names n -> incl (map fst d) names ->
  SubsDict (ren n) (map (fun p => (f (fst p), ren (snd p))) d) = res_map ren (SubsDict n d).
Proof using inj. intros Hn Hd. apply ren_subs_root; [|exact Hn]. intros x Hx. now apply find_rename. Qed.
Theorem C73_subs1 x (t n : node) : In x names -> mentions_only names n ->
  Subs1 (ren n) (f x) (ren t) = res_map ren (Subs1 n x t).
Proof using inj.
  intros Hx Hn. unfold Subs1. destruct t as [|ty op v y l r] eqn:Et; [reflexivity|]. rewrite <- Et.
  assert (E : match ren t with Nil => @Undef node "null node dereferenced" | _ => SubsRoot (map_insert (f x) (ren t) []) (ren n) end
    = SubsRoot (map_insert (f x) (ren t) []) (ren n)) by (rewrite Et; reflexivity).
  rewrite E. apply ren_subs_root; [|exact Hn]. intros y' Hy. cbn [map_insert map_find].
  rewrite ren_eqb by assumption. destruct (String.eqb y' x); reflexivity.
Qed.
End Rename.

Section Solve.
Context {K : num_ops} (f : string -> string) (names : list string) (inj : distinct_on f names).
Notation node := (node K).
Notation ren := (rename f).
Notation only_mat A := (forall n, In n (s_data A) -> mentions_only names n).

(** ** Equal *)
Lemma ren_same a b : mentions_only names a -> mentions_only names b -> IsSame (K:=K) (ren a) (ren b) = IsSame a b.
Proof using inj.
  destruct a as [|ta oa va xa la ra], b as [|tb ob vb xb lb rb]; try reflexivity.
  intros (Ha & _) (Hb & _). destruct ta, tb; try reflexivity. cbn [rename IsSame].
  now rewrite (ren_eqb f names inj xa xb Ha Hb).
Qed.
Definition only_pairs (s : list (node * node)) : Prop := forall p, In p s -> mentions_only names (fst p) /\ mentions_only names (snd p).
Definition ren_pair (p : node * node) : node * node := (ren (fst p), ren (snd p)).
Lemma ren_children s a b : CheckChildren (map ren_pair s) (ren a) (ren b) = option_map (map ren_pair) (CheckChildren s a b).
Proof using. destruct a, b; reflexivity. Qed.
Lemma children_only s a b s1 : only_pairs s -> mentions_only names a -> mentions_only names b -> CheckChildren s a b = Some s1 -> only_pairs s1.
Proof using.
  intros Hs Ha Hb H. destruct a, b; try discriminate H; injection H as <-; [exact Hs|].
  intros p [<-|Hp]; [now split|now apply Hs].
Qed.
Lemma ren_check s a b : mentions_only names a -> mentions_only names b ->
  CheckNode (map ren_pair s) (ren a) (ren b) = option_map (map ren_pair) (CheckNode s a b).
Proof using inj.
  intros Ha Hb. pose proof (ren_same a b Ha Hb) as Hsame.
  destruct a as [|ta oa va xa la ra], b as [|tb ob vb xb lb rb]; try reflexivity.
  unfold CheckNode at 1. cbn [rename]. cbn [rename] in Hsame. rewrite Hsame. clear Hsame. unfold CheckNode.
  destruct (IsSame (N ta oa va xa la ra) (N tb ob vb xb lb rb)); [|reflexivity]. rewrite ren_children. destruct (CheckChildren s la lb); [|reflexivity].
  cbn [option_map]. apply ren_children.
Qed.
Lemma check_only s a b s1 : only_pairs s -> mentions_only names a -> mentions_only names b -> CheckNode s a b = Some s1 -> only_pairs s1.
Proof using.
  intros Hs Ha Hb H. destruct a as [|ta oa va xa la ra], b as [|tb ob vb xb lb rb]; try discriminate H.
  unfold CheckNode in H. destruct (IsSame _ _); [|discriminate]. destruct (CheckChildren s la lb) as [s2|] eqn:E; [|discriminate].
  destruct Ha as (_ & Ha1 & Ha2), Hb as (_ & Hb1 & Hb2).
  apply (children_only s2 ra rb s1); auto. now apply (children_only s la lb s2).
Qed.
Lemma ren_equal_loop fuel : forall s, only_pairs s -> EqualLoop fuel (map ren_pair s) = EqualLoop fuel s.
Proof using inj.
  induction fuel as [|k IH]; intros s Hs; [reflexivity|]. destruct s as [|[a b] s]; [reflexivity|].
  cbn [map EqualLoop]. change (ren_pair (a, b)) with (ren a, ren b). cbv beta iota.
  destruct (Hs (a, b) (or_introl eq_refl)) as [Ha Hb]. rewrite ren_check by assumption.
  destruct (CheckNode s a b) as [s1|] eqn:E; [|reflexivity]. cbn [option_map]. apply IH.
  apply (check_only s a b s1); auto. intros p Hp. apply Hs. now right.
Qed.
Theorem C73_equal (a b : node) : mentions_only names a -> mentions_only names b -> Equal (ren a) (ren b) = Equal a b.
Proof using inj.
  intros Ha Hb. unfold Equal. pose proof (ren_check [] a b Ha Hb) as E. pose proof (check_only [] a b) as O.
  destruct a as [|ta oa va xa la ra] eqn:Ea, b as [|tb ob vb xb lb rb] eqn:Eb; try reflexivity. rewrite <- Ea, <- Eb in *.
  cbn [map] in E. replace (match ren a with Nil => _ | _ => _ end) with
    (match CheckNode [] (ren a) (ren b) with None => Ok false | Some s => EqualLoop (S (node_size (ren a))) s end)
    by (rewrite Ea, Eb; reflexivity).
  rewrite E, ren_size. destruct (CheckNode [] a b) as [s|] eqn:Es; [|reflexivity]. cbn [option_map].
  apply ren_equal_loop. apply O; auto. intros p [].
Qed.

(** ** Matrices of expressions *)
Lemma nth_ren k (l : list node) : va_get (map ren l) k = res_map ren (va_get l k).
Proof using. unfold va_get. rewrite nth_error_map. destruct (nth_error l k); reflexivity. Qed.
Lemma va_get_In {T} (l : list T) k n : va_get l k = Ok n -> In n l.
Proof using. unfold va_get. destruct (nth_error l k) eqn:E; intros H; [|discriminate]. injection H as <-. now apply nth_error_In in E. Qed.
Lemma mapM_map {A B C} (g : B -> C) (h : A -> res B) (h' : A -> res C) l : (forall a, In a l -> h' a = res_map g (h a)) ->
  mapM h' l = res_map (map g) (mapM h l).
Proof using.
  induction l as [|a l IH]; intros H; [reflexivity|]. cbn [mapM]. rewrite H by (now left). rewrite IH by (intros; apply H; now right).
  rewrite bind_map_res, map_res_bind. apply bind_ext. intros b. rewrite bind_map_res, map_res_bind. apply bind_ext. reflexivity.
Qed.
Lemma mapM_each {A B} (h : A -> res B) l bs : mapM h l = Ok bs -> forall b, In b bs -> exists a, In a l /\ h a = Ok b.
Proof using.
  revert bs. induction l as [|a l IH]; intros bs H b Hb; cbn [mapM] in H; [injection H as <-; destruct Hb|].
  apply bind_Ok_inv in H as (b0 & E & H). apply bind_Ok_inv in H as (bs0 & E2 & H). injection H as <-.
  destruct Hb as [<-|Hb]; [exists a; split; [now left|exact E]|]. destruct (IH bs0 E2 b Hb) as (a' & I' & E'). exists a'. split; [now right|exact E'].
Qed.

Theorem C73_jacobian (cfg : config K) A vars : only_mat A -> incl vars names ->
  Jacobian cfg (rename_mat f A) (map f vars) = res_map (rename_mat f) (Jacobian cfg A vars).
Proof using inj.
  intros HA Hv. unfold Jacobian. cbn [rename_mat s_rows s_data]. rewrite map_length, map_res_bind. apply bind_ext. intros ja.
  rewrite map_res_bind. cbv zeta.
  erewrite (mapM_map ren); [rewrite noexcept_map, bind_map_res; apply bind_ext; reflexivity|].
  intros k _. cbv beta. rewrite nth_ren, bind_map_res, map_res_bind. 
  destruct (va_get (s_data A) (k / length vars)) as [e| | | | | ] eqn:Ee; try reflexivity. cbn [bind].
  rewrite nth_error_map. destruct (nth_error vars (k mod length vars)) as [x|] eqn:Ex; [|reflexivity]. cbn [option_map].
  apply (C73_diff f names inj); [apply Hv; exact (nth_error_In _ _ Ex)|]. apply HA. exact (va_get_In _ _ _ Ee).
Qed.
Lemma jacobian_only (cfg : config K) A vars J : only_mat A -> Jacobian cfg A vars = Ok J -> only_mat J.
Proof using.
  intros HA H. unfold Jacobian in H. apply bind_Ok_inv in H as (ja & _ & H). apply bind_Ok_inv in H as (d & E & H).
  injection H as <-. cbn [s_data]. intros n Hn.
  assert (E' : mapM (fun k => let* e := va_get (s_data A) (k / length vars) in
      match nth_error vars (k mod length vars) with None => Undef "vector index out of range" | Some x => Diff cfg e x 1 end)
      (seq 0 (length (s_data ja))) = Ok d) by (destruct (mapM _ _); try discriminate E; exact E).
  destruct (mapM_each _ _ _ E' n Hn) as (k & _ & Ek). apply bind_Ok_inv in Ek as (e & Ee & Ek).
  destruct (nth_error vars _) as [x|]; [|discriminate]. apply (diff_only names cfg x 1 e n); [|exact Ek].
  apply HA. exact (va_get_In _ _ _ Ee).
Qed.

(** ** Evaluation at a table *)
Definition looks (t t' : vars_table K) : Prop := forall x, In x names -> map_find (f x) (Items t') = map_find x (Items t).
Lemma ren_clone A : SymMat_Clone (rename_mat f A) = res_map (rename_mat f) (SymMat_Clone (K:=K) A).
Proof using.
  unfold SymMat_Clone. cbn [rename_mat s_rows s_cols s_data]. rewrite map_res_bind. apply bind_ext. intros s.
  rewrite map_res_bind. erewrite (mapM_map ren); [rewrite bind_map_res; apply bind_ext; reflexivity|].
  intros k _. cbv beta. rewrite nth_ren, bind_map_res, map_res_bind. apply bind_ext. intros n. destruct n; reflexivity.
Qed.
Lemma clone_only A B : only_mat A -> SymMat_Clone (K:=K) A = Ok B -> only_mat B.
Proof using.
  intros HA H. unfold SymMat_Clone in H. apply bind_Ok_inv in H as (s & _ & H). apply bind_Ok_inv in H as (d & E & H).
  injection H as <-. cbn [s_data]. intros n Hn. destruct (mapM_each _ _ _ E n Hn) as (k & _ & Ek).
  apply bind_Ok_inv in Ek as (e & Ee & Ek). apply HA. destruct e; [discriminate|]. injection Ek as <-. exact (va_get_In _ _ _ Ee).
Qed.
Lemma find_numbers x (l : list (string * K)) :
  map_find x (map (fun p => (fst p, mkNum (snd p))) l) = option_map mkNum (map_find x l).
Proof using. induction l as [|[y v] l IH]; [reflexivity|]. cbn [map map_find fst snd]. destruct (String.eqb x y); auto. Qed.
Lemma numbers_dict x (l : list (string * K)) :
  map_find x (fold_left (fun m p => map_insert (fst p) (mkNum (snd p)) m) l []) = option_map mkNum (map_find x l).
Proof using.
  assert (E : forall m, fold_left (fun m p => map_insert (fst p) (mkNum (K:=K) (snd p)) m) l m
    = fold_left (fun m p => map_insert (fst p) (snd p) m) (map (fun p => (fst p, mkNum (snd p))) l) m).
  { clear. induction l as [|[y v] l IH]; intros m; [reflexivity|]. cbn [fold_left map fst snd]. apply IH. }
  rewrite E, map_find_inserts by constructor. cbn [map_find]. apply find_numbers.
Qed.
Lemma ren_subs_table A t t' : only_mat A -> looks t t' ->
  SymMat_SubsTable (rename_mat f A) t' = res_map (rename_mat f) (SymMat_SubsTable A t).
Proof using.
  intros HA Ht. unfold SymMat_SubsTable, SymMat_Subs. cbn [rename_mat s_rows s_cols s_data]. rewrite map_res_bind.
  assert (E : mapM (fun n => SubsValues n (Items t')) (map ren (s_data A)) = res_map (map ren) (mapM (fun n => SubsValues n (Items t)) (s_data A))).
  { clear - HA Ht. induction (s_data A) as [|n l IH]; [reflexivity|]. cbn [map mapM].
    assert (En : SubsValues (ren n) (Items t') = res_map ren (SubsValues n (Items t))).
    { unfold SubsValues. apply (ren_subs_root f names); [|apply HA; now left]. intros x Hx. rewrite !numbers_dict, (Ht x Hx).
      destruct (map_find x (Items t)); reflexivity. }
    rewrite En, IH by (intros m Hm; apply HA; now right).
    rewrite bind_map_res, map_res_bind. apply bind_ext. intros b. rewrite bind_map_res, map_res_bind. apply bind_ext. reflexivity. }
  rewrite E, noexcept_map, bind_map_res. apply bind_ext. reflexivity.
Qed.
Lemma ren_calc_list (cfg : config K) l :
  Calc_list cfg (map ren l) = (fst (Calc_list cfg l), map ren (snd (Calc_list cfg l))).
Proof using.
  induction l as [|n l IH]; [reflexivity|]. cbn [map Calc_list]. unfold NodeCalc. rewrite C73_vpa.
  destruct (Vpa cfg n); try reflexivity. rewrite IH. destruct (Calc_list cfg l); reflexivity.
Qed.
Lemma ren_calc (cfg : config K) A : SymMat_Calc_expr cfg (rename_mat f A) = res_map (rename_mat f) (SymMat_Calc_expr cfg A).
Proof using.
  unfold SymMat_Calc_expr, SymMat_Calc. cbn [rename_mat s_rows s_cols s_data]. rewrite ren_calc_list.
  destruct (Calc_list cfg (s_data A)) as [r l]. cbn [fst snd]. destruct r; reflexivity.
Qed.
Lemma ren_ToMat A : ToMat (rename_mat f A) = ToMat (K:=K) A.
Proof using.
  unfold ToMat. cbn [rename_mat s_rows s_cols s_data].
  assert (E : forall l : list node, mapM number_of (map ren l) = mapM number_of l).
  { induction l as [|n l IH]; [reflexivity|]. cbn [map mapM]. rewrite IH. destruct n as [|[]]; reflexivity. }
  now rewrite E.
Qed.
Lemma ren_eval_mat (cfg : config K) A t t' : only_mat A -> looks t t' -> eval_mat cfg (rename_mat f A) t' = eval_mat cfg A t.
Proof using.
  intros HA Ht. unfold eval_mat. rewrite ren_clone, bind_map_res.
  destruct (SymMat_Clone A) as [B| | | | | ] eqn:EB; try reflexivity. cbn [bind].
  rewrite (ren_subs_table B t t' (clone_only A B HA EB) Ht), bind_map_res. apply bind_ext. intros C.
  rewrite ren_calc, bind_map_res. apply bind_ext. intros E. apply ren_ToMat.
Qed.
Lemma ren_eval_vec (cfg : config K) A t t' : only_mat A -> looks t t' -> eval_vec cfg (rename_mat f A) t' = eval_vec cfg A t.
Proof using.
  intros HA Ht. pose proof (ren_eval_mat cfg A t t' HA Ht) as E. unfold eval_mat, eval_vec in *.
  assert (G : forall (r : res (symmat K)), bind r (fun a => bind (ToMat a) ToVec) = bind (bind r ToMat) ToVec) by (intros []; reflexivity).
  assert (G1 : forall A t, (let* a := SymMat_Clone A in let* a0 := SymMat_SubsTable a t in let* a1 := SymMat_Calc_expr cfg a0 in let* m := ToMat a1 in ToVec m)
    = bind (let* a := SymMat_Clone A in let* a0 := SymMat_SubsTable a t in let* a1 := SymMat_Calc_expr cfg a0 in ToMat a1) ToVec).
  { intros A0 t0. rewrite bind_assoc. apply bind_ext. intros a. rewrite bind_assoc. apply bind_ext. intros b. apply G. }
  now rewrite !G1, E.
Qed.

(** ** Tables *)
Lemma find_set {T} x y (v : T) m : map_find y (map_set x v m) = if String.eqb y x then Some v else map_find y m.
Proof using.
  induction m as [|[z u] m IH]; cbn [map_set map_find]; [destruct (String.eqb y x); reflexivity|].
  destruct (String.compare x z) eqn:C; cbn [map_find].
  - apply str_compare_eq in C as ->. destruct (String.eqb y z); reflexivity.
  - destruct (String.eqb y x); reflexivity.
  - rewrite IH. destruct (String.eqb_spec y z) as [->|]; [|reflexivity].
    destruct (String.eqb_spec z x) as [->|]; [|reflexivity].
    rewrite (proj2 (str_compare_eq x x) eq_refl) in C. discriminate.
Qed.
Lemma ren_SetValues (t t' : vars_table K) v : renamed_table f names t t' ->
  same_outcome (renamed_table f names) (SetValues t v) (SetValues t' v).
Proof using inj.
  intros (Hi & Hv & Hq & Hl). unfold SetValues. unfold Values, Vars, Items in *. rewrite Hq, Hv.
  destruct (m_rows v =? m_rows (vt_values t))%nat; [|reflexivity].
  assert (G : forall l m m', (forall x, In x names -> map_find (f x) m' = map_find x m) ->
    same_outcome (fun m m' => forall x, In x names -> map_find (f x) m' = map_find x m)
      (foldM (fun m i => match nth_error (vt_vars t) i with None => Undef "vector index out of range"
         | Some x => let* a := Vec_get v i in Ok (map_set x a m) end) l m)
      (foldM (fun m i => match nth_error (map f (vt_vars t)) i with None => Undef "vector index out of range"
         | Some x => let* a := Vec_get v i in Ok (map_set x a m) end) l m')).
  { induction l as [|i l IH]; intros m m' Hm; [exact Hm|]. cbn [foldM]. rewrite nth_error_map.
    destruct (nth_error (vt_vars t) i) as [x|] eqn:Ex; [|reflexivity]. cbn [option_map].
    destruct (Vec_get v i); try (cbn [bind same_outcome]; exact Logic.I || reflexivity). cbn [bind]. apply IH.
    intros y Hy. rewrite !find_set, (ren_eqb f names inj) by (auto; apply Hi; exact (nth_error_In _ _ Ex)).
    rewrite (Hm y Hy). reflexivity. }
  specialize (G (seq 0 (m_rows v)) _ _ Hl). unfold same_outcome in G.
  destruct (foldM _ _ (vt_table t)); destruct (foldM _ _ (vt_table t')); try contradiction; try exact G.
  cbn [bind same_outcome]. split; [exact Hi|]. split; [reflexivity|]. split; [reflexivity|exact G].
Qed.

Lemma same_bind {A B A' B'} (R : A -> A' -> Prop) (Q : B -> B' -> Prop) r r' (h : A -> res B) (h' : A' -> res B') :
  same_outcome R r r' -> (forall a a', r = Ok a -> R a a' -> same_outcome Q (h a) (h' a')) -> same_outcome Q (bind r h) (bind r' h').
Proof using. intros H Hh. destruct r, r'; try contradiction; try exact H. now apply Hh. Qed.
Lemma same_eq {A B B'} (Q : B -> B' -> Prop) (r : res A) (h : A -> res B) (h' : A -> res B') :
  (forall a, r = Ok a -> same_outcome Q (h a) (h' a)) -> same_outcome Q (bind r h) (bind r h').
Proof using. intros Hh. destruct r; try exact Logic.I; try reflexivity. now apply Hh. Qed.

Lemma ren_Newton (cfg : config K) fuel A J : only_mat A -> only_mat J -> forall it q t t', renamed_table f names t t' ->
  same_outcome (renamed_table f names) (Newton_loop cfg fuel A J it q t)
    (Newton_loop cfg fuel (rename_mat f A) (rename_mat f J) it q t').
Proof using inj.
  intros HA HJ. induction fuel as [|k IH]; intros it q t t' Ht; [exact Logic.I|]. cbn [Newton_loop].
  pose proof Ht as (_ & _ & _ & Hl). rewrite (ren_eval_vec cfg A t t' HA Hl). apply same_eq. intros phi _.
  destruct (Mat_eq_num _ _ _); [exact Ht|]. destruct (_ <? _)%Z; [reflexivity|].
  rewrite (ren_eval_mat cfg J t t' HJ Hl). apply same_eq. intros ja _. apply same_eq. intros mphi _. apply same_eq. intros dq _.
  apply same_eq. intros q1 _. apply (same_bind (renamed_table f names)); [now apply ren_SetValues|]. intros t1 t1' _ Ht1. now apply IH.
Qed.

Lemma ren_lm_f (cfg : config K) A t t' v : only_mat A -> renamed_table f names t t' -> lm_f cfg (rename_mat f A) t' v = lm_f cfg A t v.
Proof using inj.
  intros HA Ht. unfold lm_f. pose proof (ren_SetValues t t' v Ht) as H. unfold same_outcome in H.
  destruct (SetValues t v), (SetValues t' v); try contradiction; try (now rewrite H); try reflexivity. cbn [bind].
  apply ren_eval_vec; [exact HA|exact (proj2 (proj2 (proj2 H)))].
Qed.
Lemma ren_lm_df (cfg : config K) A t t' v : only_mat A -> renamed_table f names t t' -> lm_df cfg (rename_mat f A) t' v = lm_df cfg A t v.
Proof using inj.
  intros HA Ht. unfold lm_df. pose proof (ren_SetValues t t' v Ht) as H. unfold same_outcome in H.
  destruct (SetValues t v), (SetValues t' v); try contradiction; try (now rewrite H); try reflexivity. cbn [bind].
  apply ren_eval_mat; [exact HA|exact (proj2 (proj2 (proj2 H)))].
Qed.
Lemma Armijo_ext fuel x d (g g' h h' : mat K -> res (mat K)) : (forall v, g' v = g v) -> (forall v, h' v = h v) ->
  forall a, Armijo_loop fuel x d g' h' a = Armijo_loop fuel x d g h a.
Proof using.
  intros Hg Hh. induction fuel as [|k IH]; intros a; [reflexivity|]. cbn [Armijo_loop].
  apply bind_ext. intros ad. apply bind_ext. intros xn. rewrite Hg. apply bind_ext. intros fn. rewrite Hg. apply bind_ext. intros fx.
  rewrite Hh. apply bind_ext. intros J. apply bind_ext. intros Jt. apply bind_ext. intros p. apply bind_ext. intros s.
  destruct (n_leb _ _); [reflexivity|apply IH].
Qed.
Definition inner_rel (r r' : Z * mat K * mat K * vars_table K) : Prop := fst r' = fst r /\ renamed_table f names (snd r) (snd r').
Lemma ren_LM_inner (cfg : config K) fuel afuel A J : only_mat A -> only_mat J -> forall it mu q F t t', renamed_table f names t t' ->
  same_outcome inner_rel (LM_inner cfg fuel afuel A J it mu q F t)
    (LM_inner cfg fuel afuel (rename_mat f A) (rename_mat f J) it mu q F t').
Proof using inj.
  intros HA HJ. induction fuel as [|k IH]; intros it mu q F t t' Ht; [exact Logic.I|]. cbn [LM_inner].
  pose proof Ht as (_ & _ & _ & Hl). rewrite (ren_eval_mat cfg J t t' HJ Hl).
  do 10 (apply same_eq; intros ? _).
  unfold Armijo. rewrite (Armijo_ext afuel q _ (lm_f cfg A t) (lm_f cfg (rename_mat f A) t') (lm_df cfg J t) (lm_df cfg (rename_mat f J) t')).
  2:{ intros v. now apply ren_lm_f. } 2:{ intros v. now apply ren_lm_df. }
  apply same_eq. intros al _. apply same_eq. intros dq _. apply same_eq. intros qT _.
  apply (same_bind (renamed_table f names)); [now apply ren_SetValues|]. intros t1 t1' _ Ht1.
  pose proof Ht1 as (_ & _ & _ & Hl1). rewrite (ren_eval_vec cfg A t1 t1' HA Hl1). apply same_eq. intros Fn _.
  destruct (n_ltb _ _); [split; [reflexivity|exact Ht1]|]. destruct (_ =? _)%Z; [reflexivity|now apply IH].
Qed.
Lemma ren_LM (cfg : config K) fuel afuel A J : only_mat A -> only_mat J -> forall it q t t', renamed_table f names t t' ->
  same_outcome (renamed_table f names) (LM_loop cfg fuel afuel A J it q t)
    (LM_loop cfg fuel afuel (rename_mat f A) (rename_mat f J) it q t').
Proof using inj.
  intros HA HJ. induction fuel as [|k IH]; intros it q t t' Ht; [exact Logic.I|]. cbn [LM_loop].
  pose proof Ht as (_ & _ & _ & Hl). rewrite (ren_eval_vec cfg A t t' HA Hl). apply same_eq. intros F _.
  destruct (Mat_eq_num _ _ _); [exact Ht|].
  apply (same_bind inner_rel); [now apply ren_LM_inner|]. intros [[[it1 Fn] dq] t1] [[[it1' Fn'] dq'] t1'] _ [E Ht1].
  cbn [fst snd] in E, Ht1. injection E as -> -> ->. apply same_eq. intros q1 _.
  apply (same_bind (renamed_table f names)); [now apply ren_SetValues|]. intros t2 t2' _ Ht2.
  destruct (_ =? _)%Z; [reflexivity|now apply IH].
Qed.

(** Solving the renamed equations from the renamed table gives the renamed solution, or fails
    in exactly the same way. *)
Theorem C73_solve (cfg : config K) fuel afuel A t t' : only_mat A -> renamed_table f names t t' -> VarNums t' = VarNums t ->
  same_outcome (renamed_table f names) (Solve cfg fuel afuel A t) (Solve cfg fuel afuel (rename_mat f A) t').
Proof using inj.
  intros HA Ht Hn. pose proof Ht as (Hi & Hv & Hq & Hl). unfold Solve. destruct (nonlinearMethod cfg).
  - unfold SolveByNewtonRaphson. rewrite Hn, Hv. apply same_eq. intros q _.
    rewrite (C73_jacobian cfg A (Vars t) HA Hi), bind_map_res. apply same_eq. intros J EJ.
    apply ren_Newton; auto. exact (jacobian_only cfg A _ J HA EJ).
  - unfold SolveByLM. rewrite Hv, Hq, (C73_jacobian cfg A (Vars t) HA Hi), bind_map_res. apply same_eq. intros J EJ.
    apply ren_LM; auto. exact (jacobian_only cfg A _ J HA EJ).
Qed.
End Solve.

(** ** The list of variables and Solve without a table: the alphabetical order matters *)
Section Ordered.
Context {K : num_ops} (f : string -> string) (names : list string) (ord : ordered_on f names).
Notation node := (node K).
Notation ren := (rename f).
Notation only_mat A := (forall n, In n (s_data A) -> mentions_only names n).

Lemma ordered_distinct : distinct_on f names.
Proof using ord.
  intros x y Hx Hy E. pose proof (ord x y Hx Hy) as H. rewrite E in H.
  rewrite (proj2 (str_compare_eq (f y) (f y)) eq_refl) in H. symmetry in H. exact (String.compare_eq_iff _ _ H).
Qed.
Lemma ren_set_insert x s : In x names -> incl s names -> set_insert (f x) (map f s) = map f (set_insert x s).
Proof using ord.
  intros Hx. induction s as [|y s IH]; intros Hs; [reflexivity|]. cbn [map set_insert].
  assert (Hy : In y names) by (apply Hs; now left). rewrite (ord x y Hx Hy).
  destruct (String.compare x y); try reflexivity. cbn [map]. f_equal. apply IH. intros z Hz. apply Hs. now right.
Qed.
Lemma set_insert_only x s : In x names -> incl s names -> incl (set_insert x s) names.
Proof using.
  intros Hx. induction s as [|y s IH]; intros Hs; cbn [set_insert].
  - intros z [<-|[]]. exact Hx.
  - destruct (String.compare x y).
    + exact Hs.
    + intros z [<-|Hz]; [exact Hx|now apply Hs].
    + intros z [<-|Hz]; [apply Hs; now left|]. revert z Hz. apply IH. intros z Hz. apply Hs. now right.
Qed.
Lemma ren_inserts l : forall s, incl l names -> incl s names ->
  fold_left (fun s x => set_insert x s) (map f l) (map f s) = map f (fold_left (fun s x => set_insert x s) l s) /\
  incl (fold_left (fun s x => set_insert x s) l s) names.
Proof using ord.
  induction l as [|x l IH]; intros s Hl Hs; [now split|]. cbn [map fold_left].
  assert (Hx : In x names) by (apply Hl; now left).
  rewrite (ren_set_insert x s Hx Hs). apply IH; [intros z Hz; apply Hl; now right|now apply set_insert_only].
Qed.
Definition ren_state (st : list node * list string) : list node * list string := (map ren (fst st), map f (snd st)).
Definition only_state (st : list node * list string) : Prop := Forall (mentions_only names) (fst st) /\ incl (snd st) names.
Lemma ren_Emplace n st : mentions_only names n -> only_state st ->
  EmplaceChild (ren n) (ren_state st) = ren_state (EmplaceChild n st) /\ only_state (EmplaceChild n st).
Proof using ord.
  intros Hn [H1 H2]. destruct n as [|ty op v x l r]; [now split|]. destruct st as [stk ret]. destruct Hn as (Hx & Hl & Hr).
  cbn [rename EmplaceChild ren_state fst snd] in *. unfold ren_state, only_state. cbn [fst snd].
  assert (E : match ty with VARIABLE => set_insert (match ty with VARIABLE => f x | _ => x end) (map f ret) | _ => map f ret end =
      map f match ty with VARIABLE => set_insert x ret | _ => ret end).
  { destruct ty; try reflexivity. now apply ren_set_insert. }
  assert (I : incl match ty with VARIABLE => set_insert x ret | _ => ret end names).
  { destruct ty; try exact H2. now apply set_insert_only. }
  split.
  - rewrite E. destruct l, r; reflexivity.
  - split; [|exact I]. destruct l, r; repeat (constructor; [assumption|]); assumption.
Qed.
Lemma ren_names_loop fuel : forall st, only_state st ->
  GetAllVarNamesLoop (K:=K) fuel (ren_state st) = res_map (map f) (GetAllVarNamesLoop fuel st) /\
  forall l, GetAllVarNamesLoop fuel st = Ok l -> incl l names.
Proof using ord.
  induction fuel as [|k IH]; intros [stk ret] [H1 H2]; cbn [GetAllVarNamesLoop ren_state fst snd] in *; [split; [reflexivity|discriminate]|].
  destruct stk as [|n stk]; cbn [map]; [split; [reflexivity|]; now intros l [= <-]|].
  assert (Hn : mentions_only names n) by now inversion H1.
  assert (Hs : only_state (stk, ret)) by (split; [now inversion H1|exact H2]).
  destruct (ren_Emplace n (stk, ret) Hn Hs) as [E O]. change (map ren stk, map f ret) with (ren_state (stk, ret)). rewrite E. now apply IH.
Qed.
(** The variables of the renamed tree are the renamed variables, in the same order. *)
Theorem C73_names n : mentions_only names n -> GetAllVarNames (ren n) = res_map (map f) (GetAllVarNames (K:=K) n).
Proof using ord.
  intros H. destruct n as [|ty op v x l r]; [reflexivity|]. set (n := N ty op v x l r) in *.
  change (GetAllVarNames (ren n)) with (GetAllVarNamesLoop (S (node_size (ren n))) (EmplaceChild (ren n) (ren_state ([], [])))).
  change (GetAllVarNames n) with (GetAllVarNamesLoop (S (node_size n)) (EmplaceChild n ([], []))).
  rewrite ren_size. assert (O0 : only_state ([], [])) by (split; [constructor|intros z []]).
  destruct (ren_Emplace _ _ H O0) as [E O]. rewrite E. now apply ren_names_loop.
Qed.
Lemma names_only n l : mentions_only names n -> GetAllVarNames (K:=K) n = Ok l -> incl l names.
Proof using ord.
  intros H E. destruct n as [|ty op v x a b]; [discriminate|]. unfold GetAllVarNames in E.
  assert (O0 : only_state ([], [])) by (split; [constructor|intros z []]).
  destruct (ren_Emplace _ _ H O0) as [_ O]. exact (proj2 (ren_names_loop _ _ O) l E).
Qed.
Lemma ren_all_names l : (forall n, In n l -> mentions_only names n) -> forall s, incl s names ->
  let go := foldM (fun ret n => let* ns := GetAllVarNames (K:=K) n in Ok (fold_left (fun s x => set_insert x s) ns ret)) in
  go (map ren l) (map f s) = res_map (map f) (go l s) /\ forall r, go l s = Ok r -> incl r names.
Proof using ord.
  cbv zeta. induction l as [|n l IH]; intros Hl s Hs; cbn [map foldM]; [split; [reflexivity|]; now intros r [= <-]|].
  rewrite C73_names by (apply Hl; now left). pose proof (fun r => names_only n r (Hl n (or_introl eq_refl))) as Hn.
  destruct (GetAllVarNames n) as [ns| | | | |]; try (split; [reflexivity|discriminate]). cbn [res_map bind].
  destruct (ren_inserts ns s (Hn ns eq_refl) Hs) as [-> I]. apply IH; [intros m Hm; apply Hl; now right|exact I].
Qed.
Theorem C73_all_names A : only_mat A -> SymMat_GetAllVarNames (rename_mat f A) = res_map (map f) (SymMat_GetAllVarNames (K:=K) A).
Proof using ord. intros H. apply (ren_all_names (s_data A) H []). intros x []. Qed.

Definition ren_item (p : string * K) : string * K := (f (fst p), snd p).
Lemma ren_map_insert x (v : K) m : In x names -> incl (map fst m) names -> map_insert (f x) v (map ren_item m) = map ren_item (map_insert x v m).
Proof using ord.
  intros Hx. induction m as [|[y u] m IH]; intros Hm; [reflexivity|]. cbn [map map_insert ren_item fst snd].
  rewrite (ord x y Hx) by (apply Hm; now left). destruct (String.compare x y); try reflexivity.
  cbn [map ren_item fst snd]. f_equal. apply IH. intros z Hz. apply Hm. now right.
Qed.
Lemma map_insert_only x (v : K) m : In x names -> incl (map fst m) names -> incl (map fst (map_insert x v m)) names.
Proof using.
  intros Hx. induction m as [|[y u] m IH]; intros Hm; cbn [map_insert].
  - intros z [<-|[]]. exact Hx.
  - destruct (String.compare x y).
    + exact Hm.
    + intros z [<-|Hz]; [exact Hx|now apply Hm].
    + intros z [<-|Hz]; [apply Hm; now left|]. revert z Hz. apply IH. intros z Hz. apply Hm. now right.
Qed.
Lemma ren_map_inserts (v : K) l : forall m, incl l names -> incl (map fst m) names ->
  fold_left (fun m x => map_insert x v m) (map f l) (map ren_item m) = map ren_item (fold_left (fun m x => map_insert x v m) l m) /\
  incl (map fst (fold_left (fun m x => map_insert x v m) l m)) names.
Proof using ord.
  induction l as [|x l IH]; intros m Hl Hm; [now split|]. cbn [map fold_left].
  assert (Hx : In x names) by (apply Hl; now left).
  rewrite (ren_map_insert x v m Hx Hm). apply IH; [intros z Hz; apply Hl; now right|now apply map_insert_only].
Qed.
Lemma ren_find x (m : smap K) : In x names -> incl (map fst m) names -> map_find (f x) (map ren_item m) = map_find x m.
Proof using ord.
  intros Hx. induction m as [|[y u] m IH]; intros Hm; [reflexivity|]. cbn [map map_find ren_item fst snd].
  rewrite (ren_eqb f names ordered_distinct x y Hx) by (apply Hm; now left).
  destruct (String.eqb x y); [reflexivity|]. apply IH. intros z Hz. apply Hm. now right.
Qed.
Lemma ren_make vars (v : K) : incl vars names ->
  same_outcome (fun t t' => renamed_table f names t t' /\ VarNums t' = VarNums t) (VarsTable_make vars v) (VarsTable_make (map f vars) v).
Proof using ord.
  intros Hv. unfold VarsTable_make. rewrite map_length. apply same_eq. intros values _.
  assert (M0 : incl (map fst (@nil (string * K))) names) by intros z [].
  destruct (ren_map_inserts v vars [] Hv M0) as [E I]. change (map ren_item []) with (@nil (string * K)) in E. rewrite E, map_length.
  destruct (Nat.eqb _ _); [|reflexivity]. split.
  - split; [exact Hv|]. repeat (split; [reflexivity|]). intros x Hx. now apply ren_find.
  - unfold VarNums. cbn [vt_table]. apply map_length.
Qed.
(** Without a table, the same holds as long as the alphabetical order of the names is kept. *)
Theorem C73_solve1 (cfg : config K) fuel afuel A : only_mat A ->
  same_outcome (renamed_table f names) (Solve1 cfg fuel afuel A) (Solve1 cfg fuel afuel (rename_mat f A)).
Proof using ord.
  intros HA. unfold Solve1. rewrite (C73_all_names A HA), bind_map_res. apply same_eq. intros vars Ev.
  assert (Hv : incl vars names).
  { assert (I0 : incl [] names) by (intros x []). exact (proj2 (ren_all_names (s_data A) HA [] I0) vars Ev). }
  apply (same_bind (fun t t' => renamed_table f names t t' /\ VarNums t' = VarNums t)); [now apply ren_make|].
  intros t t' _ [Ht Hn]. now apply (C73_solve f names ordered_distinct).
Qed.
End Ordered.

(** ** Concrete cases: x and y become u and w, or exchange their names. *)
Definition to_uw (x : string) : string := if String.eqb x "x" then "u" else if String.eqb x "y" then "w" else x.
Definition swap_xy (x : string) : string := if String.eqb x "x" then "y" else if String.eqb x "y" then "x" else x.
(** x + 2*y - 4, x - 2 *)
Definition ren_eq1 : expr D := EBin BSub (EBin BAdd (EVar "x") (EBin BMul (ENum (b_ofZ 2)) (EVar "y"))) (ENum (b_ofZ 4)).
Definition ren_eq2 : expr D := EBin BSub (EVar "x") (ENum (b_ofZ 2)).
Definition vt_text (r : res (vars_table D)) : string := match r with Ok t => VarsTable_ToString t | _ => "" end.
Definition two_lines (a b : string) : string := (a ++ nl ++ b ++ nl)%string.
Example C73_ex :
  ordered_on to_uw ["x"; "y"] /\ (forall n, In n (s_data (relax_eqs [ren_eq1; ren_eq2])) -> mentions_only ["x"; "y"] n) /\
  vt_text (Solve1 (relax_cfg NEWTON_RAPHSON true false 10) 0 0 (relax_eqs [ren_eq1; ren_eq2])) = two_lines "x = 2" "y = 1" /\
  vt_text (Solve1 (relax_cfg NEWTON_RAPHSON true false 10) 0 0 (rename_mat to_uw (relax_eqs [ren_eq1; ren_eq2]))) = two_lines "u = 2" "w = 1".
Proof.
  split; [|split; [|split]].
  - intros x y [<-|[<-|[]]] [<-|[<-|[]]]; reflexivity.
  - intros n [<-|[<-|[]]]; cbn; intuition.
  - vm_cast_no_check (eq_refl (two_lines "x = 2" "y = 1")).
  - vm_cast_no_check (eq_refl (two_lines "u = 2" "w = 1")).
Qed.
(** Names that stay different but change places in the alphabet: for an equation with many
    solutions, the one that is found depends on the names. *)
Theorem C73_order_matters :
  distinct_on swap_xy ["x"; "y"] /\
  vt_text (Solve1 (relax_cfg NEWTON_RAPHSON true true 10) 0 0 (relax_eqs [ren_eq1])) = two_lines "x = 4" "y = 0" /\
  vt_text (Solve1 (relax_cfg NEWTON_RAPHSON true true 10) 0 0 (rename_mat swap_xy (relax_eqs [ren_eq1]))) = two_lines "x = 2" "y = 0".
Proof.
  split; [|split].
  - intros x y [<-|[<-|[]]] [<-|[<-|[]]]; cbn; congruence.
  - vm_cast_no_check (eq_refl (two_lines "x = 4" "y = 0")).
  - vm_cast_no_check (eq_refl (two_lines "x = 2" "y = 0")).
Qed.
