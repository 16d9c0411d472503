(** Parse on the heap refines Parse on trees. *)
From Coq Require Import String Ascii List ZArith Bool Arith Lia Permutation.
From Verif Require Import Base MathOp NodeModel ParseModel HeapModel HeapSpec HeapProofs.
Import ListNotations.
Local Open Scope string_scope. Local Open Scope list_scope. Local Open Scope nat_scope.

Section HParse.
Context {K : num_ops}.
Notation node := (node K).
Notation heap := (heap K).
Notation token := (token K).
Implicit Types h : heap.
Notation item := (item (K:=K)).
Variable pick : heap -> addr.
Hypothesis Hpick : allocator pick.

(** ** The nodes of tokens have no children *)
Definition leaf (t : token) : Prop := exists ty op v x, t_node t = N ty op v x Nil Nil.

Lemma mkOp_leaf op (n : node) : mkOp op = Ok n -> exists ty o v x, n = N ty o v x Nil Nil.
Proof. unfold mkOp. destruct op; intros E; try discriminate E; injection E as <-; eauto. Qed.
Lemma confirm_leaf w pos t : confirm_word w pos = Ok t -> leaf t.
Proof.
  unfold confirm_word. set (fb := match Str2Function w with MATH_NULL => _ | _ => _ end).
  assert (F : fb = Ok t -> leaf t).
  { subst fb. assert (G : forall op, (let* n := mkOp op in Ok {| t_node := n; t_s := w; t_pos := pos |}) = Ok t -> leaf t).
    { intros op E. apply bind_Ok_inv in E as (n & E1 & E2). injection E2 as <-. apply mkOp_leaf in E1. exact E1. }
    destruct (Str2Function w); try apply G. destruct (VarNameIsLegal w); [|discriminate].
    intros E. apply bind_Ok_inv in E as (n & E1 & E2). injection E2 as <-. unfold mkVar in E1.
    destruct (VarNameIsLegal w); [|discriminate]. injection E1 as <-. unfold leaf. cbn. eauto. }
  destruct (n_stod w) as [[d sz]|]; [|exact F]. destruct (sz =? String.length w); [|exact F].
  intros [= <-]. unfold leaf. cbn. unfold mkNum. eauto.
Qed.
Lemma try_leaf w pos ret ret' : tryComfirmToken w pos ret = Ok ret' -> Forall leaf ret -> Forall leaf ret'.
Proof.
  unfold tryComfirmToken. destruct w; [intros [= <-]; auto|]. intros E H. apply bind_Ok_inv in E as (t & E1 & E2). injection E2 as <-.
  constructor; [eapply confirm_leaf; exact E1|exact H].
Qed.
Lemma lex_leaf cs : forall pos w ret ret', lex cs pos w ret = Ok ret' -> Forall leaf ret -> Forall leaf ret'.
Proof.
  induction cs as [|c cs IH]; intros pos w ret ret' E H; cbn [lex] in E; [eapply try_leaf; eauto|].
  destruct (IsBasicOperator c); [|destruct (is_space c); [|eapply IH; eauto]].
  - apply bind_Ok_inv in E as (r1 & E1 & E). apply bind_Ok_inv in E as (n & E2 & E). eapply IH; [exact E|].
    constructor; [apply mkOp_leaf in E2; exact E2|eapply try_leaf; eauto].
  - apply bind_Ok_inv in E as (r1 & E1 & E). eapply IH; [exact E|]. eapply try_leaf; eauto.
Qed.
Lemma tokens_leaf s ts : ParseToTokens s = Ok ts -> Forall leaf ts.
Proof.
  unfold ParseToTokens. destruct s; [discriminate|]. intros E. apply bind_Ok_inv in E as (r & E & [= <-]).
  apply Forall_rev. eapply lex_leaf; [exact E|constructor].
Qed.

Lemma pop_to_paren_leaf stk : forall post a b, pop_to_paren stk post = Ok (a, b) -> Forall leaf stk -> Forall leaf post -> Forall leaf a /\ Forall leaf b.
Proof.
  induction stk as [|t stk IH]; intros post a b E Hs Hp; cbn in E; [discriminate|]. inversion Hs; subst.
  destruct (t_op t) eqn:Ot; try (eapply IH; [exact E|assumption|apply Forall_app; auto]). injection E as <- <-. auto.
Qed.
Lemma pop_while_leaf p stk : forall post a b, pop_while p stk post = (a, b) -> Forall leaf stk -> Forall leaf post -> Forall leaf a /\ Forall leaf b.
Proof.
  induction stk as [|t stk IH]; intros post a b E Hs Hp; cbn in E; [injection E as <- <-; auto|]. inversion Hs; subst.
  destruct (p (t_op t)); [eapply IH; [exact E|assumption|apply Forall_app; auto]|]. injection E as <- <-. auto.
Qed.
Lemma flush_leaf c stk : forall post r, flush c stk post = Ok r -> Forall leaf stk -> Forall leaf post -> Forall leaf r.
Proof.
  induction stk as [|t stk IH]; intros post r E Hs Hp; cbn in E; [injection E as <-; auto|]. inversion Hs; subst.
  destruct (t_op t); try discriminate; (eapply IH; [exact E|assumption|apply Forall_app; auto]).
Qed.
Lemma step_leaf c b stk post f b' stk' post' : InOrderStep c (b, stk, post) f = Ok (b', stk', post') -> leaf f -> Forall leaf stk -> Forall leaf post -> Forall leaf stk' /\ Forall leaf post'.
Proof.
  intros E Hf Hs Hp. unfold InOrderStep in E.
  assert (G : forall op, (let '(stk1, post1) := pop_while (squeezes op) stk post in Ok (b, f :: stk1, post1)) = Ok (b', stk', post') -> Forall leaf stk' /\ Forall leaf post').
  { intros op E'. destruct (pop_while (squeezes op) stk post) as [s1 p1] eqn:Ep. injection E' as <- <- <-. apply pop_while_leaf in Ep as [? ?]; auto. }
  destruct (t_type f).
  - injection E as <- <- <-. split; [auto|]. apply Forall_app; auto.
  - destruct (t_op f); try (eapply G; exact E); try (injection E as <- <- <-; auto).
    destruct (b =? 0); [discriminate|]. apply bind_Ok_inv in E as ([s1 p1] & E1 & E2). apply pop_to_paren_leaf in E1 as [H1 H2]; auto.
    assert (H3 : Forall leaf (fst (pop_function (s1, p1))) /\ Forall leaf (snd (pop_function (s1, p1)))).
    { unfold pop_function. cbn [fst snd]. destruct s1 as [|t s1]; [auto|]. destruct (IsFunction (t_op t)); [|auto]. cbn. inversion H1; subst. split; [assumption|]. apply Forall_app; auto. }
    destruct (pop_function (s1, p1)) as [s2 p2]. destruct (pop_while is_sign s2 p2) as [s3 p3] eqn:Ep. injection E2 as <- <- <-.
    cbn in H3. destruct H3. eapply pop_while_leaf in Ep; eauto.
  - injection E as <- <- <-. split; [auto|]. apply Forall_app; auto.
Qed.
Lemma post_leaf c ts post : InOrderToPostOrder c ts = Ok post -> Forall leaf ts -> Forall leaf post.
Proof.
  intros E H. unfold InOrderToPostOrder in E. apply bind_Ok_inv in E as ([[b s] p] & E1 & E2).
  assert (G : forall ts st, foldM (InOrderStep c) ts st = Ok (b, s, p) -> Forall leaf ts -> Forall leaf (snd (fst st)) -> Forall leaf (snd st) -> Forall leaf s /\ Forall leaf p).
  { clear E1 E2 H ts. induction ts as [|t ts IH]; intros st E Ht H1 H2; cbn in E; [injection E as ->; auto|].
    apply bind_Ok_inv in E as ([[b1 s1] p1] & Ea & Eb). destruct st as [[b0 s0] p0]. cbn in *. inversion Ht; subst. apply step_leaf in Ea as [? ?]; auto. eapply IH; eauto. }
  apply G in E1 as [? ?]; cbn; auto. eapply flush_leaf; eauto.
Qed.

(** ** Construction *)
Definition built := (token * addr * node)%type.
Definition b_tok (g : built) : token := with_node (fst (fst g)) (snd g).
Definition b_item (g : built) : item := ITree None (Some (snd (fst g))) (snd g).
Definition p_item (g : token * addr) : item := ITree None (Some (snd g)) (t_node (fst g)).

Lemma wp_delete_all (l : list (addr * node)) : forall its (Q : unit -> heap -> Prop) h, owns h (map (fun g => ITree None (Some (fst g)) (snd g)) l ++ its) ->
  (forall h', owns h' its -> Q tt h') -> wp (delete_all (map fst l)) Q h.
Proof.
  induction l as [|[a t] l IH]; intros its Q h H HQ; cbn [map app fst] in *; [now apply wp_ret, HQ|].
  unfold delete_all. cbn [forM]. apply wp_bind. eapply wp_delete; [exact H|]. intros h1 H1. eapply IH; eauto.
Qed.
Lemma abandon_ok {A} (l : list (addr * node)) e its h : owns h (map (fun g => ITree None (Some (fst g)) (snd g)) l ++ its) ->
  exists h', abandon (A:=A) (map fst l) e h = (Throw e, h') /\ owns h' its.
Proof.
  intros H. destruct (wp_delete_all l its (fun _ h' => owns h' its) h H (fun _ X => X)) as ([] & h1 & E & H1).
  exists h1. split; [|exact H1]. unfold abandon, bindM. now rewrite E.
Qed.
Lemma wp_adopt_top a (c : cell K) f top t its (Q : unit -> heap -> Prop) h : owns h (ICell a (with_child c f None) :: ITree None (Some top) t :: its) ->
  (forall h', owns h' (ICell a (with_child c f (Some top)) :: ITree (Some a) (Some top) t :: its) -> Q tt h') -> wp (adopt_top a f top) Q h.
Proof.
  intros H HQ. unfold adopt_top. apply wp_bind. eapply wp_adopt; [ownf H|]. intros h1 H1. eapply wp_reset_null; [apply (sa_fld a f c)|ownf H1|]. intros h2 H2. apply HQ. own H2.
Qed.

Lemma map_b_rest (post : list (token * addr)) : map p_item post = map (fun g => ITree None (Some (fst g)) (snd g)) (map (fun g => (snd g, t_node (fst g))) post).
Proof. rewrite map_map. reflexivity. Qed.
Lemma map_b_addr (post : list (token * addr)) : map snd post = map fst (map (fun g => (snd g, t_node (fst g))) post).
Proof. rewrite map_map. reflexivity. Qed.

Lemma with_node_eta (t : token) : with_node t (t_node t) = t.
Proof. now destruct t. Qed.
Lemma fst_pair (t : token) (a : addr) (n : node) G : (t, a) :: map fst G = map fst ((t, a, n) :: G).
Proof. reflexivity. Qed.

Lemma HBuildLoop_ok rest post : forall G h, Forall leaf (map fst post) -> owns h (map b_item G ++ map p_item post ++ rest) ->
  match foldM BuildStep (map fst post) (map b_tok G) with
  | Ok stk' => wp (HBuildLoop (map fst G) post) (fun r h' => exists G', r = map fst G' /\ stk' = map b_tok G' /\ owns h' (map b_item G' ++ rest)) h
  | Throw e => exists h', HBuildLoop (map fst G) post h = (Throw e, h') /\ owns h' rest
  | _ => True
  end.
Proof.
  induction post as [|[t a] post IH]; intros G h HL H.
  - cbn in *. apply wp_ret. exists G. auto.
  - cbn [map fst snd app] in HL, H. inversion HL as [|? ? (ty & op & v & x & Et) HL']; subst. cbn [map fst].
    unfold p_item at 1 in H. cbn [fst snd] in H. rewrite Et in H.
    pose proof H as H0. front H (ITree None (Some a) (N ty op v x Nil Nil)). apply own_open in H as (a' & pl & pr & [= <-] & H).
    front H (ITree (Some a) pl (Nil : node)). apply own_nil_inv in H as [-> H]. front H (ITree (Some a) pr (Nil : node)). apply own_nil_inv in H as [-> H].
    front H (ICell a (MkCell ty op v x None None None)).
    assert (El : load a h = (Ok (MkCell ty op v x None None None), h)).
    { assert (W : wp (load a) (fun c h' => c = MkCell ty op v x None None None /\ h' = h) h) by (eapply wp_load; [exact H|split; reflexivity]).
      destruct W as (c & h1 & E & -> & ->). exact E. }
    cbn [foldM HBuildLoop].
    assert (Leafcase : t_type t <> OPERATOR -> match foldM BuildStep (map fst post) (t :: map b_tok G) with
      | Ok stk' => wp (HBuildLoop ((t, a) :: map fst G) post) (fun r h' => exists G', r = map fst G' /\ stk' = map b_tok G' /\ owns h' (map b_item G' ++ rest)) h
      | Throw e => exists h', HBuildLoop ((t, a) :: map fst G) post h = (Throw e, h') /\ owns h' rest
      | _ => True end).
    { intros _. specialize (IH ((t, a, t_node t) :: G) h HL'). cbn [map] in IH. unfold b_tok at 1 in IH. cbn [fst snd] in IH. rewrite with_node_eta in IH.
      apply IH. unfold b_item at 1. cbn [fst snd app]. rewrite Et. own H0. }
    (* an operator that gets children *)
    assert (Next : forall G' l r h1, owns h1 (ITree None (Some a) (N ty op v x l r) :: map b_item G' ++ map p_item post ++ rest) ->
      match foldM BuildStep (map fst post) (with_node t (set_children (t_node t) l r) :: map b_tok G') with
      | Ok stk' => wp (HBuildLoop ((t, a) :: map fst G') post) (fun r h' => exists G', r = map fst G' /\ stk' = map b_tok G' /\ owns h' (map b_item G' ++ rest)) h1
      | Throw e => exists h', HBuildLoop ((t, a) :: map fst G') post h1 = (Throw e, h') /\ owns h' rest
      | _ => True end).
    { intros G' l r h1 H1. specialize (IH ((t, a, N ty op v x l r) :: G') h1 HL'). rewrite Et. cbn [set_children]. apply IH. exact H1. }
    assert (Bad : forall ta ha, owns ha (ITree None (Some a) ta :: map p_item post ++ rest) ->
      exists h', abandon (A := list (token * addr)) (a :: map snd post) (MathError ERROR_WRONG_EXPRESSION "") ha = (Throw (MathError ERROR_WRONG_EXPRESSION ""), h') /\ owns h' rest).
    { intros ta ha Ha. rewrite map_b_rest in Ha. rewrite map_b_addr. apply (abandon_ok ((a, ta) :: map (fun g => (snd g, t_node (fst g))) post)). exact Ha. }
    unfold BuildStep at 1. unfold t_type, t_op. rewrite Et.
    destruct ty.
    + cbn [bind]. assert (Ty : t_type t <> OPERATOR) by (unfold t_type; rewrite Et; discriminate). specialize (Leafcase Ty). unfold bindM, wp in *. rewrite El. exact Leafcase.
    + destruct (GetOperatorNum op) as [|[|[|k]]] eqn:Eo; try exact I.
      * (* one operand *)
        destruct G as [|((tl, l), nl) G]; cbn [map fst snd app] in *.
        { cbn [bind]. destruct (Bad (N OPERATOR op v x Nil Nil) h) as (h' & E' & H'); [own H0|]. exists h'. split; [|exact H']. unfold bindM. rewrite El. cbn [c_type c_op]. rewrite Eo. exact E'. }
        cbn [bind]. unfold b_item at 1 in H. cbn [fst snd] in H. unfold b_tok at 1. cbn [fst snd with_node t_node].
        assert (W : wp (adopt_top a L l) (fun _ h' => owns h' (ITree None (Some a) (N OPERATOR op v x nl Nil) :: map b_item G ++ map p_item post ++ rest)) h).
        { eapply (wp_adopt_top a (MkCell OPERATOR op v x None None None) L); [exact H|]. intros h1 H1. apply own_close with (Some l) None. apply (own_nil _ (Some a)) in H1.
          cbn [with_child c_type c_op c_value c_name c_parent c_left c_right] in H1. own H1. }
        destruct W as ([] & h1 & E1 & H1). specialize (Next G nl Nil h1 H1). unfold bindM, wp in *. rewrite El. cbn [c_type c_op]. rewrite Eo, E1. rewrite Et in Next. exact Next.
      * destruct G as [|((tr, r), nr) G]; cbn [map fst snd app] in *.
        { cbn [bind]. destruct (Bad (N OPERATOR op v x Nil Nil) h) as (h' & E' & H'); [own H0|]. exists h'. split; [|exact H']. unfold bindM. rewrite El. cbn [c_type c_op]. rewrite Eo. exact E'. }
        unfold b_item at 1 in H. cbn [fst snd] in H.
        assert (W : wp (adopt_top a R r) (fun _ h' => owns h' (ICell a (MkCell OPERATOR op v x None None (Some r)) :: ITree (Some a) (Some r) nr :: map b_item G ++ map p_item post ++ rest)) h).
        { eapply (wp_adopt_top a (MkCell OPERATOR op v x None None None) R); [exact H|]. intros h1 H1. cbn [with_child c_type c_op c_value c_name c_parent c_left c_right] in H1. exact H1. }
        destruct W as ([] & h1 & E1 & H1).
        destruct G as [|((tl, l), nl) G]; cbn [map fst snd app] in *.
        { cbn [bind]. destruct (Bad (N OPERATOR op v x Nil nr) h1) as (h' & E' & H').
          { apply own_close with None (Some r). apply (own_nil _ (Some a)) in H1. own H1. }
          exists h'. split; [|exact H']. unfold bindM. rewrite El. cbn [c_type c_op]. rewrite Eo, E1. exact E'. }
        cbn [bind]. unfold b_item at 1 in H1. cbn [fst snd] in H1. unfold b_tok at 1 2. cbn [fst snd with_node t_node].
        assert (W : wp (adopt_top a L l) (fun _ h' => owns h' (ITree None (Some a) (N OPERATOR op v x nl nr) :: map b_item G ++ map p_item post ++ rest)) h1).
        { front H1 (ITree None (Some l) nl). front H1 (ICell a (MkCell OPERATOR op v x None None (Some r))).
          eapply (wp_adopt_top a (MkCell OPERATOR op v x None None (Some r)) L); [exact H1|]. intros h2 H2. apply own_close with (Some l) (Some r).
          cbn [with_child c_type c_op c_value c_name c_parent c_left c_right] in H2. own H2. }
        destruct W as ([] & h2 & E2 & H2). specialize (Next G nl nr h2 H2). unfold bindM, wp in *. rewrite El. cbn [c_type c_op]. rewrite Eo, E1, E2. rewrite Et in Next. exact Next.
    + cbn [bind]. assert (Ty : t_type t <> OPERATOR) by (unfold t_type; rewrite Et; discriminate). specialize (Leafcase Ty). unfold bindM, wp in *. rewrite El. exact Leafcase.
Qed.

Lemma wp_alloc_tokens ts : forall its (Q : list (token * addr) -> heap -> Prop) h, Forall leaf ts -> owns h its ->
  (forall l h', map fst l = ts -> owns h' (map p_item l ++ its) -> Q l h') -> wp (alloc_tokens pick ts) Q h.
Proof.
  induction ts as [|t ts IH]; intros its Q h HL H HQ; cbn [alloc_tokens].
  - apply wp_ret. apply HQ; auto.
  - inversion HL as [|? ? (ty & op & v & x & Et) HL']; subst. rewrite Et. apply wp_bind. eapply wp_make_node; [exact Hpick|exact H|]. intros a h1 H1. apply own_leaf in H1.
    apply wp_bind. eapply IH; [exact HL'|exact H1|]. intros l h2 El H2. apply wp_ret. apply HQ.
    + cbn. now rewrite El.
    + cbn. unfold p_item at 1. cbn [fst snd]. rewrite Et. own H2.
Qed.

(** ** Parse *)
Lemma HParse_ok s rest h : owns h rest ->
  match Parse s with
  | Ok t => wp (HParse pick s) (fun a h' => owns h' (ITree None (Some a) t :: rest)) h
  | Throw e => exists h', HParse pick s h = (Throw e, h') /\ owns h' rest
  | _ => True
  end.
Proof.
  intros H. unfold Parse, HParse, lift.
  destruct (ParseToTokens s) as [ts|e| | | |] eqn:Et; cbn [bind]; try exact I; [|exists h; split; [reflexivity|exact H]].
  pose proof (tokens_leaf _ _ Et) as L1.
  destruct (InOrderToPostOrder s ts) as [post|e| | | |] eqn:Ep; cbn [bind]; try exact I; [|exists h; split; [unfold bindM; now rewrite Ep|exact H]].
  pose proof (post_leaf _ _ _ Ep L1) as L2.
  assert (W : wp (alloc_tokens pick post) (fun l h' => map fst l = post /\ owns h' (map p_item l ++ rest)) h) by (eapply wp_alloc_tokens; eauto).
  destruct W as (l & h1 & E1 & El & H1).
  assert (Hd : forall (F : list (token * addr) -> M addr), ((fun h0 => (Ok ts, h0)) h = (Ok ts, h)) ->
     (do tokens <- (fun h0 => (Ok ts, h0)); do postOrder <- (fun h0 => (InOrderToPostOrder s tokens, h0)); do nodes <- alloc_tokens pick postOrder; F nodes) h = F l h1).
  { intros F _. unfold bindM. now rewrite Ep, E1. }
  unfold BuildExpressionTree. rewrite <- El in L2. pose proof (HBuildLoop_ok rest l [] h1 L2 H1) as B. cbn [map app] in B. rewrite El in B.
  destruct (foldM BuildStep post []) as [stk|e| | | |] eqn:Ef; cbn [bind]; try exact I.
  - destruct B as (r & h2 & E2 & G & -> & Estk & H2). subst stk. destruct G as [|((t, a), n) G]; cbn [map b_tok fst snd with_node t_node]; [exact I|].
    destruct G as [|g G].
    + exists a, h2. split; [rewrite Hd by reflexivity; unfold HBuildExpressionTree, bindM; rewrite E2; reflexivity|]. exact H2.
    + cbn [map]. destruct (abandon_ok (A := addr) (map (fun g => (snd (fst g), snd g)) ((t, a, n) :: g :: G))
        (MultiParseError (map (fun t0 => (0, t_pos (fst t0), s, ("Parse Error at: " ++ quote ++ t_s (fst t0) ++ quote)%string)) (map fst (g :: G)))) rest h2) as (h3 & E3 & H3).
      { rewrite map_map. exact H2. }
      exists h3. split; [|exact H3]. rewrite Hd by reflexivity. unfold HBuildExpressionTree. unfold bindM at 1. rewrite E2.
      cbn [map fst snd] in *. rewrite map_map in E3. cbn [fst] in E3. rewrite !map_map in *. cbn [map b_tok with_node t_pos t_s] in *. destruct g as [[tg ag] ng]. cbn [fst snd] in *. unfold b_tok. cbn [with_node t_pos t_s fst snd]. 
      exact E3.
  - destruct B as (h2 & E2 & H2). exists h2. split; [|exact H2]. rewrite Hd by reflexivity. unfold HBuildExpressionTree, bindM. now rewrite E2.
Qed.

End HParse.
