(** C83: destroying an expression needs room for only two nested destructor calls, however
    large and deep the expression is.

    [destroy room p] (HeapModel.v) is the destructor of the object at [p], with room for at most
    [room] calls of ~NodeImpl that are active at the same time; every program of [run] (ApiModel.v)
    runs with [delete], that is, with room for two. *)
From Coq Require Import String List ZArith Bool Permutation Lia Arith.
From Verif Require Import Base MathOp NodeModel ExprSpec HeapModel HeapSpec HeapProofs ApiModel ApiSpec MemSpec Thm_Api IEEE.
Import ListNotations.
Local Open Scope string_scope. Local Open Scope list_scope. Local Open Scope nat_scope.

(** The number of nodes on the longest path down from the root. *)
Fixpoint height {K : num_ops} (t : node K) : nat :=
  match t with Nil => 0 | N _ _ _ _ l r => S (Nat.max (height l) (height r)) end.

Section Stack.
Context {K : num_ops}.
Notation node := (node K).
Notation heap := (heap K).
Notation M := (M (K:=K)).
Implicit Types h : heap.

(** The destructor that the compiler would supply: it destroys the two members, one after the
    other, and nothing else. *)
Fixpoint destroy_members (room : nat) (p : option addr) : M unit :=
  match p with
  | None => ret tt
  | Some a =>
    match room with
    | O => fail (Undef "stack overflow")
    | S room' =>
        do c <- load a;
        destroy_members room' (c_right c);;
        destroy_members room' (c_left c);;
        free a
    end
  end.

(** ** Room for two calls suffices for every tree; exactly the tree's objects are freed. *)
Theorem C83_destroy room par p (t : node) its h : owns h (ITree par p t :: its) ->
  exists h', destroy (2 + room) p h = (Ok tt, h') /\ owns h' its.
Proof.
  intros H. destruct (wp_destroy room par p t its (fun _ h' => owns h' its) h H (fun h' H' => H')) as ([] & h' & E & H'). exists h'. auto.
Qed.

(** ** Room for one does not suffice as soon as there is a child. *)
Theorem C83_one_is_not_enough par p (t : node) its h : owns h (ITree par p t :: its) -> 1 < height t ->
  exists h', destroy 1 p h = (Undef "stack overflow", h').
Proof.
  intros H Ht. destruct t as [|ty op v x l r]; [cbn in Ht; lia|]. cbn [height] in Ht.
  pose proof (own_size _ _ _ _ _ H) as Hs. apply own_open in H as (a & pl & pr & -> & H).
  cbn [destroy]. unfold bindM at 1. unfold Release. set (n := length h) in *. clearbody n.
  assert (E : exists b stk h1, emplaceChildren a [] h = (Ok (b :: stk), h1) /\ exists c its1, owns h1 (ICell b c :: its1)).
  { destruct (wp_emplaceChildren a ty op v x par pl pr _ [] (fun stk h1 => stk = push pr (push pl []) /\ owns h1 (ICell a (MkCell ty op v x par None None) :: ITree (Some a) pl l :: ITree (Some a) pr r :: its)) h H) as (stk & h1 & E & -> & H1); [auto|].
    destruct r as [|tyr opr vr xr lr rr].
    - front H1 (ITree (Some a) pr (@Nil K)). apply own_nil_inv in H1 as [-> H1].
      destruct l as [|tyl opl vl xl ll rl]; [cbn in Ht; lia|].
      front H1 (ITree (Some a) pl (N tyl opl vl xl ll rl)). apply own_open in H1 as (b & ? & ? & -> & H1). exists b, [], h1. split; [exact E|]. eauto.
    - front H1 (ITree (Some a) pr (N tyr opr vr xr lr rr)). apply own_open in H1 as (b & ? & ? & -> & H1). exists b, (push pl []), h1. split; [exact E|]. eauto. }
  destruct E as (b & stk & h1 & E & c & its1 & H1). unfold bindM at 1. rewrite E. cbn [ReleaseLoop]. unfold bindM at 1.
  destruct c as [tyb opb vb xb pb lb rb].
  destruct (wp_emplaceChildren b tyb opb vb xb pb lb rb _ stk (fun _ h2 => owns h2 (ICell b (MkCell tyb opb vb xb pb None None) :: its1)) h1 H1) as (stk2 & h2 & E2 & H2); [auto|]. rewrite E2.
  unfold bindM at 1. unfold load. rewrite (own_lookup _ _ _ _ H2). cbn [c_left c_right]. unfold bindM at 1. cbn [fail]. eauto.
Qed.

(** ** Without Release, the room needed is the height of the tree. *)
Theorem C83_without_release room : forall par p (t : node) its h, owns h (ITree par p t :: its) ->
  (height t <= room -> exists h', destroy_members room p h = (Ok tt, h') /\ owns h' its) /\
  (room < height t -> exists h', destroy_members room p h = (Undef "stack overflow", h')).
Proof.
  induction room as [|room IH]; intros par p t its h H.
  - destruct t as [|ty op v x l r].
    + apply own_nil_inv in H as [-> H]. split; [intros _; exists h; auto|cbn; lia].
    + apply own_open in H as (a & pl & pr & -> & H). split; [cbn; lia|]. intros _. exists h. reflexivity.
  - destruct t as [|ty op v x l r].
    + apply own_nil_inv in H as [-> H]. split; [intros _; exists h; auto|cbn; lia].
    + apply own_open in H as (a & pl & pr & -> & H). cbn [height destroy_members]. unfold bindM, load. rewrite (own_lookup _ _ _ _ H). cbn [c_left c_right].
      assert (Hr : owns h (ITree (Some a) pr r :: ICell a (MkCell ty op v x par pl pr) :: ITree (Some a) pl l :: its)) by ownf H.
      destruct (IH _ _ _ _ _ Hr) as [R1 R2]. split.
      * intros Hh. destruct R1 as (h1 & E1 & H1); [lia|]. rewrite E1.
        front H1 (ITree (Some a) pl l). destruct (IH _ _ _ _ _ H1) as [L1 _]. destruct L1 as (h2 & E2 & H2); [lia|]. rewrite E2.
        destruct (wp_free a _ its (fun _ h' => owns h' its) h2 H2 (fun h' H' => H')) as ([] & h3 & E3 & H3). exists h3. auto.
      * intros Hh. destruct (Nat.le_gt_cases (height r) room) as [Hr'|Hr'].
        -- destruct R1 as (h1 & E1 & H1); [lia|]. rewrite E1. front H1 (ITree (Some a) pl l). destruct (IH _ _ _ _ _ H1) as [_ L2].
           destruct L2 as (h2 & E2); [lia|]. rewrite E2. eauto.
        -- destruct R2 as (h1 & E1); [lia|]. rewrite E1. eauto.
Qed.

(** ** More room changes nothing, wherever the destructor succeeds. *)
Lemma release_more (d d' : option addr -> M unit) (Hd : forall p h h', d p h = (Ok tt, h') -> d' p h = (Ok tt, h')) :
  forall n stk h h', ReleaseLoop d n stk h = (Ok tt, h') -> ReleaseLoop d' n stk h = (Ok tt, h').
Proof.
  induction n as [|n IH]; intros stk h h'; cbn [ReleaseLoop]; [discriminate|]. destruct stk as [|a stk]; [auto|].
  unfold bindM at 1 4. destruct (emplaceChildren a stk h) as [[stk1|?|?| |?|] h1]; try discriminate.
  unfold bindM at 1 3. destruct (load a h1) as [[c|?|?| |?|] h2]; try discriminate.
  destruct (c_left c), (c_right c); try discriminate. unfold bindM.
  destruct (d (Some a) h2) as [[[]|?|?| |?|] h3] eqn:Ed; try discriminate. rewrite (Hd _ _ _ Ed). apply IH.
Qed.
Lemma destroy_more room : forall p h h', destroy room p h = (Ok tt, h') -> destroy (S room) p h = (Ok tt, h').
Proof.
  induction room as [|room IH]; intros [a|] h h'; try (now intros H); try discriminate.
  change (destroy (S room) (Some a)) with (Release (K:=K) (destroy room) a;; do c <- load (K:=K) a; destroy room (c_right c);; destroy room (c_left c);; free a).
  change (destroy (S (S room)) (Some a)) with (Release (K:=K) (destroy (S room)) a;; do c <- load (K:=K) a; destroy (S room) (c_right c);; destroy (S room) (c_left c);; free a).
  unfold bindM at 1 5. unfold Release. unfold bindM at 1 5.
  destruct (emplaceChildren a [] h) as [[stk|?|?| |?|] h1]; try discriminate.
  destruct (ReleaseLoop (destroy room) (S (length h)) stk h1) as [[[]|?|?| |?|] h2] eqn:Er; try discriminate. rewrite (release_more _ _ IH _ _ _ _ Er).
  unfold bindM at 1 4. destruct (load a h2) as [[c|?|?| |?|] h3]; try discriminate.
  unfold bindM at 1 3. destruct (destroy room (c_right c) h3) as [[[]|?|?| |?|] h4] eqn:E4; try discriminate. rewrite (IH _ _ _ E4).
  unfold bindM. destruct (destroy room (c_left c) h4) as [[[]|?|?| |?|] h5] eqn:E5; try discriminate. now rewrite (IH _ _ _ E5).
Qed.
Theorem C83_more_room room : forall more p h h', destroy room p h = (Ok tt, h') -> destroy (more + room) p h = (Ok tt, h').
Proof. induction more as [|more IH]; intros p h h' H; [exact H|]. apply destroy_more, IH, H. Qed.

(** ** Programs that build an expression of any depth. *)
Variable pick : heap -> addr.
Hypothesis Hpick : allocator pick.

(** Node x = Var("a"); and n times: x = f(std::move(x)). *)
Definition tower (u : unop) (n : nat) : list (stmt K) :=
  Declare "x" (XVar "a") :: repeat (Assign "x" (XUn u (Rvalue "x"))) n.
Fixpoint tower_value (u : unop) (n : nat) : expr K := match n with O => EVar "a" | S n => EUn u (tower_value u n) end.

Lemma tower_means u n : forall cfg, vrun cfg (tower u n) [] = (repeat Done (S n), (Ok tt, [("x", Some (tower_value u n))])).
Proof.
  intros cfg. unfold tower. cbn [vrun]. change (vstep cfg (Declare "x" (XVar "a")) []) with ((Ok Done, [("x", Some (EVar "a"))]) : res (event K) * env K).
  cbn [next_config].
  assert (C : forall m (e : expr K), Nat.iter m (EUn u) (EUn u e) = EUn u (Nat.iter m (EUn u) e)).
  { intros m e. induction m as [|m IH]; [reflexivity|]. exact (f_equal (EUn u) IH). }
  assert (G : forall m e, vrun cfg (repeat (Assign "x" (XUn u (Rvalue "x"))) m) [("x", Some e)] = (repeat Done m, (Ok tt, [("x", Some (Nat.iter m (EUn u) e))]))).
  { induction m as [|m IH]; intros e; cbn [repeat vrun]; [reflexivity|].
    change (vstep cfg (Assign "x" (XUn u (Rvalue "x"))) [("x", Some e)]) with ((Ok Done, [("x", Some (EUn u e))]) : res (event K) * env K).
    cbn [next_config]. rewrite IH, C. reflexivity. }
  rewrite G. assert (Z : Nat.iter n (EUn u) (EVar "a") = tower_value u n).
  { clear. induction n as [|n IH]; [reflexivity|]. exact (f_equal (EUn u) IH). }
  rewrite Z. reflexivity.
Qed.
Lemma tower_height u n : height (embed (tower_value u n)) = S n.
Proof. induction n as [|n IH]; [reflexivity|]. cbn [tower_value embed height]. rewrite IH. lia. Qed.

(** After the program, x holds a tree of height n + 1; at the end of its scope it is destroyed
    without an overflow, and memory is empty. *)
Theorem C83_any_depth cfg u n :
  (exists h, run pick cfg (tower u n) [] = (repeat Done (S n), (Ok tt, h)) /\
     tree_of h "x" = Some (Some (embed (tower_value u n))) /\ height (embed (tower_value u n)) = S n) /\
  run pick cfg (tower u n ++ [EndOfScope "x"]) [] = (repeat Done (S (S n)), (Ok tt, [])).
Proof.
  split.
  - destruct (C44_every_history K pick Hpick cfg _ _ _ (tower_means u n cfg)) as (h & Er & _ & Ht & _). exists h. split; [exact Er|]. split; [apply Ht|apply tower_height].
  - apply C44_all_freed; [exact Hpick|]. rewrite (vrun_app _ _ _ _ _ _ (tower_means u n cfg)). cbn [vrun].
    change (vstep (last_config cfg (tower u n)) (EndOfScope "x") [("x", Some (tower_value u n))]) with ((Ok Done, []) : res (event K) * env K).
    cbn [next_config vrun]. f_equal. change [Done] with (repeat (@Done K) 1). rewrite <- repeat_app. f_equal. lia.
Qed.
End Stack.

(** ** Examples *)
Definition three_deep : heap D :=
  snd (snd (run next_addr (default_config D) [Declare "x" (XParse "sin(a)*(b+c)")] [])).
Definition root : option addr := match lookup three_deep (KVar (User "x")) with Some (OPtr p) => p | _ => None end.
Definition overflow {A} (r : res A * heap D) : bool := match fst r with Undef w => String.eqb w "stack overflow" | _ => false end.
Definition fine {A} (r : res A * heap D) : bool := match fst r with Ok _ => true | _ => false end.
Example C83_example :
  (overflow (destroy 0 root three_deep), overflow (destroy 1 root three_deep), fine (destroy 2 root three_deep),
   length (snd (destroy 2 root three_deep)), overflow (destroy_members 2 root three_deep), fine (destroy_members 3 root three_deep)) =
  (true, true, true, 1, true, true).
Proof. vm_compute. reflexivity. Qed.
