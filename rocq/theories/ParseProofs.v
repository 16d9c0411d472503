(** Proofs about the parser: completeness w.r.t. the grammar. *)
From Coq Require Import String Ascii List ZArith Bool Arith Lia Permutation.
From Verif Require Import Base MathOp NodeModel ParseModel ExprSpec GrammarSpec NodeProofs.
Import ListNotations.
Local Open Scope string_scope. Local Open Scope list_scope.

Section Machine.
Context {K : num_ops}.
Implicit Types (t : token K) (P post stk : list (token K)).
Variable content : string.

(** Kinds of resolved tokens. *)
Definition op_node (op : math_op) : node K := N OPERATOR op (n_ofZ 0) "" Nil Nil.
Definition tok_is (n : node K) (t : token K) : Prop := t_node t = n.

(** Grammar over resolved tokens (signs already separated from binary + and -). *)
Definition rk (k : nat) : nat :=
  match k with 0 => 5 | 1 => 10 | 2 => 11 | 3 => 12 | 4 => 13 | _ => 14 end.

(** Reverse Polish form of an expression: the nodes of its tokens. *)
Fixpoint rpn (e : expr K) : list (node K) :=
  match e with
  | ENum v => [mkNum v]
  | EVar x => [N VARIABLE MATH_NULL (n_ofZ 0) x Nil Nil]
  | EUn u a => rpn a ++ [op_node (unop_op u)]
  | EBin b a c => rpn a ++ rpn c ++ [op_node (binop_op b)]
  end.

(** Tokens of a text between parentheses that is accepted as [e], well formed or not. *)
Definition tok_block (ts : list (token K)) (e : expr K) : Prop :=
  forall content bal tl B post, t_node tl = op_node MATH_LEFT_PARENTHESIS -> exists ops p bal',
    foldM (InOrderStep content) ts (S bal, tl :: B, post) = Ok (bal', ops ++ tl :: B, post ++ p) /\
    map t_node (p ++ ops) = rpn e /\ Forall (fun t => t_op t <> MATH_LEFT_PARENTHESIS) ops /\ S bal <= bal'.

Inductive rder : nat -> list (token K) -> expr K -> Prop :=
| rd_up k ts e : k < 6 -> rder (S k) ts e -> rder k ts e
| rd_left k c b t ts1 e1 ts2 e2 :
    left_op k c b -> tok_is (op_node (binop_op b)) t -> rder k ts1 e1 -> rder (S k) ts2 e2 ->
    rder k (ts1 ++ t :: ts2) (EBin b e1 e2)
| rd_pow t ts1 e1 ts2 e2 :
    tok_is (op_node MATH_POWER) t -> rder 3 ts1 e1 -> rder 2 ts2 e2 ->
    rder 2 (ts1 ++ t :: ts2) (EBin BPow e1 e2)
| rd_sign c u t ts e : sign_op c u -> tok_is (op_node (unop_op u)) t -> rder 5 ts e ->
    rder 5 (t :: ts) (EUn u e)
| rd_num v t : tok_is (mkNum v) t -> rder 6 [t] (ENum v)
| rd_var x t : tok_is (N VARIABLE MATH_NULL (n_ofZ 0) x Nil Nil) t -> rder 6 [t] (EVar x)
| rd_paren tl tr ts e : tok_is (op_node MATH_LEFT_PARENTHESIS) tl ->
    tok_is (op_node MATH_RIGHT_PARENTHESIS) tr -> rder 0 ts e -> rder 6 (tl :: ts ++ [tr]) e
| rd_block tl tr ts e : tok_is (op_node MATH_LEFT_PARENTHESIS) tl ->
    tok_is (op_node MATH_RIGHT_PARENTHESIS) tr -> tok_block ts e -> rder 6 (tl :: ts ++ [tr]) e
| rd_fun u name tf tl tr ts e : fun_name u = Some name -> tok_is (op_node (unop_op u)) tf ->
    tok_is (op_node MATH_LEFT_PARENTHESIS) tl -> tok_is (op_node MATH_RIGHT_PARENTHESIS) tr ->
    rder 0 ts e -> rder 6 (tf :: tl :: ts ++ [tr]) (EUn u e)
| rd_fblock u name tf tl tr ts e : fun_name u = Some name -> tok_is (op_node (unop_op u)) tf ->
    tok_is (op_node MATH_LEFT_PARENTHESIS) tl -> tok_is (op_node MATH_RIGHT_PARENTHESIS) tr ->
    tok_block ts e -> rder 6 (tf :: tl :: ts ++ [tr]) (EUn u e).

Definition is_lp t := t_op t = MATH_LEFT_PARENTHESIS.

(** The top of the stack cannot be squeezed out by an operator of level k or higher. *)
Definition compat (k : nat) (stk : list (token K)) : Prop :=
  match stk with
  | [] => True
  | t :: _ => Rank (t_op t) < rk k \/ (k = 2 /\ t_op t = MATH_POWER)
  end.

Definition signs (s : list (token K)) : Prop := Forall (fun t => is_sign (t_op t) = true) s.

Lemma sign_rank op : is_sign op = true -> Rank op = 14.
Proof. destruct op; simpl; congruence. Qed.
Lemma fun_rank op : IsFunction op = true -> Rank op = 15.
Proof. destruct op; simpl; congruence. Qed.

Lemma pop_while_all p ops stk post :
  Forall (fun t => p (t_op t) = true) ops ->
  match stk with [] => True | t :: _ => p (t_op t) = false end ->
  pop_while p (ops ++ stk) post = (stk, post ++ ops).
Proof.
  revert post; induction ops as [|t ops IH]; intros post H1 H2; simpl.
  - rewrite app_nil_r. destruct stk; simpl; auto. rewrite H2. reflexivity.
  - inversion H1; subst. rewrite H3. rewrite IH; auto. now rewrite <- app_assoc.
Qed.

Lemma pop_to_paren_all ops t stk post :
  Forall (fun t => t_op t <> MATH_LEFT_PARENTHESIS) ops -> t_op t = MATH_LEFT_PARENTHESIS ->
  pop_to_paren (ops ++ t :: stk) post = Ok (stk, post ++ ops).
Proof.
  revert post; induction ops as [|s ops IH]; intros post H1 H2; simpl.
  - rewrite H2, app_nil_r. reflexivity.
  - inversion H1; subst. rewrite IH; auto. rewrite <- app_assoc. simpl.
    destruct (t_op s); try reflexivity. congruence.
Qed.

Lemma op_node_op op t : tok_is (op_node op) t -> t_op t = op /\ t_type t = OPERATOR.
Proof. unfold tok_is, t_op, t_type. intros ->. auto. Qed.

Definition run := foldM (InOrderStep (K:=K) content).

Lemma run_app l1 l2 st : run (l1 ++ l2) st = let* st' := run l1 st in run l2 st'.
Proof. apply foldM_app. Qed.

(** Main lemma of the shunting-yard phase. *)
Lemma machine_ok k ts e : rder k ts e -> forall S stk post bal,
  signs S -> (S = [] \/ 5 <= k) -> compat k stk ->
  exists ops p bal', run ts (bal, S ++ stk, post) = Ok (bal', ops ++ stk, post ++ p)
    /\ map t_node (p ++ ops) = rpn e ++ map t_node S
    /\ Forall (fun t => rk k <= Rank (t_op t) /\ IsFunction (t_op t) = false) ops
    /\ bal <= bal'.
Proof.
  induction 1 as [k ts e Hk H IH|k c b t ts1 e1 ts2 e2 Hop Ht H1 IH1 H2 IH2
    |t ts1 e1 ts2 e2 Ht H1 IH1 H2 IH2|c u t ts e Hop Ht H IH|v t Ht|x t Ht|tl tr ts e Hl Hr H IH|tl tr ts e Hl Hr H
    |u name tf tl tr ts e Hu Hf Hl Hr H IH|u name tf tl tr ts e Hu Hf Hl Hr H]; intros S stk post bal HS HSk Hc.
  - (* up *)
    destruct (IH S stk post bal) as (ops & p & bal' & Hrun & Hm & Hops & Hb); auto.
    + destruct HSk; [left; auto|right; lia].
    + destruct stk as [|t stk]; simpl in *; auto. left.
      destruct Hc as [Hc|[-> Hc]].
      * destruct k as [|[|[|[|[|[|k]]]]]]; simpl in *; lia.
      * rewrite Hc. simpl. lia.
    + exists ops, p, bal'. repeat split; auto.
      eapply Forall_impl; [|exact Hops]. simpl. intros t [Ht1 Ht2]. split; auto.
      destruct k as [|[|[|[|[|[|k]]]]]]; simpl in *; lia.
  - (* left-assoc binary *)
    assert (Hk : k < 5) by (destruct Hop; lia).
    assert (S = []) as -> by (destruct HSk; auto; lia). simpl.
    destruct (IH1 [] stk post bal) as (ops1 & p1 & bal1 & Hrun1 & Hm1 & Hops1 & Hb1); auto.
    simpl in Hrun1. apply op_node_op in Ht as Ht'. destruct Ht' as [Hto Htt].
    assert (Hk2 : k <> 2) by (destruct Hop; lia).
    assert (Hr : Rank (binop_op b) = rk k /\ IsLeft2Right (binop_op b) = true) by (destruct Hop; auto).
    destruct Hr as [Hr Hl].
    assert (Hpop : pop_while (squeezes (binop_op b)) (ops1 ++ stk) (post ++ p1) = (stk, (post ++ p1) ++ ops1)).
    { apply pop_while_all.
      - eapply Forall_impl; [|exact Hops1]. intros s [Hs1 Hs2]. simpl. unfold squeezes. rewrite Hl, Hr.
        apply Nat.leb_le. lia.
      - destruct stk as [|s stk]; auto. unfold squeezes. rewrite Hl, Hr. apply Nat.leb_gt.
        destruct Hc as [Hc|[? ?]]; auto. congruence. }
    assert (Hstep : InOrderStep content (bal1, ops1 ++ stk, post ++ p1) t
                    = Ok (bal1, t :: stk, post ++ p1 ++ ops1)).
    { unfold InOrderStep. rewrite Htt, Hto. destruct Hop; simpl in *; rewrite Hpop;
        rewrite <- app_assoc; reflexivity. }
    destruct (IH2 [] (t :: stk) (post ++ p1 ++ ops1) bal1) as (ops2 & p2 & bal2 & Hrun2 & Hm2 & Hops2 & Hb2); auto.
    { simpl. left. rewrite Hto, Hr. destruct k as [|[|[|[|[|k]]]]]; simpl; lia. }
    exists (ops2 ++ [t]), (p1 ++ ops1 ++ p2), bal2. split; [|split; [|split]].
    + rewrite run_app, Hrun1. cbn [bind]. unfold run. cbn [foldM]. rewrite Hstep. cbn [bind].
      fold run. simpl in Hrun2. rewrite Hrun2. rewrite <- !app_assoc. reflexivity.
    + simpl in Hm1, Hm2. rewrite app_nil_r in *. simpl.
      rewrite !map_app in *. simpl. rewrite Ht, <- Hm1, <- Hm2. rewrite <- !app_assoc. reflexivity.
    + apply Forall_app. split.
      * eapply Forall_impl; [|exact Hops2]. simpl. intros s [Hs1 Hs2]. split; auto.
        destruct k as [|[|[|[|[|k]]]]]; simpl in *; lia.
      * repeat constructor; rewrite Hto; [lia|destruct b; reflexivity].
    + lia.
  - (* power *)
    assert (S = []) as -> by (destruct HSk; auto; lia). simpl.
    destruct (IH1 [] stk post bal) as (ops1 & p1 & bal1 & Hrun1 & Hm1 & Hops1 & Hb1); auto.
    { destruct stk as [|s stk]; simpl in *; auto. left. destruct Hc as [Hc|[_ Hc]]; [lia|rewrite Hc; simpl; lia]. }
    simpl in Hrun1. apply op_node_op in Ht as Ht'. destruct Ht' as [Hto Htt].
    assert (Hpop : pop_while (squeezes MATH_POWER) (ops1 ++ stk) (post ++ p1) = (stk, (post ++ p1) ++ ops1)).
    { apply pop_while_all.
      - eapply Forall_impl; [|exact Hops1]. intros s [Hs1 Hs2]. simpl. unfold squeezes. simpl.
        apply Nat.leb_le. simpl in Hs1. lia.
      - destruct stk as [|s stk]; auto. unfold squeezes. simpl in *.
        destruct Hc as [Hc|[_ Hc]]; [|rewrite Hc; reflexivity]. apply Nat.ltb_ge. lia. }
    assert (Hstep : InOrderStep content (bal1, ops1 ++ stk, post ++ p1) t
                    = Ok (bal1, t :: stk, post ++ p1 ++ ops1)).
    { unfold InOrderStep. rewrite Htt, Hto. rewrite Hpop. rewrite <- app_assoc; reflexivity. }
    destruct (IH2 [] (t :: stk) (post ++ p1 ++ ops1) bal1) as (ops2 & p2 & bal2 & Hrun2 & Hm2 & Hops2 & Hb2); auto.
    { simpl. right. auto. }
    exists (ops2 ++ [t]), (p1 ++ ops1 ++ p2), bal2. split; [|split; [|split]].
    + rewrite run_app, Hrun1. cbn [bind]. unfold run. cbn [foldM]. rewrite Hstep. cbn [bind].
      fold run. simpl in Hrun2. rewrite Hrun2. rewrite <- !app_assoc. reflexivity.
    + simpl in Hm1, Hm2. rewrite app_nil_r in *. simpl.
      rewrite !map_app in *. simpl. rewrite Ht, <- Hm1, <- Hm2. rewrite <- !app_assoc. reflexivity.
    + apply Forall_app. split; [exact Hops2|]. repeat constructor; rewrite Hto; simpl; auto; lia.
    + lia.
  - (* sign *)
    apply op_node_op in Ht as Ht'. destruct Ht' as [Hto Htt].
    assert (Hsg : is_sign (t_op t) = true) by (rewrite Hto; destruct Hop; reflexivity).
    destruct (IH (t :: S) stk post bal) as (ops & p & bal' & Hrun & Hm & Hops & Hb); auto.
    { constructor; auto. }
    exists ops, p, bal'. split; [|split; [|split]]; auto.
    + unfold run. cbn [foldM].
      assert (InOrderStep content (bal, S ++ stk, post) t = Ok (bal, (t :: S) ++ stk, post)) as ->.
      { unfold InOrderStep. rewrite Htt, Hto. destruct Hop; reflexivity. }
      cbn [bind]. exact Hrun.
    + rewrite Hm. simpl. rewrite Ht, <- app_assoc. reflexivity.
  - (* number *)
    exists S, [t], bal. split; [|split; [|split]]; auto.
    + unfold run. cbn [foldM]. unfold InOrderStep, t_type. rewrite Ht. reflexivity.
    + simpl. rewrite Ht. reflexivity.
    + eapply Forall_impl; [|exact HS]. simpl. intros s Hs. rewrite (sign_rank _ Hs). split; [lia|].
      destruct (t_op s); auto; discriminate.
  - exists S, [t], bal. split; [|split; [|split]]; auto.
    + unfold run. cbn [foldM]. unfold InOrderStep, t_type. rewrite Ht. reflexivity.
    + simpl. rewrite Ht. reflexivity.
    + eapply Forall_impl; [|exact HS]. simpl. intros s Hs. rewrite (sign_rank _ Hs). split; [lia|].
      destruct (t_op s); auto; discriminate.
  - (* paren *)
    apply op_node_op in Hl as Hl'. destruct Hl' as [Hlo Hlt].
    apply op_node_op in Hr as Hr'. destruct Hr' as [Hro Hrt].
    destruct (IH [] (tl :: S ++ stk) post (Datatypes.S bal)) as (ops & p & bal' & Hrun & Hm & Hops & Hb); auto.
    1: { constructor. }
    1: { left. rewrite Hlo. cbn. lia. }
    exists [], (p ++ ops ++ S), bal'. split; [|split; [|split]].
    + unfold run. cbn [foldM].
      assert (InOrderStep content (bal, S ++ stk, post) tl = Ok (Datatypes.S bal, tl :: S ++ stk, post)) as ->.
      { unfold InOrderStep. rewrite Hlt, Hlo. reflexivity. }
      cbn [bind]. fold run. rewrite run_app. simpl in Hrun. rewrite Hrun. cbn [bind].
      unfold run; cbn [foldM]. unfold InOrderStep at 1. rewrite Hrt, Hro.
      destruct bal'; [lia|]. cbn [Nat.eqb].
      rewrite pop_to_paren_all; auto.
      2:{ eapply Forall_impl; [|exact Hops]. simpl. intros s [Hs _] E. rewrite E in Hs. simpl in Hs; lia. }
      cbn [bind].
      assert (pop_function (S ++ stk, (post ++ p) ++ ops) = (S ++ stk, (post ++ p) ++ ops)) as ->.
      { unfold pop_function. simpl. destruct S as [|s S]; simpl.
        - destruct stk as [|s stk]; auto. destruct (IsFunction (t_op s)) eqn:EF; auto.
          apply fun_rank in EF. simpl in Hc. rewrite EF in Hc. destruct Hc as [Hc|[Hc _]]; lia.
        - inversion HS; subst. destruct (t_op s); simpl in *; try discriminate; reflexivity. }
      rewrite pop_while_all.
      2:{ exact HS. }
      2:{ destruct stk as [|s stk]; auto. destruct (is_sign (t_op s)) eqn:ES; auto.
          apply sign_rank in ES. simpl in Hc. rewrite ES in Hc. destruct Hc as [Hc|[Hc _]]; lia. }
      cbn [bind]. simpl. rewrite <- !app_assoc. reflexivity.
    + simpl in Hm. rewrite app_nil_r in *. rewrite !map_app in *.
      rewrite app_assoc. rewrite Hm. reflexivity.
    + constructor.
    + lia.
  - (* accepted text in parentheses *)
    apply op_node_op in Hl as Hl'. destruct Hl' as [Hlo Hlt].
    apply op_node_op in Hr as Hr'. destruct Hr' as [Hro Hrt].
    destruct (H content bal tl (S ++ stk) post Hl) as (ops & p & bal' & Hrun & Hm & Hops & Hb).
    exists [], (p ++ ops ++ S), bal'. split; [|split; [|split]].
    + unfold run. cbn [foldM].
      assert (InOrderStep content (bal, S ++ stk, post) tl = Ok (Datatypes.S bal, tl :: S ++ stk, post)) as ->.
      { unfold InOrderStep. rewrite Hlt, Hlo. reflexivity. }
      cbn [bind]. fold run. rewrite run_app. unfold run. rewrite Hrun. cbn [bind].
      unfold run; cbn [foldM]. unfold InOrderStep at 1. rewrite Hrt, Hro.
      destruct bal'; [lia|]. cbn [Nat.eqb].
      rewrite pop_to_paren_all; auto.
      cbn [bind].
      assert (pop_function (S ++ stk, (post ++ p) ++ ops) = (S ++ stk, (post ++ p) ++ ops)) as ->.
      { unfold pop_function. simpl. destruct S as [|s S]; simpl.
        - destruct stk as [|s stk]; auto. destruct (IsFunction (t_op s)) eqn:EF; auto.
          apply fun_rank in EF. simpl in Hc. rewrite EF in Hc. destruct Hc as [Hc|[Hc _]]; lia.
        - inversion HS; subst. destruct (t_op s); simpl in *; try discriminate; reflexivity. }
      rewrite pop_while_all.
      2:{ exact HS. }
      2:{ destruct stk as [|s stk]; auto. destruct (is_sign (t_op s)) eqn:ES; auto.
          apply sign_rank in ES. simpl in Hc. rewrite ES in Hc. destruct Hc as [Hc|[Hc _]]; lia. }
      cbn [bind]. simpl. rewrite <- !app_assoc. reflexivity.
    + rewrite app_nil_r. rewrite !map_app in *.
      rewrite app_assoc. rewrite Hm. reflexivity.
    + constructor.
    + lia.
  - (* function *)
    apply op_node_op in Hl as Hl'. destruct Hl' as [Hlo Hlt].
    apply op_node_op in Hr as Hr'. destruct Hr' as [Hro Hrt].
    apply op_node_op in Hf as Hf'. destruct Hf' as [Hfo Hft].
    assert (HF : IsFunction (t_op tf) = true) by (rewrite Hfo; destruct u; simpl in Hu; try discriminate; reflexivity).
    destruct (IH [] (tl :: tf :: S ++ stk) post (Datatypes.S bal)) as (ops & p & bal' & Hrun & Hm & Hops & Hb); auto.
    1: { constructor. }
    1: { left. rewrite Hlo. cbn. lia. }
    exists [], (p ++ ops ++ tf :: S), bal'. split; [|split; [|split]].
    + unfold run. cbn [foldM].
      assert (InOrderStep content (bal, S ++ stk, post) tf = Ok (bal, tf :: S ++ stk, post)) as ->.
      { assert (Hpop : forall op, IsFunction op = true -> pop_while (squeezes op) (S ++ stk) post = (S ++ stk, post)).
        { intros op Hop. pose proof (fun_rank _ Hop) as Hrk.
          assert (IsLeft2Right op = true) as Hlr by (destruct op; auto; discriminate).
          assert (HH : match S ++ stk with [] => True | s :: _ => Rank (t_op s) < 15 end).
          { destruct S as [|s S]; simpl.
            - destruct stk as [|s stk]; auto. simpl in Hc. destruct Hc as [Hc|[Hc _]]; lia.
            - inversion HS; subst. erewrite sign_rank by eassumption. lia. }
          destruct (S ++ stk) as [|s l]; auto. simpl. unfold squeezes. rewrite Hlr, Hrk.
          destruct (Nat.leb_spec 15 (Rank (t_op s))); auto. lia. }
        unfold InOrderStep. rewrite Hft. specialize (Hpop (t_op tf) HF).
        destruct (t_op tf); simpl in HF; try discriminate; rewrite Hpop; reflexivity. }
      cbn [bind]. cbn [foldM].
      assert (InOrderStep content (bal, tf :: S ++ stk, post) tl = Ok (Datatypes.S bal, tl :: tf :: S ++ stk, post)) as ->.
      { unfold InOrderStep. rewrite Hlt, Hlo. reflexivity. }
      cbn [bind]. fold run. rewrite run_app. simpl in Hrun. rewrite Hrun. cbn [bind].
      unfold run; cbn [foldM]. unfold InOrderStep at 1. rewrite Hrt, Hro.
      destruct bal'; [lia|]. cbn [Nat.eqb].
      rewrite pop_to_paren_all; auto.
      2:{ eapply Forall_impl; [|exact Hops]. simpl. intros s [Hs _] E. rewrite E in Hs. simpl in Hs; lia. }
      cbn [bind].
      assert (pop_function (tf :: S ++ stk, (post ++ p) ++ ops) = (S ++ stk, ((post ++ p) ++ ops) ++ [tf])) as ->.
      { unfold pop_function. simpl. rewrite HF. reflexivity. }
      rewrite pop_while_all.
      2:{ exact HS. }
      2:{ destruct stk as [|s stk]; auto. destruct (is_sign (t_op s)) eqn:ES; auto.
          apply sign_rank in ES. simpl in Hc. rewrite ES in Hc. destruct Hc as [Hc|[Hc _]]; lia. }
      cbn [bind]. simpl. rewrite <- !app_assoc. reflexivity.
    + simpl in Hm. rewrite app_nil_r in *. rewrite !map_app in *.
      rewrite app_assoc. rewrite Hm. simpl. rewrite Hf, <- app_assoc. reflexivity.
    + constructor.
    + lia.
  - (* function of an accepted text *)
    apply op_node_op in Hl as Hl'. destruct Hl' as [Hlo Hlt].
    apply op_node_op in Hr as Hr'. destruct Hr' as [Hro Hrt].
    apply op_node_op in Hf as Hf'. destruct Hf' as [Hfo Hft].
    assert (HF : IsFunction (t_op tf) = true) by (rewrite Hfo; destruct u; simpl in Hu; try discriminate; reflexivity).
    destruct (H content bal tl (tf :: S ++ stk) post Hl) as (ops & p & bal' & Hrun & Hm & Hops & Hb).
    exists [], (p ++ ops ++ tf :: S), bal'. split; [|split; [|split]].
    + unfold run. cbn [foldM].
      assert (InOrderStep content (bal, S ++ stk, post) tf = Ok (bal, tf :: S ++ stk, post)) as ->.
      { assert (Hpop : forall op, IsFunction op = true -> pop_while (squeezes op) (S ++ stk) post = (S ++ stk, post)).
        { intros op Hop. pose proof (fun_rank _ Hop) as Hrk.
          assert (IsLeft2Right op = true) as Hlr by (destruct op; auto; discriminate).
          assert (HH : match S ++ stk with [] => True | s :: _ => Rank (t_op s) < 15 end).
          { destruct S as [|s S]; simpl.
            - destruct stk as [|s stk]; auto. simpl in Hc. destruct Hc as [Hc|[Hc _]]; lia.
            - inversion HS; subst. erewrite sign_rank by eassumption. lia. }
          destruct (S ++ stk) as [|s l]; auto. simpl. unfold squeezes. rewrite Hlr, Hrk.
          destruct (Nat.leb_spec 15 (Rank (t_op s))); auto. lia. }
        unfold InOrderStep. rewrite Hft. specialize (Hpop (t_op tf) HF).
        destruct (t_op tf); simpl in HF; try discriminate; rewrite Hpop; reflexivity. }
      cbn [bind]. cbn [foldM].
      assert (InOrderStep content (bal, tf :: S ++ stk, post) tl = Ok (Datatypes.S bal, tl :: tf :: S ++ stk, post)) as ->.
      { unfold InOrderStep. rewrite Hlt, Hlo. reflexivity. }
      cbn [bind]. fold run. rewrite run_app. unfold run. rewrite Hrun. cbn [bind].
      unfold run; cbn [foldM]. unfold InOrderStep at 1. rewrite Hrt, Hro.
      destruct bal'; [lia|]. cbn [Nat.eqb].
      rewrite pop_to_paren_all; auto.
      cbn [bind].
      assert (pop_function (tf :: S ++ stk, (post ++ p) ++ ops) = (S ++ stk, ((post ++ p) ++ ops) ++ [tf])) as ->.
      { unfold pop_function. simpl. rewrite HF. reflexivity. }
      rewrite pop_while_all.
      2:{ exact HS. }
      2:{ destruct stk as [|s stk]; auto. destruct (is_sign (t_op s)) eqn:ES; auto.
          apply sign_rank in ES. simpl in Hc. rewrite ES in Hc. destruct Hc as [Hc|[Hc _]]; lia. }
      cbn [bind]. simpl. rewrite <- !app_assoc. reflexivity.
    + rewrite app_nil_r. rewrite !map_app in *.
      rewrite app_assoc. rewrite Hm. simpl. rewrite Hf, <- app_assoc. reflexivity.
    + constructor.
    + lia.
Qed.

Lemma flush_ops ops post :
  Forall (fun t => t_op t <> MATH_LEFT_PARENTHESIS) ops ->
  flush content ops post = Ok (post ++ ops).
Proof.
  revert post; induction ops as [|t ops IH]; intros post H; simpl.
  - now rewrite app_nil_r.
  - inversion H; subst. rewrite IH; auto. rewrite <- app_assoc.
    destruct (t_op t); try reflexivity. congruence.
Qed.

Lemma inorder_ok ts e : rder 0 ts e ->
  exists post, InOrderToPostOrder content ts = Ok post /\ map t_node post = rpn e.
Proof.
  intros H. destruct (machine_ok _ _ _ H [] [] [] 0) as (ops & p & bal & Hrun & Hm & Hops & _).
  - constructor.
  - auto.
  - exact I.
  - exists (p ++ ops). split.
    + unfold InOrderToPostOrder. simpl in Hrun. unfold run in Hrun. rewrite Hrun. cbn [bind].
      rewrite app_nil_r. apply flush_ops. eapply Forall_impl; [|exact Hops]. simpl.
      intros s [Hs _] E. rewrite E in Hs. simpl in Hs; lia.
    + simpl in Hm. rewrite app_nil_r in Hm. exact Hm.
Qed.

(** ** Tree building *)
Lemma build_ok e : forall post stk rest,
  map t_node post = rpn e ->
  exists t, t_node t = embed e /\
    foldM BuildStep (post ++ rest) stk = foldM BuildStep rest (t :: stk).
Proof.
  induction e as [v|x|u a IH|b a IHa c IHc]; intros post stk rest H; simpl in H.
  - destruct post as [|t [|]]; try discriminate. injection H as H. exists t. split; auto.
    simpl. unfold BuildStep, t_type. rewrite H. reflexivity.
  - destruct post as [|t [|]]; try discriminate. injection H as H. exists t. split; auto.
    simpl. unfold BuildStep, t_type. rewrite H. reflexivity.
  - apply map_eq_app in H as (p1 & p2 & -> & H1 & H2).
    destruct p2 as [|t [|]]; try discriminate. injection H2 as H2.
    rewrite <- app_assoc. destruct (IH p1 stk ([t] ++ rest) H1) as (ta & Hta & ->).
    exists (with_node t (set_children (t_node t) (t_node ta) Nil)). split.
    + simpl. rewrite H2, Hta. reflexivity.
    + simpl. unfold BuildStep, t_type, t_op. rewrite H2. simpl. rewrite GetOperatorNum_unop. reflexivity.
  - apply map_eq_app in H as (p1 & p2 & -> & H1 & H2).
    apply map_eq_app in H2 as (p3 & p4 & -> & H3 & H4).
    destruct p4 as [|t [|]]; try discriminate. injection H4 as H4.
    rewrite <- app_assoc. destruct (IHa p1 stk ((p3 ++ [t]) ++ rest) H1) as (ta & Hta & ->).
    rewrite <- app_assoc. destruct (IHc p3 (ta :: stk) ([t] ++ rest) H3) as (tc & Htc & ->).
    exists (with_node t (set_children (t_node t) (t_node ta) (t_node tc))). split.
    + simpl. rewrite H4, Hta, Htc. reflexivity.
    + simpl. unfold BuildStep, t_type, t_op. rewrite H4. simpl. rewrite GetOperatorNum_binop. reflexivity.
Qed.

Lemma build_tree_ok e post : map t_node post = rpn e -> BuildExpressionTree content post = Ok (embed e).
Proof.
  intros H. unfold BuildExpressionTree. destruct (build_ok e post [] [] H) as (t & Ht & E).
  rewrite app_nil_r in E. rewrite E. simpl. now rewrite Ht.
Qed.

(** ** Resolution of signs *)
Definition sym_op (c : ascii) (unary : bool) : math_op := BaseOperatorCharToEnum c unary.

Definition stok_node (unary : bool) (t : stok K) : node K :=
  match t with
  | SNum v => mkNum v
  | SVar x => N VARIABLE MATH_NULL (n_ofZ 0) x Nil Nil
  | SFun u => op_node (unop_op u)
  | SSym c => op_node (BaseOperatorCharToEnum c unary)
  | SLP => op_node MATH_LEFT_PARENTHESIS
  | SRP => op_node MATH_RIGHT_PARENTHESIS
  end.

(** [resolves unary ts toks]: the tokens [toks] carry the nodes of [ts] when the first
    token is read in a context where a sign is unary iff [unary]. *)
Fixpoint resolves (unary : bool) (ts : list (stok K)) (toks : list (token K)) : Prop :=
  match ts, toks with
  | [], [] => True
  | t :: ts', k :: toks' => t_node k = stok_node unary t /\ resolves (after t) ts' toks'
  | _, _ => False
  end.

Definition after_list (unary : bool) (ts : list (stok K)) : bool :=
  match rev ts with [] => unary | t :: _ => after t end.

Lemma after_list_cons unary (t : stok K) ts : after_list unary (t :: ts) = after_list (after t) ts.
Proof. unfold after_list. simpl. destruct (rev ts) eqn:E; reflexivity. Qed.

Lemma resolves_app ts1 : forall unary ts2 toks,
  resolves unary (ts1 ++ ts2) toks <->
  exists k1 k2, toks = k1 ++ k2 /\ resolves unary ts1 k1 /\ resolves (after_list unary ts1) ts2 k2.
Proof.
  induction ts1 as [|t ts1 IH]; intros unary ts2 toks; simpl.
  - split.
    + intros H. exists [], toks. auto.
    + intros ([|] & k2 & -> & H1 & H2); [exact H2|destruct H1].
  - destruct toks as [|k toks].
    + split; [tauto|]. intros ([|] & k2 & E & H1 & H2); [destruct H1|discriminate].
    + rewrite IH. split.
      * intros [H1 (k1 & k2 & -> & H2 & H3)]. exists (k :: k1), k2. rewrite after_list_cons. auto.
      * intros ([|k' k1] & k2 & E & H1 & H2); [destruct H1|]. injection E as -> ->.
        destruct H1 as [H1 H1']. rewrite after_list_cons in H2. split; auto. exists k1, k2. auto.
Qed.

Lemma after_list_app u ts (t : stok K) : after_list u (ts ++ [t]) = after t.
Proof. unfold after_list. rewrite rev_app_distr. reflexivity. Qed.

Lemma after_list_app_cons u ts (t : stok K) ts' : after_list u (ts ++ t :: ts') = after_list (after t) ts'.
Proof. unfold after_list. rewrite rev_app_distr. simpl. destruct (rev ts'); reflexivity. Qed.

Lemma derives_after k ts (e : expr K) : derives k ts e -> forall u, after_list u ts = false.
Proof.
  induction 1; intros w; auto.
  - rewrite after_list_app_cons. auto.
  - rewrite after_list_app_cons. auto.
  - rewrite after_list_cons. auto.
  - rewrite app_comm_cons, after_list_app. auto.
  - rewrite !app_comm_cons, after_list_app. auto.
Qed.

Lemma derives_rder k ts (e : expr K) : derives k ts e -> forall toks,
  resolves true ts toks -> rder k toks e.
Proof.
  induction 1 as [k ts e Hk H IH|k c b ts1 e1 ts2 e2 Hop H1 IH1 H2 IH2
    |ts1 e1 ts2 e2 H1 IH1 H2 IH2|c u ts e Hop H IH|v|x|ts e H IH
    |u name ts e Hu H IH]; intros toks Hr.
  - apply rd_up; auto.
  - apply resolves_app in Hr as (k1 & k2 & -> & Hr1 & Hr2).
    destruct k2 as [|t k2]; [destruct Hr2|]. destruct Hr2 as [Ht Hr2].
    rewrite (derives_after _ _ _ H1) in Ht.
    eapply rd_left; eauto. unfold tok_is. rewrite Ht. destruct Hop; reflexivity.
  - apply resolves_app in Hr as (k1 & k2 & -> & Hr1 & Hr2).
    destruct k2 as [|t k2]; [destruct Hr2|]. destruct Hr2 as [Ht Hr2].
    eapply rd_pow; eauto.
  - destruct toks as [|t toks]; [destruct Hr|]. destruct Hr as [Ht Hr].
    eapply rd_sign; eauto. unfold tok_is. rewrite Ht. destruct Hop; reflexivity.
  - destruct toks as [|t [|? ?]]; simpl in Hr; try tauto. destruct Hr as [Ht _]. now apply rd_num.
  - destruct toks as [|t [|? ?]]; simpl in Hr; try tauto. destruct Hr as [Ht _]. now apply rd_var.
  - destruct toks as [|t toks]; [destruct Hr|]. destruct Hr as [Ht Hr].
    apply resolves_app in Hr as (k1 & k2 & -> & Hr1 & Hr2).
    destruct k2 as [|t' [|? ?]]; simpl in Hr2; try tauto. destruct Hr2 as [Ht' _].
    apply rd_paren; auto.
  - destruct toks as [|tf toks]; [destruct Hr|]. destruct Hr as [Hf Hr].
    destruct toks as [|t toks]; [destruct Hr|]. destruct Hr as [Ht Hr].
    apply resolves_app in Hr as (k1 & k2 & -> & Hr1 & Hr2).
    destruct k2 as [|t' [|? ?]]; simpl in Hr2; try tauto. destruct Hr2 as [Ht' _].
    eapply rd_fun; eauto.
Qed.

End Machine.

(** ** Lexing *)
Section Lexing.
Context {K : num_ops}.

Lemma IsBasicOperator_symbol c : IsBasicOperator c = true <-> symbol c.
Proof.
  unfold symbol. split.
  - intros H. destruct c as [[] [] [] [] [] [] [] []]; simpl in H; try discriminate; simpl; tauto.
  - intros H. simpl in H. repeat (destruct H as [<-|H]; [reflexivity|]). destruct H.
Qed.

Lemma is_space_space c : is_space c = true <-> space c.
Proof.
  unfold is_space, space. generalize (nat_of_ascii c). intros n. cbn [In].
  rewrite orb_true_iff, andb_true_iff, Nat.eqb_eq, !Nat.leb_le. lia.
Qed.

Lemma space_not_symbol c : space c -> ~ symbol c.
Proof.
  intros Hs Hc. unfold symbol in Hc. cbn [In] in Hc. unfold space in Hs. cbn [In] in Hs.
  decompose [or] Hc; subst; try contradiction; cbv in Hs; decompose [or] Hs; try discriminate; contradiction.
Qed.

Definition word_char (c : ascii) : Prop := ~ space c /\ ~ symbol c.

Lemma str_app_assoc (a b c : string) : ((a ++ b) ++ c = a ++ b ++ c)%string.
Proof. induction a; simpl; congruence. Qed.
Lemma str_app_nil (a : string) : (a ++ "" = a)%string.
Proof. induction a; simpl; congruence. Qed.
Lemma str_app_length (a b : string) : String.length (a ++ b) = String.length a + String.length b.
Proof. induction a; simpl; congruence. Qed.

Lemma lex_space ws : forall cs pos ret, all_chars space ws ->
  lex (K:=K) (ws ++ cs) pos "" ret = lex cs (pos + String.length ws) "" ret.
Proof.
  induction ws as [|c ws IH]; intros cs pos ret H; simpl.
  - now rewrite Nat.add_0_r.
  - destruct H as [H1 H2]. pose proof (space_not_symbol _ H1) as Hn.
    destruct (IsBasicOperator c) eqn:E; [apply IsBasicOperator_symbol in E; contradiction|].
    apply is_space_space in H1. rewrite H1. cbn [bind]. rewrite IH; auto. f_equal. lia.
Qed.

Lemma lex_word w : forall cs pos word ret, all_chars word_char w ->
  lex (K:=K) (w ++ cs) pos word ret = lex cs (pos + String.length w) (word ++ w) ret.
Proof.
  induction w as [|c w IH]; intros cs pos word ret H; simpl.
  - now rewrite Nat.add_0_r, str_app_nil.
  - destruct H as [[H1 H1'] H2].
    destruct (IsBasicOperator c) eqn:E; [apply IsBasicOperator_symbol in E; contradiction|].
    destruct (is_space c) eqn:E'; [apply is_space_space in E'; contradiction|].
    rewrite IH; auto. rewrite str_app_assoc. simpl. f_equal. lia.
Qed.

(** A completed word followed by a delimiter becomes one token. *)
Lemma lex_delim cs pos w ret t : delimited cs -> w <> "" ->
  confirm_word (K:=K) w (pos - String.length w) = Ok t ->
  lex cs pos w ret = lex cs pos "" (t :: ret).
Proof.
  intros Hd Hw Hc.
  assert (Ht : tryComfirmToken w pos ret = Ok (t :: ret)).
  { unfold tryComfirmToken. destruct w; [congruence|]. rewrite Hc. reflexivity. }
  destruct cs as [|c cs]; cbn [lex].
  - rewrite Ht. reflexivity.
  - rewrite Ht. simpl tryComfirmToken. cbn [bind]. simpl in Hd.
    destruct (IsBasicOperator c) eqn:E; [reflexivity|].
    destruct (is_space c) eqn:E'; [reflexivity|].
    exfalso. destruct Hd as [Hd|Hd].
    + apply is_space_space in Hd. congruence.
    + apply IsBasicOperator_symbol in Hd. congruence.
Qed.

Lemma identifier_legal x : identifier x <-> VarNameIsLegal x = true.
Proof.
  destruct x as [|c s]; simpl; [split; [tauto|discriminate]|].
  assert (Hu : forall c, c = "_"%char <-> nat_of_ascii c = 95).
  { intros d. split; [intros ->; reflexivity|]. intros E.
    rewrite <- (ascii_nat_embedding d), E. reflexivity. }
  assert (H1 : (letter c \/ c = "_"%char) <-> is_word c && negb (is_digit c) = true).
  { unfold letter, is_word, is_digit. rewrite Hu. generalize (nat_of_ascii c). intros n.
    rewrite andb_true_iff, negb_true_iff, !orb_true_iff, !andb_true_iff, !Nat.leb_le, Nat.eqb_eq,
      andb_false_iff, !Nat.leb_gt. lia. }
  assert (H2 : all_chars (fun d => letter d \/ digit d \/ d = "_"%char) s <->
               forallb is_word (list_ascii_of_string s) = true).
  { induction s as [|d s IH]; simpl; [tauto|]. rewrite andb_true_iff, <- IH.
    assert (Hd : (letter d \/ digit d \/ d = "_"%char) <-> is_word d = true).
    { unfold letter, digit, is_word. rewrite Hu. generalize (nat_of_ascii d). intros n.
      rewrite !orb_true_iff, !andb_true_iff, !Nat.leb_le, Nat.eqb_eq. lia. }
    rewrite Hd. tauto. }
  rewrite andb_true_iff, H1, H2. tauto.
Qed.

Lemma identifier_chars x : identifier x -> x <> "" /\ all_chars word_char x.
Proof.
  destruct x as [|c s]; simpl; [tauto|]. intros [H1 H2]. split; [discriminate|].
  assert (Hw : forall d, letter d \/ digit d \/ d = "_"%char -> word_char d).
  { intros d Hd. unfold word_char, space, symbol.
    assert (Hd' : letter d \/ digit d \/ nat_of_ascii d = 95) by (destruct Hd as [Hd|[Hd|Hd]]; [auto|auto|subst d; right; right; reflexivity]).
    unfold letter, digit in Hd'. split.
    - simpl. lia.
    - intros Hs. cbn [In] in Hs. decompose [or] Hs; subst; try contradiction; cbv in Hd'; lia. }
  split; [apply Hw; tauto|].
  induction s as [|d s IH]; simpl in *; auto. destruct H2. auto.
Qed.

Lemma Str2Function_none x :
  (forall u name, fun_name u = Some name -> fnv1a x <> fnv1a name) -> Str2Function x = MATH_NULL.
Proof.
  intros H. unfold Str2Function.
  assert (Hf : forall u name, fun_name u = Some name -> (fnv1a x =? fnv1a name)%Z = false).
  { intros u name Hu. apply Z.eqb_neq. eauto. }
  rewrite (Hf USin), (Hf UCos), (Hf UTan), (Hf UAsin), (Hf UAcos), (Hf UAtan), (Hf USqrt),
    (Hf ULog), (Hf ULog2), (Hf ULog10), (Hf UExp) by reflexivity. reflexivity.
Qed.

Lemma Str2Function_name u name w : fun_name u = Some name -> fnv1a w = fnv1a name ->
  Str2Function w = unop_op u.
Proof.
  intros Hu Hw. unfold Str2Function. rewrite Hw.
  destruct u; simpl in Hu; try discriminate Hu; injection Hu as <-; vm_compute; reflexivity.
Qed.

Lemma confirm_num w v pos : number_word (K:=K) w v ->
  exists t, confirm_word w pos = Ok t /\ t_node t = mkNum v.
Proof.
  intros H. unfold confirm_word. rewrite H, Nat.eqb_refl. eauto.
Qed.

Lemma confirm_not_num w pos :
  (forall v : K, ~ number_word w v) ->
  confirm_word (K:=K) w pos =
    match Str2Function w with
    | MATH_NULL =>
        if VarNameIsLegal w then
          let* n := mkVar w in Ok {| t_node := n; t_s := w; t_pos := pos |}
        else Throw (SingleParseError 0 pos w ("Invalid variable name: " ++ quote ++ w ++ quote)%string)
    | op => let* n := mkOp op in Ok {| t_node := n; t_s := w; t_pos := pos |}
    end.
Proof.
  intros H. unfold confirm_word. destruct (n_stod w) as [[d sz]|] eqn:E; auto.
  destruct (Nat.eqb_spec sz (String.length w)); auto. subst. exfalso. eapply H, E.
Qed.

Lemma confirm_var x pos : identifier x -> (forall v : K, ~ number_word x v) ->
  (forall u name, fun_name u = Some name -> fnv1a x <> fnv1a name) ->
  exists t, confirm_word (K:=K) x pos = Ok t /\ t_node t = N VARIABLE MATH_NULL (n_ofZ 0) x Nil Nil.
Proof.
  intros Hi Hn Hf. rewrite confirm_not_num by auto. rewrite Str2Function_none by auto.
  apply identifier_legal in Hi. unfold mkVar. rewrite Hi. simpl. eauto.
Qed.

Lemma confirm_fun u name w pos : fun_name u = Some name -> fnv1a w = fnv1a name ->
  (forall v : K, ~ number_word w v) ->
  exists t, confirm_word (K:=K) w pos = Ok t /\ t_node t = op_node (unop_op u).
Proof.
  intros Hu Hh Hn. rewrite confirm_not_num by eauto. rewrite (Str2Function_name u name w Hu Hh).
  destruct u; simpl in *; try discriminate; eauto.
Qed.

Lemma lexeme_word t w : lexeme (K:=K) fnv1a t w -> is_word_tok t ->
  w <> "" /\ all_chars word_char w /\
  forall pos, exists k, confirm_word (K:=K) w pos = Ok k /\ forall b, t_node k = stok_node b t.
Proof.
  destruct 1 as [v w H1 H2 H3|x H1 H2 H3|u name w H H1 H2 H3 H4|c H1 H2 H3| |]; simpl; intros Hw; try destruct Hw.
  - repeat split; auto. intros pos. destruct (confirm_num w v pos H3) as (k & ? & ?). eauto.
  - destruct (identifier_chars x H1). repeat split; auto. intros pos.
    destruct (confirm_var x pos H1 H2 H3) as (k & ? & ?). eauto.
  - repeat split; auto. intros pos.
    destruct (confirm_fun u name w pos H H1 H4) as (k & ? & ?). eauto.
Qed.

Lemma unaryOp_node k ret b (t : stok K) : t_node k = stok_node b t -> unaryOp (k :: ret) = after t \/
   (exists c, t = SSym c /\ (c = "("%char \/ c = ")"%char)).
Proof.
  intros H. unfold unaryOp, t_type, t_op. rewrite H. destruct t as [v|x|u|c| |]; simpl; auto.
  - left. destruct u; reflexivity.
  - destruct b, c as [[] [] [] [] [] [] [] []]; simpl; auto; right; eauto.
Qed.

(** Lexing a rendering. *)
Lemma lex_renders ts s : renders (K:=K) fnv1a ts s -> forall pos ret,
  exists toks, lex s pos "" ret = Ok (rev toks ++ ret) /\
    (resolves (unaryOp ret) ts toks).
Proof.
  induction 1 as [ws Hws|ws t w ts rest Hws Hlex Hr IH Hd]; intros pos ret.
  - exists []. split; [|exact I]. rewrite <- (str_app_nil ws), lex_space by auto. reflexivity.
  - rewrite lex_space by auto. set (p1 := pos + String.length ws).
    assert (Hcase : is_word_tok t \/ ~ is_word_tok t) by (destruct t; simpl; tauto).
    destruct Hcase as [Hw|Hw].
    + destruct (lexeme_word t w Hlex Hw) as (Hne & Hch & Hconf).
      rewrite lex_word by auto. simpl.
      destruct (Hconf (p1 + String.length w - String.length w)) as (k & Hk & Hkn).
      rewrite (lex_delim rest _ w ret k) by auto.
      destruct (IH (p1 + String.length w) (k :: ret)) as (toks & E & Hres).
      exists (k :: toks). rewrite E. split.
      * simpl. rewrite <- app_assoc. reflexivity.
      * simpl. split; [apply Hkn|].
        destruct (unaryOp_node k ret true t (Hkn true)) as [Ha|(c & -> & _)]; [congruence|destruct Hw].
    + destruct Hlex as [v w H1 H2 H3|x H1 H2 H3|u name w H H1 H2 H3 H4|c H1 H2 H3| |]; try (exfalso; apply Hw; exact I).
      * (* symbol *)
        apply IsBasicOperator_symbol in H1 as H1'. simpl (String c "" ++ rest)%string. cbn [lex].
        rewrite H1'. cbn [tryComfirmToken bind].
        assert (Hop : mkOp (BaseOperatorCharToEnum c (unaryOp ret)) =
                      Ok (op_node (K:=K) (BaseOperatorCharToEnum c (unaryOp ret)))).
        { unfold symbol in H1. simpl in H1.
          repeat (destruct H1 as [<-|H1]; [destruct (unaryOp ret); reflexivity|]). destruct H1. }
        rewrite Hop. cbn [bind].
        set (k := {| t_node := op_node (BaseOperatorCharToEnum c (unaryOp ret)); t_s := String c ""; t_pos := p1 |}).
        destruct (IH (S p1) (k :: ret)) as (toks & E & Hres).
        exists (k :: toks). rewrite E. split; [simpl; rewrite <- app_assoc; reflexivity|].
        split; [reflexivity|].
        destruct (unaryOp_node k ret (unaryOp ret) (SSym c) eq_refl) as [Ha|(c' & E' & Hc')]; [congruence|].
        injection E' as <-. destruct Hc'; contradiction.
      * simpl ("(" ++ rest)%string. cbn [lex].
        change (IsBasicOperator "("%char) with true. cbn [tryComfirmToken bind BaseOperatorCharToEnum mkOp].
        set (k := {| t_node := N OPERATOR MATH_LEFT_PARENTHESIS (n_ofZ 0) "" Nil Nil; t_s := "("; t_pos := p1 |} : token K).
        destruct (IH (S p1) (k :: ret)) as (toks & E & Hres).
        exists (k :: toks). rewrite E. split; [simpl; rewrite <- app_assoc; reflexivity|].
        split; [reflexivity|]. exact Hres.
      * simpl (")" ++ rest)%string. cbn [lex].
        change (IsBasicOperator ")"%char) with true. cbn [tryComfirmToken bind BaseOperatorCharToEnum mkOp].
        set (k := {| t_node := N OPERATOR MATH_RIGHT_PARENTHESIS (n_ofZ 0) "" Nil Nil; t_s := ")"; t_pos := p1 |} : token K).
        destruct (IH (S p1) (k :: ret)) as (toks & E & Hres).
        exists (k :: toks). rewrite E. split; [simpl; rewrite <- app_assoc; reflexivity|].
        split; [reflexivity|]. exact Hres.
Qed.

Lemma derives_not_nil {V} k ts (e : expr V) : derives k ts e -> ts <> [].
Proof. induction 1; auto; try discriminate; destruct ts1; discriminate. Qed.

Lemma renders_not_empty ts s : renders (K:=K) fnv1a ts s -> ts <> [] -> s <> "".
Proof.
  destruct 1 as [|ws t w ts rest Hws Hlex Hr Hd]; [congruence|]. intros _ E.
  assert (w = "") by (destruct ws; [|discriminate]; destruct w; auto; discriminate). subst.
  inversion Hlex; subst; try congruence.
  - simpl in *. contradiction.
Qed.

Theorem parse_complete ts e s :
  derives 0 ts e -> renders fnv1a ts s -> Parse (K:=K) s = Ok (embed e).
Proof.
  intros Hd Hr. pose proof (renders_not_empty _ _ Hr (derives_not_nil _ _ _ Hd)) as Hne.
  unfold Parse, ParseToTokens.
  destruct (lex_renders _ _ Hr 0 []) as (toks & E & Hres). rewrite app_nil_r in E.
  destruct s as [|c s']; [congruence|]. rewrite E. cbn [bind]. rewrite rev_involutive.
  pose proof (derives_rder _ _ _ Hd _ Hres) as Hrd.
  destruct (inorder_ok (String c s') _ _ Hrd) as (post & -> & Hm). cbn [bind].
  now apply build_tree_ok.
Qed.

End Lexing.
