(** The recursive model of DiffOnce on expressions, and its table of rules. *)
From Coq Require Import String List ZArith Bool Arith Lia.
From Verif Require Import Base MathOp NodeModel SimplifyModel DiffModel ExprSpec NodeProofs.
Import ListNotations.
Local Open Scope string_scope.

Section D.
Context {K : num_ops}.
Implicit Types (e a c : expr K).

Definition numb e : bool := match e with ENum _ => true | _ => false end.
Definition varb e : bool := match e with EVar _ => true | _ => false end.
Definition lit (z : Z) : expr K := ENum (n_ofZ z).

Definition d_un (u : unop) (a a' : expr K) : expr K :=
  match u with
  | UPos => EUn UPos a'
  | UNeg => EUn UNeg a'
  | USin => EBin BMul (EUn UCos a) a'
  | UCos => EBin BMul (EUn UNeg (EUn USin a)) a'
  | UTan => EBin BMul (EBin BDiv (lit 1) (EBin BPow (EUn UCos a) (lit 2))) a'
  | UAsin => EBin BMul (EBin BDiv (lit 1) (EUn USqrt (EBin BSub (lit 1) (EBin BPow a (lit 2))))) a'
  | UAcos => EBin BMul (EBin BDiv (lit (-1)) (EUn USqrt (EBin BSub (lit 1) (EBin BPow a (lit 2))))) a'
  | UAtan => EBin BMul (EBin BDiv (lit 1) (EBin BAdd (lit 1) (EBin BPow a (lit 2)))) a'
  | USqrt => EBin BMul (EBin BDiv (lit 1) (EBin BMul (lit 2) (EUn USqrt a))) a'
  | ULog => EBin BMul (EBin BDiv (lit 1) a) a'
  | ULog2 => EBin BMul (EBin BDiv (lit 1) (EBin BMul a (ENum (n_log (n_ofZ 2))))) a'
  | ULog10 => EBin BMul (EBin BDiv (lit 1) (EBin BMul a (ENum (n_log (n_ofZ 10))))) a'
  | UExp => if varb a then EUn UExp a else EBin BMul (EUn UExp a) a'
  end.

Definition is_sign (u : unop) : bool := match u with UPos | UNeg => true | _ => false end.

Fixpoint dexpr (x : string) e : expr K :=
  match e with
  | ENum _ => lit 0
  | EVar y => if String.eqb y x then lit 1 else lit 0
  | EUn u a => if numb a && negb (is_sign u) then lit 0 else d_un u a (dexpr x a)
  | EBin b a c =>
      match b with
      | BAdd | BSub => if numb a && numb c then lit 0 else EBin b (dexpr x a) (dexpr x c)
      | BMul => if numb a then EBin BMul a (dexpr x c)
                else if numb c then EBin BMul (dexpr x a) c
                else EBin BAdd (EBin BMul (dexpr x a) c) (EBin BMul a (dexpr x c))
      | BDiv => if numb c then EBin BDiv (dexpr x a) c
                else EBin BDiv (EBin BSub (EBin BMul (dexpr x a) c) (EBin BMul a (dexpr x c)))
                       (EBin BPow c (lit 2))
      | BPow =>
          match a, c with
          | ENum _, ENum _ => lit 0
          | _, ENum w => EBin BMul (EBin BMul c (EBin BPow a (ENum (n_sub w (n_ofZ 1))))) (dexpr x a)
          | ENum v, _ => EBin BMul (EBin BMul (EBin BPow a c) (EUn ULog (ENum v))) (dexpr x c)
          | _, _ => EBin BMul e (EBin BAdd (EBin BMul (dexpr x c) (EUn ULog a))
                                           (EBin BMul c (EBin BMul (EBin BDiv (lit 1) a) (dexpr x a))))
          end
      | _ => e
      end
  end.

Lemma isNumber_embed e : isNumber (embed e) = numb e. Proof. destruct e; reflexivity. Qed.
Lemma isVariable_embed e : isVariable (embed e) = varb e. Proof. destruct e; reflexivity. Qed.
Lemma is_null_embed e : is_null (embed e) = false. Proof. destruct e; reflexivity. Qed.
Lemma diff_fuel_pos (n : node K) : 1 <= diff_fuel n. Proof. destruct n; simpl; lia. Qed.

(** One unfolding of DiffOnce on a unary operator. *)
Lemma DiffOnce_un f x u a : DiffOnce (S f) x (embed (EUn u a)) =
  if numb a && negb (is_sign u) then Ok (embed (lit 0))
  else if varb a && match u with UExp => true | _ => false end then Ok (embed (EUn UExp a))
  else let* t' := DiffOnce f x (embed a) in
       match u with
       | UPos => Ok (N OPERATOR MATH_POSITIVE (n_ofZ 0) "" t' Nil)
       | UNeg => Ok (N OPERATOR MATH_NEGATIVE (n_ofZ 0) "" t' Nil)
       | USin => Ok (op2 MATH_MULTIPLY (embed (EUn UCos a)) t')
       | UCos => Ok (op2 MATH_MULTIPLY (embed (EUn UNeg (EUn USin a))) t')
       | UTan => Ok (op2 MATH_MULTIPLY (embed (EBin BDiv (lit 1) (EBin BPow (EUn UCos a) (lit 2)))) t')
       | UAsin => Ok (op2 MATH_MULTIPLY (embed (EBin BDiv (lit 1) (EUn USqrt (EBin BSub (lit 1) (EBin BPow a (lit 2)))))) t')
       | UAcos => Ok (op2 MATH_MULTIPLY (embed (EBin BDiv (lit (-1)) (EUn USqrt (EBin BSub (lit 1) (EBin BPow a (lit 2)))))) t')
       | UAtan => Ok (op2 MATH_MULTIPLY (embed (EBin BDiv (lit 1) (EBin BAdd (lit 1) (EBin BPow a (lit 2))))) t')
       | USqrt => Ok (op2 MATH_MULTIPLY (embed (EBin BDiv (lit 1) (EBin BMul (lit 2) (EUn USqrt a)))) t')
       | ULog => Ok (op2 MATH_MULTIPLY (embed (EBin BDiv (lit 1) a)) t')
       | ULog2 => Ok (op2 MATH_MULTIPLY (embed (EBin BDiv (lit 1) (EBin BMul a (ENum (n_log (n_ofZ 2)))))) t')
       | ULog10 => Ok (op2 MATH_MULTIPLY (embed (EBin BDiv (lit 1) (EBin BMul a (ENum (n_log (n_ofZ 10)))))) t')
       | UExp => Ok (op2 MATH_MULTIPLY (embed (EUn UExp a)) t')
       end.
Proof.
  destruct u; cbn [DiffOnce embed unop_op is_sign negb]; rewrite ?is_null_embed, ?isNumber_embed, ?isVariable_embed;
    rewrite ?andb_true_r, ?andb_false_r; try reflexivity.
Qed.

Lemma DiffOnce_un_ok f x u a : (forall g, f <= S g -> numb a = false \/ is_sign u = true -> DiffOnce g x (embed a) = Ok (embed (dexpr x a))) -> 1 <= f ->
  DiffOnce f x (embed (EUn u a)) = Ok (embed (dexpr x (EUn u a))).
Proof.
  intros H Hf. destruct f as [|f]; [lia|]. rewrite DiffOnce_un. cbn [dexpr].
  destruct (numb a && negb (is_sign u)) eqn:E1; [reflexivity|].
  destruct (varb a && _) eqn:E2.
  - apply andb_true_iff in E2 as [E2 E3]. destruct u; try discriminate. unfold d_un. rewrite E2. reflexivity.
  - rewrite H; [|lia|].
    2:{ apply andb_false_iff in E1 as [E1|E1]; auto. right. now destruct (is_sign u). }
    destruct u; try reflexivity. unfold d_un. rewrite andb_true_r in E2. rewrite E2. reflexivity.
Qed.

Theorem DiffOnce_ok x e : no_int_ops e -> forall f, diff_fuel (embed e) <= f ->
  DiffOnce f x (embed e) = Ok (embed (dexpr x e)).
Proof.
  induction e as [v|y|u a IH|b a IHa c IHc]; intros Hi f Hf.
  - destruct f; [simpl in Hf; lia|reflexivity].
  - destruct f; [simpl in Hf; lia|]. cbn [DiffOnce embed dexpr]. destruct (String.eqb y x); reflexivity.
  - cbn [embed diff_fuel] in Hf. apply DiffOnce_un_ok; [|lia].
    intros g Hg _. apply IH; [exact Hi|lia].
  - cbn [embed diff_fuel] in Hf. destruct f as [|f]; [lia|].
    assert (IHa' : forall g, f <= g + 2 + diff_fuel (embed c) -> no_int_ops a -> DiffOnce g x (embed a) = Ok (embed (dexpr x a))).
    { intros g Hg Ha. apply IHa; auto. lia. }
    assert (IHc' : forall g, f <= g + 2 + diff_fuel (embed a) -> no_int_ops c -> DiffOnce g x (embed c) = Ok (embed (dexpr x c))).
    { intros g Hg Hc. apply IHc; auto. lia. }
    assert (Pa := diff_fuel_pos (embed a)). assert (Pc := diff_fuel_pos (embed c)).
    destruct b; try (destruct Hi; fail); cbn [no_int_ops] in Hi; destruct Hi as [Ha Hc];
      cbn [DiffOnce embed binop_op dexpr]; rewrite ?is_null_embed, ?isNumber_embed; cbn [orb].
    + destruct (numb a && numb c); [reflexivity|]. rewrite IHa', IHc' by (auto; lia). reflexivity.
    + destruct (numb a && numb c); [reflexivity|]. rewrite IHa', IHc' by (auto; lia). reflexivity.
    + destruct (numb a); [rewrite IHc' by (auto; lia); reflexivity|].
      destruct (numb c); rewrite IHa' by (auto; lia); [reflexivity|]. rewrite IHc' by (auto; lia). reflexivity.
    + destruct (numb c); rewrite IHa' by (auto; lia); [reflexivity|]. rewrite IHc' by (auto; lia). reflexivity.
    + destruct (numb a) eqn:Na, (numb c) eqn:Nc; cbn [andb].
      * destruct a; try discriminate. destruct c; try discriminate. reflexivity.
      * destruct a as [v| | |]; try discriminate.
        transitivity (let* u2 := DiffOnce f x (embed c) in
              Ok (op2 MATH_MULTIPLY
                    (op2 MATH_MULTIPLY (op2 MATH_POWER (embed (ENum v)) (embed c)) (op1 MATH_LOG (mkNum v))) u2)).
        { destruct c; try discriminate; reflexivity. }
        rewrite IHc' by (auto; lia). destruct c; try discriminate; reflexivity.
      * destruct c as [w| | |]; try discriminate.
        rewrite IHa' by (auto; lia). destruct a; try discriminate; reflexivity.
      * transitivity (let* w := DiffOnce f x (embed (EBin BMul c (EUn ULog a))) in
              Ok (op2 MATH_MULTIPLY (embed (EBin BPow a c)) w)).
        { destruct a; try discriminate; destruct c; try discriminate; reflexivity. }
        destruct f as [|f]; [lia|].
        assert (E : DiffOnce (S f) x (embed (EBin BMul c (EUn ULog a))) =
          Ok (embed (EBin BAdd (EBin BMul (dexpr x c) (EUn ULog a))
                                           (EBin BMul c (EBin BMul (EBin BDiv (lit 1) a) (dexpr x a)))))).
        { transitivity (let* u' := DiffOnce f x (embed c) in let* v' := DiffOnce f x (embed (EUn ULog a)) in
              Ok (op2 MATH_ADD (N OPERATOR MATH_MULTIPLY (n_ofZ 0) "" u' (embed (EUn ULog a))) (op2 MATH_MULTIPLY (embed c) v'))).
          { destruct c; try discriminate; reflexivity. }
          rewrite IHc' by (auto; lia). cbn [bind].
          rewrite DiffOnce_un_ok; [|intros g Hg _; apply IHa'; auto; lia|lia].
          cbn [dexpr]. rewrite Na. reflexivity. }
        rewrite E. destruct a; try discriminate; destruct c; try discriminate; reflexivity.
Qed.

(** The new tree never contains &, |, %. *)
Lemma dexpr_no_int x e : no_int_ops e -> no_int_ops (dexpr x e).
Proof.
  induction e as [v|y|u a IH|b a IHa c IHc]; cbn [no_int_ops dexpr]; intros H.
  - exact I.
  - destruct (String.eqb y x); exact I.
  - specialize (IH H). destruct (numb a && _); [exact I|]. destruct u; simpl; auto 8.
    destruct (varb a); simpl; auto.
  - destruct b; try tauto; destruct H as [Ha Hc]; specialize (IHa Ha); specialize (IHc Hc).
    1,2: destruct (numb a && numb c); simpl; auto.
    + destruct (numb a); simpl; auto. destruct (numb c); simpl; auto.
    + destruct (numb c); simpl; auto 8.
    + destruct a, c; simpl in *; intuition.
Qed.

Lemma dexpr_occurs x e y : no_int_ops e -> occurs y (dexpr x e) -> occurs y e.
Proof.
  revert y. induction e as [v|z|u a IH|b a IHa c IHc]; cbn [no_int_ops dexpr]; intros y H O.
  - inversion O.
  - destruct (String.eqb z x); inversion O.
  - apply occ_un. specialize (IH y H). destruct (numb a && _); [inversion O|].
    destruct u; cbn [d_un] in O;
      try (destruct (varb a); [inversion O; subst; assumption|]);
      repeat match goal with
      | [ H : occurs _ (lit _) |- _ ] => inversion H
      | [ H : occurs _ (ENum _) |- _ ] => inversion H
      | [ H : occurs _ (EUn _ _) |- _ ] => inversion H; subst; clear H
      | [ H : occurs _ (EBin _ _ _) |- _ ] => inversion H; subst; clear H
      end; auto.
  - destruct b; try (now destruct H); destruct H as [Ha Hc]; specialize (IHa y Ha); specialize (IHc y Hc).
    1,2: destruct (numb a && numb c); inversion O; subst; [apply occ_l|apply occ_r]; auto.
    + destruct (numb a); [inversion O; subst; [apply occ_l|apply occ_r]; auto|].
      destruct (numb c); [inversion O; subst; [apply occ_l|apply occ_r]; auto|].
      inversion O; subst; inversion H0; subst; solve [apply occ_l; auto|apply occ_r; auto].
    + destruct (numb c); [inversion O; subst; [apply occ_l|apply occ_r]; auto|].
      repeat match goal with
      | [ H : occurs _ (lit _) |- _ ] => inversion H
      | [ H : occurs _ (EBin BDiv _ _) |- _ ] => inversion H; subst; clear H
      | [ H : occurs _ (EBin BPow _ _) |- _ ] => inversion H; subst; clear H
      | [ H : occurs _ (EBin BMul _ _) |- _ ] => inversion H; subst; clear H
      | [ H : occurs _ (EBin BSub _ _) |- _ ] => inversion H; subst; clear H
      end; solve [apply occ_l; auto|apply occ_r; auto].
    + assert (G : occurs (K:=K) y (lit 0) \/ occurs y a \/ occurs y c \/ occurs y (dexpr x a) \/ occurs y (dexpr x c)).
      { destruct (numb a) eqn:Na, (numb c) eqn:Nc.
        - destruct a; try discriminate. destruct c; try discriminate. inversion O.
        - assert (O' : occurs y (EBin BMul (EBin BMul (EBin BPow a c) (EUn ULog a)) (dexpr x c)))
            by (destruct a; try discriminate; destruct c; try discriminate; exact O). clear O.
          inversion O'; subst; auto. inversion H0; subst; inversion H1; subst; auto.
        - assert (exists w, c = ENum w /\ occurs y (EBin BMul (EBin BMul c (EBin BPow a (ENum (n_sub w (n_ofZ 1))))) (dexpr x a)))
            as (w & -> & O')
            by (destruct c; try discriminate; eexists; split; [reflexivity|]; destruct a; try discriminate; exact O). clear O.
          inversion O'; subst; auto. inversion H0; subst; inversion H1; subst; auto.
          inversion H2.
        - assert (O' : occurs y (EBin BMul (EBin BPow a c) (EBin BAdd (EBin BMul (dexpr x c) (EUn ULog a))
                                           (EBin BMul c (EBin BMul (EBin BDiv (lit 1) a) (dexpr x a))))))
            by (destruct a; try discriminate; destruct c; try discriminate; exact O). clear O.
          inversion O'; subst; clear O'; [inversion H0; subst; auto|]. inversion H0; subst; clear H0; inversion H1; subst; clear H1; auto;
          inversion H0; subst; clear H0; auto. inversion H1; subst; clear H1; auto. inversion H0. }
      destruct G as [G|[G|[G|[G|G]]]]; [inversion G|..]; solve [apply occ_l; auto|apply occ_r; auto].
Qed.

(** With an &, | or % somewhere DiffOnce throws. *)
Definition throws_rt {A} (r : res A) : Prop := exists msg, r = Throw (RuntimeError msg).

Lemma no_int_dec e : no_int_ops e \/ ~ no_int_ops e.
Proof. induction e as [v|z|u a IH|b a IHa c IHc]; simpl; auto. destruct b; tauto. Qed.

Lemma numb_no_int e : numb e = true -> no_int_ops e. Proof. destruct e; simpl; auto; discriminate. Qed.
Lemma varb_no_int e : varb e = true -> no_int_ops e. Proof. destruct e; simpl; auto; discriminate. Qed.

Lemma throws_bind {A B} (m : res A) (k : A -> res B) : throws_rt m -> throws_rt (let* x := m in k x).
Proof. intros [msg ->]. now exists msg. Qed.

Lemma DiffOnce_un_throws f x u a : ~ no_int_ops a -> 1 <= f ->
  (forall g, f <= S g -> throws_rt (DiffOnce g x (embed a))) -> throws_rt (DiffOnce f x (embed (EUn u a))).
Proof.
  intros Hn Hf H. destruct f as [|f]; [lia|]. rewrite DiffOnce_un.
  destruct (numb a) eqn:E; [now apply numb_no_int in E|]. destruct (varb a) eqn:E'; [now apply varb_no_int in E'|].
  cbn [andb]. apply throws_bind, H. lia.
Qed.

Theorem DiffOnce_throws x e : ~ no_int_ops e -> forall f, diff_fuel (embed e) <= f ->
  throws_rt (DiffOnce f x (embed e)).
Proof.
  induction e as [v|y|u a IH|b a IHa c IHc]; intros Hi f Hf; [now destruct Hi; simpl|now destruct Hi; simpl|..].
  - cbn [embed diff_fuel] in Hf. apply DiffOnce_un_throws; [exact Hi|lia|].
    intros g Hg. apply IH; [exact Hi|lia].
  - cbn [embed diff_fuel] in Hf. destruct f as [|f]; [lia|].
    assert (Pa := diff_fuel_pos (embed a)). assert (Pc := diff_fuel_pos (embed c)).
    assert (Ra : forall g, f <= g + 2 + diff_fuel (embed c) ->
      (no_int_ops a /\ DiffOnce g x (embed a) = Ok (embed (dexpr x a))) \/
      (~ no_int_ops a /\ numb a = false /\ throws_rt (DiffOnce g x (embed a)))).
    { intros g Hg. destruct (no_int_dec a) as [D|D]; [left|right]; split; auto.
      - apply DiffOnce_ok; [auto|lia].
      - split; [|apply IHa; [auto|lia]]. destruct (numb a) eqn:E; auto. now apply numb_no_int in E. }
    assert (Rc : forall g, f <= g + 2 + diff_fuel (embed a) ->
      (no_int_ops c /\ DiffOnce g x (embed c) = Ok (embed (dexpr x c))) \/
      (~ no_int_ops c /\ numb c = false /\ throws_rt (DiffOnce g x (embed c)))).
    { intros g Hg. destruct (no_int_dec c) as [D|D]; [left|right]; split; auto.
      - apply DiffOnce_ok; [auto|lia].
      - split; [|apply IHc; [auto|lia]]. destruct (numb c) eqn:E; auto. now apply numb_no_int in E. }
    destruct b; try (eexists; reflexivity);
    (assert (Hi' : ~ (no_int_ops a /\ no_int_ops c)) by exact Hi); clear Hi;
    cbn [DiffOnce embed binop_op dexpr]; rewrite ?is_null_embed, ?isNumber_embed; cbn [orb].
    1,2: destruct (Ra f) as [[Da Ea]|(Da & Na & Ta)]; [lia| |rewrite Na; now apply throws_bind];
         destruct (Rc f) as [[Dc Ec]|(Dc & Nc & Tc)]; [lia|tauto|];
         rewrite Nc, andb_false_r, Ea; cbn [bind]; now apply throws_bind.
    + destruct (Rc f) as [[Dc Ec]|(Dc & Nc & Tc)]; [lia|destruct (Ra f) as [[Da Ea]|(Da & Na & Ta)]; [lia|tauto|]|].
      * rewrite Na. destruct (numb c); now apply throws_bind.
      * rewrite Nc. destruct (numb a) eqn:Na; [now apply throws_bind|].
        destruct (Ra f) as [[Da Ea]|(Da & _ & Ta)]; [lia|rewrite Ea; cbn [bind]|]; now apply throws_bind.
    + destruct (Rc f) as [[Dc Ec]|(Dc & Nc & Tc)]; [lia|destruct (Ra f) as [[Da Ea]|(Da & Na & Ta)]; [lia|tauto|]|].
      * destruct (numb c); now apply throws_bind.
      * rewrite Nc. destruct (Ra f) as [[Da Ea]|(Da & _ & Ta)]; [lia|rewrite Ea; cbn [bind]|]; now apply throws_bind.
    + destruct (numb a) eqn:Na, (numb c) eqn:Nc; cbn [andb].
      * exfalso. apply Hi'. split; now apply numb_no_int.
      * destruct a as [v| | |]; try discriminate.
        destruct (Rc f) as [[Dc Ec]|(Dc & _ & Tc)]; [lia|exfalso; apply Hi'; split; [exact I|auto]|].
        enough (throws_rt (let* u2 := DiffOnce f x (embed c) in
              Ok (op2 MATH_MULTIPLY
                    (op2 MATH_MULTIPLY (op2 MATH_POWER (embed (ENum v)) (embed c)) (op1 MATH_LOG (mkNum v))) u2))) as G
        by (destruct c; try discriminate; exact G).
        now apply throws_bind.
      * destruct c as [w| | |]; try discriminate.
        destruct (Ra f) as [[Da Ea]|(Da & _ & Ta)]; [lia|exfalso; apply Hi'; split; [auto|exact I]|].
        destruct a; try discriminate; now apply throws_bind.
      * enough (throws_rt (let* w := DiffOnce f x (embed (EBin BMul c (EUn ULog a))) in
              Ok (op2 MATH_MULTIPLY (embed (EBin BPow a c)) w))) as G
        by (destruct a; try discriminate; destruct c; try discriminate; exact G).
        apply throws_bind. destruct f as [|f]; [lia|].
        enough (throws_rt (let* u' := DiffOnce f x (embed c) in let* v' := DiffOnce f x (embed (EUn ULog a)) in
              Ok (op2 MATH_ADD (N OPERATOR MATH_MULTIPLY (n_ofZ 0) "" u' (embed (EUn ULog a))) (op2 MATH_MULTIPLY (embed c) v')))) as G
        by (destruct c; try discriminate; exact G).
        destruct (Rc f) as [[Dc Ec]|(Dc & _ & Tc)]; [lia| |now apply throws_bind].
        rewrite Ec. cbn [bind]. apply throws_bind.
        assert (Da : ~ no_int_ops a) by tauto.
        apply DiffOnce_un_throws; [auto|lia|]. intros g Hg. apply IHa; [auto|lia].
Qed.

Fixpoint dexpr_n (i : nat) (x : string) e : expr K :=
  match i with O => e | S i' => dexpr_n i' x (dexpr x e) end.

Lemma DiffTimes_ok i x : forall e, no_int_ops e -> DiffTimes i x (embed e) = Ok (embed (dexpr_n i x e)).
Proof.
  induction i as [|i IH]; intros e H; [reflexivity|]. cbn [DiffTimes dexpr_n]. unfold DiffOnceRoot.
  rewrite DiffOnce_ok by (auto; lia). cbn [bind]. apply IH. now apply dexpr_no_int.
Qed.

Lemma dexpr_n_no_int i x : forall e, no_int_ops e -> no_int_ops (dexpr_n i x e).
Proof. induction i as [|i IH]; simpl; auto. intros e H. apply IH. now apply dexpr_no_int. Qed.

Lemma dexpr_n_occurs i x : forall e y, no_int_ops e -> occurs y (dexpr_n i x e) -> occurs y e.
Proof.
  induction i as [|i IH]; simpl; auto. intros e y H O. apply (dexpr_occurs x); auto.
  apply IH in O; auto. now apply dexpr_no_int.
Qed.

Lemma dexpr_n_S i x : forall e, dexpr_n (S i) x e = dexpr x (dexpr_n i x e).
Proof. induction i as [|i IH]; intros e; [reflexivity|]. cbn [dexpr_n] in *. now rewrite IH. Qed.

End D.
