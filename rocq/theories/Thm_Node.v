(** Properties C01-C05, C07, C09: evaluation, equality, variables of expressions. *)
From Coq Require Import String Ascii List ZArith Bool Reals Lra Sorting.Sorted.
From Flocq Require Import IEEE754.BinarySingleNaN.
From Verif Require Import Base MathOp IEEE NodeModel ExprSpec NodeProofs RealSpec GrammarSpec ParseProofs.
Import ListNotations.
Local Open Scope string_scope.

(** ** C01 *)

(** Vpa on a variable-free expression returns the value of bottom-up evaluation, for every
    arithmetic and whatever the size of the tree. *)
Theorem C01_vpa_value (K : num_ops) (cfg : config K) (e : expr K) (v : K) :
  eval (throwOnInvalidValue cfg) e = Value v -> Vpa cfg (embed e) = Ok v.
Proof. intros H. pose proof (Vpa_reports cfg e) as R. rewrite H in R. exact R. Qed.

(** Conversely a returned value is the value of bottom-up evaluation. *)
Theorem C01_vpa_value_conv (K : num_ops) (cfg : config K) (e : expr K) (v : K) :
  Vpa cfg (embed e) = Ok v -> eval (throwOnInvalidValue cfg) e = Value v.
Proof.
  intros H. pose proof (Vpa_reports cfg e) as R. rewrite H in R.
  destruct (eval _ e) as [w| | |]; simpl in R.
  - congruence.
  - destruct R; discriminate.
  - destruct R; discriminate.
  - destruct R; discriminate.
Qed.

(** Computed with exact reals, Vpa returns the mathematical value whenever there is one. *)
Theorem C01_vpa_exact (cfg : config Rops) (e : expr Rops) (env : string -> R) (r : R) :
  throwOnInvalidValue cfg = true -> no_vars e -> all_nums finite e ->
  (rval env e = Some r <-> Vpa cfg (embed e) = Ok (Some r : Rops)).
Proof.
  intros Ht Hv Hn. pose proof (eval_rval env e Hv Hn) as H. split.
  - intros E. rewrite E in H. apply C01_vpa_value. now rewrite Ht.
  - intros E. apply C01_vpa_value_conv in E. rewrite Ht in E. destruct (rval env e).
    + congruence.
    + destruct H; congruence.
Qed.

(** (1 + 2) * 4 in binary64 and in exact reals. *)
Definition ex_e {V} (n : Z -> V) : expr V := 
  EBin BMul (EBin BAdd (ENum (n 1%Z)) (ENum (n 2%Z))) (ENum (n 4%Z)).

Example C01_ex_b64 :
  match eval (K:=D) true (ex_e b_ofZ) with Value v => b_tostr v = "12" | _ => False end.
Proof. vm_compute. reflexivity. Qed.
Example C01_ex_R : rval (fun _ => 0%R) (ex_e (fun z => Some (IZR z))) = Some 12%R.
Proof. unfold ex_e. simpl. f_equal. lra. Qed.

(** ** C02 *)

(** The exact error contract: outcome = that of left-to-right bottom-up evaluation. *)
Theorem C02_vpa_errors (K : num_ops) (cfg : config K) (e : expr K) :
  reports (Vpa cfg (embed e)) (eval (throwOnInvalidValue cfg) e).
Proof. apply Vpa_reports. Qed.

(** A value returned for an operator expression under throwOnInvalidValue is never inf/nan. *)
Theorem C02_vpa_result_valid (K : num_ops) (cfg : config K) (e : expr K) (v : K) :
  throwOnInvalidValue cfg = true -> (forall w, e <> ENum w) ->
  Vpa cfg (embed e) = Ok v -> ~ invalid v.
Proof.
  intros Ht Hop E. apply C01_vpa_value_conv in E. rewrite Ht in E.
  assert (F : forall o, finish true o = Value v -> ~ invalid v).
  { intros [w|]; simpl; [|discriminate]. destruct (invalidb w) eqn:Ei; [discriminate|].
    intros [= ->] Hi. apply invalidb_spec in Hi. congruence. }
  destruct e as [w|x|u a|b a c]; cbn [eval] in E.
  - now destruct (Hop w).
  - discriminate.
  - destruct (eval true a); try discriminate. eauto.
  - destruct (eval true a); try discriminate. destruct (eval true c); try discriminate. eauto.
Qed.

(** ... whereas a bare literal is returned unchecked (Num(inf)->Vpa() does not throw). *)
Theorem C02_vpa_literal_unchecked (K : num_ops) (cfg : config K) (v : K) :
  Vpa cfg (embed (ENum v)) = Ok v.
Proof. reflexivity. Qed.

(** Vpa throws runtime_error only if some variable occurs, MathError only under
    throwOnInvalidValue; without %,&,| there is no undefined behaviour. *)
Lemma eval_no_int (K : num_ops) s (e : expr K) : no_int_ops e -> eval s e <> IntUndefined.
Proof.
  induction e as [v|x|u a IH|b a IHa c IHc]; simpl; try discriminate.
  - intros H. destruct (eval s a) eqn:E; try discriminate; [|now apply IH].
    destruct (_ && _); discriminate.
  - intros H. assert (H' : no_int_ops a /\ no_int_ops c) by (destruct b; tauto). destruct H' as [Ha Hc].
    destruct (eval s a) eqn:E; try discriminate; [|now apply IHa].
    destruct (eval s c) eqn:E'; try discriminate; [|now apply IHc].
    destruct b; try tauto; simpl; destruct (_ && _); discriminate.
Qed.

Lemma eval_hasvar (K : num_ops) s (e : expr K) : no_vars e -> eval s e <> HasVariable.
Proof.
  induction e as [v|x|u a IH|b a IHa c IHc]; simpl; try discriminate.
  - tauto.
  - intros H. destruct (eval s a) eqn:E; try discriminate; [|now apply IH].
    destruct (_ && _); discriminate.
  - intros [Ha Hc]. destruct (eval s a) eqn:E; try discriminate; [|now apply IHa].
    destruct (eval s c) eqn:E'; try discriminate; [|now apply IHc].
    unfold finish. destruct (bin_sem b v v0); [destruct (_ && _)|]; discriminate.
Qed.

Lemma eval_lenient (K : num_ops) (e : expr K) : eval false e <> InvalidNumber.
Proof.
  induction e as [v|x|u a IH|b a IHa c IHc]; simpl; try discriminate.
  - destruct (eval false a) eqn:E; try discriminate. congruence.
  - destruct (eval false a) eqn:E; try discriminate; [|congruence].
    destruct (eval false c) eqn:E'; try discriminate; [|congruence].
    unfold finish. destruct (bin_sem b v v0); simpl; discriminate.
Qed.

(** ... and a variable anywhere prevents a value. *)
Lemma eval_occurs (K : num_ops) s (e : expr K) x v : occurs x e -> eval s e <> Value v.
Proof.
  intros H. revert v. induction H as [|u a H IH|b a c H IH|b a c H IH]; intros v; simpl.
  - discriminate.
  - destruct (eval s a) eqn:E; try discriminate. now destruct (IH v0).
  - destruct (eval s a) eqn:E; try discriminate. now destruct (IH v0).
  - destruct (eval s a); try discriminate. destruct (eval s c) eqn:E; try discriminate. now destruct (IH v1).
Qed.

Theorem C02_vpa_variable (K : num_ops) (cfg : config K) (e : expr K) x v :
  occurs x e -> Vpa cfg (embed e) <> Ok v.
Proof. intros H E. apply C01_vpa_value_conv in E. exact (eval_occurs K _ e x v H E). Qed.

Theorem C02_vpa_total (K : num_ops) (cfg : config K) (e : expr K) :
  no_int_ops e ->
  (exists v, Vpa cfg (embed e) = Ok v) \/
  (exists msg, Vpa cfg (embed e) = Throw (RuntimeError msg) /\ ~ no_vars e) \/
  (exists info, Vpa cfg (embed e) = Throw (MathError ERROR_INVALID_NUMBER info) /\
                throwOnInvalidValue cfg = true).
Proof.
  intros Hi. pose proof (Vpa_reports cfg e) as R.
  destruct (eval (throwOnInvalidValue cfg) e) eqn:E; simpl in R.
  - eauto.
  - right; left. destruct R as [m R]. exists m. split; auto. intros Hv. now apply (eval_hasvar K (throwOnInvalidValue cfg) e Hv).
  - right; right. destruct R as [m R]. exists m. split; auto.
    destruct (throwOnInvalidValue cfg); auto. now apply eval_lenient in E.
  - now destruct (eval_no_int K (throwOnInvalidValue cfg) e Hi).
Qed.

(** 1/0 throws, x+1 throws the other exception, 1 % 0 is undefined behaviour. *)
Example C02_ex1 : match eval (K:=D) true (EBin BDiv (ENum (b_ofZ 1)) (ENum (b_ofZ 0))) with InvalidNumber => True | _ => False end.
Proof. vm_compute. exact I. Qed.
Example C02_ex2 : match eval (K:=D) true (EBin BAdd (EVar "x") (ENum (b_ofZ 1))) with HasVariable => True | _ => False end.
Proof. vm_compute. exact I. Qed.
Example C02_ex3 : match eval (K:=D) true (EBin BMod (ENum (b_ofZ 1)) (ENum (b_ofZ 0))) with IntUndefined => True | _ => False end.
Proof. vm_compute. exact I. Qed.

(** ** C03 *)
Theorem C03_vpa_nothrow (K : num_ops) (cfg : config K) (e : expr K) :
  throwOnInvalidValue cfg = false -> no_vars e -> no_int_ops e ->
  exists v, eval false e = Value v /\ Vpa cfg (embed e) = Ok v.
Proof.
  intros Ht Hv Hi.
  destruct (eval false e) as [v| | |] eqn:E.
  - exists v. split; auto. apply C01_vpa_value. now rewrite Ht.
  - now apply eval_hasvar in E.
  - now apply eval_lenient in E.
  - now apply eval_no_int in E.
Qed.

Example C03_ex : match eval (K:=D) false (EBin BDiv (ENum (b_ofZ 1)) (ENum (b_ofZ 0))) with
                 | Value v => b_tostr v = "inf" | _ => False end.
Proof. vm_compute. reflexivity. Qed.

(** ** C04 *)

(** Calc on an expression: afterwards the variable holds the number, or is unchanged and the
    exception is the one of Vpa. *)
Theorem C04_calc (K : num_ops) (cfg : config K) (e : expr K) :
  (exists v, eval (throwOnInvalidValue cfg) e = Value v /\ NodeCalc cfg (embed e) = (Ok tt, embed (ENum v)))
  \/ ((forall v, Vpa cfg (embed e) <> Ok v) /\ snd (NodeCalc cfg (embed e)) = embed e /\
      forall ex, fst (NodeCalc cfg (embed e)) = Throw ex <-> Vpa cfg (embed e) = Throw ex).
Proof.
  unfold NodeCalc. destruct (Vpa cfg (embed e)) as [v| | | | |] eqn:E; simpl.
  - left. exists v. split; auto. now apply C01_vpa_value_conv.
  - right. repeat split; congruence.
  - right. repeat split; congruence.
  - right. repeat split; congruence.
  - right. repeat split; congruence.
  - right. repeat split; congruence.
Qed.

Theorem C04_calc_idempotent (K : num_ops) (cfg : config K) (e : expr K) n :
  NodeCalc cfg (embed e) = (Ok tt, n) -> NodeCalc cfg n = (Ok tt, n).
Proof.
  destruct (C04_calc K cfg e) as [(v & _ & E)|(H1 & _ & _)]; intros E'.
  - rewrite E in E'. injection E' as <-. reflexivity.
  - unfold NodeCalc in E'. destruct (Vpa cfg (embed e)); try discriminate. now destruct (H1 a).
Qed.

(** ** C05 *)

(** The hypothesis says that IEEE == holds between the value 0 and itself. *)
Theorem C05_equal_structural (K : num_ops) (e e' : expr K) :
  n_eqb (n_ofZ 0) (n_ofZ 0 : K) = true ->
  exists r, Equal (embed e) (embed e') = Ok r /\ (r = true <-> same e e').
Proof. intros Hz. now apply Equal_same. Qed.

Theorem C05_equal_refl (K : num_ops) (e : expr K) :
  n_eqb (n_ofZ 0) (n_ofZ 0 : K) = true -> all_nums (fun v => n_eqb v v = true) e ->
  Equal (embed e) (embed e) = Ok true.
Proof.
  intros Hz Hn. destruct (Equal_same Hz e e) as (r & -> & Hr).
  f_equal. apply Hr. now apply same_refl.
Qed.

Theorem C05_equal_sym (K : num_ops) (e e' : expr K) :
  n_eqb (n_ofZ 0) (n_ofZ 0 : K) = true ->
  (forall v w : K, n_eqb v w = n_eqb w v) ->
  Equal (embed e) (embed e') = Equal (embed e') (embed e).
Proof.
  intros Hz Hs. destruct (Equal_same Hz e e') as (r & -> & Hr), (Equal_same Hz e' e) as (r' & -> & Hr').
  f_equal. assert (same e e' <-> same e' e).
  { assert (forall v w : K, n_eqb v w = true -> n_eqb w v = true) by (intros v w; now rewrite Hs).
    split; now apply same_sym. }
  destruct r, r'; auto; [symmetry; apply Hr', H, Hr|apply Hr, H, Hr']; reflexivity.
Qed.

Theorem C05_equal_trans (K : num_ops) (e1 e2 e3 : expr K) :
  n_eqb (n_ofZ 0) (n_ofZ 0 : K) = true ->
  (forall u v w : K, n_eqb u v = true -> n_eqb v w = true -> n_eqb u w = true) ->
  Equal (embed e1) (embed e2) = Ok true -> Equal (embed e2) (embed e3) = Ok true ->
  Equal (embed e1) (embed e3) = Ok true.
Proof.
  intros Hz Ht.
  destruct (Equal_same Hz e1 e2) as (r & -> & Hr), (Equal_same Hz e2 e3) as (r' & -> & Hr'),
    (Equal_same Hz e1 e3) as (r'' & -> & Hr''). intros [= ->] [= ->].
  f_equal. apply Hr''. eapply same_trans; eauto; [apply Hr|apply Hr']; reflexivity.
Qed.

(** The side conditions hold in binary64. *)
Lemma b64_zero_eq (L : libm) : n_eqb (n_ofZ 0) (n_ofZ 0 : B64 L) = true.
Proof. reflexivity. Qed.
Lemma b64_eqb_true (a b : b64) : Beqb a b = true <->
  (is_finite a = true /\ is_finite b = true /\ B2R a = B2R b) \/
  (exists s, a = B754_infinity s /\ b = B754_infinity s).
Proof.
  destruct (is_finite a) eqn:Ha; [destruct (is_finite b) eqn:Hb|].
  - rewrite Beqb_correct by auto. split.
    + intros H. left. repeat split; auto. destruct (Flocq.Core.Raux.Req_bool_spec (B2R a) (B2R b)); auto; discriminate.
    + intros [(_ & _ & E)|(s & -> & _)]; [|discriminate]. rewrite E. now apply Flocq.Core.Raux.Req_bool_true.
  - split.
    + destruct a as [s|s| |s m ex H], b as [s'|s'| |s' m' ex' H']; try discriminate;
        unfold Beqb, SpecFloat.SFeqb; simpl; try destruct s; try destruct s'; discriminate.
    + intros [(_ & H & _)|(s & -> & _)]; discriminate.
  - split.
    + destruct a as [s|s| |s m ex H], b as [s'|s'| |s' m' ex' H']; try discriminate;
        unfold Beqb, SpecFloat.SFeqb; simpl; try destruct s; try destruct s'; try discriminate; eauto.
    + intros [(H & _)|(s & -> & ->)]; [discriminate|]. destruct s; reflexivity.
Qed.
Lemma b64_eqb_sym (L : libm) (v w : B64 L) : n_eqb v w = n_eqb w v.
Proof.
  change (Beqb v w = Beqb w v).
  assert (E : forall a b : b64, Beqb a b = true -> Beqb b a = true).
  { intros a b H. apply b64_eqb_true in H as [(H1 & H2 & H3)|(s & -> & ->)]; apply b64_eqb_true; eauto 6. }
  destruct (Beqb v w) eqn:H1, (Beqb w v) eqn:H2; auto.
  - apply E in H1. congruence.
  - apply E in H2. congruence.
Qed.
Lemma b64_eqb_trans (L : libm) (u v w : B64 L) :
  n_eqb u v = true -> n_eqb v w = true -> n_eqb u w = true.
Proof.
  change (Beqb u v = true -> Beqb v w = true -> Beqb u w = true).
  rewrite !b64_eqb_true.
  intros [(H1 & H2 & H3)|(s & -> & ->)] [(H4 & H5 & H6)|(s' & E & E')]; subst; try discriminate.
  - left. repeat split; auto. congruence.
  - injection E as <-. eauto.
Qed.

(** In binary64 the equality theorems need no hypothesis but absence of NaN. *)
Theorem C05_equal_b64 (L : libm) (e e' : expr (B64 L)) :
  exists r, Equal (embed e) (embed e') = Ok r /\ (r = true <-> same e e').
Proof. apply C05_equal_structural, b64_zero_eq. Qed.
Theorem C05_equal_b64_sym (L : libm) (e e' : expr (B64 L)) :
  Equal (embed e) (embed e') = Equal (embed e') (embed e).
Proof. apply C05_equal_sym; [apply b64_zero_eq|apply b64_eqb_sym]. Qed.
Theorem C05_equal_b64_trans (L : libm) (e1 e2 e3 : expr (B64 L)) :
  Equal (embed e1) (embed e2) = Ok true -> Equal (embed e2) (embed e3) = Ok true ->
  Equal (embed e1) (embed e3) = Ok true.
Proof. apply C05_equal_trans; [apply b64_zero_eq|apply b64_eqb_trans]. Qed.

(** A tree with a NaN literal is not Equal to an identical tree (its clone), although
    comparing the object with itself answers true. *)
Theorem C05_nan_clone_not_equal (L : libm) :
  let nan : expr (B64 L) := ENum (B754_nan : B64 L) in
  Equal (embed nan) (embed nan) = Ok false /\ EqualSelf (embed nan) = Ok true.
Proof. split; reflexivity. Qed.

(** ** C07 *)
Theorem C07_all_var_names (K : num_ops) (e : expr K) :
  exists s, GetAllVarNames (embed e) = Ok s /\
    StronglySorted (fun x y => String.compare x y = Lt) s /\ forall x, In x s <-> occurs x e.
Proof. apply GetAllVarNames_embed. Qed.

Example C07_ex : GetAllVarNames (K:=D) (embed (EBin BAdd (EVar "y") (EBin BMul (EVar "x") (EVar "y"))))
  = Ok ["x"; "y"].
Proof. cbv -[D]. reflexivity. Qed.

(** ** C09 *)
Theorem C09_var_names (K : num_ops) (s : string) :
  (identifier s -> mkVar (K:=K) s = Ok (embed (EVar s))) /\
  (~ identifier s -> exists msg, mkVar (K:=K) s = Throw (RuntimeError msg)).
Proof.
  unfold mkVar. split; intros H.
  - apply identifier_legal in H. rewrite H. reflexivity.
  - destruct (VarNameIsLegal s) eqn:E; [apply identifier_legal in E; contradiction|]. eauto.
Qed.
Example C09_ex : VarNameIsLegal "_a1" = true /\ VarNameIsLegal "1a" = false /\ VarNameIsLegal "" = false.
Proof. repeat split. Qed.

(** ** C08: the trees built by the operators and function names (what happens to the operands is in Thm_Api.v) *)
(** Op(op): an operator node without operands; only MATH_NULL is refused. *)
Theorem C08_op (K : num_ops) op : mkOp (K:=K) op =
  (if math_op_eqb op MATH_NULL then Throw (RuntimeError "Illegal MathOperator: MATH_NULL") else Ok (N OPERATOR op (n_ofZ 0) "" Nil Nil)).
Proof. destruct op; reflexivity. Qed.
Theorem C08_value_unary (K : num_ops) u (e : expr K) : UnaryOperator (unop_op u) (embed e) = Ok (embed (EUn u e)).
Proof. unfold UnaryOperator. pose proof (embed_not_nil e). destruct (embed e) eqn:E; [congruence|]. cbn [embed]. now rewrite E. Qed.
Theorem C08_value_binary (K : num_ops) b (e1 e2 : expr K) : BinaryOperator (binop_op b) (embed e1) (embed e2) = Ok (embed (EBin b e1 e2)).
Proof.
  unfold BinaryOperator. pose proof (embed_not_nil e1). pose proof (embed_not_nil e2).
  destruct (embed e1) eqn:E1; [congruence|]. destruct (embed e2) eqn:E2; [congruence|]. cbn [embed]. now rewrite E1, E2.
Qed.
Theorem C08_value_empty (K : num_ops) op (n : node K) : exists w1 w2 w3,
  UnaryOperator op (Nil : node K) = Undef w1 /\ BinaryOperator op Nil n = Undef w2 /\ BinaryOperator op n Nil = Undef w3.
Proof. destruct n; repeat eexists. Qed.
