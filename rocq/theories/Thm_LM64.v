(** C42, C45: the damped solver in IEEE binary64: when the line search ends, and when it does not. *)
From Coq Require Import String List ZArith Bool Arith Lia Reals Lra Floats.SpecFloat.
From Flocq Require Import IEEE754.BinarySingleNaN Core.
From Verif Require Import Base MathOp NodeModel SubsModel DiffModel MatModel LinearModel VarsTableModel SymMatModel NonlinearModel
  ExprSpec SubsSpec MatSpec VarsSpec SymMatSpec NonlinearSpec NodeProofs MatProofs LinearTotal
  Thm_Node Thm_Subs Thm_Vars SymMatProofs NonlinearProofs Thm_Nonlinear IEEE.
Import ListNotations.
Local Open Scope string_scope.
Local Open Scope list_scope.
Local Open Scope nat_scope.

(** ** Facts about binary64 *)
Notation bmul := (Bmult (prec:=53) (emax:=1024) mode_NE).
Notation badd := (Bplus (prec:=53) (emax:=1024) mode_NE).
Definition zero_like (x : b64) : Prop := exists s, x = B754_zero s.
(** Not negative, not NaN. *)
Definition nonneg (x : b64) : Prop := is_nan x = false /\ Bsign x = false.

Lemma mul_zero_r x s : is_finite x = true -> zero_like (bmul x (B754_zero s)).
Proof. destruct x; try discriminate; intros _; eexists; reflexivity. Qed.
Lemma mul_zero_l x s : is_finite x = true -> zero_like (bmul (B754_zero s) x).
Proof. destruct x; try discriminate; intros _; eexists; reflexivity. Qed.
Lemma add_zeros x y : zero_like x -> zero_like y -> zero_like (badd x y).
Proof. intros [s ->] [s' ->]. cbn. destruct s, s'; eexists; reflexivity. Qed.
Lemma add_zero_same x z : x <> B754_zero true -> zero_like z -> badd x z = x.
Proof. intros H [s ->]. destruct x as [[|]|[|]| |]; try reflexivity; [now destruct H|destruct s; reflexivity]. Qed.
Lemma sq_add_zero x z : zero_like z -> bmul (badd x z) (badd x z) = bmul x x.
Proof. intros [s ->]. destruct x as [[|]|[|]| |]; try reflexivity; destruct s; reflexivity. Qed.
Lemma leb_refl (x : b64) : is_nan x = false -> Bleb x x = true.
Proof.
  intros H. unfold Bleb, SpecFloat.SFleb. destruct (is_finite x) eqn:F.
  - pose proof (Bcompare_correct 53 1024 x x F F) as C. unfold Bcompare in C. rewrite C, Rcompare_Eq; auto.
  - destruct x as [| [|] | |]; try discriminate; reflexivity.
Qed.
Lemma overflow_nonneg (x : b64) : B2SF x = binary_overflow 53 1024 mode_NE false -> nonneg x.
Proof. destruct x as [| s | |]; cbn; intros H; try discriminate. injection H as ->. split; reflexivity. Qed.
Lemma sq_nonneg x : is_nan x = false -> nonneg (bmul x x).
Proof.
  intros H. pose proof (Bmult_correct 53 1024 _ _ mode_NE x x) as C. destruct (is_finite x) eqn:F.
  - destruct (Rlt_bool _ _).
    + destruct C as (_ & C1 & C2). cbn [andb] in C1. assert (N : is_nan (bmul x x) = false) by (destruct (bmul x x); auto; discriminate).
      split; auto. rewrite C2 by auto. apply xorb_nilpotent.
    + rewrite xorb_nilpotent in C. now apply overflow_nonneg.
  - destruct x as [|[|]| |]; try discriminate; split; reflexivity.
Qed.
Lemma B2R_nonneg (x : b64) : nonneg x -> (0 <= B2R x)%R.
Proof.
  intros [_ H]. destruct x as [| | |s m e He]; cbn in *; try lra. subst s. apply Float_prop.F2R_ge_0. cbn. lia.
Qed.
Lemma add_nonneg x y : nonneg x -> nonneg y -> nonneg (badd x y).
Proof.
  intros Hx Hy. destruct (is_finite x) eqn:Fx; [destruct (is_finite y) eqn:Fy|].
  - pose proof (Bplus_correct 53 1024 _ _ mode_NE x y Fx Fy) as C. pose proof (B2R_nonneg x Hx). pose proof (B2R_nonneg y Hy).
    destruct Hx as [_ Sx], Hy as [_ Sy]. rewrite Sx, Sy in C. destruct (Rlt_bool _ _).
    + destruct C as (_ & C1 & C2). split; [destruct (badd x y); auto; discriminate|]. rewrite C2.
      destruct (Rcompare_spec (B2R x + B2R y) 0); auto. lra.
    + apply overflow_nonneg. apply C.
  - destruct y as [|s| |]; try discriminate; [|destruct Hy; discriminate]. destruct Hy as [_ Hy]. cbn in Hy. subst s.
    destruct x as [|s'| |]; try discriminate; split; reflexivity.
  - destruct x as [|s| |]; try discriminate; [|destruct Hx; discriminate]. destruct Hx as [_ Hx]. cbn in Hx. subst s.
    destruct y as [|s'| |]; try (split; reflexivity); [|destruct Hy; discriminate]. destruct Hy as [_ Hy]. cbn in Hy. subst s'. split; reflexivity.
Qed.

Section S.
Variable L : libm.
Notation K := (B64 L).

Lemma fold_nonneg (l : list K) : forall a, nonneg a -> Forall nonneg l -> nonneg (fold_left (n_add (n:=K)) l a).
Proof. induction l as [|x l IH]; intros a Ha Hl; [exact Ha|]. inversion Hl; subst. cbn [fold_left]. apply IH; [apply add_nonneg; auto|auto]. Qed.
Lemma ksum_nonneg n (g : nat -> K) : (forall i, i < n -> nonneg (g i)) -> nonneg (ksum (K:=K) n g).
Proof.
  intros H. unfold ksum, va_sum. destruct n as [|n]; [split; reflexivity|]. cbn [seq map]. apply fold_nonneg; [apply H; lia|].
  apply Forall_map, Forall_forall. intros i Hi. apply in_seq in Hi. apply H. lia.
Qed.
Lemma fold_zeros (l : list K) : forall a, zero_like a -> Forall zero_like l -> zero_like (fold_left (n_add (n:=K)) l a).
Proof. induction l as [|x l IH]; intros a Ha Hl; [exact Ha|]. inversion Hl; subst. cbn [fold_left]. apply IH; [apply add_zeros; auto|auto]. Qed.
Lemma ksum_zeros n (g : nat -> K) : (forall i, i < n -> zero_like (g i)) -> zero_like (ksum (K:=K) n g).
Proof.
  intros H. unfold ksum, va_sum. destruct n as [|n]; [exists false; reflexivity|]. cbn [seq map]. apply fold_zeros; [apply H; lia|].
  apply Forall_map, Forall_forall. intros i Hi. apply in_seq in Hi. apply H. lia.
Qed.
Lemma ksum_eq n (g h : nat -> K) : (forall i, i < n -> g i = h i) -> ksum (K:=K) n g = ksum (K:=K) n h.
Proof. intros H. unfold ksum. f_equal. apply map_ext_in. intros i Hi. apply in_seq in Hi. apply H. lia. Qed.

(** After 1075 halvings the step length is 0. *)
Lemma step_length_0 : step_length (K:=K) 1075 = B754_zero false.
Proof. vm_compute. reflexivity. Qed.

(** ** C45: the line search ends *)
(** If the direction and the derivatives at p are finite, the values at p are not NaN, and no
    coordinate of p is -0, one of the first 1076 step lengths passes the test. *)
Theorem C45_line_search_ends (cfg : config K) xs n f jac t (p d phi : nat -> K) (M : nat -> nat -> K) : n = length xs -> table_at xs t p ->
  values_at cfg xs p n f phi -> (forall i, i < n -> is_nan (phi i : b64) = false) ->
  (forall i, i < n -> values_at cfg xs p (length xs) (jac i) (M i)) -> (forall i j, i < n -> j < n -> is_finite (M i j : b64) = true) ->
  (forall j, j < n -> is_finite (d j : b64) = true) -> (forall j, j < n -> p j <> B754_zero true) ->
  armijo_test cfg xs n f jac p d (step_length 1075) true.
Proof.
  intros En Ht V Nn VM FM Fd Np. rewrite step_length_0. exists phi, phi, M. split; [|split; [exact V|split; [exact VM|]]].
  - intros i Hi. destruct (V i Hi) as [W E]. split; [exact W|]. intros env He. apply E. intros j x Hj. rewrite (He j x Hj).
    assert (j < length xs) by (apply nth_error_Some; congruence). apply add_zero_same; [apply Np; lia|]. apply mul_zero_r. apply Fd. lia.
  - assert (E : sumsq (K:=K) n (fun i => n_add (n:=K) (phi i) (ksum (K:=K) n (fun l => n_mul (n:=K) (n_mul (n:=K) (M l i) (n_mul (n:=K) (n_dec (n:=K) 4 (-1)) (B754_zero false))) (d l))))
             = sumsq (K:=K) n phi).
    { unfold sumsq. apply ksum_eq. intros i Hi. apply sq_add_zero. apply ksum_zeros. intros l Hl.
      assert (Z0 : n_mul (n:=K) (n_dec (n:=K) 4 (-1)) (B754_zero false) = B754_zero false) by (vm_compute; reflexivity). rewrite Z0.
      destruct (mul_zero_r (M l i) false (FM l i Hl Hi)) as [s E]. cbn [n_mul B64] in *. rewrite E. apply mul_zero_l. auto. }
    rewrite E. apply leb_refl. apply ksum_nonneg. intros i Hi. apply sq_nonneg. auto.
Qed.

(** So SolveByLM with a nonnegative limit always ends, unless it reaches a point where a value is
    NaN, or a derivative or the direction is not finite, or a coordinate is -0. *)
Theorem C45_lm_terminates (cfg : config K) n (f : nat -> expr K) A t xs vs : 0 < n -> n = length xs -> is_sym n 1 (fun i _ => f i) A -> holds t xs vs ->
  (0 <= maxIterations cfg)%Z -> forall fuel afuel, (maxIterations cfg < Z.of_nat fuel)%Z -> 1076 <= afuel ->
  SolveByLM cfg fuel afuel A t = OutOfFuel ->
  exists jac k ps rej phi mu z d M, jacobian cfg xs n f jac /\ lm_points cfg xs n f jac (fun j => nth j vs (n_ofZ 0)) ps rej k /\
    values_at cfg xs (ps k) n f phi /\ lm_direction cfg xs n jac phi mu z d /\ (forall i, i < n -> values_at cfg xs (ps k) (length xs) (jac i) (M i)) /\
    ((exists i, i < n /\ is_nan (phi i : b64) = true) \/ (exists i j, i < n /\ j < n /\ is_finite (M i j : b64) = false) \/
     (exists j, j < n /\ is_finite (d j : b64) = false) \/ (exists j, j < n /\ ps k j = B754_zero true)).
Proof.
  intros Hn En HA Ht H0 fuel afuel Hf Ha E. pose proof (C42_lm_ends cfg n f A t xs vs Hn HA Ht fuel afuel H0 Hf) as C. rewrite E in C.
  destruct C as (jac & k & ps & rej & r & HJ & P & (phi & mu & z & d & V & Va & Tr & Dir & Op)).
  destruct (Op 1075) as (phi1 & phi2 & M & V1 & V2 & VM & Lf); [lia|].
  exists jac, k, ps, rej, phi, mu, z, d, M. split; [exact HJ|]. split; [exact P|]. split; [exact V|]. split; [exact Dir|]. split; [exact VM|].
  assert (Nd : NoDup xs) by apply Ht.
  assert (exists t', table_at xs t' (ps k)) as [t' Ht'].
  { destruct (Vec_of_ok (length xs) (ps k)) as (w & _ & Hw); [lia|].
    destruct (SetValues_ok xs t _ (ps k) w (holds_table_at _ _ _ Ht) Hw) as (t' & _ & Ht'). eauto. }
  (* decide each of the finitely many conditions *)
  assert (Dec : forall m (b : nat -> bool), (forall i, i < m -> b i = true) \/ exists i, i < m /\ b i = false).
  { induction m as [|m IH]; intros b; [left; lia|]. destruct (IH b) as [Q|(i & Hi & Q)]; [|right; exists i; split; [lia|auto]].
    destruct (b m) eqn:Eb; [left|right; exists m; auto]. intros i Hi. destruct (Nat.eq_dec i m) as [->|]; [auto|apply Q; lia]. }
  destruct (Dec n (fun i => negb (is_nan (phi i : b64)))) as [D1|(i & Hi & Q)].
  2:{ left. exists i. split; auto. now apply negb_false_iff in Q. }
  destruct (Dec n (fun j => is_finite (d j : b64))) as [D2|(j & Hj & Q)]; [|right; right; left; eauto].
  destruct (Dec n (fun j => match (ps k j : b64) with B754_zero true => false | _ => true end)) as [D3|(j & Hj & Q)].
  2:{ right. right. right. exists j. split; auto. destruct (ps k j : b64) as [[|]| | |]; try discriminate. reflexivity. }
  destruct (Dec (n * n) (fun q => is_finite (M (q / n) (q mod n) : b64))) as [D4|(q & Hq & Q)].
  2:{ right. left. exists (q / n), (q mod n). destruct (divmod_lt n n q Hq). auto. }
  exfalso. destruct (C45_line_search_ends cfg xs n f jac t' (ps k) d phi M En Ht' V) as (psi1 & psi2 & M' & W1 & W2 & WM & Lt); auto.
  - intros i Hi. apply negb_true_iff. exact (D1 i Hi).
  - intros i j Hi Hj. specialize (D4 (i * n + j) (pos_lt n n i j Hi Hj)). destruct (divmod_pos n i j Hj) as [F1 F2]. now rewrite F1, F2 in D4.
  - intros j Hj Q. specialize (D3 j Hj). now rewrite Q in D3.
  - (* the two tests agree *)
    assert (E1 : sumsq (K:=K) n phi1 = sumsq n psi1).
    { apply ksum_eq. intros i Hi. assert (Eq : phi1 i = psi1 i); [|now rewrite Eq].
      destruct (point_exists xs (fun j => n_add (n:=K) (ps k j) (n_mul (n:=K) (d j) (step_length 1075))) Nd) as [env He].
      destruct (V1 i Hi) as [_ Q1]. destruct (W1 i Hi) as [_ Q2]. specialize (Q1 env He). specialize (Q2 env He). congruence. }
    assert (E2 : forall i, i < n -> phi2 i = psi2 i) by (intros i Hi; exact (values_unique _ _ _ _ _ _ _ _ Ht' V2 W2 i Hi)).
    assert (E3 : forall i j, i < n -> j < n -> M i j = M' i j).
    { intros i j Hi Hj. rewrite En in Hj. exact (values_unique _ _ _ _ _ _ _ _ Ht' (VM i Hi) (WM i Hi) j Hj). }
    rewrite E1 in Lf.
    assert (E4 : forall i, i < n -> ksum (K:=K) n (fun l => n_mul (n:=K) (n_mul (n:=K) (M l i) (n_mul (n:=K) (n_dec (n:=K) 4 (-1)) (step_length 1075))) (d l))
       = ksum n (fun l => n_mul (n:=K) (n_mul (n:=K) (M' l i) (n_mul (n:=K) (n_dec (n:=K) 4 (-1)) (step_length 1075))) (d l))).
    { intros i Hi. apply ksum_eq. intros l Hl. now rewrite E3. }
    assert (E5 : sumsq (K:=K) n (fun i => n_add (n:=K) (phi2 i) (ksum n (fun l => n_mul (n:=K) (n_mul (n:=K) (M l i) (n_mul (n:=K) (n_dec (n:=K) 4 (-1)) (step_length 1075))) (d l))))
      = sumsq n (fun i => n_add (n:=K) (psi2 i) (ksum n (fun l => n_mul (n:=K) (n_mul (n:=K) (M' l i) (n_mul (n:=K) (n_dec (n:=K) 4 (-1)) (step_length 1075))) (d l))))).
    { apply ksum_eq. intros i Hi. rewrite E2, E4 by auto. reflexivity. }
    rewrite E5 in Lf. congruence.
Qed.
End S.

(** ** Examples: x*x - 2 = 0, x*y - 6 = 0 *)
Definition ex_eqs : symmat D := MkSym 2 1 [embed (K:=D) (EBin BSub (EBin BMul (EVar "x") (EVar "x")) (ENum (b_ofZ 2)));
  embed (K:=D) (EBin BSub (EBin BMul (EVar "x") (EVar "y")) (ENum (b_ofZ 6)))].
Definition show (r : res (vars_table D)) := match r with Ok t => map (fun '(x, v) => (x, b_tostr v)) (Items t) | _ => [] end.
Definition lm_config : config D := {| throwOnInvalidValue := true; epsilon := n_dec (n:=D) 1 (-9); maxIterations := 100;
  nonlinearMethod := LM; initialValue := n_ofZ (n:=D) 1; allowIndeterminateEquation := false |}.
Example C38_ex_newton : show (Solve1 (default_config D) 0 0 ex_eqs) = [("x", "1.4142135623730951"); ("y", "4.2426406871192848")].
Proof. vm_compute. reflexivity. Qed.
Example C41_ex_lm : show (Solve1 lm_config 101 1076 ex_eqs) = [("x", "1.4142135623730878"); ("y", "4.2426406871193159")].
Proof. vm_compute. reflexivity. Qed.
(** x*x + 3 = 0 has no solution. *)
Definition ex_none : symmat D := MkSym 1 1 [embed (K:=D) (EBin BAdd (EBin BMul (EVar "x") (EVar "x")) (ENum (b_ofZ 3)))].
Definition is_limit (r : res (vars_table D)) : bool := match r with Throw (RuntimeError s) => String.eqb s "迭代次数超出限制" | _ => false end.
Example C39_ex_limit : is_limit (Solve1 (default_config D) 0 0 ex_none) = true.
Proof. vm_compute. reflexivity. Qed.
Example C42_ex_limit : is_limit (Solve1 lm_config 101 1076 ex_none) = true.
Proof. vm_compute. reflexivity. Qed.

(** C49: x - 3 = 0 up to 1 from x = 100.  With maxIterations = 1 the first trial is accepted and is
    returned; with maxIterations = 0 the same trial is made, solves the equation, and the limit is reported. *)
Definition ex_lin : symmat D := MkSym 1 1 [embed (K:=D) (EBin BSub (EVar "x") (ENum (b_ofZ 3)))].
Definition loose_config (m : Z) : config D := {| throwOnInvalidValue := true; epsilon := n_ofZ (n:=D) 1; maxIterations := m;
  nonlinearMethod := LM; initialValue := n_ofZ (n:=D) 100; allowIndeterminateEquation := false |}.
Example C49_ex_result : show (Solve1 (loose_config 1) 10 1076 ex_lin) = [("x", "3.0009699903001064")].
Proof. vm_compute. reflexivity. Qed.
Example C49_ex_limit : is_limit (Solve1 (loose_config 0) 10 1076 ex_lin) = true.
Proof. vm_compute. reflexivity. Qed.
(** Two equations, one unknown: an assertion; the starting point when it is a solution. *)
Definition ex_tall (c : Z) : symmat D := MkSym 2 1 [embed (K:=D) (EBin BSub (EVar "x") (ENum (b_ofZ c))); embed (K:=D) (EBin BSub (EVar "x") (ENum (b_ofZ c)))].
Example C49_ex_not_square : show (Solve1 (loose_config 9) 10 1076 (ex_tall 100)) = [("x", "100")] /\
  (match Solve1 (loose_config 9) 10 1076 (ex_tall 3) with AssertFail _ => true | _ => false end) = true.
Proof. split; vm_compute; reflexivity. Qed.

(** ** C42: the line search does not end on NaN *)
Notation vec1 a := (MkMat 1 1 [a : num D]).
Lemma armijo_nan (f df : mat D -> res (mat D)) (q u w : b64) :
  f (vec1 B754_nan) = Ok (vec1 B754_nan) -> f (vec1 q) = Ok (vec1 u) -> df (vec1 q) = Ok (vec1 w) ->
  forall fuel a, Armijo_loop (K:=D) fuel (vec1 q) (vec1 B754_nan) f df a = OutOfFuel.
Proof.
  intros E1 E2 E3. induction fuel as [|fuel IH]; intros a; [reflexivity|]. cbn [Armijo_loop].
  change (Vec_scale_l (K:=D) a (vec1 B754_nan)) with (Ok (vec1 B754_nan)). cbn [bind].
  assert (EA : Vec_add (K:=D) (vec1 q) (vec1 B754_nan) = Ok (vec1 B754_nan)) by (destruct q; reflexivity). rewrite EA. cbn [bind].
  rewrite E1. cbn [bind]. rewrite E2. cbn [bind]. rewrite E3. cbn [bind].
  change (Transpose (K:=D) (vec1 w)) with (Ok (vec1 w)). cbn [bind].
  change (Mat_scale_l (K:=D) (n_mul (n:=D) (n_dec (n:=D) 4 (-1)) a) (vec1 w)) with (vec1 (n_mul (n:=D) w (n_mul (n:=D) (n_dec (n:=D) 4 (-1)) a))).
  generalize (n_mul (n:=D) w (n_mul (n:=D) (n_dec (n:=D) 4 (-1)) a)). intros v.
  change (Mat_mul (K:=D) (vec1 v) (vec1 B754_nan)) with (Ok (vec1 (n_mul (n:=D) v B754_nan))). cbn [bind].
  change (Mat_add (K:=D) (vec1 u) (vec1 (n_mul (n:=D) v B754_nan))) with (Ok (vec1 (n_add (n:=D) u (n_mul (n:=D) v B754_nan)))). cbn [bind].
  apply IH.
Qed.

(** The equation x = 0 with a table that gives x the value NaN. *)
Definition nan_eqs : symmat D := MkSym 1 1 [embed (K:=D) (EVar "x")].
Definition nan_table : vars_table D := MkTable ["x"] (vec1 B754_nan) [("x", B754_nan : num D)].
Lemma get_ok {T} (r : res T) (d : T) : (match r with Ok _ => true | _ => false end) = true -> r = Ok (match r with Ok a => a | _ => d end).
Proof. destruct r; try discriminate. reflexivity. Qed.

(** The direction computed in one round of LM_inner. *)
Definition direction (cfg : config D) (JaEqs : symmat D) (mu : D) (F : mat D) (table : vars_table D) : res (mat D) :=
  let* J := eval_mat cfg JaEqs table in
  let* Jt := Transpose J in
  let* JtJ := Mat_mul Jt J in
  let* I_0 := Mat_make (m_rows J) (m_cols J) (n_ofZ 0) in
  let* I_n := Ones I_0 in
  let* A := Mat_add JtJ (Mat_scale_l mu I_n) in
  let* JtF := Mat_mul Jt F in
  let* g := ToVec JtF in
  let* b := Vec_neg g in
  SolveLinear cfg A b.
Lemma bind_assoc {A B C} (m : res A) (g : A -> res B) (h : B -> res C) : bind (bind m g) h = bind m (fun a => bind (g a) h).
Proof. now destruct m. Qed.
Lemma inner_direction cfg fuel afuel A J it mu q F t d : direction cfg J mu F t = Ok d ->
  Armijo afuel q d (lm_f cfg A t) (lm_df cfg J t) = OutOfFuel -> LM_inner cfg (S fuel) afuel A J it mu q F t = OutOfFuel.
Proof.
  intros E H. unfold direction in E. cbn [LM_inner].
  repeat match goal with
  | E : bind ?m _ = Ok _ |- _ => let r := fresh "r" in destruct m as [r| | | | |] eqn:?; try discriminate; cbn [bind] in E |- *
  end.
  rewrite E. cbn [bind]. now rewrite H.
Qed.

(** The entry of a 1 x 1 result. *)
Definition is1 (r : res (mat D)) : bool := match r with Ok (MkMat 1 1 [_]) => true | _ => false end.
Definition the1 (r : res (mat D)) : b64 := match r with Ok (MkMat 1 1 [a]) => a | _ => B754_nan end.
Lemma is1_ok r : is1 r = true -> r = Ok (vec1 (the1 r)).
Proof. destruct r as [[[|[|]] [|[|]] [|a [|]]]| | | | |]; try discriminate. reflexivity. Qed.

Section Hang.
Variables (cfg : config D) (A : symmat D) (q : b64) (t : vars_table D).
Let J := match Jacobian cfg A (Vars t) with Ok J => J | _ => MkSym 0 0 [] end.
Hypotheses (EV : Values t = vec1 q) (EJ : (match Jacobian cfg A (Vars t) with Ok _ => true | _ => false end) = true)
  (EF : is1 (eval_vec cfg A t) = true) (Eu : Mat_eq_num cfg (vec1 (the1 (eval_vec cfg A t))) (n_ofZ 0) = false)
  (ED : direction cfg J (n_dec 1 (-5)) (vec1 (the1 (eval_vec cfg A t))) t = Ok (vec1 B754_nan))
  (E1 : lm_f cfg A t (vec1 B754_nan) = Ok (vec1 B754_nan)) (E2 : is1 (lm_f cfg A t (vec1 q)) = true) (E3 : is1 (lm_df cfg J t (vec1 q)) = true).
Lemma hang fuel afuel : SolveByLM cfg fuel afuel A t = OutOfFuel.
Proof.
  unfold SolveByLM. rewrite (get_ok _ (MkSym 0 0 []) EJ). fold J. cbn [bind]. destruct fuel as [|fuel]; [reflexivity|]. cbn [LM_loop].
  rewrite (is1_ok _ EF). cbn [bind]. rewrite Eu, EV. rewrite (inner_direction _ fuel afuel A J 0 _ _ _ _ _ ED); [reflexivity|].
  unfold Armijo. exact (armijo_nan _ _ q _ _ E1 (is1_ok _ E2) (is1_ok _ E3) afuel _).
Qed.
End Hang.

Theorem C42_lm_hangs_on_nan fuel afuel : SolveByLM lm_config fuel afuel nan_eqs nan_table = OutOfFuel.
Proof.
  apply (hang lm_config nan_eqs B754_nan nan_table); [reflexivity|..].
  1,2,6,7: vm_cast_no_check (eq_refl true).
  1: vm_cast_no_check (eq_refl false).
  all: vm_cast_no_check (eq_refl (Ok (vec1 B754_nan))).
Qed.

(** 1e200 * x = 0 from x = 1, with throwOnInvalidValue off: all data are finite, but J'J overflows. *)
Definition big_config : config D := {| throwOnInvalidValue := false; epsilon := n_dec (n:=D) 1 (-9); maxIterations := 100;
  nonlinearMethod := LM; initialValue := n_ofZ (n:=D) 1; allowIndeterminateEquation := false |}.
Definition big_eqs : symmat D := MkSym 1 1 [embed (K:=D) (EBin BMul (ENum (b_dec false 1 200)) (EVar "x"))].
Definition big_table : vars_table D := MkTable ["x"] (vec1 (b_ofZ 1)) [("x", b_ofZ 1 : num D)].
Theorem C42_lm_hangs_on_overflow fuel afuel : SolveByLM big_config fuel afuel big_eqs big_table = OutOfFuel.
Proof.
  apply (hang big_config big_eqs (b_ofZ 1) big_table); [reflexivity|..].
  1,2,6,7: vm_cast_no_check (eq_refl true).
  1: vm_cast_no_check (eq_refl false).
  all: vm_cast_no_check (eq_refl (Ok (vec1 B754_nan))).
Qed.
Example C42_ex_tables : VarsTable_make ["x"] (B754_nan : num D) = Ok nan_table /\ VarsTable_make ["x"] (b_ofZ 1 : num D) = Ok big_table.
Proof. split; reflexivity. Qed.
