(** C58: what the solvers write to the standard output, and that it has no influence on the result. *)
From Coq Require Import String Ascii List ZArith Bool Arith Lia Sorted Reals.
From Verif Require Import Base MathOp NodeModel ToStringModel SubsModel DiffModel MatModel LinearModel VarsTableModel SymMatModel NonlinearModel ErrorModel LogModel
  ExprSpec TextSpec SubsSpec MatSpec VarsSpec SymMatSpec NonlinearSpec MatTextSpec LogSpec IEEE NodeProofs MatProofs PivotProofs
  Thm_Vars SymMatProofs NonlinearProofs Thm_Nonlinear Thm_Text Thm_MatText FloatSpec FloatFacts LogProofs Thm_Norms.
From Flocq Require Import Core IEEE754.BinarySingleNaN.
Import ListNotations.
Local Open Scope string_scope.
Local Open Scope list_scope.
Local Open Scope nat_scope.

Section A.
Context {K : num_ops} (cfg : config K) (lv : log_level) (show : K -> string)
  (n : nat) (f : nat -> expr K) (A : symmat K) (t : vars_table K) (xs : list string) (vs : list K).
Hypotheses (Hn : 0 < n) (HA : is_sym n 1 (fun i _ => f i) A) (Ht : holds t xs vs).
Notation start := (fun j => nth j vs (n_ofZ 0)).

(** The log level never changes what a call returns or throws. *)
Theorem C58_linear_same B b : snd (SolveLinear_log cfg lv B b) = SolveLinear cfg B b.
Proof. apply snd_SolveLinear. Qed.
Theorem C58_newton_same : snd (SolveByNewtonRaphson_log cfg lv A t) = SolveByNewtonRaphson cfg A t.
Proof.
  unfold SolveByNewtonRaphson_log, SolveByNewtonRaphson. rewrite snd_wbind. cbn [wret snd]. apply bind_ext. intros q.
  rewrite snd_wbind, (snd_start lv A t n f Hn HA). cbn [bind]. rewrite snd_wbind. cbn [wret snd].
  pose proof (holds_table_at _ _ _ Ht) as Ht'. destruct (table_at_vars _ _ _ Ht') as (-> & _ & Ne & _).
  destruct (Jacobian_cases cfg n f A xs Hn Ne HA) as [(J & jac & -> & HJ & SJ)|E]; [|rewrite E; reflexivity]. cbn [bind].
  rewrite snd_wbind, (snd_jacobian lv J n (length xs) jac Hn (length_pos _ _ _ Ht') SJ). cbn [bind]. apply snd_newton_loop.
Qed.
Theorem C58_lm_same fuel afuel : snd (SolveByLM_log cfg lv show fuel afuel A t) = SolveByLM cfg fuel afuel A t.
Proof.
  unfold SolveByLM_log, SolveByLM.
  rewrite snd_wbind, (snd_start lv A t n f Hn HA). cbn [bind]. rewrite snd_wbind. cbn [wret snd].
  pose proof (holds_table_at _ _ _ Ht) as Ht'. destruct (table_at_vars _ _ _ Ht') as (-> & _ & Ne & _).
  destruct (Jacobian_cases cfg n f A xs Hn Ne HA) as [(J & jac & -> & HJ & SJ)|E]; [|rewrite E; reflexivity]. cbn [bind].
  rewrite snd_wbind, (snd_jacobian lv J n (length xs) jac Hn (length_pos _ _ _ Ht') SJ). cbn [bind].
  rewrite snd_wbind, snd_LM_loop. rewrite <- (bind_ret (LM_loop cfg fuel afuel A J 0 (Values t) t)) at 2. apply bind_ext. intros t'. now rewrite snd_wbind, snd_print_if.
Qed.
Theorem C58_solve_same fuel afuel : snd (Solve_log cfg lv show fuel afuel A t) = Solve cfg fuel afuel A t.
Proof. unfold Solve_log, Solve. destruct (nonlinearMethod cfg); [apply C58_newton_same|apply C58_lm_same]. Qed.

(** Below INFO nothing at all is written; WARN is the level after start and after Reset. *)
Theorem C58_quiet fuel afuel B b : progress lv = false ->
  fst (SolveLinear_log cfg lv B b) = "" /\ fst (Solve_log cfg lv show fuel afuel A t) = "" /\ fst (Solve1_log cfg lv show fuel afuel A) = "".
Proof.
  intros H. pose proof (details_progress _ H) as H'.
  assert (S2 : forall t', silent (Solve_log cfg lv show fuel afuel A t')).
  { intros t'. unfold Solve_log. destruct (nonlinearMethod cfg).
    - unfold SolveByNewtonRaphson_log. apply silent_bind; [reflexivity|intros q]. apply silent_bind; [now apply quiet_start|intros _].
      apply silent_bind; [reflexivity|intros J]. apply silent_bind; [now apply quiet_jacobian|intros _]. now apply quiet_newton_loop.
    - unfold SolveByLM_log. apply silent_bind; [now apply quiet_start|intros _].
      apply silent_bind; [reflexivity|intros J]. apply silent_bind; [now apply quiet_jacobian|intros _]. apply silent_bind; [now apply quiet_LM_loop|intros t2].
      rewrite level_details, H'. reflexivity. }
  split; [now apply quiet_SolveLinear|]. split; [apply S2|]. unfold Solve1_log. do 2 (apply silent_bind; [reflexivity|intros ?]). apply S2.
Qed.
Theorem C58_default : progress default_logLevel = false.
Proof. reflexivity. Qed.

(** Newton-Raphson.  The text is: the equations and the initial values; from level TRACE on the Jacobian; one
    block for every point, numbered from 0, with the values of the equations there.  The last block shows
    vanishing values exactly when a table is returned. *)
Theorem C58_newton_text : exists items,
  (StronglySorted (fun x y => String.compare x y = Lt) (map fst items) /\ forall x v, In (x, v) items <-> pair_in x v xs vs) /\
  let R := SolveByNewtonRaphson_log cfg lv A t in
  let head := shown (progress lv) (start_text n f items) in
  (Jacobian cfg A xs = Terminate /\ R = (head, Terminate)) \/
  exists jac k ps phi M d tail, jacobian cfg xs n f jac /\
    (forall j, j < length xs -> ps 0 j = nth j vs (n_ofZ 0)) /\
    (forall i, i < k -> newton_round cfg xs n f jac (ps i) (match i with O => fun _ => n_ofZ 0 | _ => ps i end) (phi i) (M i) (d i) (ps (S i))) /\
    fst R = (head ++ shown (details lv) (jacobian_text n (length xs) jac) ++
             all_steps k (fun i => step_text lv n (length xs) i (phi i) (M i) (d i) (ps (S i))) ++ tail)%string /\
    match snd R with
    | Ok t' => values_at cfg xs (ps k) n f (phi k) /\ vanish cfg n (phi k) /\ table_at xs t' (ps k) /\
               tail = shown (progress lv) (iteration_text k ++ residual_text n (phi k))
    | r => (values_at cfg xs (ps k) n f (phi k) /\ ~ vanish cfg n (phi k) /\ (maxIterations cfg < Z.of_nat k)%Z /\ r = Throw limit_exceeded /\
            tail = shown (progress lv) (iteration_text k ++ residual_text n (phi k))) \/
           interrupted lv cfg xs n f jac k (ps k) tail
    end.
Proof.
  destruct (C51_table t xs vs Ht) as (items & Ei & So & In'). exists items. split; [auto|]. cbv zeta.
  pose proof (holds_table_at _ _ _ Ht) as Ht'. destruct (table_at_vars _ _ _ Ht') as (Ev & _ & Ne & _).
  destruct (start_zero n t xs vs Hn Ht) as (Q & EQ & HQ).
  assert (E1 : SolveByNewtonRaphson_log cfg lv A t =
    let rest := wbind (wret (Jacobian cfg A xs)) (fun J => wbind (PrintJacobian lv J) (fun _ => Newton_loop_log cfg lv (newton_fuel cfg) A J 0 Q t)) in
    ((shown (progress lv) (start_text n f items) ++ fst rest)%string, snd rest)).
  { unfold SolveByNewtonRaphson_log. rewrite EQ, wret_ok. rewrite (wbind_some _ _ tt) by (now apply (snd_start lv A t n f)). cbv beta.
    rewrite (fst_start lv A t n f items Hn HA Ei), Ev. reflexivity. }
  rewrite E1. clear E1. cbv zeta. cbn [fst snd].
  destruct (Jacobian_cases cfg n f A xs Hn Ne HA) as [(J & jac & -> & HJ & SJ)|E]; [|left; split; [exact E|rewrite E; unfold wbind, wret; cbn [fst snd]; now rewrite app_nil]].
  right. rewrite wret_ok. rewrite (wbind_some _ _ tt) by (exact (snd_jacobian lv J n (length xs) jac Hn (length_pos _ _ _ Ht') SJ)).
  cbn [fst snd]. rewrite (fst_jacobian lv J n (length xs) jac Hn (length_pos _ _ _ Ht') SJ).
  destruct (newton_log_run cfg lv xs n f jac A J Hn HA SJ (newton_fuel cfg) 0 Q (fun _ => n_ofZ 0) t start Ht' HQ) as
    (k & ps & phi & M & d & tail & [P0 PS] & Ef & Oc); [unfold newton_fuel; lia|unfold newton_fuel; lia|].
  exists jac, k, ps, phi, M, d, tail. split; [exact HJ|]. split; [exact P0|]. split; [exact PS|]. change (Z.of_nat 0) with 0%Z in *. cbn [Nat.add] in *. split; [rewrite Ef; reflexivity|].
  destruct Oc as [(V & Et & [(t' & -> & Va & T)|(-> & Va & Hl)])|[Fl In2]]; [auto|left; auto|].
  destruct (snd _); try destruct Fl; auto.
Qed.

(** LM at the levels INFO and DEBUG: the equations and the initial values (also said to be Newton Raphson), then one
    line for every point reached, with the number of trials made so far, accepted or rejected. *)
Theorem C58_lm_text fuel afuel : details lv = false -> exists items,
  (StronglySorted (fun x y => String.compare x y = Lt) (map fst items) /\ forall x v, In (x, v) items <-> pair_in x v xs vs) /\
  let R := SolveByLM_log cfg lv show fuel afuel A t in
  let head := shown (progress lv) (start_text n f items) in
  (Jacobian cfg A xs = Terminate /\ R = (head, Terminate)) \/
  exists jac k ps rej m, jacobian cfg xs n f jac /\ lm_points cfg xs n f jac (fun j => nth j vs (n_ofZ 0)) ps rej k /\
    fst R = (head ++ all_steps m (fun i => shown (progress lv) (iteration_text (lm_count rej i))))%string /\
    (m = S k \/ m = k /\ (snd R = Throw limit_exceeded \/ snd R = OutOfFuel)) /\
    forall t', snd R = Ok t' -> m = S k /\ table_at xs t' (ps k) /\ solved cfg xs n f (ps k).
Proof.
  intros Hd. destruct (C51_table t xs vs Ht) as (items & Ei & So & In'). exists items. split; [auto|]. cbv zeta.
  pose proof (holds_table_at _ _ _ Ht) as Ht'. destruct (table_at_vars _ _ _ Ht') as (Ev & _ & Ne & _).
  unfold SolveByLM_log. rewrite (wbind_some _ _ tt) by (now apply (snd_start lv A t n f)).
  rewrite (fst_start lv A t n f items Hn HA Ei), Ev. cbn [fst snd].
  destruct (Jacobian_cases cfg n f A xs Hn Ne HA) as [(J & jac & -> & HJ & SJ)|E]; [|left; split; [exact E|rewrite E; unfold wbind, wret; cbn [fst snd]; now rewrite app_nil]].
  right. rewrite wret_ok. rewrite (wbind_some _ _ tt) by (exact (snd_jacobian lv J n (length xs) jac Hn (length_pos _ _ _ Ht') SJ)).
  cbn [fst snd]. rewrite (fst_jacobian lv J n (length xs) jac Hn (length_pos _ _ _ Ht') SJ), Hd. cbn [shown append].
  destruct (LM_log_run cfg lv show xs n f jac A J Hn HA SJ Hd afuel fuel 0 (Values t) t start Ht' (table_values _ _ _ Ht')) as (k & ps & rej & m & P & Ef & Em & Ok').
  change (Z.of_nat 0) with 0%Z in *. cbn [Nat.add] in *.
  exists jac, k, ps, rej, m. split; [exact HJ|]. split; [exact P|].
  set (R := LM_loop_log cfg lv show fuel afuel A J 0 (Values t) t) in *.
  assert (ER : forall w, wbind R (fun table => wbind (print_if (level_geb lv TRACE) w) (fun _ => wret (Ok table))) = R).
  { intros w. rewrite level_details, Hd. unfold wbind. destruct R as [s [r|r|r| |r|]]; cbn; now rewrite ?app_nil. }
  rewrite !ER. split; [now rewrite Ef|]. split; [exact Em|exact Ok'].
Qed.
End A.

(** ** [out << x] writes the text of x *)
Theorem C58_stream_node {K : num_ops} (e : expr K) : out_node (embed e) = (text None e, Ok tt).
Proof. unfold out_node. rewrite C15_to_string, wret_ok. reflexivity. Qed.
Theorem C58_stream_mat {K : num_ops} r c (g : nat -> nat -> K) B : 0 < r -> 0 < c -> is_mat r c g B ->
  out_mat B = (grid_text r c (fun i j => n_tostr (g i j)), Ok tt).
Proof. intros Hr Hc H. unfold out_mat. now rewrite (C51_mat r c g B Hr Hc H). Qed.
Theorem C58_stream_symmat {K : num_ops} r c (g : nat -> nat -> expr K) B : 0 < r -> 0 < c -> is_sym r c g B ->
  out_symmat B = (grid_text r c (fun i j => text None (g i j)), Ok tt).
Proof. intros Hr Hc H. unfold out_symmat. rewrite (C51_symmat r c g B Hr Hc H), wret_ok. reflexivity. Qed.
Theorem C58_stream_table {K : num_ops} (t : vars_table K) xs vs : holds t xs vs -> exists items, out_table t = (lines_text n_tostr items, Ok tt) /\
  StronglySorted (fun x y => String.compare x y = Lt) (map fst items) /\ forall x v, In (x, v) items <-> pair_in x v xs vs.
Proof. intros H. destruct (C51_table t xs vs H) as (items & E & H1 & H2). exists items. split; [unfold out_table; now rewrite E|auto]. Qed.

(** ** FindAlpha *)
Lemma snd_FindAlpha {K : num_ops} (x d : mat K) h u : snd (FindAlpha_log x d h u) = FindAlpha x d h u.
Proof.
  unfold FindAlpha_log, FindAlpha. do 3 (rewrite snd_wbind; cbn [wret snd]; apply bind_ext; intros ?).
  match goal with |- _ = FindAlpha_loop ?n _ _ _ _ ?z ?a ?b ?c => generalize n z a b c end.
  induction n as [|n IH]; intros z ac an g; [reflexivity|]. cbn [FindAlpha_loop_log FindAlpha_loop].
  destruct (n_ltb _ _); [|reflexivity]. do 4 (rewrite snd_wbind; cbn [wret snd]; apply bind_ext; intros ?).
  match goal with |- context [if ?b then _ else _] => destruct b; [reflexivity|] end.
  do 6 (rewrite snd_wbind; cbn [wret snd]; apply bind_ext; intros ?). destruct (100 <? z)%Z; [reflexivity|]. apply IH.
Qed.
(** The same result, with or without the message. *)
Theorem C58_find_alpha_same {K : num_ops} (x d : mat K) h u : snd (FindAlpha_log x d h u) = FindAlpha x d h u.
Proof. exact (snd_FindAlpha x d h u). Qed.

(** The message "FindAlpha: over iterator" is never written: the second quotient of the search is already nan. *)
Section FindAlpha64.
Variable L : libm.
Notation D := (B64 L).
Lemma self_diff_quot (v : D) : n_div (n_sub v v) (n_sub v v) = (n_nan : D).
Proof.
  change ((Bdiv mode_NE (Bminus mode_NE v v) (Bminus mode_NE v v) : b64) = B754_nan).
  destruct (is_finite (v : b64)) eqn:Fv; [|destruct v as [s|s| |s m e Hb]; try discriminate Fv; [destruct s; reflexivity|reflexivity]].
  assert (F : fin (Bminus mode_NE v v)).
  { apply sub_fin; auto. replace (B2R (v : b64) - B2R (v : b64))%R with 0%R by ring. rewrite rnd_0, Rabs_R0. apply Raux.bpow_gt_0. }
  pose proof (sub_R v v Fv Fv F) as R0. replace (B2R (v : b64) - B2R (v : b64))%R with 0%R in R0 by ring. rewrite rnd_0 in R0.
  destruct (zero_R _ F R0) as [s ->]. destruct s; reflexivity.
Qed.
Lemma ltb_nan (v : D) : n_ltb v (n_nan : D) = false.
Proof. change (Bltb (v : b64) B754_nan = false). destruct v as [s|s| |s m e Hb]; try reflexivity; destruct s; reflexivity. Qed.
Lemma nan_minus (v : D) : n_abs (n_sub (n_nan : D) v) = n_nan.
Proof. reflexivity. Qed.

Variables (x d : mat D) (h : mat D -> res (mat D)) (u : D).

Lemma loop_nan fuel it ac g : silent (FindAlpha_loop_log (S fuel) x d h u it ac (n_nan : D) g).
Proof. cbn [FindAlpha_loop_log]. rewrite nan_minus, ltb_nan. reflexivity. Qed.

Lemma quotient_again (g : mat D) num den quo a : Vec_sub g g = Ok den -> EachDivide num den = Ok quo -> NormNegInfinity quo = Ok a -> a = n_nan.
Proof.
  intros Hd Hq Ha. unfold EachDivide in Hq. destruct (same_shape num den); [|discriminate]. rewrite va_map2_self in Hq. cbn [bind] in Hq. injection Hq as <-.
  apply pick_in in Ha. cbn [m_data] in Ha. apply in_map_iff in Ha as (v & <- & Hv). apply in_map_iff in Hv as (w & <- & Hw).
  unfold Vec_sub, Vec_map2 in Hd. rewrite Nat.eqb_refl in Hd.
  rewrite va_map2_self in Hd. cbn [bind] in Hd. unfold Vec_of in Hd. destruct (Vec_make _ _) as [z| | | | |]; try discriminate. cbn [bind] in Hd. injection Hd as <-.
  cbn [m_data] in Hw. apply in_map_iff in Hw as (c & <- & _). exact (f_equal (n_abs (n:=D)) (self_diff_quot c)).
Qed.

(** The message "FindAlpha: over iterator" is never written: the second quotient of the search is already nan. *)
Lemma silent_ok {A B} (r : res A) (k : A -> logged B) : (forall a, r = Ok a -> silent (k a)) -> silent (wbind (wret r) k).
Proof. intros H. destruct r; cbn; try reflexivity. unfold silent, wbind. cbn. now apply H. Qed.
Lemma loop_one_silent fuel it an g y : one_or_nan an -> (it < 99)%Z -> Vec_scale_l (n_ofZ 1 : D) d = Ok y -> forall z, Vec_add x y = Ok z -> h z = Ok g ->
  silent (FindAlpha_loop_log (S (S fuel)) x d h u it (n_ofZ 1 : D) an g).
Proof.
  intros [-> | ->] Hit Ey z Ez Eg; [|apply loop_nan]. cbn [FindAlpha_loop_log].
  destruct (n_ltb (n_mul (n_ofZ 1 : D) u) _); [|reflexivity].
  rewrite Ey, wret_ok, Ez, wret_ok, Eg, wret_ok. apply silent_ok. intros [|] _; [reflexivity|].
  apply silent_ok. intros p _. apply silent_ok. intros q _. apply silent_ok. intros num _. apply silent_ok. intros den Ed.
  apply silent_ok. intros quo Eq. apply silent_ok. intros a Ea. rewrite (quotient_again g num den quo a Ed Eq Ea).
  destruct (Z.ltb_spec 100 it); [lia|]. apply loop_nan.
Qed.
Theorem C58_find_alpha_silent : fst (FindAlpha_log x d h u) = "".
Proof.
  unfold FindAlpha_log. do 3 (apply silent_bind; [reflexivity|intros ?]). change 103 with (S (S (S 100))). generalize 100. intros m. cbn [FindAlpha_loop_log].
  destruct (n_ltb _ _); [|reflexivity].
  apply silent_ok. intros y Ey. apply silent_ok. intros z Ez. apply silent_ok. intros g Eg. apply silent_ok. intros [|] _; [reflexivity|].
  apply silent_ok. intros p _. apply silent_ok. intros q _. apply silent_ok. intros num _. apply silent_ok. intros den Ed.
  apply silent_ok. intros quo Eq. apply silent_ok. intros b Eb. pose proof (quotient_norm _ _ _ _ (self_division_64 L) Eq Eb) as Q.
  cbn [Z.ltb Z.compare]. eapply (loop_one_silent m); [exact Q|lia|exact Ey|exact Ez|exact Eg].
Qed.
End FindAlpha64.

(** ** An instance: the equation x - 2 = 0 with x = 0 at the start, level INFO *)
Definition ex_eqs : symmat D := MkSym 1 1 [embed (K:=D) (EBin BSub (EVar "x") (ENum (b_ofZ 2 : D)))].
Definition ex_run (lv : log_level) : logged (vars_table D) :=
  match VarsTable_make ["x"] (b_ofZ 0 : D) with
  | Ok t => Solve_log (default_config D) lv (fun _ => "") 0 0 ex_eqs t
  | _ => wret Terminate
  end.
Definition ex_text : string := "Solve start.
  Method: Newton Raphson
Equations:
[x-2]
Inital Values:
x = 0
====================
iteration times = 0
phi = 
[-2]
====================
iteration times = 1
phi = 
[0]
".
Theorem C58_ex : String.eqb (fst (ex_run INFO)) ex_text = true /\ String.eqb (fst (ex_run WARN)) "" = true.
Proof. split; vm_cast_no_check (eq_refl true). Qed.
Theorem C58_ex_trace : String.eqb (fst (ex_run TRACE)) "Solve start.
  Method: Newton Raphson
Equations:
[x-2]
Inital Values:
x = 0
Jacobian:
[1]
====================
iteration times = 0
phi = 
[-2]
SolveLinear:Ax=b (x is the wanted)
A=
[1]
b=
[2]
deltaq = [2]

ja = [1]

q = [2]

====================
iteration times = 1
phi = 
[0]
" = true.
Proof. vm_cast_no_check (eq_refl true). Qed.
