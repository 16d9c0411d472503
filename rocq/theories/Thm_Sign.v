(** C88: multiplying equations by -1, and rearranging them, in doubles. *)
From Coq Require Import Sorting.Sorted String List ZArith Bool Arith Lia Permutation Reals Lra.
From Flocq Require Import IEEE754.BinarySingleNaN Core Plus_error.
From Verif Require Import Base MathOp NodeModel DiffModel MatModel LinearModel VarsTableModel SymMatModel NonlinearModel
  ExprSpec SubsSpec MatSpec VarsSpec SymMatSpec NonlinearSpec NodeProofs MatProofs SymMatProofs Thm_Node Thm_Subs Thm_Vars Thm_SymMat
  NonlinearProofs Thm_Nonlinear LinGen AffineSolve IEEE IdenticalProofs ClearSpec ClearLinear SignSpec SignProofs Thm_Order.
Import ListNotations.
Local Open Scope string_scope.
Local Open Scope list_scope.
Local Open Scope nat_scope.

(** A sum is the negative zero only if both terms are. *)
Lemma plus_not_neg0 (x y : b64) : x <> B754_zero true -> Bplus mode_NE x y <> B754_zero true.
Proof.
  intros Hx E. destruct (is_finite x) eqn:Fx, (is_finite y) eqn:Fy.
  - pose proof (Bplus_correct 53 1024 Hprec Hemax mode_NE x y Fx Fy) as C. rewrite E in C.
    destruct (Rlt_bool _ _) eqn:Lt.
    + destruct C as (C1 & _ & C3). cbn [B2R Bsign] in C1, C3.
      assert (Z0 : (B2R x + B2R y = 0)%R).
      { destruct (Req_dec (B2R x + B2R y) 0) as [|N]; [auto|exfalso].
        apply (round_plus_neq_0 radix2 (SpecFloat.fexp 53 1024) (round_mode mode_NE) (B2R x) (B2R y)); auto; apply generic_format_B2R. }
      rewrite Z0, Rcompare_Eq in C3 by reflexivity. symmetry in C3. apply andb_true_iff in C3 as [S1 S2].
      destruct x as [s|s| |s m e H]; try discriminate Fx; cbn [Bsign] in S1; subst; [now apply Hx|].
      destruct y as [s|s| |s m' e' H']; try discriminate Fy; cbn [Bsign] in S2; subst.
      * cbn in E. discriminate E.
      * pose proof (Float_prop.F2R_lt_0 radix2 (Float radix2 (Zneg m) e) eq_refl) as Q1.
        pose proof (Float_prop.F2R_lt_0 radix2 (Float radix2 (Zneg m') e') eq_refl) as Q2.
        cbn [B2R SpecFloat.cond_Zopp] in Z0. cbn [Z.opp] in Z0. lra.
    + destruct C as [C _]. cbn in C. unfold binary_overflow in C. cbn in C. destruct (Bsign x); discriminate C.
  - destruct x as [s|s| |s m e H], y as [s'|s'| |s' m' e' H']; try discriminate Fy; cbn in E; try discriminate; try destruct (eqb s s'); discriminate.
  - destruct x as [s|s| |s m e H], y as [s'|s'| |s' m' e' H']; try discriminate Fx; cbn in E; try discriminate; try destruct (eqb s s'); discriminate.
  - destruct x as [s|s| |s m e H], y as [s'|s'| |s' m' e' H']; try discriminate Fx; cbn in E; try discriminate; try destruct (eqb s s'); discriminate.
Qed.
Lemma plus_twin (q d d' : b64) : q <> B754_zero true -> twin false d d' -> Bplus mode_NE q d' = Bplus mode_NE q d.
Proof.
  intros Hq [->|[Hd Hd']]; [reflexivity|]. destruct d; try contradiction; destruct d'; try contradiction.
  destruct q as [[|]|s1| |s1 m e H]; try reflexivity; [now exfalso; apply Hq|]. destruct s, s0; reflexivity.
Qed.

Section Sign.
Context (L : libm) (cfg : config (B64 L)).
Notation K := (B64 L).
Notation tw s := (fun a b : K => twin s (a : b64) (b : b64)).
Variables (n : nat) (xs : list string) (f f' : nat -> expr K) (pi : nat -> nat) (sg : nat -> bool).
(** Which points are considered. *)
Variable P : (nat -> K) -> Prop.

(** Wherever equation [pi i] of the first system has a value, equation i of the second has that value, negated if [sg i]. *)
Definition signed_values : Prop := forall p phi, P p -> values_at cfg xs p n f phi ->
  exists phi', values_at cfg xs p n f' phi' /\ forall i, i < n -> tw (sg i) (phi (pi i)) (phi' i).
(** The same for the derivatives. *)
Definition signed_jacobian (jac jac' : nat -> nat -> expr K) : Prop := forall p M, P p ->
  (forall i, i < n -> values_at cfg xs p (length xs) (jac i) (M i)) ->
  exists M', (forall i, i < n -> values_at cfg xs p (length xs) (jac' i) (M' i)) /\
    forall i j, i < n -> j < length xs -> tw (sg i) (M (pi i) j) (M' i j).

Hypotheses (Hn : 0 < n) (En : length xs = n) (Hpi : rearrangement n pi) (Nd : NoDup xs).
Hypothesis Heps : n_ltb (n_ofZ 0 : K) (epsilon cfg) = true.
Hypothesis SV : signed_values.

Lemma vanish_one s (a b : K) : tw s a b -> n_ltb (n_abs (n_sub b (n_ofZ 0))) (epsilon cfg) = n_ltb (n_abs (n_sub a (n_ofZ 0))) (epsilon cfg).
Proof using.
  intros H. f_equal. apply (twin_abs s). change (n_ofZ 0 : K) with (B754_zero false : b64).
  change (twin s (Bminus mode_NE (a : b64) (B754_zero false)) (Bminus mode_NE (b : b64) (B754_zero false))).
  apply twin_minus; [exact H|]. right. split; exact Logic.I.
Qed.
Lemma vanish_sign phi phi' : (forall i, i < n -> tw (sg i) (phi (pi i)) (phi' i)) -> (vanish cfg n phi' <-> vanish cfg n phi).
Proof using Hpi.
  intros T. split; intros V i Hi.
  - destruct (pi_onto n pi Hpi i Hi) as (k & Hk & <-). rewrite <- (vanish_one _ _ _ (T k Hk)). now apply V.
  - rewrite (vanish_one _ _ _ (T i Hi)). apply V. now apply (pi_lt n pi Hpi).
Qed.
Lemma values_same e p k v w : values_at cfg xs p k e v -> values_at cfg xs p k e w -> forall i, i < k -> v i = w i.
Proof using Nd.
  intros Hv Hw i Hi. destruct (point_exists xs p Nd) as [env E].
  destruct (Hv i Hi) as [_ V]. destruct (Hw i Hi) as [_ W]. specialize (V env E). specialize (W env E). congruence.
Qed.

Lemma linear_sign M M' b b' d (q : nat -> K) : linear_solution cfg n (length xs) M b d -> clear_pivots cfg n M b ->
  (forall i j, i < n -> j < n -> tw (sg i) (M (pi i) j) (M' i j)) -> (forall i, i < n -> tw (sg i) (b (pi i)) (b' i)) ->
  (forall j, j < n -> (q j : b64) <> B754_zero true) ->
  exists d', linear_solution cfg n (length xs) M' b' d' /\ forall j, j < n -> n_add (q j) (d' j) = n_add (q j) (d j).
Proof using Hn En Hpi Heps.
  rewrite En. intros (MA & MB & X & HMA & HMB & E & HX) C TM Tb Hq.
  destruct (is_mat_build n n M') as [MA' HMA']. destruct (is_mat_build n 1 (fun i _ => b' i)) as [MB' HMB'].
  destruct (signs_linear L cfg Heps n M M' b b' pi sg MA MB MA' MB' Hn Hpi HMA HMB HMA' HMB' TM Tb C) as (h & h' & X1 & X2 & E1 & H1 & E2 & H2 & T).
  exists h'. split; [exists MA', MB', X2; auto|]. intros j Hj.
  assert (Q : h j = d j).
  { rewrite E in E1. injection E1 as <-. destruct H1 as (_ & _ & _ & V1). destruct HX as (_ & _ & _ & V2). specialize (V1 j 0 Hj ltac:(lia)). specialize (V2 j 0 Hj ltac:(lia)). congruence. }
  rewrite <- Q. apply plus_twin; [now apply Hq|now apply T].
Qed.

Variable start : nat -> K.
Lemma point_not_neg0 jac k ps : newton_points cfg xs n f jac start ps k -> forall i, i <= k ->
  forall j, j < n -> ((match i with O => fun _ => n_ofZ 0 | S _ => ps i end) j : b64) <> B754_zero true.
Proof using En.
  clear Hn Heps. intros [_ PS] i. induction i as [|i IH]; intros Hi j Hj; [intro; discriminate|].
  destruct (PS i ltac:(lia)) as (phi & M & d & _ & _ & _ & Hq). rewrite Hq by lia. apply plus_not_neg0. apply IH; [lia|exact Hj].
Qed.
(** Newton's method only meets such points. *)
Definition stays : Prop := forall jac k ps, jacobian cfg xs n f jac -> newton_points cfg xs n f jac start ps k -> P (ps k).
Lemma points_sign jac jac' k ps : clear_run cfg n f xs start -> stays -> jacobian cfg xs n f jac -> signed_jacobian jac jac' ->
  newton_points cfg xs n f jac start ps k -> (forall i, i < k -> ~ solved cfg xs n f (ps i)) ->
  newton_points cfg xs n f' jac' start ps k.
Proof using Hn En Hpi Heps SV.
  intros C St HJ SJ NP Ns. pose proof (point_not_neg0 jac k ps NP) as NZ. destruct NP as [P0 PS]. split; [exact P0|]. intros i Hi.
  assert (Pi : P (ps i)) by (apply (St jac i ps HJ); split; [exact P0|intros; apply PS; lia]).
  destruct (PS i Hi) as (phi & M & d & V & VM & Li & Hq). destruct (SV _ _ Pi V) as (phi' & V' & T). destruct (SJ _ _ Pi VM) as (M' & VM' & TM).
  destruct (linear_sign M M' (fun l => n_neg (phi l)) (fun l => n_neg (phi' l)) d (match i with O => fun _ => n_ofZ 0 | S _ => ps i end)) as (d' & Li' & E).
  - exact Li.
  - apply (C jac i ps phi M HJ); [split; [exact P0|intros; apply PS; lia]|exact V| |].
    + intros Va. apply (Ns i Hi). exists phi. auto.
    + intros l Hl. rewrite <- En. now apply VM.
  - intros l j Hl Hj. apply TM; [exact Hl|lia].
  - intros l Hl. apply twin_opp. now apply T.
  - intros j Hj. apply (NZ i); [lia|exact Hj].
  - exists phi', M', d'. split; [exact V'|]. split; [exact VM'|]. split; [exact Li'|]. intros j Hj. rewrite Hq by auto. symmetry. apply E. lia.
Qed.
Lemma solved_sign p : P p -> solved cfg xs n f p -> solved cfg xs n f' p.
Proof using Hpi SV. intros Pp (phi & V & Va). destruct (SV _ _ Pp V) as (phi' & V' & T). exists phi'. split; [exact V'|now apply (vanish_sign phi)]. Qed.
Lemma unsolved_sign p phi : P p -> values_at cfg xs p n f phi -> ~ vanish cfg n phi -> ~ solved cfg xs n f' p.
Proof using Hpi SV Nd.
  intros Pp V Nv (psi & W & Va). destruct (SV _ _ Pp V) as (phi' & V' & T). apply Nv. apply (vanish_sign phi phi' T).
  eapply vanish_ext; [|exact Va]. intros i Hi. now apply (values_same f' p n psi phi').
Qed.
End Sign.

Section Results.
Context (L : libm) (cfg : config (B64 L)).
Notation K := (B64 L).
Notation tw s := (fun a b : K => twin s (a : b64) (b : b64)).
Variables (n : nat) (f f' : nat -> expr K) (pi : nat -> nat) (sg : nat -> bool) (A B : symmat K) (xs : list string).
Variable P : (nat -> K) -> Prop.

(** SolveLinear on the rows pi 0, pi 1, ..., row i negated if [sg i]: the same vector up to the sign of zeros. *)
Theorem C88_linear (M M' : nat -> nat -> K) (v v' : nat -> K) MA b MA' b' : n_ltb (n_ofZ 0 : K) (epsilon cfg) = true ->
  0 < n -> rearrangement n pi -> is_mat n n M MA -> is_vec n v b -> is_mat n n M' MA' -> is_vec n v' b' ->
  (forall i j, i < n -> j < n -> tw (sg i) (M (pi i) j) (M' i j)) -> (forall i, i < n -> tw (sg i) (v (pi i)) (v' i)) ->
  clear_pivots cfg n M v ->
  exists h h' X X', SolveLinear cfg MA b = Ok X /\ is_vec n h X /\ SolveLinear cfg MA' b' = Ok X' /\ is_vec n h' X' /\
    forall i, i < n -> tw false (h i) (h' i).
Proof using. intros He Hn Hpi HA Hb HA' Hb' TM Tv C. exact (signs_linear L cfg He n M M' v v' pi sg MA b MA' b' Hn Hpi HA Hb HA' Hb' TM Tv C). Qed.

(** Newton-Raphson: the same table, bit for bit, or the iteration limit in both cases. *)
Theorem C88_newton t vs : n_ltb (n_ofZ 0 : K) (epsilon cfg) = true -> 0 < n -> length xs = n -> rearrangement n pi ->
  is_sym n 1 (fun i _ => f i) A -> is_sym n 1 (fun i _ => f' i) B -> VarsSpec.holds t xs vs ->
  signed_values L cfg n xs f f' pi sg P ->
  (forall jac, jacobian cfg xs n f jac -> exists jac', jacobian cfg xs n f' jac' /\ signed_jacobian L cfg n xs pi sg P jac jac') ->
  stays L cfg n xs f P (fun j => nth j vs (n_ofZ 0)) -> clear_run cfg n f xs (fun j => nth j vs (n_ofZ 0)) ->
  (forall t', SolveByNewtonRaphson cfg A t = Ok t' -> SolveByNewtonRaphson cfg B t = Ok t') /\
  (SolveByNewtonRaphson cfg A t = Throw limit_exceeded -> SolveByNewtonRaphson cfg B t = Throw limit_exceeded).
Proof using.
  intros He Hn En Hpi HA HB Ht SV SJ St C. destruct (table_at_vars _ _ _ (holds_table_at _ _ _ Ht)) as (_ & _ & Ne & Nd).
  set (start := fun j => nth j vs (n_ofZ 0 : K)) in *.
  split.
  - intros t' E. destruct (newton_all cfg n f A t xs vs Hn HA Ht) as [[E' _]|(jac & HJ & [(k & ps & t2 & NP & T & So & Ns & Hk & E2)|[(k & ps & _ & _ & _ & E2)|Fl]])].
    + congruence.
    + rewrite E in E2. injection E2 as <-. destruct (SJ jac HJ) as (jac' & HJ' & SJ').
      destruct (jacobian_matrix cfg n xs Hn f' jac' B Ne HB HJ') as (J & EJ & SJB).
      pose proof (points_sign L cfg n xs f f' pi sg P Hn En Hpi He SV start jac jac' k ps C St HJ SJ' NP Ns) as P'.
      destruct (proj2 (C39_newton_result cfg n f' B t xs vs Hn HB Ht J jac' EJ SJB (ps k))) as (t'' & E'' & T'').
      * exists k, ps. split; [exact P'|]. split; [auto|]. split; [apply (solved_sign L cfg n xs f f' pi sg P Hpi SV); [now apply (St jac k ps HJ)|exact So]|].
        split; [|exact Hk]. intros i Hi.
        destruct (proj2 NP i Hi) as (phi & _ & _ & V0 & _). apply (unsolved_sign L cfg n xs f f' pi sg P Hpi Nd SV (ps i) phi); [|exact V0|].
        { apply (St jac i ps HJ). destruct NP as [P0 PS]. split; [exact P0|]. intros l Hl. apply PS. lia. }
        intros Va. apply (Ns i Hi). exists phi. auto.
      * rewrite E''. f_equal. eapply holds_same; [exact T''|exact T].
    + congruence.
    + rewrite E in Fl. destruct Fl.
  - intros E.
    assert (HJ : exists J jac, Jacobian cfg A xs = Ok J /\ jacobian cfg xs n f jac /\ is_sym n (length xs) jac J).
    { destruct (Jacobian_cases cfg n f A xs Hn Ne HA) as [H|H]; [exact H|]. exfalso.
      destruct (newton_all cfg n f A t xs vs Hn HA Ht) as [[E' _]|(jac & HJ & _)]; [congruence|].
      destruct (jacobian_matrix cfg n xs Hn f jac A Ne HA HJ) as (J & EJ & _). congruence. }
    destruct HJ as (J & jac & EJ & HJ & SJA).
    destruct (proj1 (C39_newton_limit cfg n f A t xs vs Hn HA Ht J jac EJ SJA) E) as (ps & k & Hk & NP & V).
    destruct (SJ jac HJ) as (jac' & HJ' & SJ').
    destruct (jacobian_matrix cfg n xs Hn f' jac' B Ne HB HJ') as (J' & EJ' & SJB).
    apply (proj2 (C39_newton_limit cfg n f' B t xs vs Hn HB Ht J' jac' EJ' SJB)).
    exists ps, k. split; [exact Hk|]. split.
    + apply (points_sign L cfg n xs f f' pi sg P Hn En Hpi He SV start jac jac' k ps C St HJ SJ' NP). intros i Hi (psi & V' & Va).
      destruct (V i ltac:(lia)) as (phi & V0 & N). apply N. eapply vanish_ext; [|exact Va]. intros l Hl.
      now apply (values_same L cfg xs Nd f (ps i) n psi phi).
    + intros i Hi. destruct (V i Hi) as (phi & V0 & N). destruct (SV (ps i) phi) as (phi' & V0' & T); [|exact V0|].
      { apply (St jac i ps HJ). destruct NP as [P0 PS]. split; [exact P0|]. intros l Hl. apply PS. lia. }
      exists phi'. split; [exact V0'|].
      intros Va. apply N. now apply (vanish_sign L cfg n pi sg Hpi phi phi' T).
Qed.
End Results.
