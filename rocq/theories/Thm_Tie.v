(** C89: multiplying equations by -1 where they stand, in doubles: pivot ties are allowed. *)
From Coq Require Import Sorting.Sorted String List ZArith Bool Arith Lia Permutation Reals Lra.
From Flocq Require Import IEEE754.BinarySingleNaN Core.
From Verif Require Import Base MathOp NodeModel DiffModel MatModel LinearModel VarsTableModel SymMatModel NonlinearModel
  ExprSpec SubsSpec MatSpec VarsSpec SymMatSpec NonlinearSpec NodeProofs MatProofs SymMatProofs Thm_Node Thm_Subs Thm_Vars Thm_SymMat
  NonlinearProofs Thm_Nonlinear LinGen AffineSolve IEEE IdenticalProofs ClearSpec ClearLinear TieSpec TieProofs SignSpec SignProofs Thm_Order Thm_OrderEx Thm_Sign Thm_SignEx.
Import ListNotations.
Local Open Scope string_scope.
Local Open Scope list_scope.
Local Open Scope nat_scope.

Lemma id_rearr n : rearrangement n (fun i => i).
Proof. unfold rearrangement. rewrite map_id. apply Permutation_refl. Qed.

Section Sign.
Context (L : libm) (cfg : config (B64 L)).
Notation K := (B64 L).
Notation tw s := (fun a b : K => twin s (a : b64) (b : b64)).
Variables (n : nat) (xs : list string) (f f' : nat -> expr K) (sg : nat -> bool).
Notation pi := (fun i : nat => i).
Variable P : (nat -> K) -> Prop.
Hypotheses (Hn : 0 < n) (En : length xs = n) (Nd : NoDup xs).
Hypothesis Heps : n_ltb (n_ofZ 0 : K) (epsilon cfg) = true.
Hypothesis SV : signed_values L cfg n xs f f' pi sg P.

Lemma linear_tie M M' b b' d (q : nat -> K) : linear_solution cfg n (length xs) M b d -> pivots cfg n 0 M ->
  (forall i j, i < n -> j < n -> tw (sg i) (M i j) (M' i j)) -> (forall i, i < n -> tw (sg i) (b i) (b' i)) ->
  (forall j, j < n -> (q j : b64) <> B754_zero true) ->
  exists d', linear_solution cfg n (length xs) M' b' d' /\ forall j, j < n -> n_add (q j) (d' j) = n_add (q j) (d j).
Proof using Hn En Heps.
  rewrite En. intros (MA & MB & X & HMA & HMB & E & HX) C TM Tb Hq.
  destruct (is_mat_build n n M') as [MA' HMA']. destruct (is_mat_build n 1 (fun i _ => b' i)) as [MB' HMB'].
  destruct (ties_linear L cfg Heps n M M' b b' sg MA MB MA' MB' Hn HMA HMB HMA' HMB' TM Tb C) as (h & h' & X1 & X2 & E1 & H1 & E2 & H2 & T).
  exists h'. split; [exists MA', MB', X2; auto|]. intros j Hj.
  assert (Q : h j = d j).
  { rewrite E in E1. injection E1 as <-. destruct H1 as (_ & _ & _ & V1). destruct HX as (_ & _ & _ & V2). specialize (V1 j 0 Hj ltac:(lia)). specialize (V2 j 0 Hj ltac:(lia)). congruence. }
  rewrite <- Q. apply plus_twin; [now apply Hq|now apply T].
Qed.

Variable start : nat -> K.
(** At every point the method reaches no pivot column of the derivatives is small. *)
Definition steady_run : Prop := forall jac k ps phi M, jacobian cfg xs n f jac -> newton_points cfg xs n f jac start ps k ->
  values_at cfg xs (ps k) n f phi -> ~ vanish cfg n phi -> (forall i, i < n -> values_at cfg xs (ps k) n (jac i) (M i)) ->
  pivots cfg n 0 M.
Lemma points_tie jac jac' k ps : steady_run -> stays L cfg n xs f P start -> jacobian cfg xs n f jac -> signed_jacobian L cfg n xs pi sg P jac jac' ->
  newton_points cfg xs n f jac start ps k -> (forall i, i < k -> ~ solved cfg xs n f (ps i)) ->
  newton_points cfg xs n f' jac' start ps k.
Proof using Hn En Heps SV.
  intros C St HJ SJ NP Ns. pose proof (point_not_neg0 L cfg n xs f En start jac k ps NP) as NZ. destruct NP as [P0 PS]. split; [exact P0|]. intros i Hi.
  assert (Pi : P (ps i)) by (apply (St jac i ps HJ); split; [exact P0|intros; apply PS; lia]).
  destruct (PS i Hi) as (phi & M & d & V & VM & Li & Hq). destruct (SV _ _ Pi V) as (phi' & V' & T). destruct (SJ _ _ Pi VM) as (M' & VM' & TM).
  destruct (linear_tie M M' (fun l => n_neg (phi l)) (fun l => n_neg (phi' l)) d (match i with O => fun _ => n_ofZ 0 | S _ => ps i end)) as (d' & Li' & E).
  - exact Li.
  - apply (C jac i ps phi M HJ); [split; [exact P0|intros; apply PS; lia]|exact V| |].
    + intros Va. apply (Ns i Hi). exists phi. auto.
    + intros l Hl. rewrite <- En. now apply VM.
  - intros l j Hl Hj. apply TM; [exact Hl|lia].
  - intros l Hl. apply twin_opp. now apply T.
  - intros j Hj. apply (NZ i); [lia|exact Hj].
  - exists phi', M', d'. split; [exact V'|]. split; [exact VM'|]. split; [exact Li'|]. intros j Hj. rewrite Hq by auto. symmetry. apply E. lia.
Qed.
End Sign.

Section Results.
Context (L : libm) (cfg : config (B64 L)).
Notation K := (B64 L).
Notation tw s := (fun a b : K => twin s (a : b64) (b : b64)).
Notation pi := (fun i : nat => i).
Variables (n : nat) (f f' : nat -> expr K) (sg : nat -> bool) (A B : symmat K) (xs : list string).
Variable P : (nat -> K) -> Prop.

(** SolveLinear with row i negated if [sg i]: the same vector up to the sign of zeros. *)
Theorem C89_linear (M M' : nat -> nat -> K) (v v' : nat -> K) MA b MA' b' : n_ltb (n_ofZ 0 : K) (epsilon cfg) = true ->
  0 < n -> is_mat n n M MA -> is_vec n v b -> is_mat n n M' MA' -> is_vec n v' b' ->
  (forall i j, i < n -> j < n -> tw (sg i) (M i j) (M' i j)) -> (forall i, i < n -> tw (sg i) (v i) (v' i)) ->
  pivots cfg n 0 M ->
  exists h h' X X', SolveLinear cfg MA b = Ok X /\ is_vec n h X /\ SolveLinear cfg MA' b' = Ok X' /\ is_vec n h' X' /\
    forall i, i < n -> tw false (h i) (h' i).
Proof using. intros He Hn HA Hb HA' Hb' TM Tv C. exact (ties_linear L cfg He n M M' v v' sg MA b MA' b' Hn HA Hb HA' Hb' TM Tv C). Qed.

(** Newton-Raphson: the same table, bit for bit, or the iteration limit in both cases. *)
Theorem C89_newton t vs : n_ltb (n_ofZ 0 : K) (epsilon cfg) = true -> 0 < n -> length xs = n ->
  is_sym n 1 (fun i _ => f i) A -> is_sym n 1 (fun i _ => f' i) B -> VarsSpec.holds t xs vs ->
  signed_values L cfg n xs f f' pi sg P ->
  (forall jac, jacobian cfg xs n f jac -> exists jac', jacobian cfg xs n f' jac' /\ signed_jacobian L cfg n xs pi sg P jac jac') ->
  stays L cfg n xs f P (fun j => nth j vs (n_ofZ 0)) -> steady_run L cfg n xs f (fun j => nth j vs (n_ofZ 0)) ->
  (forall t', SolveByNewtonRaphson cfg A t = Ok t' -> SolveByNewtonRaphson cfg B t = Ok t') /\
  (SolveByNewtonRaphson cfg A t = Throw limit_exceeded -> SolveByNewtonRaphson cfg B t = Throw limit_exceeded).
Proof using.
  intros He Hn En HA HB Ht SV SJ St C. destruct (table_at_vars _ _ _ (holds_table_at _ _ _ Ht)) as (_ & _ & Ne & Nd).
  set (start := fun j => nth j vs (n_ofZ 0 : K)) in *.
  split.
  - intros t' E. destruct (newton_all cfg n f A t xs vs Hn HA Ht) as [[E' _]|(jac & HJ & [(k & ps & t2 & NP & T & So & Ns & Hk & E2)|[(k & ps & _ & _ & _ & E2)|Fl]])].
    + congruence.
    + rewrite E in E2. injection E2 as <-. destruct (SJ jac HJ) as (jac' & HJ' & SJ').
      destruct (jacobian_matrix cfg n xs Hn f' jac' B Ne HB HJ') as (J & EJ & SJB).
      pose proof (points_tie L cfg n xs f f' sg P Hn En He SV start jac jac' k ps C St HJ SJ' NP Ns) as P'.
      destruct (proj2 (C39_newton_result cfg n f' B t xs vs Hn HB Ht J jac' EJ SJB (ps k))) as (t'' & E'' & T'').
      * exists k, ps. split; [exact P'|]. split; [auto|]. split; [apply (solved_sign L cfg n xs f f' pi sg P (id_rearr n) SV); [now apply (St jac k ps HJ)|exact So]|].
        split; [|exact Hk]. intros i Hi.
        destruct (proj2 NP i Hi) as (phi & _ & _ & V0 & _). apply (unsolved_sign L cfg n xs f f' pi sg P (id_rearr n) Nd SV (ps i) phi); [|exact V0|].
        { apply (St jac i ps HJ). destruct NP as [P0 PS]. split; [exact P0|]. intros l Hl. apply PS. lia. }
        intros Va. apply (Ns i Hi). exists phi. auto.
      * rewrite E''. f_equal. eapply holds_same; [exact T''|exact T].
    + congruence.
    + rewrite E in Fl. destruct Fl.
  - intros E.
    assert (HJ : exists J jac, Jacobian cfg A xs = Ok J /\ jacobian cfg xs n f jac /\ is_sym n (length xs) jac J).
    { destruct (Jacobian_cases cfg n f A xs Hn Ne HA) as [H|H]; [exact H|]. exfalso.
      destruct (newton_all cfg n f A t xs vs Hn HA Ht) as [[E' _]|(jac & HJ & _)]; [congruence|].
      destruct (jacobian_matrix cfg n xs Hn f jac A Ne HA HJ) as (J & EJ & _). congruence. }
    destruct HJ as (J & jac & EJ & HJ & SJA).
    destruct (proj1 (C39_newton_limit cfg n f A t xs vs Hn HA Ht J jac EJ SJA) E) as (ps & k & Hk & NP & V).
    destruct (SJ jac HJ) as (jac' & HJ' & SJ').
    destruct (jacobian_matrix cfg n xs Hn f' jac' B Ne HB HJ') as (J' & EJ' & SJB).
    apply (proj2 (C39_newton_limit cfg n f' B t xs vs Hn HB Ht J' jac' EJ' SJB)).
    exists ps, k. split; [exact Hk|]. split.
    + apply (points_tie L cfg n xs f f' sg P Hn En He SV start jac jac' k ps C St HJ SJ' NP). intros i Hi (psi & V' & Va).
      destruct (V i ltac:(lia)) as (phi & V0 & N). apply N. eapply vanish_ext; [|exact Va]. intros l Hl.
      now apply (values_same L cfg xs Nd f (ps i) n psi phi).
    + intros i Hi. destruct (V i Hi) as (phi & V0 & N). destruct (SV (ps i) phi) as (phi' & V0' & T); [|exact V0|].
      { apply (St jac i ps HJ). destruct NP as [P0 PS]. split; [exact P0|]. intros l Hl. apply PS. lia. }
      exists phi'. split; [exact V0'|].
      intros Va. apply N. now apply (vanish_sign L cfg n pi sg (id_rearr n) phi phi' T).
Qed.
End Results.

Section Swapped.
Context (L : libm) (cfg : config (B64 L)).
Notation K := (B64 L).
(** Newton-Raphson on a system, and on the system with some equations written the other way round. *)
Theorem C89_solve n xs (f f' : nat -> expr K) sg (A B : symmat K) t vs : n_ltb (n_ofZ 0 : K) (epsilon cfg) = true ->
  0 < n -> length xs = n -> is_sym n 1 (fun i _ => f i) A -> is_sym n 1 (fun i _ => f' i) B -> VarsSpec.holds t xs vs ->
  (forall i, i < n -> if sg i : bool then reversed L (f i) (f' i) else f' i = f i) ->
  stays L cfg n xs f (finite_point L cfg xs) (fun j => nth j vs (n_ofZ 0)) -> steady_run L cfg n xs f (fun j => nth j vs (n_ofZ 0)) ->
  (forall t', SolveByNewtonRaphson cfg A t = Ok t' -> SolveByNewtonRaphson cfg B t = Ok t') /\
  (SolveByNewtonRaphson cfg A t = Throw limit_exceeded -> SolveByNewtonRaphson cfg B t = Throw limit_exceeded).
Proof using.
  intros He Hn En HA HB Ht HR St C. destruct (table_at_vars _ _ _ (holds_table_at _ _ _ Ht)) as (_ & _ & Ne & Nd).
  apply (C89_newton L cfg n f f' sg A B xs (finite_point L cfg xs) t vs He Hn En HA HB Ht); [apply (C88_reversed L cfg n xs f f' (fun i => i) sg (id_rearr n) Nd HR)| |exact St|exact C].
  intros jac HJ. exact (reversed_jacobian L cfg n xs f f' (fun i => i) sg jac (id_rearr n) Nd HR HJ).
Qed.
(** Solve without a table: also the table built from the variables is the same. *)
Theorem C89_solve1 n xs (f f' : nat -> expr K) sg (A B : symmat K) fuel afuel t' : n_ltb (n_ofZ 0 : K) (epsilon cfg) = true ->
  0 < n -> nonlinearMethod cfg = NEWTON_RAPHSON -> is_sym n 1 (fun i _ => f i) A -> is_sym n 1 (fun i _ => f' i) B ->
  StronglySorted (fun x y => String.compare x y = Lt) xs -> length xs = n -> (forall x, In x xs <-> exists i, i < n /\ occurs x (f i)) ->
  (forall i, i < n -> if sg i : bool then reversed L (f i) (f' i) else f' i = f i) ->
  stays L cfg n xs f (finite_point L cfg xs) (fun _ => initialValue cfg) -> steady_run L cfg n xs f (fun _ => initialValue cfg) ->
  Solve1 cfg fuel afuel A = Ok t' -> Solve1 cfg fuel afuel B = Ok t'.
Proof using.
  intros He Hn Hm HA HB Ss En Hx HR St C.
  assert (Oc : forall i x, i < n -> occurs x (f i) <-> occurs x (f' i)).
  { intros i x Hi. specialize (HR i Hi). destruct (sg i); [now apply (reversed_occurs L)|now rewrite HR]. }
  destruct (C34_all_var_names _ _ _ _ HA) as (s & Es & Ss' & Hs). destruct (C34_all_var_names _ _ _ _ HB) as (s2 & Es2 & Ss2 & Hs2).
  assert (E1 : s = xs).
  { apply sorted_unique; auto. intros x. rewrite Hs, Hx. split; [intros (i & j & Hi & _ & O); eauto|intros (i & Hi & O); exists i, 0; auto]. }
  assert (E2 : s2 = xs).
  { apply sorted_unique; auto. intros x. rewrite Hs2, Hx. split.
    - intros (i & j & Hi & _ & O). exists i. split; [exact Hi|now apply Oc].
    - intros (i & Hi & O). exists i, 0. split; [exact Hi|]. split; [auto|]. now apply Oc. }
  subst s s2. unfold Solve1. rewrite Es, Es2. cbn [bind].
  destruct (VarsTable_make xs (initialValue cfg)) as [t| | | | |] eqn:Et; cbn [bind]; try congruence.
  destruct (C36_make K xs (initialValue cfg)) as (t0 & Et0 & H0).
  { intros ->. cbn in En. lia. } { now apply sorted_NoDup. }
  rewrite Et in Et0. injection Et0 as <-. unfold Solve. rewrite Hm.
  assert (Start : forall jac k ps, newton_points cfg xs n f jac (fun j => nth j (repeat (initialValue cfg) (length xs)) (n_ofZ 0)) ps k ->
    newton_points cfg xs n f jac (fun _ => initialValue cfg) ps k).
  { intros jac k ps [P0 PS]. split; [|exact PS].
    intros j Hj. rewrite P0 by auto. apply nth_error_nth with (d := n_ofZ 0 : K). now apply nth_error_repeat'. }
  apply (proj1 (C89_solve n xs f f' sg A B t _ He Hn En HA HB H0 HR
    (fun jac k ps HJ NP => St jac k ps HJ (Start jac k ps NP)) (fun jac k ps phi M HJ NP => C jac k ps phi M HJ (Start jac k ps NP)))).
Qed.
End Swapped.

(** x + y - 3 = 0, x - y - 1 = 0 and x + y - 3 = 0, 1 - (x - y) = 0: both coefficients of x are 1. *)
Local Notation DX := (EVar "x" : expr D).
Local Notation DY := (EVar "y" : expr D).
Local Notation dlit z := (ENum (b_ofZ z : D) : expr D).
Definition tie_f (i : nat) : expr D := match i with
  | 0 => EBin BSub (EBin BAdd DX DY) (dlit 3)
  | _ => EBin BSub (EBin BSub DX DY) (dlit 1) end.
Definition tie_f' (i : nat) : expr D := match i with
  | 0 => tie_f 0
  | _ => EBin BSub (dlit 1) (EBin BSub DX DY) end.
Definition tie_check : bool :=
  match d_num (tie_f 0) "x", d_num (tie_f 0) "y", d_num (tie_f 1) "x", d_num (tie_f 1) "y" with
  | Some a, Some b, Some c, Some d =>
      n_eqb (n_abs a) (n_abs a) && negb (n_ltb (n_abs a) (epsilon sgn_cfg)) && negb (n_ltb (n_abs a) (n_abs c)) && negb (n_ltb (n_abs c) (n_abs a)) &&
      n_leb (epsilon sgn_cfg) (n_abs c) &&
      let e := n_sub d (n_mul (n_div b a) c) in n_eqb (n_abs e) (n_abs e) && negb (n_ltb (n_abs e) (epsilon sgn_cfg))
  | _, _, _, _ => false
  end.
Lemma tie_checked : tie_check = true. Proof. vm_cast_no_check (eq_refl true). Qed.

Lemma tie_steady start : steady_run tiny_libm sgn_cfg 2 sgn_xs tie_f start.
Proof.
  intros jac k ps phi M HJ P _ _ VM.
  pose proof (HJ 0 0 "x" ltac:(lia) eq_refl) as J00. pose proof (HJ 0 1 "y" ltac:(lia) eq_refl) as J01.
  pose proof (HJ 1 0 "x" ltac:(lia) eq_refl) as J10. pose proof (HJ 1 1 "y" ltac:(lia) eq_refl) as J11.
  pose proof tie_checked as C. unfold tie_check, d_num in C.
  destruct (num_of (Diff sgn_cfg (embed (tie_f 0)) "x" 1)) as [a|] eqn:Ea; [|discriminate].
  destruct (num_of (Diff sgn_cfg (embed (tie_f 0)) "y" 1)) as [b|] eqn:Eb; [|discriminate].
  destruct (num_of (Diff sgn_cfg (embed (tie_f 1)) "x" 1)) as [c|] eqn:Ec; [|discriminate].
  destruct (num_of (Diff sgn_cfg (embed (tie_f 1)) "y" 1)) as [d|] eqn:Ed; [|discriminate].
  pose proof (num_of_embed _ _ J00 _ Ea) as Qa. pose proof (num_of_embed _ _ J01 _ Eb) as Qb.
  pose proof (num_of_embed _ _ J10 _ Ec) as Qc. pose proof (num_of_embed _ _ J11 _ Ed) as Qd.
  clear Ea Eb Ec Ed J00 J01 J10 J11 HJ P.
  cbv zeta in C. repeat rewrite andb_true_iff in C. destruct C as (((((C1 & C2) & C3) & C4) & C5) & C6 & C7). rewrite negb_true_iff in C2, C3, C4, C7.
  destruct (point_exists sgn_xs (ps k)) as [env He]; [repeat constructor; cbn; intuition discriminate|].
  assert (V : forall i j w, i < 2 -> j < 2 -> jac i j = ENum w -> M i j = w).
  { intros i j w Hi Hj E. destruct (VM i Hi j Hj) as [_ Q]. specialize (Q env He). rewrite E in Q.
    cbn [eval_in ExprSpec.eval] in Q. congruence. }
  pose proof (V 0 0 a ltac:(lia) ltac:(lia) Qa) as Ma. pose proof (V 0 1 b ltac:(lia) ltac:(lia) Qb) as Mb.
  pose proof (V 1 0 c ltac:(lia) ltac:(lia) Qc) as Mc. pose proof (V 1 1 d ltac:(lia) ltac:(lia) Qd) as Md.
  apply (pv_step sgn_cfg 2 0 0); rewrite ?Ma; try assumption; try lia.
  { intros i Hi Hi2. assert (i = 1) by lia. subst i. rewrite Mc. exact C3. }
  assert (E : cleared sgn_cfg 0 (fun i j => M (swap_idx 0 0 i) j) 1 1 = n_sub d (n_mul (n_div b a) c)).
  { unfold cleared. change (swap_idx 0 0 1) with 1. change (swap_idx 0 0 0) with 0. rewrite Ma, Mb, Mc, Md, C5. reflexivity. }
  apply (pv_step sgn_cfg 2 1 1); rewrite ?E; try assumption; try lia.
  constructor.
Qed.
Definition tie_A : symmat D := MkSym 2 1 [embed (tie_f 0); embed (tie_f 1)].
Definition tie_B : symmat D := MkSym 2 1 [embed (tie_f' 0); embed (tie_f' 1)].
(** Newton from every starting point, although there is a pivot tie. *)
Theorem C89_ex (x y : D) t t' : VarsSpec.holds t sgn_xs [x; y] ->
  SolveByNewtonRaphson sgn_cfg tie_A t = Ok t' -> SolveByNewtonRaphson sgn_cfg tie_B t = Ok t'.
Proof.
  intros Ht. apply (proj1 (C89_solve tiny_libm sgn_cfg 2 sgn_xs tie_f tie_f' (fun i => negb (Nat.eqb i 0)) tie_A tie_B t [x; y] sgn_eps ltac:(lia) eq_refl
    ltac:(split; [reflexivity|]; split; [reflexivity|]; split; [reflexivity|]; intros [|[|i]] [|j] Hi Hj; try lia; reflexivity)
    ltac:(split; [reflexivity|]; split; [reflexivity|]; split; [reflexivity|]; intros [|[|i]] [|j] Hi Hj; try lia; reflexivity)
    Ht ltac:(intros [|[|i]] Hi; [reflexivity|apply rev_sub|lia])
    ltac:(intros jac k ps _ _ F; discriminate F) (tie_steady _))).
Qed.
Definition tie_solved : bool := match VarsTable_make sgn_xs (n_ofZ 1 : D) with
  | Ok t0 => match SolveByNewtonRaphson sgn_cfg tie_A t0 with
    | Ok t => match VarsTable_get t "x", VarsTable_get t "y" with
      | Ok x, Ok y => n_eqb x (n_ofZ 2) && n_eqb y (n_ofZ 1)
      | _, _ => false end
    | _ => false end
  | _ => false end.
Example C89_ex_solved : tie_solved = true. Proof. vm_cast_no_check (eq_refl true). Qed.
