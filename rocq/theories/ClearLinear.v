(** SolveLinear with unambiguous pivots: the result does not depend on the order of the rows. *)
From Coq Require Import String List ZArith Bool Arith Lia Permutation.
From Verif Require Import Base MathOp MatModel LinearModel MatSpec MatProofs LinGen ClearSpec.
Import ListNotations.
Local Open Scope list_scope.

Section C.
Context {K : num_ops} (cfg : config K).
Implicit Types (f : nat -> nat -> K) (g h : nat -> K).
Notation eliminates := (eliminates cfg).
Notation reduced := (reduced cfg).

Lemma el_perm rows rows' us : Permutation rows rows' -> eliminates rows us -> eliminates rows' us.
Proof using.
  intros P H. destruct H as [|rows p ps rest us P' H1 H2 H3 H4].
  - apply Permutation_nil in P. subst. constructor.
  - eapply el_pivot; eauto. eapply Permutation_trans; [apply Permutation_sym; exact P|exact P'].
Qed.

Lemma pick_max (l1 l2 : list K) (a : K) : (forall b, In b (l1 ++ l2) -> n_ltb b a = true /\ n_ltb a b = false) ->
  va_max (l1 ++ a :: l2) = Ok a.
Proof using.
  intros H. unfold va_max, pick.
  assert (F : forall l, (forall b, In b l -> n_ltb a b = false) -> fold_left (fun m x => if n_ltb m x then x else m) l a = a).
  { induction l as [|b l IH]; intros Hl; [reflexivity|]. cbn [fold_left]. rewrite (Hl b) by now left. apply IH. intros; apply Hl; now right. }
  assert (G : forall l m, n_ltb m a = true -> (forall b, In b l -> n_ltb b a = true) ->
    fold_left (fun m x => if n_ltb m x then x else m) (l ++ a :: l2) m = a).
  { induction l as [|b l IH]; intros m Hm Hl; cbn [fold_left app].
    - rewrite Hm. apply F. intros b Hb. apply H. apply in_or_app. now right.
    - apply IH; [destruct (n_ltb m b); auto; apply Hl; now left|]. intros; apply Hl; now right. }
  destruct l1 as [|c l1]; cbn [app]; f_equal.
  - apply F. intros b Hb. now apply H.
  - apply G; [apply H; now left|]. intros b Hb. apply H. apply in_or_app. left. now right.
Qed.
Lemma find_max (l1 l2 : list K) (a : K) : n_eqb a a = true -> (forall b, In b l1 -> n_eqb b a = false) ->
  find_index (fun v => n_eqb v a) (l1 ++ a :: l2) = length l1.
Proof using.
  intros E H. induction l1 as [|b l1 IH]; cbn [app find_index length]; [now rewrite E|].
  rewrite (H b) by now left. rewrite IH; auto. intros; apply H; now right.
Qed.

Definition auge f g n i j : K := if j =? n then g i else f i j.
(** Row i from column x on. *)
Definition trow n x f g i : list K := map (auge f g n i) (seq x (S n - x)).

Lemma seq_app_split s n : forall a q b, seq s n = a ++ q :: b -> q = s + length a.
Proof using.
  revert s. induction n as [|n IH]; intros s a q b E; cbn in E; [destruct a; discriminate|].
  destruct a as [|x a]; cbn in E; inversion E; subst; [cbn; lia|]. rewrite (IH _ _ _ _ H1). cbn. lia.
Qed.

Lemma GetMax_clear n f A y s1 q s2 : is_mat n n f A -> y < n -> seq y (n - y) = s1 ++ q :: s2 ->
  n_eqb (n_abs (f q y)) (n_abs (f q y)) = true -> (forall k, In k (s1 ++ s2) -> strictly_larger (f q y) (f k y)) ->
  GetMaxAbsRowIndex A y (n - 1) y = Ok q.
Proof using.
  intros HA Hy Es E H. unfold GetMaxAbsRowIndex. rewrite (Col_ok _ _ _ _ y 0 HA Hy) by lia. cbn [bind].
  destruct (Nat.leb_spec y (S (n - 1))); [|lia]. unfold slice. replace (S (n - 1) - y) with (n - y) by lia.
  rewrite (va_read_map _ _ (fun k => f (y + k) y)).
  2:{ intros k Hk. apply in_seq in Hk. rewrite nth_error_map, Nat.sub_0_r, Nat.mul_1_r.
      rewrite (nth_error_nth' _ 0) by (rewrite seq_length; lia). rewrite seq_nth by lia. reflexivity. }
  cbn [bind]. rewrite map_map.
  assert (EL : map (fun x => n_abs (f (y + x) y)) (seq 0 (n - y)) = map (fun k => n_abs (f k y)) s1 ++ n_abs (f q y) :: map (fun k => n_abs (f k y)) s2).
  { rewrite <- (map_map (fun x => y + x) (fun k => n_abs (f k y))).
    assert (SQ : map (fun x => y + x) (seq 0 (n - y)) = seq y (n - y)).
    { clear. generalize (n - y) as m. intros m. assert (Q : forall s, map (fun x => y + x) (seq s m) = seq (y + s) m).
      { induction m as [|m IH]; intros s; cbn; [reflexivity|]. rewrite IH. do 2 f_equal. lia. }
      rewrite Q. f_equal. lia. }
    rewrite SQ, Es, map_app. reflexivity. }
  rewrite EL, pick_max.
  2:{ intros b Hb. rewrite <- map_app in Hb. apply in_map_iff in Hb. destruct Hb as (k & <- & Hk). destruct (H k Hk) as (Q1 & Q2 & _). auto. }
  cbn [bind]. rewrite find_max; auto.
  2:{ intros b Hb. apply in_map_iff in Hb. destruct Hb as (k & <- & Hk). apply H. apply in_or_app. now left. }
  rewrite map_length. f_equal. rewrite (seq_app_split _ _ _ _ _ Es). lia.
Qed.

Lemma trow_first n y f g i : y < n -> trow n y f g i = f i y :: trow n (S y) f g i.
Proof using.
  intros Hy. unfold trow. replace (S n - y) with (S (S n - S y)) by lia. cbn [seq map]. f_equal. unfold auge.
  destruct (Nat.eqb_spec y n); [lia|reflexivity].
Qed.

Lemma combine_map {X Y Z} (u : X -> Y) (v : X -> Z) l : combine (map u l) (map v l) = map (fun x => (u x, v x)) l.
Proof using. induction l; cbn; congruence. Qed.

(** One pivot step in terms of rows. *)
Lemma trow_reduced n y f g i : y < n -> y < i ->
  trow n (S y) (elim_fK cfg y y f) (elim_gK cfg y y f g) i = reduced (f y y) (trow n (S y) f g y) (trow n y f g i).
Proof using.
  intros Hy Hi. rewrite (trow_first n y f g i Hy). unfold reduced, trow. rewrite combine_map, map_map.
  assert (C : forall j, S y <= j -> auge (elim_fK cfg y y f) (elim_gK cfg y y f g) n i j =
     if n_leb (epsilon cfg) (n_abs (f i y)) then n_sub (auge f g n i j) (n_mul (n_div (auge f g n y j) (f y y)) (f i y)) else auge f g n i j).
  { intros j Hj. unfold auge, elim_fK, elim_gK. destruct (Nat.ltb_spec j y); [lia|]. destruct (Nat.eqb_spec i y); [lia|].
    destruct (Nat.ltb_spec y i); [|lia]. cbn [andb]. destruct (j =? n), (n_leb _ _); reflexivity. }
  destruct (n_leb (epsilon cfg) (n_abs (f i y))); apply map_ext_in; intros j Hj; apply in_seq in Hj; apply C; lia.
Qed.
Lemma trow_pivot n y f g : y < n ->
  trow n (S y) (elim_fK cfg y y f) (elim_gK cfg y y f g) y = map (fun q => n_div q (f y y)) (trow n (S y) f g y).
Proof using.
  intros Hy. unfold trow. rewrite map_map. apply map_ext_in. intros j Hj. apply in_seq in Hj.
  unfold auge, elim_fK, elim_gK. destruct (Nat.ltb_spec j y); [lia|]. rewrite Nat.eqb_refl. destruct (j =? n); reflexivity.
Qed.
Lemma trow_ext n x f g f' g' i : x <= n -> (forall j, f' i j = f i j) -> g' i = g i -> trow n x f' g' i = trow n x f g i.
Proof using. intros Hx E1 E2. unfold trow. apply map_ext. intros j. unfold auge. now rewrite E1, E2. Qed.

Lemma swap_perm y n s1 q s2 : seq y (n - y) = s1 ++ q :: s2 -> y < n ->
  Permutation (map (swap_idx y q) (seq (S y) (n - S y))) (s1 ++ s2).
Proof using.
  intros E Hy. assert (Hq : y <= q < n).
  { assert (I : In q (seq y (n - y))) by (rewrite E; apply in_or_app; right; now left). apply in_seq in I. lia. }
  assert (ND : NoDup (s1 ++ q :: s2)) by (rewrite <- E; apply seq_NoDup).
  apply NoDup_Permutation.
  - apply FinFun.Injective_map_NoDup; [|apply seq_NoDup]. intros a c. unfold swap_idx.
    destruct (Nat.eqb_spec a y), (Nat.eqb_spec a q), (Nat.eqb_spec c y), (Nat.eqb_spec c q); lia.
  - now apply NoDup_remove_1 in ND.
  - intros k. assert (I : In k (s1 ++ s2) <-> y <= k < n /\ k <> q).
    { split.
      - intros H. split.
        + assert (I : In k (seq y (n - y))). { rewrite E. apply in_app_iff in H. apply in_or_app. destruct H; [now left|right; now right]. }
          apply in_seq in I. lia.
        + intros ->. apply NoDup_remove_2 in ND. contradiction.
      - intros (H & Hne). assert (I : In k (seq y (n - y))) by (apply in_seq; lia). rewrite E in I.
        apply in_app_iff in I. apply in_or_app. destruct I as [|[|]]; auto; congruence. }
    rewrite I. rewrite in_map_iff. split.
    + intros (i & <- & Hi). apply in_seq in Hi. unfold swap_idx. destruct (Nat.eqb_spec i y), (Nat.eqb_spec i q); lia.
    + intros (H & Hne). exists (swap_idx y q k). unfold swap_idx. rewrite in_seq.
      destruct (Nat.eqb_spec k y), (Nat.eqb_spec k q); try lia;
      destruct (Nat.eqb_spec q y), (Nat.eqb_spec q q), (Nat.eqb_spec k y), (Nat.eqb_spec k q); try lia; split; try lia; auto.
Qed.

Lemma elim_clear n : forall fuel y f g A b T us, y <= n -> n - y < fuel -> is_mat n n f A -> is_vec n g b ->
  eliminates (map (trow n y f g) (seq y (n - y))) us ->
  exists A' b' f' g', elim_loop cfg fuel n n y y A b T = Ok (MkElim A' b' T n n) /\ is_mat n n f' A' /\ is_vec n g' b' /\
    (forall i j, i < y -> f' i j = f i j) /\ (forall i, i < y -> g' i = g i) /\
    map (fun i => trow n (S i) f' g' i) (seq y (n - y)) = us.
Proof using.
  induction fuel as [|fuel IH]; intros y f g A b T us Hy Hfuel HA Hb HE; [lia|]. cbn [elim_loop].
  destruct (Nat.ltb_spec y n) as [Hyn|Hyn]; cbn [andb].
  2:{ assert (y = n) by lia. subst y. exists A, b, f, g. rewrite Nat.sub_diag in *. cbn [seq map] in *.
      split; [reflexivity|]. repeat (split; [auto|]). inversion HE as [|rows p ps rest us' P]; [reflexivity|]. apply Permutation_nil in P. discriminate. }
  inversion HE as [E0|rows p ps rest us' P E1 E2 E3 E4]; subst.
  { destruct (n - y) eqn:E; [lia|discriminate]. }
  assert (IN : In (p :: ps) (map (trow n y f g) (seq y (n - y)))).
  { eapply Permutation_in; [apply Permutation_sym; exact P|]. now left. }
  apply in_map_iff in IN. destruct IN as (q & Eq & Hq). apply in_split in Hq. destruct Hq as (s1 & s2 & Es).
  rewrite (trow_first n y f g q Hyn) in Eq. injection Eq as Ep Eps.
  assert (P' : Permutation (map (trow n y f g) (s1 ++ s2)) rest).
  { rewrite Es, map_app in P. cbn [map] in P. rewrite (trow_first n y f g q Hyn), Ep, Eps in P.
    apply Permutation_sym in P. apply Permutation_cons_app_inv in P. rewrite map_app. now apply Permutation_sym. }
  assert (BIG : forall k, In k (s1 ++ s2) -> strictly_larger (f q y) (f k y)).
  { intros k Hk. rewrite Ep. specialize (E3 (trow n y f g k)). rewrite (trow_first n y f g k Hyn) in E3. apply E3.
    eapply Permutation_in; [exact P'|]. apply in_map_iff. exists k. split; [now apply trow_first|exact Hk]. }
  assert (Hqn : y <= q < n). { assert (In q (seq y (n - y))) by (rewrite Es; apply in_or_app; right; now left). rewrite in_seq in H. lia. }
  unfold bring_up at 1. rewrite (GetMax_clear n f A y s1 q s2 HA Hyn Es) by (try rewrite Ep; auto; intros; rewrite <- Ep; auto). cbn [bind].
  destruct (SwapRow_ok n n _ A y q HA) as (A1 & EA1 & HA1); [lia|lia|]. rewrite EA1. cbn [bind].
  destruct (SwapRow_ok n 1 _ b y q Hb) as (b1 & Eb1 & Hb1); [lia|lia|]. rewrite Eb1. cbn [bind].
  set (f1 := fun i j => f (swap_idx y q i) j) in *. set (g1 := fun i => g (swap_idx y q i)).
  change (is_vec n g1 b1) in Hb1.
  assert (SY : swap_idx y q y = q) by (unfold swap_idx; now rewrite Nat.eqb_refl).
  assert (Ef : f1 y y = p) by (unfold f1; now rewrite SY).
  cbn [skip_columns]. rewrite (Value_K _ _ _ _ _ _ HA1 Hyn Hyn). cbn [bind]. rewrite Ef, E2.
  cbn [bind]. destruct (Nat.eqb_spec y n); [lia|]. rewrite Nat.ltb_irrefl. cbn [negb andb bind].
  destruct (eliminate_okK cfg n n _ _ A1 b1 y y HA1 Hb1 Hyn Hyn) as (A2 & b2 & E & HA2 & Hb2). rewrite E. cbn [bind].
  set (f2 := elim_fK cfg y y f1) in *. set (g2 := elim_gK cfg y y f1 g1) in *.
  assert (T1 : forall x i, trow n x f1 g1 i = trow n x f g (swap_idx y q i)) by reflexivity.
  destruct (IH (S y) f2 g2 A2 b2 T us') as (A' & b' & f' & g' & R & HA' & Hb' & O1 & O2 & U); auto; [lia| |].
  { eapply el_perm; [|exact E4].
    assert (M : map (trow n (S y) f2 g2) (seq (S y) (n - S y)) = map (reduced p ps) (map (trow n y f g) (map (swap_idx y q) (seq (S y) (n - S y))))).
    { rewrite !map_map. apply map_ext_in. intros i Hi. apply in_seq in Hi. unfold f2, g2. rewrite trow_reduced by lia.
      rewrite Ef, !T1, SY, Eps. reflexivity. }
    rewrite M. apply Permutation_sym. apply Permutation_map. eapply Permutation_trans; [|exact P'].
    apply Permutation_map. apply swap_perm; auto. }
  exists A', b', f', g'. split; [exact R|]. split; [exact HA'|]. split; [exact Hb'|].
  assert (OLDf : forall i j, i < y -> f2 i j = f i j).
  { intros i j Hi. unfold f2, elim_fK. destruct (Nat.eqb_spec i y); [lia|]. destruct (Nat.ltb_spec y i); [lia|]. cbn [andb].
    assert (f1 i j = f i j). { unfold f1, swap_idx. destruct (Nat.eqb_spec i y), (Nat.eqb_spec i q); try lia. reflexivity. }
    now destruct (j <? y). }
  assert (OLDg : forall i, i < y -> g2 i = g i).
  { intros i Hi. unfold g2, elim_gK. destruct (Nat.eqb_spec i y); [lia|]. destruct (Nat.ltb_spec y i); [lia|]. cbn [andb].
    unfold g1, swap_idx. destruct (Nat.eqb_spec i y), (Nat.eqb_spec i q); try lia. reflexivity. }
  split; [intros i j Hi; rewrite O1 by lia; now apply OLDf|]. split; [intros i Hi; rewrite O2 by lia; now apply OLDg|].
  replace (n - y) with (S (n - S y)) by lia. cbn [seq map]. f_equal; [|exact U].
  rewrite (trow_ext n (S y) f2 g2) by first [lia | intros; apply O1; lia | apply O2; lia].
  unfold f2, g2. rewrite trow_pivot by lia. rewrite Ef, T1, SY, Eps. reflexivity.
Qed.

(** Back substitution only uses the rows from the diagonal on. *)
Lemma back_same n f g f' g' h h' :
  map (fun i => trow n (S i) f g i) (seq 0 n) = map (fun i => trow n (S i) f' g' i) (seq 0 n) ->
  (forall i, i < n -> h i = n_sub (g i) (ksum (n - S i) (fun k => n_mul (f i (S i + k)) (h (S i + k))))) ->
  (forall i, i < n -> h' i = n_sub (g' i) (ksum (n - S i) (fun k => n_mul (f' i (S i + k)) (h' (S i + k))))) ->
  forall i, i < n -> h i = h' i.
Proof using.
  intros E H H'.
  assert (C : forall i j, i < n -> i < j <= n -> auge f g n i j = auge f' g' n i j).
  { intros i j Hi Hj. assert (R : trow n (S i) f g i = trow n (S i) f' g' i).
    { refine (ext_in_map E i _). apply in_seq. lia. }
    refine (ext_in_map R j _). apply in_seq. lia. }
  assert (G : forall m i, i < n -> n - i <= m -> h i = h' i).
  { induction m as [|m IH]; intros i Hi Hm; [lia|]. rewrite H, H' by auto.
    assert (E1 : g i = g' i). { specialize (C i n Hi ltac:(lia)). unfold auge in C. now rewrite Nat.eqb_refl in C. }
    rewrite E1. f_equal. unfold ksum. f_equal. apply map_ext_in. intros k Hk. apply in_seq in Hk.
    rewrite (IH (S i + k)) by lia. f_equal. specialize (C i (S i + k) Hi ltac:(lia)). unfold auge in C.
    destruct (Nat.eqb_spec (S i + k) n); [lia|exact C]. }
  intros i Hi. apply (G n i Hi). lia.
Qed.

Lemma trow0 n f g i : trow n 0 f g i = row_of n f g i.
Proof using.
  unfold trow, row_of. rewrite Nat.sub_0_r. replace (S n) with (n + 1) by lia. rewrite seq_app, map_app. cbn [seq map]. f_equal.
  - apply map_ext_in. intros j Hj. apply in_seq in Hj. unfold auge. destruct (Nat.eqb_spec j n); [lia|reflexivity].
  - unfold auge. cbn [Nat.add]. now rewrite Nat.eqb_refl.
Qed.

(** The solution is a function of the pivot rows alone. *)
Lemma solve_clear n f g A b us : 0 < n -> is_mat n n f A -> is_vec n g b -> eliminates (map (row_of n f g) (seq 0 n)) us ->
  exists f' g' h X, SolveLinear cfg A b = Ok X /\ is_vec n h X /\ map (fun i => trow n (S i) f' g' i) (seq 0 n) = us /\
    forall i, i < n -> h i = n_sub (g' i) (ksum (n - S i) (fun k => n_mul (f' i (S i + k)) (h (S i + k)))).
Proof using.
  intros Hn HA Hb HE. pose proof HA as (R1 & R2 & _). pose proof Hb as (R3 & _). unfold SolveLinear. rewrite R1, R2, R3, Nat.eqb_refl. cbn [negb].
  unfold Vec_make. destruct (Mat_make_ok n 1 (n_ofZ 0 : K)) as (ret & Er & Hr); [lia|lia|]. rewrite Er. cbn [bind].
  destruct (Nat.ltb_spec 0 n); [|lia]. rewrite Nat.eqb_refl. cbn [bind negb].
  destruct (elim_clear n (S n) 0 f g A b (repeat 0 n) us) as (A' & b' & f' & g' & E & HA' & Hb' & _ & _ & U); try lia; auto.
  { rewrite Nat.sub_0_r. rewrite (map_ext _ (row_of n f g)); [exact HE|]. intros i. apply trow0. }
  rewrite Nat.sub_0_r in U. rewrite E. cbn [bind el_A el_b el_rankA el_rankAb].
  destruct (back_substitute_okK n f' g' _ A' b' ret HA' Hb' Hr) as (h & X & EX & HX & Hh). rewrite EX. cbn [bind].
  rewrite Nat.ltb_irrefl. cbn [andb]. exists f', g', h, X. auto.
Qed.

Theorem order_linear n f g pi A b A' b' : 0 < n -> rearrangement n pi -> is_mat n n f A -> is_vec n g b ->
  is_mat n n (fun i => f (pi i)) A' -> is_vec n (fun i => g (pi i)) b' -> clear_pivots cfg n f g ->
  exists X, SolveLinear cfg A b = Ok X /\ SolveLinear cfg A' b' = Ok X.
Proof using.
  intros Hn Hpi HA Hb HA' Hb' (us & HE).
  destruct (solve_clear n f g A b us Hn HA Hb HE) as (f1 & g1 & h1 & X1 & E1 & H1 & U1 & S1).
  destruct (solve_clear n (fun i => f (pi i)) (fun i => g (pi i)) A' b' us Hn HA' Hb') as (f2 & g2 & h2 & X2 & E2 & H2 & U2 & S2).
  { eapply el_perm; [|exact HE].
    assert (M : map (row_of n (fun i => f (pi i)) (fun i => g (pi i))) (seq 0 n) = map (row_of n f g) (map pi (seq 0 n))) by (rewrite map_map; reflexivity).
    rewrite M. apply Permutation_map. apply Permutation_sym. exact Hpi. }
  exists X1. split; [exact E1|]. rewrite E2. f_equal. eapply (is_mat_unique n 1); [exact H2|].
  eapply is_vec_ext; [|exact H1]. intros i Hi. apply (back_same n f1 g1 f2 g2 h1 h2); auto. transitivity us; auto.
Qed.
End C.
