(** SolveLinear when equations are multiplied by -1 and stay where they are: pivot ties do not matter. *)
From Coq Require Import String List ZArith Bool Arith Lia Permutation Reals Lra.
From Flocq Require Import IEEE754.BinarySingleNaN Core.
From Verif Require Import Base MathOp MatModel LinearModel MatSpec MatProofs LinGen IEEE ClearSpec ClearLinear TieSpec SignSpec SignProofs.
Import ListNotations.
Local Open Scope list_scope.

Section G.
Context {K : num_ops} (cfg : config K).

Lemma pivots_ext n y (M : nat -> nat -> K) : pivots cfg n y M -> forall M', (forall i j, y <= i < n -> y <= j < n -> M i j = M' i j) -> pivots cfg n y M'.
Proof using.
  induction 1 as [M|y p M H1 H2 H3 H4 H5 H6 H7 IH]; intros M' E; [constructor|].
  assert (Ep : M' p y = M p y) by (symmetry; apply E; lia).
  apply (pv_step cfg n y p M'); try assumption; rewrite ?Ep; auto.
  - intros i Hi Hi'. rewrite <- (E i y) by lia. now apply H5.
  - intros i Hi Hi'. rewrite <- (E i y) by lia. now apply H6.
  - apply IH. intros i j Hi Hj. unfold cleared.
    assert (Sw : forall k, y <= k < n -> y <= swap_idx y p k < n) by (intros k Hk; unfold swap_idx; destruct (Nat.eqb_spec k y), (Nat.eqb_spec k p); lia).
    rewrite <- !E by (try apply Sw; lia). reflexivity.
Qed.

Lemma pick_first (l1 l2 : list K) (a : K) : (forall b, In b l1 -> n_ltb b a = true) -> (forall b, In b l2 -> n_ltb a b = false) ->
  va_max (l1 ++ a :: l2) = Ok a.
Proof using.
  intros H1 H2. unfold va_max, pick.
  assert (F : forall l, (forall b, In b l -> n_ltb a b = false) -> fold_left (fun m x => if n_ltb m x then x else m) l a = a).
  { induction l as [|b l IH]; intros Hl; [reflexivity|]. cbn [fold_left]. rewrite (Hl b) by now left. apply IH. intros; apply Hl; now right. }
  assert (G : forall l m, n_ltb m a = true -> (forall b, In b l -> n_ltb b a = true) ->
    fold_left (fun m x => if n_ltb m x then x else m) (l ++ a :: l2) m = a).
  { induction l as [|b l IH]; intros m Hm Hl; cbn [fold_left app].
    - rewrite Hm. apply F. exact H2.
    - apply IH; [destruct (n_ltb m b); auto; apply Hl; now left|]. intros; apply Hl; now right. }
  destruct l1 as [|c l1]; cbn [app]; f_equal.
  - apply F. exact H2.
  - apply G; [apply H1; now left|]. intros b Hb. apply H1. now right.
Qed.

Lemma GetMax_first n (f : nat -> nat -> K) A y p : is_mat n n f A -> y <= p -> p < n ->
  n_eqb (n_abs (f p y)) (n_abs (f p y)) = true -> (forall i, y <= i -> i < p -> strictly_larger (f p y) (f i y)) ->
  (forall i, p < i -> i < n -> n_ltb (n_abs (f p y)) (n_abs (f i y)) = false) ->
  GetMaxAbsRowIndex A y (n - 1) y = Ok p.
Proof using.
  intros HA Hy Hp E H1 H2. unfold GetMaxAbsRowIndex. rewrite (Col_ok _ _ _ _ y 0 HA) by lia. cbn [bind].
  destruct (Nat.leb_spec y (S (n - 1))); [|lia]. unfold slice. replace (S (n - 1) - y) with (n - y) by lia.
  rewrite (va_read_map _ _ (fun k => f (y + k) y)).
  2:{ intros k Hk. apply in_seq in Hk. rewrite nth_error_map, Nat.sub_0_r, Nat.mul_1_r.
      rewrite (nth_error_nth' _ 0) by (rewrite seq_length; lia). rewrite seq_nth by lia. reflexivity. }
  cbn [bind]. rewrite map_map.
  assert (SQ : seq 0 (n - y) = seq 0 (p - y) ++ (p - y) :: seq (S (p - y)) (n - S p)).
  { replace (n - y) with ((p - y) + S (n - S p)) by lia. rewrite seq_app. reflexivity. }
  rewrite SQ, map_app. cbn [map]. replace (y + (p - y)) with p by lia. rewrite pick_first.
  - cbn [bind]. rewrite find_max; auto.
    + rewrite map_length, seq_length. f_equal. lia.
    + intros b Hb. apply in_map_iff in Hb. destruct Hb as (k & <- & Hk). apply in_seq in Hk. apply H1; lia.
  - intros b Hb. apply in_map_iff in Hb. destruct Hb as (k & <- & Hk). apply in_seq in Hk. apply H1; lia.
  - intros b Hb. apply in_map_iff in Hb. destruct Hb as (k & <- & Hk). apply in_seq in Hk. apply H2; lia.
Qed.
End G.

Section Rows.
Context (L : libm) (cfg : config (B64 L)).
Notation K := (B64 L).
Notation tw s := (fun a b : K => twin s (a : b64) (b : b64)).
Hypothesis Heps : n_ltb (n_ofZ 0 : K) (epsilon cfg) = true.

Definition low n y (f : nat -> nat -> K) (g : nat -> K) (f' : nat -> nat -> K) (g' : nat -> K) : Prop :=
  (forall i, i < y -> (forall j, i < j < n -> tw false (f i j) (f' i j)) /\ tw false (g i) (g' i)) /\
  (forall i, y <= i < n -> exists s, (forall j, y <= j < n -> tw s (f i j) (f' i j)) /\ tw s (g i) (g' i)).

Lemma low_step n y p f g f' g' : low n y f g f' g' -> y <= p -> p < n -> n_ltb (n_abs (f p y)) (epsilon cfg) = false ->
  let h := fun i j => f (swap_idx y p i) j in let h' := fun i j => f' (swap_idx y p i) j in
  let u := fun i => g (swap_idx y p i) in let u' := fun i => g' (swap_idx y p i) in
  low n (S y) (elim_fK cfg y y h) (elim_gK cfg y y h u) (elim_fK cfg y y h') (elim_gK cfg y y h' u').
Proof using Heps.
  intros [LA LB] Hy Hp Np h h' u u'.
  assert (Sw : forall k, y <= k < n -> y <= swap_idx y p k < n) by (intros k Hk; unfold swap_idx; destruct (Nat.eqb_spec k y), (Nat.eqb_spec k p); lia).
  assert (Sl : forall k, k < y -> swap_idx y p k = k) by (intros k Hk; unfold swap_idx; destruct (Nat.eqb_spec k y), (Nat.eqb_spec k p); lia).
  assert (Sy : swap_idx y p y = p) by (unfold swap_idx; now rewrite Nat.eqb_refl).
  destruct (LB p ltac:(lia)) as (s0 & Pj & Pg). pose proof (pivot_nonzero L cfg Heps _ Np) as Nz.
  assert (Q : forall j, y <= j < n -> tw false (n_div (h y j) (h y y)) (n_div (h' y j) (h' y y))).
  { intros j Hj. unfold h, h'. rewrite Sy. apply (twin_div s0); [now apply Pj|apply Pj; lia|exact Nz]. }
  assert (Qg : tw false (n_div (u y) (h y y)) (n_div (u' y) (h' y y))).
  { unfold h, h', u, u'. rewrite Sy. apply (twin_div s0); [exact Pg|apply Pj; lia|exact Nz]. }
  split.
  - intros i Hi. destruct (Nat.eq_dec i y) as [->|Ne].
    + unfold elim_fK, elim_gK. rewrite Nat.eqb_refl. split; [|exact Qg]. intros j Hj. destruct (Nat.ltb_spec j y); [lia|]. apply Q. lia.
    + destruct (LA i ltac:(lia)) as [E1 E2]. unfold elim_fK, elim_gK.
      destruct (Nat.eqb_spec i y); [lia|]. destruct (Nat.ltb_spec y i); [lia|]. cbn [andb]. unfold h, h', u, u'. rewrite (Sl i) by lia.
      split; [|exact E2]. intros j Hj. destruct (j <? y); now apply E1.
  - intros i Hi. destruct (LB (swap_idx y p i) (Sw i ltac:(lia))) as (s & Ej & Eg). exists s. unfold elim_fK, elim_gK.
    destruct (Nat.eqb_spec i y); [lia|]. destruct (Nat.ltb_spec y i); [|lia]. cbn [andb].
    change (h' i y) with (f' (swap_idx y p i) y). rewrite (twin_nabs L s _ _ (Ej y ltac:(lia))). change (f (swap_idx y p i) y) with (h i y).
    assert (Ex : tw s (h i y) (h' i y)) by (apply Ej; lia).
    destruct (n_leb (epsilon cfg) (n_abs (h i y))).
    + split.
      * intros j Hj. destruct (Nat.ltb_spec j y); [lia|]. apply twin_minus; [apply Ej; lia|]. apply twin_mul; [apply Q; lia|exact Ex].
      * apply twin_minus; [exact Eg|]. apply twin_mul; [exact Qg|exact Ex].
    + split; [|exact Eg]. intros j Hj. destruct (Nat.ltb_spec j y); [lia|]. apply Ej. lia.
Qed.

Lemma loop_step n y p f g (A b : mat K) fuel T : is_mat n n f A -> is_vec n g b -> y <= p -> p < n ->
  n_eqb (n_abs (f p y)) (n_abs (f p y)) = true -> n_ltb (n_abs (f p y)) (epsilon cfg) = false ->
  (forall i, y <= i -> i < p -> strictly_larger (f p y) (f i y)) ->
  (forall i, p < i -> i < n -> n_ltb (n_abs (f p y)) (n_abs (f i y)) = false) ->
  let h := fun i j => f (swap_idx y p i) j in let u := fun i => g (swap_idx y p i) in
  exists A1 b1, is_mat n n (elim_fK cfg y y h) A1 /\ is_vec n (elim_gK cfg y y h u) b1 /\
    elim_loop cfg (S fuel) n n y y A b T = elim_loop cfg fuel n n (S y) (S y) A1 b1 T.
Proof using.
  intros HA Hb Hy Hp H3 H4 H5 H6 h u. assert (Hyn : y < n) by lia.
  destruct (SwapRow_ok n n f A y p HA Hyn Hp) as (A0 & EA & HA0).
  destruct (SwapRow_ok n 1 _ b y p Hb Hyn Hp) as (b0 & Eb & Hb0).
  destruct (eliminate_okK cfg n n h u A0 b0 y y HA0 Hb0 Hyn Hyn) as (A1 & b1 & E1 & HA1 & Hb1).
  exists A1, b1. split; [exact HA1|]. split; [exact Hb1|]. cbn [elim_loop].
  destruct (Nat.ltb_spec y n); [|lia]. cbn [andb]. unfold bring_up.
  rewrite (GetMax_first n f A y p HA Hy Hp H3 H5 H6). cbn [bind]. rewrite EA. cbn [bind]. rewrite Eb. cbn [bind skip_columns].
  rewrite (Value_K _ _ _ _ _ _ HA0 Hyn Hyn). cbn [bind].
  assert (Sy : swap_idx y p y = p) by (unfold swap_idx; now rewrite Nat.eqb_refl). rewrite Sy, H4. cbn [bind].
  rewrite Nat.ltb_irrefl, andb_false_r. cbn [bind]. destruct (Nat.eqb_spec y n); [lia|]. rewrite E1. reflexivity.
Qed.

Lemma loop_sim n y M : pivots cfg n y M -> forall f g f' g' (A b A' b' : mat K) T fuel, (forall i j, y <= i < n -> y <= j < n -> M i j = f i j) ->
  y <= n -> n - y < fuel ->
  is_mat n n f A -> is_vec n g b -> is_mat n n f' A' -> is_vec n g' b' -> low n y f g f' g' ->
  exists f1 g1 f1' g1' A1 b1 A1' b1', elim_loop cfg fuel n n y y A b T = Ok (MkElim A1 b1 T n n) /\ elim_loop cfg fuel n n y y A' b' T = Ok (MkElim A1' b1' T n n) /\
    is_mat n n f1 A1 /\ is_vec n g1 b1 /\ is_mat n n f1' A1' /\ is_vec n g1' b1' /\ low n n f1 g1 f1' g1'.
Proof using Heps.
  induction 1 as [M|y p M Hy Hp H3 H4 H5 H6 H7 IH]; intros f g f' g' A b A' b' T fuel EM Hyn Hf HA Hb HA' Hb' Lo; (destruct fuel as [|fuel]; [lia|]).
  - exists f, g, f', g', A, b, A', b'. cbn [elim_loop]. rewrite Nat.ltb_irrefl. cbn [andb]. auto 12.
  - rewrite (EM p y) in H3, H4 by lia.
    assert (H5' : forall i, y <= i -> i < p -> strictly_larger (f p y) (f i y)) by (intros i Hi Hi'; rewrite <- !EM by lia; now apply H5).
    assert (H6' : forall i, p < i -> i < n -> n_ltb (n_abs (f p y)) (n_abs (f i y)) = false) by (intros i Hi Hi'; rewrite <- !EM by lia; now apply H6).
    assert (Ab : forall i, y <= i < n -> n_abs (f' i y) = n_abs (f i y)).
    { intros i Hi. destruct (proj2 Lo i Hi) as (s & Ej & _). apply (twin_nabs L s). apply Ej. lia. }
    destruct (loop_step n y p f g A b fuel T HA Hb Hy Hp H3 H4 H5' H6') as (A1 & b1 & HA1 & Hb1 & E1).
    destruct (loop_step n y p f' g' A' b' fuel T HA' Hb' Hy Hp) as (A1' & b1' & HA1' & Hb1' & E1').
    { rewrite Ab by lia. exact H3. }
    { rewrite Ab by lia. exact H4. }
    { intros i Hi Hi'. unfold strictly_larger. rewrite !Ab by lia. now apply H5'. }
    { intros i Hi Hi'. rewrite !Ab by lia. now apply H6'. }
    rewrite E1, E1'. pose proof (low_step n y p f g f' g' Lo Hy Hp H4) as L2.
    refine (IH _ _ _ _ A1 b1 A1' b1' T fuel _ _ _ HA1 Hb1 HA1' Hb1' L2); [|lia|lia].
    assert (Sw : forall k, y <= k < n -> y <= swap_idx y p k < n) by (intros k Hk; unfold swap_idx; destruct (Nat.eqb_spec k y), (Nat.eqb_spec k p); lia).
    intros i j Hi Hj. unfold cleared, elim_fK.
    destruct (Nat.ltb_spec j y); [lia|]. destruct (Nat.eqb_spec i y); [lia|]. destruct (Nat.ltb_spec y i); [|lia]. cbn [andb].
    rewrite !EM by (try apply Sw; lia). reflexivity.
Qed.

Theorem ties_linear n (f f' : nat -> nat -> K) (g g' : nat -> K) sg A b A' b' : 0 < n ->
  is_mat n n f A -> is_vec n g b -> is_mat n n f' A' -> is_vec n g' b' ->
  (forall i j, i < n -> j < n -> tw (sg i) (f i j) (f' i j)) -> (forall i, i < n -> tw (sg i) (g i) (g' i)) ->
  pivots cfg n 0 f ->
  exists h h' X X', SolveLinear cfg A b = Ok X /\ is_vec n h X /\ SolveLinear cfg A' b' = Ok X' /\ is_vec n h' X' /\
    forall i, i < n -> tw false (h i) (h' i).
Proof using Heps.
  intros Hn HA Hb HA' Hb' Tf Tg P.
  destruct (loop_sim n 0 f P f g f' g' A b A' b' (repeat 0 n) (S n)) as (f1 & g1 & f1' & g1' & A1 & b1 & A1' & b1' & E & E' & HA1 & Hb1 & HA1' & Hb1' & LA & _);
    try assumption; try lia; try reflexivity.
  { split; [intros i Hi; lia|]. intros i Hi. exists (sg i). split; [intros j Hj; apply Tf; lia|apply Tg; lia]. }
  destruct (Mat_make_ok n 1 (n_ofZ 0 : K)) as (r0 & Er & Hr0); [lia|lia|].
  destruct (back_substitute_okK n f1 g1 _ A1 b1 r0 HA1 Hb1 Hr0) as (h & X & EX & HX & Sh).
  destruct (back_substitute_okK n f1' g1' _ A1' b1' r0 HA1' Hb1' Hr0) as (h' & X' & EX' & HX' & Sh').
  assert (SL : forall A b A2 b2 X, m_rows A = n -> m_cols A = n -> m_rows b = n -> elim_loop cfg (S n) n n 0 0 A b (repeat 0 n) = Ok (MkElim A2 b2 (repeat 0 n) n n) ->
     back_substitute n A2 b2 r0 = Ok X -> SolveLinear cfg A b = Ok X).
  { intros C c C2 c2 Y E1 E2 E3 EL EB. unfold SolveLinear. rewrite E1, E2, E3, Nat.eqb_refl. cbn [negb]. unfold Vec_make. rewrite Er. cbn [bind].
    destruct (Nat.ltb_spec 0 n); [|lia]. rewrite Nat.eqb_refl. cbn [bind]. rewrite EL. cbn [bind negb el_A el_b el_rankA el_rankAb].
    rewrite EB. cbn [bind]. rewrite Nat.ltb_irrefl. reflexivity. }
  exists h, h', X, X'. split; [apply (SL A b A1 b1); auto; [apply HA|apply HA|apply Hb]|]. split; [exact HX|].
  split; [apply (SL A' b' A1' b1'); auto; [apply HA'|apply HA'|apply Hb']|]. split; [exact HX'|].
  assert (G : forall m i, i < n -> n - i <= m -> tw false (h i) (h' i)).
  { induction m as [|m IH]; intros i Hi Hm; [lia|]. rewrite Sh, Sh' by auto. destruct (LA i Hi) as [L1 L2]. apply twin_minus; [exact L2|].
    apply (twin_ksum L). intros k Hk. apply twin_mul; [apply L1; lia|apply IH; lia]. }
  intros i Hi. apply (G n i Hi). lia.
Qed.
End Rows.
