(** C89: what the condition on the pivots excludes. *)
From Coq Require Import List ZArith Bool Arith Lia Permutation.
From Verif Require Import Base MathOp MatModel LinearModel MatSpec MatProofs LinGen IEEE ClearSpec ClearLinear TieSpec TieProofs Thm_Order Thm_OrderEx.
Import ListNotations.

(** The pivots of C87 and C88 (no ties) are among those of C89. *)
Section Weaker.
Context {K : num_ops} (cfg : config K).
Lemma clear_pivots_from n m : forall y (f : nat -> nat -> K) g us, y <= n -> n - y <= m ->
  eliminates cfg (map (trow n y f g) (seq y (n - y))) us -> pivots cfg n y f.
Proof using.
  induction m as [|m IH]; intros y f g us Hy Hm HE; [replace y with n by lia; constructor|].
  destruct (Nat.eq_dec y n) as [->|Ne]; [constructor|]. assert (Hyn : y < n) by lia.
  inversion HE as [E0|rows p ps rest us' P E1 E2 E3 E4]; subst.
  { destruct (n - y) eqn:E; [lia|discriminate]. }
  assert (IN : In (p :: ps) (map (trow n y f g) (seq y (n - y)))).
  { eapply Permutation_in; [apply Permutation_sym; exact P|]. now left. }
  apply in_map_iff in IN. destruct IN as (q & Eq & Hq). apply in_split in Hq. destruct Hq as (s1 & s2 & Es).
  rewrite (trow_first n y f g q Hyn) in Eq. injection Eq as Ep Eps.
  assert (P' : Permutation (map (trow n y f g) (s1 ++ s2)) rest).
  { rewrite Es, map_app in P. cbn [map] in P. rewrite (trow_first n y f g q Hyn), Ep, Eps in P.
    apply Permutation_sym in P. apply Permutation_cons_app_inv in P. rewrite map_app. now apply Permutation_sym. }
  assert (BIG : forall k, In k (s1 ++ s2) -> strictly_larger (f q y) (f k y)).
  { intros k Hk. rewrite Ep. specialize (E3 (trow n y f g k)). rewrite (trow_first n y f g k Hyn) in E3. apply E3.
    eapply Permutation_in; [exact P'|]. apply in_map_iff. exists k. split; [now apply trow_first|exact Hk]. }
  assert (Hqn : y <= q < n). { assert (I : In q (seq y (n - y))) by (rewrite Es; apply in_or_app; right; now left). apply in_seq in I. lia. }
  assert (OTH : forall i, y <= i < n -> i <> q -> strictly_larger (f q y) (f i y)).
  { intros i Hi Hne. apply BIG. assert (I : In i (seq y (n - y))) by (apply in_seq; lia). rewrite Es in I.
    apply in_app_iff in I. apply in_or_app. destruct I as [|[|]]; auto; congruence. }
  rewrite <- Ep in E1, E2.
  apply (pv_step cfg n y q f); try lia; auto.
  { intros i Hi Hi2. apply OTH; lia. }
  { intros i Hi Hi2. apply OTH; lia. }
  set (f1 := fun i j => f (swap_idx y q i) j). set (g1 := fun i => g (swap_idx y q i)).
  assert (SY : swap_idx y q y = q) by (unfold swap_idx; now rewrite Nat.eqb_refl).
  assert (Ef : f1 y y = p) by (unfold f1; now rewrite SY).
  assert (T1 : forall x i, trow n x f1 g1 i = trow n x f g (swap_idx y q i)) by reflexivity.
  apply (pivots_ext cfg n (S y) (elim_fK cfg y y f1)).
  - apply (IH (S y) (elim_fK cfg y y f1) (elim_gK cfg y y f1 g1) us'); [lia|lia|].
    eapply el_perm; [|exact E4].
    assert (M : map (trow n (S y) (elim_fK cfg y y f1) (elim_gK cfg y y f1 g1)) (seq (S y) (n - S y)) =
      map (reduced cfg p ps) (map (trow n y f g) (map (swap_idx y q) (seq (S y) (n - S y))))).
    { rewrite !map_map. apply map_ext_in. intros i Hi. apply in_seq in Hi. rewrite trow_reduced by lia.
      rewrite Ef, !T1, SY, Eps. reflexivity. }
    rewrite M. apply Permutation_sym. apply Permutation_map. eapply Permutation_trans; [|exact P'].
    apply Permutation_map. apply swap_perm; auto.
  - intros i j Hi Hj. unfold cleared, elim_fK.
    destruct (Nat.ltb_spec j y); [lia|]. destruct (Nat.eqb_spec i y); [lia|]. destruct (Nat.ltb_spec y i); [|lia]. cbn [andb]. reflexivity.
Qed.
Theorem C89_weaker n (f : nat -> nat -> K) (g : nat -> K) : clear_pivots cfg n f g -> pivots cfg n 0 f.
Proof using.
  intros (us & HE). apply (clear_pivots_from n n 0 f g us); [lia|lia|]. rewrite Nat.sub_0_r.
  rewrite (map_ext _ _ (trow0 n f g)). exact HE.
Qed.
End Weaker.

(** A singular system (1e-12 y + z = 1, z = 3, z = 4) whose first two columns are small, with the first
    equation as it is or multiplied by -1: SolveLinear answers in both cases, with different numbers. *)
Definition small_solve (s : Z) : option D :=
  let z k := b_ofZ k : D in
  tie_first (let* A := Mat_init [[z 0%Z; n_mul (z s) (n_dec 1 (-12) : D); z s]; [z 0%Z; z 0%Z; z 1%Z]; [z 0%Z; z 0%Z; z 1%Z]] in
             let* b := Mat_init [[z s]; [z 3%Z]; [z 4%Z]] in
             SolveLinear ord_cfg A b).
Definition small_same : option bool := match small_solve 1, small_solve (-1) with Some x, Some y => Some (n_eqb x y) | _, _ => None end.
Theorem C89_small_matters : small_same = Some false. Proof. vm_cast_no_check (eq_refl (Some false)). Qed.
