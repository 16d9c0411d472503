(** Numbers up to sign in doubles, and SolveLinear when equations are multiplied by -1. *)
From Coq Require Import String List ZArith Bool Arith Lia Permutation Reals Lra.
From Flocq Require Import IEEE754.BinarySingleNaN Core.
From Verif Require Import Base MathOp MatModel LinearModel MatSpec MatProofs LinGen IEEE ClearSpec ClearLinear IdenticalProofs FloatSpec FloatFacts Thm_Rewrite SignSpec.
Import ListNotations.
Local Open Scope list_scope.

Lemma zero_twin s (a b : b64) : is_zero a -> is_zero b -> twin s a b. Proof. now right. Qed.
Lemma opp_zero (a : b64) : is_zero (Bopp a) <-> is_zero a. Proof. now destruct a. Qed.
Lemma twin_zero s a b : twin s a b -> (is_zero a <-> is_zero b).
Proof. intros [->|[Ha Hb]]; [|tauto]. destruct s; [symmetry; apply opp_zero|reflexivity]. Qed.
Lemma twin_abs s a b : twin s a b -> Babs b = Babs a.
Proof. intros [->|[Ha Hb]]; [destruct s, a; reflexivity|]. now destruct a, b. Qed.

Lemma mult_comm (v w : b64) : Bmult mode_NE v w = Bmult mode_NE w v.
Proof. exact (Thm_Rewrite.Bmult_comm v w). Qed.
Lemma twin_mul s a b c d : twin false a b -> twin s c d -> twin s (Bmult mode_NE a c) (Bmult mode_NE b d).
Proof.
  intros Hab Hcd.
  assert (Z1 : forall x y : b64, is_zero x -> is_zero y -> forall z w : b64, Babs w = Babs z -> twin s (Bmult mode_NE x z) (Bmult mode_NE y w)).
  { intros x y Hx Hy z w E. destruct x; try contradiction; destruct y; try contradiction; destruct z, w; try discriminate E; cbn;
    first [now right | left; now destruct s]. }
  assert (Z2 : forall x y : b64, is_zero x -> is_zero y -> forall z w : b64, Babs w = Babs z -> twin s (Bmult mode_NE z x) (Bmult mode_NE w y)).
  { intros x y Hx Hy z w E. destruct x; try contradiction; destruct y; try contradiction; destruct z, w; try discriminate E; cbn;
    first [now right | left; now destruct s]. }
  pose proof (twin_abs _ _ _ Hab) as Aab. pose proof (twin_abs _ _ _ Hcd) as Acd.
  destruct Hab as [->|[Ha Hb]]; [|now apply Z1]. destruct Hcd as [->|[Hc Hd]]; [|now apply Z2].
  left. destruct s; [|reflexivity]. cbn [signed]. rewrite (mult_comm a (Bopp c)), (mult_comm a c). symmetry. apply opp_mult.
Qed.
Lemma twin_div s a b p q : twin s a b -> twin s p q -> ~ is_zero p -> twin false (Bdiv mode_NE a p) (Bdiv mode_NE b q).
Proof.
  intros Hab Hpq Np. assert (Nq : ~ is_zero q) by (rewrite <- (twin_zero _ _ _ Hpq); exact Np).
  destruct Hpq as [->|[Hp _]]; [|contradiction].
  destruct Hab as [->|[Ha Hb]].
  - left. destruct s; [|reflexivity]. cbn [signed]. now rewrite div_opp, opp_opp.
  - assert (E : forall x y : b64, is_zero x -> is_zero y -> twin false (Bdiv mode_NE x p) (Bdiv mode_NE y (signed s p))).
    { intros x y Hx Hy. destruct x; try contradiction; destruct y; try contradiction.
      destruct p, s; cbn in *; try (exfalso; now apply Np); first [now right | now left]. }
    now apply E.
Qed.
Lemma normalize_opp z e : z <> 0%Z -> binary_normalize 53 1024 Hprec Hemax mode_NE (- z) e false = Bopp (binary_normalize 53 1024 Hprec Hemax mode_NE z e false).
Proof.
  intros Hz. destruct z as [|m|m]; [contradiction| |]; cbn [Z.opp]; unfold binary_normalize; apply B2SF_inj; rewrite SFopp_Bopp, !B2SF_SF2B;
  unfold binary_round; destruct (shl_align_fexp 53 1024 m e) as [mz ez].
  - apply (round_aux_opp false).
  - change false with (negb true) at 1. apply round_aux_opp.
Qed.
Lemma plus_opp (a b : b64) : Bplus mode_NE (Bopp a) (Bopp b) = Bopp (Bplus mode_NE a b) \/ (is_zero (Bplus mode_NE (Bopp a) (Bopp b)) /\ is_zero (Bplus mode_NE a b)).
Proof.
  destruct a as [s|s| |s m e He], b as [s'|s'| |s' m' e' He'];
  try (left; reflexivity); try (destruct s, s'; cbn; auto; fail).
  cbn [Bopp Bplus]. cbv zeta.
  assert (E : forall k, Fplus_naive (negb s) m e (negb s') m' e' k = (- Fplus_naive s m e s' m' e' k)%Z).
  { intros k. unfold Fplus_naive. destruct s, s'; cbn [negb SpecFloat.cond_Zopp]; ring. }
  rewrite E. destruct (Z.eq_dec (Fplus_naive s m e s' m' e' (Z.min e e')) 0) as [->|Hz].
  - right. split; exact Logic.I.
  - left. now apply normalize_opp.
Qed.
Lemma mult_plus_comm (v w : b64) : Bplus mode_NE v w = Bplus mode_NE w v.
Proof. exact (Thm_Rewrite.Bplus_comm v w). Qed.
Lemma Forall2_in_r {X Y} (R : X -> Y -> Prop) l l' : Forall2 R l l' -> forall y, In y l' -> exists x, In x l /\ R x y.
Proof.
  induction 1 as [|a b l l' H HR IH]; intros y Hy; [contradiction|]. destruct Hy as [<-|Hy]; [exists a; split; [now left|exact H]|].
  destruct (IH y Hy) as (x & Hx & Hxy). exists x. split; [now right|exact Hxy].
Qed.
Lemma Forall2_nth_map {T X Y} (R : X -> Y -> Prop) (u : T -> X) (v : T -> Y) l : Forall2 R (map u l) (map v l) -> forall i, In i l -> R (u i) (v i).
Proof. induction l as [|a l IH]; cbn [map]; intros H i Hi; [contradiction|]. inversion H; subst. destruct Hi as [<-|Hi]; auto. Qed.
Lemma plus_zero_l (x a y : b64) : is_zero x -> is_zero y -> Bplus mode_NE x a = Bplus mode_NE y a \/ (is_zero (Bplus mode_NE x a) /\ is_zero (Bplus mode_NE y a)).
Proof. intros Hx Hy. destruct x; try contradiction; destruct y; try contradiction. destruct a as [sa|sa| |sa m e H]; [right|left..]; try reflexivity. destruct s, s0, sa; split; exact Logic.I. Qed.
Lemma twin_trans a b c : twin false a b -> twin false b c -> twin false a c.
Proof. intros [->|[Ha Hb]] [->|[Hb' Hc]]; [now left|now right|now right|now right]. Qed.
Lemma twin_trans_s s a b c : twin s a b -> twin false b c -> twin s a c.
Proof.
  intros H [->|[Hb Hc]]; [exact H|]. right. split; [|exact Hc]. now apply (twin_zero s a b).
Qed.
Lemma plus_same (a b c d : b64) : twin false a b -> twin false c d -> twin false (Bplus mode_NE a c) (Bplus mode_NE b d).
Proof.
  assert (P : forall x y z : b64, twin false x y -> twin false (Bplus mode_NE x z) (Bplus mode_NE y z)).
  { intros x y z [->|[Hx Hy]]; [now left|]. destruct (plus_zero_l y z x Hy Hx) as [E|E]; [left; exact E|right; tauto]. }
  intros H1 H2. eapply twin_trans; [apply (P a b c H1)|]. rewrite (mult_plus_comm b c), (mult_plus_comm b d). now apply P.
Qed.
Lemma twin_plus s (a b c d : b64) : twin s a b -> twin s c d -> twin s (Bplus mode_NE a c) (Bplus mode_NE b d).
Proof.
  destruct s; [|apply plus_same]. intros H1 H2.
  apply (twin_trans_s true _ (Bplus mode_NE (Bopp a) (Bopp c))).
  - destruct (plus_opp a c) as [E|[E1 E2]]; [left; exact E|right; auto].
  - apply plus_same; [destruct H1 as [->|[X Y]]|destruct H2 as [->|[X Y]]]; first [now left | right; split; [now apply opp_zero|assumption]].
Qed.
Lemma twin_opp s (a b : b64) : twin s a b -> twin s (Bopp a) (Bopp b).
Proof. intros [->|[Ha Hb]]; [left; now destruct s|right; now rewrite !opp_zero]. Qed.
Lemma twin_minus s (a b c d : b64) : twin s a b -> twin s c d -> twin s (Bminus mode_NE a c) (Bminus mode_NE b d).
Proof. intros H1 H2. rewrite !minus_plus_opp. apply twin_plus; [exact H1|now apply twin_opp]. Qed.

Section Rows.
Context (L : libm) (cfg : config (B64 L)).
Notation K := (B64 L).
Notation tw s := (fun a b : K => twin s (a : b64) (b : b64)).
Hypothesis Heps : n_ltb (n_ofZ 0 : K) (epsilon cfg) = true.
Notation twin_row := (fun r r' : list K => exists s, Forall2 (tw s) r r').

Lemma twin_nabs s (a b : K) : tw s a b -> n_abs b = n_abs a.
Proof using. apply twin_abs. Qed.
Lemma pivot_nonzero (p : K) : n_ltb (n_abs p) (epsilon cfg) = false -> ~ is_zero (p : b64).
Proof using Heps.
  intros H Hz. assert (E : n_abs p = (B754_zero false : b64)) by (destruct (p : b64); try contradiction; reflexivity).
  rewrite E in H. assert (E0 : (n_ofZ 0 : K) = (B754_zero false : b64)) by reflexivity. rewrite E0 in Heps. congruence.
Qed.

Lemma twin_reduced (p p' : K) s0 ps ps' r r' s : ~ is_zero (p : b64) -> tw s0 p p' -> Forall2 (tw s0) ps ps' -> Forall2 (tw s) r r' ->
  Forall2 (tw s) (reduced cfg p ps r) (reduced cfg p' ps' r').
Proof using.
  intros Np Hp Hps Hr. destruct Hr as [|a b r r' Hab Hr]; [constructor|]. cbn [reduced]. rewrite (twin_nabs s a b Hab).
  destruct (n_leb (epsilon cfg) (n_abs a)); [|exact Hr].
  revert r r' Hr. induction Hps as [|q q' ps ps' Hq Hps IH]; intros r r' Hr; destruct Hr as [|c d r r' Hcd Hr]; cbn [combine map]; try constructor.
  - apply twin_minus; [exact Hcd|]. apply twin_mul; [|exact Hab]. now apply (twin_div s0).
  - now apply IH.
Qed.

Lemma twin_eliminates rows us : eliminates cfg rows us -> forall rows', Forall2 twin_row rows rows' ->
  exists us', eliminates cfg rows' us' /\ Forall2 (Forall2 (tw false)) us us'.
Proof using Heps.
  induction 1 as [|rows p ps rest us P H1 H2 H3 H4 IH]; intros rows' HR.
  - inversion HR. exists []. split; constructor.
  - destruct (Permutation_Forall2 P HR) as (rows2 & P2 & HR2). inversion HR2 as [|x pr y rest' (s0 & Hpr) Hrest]; subst.
    inversion Hpr as [|x p' y ps' Hp Hps]; subst.
    pose proof (pivot_nonzero p H2) as Np.
    destruct (IH (map (reduced cfg p' ps') rest')) as (us' & E & HU).
    { clear - Hrest Np Hp Hps. induction Hrest as [|r r' l l' (s & Hr) Hrest IH]; cbn [map]; constructor; [|exact IH].
      exists s. now apply (twin_reduced p p' s0). }
    exists (map (fun q => n_div q p') ps' :: us'). split.
    + eapply el_pivot; eauto.
      * rewrite (twin_nabs s0 p p' Hp). exact H1.
      * rewrite (twin_nabs s0 p p' Hp). exact H2.
      * intros r' Hr'. destruct (Forall2_in_r _ _ _ Hrest r' Hr') as (r & Hr & s & Hrr).
        specialize (H3 r Hr). unfold strictly_larger in *. rewrite (twin_nabs s0 p p' Hp).
        assert (Ef : n_abs (first r') = n_abs (first r)). { destruct Hrr as [|a b r r' Hab]; [reflexivity|]. apply (twin_nabs s), Hab. }
        rewrite Ef. exact H3.
    + constructor; [|exact HU]. clear - Hps Hp Np. induction Hps as [|q q' ps ps' Hq Hps IH]; cbn [map]; constructor; [|exact IH].
      now apply (twin_div s0).
Qed.

Lemma twin_ksum m (a b : nat -> K) : (forall k, k < m -> tw false (a k) (b k)) -> tw false (ksum m a) (ksum m b).
Proof using.
  intros H. unfold ksum, va_sum. destruct m as [|m]; [now left|]. cbn [seq map].
  assert (G : forall l (x y : K), tw false x y -> (forall k, In k l -> tw false (a k) (b k)) -> tw false (fold_left n_add (map a l) x) (fold_left n_add (map b l) y)).
  { induction l as [|k l IH]; intros x y Hxy Hl; cbn [map fold_left]; [exact Hxy|]. apply IH; [|intros; apply Hl; now right].
    apply plus_same; [exact Hxy|apply Hl; now left]. }
  apply G; [apply H; lia|]. intros k Hk. apply in_seq in Hk. apply H. lia.
Qed.

Theorem signs_linear n (f f' : nat -> nat -> K) (g g' : nat -> K) pi sg A b A' b' : 0 < n -> rearrangement n pi ->
  is_mat n n f A -> is_vec n g b -> is_mat n n f' A' -> is_vec n g' b' ->
  (forall i j, i < n -> j < n -> tw (sg i) (f (pi i) j) (f' i j)) -> (forall i, i < n -> tw (sg i) (g (pi i)) (g' i)) ->
  clear_pivots cfg n f g ->
  exists h h' X X', SolveLinear cfg A b = Ok X /\ is_vec n h X /\ SolveLinear cfg A' b' = Ok X' /\ is_vec n h' X' /\
    forall i, i < n -> tw false (h i) (h' i).
Proof using Heps.
  intros Hn Hpi HA Hb HA' Hb' Tf Tg (us & HE).
  destruct (solve_clear cfg n f g A b us Hn HA Hb HE) as (f1 & g1 & h1 & X1 & E1 & H1 & U1 & S1).
  assert (HE2 : eliminates cfg (map (row_of n (fun i => f (pi i)) (fun i => g (pi i))) (seq 0 n)) us).
  { eapply el_perm; [|exact HE].
    assert (M : map (row_of n (fun i => f (pi i)) (fun i => g (pi i))) (seq 0 n) = map (row_of n f g) (map pi (seq 0 n))) by (rewrite map_map; reflexivity).
    rewrite M. apply Permutation_map. apply Permutation_sym. exact Hpi. }
  destruct (twin_eliminates _ _ HE2 (map (row_of n f' g') (seq 0 n))) as (us' & HE' & HU).
  { assert (G : forall l, (forall i, In i l -> i < n) -> Forall2 twin_row (map (row_of n (fun i => f (pi i)) (fun i => g (pi i))) l) (map (row_of n f' g') l)).
    { induction l as [|i l IH]; intros Hl; cbn [map]; constructor; [|apply IH; intros; apply Hl; now right].
      assert (Hi : i < n) by (apply Hl; now left). exists (sg i). unfold row_of. apply Forall2_app; [|constructor; [now apply Tg|constructor]].
      assert (Q : forall l, (forall j, In j l -> j < n) -> Forall2 (tw (sg i)) (map (f (pi i)) l) (map (f' i) l)).
      { induction l0 as [|j l0 IH0]; intros H; cbn [map]; constructor; [apply Tf; [exact Hi|apply H; now left]|apply IH0; intros; apply H; now right]. }
      apply Q. intros j Hj. apply in_seq in Hj. lia. }
    apply G. intros i Hi. apply in_seq in Hi. lia. }
  destruct (solve_clear cfg n f' g' A' b' us' Hn HA' Hb' HE') as (f2 & g2 & h2 & X2 & E2 & H2 & U2 & S2).
  exists h1, h2, X1, X2. split; [exact E1|]. split; [exact H1|]. split; [exact E2|]. split; [exact H2|].
  assert (C : forall i j, i < n -> i < j <= n -> tw false (auge f1 g1 n i j) (auge f2 g2 n i j)).
  { intros i j Hi Hj.
    assert (R : Forall2 (tw false) (trow n (S i) f1 g1 i) (trow n (S i) f2 g2 i)).
    { rewrite <- U1, <- U2 in HU. 
      pose proof (Forall2_nth_map _ _ _ (seq 0 n) HU i) as Q. apply Q. apply in_seq. lia. }
    unfold trow in R. refine (Forall2_nth_map _ _ _ _ R j _). apply in_seq. lia. }
  assert (G : forall m i, i < n -> n - i <= m -> tw false (h1 i) (h2 i)).
  { induction m as [|m IH]; intros i Hi Hm; [lia|]. rewrite S1, S2 by auto. apply twin_minus.
    - specialize (C i n Hi ltac:(lia)). unfold auge in C. rewrite Nat.eqb_refl in C. exact C.
    - apply twin_ksum. intros k Hk. apply twin_mul; [|apply IH; lia].
      specialize (C i (S i + k) Hi ltac:(lia)). unfold auge in C. destruct (Nat.eqb_spec (S i + k) n); [lia|exact C]. }
  intros i Hi. apply (G n i Hi). lia.
Qed.
End Rows.
