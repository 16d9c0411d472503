(** SolveLinear over exact reals, step by step, on matrices given by their entries. *)
From Coq Require Import String List ZArith Bool Arith Lia Reals Lra.
From Verif Require Import Base MathOp RealSpec MatModel LinearModel MatSpec MatProofs PivotProofs.
Import ListNotations.
Local Open Scope list_scope.

Definition rmat (r c : nat) (f : nat -> nat -> R) (A : mat Rops) : Prop := is_mat r c (fun i j => Some (f i j) : Rops) A.
Definition rvec (r : nat) (g : nat -> R) (b : mat Rops) : Prop := is_mat r 1 (fun i _ => Some (g i) : Rops) b.

Lemma rmat_ext r c f f' A : (forall i j, i < r -> j < c -> f i j = f' i j) -> rmat r c f A -> rmat r c f' A.
Proof. intros E. apply is_mat_ext. intros i j Hi Hj. now rewrite E. Qed.
Lemma rvec_ext r g g' b : (forall i, i < r -> g i = g' i) -> rvec r g b -> rvec r g' b.
Proof. intros E. apply is_mat_ext. intros i j Hi Hj. now rewrite E. Qed.

Lemma Value_R r c f A i j : rmat r c f A -> i < r -> j < c -> Value A i j = Ok (Some (f i j) : Rops).
Proof. intros (_ & _ & _ & V). apply V. Qed.
Lemma Vec_get_R r g b i : rvec r g b -> i < r -> Vec_get b i = Ok (Some (g i) : Rops).
Proof.
  intros H Hi. pose proof (is_mat_nth _ _ _ _ H i 0 Hi Nat.lt_0_1) as N. rewrite Nat.mul_1_r, Nat.add_0_r in N.
  unfold Vec_get. now apply va_get_nth.
Qed.
Lemma Vec_set_R r g b i v : rvec r g b -> i < r ->
  exists b', Vec_set b i (Some v : Rops) = Ok b' /\ rvec r (fun k => if k =? i then v else g k) b'.
Proof.
  intros H Hi. destruct (set_Value_ok r 1 _ b i 0 (Some v : Rops) H Hi Nat.lt_0_1) as (b' & E & H').
  exists b'. split.
  - rewrite <- E. unfold Vec_set, set_Value. destruct H as (_ & -> & _). now rewrite Nat.mul_1_r, Nat.add_0_r.
  - eapply is_mat_ext; [|exact H']. intros k j Hk Hj. cbv beta. replace j with 0 by lia. simpl.
    rewrite andb_true_r. now destruct (k =? i).
Qed.

Section Solve.
Variables (cfg : config Rops) (eps : R).
Hypothesis Heps : epsilon cfg = Some eps.

Lemma small_R v : n_ltb (n_abs (Some v : Rops)) (epsilon cfg) = Rltb (Rabs v) eps.
Proof. now rewrite Heps. Qed.
Lemma big_R v : n_leb (epsilon cfg) (n_abs (Some v : Rops)) = Rleb eps (Rabs v).
Proof. now rewrite Heps. Qed.

Lemma bring_up_ok m n f g A b y x : rmat m n f A -> rvec m g b -> y < m -> x < n ->
  exists q A' b', bring_up m y x A b = Ok (A', b') /\ y <= q < m /\
    rmat m n (fun i j => f (swap_idx y q i) j) A' /\ rvec m (fun i => g (swap_idx y q i)) b' /\
    (forall k, y <= k < m -> (Rabs (f (swap_idx y q k) x) <= Rabs (f (swap_idx y q y) x))%R).
Proof.
  intros HA Hb Hy Hx. unfold bring_up.
  destruct (GetMaxAbs_ok m n f A y (m - 1) x HA) as (q & E & Hq & M & _); [lia|lia|lia|]. rewrite E. cbn [bind].
  destruct (SwapRow_ok m n _ A y q HA) as (A' & EA & HA'); [lia|lia|]. rewrite EA. cbn [bind].
  destruct (SwapRow_ok m 1 _ b y q Hb) as (b' & Eb & Hb'); [lia|lia|]. rewrite Eb. cbn [bind].
  exists q, A', b'. split; [reflexivity|]. split; [lia|]. split; [exact HA'|]. split; [exact Hb'|].
  intros k Hk. replace (swap_idx y q y) with q by (unfold swap_idx; now rewrite Nat.eqb_refl).
  apply M. unfold swap_idx. destruct (Nat.eqb_spec k y), (Nat.eqb_spec k q); lia.
Qed.

(** The matrix after a pivot step at (y,x). *)
Definition elim_f (y x : nat) (f : nat -> nat -> R) (i j : nat) : R :=
  if j <? x then f i j else if i =? y then (f y j / f y x)%R
  else if (y <? i) && Rleb eps (Rabs (f i x)) then (f i j - f y j / f y x * f i x)%R else f i j.
Definition elim_g (y x : nat) (f : nat -> nat -> R) (g : nat -> R) (i : nat) : R :=
  if i =? y then (g y / f y x)%R
  else if (y <? i) && Rleb eps (Rabs (f i x)) then (g i - g y / f y x * f i x)%R else g i.

Lemma eliminate_ok m n f g A b y x : rmat m n f A -> rvec m g b -> y < m -> x < n -> f y x <> 0%R ->
  exists A' b', eliminate cfg m y x A b = Ok (A', b') /\ rmat m n (elim_f y x f) A' /\ rvec m (elim_g y x f g) b'.
Proof.
  intros HA Hb Hy Hx Hp. unfold eliminate.
  rewrite (Value_R _ _ _ _ _ _ HA Hy Hx). cbn [bind].
  rewrite (Row_ok _ _ _ _ y x HA Hy) by lia. cbn [bind]. rewrite map_map.
  assert (Ed : forall a : R, n_div (Some a : Rops) (Some (f y x) : Rops) = Some (a / f y x)%R).
  { intros a. simpl. destruct (Req_EM_T (f y x) 0); [contradiction|reflexivity]. }
  set (rowY := map _ (seq 0 (n - x))).
  assert (ER : rowY = map (fun k => Some (f y (x + k)%nat / f y x)%R : Rops) (seq 0 (n - x))).
  { apply map_ext. intros k. apply Ed. }
  destruct (set_Row_ok m n _ A y x (fun k => Some (f y (x + k)%nat / f y x)%R : Rops) HA Hy) as (A1 & EA & HA1); [lia|].
  rewrite <- ER in EA. rewrite EA. cbn [bind].
  rewrite (Vec_get_R _ _ _ _ Hb Hy). cbn [bind]. rewrite Ed.
  destruct (Vec_set_R _ _ _ y (g y / f y x)%R Hb Hy) as (b1 & Eb & Hb1). rewrite Eb. cbn [bind].
  set (F := fun k i j => if i <? k then elim_f y x f i j else f i j).
  set (G := fun k i => if i <? k then elim_g y x f g i else g i).
  match goal with |- exists A' b', foldM ?s _ _ = _ /\ _ => set (step := s) end.
  destruct (foldM_seq (fun k '(A, b) => rmat m n (F k) A /\ rvec m (G k) b) step (m - S y) (S y) (A1, b1))
    as ((A', b') & E & HA' & Hb').
  - split.
    + eapply is_mat_ext; [|exact HA1]. intros i j Hi Hj. cbv beta. unfold F, elim_f.
      destruct (Nat.eqb_spec i y) as [->|Hne].
      * destruct (Nat.ltb_spec y (S y)); [|lia]. cbn [andb].
        destruct (Nat.leb_spec x j), (Nat.ltb_spec j x); try lia; [|reflexivity].
        replace (x + (j - x)) with j by lia. reflexivity.
      * cbn [andb]. destruct (Nat.ltb_spec i (S y)), (Nat.ltb_spec j x), (Nat.ltb_spec y i); try lia; reflexivity.
    + eapply rvec_ext; [|exact Hb1]. intros i Hi. cbv beta. unfold G, elim_g.
      destruct (Nat.eqb_spec i y) as [->|Hne].
      * destruct (Nat.ltb_spec y (S y)); [|lia]. reflexivity.
      * destruct (Nat.ltb_spec i (S y)), (Nat.ltb_spec y i); try lia; reflexivity.
  - intros row [A2 b2] Hrow [HA2 Hb2]. unfold step.
    assert (Hr : row < m) by lia.
    rewrite (Value_R _ _ _ _ _ _ HA2 Hr Hx). cbn [bind].
    assert (EF : forall j, F row row j = f row j) by (intros j; unfold F; destruct (Nat.ltb_spec row row); [lia|reflexivity]).
    rewrite EF, big_R. destruct (Rleb eps (Rabs (f row x))) eqn:Ebig.
    + rewrite (Row_ok _ _ _ _ row x HA2 Hr) by lia. cbn [bind]. rewrite ER, map_map, va_map2_map. cbn [bind].
      destruct (set_Row_ok m n _ A2 row x
        (fun k => Some (f row (x + k)%nat - f y (x + k)%nat / f y x * f row x)%R : Rops) HA2 Hr) as (A3 & EA3 & HA3); [lia|].
      match goal with |- context [set_Row A2 row x ?l] => replace l with
         (map (fun k => Some (f row (x + k)%nat - f y (x + k)%nat / f y x * f row x)%R : Rops) (seq 0 (n - x))) end.
      2:{ apply map_ext. intros k. rewrite EF. reflexivity. }
      rewrite EA3. cbn [bind]. rewrite (Vec_get_R _ _ _ _ Hb2 Hr). cbn [bind]. rewrite (Vec_get_R _ _ _ _ Hb2 Hy). cbn [bind].
      assert (EG1 : G row row = g row) by (unfold G; destruct (Nat.ltb_spec row row); [lia|reflexivity]).
      assert (EG2 : G row y = (g y / f y x)%R).
      { unfold G, elim_g. destruct (Nat.ltb_spec y row); [|lia]. now rewrite Nat.eqb_refl. }
      rewrite EG1, EG2.
      destruct (Vec_set_R _ _ _ row (g row - g y / f y x * f row x)%R Hb2 Hr) as (b3 & Eb3 & Hb3).
      change (n_sub (Some (g row) : Rops) (n_mul (Some (g y / f y x)%R : Rops) (Some (f row x) : Rops)))
        with (Some (g row - g y / f y x * f row x)%R : Rops).
      rewrite Eb3. cbn [bind]. eexists. split; [reflexivity|]. split.
      * eapply is_mat_ext; [|exact HA3]. intros i j Hi Hj. cbv beta. unfold F at 2.
        destruct (Nat.eqb_spec i row) as [->|Hne].
        -- destruct (Nat.ltb_spec row (S row)); [|lia]. unfold elim_f. rewrite Ebig.
           destruct (Nat.leb_spec x j), (Nat.ltb_spec j x), (Nat.eqb_spec row y), (Nat.ltb_spec y row); try lia; cbn [andb].
           ++ now replace (x + (j - x)) with j by lia.
           ++ now rewrite EF.
        -- cbn [andb]. unfold F. destruct (Nat.ltb_spec i row), (Nat.ltb_spec i (S row)); try lia; reflexivity.
      * eapply rvec_ext; [|exact Hb3]. intros i Hi. cbv beta. unfold G at 2. 
        destruct (Nat.eqb_spec i row) as [->|Hne].
        -- destruct (Nat.ltb_spec row (S row)); [|lia]. unfold elim_g. rewrite Ebig.
           destruct (Nat.eqb_spec row y), (Nat.ltb_spec y row); try lia; reflexivity.
        -- unfold G. destruct (Nat.ltb_spec i row), (Nat.ltb_spec i (S row)); try lia; reflexivity.
    + eexists. split; [reflexivity|]. split.
      * eapply rmat_ext; [|exact HA2]. intros i j Hi Hj. unfold F.
        destruct (Nat.ltb_spec i row), (Nat.ltb_spec i (S row)); try lia; try reflexivity.
        assert (i = row) by lia. subst i. unfold elim_f. rewrite Ebig, andb_false_r.
        destruct (Nat.eqb_spec row y); [lia|]. destruct (j <? x); reflexivity.
      * eapply rvec_ext; [|exact Hb2]. intros i Hi. unfold G.
        destruct (Nat.ltb_spec i row), (Nat.ltb_spec i (S row)); try lia; try reflexivity.
        assert (i = row) by lia. subst i. unfold elim_g. rewrite Ebig, andb_false_r.
        destruct (Nat.eqb_spec row y); [lia|]. reflexivity.
  - exists A', b'. split; [exact E|]. replace (S y + (m - S y)) with m in * by lia. split.
    + eapply rmat_ext; [|exact HA']. intros i j Hi Hj. unfold F. destruct (Nat.ltb_spec i m); [reflexivity|lia].
    + eapply rvec_ext; [|exact Hb']. intros i Hi. unfold G. destruct (Nat.ltb_spec i m); [reflexivity|lia].
Qed.

(** g s + ... + g (s+n-1) *)
Fixpoint rsum (g : nat -> R) (s n : nat) : R := match n with O => 0%R | S n' => (g s + rsum g (S s) n')%R end.
Lemma rsum_ext g h n : forall s, (forall k, s <= k < s + n -> g k = h k) -> rsum g s n = rsum h s n.
Proof. induction n as [|n IH]; intros s H; cbn [rsum]; [reflexivity|]. rewrite H, (IH (S s)); auto; intros; try apply H; lia. Qed.
Lemma va_sum_rsum g s n : va_sum (map (fun k => Some (g k) : Rops) (seq s n)) = Some (rsum g s n).
Proof.
  destruct n as [|n]; [reflexivity|]. cbn [seq map va_sum rsum].
  assert (G : forall n s a, fold_left n_add (map (fun k => Some (g k) : Rops) (seq s n)) (Some a : Rops) = Some (a + rsum g s n)%R).
  { clear. induction n as [|n IH]; intros s a; cbn [seq map fold_left rsum]; [now rewrite Rplus_0_r|].
    change (n_add (Some a : Rops) (Some (g s) : Rops)) with (Some (a + g s)%R : Rops). rewrite IH. f_equal. ring. }
  apply G.
Qed.

Lemma back_substitute_ok n f g h0 A b ret : rmat n n f A -> rvec n g b -> rvec n h0 ret ->
  exists h ret', back_substitute n A b ret = Ok ret' /\ rvec n h ret' /\
    forall i, i < n -> h i = (g i - rsum (fun j => f i j * h j) (S i) (n - S i))%R.
Proof.
  intros HA Hb Hr. unfold back_substitute.
  match goal with |- exists h ret', foldM ?s _ _ = _ /\ _ => set (step := s) end.
  destruct (foldM_rev_seq (fun i ret => exists h, rvec n h ret /\
    forall k, i <= k < n -> h k = (g k - rsum (fun j => f k j * h j) (S k) (n - S k))%R) step n ret) as (ret' & E & h & H & Hh).
  - exists h0. split; [exact Hr|]. intros; lia.
  - intros i r Hi (h & Hh & EQ). unfold step.
    rewrite (Row_ok _ _ _ _ i (i + 1) HA Hi) by lia. cbn [bind].
    rewrite (Col_ok _ _ _ _ 0 (i + 1) Hh) by lia. cbn [bind]. rewrite va_map2_map. cbn [bind].
    rewrite (Vec_get_R _ _ _ _ Hb Hi). cbn [bind].
    match goal with |- context [va_sum ?l] => replace l with (map (fun k => Some (f i k * h k)%R : Rops) (seq (S i) (n - S i))) end.
    2:{ replace (n - (i + 1)) with (n - S i) by lia.
        assert (G : forall q s, map (fun k => Some (f i k * h k)%R : Rops) (seq (S i + s) q) = 
           map (fun k => n_mul (Some (f i (i + 1 + k)) : Rops) (Some (h (i + 1 + k)) : Rops)) (seq s q)).
        { clear. induction q as [|q IH]; intros s; cbn [seq map]; [reflexivity|]. f_equal.
          - replace (i + 1 + s) with (S i + s) by lia. reflexivity.
          - rewrite <- IH. f_equal. f_equal. lia. }
        specialize (G (n - S i) 0). rewrite Nat.add_0_r in G. exact G. }
    rewrite va_sum_rsum.
    destruct (Vec_set_R _ _ _ i (g i - rsum (fun k => f i k * h k) (S i) (n - S i))%R Hh Hi) as (r' & E' & Hr').
    exists r'. split; [exact E'|]. eexists. split; [exact Hr'|]. cbv beta.
    intros k Hk. assert (ES : rsum (fun j => f k j * (if j =? i then g i - rsum (fun k0 => f i k0 * h k0) (S i) (n - S i) else h j))%R (S k) (n - S k)
       = rsum (fun j => f k j * h j)%R (S k) (n - S k)).
    { apply rsum_ext. intros j Hj. destruct (Nat.eqb_spec j i); [lia|reflexivity]. }
    rewrite ES. destruct (Nat.eqb_spec k i) as [->|]; [reflexivity|]. apply EQ. lia.
  - exists h, ret'. split; [exact E|]. split; [exact H|]. intros i Hi. apply Hh. lia.
Qed.

(** Moving each pivot row to its column. *)
Lemma reorder_ok n m f g p T A b : rmat n n f A -> rvec n g b -> m <= n -> length T = n ->
  (forall i, i < m -> i <= p i < n) -> (forall i j, i < j -> j < m -> p i < p j) ->
  (forall i, i < n -> nth_error T i = Some (if (i <? m) && (i <? p i) then p i else 0)) ->
  (forall i, m <= i < n -> g i = 0%R) -> (forall i j, m <= i < n -> j < n -> f i j = 0%R) ->
  exists F G A' b', reorder n T A b = Ok (A', b') /\ rmat n n F A' /\ rvec n G b' /\
    (forall i, i < m -> G (p i) = g i /\ forall j, j < n -> F (p i) j = f i j) /\
    (forall k, k < n -> (forall i, i < m -> p i <> k) -> G k = 0%R /\ forall j, j < n -> F k j = 0%R).
Proof.
  intros HA Hb Hmn HT Hp Hinc HTi Hg0 Hf0. unfold reorder.
  match goal with |- exists F G A' b', foldM ?s _ _ = _ /\ _ => set (step := s) end.
  set (P := fun i (st : mat Rops * mat Rops) => exists F G, rmat n n F (fst st) /\ rvec n G (snd st) /\
    (forall i', i <= i' < m -> G (p i') = g i' /\ forall j, j < n -> F (p i') j = f i' j) /\
    (forall k, k < i -> k < n -> G k = g k /\ forall j, j < n -> F k j = f k j) /\
    (forall k, i <= k < n -> (forall i', i <= i' < m -> p i' <> k) -> G k = 0%R /\ forall j, j < n -> F k j = 0%R)).
  destruct (foldM_rev_seq P step n (A, b)) as ((A', b') & E & F & G & HF & HG & H1 & H2 & H3).
  - exists f, g. split; [exact HA|]. split; [exact Hb|]. split; [intros; lia|]. split; [auto|]. intros; lia.
  - intros i [A1 b1] Hi (F & G & HF & HG & H1 & H2 & H3). cbn [fst snd] in *. unfold step.
    rewrite (proj2 (va_get_nth T i _) (HTi i Hi)). cbn [bind].
    destruct (Nat.ltb_spec i m) as [Him|Him]; cbn [andb].
    2:{ cbn [Nat.eqb]. eexists. split; [reflexivity|]. exists F, G. cbn [fst snd]. split; [exact HF|]. split; [exact HG|].
        split; [intros; lia|]. split; [intros; apply H2; lia|]. intros k Hk _.
        destruct (Nat.eq_dec k i) as [->|].
        - destruct (H2 i) as [E1 E2]; [lia|lia|]. rewrite E1. split; [apply Hg0; lia|]. intros j Hj. rewrite E2 by lia. apply Hf0; lia.
        - apply H3; [lia|]. intros; lia. }
    destruct (H2 i) as [Gi Fi]; [lia|lia|].
    destruct (Hp i Him) as [Hpi Hpn].
    destruct (Nat.ltb_spec i (p i)) as [Hlt|Hge].
    + destruct (Nat.eqb_spec (p i) 0); [lia|].
      destruct (SwapRow_ok n n _ A1 i (p i) HF) as (A2 & E2 & HA2); [lia|lia|]. rewrite E2. cbn [bind].
      destruct (SwapRow_ok n 1 _ b1 i (p i) HG) as (b2 & E3 & Hb2); [lia|lia|]. rewrite E3. cbn [bind].
      eexists. split; [reflexivity|]. exists (fun k j => F (swap_idx i (p i) k) j), (fun k => G (swap_idx i (p i) k)). cbn [fst snd].
      split; [exact HA2|]. split; [exact Hb2|].
      assert (Sp : swap_idx i (p i) (p i) = i).
      { unfold swap_idx. destruct (Nat.eqb_spec (p i) i); [lia|]. now rewrite Nat.eqb_refl. }
      assert (Si : swap_idx i (p i) i = p i) by (unfold swap_idx; now rewrite Nat.eqb_refl).
      assert (So : forall k, k <> i -> k <> p i -> swap_idx i (p i) k = k).
      { intros k K1 K2. unfold swap_idx. destruct (Nat.eqb_spec k i); [lia|]. destruct (Nat.eqb_spec k (p i)); [lia|reflexivity]. }
      split; [|split].
      * intros i' Hi'. destruct (Nat.eq_dec i' i) as [->|].
        -- rewrite Sp. split; [exact Gi|exact Fi].
        -- pose proof (Hinc i i' ltac:(lia) ltac:(lia)). rewrite So by lia. apply H1. lia.
      * intros k Hk Hkn. rewrite So by lia. apply H2; lia.
      * intros k Hk Hno. destruct (Nat.eq_dec k i) as [->|Hki].
        -- rewrite Si. apply H3; [lia|]. intros i' Hi' E'. pose proof (Hinc i i' ltac:(lia) ltac:(lia)). lia.
        -- rewrite So; [apply H3; [lia|intros; apply Hno; lia]|exact Hki|]. intros ->. apply (Hno i); lia.
    + assert (p i = i) by lia. cbn [Nat.eqb]. eexists. split; [reflexivity|]. exists F, G. cbn [fst snd].
      split; [exact HF|]. split; [exact HG|]. split; [|split].
      * intros i' Hi'. destruct (Nat.eq_dec i' i) as [->|]; [rewrite H; split; [exact Gi|exact Fi]|]. apply H1. lia.
      * intros k Hk Hkn. apply H2; lia.
      * intros k Hk Hno. apply H3.
        -- assert (k <> i) by (intros ->; apply (Hno i); lia). lia.
        -- intros i' Hi'. apply Hno. lia.
  - exists F, G, A', b'. split; [exact E|]. split; [exact HF|]. split; [exact HG|]. split.
    + intros i Hi. apply H1. lia.
    + intros k Hk Hno. apply H3; [lia|]. intros i' Hi'. apply Hno. lia.
Qed.

(** Whatever the table says, as long as it names rows of the matrix. *)
Lemma reorder_total n T f g A b : rmat n n f A -> rvec n g b ->
  (forall i, i < n -> exists t, nth_error T i = Some t /\ t < n) ->
  exists F G A' b', reorder n T A b = Ok (A', b') /\ rmat n n F A' /\ rvec n G b'.
Proof.
  intros HA Hb HT. unfold reorder.
  match goal with |- exists F G A' b', foldM ?s _ _ = _ /\ _ => set (step := s) end.
  destruct (foldM_rev_seq (fun _ st => exists F G, rmat n n F (fst st) /\ rvec n G (snd st)) step n (A, b))
    as ((A', b') & E & F & G & HF & HG).
  - exists f, g. auto.
  - intros i [A1 b1] Hi (F & G & HF & HG). cbn [fst snd] in *. unfold step.
    destruct (HT i Hi) as (t & Et & Ht). rewrite (proj2 (va_get_nth T i _) Et). cbn [bind].
    destruct (Nat.eqb_spec t 0).
    + eexists. split; [reflexivity|]. exists F, G. auto.
    + destruct (SwapRow_ok n n _ A1 i t HF) as (A2 & E2 & HA2); [lia|lia|]. rewrite E2. cbn [bind].
      destruct (SwapRow_ok n 1 _ b1 i t HG) as (b2 & E3 & Hb2); [lia|lia|]. rewrite E3. cbn [bind].
      eexists. split; [reflexivity|]. eexists _, _. cbn [fst snd]. split; [exact HA2|exact Hb2].
  - exists F, G, A', b'. auto.
Qed.

Lemma Resize_R r c f A r' c' : rmat r c f A -> 0 < r' -> 0 < c' ->
  exists B, Resize A r' c' = Ok B /\ rmat r' c' (fun i j => if (i <? r) && (j <? c) then f i j else 0%R) B.
Proof.
  intros HA Hr Hc. destruct (Resize_ok r c _ A r' c' HA Hr Hc) as (B & E & HB). exists B. split; [exact E|].
  eapply is_mat_ext; [|exact HB]. intros i j _ _. cbv beta. now destruct ((i <? r) && (j <? c)).
Qed.
Lemma Vec_Resize_R r g b r' : rvec r g b -> 0 < r' ->
  exists b', Vec_Resize b r' = Ok b' /\ rvec r' (fun i => if i <? r then g i else 0%R) b'.
Proof.
  intros Hb Hr. unfold Vec_Resize. destruct (Nat.ltb_spec 0 r'); [|lia].
  destruct (Resize_ok r 1 _ b r' 1 Hb Hr Nat.lt_0_1) as (B & E & HB). exists B. split; [exact E|].
  eapply is_mat_ext; [|exact HB]. intros i j _ Hj. cbv beta. replace j with 0 by lia. simpl. rewrite andb_true_r. now destruct (i <? r).
Qed.
End Solve.
