(** The steps of SolveLinear on matrices given by their entries, over any number type. *)
From Coq Require Import String List ZArith Bool Arith Lia.
From Verif Require Import Base MathOp MatModel LinearModel MatSpec MatProofs.
Import ListNotations.
Local Open Scope list_scope.

Section Gen.
Context {K : num_ops} (cfg : config K).
Implicit Types (f : nat -> nat -> K) (g h : nat -> K) (A b : mat K).

Lemma is_vec_ext r g g' b : (forall i, i < r -> g i = g' i) -> is_vec r g b -> is_vec r g' b.
Proof. intros E. apply is_mat_ext. intros i j Hi Hj. now rewrite E. Qed.
Lemma Value_K r c f A i j : is_mat r c f A -> i < r -> j < c -> Value A i j = Ok (f i j).
Proof. intros (_ & _ & _ & V). apply V. Qed.
Lemma Vec_get_K r g b i : is_vec r g b -> i < r -> Vec_get b i = Ok (g i).
Proof.
  intros H Hi. pose proof (is_mat_nth _ _ _ _ H i 0 Hi Nat.lt_0_1) as N. rewrite Nat.mul_1_r, Nat.add_0_r in N.
  unfold Vec_get. now apply va_get_nth.
Qed.
Lemma Vec_set_K r g b i v : is_vec r g b -> i < r ->
  exists b', Vec_set b i v = Ok b' /\ is_vec r (fun k => if k =? i then v else g k) b'.
Proof.
  intros H Hi. destruct (set_Value_ok r 1 _ b i 0 v H Hi Nat.lt_0_1) as (b' & E & H').
  exists b'. split.
  - rewrite <- E. unfold Vec_set, set_Value. destruct H as (_ & -> & _). now rewrite Nat.mul_1_r, Nat.add_0_r.
  - eapply is_mat_ext; [|exact H']. intros k j Hk Hj. cbv beta. replace j with 0 by lia. simpl.
    rewrite andb_true_r. now destruct (k =? i).
Qed.

Notation big v := (n_leb (epsilon cfg) (n_abs v)).

(** The matrix after a pivot step at (y,x). *)
Definition elim_fK (y x : nat) f (i j : nat) : K :=
  if j <? x then f i j else if i =? y then n_div (f y j) (f y x)
  else if (y <? i) && big (f i x) then n_sub (f i j) (n_mul (n_div (f y j) (f y x)) (f i x)) else f i j.
Definition elim_gK (y x : nat) f g (i : nat) : K :=
  if i =? y then n_div (g y) (f y x)
  else if (y <? i) && big (f i x) then n_sub (g i) (n_mul (n_div (g y) (f y x)) (f i x)) else g i.

Lemma eliminate_okK m n f g A b y x : is_mat m n f A -> is_vec m g b -> y < m -> x < n ->
  exists A' b', eliminate cfg m y x A b = Ok (A', b') /\ is_mat m n (elim_fK y x f) A' /\ is_vec m (elim_gK y x f g) b'.
Proof.
  intros HA Hb Hy Hx. unfold eliminate.
  rewrite (Value_K _ _ _ _ _ _ HA Hy Hx). cbn [bind].
  rewrite (Row_ok _ _ _ _ y x HA Hy) by lia. cbn [bind]. rewrite map_map.
  destruct (set_Row_ok m n _ A y x (fun k => n_div (f y (x + k)) (f y x)) HA Hy) as (A1 & EA & HA1); [lia|].
  rewrite EA. cbn [bind].
  rewrite (Vec_get_K _ _ _ _ Hb Hy). cbn [bind].
  destruct (Vec_set_K _ _ _ y (n_div (g y) (f y x)) Hb Hy) as (b1 & Eb & Hb1). rewrite Eb. cbn [bind].
  set (F := fun k i j => if i <? k then elim_fK y x f i j else f i j).
  set (G := fun k i => if i <? k then elim_gK y x f g i else g i).
  match goal with |- exists A' b', foldM ?s _ _ = _ /\ _ => set (step := s) end.
  destruct (foldM_seq (fun k '(A, b) => is_mat m n (F k) A /\ is_vec m (G k) b) step (m - S y) (S y) (A1, b1))
    as ((A', b') & E & HA' & Hb').
  - split.
    + eapply is_mat_ext; [|exact HA1]. intros i j Hi Hj. cbv beta. unfold F, elim_fK.
      destruct (Nat.eqb_spec i y) as [->|Hne].
      * destruct (Nat.ltb_spec y (S y)); [|lia]. cbn [andb].
        destruct (Nat.leb_spec x j), (Nat.ltb_spec j x); try lia; [|reflexivity].
        replace (x + (j - x)) with j by lia. reflexivity.
      * cbn [andb]. destruct (Nat.ltb_spec i (S y)), (Nat.ltb_spec j x), (Nat.ltb_spec y i); try lia; reflexivity.
    + eapply is_vec_ext; [|exact Hb1]. intros i Hi. cbv beta. unfold G, elim_gK.
      destruct (Nat.eqb_spec i y) as [->|Hne].
      * destruct (Nat.ltb_spec y (S y)); [|lia]. reflexivity.
      * destruct (Nat.ltb_spec i (S y)), (Nat.ltb_spec y i); try lia; reflexivity.
  - intros row [A2 b2] Hrow [HA2 Hb2]. unfold step.
    assert (Hr : row < m) by lia.
    rewrite (Value_K _ _ _ _ _ _ HA2 Hr Hx). cbn [bind].
    assert (EF : forall j, F row row j = f row j) by (intros j; unfold F; destruct (Nat.ltb_spec row row); [lia|reflexivity]).
    rewrite EF. destruct (big (f row x)) eqn:Ebig.
    + rewrite (Row_ok _ _ _ _ row x HA2 Hr) by lia. cbn [bind]. rewrite map_map, va_map2_map. cbn [bind].
      destruct (set_Row_ok m n _ A2 row x
        (fun k => n_sub (f row (x + k)) (n_mul (n_div (f y (x + k)) (f y x)) (f row x))) HA2 Hr) as (A3 & EA3 & HA3); [lia|].
      match goal with |- context [set_Row A2 row x ?l] => replace l with
         (map (fun k => n_sub (f row (x + k)) (n_mul (n_div (f y (x + k)) (f y x)) (f row x))) (seq 0 (n - x))) end.
      2:{ apply map_ext. intros k. rewrite EF. reflexivity. }
      rewrite EA3. cbn [bind]. rewrite (Vec_get_K _ _ _ _ Hb2 Hr). cbn [bind]. rewrite (Vec_get_K _ _ _ _ Hb2 Hy). cbn [bind].
      assert (EG1 : G row row = g row) by (unfold G; destruct (Nat.ltb_spec row row); [lia|reflexivity]).
      assert (EG2 : G row y = n_div (g y) (f y x)).
      { unfold G, elim_gK. destruct (Nat.ltb_spec y row); [|lia]. now rewrite Nat.eqb_refl. }
      rewrite EG1, EG2.
      destruct (Vec_set_K _ _ _ row (n_sub (g row) (n_mul (n_div (g y) (f y x)) (f row x))) Hb2 Hr) as (b3 & Eb3 & Hb3).
      rewrite Eb3. cbn [bind]. eexists. split; [reflexivity|]. split.
      * eapply is_mat_ext; [|exact HA3]. intros i j Hi Hj. cbv beta. unfold F at 2.
        destruct (Nat.eqb_spec i row) as [->|Hne].
        -- destruct (Nat.ltb_spec row (S row)); [|lia]. unfold elim_fK. rewrite Ebig.
           destruct (Nat.leb_spec x j), (Nat.ltb_spec j x), (Nat.eqb_spec row y), (Nat.ltb_spec y row); try lia; cbn [andb].
           ++ now replace (x + (j - x)) with j by lia.
           ++ now rewrite EF.
        -- cbn [andb]. unfold F. destruct (Nat.ltb_spec i row), (Nat.ltb_spec i (S row)); try lia; reflexivity.
      * eapply is_vec_ext; [|exact Hb3]. intros i Hi. cbv beta. unfold G at 2. 
        destruct (Nat.eqb_spec i row) as [->|Hne].
        -- destruct (Nat.ltb_spec row (S row)); [|lia]. unfold elim_gK. rewrite Ebig.
           destruct (Nat.eqb_spec row y), (Nat.ltb_spec y row); try lia; reflexivity.
        -- unfold G. destruct (Nat.ltb_spec i row), (Nat.ltb_spec i (S row)); try lia; reflexivity.
    + eexists. split; [reflexivity|]. split.
      * eapply is_mat_ext; [|exact HA2]. intros i j Hi Hj. unfold F.
        destruct (Nat.ltb_spec i row), (Nat.ltb_spec i (S row)); try lia; try reflexivity.
        assert (i = row) by lia. subst i. unfold elim_fK. rewrite Ebig, andb_false_r.
        destruct (Nat.eqb_spec row y); [lia|]. destruct (j <? x); reflexivity.
      * eapply is_vec_ext; [|exact Hb2]. intros i Hi. unfold G.
        destruct (Nat.ltb_spec i row), (Nat.ltb_spec i (S row)); try lia; try reflexivity.
        assert (i = row) by lia. subst i. unfold elim_gK. rewrite Ebig, andb_false_r.
        destruct (Nat.eqb_spec row y); [lia|]. reflexivity.
  - exists A', b'. split; [exact E|]. replace (S y + (m - S y)) with m in * by lia. split.
    + eapply is_mat_ext; [|exact HA']. intros i j Hi Hj. unfold F. destruct (Nat.ltb_spec i m); [reflexivity|lia].
    + eapply is_vec_ext; [|exact Hb']. intros i Hi. unfold G. destruct (Nat.ltb_spec i m); [reflexivity|lia].
Qed.

Lemma back_substitute_okK n f g h0 A b ret : is_mat n n f A -> is_vec n g b -> is_vec n h0 ret ->
  exists h ret', back_substitute n A b ret = Ok ret' /\ is_vec n h ret' /\
    forall i, i < n -> h i = n_sub (g i) (ksum (n - S i) (fun k => n_mul (f i (S i + k)) (h (S i + k)))).
Proof.
  intros HA Hb Hr. unfold back_substitute.
  match goal with |- exists h ret', foldM ?s _ _ = _ /\ _ => set (step := s) end.
  destruct (foldM_rev_seq (fun i ret => exists h, is_vec n h ret /\
    forall k, i <= k < n -> h k = n_sub (g k) (ksum (n - S k) (fun j => n_mul (f k (S k + j)) (h (S k + j))))) step n ret) as (ret' & E & h & H & Hh).
  - exists h0. split; [exact Hr|]. intros; lia.
  - intros i r Hi (h & Hh & EQ). unfold step.
    rewrite (Row_ok _ _ _ _ i (i + 1) HA Hi) by lia. cbn [bind].
    rewrite (Col_ok _ _ _ _ 0 (i + 1) Hh) by lia. cbn [bind]. rewrite va_map2_map. cbn [bind].
    rewrite (Vec_get_K _ _ _ _ Hb Hi). cbn [bind].
    match goal with |- context [va_sum ?l] => replace l with (map (fun k => n_mul (f i (S i + k)) (h (S i + k))) (seq 0 (n - S i))) end.
    2:{ replace (n - (i + 1)) with (n - S i) by lia. apply map_ext. intros k. now replace (i + 1 + k) with (S i + k) by lia. }
    destruct (Vec_set_K _ _ _ i (n_sub (g i) (ksum (n - S i) (fun k => n_mul (f i (S i + k)) (h (S i + k))))) Hh Hi) as (r' & E' & Hr').
    exists r'. split; [exact E'|]. eexists. split; [exact Hr'|]. cbv beta.
    intros k Hk.
    match goal with |- _ = n_sub _ ?s => assert (ES : s = ksum (n - S k) (fun j => n_mul (f k (S k + j)) (h (S k + j)))) end.
    { unfold ksum. f_equal. apply map_ext. intros j. destruct (Nat.eqb_spec (S k + j) i); [lia|reflexivity]. }
    rewrite ES. destruct (Nat.eqb_spec k i) as [->|]; [reflexivity|]. apply EQ. lia.
  - exists h, ret'. split; [exact E|]. split; [exact H|]. intros i Hi. apply Hh. lia.
Qed.
End Gen.
