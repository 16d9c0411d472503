(** [SolveLinear] always ends, in every arithmetic (NaN included): all possible outcomes. *)
From Coq Require Import String List ZArith Bool Arith Lia.
From Verif Require Import Base MathOp MatModel MatSpec MatProofs LinearModel.
Import ListNotations.
Local Open Scope list_scope.

(** The result of a call: a value satisfying P, an exception satisfying E, or a failed assertion. *)
Definition ends {A} (P : A -> Prop) (E : exn -> Prop) (m : res A) : Prop :=
  match m with
  | Ok a => P a
  | Throw e => E e
  | AssertFail _ => True
  | Undef _ | Terminate | OutOfFuel => False
  end.

Lemma ends_bind {A B} (P : A -> Prop) (Q : B -> Prop) E m (f : A -> res B) :
  ends P E m -> (forall a, P a -> ends Q E (f a)) -> ends Q E (bind m f).
Proof. destruct m; simpl; auto; tauto. Qed.
Lemma ends_imp {A} (P Q : A -> Prop) (E F : exn -> Prop) m : ends P E m -> (forall a, P a -> Q a) -> (forall e, E e -> F e) -> ends Q F m.
Proof. destruct m; simpl; auto. Qed.
Lemma ends_foldM {A B} (P : B -> Prop) E (f : B -> A -> res B) l b :
  P b -> (forall a b, In a l -> P b -> ends P E (f b a)) -> ends P E (foldM f l b).
Proof.
  revert b. induction l as [|a l IH]; intros b Hb H; simpl; auto.
  eapply ends_bind; [apply H; simpl; auto|]. intros b' Hb'. apply IH; auto. intros. apply H; simpl; auto.
Qed.

Definition linear_error (e : exn) : Prop :=
  exists t s, e = MathError t s /\
    (t = ERROR_SINGULAR_MATRIX \/ t = ERROR_INFINITY_SOLUTIONS \/ t = ERROR_INDETERMINATE_EQUATION \/ t = ERROR_OVER_DETERMINED_EQUATIONS).

Section S.
Context {K : num_ops} (cfg : config K).
Implicit Types A B b : mat K.

Definition shp (r c : nat) (A : mat K) : Prop := exists f, is_mat r c f A.

Lemma shp_wf A : 0 < m_rows A -> 0 < m_cols A -> length (m_data A) = m_rows A * m_cols A -> shp (m_rows A) (m_cols A) A.
Proof. intros. eexists. apply wf_is_mat. repeat split; auto. Qed.

Lemma find_index_le {T} (p : T -> bool) l : find_index p l <= length l.
Proof. induction l as [|a l IH]; simpl; [lia|]. destruct (p a); lia. Qed.

Lemma SwapRow_ends r c A i j E : shp r c A -> ends (shp r c) E (SwapRow A i j).
Proof.
  intros [f H]. destruct (lt_dec i r) as [Hi|Hi]; [destruct (lt_dec j r) as [Hj|Hj]|].
  - destruct (SwapRow_ok r c f A i j H Hi Hj) as (B & -> & HB). simpl. eexists; eauto.
  - unfold SwapRow. destruct H as (E1 & H). destruct (Nat.eqb_spec i j); [simpl; exists f; split; auto|].
    rewrite E1. destruct (Nat.ltb_spec i r), (Nat.ltb_spec j r); try lia; simpl; auto.
  - unfold SwapRow. destruct H as (E1 & H). destruct (Nat.eqb_spec i j); [simpl; exists f; split; auto|].
    rewrite E1. destruct (Nat.ltb_spec i r); try lia; simpl; auto.
Qed.
Lemma SwapRow_in r c A i j : shp r c A -> i < r -> j < r -> exists B, SwapRow A i j = Ok B /\ shp r c B.
Proof. intros [f H] Hi Hj. destruct (SwapRow_ok r c f A i j H Hi Hj) as (B & E & HB). exists B. split; [auto|]. eexists; eauto. Qed.

Lemma Value_shp r c A i j : shp r c A -> i < r -> j < c -> exists v, MatModel.Value A i j = Ok v.
Proof. intros [f (_ & _ & _ & V)] Hi Hj. eexists. apply V; auto. Qed.
Lemma Vec_get_shp r b i : shp r 1 b -> i < r -> exists v, Vec_get b i = Ok v.
Proof.
  intros [f H] Hi. pose proof (is_mat_nth _ _ _ _ H i 0 Hi Nat.lt_0_1) as N. rewrite Nat.mul_1_r, Nat.add_0_r in N.
  eexists. unfold Vec_get. apply va_get_nth. exact N.
Qed.
Lemma Vec_set_shp r b i v : shp r 1 b -> i < r -> exists b', Vec_set b i v = Ok b' /\ shp r 1 b'.
Proof.
  intros [f H] Hi. destruct (set_Value_ok r 1 _ b i 0 v H Hi Nat.lt_0_1) as (b' & E & H').
  exists b'. split; [|eexists; eauto]. rewrite <- E. unfold Vec_set, set_Value. destruct H as (_ & -> & _). now rewrite Nat.mul_1_r, Nat.add_0_r.
Qed.
Lemma Row_shp r c A i off : shp r c A -> i < r -> off <= c -> exists l, Row A i off = Ok l /\ length l = c - off.
Proof. intros [f H] Hi Ho. rewrite (Row_ok _ _ _ _ i off H Hi Ho). eexists. split; [reflexivity|]. now rewrite map_length, seq_length. Qed.
Lemma Col_shp r c A j off : shp r c A -> j < c -> off <= r -> exists l, Col A j off = Ok l /\ length l = r - off.
Proof. intros [f H] Hi Ho. rewrite (Col_ok _ _ _ _ j off H Hi Ho). eexists. split; [reflexivity|]. now rewrite map_length, seq_length. Qed.
Lemma set_Row_shp r c A i off l : shp r c A -> i < r -> off <= c -> length l = c - off ->
  exists B, set_Row A i off l = Ok B /\ shp r c B.
Proof.
  intros [f H] Hi Ho Hl. destruct (set_Row_ok r c f A i off (fun k => nth k l (n_ofZ 0)) H Hi Ho) as (B & E & HB).
  rewrite <- Hl, map_nth_seq in E. exists B. split; [auto|]. eexists; eauto.
Qed.
Lemma va_map2_len (op : K -> K -> K) v w : length v = length w -> exists u, va_map2 op v w = Ok u /\ length u = length v.
Proof.
  revert w. induction v as [|a v IH]; intros [|b w] H; try discriminate; cbn [va_map2]; [eauto|].
  destruct (IH w) as (u & -> & L); [simpl in H; lia|]. cbn [bind]. eexists. split; [reflexivity|]. simpl. lia.
Qed.

Lemma GetMaxAbs_shp r c A s col : shp r c A -> s < r -> col < c ->
  exists p, GetMaxAbsRowIndex A s (r - 1) col = Ok p /\ s <= p.
Proof.
  intros [f H] Hs Hc. unfold GetMaxAbsRowIndex. rewrite (Col_ok _ _ _ _ col 0 H Hc) by lia. cbn [bind].
  destruct (Nat.leb_spec s (S (r - 1))); [|lia]. rewrite Nat.sub_0_r.
  assert (E : exists l, va_read (map (fun k => f (0 + k) col) (seq 0 r)) (slice s (S (r - 1) - s) 1) = Ok l /\ l <> []).
  { unfold slice. rewrite (va_read_map _ (fun k => s + k * 1) (fun k => f (s + k) col)).
    - eexists. split; [reflexivity|]. destruct (S (r - 1) - s) eqn:Q; [lia|]. discriminate.
    - intros k Hk. apply in_seq in Hk. erewrite map_nth_error with (d := s + k); [reflexivity|].
      rewrite nth_error_nth' with (d := 0) by (rewrite seq_length; lia). f_equal. rewrite seq_nth; lia. }
  destruct E as (l & -> & Hl). cbn [bind]. destruct l as [|a l]; [congruence|]. cbn [map va_max bind pick].
  eexists. split; [reflexivity|]. lia.
Qed.

Lemma bring_up_ends m n y x A b E : shp m n A -> shp m 1 b -> y < m -> x < n ->
  ends (fun '(A, b) => shp m n A /\ shp m 1 b) E (bring_up m y x A b).
Proof.
  intros HA Hb Hy Hx. unfold bring_up. destruct (GetMaxAbs_shp m n A y x HA Hy Hx) as (p & -> & _). cbn [bind].
  eapply ends_bind; [apply SwapRow_ends, HA|]. intros A' HA'. eapply ends_bind; [apply SwapRow_ends, Hb|]. intros b' Hb'. simpl. auto.
Qed.

Lemma skip_ends E m n y fuel : forall x A b, shp m n A -> shp m 1 b -> y < m -> x < n -> n - x < fuel ->
  ends (fun '(x', A, b) => x <= x' <= n /\ shp m n A /\ shp m 1 b) E (skip_columns cfg fuel m n y x A b).
Proof.
  induction fuel as [|fuel IH]; intros x A b HA Hb Hy Hx Hf; [lia|]. cbn [skip_columns].
  destruct (Value_shp m n A y x HA Hy Hx) as [v ->]. cbn [bind].
  destruct (n_ltb (n_abs v) (epsilon cfg)); [|simpl; split; [lia|auto]].
  destruct (Nat.eqb_spec (S x) n) as [E1|E1]; [simpl; split; [lia|auto]|].
  eapply ends_bind; [apply bring_up_ends; eauto; lia|]. intros (A', b') [HA' Hb'].
  eapply ends_imp; [apply IH; auto; lia| |auto]. intros [[x' A2] b2] (? & ? & ?). split; [lia|auto].
Qed.

Lemma eliminate_ends E m n y x A b : shp m n A -> shp m 1 b -> y < m -> x < n ->
  ends (fun '(A, b) => shp m n A /\ shp m 1 b) E (eliminate cfg m y x A b).
Proof.
  intros HA Hb Hy Hx. unfold eliminate.
  destruct (Value_shp m n A y x HA Hy Hx) as [v ->]. cbn [bind].
  destruct (Row_shp m n A y x HA Hy) as (l & -> & Hl); [lia|]. cbn [bind].
  set (rowY := map _ l). assert (Ly : length rowY = n - x) by (unfold rowY; now rewrite map_length).
  destruct (set_Row_shp m n A y x rowY HA Hy) as (A1 & -> & HA1); [lia|auto|]. cbn [bind].
  destruct (Vec_get_shp m b y Hb Hy) as [w ->]. cbn [bind].
  destruct (Vec_set_shp m b y (n_div w v) Hb Hy) as (b1 & -> & Hb1). cbn [bind].
  apply ends_foldM; [auto|]. intros row [A2 b2] Hrow [HA2 Hb2]. apply in_seq in Hrow.
  destruct (Value_shp m n A2 row x HA2) as [v2 ->]; [lia|auto|]. cbn [bind].
  destruct (n_leb (epsilon cfg) (n_abs v2)); [|simpl; auto].
  destruct (Row_shp m n A2 row x HA2) as (l2 & -> & Hl2); [lia|lia|]. cbn [bind].
  destruct (va_map2_len n_sub l2 (map (fun v => n_mul v v2) rowY)) as (u & -> & Lu); [rewrite map_length; lia|]. cbn [bind].
  destruct (set_Row_shp m n A2 row x u HA2) as (A3 & -> & HA3); [lia|lia|lia|]. cbn [bind].
  destruct (Vec_get_shp m b2 row Hb2) as [w2 ->]; [lia|]. cbn [bind].
  destruct (Vec_get_shp m b2 y Hb2) as [w3 ->]; [lia|]. cbn [bind].
  match goal with |- context [Vec_set b2 row ?z] => destruct (Vec_set_shp m b2 row z Hb2) as (b3 & -> & Hb3); [lia|] end.
  simpl. auto.
Qed.

Definition Tok (n : nat) (T : list nat) : Prop := length T = n /\ Forall (fun t => t < n) T.
Lemma Tok_set n T y x : Tok n T -> y < n -> x < n -> exists T', va_set T y x = Ok T' /\ Tok n T'.
Proof.
  intros [L F] Hy Hx. destruct (va_set_ok T y x) as (w & E & Lw & Nw); [lia|]. exists w. split; [auto|]. split; [lia|].
  apply Forall_forall. intros t Ht. apply In_nth_error in Ht as [k Hk]. rewrite Nw in Hk.
  destruct (k =? y); [injection Hk as <-; auto|]. apply nth_error_In in Hk. rewrite Forall_forall in F. auto.
Qed.

Lemma elim_ends m n fuel : m <= n -> 0 < n -> forall y x A b T, shp m n A -> shp m 1 b -> Tok n T -> y <= m -> m - y < fuel ->
  ends (fun st => shp m n (el_A st) /\ shp m 1 (el_b st) /\ Tok n (el_T st)) linear_error (elim_loop cfg fuel m n y x A b T).
Proof.
  intros Hmn Hn. induction fuel as [|fuel IH]; intros y x A b T HA Hb HT Hy Hf; [lia|]. cbn [elim_loop].
  destruct (Nat.ltb_spec y m) as [Hy'|Hy']; [|simpl; auto].
  destruct (Nat.ltb_spec x n) as [Hx|Hx]; [|simpl; auto]. cbn [andb].
  eapply ends_bind; [apply bring_up_ends; eauto|]. intros (A1, b1) [HA1 Hb1].
  eapply ends_bind; [apply (skip_ends _ m n y (S n) x A1 b1); auto; lia|]. intros [[x1 A2] b2] (Hx1 & HA2 & Hb2).
  apply ends_bind with (P := Tok n).
  { destruct (Nat.eqb_spec x1 n); cbn [negb andb]; [exact HT|]. destruct (Nat.ltb_spec y x1); [|exact HT].
    destruct (Tok_set n T y x1 HT) as (T' & -> & HT'); [lia|lia|]. exact HT'. }
  intros T1 HT1. destruct (Nat.eqb_spec x1 n).
  - destruct (Vec_get_shp m b2 y Hb2 Hy') as [w ->]. cbn [bind].
    destruct (_ =? _); simpl; auto. red. eauto 8.
  - eapply ends_bind; [apply eliminate_ends; eauto; lia|]. intros (A3, b3) [HA3 Hb3]. apply IH; auto; lia.
Qed.

Lemma reorder_ends E n T A b : shp n n A -> shp n 1 b -> Tok n T ->
  ends (fun '(A, b) => shp n n A /\ shp n 1 b) E (reorder n T A b).
Proof.
  intros HA Hb [LT FT]. unfold reorder. apply ends_foldM; [auto|]. intros i [A1 b1] Hi [HA1 Hb1].
  apply in_rev, in_seq in Hi. destruct (nth_error T i) as [t|] eqn:Et; [|apply nth_error_None in Et; lia].
  unfold va_get. rewrite Et. cbn [bind]. destruct (t =? 0); [simpl; auto|].
  eapply ends_bind; [apply SwapRow_ends, HA1|]. intros A2 HA2. eapply ends_bind; [apply SwapRow_ends, Hb1|]. intros b2 Hb2. simpl. auto.
Qed.

Lemma back_ends E n A b ret : shp n n A -> shp n 1 b -> shp n 1 ret -> ends (shp n 1) E (back_substitute n A b ret).
Proof.
  intros HA Hb Hr. unfold back_substitute. apply ends_foldM; [auto|]. intros i ret1 Hi Hr1. apply in_rev, in_seq in Hi.
  destruct (Row_shp n n A i (i + 1) HA) as (l & -> & Ll); [lia|lia|]. cbn [bind].
  destruct (Col_shp n 1 ret1 0 (i + 1) Hr1) as (l' & -> & Ll'); [lia|lia|]. cbn [bind].
  destruct (va_map2_len n_mul l l') as (u & -> & _); [lia|]. cbn [bind].
  destruct (Vec_get_shp n b i Hb) as [w ->]; [lia|]. cbn [bind].
  match goal with |- context [Vec_set ret1 i ?z] => destruct (Vec_set_shp n ret1 i z Hr1) as (b3 & -> & Hb3); [lia|] end. exact Hb3.
Qed.

Lemma Resize_shp r c A r' c' : shp r c A -> 0 < r' -> 0 < c' -> exists B, Resize A r' c' = Ok B /\ shp r' c' B.
Proof. intros [f H] Hr Hc. destruct (Resize_ok r c f A r' c' H Hr Hc) as (B & E & HB). exists B. split; [auto|]. eexists; eauto. Qed.
Lemma Vec_Resize_shp r b r' : shp r 1 b -> 0 < r' -> exists B, Vec_Resize b r' = Ok B /\ shp r' 1 B.
Proof. intros H Hr. unfold Vec_Resize. destruct (Nat.ltb_spec 0 r'); [|lia]. apply (Resize_shp r 1); auto. Qed.

Theorem SolveLinear_ends m n A b : 0 < m -> 0 < n -> shp m n A -> shp m 1 b ->
  ends (fun X => shp n 1 X) linear_error (SolveLinear cfg A b).
Proof.
  intros Hm Hn HA Hb. unfold SolveLinear. pose proof HA as [f (E1 & E2 & _)]. pose proof Hb as [g (E3 & E4 & _)].
  rewrite E1, E2, E3, Nat.eqb_refl. cbn [negb]. unfold Vec_make.
  destruct (Mat_make_ok m 1 (n_ofZ 0 : K)) as (r0 & -> & Hr0); [lia|lia|]. cbn [bind].
  destruct (Nat.ltb_spec 0 m); [|lia].
  apply ends_bind with (P := fun r => shp n 1 r /\ m <= n).
  { destruct (Nat.eqb_spec n m) as [->|]; [simpl; split; [eexists; eauto|lia]|].
    destruct (Nat.ltb_spec n m); [simpl; red; eauto 8|].
    destruct (Vec_Resize_shp m r0 n) as (r1 & -> & Hr1); [eexists; eauto|auto|]. simpl. split; [auto|lia]. }
  intros ret [Hret Hle].
  eapply ends_bind; [apply (elim_ends m n (S m)); auto; [|lia|lia]|].
  { split; [apply repeat_length|]. apply Forall_forall. intros t Ht. apply repeat_spec in Ht. lia. }
  intros st (HsA & Hsb & HsT).
  apply ends_bind with (P := fun '(A, b) => shp n n A /\ shp n 1 b).
  { destruct (Nat.eqb_spec m n) as [->|Hne]; cbn [negb]; [simpl; auto|].
    destruct (Resize_shp m n (el_A st) n n HsA Hn Hn) as (A1 & -> & HA1). cbn [bind].
    destruct (Vec_Resize_shp m (el_b st) n Hsb Hn) as (b1 & -> & Hb1). cbn [bind]. apply reorder_ends; auto. }
  intros (A1, b1) [HA1 Hb1]. eapply ends_bind; [apply back_ends; eauto|]. intros X HX.
  destruct (_ && _); [|exact HX]. destruct (negb (m =? n)); [destruct (allowIndeterminateEquation cfg); [exact HX|]|]; simpl; red; eauto 8.
Qed.
End S.
