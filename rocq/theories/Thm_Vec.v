(** C52: vectors, element and row access, shapes. *)
From Coq Require Import String List ZArith Bool Arith Lia.
From Verif Require Import Base MathOp NodeModel SubsModel DiffModel MatModel VarsTableModel SymMatModel NonlinearModel
  ExprSpec SubsSpec MatSpec VarsSpec SymMatSpec NonlinearSpec NodeProofs SymMatProofs MatProofs NonlinearProofs IEEE.
Import ListNotations.
Local Open Scope nat_scope.

Section V.
Context {K : num_ops}.
Implicit Types (A B : mat K) (v w : mat K) (x y : nat -> K).

(** ** Construction *)
Theorem C52_make r c (a : K) : 0 < r -> 0 < c -> exists A, Mat_make r c a = Ok A /\ is_mat r c (fun _ _ => a) A.
Proof. apply Mat_make_ok. Qed.
Theorem C52_make_empty r c (a : K) : r = 0 \/ c = 0 -> exists why, Mat_make r c a = AssertFail why.
Proof. intros [H|H]; subst; unfold Mat_make; [cbn [Nat.eqb]; eauto|]. destruct (Nat.eqb _ 0); cbn [Nat.eqb]; eauto. Qed.
Theorem C52_vec_make r (a : K) : 0 < r -> exists v, Vec_make r a = Ok v /\ is_vec r (fun _ => a) v.
Proof. intros Hr. exact (Mat_make_ok r 1 a Hr Nat.lt_0_1). Qed.
Theorem C52_vec_of (l : list K) x : l <> [] -> (forall i, i < length l -> nth_error l i = Some (x i)) ->
  exists v, Vec_of l = Ok v /\ is_vec (length l) x v.
Proof.
  intros Hl Hx. assert (E : l = map x (seq 0 (length l))).
  { apply nth_error_ext. intros i. destruct (Nat.lt_ge_cases i (length l)) as [Hi|Hi].
    - rewrite Hx, nth_error_map_seq; auto.
    - rewrite !(proj2 (nth_error_None _ _)); auto. now rewrite map_length, seq_length. }
  assert (Hn : 0 < length l) by (destruct l; simpl; [congruence|lia]). clear Hx. revert Hn E. generalize (length l) as n. intros n Hn ->. now apply Vec_of_ok.
Qed.
Theorem C52_vec_of_empty : exists why, Vec_of ([] : list K) = AssertFail why.
Proof. eexists. reflexivity. Qed.
Theorem C52_init_empty : (exists why, Mat_init ([] : list (list K)) = AssertFail why) /\
  (forall rows : list (list K), rows <> [] -> (forall l, In l rows -> l = []) -> exists why, Mat_init rows = AssertFail why).
Proof.
  split; [eexists; reflexivity|]. intros rows Hne Hl. unfold Mat_init. destruct (Nat.eqb_spec (length rows) 0); [eauto|].
  assert (E : forall l m, (forall y : list K, In y l -> y = []) -> fold_left (fun m (l : list K) => Nat.max m (length l)) l m = m).
  { induction l as [|y l IH]; intros m H; [reflexivity|]. cbn [fold_left]. rewrite (H y (or_introl eq_refl)). cbn [length]. rewrite Nat.max_0_r. apply IH. intros z Hz. apply H. now right. }
  rewrite (E rows 0 Hl). cbn [Nat.eqb]. eauto.
Qed.

(** ** Elements, rows, columns (from an offset on) *)
Theorem C52_set_value r c f A i j a : is_mat r c f A -> i < r -> j < c ->
  exists A', set_Value A i j a = Ok A' /\ is_mat r c (fun i' j' => if (i' =? i) && (j' =? j) then a else f i' j') A'.
Proof. apply set_Value_ok. Qed.
Theorem C52_row r c f A i off : is_mat r c f A -> i < r -> off <= c -> Row A i off = Ok (map (fun k => f i (off + k)) (seq 0 (c - off))).
Proof. apply Row_ok. Qed.
Theorem C52_col r c f A j off : is_mat r c f A -> j < c -> off <= r -> Col A j off = Ok (map (fun k => f (off + k) j) (seq 0 (r - off))).
Proof. apply Col_ok. Qed.
Theorem C52_set_row r c f A i off (h : nat -> K) : is_mat r c f A -> i < r -> off <= c ->
  exists A', set_Row A i off (map h (seq 0 (c - off))) = Ok A' /\
    is_mat r c (fun i' j' => if (i' =? i) && (off <=? j') then h (j' - off) else f i' j') A'.
Proof. apply set_Row_ok. Qed.
Theorem C52_set_col r c f A j off (h : nat -> K) : is_mat r c f A -> j < c -> off <= r ->
  exists A', set_Col A j off (map h (seq 0 (r - off))) = Ok A' /\
    is_mat r c (fun i' j' => if (j' =? j) && (off <=? i') then h (i' - off) else f i' j') A'.
Proof. apply set_Col_ok. Qed.
(** Beyond the last element there is nothing to be had. *)
Theorem C52_out_of_range r c f A i j a : is_mat r c f A -> r <= i ->
  exists e1 e2, MatModel.Value A i j = Undef e1 /\ set_Value A i j a = Undef e2.
Proof.
  intros (E1 & E2 & L & _) Hi. unfold MatModel.Value, set_Value, va_get. rewrite E2.
  assert (Hk : length (m_data A) <= i * c + j) by nia. rewrite (proj2 (nth_error_None _ _) Hk).
  assert (G : forall (l : list K) k, length l <= k -> exists why, va_set l k a = Undef why).
  { clear. induction l as [|b l IH]; intros k Hk; [destruct k; cbn; eauto|]. destruct k as [|k]; cbn [length] in Hk; [lia|].
    cbn [va_set]. destruct (IH k ltac:(lia)) as [why ->]. cbn [bind]. eauto. }
  destruct (G _ _ Hk) as [why ->]. cbn [bind]. eauto.
Qed.
Theorem C52_vec_get n x v i : is_vec n x v -> i < n -> Vec_get v i = Ok (x i).
Proof. intros H Hi. rewrite <- (Nat.mul_1_r i), <- (Nat.add_0_r (i * 1)). unfold Vec_get. apply va_get_nth. rewrite (is_mat_nth _ _ _ _ H i 0 Hi Nat.lt_0_1). f_equal. f_equal. lia. Qed.
Theorem C52_vec_set n x v i a : is_vec n x v -> i < n -> exists v', Vec_set v i a = Ok v' /\ is_vec n (fun k => if k =? i then a else x k) v'.
Proof.
  intros H Hi. destruct (set_Value_ok n 1 _ v i 0 a H Hi Nat.lt_0_1) as (v' & E & H'). exists v'. split.
  - unfold set_Value in E. destruct H as (_ & E2 & _). rewrite E2, Nat.mul_1_r, Nat.add_0_r in E. rewrite <- E. unfold Vec_set. now rewrite E2.
  - refine (is_mat_ext _ _ _ _ _ _ H'). intros k j Hk Hj. cbv beta. assert (j = 0) by lia. subst j. now rewrite andb_true_r.
Qed.
Theorem C52_fill r c f A (a : K) : is_mat r c f A -> is_mat r c (fun _ _ => a) (SetValue A a) /\ is_mat r c (fun _ _ => n_ofZ 0) (Zero A).
Proof. intros H. split; [exact (map_is_mat r c f A (fun _ => a) H)|exact (map_is_mat r c f A (fun _ => n_ofZ 0) H)]. Qed.
Theorem C52_ones_not_square A : m_rows A <> m_cols A -> exists why, Ones A = AssertFail why.
Proof. intros H. unfold Ones. apply Nat.eqb_neq in H. rewrite H. eauto. Qed.
Theorem C52_resize_empty A r c : r = 0 \/ c = 0 -> exists why, Resize A r c = AssertFail why.
Proof.
  intros H. unfold Resize. destruct (Nat.ltb_spec 0 r) as [H1|H1]; cbn [andb]; [|eauto].
  destruct (Nat.ltb_spec 0 c) as [H2|H2]; [exfalso; lia|eauto].
Qed.
Theorem C52_vec_resize n x v m : is_vec n x v -> 0 < m -> exists w, Vec_Resize v m = Ok w /\ is_vec m (fun i => if i <? n then x i else n_ofZ 0) w.
Proof.
  intros H Hm. unfold Vec_Resize. destruct (Nat.ltb_spec 0 m); [|lia]. destruct (Resize_ok n 1 _ v m 1 H Hm Nat.lt_0_1) as (w & E & Hw). exists w. split; [exact E|].
  refine (is_mat_ext _ _ _ _ _ _ Hw). intros i j Hi Hj. cbv beta. assert (j = 0) by lia. subst j. now rewrite andb_true_r.
Qed.
Theorem C52_vec_resize_empty v : exists why, Vec_Resize v 0 = AssertFail why.
Proof. eexists. reflexivity. Qed.
Theorem C52_to_vec r f A : 0 < r -> is_mat r 1 f A -> exists v, ToVec A = Ok v /\ is_vec r (fun i => f i 0) v.
Proof.
  intros Hr H. destruct (ToVec_ok r f A Hr H) as (v & E & Hv). exists v. split; [exact E|]. refine (is_mat_ext _ _ _ _ _ _ Hv).
  intros i j Hi Hj. assert (j = 0) by lia. now subst j.
Qed.
Theorem C52_to_vec_error r c f A : 0 < r -> is_mat r c f A -> c <> 1 -> exists msg, ToVec A = Throw (RuntimeError msg).
Proof. intros Hr (E1 & E2 & _) Hc. unfold ToVec. rewrite E1, E2. destruct (Nat.eqb_spec r 0); [lia|]. apply Nat.eqb_neq in Hc. rewrite Hc. eauto. Qed.

(** ** Arithmetic of vectors *)
Lemma Vec_map2_ok op n x y v w : 0 < n -> is_vec n x v -> is_vec n y w ->
  exists u, Vec_map2 op v w = Ok u /\ is_vec n (fun i => op (x i) (y i)) u.
Proof.
  intros Hn Hv Hw. unfold Vec_map2. pose proof (is_vec_data _ _ _ Hv) as D1. pose proof (is_vec_data _ _ _ Hw) as D2.
  destruct Hv as (E1 & E2 & _), Hw as (E3 & E4 & _). rewrite E1, E3, Nat.eqb_refl.
  rewrite D1, D2, va_map2_map. cbn [bind]. now apply Vec_of_ok.
Qed.
Theorem C52_vec_arith n x y v w : 0 < n -> is_vec n x v -> is_vec n y w ->
  (exists u, Vec_add v w = Ok u /\ is_vec n (fun i => n_add (x i) (y i)) u) /\
  (exists u, Vec_sub v w = Ok u /\ is_vec n (fun i => n_sub (x i) (y i)) u) /\
  (exists u, Vec_times v w = Ok u /\ is_vec n (fun i => n_mul (x i) (y i)) u) /\
  (exists u, Vec_div v w = Ok u /\ is_vec n (fun i => n_div (x i) (y i)) u).
Proof.
  intros Hn Hv Hw. split; [exact (Vec_add_ok n x y v w Hn Hv Hw)|].
  repeat split; [exact (Vec_map2_ok n_sub n x y v w Hn Hv Hw)|exact (Vec_map2_ok n_mul n x y v w Hn Hv Hw)|exact (Vec_map2_ok n_div n x y v w Hn Hv Hw)].
Qed.
Theorem C52_vec_scale n x v (k : K) : 0 < n -> is_vec n x v ->
  (exists u, Vec_neg v = Ok u /\ is_vec n (fun i => n_neg (x i)) u) /\
  (exists u, Vec_scale v k = Ok u /\ is_vec n (fun i => n_mul (x i) k) u) /\
  (exists u, Vec_scale_l k v = Ok u /\ is_vec n (fun i => n_mul (x i) k) u).
Proof.
  intros Hn Hv. split; [exact (Vec_map_ok n x v n_neg Hn Hv)|]. split; exact (Vec_map_ok n x v (fun a => n_mul a k) Hn Hv).
Qed.
Theorem C52_mat_scale_l r c f A (k : K) : is_mat r c f A -> is_mat r c (fun i j => n_mul (f i j) k) (Mat_scale_l k A).
Proof. intros H. exact (map_is_mat r c f A (fun a => n_mul a k) H). Qed.
(** v < w: every element is less. *)
Lemma va_all2_seq (p : K -> K -> bool) x y l : va_all2 p (map x l) (map y l) = Ok (forallb (fun i => p (x i) (y i)) l).
Proof. induction l as [|i l IH]; [reflexivity|]. cbn [map va_all2 forallb]. destruct (p (x i) (y i)); [exact IH|reflexivity]. Qed.
Theorem C52_vec_less n x y v w : is_vec n x v -> is_vec n y w ->
  exists b, Vec_lt v w = Ok b /\ (b = true <-> forall i, i < n -> n_ltb (x i) (y i) = true).
Proof.
  intros Hv Hw. unfold Vec_lt. pose proof (is_vec_data _ _ _ Hv) as D1. pose proof (is_vec_data _ _ _ Hw) as D2.
  destruct Hv as (E1 & _), Hw as (E3 & _). rewrite E1, E3, Nat.eqb_refl, D1, D2, va_all2_seq. eexists. split; [reflexivity|].
  rewrite forallb_forall. split; intros H i Hi; apply H; [apply in_seq; lia|apply in_seq in Hi; lia].
Qed.
(** Different sizes: the assertion fails, for every operation. *)
Theorem C52_vec_mismatch v w : m_rows v <> m_rows w -> exists e1 e2 e3 e4 e5 e6,
  Vec_add v w = AssertFail e1 /\ Vec_sub v w = AssertFail e2 /\ Vec_times v w = AssertFail e3 /\ Vec_div v w = AssertFail e4 /\
  Vec_lt v w = AssertFail e5 /\ Dot v w = AssertFail e6.
Proof. intros H. unfold Vec_add, Vec_sub, Vec_times, Vec_div, Vec_map2, Vec_lt, Dot. apply Nat.eqb_neq in H. rewrite H. repeat eexists. Qed.
Theorem C52_mat_mismatch cfg A B : m_rows A <> m_rows B \/ m_cols A <> m_cols B -> exists e1 e2 e3,
  EachDivide A B = AssertFail e1 /\ AllIsLessThan A B = AssertFail e2 /\ Mat_eq cfg A B = AssertFail e3.
Proof.
  intros H. assert (E : same_shape A B = false).
  { unfold same_shape. destruct H as [H|H]; apply Nat.eqb_neq in H; rewrite H; [reflexivity|apply andb_false_r]. }
  unfold EachDivide, AllIsLessThan, Mat_eq. rewrite E. repeat eexists.
Qed.
Theorem C52_inverse_not_square cfg A : m_rows A <> m_cols A -> exists why, Inverse cfg A = AssertFail why.
Proof. intros H. unfold Inverse. apply Nat.eqb_neq in H. rewrite H. eauto. Qed.
(** AllIsLessThan for any numbers. *)
Theorem C52_all_less r c f g A B : is_mat r c f A -> is_mat r c g B ->
  exists b, AllIsLessThan A B = Ok b /\ (b = true <-> forall i j, i < r -> j < c -> n_ltb (f i j) (g i j) = true).
Proof.
  intros HA HB. pose proof (is_mat_nth _ _ _ _ HA) as NA. pose proof (is_mat_nth _ _ _ _ HB) as NB.
  assert (D : forall (h : nat -> nat -> K) (M : mat K), is_mat r c h M -> (forall i j, i < r -> j < c -> nth_error (m_data M) (i * c + j) = Some (h i j)) -> m_data M = map (fun k => h (k / c) (k mod c)) (seq 0 (r * c))).
  { clear. intros h M (E1 & E2 & L & _) Nt. apply nth_error_ext. intros k. destruct (Nat.lt_ge_cases k (r * c)) as [Hk|Hk].
    - destruct (divmod_lt r c k Hk) as [H1 H2]. rewrite nth_error_map_seq by auto. specialize (Nt _ _ H1 H2).
      rewrite (Nat.mul_comm _ c), <- Nat.div_mod in Nt by lia. exact Nt.
    - rewrite !(proj2 (nth_error_None _ _)); auto; rewrite ?map_length, ?seq_length; lia. }
  pose proof (D f A HA NA) as D1. pose proof (D g B HB NB) as D2. unfold AllIsLessThan. rewrite (is_mat_same_shape _ _ _ _ _ _ HA HB), D1, D2, va_all2_seq.
  eexists. split; [reflexivity|]. rewrite forallb_forall. split.
  - intros H i j Hi Hj. destruct (divmod_pos c i j Hj) as [Q1 Q2]. specialize (H (i * c + j)). rewrite Q1, Q2 in H. apply H. apply in_seq. pose proof (pos_lt r c i j Hi Hj). lia.
  - intros H k Hk. apply in_seq in Hk. destruct (divmod_lt r c k) as [H1 H2]; [lia|]. auto.
Qed.
End V.

Example C52_ex : match Vec_of (K:=D) [b_ofZ 1; b_ofZ 2], Vec_of (K:=D) [b_ofZ 3; b_ofZ 5] with
  | Ok v, Ok w => match Vec_times v w, Vec_lt v w with Ok u, Ok b => Mat_ToString u | _, _ => ""%string end | _, _ => ""%string end = "[3
 10]
"%string.
Proof. vm_cast_no_check (eq_refl "[3
 10]
"%string). Qed.
