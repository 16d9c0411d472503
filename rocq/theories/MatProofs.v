(** Entry-level characterisation of the matrix operations, for every arithmetic. *)
From Coq Require Import String List ZArith Bool Arith Lia FinFun.
From Verif Require Import Base MathOp MatModel MatSpec.
Import ListNotations.
Local Open Scope list_scope.

(** ** Loops *)
Lemma foldM_seq {B} (P : nat -> B -> Prop) (f : B -> nat -> res B) n s b :
  P s b -> (forall i b, s <= i < s + n -> P i b -> exists b', f b i = Ok b' /\ P (S i) b') ->
  exists b', foldM f (seq s n) b = Ok b' /\ P (s + n) b'.
Proof.
  revert s b. induction n as [|n IH]; intros s b H0 Hs; cbn [seq foldM].
  - exists b. rewrite Nat.add_0_r. auto.
  - destruct (Hs s b) as (b1 & E & H1); [lia|auto|]. rewrite E. cbn [bind].
    destruct (IH (S s) b1 H1) as (b' & E' & H').
    + intros i b2 Hi. apply Hs. lia.
    + exists b'. split; [exact E'|]. now replace (s + S n) with (S s + n) by lia.
Qed.

Lemma rev_seq_S s n : rev (seq s (S n)) = (s + n) :: rev (seq s n).
Proof. rewrite seq_S, rev_app_distr. reflexivity. Qed.

Lemma foldM_rev_seq {B} (P : nat -> B -> Prop) (f : B -> nat -> res B) n b :
  P n b -> (forall i b, i < n -> P (S i) b -> exists b', f b i = Ok b' /\ P i b') ->
  exists b', foldM f (rev (seq 0 n)) b = Ok b' /\ P 0 b'.
Proof.
  revert b. induction n as [|n IH]; intros b H0 Hs.
  - exists b. auto.
  - rewrite rev_seq_S. cbn [foldM plus]. destruct (Hs n b) as (b1 & E & H1); [lia|auto|]. rewrite E. cbn [bind].
    apply IH; auto.
Qed.

(** ** Arrays *)
Section Arr.
Context {K : Type}.
Implicit Types v w : list K.

Lemma va_get_nth v i a : va_get v i = Ok a <-> nth_error v i = Some a.
Proof. unfold va_get. destruct (nth_error v i); split; congruence. Qed.

Lemma va_set_ok v i a : i < length v -> exists w, va_set v i a = Ok w /\ length w = length v /\
  forall k, nth_error w k = if k =? i then Some a else nth_error v k.
Proof.
  revert i. induction v as [|h v IH]; intros i Hi; simpl in Hi; [lia|]. destruct i as [|i]; cbn [va_set].
  - eexists. split; [reflexivity|]. split; [reflexivity|]. intros [|k]; reflexivity.
  - destruct (IH i) as (w & E & L & N); [lia|]. rewrite E. cbn [bind]. eexists. split; [reflexivity|]. split; [simpl; lia|].
    intros [|k]; [reflexivity|]. simpl. apply N.
Qed.

Lemma va_read_map {T} v (p : T -> nat) (g : T -> K) l :
  (forall t, In t l -> nth_error v (p t) = Some (g t)) -> va_read v (map p l) = Ok (map g l).
Proof.
  intros H. unfold va_read. apply mapM_Ok. induction l as [|t l IH]; simpl; constructor.
  - apply va_get_nth, H. now left.
  - apply IH. intros t' Ht. apply H. now right.
Qed.

Lemma va_write_map {T} (p : T -> nat) (h : T -> K) l : forall v,
  NoDup l -> (forall t t', In t l -> In t' l -> p t = p t' -> t = t') ->
  (forall t, In t l -> p t < length v) ->
  exists w, va_write v (map p l) (map h l) = Ok w /\ length w = length v /\
    (forall t, In t l -> nth_error w (p t) = Some (h t)) /\
    (forall k, (forall t, In t l -> p t <> k) -> nth_error w k = nth_error v k).
Proof.
  induction l as [|t l IH]; intros v Hn Hi Hl; cbn [map va_write].
  - exists v. repeat split; auto. intros t [].
  - destruct (va_set_ok v (p t) (h t)) as (w1 & E1 & L1 & N1); [apply Hl; now left|]. rewrite E1. cbn [bind].
    inversion Hn as [|? ? Hn1 Hn2]; subst.
    destruct (IH w1) as (w & E & L & N & O); auto.
    { intros; apply Hi; auto; now right. }
    { intros t' Ht. rewrite L1. apply Hl. now right. }
    exists w. split; [exact E|]. split; [lia|]. split.
    + intros t' [<-|Ht]; [|auto]. rewrite O, N1, Nat.eqb_refl; [reflexivity|].
      intros t' Ht E'. apply Hi in E'; [subst; contradiction|now right|now left].
    + intros k Hk. rewrite O, N1 by (intros; apply Hk; now right).
      destruct (Nat.eqb_spec k (p t)); [|reflexivity]. exfalso. apply (Hk t); auto. now left.
Qed.

Lemma va_map2_map {T} (op : K -> K -> K) (g h : T -> K) l :
  va_map2 op (map g l) (map h l) = Ok (map (fun t => op (g t) (h t)) l).
Proof. induction l as [|t l IH]; simpl; [reflexivity|]. rewrite IH. reflexivity. Qed.

Lemma va_map2_nth (op : K -> K -> K) v : forall w, length v = length w ->
  exists u, va_map2 op v w = Ok u /\ length u = length v /\
    forall k a b, nth_error v k = Some a -> nth_error w k = Some b -> nth_error u k = Some (op a b).
Proof.
  induction v as [|a v IH]; intros [|b w] H; simpl in H; try discriminate.
  - exists []. repeat split; auto. intros [|k]; discriminate.
  - destruct (IH w) as (u & E & L & N); [lia|]. exists (op a b :: u). simpl. rewrite E. split; [reflexivity|]. split; [simpl; lia|].
    intros [|k] x y; simpl; [congruence|apply N].
Qed.

(** A gslice is a map over pairs. *)
Lemma gslice_map start s0 s1 t0 t1 :
  gslice start s0 s1 t0 t1 = map (fun '(i, j) => start + i * t0 + j * t1) (list_prod (seq 0 s0) (seq 0 s1)).
Proof.
  unfold gslice. induction (seq 0 s0) as [|i l IH]; simpl; [reflexivity|].
  rewrite map_app, map_map, IH. reflexivity.
Qed.
Lemma in_pairs i j s0 s1 : In (i, j) (list_prod (seq 0 s0) (seq 0 s1)) <-> i < s0 /\ j < s1.
Proof. rewrite in_prod_iff, !in_seq. lia. Qed.
Lemma NoDup_app' {T} (l l' : list T) : NoDup l -> NoDup l' -> (forall x, In x l -> ~ In x l') -> NoDup (l ++ l').
Proof.
  induction 1 as [|x l Hx Hl IH]; intros H' D; simpl; [auto|]. constructor.
  - rewrite in_app_iff. intros [H|H]; [contradiction|]. apply (D x); [now left|auto].
  - apply IH; auto. intros y Hy. apply D. now right.
Qed.
Lemma NoDup_pairs s0 s1 : NoDup (list_prod (seq 0 s0) (seq 0 s1)).
Proof.
  assert (G : forall l l' : list nat, NoDup l -> NoDup l' -> NoDup (list_prod l l')).
  { induction l as [|a l IH]; intros l' H H'; simpl; [constructor|]. inversion H; subst.
    apply NoDup_app'.
    - apply FinFun.Injective_map_NoDup; [intros x y; congruence|auto].
    - auto.
    - intros [x y] Hx Hy. apply in_map_iff in Hx as (z & [= <- <-] & _). apply in_prod_iff in Hy as [Hy _]. contradiction. }
  apply G; apply seq_NoDup.
Qed.
End Arr.

Lemma nth_error_ext {T} (l l' : list T) : (forall k, nth_error l k = nth_error l' k) -> l = l'.
Proof.
  revert l'. induction l as [|a l IH]; intros [|b l'] H; auto; try (specialize (H 0); discriminate).
  f_equal; [specialize (H 0); simpl in H; congruence|]. apply IH. intros k. exact (H (S k)).
Qed.

(** Positions of a matrix are determined by row and column. *)
Lemma pos_inj c i j i' j' : j < c -> j' < c -> i * c + j = i' * c + j' -> i = i' /\ j = j'.
Proof.
  intros H H' E. assert (i = i').
  { assert (D := f_equal (fun n => n / c) E). cbv beta in D. rewrite (Nat.add_comm (i * c)), (Nat.add_comm (i' * c)), !Nat.div_add, !Nat.div_small in D by lia. exact D. }
  subst. split; [reflexivity|]. lia.
Qed.
Lemma pos_lt r c i j : i < r -> j < c -> i * c + j < r * c.
Proof. intros. nia. Qed.
Lemma pos_split r c k : k < r * c -> exists i j, i < r /\ j < c /\ k = i * c + j.
Proof.
  intros H. assert (c <> 0) by lia. exists (k / c), (k mod c). split; [apply Nat.div_lt_upper_bound; lia|].
  split; [now apply Nat.mod_upper_bound|]. rewrite (Nat.div_mod k c) at 1 by auto. lia.
Qed.

Section Mats.
Context {K : num_ops}.
Implicit Types (A B : mat K) (f g : nat -> nat -> K).

Lemma is_mat_nth r c f A : is_mat r c f A ->
  forall i j, i < r -> j < c -> nth_error (m_data A) (i * c + j) = Some (f i j).
Proof. intros (E1 & E2 & L & V) i j Hi Hj. specialize (V i j Hi Hj). unfold Value in V. rewrite E2 in V. now apply va_get_nth. Qed.

Lemma is_mat_intro r c f d : length d = r * c ->
  (forall i j, i < r -> j < c -> nth_error d (i * c + j) = Some (f i j)) -> is_mat r c f (MkMat r c d).
Proof.
  intros L N. split; [reflexivity|]. split; [reflexivity|]. split; [exact L|]. intros i j Hi Hj. apply va_get_nth. simpl. auto.
Qed.

Lemma is_mat_ext r c f g A : (forall i j, i < r -> j < c -> f i j = g i j) -> is_mat r c f A -> is_mat r c g A.
Proof. intros E (E1 & E2 & L & V). repeat split; auto. intros. rewrite <- E by auto. auto. Qed.

Lemma is_mat_unique r c f A B : is_mat r c f A -> is_mat r c f B -> A = B.
Proof.
  intros HA HB. pose proof (is_mat_nth _ _ _ _ HA) as NA. pose proof (is_mat_nth _ _ _ _ HB) as NB.
  destruct A as [ra ca da], B as [rb cb db]. destruct HA as (E1 & E2 & L & _), HB as (E1' & E2' & L' & _). simpl in *. subst.
  f_equal. apply nth_error_ext. intros k. destruct (Nat.lt_ge_cases k (length da)) as [Hk|Hk].
  - rewrite L in Hk. destruct (pos_split _ _ _ Hk) as (i & j & Hi & Hj & ->). rewrite NA, NB; auto.
  - rewrite (proj2 (nth_error_None da k)), (proj2 (nth_error_None db k)); auto. lia.
Qed.

Lemma is_mat_agree r c f g A : is_mat r c f A -> is_mat r c g A -> forall i j, i < r -> j < c -> f i j = g i j.
Proof. intros (_ & _ & _ & V) (_ & _ & _ & V') i j Hi Hj. specialize (V i j Hi Hj). specialize (V' i j Hi Hj). congruence. Qed.

(** Every well-formed matrix has entries. *)
Lemma wf_is_mat A : wf_mat A -> is_mat (m_rows A) (m_cols A) (fun i j => nth (i * m_cols A + j) (m_data A) (n_ofZ 0)) A.
Proof.
  intros (R & C & L). split; [reflexivity|]. split; [reflexivity|]. split; [exact L|]. intros i j Hi Hj. apply va_get_nth.
  apply nth_error_nth'. rewrite L. now apply pos_lt.
Qed.
Lemma is_mat_wf r c f A : 0 < r -> 0 < c -> is_mat r c f A -> wf_mat A.
Proof. intros Hr Hc (E1 & E2 & L & _). unfold wf_mat. rewrite E1, E2. auto. Qed.

Lemma nth_error_repeat' {T} (a : T) n k : k < n -> nth_error (repeat a n) k = Some a.
Proof. revert k. induction n; intros [|k] H; simpl; auto; try lia. apply IHn. lia. Qed.

Lemma Mat_make_ok r c v : 0 < r -> 0 < c -> exists A, Mat_make r c v = Ok A /\ is_mat r c (fun _ _ => v) A.
Proof.
  intros Hr Hc. unfold Mat_make. destruct (Nat.eqb_spec r 0); [lia|]. destruct (Nat.eqb_spec c 0); [lia|].
  eexists. split; [reflexivity|]. apply is_mat_intro; [apply repeat_length|]. intros. apply nth_error_repeat'. now apply pos_lt.
Qed.

Lemma Row_ok r c f A i off : is_mat r c f A -> i < r -> off <= c ->
  Row A i off = Ok (map (fun k => f i (off + k)) (seq 0 (c - off))).
Proof.
  intros H Hi Ho. pose proof (is_mat_nth _ _ _ _ H) as N. destruct H as (E1 & E2 & L & _). unfold Row, Row_idx. rewrite E2.
  destruct (Nat.leb_spec off c); [|lia]. cbn [bind]. unfold slice. apply va_read_map. intros k Hk. apply in_seq in Hk.
  replace (c * i + off + k * 1) with (i * c + (off + k)) by lia. apply N; lia.
Qed.

Lemma Col_ok r c f A j off : is_mat r c f A -> j < c -> off <= r ->
  Col A j off = Ok (map (fun k => f (off + k) j) (seq 0 (r - off))).
Proof.
  intros H Hj Ho. pose proof (is_mat_nth _ _ _ _ H) as N. destruct H as (E1 & E2 & L & _). unfold Col, Col_idx. rewrite E1, E2.
  destruct (Nat.leb_spec off r); [|lia]. cbn [bind]. unfold slice. apply va_read_map. intros k Hk. apply in_seq in Hk.
  replace (j + off * c + k * c) with ((off + k) * c + j) by lia. apply N; lia.
Qed.

Lemma set_Row_ok r c f A i off h : is_mat r c f A -> i < r -> off <= c ->
  exists A', set_Row A i off (map h (seq 0 (c - off))) = Ok A' /\
    is_mat r c (fun i' j' => if (i' =? i) && (off <=? j') then h (j' - off) else f i' j') A'.
Proof.
  intros H Hi Ho. pose proof (is_mat_nth _ _ _ _ H) as N. destruct H as (E1 & E2 & L & _). unfold set_Row, Row_idx. rewrite E1, E2.
  destruct (Nat.leb_spec off c); [|lia]. cbn [bind]. unfold slice.
  destruct (va_write_map (fun k => c * i + off + k * 1) h (seq 0 (c - off)) (m_data A)) as (w & E & Lw & W & O).
  - apply seq_NoDup.
  - intros; lia.
  - intros k Hk. apply in_seq in Hk. rewrite L. assert (i * c + (off + k) < r * c) by (apply pos_lt; lia). lia.
  - rewrite E. cbn [bind]. eexists. split; [reflexivity|]. apply is_mat_intro; [lia|].
    intros i' j' Hi' Hj'. destruct (Nat.eqb_spec i' i) as [->|Hne]; cbn [andb].
    + destruct (Nat.leb_spec off j').
      * rewrite <- (W (j' - off)); [f_equal; lia|]. apply in_seq. lia.
      * rewrite O; [apply N; auto|]. intros k Hk. apply in_seq in Hk. lia.
    + rewrite O; [apply N; auto|]. intros k Hk Ek. apply in_seq in Hk.
      apply Hne. apply (pos_inj c i' j' i (off + k)); lia.
Qed.

Lemma set_Col_ok r c f A j off h : is_mat r c f A -> j < c -> off <= r ->
  exists A', set_Col A j off (map h (seq 0 (r - off))) = Ok A' /\
    is_mat r c (fun i' j' => if (j' =? j) && (off <=? i') then h (i' - off) else f i' j') A'.
Proof.
  intros H Hj Ho. pose proof (is_mat_nth _ _ _ _ H) as N. destruct H as (E1 & E2 & L & _). unfold set_Col, Col_idx. rewrite E1, E2.
  destruct (Nat.leb_spec off r); [|lia]. cbn [bind]. unfold slice.
  destruct (va_write_map (fun k => j + off * c + k * c) h (seq 0 (r - off)) (m_data A)) as (w & E & Lw & W & O).
  - apply seq_NoDup.
  - intros k k' _ _ Ek. assert ((off + k) * c + j = (off + k') * c + j) by lia.
    apply pos_inj in H0; lia.
  - intros k Hk. apply in_seq in Hk. rewrite L. assert ((off + k) * c + j < r * c) by (apply pos_lt; lia). lia.
  - rewrite E. cbn [bind]. eexists. split; [reflexivity|]. apply is_mat_intro; [lia|].
    intros i' j' Hi' Hj'. destruct (Nat.eqb_spec j' j) as [->|Hne]; cbn [andb].
    + destruct (Nat.leb_spec off i').
      * rewrite <- (W (i' - off)); [f_equal; nia|]. apply in_seq. lia.
      * rewrite O; [apply N; auto|]. intros k Hk Ek. apply in_seq in Hk.
        assert (E' : (off + k) * c + j = i' * c + j) by lia. apply pos_inj in E'; lia.
    + rewrite O; [apply N; auto|]. intros k Hk Ek. apply in_seq in Hk.
      apply Hne. symmetry. apply (pos_inj c (off + k) j i' j'); lia.
Qed.

Lemma set_Value_ok r c f A i j v : is_mat r c f A -> i < r -> j < c ->
  exists A', set_Value A i j v = Ok A' /\
    is_mat r c (fun i' j' => if (i' =? i) && (j' =? j) then v else f i' j') A'.
Proof.
  intros H Hi Hj. pose proof (is_mat_nth _ _ _ _ H) as N. destruct H as (E1 & E2 & L & _). unfold set_Value. rewrite E1, E2.
  destruct (va_set_ok (m_data A) (i * c + j) v) as (w & E & Lw & W); [rewrite L; now apply pos_lt|].
  rewrite E. cbn [bind]. eexists. split; [reflexivity|]. apply is_mat_intro; [lia|].
  intros i' j' Hi' Hj'. rewrite W. destruct (Nat.eqb_spec (i' * c + j') (i * c + j)) as [Ep|Ep].
  - apply pos_inj in Ep as [-> ->]; auto. now rewrite !Nat.eqb_refl.
  - rewrite N by auto. destruct (Nat.eqb_spec i' i), (Nat.eqb_spec j' j); subst; try reflexivity. now destruct Ep.
Qed.

(** ** Entrywise operations *)
Lemma is_mat_data r c f A : is_mat r c f A -> m_data A = map (fun '(i, j) => f i j) (list_prod (seq 0 r) (seq 0 c)).
Proof.
  intros H. pose proof (is_mat_nth _ _ _ _ H) as N. destruct H as (_ & _ & L & _).
  set (l := map _ _). assert (Ll : length l = r * c).
  { unfold l. rewrite map_length, prod_length, !seq_length. reflexivity. }
  assert (G : forall k, nth_error (list_prod (seq 0 r) (seq 0 c)) k = if k <? r * c then Some (k / c, k mod c) else None).
  { clear. intros k. destruct (Nat.ltb_spec k (r * c)) as [H|H].
    2:{ apply nth_error_None. rewrite prod_length, !seq_length. exact H. }
    destruct (pos_split _ _ _ H) as (i & j & Hi & Hj & ->).
    replace ((i * c + j) / c) with i. 2:{ rewrite Nat.add_comm, Nat.div_add, Nat.div_small; lia. }
    replace ((i * c + j) mod c) with j. 2:{ rewrite Nat.add_comm, Nat.mod_add, Nat.mod_small; lia. }
    clear H. assert (S : forall n s i, i < n -> nth_error (list_prod (seq s n) (seq 0 c)) (i * c + j) = Some (s + i, j)).
    { clear i Hi. induction n as [|n IH]; intros s i Hi; [lia|]. cbn [seq list_prod]. destruct i as [|i].
      - rewrite nth_error_app1 by (rewrite map_length, seq_length; simpl; lia). simpl. rewrite Nat.add_0_r.
        rewrite nth_error_map. rewrite (nth_error_nth' _ 0) by (rewrite seq_length; lia). simpl. rewrite seq_nth by lia. reflexivity.
      - rewrite nth_error_app2 by (rewrite map_length, seq_length; nia). rewrite map_length, seq_length.
        replace (S i * c + j - c) with (i * c + j) by lia. rewrite IH by lia. f_equal. f_equal. lia. }
    apply (S r 0 i Hi). }
  apply nth_error_ext. intros k. destruct (Nat.ltb_spec k (r * c)) as [Hk|Hk].
  - unfold l. rewrite nth_error_map, G. destruct (Nat.ltb_spec k (r * c)); [|lia]. simpl.
    destruct (pos_split _ _ _ Hk) as (i & j & Hi & Hj & ->).
    replace ((i * c + j) / c) with i. 2:{ rewrite Nat.add_comm, Nat.div_add, Nat.div_small; lia. }
    replace ((i * c + j) mod c) with j. 2:{ rewrite Nat.add_comm, Nat.mod_add, Nat.mod_small; lia. }
    now apply N.
  - rewrite (proj2 (nth_error_None (m_data A) k)), (proj2 (nth_error_None l k)); auto; lia.
Qed.

Lemma map_is_mat r c f A (h : K -> K) : is_mat r c f A -> is_mat r c (fun i j => h (f i j)) (MkMat (m_rows A) (m_cols A) (map h (m_data A))).
Proof.
  intros H. pose proof (is_mat_nth _ _ _ _ H) as N. destruct H as (E1 & E2 & L & _). rewrite E1, E2.
  apply is_mat_intro; [now rewrite map_length|]. intros i j Hi Hj. rewrite nth_error_map, N; auto.
Qed.

Lemma same_shape_spec A B : same_shape A B = true <-> m_rows A = m_rows B /\ m_cols A = m_cols B.
Proof. unfold same_shape. rewrite andb_true_iff, !Nat.eqb_eq. tauto. Qed.
Lemma is_mat_same_shape r c f g A B : is_mat r c f A -> is_mat r c g B -> same_shape A B = true.
Proof. intros (E1 & E2 & _) (E3 & E4 & _). apply same_shape_spec. split; congruence. Qed.

Lemma Mat_map2_ok op r c f g A B : is_mat r c f A -> is_mat r c g B ->
  exists C, Mat_map2 op A B = Ok C /\ is_mat r c (fun i j => op (f i j) (g i j)) C.
Proof.
  intros HA HB. unfold Mat_map2. rewrite (is_mat_same_shape _ _ _ _ _ _ HA HB).
  pose proof (is_mat_nth _ _ _ _ HA) as NA. pose proof (is_mat_nth _ _ _ _ HB) as NB.
  destruct HA as (E1 & E2 & L & _), HB as (E3 & E4 & L' & _).
  destruct (va_map2_nth op (m_data A) (m_data B)) as (u & E & Lu & U); [lia|]. rewrite E, E1, E2. cbn [bind].
  eexists. split; [reflexivity|]. apply is_mat_intro; [lia|]. intros i j Hi Hj. apply U; auto.
Qed.

Lemma all2_pairs (p : K -> K -> bool) (l : list (nat * nat)) f g :
  va_all2 p (map (fun '(i, j) => f i j) l) (map (fun '(i, j) => g i j) l) = Ok (forallb (fun '(i, j) => p (f i j) (g i j)) l).
Proof. induction l as [|[i j] l IH]; simpl; [reflexivity|]. destruct (p (f i j) (g i j)); [exact IH|reflexivity]. Qed.

Lemma forallb_pairs (p : nat -> nat -> bool) r c :
  forallb (fun '(i, j) => p i j) (list_prod (seq 0 r) (seq 0 c)) = true <-> forall i j, i < r -> j < c -> p i j = true.
Proof.
  rewrite forallb_forall. split.
  - intros H i j Hi Hj. apply (H (i, j)). now apply in_pairs.
  - intros H [i j] Hi. apply in_pairs in Hi. now apply H.
Qed.

(** ** Rows and columns *)
Lemma SwapRow_ok r c f A i j : is_mat r c f A -> i < r -> j < r ->
  exists A', SwapRow A i j = Ok A' /\ is_mat r c (fun i' j' => f (swap_idx i j i') j') A'.
Proof.
  intros H Hi Hj. unfold SwapRow. destruct (Nat.eqb_spec i j) as [->|Hne].
  { exists A. split; [reflexivity|]. eapply is_mat_ext; [|exact H]. intros i' j' _ _. unfold swap_idx.
    destruct (Nat.eqb_spec i' j); subst; reflexivity. }
  pose proof H as (E0 & _ & _).
  destruct (Nat.ltb_spec i (m_rows A)); [|lia]. destruct (Nat.ltb_spec j (m_rows A)); [|lia].
  rewrite (Row_ok _ _ _ _ i 0 H Hi), (Row_ok _ _ _ _ j 0 H Hj) by lia. cbn [bind].
  destruct (set_Row_ok r c f A i 0 (fun k => f j (0 + k)) H Hi) as (A1 & EA1 & HA1); [lia|]. rewrite EA1. cbn [bind].
  destruct (set_Row_ok r c _ A1 j 0 (fun k => f i (0 + k)) HA1 Hj) as (A2 & EA2 & HA2); [lia|].
  exists A2. split; [exact EA2|]. eapply is_mat_ext; [|exact HA2]. intros i' j' _ _. cbv beta. unfold swap_idx. cbn [Nat.leb].
  rewrite !andb_true_r, Nat.sub_0_r. cbn [plus].
  destruct (Nat.eqb_spec i' j), (Nat.eqb_spec i' i); subst; try reflexivity; contradiction.
Qed.

Lemma SwapCol_ok r c f A i j : is_mat r c f A -> i < c -> j < c ->
  exists A', SwapCol A i j = Ok A' /\ is_mat r c (fun i' j' => f i' (swap_idx i j j')) A'.
Proof.
  intros H Hi Hj. unfold SwapCol. destruct (Nat.eqb_spec i j) as [->|Hne].
  { exists A. split; [reflexivity|]. eapply is_mat_ext; [|exact H]. intros i' j' _ _. unfold swap_idx.
    destruct (Nat.eqb_spec j' j); subst; reflexivity. }
  pose proof H as (_ & E0 & _).
  destruct (Nat.ltb_spec i (m_cols A)); [|lia]. destruct (Nat.ltb_spec j (m_cols A)); [|lia].
  rewrite (Col_ok _ _ _ _ i 0 H Hi), (Col_ok _ _ _ _ j 0 H Hj) by lia. cbn [bind].
  destruct (set_Col_ok r c f A i 0 (fun k => f (0 + k) j) H Hi) as (A1 & EA1 & HA1); [lia|]. rewrite EA1. cbn [bind].
  destruct (set_Col_ok r c _ A1 j 0 (fun k => f (0 + k) i) HA1 Hj) as (A2 & EA2 & HA2); [lia|].
  exists A2. split; [exact EA2|]. eapply is_mat_ext; [|exact HA2]. intros i' j' _ _. cbv beta. unfold swap_idx. cbn [Nat.leb].
  rewrite !andb_true_r, Nat.sub_0_r. cbn [plus].
  destruct (Nat.eqb_spec j' j), (Nat.eqb_spec j' i); subst; try reflexivity; contradiction.
Qed.

Lemma Transpose_ok r c f A : 0 < r -> 0 < c -> is_mat r c f A ->
  exists B, Transpose A = Ok B /\ is_mat c r (fun i j => f j i) B.
Proof.
  intros Hr Hc H. pose proof H as (E1 & E2 & _). unfold Transpose. rewrite E1, E2.
  destruct (Mat_make_ok c r (n_ofZ 0)) as (Z & EZ & HZ); auto. rewrite EZ. cbn [bind].
  destruct (foldM_seq (fun i B => is_mat c r (fun i' j' => if i' <? i then f j' i' else n_ofZ 0) B)
    (fun ans i => let* co := Col A i 0 in set_Row ans i 0 co) c 0 Z) as (B & EB & HB).
  - eapply is_mat_ext; [|exact HZ]. intros; reflexivity.
  - intros i B Hi HB. rewrite (Col_ok _ _ _ _ i 0 H) by lia. cbn [bind].
    destruct (set_Row_ok c r _ B i 0 (fun k => f (0 + k) i) HB) as (B' & E' & H'); [lia|lia|].
    exists B'. split; [exact E'|]. eapply is_mat_ext; [|exact H']. intros i' j' _ _. cbv beta. cbn [Nat.leb plus].
    rewrite andb_true_r, Nat.sub_0_r.
    destruct (Nat.eqb_spec i' i), (Nat.ltb_spec i' i), (Nat.ltb_spec i' (S i)); subst; try reflexivity; lia.
  - exists B. split; [exact EB|]. eapply is_mat_ext; [|exact HB]. intros i j Hi Hj. cbv beta.
    destruct (Nat.ltb_spec i (0 + c)); [reflexivity|lia].
Qed.

Lemma Mat_mul_ok r m c f g A B : 0 < r -> 0 < c -> is_mat r m f A -> is_mat m c g B ->
  exists C, Mat_mul A B = Ok C /\ is_mat r c (fun i j => ksum m (fun k => n_mul (f i k) (g k j))) C.
Proof.
  intros Hr Hc HA HB. pose proof HA as (E1 & E2 & _). pose proof HB as (E3 & E4 & _). unfold Mat_mul. rewrite E1, E2, E3, E4.
  rewrite Nat.eqb_refl. destruct (Mat_make_ok r c (n_ofZ 0)) as (Z & EZ & HZ); auto. rewrite EZ. cbn [bind].
  set (h := fun i j => ksum m (fun k => n_mul (f i k) (g k j))).
  destruct (foldM_seq (fun i C => is_mat r c (fun i' j' => if i' <? i then h i' j' else n_ofZ 0) C)
    (fun ans i => foldM (fun ans j =>
        let* r := Row A i 0 in let* c := Col B j 0 in let* p := va_map2 n_mul r c in
        set_Value ans i j (va_sum p)) (seq 0 c) ans) r 0 Z) as (C & EC & HC).
  - eapply is_mat_ext; [|exact HZ]. intros; reflexivity.
  - intros i C Hi HC.
    destruct (foldM_seq (fun j C => is_mat r c (fun i' j' => if (i' <? i) || ((i' =? i) && (j' <? j)) then h i' j' else n_ofZ 0) C)
      (fun ans j => let* r := Row A i 0 in let* c := Col B j 0 in let* p := va_map2 n_mul r c in
        set_Value ans i j (va_sum p)) c 0 C) as (C' & EC' & HC').
    + eapply is_mat_ext; [|exact HC]. intros i' j' _ _. cbv beta. rewrite andb_false_r, orb_false_r. reflexivity.
    + intros j C' Hj HC'. rewrite (Row_ok _ _ _ _ i 0 HA), (Col_ok _ _ _ _ j 0 HB) by lia. cbn [bind].
      rewrite Nat.sub_0_r, va_map2_map. cbn [bind].
      destruct (set_Value_ok r c _ C' i j (h i j) HC') as (C2 & E2' & H2); [lia|lia|].
      eexists. split; [exact E2'|]. eapply is_mat_ext; [|exact H2]. intros i' j' _ _. cbv beta.
      destruct (Nat.eqb_spec i' i), (Nat.eqb_spec j' j), (Nat.ltb_spec i' i), (Nat.ltb_spec j' j), (Nat.ltb_spec j' (S j)); subst; simpl; try reflexivity; lia.
    + exists C'. split; [exact EC'|]. eapply is_mat_ext; [|exact HC']. intros i' j' _ Hj'. cbv beta.
      destruct (Nat.ltb_spec j' (0 + c)); [|lia].
      destruct (Nat.eqb_spec i' i), (Nat.ltb_spec i' i), (Nat.ltb_spec i' (S i)); subst; simpl; try reflexivity; lia.
  - exists C. split; [exact EC|]. eapply is_mat_ext; [|exact HC]. intros i j Hi Hj. cbv beta.
    destruct (Nat.ltb_spec i (0 + r)); [reflexivity|lia].
Qed.

Lemma Resize_ok r c f A r' c' : is_mat r c f A -> 0 < r' -> 0 < c' ->
  exists B, Resize A r' c' = Ok B /\
    is_mat r' c' (fun i j => if (i <? r) && (j <? c) then f i j else n_ofZ 0) B.
Proof.
  intros H Hr Hc. pose proof (is_mat_nth _ _ _ _ H) as N. destruct H as (E1 & E2 & L & _). unfold Resize. rewrite E1, E2.
  destruct (Nat.ltb_spec 0 r'); [|lia]. destruct (Nat.ltb_spec 0 c'); [|lia]. cbn [andb].
  rewrite !gslice_map.
  rewrite (va_read_map _ _ (fun '(i, j) => f i j)).
  2:{ intros [i j] Hij. apply in_pairs in Hij. replace (0 + i * c + j * 1) with (i * c + j) by lia. apply N; lia. }
  cbn [bind].
  destruct (va_write_map (fun '(i, j) => 0 + i * c' + j * 1) (fun '(i, j) => f i j)
    (list_prod (seq 0 (Nat.min r r')) (seq 0 (Nat.min c c'))) (repeat (n_ofZ 0 : K) (r' * c'))) as (w & E & Lw & W & O).
  - apply NoDup_pairs.
  - intros [i j] [i' j'] Hi Hi' Ep. apply in_pairs in Hi, Hi'.
    assert (Ep' : i * c' + j = i' * c' + j') by lia. apply pos_inj in Ep' as [-> ->]; [reflexivity|lia|lia].
  - intros [i j] Hi. apply in_pairs in Hi. rewrite repeat_length. assert (i * c' + j < r' * c') by (apply pos_lt; lia). lia.
  - rewrite E. cbn [bind]. eexists. split; [reflexivity|]. rewrite repeat_length in Lw. apply is_mat_intro; [exact Lw|].
    intros i j Hi Hj. destruct (Nat.ltb_spec i r), (Nat.ltb_spec j c); cbn [andb].
    1:{ rewrite <- (W (i, j)); [f_equal; lia|]. apply in_pairs. lia. }
    all: rewrite O; [apply nth_error_repeat'; now apply pos_lt|].
    all: intros [i' j'] Hij Ep; apply in_pairs in Hij; assert (Ep' : i' * c' + j' = i * c' + j) by lia;
      apply pos_inj in Ep'; lia.
Qed.

Lemma Ones_ok n f A : is_mat n n f A ->
  exists B, Ones A = Ok B /\ is_mat n n (fun i j => if i =? j then n_ofZ 1 else n_ofZ 0) B.
Proof.
  intros H. pose proof H as (E1 & E2 & L & _). unfold Ones. rewrite E1, E2, Nat.eqb_refl.
  assert (HZ : is_mat n n (fun _ _ => n_ofZ 0) (Zero A)) by (unfold Zero, SetValue; exact (map_is_mat n n f A (fun _ => n_ofZ 0) H)).
  pose proof (is_mat_nth _ _ _ _ HZ) as N. destruct HZ as (_ & _ & LZ & _).
  unfold slice. replace (repeat (n_ofZ 1 : K) n) with (map (fun _ : nat => n_ofZ 1 : K) (seq 0 n)).
  2:{ clear. generalize 0. induction n; intros s; simpl; f_equal; auto. }
  destruct (va_write_map (fun k => 0 + k * (n + 1)) (fun _ => n_ofZ 1) (seq 0 n) (m_data (Zero A))) as (w & E & Lw & W & O).
  - apply seq_NoDup.
  - intros; nia.
  - intros k Hk. apply in_seq in Hk. rewrite LZ. assert (k * n + k < n * n) by (apply pos_lt; lia). lia.
  - rewrite E. cbn [bind]. eexists. split; [reflexivity|]. apply is_mat_intro; [lia|]. intros i j Hi Hj.
    destruct (Nat.eqb_spec i j) as [->|Hne].
    + rewrite <- (W j); [f_equal; lia|]. apply in_seq. lia.
    + rewrite O; [apply N; auto|]. intros k Hk Ek. apply in_seq in Hk.
      assert (Ek' : k * n + k = i * n + j) by lia. apply pos_inj in Ek'; lia.
Qed.

(** ** Cofactor blocks *)
(** Index of the k-th row/column after deleting number p. *)
Definition skip (p k : nat) : nat := if k <? p then k else S k.

Lemma copy_block r c f A n g cof s0 s1 nr nc sr sc :
  is_mat r c f A -> is_mat n n g cof ->
  nr + s0 <= n -> nc + s1 <= n -> sr + s0 <= r -> sc + s1 <= c ->
  exists vals d,
    va_read (m_data A) (gslice (sr * c + sc) s0 s1 c 1) = Ok vals /\
    va_write (m_data cof) (gslice (nr * n + nc) s0 s1 n 1) vals = Ok d /\
    is_mat n n (fun i j => if ((nr <=? i) && (i <? nr + s0)) && ((nc <=? j) && (j <? nc + s1))
                           then f (sr + (i - nr)) (sc + (j - nc)) else g i j) (MkMat n n d).
Proof.
  intros HA Hc H1 H2 H3 H4. pose proof (is_mat_nth _ _ _ _ HA) as NA. pose proof (is_mat_nth _ _ _ _ Hc) as NC.
  destruct Hc as (_ & _ & Lc & _). exists (map (fun '(i, j) => f (sr + i) (sc + j)) (list_prod (seq 0 s0) (seq 0 s1))).
  rewrite !gslice_map.
  destruct (va_write_map (fun '(i, j) => nr * n + nc + i * n + j * 1) (fun '(i, j) => f (sr + i) (sc + j))
    (list_prod (seq 0 s0) (seq 0 s1)) (m_data cof)) as (w & E & Lw & W & O).
  - apply NoDup_pairs.
  - intros [i j] [i' j'] Hi Hi' Ep. apply in_pairs in Hi, Hi'.
    assert (Ep' : i * n + j = i' * n + j') by lia. apply pos_inj in Ep' as [-> ->]; [reflexivity|lia|lia].
  - intros [i j] Hi. apply in_pairs in Hi. rewrite Lc. assert ((nr + i) * n + (nc + j) < n * n) by (apply pos_lt; lia). lia.
  - exists w. split; [|split; [exact E|]].
    + apply va_read_map. intros [i j] Hi. apply in_pairs in Hi.
      replace (sr * c + sc + i * c + j * 1) with ((sr + i) * c + (sc + j)) by lia. apply NA; lia.
    + apply is_mat_intro; [lia|]. intros i j Hi Hj.
      destruct (Nat.leb_spec nr i), (Nat.ltb_spec i (nr + s0)), (Nat.leb_spec nc j), (Nat.ltb_spec j (nc + s1)); cbn [andb].
      1:{ rewrite <- (W (i - nr, j - nc)); [f_equal; nia|]. apply in_pairs. lia. }
      all: rewrite O; [apply NC; auto|]; intros [i' j'] Hij Ep; apply in_pairs in Hij;
        assert (Ep' : (nr + i') * n + (nc + j') = i * n + j) by lia; apply pos_inj in Ep'; lia.
Qed.

(** The matrix must have at least n rows and columns; cofactor is (n-1) x (n-1). *)
Lemma GetCofactor_ok r c f A n g cof p q : is_mat r c f A -> is_mat (n - 1) (n - 1) g cof ->
  n <= r -> n <= c -> p < n -> q < n -> 2 <= n ->
  exists cof', GetCofactor A cof p q n = Ok cof' /\
    is_mat (n - 1) (n - 1) (fun i j => f (skip p i) (skip q j)) cof'.
Proof.
  intros HA Hc Hr Hcc Hp Hq Hn. pose proof HA as (_ & E2 & _). unfold GetCofactor. rewrite E2.
  destruct n as [|[|n]]; try lia. replace (S (S n) - 1) with (S n) in * by lia.
  (* one step of the loop *)
  set (copy := fun (cof : mat K) (x : nat * nat * nat * nat) => _).
  assert (Step : forall g cof s0 s1 nr nc sr sc, is_mat (S n) (S n) g cof ->
    nr + s0 <= S n -> nc + s1 <= S n -> sr + s0 <= r -> sc + s1 <= c ->
    exists cof', copy cof (s0, s1, nr * S n + nc, sr * c + sc) = Ok cof' /\
      is_mat (S n) (S n) (fun i j => if ((nr <=? i) && (i <? nr + s0)) && ((nc <=? j) && (j <? nc + s1))
                           then f (sr + (i - nr)) (sc + (j - nc)) else g i j) cof').
  { clear g cof Hc. intros g cof s0 s1 nr nc sr sc Hc G1 G2 G3 G4. unfold copy.
    destruct (copy_block r c f A (S n) g cof s0 s1 nr nc sr sc HA Hc G1 G2 G3 G4) as (vals & d & R & W & M).
    pose proof Hc as (E5 & E6 & L & _). rewrite L, E5, E6.
    destruct (Nat.ltb_spec (nr * S n + nc) (S n * S n)) as [Hlt|Hge].
    - rewrite R. cbn [bind]. rewrite W. cbn [bind]. eexists. split; [reflexivity|exact M].
    - exists cof. split; [reflexivity|]. eapply is_mat_ext; [|exact Hc]. intros i j Hi Hj.
      destruct (Nat.leb_spec nr i), (Nat.ltb_spec i (nr + s0)), (Nat.leb_spec nc j), (Nat.ltb_spec j (nc + s1)); cbn [andb]; try reflexivity.
      exfalso. assert (nr * S n + nc < S n * S n); [|lia]. assert (nr * S n + j < S n * S n) by (apply pos_lt; lia). lia. }
  cbn [foldM].
  destruct (Step g cof p q 0 0 0 0 Hc) as (c1 & EQ1 & H1); try lia.
  rewrite EQ1. cbn [bind].
  edestruct (Step _ c1 p (S n - q) 0 q 0 (q + 1) H1) as (c2 & EQ2 & H2); try lia.
  rewrite EQ2. cbn [bind].
  edestruct (Step _ c2 (S n - p) q p 0 (p + 1) 0 H2) as (c3 & EQ3 & H3); try lia.
  rewrite EQ3. cbn [bind].
  edestruct (Step _ c3 (S n - p) (S n - q) p q (p + 1) (q + 1) H3) as (c4 & EQ4 & H4); try lia.
  rewrite EQ4. cbn [bind]. exists c4. split; [reflexivity|]. eapply is_mat_ext; [|exact H4].
  intros i j Hi Hj. cbv beta. unfold skip.
  replace (p + (S n - p)) with (S n) by lia. replace (q + (S n - q)) with (S n) by lia. rewrite !Nat.add_0_l, ?Nat.sub_0_r.
  destruct (Nat.ltb_spec i (S n)); [|lia]. destruct (Nat.ltb_spec j (S n)); [|lia].
  destruct (Nat.leb_spec p i), (Nat.ltb_spec i p), (Nat.leb_spec q j), (Nat.ltb_spec j q); cbn [andb Nat.leb]; try lia; f_equal; lia.
Qed.


Lemma map_nth_seq (d : K) l : map (fun k => nth k l d) (seq 0 (length l)) = l.
Proof.
  induction l as [|a l IH]; [reflexivity|]. cbn [length seq map nth]. f_equal. rewrite <- seq_shift, map_map. exact IH.
Qed.

Lemma Mat_init_ok rows c : 0 < length rows -> 0 < c -> (forall l, In l rows -> length l = c) ->
  exists A, Mat_init rows = Ok A /\ is_mat (length rows) c (lentry rows) A.
Proof.
  intros Hr Hc Hl. unfold Mat_init. destruct (Nat.eqb_spec (length rows) 0); [lia|].
  assert (Ec : fold_left (fun m (l : list K) => Nat.max m (length l)) rows 0 = c).
  { assert (G : forall l m, m <= c -> (forall x : list K, In x l -> length x = c) -> l <> [] ->
      fold_left (fun m (l : list K) => Nat.max m (length l)) l m = c).
    { induction l as [|x l IH]; intros m Hm Hx Hne; [congruence|]. cbn [fold_left].
      assert (length x = c) by (apply Hx; now left). destruct l as [|y l].
      - simpl. lia.
      - apply IH; [lia| |discriminate]. intros z Hz. apply Hx. now right. }
    apply G; [lia|exact Hl|]. intros ->. simpl in Hr. lia. }
  rewrite Ec. destruct (Nat.eqb_spec c 0); [lia|].
  assert (G : forall rest done A, rows = done ++ rest ->
    is_mat (length rows) c (fun i j => if i <? length done then lentry rows i j else n_ofZ 0) A ->
    exists i A', foldM (fun '(i, A) values => let* A' := set_Row A i 0 values in Ok (S i, A')) rest (length done, A) = Ok (i, A')
      /\ is_mat (length rows) c (lentry rows) A').
  { induction rest as [|l rest IH]; intros done A E HA.
    - exists (length done), A. split; [reflexivity|]. eapply is_mat_ext; [|exact HA]. intros i j Hi _. cbv beta.
      rewrite app_nil_r in E. subst done. destruct (Nat.ltb_spec i (length rows)); [reflexivity|lia].
    - cbn [foldM].
      assert (Ll : length l = c) by (apply Hl; rewrite E; apply in_app_iff; right; now left).
      assert (Hd : length done < length rows) by (rewrite E, app_length; simpl; lia).
      assert (En : nth (length done) rows [] = l) by (rewrite E, app_nth2, Nat.sub_diag by lia; reflexivity).
      destruct (set_Row_ok (length rows) c _ A (length done) 0 (fun k => nth k l (n_ofZ 0)) HA) as (A' & EA & HA'); [lia|lia|].
      rewrite Nat.sub_0_r in EA. rewrite <- Ll in EA at 1. rewrite map_nth_seq in EA. rewrite EA. cbn [bind].
      destruct (IH (done ++ [l]) A') as (i & A2 & E2 & H2).
      + rewrite E, <- app_assoc. reflexivity.
      + eapply is_mat_ext; [|exact HA']. intros i' j' _ _. cbv beta. rewrite app_length, Nat.sub_0_r. cbn [length Nat.leb].
        rewrite andb_true_r. destruct (Nat.eqb_spec i' (length done)) as [->|].
        * destruct (Nat.ltb_spec (length done) (length done + 1)); [|lia]. unfold lentry. now rewrite En.
        * destruct (Nat.ltb_spec i' (length done)), (Nat.ltb_spec i' (length done + 1)); try reflexivity; lia.
      + exists i, A2. split; [|exact H2]. rewrite app_length, Nat.add_1_r in E2. exact E2. }
  destruct (G rows [] (MkMat (length rows) c (repeat (n_ofZ 0) (length rows * c)))) as (i & A' & E & H).
  - reflexivity.
  - apply is_mat_intro; [apply repeat_length|]. intros. apply nth_error_repeat'. now apply pos_lt.
  - exists A'. cbn [length] in E. rewrite E. cbn [bind snd]. split; [reflexivity|exact H].
Qed.
End Mats.
