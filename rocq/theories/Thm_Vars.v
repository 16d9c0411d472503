(** C36, C37: the table of variables. *)
From Coq Require Import String List ZArith Reals Lra Bool Arith Lia Sorting.Sorted.
From Verif Require Import Base MathOp NodeModel SubsModel MatModel VarsTableModel NodeProofs MatProofs Thm_Subs VarsSpec IEEE RealSpec.
Import ListNotations.
Local Open Scope string_scope.
Local Open Scope list_scope.

(** ** Ordered maps *)
Lemma str_lt_irrefl x : ~ str_lt x x.
Proof. unfold str_lt. rewrite (proj2 (str_compare_eq x x) eq_refl). discriminate. Qed.
Lemma sorted_NoDup l : StronglySorted str_lt l -> NoDup l.
Proof.
  induction 1 as [|x l S IH F]; constructor; auto. intros H. rewrite Forall_forall in F. now apply F, str_lt_irrefl in H.
Qed.
Lemma map_set_keys {T} x (t : T) m : map fst (map_set x t m) = set_insert x (map fst m).
Proof.
  induction m as [|[z u] m IH]; simpl; auto. destruct (String.compare x z); simpl; auto. now rewrite IH.
Qed.
Lemma map_set_sorted {T} x (t : T) m : StronglySorted str_lt (map fst m) ->
  StronglySorted str_lt (map fst (map_set x t m)).
Proof. rewrite map_set_keys. apply set_insert_sorted. Qed.
Lemma map_find_none {T} x (m : smap T) : map_find x m = None <-> ~ In x (map fst m).
Proof.
  induction m as [|[y u] m IH]; simpl; [tauto|]. destruct (String.eqb_spec x y) as [->|N].
  - split; [discriminate|]. tauto.
  - rewrite IH. intuition.
Qed.
Lemma map_find_set {T} x y (t : T) m : StronglySorted str_lt (map fst m) ->
  map_find y (map_set x t m) = if String.eqb y x then Some t else map_find y m.
Proof.
  induction m as [|[z u] m IH]; simpl; intros S; [reflexivity|].
  apply StronglySorted_inv in S as [S F].
  destruct (String.compare x z) eqn:C; simpl.
  - apply str_compare_eq in C as ->. destruct (String.eqb_spec y z) as [->|N]; auto.
  - reflexivity.
  - rewrite IH by auto. destruct (String.eqb_spec y z) as [->|N]; auto.
    destruct (String.eqb_spec z x) as [->|]; auto.
    rewrite (proj2 (str_compare_eq x x) eq_refl) in C. discriminate.
Qed.
Lemma set_insert_len x s : In x s -> StronglySorted str_lt s -> set_insert x s = s.
Proof.
  induction s as [|y s IH]; simpl; [tauto|]. intros H S. apply StronglySorted_inv in S as [S F].
  destruct (String.compare x y) eqn:C; auto.
  - destruct H as [->|H]; [now rewrite (proj2 (str_compare_eq x x) eq_refl) in C|].
    rewrite Forall_forall in F. apply F in H. exfalso. eapply str_lt_irrefl, str_lt_trans; eauto.
  - destruct H as [->|H]; [now rewrite (proj2 (str_compare_eq x x) eq_refl) in C|].
    now rewrite IH.
Qed.
Lemma set_insert_len_new x s : ~ In x s -> length (set_insert x s) = S (length s).
Proof.
  induction s as [|y s IH]; simpl; auto. intros H. destruct (String.compare x y) eqn:C; simpl; auto.
  - apply str_compare_eq in C as ->. tauto.
  - rewrite IH; tauto.
Qed.
Lemma set_insert_len_le x s : length (set_insert x s) <= S (length s).
Proof. induction s as [|y s IH]; simpl; auto. destruct (String.compare x y); simpl; lia. Qed.

Section A.
Context {K : num_ops}.
Implicit Types (t : vars_table K) (xs : list string) (vs : list K).

Lemma pair_in_find x v xs : forall vs, NoDup xs -> length xs = length vs ->
  (pair_in x v xs vs <-> map_find x (combine xs vs) = Some v).
Proof.
  unfold pair_in. induction xs as [|y xs IH]; intros [|w vs] Nd L; try discriminate; simpl.
  - split; [|discriminate]. intros ([|i] & H & _); discriminate.
  - apply NoDup_cons_iff in Nd as [N1 N2]. injection L as L. specialize (IH vs N2 L).
    destruct (String.eqb_spec x y) as [->|N].
    + split; [|intros [= ->]; exists 0; auto]. intros ([|i] & H1 & H2); simpl in *; auto.
      apply nth_error_In in H1. tauto.
    + rewrite <- IH. split.
      * intros ([|i] & H1 & H2); simpl in *; [congruence|]. now exists i.
      * intros (i & H). now exists (S i).
Qed.

(** The representation invariant. *)
Definition inv t xs vs : Prop :=
  xs <> [] /\ NoDup xs /\ length xs = length vs /\ vt_vars t = xs /\ vec_is (vt_values t) vs /\
  StronglySorted str_lt (map fst (vt_table t)) /\
  forall x, map_find x (vt_table t) = map_find x (combine xs vs).

Lemma combine_fst {B} (xs : list string) : forall (ys : list B), length xs = length ys -> map fst (combine xs ys) = xs.
Proof. induction xs as [|x xs IH]; intros [|y ys] H; try discriminate; simpl; auto. f_equal. apply IH. now injection H. Qed.

Lemma inv_keys t xs vs : inv t xs vs -> forall x, In x (map fst (vt_table t)) <-> In x xs.
Proof.
  intros (_ & Nd & L & _ & _ & S & F) x.
  pose proof (combine_fst xs vs L) as EC.
  assert (E : map_find x (vt_table t) = None <-> map_find x (combine xs vs) = None) by now rewrite F.
  rewrite !map_find_none, EC in E.
  destruct (in_dec string_dec x (map fst (vt_table t))), (in_dec string_dec x xs); tauto.
Qed.

Lemma inv_holds t xs vs : inv t xs vs -> holds t xs vs.
Proof.
  intros I. pose proof (inv_keys t xs vs I) as KE. destruct I as (Ne & Nd & L & E & V & S & F).
  assert (G : forall x v, map_find x (vt_table t) = Some v <-> pair_in x v xs vs).
  { intros x v. rewrite pair_in_find, F; tauto. }
  split; auto.
  - unfold VarNums. rewrite <- (map_length fst). apply Nat.le_antisymm.
    + apply NoDup_incl_length; [now apply sorted_NoDup|]. intros x. apply KE.
    + apply NoDup_incl_length; auto. intros x. apply KE.
  - intros x v. unfold VarsTable_get. rewrite <- G. destruct (map_find x (vt_table t)); split; congruence.
  - intros x H. unfold VarsTable_get. rewrite <- KE in H. apply map_find_none in H. rewrite H. eexists. reflexivity.
  - intros x. unfold Has. rewrite <- KE. destruct (map_find x (vt_table t)) eqn:M.
    + split; auto. intros _. destruct (in_dec string_dec x (map fst (vt_table t))) as [|N]; auto.
      apply map_find_none in N. congruence.
    + apply map_find_none in M. split; [discriminate|tauto].
  - intros x v. unfold Items. rewrite <- G. symmetry. apply map_find_in. now apply sorted_NoDup.
Qed.

Lemma holds_inv t xs vs : holds t xs vs -> inv t xs vs.
Proof.
  intros [H1 H2 H3 H4 H5 H6 H7 H8 H9 H10 H11]. repeat split; auto; try apply H6.
  intros x. destruct (map_find x (vt_table t)) as [v|] eqn:M.
  - symmetry. apply pair_in_find; auto. apply H11. unfold Items. apply map_find_in in M; auto. now apply sorted_NoDup.
  - symmetry. destruct (map_find x (combine xs vs)) as [v|] eqn:N; auto.
    apply pair_in_find in N; auto. apply H11 in N. apply map_find_in in N; [unfold Items in N; congruence|now apply sorted_NoDup].
Qed.

Lemma Vec_make_is n (v : K) : n <> 0 -> exists w, Vec_make n v = Ok w /\ vec_is w (repeat v n).
Proof.
  intros H. unfold Vec_make, Mat_make. destruct n; [congruence|]. simpl. eexists. split; [reflexivity|].
  unfold vec_is. simpl. rewrite repeat_length, Nat.mul_1_r. auto.
Qed.

Lemma insert_const_find (v : K) xs : forall m y, StronglySorted str_lt (map fst m) ->
  StronglySorted str_lt (map fst (fold_left (fun m x => map_insert x v m) xs m)) /\
  map_find y (fold_left (fun m x => map_insert x v m) xs m) =
    match map_find y m with Some u => Some u | None => if in_dec string_dec y xs then Some v else None end.
Proof.
  induction xs as [|x xs IH]; intros m y S; simpl.
  - split; auto. destruct (map_find y m); auto.
  - destruct (IH (map_insert x v m) y) as [S' F]; [now apply map_insert_sorted|]. split; auto.
    rewrite F, map_find_insert by auto. destruct (map_find y m); auto.
    destruct (String.eqb_spec y x) as [->|N].
    + destruct (string_dec x x); [auto|congruence].
    + destruct (string_dec x y); [congruence|]. now destruct (in_dec string_dec y xs).
Qed.

Lemma insert_const_len (v : K) xs : forall m, StronglySorted str_lt (map fst m) ->
  length (fold_left (fun m x => map_insert x v m) xs m) <= length m + length xs /\
  (length (fold_left (fun m x => map_insert x v m) xs m) = length m + length xs <->
   NoDup xs /\ forall x, In x xs -> ~ In x (map fst m)).
Proof.
  induction xs as [|x xs IH]; intros m S; cbn [fold_left length].
  - split; [lia|]. split; [intros _; split; [constructor|tauto]|lia].
  - pose proof (map_insert_sorted x v m S) as S'. destruct (IH _ S') as [L1 L2].
    assert (Len : length (map_insert x v m) = length (set_insert x (map fst m))) by now rewrite <- (map_insert_keys x v m), map_length.
    assert (Lm : length (map fst m) = length m) by apply map_length.
    destruct (in_dec string_dec x (map fst m)) as [Hin|Hn].
    + rewrite set_insert_len in Len by auto. split; [lia|]. split; [lia|]. intros [_ H]. exfalso. apply (H x); [now left|exact Hin].
    + rewrite set_insert_len_new in Len by auto. split; [lia|].
      assert (E : length (fold_left (fun m x => map_insert x v m) xs (map_insert x v m)) = length m + (1 + length xs)
        <-> length (fold_left (fun m x => map_insert x v m) xs (map_insert x v m)) = length (map_insert x v m) + length xs) by lia.
      rewrite E, L2. rewrite NoDup_cons_iff. setoid_rewrite (map_insert_keys x v m). setoid_rewrite set_insert_in. split.
      * intros [N1 N2]. repeat split; auto.
        -- intros H. apply (N2 x H); now left.
        -- intros y [<-|Hy]; auto. intros H. apply (N2 y Hy); now right.
      * intros [[N1 N2] N3]. split; auto. intros y Hy [->|Hm]; auto. apply (N3 y); [now right|exact Hm].
Qed.
End A.

(** ** C36: construction *)
Theorem C36_make (K : num_ops) (xs : list string) (v : K) : xs <> [] -> NoDup xs ->
  exists t, VarsTable_make xs v = Ok t /\ holds t xs (repeat v (length xs)).
Proof.
  intros Ne Nd. unfold VarsTable_make.
  destruct (Vec_make_is (length xs) v) as (w & -> & Hw); [now destruct xs|]. cbn [bind].
  destruct (insert_const_len v xs []) as [_ [_ H2]]; [constructor|].
  rewrite (H2 (conj Nd (fun x _ H => H))). rewrite Nat.eqb_refl. eexists. split; [reflexivity|].
  apply inv_holds. repeat split; simpl; auto; try apply Hw.
  - now rewrite repeat_length.
  - apply (insert_const_find v xs [] ""); constructor.
  - intros x. destruct (insert_const_find v xs [] x) as [_ ->]; [constructor|]. simpl.
    clear. induction xs as [|y xs IH]; simpl; auto.
    destruct (String.eqb_spec x y) as [->|N]; [destruct (string_dec y y); congruence|].
    rewrite <- IH. destruct (string_dec y x); [congruence|]. now destruct (in_dec string_dec x xs).
Qed.

(** Repeated names, or no name at all, fail an assert. *)
Theorem C36_make_bad (K : num_ops) (xs : list string) (v : K) : xs = [] \/ ~ NoDup xs ->
  exists why, VarsTable_make xs v = AssertFail why.
Proof.
  intros [->|Nd]; [eexists; reflexivity|]. unfold VarsTable_make.
  destruct (Vec_make_is (length xs) v) as (w & -> & Hw).
  { destruct xs; [|discriminate]. destruct Nd. constructor. }
  cbn [bind]. destruct (insert_const_len v xs []) as [_ [H1 _]]; [constructor|]. simpl in H1.
  destruct (Nat.eqb_spec (length xs) (length (fold_left (fun m x => map_insert x v m) xs []))) as [E|]; [|eexists; reflexivity].
  symmetry in E. destruct (H1 E). tauto.
Qed.

Lemma va_set_end {A} (p : list A) b r a : va_set (p ++ b :: r) (length p) a = Ok (p ++ a :: r).
Proof. induction p as [|c p IH]; simpl; auto. now rewrite IH. Qed.

Lemma fill_values_ok {K : num_ops} (m : smap K) : forall (p r : list K) rows cols, length r = length m ->
  foldM (fun '(i, v) item => let* v := Vec_set v i (snd item) in Ok (S i, v)) m (length p, MkMat rows cols (p ++ r))
  = Ok (length p + length m, MkMat rows cols (p ++ map snd m)).
Proof.
  induction m as [|[x a] m IH]; intros p r rows cols L.
  - destruct r; [|discriminate]. cbn [foldM length map]. rewrite Nat.add_0_r. reflexivity.
  - destruct r as [|b r]; [discriminate|]. cbn [foldM snd].
    assert (EV : Vec_set (MkMat rows cols (p ++ b :: r)) (length p) a = Ok (MkMat rows cols (p ++ a :: r))).
    { unfold Vec_set. cbn [m_data m_rows m_cols]. rewrite va_set_end. reflexivity. }
    rewrite EV. cbn [bind].
    specialize (IH (p ++ [a]) r rows cols). rewrite app_length, <- !app_assoc in IH. cbn [length app] in IH.
    replace (S (length p)) with (length p + 1) by lia. rewrite IH by (simpl in L; lia).
    f_equal. f_equal. cbn [length]. lia.
Qed.

Theorem C36_of_map (K : num_ops) (m : smap K) : m <> [] -> StronglySorted (fun x y => String.compare x y = Lt) (map fst m) ->
  exists t, VarsTable_of_map m = Ok t /\ holds t (map fst m) (map snd m).
Proof.
  intros Ne S. unfold VarsTable_of_map.
  destruct (Vec_make_is (length m) (n_ofZ 0 : K)) as ([rows cols d] & -> & H1 & H2 & H3); [now destruct m|]. cbn [bind].
  unfold fill_values. simpl in H3. subst d.
  pose proof (fill_values_ok m [] (repeat (n_ofZ 0) (length m)) rows cols (repeat_length _ _)) as E. simpl in E.
  rewrite E. cbn [bind snd]. eexists. split; [reflexivity|]. apply inv_holds.
  repeat split; simpl; auto.
  - now destruct m.
  - now apply sorted_NoDup.
  - now rewrite !map_length.
  - rewrite map_length. simpl in H1. now rewrite repeat_length in H1.
  - intros x. f_equal. clear. induction m as [|[y u] m IH]; simpl; congruence.
Qed.

(** A table needs at least one variable. *)
Theorem C36_empty (K : num_ops) : (exists why, VarsTable_of_map (K:=K) [] = AssertFail why) /\ (exists why, VarsTable_init (K:=K) [] = AssertFail why).
Proof. split; eexists; reflexivity. Qed.

(** The initializer list: the names come out sorted; a later entry for the same name is
    silently ignored. *)
Theorem C36_init (K : num_ops) (l : list (string * K)) : l <> [] ->
  exists t xs vs, VarsTable_init l = Ok t /\ holds t xs vs /\
    StronglySorted (fun x y => String.compare x y = Lt) xs /\
    forall x v, pair_in x v xs vs <-> first_entry l x v.
Proof.
  intros Ne. unfold VarsTable_init.
  set (m := fold_left (fun m p => map_insert (fst p) (snd p) m) l []).
  assert (S : StronglySorted str_lt (map fst m)).
  { unfold m. assert (G : forall (l : list (string * K)) m0, StronglySorted str_lt (map fst m0) ->
      StronglySorted str_lt (map fst (fold_left (fun m p => map_insert (fst p) (snd p) m) l m0))).
    { clear. induction l as [|p l IH]; intros m0 S; simpl; auto. apply IH. now apply map_insert_sorted. }
    apply G. constructor. }
  assert (F : forall x, map_find x m = map_find x l).
  { intros x. unfold m. rewrite map_find_inserts; [reflexivity|constructor]. }
  assert (Nm : m <> []).
  { destruct l as [|[x v] l]; [congruence|]. intros E. specialize (F x). rewrite E in F. simpl in F.
    rewrite String.eqb_refl in F. discriminate. }
  destruct (C36_of_map K m Nm S) as (t & Et & H). rewrite Et. cbn [bind].
  pose proof (h_nums _ _ _ H) as Hn. unfold VarNums in Hn. pose proof (h_vars _ _ _ H) as Hv. unfold Vars in Hv.
  rewrite Hv, Hn, Nat.eqb_refl. exists t, (map fst m), (map snd m).
  split; [reflexivity|split; [exact H|split; [exact S|]]]. intros x v. split.
  - intros P. apply pair_in_find in P; [|now apply sorted_NoDup|now rewrite !map_length].
    replace (combine (map fst m) (map snd m)) with m in P by (clear; induction m as [|[] ? IH]; simpl; congruence).
    rewrite F in P. clear -P. induction l as [|[y w] l IH]; simpl in P; [discriminate|].
    destruct (String.eqb_spec x y) as [->|N].
    + injection P as ->. exists 0. split; auto. intros j w H. lia.
    + destruct (IH P) as (i & H1 & H2). exists (S i). split; auto. intros [|j] w' Hj; simpl; [congruence|].
      apply H2. lia.
  - intros P. apply pair_in_find; [now apply sorted_NoDup|now rewrite !map_length|].
    replace (combine (map fst m) (map snd m)) with m by (clear; induction m as [|[] ? IH]; simpl; congruence).
    rewrite F. destruct P as (i & H1 & H2). clear -H1 H2. revert i H1 H2. induction l as [|[y w] l IH]; intros [|i] H1 H2; simpl in *; try discriminate.
    + injection H1 as -> ->. now rewrite String.eqb_refl.
    + destruct (String.eqb_spec x y) as [->|N]; [exfalso; apply (H2 0 w); [lia|auto]|].
      apply (IH i); auto. intros j w' Hj. apply (H2 (S j)). lia.
Qed.

(** ** C36: SetValues, and any sequence of SetValues *)
Lemma set_loop {K : num_ops} (xs : list string) (ws : list K) (w : mat K) : NoDup xs -> length xs = length ws -> m_data w = ws ->
  forall n m, n <= length xs -> StronglySorted str_lt (map fst m) ->
  exists m', foldM (fun m i =>
        match nth_error xs i with
        | None => Undef "vector index out of range"
        | Some x => let* a := Vec_get w i in Ok (map_set x a m)
        end) (seq 0 n) m = Ok m' /\ StronglySorted str_lt (map fst m') /\
    forall x, map_find x m' = match map_find x (combine (firstn n xs) (firstn n ws)) with Some v => Some v | None => map_find x m end.
Proof.
  intros Nd L Ew n m. induction n as [|n IH]; intros Hn HS.
  - exists m. simpl. auto.
  - destruct IH as (m' & E & HS' & F); [lia|auto|].
    destruct (nth_error xs n) as [x|] eqn:Ex; [|apply nth_error_None in Ex; lia].
    destruct (nth_error ws n) as [v|] eqn:Ev; [|apply nth_error_None in Ev; lia].
    exists (map_set x v m'). split; [|split; [now apply map_set_sorted|]].
    + rewrite seq_S, foldM_app, E. cbn [bind foldM Nat.add]. rewrite Ex. unfold Vec_get, va_get. rewrite Ew, Ev. reflexivity.
    + intros y. rewrite map_find_set by auto. rewrite F.
      assert (T : combine (firstn (S n) xs) (firstn (S n) ws) = combine (firstn n xs) (firstn n ws) ++ [(x, v)]).
      { clear -Ex Ev. revert ws n Ex Ev. induction xs as [|y xs IH]; intros [|u ws] [|n] Ex Ev; try discriminate; simpl in *.
        - congruence.
        - f_equal. now apply IH. }
      rewrite T. clear T. destruct (String.eqb_spec y x) as [->|N].
      * assert (M : map_find x (combine (firstn n xs) (firstn n ws)) = None).
        { apply map_find_none. rewrite combine_fst by (rewrite !firstn_length; lia). intros Hin.
          rewrite <- (firstn_skipn n xs) in Nd, Ex. rewrite nth_error_app2 in Ex by (rewrite firstn_length; lia).
          apply nth_error_In in Ex. clear -Nd Ex Hin. revert Nd Hin. generalize (firstn n xs). induction l as [|z l IH]; simpl; intros Nd H; [tauto|].
          apply NoDup_cons_iff in Nd as [N1 N2]. destruct H as [->|H]; auto. apply N1. apply in_or_app. auto. }
        revert M. generalize (combine (firstn n xs) (firstn n ws)). induction l as [|[z u] l IHl]; simpl; [now rewrite String.eqb_refl|].
        destruct (String.eqb x z); [discriminate|auto].
      * generalize (combine (firstn n xs) (firstn n ws)). induction l as [|[z u] l IHl]; simpl.
        -- destruct (String.eqb_spec y x); [congruence|auto].
        -- destruct (String.eqb y z); auto.
Qed.

Theorem C36_set_values (K : num_ops) (t : vars_table K) xs vs (w : mat K) (ws : list K) :
  holds t xs vs -> vec_is w ws -> length ws = length vs ->
  exists t', SetValues t w = Ok t' /\ holds t' xs ws.
Proof.
  intros H (W1 & W2 & W3) L. apply holds_inv in H as (Ne & Nd & Lx & E & (V1 & V2 & V3) & S & F).
  unfold SetValues. rewrite V1, W1, L, Nat.eqb_refl, E.
  destruct (set_loop xs ws w Nd ltac:(lia) W3 (length vs) (vt_table t)) as (m' & -> & S' & F'); auto; [lia|].
  cbn [bind]. eexists. split; [reflexivity|]. apply inv_holds. repeat split; simpl; auto; try lia.
  intros x. rewrite F', <- Lx, firstn_all. replace (length xs) with (length ws) by lia. rewrite firstn_all.
  destruct (map_find x (combine xs ws)) eqn:M; auto. rewrite F.
  apply map_find_none. apply map_find_none in M. rewrite combine_fst in * by lia. auto.
Qed.

Theorem C36_set_values_bad (K : num_ops) (t : vars_table K) (w : mat K) :
  m_rows w <> m_rows (Values t) -> exists why, SetValues t w = AssertFail why.
Proof. intros H. unfold SetValues. apply Nat.eqb_neq in H. unfold Values in H. rewrite H. eexists. reflexivity. Qed.

Theorem C36_history (K : num_ops) (t : vars_table K) xs vs (updates : list (list K)) :
  holds t xs vs -> Forall (fun ws => length ws = length vs) updates ->
  exists t', foldM SetValues (map (fun ws => MkMat (length ws) 1 ws) updates) t = Ok t' /\
    holds t' xs (last updates vs).
Proof.
  revert t vs. induction updates as [|ws us IH]; intros t vs H F; simpl; [eauto|].
  apply Forall_cons_iff in F as [L F].
  destruct (C36_set_values K t xs vs (MkMat (length ws) 1 ws) ws H) as (t1 & -> & H1); [repeat split|auto|]. cbn [bind].
  destruct (IH t1 ws H1) as (t' & E & H'); [eapply Forall_impl; [|exact F]; simpl; congruence|].
  exists t'. split; auto. destruct us as [|u us]; auto. 
  replace (last (u :: us) vs) with (last (u :: us) ws); auto. clear. revert u. induction us as [|v us IH]; intros u; auto.
  change (last (v :: us) ws = last (v :: us) vs). apply IH.
Qed.

(** The text: one line "name = value" per variable, in order. *)
Theorem C36_to_string (K : num_ops) (t : vars_table K) :
  VarsTable_ToString t = String.concat "" (map (fun p => (fst p ++ " = " ++ n_tostr (snd p) ++ "
")%string) (Items t)).
Proof.
  unfold VarsTable_ToString, Items.
  assert (App : forall a b c : string, ((a ++ b) ++ c)%string = (a ++ (b ++ c))%string).
  { induction a as [|ch a IH]; intros b c; simpl; [reflexivity|]. now rewrite IH. }
  assert (Nil_r : forall a : string, (a ++ "")%string = a) by (induction a as [|ch a IH]; simpl; congruence).
  assert (G : forall l (s : string), fold_left (fun ret (item : string * K) => (ret ++ (fst item ++ " = " ++ n_tostr (snd item) ++ "
"))%string) l s = (s ++ String.concat "" (map (fun p => (fst p ++ " = " ++ n_tostr (snd p) ++ "
")%string) l))%string).
  { induction l as [|p l IH]; intros s; [now rewrite Nil_r|].
    cbn [fold_left map]. rewrite IH. rewrite App. f_equal.
    destruct l as [|p2 l]; [simpl; apply Nil_r|reflexivity]. }
  rewrite G. reflexivity.
Qed.

(** ** C37: lookup and equality *)
Theorem C37_lookup (K : num_ops) (t : vars_table K) xs vs x : holds t xs vs ->
  match VarsTable_get t x with
  | Ok v => Has t x = true /\ pair_in x v xs vs
  | Throw (OutOfRange _) => Has t x = false /\ ~ In x xs
  | _ => False
  end.
Proof.
  intros H. destruct (VarsTable_get t x) eqn:E.
  - apply (h_get _ _ _ H) in E. split; auto. apply (h_has _ _ _ H). destruct E as (i & E & _). now apply nth_error_In in E.
  - assert (N : ~ In x xs).
    { intros Hin. apply In_nth_error in Hin as [i Hi]. destruct (nth_error vs i) as [v|] eqn:Ev.
      - assert (P : pair_in x v xs vs) by (exists i; auto). apply (h_get _ _ _ H) in P. congruence.
      - apply nth_error_None in Ev. rewrite <- (h_len _ _ _ H) in Ev. apply nth_error_None in Ev. congruence. }
    destruct (h_absent _ _ _ H x N) as [msg E']. rewrite E' in E. injection E as <-. split; auto.
    destruct (Has t x) eqn:Hx; auto. apply (h_has _ _ _ H) in Hx. tauto.
  - unfold VarsTable_get in E. destruct (map_find x (vt_table t)); discriminate.
  - unfold VarsTable_get in E. destruct (map_find x (vt_table t)); discriminate.
  - unfold VarsTable_get in E. destruct (map_find x (vt_table t)); discriminate.
  - unfold VarsTable_get in E. destruct (map_find x (vt_table t)); discriminate.
Qed.

Lemma table_equal_spec {K : num_ops} (cfg : config K) : forall (a b : smap K), length a = length b ->
  exists r, table_equal cfg a b = Ok r /\
    (r = true <-> Forall2 (fun p q => fst p = fst q /\ n_leb (n_abs (n_sub (snd p) (snd q))) (epsilon cfg) = true) a b).
Proof.
  induction a as [|[x v] a IH]; intros [|[y w] b] L; try discriminate; simpl.
  - exists true. split; auto. split; auto.
  - destruct (IH b ltac:(now injection L)) as (r & E & R). destruct (String.eqb_spec x y) as [->|N]; simpl.
    + destruct (n_leb _ _) eqn:C.
      * exists r. split; auto. rewrite R. split; [intros; constructor; auto|now inversion 1].
      * exists false. split; auto. split; [discriminate|]. inversion 1; subst. simpl in *. destruct H3; congruence.
    + exists false. split; auto. split; [discriminate|]. inversion 1; subst. simpl in *. tauto.
Qed.

Theorem C37_equal (K : num_ops) (cfg : config K) (a b : vars_table K) xs vs ys ws :
  holds a xs vs -> holds b ys ws ->
  exists r, VarsTable_eq cfg a b = Ok r /\
    (r = true <->
     (forall x, In x xs <-> In x ys) /\
     forall x v w, VarsTable_get a x = Ok v -> VarsTable_get b x = Ok w ->
       n_leb (n_abs (n_sub v w)) (epsilon cfg) = true).
Proof.
  intros Ha Hb. pose proof (h_values _ _ _ Ha) as (Va & _). pose proof (h_values _ _ _ Hb) as (Vb & _).
  unfold Values in *. unfold VarsTable_eq. rewrite Va, Vb, <- (h_len _ _ _ Ha), <- (h_len _ _ _ Hb).
  pose proof (h_nums _ _ _ Ha) as Na. pose proof (h_nums _ _ _ Hb) as Nb. unfold VarNums in *.
  destruct (Nat.eqb_spec (length xs) (length ys)) as [L|L].
  2:{ exists false. split; auto. split; [discriminate|]. intros [H _]. exfalso. apply L. apply Nat.le_antisymm.
      - apply NoDup_incl_length; [apply (h_nodup _ _ _ Ha)|]. intros x. apply H.
      - apply NoDup_incl_length; [apply (h_nodup _ _ _ Hb)|]. intros x. apply H. }
  destruct (table_equal_spec cfg (vt_table a) (vt_table b) ltac:(lia)) as (r & E & R). exists r. split; auto. rewrite R. clear r E R.
  apply holds_inv in Ha, Hb. pose proof (inv_keys _ _ _ Ha) as Ka. pose proof (inv_keys _ _ _ Hb) as Kb.
  destruct Ha as (_ & _ & _ & _ & _ & Sa & _), Hb as (_ & _ & _ & _ & _ & Sb & _).
  unfold VarsTable_get. split.
  - intros F. assert (EK : map fst (vt_table a) = map fst (vt_table b)).
    { clear -F. induction F as [|p q l l' [H _] F IH]; simpl; auto. congruence. }
    split; [intros x; now rewrite <- Ka, <- Kb, EK|].
    intros x v w. clear -F Sa. induction F as [|[y u] [z u'] l l' [H H'] F IH]; simpl in *; [discriminate|].
    subst z. apply StronglySorted_inv in Sa as [Sa _]. destruct (String.eqb_spec x y) as [->|N]; [congruence|].
    apply IH; auto.
  - intros [H1 H2]. assert (EK : map fst (vt_table a) = map fst (vt_table b)).
    { apply sorted_unique; auto. intros x. now rewrite Ka, Kb. }
    assert (H2' : forall x v w, map_find x (vt_table a) = Some v -> map_find x (vt_table b) = Some w -> n_leb (n_abs (n_sub v w)) (epsilon cfg) = true).
    { intros x v w E1 E2. apply (H2 x); [now rewrite E1|now rewrite E2]. }
    clear -EK H2' Sa. revert EK H2' Sa. generalize (vt_table a) (vt_table b). induction s as [|[x v] s IH]; intros [|[y w] s'] EK H2 Sa; try discriminate; auto.
    injection EK as -> EK. simpl in Sa. apply StronglySorted_inv in Sa as [Sa Fa]. constructor.
    + simpl. split; auto. apply (H2 y v w); simpl; now rewrite String.eqb_refl.
    + apply IH; auto. intros z v' w' E1 E2. apply (H2 z); simpl; auto.
      * destruct (String.eqb_spec z y) as [->|]; auto. exfalso. assert (I : In y (map fst s)).
        { destruct (in_dec string_dec y (map fst s)) as [|N]; auto. apply map_find_none in N. congruence. }
        rewrite Forall_forall in Fa. apply Fa in I. now apply str_lt_irrefl in I.
      * destruct (String.eqb_spec z y) as [->|]; auto. exfalso. assert (I : In y (map fst s')).
        { destruct (in_dec string_dec y (map fst s')) as [|N]; auto. apply map_find_none in N. congruence. }
        rewrite <- EK in I. rewrite Forall_forall in Fa. apply Fa in I. now apply str_lt_irrefl in I.
Qed.

(** ** Examples *)
Example C36_ex : exists t, VarsTable_init (K:=Rops) [("b", Some 2%R); ("a", Some 1%R); ("b", Some 7%R)] = Ok t /\
  holds t ["a"; "b"] [Some 1%R; Some 2%R].
Proof.
  destruct (C36_of_map Rops [("a", Some 1%R); ("b", Some 2%R)]) as (t & E & H); [discriminate| |].
  { repeat constructor. }
  exists t. split; auto.
Qed.
Example C36_history_ex : exists t, VarsTable_make (K:=Rops) ["y"; "x"] (Some 1%R) = Ok t /\
  exists t', foldM SetValues (map (fun ws => MkMat (length ws) 1 ws) [[Some 5%R; Some 6%R]; [Some 3%R; Some 4%R]]) t = Ok t' /\
    holds t' ["y"; "x"] [Some 3%R; Some 4%R] /\ VarsTable_get t' "x" = Ok (Some 4%R).
Proof.
  destruct (C36_make Rops ["y"; "x"] (Some 1%R)) as (t & E & H); [discriminate| |].
  { repeat constructor; simpl; intuition discriminate. }
  exists t. split; auto.
  destruct (C36_history Rops t _ _ [[Some 5%R; Some 6%R]; [Some 3%R; Some 4%R]] H) as (t' & E' & H'); [repeat constructor|].
  exists t'. split; auto. split; auto. apply (h_get _ _ _ H'). exists 1. auto.
Qed.
