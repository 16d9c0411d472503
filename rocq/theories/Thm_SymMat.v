(** C34, C35: symbolic matrices and their Jacobian. *)
From Coq Require Import String List ZArith Bool Arith Lia Sorting.Sorted Reals Lra.
From Verif Require Import Base MathOp NodeModel SubsModel DiffModel MatModel VarsTableModel SymMatModel NonlinearModel
  ExprSpec SubsSpec MatSpec VarsSpec SymMatSpec NodeProofs MatProofs Thm_Node Thm_Subs Thm_Vars SymMatProofs
  RealSpec DiffSpec DiffProofs Thm_Diff IEEE.
Import ListNotations.
Local Open Scope string_scope.
Local Open Scope list_scope.
Local Open Scope nat_scope.

Section A.
Context {K : num_ops}.
Implicit Types (A B : symmat K) (f g : nat -> nat -> expr K) (e : expr K).

Lemma BinaryOperator_embed b e1 e2 : BinaryOperator (binop_op b) (embed e1) (embed e2) = Ok (embed (EBin b e1 e2)).
Proof.
  unfold BinaryOperator. pose proof (embed_not_nil e1). pose proof (embed_not_nil e2).
  destruct (embed e1) eqn:E1; [congruence|]. destruct (embed e2) eqn:E2; [congruence|]. cbn [embed]. now rewrite E1, E2.
Qed.

(** ** Construction and conversion *)
Theorem C34_make r c : (0 < r -> 0 < c -> exists A, SymMat_make (K:=K) r c = Ok A /\ s_rows A = r /\ s_cols A = c /\ s_data A = repeat Nil (r * c)) /\
  (r = 0 \/ c = 0 -> exists why, SymMat_make (K:=K) r c = AssertFail why).
Proof.
  split.
  - intros Hr Hc. exists (MkSym r c (repeat Nil (r * c))). split; [now apply SymMat_make_ok|auto].
  - intros H. unfold SymMat_make. destruct (Nat.ltb_spec 0 r); [destruct (Nat.ltb_spec 0 c)|]; [exfalso; lia| |]; cbn [andb]; eauto.
Qed.
Theorem C34_of_mat r c (v : nat -> nat -> K) (A : mat K) : 0 < r -> 0 < c -> is_mat r c v A ->
  exists S, SymMat_of_Mat A = Ok S /\ is_sym r c (fun i j => ENum (v i j)) S /\ ToMat S = Ok A.
Proof.
  intros Hr Hc H. pose proof (is_mat_nth _ _ _ _ H) as Nt. pose proof H as (E1 & E2 & _).
  unfold SymMat_of_Mat. rewrite E1, E2, SymMat_make_ok by auto. cbn [bind s_data]. rewrite repeat_length.
  rewrite mapM_seq with (h := fun k => embed (ENum (v (k / c) (k mod c)))).
  - cbn [bind]. eexists. split; [reflexivity|]. split; [apply (is_sym_intro r c (fun i j => ENum (v i j)))|].
    destruct (ToMat_numbers r c v) as (M & EM & HM). rewrite EM. f_equal. exact (is_mat_unique _ _ _ _ _ HM H).
  - intros k Hk. destruct (divmod_lt r c k) as [H1 H2]; [lia|]. unfold va_get.
    replace k with (k / c * c + k mod c) at 1 by (rewrite (Nat.mul_comm (k / c)); symmetry; apply Nat.div_mod; lia).
    rewrite Nt by auto. reflexivity.
Qed.

(** [ToMat] succeeds exactly on matrices of numbers. *)
Theorem C34_to_mat r c f A (v : nat -> nat -> K) : is_sym r c f A ->
  (exists M, ToMat A = Ok M /\ is_mat r c v M) <-> (forall i j, i < r -> j < c -> f i j = ENum (v i j)).
Proof.
  intros H. split.
  - intros (M & E & HM) i j Hi Hj. pose proof (is_sym_eq _ _ _ _ H) as EA. rewrite EA in E. unfold ToMat in E. cbn [s_data s_rows s_cols] in E.
    apply bind_Ok_inv in E as (d & Ed & [= <-]). apply mapM_Ok in Ed.
    pose proof (is_mat_nth _ _ _ _ HM i j Hi Hj) as Nt. cbn [m_data] in Nt.
    assert (G : forall l (d : list K) k n, Forall2 (fun a b => number_of a = Ok b) l d -> nth_error d k = Some n ->
      exists a, nth_error l k = Some a /\ number_of a = Ok n).
    { induction l as [|a l IH]; intros d' k n F Hn; inversion F; subst; [now destruct k|]. destruct k as [|k]; [injection Hn as <-; exists a; auto|].
      eapply IH; eauto. }
    destruct (G _ _ _ _ Ed Nt) as (a & Ha & Na).
    destruct (divmod_pos c i j Hj) as [F1 F2].
    erewrite map_nth_error with (d := i * c + j) in Ha.
    2:{ rewrite nth_error_nth' with (d := 0) by (rewrite seq_length; now apply pos_lt). rewrite seq_nth; auto. now apply pos_lt. }
    rewrite F1, F2 in Ha. injection Ha as <-. destruct (f i j) as [w|x|u e|b e e']; cbn in Na; congruence.
  - intros E. destruct (ToMat_numbers r c v) as (M & EM & HM). exists M. split; [|auto].
    rewrite <- EM. f_equal. assert (H' : is_sym r c (fun i j => ENum (v i j)) A) by (eapply is_sym_ext; [|exact H]; auto).
    rewrite (is_sym_eq _ _ _ _ H'). reflexivity.
Qed.

Theorem C34_to_mat_error r c f A i j : is_sym r c f A -> i < r -> j < c -> (forall v, f i j <> ENum v) ->
  exists msg, ToMat A = Throw (RuntimeError msg).
Proof.
  intros H Hi Hj Hn. pose proof (is_sym_eq _ _ _ _ H) as EA. rewrite EA. unfold ToMat. cbn [s_data s_rows s_cols].
  assert (G : forall l : list nat, (exists k, In k l /\ f (k / c) (k mod c) = f i j) ->
    exists msg, mapM number_of (map (fun k => embed (f (k / c) (k mod c))) l) = Throw (RuntimeError msg)).
  { induction l as [|k l IH]; intros (k0 & Hin & E); [destruct Hin|]. cbn [map mapM].
    destruct (f (k / c) (k mod c)) as [w|x|u e|b e e'] eqn:Ek; cbn [embed number_of bind]; eauto.
    destruct Hin as [->|Hin]; [exfalso; apply (Hn w); congruence|].
    destruct IH as [msg ->]; [eauto|]. eexists. reflexivity. }
  destruct (G (seq 0 (r * c))) as [msg ->]; [|eexists; reflexivity].
  exists (i * c + j). split; [apply in_seq; pose proof (pos_lt r c i j Hi Hj); lia|]. now destruct (divmod_pos c i j Hj) as [-> ->].
Qed.

Theorem C34_clone r c f A : 0 < r -> 0 < c -> is_sym r c f A -> SymMat_Clone A = Ok A.
Proof. apply SymMat_Clone_ok. Qed.

Theorem C34_to_symvec r c f A : 0 < r -> 0 < c -> is_sym r c f A ->
  exists V, ToSymVecOneByOne A = Ok V /\ is_sym (r * c) 1 (fun k _ => f (k / c) (k mod c)) V.
Proof.
  intros Hr Hc H. pose proof (is_sym_nth _ _ _ _ H) as Nt. destruct H as (E1 & E2 & _).
  unfold ToSymVecOneByOne. rewrite E1, E2, SymMat_make_ok by nia. cbn [bind s_data s_rows s_cols]. rewrite repeat_length, Nat.mul_1_r.
  rewrite mapM_seq with (h := fun k => embed (f (k / c) (k mod c))).
  - cbn [bind]. eexists. split; [reflexivity|].
    pose proof (is_sym_intro (r * c) 1 (fun k _ => f (k / c) (k mod c))) as G. rewrite Nat.mul_1_r in G.
    erewrite map_ext in G; [exact G|]. intros k. cbv beta. now rewrite Nat.div_1_r.
  - intros k Hk. unfold va_get. rewrite Nt by lia. cbn [bind]. apply clone_embed.
Qed.

(** ** Arithmetic *)
Theorem C34_sub r c f g A B : 0 < r -> 0 < c -> is_sym r c f A -> is_sym r c g B ->
  exists C, SymMat_sub A B = Ok C /\ is_sym r c (fun i j => EBin BSub (f i j) (g i j)) C.
Proof.
  intros Hr Hc HA HB. pose proof (is_sym_nth _ _ _ _ HA) as Na. pose proof (is_sym_nth _ _ _ _ HB) as Nb.
  destruct HA as (E1 & E2 & _), HB as (E3 & E4 & _). unfold SymMat_sub. rewrite E1, E2, E3, E4, !Nat.eqb_refl. cbn [andb].
  rewrite SymMat_make_ok by auto. cbn [bind s_data]. rewrite repeat_length.
  rewrite mapM_seq with (h := fun k => embed (EBin BSub (f (k / c) (k mod c)) (g (k / c) (k mod c)))).
  - cbn [bind]. eexists. split; [reflexivity|]. apply (is_sym_intro r c (fun i j => EBin BSub (f i j) (g i j))).
  - intros k Hk. unfold va_get. rewrite Na, Nb by lia. cbn [bind]. exact (BinaryOperator_embed BSub _ _).
Qed.
Theorem C34_sub_mismatch A B : s_rows A <> s_rows B \/ s_cols A <> s_cols B ->
  exists why, SymMat_sub A B = AssertFail why.
Proof.
  intros H. unfold SymMat_sub. destruct (Nat.eqb_spec (s_rows B) (s_rows A)), (Nat.eqb_spec (s_cols B) (s_cols A)); cbn [andb]; eauto.
  exfalso. destruct H; congruence.
Qed.

(** ** Construction *)
(** From nested lists: as many columns as the longest row has; where a row is shorter, empty Nodes. *)
Theorem C34_init (rows : list (list (expr K))) : rows <> [] ->
  exists A, SymMat_init (map (map embed) rows) = Ok A /\ s_rows A = length rows /\ s_cols A = list_max (map (@length _) rows) /\
    length (s_data A) = s_rows A * s_cols A /\
    forall i j, i < s_rows A -> j < s_cols A ->
      SymValue A i j = Ok (match nth_error (nth i rows []) j with Some e => embed e | None => Nil end).
Proof.
  intros Hne. unfold SymMat_init. set (c := list_max (map (@length _) rows)).
  assert (Ec : fold_left (fun m (l : list (node K)) => Nat.max m (length l)) (map (map embed) rows) 0 = c).
  { assert (G : forall (l : list (list (expr K))) m, fold_left (fun m (l : list (node K)) => Nat.max m (length l)) (map (map embed) l) m = Nat.max m (list_max (map (@length _) l))).
    { induction l as [|x l IH]; intros m; cbn [map fold_left list_max fold_right]; [lia|]. rewrite IH, map_length. unfold list_max. cbn [fold_right]. lia. }
    rewrite G. reflexivity. }
  assert (Er : exists r0 rows0, rows = r0 :: rows0) by (destruct rows; [congruence|eauto]).
  replace (match map (map embed) rows with [] => _ | _ => _ end) with
    (let* r := foldM (fun '(i, d) val =>
        let* (_, d) := foldM (fun '(j, d) n => let* d := va_set d (i * c + j) n in Ok (S j, d)) val (0, d) in
        Ok (S i, d)) (map (map embed) rows) (0, repeat Nil (length rows * c)) in
    Ok (MkSym (length rows) c (snd r))) by (destruct Er as (r0 & rows0 & Er); rewrite <- Ec, <- (map_length (map embed) rows), Er; reflexivity).
  assert (Len : forall i, length (nth i rows []) <= c).
  { intros i. destruct (nth_in_or_default i rows []) as [Hin| ->]; [|simpl; lia].
    assert (F : list_max (map (@length _) rows) <= c) by (unfold c; lia). rewrite list_max_le, Forall_map, Forall_forall in F. auto. }
  set (cell := fun i j => match nth_error (nth i rows []) j with Some e => embed e | None => Nil end).
  assert (Inner : forall i row j d, i < length rows -> (forall k, k < length row -> nth_error (nth i rows []) (j + k) = nth_error row k) ->
     j + length row = length (nth i rows []) -> length d = length rows * c ->
     exists j' d', foldM (fun '(j, d) n => let* d := va_set d (i * c + j) n in Ok (S j, d)) (map embed row) (j, d) = Ok (j', d') /\ length d' = length rows * c /\
       forall i' k, i' < length rows -> k < c -> nth_error d' (i' * c + k) = if (i' =? i) && (j <=? k) && (k <? length (nth i rows [])) then Some (cell i' k) else nth_error d (i' * c + k)).
  { intros i row. induction row as [|e row IH]; intros j d Hi Hnth Hj Hd; cbn [map foldM].
    - exists j, d. split; [reflexivity|]. split; [exact Hd|]. intros i' k _ _. cbn [length] in Hj.
      destruct (i' =? i); cbn [andb]; [|reflexivity]. destruct (Nat.leb_spec j k), (Nat.ltb_spec k (length (nth i rows []))); cbn [andb]; try reflexivity; lia.
    - cbn [length] in Hj, Hnth. pose proof (Len i) as Li. destruct (va_set_ok d (i * c + j) (embed e)) as (d1 & E1 & L1 & N1); [rewrite Hd; apply pos_lt; lia|].
      rewrite E1. cbn [bind]. destruct (IH (S j) d1) as (j' & d' & E & L & Nt); [exact Hi| |lia|lia|].
      { intros k Hk. specialize (Hnth (S k) ltac:(lia)). now rewrite Nat.add_succ_r in Hnth. }
      exists j', d'. split; [exact E|]. split; [exact L|]. intros i' k Hi' Hk. rewrite Nt, N1 by auto.
      destruct (Nat.eqb_spec i' i) as [->|Hii]; cbn [andb].
      + destruct (Nat.leb_spec (S j) k), (Nat.leb_spec j k); cbn [andb]; try lia; [destruct (Nat.eqb_spec (i * c + k) (i * c + j)); [lia|reflexivity]| |].
        * assert (k = j) by lia. subst k. rewrite Nat.eqb_refl. destruct (Nat.ltb_spec j (length (nth i rows []))); [|lia].
          unfold cell. specialize (Hnth 0 ltac:(lia)). rewrite Nat.add_0_r in Hnth. rewrite Hnth. reflexivity.
        * destruct (Nat.eqb_spec (i * c + k) (i * c + j)); [lia|reflexivity].
      + destruct (Nat.eqb_spec (i' * c + k) (i * c + j)) as [Eq|]; [|reflexivity]. exfalso.
        assert (Hj' : j < c) by lia. destruct (divmod_pos c i' k Hk) as [D1 _]. destruct (divmod_pos c i j Hj') as [D2 _]. rewrite Eq in D1. congruence. }
  assert (Outer : forall rest done d, rows = done ++ rest -> length d = length rows * c ->
     (forall i k, i < length rows -> k < c -> nth_error d (i * c + k) = Some (if i <? length done then cell i k else Nil)) ->
     exists r, foldM (fun '(i, d) val =>
        let* (_, d) := foldM (fun '(j, d) n => let* d := va_set d (i * c + j) n in Ok (S j, d)) val (0, d) in
        Ok (S i, d)) (map (map embed) rest) (length done, d) = Ok r /\ length (snd r) = length rows * c /\
       forall i k, i < length rows -> k < c -> nth_error (snd r) (i * c + k) = Some (cell i k)).
  { induction rest as [|row rest IH]; intros done d E Hd Hn; cbn [map foldM].
    - eexists. split; [reflexivity|]. split; [exact Hd|]. intros i k Hi Hk. cbn [snd]. rewrite Hn by auto. rewrite app_nil_r in E. subst done.
      destruct (Nat.ltb_spec i (length rows)); [reflexivity|lia].
    - assert (Hlt : length done < length rows) by (rewrite E, app_length; simpl; lia).
      assert (Erow : nth (length done) rows [] = row) by (rewrite E, app_nth2, Nat.sub_diag by lia; reflexivity).
      destruct (Inner (length done) row 0 d Hlt) as (j' & d' & Ei & L & Nt); [intros; now rewrite Erow|now rewrite Erow|exact Hd|].
      rewrite Ei. cbn [bind].
      destruct (IH (done ++ [row]) d') as (r & Er' & Lr & Nr).
      + rewrite E, <- app_assoc. reflexivity.
      + exact L.
      + intros i k Hi Hk. rewrite Nt, Hn by auto. rewrite app_length. cbn [length Nat.leb]. rewrite andb_true_r.
        destruct (Nat.eqb_spec i (length done)) as [->|Hnd].
        * destruct (Nat.ltb_spec (length done) (length done + 1)); [|lia]. destruct (Nat.ltb_spec (length done) (length done)); [lia|]. cbn [andb].
          destruct (Nat.ltb_spec k (length (nth (length done) rows []))); [reflexivity|]. unfold cell.
          rewrite (proj2 (nth_error_None _ _)); [reflexivity|lia].
        * cbn [andb]. destruct (Nat.ltb_spec i (length done)), (Nat.ltb_spec i (length done + 1)); try reflexivity; lia.
      + rewrite app_length in Er'. cbn [length] in Er'. rewrite Nat.add_1_r in Er'. exists r. auto. }
  destruct (Outer rows [] (repeat Nil (length rows * c))) as (r & E & L & Nt); [reflexivity|now rewrite repeat_length| |].
  { intros i k Hi Hk. cbn [length]. destruct (Nat.ltb_spec i 0); [lia|]. rewrite nth_error_repeat; [reflexivity|]. now apply pos_lt. }
  cbn [length] in E. rewrite E. cbn [bind]. eexists. split; [reflexivity|]. cbn [s_rows s_cols s_data]. repeat (split; [auto|]).
  intros i j Hi Hj. unfold SymValue. cbn [s_cols s_data]. apply va_get_nth. now rewrite Nt.
Qed.
Theorem C34_init_rect (rows : list (list (expr K))) c f : rows <> [] -> (forall row, In row rows -> length row = c) ->
  (forall i j, i < length rows -> j < c -> nth_error (nth i rows []) j = Some (f i j)) ->
  exists A, SymMat_init (map (map embed) rows) = Ok A /\ is_sym (length rows) c f A.
Proof.
  intros Hne Hl Hf. destruct (C34_init rows Hne) as (A & E & E1 & E2 & L & V). exists A. split; [exact E|].
  assert (Ec : list_max (map (@length _) rows) = c).
  { clear - Hne Hl. induction rows as [|x rows IH]; [congruence|]. unfold list_max in *. cbn [map fold_right]. rewrite (Hl x (or_introl eq_refl)).
    destruct rows as [|y rows]; [simpl; lia|]. rewrite IH; [lia|discriminate|]. intros; apply Hl; now right. }
  rewrite Ec in E2. rewrite E1, E2 in *. repeat split; auto. intros i j Hi Hj. now rewrite V, Hf.
Qed.
(** SymVec from a list. *)
Theorem C34_vec_of (l : list (expr K)) (f : nat -> expr K) : l <> [] -> (forall i, i < length l -> nth_error l i = Some (f i)) ->
  exists V, SymVec_of (map embed l) = Ok V /\ is_sym (length l) 1 (fun i _ => f i) V.
Proof.
  intros Hne Hf. unfold SymVec_of. rewrite map_length, SymMat_make_ok; [|destruct l; simpl; [congruence|lia]|lia]. cbn [bind s_rows s_cols].
  eexists. split; [reflexivity|]. repeat split; cbn [s_data]; [now rewrite map_length, Nat.mul_1_r|].
  intros i j Hi Hj. assert (j = 0) by lia. subst j. unfold SymValue. cbn [s_cols s_data]. apply va_get_nth. rewrite Nat.mul_1_r, Nat.add_0_r.
  apply map_nth_error. auto.
Qed.
(** Conversion to a vector: only for one column. *)
Theorem C34_to_vec r f A : 0 < r -> is_sym r 1 f A -> exists V, ToSymVec A = Ok V /\ is_sym r 1 f V.
Proof.
  intros Hr H. pose proof H as (E1 & E2 & _). unfold ToSymVec. rewrite E1, E2. destruct (Nat.eqb_spec r 0); [lia|]. cbn [Nat.eqb].
  destruct (C34_to_symvec r 1 f A Hr Nat.lt_0_1 H) as (V & E & HV). exists V. split; [exact E|]. rewrite Nat.mul_1_r in HV.
  eapply is_sym_ext; [|exact HV]. intros i j Hi Hj. cbv beta. rewrite Nat.div_1_r, Nat.mod_1_r. f_equal. lia.
Qed.
Theorem C34_to_vec_error r c f A : 0 < r -> is_sym r c f A -> c <> 1 -> exists msg, ToSymVec A = Throw (RuntimeError msg).
Proof.
  intros Hr (E1 & E2 & _) Hc. unfold ToSymVec. rewrite E1, E2. destruct (Nat.eqb_spec r 0); [lia|]. apply Nat.eqb_neq in Hc. rewrite Hc. eexists. reflexivity.
Qed.
Theorem C34_vec_sub r f g A B : 0 < r -> is_sym r 1 f A -> is_sym r 1 g B ->
  exists C, SymVec_sub A B = Ok C /\ is_sym r 1 (fun i j => EBin BSub (f i j) (g i j)) C.
Proof.
  intros Hr HA HB. unfold SymVec_sub. destruct (C34_sub r 1 f g A B Hr Nat.lt_0_1 HA HB) as (C & E & HC). rewrite E. cbn [bind].
  exact (C34_to_vec r _ C Hr HC).
Qed.

Lemma set_SymValue_ok r c (d : nat -> nat -> node K) A i j n : s_rows A = r -> s_cols A = c -> length (s_data A) = r * c ->
  (forall i j, i < r -> j < c -> SymValue A i j = Ok (d i j)) -> i < r -> j < c ->
  exists B, set_SymValue A i j n = Ok B /\ s_rows B = r /\ s_cols B = c /\ length (s_data B) = r * c /\
    forall i' j', i' < r -> j' < c -> SymValue B i' j' = Ok (if (i' =? i) && (j' =? j) then n else d i' j').
Proof.
  intros E1 E2 L V Hi Hj. unfold set_SymValue. rewrite E2.
  destruct (va_set_ok (s_data A) (i * c + j) n) as (w & E & Lw & Nw); [rewrite L; now apply pos_lt|]. rewrite E. cbn [bind].
  eexists. split; [reflexivity|]. cbn [s_rows s_cols s_data]. split; [auto|]. split; [auto|]. split; [lia|].
  intros i' j' Hi' Hj'. unfold SymValue. cbn [s_cols s_data]. apply va_get_nth. rewrite Nw.
  specialize (V i' j' Hi' Hj'). unfold SymValue in V. rewrite E2 in V. apply va_get_nth in V.
  destruct (Nat.eqb_spec (i' * c + j') (i * c + j)) as [E'|N].
  - apply pos_inj in E' as [-> ->]; auto. now rewrite !Nat.eqb_refl.
  - rewrite V. f_equal. destruct (Nat.eqb_spec i' i), (Nat.eqb_spec j' j); subst; cbn [andb]; auto; congruence.
Qed.

Theorem C34_mul r n c f g A B : 0 < r -> 0 < n -> 0 < c -> is_sym r n f A -> is_sym n c g B ->
  exists C, SymMat_mul A B = Ok C /\
    is_sym r c (fun i j => esum (n - 1) (fun k => EBin BMul (f i k) (g k j))) C.
Proof.
  intros Hr Hn Hc (A1 & A2 & _ & VA) (B1 & B2 & _ & VB).
  set (h := fun i j => esum (n - 1) (fun k => EBin BMul (f i k) (g k j))).
  unfold SymMat_mul. rewrite A1, A2, B1, B2, Nat.eqb_refl. cbn [negb]. rewrite SymMat_make_ok by auto. cbn [bind].
  set (Inv := fun (P : nat -> nat -> bool) (C : symmat K) => s_rows C = r /\ s_cols C = c /\ length (s_data C) = r * c /\
    forall i j, i < r -> j < c -> SymValue C i j = Ok (if P i j then embed (h i j) else Nil)).
  match goal with |- context [foldM ?F _ _] => set (F1 := F) end.
  destruct (foldM_seq (fun i C => Inv (fun i' _ => i' <? i) C) F1 r 0 (MkSym r c (repeat Nil (r * c)))) as (C & EC & (C1 & C2 & C3 & C4)).
  - repeat split; [apply repeat_length|]. intros i j Hi Hj. unfold SymValue. cbn [s_cols s_data]. apply va_get_nth.
    apply nth_error_repeat'. now apply pos_lt.
  - intros i C Hi HC. subst F1. cbv beta.
    match goal with |- context [foldM ?F _ _] => set (F2 := F) end.
    destruct (foldM_seq (fun j C => Inv (fun i' j' => (i' <? i) || ((i' =? i) && (j' <? j))) C) F2 c 0 C) as (C' & EC' & (C1 & C2 & C3 & C4)).
    + destruct HC as (C1 & C2 & C3 & C4). repeat split; auto. intros i' j' Hi' Hj'. rewrite C4 by auto. cbv beta.
      now rewrite andb_false_r, orb_false_r.
    + intros j C' Hj (C1 & C2 & C3 & C4). subst F2. cbv beta. rewrite VA, VB by lia. cbn [bind].
      rewrite (BinaryOperator_embed BMul). cbn [bind].
      destruct (foldM_seq (fun k s => s = embed (esum (k - 1) (fun k => EBin BMul (f i k) (g k j))))
        (fun sum k => let* a := SymValue A i k in let* b := SymValue B k j in
          let* p := BinaryOperator MATH_MULTIPLY a b in BinaryOperator MATH_ADD sum p) (n - 1) 1
        (embed (EBin BMul (f i 0) (g 0 j)))) as (s & Es & Hs).
      * reflexivity.
      * intros k s Hk ->. rewrite VA, VB by lia. cbn [bind].
        rewrite (BinaryOperator_embed BMul). cbn [bind]. rewrite (BinaryOperator_embed BAdd).
        eexists. split; [reflexivity|]. destruct k as [|k]; [lia|].
        replace (S (S k) - 1) with (S k) by lia. replace (S k - 1) with k by lia. reflexivity.
      * change (binop_op BMul) with MATH_MULTIPLY. rewrite Es. cbn [bind]. subst s.
        destruct (set_SymValue_ok r c _ C' i j (embed (h i j)) C1 C2 C3 C4) as (C'' & E' & D1 & D2 & D3 & D4); [lia|lia|].
        eexists. split. { unfold h in E'. replace (1 + (n - 1) - 1) with (n - 1) by lia. exact E'. }
        repeat split; auto. intros i' j' Hi' Hj'. rewrite D4 by auto. cbv beta.
        destruct (Nat.eqb_spec i' i), (Nat.eqb_spec j' j), (Nat.ltb_spec i' i), (Nat.ltb_spec j' j), (Nat.ltb_spec j' (S j)); subst; cbn; try reflexivity; lia.
    + exists C'. split; [exact EC'|]. repeat split; auto. intros i' j' Hi' Hj'. rewrite C4 by auto. cbv beta.
      destruct (Nat.ltb_spec j' (0 + c)); [|lia].
      destruct (Nat.eqb_spec i' i), (Nat.ltb_spec i' i), (Nat.ltb_spec i' (S i)); subst; cbn; try reflexivity; lia.
  - exists C. split; [exact EC|]. repeat split; auto. intros i j Hi Hj. rewrite C4 by auto. cbv beta.
    destruct (Nat.ltb_spec i (0 + r)); [reflexivity|lia].
Qed.
Theorem C34_mul_mismatch A B : s_cols A <> s_rows B -> exists info, SymMat_mul A B = Throw (MathError SIZE_NOT_MATCH info).
Proof. intros H. unfold SymMat_mul. apply Nat.eqb_neq in H. rewrite H. eexists. reflexivity. Qed.

(** ** Subs, Calc, GetAllVarNames, == *)
Theorem C34_subs r c f A (vals : smap K) s : is_sym r c f A ->
  dict_subst (map (fun p => (fst p, ENum (snd p))) vals) s ->
  exists B, SymMat_Subs A vals = Ok B /\ is_sym r c (fun i j => subst s (f i j)) B.
Proof. apply SymMat_Subs_ok. Qed.

(** With a table: its variables get its values, the others stay. *)
Theorem C34_subs_table r c f A t xs vs s : is_sym r c f A -> holds t xs vs ->
  (forall x v, pair_in x v xs vs -> s x = Some (ENum v)) -> (forall x, ~ In x xs -> s x = None) ->
  exists B, SymMat_SubsTable A t = Ok B /\ is_sym r c (fun i j => subst s (f i j)) B.
Proof.
  intros H Ht H1 H2. destruct (binds_exists _ _ _ Ht) as [env Hb].
  assert (E : forall x, s x = table_subst t x).
  { intros x. destruct (in_dec string_dec x xs) as [Hx|Hx].
    - rewrite (table_subst_bound _ _ _ env x Ht Hb Hx). apply H1. apply In_nth_error in Hx as [i Hi].
      destruct (nth_error vs i) as [v|] eqn:Ev.
      + assert (P : pair_in x v xs vs) by (exists i; auto). now rewrite (Hb x v P).
      + apply nth_error_None in Ev. rewrite <- (h_len _ _ _ Ht) in Ev. apply nth_error_None in Ev. congruence.
    - rewrite (H2 x Hx). symmetry. eapply table_subst_free; eauto. }
  apply SymMat_Subs_ok; auto. destruct (table_dict _ _ _ Ht) as [N D]. split; auto. intros x e. rewrite E. apply D.
Qed.

Theorem C34_calc cfg r c f A (v : nat -> nat -> K) : is_sym r c f A ->
  (forall i j, i < r -> j < c -> eval (throwOnInvalidValue cfg) (f i j) = ExprSpec.Value (v i j)) ->
  exists B, SymMat_Calc cfg A = (Ok tt, B) /\ is_sym r c (fun i j => ENum (v i j)) B /\
    exists M, ToMat B = Ok M /\ is_mat r c v M.
Proof.
  intros H HV. rewrite (is_sym_eq _ _ _ _ H). unfold SymMat_Calc. cbn [s_data s_rows s_cols].
  rewrite Calc_list_ok with (v := fun k => v (k / c) (k mod c)).
  - eexists. split; [reflexivity|]. split; [apply (is_sym_intro r c (fun i j => ENum (v i j)))|]. apply ToMat_numbers.
  - intros k Hk. apply in_seq in Hk. destruct (divmod_lt r c k) as [H1 H2]; [lia|]. auto.
Qed.

(** If an entry has no value, the first such entry (row by row) decides the exception; the
    entries before it have been computed, it and the later ones are unchanged. *)
Theorem C34_calc_error cfg r c f A i j (v : nat -> nat -> K) : is_sym r c f A -> i < r -> j < c ->
  (forall w, eval (throwOnInvalidValue cfg) (f i j) <> ExprSpec.Value w) ->
  (forall i' j', i' < r -> j' < c -> i' < i \/ i' = i /\ j' < j -> eval (throwOnInvalidValue cfg) (f i' j') = ExprSpec.Value (v i' j')) ->
  exists R B, SymMat_Calc cfg A = (res_map (fun _ => tt) R, B) /\
    reports R (eval (throwOnInvalidValue cfg) (f i j)) /\
    is_sym r c (fun i' j' => if (i' <? i) || ((i' =? i) && (j' <? j)) then ENum (v i' j') else f i' j') B.
Proof.
  intros H Hi Hj Hn Hv. rewrite (is_sym_eq _ _ _ _ H). unfold SymMat_Calc. cbn [s_data s_rows s_cols].
  set (p := i * c + j). assert (Hp : p < r * c) by now apply pos_lt.
  destruct (divmod_pos c i j Hj) as [P1 P2].
  assert (Low : forall k, k < p -> (k / c < i \/ k / c = i /\ k mod c < j)).
  { intros k Hk. pose proof (Nat.div_mod k c ltac:(lia)) as D. assert (k mod c < c) by (apply Nat.mod_upper_bound; lia).
    unfold p in Hk. destruct (Nat.lt_trichotomy (k / c) i) as [|[E|G]]; auto; [right; split; [auto|]; rewrite E in D; nia|exfalso; nia]. }
  assert (High : forall k, p <= k -> k < r * c -> ~ (k / c < i \/ k / c = i /\ k mod c < j)).
  { intros k Hk1 Hk2 Q. pose proof (Nat.div_mod k c ltac:(lia)) as D. assert (k mod c < c) by (apply Nat.mod_upper_bound; lia).
    unfold p in Hk1. destruct Q as [G|[E G]]; [nia|rewrite E in D; nia]. }
  set (h := fun k => if k <? p then embed (ENum (v (k / c) (k mod c))) else embed (f (k / c) (k mod c))).
  assert (G : forall n s, s <= p -> p < s + n -> s + n <= r * c ->
    exists R, Calc_list cfg (map (fun k => embed (f (k / c) (k mod c))) (seq s n)) = (res_map (fun _ => tt) R, map h (seq s n)) /\
      reports R (eval (throwOnInvalidValue cfg) (f i j))).
  { induction n as [|n IH]; intros s H1 H2 H3; [lia|]. cbn [seq map Calc_list].
    destruct (Nat.eq_dec s p) as [->|Ns].
    - pose proof (NodeCalc_embed cfg (f i j)) as R. unfold p at 1 2 3. rewrite P1, P2.
      assert (Et : map (fun k => embed (f (k / c) (k mod c))) (seq (S p) n) = map h (seq (S p) n)).
      { apply map_ext_in. intros k Hk. apply in_seq in Hk. unfold h. destruct (Nat.ltb_spec k p); [lia|reflexivity]. }
      assert (Eh : h p = embed (f i j)). { unfold h. rewrite Nat.ltb_irrefl. unfold p. now rewrite P1, P2. }
      destruct (eval (throwOnInvalidValue cfg) (f i j)) as [w| | |] eqn:E; [exfalso; now apply (Hn w)|..]; destruct R as [m ->].
      + exists (Throw (RuntimeError m)). unfold p in Et, Eh |- *. rewrite Et, Eh. split; [reflexivity|]. now exists m.
      + exists (Throw (MathError ERROR_INVALID_NUMBER m)). unfold p in Et, Eh |- *. rewrite Et, Eh. split; [reflexivity|]. now exists m.
      + exists (Undef m). unfold p in Et, Eh |- *. rewrite Et, Eh. split; [reflexivity|]. now exists m.
    - pose proof (NodeCalc_embed cfg (f (s / c) (s mod c))) as R. destruct (divmod_lt r c s) as [L1 L2]; [lia|].
      rewrite (Hv (s / c) (s mod c) L1 L2 (Low s ltac:(lia))) in R. rewrite R.
      destruct (IH (S s)) as (R' & E' & Rp); [lia|lia|lia|]. rewrite E'. exists R'. split; [|exact Rp].
      f_equal. f_equal. unfold h. destruct (Nat.ltb_spec s p); [reflexivity|lia]. }
  destruct (G (r * c) 0) as (R & E & Rp); [lia|lia|lia|]. rewrite E. exists R. eexists. split; [reflexivity|]. split; [exact Rp|].
  set (F := fun i' j' => if (i' <? i) || ((i' =? i) && (j' <? j)) then ENum (v i' j') else f i' j').
  assert (Eh : map h (seq 0 (r * c)) = map (fun k => embed (F (k / c) (k mod c))) (seq 0 (r * c))).
  { apply map_ext_in. intros k Hk. apply in_seq in Hk. unfold h, F. destruct (Nat.ltb_spec k p) as [Q|Q].
    - destruct (Low k Q) as [W|[W1 W2]].
      + apply Nat.ltb_lt in W. now rewrite W.
      + rewrite W1, Nat.eqb_refl. apply Nat.ltb_lt in W2. rewrite W2. now rewrite orb_true_r.
    - pose proof (High k Q ltac:(lia)) as W. destruct (Nat.ltb_spec (k / c) i); [tauto|]. destruct (Nat.eqb_spec (k / c) i), (Nat.ltb_spec (k mod c) j); cbn; auto; tauto. }
  rewrite Eh. apply is_sym_intro.
Qed.

Theorem C34_all_var_names r c f A : is_sym r c f A ->
  exists s, SymMat_GetAllVarNames A = Ok s /\ StronglySorted (fun x y => String.compare x y = Lt) s /\
    forall x, In x s <-> exists i j, i < r /\ j < c /\ occurs x (f i j).
Proof.
  intros H. rewrite (is_sym_eq _ _ _ _ H). unfold SymMat_GetAllVarNames. cbn [s_data].
  assert (I : forall (names ret : list string), StronglySorted (fun x y => String.compare x y = Lt) ret ->
    let w := fold_left (fun s x => set_insert x s) names ret in
    StronglySorted (fun x y => String.compare x y = Lt) w /\ forall x, In x w <-> In x names \/ In x ret).
  { induction names as [|y names IH]; intros ret Hs; cbn [fold_left]; [simpl; split; [auto|tauto]|].
    destruct (IH (set_insert y ret)) as [S1 S2]; [now apply set_insert_sorted|]. split; auto. intros x. rewrite S2, set_insert_in. simpl. intuition. }
  assert (G : forall l ret, StronglySorted (fun x y => String.compare x y = Lt) ret ->
    exists s, foldM (fun ret n => let* names := GetAllVarNames n in Ok (fold_left (fun s x => set_insert x s) names ret))
      (map (fun k => embed (f (k / c) (k mod c))) l) ret = Ok s /\ StronglySorted (fun x y => String.compare x y = Lt) s /\
      forall x, In x s <-> In x ret \/ exists k, In k l /\ occurs x (f (k / c) (k mod c))).
  { induction l as [|k l IH]; intros ret Hs; cbn [map foldM].
    - exists ret. split; [reflexivity|]. split; auto. intros x. split; [tauto|]. intros [|(k & [] & _)]; auto.
    - destruct (C07_all_var_names K (f (k / c) (k mod c))) as (names & -> & _ & Hn). cbn [bind].
      destruct (I names ret Hs) as [S1 S2]. destruct (IH _ S1) as (s & E & S3 & S4). exists s. split; [exact E|]. split; auto.
      intros x. rewrite S4, S2, Hn. split.
      + intros [[Q|Q]|(k' & Hk & Q)]; auto; right; [exists k|exists k']; simpl; auto.
      + intros [Q|(k' & [<-|Hk] & Q)]; auto. right. eauto. }
  destruct (G (seq 0 (r * c)) [] ltac:(constructor)) as (s & E & S1 & S2). exists s. split; [exact E|]. split; auto.
  intros x. rewrite S2. split.
  - intros [[]|(k & Hk & Q)]. apply in_seq in Hk. destruct (divmod_lt r c k) as [L1 L2]; [lia|]. eauto 6.
  - intros (i & j & Hi & Hj & Q). right. exists (i * c + j). destruct (divmod_pos c i j Hj) as [-> ->]. split; auto.
    apply in_seq. pose proof (pos_lt r c i j Hi Hj). lia.
Qed.

Theorem C34_equal r c r' c' f g A B : n_eqb (n_ofZ 0) (n_ofZ 0 : K) = true -> is_sym r c f A -> is_sym r' c' g B ->
  exists b, SymMat_eq A B = Ok b /\
    (b = true <-> r = r' /\ c = c' /\ forall i j, i < r -> j < c -> same (f i j) (g i j)).
Proof.
  intros Hz HA HB. pose proof (is_sym_data _ _ _ _ HA) as DA. pose proof (is_sym_data _ _ _ _ HB) as DB.
  destruct HA as (A1 & A2 & _), HB as (B1 & B2 & _). unfold SymMat_eq. rewrite A1, A2, B1, B2.
  destruct (Nat.eqb_spec r' r) as [->|N1]; cbn [andb]; [|exists false; split; [auto|]; split; [discriminate|]; intros (E & _); congruence].
  destruct (Nat.eqb_spec c' c) as [->|N2]; cbn [andb]; [|exists false; split; [auto|]; split; [discriminate|]; intros (_ & E & _); congruence].
  rewrite DA, DB.
  assert (G : forall l : list nat, exists b, sym_equal (map (fun k => embed (f (k / c) (k mod c))) l) (map (fun k => embed (g (k / c) (k mod c))) l) = Ok b /\
    (b = true <-> forall k, In k l -> same (f (k / c) (k mod c)) (g (k / c) (k mod c)))).
  { induction l as [|k l IH]; cbn [map sym_equal].
    - exists true. split; [auto|]. split; auto. intros _ k [].
    - destruct (C05_equal_structural K (f (k / c) (k mod c)) (g (k / c) (k mod c)) Hz) as ([|] & E & S); rewrite E; cbn [bind].
      + destruct IH as (b & Eb & Sb). exists b. split; [exact Eb|]. rewrite Sb. split.
        * intros Q k' [<-|Hk]; auto. now apply S.
        * intros Q k' Hk. apply Q. now right.
      + exists false. split; auto. split; [discriminate|]. intros Q. apply S. apply Q. now left. }
  destruct (G (seq 0 (r * c))) as (b & E & S). exists b. split; [exact E|]. rewrite S. split.
  - intros Q. split; auto. split; auto. intros i j Hi Hj. specialize (Q (i * c + j)). destruct (divmod_pos c i j Hj) as [F1 F2].
    rewrite F1, F2 in Q. apply Q. apply in_seq. pose proof (pos_lt r c i j Hi Hj). lia.
  - intros (_ & _ & Q) k Hk. apply in_seq in Hk. destruct (divmod_lt r c k) as [L1 L2]; [lia|]. auto.
Qed.

(** Evaluation at the point given by a table, in one go: [A.Clone().Subs(t).Calc().ToMat()]. *)
Theorem C34_value_at cfg r c f A t xs vs env (v : nat -> nat -> K) : 0 < r -> 0 < c ->
  is_sym r c f A -> holds t xs vs -> binds env xs vs ->
  (forall i j, i < r -> j < c -> vars_within xs (f i j) /\
     eval_in (throwOnInvalidValue cfg) env (f i j) = ExprSpec.Value (v i j)) ->
  exists M, eval_mat cfg A t = Ok M /\ is_mat r c v M.
Proof. apply eval_mat_ok. Qed.
End A.

(** Over exact reals the value of a product is the product of the values. *)
Lemma rval_esum env (h : nat -> expr Rops) (a : nat -> R) n : (forall k, k <= n -> rval env (h k) = Some (a k)) ->
  rval env (esum n h) = Some (sum_f_R0 a n).
Proof.
  induction n as [|n IH]; intros H; cbn [esum sum_f_R0]; [now apply H|]. cbn [rval].
  rewrite IH by (intros; apply H; lia). rewrite H by lia. reflexivity.
Qed.
Theorem C34_mul_value r n c (f g : nat -> nat -> expr Rops) A B env (a b : nat -> nat -> R) : 0 < r -> 0 < n -> 0 < c ->
  is_sym r n f A -> is_sym n c g B ->
  (forall i k, i < r -> k < n -> rval env (f i k) = Some (a i k)) ->
  (forall k j, k < n -> j < c -> rval env (g k j) = Some (b k j)) ->
  exists C h, SymMat_mul A B = Ok C /\ is_sym r c h C /\
    forall i j, i < r -> j < c -> rval env (h i j) = Some (sum_f_R0 (fun k => a i k * b k j)%R (n - 1)).
Proof.
  intros Hr Hn Hc HA HB Ha Hb. destruct (C34_mul r n c f g A B Hr Hn Hc HA HB) as (C & E & HC).
  exists C. eexists. split; [exact E|]. split; [exact HC|]. intros i j Hi Hj. cbv beta.
  apply rval_esum. intros k Hk. cbn [rval]. rewrite Ha, Hb by lia. reflexivity.
Qed.

(** ** C35: the Jacobian *)
Theorem C35_jacobian (K : num_ops) (cfg : config K) r c f A (xs : list string) (d : nat -> nat -> node K) :
  0 < r -> 0 < c -> xs <> [] -> is_sym r c f A ->
  (forall i j x, i < r -> nth_error xs j = Some x -> Diff cfg (embed (f (i / c) (i mod c))) x 1 = Ok (d i j)) ->
  exists J, Jacobian cfg A xs = Ok J /\ s_rows J = r /\ s_cols J = length xs /\ length (s_data J) = r * length xs /\
    forall i j, i < r -> j < length xs -> SymValue J i j = Ok (d i j).
Proof. apply Jacobian_ok. Qed.

(** Over exact reals, at points where the equations can be differentiated: the entry (i,j)
    has as its value the partial derivative of equation i with respect to variable j. *)
Theorem C35_jacobian_value (cfg : config Rops) n (f : nat -> expr Rops) A (xs : list string) env :
  0 < n -> xs <> [] -> is_sym n 1 (fun i _ => f i) A ->
  (forall i x, i < n -> In x xs -> smooth 1 x env (f i)) ->
  exists J h, Jacobian cfg A xs = Ok J /\ is_sym n (length xs) h J /\
    forall i j x, i < n -> nth_error xs j = Some x ->
      exists d, rval env (h i j) = Some d /\ partial env x (f i) d.
Proof.
  intros Hn Hx HA Hs.
  set (x0 := fun j => nth j xs "").
  assert (HD : forall i j, exists e : expr Rops, i < n -> j < length xs -> Diff cfg (embed (f i)) (x0 j) 1 = Ok (embed e) /\
    exists d, rval env e = Some d /\ partial env (x0 j) (f i) d).
  { intros i j. destruct (lt_dec i n) as [Hi|Hi]; [|exists (EVar ""); lia]. destruct (lt_dec j (length xs)) as [Hj|Hj]; [|exists (EVar ""); lia].
    destruct (C20_diff cfg (x0 j) env (f i)) as (e' & d & E & V & P); [apply Hs; [auto|now apply nth_In]|].
    exists e'. intros _ _. split; [exact E|]. exists d. auto. }
  assert (Ch : exists h : nat -> nat -> expr Rops, forall i j, i < n -> j < length xs -> Diff cfg (embed (f i)) (x0 j) 1 = Ok (embed (h i j)) /\
    exists d, rval env (h i j) = Some d /\ partial env (x0 j) (f i) d).
  { clear -HD. assert (F : forall m (P : nat -> expr Rops -> Prop), (forall j, exists e, P j e) -> exists h : nat -> expr Rops, forall j, j < m -> P j (h j)).
    { induction m as [|m IH]; intros P HP; [exists (fun _ => EVar ""); lia|]. destruct (IH P HP) as [h Hh]. destruct (HP m) as [e He].
      exists (fun j => if j =? m then e else h j). intros j Hj. destruct (Nat.eqb_spec j m); [now subst|apply Hh; lia]. }
    assert (F2 : forall m (P : nat -> (nat -> expr Rops) -> Prop), (forall j, exists e, P j e) -> exists h : nat -> nat -> expr Rops, forall j, j < m -> P j (h j)).
    { induction m as [|m IH]; intros P HP; [exists (fun _ _ => EVar ""); lia|]. destruct (IH P HP) as [h Hh]. destruct (HP m) as [e He].
      exists (fun j => if j =? m then e else h j). intros j Hj. destruct (Nat.eqb_spec j m); [now subst|apply Hh; lia]. }
    destruct (F2 n (fun i hi => forall j, j < length xs -> i < n -> j < length xs -> Diff cfg (embed (f i)) (x0 j) 1 = Ok (embed (hi j)) /\
      exists d, rval env (hi j) = Some d /\ partial env (x0 j) (f i) d)) as [h Hh].
    - intros i. apply (F (length xs) (fun j e => i < n -> j < length xs -> Diff cfg (embed (f i)) (x0 j) 1 = Ok (embed e) /\
        exists d, rval env e = Some d /\ partial env (x0 j) (f i) d)). intros j. apply HD.
    - exists h. auto. }
  destruct Ch as [h Hh].
  destruct (Jacobian_ok cfg n 1 _ A xs (fun i j => embed (h i j)) Hn Nat.lt_0_1 Hx HA) as (J & E & J1 & J2 & J3 & J4).
  - intros i j x Hi Hj. cbv beta. rewrite Nat.div_1_r.
    assert (j < length xs) by (apply nth_error_Some; congruence).
    destruct (Hh i j) as [D _]; auto. unfold x0 in D. now rewrite (nth_error_nth xs j "" Hj) in D.
  - exists J, h. split; [exact E|]. split; [repeat split; auto|].
    intros i j x Hi Hj. assert (j < length xs) by (apply nth_error_Some; congruence).
    destruct (Hh i j) as [_ D]; auto. unfold x0 in D. now rewrite (nth_error_nth xs j "" Hj) in D.
Qed.

(** A component with &, | or % terminates the program (Jacobian is noexcept but Diff throws). *)
Theorem C35_jacobian_terminates (K : num_ops) (cfg : config K) n (f : nat -> expr K) A (xs : list string) i :
  0 < n -> xs <> [] -> is_sym n 1 (fun i _ => f i) A -> i < n -> ~ no_int_ops (f i) ->
  (forall i', i' < i -> no_int_ops (f i')) ->
  Jacobian cfg A xs = Terminate.
Proof.
  intros Hn Hx HA Hi Hd Hlow. pose proof (is_sym_nth _ _ _ _ HA) as Nt. destruct HA as (E1 & E2 & _).
  assert (Hl : 0 < length xs) by (destruct xs; simpl; [congruence|lia]).
  unfold Jacobian. rewrite E1, SymMat_make_ok by auto. cbn [bind s_data]. rewrite repeat_length. set (m := length xs) in *.
  set (F := fun k => let* e := va_get (s_data A) (k / m) in
       match nth_error xs (k mod m) with Some x => Diff cfg e x 1 | None => Undef "vector index out of range" end).
  assert (FE : forall k, k < n * m -> exists x, F k = Diff cfg (embed (f (k / m))) x 1).
  { intros k Hk. destruct (divmod_lt n m k Hk) as [L1 L2]. unfold F, va_get. rewrite Nt by (rewrite Nat.mul_1_r; exact L1). cbn [bind]. rewrite Nat.div_1_r.
    destruct (nth_error xs (k mod m)) as [x|] eqn:Ex; [exists x; reflexivity|]. apply nth_error_None in Ex. fold m in Ex. apply Nat.lt_nge in L2. tauto. }
  assert (G : forall q s, s <= i * m -> i * m < s + q -> s + q <= n * m ->
    (exists e, mapM F (seq s q) = Throw e) \/ mapM F (seq s q) = Terminate).
  { induction q as [|q IH]; intros s H1 H2 H3; [lia|]. cbn [seq mapM]. destruct (FE s) as [x Ex]; [lia|]. rewrite Ex.
    destruct (Nat.eq_dec s (i * m)) as [->|Ns].
    - rewrite Nat.div_mul by lia. left.
      destruct (proj2 (C22_diff_throws_iff K cfg (f i) x 1 ltac:(lia)) Hd) as [msg Em]. change (Z.of_nat 1) with 1%Z in Em. rewrite Em. eexists. reflexivity.
    - assert (Ls : s / m < i) by (apply Nat.div_lt_upper_bound; lia).
      destruct (C22_diff_outcome K cfg (f (s / m)) x 1 ltac:(lia) (Hlow _ Ls)) as [(e' & Ee & _)|[_ Ee]]; change (Z.of_nat 1) with 1%Z in Ee; rewrite Ee; cbn [bind]; auto.
      destruct (IH (S s)) as [[e Q]|Q]; [lia|lia|lia| |]; rewrite Q; cbn [bind]; [left; eexists; reflexivity|right; reflexivity]. }
  pose proof (pos_lt n m i 0 Hi Hl) as Hp.
  destruct (G (n * m) 0) as [[e E]|E]; [lia|lia|lia| |].
  - fold F. rewrite E. reflexivity.
  - fold F. rewrite E. reflexivity.
Qed.

(** ** The hypotheses can be met *)
Definition ex_sys : symmat Rops :=
  MkSym 2 1 [embed (EBin BAdd (EBin BPow (EVar "x") (ENum (Some 2%R))) (EVar "y")); embed (EBin BMul (EVar "x") (EUn USin (EVar "y")))].
Definition ex_f (i : nat) : expr Rops :=
  match i with O => EBin BAdd (EBin BPow (EVar "x") (ENum (Some 2%R))) (EVar "y") | _ => EBin BMul (EVar "x") (EUn USin (EVar "y")) end.
Example C34_ex_sym : is_sym 2 1 (fun i _ => ex_f i) ex_sys.
Proof. repeat split; auto. intros i j Hi Hj. destruct j; [|lia]. destruct i as [|[|i]]; [reflexivity|reflexivity|lia]. Qed.
Example C35_ex_smooth : forall i x, i < 2 -> In x ["x"; "y"] -> smooth 1 x (fun _ => 1%R) (ex_f i).
Proof.
  intros i x Hi _. destruct i as [|[|i]]; [| |lia]; cbn.
  - split; [split; [exact I|]|exact I]. exists 1%R, 2%R. repeat split; auto. left. lra.
  - repeat split; auto. exists 1%R. auto.
Qed.
Example C34_ex_mul : exists C, SymMat_mul (K := Rops) (MkSym 1 2 [embed (EVar "a"); embed (EVar "b")]) (MkSym 2 1 [embed (EVar "c"); embed (EVar "d")]) = Ok C /\ s_data C = [embed (EBin BAdd (EBin BMul (EVar "a") (EVar "c")) (EBin BMul (EVar "b") (EVar "d")))].
Proof. eexists. split; reflexivity. Qed.
Example C35_ex_int : ~ no_int_ops (EBin BMod (EVar "x") (EVar "y") : expr Rops).
Proof. simpl. tauto. Qed.
