(** Entry-level characterisation of the operations on symbolic matrices. *)
From Coq Require Import String List ZArith Bool Arith Lia Sorting.Sorted.
From Verif Require Import Base MathOp NodeModel SubsModel DiffModel MatModel VarsTableModel SymMatModel NonlinearModel
  ExprSpec SubsSpec MatSpec VarsSpec SymMatSpec NodeProofs MatProofs Thm_Node Thm_Subs Thm_Vars.
Import ListNotations.
Local Open Scope string_scope.
Local Open Scope list_scope.

Lemma mapM_seq {B} (g : nat -> res B) (h : nat -> B) s n :
  (forall k, s <= k < s + n -> g k = Ok (h k)) -> mapM g (seq s n) = Ok (map h (seq s n)).
Proof.
  revert s. induction n as [|n IH]; intros s H; simpl; auto.
  rewrite H by lia. cbn [bind]. rewrite IH; [reflexivity|]. intros k Hk. apply H. lia.
Qed.
Lemma mapM_map {A B C} (g : B -> res C) (h : A -> B) (l : list A) : mapM g (map h l) = mapM (fun a => g (h a)) l.
Proof. induction l as [|a l IH]; simpl; auto. now rewrite IH. Qed.
Lemma mapM_ext_in {A B} (f g : A -> res B) l : (forall a, In a l -> f a = g a) -> mapM f l = mapM g l.
Proof. induction l as [|a l IH]; simpl; intros H; auto. rewrite H by auto. now rewrite IH by auto. Qed.
Lemma divmod_pos c i j : j < c -> (i * c + j) / c = i /\ (i * c + j) mod c = j.
Proof.
  intros H. split.
  - rewrite Nat.div_add_l by lia. rewrite Nat.div_small by lia. lia.
  - rewrite Nat.add_comm, Nat.mod_add by lia. now apply Nat.mod_small.
Qed.
Lemma divmod_lt r c k : k < r * c -> k / c < r /\ k mod c < c.
Proof.
  intros H. assert (c <> 0) by (intros ->; lia). split; [|apply Nat.mod_upper_bound; auto].
  apply Nat.div_lt_upper_bound; lia.
Qed.

Section A.
Context {K : num_ops}.
Implicit Types (A B : symmat K) (f g : nat -> nat -> expr K) (e : expr K).

Lemma is_sym_nth r c f A : is_sym r c f A -> forall k, k < r * c ->
  nth_error (s_data A) k = Some (embed (f (k / c) (k mod c))).
Proof.
  intros (E1 & E2 & L & V) k Hk. destruct (divmod_lt _ _ _ Hk) as [H1 H2].
  specialize (V _ _ H1 H2). unfold SymValue in V. rewrite E2 in V. apply va_get_nth in V.
  rewrite <- V. f_equal. rewrite Nat.mul_comm. apply Nat.div_mod. lia.
Qed.
Lemma is_sym_data r c f A : is_sym r c f A -> s_data A = map (fun k => embed (f (k / c) (k mod c))) (seq 0 (r * c)).
Proof.
  intros H. pose proof (is_sym_nth _ _ _ _ H) as Nt. destruct H as (_ & _ & L & _). apply nth_error_ext. intros k.
  destruct (Nat.lt_ge_cases k (r * c)) as [Hk|Hk].
  - rewrite Nt by auto. symmetry. erewrite map_nth_error; [reflexivity|].
    rewrite nth_error_nth' with (d := 0) by (now rewrite seq_length). now rewrite seq_nth.
  - rewrite !(proj2 (nth_error_None _ _)); auto; rewrite ?map_length, ?seq_length; lia.
Qed.
Lemma is_sym_intro r c f : is_sym r c f (MkSym r c (map (fun k => embed (f (k / c) (k mod c))) (seq 0 (r * c)))).
Proof.
  split; [reflexivity|]. split; [reflexivity|]. cbn [s_data]. split; [now rewrite map_length, seq_length|].
  intros i j Hi Hj. unfold SymValue. cbn [s_cols s_data]. apply va_get_nth.
  destruct (divmod_pos c i j Hj) as [E1 E2].
  erewrite map_nth_error with (d := i * c + j); [now rewrite E1, E2|].
  rewrite nth_error_nth' with (d := 0) by (rewrite seq_length; now apply pos_lt). rewrite seq_nth; auto. now apply pos_lt.
Qed.
Lemma is_sym_eq r c f A : is_sym r c f A -> A = MkSym r c (map (fun k => embed (f (k / c) (k mod c))) (seq 0 (r * c))).
Proof. intros H. pose proof (is_sym_data _ _ _ _ H) as D. destruct A as [r' c' d], H as (E1 & E2 & _). simpl in *. congruence. Qed.
Lemma is_sym_ext r c f g A : (forall i j, i < r -> j < c -> f i j = g i j) -> is_sym r c f A -> is_sym r c g A.
Proof. intros E (E1 & E2 & L & V). repeat split; auto. intros. rewrite <- E by auto. auto. Qed.

Lemma SymMat_make_ok r c : 0 < r -> 0 < c -> SymMat_make (K:=K) r c = Ok (MkSym r c (repeat Nil (r * c))).
Proof. intros Hr Hc. unfold SymMat_make. apply Nat.ltb_lt in Hr, Hc. now rewrite Hr, Hc. Qed.

Lemma clone_embed e : clone_elem (embed e) = Ok (embed e).
Proof. pose proof (embed_not_nil e). now destruct (embed e). Qed.

Lemma SymMat_Clone_ok r c f A : 0 < r -> 0 < c -> is_sym r c f A -> SymMat_Clone A = Ok A.
Proof.
  intros Hr Hc H. pose proof (is_sym_nth _ _ _ _ H) as Nt. pose proof (is_sym_eq _ _ _ _ H) as E.
  destruct H as (E1 & E2 & _). unfold SymMat_Clone. rewrite E1, E2, SymMat_make_ok by auto. cbn [bind s_data].
  rewrite repeat_length.
  rewrite mapM_seq with (h := fun k => embed (f (k / c) (k mod c))).
  - cbn [bind]. now rewrite <- E.
  - intros k Hk. unfold va_get. rewrite Nt by lia. cbn [bind]. apply clone_embed.
Qed.

Lemma SymMat_Subs_ok r c f A (vals : smap K) s : is_sym r c f A ->
  dict_subst (map (fun p => (fst p, ENum (snd p))) vals) s ->
  exists B, SymMat_Subs A vals = Ok B /\ is_sym r c (fun i j => subst s (f i j)) B.
Proof.
  intros H Hs. pose proof (is_sym_data _ _ _ _ H) as D. destruct H as (E1 & E2 & _).
  unfold SymMat_Subs. rewrite D, mapM_map.
  rewrite mapM_seq with (h := fun k => embed (subst s (f (k / c) (k mod c)))).
  - cbn [noexcept bind]. rewrite E1, E2. eexists. split; [reflexivity|]. apply is_sym_intro.
  - intros k _. now apply C24_subs_values.
Qed.

(** ** Calc and ToMat *)
Lemma NodeCalc_embed cfg e :
  match eval (throwOnInvalidValue cfg) e with
  | ExprSpec.Value v => NodeCalc cfg (embed e) = (Ok tt, embed (ENum v))
  | HasVariable => exists msg, NodeCalc cfg (embed e) = (Throw (RuntimeError msg), embed e)
  | InvalidNumber => exists info, NodeCalc cfg (embed e) = (Throw (MathError ERROR_INVALID_NUMBER info), embed e)
  | IntUndefined => exists why, NodeCalc cfg (embed e) = (Undef why, embed e)
  end.
Proof.
  pose proof (Vpa_reports cfg e) as R. unfold reports in R. unfold NodeCalc.
  destruct (eval (throwOnInvalidValue cfg) e); [rewrite R; reflexivity|destruct R as [m ->]; eauto..].
Qed.

Lemma Calc_list_ok cfg (l : list nat) (g : nat -> expr K) (v : nat -> K) :
  (forall k, In k l -> eval (throwOnInvalidValue cfg) (g k) = ExprSpec.Value (v k)) ->
  Calc_list cfg (map (fun k => embed (g k)) l) = (Ok tt, map (fun k => embed (ENum (v k))) l).
Proof.
  induction l as [|k l IH]; intros H; cbn [map Calc_list]; auto.
  pose proof (NodeCalc_embed cfg (g k)) as R. rewrite H in R by now left. rewrite R.
  rewrite IH; auto. intros k' Hk. apply H. now right.
Qed.

(** The first element without a value decides; the elements before it are computed, the
    others untouched. *)
Lemma Calc_list_first cfg (l : list (expr K)) :
  (exists vs, Forall2 (fun e v => eval (throwOnInvalidValue cfg) e = ExprSpec.Value v) l vs /\
     Calc_list cfg (map embed l) = (Ok tt, map (fun v => embed (ENum v)) vs)) \/
  (exists l1 e l2 vs r, l = l1 ++ e :: l2 /\
     Forall2 (fun e v => eval (throwOnInvalidValue cfg) e = ExprSpec.Value v) l1 vs /\
     (forall v, eval (throwOnInvalidValue cfg) e <> ExprSpec.Value v) /\
     reports r (eval (throwOnInvalidValue cfg) e) /\
     Calc_list cfg (map embed l) = (res_map (fun _ => tt) r, map (fun v => embed (ENum v)) vs ++ map embed (e :: l2))).
Proof.
  induction l as [|e l IH]; [left; exists []; auto|]. cbn [map Calc_list].
  pose proof (NodeCalc_embed cfg e) as R. destruct (eval (throwOnInvalidValue cfg) e) as [v| | |] eqn:E.
  - rewrite R. destruct IH as [(vs & F & C)|(l1 & e' & l2 & vs & r & -> & F & N & Rr & C)]; [left|right].
    + exists (v :: vs). split; [constructor; auto|]. now rewrite C.
    + exists (e :: l1), e', l2, (v :: vs), r. split; [reflexivity|]. split; [constructor; auto|]. split; [auto|]. split; [auto|].
      rewrite C. reflexivity.
  - destruct R as [m ->]. right. exists [], e, l, [], (Throw (RuntimeError m)). rewrite E.
    repeat split; auto; [discriminate|now exists m].
  - destruct R as [m ->]. right. exists [], e, l, [], (Throw (MathError ERROR_INVALID_NUMBER m)). rewrite E.
    repeat split; auto; [discriminate|now exists m].
  - destruct R as [m ->]. right. exists [], e, l, [], (Undef m). rewrite E.
    repeat split; auto; [discriminate|now exists m].
Qed.

Lemma ToMat_numbers r c (v : nat -> nat -> K) :
  exists M, ToMat (MkSym r c (map (fun k => embed (ENum (v (k / c) (k mod c)))) (seq 0 (r * c)))) = Ok M /\ is_mat r c v M.
Proof.
  unfold ToMat. cbn [s_data s_rows s_cols]. rewrite mapM_map.
  rewrite mapM_seq with (h := fun k => v (k / c) (k mod c)) by reflexivity. cbn [bind].
  eexists. split; [reflexivity|]. apply is_mat_intro; [now rewrite map_length, seq_length|].
  intros i j Hi Hj. destruct (divmod_pos c i j Hj) as [E1 E2].
  erewrite map_nth_error with (d := i * c + j); [now rewrite E1, E2|].
  rewrite nth_error_nth' with (d := 0) by (rewrite seq_length; now apply pos_lt). rewrite seq_nth; auto. now apply pos_lt.
Qed.

(** ** Evaluation at a table *)
Definition table_subst (t : vars_table K) : substitution := fun x =>
  match map_find x (Items t) with Some v => Some (ENum v) | None => None end.

Lemma table_dict t xs vs : holds t xs vs ->
  dict_subst (map (fun p => (fst p, ENum (snd p))) (Items t)) (table_subst t).
Proof.
  intros H. pose proof (sorted_NoDup _ (h_sorted _ _ _ H)) as Nd. split.
  - rewrite map_map. exact Nd.
  - intros x e. unfold table_subst. rewrite in_map_iff. destruct (map_find x (Items t)) as [v|] eqn:E.
    + apply map_find_in in E; auto. split.
      * intros [= <-]. exists (x, v). auto.
      * intros ((y, w) & [= -> <-] & Hin). apply map_find_in in Hin; auto. apply map_find_in in E; auto. congruence.
    + split; [discriminate|]. intros ((y, w) & [= -> <-] & Hin). apply map_find_in in Hin; auto. congruence.
Qed.

Lemma table_subst_bound t xs vs (env : string -> K) x : holds t xs vs -> binds env xs vs -> In x xs ->
  table_subst t x = Some (ENum (env x)).
Proof.
  intros H Hb Hx. unfold table_subst. apply In_nth_error in Hx as [i Hi].
  destruct (nth_error vs i) as [v|] eqn:Ev.
  - assert (P : pair_in x v xs vs) by (exists i; auto). rewrite (Hb x v P).
    apply (h_items _ _ _ H) in P. apply map_find_in in P; [now rewrite P|apply sorted_NoDup, (h_sorted _ _ _ H)].
  - apply nth_error_None in Ev. rewrite <- (h_len _ _ _ H) in Ev. apply nth_error_None in Ev. congruence.
Qed.
Lemma table_subst_free t xs vs x : holds t xs vs -> ~ In x xs -> table_subst t x = None.
Proof.
  intros H Hx. unfold table_subst. destruct (map_find x (Items t)) as [v|] eqn:E; auto.
  apply map_find_in in E; [|apply sorted_NoDup, (h_sorted _ _ _ H)]. apply (h_items _ _ _ H) in E as (i & E & _).
  apply nth_error_In in E. tauto.
Qed.

Lemma binds_exists t xs vs : holds t xs vs -> exists env : string -> K, binds env xs vs.
Proof.
  intros H. exists (fun x => match map_find x (Items t) with Some v => v | None => n_ofZ 0 end).
  intros x v P. apply (h_items _ _ _ H) in P. apply map_find_in in P; [now rewrite P|apply sorted_NoDup, (h_sorted _ _ _ H)].
Qed.

Lemma eval_subst_table strict t xs vs env e v : holds t xs vs -> binds env xs vs ->
  (eval strict (subst (table_subst t) e) = ExprSpec.Value v <-> vars_within xs e /\ eval_in strict env e = ExprSpec.Value v).
Proof.
  intros H Hb. split.
  - intros E. assert (W : vars_within xs e).
    { intros x Hx. destruct (in_dec string_dec x xs) as [|N]; auto. exfalso.
      apply (eval_occurs K strict (subst (table_subst t) e) x v); auto.
      apply C25_subs_vars. left. split; auto. eapply table_subst_free; eauto. }
    split; auto. rewrite <- E. symmetry. apply (C25_subs_numbers K strict (table_subst t) env e).
    intros x Hx. eapply table_subst_bound; eauto.
  - intros [W E]. rewrite <- E. apply (C25_subs_numbers K strict (table_subst t) env e).
    intros x Hx. eapply table_subst_bound; eauto.
Qed.

(** Every entry has a value: the matrix of values. *)
Lemma eval_mat_ok cfg r c f A t xs vs env (v : nat -> nat -> K) : 0 < r -> 0 < c ->
  is_sym r c f A -> holds t xs vs -> binds env xs vs ->
  (forall i j, i < r -> j < c -> vars_within xs (f i j) /\
     eval_in (throwOnInvalidValue cfg) env (f i j) = ExprSpec.Value (v i j)) ->
  exists M, eval_mat cfg A t = Ok M /\ is_mat r c v M.
Proof.
  intros Hr Hc H Ht Hb HV. unfold eval_mat. rewrite (SymMat_Clone_ok r c f A) by auto. cbn [bind].
  destruct (SymMat_Subs_ok r c f A _ _ H (table_dict _ _ _ Ht)) as (B & E & HB). unfold SymMat_SubsTable. rewrite E. cbn [bind].
  rewrite (is_sym_eq _ _ _ _ HB). unfold SymMat_Calc_expr, SymMat_Calc. cbn [s_data s_rows s_cols].
  rewrite Calc_list_ok with (v := fun k => v (k / c) (k mod c)).
  - cbn [bind]. apply ToMat_numbers.
  - intros k Hk. apply in_seq in Hk. destruct (divmod_lt r c k) as [H1 H2]; [lia|].
    apply (eval_subst_table _ _ _ _ env _ _ Ht Hb). now apply HV.
Qed.

Lemma F2_length {T U : Type} (P : T -> U -> Prop) l1 l2 : Forall2 P l1 l2 -> length l2 = length l1.
Proof. induction 1; simpl; auto. Qed.

(** All outcomes of the chain Clone/Subs/Calc/ToMat. *)
Lemma eval_mat_cases cfg r c f A t xs vs env : 0 < r -> 0 < c ->
  is_sym r c f A -> holds t xs vs -> binds env xs vs ->
  (exists M v, eval_mat cfg A t = Ok M /\ is_mat r c v M /\ forall i j, i < r -> j < c ->
     vars_within xs (f i j) /\ eval_in (throwOnInvalidValue cfg) env (f i j) = ExprSpec.Value (v i j)) \/
  (exists i j R, i < r /\ j < c /\ eval_mat cfg A t = res_map (fun _ => MkMat 0 0 []) R /\
     reports R (eval (throwOnInvalidValue cfg) (subst (table_subst t) (f i j))) /\
     forall v, eval (throwOnInvalidValue cfg) (subst (table_subst t) (f i j)) <> ExprSpec.Value v).
Proof.
  intros Hr Hc H Ht Hb. unfold eval_mat. rewrite (SymMat_Clone_ok r c f A) by auto. cbn [bind].
  destruct (SymMat_Subs_ok r c f A _ _ H (table_dict _ _ _ Ht)) as (B & E & HB). unfold SymMat_SubsTable. rewrite E. cbn [bind].
  rewrite (is_sym_eq _ _ _ _ HB). unfold SymMat_Calc_expr, SymMat_Calc. cbn [s_data s_rows s_cols].
  set (g := fun k => subst (table_subst t) (f (k / c) (k mod c))).
  change (map (fun k => embed (subst (table_subst t) (f (k / c) (k mod c)))) (seq 0 (r * c))) with (map (fun k => embed (g k)) (seq 0 (r * c))).
  rewrite <- (map_map g embed).
  destruct (Calc_list_first cfg (map g (seq 0 (r * c)))) as [(ws & F & C)|(l1 & e & l2 & ws & R & El & F & Nv & Rr & C)]; rewrite C.
  - left. cbn [bind].
    assert (Lw : length ws = r * c) by (apply F2_length in F; now rewrite map_length, seq_length in F).
    set (v := fun i j => nth (i * c + j) ws (n_ofZ 0)).
    assert (Ew : map (fun x : K => embed (ENum x)) ws = map (fun k => embed (ENum (v (k / c) (k mod c)))) (seq 0 (r * c))).
    { rewrite <- (map_nth_seq (n_ofZ 0) ws) at 1. rewrite map_map, Lw. apply map_ext_in. intros k Hk. apply in_seq in Hk.
      unfold v. do 3 f_equal. rewrite Nat.mul_comm. apply Nat.div_mod. lia. }
    rewrite Ew. destruct (ToMat_numbers r c v) as (M & EM & HM). exists M, v. split; [exact EM|]. split; [exact HM|].
    intros i j Hi Hj. apply (eval_subst_table _ _ _ _ env _ _ Ht Hb).
    assert (Hk : i * c + j < r * c) by now apply pos_lt.
    assert (G : forall k, k < r * c -> eval (throwOnInvalidValue cfg) (g k) = ExprSpec.Value (nth k ws (n_ofZ 0))).
    { intros k Hk'. clear -F Hk' Lw. assert (Q : forall s n ws, Forall2 (fun e v => eval (throwOnInvalidValue cfg) e = ExprSpec.Value v) (map g (seq s n)) ws ->
        forall k, k < n -> eval (throwOnInvalidValue cfg) (g (s + k)) = ExprSpec.Value (nth k ws (n_ofZ 0))).
      { clear. intros s n. revert s. induction n as [|n IH]; intros s ws F k Hk; [lia|]. cbn [seq map] in F. inversion F; subst.
        destruct k as [|k]; [now rewrite Nat.add_0_r|]. cbn [nth]. replace (s + S k) with (S s + k) by lia. apply IH; [assumption|lia]. }
      specialize (Q 0 (r * c) ws F k Hk'). exact Q. }
    specialize (G _ Hk). unfold g in G. destruct (divmod_pos c i j Hj) as [-> E2] in G. rewrite E2 in G. exact G.
  - right.
    assert (He : exists k, k < r * c /\ e = g k).
    { assert (Hin : In e (map g (seq 0 (r * c)))) by (rewrite El; apply in_or_app; right; now left).
      apply in_map_iff in Hin as (k & <- & Hk). apply in_seq in Hk. exists k. split; [lia|reflexivity]. }
    destruct He as (k & Hk & ->). destruct (divmod_lt _ _ _ Hk) as [H1 H2].
    exists (k / c), (k mod c), R. split; [auto|]. split; [auto|]. split; [|split; [exact Rr|exact Nv]].
    unfold reports in Rr. destruct R; try reflexivity. exfalso.
    destruct (eval (throwOnInvalidValue cfg) (g k)) as [w| | |]; [now apply (Nv w)|destruct Rr; discriminate..].
Qed.

Lemma ToVec_ok r (v : nat -> nat -> K) M : 0 < r -> is_mat r 1 v M ->
  exists V, ToVec M = Ok V /\ is_mat r 1 v V.
Proof.
  intros Hr (E1 & E2 & L & V). unfold ToVec. rewrite E1, E2. destruct r as [|r]; [lia|]. cbn [Nat.eqb].
  destruct (Mat_make_ok (S r) 1 (n_ofZ 0 : K)) as (Z & -> & (Z1 & _)); [lia|lia|]. cbn [bind]. eexists. split; [reflexivity|].
  rewrite Z1. repeat split; auto. intros i j Hi Hj. specialize (V i j Hi Hj). unfold MatModel.Value in *. now rewrite E2 in V.
Qed.

(** ** Jacobian *)
Lemma Jacobian_ok cfg r c f A (xs : list string) (d : nat -> nat -> node K) : 0 < r -> 0 < c -> xs <> [] ->
  is_sym r c f A ->
  (forall i j x, i < r -> nth_error xs j = Some x -> Diff cfg (embed (f (i / c) (i mod c))) x 1 = Ok (d i j)) ->
  exists J, Jacobian cfg A xs = Ok J /\ s_rows J = r /\ s_cols J = length xs /\ length (s_data J) = r * length xs /\
    forall i j, i < r -> j < length xs -> SymValue J i j = Ok (d i j).
Proof.
  intros Hr Hc Hx H HD. pose proof (is_sym_nth _ _ _ _ H) as Nt. destruct H as (E1 & E2 & _).
  assert (Hn : 0 < length xs) by (destruct xs; simpl; [congruence|lia]).
  unfold Jacobian. rewrite E1. rewrite SymMat_make_ok by auto. cbn [bind s_data]. rewrite repeat_length.
  set (n := length xs) in *.
  rewrite mapM_seq with (h := fun k => d (k / n) (k mod n)).
  - cbn [noexcept bind]. eexists. split; [reflexivity|]. cbn [s_rows s_cols s_data]. split; [auto|]. split; [auto|].
    split; [now rewrite map_length, seq_length|].
    intros i j Hi Hj. unfold SymValue. cbn [s_cols s_data]. apply va_get_nth.
    destruct (divmod_pos n i j Hj) as [F1 F2].
    erewrite map_nth_error with (d := i * n + j); [now rewrite F1, F2|].
    rewrite nth_error_nth' with (d := 0) by (rewrite seq_length; now apply pos_lt). rewrite seq_nth; auto. now apply pos_lt.
  - intros k Hk. destruct (divmod_lt r n k) as [H1 H2]; [lia|].
    unfold va_get. rewrite Nt by nia. cbn [bind].
    destruct (nth_error xs (k mod n)) as [x|] eqn:Ex; [|apply nth_error_None in Ex; unfold n in *; lia].
    now apply HD.
Qed.

End A.
