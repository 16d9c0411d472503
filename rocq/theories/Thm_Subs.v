(** C24, C25: substitution. *)
From Coq Require Import String List ZArith Reals Lra Bool Arith Lia Sorting.Sorted.
From Verif Require Import Base MathOp NodeModel SubsModel ExprSpec SubsSpec NodeProofs IEEE RealSpec.
Import ListNotations.
Local Open Scope string_scope.
Local Open Scope list_scope.

Section A.
Context {K : num_ops}.
Implicit Types (e : expr K).

Lemma map_find_in {T} x (m : smap T) t : NoDup (map fst m) -> (map_find x m = Some t <-> In (x, t) m).
Proof.
  induction m as [|[y u] m IH]; simpl; [split; [discriminate|tauto]|].
  intros H. apply NoDup_cons_iff in H as [H1 H2]. destruct (String.eqb_spec x y) as [->|N].
  - split; [intros [= ->]; auto|]. intros [[= ->]|Hin]; auto. destruct H1. apply in_map_iff.
    exists (y, t); auto.
  - rewrite IH by auto. split; auto. intros [[= -> ->]|]; [now destruct N|auto].
Qed.

Lemma map_find_insert {T} x y (t : T) m : StronglySorted str_lt (map fst m) ->
  map_find y (map_insert x t m) =
    match map_find y m with Some u => Some u | None => if String.eqb y x then Some t else None end.
Proof.
  induction m as [|[z u] m IH]; simpl; intros S; [reflexivity|].
  apply StronglySorted_inv in S as [S F].
  destruct (String.compare x z) eqn:C; simpl.
  - apply str_compare_eq in C as ->. destruct (String.eqb_spec y z) as [->|N]; auto.
    destruct (map_find y m); auto.
  - destruct (String.eqb_spec y x) as [->|N].
    + destruct (String.eqb_spec x z) as [->|N2].
      { exfalso. rewrite (proj2 (str_compare_eq z z) eq_refl) in C. discriminate. }
      assert (E : map_find x m = None); [|now rewrite E].
      destruct (map_find x m) eqn:E; auto. exfalso.
      assert (Hin : In x (map fst m)).
      { clear -E. induction m as [|[w ?] m IH]; simpl in *; [discriminate|].
        destruct (String.eqb_spec x w); auto. }
      rewrite Forall_forall in F. specialize (F _ Hin).
      pose proof (str_lt_trans _ _ _ C F) as L. unfold str_lt in L.
      rewrite (proj2 (str_compare_eq x x) eq_refl) in L. discriminate.
    + destruct (String.eqb_spec y z); auto. now destruct (map_find y m).
  - rewrite IH by auto. destruct (String.eqb_spec y z); auto.
Qed.

Lemma map_insert_keys {T} x (t : T) m : map fst (map_insert x t m) = set_insert x (map fst m).
Proof.
  induction m as [|[z u] m IH]; simpl; auto. destruct (String.compare x z); simpl; auto. now rewrite IH.
Qed.

Lemma map_insert_sorted {T} x (t : T) m : StronglySorted str_lt (map fst m) ->
  StronglySorted str_lt (map fst (map_insert x t m)).
Proof. rewrite map_insert_keys. apply set_insert_sorted. Qed.

(** Inserting a list of entries: the first entry for a key wins. *)
Lemma map_find_inserts {T} (l : list (string * T)) : forall m y, StronglySorted str_lt (map fst m) ->
  map_find y (fold_left (fun m p => map_insert (fst p) (snd p) m) l m) =
    match map_find y m with Some u => Some u | None => map_find y l end.
Proof.
  induction l as [|[x t] l IH]; intros m y S; simpl; [now destruct (map_find y m)|].
  rewrite IH by (apply map_insert_sorted; auto). rewrite map_find_insert by auto.
  destruct (map_find y m); auto. destruct (String.eqb_spec y x); auto.
Qed.

Lemma SubsInner_ok (d : smap (node K)) (s : substitution) :
  (forall x, map_find x d = match s x with Some t => Some (embed t) | None => None end) ->
  forall e, SubsInner d (embed e) = Ok (embed (subst s e)).
Proof.
  intros H. induction e as [v|x|u a IH|b a IHa c IHc]; simpl; auto.
  - rewrite H. destruct (s x) as [t|]; [|reflexivity]. simpl. pose proof (embed_not_nil t). destruct (embed t); congruence.
  - rewrite IH. reflexivity.
  - rewrite IHc; simpl. rewrite IHa. reflexivity.
Qed.

Lemma SubsRoot_ok (d : smap (node K)) (s : substitution) e :
  (forall x, map_find x d = match s x with Some t => Some (embed t) | None => None end) ->
  SubsRoot d (embed e) = Ok (embed (subst s e)).
Proof.
  intros H. rewrite <- (SubsInner_ok d s H e). destruct e; reflexivity.
Qed.

Definition ent (p : string * expr K) := (fst p, embed (snd p)).

Lemma map_find_ent x (d : list (string * expr K)) :
  map_find x (map ent d) = match map_find x d with Some t => Some (embed t) | None => None end.
Proof. induction d as [|[y t] d IH]; simpl; auto. destruct (String.eqb x y); auto. Qed.

End A.

(** ** C24: the four overloads are simultaneous substitutions *)
Theorem C24_subs_dict (K : num_ops) (e : expr K) d s : dict_subst d s ->
  SubsDict (embed e) (map (fun p => (fst p, embed (snd p))) d) = Ok (embed (subst s e)).
Proof.
  intros [Hn H]. apply SubsRoot_ok. intros x. change (fun p : string * expr K => (fst p, embed (snd p))) with (@ent K).
  rewrite map_find_ent. f_equal.
  assert (E : map_find x d = s x); [|now rewrite E].
  destruct (map_find x d) as [t|] eqn:F.
  - symmetry. apply H. now apply map_find_in in F.
  - destruct (s x) as [t|] eqn:G; auto. apply H, map_find_in in G; auto. congruence.
Qed.

Theorem C24_subs_single (K : num_ops) (e t : expr K) x :
  Subs1 (embed e) x (embed t) = Ok (embed (subst (fun y => if String.eqb y x then Some t else None) e)).
Proof.
  unfold Subs1. pose proof (embed_not_nil t).
  transitivity (SubsRoot [(x, embed t)] (embed e)); [destruct (embed t); [congruence|reflexivity]|].
  apply SubsRoot_ok. intros y. simpl. destruct (String.eqb y x); reflexivity.
Qed.

Lemma find_combine {T} x (xs : list string) : forall (ts : list T) t, length xs = length ts ->
  (map_find x (combine xs ts) = Some t <->
   exists i, nth_error xs i = Some x /\ nth_error ts i = Some t /\ forall j, j < i -> nth_error xs j <> Some x).
Proof.
  induction xs as [|y xs IH]; intros [|u ts] t L; try discriminate; simpl.
  - split; [discriminate|]. intros ([|i] & H & _); discriminate.
  - injection L as L. destruct (String.eqb_spec x y) as [->|N].
    + split.
      * intros [= ->]. exists 0. repeat split; auto. intros j Hj. lia.
      * intros ([|i] & H1 & H2 & H3); [exact H2|]. exfalso. apply (H3 0); [lia|reflexivity].
    + rewrite IH by auto. split.
      * intros (i & H1 & H2 & H3). exists (S i). repeat split; auto.
        intros [|j] Hj; simpl; [congruence|]. apply H3. lia.
      * intros ([|i] & H1 & H2 & H3); simpl in *; [congruence|]. exists i. repeat split; auto.
        intros j Hj. apply (H3 (S j)). lia.
Qed.

Theorem C24_subs_vec (K : num_ops) (e : expr K) xs ts s : vec_subst xs ts s ->
  SubsVec (embed e) xs (map embed ts) = Ok (embed (subst s e)).
Proof.
  intros [L H]. unfold SubsVec. rewrite map_length, L, Nat.eqb_refl. simpl.
  assert (E : existsb is_null (map (embed (K:=K)) ts) = false).
  { clear. induction ts as [|t ts IH]; simpl; auto. rewrite IH. destruct t; reflexivity. }
  rewrite E. apply SubsRoot_ok. intros x. rewrite map_find_inserts by constructor. simpl.
  assert (C : combine xs (map embed ts) = map (@ent K) (combine xs ts)).
  { clear. revert ts. induction xs as [|y xs IH]; intros [|t ts]; simpl; auto. unfold ent at 1. simpl. now rewrite IH. }
  rewrite C, map_find_ent.
  assert (F : map_find x (combine xs ts) = s x); [|now rewrite F].
  destruct (map_find x (combine xs ts)) as [t|] eqn:F.
  - symmetry. apply H. now apply find_combine in F.
  - destruct (s x) as [t|] eqn:G; auto. apply H in G. apply find_combine in G; auto. congruence.
Qed.

(** Vectors of different lengths violate the assertion. *)
Theorem C24_subs_vec_mismatch (K : num_ops) (n : node K) xs ts : length xs <> length ts ->
  exists why, SubsVec n xs ts = AssertFail why.
Proof.
  intros H. unfold SubsVec. apply Nat.eqb_neq in H. rewrite H. simpl. eexists. reflexivity.
Qed.

(** The overloads taking numbers (a map, a VarsTable). *)
Theorem C24_subs_values (K : num_ops) (e : expr K) (vals : list (string * K)) s :
  dict_subst (map (fun p => (fst p, ENum (snd p))) vals) s ->
  SubsValues (embed e) vals = Ok (embed (subst s e)).
Proof.
  intros [Hn H]. unfold SubsValues. apply SubsRoot_ok. intros x.
  replace (fold_left (fun m p => map_insert (fst p) (mkNum (snd p)) m) vals [])
    with (fold_left (fun m p => map_insert (fst p) (snd p) m) (map (@ent K) (map (fun p => (fst p, ENum (snd p))) vals)) []).
  2:{ generalize (@nil (string * node K)). clear. induction vals as [|[y v] l IH]; intros m; simpl; auto. }
  rewrite map_find_inserts by constructor. simpl. rewrite map_find_ent.
  set (d := map (fun p => (fst p, ENum (snd p))) vals) in *.
  assert (E : map_find x d = s x); [|now rewrite E].
  destruct (map_find x d) as [t|] eqn:F.
  - symmetry. apply H. now apply map_find_in in F.
  - destruct (s x) as [t|] eqn:G; auto. apply H, map_find_in in G; auto. congruence.
Qed.

(** Values: evaluating the result is evaluating the original with the replaced variables
    bound to the values of their replacements. *)
Theorem C24_subs_value (s : substitution (K:=Rops)) (env env' : string -> R) (e : expr Rops) :
  (forall x, occurs x e -> match s x with Some t => rval env t = Some (env' x) | None => env x = env' x end) ->
  rval env (subst s e) = rval env' e.
Proof.
  induction e as [v|x|u a IH|b a IHa c IHc]; simpl; intros H; auto.
  - specialize (H x (occ_var x)). destruct (s x); simpl; congruence.
  - rewrite IH; auto. intros x Hx. apply H. now constructor.
  - rewrite IHa, IHc; auto; intros x Hx; apply H; [now apply occ_r|now apply occ_l].
Qed.

(** A variable replaced by something without a value leaves the whole without a value. *)
Theorem C24_subs_no_value (s : substitution (K:=Rops)) env (e t : expr Rops) x :
  occurs x e -> s x = Some t -> rval env t = None -> rval env (subst s e) = None.
Proof.
  intros Ho Hs Ht. induction Ho; simpl.
  - now rewrite Hs.
  - now rewrite IHHo.
  - now rewrite IHHo.
  - rewrite IHHo. now destruct (rval env (subst s a)).
Qed.

(** Substituting nothing relevant changes nothing. *)
Theorem C24_subs_absent (K : num_ops) (s : substitution (K:=K)) e :
  (forall x, occurs x e -> s x = None) -> subst s e = e.
Proof.
  induction e as [v|x|u a IH|b a IHa c IHc]; simpl; intros H; auto.
  - now rewrite (H x (occ_var x)).
  - rewrite IH; auto. intros x Hx. apply H. now constructor.
  - rewrite IHa, IHc; auto; intros x Hx; apply H; [now apply occ_r|now apply occ_l].
Qed.

(** ** C25: the variables of the result *)
Theorem C25_subs_vars (K : num_ops) (s : substitution (K:=K)) e y :
  occurs y (subst s e) <->
    (occurs y e /\ s y = None) \/ exists x t, occurs x e /\ s x = Some t /\ occurs y t.
Proof.
  induction e as [v|x|u a IH|b a IHa c IHc]; simpl.
  - split; [inversion 1|]. intros [[H _]|(x & t & H & _)]; inversion H.
  - destruct (s x) as [t|] eqn:E.
    + split.
      * intros H. right. exists x, t. repeat split; auto. constructor.
      * intros [[H N]|(z & t' & H & N & O)]; inversion H; subst; congruence.
    + split.
      * intros H. left. inversion H; subst. split; [constructor|auto].
      * intros [[H N]|(z & t' & H & N & O)]; inversion H; subst; [constructor|congruence].
  - split.
    + intros H. inversion H; subst. apply IH in H1 as [[? ?]|(x & t & ? & ? & ?)]; [left|right].
      * split; auto. now constructor.
      * exists x, t. repeat split; auto. now constructor.
    + intros [[H N]|(x & t & H & N & O)]; inversion H; subst; constructor; apply IH; eauto.
      right. eauto.
  - split.
    + intros H. inversion H; subst.
      * apply IHa in H1 as [[? ?]|(x & t & ? & ? & ?)]; [left; split; auto; now apply occ_l|right].
        exists x, t. repeat split; auto. now apply occ_l.
      * apply IHc in H1 as [[? ?]|(x & t & ? & ? & ?)]; [left; split; auto; now apply occ_r|right].
        exists x, t. repeat split; auto. now apply occ_r.
    + intros [[H N]|(x & t & H & N & O)]; inversion H; subst;
        first [apply occ_l, IHa; solve [eauto 6]|apply occ_r, IHc; solve [eauto 6]].
Qed.

(** Substituting numbers for all variables makes the expression computable: the result
    evaluates as the original does with the variables bound to the numbers. *)
Theorem C25_subs_numbers (K : num_ops) strict (s : substitution (K:=K)) (env : string -> K) e :
  (forall x, occurs x e -> s x = Some (ENum (env x))) ->
  eval strict (subst s e) = eval_in strict env e /\ no_vars (subst s e).
Proof.
  induction e as [v|x|u a IH|b a IHa c IHc]; simpl; intros H; auto.
  - rewrite (H x (occ_var x)). simpl. auto.
  - destruct IH as [-> ?]; auto. intros x Hx. apply H. now constructor.
  - destruct IHa as [-> ?]; [intros x Hx; apply H; now apply occ_l|].
    destruct IHc as [-> ?]; [intros x Hx; apply H; now apply occ_r|]. auto.
Qed.

(** The whole pipeline Subs(node, values)->Vpa(). *)
Theorem C25_subs_vpa (K : num_ops) (cfg : config K) (e : expr K) (vals : list (string * K)) env :
  NoDup (map fst vals) -> (forall x, occurs x e -> In (x, env x) vals) ->
  exists n, SubsValues (embed e) vals = Ok n /\
    reports (Vpa cfg n) (eval_in (throwOnInvalidValue cfg) env e).
Proof.
  intros Hn H. set (d := map (fun p => (fst p, ENum (snd p))) vals).
  assert (Hd : NoDup (map fst d)) by (unfold d; rewrite map_map; exact Hn).
  exists (embed (subst (fun x => map_find x d) e)). split.
  - apply C24_subs_values. split; auto. intros x t. now apply map_find_in.
  - destruct (C25_subs_numbers K (throwOnInvalidValue cfg) (fun x => map_find x d) env e) as [E _].
    + intros x Hx. apply map_find_in; auto. unfold d. apply in_map_iff. exists (x, env x); auto.
    + rewrite <- E. apply Vpa_reports.
Qed.

(** Simultaneous, not sequential: x+y with x:=y, y:=x swaps; and with a repeated name the
    first entry wins. *)
Example C24_ex_swap (K : num_ops) :
  SubsVec (embed (EBin BSub (EVar "x") (EVar "y") : expr K)) ["x"; "y"; "x"]
    (map embed [EVar "y"; EUn USin (EVar "x"); EVar "z"]) =
  Ok (embed (EBin BSub (EVar "y") (EUn USin (EVar "x")))).
Proof. reflexivity. Qed.

Example C24_ex_dict (K : num_ops) : dict_subst [("x", EVar "y"); ("y", EUn USin (EVar "x") : expr K)]
  (fun z => if String.eqb z "x" then Some (EVar "y") else if String.eqb z "y" then Some (EUn USin (EVar "x")) else None).
Proof.
  split; [repeat constructor; simpl; intuition discriminate|].
  intros z t. simpl. destruct (String.eqb_spec z "x") as [->|N1].
  - split; [intros [= <-]; auto|]. intros [[= <-]|[[=]|[]]]; auto.
  - destruct (String.eqb_spec z "y") as [->|N2].
    + split; [intros [= <-]; auto|]. intros [[=]|[[= <-]|[]]]; auto.
    + split; [discriminate|]. intros [E|[E|[]]]; injection E as E1 E2; congruence.
Qed.
