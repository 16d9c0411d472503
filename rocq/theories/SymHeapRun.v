(** Programs over Node, SymMat and SymVec variables on the heap refine those on values. *)
From Coq Require Import String Ascii List ZArith Bool Arith Lia Permutation.
From Verif Require Import Base MathOp NodeModel ToStringModel SubsModel ExprSpec MatModel VarsTableModel SymMatModel
  HeapModel HeapSpec HeapProofs ApiModel ApiSpec ApiProofs MemSpec MemProofs Thm_Api SymHeapModel SymHeapSpec SymHeapProofs.
Import ListNotations.
Local Open Scope string_scope. Local Open Scope list_scope. Local Open Scope nat_scope.

(** ** Objects *)
Lemma find_set l x m y : find_obj (set_obj l x m) y = if String.eqb y x then option_map (fun _ => m) (find_obj l x) else find_obj l y.
Proof.
  induction l as [|[z w] l IH]; cbn [set_obj find_obj].
  - now destruct (String.eqb y x).
  - destruct (String.eqb_spec x z) as [->|Hx]; cbn [find_obj].
    + now destruct (String.eqb_spec y z).
    + rewrite IH. destruct (String.eqb_spec y z) as [->|Hy]; [|reflexivity]. destruct (String.eqb_spec z x); congruence.
Qed.
Lemma names_set l x m : map fst (set_obj l x m) = map fst l.
Proof. induction l as [|[z w] l IH]; cbn; [reflexivity|]. destruct (String.eqb x z); cbn; congruence. Qed.
Lemma find_none l x : find_obj l x = None <-> ~ In x (map fst l).
Proof.
  induction l as [|[z w] l IH]; cbn; [intuition|]. destruct (String.eqb_spec x z) as [->|Hx]; [split; [discriminate|intros H; exfalso; auto]|].
  rewrite IH. intuition congruence.
Qed.
Lemma find_del l x y : NoDup (map fst l) -> find_obj (del_obj l x) y = if String.eqb y x then None else find_obj l y.
Proof.
  induction l as [|[z w] l IH]; cbn [del_obj find_obj map fst]; intros Nd.
  - now destruct (String.eqb y x).
  - inversion Nd as [|? ? Hn Nd']. subst. destruct (String.eqb_spec x z) as [->|Hx].
    + destruct (String.eqb_spec y z) as [Hy|Hy]; [rewrite Hy; now apply find_none|reflexivity].
    + cbn [find_obj]. rewrite IH by exact Nd'. destruct (String.eqb_spec y z) as [->|Hy]; [|reflexivity]. destruct (String.eqb_spec z x); congruence.
Qed.
Lemma names_del l x z : In z (map fst (del_obj l x)) -> In z (map fst l).
Proof. induction l as [|[y w] l IH]; cbn; [auto|]. destruct (String.eqb x y); cbn; intuition. Qed.
Lemma nodup_del l x : NoDup (map fst l) -> NoDup (map fst (del_obj l x)).
Proof.
  induction l as [|[y w] l IH]; cbn; intros Nd; [constructor|]. inversion Nd as [|? ? Hn Nd']. subst. destruct (String.eqb x y); [exact Nd'|]. cbn. constructor; [|auto].
  intros H. apply Hn. now apply names_del with x.
Qed.

Section Run.
Context {K : num_ops}.
Notation env := (env K).
Notation expr := (expr K).
Implicit Types E : env.

Lemma get_none E x : get E x = None <-> ~ In x (map fst E).
Proof.
  induction E as [|[z w] E IH]; cbn; [intuition|]. destruct (String.eqb_spec x z) as [->|Hx]; [split; [discriminate|intros H; exfalso; auto]|].
  rewrite IH. intuition congruence.
Qed.
Lemma names_drop E x z : In z (map fst (drop_var E x)) -> In z (map fst E).
Proof. induction E as [|[y w] E IH]; cbn; [auto|]. destruct (String.eqb x y); cbn; intuition. Qed.
Lemma nodup_drop E x : NoDup (map fst E) -> NoDup (map fst (drop_var E x)).
Proof.
  induction E as [|[y w] E IH]; cbn; intros Nd; [constructor|]. inversion Nd as [|? ? Hn Nd']. subst. destruct (String.eqb x y); [exact Nd'|]. cbn. constructor; [|auto].
  intros H. apply Hn. now apply names_drop with x.
Qed.
Lemma get_dropped E x : NoDup (map fst E) -> get (drop_var E x) x = None.
Proof.
  induction E as [|[y w] E IH]; cbn [drop_var map fst]; intros Nd; [reflexivity|]. inversion Nd as [|? ? Hn Nd']. subst.
  destruct (String.eqb_spec x y) as [->|Hx]; [now apply get_none|]. cbn [get]. destruct (String.eqb_spec x y); [congruence|auto].
Qed.

(** What [holds] says about names. *)
Lemma reps_nodup E its : reps E its -> forall rest h, owns h (its ++ rest) -> NoDup (map fst E).
Proof.
  induction 1 as [|x v E p its R IH]; intros rest h O; cbn [map fst]; [constructor|]. cbn [app] in O. constructor.
  - intros Hi. destruct (get E x) as [w|] eqn:G; [|apply get_none in G; contradiction]. destruct (reps_get _ _ R _ _ G) as (q & its' & P & _ & _).
    assert (O2 : owns h (IVar (User x) (point p v) :: IVar (User x) (point q w) :: ApiProofs.contents q w ++ its' ++ ApiProofs.contents p v ++ rest)).
    { refine (owns_perm _ _ _ _ O). rewrite P. perma. }
    destruct O2 as (os & F & Q & Nd). apply flat_cons_inv in F as (o1 & os1 & S1 & F1 & ->). apply flat_cons_inv in F1 as (o2 & os2 & S2 & _ & ->).
    inversion S1; subst. inversion S2; subst. apply (Permutation_NoDup (Permutation_map fst Q)) in Nd. cbn in Nd. inversion Nd as [|? ? Hn _]. apply Hn. now left.
  - apply own_var_remove in O. apply (IH (ApiProofs.contents p v ++ rest) (remove h (KVar (User x)))). refine (owns_perm _ _ _ _ O). perma.
Qed.
Lemma holds_nodup h E rest : holds h E rest -> NoDup (map fst E).
Proof. intros (L & (its & R & P) & O). apply (reps_nodup _ _ R rest h). exact (owns_perm _ _ _ P O). Qed.

(** ** The state after a statement *)
Definition ndom E E' : Prop := forall y, (forall x, y <> node_name x) -> (get E y = None <-> get E' y = None).
Lemma ndom_refl E : ndom E E. Proof. intros y _. reflexivity. Qed.
Lemma ndom_trans E E1 E2 : ndom E E1 -> ndom E1 E2 -> ndom E E2.
Proof. intros H1 H2 y Hy. rewrite (H1 y Hy). now apply H2. Qed.
Lemma ndom_same E E' : samedom E E' -> ndom E E'. Proof. intros H y _. apply H. Qed.
Lemma elt_not_node id k x : elt id k <> node_name x. Proof. discriminate. Qed.
Lemma wf_ndom o E E' : ndom E E' -> wf o E -> wf o E'.
Proof.
  intros H [Wn Wl Wx Wa Wo]. constructor; auto.
  - intros x m Hf id k Hd Hk G. apply (Wl x m Hf id k Hd Hk). apply H; [intros; apply elt_not_node|exact G].
  - intros n G. destruct (string_dec n (node_name (match n with String _ s => s | _ => "" end))) as [->|Hn]; [left; eauto|]. apply Wo. intros G0. apply G. apply H; [|exact G0].
    intros x ->. now apply Hn.
Qed.
Definition ndomV {A} (m : V (K:=K) A) : Prop := forall E, ndom E (snd (m E)).
Lemma ndom_bind {A B} (m : V A) (f : A -> V B) : ndomV m -> (forall a, ndomV (f a)) -> ndomV (vbind m f).
Proof.
  intros Hm Hf E. unfold vbind. specialize (Hm E). destruct (m E) as [[a|e|w| |w|] E']; cbn [snd] in *; auto. eapply ndom_trans; [exact Hm|apply Hf].
Qed.
Lemma ndom_of {A} (m : V (K:=K) A) : domV m -> ndomV m. Proof. intros H E. apply ndom_same, H. Qed.
Lemma ndom_step cfg (f : string -> string) (s : stmt K) : ndomV (vstep cfg (rename_stmt f s)).
Proof.
  destruct (dom_eval (K:=K) cfg) as (De & Da & _).
  assert (Dd : forall y v, ndomV (vbind (vdeclare (node_name y) v) (fun _ => vret (Done (K:=K))))).
  { intros y v. apply ndom_bind; [|intros; apply ndom_of, dom_ret]. intros E. unfold vdeclare. destruct (get E (node_name y)); cbn [snd]; [apply ndom_refl|].
    intros z Hz. cbn [get]. destruct (String.eqb_spec z (node_name y)) as [->|]; [now destruct (Hz y)|reflexivity]. }
  assert (Ds : forall A (m : V (K:=K) A) (g : A -> V (K:=K) (event K)), domV m -> (forall a, domV (g a)) -> ndomV (vbind m g)) by (intros; apply ndom_of, dom_bind; auto).
  destruct s as [y e|y|y e|b y a|y|y|y z|y z|y|y|y|y|y|y z|y|c]; cbn [rename_stmt vstep].
  - apply ndom_bind; [apply ndom_of, De|]. intros v. apply Dd.
  - apply Dd.
  - apply Ds; [apply De|]. intros v. apply dom_bind; [apply dom_set|intros; apply dom_ret].
  - apply Ds; [apply Da|]. intros o. apply dom_bind; [apply (dom_take (VMove (f y)))|]. intros e1. apply dom_bind; [apply dom_take|]. intros e2. apply dom_bind; [apply dom_set|intros; apply dom_ret].
  - apply Ds; [apply dom_the|]. intros e. apply dom_bind; [apply dom_fail|]. intros e'. apply dom_bind; [apply dom_set|intros; apply dom_ret].
  - apply Ds; [apply dom_the|]. intros e. apply dom_bind; [apply dom_fail|]. intros e'. apply dom_bind; [apply dom_set|intros; apply dom_ret].
  - apply Ds; [apply dom_the|]. intros e. apply dom_bind; [apply dom_the|]. intros e'. apply dom_bind; [apply dom_set|intros; apply dom_ret].
  - apply Ds; [apply dom_the|]. intros e. apply dom_bind; [apply dom_the|]. intros e'. apply dom_bind; [apply dom_set|]. intros _. apply dom_bind; [apply dom_set|intros; apply dom_ret].
  - apply ndom_bind; [|intros; apply ndom_of, dom_ret]. intros E. unfold vend. destruct (get E (node_name y)); [|apply ndom_refl]. cbn [snd]. intros z Hz. rewrite get_drop; [reflexivity|apply Hz].
  - apply Ds; [apply dom_the|]. intros e. apply dom_bind; [apply dom_fail|intros; apply dom_ret].
  - apply Ds; [apply dom_the|]. intros e. apply dom_bind; [apply dom_fail|intros; apply dom_ret].
  - apply Ds; [apply dom_the|]. intros e. apply dom_bind; [apply dom_fail|intros; apply dom_ret].
  - apply Ds; [apply dom_the|]. intros e. apply dom_bind; [apply dom_fail|intros; apply dom_ret].
  - apply Ds; [apply dom_the|]. intros e. apply dom_bind; [apply dom_the|]. intros e'. destruct (String.eqb (f y) (f z)); [apply dom_ret|]. apply dom_bind; [apply dom_fail|intros; apply dom_ret].
  - apply Ds; [apply dom_the|intros; apply dom_ret].
  - apply ndom_of, dom_ret.
Qed.

Lemma samedom_upd id l : forall s E, samedom E (upd id s l E).
Proof.
  induction l as [|t l IH]; intros s E; cbn [upd]; [apply samedom_refl|]. eapply samedom_trans; [apply samedom_set|apply IH].
Qed.
Lemma wf_update o E id A : wf o E -> wf o (update id A E).
Proof. intros W. rewrite update_upd. eapply wf_ndom; [apply ndom_same, samedom_upd|exact W]. Qed.
Lemma wf_new o E c A skip : wf o E -> find_obj (o_vars o) c = None -> length (s_data A) = s_rows A * s_cols A ->
  wf (MkObjs ((c, MkObj (s_rows A) (s_cols A) (Some (o_next o + skip))) :: o_vars o) (S (o_next o + skip))) (alloc (o_next o + skip) A E).
Proof.
  intros W Hc Hl. pose proof W as [Wn Wl Wx Wa Wo]. rewrite alloc_al. constructor; cbn [o_vars o_next map fst find_obj].
  - constructor; [|exact Wn]. now apply find_none.
  - intros x m. destruct (String.eqb_spec x c) as [->|Hx].
    + intros [= <-] id k [= <-] Hk. unfold size in Hk. cbn in Hk. change (elt (o_next o + skip) k) with (elt (o_next o + skip) (0 + k)). rewrite get_al_in by lia. discriminate.
    + intros Hf id k Hd Hk. rewrite get_al_out; [exact (Wl _ _ Hf _ _ Hd Hk)|]. intros j _ He. apply elt_inj in He as [He _]. specialize (Wx _ _ _ Hf Hd). lia.
  - intros x m id. destruct (String.eqb x c); [intros [= <-] [= <-]; lia|]. intros Hf Hd. specialize (Wx _ _ _ Hf Hd). lia.
  - intros x y m m' id. destruct (String.eqb_spec x c) as [->|Hx], (String.eqb_spec y c) as [->|Hy]; auto.
    + intros [= <-] Hf [= <-] Hd. specialize (Wx _ _ _ Hf Hd). lia.
    + intros Hf [= <-] Hd [= <-]. specialize (Wx _ _ _ Hf Hd). lia.
    + apply Wa.
  - intros n G. destruct (in_dec string_dec n (map (elt (o_next o + skip)) (seq 0 (length (s_data A))))) as [Hi|Hi].
    + right. apply in_map_iff in Hi as (k & <- & Hk). apply in_seq in Hk. exists c, (MkObj (s_rows A) (s_cols A) (Some (o_next o + skip))), (o_next o + skip), k. rewrite String.eqb_refl.
      repeat split. unfold size. cbn. lia.
    + rewrite get_al_out in G by (intros k Hk ->; apply Hi, in_map, in_seq; lia). destruct (Wo n G) as [H|(x & m & id & k & Hf & H)]; [now left|]. right. exists x, m, id, k.
      destruct (String.eqb_spec x c) as [->|Hx]; [congruence|auto].
Qed.
Lemma wf_move o E c a m : wf o E -> find_obj (o_vars o) a = Some m -> find_obj (o_vars o) c = None ->
  wf (MkObjs ((c, m) :: set_obj (o_vars o) a (moved_from m)) (o_next o)) E.
Proof.
  intros [Wn Wl Wx Wa Wo] Ha Hc.
  assert (Hf : forall x w id, find_obj ((c, m) :: set_obj (o_vars o) a (moved_from m)) x = Some w -> o_data w = Some id ->
    (x = c /\ w = m) \/ (x <> c /\ x <> a /\ find_obj (o_vars o) x = Some w)).
  { intros x w id. cbn [find_obj]. destruct (String.eqb_spec x c) as [->|Hx]; [intros [= ->]; auto|]. rewrite find_set, Ha. destruct (String.eqb_spec x a) as [->|]; [intros [= <-]; discriminate|auto]. }
  constructor; cbn [o_vars o_next].
  - cbn [map fst]. rewrite names_set. constructor; [now apply find_none|exact Wn].
  - intros x w Hw id k Hd. destruct (Hf _ _ _ Hw Hd) as [[-> ->]|(_ & _ & Hx)]; [exact (Wl _ _ Ha _ _ Hd)|exact (Wl _ _ Hx _ _ Hd)].
  - intros x w id Hw Hd. destruct (Hf _ _ _ Hw Hd) as [[-> ->]|(_ & _ & Hx)]; [exact (Wx _ _ _ Ha Hd)|exact (Wx _ _ _ Hx Hd)].
  - intros x y w w' id Hw Hw' Hd Hd'. destruct (Hf _ _ _ Hw Hd) as [[-> ->]|(Hxc & Hxa & Hx)], (Hf _ _ _ Hw' Hd') as [[-> ->]|(Hyc & Hya & Hy)]; auto.
    + exfalso. apply Hya. symmetry. exact (Wa _ _ _ _ _ Ha Hy Hd Hd').
    + exfalso. apply Hxa. exact (Wa _ _ _ _ _ Hx Ha Hd Hd').
    + exact (Wa _ _ _ _ _ Hx Hy Hd Hd').
  - intros n G. destruct (Wo n G) as [H|(x & w & id & k & Hx & Hd & Hk & ->)]; [now left|]. right. destruct (string_dec x a) as [->|Hxa].
    + rewrite Ha in Hx. injection Hx as <-. exists c, m, id, k. cbn [find_obj]. rewrite String.eqb_refl. auto.
    + exists x, w, id, k. cbn [find_obj]. destruct (String.eqb_spec x c) as [->|]; [congruence|]. rewrite find_set. destruct (String.eqb_spec x a); [congruence|auto].
Qed.
Lemma get_rel_in id m : forall s E k, NoDup (map fst E) -> s <= k < s + m -> get (rel id s m E) (elt id k) = None.
Proof.
  induction m as [|m IH]; intros s E k Nd Hk; [lia|]. cbn [rel]. destruct (Nat.eq_dec k s) as [->|Hne].
  - rewrite get_rel_out; [now apply get_dropped|]. intros j Hj He. apply elt_inj in He. lia.
  - apply IH; [now apply nodup_drop|lia].
Qed.
(** After the elements of [a] have been destroyed. *)
Lemma wf_release o E a m vars : wf o E -> NoDup (map fst E) -> find_obj (o_vars o) a = Some m -> NoDup (map fst vars) ->
  (forall x w id, find_obj vars x = Some w -> o_data w = Some id -> exists y, y <> a /\ find_obj (o_vars o) y = Some w) ->
  (forall x y w w' id, find_obj vars x = Some w -> find_obj vars y = Some w' -> o_data w = Some id -> o_data w' = Some id -> x = y) ->
  (forall y w id, find_obj (o_vars o) y = Some w -> y <> a -> o_data w = Some id -> exists x, find_obj vars x = Some w) ->
  wf (MkObjs vars (o_next o)) (release m E).
Proof.
  intros [Wn Wl Wx Wa Wo] Nd Ha Nv H1 H2 H3. unfold release. constructor; cbn [o_vars o_next]; auto.
  - intros x w Hw id k Hd Hk. destruct (H1 _ _ _ Hw Hd) as (y & Hy & Hf). pose proof (Wl _ _ Hf _ _ Hd Hk) as G. destruct (o_data m) as [im|] eqn:Em; [|exact G].
    rewrite <- rel_fold, get_rel_out; [exact G|]. intros j _ He. apply elt_inj in He as [-> _]. apply Hy. exact (Wa _ _ _ _ _ Hf Ha Hd Em).
  - intros x w id Hw Hd. destruct (H1 _ _ _ Hw Hd) as (y & _ & Hf). exact (Wx _ _ _ Hf Hd).
  - intros n G. assert (Back : get E n <> None /\ forall im k, o_data m = Some im -> k < size m -> n <> elt im k).
    { destruct (o_data m) as [im|] eqn:Em; [|split; [exact G|discriminate]]. rewrite <- rel_fold in G.
      assert (Hn : forall k, k < size m -> n <> elt im k). { intros k Hk ->. apply G, get_rel_in; [exact Nd|lia]. }
      rewrite get_rel_out in G by (intros k Hk; apply Hn; lia). split; [exact G|]. intros i k [= <-]. apply Hn. }
    destruct Back as [G0 Hn]. destruct (Wo n G0) as [H|(x & w & id & k & Hx & Hd & Hk & ->)]; [now left|]. right.
    destruct (string_dec x a) as [->|Hxa].
    + exfalso. rewrite Ha in Hx. injection Hx as <-. now apply (Hn id k Hd Hk).
    + destruct (H3 _ _ _ Hx Hxa Hd) as (z & Hz). exists z, w, id, k. auto.
Qed.
Lemma wf_end o E a m : wf o E -> NoDup (map fst E) -> find_obj (o_vars o) a = Some m -> wf (MkObjs (del_obj (o_vars o) a) (o_next o)) (release m E).
Proof.
  intros W Nd Ha. pose proof (wf_names _ _ W) as Wn. apply wf_release with a; auto.
  - now apply nodup_del.
  - intros x w id. rewrite find_del by exact Wn. destruct (String.eqb_spec x a); [discriminate|eauto].
  - intros x y w w' id. rewrite !find_del by exact Wn. destruct (String.eqb_spec x a); [discriminate|]. destruct (String.eqb_spec y a); [discriminate|]. apply (wf_apart _ _ W).
  - intros y w id Hy Hne _. exists y. rewrite find_del by exact Wn. destruct (String.eqb_spec y a); [congruence|exact Hy].
Qed.
Lemma wf_move_assign o E c a m old : wf o E -> NoDup (map fst E) -> c <> a -> find_obj (o_vars o) a = Some m -> find_obj (o_vars o) c = Some old ->
  wf (MkObjs (set_obj (set_obj (o_vars o) a (moved_from m)) c m) (o_next o)) (release old E).
Proof.
  intros W Nd Hca Ha Hc.
  assert (Hf : forall x, find_obj (set_obj (set_obj (o_vars o) a (moved_from m)) c m) x =
    if String.eqb x c then Some m else if String.eqb x a then Some (moved_from m) else find_obj (o_vars o) x).
  { intros x. rewrite find_set, !find_set. destruct (String.eqb_spec c a); [congruence|]. rewrite Hc, Ha. reflexivity. }
  apply wf_release with c; auto.
  - rewrite !names_set. exact (wf_names _ _ W).
  - intros x w id. rewrite Hf. destruct (String.eqb_spec x c) as [->|Hxc]; [intros [= <-] _; exists a; auto|]. destruct (String.eqb_spec x a); [intros [= <-]; discriminate|eauto].
  - intros x y w w' id. rewrite !Hf. destruct (String.eqb_spec x c) as [->|Hxc], (String.eqb_spec y c) as [->|Hyc]; auto.
    + destruct (String.eqb_spec y a) as [->|Hya]; [intros _ [= <-]; discriminate|]. intros [= <-] Hy Hd Hd'. exfalso. apply Hya. symmetry. exact (wf_apart _ _ W _ _ _ _ _ Ha Hy Hd Hd').
    + destruct (String.eqb_spec x a) as [->|Hxa]; [intros [= <-]; discriminate|]. intros Hx [= <-] Hd Hd'. exfalso. apply Hxa. exact (wf_apart _ _ W _ _ _ _ _ Hx Ha Hd Hd').
    + destruct (String.eqb_spec x a) as [->|Hxa]; [intros [= <-]; discriminate|]. destruct (String.eqb_spec y a) as [->|Hya]; [intros _ [= <-]; discriminate|]. apply (wf_apart _ _ W).
  - intros y w id Hy Hne Hd. destruct (string_dec y a) as [->|Hya].
    + exists c. rewrite Hf, String.eqb_refl. congruence.
    + exists y. rewrite Hf. destruct (String.eqb_spec y c); [congruence|]. destruct (String.eqb_spec y a); [congruence|exact Hy].
Qed.
(** The sizes of matrices. *)
Definition sized (r : res (symmat K)) : Prop := match r with Ok A => length (s_data A) = s_rows A * s_cols A | _ => True end.
Lemma sized_builds cfg o E p r : builds cfg o E p r -> sized r.
Proof. destruct r; cbn; auto. now intros [_ H]. Qed.
Lemma sized_make r c : sized (SymMat_make r c).
Proof. destruct (SymMat_make r c) eqn:H; cbn; auto. apply length_make in H as (H1 & H2 & H3). congruence. Qed.
Lemma foldM_keeps {A B} (f : B -> A -> res B) (P : B -> Prop) : (forall b a b', f b a = Ok b' -> P b -> P b') -> forall l b b', foldM f l b = Ok b' -> P b -> P b'.
Proof.
  intros H l. induction l as [|a l IH]; intros b b'; cbn [foldM]; [now intros [= <-]|]. intros Hf Hb. apply bind_Ok_inv in Hf as (b1 & H1 & Hf). eauto.
Qed.
Lemma va_set_length {A} (d : list A) k a d' : va_set d k a = Ok d' -> length d' = length d.
Proof. intros H. apply va_set_split in H as (l1 & x & l2 & -> & -> & _). rewrite !app_length. reflexivity. Qed.
Lemma sized_init (l : list (list (node K))) : sized (SymMat_init l).
Proof.
  destruct l as [|r0 l0]; [exact Logic.I|]. unfold SymMat_init. set (l := r0 :: l0). set (cols := fold_left _ l 0). clearbody cols.
  destruct (foldM _ l _) as [r|e|w| |w|] eqn:H; cbn [bind sized]; auto. cbn [s_data s_rows s_cols].
  apply (foldM_keeps _ (fun r => length (snd r) = length l * cols)) in H; [exact H| |cbn [snd]; apply repeat_length].
  intros [i d] val [i' d'] Hs Hl. apply bind_Ok_inv in Hs as ([j d1] & Hs & [= _ <-]). cbn [snd] in *.
  apply (foldM_keeps _ (fun r => length (snd r) = length l * cols)) in Hs; [exact Hs| |exact Hl].
  intros [j1 d2] t [j2 d3] Ht Hl2. apply bind_Ok_inv in Ht as (d4 & Hv & [= _ <-]). cbn [snd] in *. rewrite (va_set_length _ _ _ _ Hv). exact Hl2.
Qed.
Lemma sized_vec (l : list (node K)) : sized (SymVec_of l).
Proof.
  unfold SymVec_of. destruct (SymMat_make (length l) 1) eqn:H; cbn [bind sized]; auto. apply length_make in H as (_ & -> & ->). cbn. lia.
Qed.
Lemma sized_one_by_one (A : symmat K) : sized (ToSymVecOneByOne A).
Proof.
  unfold ToSymVecOneByOne. destruct (SymMat_make _ 1) as [v|e|w| |w|] eqn:H; cbn [bind sized]; auto. apply length_make in H as (H1 & H2 & H3).
  destruct (mapM _ _) as [d|e|w| |w|] eqn:Hm; cbn [bind sized]; auto. cbn [s_data s_rows s_cols]. apply mapM_length in Hm. rewrite Hm, seq_length. congruence.
Qed.
Lemma sized_to_vec (A : symmat K) : sized (ToSymVec A).
Proof. unfold ToSymVec. destruct (s_rows A =? 0); [exact Logic.I|]. destruct (s_cols A =? 1); [apply sized_one_by_one|exact Logic.I]. Qed.
Lemma sized_vec_sub (A B : symmat K) : sized (SymVec_sub A B).
Proof. unfold SymVec_sub. destruct (SymMat_sub A B); cbn [bind]; try exact Logic.I. apply sized_to_vec. Qed.

Definition kept (o : objs) E (r : res (mevent K * objs) * env) : Prop :=
  match r with (Ok (_, o'), E') => wf o' E' | (Throw _, E') => wf o E' | _ => True end.
Lemma kept_new o E c A skip : wf o E -> sized A -> kept o E (new_matrix skip c A o E).
Proof.
  intros W Hs. unfold new_matrix. destruct A as [A|e|w| |w|]; cbn [kept sized] in *; auto. destruct (find_obj (o_vars o) c) eqn:Hc; [exact Logic.I|]. now apply wf_new.
Qed.
Lemma kept_same o E (r : res (mevent K)) : wf o E -> kept o E (let* ev := r in Ok (ev, o), E).
Proof. intros W. destruct r; cbn; auto. Qed.
Lemma kept_ask {T} o E m (f : symmat K -> res T) (g : T -> mevent K) : wf o E -> kept o E (let* A := contents E m in let* r := f A in Ok (g r, o), E).
Proof.
  intros W. destruct (contents E m) as [A|e|w| |w|]; cbn [bind kept]; auto. destruct (f A); cbn [bind kept]; auto.
Qed.
Lemma kept_make1 o E m c skip (f : symmat K -> res (symmat K)) : wf o E -> (forall A, contents E m = Ok A -> sized (f A)) ->
  kept o E (new_matrix skip c (let* A := contents E m in f A) o E).
Proof.
  intros W Hs. apply kept_new; [exact W|]. destruct (contents E m) as [A|e|w| |w|]; cbn [bind]; auto; exact Logic.I.
Qed.
Theorem wf_step cfg s o E : wf o E -> NoDup (map fst E) -> kept o E (vmstep cfg s o E).
Proof.
  intros W Nd. pose proof (wf_fresh0 _ _ W) as F0.
  destruct s as [r s|c rows cols|c r l|c r l|c M|c a|c a|c a|c a b|c a b|c a b|c a vars|c a|c a|a|a vals|a t|a|a|a|a|a|a|a b|a];
    cbn [vmstep]; unfold the_obj.
  - destruct (bind_refs o r) as [l|e|w| |w|]; try exact Logic.I. pose proof (ndom_step cfg (name_of l) s E) as D. unfold vbind. destruct (vstep cfg _ E) as [[ev|e|w| |w|] E']; cbn [snd vret kept] in *; auto; now apply wf_ndom with E.
  - apply kept_new; [exact W|apply sized_make].
  - destruct (bind_refs o r) as [b|e|w| |w|]; try exact Logic.I. pose proof (dom_value_rows cfg (map (map (rename_exp (name_of b))) l) E) as D. unfold vbind. destruct (value_rows cfg _ E) as [[vs|e|w| |w|] E']; cbn [snd kept] in *; auto.
    + assert (W' : wf o E') by (apply (wf_ndom o E); [now apply ndom_same|exact W]). now apply kept_new; [|apply sized_init].
    + apply (wf_ndom o E); [now apply ndom_same|exact W].
  - destruct (bind_refs o r) as [b|e|w| |w|]; try exact Logic.I. pose proof (dom_values cfg (map (rename_exp (name_of b)) l) E) as D. unfold vbind. destruct (values cfg _ E) as [[vs|e|w| |w|] E']; cbn [snd kept] in *; auto.
    + assert (W' : wf o E') by (apply (wf_ndom o E); [now apply ndom_same|exact W]). now apply kept_new; [|apply sized_vec].
    + apply (wf_ndom o E); [now apply ndom_same|exact W].
  - apply kept_new; [exact W|]. apply (sized_builds cfg o E (of_mat o M)). now apply builds_of_mat.
  - destruct (find_obj (o_vars o) a) as [m|] eqn:Ha; [|exact Logic.I]. cbn [bind]. apply kept_make1; [exact W|]. intros A HA. apply (sized_builds cfg o E (clone o m)). apply builds_clone; auto. exact (wf_ne o E a m W Ha).
  - destruct (find_obj (o_vars o) a) as [m|] eqn:Ha; [|exact Logic.I]. cbn [bind]. apply kept_make1; [exact W|]. intros A HA. apply sized_to_vec.
  - destruct (find_obj (o_vars o) a) as [m|] eqn:Ha; [|exact Logic.I]. cbn [bind]. apply kept_make1; [exact W|]. intros A HA. apply sized_one_by_one.
  - destruct (find_obj (o_vars o) a) as [m|] eqn:Ha; [|exact Logic.I]. destruct (find_obj (o_vars o) b) as [m'|] eqn:Hb; [|exact Logic.I]. cbn [bind].
    apply kept_make1; [exact W|]. intros A HA. destruct (contents E m') as [B|e|w| |w|] eqn:HB; cbn [bind]; try exact Logic.I.
    apply (sized_builds cfg o E (sub true o m m')). apply builds_sub; auto; [exact (wf_ne o E a m W Ha)|exact (wf_ne o E b m' W Hb)].
  - destruct (find_obj (o_vars o) a) as [m|] eqn:Ha; [|exact Logic.I]. destruct (find_obj (o_vars o) b) as [m'|] eqn:Hb; [|exact Logic.I]. cbn [bind].
    destruct (o_cols m =? 1); [|exact Logic.I]. apply kept_make1; [exact W|]. intros A HA. destruct (contents E m') as [B|e|w| |w|] eqn:HB; cbn [bind]; try exact Logic.I. apply sized_vec_sub.
  - destruct (find_obj (o_vars o) a) as [m|] eqn:Ha; [|exact Logic.I]. destruct (find_obj (o_vars o) b) as [m'|] eqn:Hb; [|exact Logic.I]. cbn [bind].
    apply kept_make1; [exact W|]. intros A HA. destruct (contents E m') as [B|e|w| |w|] eqn:HB; cbn [bind]; try exact Logic.I.
    apply (sized_builds cfg o E (mul true o m m')). apply builds_mul; auto; [exact (wf_no_local o E _ W)|exact (wf_ne o E a m W Ha)|exact (wf_ne o E b m' W Hb)].
  - destruct (find_obj (o_vars o) a) as [m|] eqn:Ha; [|exact Logic.I]. cbn [bind]. apply kept_make1; [exact W|]. intros A HA.
    apply (sized_builds cfg o E (jacobian_of o m vars)). apply builds_jacobian; auto. exact (wf_ne o E a m W Ha).
  - destruct (find_obj (o_vars o) a) as [m|] eqn:Ha; [|exact Logic.I]. cbn [bind]. destruct (find_obj (o_vars o) c) eqn:Hc; [exact Logic.I|]. cbn [kept]. now apply wf_move.
  - destruct (find_obj (o_vars o) a) as [m|] eqn:Ha; [|exact Logic.I]. cbn [bind]. destruct (find_obj (o_vars o) c) as [old|] eqn:Hc; [|exact Logic.I]. cbn [bind].
    destruct (String.eqb_spec c a) as [->|Hca]; [exact W|]. cbn [kept]. now apply wf_move_assign.
  - destruct (find_obj (o_vars o) a) as [m|] eqn:Ha; [|exact Logic.I]. cbn [bind]. destruct (contents E m) as [A|e|w| |w|] eqn:HA; try exact Logic.I. destruct (SymMat_Calc cfg A) as [r B].
    unfold new_contents. destruct (o_data m); [|exact Logic.I]. destruct r; cbn [bind kept]; auto; now apply wf_update.
  - destruct (find_obj (o_vars o) a) as [m|] eqn:Ha; [|exact Logic.I]. cbn [bind]. destruct (let* A := contents E m in SymMat_Subs A vals) as [B|e|w| |w|]; try exact Logic.I.
    unfold new_contents. destruct (o_data m); [|exact Logic.I]. cbn [bind kept]. now apply wf_update.
  - destruct (find_obj (o_vars o) a) as [m|] eqn:Ha; [|exact Logic.I]. cbn [bind]. destruct (let* A := contents E m in SymMat_SubsTable A t) as [B|e|w| |w|]; try exact Logic.I.
    unfold new_contents. destruct (o_data m); [|exact Logic.I]. cbn [bind kept]. now apply wf_update.
  - destruct (find_obj (o_vars o) a) as [m|] eqn:Ha; [|exact Logic.I]. cbn [bind kept]. now apply wf_end.
  - destruct (find_obj (o_vars o) a) as [m|] eqn:Ha; [|exact Logic.I]. exact W.
  - destruct (find_obj (o_vars o) a) as [m|] eqn:Ha; [|exact Logic.I]. exact W.
  - destruct (find_obj (o_vars o) a) as [m|] eqn:Ha; [|exact Logic.I]. cbn [bind]. apply (kept_ask o E m (fun A => Ok (SymMat_Empty A)) (fun b => Ev (Bool b))). exact W.
  - destruct (find_obj (o_vars o) a) as [m|] eqn:Ha; [|exact Logic.I]. cbn [bind]. now apply kept_ask.
  - destruct (find_obj (o_vars o) a) as [m|] eqn:Ha; [|exact Logic.I]. cbn [bind]. now apply (kept_ask o E m SymMat_GetAllVarNames (fun l => Ev (Names l))).
  - destruct (find_obj (o_vars o) a) as [m|] eqn:Ha; [|exact Logic.I]. destruct (find_obj (o_vars o) b) as [m'|] eqn:Hb; [|exact Logic.I]. cbn [bind].
    now apply (kept_ask o E m (fun A => if String.eqb a b then let* _ := SymMat_Clone A in Ok true else let* B := contents E m' in SymMat_eq A B) (fun r => Ev (Bool r))).
  - destruct (find_obj (o_vars o) a) as [m|] eqn:Ha; [|exact Logic.I]. cbn [bind]. now apply (kept_ask o E m SymMat_ToString (fun t => Ev (Text t))).
Qed.

(** ** Whole programs *)
Theorem mrun_sim pick (Hpick : allocator pick) lf p : forall cfg o h E, wf o E -> holds h E [] ->
  match vmrun cfg p o E with
  | (evs, (Ok o', E')) => exists h', mrun pick lf cfg p o h = (evs, (Ok o', h')) /\ holds h' E' [] /\ wf o' E'
  | (evs, (Terminate, _)) => exists h', mrun pick lf cfg p o h = (evs, (Terminate, h'))
  | (evs, _) => exists evs' r, mrun pick lf cfg p o h = (evs ++ evs', r)
  end.
Proof.
  induction p as [|s p IH]; intros cfg o h E W Hh; cbn [mrun vmrun].
  - eauto.
  - pose proof (exec_sim pick Hpick cfg (mprog lf s o) h E Hh) as Ss. pose proof (step_agree cfg lf s o E W) as Ag.
    pose proof (wf_step cfg s o E W (holds_nodup _ _ _ Hh)) as Kp.
    destruct (vmstep cfg s o E) as [[[ev o1]|e|w| |w|] E1]; cbn [agree kept] in *.
    + rewrite Ag in Ss. destruct Ss as (a & h1 & Em & J & (-> & ->) & _ & Hh1). rewrite Em. specialize (IH (mconfig cfg s) o1 h1 E1 Kp Hh1).
      destruct (vmrun (mconfig cfg s) p o1 E1) as [evs [[o2|e|w| |w|] E2]].
      * destruct IH as (h2 & -> & IH). exists h2. auto.
      * destruct IH as (evs' & r & ->). now exists evs', r.
      * destruct IH as (evs' & r & ->). now exists evs', r.
      * destruct IH as (h2 & ->). now exists h2.
      * destruct IH as (evs' & r & ->). now exists evs', r.
      * destruct IH as (evs' & r & ->). now exists evs', r.
    + rewrite Ag in Ss. destruct Ss as (e' & h1 & Em & Hk & Hh1). rewrite Em, Hk. specialize (IH (mconfig cfg s) o h1 E1 Kp Hh1).
      destruct (vmrun (mconfig cfg s) p o E1) as [evs [[o2|e0|w| |w|] E2]].
      * destruct IH as (h2 & -> & IH). exists h2. auto.
      * destruct IH as (evs' & r & ->). now exists evs', r.
      * destruct IH as (evs' & r & ->). now exists evs', r.
      * destruct IH as (h2 & ->). now exists h2.
      * destruct IH as (evs' & r & ->). now exists evs', r.
      * destruct IH as (evs' & r & ->). now exists evs', r.
    + cbn [app]. match goal with |- context [?t = (_, _)] => destruct t as [evs' r] end. now exists evs', r.
    + destruct Ag as (E2 & Ag). rewrite Ag in Ss. destruct Ss as (h1 & ->). eauto.
    + cbn [app]. match goal with |- context [?t = (_, _)] => destruct t as [evs' r] end. now exists evs', r.
    + cbn [app]. match goal with |- context [?t = (_, _)] => destruct t as [evs' r] end. now exists evs', r.
Qed.
Lemma wf_empty : wf (MkObjs [] 0) (@nil (string * option expr)).
Proof.
  constructor; cbn.
  - constructor.
  - discriminate.
  - discriminate.
  - discriminate.
  - intros n H. now destruct H.
Qed.
End Run.
