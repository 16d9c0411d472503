(** Programs over matrices on the heap refine programs over matrices of values. *)
From Coq Require Import String Ascii List ZArith Bool Arith Lia.
From Verif Require Import Base MathOp NodeModel ToStringModel SubsModel DiffModel ExprSpec NodeProofs SubsSpec Thm_Node Thm_Subs
  MatModel MatProofs VarsTableModel SymMatModel SymMatProofs HeapModel HeapSpec HeapProofs TextSpec TextProofs ApiModel ApiSpec ApiProofs MemSpec Thm_Api SymHeapModel SymHeapSpec.
Import ListNotations.
Local Open Scope string_scope. Local Open Scope list_scope. Local Open Scope nat_scope.

(** ** Names *)
Lemma tally_length n : String.length (tally n) = n.
Proof. induction n; cbn; auto. Qed.
Lemma tally_inj n m : tally n = tally m -> n = m.
Proof. intros H. rewrite <- (tally_length n), <- (tally_length m). now f_equal. Qed.
Lemma tally_sep n : forall m s t, (tally n ++ String ","%char s)%string = (tally m ++ String ","%char t)%string -> n = m /\ s = t.
Proof.
  induction n as [|n IH]; intros [|m] s t; cbn; intros H; injection H; intros; subst; auto; try discriminate.
  destruct (IH _ _ _ H0). auto.
Qed.
Lemma elt_inj i k j l : elt i k = elt j l -> i = j /\ k = l.
Proof. unfold elt. intros H. injection H as H. apply tally_sep in H as [-> H]. apply tally_inj in H. auto. Qed.
Lemma elt_eqb i k j l : String.eqb (elt i k) (elt j l) = (i =? j) && (k =? l).
Proof.
  destruct (String.eqb_spec (elt i k) (elt j l)) as [H|H].
  - apply elt_inj in H as [-> ->]. now rewrite !Nat.eqb_refl.
  - destruct (Nat.eqb_spec i j) as [->|]; [|reflexivity]. destruct (Nat.eqb_spec k l) as [->|]; [congruence|reflexivity].
Qed.
Lemma temp_inj k l : temp_name k = temp_name l -> k = l.
Proof. unfold temp_name. intros [= H]. now apply tally_inj. Qed.

Section Sim.
Context {K : num_ops}.
Notation env := (env K).
Notation expr := (expr K).
Implicit Types E : env.

(** ** The meaning of a sequence of Node operations *)
Fixpoint vcleanup (cfg : config K) (l : list (stmt K)) : V (K:=K) unit :=
  match l with [] => vret tt | s :: l' => vbind (vstep cfg s) (fun _ => vcleanup cfg l') end.
Definition vguarded {A} (cfg : config K) (hd : handler K) (m : V (K:=K) A) : V (K:=K) A := fun E =>
  match m E with
  | (Throw e, E') => match hd with NoExcept => (Terminate, E') | Rethrow l => vbind (vcleanup cfg l) (fun _ => vfail (Throw e)) E' end
  | r => r
  end.
Fixpoint vexec {A} (cfg : config K) (p : prog K A) : V (K:=K) A :=
  match p with
  | PRet a => vret a
  | PFail r => vfail r
  | PStep s hd k => vbind (vguarded cfg hd (vstep cfg s)) (fun ev => vexec cfg (k ev))
  end.
Lemma vexec_bind {A B} cfg (p : prog K A) (f : A -> prog K B) E : vexec cfg (pbind p f) E = vbind (vexec cfg p) (fun a => vexec cfg (f a)) E.
Proof.
  revert E. induction p as [a|r|s hd k IH]; intros E; cbn [pbind vexec]; auto.
  - now destruct r.
  - unfold vbind at 1 3. unfold vbind at 1. destruct (vguarded cfg hd (vstep cfg s) E) as [[ev|e|w| |w|] E']; auto. rewrite IH. reflexivity.
Qed.

Section Heap.
Variable pick : heap K -> addr.
Hypothesis Hpick : allocator pick.
Lemma cleanup_sim cfg l : forall h E, holds h E [] -> simr plain (cleanup pick cfg l) (vcleanup cfg l E) [] h.
Proof.
  induction l as [|s l IH]; intros h E Hh; cbn [cleanup vcleanup].
  - now apply simr_done.
  - eapply simr_bind; [now apply step_sim|]. intros a b J h' E' (-> & ->) _ Hh'. now apply IH.
Qed.
Lemma guarded_sim {A} cfg hd (m : M (K:=K) A) (v : V (K:=K) A) h E : simr plain m (v E) [] h -> simr plain (guarded pick cfg hd m) (vguarded cfg hd v E) [] h.
Proof.
  intros S. unfold vguarded. destruct (v E) as [[a|e|w| |w|] E']; cbn [simr] in S.
  - destruct S as (a' & h' & Em & Q). exists a', h'. split; [|exact Q]. destruct hd; unfold guarded, on_throw; now rewrite Em.
  - destruct S as (e' & h' & Em & Hk & Hh). destruct hd as [l|].
    + pose proof (cleanup_sim cfg l h' E' Hh) as Sc. unfold vbind. destruct (vcleanup cfg l E') as [[[]|e2|w| |w|] E2]; cbn [simr vfail] in *; auto.
      * destruct Sc as (a & h2 & Ec & J & (-> & ->) & _ & Hh2). exists e', h2. split; [|auto]. unfold guarded, on_throw. rewrite Em. unfold bindM. now rewrite Ec.
      * destruct Sc as (e3 & h2 & Ec & Hk2 & Hh2). exists e3, h2. split; [|auto]. unfold guarded, on_throw. rewrite Em. unfold bindM. now rewrite Ec.
      * destruct Sc as (h2 & Ec). exists h2. unfold guarded, on_throw. rewrite Em. unfold bindM. now rewrite Ec.
    + cbn. exists h'. unfold guarded. now rewrite Em.
  - exact I.
  - destruct S as (h' & Em). exists h'. destruct hd; unfold guarded, on_throw; now rewrite Em.
  - exact I.
  - exact I.
Qed.
Theorem exec_sim {A} cfg (p : prog K A) : forall h E, holds h E [] -> simr plain (exec pick cfg p) (vexec cfg p E) [] h.
Proof.
  induction p as [a|r|s hd k IH]; intros h E Hh; cbn [exec vexec].
  - now apply simr_done.
  - unfold vfail. destruct r as [a|e|w| |w|]; cbn [simr]; auto.
    + exists a, h. split; [reflexivity|]. exists []. repeat split; auto.
    + exists e, h. auto.
    + exists h. reflexivity.
  - eapply simr_bind; [apply guarded_sim; now apply step_sim|]. intros a b J h' E' (-> & ->) _ Hh'. now apply IH.
Qed.
End Heap.

(** ** Environments *)
Fixpoint al (id s : nat) (l : list (node K)) E : env :=
  match l with [] => E | t :: l' => al id (S s) l' ((elt id s, expression_of t) :: E) end.
Fixpoint upd (id s : nat) (l : list (node K)) E : env :=
  match l with [] => E | t :: l' => upd id (S s) l' (set E (elt id s) (expression_of t)) end.
Fixpoint rel (id s m : nat) E : env :=
  match m with O => E | S m' => rel id (S s) m' (drop_var E (elt id s)) end.

Lemma al_alloc id s l E : al id s l E = rev (map (fun k => (elt id k, expression_of (nth (k - s) l Nil))) (seq s (length l))) ++ E.
Proof.
  revert s E. induction l as [|t l IH]; intros s E; cbn [al length seq map rev]; [reflexivity|].
  rewrite IH, <- app_assoc, Nat.sub_diag. cbn [nth app]. do 2 f_equal. apply map_ext_in. intros k Hk. apply in_seq in Hk.
  replace (k - s) with (S (k - S s)) by lia. reflexivity.
Qed.
Lemma alloc_al id A E : alloc id A E = al id 0 (s_data A) E.
Proof. rewrite al_alloc. unfold alloc, entry. do 2 f_equal. apply map_ext. intros k. now rewrite Nat.sub_0_r. Qed.
Lemma fold_ext_in {A B} (f g : B -> A -> B) l : (forall b a, In a l -> f b a = g b a) -> forall b, fold_left f l b = fold_left g l b.
Proof. induction l as [|a l IH]; intros H b; cbn; [reflexivity|]. rewrite H by now left. apply IH. intros b' a' Ha. apply H. now right. Qed.
Lemma upd_update id s l E : upd id s l E = fold_left (fun E k => set E (elt id k) (expression_of (nth (k - s) l Nil))) (seq s (length l)) E.
Proof.
  revert s E. induction l as [|t l IH]; intros s E; cbn [upd length seq fold_left]; [reflexivity|].
  rewrite IH, Nat.sub_diag. cbn [nth]. apply fold_ext_in. intros E' k Hk. apply in_seq in Hk.
  replace (k - s) with (S (k - S s)) by lia. reflexivity.
Qed.
Lemma update_upd id A E : update id A E = upd id 0 (s_data A) E.
Proof. rewrite upd_update. unfold update, entry. apply fold_ext_in. intros E' k _. now rewrite Nat.sub_0_r. Qed.
Lemma rel_fold id s m E : rel id s m E = fold_left (fun E k => drop_var E (elt id k)) (seq s m) E.
Proof. revert s E. induction m as [|m IH]; intros s E; cbn; auto. Qed.

Lemma get_cons E x y v : get ((y, v) :: E) x = if String.eqb x y then Some v else get E x.
Proof. reflexivity. Qed.
Lemma get_al_out id l x : forall s E, (forall k, s <= k < s + length l -> x <> elt id k) -> get (al id s l E) x = get E x.
Proof.
  induction l as [|t l IH]; intros s E H; cbn [al]; [reflexivity|]. cbn [length] in H. rewrite IH by (intros; apply H; lia).
  rewrite get_cons. destruct (String.eqb_spec x (elt id s)) as [->|]; [|reflexivity]. exfalso. apply (H s); [lia|reflexivity].
Qed.
Lemma get_al_in id l : forall s k E, k < length l -> get (al id s l E) (elt id (s + k)) = Some (expression_of (nth k l Nil)).
Proof.
  induction l as [|t l IH]; intros s k E H; cbn [length] in H; [lia|]. cbn [al]. destruct k as [|k].
  - rewrite Nat.add_0_r, get_al_out by (intros k Hk He; apply elt_inj in He; lia). rewrite get_cons, String.eqb_refl. reflexivity.
  - replace (s + S k) with (S s + k) by lia. rewrite IH by lia. reflexivity.
Qed.
Lemma set_cons_ne E x y v w : x <> y -> set ((y, w) :: E) x v = (y, w) :: set E x v.
Proof. intros H. cbn. destruct (String.eqb_spec x y); congruence. Qed.
Lemma set_al_out id l x v : forall s E, (forall k, s <= k < s + length l -> x <> elt id k) -> set (al id s l E) x v = al id s l (set E x v).
Proof.
  induction l as [|t l IH]; intros s E H; cbn [al]; [reflexivity|]. cbn [length] in H. rewrite IH by (intros; apply H; lia).
  rewrite set_cons_ne; [reflexivity|]. apply H. lia.
Qed.
Lemma drop_al_out id l x : forall s E, (forall k, s <= k < s + length l -> x <> elt id k) -> drop_var (al id s l E) x = al id s l (drop_var E x).
Proof.
  induction l as [|t l IH]; intros s E H; cbn [al]; [reflexivity|]. cbn [length] in H. rewrite IH by (intros; apply H; lia).
  cbn. destruct (String.eqb_spec x (elt id s)) as [->|]; [|reflexivity]. exfalso. apply (H s); [lia|reflexivity].
Qed.
Lemma set_al id l1 t l2 : forall s E u, set (al id s (l1 ++ t :: l2) E) (elt id (s + length l1)) (expression_of u) = al id s (l1 ++ u :: l2) E.
Proof.
  induction l1 as [|a l1 IH]; intros s E u; cbn [app al length].
  - rewrite Nat.add_0_r, set_al_out by (intros k Hk He; apply elt_inj in He; lia). cbn. now rewrite String.eqb_refl.
  - replace (s + S (length l1)) with (S s + length l1) by lia. apply IH.
Qed.
Lemma rel_al id l : forall s E, rel id s (length l) (al id s l E) = E.
Proof.
  induction l as [|t l IH]; intros s E; cbn [length rel al]; [reflexivity|].
  rewrite drop_al_out by (intros k Hk He; apply elt_inj in He; lia). cbn. rewrite String.eqb_refl. apply IH.
Qed.
Lemma rel_al_other id id' l' s' : id <> id' -> forall m s E, rel id s m (al id' s' l' E) = al id' s' l' (rel id s m E).
Proof.
  intros Hne. induction m as [|m IH]; intros s E; cbn [rel]; [reflexivity|].
  rewrite drop_al_out by (intros k Hk He; apply elt_inj in He; lia). apply IH.
Qed.

(** ** Loops *)
Lemma vbind_Ok {A B} (m : V (K:=K) A) (f : A -> V B) E a E' : m E = (Ok a, E') -> vbind m f E = f a E'.
Proof. unfold vbind. now intros ->. Qed.
Lemma vexec_act cfg hd s E ev E' : vstep cfg s E = (Ok ev, E') -> vexec cfg (act hd s) E = (Ok tt, E').
Proof. intros H. unfold act. cbn [vexec]. unfold vbind, vguarded. rewrite H. reflexivity. Qed.
Lemma vexec_act_noexcept cfg s E r E' : vstep cfg s E = (r, E') -> match r with Throw _ | Terminate => True | _ => False end ->
  vexec cfg (act NoExcept s) E = (Terminate, E').
Proof. intros H Hr. unfold act. cbn [vexec]. unfold vbind, vguarded. rewrite H. destruct r; try contradiction; reflexivity. Qed.

Lemma new_array_ok cfg id m : forall s E, (forall k, s <= k -> get E (elt id k) = None) ->
  vexec cfg (pfor (seq s m) (fun k => act NoExcept (DeclareEmpty (elt id k)))) E = (Ok tt, al id s (repeat Nil m) E).
Proof.
  induction m as [|m IH]; intros s E H; cbn [seq pfor repeat al]; [reflexivity|].
  rewrite vexec_bind. erewrite vbind_Ok; [|eapply vexec_act; cbn [vstep]; unfold vbind, vdeclare; rewrite H by lia; reflexivity].
  apply IH. intros k Hk. rewrite get_cons. destruct (String.eqb_spec (elt id k) (elt id s)) as [He|_]; [apply elt_inj in He; lia|]. apply H. lia.
Qed.
Definition fresh (id : nat) E : Prop := forall k, get E (elt id k) = None.
Lemma make_ok cfg o r c E : 0 < r -> 0 < c -> fresh (o_next o) E ->
  vexec cfg (make o r c) E = (Ok (MkObj r c (Some (o_next o)), MkObjs (o_vars o) (S (o_next o))), al (o_next o) 0 (repeat Nil (r * c)) E).
Proof.
  intros Hr Hc F. unfold make. destruct (Nat.ltb_spec 0 r); [|lia]. destruct (Nat.ltb_spec 0 c); [|lia]. cbn [andb].
  rewrite vexec_bind. unfold new_array. erewrite vbind_Ok; [|apply new_array_ok; intros; apply F]. reflexivity.
Qed.

(** Assignments to the elements of a new array, one after the other. *)
Definition same_others (id : nat) (E E' : env) : Prop := forall x, (forall j, x <> elt id j) -> get E' x = get E x.
Lemma assign_loop cfg id E (g : nat -> res (node K)) (body : nat -> prog K unit) m : forall pre,
  (forall k E', length pre <= k < length pre + m -> same_others id E E' -> get E' (elt id k) <> None ->
     match g k with
     | Ok t => vexec cfg (body k) E' = (Ok tt, set E' (elt id k) (expression_of t))
     | Throw _ | Terminate => exists E2, vexec cfg (body k) E' = (Terminate, E2)
     | _ => True
     end) ->
  match mapM g (seq (length pre) m) with
  | Ok d => vexec cfg (pfor (seq (length pre) m) body) (al id 0 (pre ++ repeat Nil m) E) = (Ok tt, al id 0 (pre ++ d) E)
  | Throw _ | Terminate => exists E2, vexec cfg (pfor (seq (length pre) m) body) (al id 0 (pre ++ repeat Nil m) E) = (Terminate, E2)
  | _ => True
  end.
Proof.
  induction m as [|m IH]; intros pre H; cbn [seq mapM pfor repeat].
  - reflexivity.
  - pose proof (H (length pre) (al id 0 (pre ++ Nil :: repeat Nil m) E)) as Hb.
    assert (S0 : same_others id E (al id 0 (pre ++ Nil :: repeat Nil m) E)) by (intros x Hx; apply get_al_out; auto).
    assert (G0 : get (al id 0 (pre ++ Nil :: repeat Nil m) E) (elt id (length pre)) <> None).
    { change (elt id (length pre)) with (elt id (0 + length pre)). rewrite get_al_in; [discriminate|]. rewrite app_length. cbn. lia. }
    specialize (Hb ltac:(lia) S0 G0). destruct (g (length pre)) as [t|e|w| |w|]; cbn [bind]; auto.
    + specialize (IH (pre ++ [t])). rewrite app_length in IH. cbn [length] in IH.
      replace (length pre + 1) with (S (length pre)) in IH by lia.
      assert (Hx : vexec cfg (pbind (body (length pre)) (fun _ => pfor (seq (S (length pre)) m) body)) (al id 0 (pre ++ Nil :: repeat Nil m) E) =
        vexec cfg (pfor (seq (S (length pre)) m) body) (al id 0 ((pre ++ [t]) ++ repeat Nil m) E)).
      { rewrite vexec_bind. erewrite vbind_Ok by exact Hb. f_equal. rewrite <- app_assoc. cbn [app]. exact (set_al id pre Nil (repeat Nil m) 0 E t). }
      specialize (IH ltac:(intros k E' Hk; apply H; lia)). destruct (mapM g (seq (S (length pre)) m)) as [d|e|w| |w|]; cbn [bind]; auto.
      * rewrite Hx, IH, <- app_assoc. reflexivity.
      * destruct IH as (E2 & IH). exists E2. now rewrite Hx.
      * destruct IH as (E2 & IH). exists E2. now rewrite Hx.
    + destruct Hb as (E2 & Hb). exists E2. rewrite vexec_bind. unfold vbind. now rewrite Hb.
    + destruct Hb as (E2 & Hb). exists E2. rewrite vexec_bind. unfold vbind. now rewrite Hb.
Qed.
(** A new array, all elements assigned. *)
Lemma make_assign cfg o r c E (g : nat -> res (node K)) (body : nat -> prog K unit) :
  0 < r -> 0 < c -> fresh (o_next o) E ->
  (forall k E', k < r * c -> same_others (o_next o) E E' -> get E' (elt (o_next o) k) <> None ->
     match g k with
     | Ok t => vexec cfg (body k) E' = (Ok tt, set E' (elt (o_next o) k) (expression_of t))
     | Throw _ | Terminate => exists E2, vexec cfg (body k) E' = (Terminate, E2)
     | _ => True
     end) ->
  match mapM g (seq 0 (r * c)) with
  | Ok d => vexec cfg (pbind (make o r c) (fun mo => pbind (pfor (seq 0 (r * c)) body) (fun _ => PRet mo))) E =
      (Ok (MkObj r c (Some (o_next o)), MkObjs (o_vars o) (S (o_next o))), al (o_next o) 0 d E)
  | Throw _ | Terminate => exists E2, vexec cfg (pbind (make o r c) (fun mo => pbind (pfor (seq 0 (r * c)) body) (fun _ => PRet mo))) E = (Terminate, E2)
  | _ => True
  end.
Proof.
  intros Hr Hc F H. pose proof (assign_loop cfg (o_next o) E g body (r * c) []) as L. cbn [length app] in L.
  specialize (L ltac:(intros k E' Hk; apply H; lia)). rewrite vexec_bind. erewrite vbind_Ok by now apply make_ok. rewrite vexec_bind. unfold vbind.
  destruct (mapM g (seq 0 (r * c))) as [d|e|w| |w|]; auto.
  - now rewrite L.
  - destruct L as (E2 & ->). now exists E2.
  - destruct L as (E2 & ->). now exists E2.
Qed.

(** ** New matrices *)
Definition calm {A} (r : res A) : Prop := match r with Throw _ | Terminate => False | _ => True end.
Lemma calm_bind {A B} (r : res A) (f : A -> res B) : calm r -> (forall a, r = Ok a -> calm (f a)) -> calm (bind r f).
Proof. destruct r; cbn; auto. Qed.
Lemma calm_mapM {A B} (f : A -> res B) l : (forall a, In a l -> calm (f a)) -> calm (mapM f l).
Proof.
  induction l as [|a l IH]; intros H; cbn [mapM]; [exact I|]. apply calm_bind; [apply H; now left|]. intros b _.
  apply calm_bind; [apply IH; intros; apply H; now right|]. intros; exact I.
Qed.
Lemma calm_foldM {A B} (f : B -> A -> res B) l : (forall b a, In a l -> calm (f b a)) -> forall b, calm (foldM f l b).
Proof.
  induction l as [|a l IH]; intros H b; cbn [foldM]; [exact I|]. apply calm_bind; [apply H; now left|]. intros b' _.
  apply IH. intros; apply H; now right.
Qed.
Lemma calm_va_get {A} (d : list A) k : calm (va_get d k).
Proof. unfold va_get. now destruct (nth_error d k). Qed.
Lemma calm_va_set {A} (d : list A) : forall k a, calm (va_set d k a).
Proof. induction d as [|x d IH]; intros [|k] a; cbn [va_set]; try exact I. apply calm_bind; [apply IH|]. intros; exact I. Qed.
Lemma calm_clone (n : node K) : calm (clone_elem n). Proof. now destruct n. Qed.
Lemma calm_binary op (a b : node K) : calm (BinaryOperator op a b). Proof. now destruct a, b. Qed.
Lemma calm_make r c : calm (SymMat_make (K:=K) r c). Proof. unfold SymMat_make. now destruct (_ && _)%bool. Qed.

Definition builds cfg (o : objs) E (p : prog K (mobj * objs)) (A : res (symmat K)) : Prop :=
  match A with
  | Ok A => vexec cfg p E = (Ok (MkObj (s_rows A) (s_cols A) (Some (o_next o)), MkObjs (o_vars o) (S (o_next o))), al (o_next o) 0 (s_data A) E) /\
      length (s_data A) = s_rows A * s_cols A
  | Throw e => vexec cfg p E = (Throw e, E)
  | Terminate => exists E', vexec cfg p E = (Terminate, E')
  | _ => True
  end.
Definition agree {A} (r s : res A * env) : Prop :=
  match s with
  | (Ok _, _) | (Throw _, _) => r = s
  | (Terminate, _) => exists E', r = (Terminate, E')
  | _ => True
  end.
Lemma builds_declared cfg o E p A c : builds cfg o E p A -> agree (vexec cfg (pbind p (declared c)) E) (new_matrix 0 c A o E).
Proof.
  intros B. unfold new_matrix. destruct A as [A|e|w| |w|]; cbn [builds] in B; cbn [agree]; auto.
  - destruct B as [B _]. rewrite vexec_bind, (vbind_Ok _ _ _ _ _ B). unfold declared, declare. cbn [fst snd o_vars o_next].
    rewrite Nat.add_0_r. destruct (find_obj (o_vars o) c); cbn [agree]; [exact I|]. rewrite alloc_al. reflexivity.
  - rewrite vexec_bind. unfold vbind. now rewrite B.
  - destruct B as (E' & B). exists E'. rewrite vexec_bind. unfold vbind. now rewrite B.
Qed.

(** The contents of a matrix. *)
Lemma contents_inv E m A : contents E m = Ok A -> exists id, o_data m = Some id /\ s_rows A = o_rows m /\ s_cols A = o_cols m /\
  s_data A = map (element E id) (seq 0 (size m)).
Proof. unfold contents, the_data. destruct (o_data m) as [id|]; [|discriminate]. cbn. intros [= <-]. exists id. auto. Qed.
Lemma get_contents E id n k : va_get (map (element E id) (seq 0 n)) k = if k <? n then Ok (element E id k) else Undef "valarray index out of range".
Proof.
  unfold va_get. destruct (Nat.ltb_spec k n) as [H|H].
  - rewrite nth_error_map. rewrite (nth_error_nth' _ 0) by now rewrite seq_length. rewrite seq_nth by exact H. reflexivity.
  - rewrite (proj2 (nth_error_None _ _)); [reflexivity|]. now rewrite map_length, seq_length.
Qed.
Lemma element_cases E id k : (exists e, get E (elt id k) = Some (Some e) /\ element E id k = embed e) \/ element E id k = Nil.
Proof. unfold element. destruct (get E (elt id k)) as [[e|]|]; eauto. Qed.
Lemma same_elt id E E' i k : same_others id E E' -> i <> id -> get E' (elt i k) = get E (elt i k).
Proof. intros H Hi. apply H. intros j He. apply elt_inj in He. tauto. Qed.
Lemma assign_value cfg id k e E' v : get E' (elt id k) <> None -> veval cfg e E' = (Ok v, E') ->
  vexec cfg (act NoExcept (Assign (elt id k) e)) E' = (Ok tt, set E' (elt id k) v).
Proof.
  intros G H. eapply vexec_act with (ev := Done). cbn [vstep]. rewrite (vbind_Ok _ _ _ _ _ H). unfold vbind, vset.
  destruct (get E' (elt id k)); [reflexivity|congruence].
Qed.
Lemma embed_inv (t : node K) e : t = embed e -> expression_of t = Some e.
Proof. intros ->. apply expression_of_embed. Qed.

Lemma Forall2_len {A B} (R : A -> B -> Prop) l l' : Forall2 R l l' -> length l' = length l.
Proof. induction 1; cbn; auto. Qed.
Lemma mapM_length {A B} (f : A -> res B) l d : mapM f l = Ok d -> length d = length l.
Proof. intros H. apply mapM_Ok in H. now apply Forall2_len in H. Qed.

(** A function that makes an array and assigns to all its elements. *)
Lemma builds_make cfg o r c E (g : nat -> res (node K)) (body : nat -> prog K unit) (A : res (symmat K)) :
  fresh (o_next o) E ->
  (0 < r -> 0 < c -> forall k E', k < r * c -> same_others (o_next o) E E' -> get E' (elt (o_next o) k) <> None ->
     match g k with
     | Ok t => vexec cfg (body k) E' = (Ok tt, set E' (elt (o_next o) k) (expression_of t))
     | Throw _ | Terminate => exists E2, vexec cfg (body k) E' = (Terminate, E2)
     | _ => True
     end) ->
  (A = let* _ := SymMat_make (K:=K) r c in let* d := noexcept (mapM g (seq 0 (r * c))) in Ok (MkSym r c d)) ->
  builds cfg o E (pbind (make o r c) (fun mo => pbind (pfor (seq 0 (r * c)) body) (fun _ => PRet mo))) A.
Proof.
  intros F H ->. unfold SymMat_make. destruct (Nat.ltb_spec 0 r) as [Hr|Hr]; cbn [andb]; [|exact I]. destruct (Nat.ltb_spec 0 c) as [Hc|Hc]; [|exact I].
  pose proof (make_assign cfg o r c E g body Hr Hc F (H Hr Hc)) as M. cbn [bind].
  destruct (mapM g (seq 0 (r * c))) as [d|e|w| |w|] eqn:Eg; cbn [noexcept bind builds s_rows s_cols s_data]; auto.
  split; [exact M|]. apply mapM_length in Eg. now rewrite Eg, seq_length.
Qed.
Lemma noexcept_calm {A} (r : res A) : calm r -> noexcept r = r.
Proof. destruct r; cbn; tauto. Qed.
(** The same with the array inspected in between. *)
Lemma builds_ext cfg o E p q A : vexec cfg p E = vexec cfg q E -> builds cfg o E p A -> builds cfg o E q A.
Proof. intros H. unfold builds. now rewrite H. Qed.
Lemma vbind_ext_at {A B} (m m' : V (K:=K) A) (f g : A -> V (K:=K) B) E : m E = m' E -> (forall a E', f a E' = g a E') -> vbind m f E = vbind m' g E.
Proof. intros H1 H2. unfold vbind. rewrite H1. destruct (m' E) as [[a|e|w| |w|] E']; auto. Qed.
Lemma data_step cfg {A B} (p : prog K A) (m : mobj) id (f : A -> nat -> prog K B) E : o_data m = Some id ->
  vexec cfg (pbind p (fun a => pbind (PFail (the_data m)) (f a))) E = vexec cfg (pbind p (fun a => f a id)) E.
Proof. intros H. unfold the_data. rewrite H. cbn [pbind]. reflexivity. Qed.

Lemma length_make r c (s : symmat K) : SymMat_make r c = Ok s -> length (s_data s) = r * c /\ s_rows s = r /\ s_cols s = c.
Proof. unfold SymMat_make. destruct (_ && _)%bool; [|discriminate]. intros [= <-]. cbn. now rewrite repeat_length. Qed.

Lemma clone_step cfg E E' ia id k n : same_others id E E' -> ia <> id -> get E' (elt id k) <> None ->
  match (let* t := va_get (map (element E ia) (seq 0 n)) k in clone_elem t) with
  | Ok t => vexec cfg (act NoExcept (Assign (elt id k) (XClone (Lvalue (elt ia k))))) E' = (Ok tt, set E' (elt id k) (expression_of t))
  | Throw _ | Terminate => exists E2, vexec cfg (act NoExcept (Assign (elt id k) (XClone (Lvalue (elt ia k))))) E' = (Terminate, E2)
  | _ => True
  end.
Proof.
  intros So Hne G. rewrite get_contents. destruct (k <? n); [|exact I]. cbn [bind].
  destruct (element_cases E ia k) as [(e & Ge & ->)| ->]; [|exact I].
  assert (Hc : clone_elem (embed e) = Ok (embed e)) by now destruct e. rewrite Hc, expression_of_embed. apply assign_value; [exact G|].
  cbn [veval veval_arg]. unfold vbind. cbn [vret vpeek]. unfold vbind, vget. rewrite (same_elt id _ _ _ _ So Hne), Ge. reflexivity.
Qed.
Lemma builds_of_make cfg o r c E : fresh (o_next o) E -> builds cfg o E (make o r c) (SymMat_make r c).
Proof.
  intros F. unfold SymMat_make. destruct (Nat.ltb_spec 0 r) as [Hr|Hr]; cbn [andb]; [|exact I]. destruct (Nat.ltb_spec 0 c) as [Hc|Hc]; [|exact I].
  cbn [builds s_rows s_cols s_data]. split; [now apply make_ok|]. apply repeat_length.
Qed.
Lemma builds_one_by_one cfg o m E A : fresh (o_next o) E -> contents E m = Ok A -> o_data m <> Some (o_next o) ->
  builds cfg o E (to_vec_one_by_one o m) (ToSymVecOneByOne A).
Proof.
  intros F HA Hne. apply contents_inv in HA as (ia & Hd & Hr & Hc & Ha). unfold to_vec_one_by_one.
  refine (builds_ext _ _ _ _ _ _ (eq_sym (data_step _ _ _ _ _ _ Hd)) _). unfold generate. 
  eapply builds_make; [exact F| |].
  - intros _ _ k E' Hk So G. pose proof (clone_step cfg E E' ia (o_next o) k (size m) So ltac:(congruence) G) as S. exact S.
  - unfold ToSymVecOneByOne. rewrite Hr, Hc, Ha. destruct (SymMat_make (K:=K) (o_rows m * o_cols m) 1) as [s|e|w| |w|] eqn:Es; auto.
    apply length_make in Es as (El & Er & Ec). cbn [bind]. rewrite ?El, ?Er, ?Ec. rewrite noexcept_calm; [reflexivity|]. apply calm_mapM. intros k _.
    apply calm_bind; [apply calm_va_get|]. intros; apply calm_clone.
Qed.
Lemma builds_clone cfg o m E A : fresh (o_next o) E -> contents E m = Ok A -> o_data m <> Some (o_next o) ->
  builds cfg o E (clone o m) (SymMat_Clone A).
Proof.
  intros F HA Hne. apply contents_inv in HA as (ia & Hd & Hr & Hc & Ha). unfold clone.
  refine (builds_ext _ _ _ _ _ _ (eq_sym (data_step _ _ _ _ _ _ Hd)) _). unfold generate. 
  eapply builds_make; [exact F| |].
  - intros _ _ k E' Hk So G. pose proof (clone_step cfg E E' ia (o_next o) k (size m) So ltac:(congruence) G) as S. exact S.
  - unfold SymMat_Clone. rewrite Hr, Hc, Ha. destruct (SymMat_make (K:=K) (o_rows m) (o_cols m)) as [s|e|w| |w|] eqn:Es; auto.
    apply length_make in Es as (El & Er & Ec). cbn [bind]. rewrite ?El, ?Er, ?Ec. rewrite noexcept_calm; [reflexivity|]. apply calm_mapM. intros k _.
    apply calm_bind; [apply calm_va_get|]. intros; apply calm_clone.
Qed.
Lemma builds_to_vec cfg o m E A : fresh (o_next o) E -> contents E m = Ok A -> o_data m <> Some (o_next o) ->
  builds cfg o E (to_vec o m) (ToSymVec A).
Proof.
  intros F HA Hne. unfold to_vec, ToSymVec. pose proof (contents_inv _ _ _ HA) as (ia & Hd & Hr & Hc & Ha). rewrite Hr, Hc.
  destruct (o_rows m =? 0); [exact I|]. destruct (o_cols m =? 1); [now apply builds_one_by_one|]. reflexivity.
Qed.
Lemma bin_eval cfg lf b E e1 e2 x y : get E x = Some (Some e1) -> get E y = Some (Some e2) ->
  veval (K:=K) cfg (XBin lf b (Lvalue x) (Lvalue y)) E = (Ok (Some (EBin b e1 e2)), E).
Proof.
  intros G1 G2. cbn [veval veval_arg]. destruct lf; unfold vbind; cbn [vret fst snd vtake vpeek]; unfold vbind, vget; rewrite G1; cbn [nonempty vret];
    rewrite G2; reflexivity.
Qed.
Lemma builds_sub cfg lf o m m' E A B : fresh (o_next o) E -> contents E m = Ok A -> contents E m' = Ok B ->
  o_data m <> Some (o_next o) -> o_data m' <> Some (o_next o) ->
  builds cfg o E (sub lf o m m') (SymMat_sub A B).
Proof.
  intros F HA HB Hne Hne'. apply contents_inv in HA as (ia & Hd & Hr & Hc & Ha). apply contents_inv in HB as (ib & Hd' & Hr' & Hc' & Hb).
  unfold sub, SymMat_sub. rewrite Hr, Hr', Hc, Hc'. destruct ((o_rows m' =? o_rows m) && (o_cols m' =? o_cols m))%bool eqn:Es; [|exact I].
  refine (builds_ext _ _ _ _ _ _ (eq_sym (data_step _ _ _ _ _ _ Hd)) _).
  refine (builds_ext _ _ _ _ _ _ (eq_sym (data_step _ _ _ _ _ _ Hd')) _). unfold generate.
  eapply builds_make; [exact F| |].
  - intros _ _ k E' Hk So G.
    pose (g := fun k => let* a := va_get (s_data A) k in let* b := va_get (s_data B) k in BinaryOperator MATH_SUB a b). 
    enough (Hg : match g k with
     | Ok t => vexec cfg (act NoExcept (Assign (elt (o_next o) k) (XBin lf BSub (Lvalue (elt ia k)) (Lvalue (elt ib k))))) E' = (Ok tt, set E' (elt (o_next o) k) (expression_of t))
     | Throw _ | Terminate => exists E2, vexec cfg (act NoExcept (Assign (elt (o_next o) k) (XBin lf BSub (Lvalue (elt ia k)) (Lvalue (elt ib k))))) E' = (Terminate, E2)
     | _ => True
     end) by exact Hg. unfold g. rewrite Ha, Hb, !get_contents. destruct (k <? size m); [|exact I]. destruct (k <? size m'); [|exact I]. cbn [bind].
    destruct (element_cases E ia k) as [(e & Ge & ->)| ->]; [|exact I]. destruct (element_cases E ib k) as [(e' & Ge' & ->)| ->]; [|now destruct e].
    change MATH_SUB with (binop_op BSub). rewrite C08_value_binary, expression_of_embed. apply assign_value; [exact G|]. apply bin_eval.
    + now rewrite (same_elt _ _ _ ia _ So) by congruence.
    + now rewrite (same_elt _ _ _ ib _ So) by congruence.
  - destruct (SymMat_make (K:=K) (o_rows m) (o_cols m)) as [s|e|w| |w|] eqn:Ek; auto.
    apply length_make in Ek as (El & _ & _). cbn [bind]. rewrite El. rewrite noexcept_calm; [reflexivity|]. apply calm_mapM. intros k _.
    apply calm_bind; [apply calm_va_get|]. intros a _. apply calm_bind; [apply calm_va_get|]. intros; apply calm_binary.
Qed.
Lemma builds_of_mat cfg o E (M : mat K) : fresh (o_next o) E -> builds cfg o E (of_mat o M) (SymMat_of_Mat M).
Proof.
  intros F. unfold of_mat, SymMat_of_Mat. eapply builds_make with (g := fun k => let* v := va_get (m_data M) k in Ok (mkNum v)); [exact F| |].
  - intros _ _ k E' Hk So G. destruct (va_get (m_data M) k) as [v|e|w| |w|] eqn:Ev; cbn [bind pbind]; auto.
    + change (mkNum v) with (embed (ENum v)). rewrite expression_of_embed. now apply assign_value.
    + pose proof (calm_va_get (m_data M) k) as C. rewrite Ev in C. destruct C.
    + pose proof (calm_va_get (m_data M) k) as C. rewrite Ev in C. destruct C.
  - destruct (SymMat_make (K:=K) (m_rows M) (m_cols M)) as [s|e|w| |w|] eqn:Es; auto.
    apply length_make in Es as (El & Er & Ec). cbn [bind]. rewrite ?El, ?Er, ?Ec. rewrite noexcept_calm; [reflexivity|]. apply calm_mapM. intros k _.
    apply calm_bind; [apply calm_va_get|]. intros; exact I.
Qed.
Lemma builds_jacobian cfg o m E A vars : fresh (o_next o) E -> contents E m = Ok A -> o_data m <> Some (o_next o) ->
  builds cfg o E (jacobian_of o m vars) (Jacobian cfg A vars).
Proof.
  intros F HA Hne. apply contents_inv in HA as (ia & Hd & Hr & Hc & Ha). unfold jacobian_of, Jacobian.
  refine (builds_ext _ _ _ _ _ _ (eq_sym (data_step _ _ _ _ _ _ Hd)) _).
  eapply builds_make with (g := fun k => let* e := va_get (s_data A) (k / length vars) in
      match nth_error vars (k mod length vars) with None => Undef "vector index out of range" | Some x => Diff cfg e x 1 end); [exact F| |].
  - intros _ _ k E' Hk So G. rewrite Ha, get_contents. destruct (k / length vars <? size m); [|exact I]. cbn [bind].
    destruct (nth_error vars (k mod length vars)) as [x|]; [|exact I].
    destruct (element_cases E ia (k / length vars)) as [(e & Ge & ->)| ->]; [|exact I].
    assert (Ht : forall E', get E' (elt ia (k / length vars)) = Some (Some e) -> veval cfg (XDiff (Lvalue (elt ia (k / length vars))) x 1) E' =
      vbind (vfail (expression (Diff cfg (embed e) x 1))) (fun e' => vret (Some e')) E').
    { intros E1 G1. cbn [veval veval_arg]. unfold vbind. cbn [vret vtake vpeek]. unfold vbind, vget. rewrite G1. reflexivity. }
    specialize (Ht E'). rewrite (same_elt _ _ _ ia _ So) in Ht by congruence. specialize (Ht Ge).
    pose proof (Diff_cases cfg e x 1) as C. destruct (Diff cfg (embed e) x 1) as [t|w|w| |w|]; cbn [bind expression] in Ht; auto.
    + destruct C as (e' & ->). rewrite expression_of_embed in *. now apply assign_value.
    + exists E'. eapply vexec_act_noexcept; [cbn [vstep]; unfold vbind at 1; rewrite Ht; reflexivity|exact I].
    + exists E'. eapply vexec_act_noexcept; [cbn [vstep]; unfold vbind at 1; rewrite Ht; reflexivity|exact I].
  - rewrite Hr. destruct (SymMat_make (K:=K) (o_rows m) (length vars)) as [s|e|w| |w|] eqn:Es; auto.
    apply length_make in Es as (El & _ & _). cbn [bind]. rewrite El. reflexivity.
Qed.

(** Loops that follow a fold. *)
Lemma pfor_foldM {A} cfg (P : A -> Prop) (envof : A -> env) (f : A -> nat -> res A) (body : nat -> prog K unit) l :
  (forall a k, In k l -> P a -> match f a k with
     | Ok a' => P a' /\ vexec cfg (body k) (envof a) = (Ok tt, envof a') | Throw _ | Terminate => False | _ => True end) ->
  forall a, P a -> match foldM f l a with
     | Ok a' => P a' /\ vexec cfg (pfor l body) (envof a) = (Ok tt, envof a') | Throw _ | Terminate => False | _ => True end.
Proof.
  induction l as [|k l IH]; intros H a Pa; cbn [foldM pfor]; [auto|].
  pose proof (H a k (or_introl eq_refl) Pa) as Hk. destruct (f a k) as [a1|e|w| |w|]; cbn [bind]; auto.
  destruct Hk as [Pa1 Ek]. specialize (IH ltac:(intros; apply H; auto; now right) a1 Pa1). destruct (foldM f l a1) as [a2|e|w| |w|]; auto.
  destruct IH as [Pa2 El]. split; [exact Pa2|]. rewrite vexec_bind. now rewrite (vbind_Ok _ _ _ _ _ Ek).
Qed.
Lemma va_set_split {A} (d : list A) : forall k a d', va_set d k a = Ok d' -> exists l1 x l2, d = l1 ++ x :: l2 /\ d' = l1 ++ a :: l2 /\ length l1 = k.
Proof.
  induction d as [|x d IH]; intros [|k] a d'; cbn [va_set]; try discriminate.
  - intros [= <-]. exists [], x, d. auto.
  - intros H. apply bind_Ok_inv in H as (w & Hw & [= <-]). destruct (IH _ _ _ Hw) as (l1 & y & l2 & -> & -> & <-). exists (x :: l1), y, l2. auto.
Qed.
Lemma va_set_al id E d k t d' : va_set d k t = Ok d' -> set (al id 0 d E) (elt id k) (expression_of t) = al id 0 d' E /\ length d' = length d /\ get (al id 0 d E) (elt id k) <> None.
Proof.
  intros H. destruct (va_set_split _ _ _ _ H) as (l1 & x & l2 & -> & -> & <-). split; [apply (set_al id l1 x l2 0)|]. split; [now rewrite !app_length|].
  change (elt id (length l1)) with (elt id (0 + length l1)). rewrite get_al_in; [discriminate|]. rewrite app_length. cbn. lia.
Qed.
Lemma local_not_elt x id k : local_name x <> elt id k. Proof. discriminate. Qed.
Lemma temp_not_elt j id k : temp_name j <> elt id k. Proof. discriminate. Qed.

Lemma builds_mul cfg lf o m m' E A B : fresh (o_next o) E -> get E (local_name "sum") = None -> contents E m = Ok A -> contents E m' = Ok B ->
  o_data m <> Some (o_next o) -> o_data m' <> Some (o_next o) ->
  builds cfg o E (mul lf o m m') (SymMat_mul A B).
Proof.
  intros F Gs HA HB Hne Hne'. apply contents_inv in HA as (ia & Hd & Hr & Hc & Ha). apply contents_inv in HB as (ib & Hd' & Hr' & Hc' & Hb).
  unfold mul, SymMat_mul. rewrite Hr, Hr', Hc, Hc'. destruct (o_cols m =? o_rows m'); cbn [negb]; [|reflexivity].
  refine (builds_ext _ _ _ _ _ _ (eq_sym (data_step _ _ _ _ _ _ Hd)) _).
  refine (builds_ext _ _ _ _ _ _ (eq_sym (data_step _ _ _ _ _ _ Hd')) _).
  unfold SymMat_make. destruct (Nat.ltb_spec 0 (o_rows m)) as [Hr0|]; cbn [andb]; [|exact I]. destruct (Nat.ltb_spec 0 (o_cols m')) as [Hc0|]; [|exact I]. cbn [bind].
  set (id := o_next o). set (sum := local_name "sum").
  set (P := fun X : symmat K => s_rows X = o_rows m /\ s_cols X = o_cols m' /\ length (s_data X) = o_rows m * o_cols m').
  set (envof := fun X : symmat K => al id 0 (s_data X) E).
  (* reading elements *)
  assert (Ra : forall i k X, calm (SymValue A i k) /\ (forall t, SymValue A i k = Ok t -> t = Nil \/
     exists e, t = embed e /\ get (envof X) (elt ia (i * o_cols m + k)) = Some (Some e) /\ forall v, get ((sum, v) :: envof X) (elt ia (i * o_cols m + k)) = Some (Some e))).
  { intros i k X. unfold SymValue. rewrite Hc. split; [apply calm_va_get|]. intros t. rewrite Ha, get_contents. destruct (_ <? _); [|discriminate]. intros [= <-].
    destruct (element_cases E ia (i * o_cols m + k)) as [(e & Ge & ->)| ->]; [right|now left]. exists e. split; [reflexivity|].
    assert (G : get (envof X) (elt ia (i * o_cols m + k)) = Some (Some e)).
    { unfold envof. rewrite get_al_out; [exact Ge|]. intros j _ He. apply elt_inj in He as [He _]. unfold id in He. congruence. }
    split; [exact G|]. intros v. rewrite get_cons. exact G. }
  assert (Rb : forall k j X, calm (SymValue B k j) /\ (forall t, SymValue B k j = Ok t -> t = Nil \/
     exists e, t = embed e /\ get (envof X) (elt ib (k * o_cols m' + j)) = Some (Some e) /\ forall v, get ((sum, v) :: envof X) (elt ib (k * o_cols m' + j)) = Some (Some e))).
  { intros k j X. unfold SymValue. rewrite Hc'. split; [apply calm_va_get|]. intros t. rewrite Hb, get_contents. destruct (_ <? _); [|discriminate]. intros [= <-].
    destruct (element_cases E ib (k * o_cols m' + j)) as [(e & Ge & ->)| ->]; [right|now left]. exists e. split; [reflexivity|].
    assert (G : get (envof X) (elt ib (k * o_cols m' + j)) = Some (Some e)).
    { unfold envof. rewrite get_al_out; [exact Ge|]. intros l _ He. apply elt_inj in He as [He _]. unfold id in He. congruence. }
    split; [exact G|]. intros v. rewrite get_cons. exact G. }
  (* one product *)
  assert (Prod : forall i j k X, match (let* a := SymValue A i k in let* b := SymValue B k j in BinaryOperator MATH_MULTIPLY a b) with
     | Ok t => exists e, t = embed e /\
         veval cfg (XBin lf BMul (Lvalue (elt ia (i * o_cols m + k))) (Lvalue (elt ib (k * o_cols m' + j)))) (envof X) = (Ok (Some e), envof X) /\
         forall v, veval cfg (XBin lf BMul (Lvalue (elt ia (i * o_cols m + k))) (Lvalue (elt ib (k * o_cols m' + j)))) ((sum, v) :: envof X) = (Ok (Some e), (sum, v) :: envof X)
     | Throw _ | Terminate => False | _ => True end).
  { intros i j k X. destruct (Ra i k X) as [Ca Va]. destruct (SymValue A i k) as [t|e|w| |w|]; cbn [bind]; auto.
    destruct (Rb k j X) as [Cb Vb]. destruct (SymValue B k j) as [u|e|w| |w|]; cbn [bind]; auto.
    destruct (Va _ eq_refl) as [-> |(e1 & -> & G1 & G1')]; [exact I|]. destruct (Vb _ eq_refl) as [-> |(e2 & -> & G2 & G2')]; [now destruct e1|].
    change MATH_MULTIPLY with (binop_op BMul). rewrite C08_value_binary. exists (EBin BMul e1 e2). split; [reflexivity|].
    split; [now apply bin_eval|]. intros v. now apply bin_eval. }
  match goal with |- builds cfg o E (pbind _ (fun mo => pbind (pfor _ ?b) _)) (foldM ?f _ ?a) =>
    pose proof (pfor_foldM cfg P envof f b (seq 0 (o_rows m))) as L; specialize (fun H => L H a); set (bb := b) in *; set (ff := f) in * end.
  assert (Step : forall X i, In i (seq 0 (o_rows m)) -> P X -> match ff X i with Ok X' => P X' /\ vexec cfg (bb i) (envof X) = (Ok tt, envof X') | Throw _ | Terminate => False | _ => True end).
  { intros X i _ PX. unfold ff, bb. apply (pfor_foldM cfg P envof); [|exact PX]. clear X PX. intros X j _ PX.
    pose proof (Prod i j 0 X) as P0. destruct (SymValue A i 0) as [ta|e|w| |w|]; cbn [bind] in *; auto.
    destruct (SymValue B 0 j) as [tb|e|w| |w|]; cbn [bind] in *; auto. destruct (BinaryOperator MATH_MULTIPLY ta tb) as [t|e|w| |w|]; cbn [bind]; auto.
    destruct P0 as (e0 & -> & Ev0 & _).
    match goal with |- context [foldM ?f (seq 1 (o_cols m - 1)) _] => pose proof (pfor_foldM cfg (fun t => exists e, t = embed e) (fun t => (sum, expression_of t) :: envof X) f
      (fun k => act (Rethrow []) (Compound BAdd sum (Prvalue (XBin lf BMul (Lvalue (elt ia (i * o_cols m + k))) (Lvalue (elt ib (k * o_cols m' + j))))))) (seq 1 (o_cols m - 1))) as Li end.
    specialize (fun H => Li H (embed e0) (ex_intro _ e0 eq_refl)).
    match type of Li with (?Hy -> _) => assert (Hh : Hy) end.
    { intros t k _ (e1 & ->). pose proof (Prod i j k X) as Pk. destruct (SymValue A i k) as [ua|e|w| |w|]; cbn [bind] in *; auto.
      destruct (SymValue B k j) as [ub|e|w| |w|]; cbn [bind] in *; auto. destruct (BinaryOperator MATH_MULTIPLY ua ub) as [u|e|w| |w|]; cbn [bind]; auto.
      destruct Pk as (e2 & -> & _ & Ev2). change MATH_ADD with (binop_op BAdd). rewrite C08_value_binary, !expression_of_embed. split; [now exists (EBin BAdd e1 e2)|].
      eapply vexec_act with (ev := Done). cbn [vstep].
      assert (Ea : veval_arg cfg (Prvalue (XBin lf BMul (Lvalue (elt ia (i * o_cols m + k))) (Lvalue (elt ib (k * o_cols m' + j))))) ((sum, Some e1) :: envof X) = (Ok (VTemp (Some e2)), (sum, Some e1) :: envof X)).
      { change (veval_arg cfg (Prvalue ?x)) with (vbind (veval cfg x) (fun v => vret (VTemp v))). rewrite (vbind_Ok _ _ _ _ _ (Ev2 _)). reflexivity. }
      rewrite (vbind_Ok _ _ _ _ _ Ea). cbn [vtake]. unfold vbind, vget, vset. cbn [get set]. rewrite String.eqb_refl. cbn [nonempty vret get set]. rewrite !String.eqb_refl. cbn [vtake vpeek nonempty vret get set].
      rewrite !String.eqb_refl. reflexivity. }
    specialize (Li Hh). clear Hh.
    match goal with |- context [foldM ?f (seq 1 (o_cols m - 1)) ?z] => destruct (foldM f (seq 1 (o_cols m - 1)) z) as [t|e|w| |w|] eqn:Es; cbn [bind]; auto end.
    destruct Li as [(e1 & ->) Li]. unfold set_SymValue. destruct (va_set (s_data X) (i * s_cols X + j) (embed e1)) as [d'|e|w| |w|] eqn:Ev; cbn [bind].
    2-6: pose proof (calm_va_set (s_data X) (i * s_cols X + j) (embed e1)) as C; rewrite Ev in C; auto; destruct C.
    destruct PX as (PX1 & PX2 & PX3). rewrite PX2 in Ev. destruct (va_set_al id E _ _ _ _ Ev) as (Es1 & Es2 & Es3).
    split; [unfold P; cbn [s_rows s_cols s_data]; rewrite Es2; auto|].
    rewrite vexec_bind. assert (Gd : get (envof X) sum = None) by (unfold envof; rewrite get_al_out; [exact Gs|intros; apply local_not_elt]).
    erewrite vbind_Ok; [|eapply vexec_act with (ev := Done); cbn [vstep]; rewrite (vbind_Ok _ _ _ _ _ Ev0); unfold vbind, vdeclare; rewrite Gd; reflexivity].
    rewrite vexec_bind. rewrite expression_of_embed in Li. rewrite (vbind_Ok _ _ _ _ _ Li). rewrite expression_of_embed in *. 
    rewrite vexec_bind. erewrite vbind_Ok. 2:{ eapply vexec_act with (ev := Done). cbn [vstep veval]. unfold vbind, vget, vset, vret. repeat (progress (cbn [get set]; rewrite ?String.eqb_refl)).
      cbn [get]. destruct (String.eqb_spec (elt id (i * o_cols m' + j)) sum) as [He|_]; [discriminate|]. 
      destruct (get (envof X) (elt id (i * o_cols m' + j))) eqn:Ge; [|exfalso; exact (Es3 Ge)]. cbn [set]. destruct (String.eqb_spec (elt id (i * o_cols m' + j)) sum) as [He|_]; [discriminate|]. reflexivity. }
    eapply vexec_act with (ev := Done). cbn [vstep]. unfold vbind, vend. cbn [get drop_var]. rewrite String.eqb_refl. cbn [vret]. f_equal.
    unfold envof in *. rewrite Es1. reflexivity. }
  specialize (L Step). match type of L with (P ?z -> _) => assert (P0 : P z) by (repeat split; apply repeat_length) end. specialize (L P0).
  match goal with |- builds _ _ _ _ ?r => destruct r as [X|e|w| |w|]; cbn [builds]; auto end; try contradiction.
  destruct L as [(PX1 & PX2 & PX3) L]. rewrite PX1, PX2. split; [|exact PX3]. rewrite vexec_bind. erewrite vbind_Ok by now apply make_ok.
  rewrite vexec_bind. erewrite vbind_Ok by exact L. reflexivity.
Qed.

(** ** Evaluation does not declare or end variables *)
Definition samedom (E E' : env) : Prop := forall x, get E x = None <-> get E' x = None.
Lemma samedom_refl E : samedom E E. Proof. intros x. reflexivity. Qed.
Lemma samedom_trans E E1 E2 : samedom E E1 -> samedom E1 E2 -> samedom E E2.
Proof. intros H1 H2 x. specialize (H1 x). specialize (H2 x). tauto. Qed.
Lemma samedom_set E x v : samedom E (set E x v).
Proof.
  intros y. destruct (get E x) as [w|] eqn:G.
  - rewrite (get_set _ _ _ _ _ G). destruct (String.eqb_spec y x) as [->|]; [|reflexivity]. rewrite G. split; discriminate.
  - replace (set E x v) with E; [reflexivity|]. clear y. induction E as [|[z u] E IH]; cbn in *; [reflexivity|].
    destruct (String.eqb_spec x z); [discriminate|]. now rewrite <- IH.
Qed.
Lemma set_absent E x v : get E x = None -> set E x v = E.
Proof. induction E as [|[z u] E IH]; cbn in *; [reflexivity|]. destruct (String.eqb_spec x z); [discriminate|]. intros H. now rewrite IH. Qed.
Definition domV {A} (m : V (K:=K) A) : Prop := forall E, samedom E (snd (m E)).
Lemma dom_ret {A} (a : A) : domV (vret a). Proof. intros E. apply samedom_refl. Qed.
Lemma dom_fail {A} (r : res A) : domV (vfail r). Proof. intros E. apply samedom_refl. Qed.
Lemma dom_bind {A B} (m : V A) (f : A -> V B) : domV m -> (forall a, domV (f a)) -> domV (vbind m f).
Proof.
  intros Hm Hf E. unfold vbind. specialize (Hm E). destruct (m E) as [[a|e|w| |w|] E']; cbn [snd] in *; auto. eapply samedom_trans; [exact Hm|]. apply Hf.
Qed.
Lemma dom_get y : domV (vget y). Proof. intros E. unfold vget. destruct (get E y); apply samedom_refl. Qed.
Lemma dom_set y v : domV (vset y v). Proof. intros E. unfold vset. destruct (get E y); [apply samedom_set|apply samedom_refl]. Qed.
Lemma dom_nonempty v : domV (nonempty v). Proof. destruct v; [apply dom_ret|apply dom_fail]. Qed.
Lemma dom_peek o : domV (vpeek o). Proof. destruct o; cbn [vpeek]; try apply dom_nonempty; apply dom_bind; auto using dom_get, dom_nonempty. Qed.
Lemma dom_the x : domV (vthe x). Proof. apply dom_bind; auto using dom_get, dom_nonempty. Qed.
Lemma dom_take o : domV (vtake o).
Proof. destruct o; cbn [vtake]; try apply dom_peek. apply dom_bind; [apply dom_get|]. intros v. apply dom_bind; [apply dom_nonempty|]. intros e. apply dom_bind; [apply dom_set|intros; apply dom_ret]. Qed.
Lemma dom_dict es : domV (vdict es).
Proof.
  induction es as [|[y [o|v]] es IH]; cbn [vdict ventry_value]; [apply dom_ret| |].
  - apply dom_bind; [apply dom_peek|]. intros t. apply dom_bind; [exact IH|intros; apply dom_ret].
  - apply dom_bind; [apply dom_ret|]. intros t. apply dom_bind; [exact IH|intros; apply dom_ret].
Qed.
Lemma dom_eval cfg : (forall e : nexp K, domV (veval cfg e)) /\ (forall a : arg K, domV (veval_arg cfg a)) /\ (forall d : dict K, domV (veval_dict cfg d)).
Proof.
  apply nexp_arg_dict_ind; cbn [veval veval_arg veval_dict].
  - intros; apply dom_ret.
  - intros s. destruct (VarNameIsLegal s); [apply dom_ret|apply dom_fail].
  - intros; apply dom_bind; [apply dom_fail|intros; apply dom_ret].
  - intros y. apply dom_bind; [apply dom_get|]. intros v. apply dom_bind; [apply dom_set|intros; apply dom_ret].
  - intros a IH. apply dom_bind; [auto|]. intros o. apply dom_bind; [apply dom_peek|intros; apply dom_ret].
  - intros u a IH. apply dom_bind; [auto|]. intros o. apply dom_bind; [apply dom_take|intros; apply dom_ret].
  - intros lf b a1 IH1 a2 IH2. apply dom_bind.
    + destruct lf; (apply dom_bind; [auto|]; intros o; apply dom_bind; [auto|intros; apply dom_ret]).
    + intros [o1 o2]. apply dom_bind; [apply dom_take|]. intros e1. apply dom_bind; [apply dom_take|intros; apply dom_ret].
  - intros a IHa d IHd. apply dom_bind; [auto|]. intros es. apply dom_bind; [auto|]. intros o.
    apply dom_bind; [apply dom_dict|]. intros dd. apply dom_bind; [apply dom_take|intros; apply dom_ret].
  - intros a IHa y i. apply dom_bind; [auto|]. intros o. apply dom_bind; [apply dom_take|]. intros e. apply dom_bind; [apply dom_fail|intros; apply dom_ret].
  - intros y. apply dom_ret.
  - intros y. apply dom_ret.
  - intros e IH. apply dom_bind; [auto|intros; apply dom_ret].
  - apply dom_ret.
  - intros y a IHa d IHd. apply dom_bind; [auto|]. intros o. apply dom_bind; [auto|intros; apply dom_ret].
  - intros y v d IHd. apply dom_bind; [auto|intros; apply dom_ret].
Qed.

(** ** Evaluation below temporaries *)
Definition framed {A} (T : env) (m : V (K:=K) A) : Prop := forall E, m (T ++ E) = (fst (m E), T ++ snd (m E)).
Lemma get_app T E x : get T x = None -> get (T ++ E) x = get E x.
Proof. induction T as [|[y v] T IH]; cbn; [reflexivity|]. destruct (String.eqb x y); [discriminate|auto]. Qed.
Lemma set_app T E x v : get T x = None -> set (T ++ E) x v = T ++ set E x v.
Proof. induction T as [|[y w] T IH]; cbn; [reflexivity|]. destruct (String.eqb x y); [discriminate|]. intros H. now rewrite IH. Qed.
Lemma fr_ret {A} T (a : A) : framed T (vret a). Proof. now intros E. Qed.
Lemma fr_fail {A} T (r : res A) : framed T (vfail r). Proof. now intros E. Qed.
Lemma fr_bind' {A B} T (m : V A) (f : A -> V B) (P : A -> Prop) : framed T m -> (forall E a E', m E = (Ok a, E') -> P a) -> (forall a, P a -> framed T (f a)) -> framed T (vbind m f).
Proof.
  intros Hm HP Hf E. unfold vbind. rewrite (Hm E). specialize (HP E). destruct (m E) as [[a|e|w| |w|] E'] eqn:Em; cbn [fst snd]; auto. apply Hf. eauto.
Qed.
Lemma fr_bind {A B} T (m : V A) (f : A -> V B) : framed T m -> (forall a, framed T (f a)) -> framed T (vbind m f).
Proof. intros Hm Hf. apply (fr_bind' T m f (fun _ => True)); auto. Qed.
Lemma fr_get T x : get T x = None -> framed T (vget x). Proof. intros H E. unfold vget. rewrite get_app by exact H. now destruct (get E x). Qed.
Lemma fr_set T x v : get T x = None -> framed T (vset x v). Proof. intros H E. unfold vset. rewrite get_app, set_app by exact H. now destruct (get E x). Qed.
Lemma fr_nonempty T v : framed T (nonempty v). Proof. destruct v; [apply fr_ret|apply fr_fail]. Qed.
Definition off (T : env) (l : list string) : Prop := forall x, In x l -> get T x = None.
Lemma fr_peek T o : off T (varg_uses o) -> framed T (vpeek o).
Proof. intros H. destruct o; cbn [vpeek]; try apply fr_nonempty; (apply fr_bind; [apply fr_get, H; now left|intros; apply fr_nonempty]). Qed.
Lemma fr_take T o : off T (varg_uses o) -> framed T (vtake o).
Proof.
  intros H. destruct o as [y|y|v]; cbn [vtake]; try now apply fr_peek. assert (Hy : get T y = None) by (apply H; now left).
  apply fr_bind; [now apply fr_get|]. intros v. apply fr_bind; [apply fr_nonempty|]. intros e. apply fr_bind; [now apply fr_set|intros; apply fr_ret].
Qed.
Lemma fr_dict T es : (forall y v, In (y, v) es -> off T (entry_uses v)) -> framed T (vdict (K:=K) es).
Proof.
  induction es as [|[y [o|v]] es IH]; intros H; cbn [vdict ventry_value]; [apply fr_ret| |].
  - apply fr_bind; [apply fr_peek; apply (H y (VNode o)); now left|]. intros t. apply fr_bind; [apply IH; intros y' v' Hi; apply (H y'); now right|intros; apply fr_ret].
  - apply fr_bind; [apply fr_ret|]. intros t. apply fr_bind; [apply IH; intros y' v' Hi; apply (H y'); now right|intros; apply fr_ret].
Qed.
Lemma off_arg T cfg (a : arg K) E o E' : off T (uses_arg a) -> veval_arg cfg a E = (Ok o, E') -> off T (varg_uses o).
Proof.
  intros Ho He x Hx. destruct (in_dec string_dec x (uses_arg a)) as [Hi|Hi]; [auto|]. now apply (arg_uses _ _ _ _ _ He) in Hi.
Qed.
Lemma off_dict T cfg (d : dict K) : off T (uses_dict d) -> forall E es E', veval_dict cfg d E = (Ok es, E') -> forall y v, In (y, v) es -> off T (entry_uses v).
Proof.
  induction d as [|y a d IH|y v d IH]; intros Ho E es E'.
  - intros [= <- _] y v [].
  - change (veval_dict cfg (DNode y a d)) with (vbind (veval_arg cfg a) (fun o => vbind (veval_dict cfg d) (fun es => vret ((y, VNode o) :: es)))). unfold vbind, vret.
    destruct (veval_arg cfg a E) as [[o|?|?| |?|] E1] eqn:Ea; try discriminate. destruct (veval_dict cfg d E1) as [[es1|?|?| |?|] E2] eqn:Ed; try discriminate.
    intros [= <- _] y' v' [[= <- <-]|Hi].
    + cbn [entry_uses]. eapply off_arg; [|exact Ea]. intros x Hx. apply Ho. cbn. apply in_or_app. now left.
    + eapply IH; [|exact Ed|exact Hi]. intros x Hx. apply Ho. cbn. apply in_or_app. now right.
  - change (veval_dict cfg (DNum y v d)) with (vbind (veval_dict cfg d) (fun es => vret ((y, VNumber v) :: es))). unfold vbind, vret.
    destruct (veval_dict cfg d E) as [[es1|?|?| |?|] E2] eqn:Ed; try discriminate. intros [= <- _] y' v' [[= <- <-]|Hi].
    + intros x [].
    + eapply IH; [|exact Ed|exact Hi]. exact Ho.
Qed.
Lemma off_app T l l' : off T (l ++ l') -> off T l /\ off T l'.
Proof. intros H. split; intros x Hx; apply H, in_or_app; auto. Qed.
Lemma eval_both {A B C} (m : V (K:=K) A) (n : V (K:=K) B) (f : A -> B -> C) E c E' : vbind m (fun a => vbind n (fun b => vret (f a b))) E = (Ok c, E') ->
  exists a b E1 E2 E3, m E = (Ok a, E1) /\ n E2 = (Ok b, E3) /\ c = f a b.
Proof.
  unfold vbind, vret. destruct (m E) as [[a|?|?| |?|] E1]; try discriminate. destruct (n E1) as [[b|?|?| |?|] E2] eqn:En; try discriminate. intros [= <- _]. eauto 10.
Qed.
Lemma fr_eval T cfg :
  (forall e : nexp K, off T (uses_exp e) -> framed T (veval cfg e)) /\
  (forall a : arg K, off T (uses_arg a) -> framed T (veval_arg cfg a)) /\
  (forall d : dict K, off T (uses_dict d) -> framed T (veval_dict cfg d)).
Proof.
  apply nexp_arg_dict_ind; cbn [uses_exp uses_arg uses_dict veval veval_arg veval_dict].
  - intros; apply fr_ret.
  - intros s _. destruct (VarNameIsLegal s); [apply fr_ret|apply fr_fail].
  - intros; apply fr_bind; [apply fr_fail|intros; apply fr_ret].
  - intros y H. assert (Hy : get T y = None) by (apply H; now left). apply fr_bind; [now apply fr_get|]. intros v. apply fr_bind; [now apply fr_set|intros; apply fr_ret].
  - intros a IH H. apply (fr_bind' T _ _ (fun o => off T (varg_uses o))); [auto|intros E o E' Eo; exact (off_arg _ _ _ _ _ _ H Eo)|]. intros o Ho. apply fr_bind; [now apply fr_peek|intros; apply fr_ret].
  - intros u a IH H. apply (fr_bind' T _ _ (fun o => off T (varg_uses o))); [auto|intros E o E' Eo; exact (off_arg _ _ _ _ _ _ H Eo)|]. intros o Ho. apply fr_bind; [now apply fr_take|intros; apply fr_ret].
  - intros lf b a1 IH1 a2 IH2 H. apply off_app in H as [H1 H2].
    eapply (fr_bind' T _ _ (fun oo => off T (varg_uses (fst oo)) /\ off T (varg_uses (snd oo)))).
    + destruct lf; (apply fr_bind; [auto|]; intros o; apply fr_bind; [auto|intros; apply fr_ret]).
    + intros E [o1 o2] E' Eo. cbn [fst snd]. destruct lf.
      * apply (eval_both (veval_arg cfg a1) (veval_arg cfg a2) (fun x y => (x, y))) in Eo as (v1 & v2 & E1 & E2 & E3 & G1 & G2 & [= -> ->]). split; [exact (off_arg _ _ _ _ _ _ H1 G1)|exact (off_arg _ _ _ _ _ _ H2 G2)].
      * apply (eval_both (veval_arg cfg a2) (veval_arg cfg a1) (fun x y => (y, x))) in Eo as (v1 & v2 & E1 & E2 & E3 & G1 & G2 & [= -> ->]). split; [exact (off_arg _ _ _ _ _ _ H1 G2)|exact (off_arg _ _ _ _ _ _ H2 G1)].
    + intros [o1 o2] [G1 G2]. cbn [fst snd] in *. apply fr_bind; [now apply fr_take|]. intros e1. apply fr_bind; [now apply fr_take|intros; apply fr_ret].
  - intros a IHa d IHd H. apply off_app in H as [H1 H2]. apply (fr_bind' T _ _ (fun es => forall y v, In (y, v) es -> off T (entry_uses v))); [auto|intros E es E' Ed; exact (off_dict _ _ _ H2 _ _ _ Ed)|]. intros es Hes.
    apply (fr_bind' T _ _ (fun o => off T (varg_uses o))); [auto|intros E o E' Eo; exact (off_arg _ _ _ _ _ _ H1 Eo)|]. intros o Ho.
    apply fr_bind; [now apply fr_dict|]. intros dd. apply fr_bind; [now apply fr_take|intros; apply fr_ret].
  - intros a IHa y i H. apply (fr_bind' T _ _ (fun o => off T (varg_uses o))); [auto|intros E o E' Eo; exact (off_arg _ _ _ _ _ _ H Eo)|]. intros o Ho.
    apply fr_bind; [now apply fr_take|]. intros e. apply fr_bind; [apply fr_fail|intros; apply fr_ret].
  - intros y _. apply fr_ret.
  - intros y _. apply fr_ret.
  - intros e IH H. apply fr_bind; [auto|intros; apply fr_ret].
  - intros _. apply fr_ret.
  - intros y a IHa d IHd H. apply off_app in H as [H1 H2]. apply fr_bind; [auto|]. intros o. apply fr_bind; [auto|intros; apply fr_ret].
  - intros y v d IHd H. apply fr_bind; [auto|intros; apply fr_ret].
Qed.

(** ** Initializer lists *)
(** Temporaries with these values, the last one first. *)
Fixpoint tmr (l : list (option expr)) : env := match l with [] => [] | v :: l' => (temp_name (length l'), v) :: tmr l' end.
Lemma tmr_off l x : (forall k, x <> temp_name k) -> get (tmr l) x = None.
Proof. intros H. induction l as [|v l IH]; cbn [tmr]; [reflexivity|]. rewrite get_cons. destruct (String.eqb_spec x (temp_name (length l))) as [->|]; [exfalso; now apply (H (length l))|exact IH]. Qed.
Lemma tmr_next l k : length l <= k -> get (tmr l) (temp_name k) = None.
Proof.
  induction l as [|v l IH]; cbn [tmr length]; intros H; [reflexivity|]. rewrite get_cons. destruct (String.eqb_spec (temp_name k) (temp_name (length l))) as [He|]; [apply temp_inj in He; lia|].
  apply IH. lia.
Qed.
Lemma tmr_get l1 v l2 : get (tmr (l1 ++ v :: l2)) (temp_name (length l2)) = Some v.
Proof.
  induction l1 as [|w l1 IH]; cbn [app tmr]; rewrite get_cons; [now rewrite String.eqb_refl|].
  destruct (String.eqb_spec (temp_name (length l2)) (temp_name (length (l1 ++ v :: l2)))) as [He|]; [|exact IH]. apply temp_inj in He. rewrite app_length in He. cbn in He. lia.
Qed.
Lemma tmr_set l1 v l2 w E : set (tmr (l1 ++ v :: l2) ++ E) (temp_name (length l2)) w = tmr (l1 ++ w :: l2) ++ E.
Proof.
  induction l1 as [|u l1 IH]; cbn [app tmr set]; [now rewrite String.eqb_refl|].
  destruct (String.eqb_spec (temp_name (length l2)) (temp_name (length (l1 ++ v :: l2)))) as [He|].
  - apply temp_inj in He. rewrite app_length in He. cbn in He. lia.
  - rewrite IH, !app_length. reflexivity.
Qed.
Lemma get_app_some T E x v : get T x = Some v -> get (T ++ E) x = Some v.
Proof. induction T as [|[y w] T IH]; cbn; [discriminate|]. destruct (String.eqb x y); auto. Qed.

Definition no_temps E : Prop := forall k, get E (temp_name k) = None.
Definition no_temp_uses (e : nexp K) : Prop := forall k, ~ In (temp_name k) (uses_exp e).
Lemma off_tmr l e : no_temp_uses e -> off (tmr l) (uses_exp e).
Proof. intros H x Hx. apply tmr_off. intros k ->. now apply (H k). Qed.
Lemma rev_seq_S n : rev (seq 0 (S n)) = n :: rev (seq 0 n).
Proof. rewrite seq_S, rev_app_distr. reflexivity. Qed.
Lemma cleanup_temps cfg l E : vcleanup cfg (map (fun i => EndOfScope (temp_name i)) (rev (seq 0 (length l)))) (tmr l ++ E) = (Ok tt, E).
Proof.
  induction l as [|v l IH]; [reflexivity|]. cbn [length]. rewrite rev_seq_S. cbn [map vcleanup tmr app vstep]. unfold vbind at 1 2, vend. cbn [get drop_var].
  rewrite String.eqb_refl. cbn [vret]. exact IH.
Qed.
Lemma vexec_pass cfg hd s E r E' (f : unit -> V (K:=K) unit) : vexec cfg (act hd s) E = (r, E') -> match r with Ok _ => False | _ => True end ->
  vbind (vexec cfg (act hd s)) f E = (r, E').
Proof. intros H Hr. unfold vbind. rewrite H. destruct r; auto; contradiction. Qed.
Lemma eval_inits_ok cfg es : forall l E, no_temps E -> Forall no_temp_uses es ->
  match values cfg es E with
  | (Ok vs, E') => vexec cfg (eval_inits (length l) es) (tmr l ++ E) = (Ok tt, tmr (rev vs ++ l) ++ E') /\ length vs = length es
  | (Throw e, E') => vexec cfg (eval_inits (length l) es) (tmr l ++ E) = (Throw e, E')
  | (Terminate, _) => exists E2, vexec cfg (eval_inits (length l) es) (tmr l ++ E) = (Terminate, E2)
  | _ => True
  end.
Proof.
  induction es as [|e es IH]; intros l E Ht Hu; cbn [values eval_inits].
  - cbn. auto.
  - apply Forall_cons_iff in Hu as [He Hu]. pose proof (proj1 (fr_eval (tmr l) cfg) e (off_tmr l e He) E) as Fr.
    pose proof (proj1 (dom_eval cfg) e E) as Dm. unfold vbind at 1. destruct (veval cfg e E) as [[v|x|w| |w|] E1] eqn:Ev; cbn [fst snd] in *; auto.
    + assert (Ht1 : no_temps E1) by (intros k; apply Dm, Ht). specialize (IH (v :: l) E1 Ht1 Hu).
      assert (Hs : vexec cfg (pbind (act (Rethrow (map (fun i => EndOfScope (temp_name i)) (rev (seq 0 (length l))))) (Declare (temp_name (length l)) e)) (fun _ => eval_inits (S (length l)) es)) (tmr l ++ E) =
        vexec cfg (eval_inits (length (v :: l)) es) (tmr (v :: l) ++ E1)).
      { rewrite vexec_bind. erewrite vbind_Ok; [|eapply vexec_act with (ev := Done); cbn [vstep]; rewrite (vbind_Ok _ _ _ _ _ Fr); unfold vbind, vdeclare;
          rewrite get_app by (apply tmr_next; lia); rewrite Ht1; reflexivity]. reflexivity. }
      unfold vbind, vret. destruct (values cfg es E1) as [[vs|x|w| |w|] E2]; cbn [fst snd] in *; auto.
      * destruct IH as [IH Hl]. rewrite Hs, IH. cbn [rev length]. rewrite <- app_assoc. auto.
      * now rewrite Hs.
      * now rewrite Hs.
    + rewrite vexec_bind. eapply vexec_pass; [|exact I]. unfold act. cbn [vexec]. unfold vbind at 1, vguarded. cbn [vstep]. unfold vbind at 1. rewrite Fr.
      rewrite (vbind_Ok _ _ _ _ _ (cleanup_temps cfg l E1)). reflexivity.
    + exists (tmr l ++ E1). rewrite vexec_bind. eapply vexec_pass; [|exact I]. unfold act. cbn [vexec]. unfold vbind at 1, vguarded. cbn [vstep]. unfold vbind at 1. now rewrite Fr.
Qed.
Lemma end_temps cfg id d l E : vexec cfg (pfor (rev (seq 0 (length l))) (fun k => act NoExcept (EndOfScope (temp_name k)))) (al id 0 d (tmr l ++ E)) = (Ok tt, al id 0 d E).
Proof.
  induction l as [|v l IH]; [reflexivity|]. cbn [length]. rewrite rev_seq_S. cbn [pfor]. rewrite vexec_bind. erewrite vbind_Ok; [exact IH|].
  eapply vexec_act with (ev := Done). cbn [vstep]. unfold vbind, vend. rewrite get_al_out by (intros; apply temp_not_elt). cbn [tmr app get]. rewrite String.eqb_refl. cbn [vret].
  rewrite drop_al_out by (intros; apply temp_not_elt). cbn [drop_var]. now rewrite String.eqb_refl.
Qed.
Definition put (d : list (node K)) (pt : nat * node K) : res (list (node K)) := va_set d (fst pt) (snd pt).
Lemma expression_of_tree (v : option expr) : expression_of (SymHeapSpec.tree v) = v.
Proof. destruct v; [apply expression_of_embed|reflexivity]. Qed.
Lemma move_step cfg x y E v : get E x = Some v -> get (set E x None) y <> None -> vstep cfg (Assign y (XMove x)) E = (Ok Done, set (set E x None) y v).
Proof.
  intros G1 G2. cbn [vstep veval]. unfold vbind, vget, vset, vret. rewrite G1. cbn beta iota. rewrite G1. cbn beta iota. destruct (get (set E x None) y); [reflexivity|congruence].
Qed.
Lemma fill_loop cfg id E pos : forall pre vs dn d d', length pos = length vs -> length dn = length pre ->
  foldM put (combine pos (map (@SymHeapSpec.tree K) vs)) d = Ok d' ->
  exists l', length l' = length vs + length dn /\
  vexec cfg (pfor (seq (length pre) (length vs)) (fun k => act NoExcept (Assign (elt id (nth k (pre ++ pos) 0)) (XMove (temp_name k))))) (al id 0 d (tmr (rev vs ++ dn) ++ E)) =
  (Ok tt, al id 0 d' (tmr l' ++ E)).
Proof.
  induction pos as [|p pos IH]; intros pre [|v vs] dn d d' Hl Hd; try discriminate; cbn [map combine foldM].
  - intros [= <-]. exists dn. auto.
  - intros H. apply bind_Ok_inv in H as (d1 & H1 & H2). unfold put in H1. cbn [fst snd] in H1. destruct (va_set_al id (tmr (rev vs ++ None :: dn) ++ E) _ _ _ _ H1) as (Es & _ & Gn).
    rewrite expression_of_tree in Es. injection Hl as Hl.
    destruct (IH (pre ++ [p]) vs (None :: dn) d1 d' Hl ltac:(rewrite app_length; cbn; lia) H2) as (l' & Hl' & X). exists l'. split; [cbn [length] in *; lia|].
    cbn [length seq pfor]. rewrite vexec_bind. erewrite vbind_Ok.
    + rewrite app_length in X. cbn [length] in X. replace (length pre + 1) with (S (length pre)) in X by lia. rewrite <- app_assoc in X. cbn [app] in X. exact X.
    + eapply vexec_act with (ev := Done). rewrite app_nth2, Nat.sub_diag by lia. cbn [nth rev]. rewrite <- app_assoc. cbn [app]. rewrite <- Hd.
      assert (G : get (al id 0 d (tmr (rev vs ++ v :: dn) ++ E)) (temp_name (length dn)) = Some v).
      { rewrite get_al_out by (intros; apply temp_not_elt). apply get_app_some, tmr_get. }
      assert (S1 : set (al id 0 d (tmr (rev vs ++ v :: dn) ++ E)) (temp_name (length dn)) None = al id 0 d (tmr (rev vs ++ None :: dn) ++ E)).
      { rewrite set_al_out by (intros; apply temp_not_elt). now rewrite tmr_set. }
      rewrite <- S1 in Es, Gn. rewrite <- Es. now apply move_step.
Qed.
Lemma fill_ok cfg id E pos vs d d' : length pos = length vs -> foldM put (combine pos (map (@SymHeapSpec.tree K) vs)) d = Ok d' ->
  vexec cfg (fill id pos) (al id 0 d (tmr (rev vs) ++ E)) = (Ok tt, al id 0 d' E).
Proof.
  intros Hl H. destruct (fill_loop cfg id E pos [] vs [] d d' Hl eq_refl H) as (l' & Hl' & X). cbn [length app] in X. rewrite app_nil_r in X.
  unfold fill. rewrite vexec_bind, Hl, (vbind_Ok _ _ _ _ _ X). cbn [length] in Hl'. rewrite Nat.add_0_r in Hl'. rewrite <- Hl'. apply end_temps.
Qed.
(** The rows of an initializer list one after the other. *)
Lemma init_row i cols (row : list (node K)) : forall j d j' d',
  foldM (fun '(j, d) n => let* d := va_set d (i * cols + j) n in Ok (S j, d)) row (j, d) = Ok (j', d') ->
  foldM put (combine (map (fun j => i * cols + j) (seq j (length row))) row) d = Ok d'.
Proof.
  induction row as [|n row IH]; intros j d j' d'; cbn [foldM length seq map combine].
  - now intros [= _ <-].
  - intros H. apply bind_Ok_inv in H as ([j1 d1] & H1 & H2). apply bind_Ok_inv in H1 as (d2 & H1 & [= <- <-]). unfold put at 1. cbn [fst snd]. rewrite H1. cbn [bind]. now apply IH with j'.
Qed.
Lemma combine_app {A B} (l1 l2 : list A) (m1 m2 : list B) : length l1 = length m1 -> combine (l1 ++ l2) (m1 ++ m2) = combine l1 m1 ++ combine l2 m2.
Proof. revert m1. induction l1 as [|a l1 IH]; intros [|b m1]; cbn; try discriminate; auto. intros [= H]. now rewrite IH. Qed.
Lemma init_rows cols (l : list (list (nexp K))) : forall (vss : list (list (node K))) i d i' d', map (@length _) l = map (@length _) vss ->
  foldM (fun '(i, d) val => let* (_, d) := foldM (fun '(j, d) n => let* d := va_set d (i * cols + j) n in Ok (S j, d)) val (0, d) in Ok (S i, d)) vss (i, d) = Ok (i', d') ->
  foldM put (combine (init_pos cols i l) (concat vss)) d = Ok d' /\ length (init_pos cols i l) = length (concat vss).
Proof.
  induction l as [|row l IH]; intros [|vs vss] i d i' d'; cbn [map]; try discriminate; cbn [foldM init_pos concat combine].
  - intros _ [= _ <-]. auto.
  - intros [= Hl Hls] H. apply bind_Ok_inv in H as ([i1 d1] & H1 & H2). apply bind_Ok_inv in H1 as ([j1 d2] & H1 & [= <- <-]).
    apply init_row in H1. destruct (IH _ _ _ _ _ Hls H2) as [I1 I2]. rewrite Hl. rewrite combine_app by now rewrite map_length, seq_length.
    rewrite foldM_app, H1. cbn [bind]. split; [exact I1|]. now rewrite !app_length, map_length, seq_length, I2.
Qed.
Lemma value_rows_values cfg (l : list (list (nexp K))) : forall E,
  match value_rows cfg l E with
  | (Ok vss, E') => values cfg (concat l) E = (Ok (concat vss), E') /\ map (@length _) vss = map (@length _) l
  | (Throw e, E') => values cfg (concat l) E = (Throw e, E')
  | (Terminate, E') => values cfg (concat l) E = (Terminate, E')
  | _ => True
  end.
Proof.
  assert (App : forall es es' E, values cfg (es ++ es') E = vbind (values cfg es) (fun vs => vbind (values cfg es') (fun vs' => vret (vs ++ vs'))) E).
  { induction es as [|e es IH]; intros es' E; cbn [app values].
    - unfold vbind, vret. now destruct (values cfg es' E) as [[vs|x|w| |w|] E1].
    - unfold vbind, vret in *. destruct (veval cfg e E) as [[v|x|w| |w|] E1]; try reflexivity. rewrite IH.
      destruct (values cfg es E1) as [[vs|x|w| |w|] E2]; try reflexivity. destruct (values cfg es' E2) as [[vs'|x|w| |w|] E3]; reflexivity. }
  assert (Len : forall es E vs E', values cfg es E = (Ok vs, E') -> length vs = length es).
  { induction es as [|e es IH]; intros E vs E'; cbn [values]; [now intros [= <- _]|]. unfold vbind, vret. destruct (veval cfg e E) as [[v|x|w| |w|] E1]; try discriminate.
    destruct (values cfg es E1) as [[vs1|x|w| |w|] E2] eqn:Ev; try discriminate. intros [= <- _]. cbn. f_equal. now apply (IH _ _ _ Ev). }
  induction l as [|row l IH]; intros E; cbn [value_rows concat map].
  - cbn. auto.
  - rewrite App. unfold vbind, vret. destruct (values cfg row E) as [[vs|x|w| |w|] E1] eqn:Er; auto. specialize (IH E1). destruct (value_rows cfg l E1) as [[vss|x|w| |w|] E2]; auto.
    + destruct IH as [IH Hl]. rewrite IH. cbn [concat map]. rewrite Hl, (Len _ _ _ _ Er). auto.
    + now rewrite IH.
    + now rewrite IH.
Qed.
Lemma dom_values cfg es : domV (values cfg es).
Proof. induction es as [|e es IH]; cbn [values]; [apply dom_ret|]. apply dom_bind; [apply dom_eval|]. intros v. apply dom_bind; [exact IH|intros; apply dom_ret]. Qed.
Lemma dom_value_rows cfg l : domV (value_rows cfg l).
Proof. induction l as [|e es IH]; cbn [value_rows]; [apply dom_ret|]. apply dom_bind; [apply dom_values|]. intros v. apply dom_bind; [exact IH|intros; apply dom_ret]. Qed.

Lemma calm_init (init : list (list (node K))) : calm (SymMat_init init).
Proof.
  unfold SymMat_init. destruct init as [|r0 init]; [exact I|]. apply calm_bind; [|intros; exact I]. apply calm_foldM. intros [i d] val _.
  apply calm_bind; [apply calm_foldM; intros [j d1] n _; apply calm_bind; [apply calm_va_set|intros; exact I]|]. intros [j d1] _. exact I.
Qed.
(** What happens to the rest of the program's memory when a matrix is built after evaluating. *)
Lemma init_mat_agree cfg o c l E : no_temps E -> (forall k, fresh (o_next o + k) E) -> Forall (Forall no_temp_uses) l ->
  agree (vexec cfg (pbind (init_mat o l) (declared c)) E)
    (vbind (value_rows cfg l) (fun vs => new_matrix 0 c (SymMat_init (map (map (@SymHeapSpec.tree K)) vs)) o) E).
Proof.
  intros Ht F Hu. destruct l as [|row l0]; [exact I|]. set (l := row :: l0) in *.
  pose proof (value_rows_values cfg l E) as VV. pose proof (dom_value_rows cfg l E) as Dm.
  assert (Hu' : Forall no_temp_uses (concat l)). { clear - Hu. induction Hu; cbn; [constructor|]. now apply Forall_app. }
  pose proof (eval_inits_ok cfg (concat l) [] E Ht Hu') as EI. cbn [tmr length app] in EI.
  unfold vbind at 1. destruct (value_rows cfg l E) as [[vss|e|w| |w|] E1]; cbn [agree snd] in *; auto.
  - destruct VV as [VV Hls]. rewrite VV in EI. destruct EI as [EI _]. rewrite app_nil_r in EI.
    assert (B : builds cfg o E1 (PFail (Undef "") : prog K (mobj * objs)) (Undef "")) by exact I. clear B.
    assert (Nl : map (map (@SymHeapSpec.tree K)) vss <> []) by (destruct vss; [discriminate|cbn; discriminate]).
    pose proof (calm_init (map (map (@SymHeapSpec.tree K)) vss)) as Ci.
    destruct (SymMat_init (map (map (@SymHeapSpec.tree K)) vss)) as [A|e|w| |w|] eqn:Ei; cbn [new_matrix agree]; try contradiction; auto.
    destruct (find_obj (o_vars o) c) eqn:Ef; [exact I|]. cbn [agree].
    unfold SymMat_init in Ei. destruct (map (map (@SymHeapSpec.tree K)) vss) as [|t0 ts] eqn:Em; [congruence|]. rewrite <- Em in *. clear t0 ts Em.
    apply bind_Ok_inv in Ei as ([i' d'] & Ei & [= <-]). cbn [snd s_rows s_cols s_data] in *.
    assert (Hrows : length (map (map (@SymHeapSpec.tree K)) vss) = length l) by (rewrite map_length; now rewrite <- (map_length (@length _) vss), Hls, map_length).
    assert (Hcols : forall z, fold_left (fun m (r : list (node K)) => Nat.max m (length r)) (map (map (@SymHeapSpec.tree K)) vss) z = fold_left (fun m r => Nat.max m (length r)) l z).
    { clear - Hls. clearbody l. clear row l0. revert l Hls. induction vss as [|vs vss IH]; intros [|r l]; cbn [map]; try discriminate; [reflexivity|]. intros [= H1 H2] z. cbn [fold_left]. rewrite map_length, H1. now apply IH. }
    rewrite Hrows, Hcols in *. set (cols := fold_left (fun m r => Nat.max m (length r)) l 0) in *.
    apply (init_rows cols l) in Ei; [|clear - Hls; clearbody l; clear row l0; revert l Hls; induction vss as [|vs vss IH]; intros [|r l]; cbn [map]; try discriminate; auto; intros [= H1 H2]; now rewrite map_length, H1, (IH l)].
    destruct Ei as [Ei Hp].
    assert (Hcm : concat (map (map (@SymHeapSpec.tree K)) vss) = map (@SymHeapSpec.tree K) (concat vss)) by (symmetry; apply concat_map).
    rewrite Hcm in Ei, Hp. rewrite map_length in Hp.
    rewrite vexec_bind. assert (X : vexec cfg (init_mat o l) E = (Ok (MkObj (length l) cols (Some (o_next o)), MkObjs (o_vars o) (S (o_next o))), al (o_next o) 0 d' E1)).
    { change (init_mat o l) with (pbind (eval_inits 0 (concat l)) (fun _ => pbind (new_array (o_next o) (length l * cols)) (fun _ => pbind (fill (o_next o) (init_pos cols 0 l)) (fun _ =>
        PRet (MkObj (length l) cols (Some (o_next o)), MkObjs (o_vars o) (S (o_next o))))))).
      rewrite vexec_bind, (vbind_Ok _ _ _ _ _ EI). rewrite vexec_bind. unfold new_array. erewrite vbind_Ok.
      2:{ apply new_array_ok. intros k _. rewrite get_app by (apply tmr_off; discriminate). apply Dm. specialize (F 0). rewrite Nat.add_0_r in F. apply F. }
      rewrite vexec_bind. erewrite vbind_Ok by (apply fill_ok; [exact Hp|exact Ei]). reflexivity. }
    rewrite (vbind_Ok _ _ _ _ _ X). unfold declared, declare. cbn [fst snd o_vars]. rewrite Ef, Nat.add_0_r, alloc_al. reflexivity.
  - rewrite VV in EI. rewrite vexec_bind. change (init_mat o l) with (pbind (eval_inits 0 (concat l)) (fun _ => pbind (new_array (o_next o) (length l * fold_left (fun m r => Nat.max m (length r)) l 0)) (fun _ => pbind (fill (o_next o) (init_pos (fold_left (fun m r => Nat.max m (length r)) l 0) 0 l)) (fun _ =>
        PRet (MkObj (length l) (fold_left (fun m r => Nat.max m (length r)) l 0) (Some (o_next o)), MkObjs (o_vars o) (S (o_next o))))))).
    unfold vbind. rewrite vexec_bind. unfold vbind. now rewrite EI.
  - rewrite VV in EI. destruct EI as (E2 & EI). exists E2. rewrite vexec_bind. change (init_mat o l) with (pbind (eval_inits 0 (concat l)) (fun _ => pbind (new_array (o_next o) (length l * fold_left (fun m r => Nat.max m (length r)) l 0)) (fun _ => pbind (fill (o_next o) (init_pos (fold_left (fun m r => Nat.max m (length r)) l 0) 0 l)) (fun _ =>
        PRet (MkObj (length l) (fold_left (fun m r => Nat.max m (length r)) l 0) (Some (o_next o)), MkObjs (o_vars o) (S (o_next o))))))).
    unfold vbind. rewrite vexec_bind. unfold vbind. now rewrite EI.
Qed.
Lemma put_all (ts : list (node K)) : forall pre, foldM put (combine (seq (length pre) (length ts)) ts) (pre ++ repeat Nil (length ts)) = Ok (pre ++ ts).
Proof.
  assert (Vs : forall (l1 : list (node K)) x l2 t, va_set (l1 ++ x :: l2) (length l1) t = Ok (l1 ++ t :: l2)).
  { induction l1 as [|a l1 IH]; intros x l2 t; cbn; [reflexivity|]. now rewrite IH. }
  induction ts as [|t ts IH]; intros pre; cbn [length seq combine foldM repeat]; [reflexivity|]. unfold put at 1. cbn [fst snd]. rewrite Vs. cbn [bind].
  specialize (IH (pre ++ [t])). rewrite app_length, <- !app_assoc in IH. cbn [length app] in IH. replace (length pre + 1) with (S (length pre)) in IH by lia. exact IH.
Qed.
Lemma init_vec_agree cfg o c l E : no_temps E -> (forall k, fresh (o_next o + k) E) -> Forall no_temp_uses l ->
  agree (vexec cfg (pbind (init_vec o l) (declared c)) E)
    (vbind (values cfg l) (fun vs => new_matrix 0 c (SymVec_of (map (@SymHeapSpec.tree K) vs)) o) E).
Proof.
  intros Ht F Hu. pose proof (dom_values cfg l E) as Dm. pose proof (eval_inits_ok cfg l [] E Ht Hu) as EI. cbn [tmr length app] in EI.
  unfold vbind at 1. destruct (values cfg l E) as [[vs|e|w| |w|] E1]; cbn [agree snd] in *; auto.
  - destruct EI as [EI Hl]. rewrite app_nil_r in EI. unfold SymVec_of, SymMat_make. rewrite map_length, Hl.
    destruct (Nat.ltb_spec 0 (length l)) as [H0|]; [|exact I]. cbn [Nat.ltb Nat.leb andb bind new_matrix s_rows s_cols s_data]. destruct (find_obj (o_vars o) c) eqn:Ef; [exact I|]. cbn [agree].
    rewrite vexec_bind. assert (F0 : fresh (o_next o) (tmr (rev vs) ++ E1)).
    { intros k. rewrite get_app by (apply tmr_off; discriminate). apply Dm. specialize (F 0). rewrite Nat.add_0_r in F. apply F. }
    assert (X : vexec cfg (init_vec o l) E = (Ok (MkObj (length l) 1 (Some (o_next o)), MkObjs (o_vars o) (S (o_next o))), al (o_next o) 0 (map (@SymHeapSpec.tree K) vs) E1)).
    { unfold init_vec. rewrite vexec_bind, (vbind_Ok _ _ _ _ _ EI). rewrite vexec_bind. erewrite vbind_Ok by (apply make_ok; [exact H0|lia|exact F0]).
      rewrite Nat.mul_1_r. rewrite vexec_bind. erewrite vbind_Ok; [reflexivity|]. apply fill_ok; [now rewrite seq_length|].
      pose proof (put_all (map (@SymHeapSpec.tree K) vs) []) as PA. cbn [length app] in PA. rewrite map_length, Hl in PA. exact PA. }
    rewrite (vbind_Ok _ _ _ _ _ X). unfold declared, declare. cbn [fst snd o_vars]. rewrite Ef, Nat.add_0_r, alloc_al. reflexivity.
  - rewrite vexec_bind. unfold vbind, init_vec. rewrite vexec_bind. unfold vbind. now rewrite EI.
  - destruct EI as (E2 & EI). exists E2. rewrite vexec_bind. unfold vbind, init_vec. rewrite vexec_bind. unfold vbind. now rewrite EI.
Qed.

(** ** The end of a matrix *)
Lemma get_rel_out id m x : forall s E, (forall k, s <= k < s + m -> x <> elt id k) -> get (rel id s m E) x = get E x.
Proof.
  induction m as [|m IH]; intros s E H; cbn [rel]; [reflexivity|]. rewrite IH by (intros; apply H; lia). apply get_drop. apply H. lia.
Qed.
Lemma end_array_ok cfg id m : forall s E, (forall k, s <= k < s + m -> get E (elt id k) <> None) ->
  vexec cfg (pfor (seq s m) (fun k => act NoExcept (EndOfScope (elt id k)))) E = (Ok tt, rel id s m E).
Proof.
  induction m as [|m IH]; intros s E H; cbn [seq pfor rel]; [reflexivity|]. rewrite vexec_bind. erewrite vbind_Ok.
  - apply IH. intros k Hk. rewrite get_drop; [apply H; lia|]. intros He. apply elt_inj in He. lia.
  - eapply vexec_act with (ev := Done). cbn [vstep]. unfold vbind, vend. destruct (get E (elt id s)) eqn:G; [reflexivity|]. exfalso. apply (H s); [lia|exact G].
Qed.
Definition live (m : mobj) E : Prop := forall id k, o_data m = Some id -> k < size m -> get E (elt id k) <> None.
Lemma end_obj_ok cfg m E : live m E -> vexec cfg (end_obj m) E = (Ok tt, release m E).
Proof.
  intros H. unfold end_obj, release. destruct (o_data m) as [id|] eqn:Ed; [|reflexivity]. rewrite <- rel_fold. apply end_array_ok. intros k Hk. apply H; [exact Ed|lia].
Qed.

(** ** Differences of vectors *)
Lemma vec_sub_agree cfg lf o m m' c E A B : (forall k, fresh (o_next o + k) E) -> contents E m = Ok A -> contents E m' = Ok B ->
  (forall id, o_data m = Some id -> id < o_next o) -> (forall id, o_data m' = Some id -> id < o_next o) -> o_cols m = 1 ->
  agree (vexec cfg (pbind (vec_sub lf o m m') (declared c)) E) (new_matrix 1 c (SymVec_sub A B) o E).
Proof.
  intros F HA HB Hi Hi' Hc. assert (F0 : fresh (o_next o) E) by (specialize (F 0); now rewrite Nat.add_0_r in F).
  assert (Hne : o_data m <> Some (o_next o)) by (intros H; specialize (Hi _ H); lia). assert (Hne' : o_data m' <> Some (o_next o)) by (intros H; specialize (Hi' _ H); lia).
  pose proof (builds_sub cfg lf o m m' E A B F0 HA HB Hne Hne') as Bs. unfold vec_sub. rewrite (proj2 (Nat.eqb_eq _ _) Hc). unfold SymVec_sub.
  assert (Cs : forall S, SymMat_sub A B = Ok S -> s_cols S = 1).
  { intros S H. unfold SymMat_sub in H. destruct (_ && _)%bool; [|discriminate]. apply bind_Ok_inv in H as (s & _ & H). apply bind_Ok_inv in H as (d & _ & [= <-]). cbn.
    apply contents_inv in HA as (_ & _ & _ & -> & _). exact Hc. }
  assert (Cm : calm (SymMat_sub A B)).
  { unfold SymMat_sub. destruct (_ && _)%bool; [|exact I]. apply calm_bind; [apply calm_make|]. intros s0 _. apply calm_bind; [|intros; exact I]. apply calm_mapM. intros k _.
    apply calm_bind; [apply calm_va_get|]. intros a _. apply calm_bind; [apply calm_va_get|]. intros; apply calm_binary. }
  destruct (SymMat_sub A B) as [S|e|w| |w|] eqn:Es; cbn [bind builds new_matrix agree calm] in *; auto; try contradiction. destruct Bs as [Bs Hl].
  set (t := MkObj (s_rows S) (s_cols S) (Some (o_next o))) in *. set (o1 := MkObjs (o_vars o) (Datatypes.S (o_next o))) in *. set (E1 := al (o_next o) 0 (s_data S) E) in *.
  assert (Ct : contents E1 t = Ok S).
  { unfold contents. cbn [the_data o_data t bind o_rows o_cols]. f_equal. destruct S as [r c0 d]. cbn [s_rows s_cols s_data] in *. f_equal. unfold t, size. cbn [o_rows o_cols].
    assert (Em : Forall (fun n => n = Nil \/ exists e, n = embed e) d).
    { unfold SymMat_sub in Es. destruct (_ && _)%bool; [|discriminate]. apply bind_Ok_inv in Es as (s0 & _ & Es). apply bind_Ok_inv in Es as (d0 & Em & [= _ _ <-]).
      apply contents_inv in HA as (ia & _ & _ & _ & Ha). apply contents_inv in HB as (ib & _ & _ & _ & Hb). rewrite Ha, Hb in Em. apply mapM_Ok in Em.
      clear - Em. induction Em as [|k n ks ns H _ IH]; constructor; [|exact IH]. rewrite !get_contents in H. destruct (k <? size m); [|discriminate]. destruct (k <? size m'); [|discriminate]. cbn [bind] in H.
      destruct (element_cases E ia k) as [(e & _ & Ee)|Ee]; rewrite Ee in H; [|discriminate]. destruct (element_cases E ib k) as [(e' & _ & Ee')|Ee']; rewrite Ee' in H; [|now destruct e].
      right. exists (EBin BSub e e'). change MATH_SUB with (binop_op BSub) in H. rewrite C08_value_binary in H. now injection H. }
    apply nth_ext with Nil Nil; [now rewrite map_length, seq_length|]. intros k Hk. rewrite map_length, seq_length in Hk.
    rewrite nth_indep with (d' := element E1 (o_next o) 0) by now rewrite map_length, seq_length. rewrite map_nth, seq_nth by exact Hk. cbn [Nat.add]. unfold element, E1.
    change (elt (o_next o) k) with (elt (o_next o) (0 + k)). cbn [s_data]. rewrite get_al_in by lia. rewrite Forall_forall in Em. destruct (Em (nth k d Nil)) as [-> |(e & ->)]; [apply nth_In; lia|reflexivity|].
    now rewrite expression_of_embed. }
  assert (F1 : fresh (o_next o1) E1).
  { intros k. unfold E1, o1. cbn [o_next]. rewrite get_al_out by (intros j _ He; apply elt_inj in He; lia). specialize (F 1 k). now rewrite Nat.add_1_r in F. }
  pose proof (builds_to_vec cfg o1 t E1 S F1 Ct) as Bv. specialize (Bv ltac:(unfold t, o1; cbn; intros [= H]; lia)).
  unfold ToSymVec in *. rewrite (Cs _ eq_refl) in Bv |- *. cbn [Nat.eqb] in Bv |- *.
  rewrite vexec_bind. unfold vbind at 1. rewrite vexec_bind, (vbind_Ok _ _ _ _ _ Bs). destruct (s_rows S =? 0) eqn:Er; [exact I|].
  assert (Cv : calm (ToSymVecOneByOne S)).
  { unfold ToSymVecOneByOne. apply calm_bind; [apply calm_make|]. intros s0 _. apply calm_bind; [|intros; exact I]. apply calm_mapM. intros k _. apply calm_bind; [apply calm_va_get|]. intros; apply calm_clone. }
  destruct (ToSymVecOneByOne S) as [W|e|w| |w|]; cbn [builds calm agree] in *; auto; try contradiction. destruct Bv as [Bv Hlv]. unfold new_matrix.
  destruct (find_obj (o_vars o) c) eqn:Ef; [exact I|]. cbn [agree]. rewrite vexec_bind, (vbind_Ok _ _ _ _ _ Bv).
  rewrite vexec_bind. erewrite vbind_Ok. 2:{ apply end_obj_ok. intros id k [= <-] Hk. rewrite get_al_out by (intros j _ He; apply elt_inj in He as [He _]; unfold o1 in He; cbn in He; lia).
    unfold E1. change (elt (o_next o) k) with (elt (o_next o) (0 + k)). rewrite get_al_in; [discriminate|]. rewrite Hl. exact Hk. }
  cbn [vexec vret]. unfold declared, declare. cbn [fst snd o_vars o1]. rewrite Ef. cbn [pbind vexec vret]. unfold vret. f_equal.
  - cbn [o_next]. now rewrite Nat.add_1_r.
  - unfold release. cbn [o_data t]. rewrite <- rel_fold, rel_al_other by (unfold o1; cbn; lia). rewrite alloc_al. cbn [o_next o1]. rewrite Nat.add_1_r. f_equal.
    unfold E1, size, t. cbn [o_rows o_cols]. rewrite <- Hl. apply rel_al.
Qed.

(** ** Changing the elements *)
Lemma upd_same id n E : upd id n (map (element E id) (seq n 0)) E = E. Proof. reflexivity. Qed.
Lemma set_element E id k : set E (elt id k) (expression_of (element E id k)) = E.
Proof.
  unfold element. destruct (get E (elt id k)) as [[e|]|] eqn:G.
  - rewrite expression_of_embed. now apply set_same.
  - now apply set_same.
  - now apply set_absent.
Qed.
Lemma upd_own id m : forall s E, upd id s (map (element E id) (seq s m)) E = E.
Proof. induction m as [|m IH]; intros s E; cbn [seq map upd]; [reflexivity|]. rewrite set_element. apply IH. Qed.
Lemma elements_set id s m E v : map (element (set E (elt id s) v) id) (seq (S s) m) = map (element E id) (seq (S s) m).
Proof.
  apply map_ext_in. intros k Hk. apply in_seq in Hk. unfold element. destruct (get E (elt id s)) as [w|] eqn:G.
  - rewrite (get_set _ _ _ _ _ G). rewrite elt_eqb. destruct (Nat.eqb_spec k s); [lia|]. now rewrite andb_false_r.
  - now rewrite set_absent.
Qed.
Lemma calc_loop cfg id m : forall s E,
  match Calc_list cfg (map (element E id) (seq s m)) with
  | (Ok _, l') => vexec cfg (pfor (seq s m) (fun k => act (Rethrow []) (CalcVar (elt id k)))) E = (Ok tt, upd id s l' E)
  | (Throw e, l') => vexec cfg (pfor (seq s m) (fun k => act (Rethrow []) (CalcVar (elt id k)))) E = (Throw e, upd id s l' E)
  | (Terminate, _) => exists E2, vexec cfg (pfor (seq s m) (fun k => act (Rethrow []) (CalcVar (elt id k)))) E = (Terminate, E2)
  | _ => True
  end.
Proof.
  induction m as [|m IH]; intros s E; cbn [seq map Calc_list pfor]; [reflexivity|].
  destruct (element_cases E id s) as [(e & G & ->)| ->]; [|exact I]. unfold NodeCalc.
  assert (Hv : forall f, vstep cfg (CalcVar (elt id s)) E = f (Vpa cfg (embed e)) -> True) by auto. clear Hv.
  assert (Hv : vstep cfg (CalcVar (elt id s)) E = vbind (vfail (Vpa cfg (embed e))) (fun v => vbind (vset (elt id s) (Some (ENum v))) (fun _ => vret Done)) E).
  { cbn [vstep]. unfold vthe. unfold vbind at 1 2. unfold vget. rewrite G. reflexivity. }
  unfold vbind, vfail in Hv. destruct (Vpa cfg (embed e)) as [v|x|w| |w|]; auto.
  - unfold vset in Hv. rewrite G in Hv. specialize (IH (S s) (set E (elt id s) (Some (ENum v)))). rewrite elements_set in IH.
    destruct (Calc_list cfg (map (element E id) (seq (S s) m))) as [[[]|x|w| |w|] l']; cbn [upd] in *; auto.
    + rewrite vexec_bind. erewrite vbind_Ok by (eapply vexec_act; exact Hv). exact IH.
    + rewrite vexec_bind. erewrite vbind_Ok by (eapply vexec_act; exact Hv). exact IH.
    + destruct IH as (E2 & IH). exists E2. rewrite vexec_bind. erewrite vbind_Ok by (eapply vexec_act; exact Hv). exact IH.
  - cbn [upd]. rewrite expression_of_embed, (set_same _ _ _ G), upd_own. rewrite vexec_bind. eapply vexec_pass; [|exact I]. unfold act. cbn [vexec]. unfold vbind, vguarded. rewrite Hv. reflexivity.
  - exists E. rewrite vexec_bind. eapply vexec_pass; [|exact I]. unfold act. cbn [vexec]. unfold vbind, vguarded. rewrite Hv. reflexivity.
Qed.
Lemma calc_agree cfg m o E A : contents E m = Ok A ->
  agree (vexec cfg (pbind (calc m) (fun _ => PRet (Ev Done, o))) E) (let '(r, B) := SymMat_Calc cfg A in new_contents m r B o E).
Proof.
  intros HA. apply contents_inv in HA as (id & Hd & Hr & Hc & Ha). unfold SymMat_Calc. rewrite Ha. pose proof (calc_loop cfg id (size m) 0 E) as L.
  unfold calc, the_data, new_contents. rewrite Hd. cbn [pbind]. rewrite vexec_bind. unfold vbind.
  destruct (Calc_list cfg (map (element E id) (seq 0 (size m)))) as [[[]|x|w| |w|] l']; cbn [bind agree]; auto.
  - rewrite L, update_upd. reflexivity.
  - rewrite L, update_upd. reflexivity.
  - destruct L as (E2 & L). exists E2. now rewrite L.
Qed.
Lemma first_for_numbers (vals : list (string * K)) y : first_for (map (fun p => (fst p, ENum (snd p))) vals) y = option_map ENum (map_find y vals).
Proof. induction vals as [|[z v] vals IH]; cbn; [reflexivity|]. now destruct (String.eqb y z). Qed.
Lemma SubsValues_embed (e : expr) (vals : list (string * K)) : SubsValues (embed e) vals = Ok (embed (subst (first_for (map (fun p => (fst p, ENum (snd p))) vals)) e)).
Proof.
  unfold SubsValues. apply SubsRoot_ok. intros x.
  replace (fold_left (fun m p => map_insert (fst p) (mkNum (snd p)) m) vals [])
    with (fold_left (fun m p => map_insert (fst p) (snd p) m) (map (fun p => (fst p, mkNum (snd p))) vals) []).
  2:{ generalize (@nil (string * node K)). clear. induction vals as [|[y v] l IH]; intros m; simpl; auto. }
  rewrite map_find_inserts by constructor. cbn [map_find]. rewrite first_for_numbers.
  rewrite (map_find_proj (fun v => mkNum v) x vals). now destruct (map_find x vals).
Qed.
Lemma numbers_dict cfg (vals : list (string * K)) E : veval_dict cfg (numbers vals) E = (Ok (map (fun p => (fst p, VNumber (snd p))) vals), E).
Proof.
  induction vals as [|[y v] vals IH]; [reflexivity|]. change (veval_dict cfg (numbers ((y, v) :: vals))) with (vbind (veval_dict cfg (numbers vals)) (fun es => vret ((y, VNumber v) :: es))).
  rewrite (vbind_Ok _ _ _ _ _ IH). reflexivity.
Qed.
Lemma numbers_vdict (vals : list (string * K)) E : vdict (map (fun p => (fst p, VNumber (snd p))) vals) E = (Ok (map (fun p => (fst p, ENum (snd p))) vals), E).
Proof. induction vals as [|[y v] vals IH]; [reflexivity|]. cbn [map vdict ventry_value fst snd]. unfold vbind, vret in *. rewrite IH. reflexivity. Qed.
Lemma subs_loop cfg id (vals : list (string * K)) m : forall s E,
  match mapM (fun n => SubsValues n vals) (map (element E id) (seq s m)) with
  | Ok l' => vexec cfg (pfor (seq s m) (fun k => act NoExcept (Assign (elt id k) (XSubs (Rvalue (elt id k)) (numbers vals))))) E = (Ok tt, upd id s l' E)
  | Throw _ | Terminate => False
  | _ => True
  end.
Proof.
  induction m as [|m IH]; intros s E; cbn [seq map mapM pfor]; [reflexivity|].
  destruct (element_cases E id s) as [(e & G & ->)| ->]; [|exact I]. rewrite SubsValues_embed. cbn [bind].
  set (e' := subst _ e).
  assert (Hv : vstep cfg (Assign (elt id s) (XSubs (Rvalue (elt id s)) (numbers vals))) E = (Ok Done, set E (elt id s) (Some e'))).
  { cbn [vstep]. assert (Ev : veval cfg (XSubs (Rvalue (elt id s)) (numbers vals)) E = (Ok (Some e'), set E (elt id s) None)).
    { change (veval cfg (XSubs (Rvalue (elt id s)) (numbers vals))) with (vbind (veval_dict cfg (numbers vals)) (fun es => vbind (vret (VMove (elt id s))) (fun o =>
        vbind (vdict es) (fun d => vbind (vtake o) (fun e => vret (Some (subst (first_for d) e))))))).
      rewrite (vbind_Ok _ _ _ _ _ (numbers_dict cfg vals E)). unfold vbind at 1. cbn [vret]. rewrite (vbind_Ok _ _ _ _ _ (numbers_vdict vals E)).
      cbn [vtake]. unfold vbind, vget, vset, vret. rewrite G. cbn [nonempty]. unfold vret. rewrite G. reflexivity. }
    rewrite (vbind_Ok _ _ _ _ _ Ev). unfold vbind, vset, vret. rewrite (get_set _ _ _ _ _ G), String.eqb_refl, set_set. reflexivity. }
  specialize (IH (S s) (set E (elt id s) (Some e'))). rewrite elements_set in IH.
  destruct (mapM (fun n => SubsValues n vals) (map (element E id) (seq (S s) m))) as [l'|x|w| |w|]; cbn [bind upd]; auto.
  rewrite vexec_bind. erewrite vbind_Ok by (eapply vexec_act; exact Hv). rewrite expression_of_embed. exact IH.
Qed.
Lemma subs_agree cfg m o E vals :
  agree (vexec cfg (pbind (subs m vals) (fun _ => PRet (Ev Done, o))) E)
    (match (let* A := contents E m in SymMat_Subs A vals) with
      | Ok B => new_contents m (Ok tt) B o E
      | Terminate => (Terminate, E)
      | _ => (Undef "", E)
      end).
Proof.
  destruct (contents E m) as [A|x|w| |w|] eqn:HA; cbn [bind agree]; auto.
  - apply contents_inv in HA as (id & Hd & Hr & Hc & Ha). unfold SymMat_Subs. rewrite Ha. pose proof (subs_loop cfg id vals (size m) 0 E) as L.
    unfold subs, the_data, new_contents. rewrite Hd. cbn [pbind]. rewrite vexec_bind. unfold vbind.
    destruct (mapM (fun n => SubsValues n vals) (map (element E id) (seq 0 (size m)))) as [l'|x|w| |w|]; cbn [noexcept bind agree]; auto; try contradiction.
    rewrite L, update_upd. reflexivity.
  - unfold contents, the_data in HA. destruct (o_data m); discriminate.
Qed.

(** ** Reading the elements *)
Lemma read_loop {T} cfg hd (query : nat -> stmt K) (g : node K -> res T) (ev : T -> event K) E id m : forall s,
  (forall k, match g (element E id k) with
     | Ok v => vstep cfg (query k) E = (Ok (ev v), E)
     | Throw e => hd = Rethrow [] /\ vstep cfg (query k) E = (Throw e, E)
     | Terminate => False | _ => True end) ->
  match mapM g (map (element E id) (seq s m)) with
  | Ok vs => vexec cfg (read_all hd query (seq s m)) E = (Ok (map ev vs), E)
  | Throw e => vexec cfg (read_all hd query (seq s m)) E = (Throw e, E)
  | Terminate => False
  | _ => True
  end.
Proof.
  induction m as [|m IH]; intros s H; cbn [seq map mapM read_all]; [reflexivity|]. pose proof (H s) as Hs. specialize (IH (S s) H).
  destruct (g (element E id s)) as [v|x|w| |w|]; cbn [bind]; auto.
  - assert (X : vexec cfg (PStep (query s) hd (fun ev => pbind (read_all hd query (seq (S s) m)) (fun evs => PRet (ev :: evs)))) E =
      vbind (vexec cfg (read_all hd query (seq (S s) m))) (fun evs => vret (ev v :: evs)) E).
    { cbn [vexec]. unfold vbind at 1. unfold vguarded. rewrite Hs. now rewrite vexec_bind. }
    rewrite X. unfold vbind. destruct (mapM g (map (element E id) (seq (S s) m))) as [vs|x|w| |w|]; cbn [bind map]; auto; now rewrite IH.
  - destruct Hs as [-> Hs]. cbn [vexec]. unfold vbind, vguarded. rewrite Hs. reflexivity.
Qed.
Lemma the_embed E x e : get E x = Some (Some e) -> vthe x E = (Ok e, E).
Proof. intros G. unfold vthe, vbind, vget. now rewrite G. Qed.
Lemma to_mat_ok cfg E m A : contents E m = Ok A -> match ToMat A with
  | Ok M => vexec cfg (to_mat m) E = (Ok M, E) | Throw e => vexec cfg (to_mat m) E = (Throw e, E) | Terminate => False | _ => True end.
Proof.
  intros HA. apply contents_inv in HA as (id & Hd & Hr & Hc & Ha). unfold ToMat, to_mat. rewrite Ha, Hr, Hc.
  pose proof (read_loop cfg (Rethrow []) (fun k => GetNumber (elt id k)) number_of Number E id (size m) 0) as L.
  match type of L with (?H -> _) => assert (Hh : H) end.
  { intros k. destruct (element_cases E id k) as [(e & G & ->)| ->]; [|exact I].
    assert (Hv : vstep cfg (GetNumber (elt id k)) E = vbind (vfail (match e with ENum v => Ok v | _ => Throw (RuntimeError "ToMat error: node is not number") end)) (fun v => vret (Number v)) E).
    { cbn [vstep]. now rewrite (vbind_Ok _ _ _ _ _ (the_embed _ _ _ G)). }
    rewrite Hv. destruct e; cbn; auto. }
  specialize (L Hh). unfold the_data. rewrite Hd. cbn [pbind]. rewrite vexec_bind. unfold vbind.
  destruct (mapM number_of (map (element E id) (seq 0 (size m)))) as [vs|x|w| |w|]; cbn [bind]; auto; rewrite L; auto.
  cbn [vexec vret]. unfold vret. do 3 f_equal. rewrite map_map. cbn. apply map_id.
Qed.
Lemma foldM_mapM {A B C} (G : A -> res B) (f : C -> B -> C) l : forall b, foldM (fun r n => let* x := G n in Ok (f r x)) l b = let* xs := mapM G l in Ok (fold_left f xs b).
Proof.
  induction l as [|a l IH]; intros b; cbn [foldM mapM]; [reflexivity|]. destruct (G a) as [x|?|?| |?|]; cbn [bind]; auto. rewrite IH. now destruct (mapM G l).
Qed.
Lemma var_names_ok cfg E m A : contents E m = Ok A -> match SymMat_GetAllVarNames A with
  | Ok l => vexec cfg (var_names m) E = (Ok l, E) | Throw _ | Terminate => False | _ => True end.
Proof.
  intros HA. apply contents_inv in HA as (id & Hd & Hr & Hc & Ha). unfold SymMat_GetAllVarNames, var_names. rewrite Ha.
  rewrite (foldM_mapM GetAllVarNames (fun ret names => fold_left (fun s x => set_insert x s) names ret)).
  pose proof (read_loop cfg NoExcept (fun k => GetVarNames (elt id k)) GetAllVarNames Names E id (size m) 0) as L.
  assert (Ge : forall k, match GetAllVarNames (element E id k) with Ok v => vstep cfg (GetVarNames (elt id k)) E = (Ok (Names v), E) | Throw _ | Terminate => False | _ => True end).
  { intros k. destruct (element_cases E id k) as [(e & G & ->)| ->]; [|exact I]. destruct (GetAllVarNames_embed e) as (l & El & _). rewrite El.
    cbn [vstep]. rewrite (vbind_Ok _ _ _ _ _ (the_embed _ _ _ G)). rewrite El. reflexivity. }
  match type of L with (?H -> _) => assert (Hh : H) end.
  { intros k. specialize (Ge k). destruct (GetAllVarNames (element E id k)); auto; contradiction. }
  specialize (L Hh). assert (C : calm (mapM GetAllVarNames (map (element E id) (seq 0 (size m))))).
  { apply calm_mapM. intros n Hn. apply in_map_iff in Hn as (k & <- & _). specialize (Ge k). destruct (GetAllVarNames (element E id k)); cbn [calm]; auto. }
  unfold the_data. rewrite Hd. cbn [pbind]. rewrite vexec_bind. unfold vbind.
  destruct (mapM GetAllVarNames (map (element E id) (seq 0 (size m)))) as [vs|x|w| |w|]; cbn [bind calm] in *; auto. rewrite L.
  cbn [vexec vret]. unfold vret. do 2 f_equal. generalize (@nil string). clear. induction vs as [|v vs IH]; intros s; cbn; [reflexivity|]. now rewrite IH.
Qed.
Lemma text_loop cols n (l : list (node K)) : forall i, SymMat_ToString_loop cols n i l = let* ss := mapM ToString l in Ok (layout (K:=K) cols n i (map (fun t => Text t) ss)).
Proof.
  induction l as [|a l IH]; intros i; cbn [SymMat_ToString_loop mapM]; [reflexivity|]. destruct (ToString a) as [x|?|?| |?|]; cbn [bind]; auto. rewrite IH. now destruct (mapM ToString l).
Qed.
Lemma to_string_ok cfg E m A : contents E m = Ok A -> match SymMat_ToString A with
  | Ok t => vexec cfg (to_string m) E = (Ok t, E) | Throw _ | Terminate => False | _ => True end.
Proof.
  intros HA. apply contents_inv in HA as (id & Hd & Hr & Hc & Ha). unfold SymMat_ToString, to_string. rewrite Ha, Hc. unfold the_data. rewrite Hd. cbn [pbind].
  destruct (size m) as [|n] eqn:Hs; [reflexivity|]. rewrite <- Hs. replace (size m =? 0) with false by (symmetry; apply Nat.eqb_neq; lia).
  assert (Hm : exists a l, map (element E id) (seq 0 (size m)) = a :: l) by (rewrite Hs; cbn; eauto). destruct Hm as (a & l & Hm). rewrite Hm. rewrite <- Hm. clear a l Hm.
  rewrite text_loop, map_length, seq_length.
  pose proof (read_loop cfg NoExcept (fun k => GetString (elt id k)) ToString (fun t => Text t) E id (size m) 0) as L.
  assert (Ge : forall k, match ToString (element E id k) with Ok v => vstep cfg (GetString (elt id k)) E = (Ok (Text v), E) | Throw _ | Terminate => False | _ => True end).
  { intros k. destruct (element_cases E id k) as [(e & G & ->)| ->]; [|exact I]. rewrite ToString_text.
    cbn [vstep]. rewrite (vbind_Ok _ _ _ _ _ (the_embed _ _ _ G)). rewrite ToString_text. reflexivity. }
  match type of L with (?H -> _) => assert (Hh : H) end.
  { intros k. specialize (Ge k). destruct (ToString (element E id k)); auto; contradiction. }
  specialize (L Hh). assert (C : calm (mapM ToString (map (element E id) (seq 0 (size m))))).
  { apply calm_mapM. intros t Hn. apply in_map_iff in Hn as (k & <- & _). specialize (Ge k). destruct (ToString (element E id k)); cbn [calm]; auto. }
  rewrite vexec_bind. unfold vbind. destruct (mapM ToString (map (element E id) (seq 0 (size m)))) as [vs|x|w| |w|]; cbn [bind calm] in *; auto. rewrite L. reflexivity.
Qed.
Lemma equal_loop cfg E ia ib : ia <> ib -> forall m s,
  match sym_equal (map (element E ia) (seq s m)) (map (element E ib) (seq s m)) with
  | Ok r => vexec cfg (equal_from ia ib (seq s m)) E = (Ok r, E) | Throw _ | Terminate => False | _ => True end.
Proof.
  intros Hne. induction m as [|m IH]; intros s; cbn [seq map sym_equal equal_from]; [reflexivity|].
  destruct (element_cases E ia s) as [(e & G & ->)| ->]; [|exact I]. destruct (element_cases E ib s) as [(e' & G' & ->)| ->]; [|now destruct e].
  pose proof (Equal_node_eqb (embed e) (embed e') (ApiProofs.embed_not_nil e) (ApiProofs.embed_not_nil e')) as Er. set (r := node_eqb (embed e) (embed e')) in *. rewrite Er. cbn [bind].
  assert (Hv : vstep cfg (GetEqual (elt ia s) (elt ib s)) E = (Ok (Bool r), E)).
  { cbn [vstep]. rewrite (vbind_Ok _ _ _ _ _ (the_embed _ _ _ G)), (vbind_Ok _ _ _ _ _ (the_embed _ _ _ G')). rewrite elt_eqb. destruct (Nat.eqb_spec ia ib); [congruence|]. cbn [andb]. rewrite Er. reflexivity. }
  specialize (IH (S s)). cbn [vexec]. unfold vbind, vguarded. rewrite Hv. destruct r; [exact IH|reflexivity].
Qed.
Lemma Forall2_left {A B} (R : A -> B -> Prop) l l' : Forall2 R l l' -> forall a, In a l -> exists b, R a b.
Proof. induction 1 as [|a b l l' H _ IH]; intros x; [intros []|]. intros [->|Hx]; eauto. Qed.
Lemma equal_self cfg E id m A d : contents E m = Ok A -> o_data m = Some id -> SymMat_Clone A = Ok d -> vexec cfg (equal m m) E = (Ok true, E).
Proof.
  intros HA Hd Hc. apply contents_inv in HA as (id' & Hd' & Hr & Hcc & Ha). rewrite Hd in Hd'. injection Hd' as <-.
  unfold equal. rewrite !Nat.eqb_refl. cbn [andb]. unfold the_data. rewrite Hd. cbn [pbind].
  unfold SymMat_Clone in Hc. apply bind_Ok_inv in Hc as (s & Hs & Hc). apply bind_Ok_inv in Hc as (l & Hm & _). apply length_make in Hs as (Hl & _ & _). rewrite Hl, Ha, Hr, Hcc in Hm. fold (size m) in Hm.
  apply mapM_Ok in Hm. assert (All : forall k, In k (seq 0 (size m)) -> exists e, get E (elt id k) = Some (Some e)).
  { intros k Hk. destruct (Forall2_left _ _ _ Hm _ Hk) as (n & H). rewrite get_contents in H. destruct (k <? size m); [|discriminate]. cbn [bind] in H.
    destruct (element_cases E id k) as [(e & G & Ee)|Ee]; [eauto|]. rewrite Ee in H. discriminate. }
  clear Hm Hl Ha. revert All. generalize (seq 0 (size m)) as kk. induction kk as [|k ks IH]; intros All; [reflexivity|]. cbn [equal_from].
  destruct (All k (or_introl eq_refl)) as (e & G). assert (Hv : vstep cfg (GetEqual (elt id k) (elt id k)) E = (Ok (Bool true), E)).
  { cbn [vstep]. rewrite !(vbind_Ok _ _ _ _ _ (the_embed _ _ _ G)). now rewrite String.eqb_refl. }
  cbn [vexec]. unfold vbind, vguarded. rewrite Hv. apply IH. intros k' Hk'. apply All. now right.
Qed.

(** ** The state between statements *)
Record wf (o : objs) E : Prop := MkWf {
  wf_names : NoDup (map fst (o_vars o));
  wf_live : forall x m, find_obj (o_vars o) x = Some m -> live m E;
  wf_next : forall x m id, find_obj (o_vars o) x = Some m -> o_data m = Some id -> id < o_next o;
  wf_apart : forall x y m m' id, find_obj (o_vars o) x = Some m -> find_obj (o_vars o) y = Some m' -> o_data m = Some id -> o_data m' = Some id -> x = y;
  wf_only : forall n, get E n <> None -> (exists x, n = node_name x) \/
    exists x m id k, find_obj (o_vars o) x = Some m /\ o_data m = Some id /\ k < size m /\ n = elt id k }.
Lemma wf_fresh o E : wf o E -> forall k, fresh (o_next o + k) E.
Proof.
  intros W k j. destruct (get E (elt (o_next o + k) j)) eqn:G; [|reflexivity]. exfalso. destruct (wf_only _ _ W (elt (o_next o + k) j)) as [(x & [=])|(x & m & id & i & Hf & Hd & Hi & He)]; [congruence|].
  apply elt_inj in He as [He _]. pose proof (wf_next _ _ W _ _ _ Hf Hd). lia.
Qed.
Lemma wf_fresh0 o E : wf o E -> fresh (o_next o) E.
Proof. intros W. pose proof (wf_fresh _ _ W 0) as F. now rewrite Nat.add_0_r in F. Qed.
Lemma wf_no_temps o E : wf o E -> no_temps E.
Proof. intros W k. destruct (get E (temp_name k)) eqn:G; [|reflexivity]. exfalso. destruct (wf_only _ _ W (temp_name k)) as [(x & [=])|(x & m & id & i & _ & _ & _ & [=])]. congruence. Qed.
Lemma wf_no_local o E x : wf o E -> get E (local_name x) = None.
Proof. intros W. destruct (get E (local_name x)) eqn:G; [|reflexivity]. exfalso. destruct (wf_only _ _ W (local_name x)) as [(y & [=])|(y & m & id & i & _ & _ & _ & [=])]. congruence. Qed.
Lemma wf_ne o E x m : wf o E -> find_obj (o_vars o) x = Some m -> o_data m <> Some (o_next o).
Proof. intros W Hf Hd. pose proof (wf_next _ _ W _ _ _ Hf Hd). lia. Qed.

Lemma uses_rename (f : string -> string) :
  (forall e : nexp K, forall y, In y (uses_exp (rename_exp f e)) -> exists x, y = f x) /\
  (forall a : arg K, forall y, In y (uses_arg (rename_arg f a)) -> exists x, y = f x) /\
  (forall d : dict K, forall y, In y (uses_dict (rename_dict f d)) -> exists x, y = f x).
Proof.
  apply nexp_arg_dict_ind; cbn [rename_exp rename_arg rename_dict uses_exp uses_arg uses_dict].
  - intros v y [].
  - intros v y [].
  - intros v y [].
  - intros x y [<-|[]]. eauto.
  - intros a IH y. apply IH.
  - intros u a IH y. apply IH.
  - intros lf b a1 IH1 a2 IH2 y Hy. apply in_app_iff in Hy as [Hy|Hy]; [now apply IH1|now apply IH2].
  - intros a IH1 d IH2 y Hy. apply in_app_iff in Hy as [Hy|Hy]; [now apply IH1|now apply IH2].
  - intros a IH x i y. apply IH.
  - intros x y [<-|[]]. eauto.
  - intros x y [<-|[]]. eauto.
  - intros e IH y. apply IH.
  - intros y [].
  - intros z a IH1 d IH2 y Hy. apply in_app_iff in Hy as [Hy|Hy]; [now apply IH1|now apply IH2].
  - intros z v d IH y. apply IH.
Qed.
Lemma name_of_cases o r l : bind_refs o r = Ok l -> forall x, name_of l x = node_name x \/ exists id k, name_of l x = elt id k.
Proof.
  revert l. induction r as [|[y [[a i] j]] r IH]; intros l; cbn [bind_refs].
  - intros [= <-] x. now left.
  - intros H x. apply bind_Ok_inv in H as (m & _ & H). apply bind_Ok_inv in H as (id & _ & H). destruct (_ <? _); [|discriminate]. apply bind_Ok_inv in H as (l' & Hl & [= <-]).
    cbn [name_of]. destruct (String.eqb x y); [right; eauto|]. now apply IH.
Qed.
Lemma renamed_no_temp o r l e : bind_refs o r = Ok l -> no_temp_uses (rename_exp (name_of l) e).
Proof.
  intros H k Hi. apply (proj1 (uses_rename (name_of l))) in Hi as (x & Hx). destruct (name_of_cases _ _ _ H x) as [Hn|(id & j & Hn)]; rewrite Hn in Hx; discriminate.
Qed.

Lemma agree_node {A} cfg s E (f : event K -> A) : agree (vexec cfg (PStep s (Rethrow []) (fun ev => PRet (f ev))) E) (vbind (vstep cfg s) (fun ev => vret (f ev)) E).
Proof.
  cbn [vexec]. unfold vbind, vguarded. destruct (vstep cfg s E) as [[ev|e|w| |w|] E']; unfold vret; cbn [agree]; eauto.
Qed.
Lemma agree_ask {T} cfg E m (o : objs) (p : prog K T) (f : symmat K -> res T) (g : T -> mevent K) :
  (forall A, contents E m = Ok A -> match f A with Ok r => vexec cfg p E = (Ok r, E) | Throw e => vexec cfg p E = (Throw e, E) | Terminate => False | _ => True end) ->
  agree (vexec cfg (pbind p (fun r => PRet (g r, o))) E) (let* A := contents E m in let* r := f A in Ok (g r, o), E).
Proof.
  intros H. destruct (contents E m) as [A|e|w| |w|] eqn:HA; cbn [bind agree]; auto.
  - specialize (H A eq_refl). rewrite vexec_bind. unfold vbind. destruct (f A) as [r|e|w| |w|]; cbn [bind agree]; auto; try now rewrite H. contradiction.
  - unfold contents, the_data in HA. destruct (o_data m); discriminate.
  - unfold contents, the_data in HA. destruct (o_data m); discriminate.
Qed.
Lemma contents_calm E m : calm (contents E m).
Proof. unfold contents, the_data. now destruct (o_data m). Qed.
Lemma agree_make1 cfg o E c m (p : prog K (mobj * objs)) (f : symmat K -> res (symmat K)) :
  (forall A, contents E m = Ok A -> builds cfg o E p (f A)) ->
  agree (vexec cfg (pbind p (declared c)) E) (new_matrix 0 c (let* A := contents E m in f A) o E).
Proof.
  intros H. pose proof (contents_calm E m) as C. destruct (contents E m) as [A|e|w| |w|]; cbn [bind calm] in *; try contradiction; try exact I. apply builds_declared. now apply H.
Qed.

Theorem step_agree cfg lf s o E : wf o E -> agree (vexec cfg (mprog lf s o) E) (vmstep cfg s o E).
Proof.
  intros W. pose proof (wf_fresh0 _ _ W) as F0. pose proof (wf_fresh _ _ W) as F. pose proof (wf_no_temps _ _ W) as Ht.
  destruct s as [r s|c rows cols|c r l|c r l|c M|c a|c a|c a|c a b|c a b|c a b|c a vars|c a|c a|a|a vals|a t|a|a|a|a|a|a|a b|a];
    cbn [mprog vmstep]; unfold the_obj.
  - (* MNode *) destruct (bind_refs o r) as [l|e|w| |w|]; try exact I. cbn [pbind]. apply agree_node.
  - (* MMake *) apply builds_declared. now apply builds_of_make.
  - (* MInit *) destruct (bind_refs o r) as [b|e|w| |w|] eqn:Hb; try exact I. cbn [pbind]. apply init_mat_agree; auto.
    apply Forall_forall. intros row Hr. apply in_map_iff in Hr as (row0 & <- & _). apply Forall_forall. intros e He. apply in_map_iff in He as (e0 & <- & _). exact (renamed_no_temp o r b e0 Hb).
  - (* MInitVec *) destruct (bind_refs o r) as [b|e|w| |w|] eqn:Hb; try exact I. cbn [pbind]. apply init_vec_agree; auto.
    apply Forall_forall. intros e He. apply in_map_iff in He as (e0 & <- & _). exact (renamed_no_temp o r b e0 Hb).
  - (* MOfMat *) apply builds_declared. now apply builds_of_mat.
  - (* MClone *) destruct (find_obj (o_vars o) a) as [m|] eqn:Ha; [|exact I]. cbn [pbind bind]. apply agree_make1. intros A HA. apply builds_clone; auto. exact (wf_ne o E a m W Ha).
  - (* MToVec *) destruct (find_obj (o_vars o) a) as [m|] eqn:Ha; [|exact I]. cbn [pbind bind]. apply agree_make1. intros A HA. apply builds_to_vec; auto. exact (wf_ne o E a m W Ha).
  - (* MToVecOneByOne *) destruct (find_obj (o_vars o) a) as [m|] eqn:Ha; [|exact I]. cbn [pbind bind]. apply agree_make1. intros A HA. apply builds_one_by_one; auto. exact (wf_ne o E a m W Ha).
  - (* MSub *) destruct (find_obj (o_vars o) a) as [m|] eqn:Ha; [|exact I]. destruct (find_obj (o_vars o) b) as [m'|] eqn:Hb; [|exact I]. cbn [pbind bind].
    apply agree_make1. intros A HA. pose proof (contents_calm E m') as C. destruct (contents E m') as [B|e|w| |w|] eqn:HB; cbn [bind calm] in *; try contradiction; try exact I.
    apply builds_sub; auto; [exact (wf_ne o E a m W Ha)|exact (wf_ne o E b m' W Hb)].
  - (* MVecSub *) destruct (find_obj (o_vars o) a) as [m|] eqn:Ha; [|exact I]. destruct (find_obj (o_vars o) b) as [m'|] eqn:Hb; [|exact I]. cbn [pbind bind].
    destruct (Nat.eqb_spec (o_cols m) 1) as [Hc|Hc].
    + pose proof (contents_calm E m) as C. destruct (contents E m) as [A|e|w| |w|] eqn:HA; cbn [bind calm] in *; try contradiction; try exact I.
      pose proof (contents_calm E m') as C'. destruct (contents E m') as [B|e|w| |w|] eqn:HB; cbn [bind calm] in *; try contradiction; try exact I.
      apply vec_sub_agree; auto; intros id; [exact (wf_next _ _ W _ _ _ Ha)|exact (wf_next _ _ W _ _ _ Hb)].
    + exact I.
  - (* MMul *) destruct (find_obj (o_vars o) a) as [m|] eqn:Ha; [|exact I]. destruct (find_obj (o_vars o) b) as [m'|] eqn:Hb; [|exact I]. cbn [pbind bind].
    apply agree_make1. intros A HA. pose proof (contents_calm E m') as C. destruct (contents E m') as [B|e|w| |w|] eqn:HB; cbn [bind calm] in *; try contradiction; try exact I.
    apply builds_mul; auto; [exact (wf_no_local o E _ W)|exact (wf_ne o E a m W Ha)|exact (wf_ne o E b m' W Hb)].
  - (* MJacobian *) destruct (find_obj (o_vars o) a) as [m|] eqn:Ha; [|exact I]. cbn [pbind bind]. apply agree_make1. intros A HA. apply builds_jacobian; auto. exact (wf_ne o E a m W Ha).
  - (* MMove *) destruct (find_obj (o_vars o) a) as [m|] eqn:Ha; [|exact I]. cbn [pbind bind]. unfold declared, declare. cbn [fst snd o_vars].
    destruct (find_obj (o_vars o) c) eqn:Hc; [exact I|]. cbn [agree].
    assert (Hs : find_obj (set_obj (o_vars o) a (moved_from m)) c = None).
    { clear - Hc. induction (o_vars o) as [|[y w] l IH]; cbn in *; [reflexivity|]. destruct (String.eqb_spec c y) as [->|Hy]; [discriminate|]. destruct (String.eqb_spec a y) as [->|]; cbn.
      - now destruct (String.eqb_spec c y).
      - destruct (String.eqb_spec c y); [congruence|auto]. }
    rewrite Hs. reflexivity.
  - (* MMoveAssign *) destruct (find_obj (o_vars o) a) as [m|] eqn:Ha; [|exact I]. cbn [pbind bind]. destruct (find_obj (o_vars o) c) as [old|] eqn:Hc; [|exact I]. cbn [pbind].
    destruct (String.eqb c a); [reflexivity|]. cbn [agree]. rewrite vexec_bind. rewrite (vbind_Ok _ _ _ _ _ (end_obj_ok _ _ _ (wf_live _ _ W _ _ Hc))). reflexivity.
  - (* MCalc *) destruct (find_obj (o_vars o) a) as [m|] eqn:Ha; [|exact I]. cbn [pbind bind]. pose proof (contents_calm E m) as C. destruct (contents E m) as [A|e|w| |w|] eqn:HA; try exact I. now apply calc_agree.
  - (* MSubs *) destruct (find_obj (o_vars o) a) as [m|] eqn:Ha; [|exact I]. cbn [pbind bind]. apply subs_agree.
  - (* MSubsTable *) destruct (find_obj (o_vars o) a) as [m|] eqn:Ha; [|exact I]. cbn [pbind bind]. apply (subs_agree cfg m o E (Items t)).
  - (* MEnd *) destruct (find_obj (o_vars o) a) as [m|] eqn:Ha; [|exact I]. cbn [pbind bind agree]. rewrite vexec_bind. rewrite (vbind_Ok _ _ _ _ _ (end_obj_ok _ _ _ (wf_live _ _ W _ _ Ha))). reflexivity.
  - destruct (find_obj (o_vars o) a) as [m|] eqn:Ha; [|exact I]. reflexivity.
  - destruct (find_obj (o_vars o) a) as [m|] eqn:Ha; [|exact I]. reflexivity.
  - destruct (find_obj (o_vars o) a) as [m|] eqn:Ha; [|exact I]. cbn [pbind bind]. apply (agree_ask cfg E m o _ (fun A => Ok (SymMat_Empty A)) (fun b => Ev (Bool b))). intros A HA.
    apply contents_inv in HA as (id & Hd & _ & _ & Hs). unfold the_data. rewrite Hd. cbn [pbind vexec]. unfold vret, SymMat_Empty. rewrite Hs, map_length, seq_length. reflexivity.
  - destruct (find_obj (o_vars o) a) as [m|] eqn:Ha; [|exact I]. cbn [pbind bind]. apply agree_ask. intros A HA. pose proof (to_mat_ok cfg E m A HA) as T. destruct (ToMat A); auto.
  - destruct (find_obj (o_vars o) a) as [m|] eqn:Ha; [|exact I]. cbn [pbind bind]. apply (agree_ask cfg E m o _ SymMat_GetAllVarNames (fun l => Ev (Names l))). intros A HA. pose proof (var_names_ok cfg E m A HA) as T. destruct (SymMat_GetAllVarNames A); auto; contradiction.
  - (* MEqual *) destruct (find_obj (o_vars o) a) as [m|] eqn:Ha; [|exact I]. destruct (find_obj (o_vars o) b) as [m'|] eqn:Hb; [|exact I]. cbn [pbind bind].
    apply (agree_ask cfg E m o (equal m m') (fun A => if String.eqb a b then let* _ := SymMat_Clone A in Ok true else let* B := contents E m' in SymMat_eq A B) (fun r => Ev (Bool r))).
    intros A HA. destruct (String.eqb_spec a b) as [->|Hab].
    + rewrite Ha in Hb. injection Hb as <-. pose proof (contents_inv _ _ _ HA) as (id & Hd & _). destruct (SymMat_Clone A) as [d|e|w| |w|] eqn:Hc; cbn [bind]; auto.
      * now apply (equal_self cfg E id m A d).
      * exfalso. unfold SymMat_Clone in Hc. assert (Cc : calm (SymMat_Clone A)); [|unfold SymMat_Clone in Cc; rewrite Hc in Cc; exact Cc].
        unfold SymMat_Clone. apply calm_bind; [apply calm_make|]. intros s0 _. apply calm_bind; [|intros; exact I]. apply calm_mapM. intros k _. apply calm_bind; [apply calm_va_get|]. intros; apply calm_clone.
      * unfold SymMat_Clone in Hc. assert (Cc : calm (SymMat_Clone A)); [|unfold SymMat_Clone in Cc; rewrite Hc in Cc; exact Cc].
        unfold SymMat_Clone. apply calm_bind; [apply calm_make|]. intros s0 _. apply calm_bind; [|intros; exact I]. apply calm_mapM. intros k _. apply calm_bind; [apply calm_va_get|]. intros; apply calm_clone.
    + pose proof (contents_calm E m') as C. destruct (contents E m') as [B|e|w| |w|] eqn:HB; cbn [bind calm] in *; try contradiction; auto.
      apply contents_inv in HA as (ia & Hd & Hr & Hc & Hs). apply contents_inv in HB as (ib & Hd' & Hr' & Hc' & Hs').
      unfold SymMat_eq, equal. rewrite Hr, Hr', Hc, Hc'. destruct ((o_rows m' =? o_rows m) && (o_cols m' =? o_cols m))%bool eqn:Es; [|reflexivity].
      apply andb_prop in Es as [Es1 Es2]. apply Nat.eqb_eq in Es1, Es2. unfold the_data. rewrite Hd, Hd'. cbn [pbind]. rewrite Hs, Hs'. replace (size m') with (size m) by (unfold size; congruence).
      assert (Hne : ia <> ib) by (intros <-; apply Hab; exact (wf_apart _ _ W _ _ _ _ _ Ha Hb Hd Hd')).
      pose proof (equal_loop cfg E ia ib Hne (size m) 0) as L. destruct (sym_equal _ _); auto; contradiction.
  - destruct (find_obj (o_vars o) a) as [m|] eqn:Ha; [|exact I]. cbn [pbind bind]. apply (agree_ask cfg E m o _ SymMat_ToString (fun t => Ev (Text t))). intros A HA. pose proof (to_string_ok cfg E m A HA) as T. destruct (SymMat_ToString A); auto; contradiction.
Qed.
End Sim.
