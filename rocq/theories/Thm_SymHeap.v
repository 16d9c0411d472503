(** C60: programs over Node, SymMat and SymVec variables, on the heap, for every allocator, every
    order of evaluation and every finite history.

    [vmrun] (SymHeapSpec.v) says what a program means: matrices hold expressions, and the operations
    are those of SymMatModel.v on them.  [mrun] (SymHeapModel.v) executes it on objects with
    pointers.  [proper] and [tree_of] are defined in MemSpec.v. *)
From Coq Require Import String List ZArith Bool Arith Lia.
From Verif Require Import Base MathOp NodeModel ToStringModel ExprSpec MatModel VarsTableModel SymMatModel HeapModel HeapSpec ApiModel ApiSpec ApiProofs MemSpec MemProofs Thm_Api
  IEEE SymHeapModel SymHeapSpec SymHeapProofs SymHeapRun.
Import ListNotations.
Local Open Scope string_scope. Local Open Scope list_scope. Local Open Scope nat_scope.

(** The trees found by following the pointers of the elements of a matrix. *)
Definition trees_in {K : num_ops} (h : heap K) (m : mobj) : option (list (option (option (node K)))) :=
  option_map (fun id => map (fun k => tree_of h (elt id k)) (seq 0 (size m))) (o_data m).
(** No Node or matrix exists. *)
Definition nothing : objs := MkObjs [] 0.
(** The matrices a statement mentions. *)
Definition of_refs (r : refs) : list string := map (fun b => fst (fst (snd b))) r.
Definition mentions {K : num_ops} (s : mstmt K) : list string :=
  match s with
  | MNode r _ => of_refs r
  | MMake c _ _ | MOfMat c _ => [c]
  | MInit c r _ | MInitVec c r _ => c :: of_refs r
  | MClone c a | MToVec c a | MToVecOneByOne c a | MJacobian c a _ | MMove c a | MMoveAssign c a => [c; a]
  | MSub c a b | MVecSub c a b | MMul c a b => [c; a; b]
  | MCalc a | MSubs a _ | MSubsTable a _ | MEnd a | MRows a | MCols a | MEmpty a | MToMat a | MVarNames a | MToString a => [a]
  | MEqual a b => [a; b]
  end.

Section C60.
Variables (K : num_ops) (pick : heap K -> addr) (leftFirst : bool).
Hypothesis Hpick : allocator pick.

Lemma trees_contents h (E : env K) m A : holds h E [] -> live m E -> contents E m = Ok A ->
  trees_in h m = Some (map (fun t => Some (Some t)) (s_data A)).
Proof.
  intros Hh Hl HA. apply contents_inv in HA as (id & Hd & _ & _ & Hs). unfold trees_in. rewrite Hd, Hs, map_map. cbn [option_map]. f_equal.
  apply map_ext_in. intros k Hk. apply in_seq in Hk. rewrite (holds_tree_of _ _ _ Hh). specialize (Hl id k Hd ltac:(lia)). unfold element.
  destruct (get E (elt id k)) as [[e|]|]; [reflexivity|reflexivity|congruence].
Qed.

(** After any history: the program has seen what its meaning says, every Node variable holds the tree
    of its value, every matrix that was not moved from has the elements its meaning says, memory is
    proper (nothing dangling, shared, doubly owned or leaked, parents right); every Node object in
    memory is a variable of the program or an element of exactly one matrix; and the number of objects
    is exactly one per Node and one per node of the expressions they hold. *)
Theorem C60_every_history cfg p evs o E : vmrun cfg p nothing [] = (evs, (Ok o, E)) ->
  exists h, mrun pick leftFirst cfg p nothing [] = (evs, (Ok o, h)) /\
    proper h /\
    (forall x, tree_of h (node_name x) = option_map (fun v => Some (value_tree v)) (get E (node_name x))) /\
    (forall c m A, find_obj (o_vars o) c = Some m -> contents E m = Ok A -> trees_in h m = Some (map (fun t => Some (Some t)) (s_data A))) /\
    (forall n, tree_of h n <> None -> (exists x, n = node_name x) \/
      exists c m id k, find_obj (o_vars o) c = Some m /\ o_data m = Some id /\ k < size m /\ n = elt id k) /\
    (forall c d m m' id, find_obj (o_vars o) c = Some m -> find_obj (o_vars o) d = Some m' -> o_data m = Some id -> o_data m' = Some id -> c = d) /\
    length h = length E + fold_right (fun v n => match snd v with Some e => esize e | None => 0 end + n) 0 E.
Proof.
  intros Hv. pose proof (mrun_sim pick Hpick leftFirst p cfg nothing [] [] wf_empty holds_empty) as S. rewrite Hv in S. destruct S as (h & Er & Hh & W). exists h.
  split; [exact Er|]. split; [eapply holds_proper; exact Hh|]. split; [intros x; now apply holds_tree_of|].
  split; [intros c m A Hf HA; refine (trees_contents _ _ _ _ Hh (wf_live _ _ W _ _ Hf) HA)|].
  split; [intros n Hn; apply (wf_only _ _ W); rewrite (holds_tree_of _ _ _ Hh) in Hn; destruct (get E n); [discriminate|now destruct Hn]|].
  split; [exact (wf_apart _ _ W)|]. now apply holds_size.
Qed.
(** If a noexcept function would throw, the program ends there. *)
Theorem C60_terminates cfg p evs E : vmrun cfg p nothing [] = (evs, (Terminate, E)) ->
  exists h, mrun pick leftFirst cfg p nothing [] = (evs, (Terminate, h)).
Proof. intros Hv. pose proof (mrun_sim pick Hpick leftFirst p cfg nothing [] [] wf_empty holds_empty) as S. now rewrite Hv in S. Qed.
(** A program without meaning behaves well up to the statement that has none. *)
Theorem C60_until_undefined cfg p evs w E : vmrun cfg p nothing [] = (evs, (Undef w, E)) ->
  exists evs' r, mrun pick leftFirst cfg p nothing [] = (evs ++ evs', r).
Proof. intros Hv. pose proof (mrun_sim pick Hpick leftFirst p cfg nothing [] [] wf_empty holds_empty) as S. now rewrite Hv in S. Qed.
(** When all matrices and Node variables have gone out of scope, memory is empty. *)
Theorem C60_all_freed cfg p evs o E : vmrun cfg p nothing [] = (evs, (Ok o, E)) -> o_vars o = [] -> (forall x, get E (node_name x) = None) ->
  mrun pick leftFirst cfg p nothing [] = (evs, (Ok o, [])).
Proof.
  intros Hv Ho Hn. pose proof (mrun_sim pick Hpick leftFirst p cfg nothing [] [] wf_empty holds_empty) as S. rewrite Hv in S. destruct S as (h & Er & Hh & W).
  assert (HE : E = []).
  { destruct E as [|[n v] E']; [reflexivity|]. exfalso. assert (G : get ((n, v) :: E') n <> None) by (cbn; now rewrite String.eqb_refl).
    destruct (wf_only _ _ W n G) as [(x & ->)|(c & m & id & k & Hf & _)]; [now apply G|]. rewrite Ho in Hf. discriminate. }
  subst E. pose proof (holds_size _ _ Hh) as Hl. destruct h; [exact Er|discriminate].
Qed.
End C60.

(** Matrices do not share elements: a statement that does not mention the matrix c, normal or ended by
    an exception, leaves it as it is. *)
Section Frame.
Context {K : num_ops}.
Notation env := (env K).
Implicit Types E : env.

Lemma uses_rename_stmt (f : string -> string) (s : stmt K) y : In y (uses (rename_stmt f s)) -> exists x, y = f x \/ y = node_name x.
Proof.
  destruct (uses_rename (K:=K) f) as (Ue & Ua & _).
  destruct s as [x e|x|x e|b x a|x|x|x z|x z|x|x|x|x|x|x z|x|c]; cbn [rename_stmt uses In]; intros H;
    repeat (destruct H as [H|H]; [subst y; eauto|]); try contradiction; (apply Ue in H || apply Ua in H); destruct H as (z & ->); eauto.
Qed.
Lemma name_of_elt o r l id k : bind_refs o r = Ok l -> forall x, name_of l x = elt id k -> exists a m, In a (of_refs r) /\ find_obj (o_vars o) a = Some m /\ o_data m = Some id.
Proof.
  revert l. induction r as [|[y [[a i] j]] r IH]; intros l; cbn [bind_refs].
  - intros [= <-] x. discriminate.
  - intros H x. apply bind_Ok_inv in H as (m & Hm & H). apply bind_Ok_inv in H as (id' & Hd & H). destruct (_ <? _); [|discriminate]. apply bind_Ok_inv in H as (l' & Hl & [= <-]).
    cbn [name_of]. destruct (String.eqb x y).
    + intros He. apply elt_inj in He as [-> _]. exists a, m. split; [now left|]. unfold the_obj in Hm. destruct (find_obj (o_vars o) a); [injection Hm as ->|discriminate].
      unfold the_data in Hd. destruct (o_data m); [injection Hd as ->|discriminate]. auto.
    + intros He. destruct (IH _ Hl _ He) as (b & m' & Hi & H'). exists b, m'. split; [now right|exact H'].
Qed.
Lemma keeps_values cfg x (es : list (nexp K)) : (forall e, In e es -> ~ In x (uses_exp e)) -> keeps x (values cfg es).
Proof.
  induction es as [|e es IH]; intros H; cbn [values]; [apply keeps_ret|]. apply keeps_bind; [apply keeps_eval; apply H; now left|]. intros v. apply keeps_bind; [apply IH; intros; apply H; now right|intros; apply keeps_ret].
Qed.
Lemma keeps_value_rows cfg x (l : list (list (nexp K))) : (forall row e, In row l -> In e row -> ~ In x (uses_exp e)) -> keeps x (value_rows cfg l).
Proof.
  induction l as [|row l IH]; intros H; cbn [value_rows]; [apply keeps_ret|]. apply keeps_bind; [apply keeps_values; intros e; apply H; now left|]. intros v.
  apply keeps_bind; [apply IH; intros row' e Hr; apply H; now right|intros; apply keeps_ret].
Qed.
Lemma get_upd_out id l x : forall s E, (forall k, x <> elt id k) -> get (upd id s l E) x = get E x.
Proof.
  induction l as [|t l IH]; intros s E H; cbn [upd]; [reflexivity|]. rewrite IH by exact H. destruct (get E (elt id s)) as [w|] eqn:G.
  - rewrite (get_set _ _ _ _ x G). destruct (String.eqb_spec x (elt id s)); [now destruct (H s)|reflexivity].
  - now rewrite set_absent.
Qed.

Definition untouched (c : string) (o : objs) E (r : res (mevent K * objs) * env) : Prop :=
  match r with
  | (Ok (_, o'), E') => find_obj (o_vars o') c = find_obj (o_vars o) c /\ forall m id k, find_obj (o_vars o) c = Some m -> o_data m = Some id -> get E' (elt id k) = get E (elt id k)
  | (Throw _, E') => forall m id k, find_obj (o_vars o) c = Some m -> o_data m = Some id -> get E' (elt id k) = get E (elt id k)
  | _ => True
  end.
Lemma untouched_new c d A skip o E E' : wf o E -> c <> d ->
  (forall m id k, find_obj (o_vars o) c = Some m -> o_data m = Some id -> get E' (elt id k) = get E (elt id k)) -> untouched c o E (new_matrix skip d A o E').
Proof.
  intros W Hne HE. unfold new_matrix. destruct A as [A|e|w| |w|]; cbn [untouched]; auto. destruct (find_obj (o_vars o) d); [exact Logic.I|]. cbn [untouched o_vars find_obj].
  destruct (String.eqb_spec c d); [congruence|]. split; [reflexivity|]. intros m id k Hf Hd. rewrite alloc_al, get_al_out by (intros j _ He; apply elt_inj in He as [He _]; pose proof (wf_next _ _ W _ _ _ Hf Hd); lia).
  now apply HE with m.
Qed.
Lemma untouched_same c o E (r : res (mevent K)) : untouched c o E (let* ev := r in Ok (ev, o), E).
Proof. destruct r; cbn; auto. Qed.
Lemma untouched_ask {T} c o E m (f : symmat K -> res T) (g : T -> mevent K) : untouched c o E (let* A := contents E m in let* r := f A in Ok (g r, o), E).
Proof. destruct (contents E m) as [A|e|w| |w|]; cbn [bind untouched]; auto. destruct (f A); cbn [bind untouched]; auto. Qed.
Lemma untouched_contents c a o E m r (A : symmat K) : wf o E -> c <> a -> find_obj (o_vars o) a = Some m -> untouched c o E (new_contents m r A o E).
Proof.
  intros W Hne Ha. unfold new_contents. destruct (o_data m) as [ia|] eqn:Em; [|exact Logic.I].
  assert (H : forall m' id k, find_obj (o_vars o) c = Some m' -> o_data m' = Some id -> get (update ia A E) (elt id k) = get E (elt id k)).
  { intros m' id k Hf Hd. rewrite update_upd. apply get_upd_out. intros j He. apply elt_inj in He as [-> _]. apply Hne. exact (wf_apart _ _ W _ _ _ _ _ Hf Ha Hd Em). }
  destruct r; cbn [bind untouched]; auto.
Qed.
Lemma get_release o E a m c m' id k : wf o E -> find_obj (o_vars o) a = Some m -> c <> a -> find_obj (o_vars o) c = Some m' -> o_data m' = Some id -> get (release m E) (elt id k) = get E (elt id k).
Proof.
  intros W Ha Hne Hf Hd. unfold release. destruct (o_data m) as [im|] eqn:Em; [|reflexivity]. rewrite <- rel_fold. apply get_rel_out. intros j _ He. apply elt_inj in He as [-> _].
  apply Hne. exact (wf_apart _ _ W _ _ _ _ _ Hf Ha Hd Em).
Qed.
Lemma frame_step cfg s o E c : wf o E -> ~ In c (mentions s) -> untouched c o E (vmstep cfg s o E).
Proof.
  intros W Hn.
  assert (HE : forall m id k, find_obj (o_vars o) c = Some m -> o_data m = Some id -> get E (elt id k) = get E (elt id k)) by auto.
  destruct s as [r s|d rows cols|d r l|d r l|d M|d a|d a|d a|d a b|d a b|d a b|d a vars|d a|d a|a|a vals|a t|a|a|a|a|a|a|a b|a];
    cbn [vmstep mentions In] in *; unfold the_obj; try (assert (Hcd : c <> d) by (intros ->; auto)); try (assert (Hca : c <> a) by (intros ->; auto)).
  - destruct (bind_refs o r) as [l|e|w| |w|] eqn:Hb; try exact Logic.I.
    assert (Hk : forall m id k, find_obj (o_vars o) c = Some m -> o_data m = Some id -> get (snd (vstep cfg (rename_stmt (name_of l) s) E)) (elt id k) = get E (elt id k)).
    { intros m id k Hf Hd. apply keeps_step. intros Hi. apply uses_rename_stmt in Hi as (x & [Hx|Hx]); [|discriminate]. symmetry in Hx.
      destruct (name_of_elt _ _ _ _ _ Hb _ Hx) as (a & m' & Ha & Hf' & Hd'). apply Hn. now rewrite (wf_apart _ _ W _ _ _ _ _ Hf Hf' Hd Hd'). }
    unfold vbind. destruct (vstep cfg _ E) as [[ev|e|w| |w|] E']; cbn [snd vret untouched] in *; auto.
  - now apply untouched_new.
  - destruct (bind_refs o r) as [b|e|w| |w|] eqn:Hb; try exact Logic.I.
    assert (Hk : forall m id k, find_obj (o_vars o) c = Some m -> o_data m = Some id -> get (snd (value_rows cfg (map (map (rename_exp (name_of b))) l) E)) (elt id k) = get E (elt id k)).
    { intros m id k Hf Hd. apply keeps_value_rows. intros row e Hr He Hi. apply in_map_iff in Hr as (row0 & <- & _). apply in_map_iff in He as (e0 & <- & _).
      apply (proj1 (uses_rename (name_of b))) in Hi as (x & Hx). symmetry in Hx.
      destruct (name_of_elt _ _ _ _ _ Hb _ Hx) as (a & m' & Ha & Hf' & Hd'). apply Hn. right. now rewrite (wf_apart _ _ W _ _ _ _ _ Hf Hf' Hd Hd'). }
    unfold vbind. destruct (value_rows cfg _ E) as [[vs|e|w| |w|] E']; cbn [snd untouched] in *; auto. now apply untouched_new.
  - destruct (bind_refs o r) as [b|e|w| |w|] eqn:Hb; try exact Logic.I.
    assert (Hk : forall m id k, find_obj (o_vars o) c = Some m -> o_data m = Some id -> get (snd (values cfg (map (rename_exp (name_of b)) l) E)) (elt id k) = get E (elt id k)).
    { intros m id k Hf Hd. apply keeps_values. intros e He Hi. apply in_map_iff in He as (e0 & <- & _).
      apply (proj1 (uses_rename (name_of b))) in Hi as (x & Hx). symmetry in Hx.
      destruct (name_of_elt _ _ _ _ _ Hb _ Hx) as (a & m' & Ha & Hf' & Hd'). apply Hn. right. now rewrite (wf_apart _ _ W _ _ _ _ _ Hf Hf' Hd Hd'). }
    unfold vbind. destruct (values cfg _ E) as [[vs|e|w| |w|] E']; cbn [snd untouched] in *; auto. now apply untouched_new.
  - now apply untouched_new.
  - destruct (find_obj (o_vars o) a) as [m|] eqn:Ha; [|exact Logic.I]. now apply untouched_new.
  - destruct (find_obj (o_vars o) a) as [m|] eqn:Ha; [|exact Logic.I]. now apply untouched_new.
  - destruct (find_obj (o_vars o) a) as [m|] eqn:Ha; [|exact Logic.I]. now apply untouched_new.
  - destruct (find_obj (o_vars o) a) as [m|] eqn:Ha; [|exact Logic.I]. destruct (find_obj (o_vars o) b) as [m'|] eqn:Hb; [|exact Logic.I]. now apply untouched_new.
  - destruct (find_obj (o_vars o) a) as [m|] eqn:Ha; [|exact Logic.I]. destruct (find_obj (o_vars o) b) as [m'|] eqn:Hb; [|exact Logic.I]. cbn [bind].
    destruct (o_cols m =? 1); [|exact Logic.I]. now apply untouched_new.
  - destruct (find_obj (o_vars o) a) as [m|] eqn:Ha; [|exact Logic.I]. destruct (find_obj (o_vars o) b) as [m'|] eqn:Hb; [|exact Logic.I]. now apply untouched_new.
  - destruct (find_obj (o_vars o) a) as [m|] eqn:Ha; [|exact Logic.I]. now apply untouched_new.
  - destruct (find_obj (o_vars o) a) as [m|] eqn:Ha; [|exact Logic.I]. cbn [bind]. destruct (find_obj (o_vars o) d) eqn:Hd; [exact Logic.I|]. cbn [untouched o_vars find_obj].
    destruct (String.eqb_spec c d); [congruence|]. rewrite find_set. destruct (String.eqb_spec c a); [congruence|]. auto.
  - destruct (find_obj (o_vars o) a) as [m|] eqn:Ha; [|exact Logic.I]. cbn [bind]. destruct (find_obj (o_vars o) d) as [old|] eqn:Hd; [|exact Logic.I]. cbn [bind].
    destruct (String.eqb d a); [split; auto|]. cbn [untouched o_vars]. rewrite !find_set. destruct (String.eqb_spec c d); [congruence|]. destruct (String.eqb_spec c a); [congruence|].
    split; [reflexivity|]. intros m' id k. exact (get_release o E d old c m' id k W Hd Hcd).
  - destruct (find_obj (o_vars o) a) as [m|] eqn:Ha; [|exact Logic.I]. cbn [bind]. destruct (contents E m) as [A|e|w| |w|] eqn:HA; try exact Logic.I. destruct (SymMat_Calc cfg A) as [r B].
    exact (untouched_contents c a o E m r B W Hca Ha).
  - destruct (find_obj (o_vars o) a) as [m|] eqn:Ha; [|exact Logic.I]. cbn [bind]. destruct (let* A := contents E m in SymMat_Subs A vals) as [B|e|w| |w|]; try exact Logic.I. exact (untouched_contents c a o E m (Ok tt) B W Hca Ha).
  - destruct (find_obj (o_vars o) a) as [m|] eqn:Ha; [|exact Logic.I]. cbn [bind]. destruct (let* A := contents E m in SymMat_SubsTable A t) as [B|e|w| |w|]; try exact Logic.I. exact (untouched_contents c a o E m (Ok tt) B W Hca Ha).
  - destruct (find_obj (o_vars o) a) as [m|] eqn:Ha; [|exact Logic.I]. cbn [bind untouched o_vars]. rewrite find_del by exact (wf_names _ _ W). destruct (String.eqb_spec c a); [congruence|].
    split; [reflexivity|]. intros m' id k. exact (get_release o E a m c m' id k W Ha Hca).
  - destruct (find_obj (o_vars o) a) as [m|] eqn:Ha; [|exact Logic.I]. split; auto.
  - destruct (find_obj (o_vars o) a) as [m|] eqn:Ha; [|exact Logic.I]. split; auto.
  - destruct (find_obj (o_vars o) a) as [m|] eqn:Ha; [|exact Logic.I]. apply (untouched_ask c o E m (fun A => Ok (SymMat_Empty A)) (fun b => Ev (Bool b))).
  - destruct (find_obj (o_vars o) a) as [m|] eqn:Ha; [|exact Logic.I]. apply (untouched_ask c o E m ToMat Matrix).
  - destruct (find_obj (o_vars o) a) as [m|] eqn:Ha; [|exact Logic.I]. apply (untouched_ask c o E m SymMat_GetAllVarNames (fun l => Ev (Names l))).
  - destruct (find_obj (o_vars o) a) as [m|] eqn:Ha; [|exact Logic.I]. destruct (find_obj (o_vars o) b) as [m'|] eqn:Hb; [|exact Logic.I]. cbn [bind].
    apply (untouched_ask c o E m (fun A => if String.eqb a b then let* _ := SymMat_Clone A in Ok true else let* B := contents E m' in SymMat_eq A B) (fun r => Ev (Bool r))).
  - destruct (find_obj (o_vars o) a) as [m|] eqn:Ha; [|exact Logic.I]. apply (untouched_ask c o E m SymMat_ToString (fun t => Ev (Text t))).
Qed.
Definition last_mconfig (cfg : config K) (p : list (mstmt K)) : config K := fold_left mconfig p cfg.
Lemma vmrun_app p q : forall cfg o E evs o1 E1, vmrun cfg p o E = (evs, (Ok o1, E1)) ->
  vmrun cfg (p ++ q) o E = let '(evs', r) := vmrun (last_mconfig cfg p) q o1 E1 in (evs ++ evs', r).
Proof.
  induction p as [|s p IH]; intros cfg o E evs o1 E1; cbn [vmrun app last_mconfig fold_left].
  - intros [= <- <- <-]. now destruct (vmrun cfg q o E).
  - destruct (vmstep cfg s o E) as [[[ev o']|e|w| |w|] E']; try discriminate.
    + destruct (vmrun (mconfig cfg s) p o' E') as [evs0 r] eqn:Er. intros [= <- ->]. rewrite (IH _ _ _ _ _ _ Er).
      unfold last_mconfig. destruct (vmrun (fold_left mconfig p (mconfig cfg s)) q o1 E1). reflexivity.
    + destruct (vmrun (mconfig cfg s) p o E') as [evs0 r] eqn:Er. intros [= <- ->]. rewrite (IH _ _ _ _ _ _ Er).
      unfold last_mconfig. destruct (vmrun (fold_left mconfig p (mconfig cfg s)) q o1 E1). reflexivity.
Qed.
Lemma frame_run c q : (forall s, In s q -> ~ In c (mentions s)) -> forall cfg o h E evs o' E', wf o E -> holds h E [] -> vmrun cfg q o E = (evs, (Ok o', E')) ->
  find_obj (o_vars o') c = find_obj (o_vars o) c /\ forall m id k, find_obj (o_vars o) c = Some m -> o_data m = Some id -> get E' (elt id k) = get E (elt id k).
Proof.
  induction q as [|s q IH]; intros Hn cfg o h E evs o' E' W Hh; cbn [vmrun].
  - intros [= _ <- <-]. auto.
  - pose proof (frame_step cfg s o E c W (Hn s (or_introl eq_refl))) as Fs.
    pose proof (exec_sim next_addr next_addr_allocator cfg (mprog true s o) h E Hh) as Ss. pose proof (step_agree cfg true s o E W) as Ag.
    pose proof (wf_step cfg s o E W (holds_nodup _ _ _ Hh)) as Kp.
    destruct (vmstep cfg s o E) as [[[ev o1]|e|w| |w|] E1]; cbn [agree kept untouched] in *; try discriminate.
    + rewrite Ag in Ss. destruct Ss as (a & h1 & Em & J & (-> & ->) & _ & Hh1). destruct (vmrun (mconfig cfg s) q o1 E1) as [evs0 r] eqn:Er. intros [= _ ->].
      destruct (IH (fun s' H => Hn s' (or_intror H)) _ _ h1 _ _ _ _ Kp Hh1 Er) as [F1 F2]. destruct Fs as [G1 G2]. rewrite F1, G1. split; [reflexivity|]. intros m id k Hf Hd.
      rewrite (F2 m id k) by (rewrite ?G1; auto). now apply G2 with m.
    + rewrite Ag in Ss. destruct Ss as (e' & h1 & Em & Hk & Hh1). destruct (vmrun (mconfig cfg s) q o E1) as [evs0 r] eqn:Er. intros [= _ ->].
      destruct (IH (fun s' H => Hn s' (or_intror H)) _ _ h1 _ _ _ _ Kp Hh1 Er) as [F1 F2]. rewrite F1. split; [reflexivity|]. intros m id k Hf Hd.
      rewrite (F2 m id k) by auto. now apply Fs with m.
Qed.
End Frame.
Theorem C60_matrices_independent (K : num_ops) pick leftFirst (Hpick : allocator pick) cfg p q evs (o : objs) (E : env K) c m A evs' o' E' :
  vmrun cfg p nothing [] = (evs, (Ok o, E)) -> find_obj (o_vars o) c = Some m -> contents E m = Ok A ->
  (forall s, In s q -> ~ In c (mentions s)) ->
  vmrun cfg (p ++ q) nothing [] = (evs', (Ok o', E')) ->
  exists h, mrun pick leftFirst cfg (p ++ q) nothing [] = (evs', (Ok o', h)) /\
    find_obj (o_vars o') c = Some m /\ trees_in h m = Some (map (fun t => Some (Some t)) (s_data A)).
Proof.
  intros Hp Hf HA Hn Hq. destruct (C60_every_history K pick leftFirst Hpick _ _ _ _ _ Hq) as (h & Er & _ & _ & Ht & _). exists h. split; [exact Er|].
  pose proof (mrun_sim next_addr next_addr_allocator true p cfg nothing [] [] wf_empty holds_empty) as S. rewrite Hp in S. destruct S as (h1 & _ & Hh & W).
  rewrite (vmrun_app _ _ _ _ _ _ _ _ Hp) in Hq. destruct (vmrun (last_mconfig cfg p) q o E) as [evs2 r] eqn:Ev. injection Hq as _ ->.
  destruct (frame_run c q Hn _ _ h1 _ _ _ _ W Hh Ev) as [F1 F2]. rewrite F1. split; [exact Hf|]. apply (Ht c); [congruence|].
  rewrite <- HA. unfold contents, the_data. destruct (o_data m) as [id|] eqn:Ed; [|reflexivity]. cbn [bind]. do 2 f_equal. apply map_ext. intros k. unfold element.
  now rewrite (F2 m id k Hf Ed).
Qed.

(** ** Examples *)
Definition mseen {K : num_ops} (ev : mevent K) : string :=
  match ev with Ev e => seen e | Size n => tally n | Matrix _ => "matrix" end.
(** A matrix with references into another, its Jacobian, product and difference; an element is moved
    away; a matrix is moved, substituted, evaluated and compared; exceptions; everything ends. *)
Definition tale : list (mstmt D) :=
  [ MNode [] (Declare "x" (XParse "a*b"));
    MInitVec "f" [] [XClone (Lvalue "x"); XParse "sin(a)"];
    MJacobian "J" "f" ["a"; "b"];
    MToString "J";
    MInit "g" [("u", ("f", 0, 0))] [[XBin true BAdd (Lvalue "u") (Rvalue "x"); XVar "b"]];
    MToString "g";
    MMul "p" "J" "f";
    MRows "p"; MCols "p";
    MNode [("u", ("p", 0, 0)); ("v", ("f", 1, 0))] (Assign "u" (XMove "v"));
    MNode [("u", ("p", 0, 0))] (GetString "u");
    MMul "q" "f" "f";
    MMove "r" "g";
    MClone "s" "r";
    MSub "z" "r" "s";
    MEqual "r" "s";
    MSubs "r" [("a", n_ofZ 2); ("b", n_ofZ 3)];
    MCalc "r"; MToMat "r"; MToString "r"; MToString "s"; MToMat "s";
    MMoveAssign "J" "r";
    MVarNames "z"; MVecSub "y" "p" "p" ].
Definition curtain : list (mstmt D) :=
  [ MEnd "y"; MEnd "z"; MEnd "s"; MEnd "r"; MEnd "p"; MEnd "g"; MEnd "J"; MEnd "f"; MNode [] (EndOfScope "x") ].
Example tale_seen : map mseen (fst (vmrun (default_config D) (tale ++ curtain) nothing [])) =
  ["."; "."; "."; "[b,  a
 cos(a),  0]
"; "."; "[a*b+a*b,  b]
"; "."; "II"; "I"; "."; "sin(a)"; "exception"; "."; "."; "."; "true"; "."; "."; "matrix"; "[12,  3]
"; "[a*b+a*b,  b]
"; "exception"; "."; "a,b"; "."; "."; "."; "."; "."; "."; "."; "."; "."; "."].
Proof. vm_compute. reflexivity. Qed.
(** The hypotheses of C60_every_history and C60_all_freed are met, and the heap run agrees. *)
Example tale_ends : match vmrun (default_config D) (tale ++ curtain) nothing [] with (_, (Ok o, [])) => length (o_vars o) | _ => 1 end = 0.
Proof. vm_compute. reflexivity. Qed.
Example tale_heap : map mseen (fst (mrun next_addr true (default_config D) (tale ++ curtain) nothing [])) = map mseen (fst (vmrun (default_config D) (tale ++ curtain) nothing [])) /\
  ending (snd (mrun next_addr true (default_config D) (tale ++ curtain) nothing [])) = true.
Proof. split; vm_compute; reflexivity. Qed.
(** Those of C60_matrices_independent: "s" is not mentioned after "r" becomes its clone's source. *)
Example tale_apart : let p := firstn 14 tale in let q := firstn 2 (skipn 16 tale) in
  match vmrun (default_config D) p nothing [] with
  | (_, (Ok o, E)) => match find_obj (o_vars o) "s" with Some m => match contents E m with Ok A => length (s_data A) | _ => 0 end | None => 0 end
  | _ => 0 end = 2 /\
  forallb (fun s => negb (existsb (String.eqb "s") (mentions s))) q = true /\
  match vmrun (default_config D) (p ++ q) nothing [] with (_, (Ok _, _)) => true | _ => false end = true.
Proof. split; [|split]; vm_compute; reflexivity. Qed.
(** A Jacobian that would throw ends the program (C60_terminates); an element that does not exist has
    no meaning (C60_until_undefined). *)
Example jacobian_terminates : match mrun next_addr true (default_config D) [MInitVec "f" [] [XParse "a%2"]; MJacobian "J" "f" ["a"]] nothing [] with (evs, (Terminate, _)) => length evs | _ => 0 end = 1 /\
  match vmrun (default_config D) [MInitVec "f" [] [XParse "a%2"]; MJacobian "J" "f" ["a"]] nothing [] with (evs, (Terminate, _)) => length evs | _ => 0 end = 1.
Proof. split; vm_compute; reflexivity. Qed.
Example moved_from_undefined : match vmrun (default_config D) [MInitVec "f" [] [XVar "a"]; MMove "g" "f"; MEmpty "f"] nothing [] with (evs, (Undef _, _)) => length evs | _ => 0 end = 2.
Proof. vm_compute. reflexivity. Qed.
