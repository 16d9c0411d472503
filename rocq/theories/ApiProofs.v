(** Programs on the heap refine programs on values. *)
From Coq Require Import String List ZArith Bool Arith Lia Permutation.
From Verif Require Import Base MathOp NodeModel ParseModel ToStringModel SimplifyModel SubsModel DiffModel ExprSpec NodeProofs SubsSpec Thm_Node
  SimplifySpec Thm_Simplify Thm_Subs Thm_Parse DiffSpec DiffProofs Thm_Diff
  HeapModel HeapSpec HeapProofs HeapSubs HeapSimplify HeapDiff HeapParse ApiModel ApiSpec.
Import ListNotations.
Local Open Scope string_scope. Local Open Scope list_scope. Local Open Scope nat_scope.

Ltac perma := repeat first [rewrite <- app_assoc | rewrite <- app_comm_cons]; cbn [app]; perm.
Ltac perme := apply (Permutation_app_inv_r [ITree None None Nil]); perma.
Ltac owna H := refine (owns_perm _ _ _ _ H); perma.

Section Api.
Context {K : num_ops}.
Notation node := (node K).
Notation heap := (heap K).
Notation expr := (expr K).
Notation env := (env K).
Notation item := (item (K:=K)).
Implicit Types h : heap.
Variable pick : heap -> addr.
Hypothesis Hpick : allocator pick.

(** ** Expressions and trees *)
Lemma expression_of_embed (e : expr) : expression_of (embed e) = Some e.
Proof.
  induction e as [v|x|u a IH|b a IHa c IHc]; cbn [embed expression_of]; auto.
  - rewrite IH. destruct u; reflexivity.
  - rewrite IHa, IHc. destruct b; reflexivity.
Qed.
Lemma expression_Ok r (e : expr) : expression r = Ok e -> exists t, r = Ok t /\ expression_of t = Some e.
Proof. destruct r; cbn; try discriminate. destruct (expression_of a) eqn:E; [|discriminate]. intros [= <-]. eauto. Qed.

Definition tree (v : option expr) : node := match v with Some e => embed e | None => Nil end.
Lemma embed_not_nil (e : expr) : embed e <> Nil.
Proof. now destruct e. Qed.

(** ** Representation *)
(** A value in memory: its address (unless empty) and its tree. *)
Definition point (p : addr) (v : option expr) : option addr := match v with Some _ => Some p | None => None end.
Definition contents (p : addr) (v : option expr) : list item := match v with Some e => [ITree None (Some p) (embed e)] | None => [] end.
Inductive reps : env -> list item -> Prop :=
| reps_nil : reps [] []
| reps_cons x v E p its : reps E its -> reps ((x, v) :: E) (IVar (User x) (point p v) :: contents p v ++ its).
Definition rep (E : env) (rest L : list item) : Prop := exists its, reps E its /\ Permutation L (its ++ rest).
Definition holds h (E : env) (rest : list item) : Prop := exists L, rep E rest L /\ owns h L.

Lemma holds_perm h E r r' : Permutation r r' -> holds h E r -> holds h E r'.
Proof. intros P (L & (its & R & Q) & O). exists L. split; [|exact O]. exists its. split; [exact R|]. now rewrite Q, P. Qed.
Lemma holds_owns h E its rest : reps E its -> owns h (its ++ rest) -> holds h E rest.
Proof. intros R O. exists (its ++ rest). split; [|exact O]. exists its. auto. Qed.

Lemma reps_get E its : reps E its -> forall x v, get E x = Some v ->
  exists p its', Permutation its (IVar (User x) (point p v) :: contents p v ++ its') /\
    (forall w q, exists its2, reps (set E x w) its2 /\ Permutation its2 (IVar (User x) (point q w) :: contents q w ++ its')) /\
    reps (drop_var E x) its'.
Proof.
  induction 1 as [|y w E p its R IH]; intros x v; cbn [get set drop_var]; [discriminate|].
  destruct (String.eqb_spec x y) as [->|Hne].
  - intros [= ->]. exists p, its. split; [reflexivity|]. split; [|exact R]. intros w q. eexists. split; [constructor; exact R|reflexivity].
  - intros H. destruct (IH _ _ H) as (p' & its' & P & U & Rd). exists p', (IVar (User y) (point p w) :: contents p w ++ its'). split; [|split].
    + rewrite P. perma.
    + intros w' q. destruct (U w' q) as (its2 & R2 & P2). eexists. split; [constructor; exact R2|]. rewrite P2. perma.
    + constructor. exact Rd.
Qed.

(** A variable in front. *)
Lemma holds_var h E rest x v : holds h E rest -> get E x = Some v -> exists p its,
  owns h (IVar (User x) (point p v) :: contents p v ++ its ++ rest) /\
  (forall h' w q r, owns h' (IVar (User x) (point q w) :: contents q w ++ its ++ r) -> holds h' (set E x w) r) /\
  reps (drop_var E x) its.
Proof.
  intros (L & (its & R & P) & O) G. destruct (reps_get _ _ R _ _ G) as (p & its' & P1 & U & Rd). exists p, its'. split; [|split; [|exact Rd]].
  - refine (owns_perm _ _ _ _ O). rewrite P, P1. perma.
  - intros h' w q r O'. destruct (U w q) as (its2 & R2 & P2). eapply holds_owns; [exact R2|]. refine (owns_perm _ _ _ _ O'). rewrite P2. perma.
Qed.
Lemma set_same E x v : get E x = Some v -> set (K:=K) E x v = E.
Proof.
  induction E as [|[y w] E IH]; cbn; [discriminate|]. destruct (String.eqb_spec x y) as [->|].
  - now intros [= ->].
  - intros H. now rewrite IH.
Qed.
Lemma get_set E x w v y : get E x = Some v -> get (set (K:=K) E x w) y = if String.eqb y x then Some w else get E y.
Proof.
  induction E as [|[z u] E IH]; cbn; [discriminate|]. destruct (String.eqb_spec x z) as [->|Hne].
  - intros [= ->]. cbn. now destruct (String.eqb y z).
  - intros H. cbn. destruct (String.eqb_spec y z) as [->|]; [|now apply IH]. destruct (String.eqb_spec z x); congruence.
Qed.
Lemma set_set E x w w' : set (K:=K) (set E x w) x w' = set E x w'.
Proof. induction E as [|[z u] E IH]; cbn; [reflexivity|]. destruct (String.eqb_spec x z) as [->|]; cbn; [now rewrite String.eqb_refl|]. destruct (String.eqb_spec x z); [congruence|]. now rewrite IH. Qed.

(** ** Simulation *)
(** Locals of the library do not live across API calls. *)
Definition nolocal (i : item) : Prop := match i with IVar (Local _) _ => False | _ => True end.
Lemma objects_keys par p t os : objects (K:=K) par p t os -> forall k o, In (k, o) os -> exists a, k = KObj a.
Proof.
  induction 1 as [|par a ty op v x l r pl pr ol or _ IHl _ IHr]; intros k o; [intros []|].
  intros [E|Hin]; [injection E as <- <-; eauto|]. apply in_app_iff in Hin as [Hin|Hin]; eauto.
Qed.
Lemma no_local_var h its n : owns h its -> Forall nolocal its -> lookup h (KVar (Local n)) = None.
Proof.
  intros (os & F & P & _) Hn. destruct (lookup h (KVar (Local n))) as [o|] eqn:El; [|reflexivity]. exfalso.
  apply lookup_in, (Permutation_in _ P) in El. clear P. induction F as [|i its o1 os S F IH]; [destruct El|].
  inversion Hn as [|? ? Hi Hr]; subst. apply in_app_iff in El as [El|El]; [|auto]. destruct S as [par p t os1 O|a c|x p].
  - destruct (objects_keys _ _ _ _ O _ _ El) as (a & [=]).
  - destruct El as [[=]|[]].
  - destruct El as [[= -> _]|[]]. exact Hi.
Qed.
Lemma reps_nolocal E its : reps E its -> Forall nolocal its.
Proof. induction 1 as [|x v E p its R IH]; [constructor|]. constructor; [exact I|]. destruct v; cbn [contents app]; [constructor; [exact I|]|]; exact IH. Qed.
Lemma contents_nolocal p v : Forall nolocal (contents p v).
Proof. destruct v; repeat constructor. Qed.

Definition simr {A B} (R : A -> B -> list item -> Prop) (m : M (K:=K) A) (r : res B * env) (rest : list item) h : Prop :=
  match r with
  | (Ok b, E') => wp m (fun a h' => exists J, R a b J /\ Forall nolocal J /\ holds h' E' (J ++ rest)) h
  | (Throw e, E') => exists e' h', m h = (Throw e', h') /\ kind e' = kind e /\ holds h' E' rest
  | (Terminate, _) => dies m h
  | _ => True
  end.
Definition sim {A B} (I : list item) (m : M (K:=K) A) (v : V (K:=K) B) (R : A -> B -> list item -> Prop) : Prop :=
  forall rest h E, Forall nolocal I -> Forall nolocal rest -> holds h E (I ++ rest) -> simr R m (v E) rest h.

Lemma sim_bind {A B A' B'} I (m : M A) (v : V B) (f : A -> M A') (g : B -> V B') (R : A -> B -> list item -> Prop) (S : A' -> B' -> list item -> Prop) :
  sim I m v R -> (forall a b J, R a b J -> sim J (f a) (g b) S) -> sim I (bindM m f) (vbind v g) S.
Proof.
  intros H1 H2 rest h E NI NR H. specialize (H1 rest h E NI NR H). unfold vbind. destruct (v E) as [[b|e|w| |w|] E']; cbn [simr] in *; auto.
  - destruct H1 as (a & h1 & Em & J & Ra & NJ & Hh). specialize (H2 a b J Ra rest h1 E' NJ NR Hh).
    unfold bindM. destruct (g b E') as [[b'|e|w| |w|] E2]; cbn [simr] in *; auto.
    + destruct H2 as (a' & h2 & Ef & Q). exists a', h2. now rewrite Em.
    + destruct H2 as (e' & h2 & Ef & Q). exists e', h2. now rewrite Em.
    + destruct H2 as (h2 & Ef). exists h2. now rewrite Em.
  - destruct H1 as (e' & h' & Em & Q). exists e', h'. unfold bindM. now rewrite Em.
  - destruct H1 as (h' & Em). exists h'. unfold bindM. now rewrite Em.
Qed.
Lemma sim_ret {A B} I (a : A) (b : B) (R : A -> B -> list item -> Prop) : R a b I -> sim I (ret a) (vret b) R.
Proof. intros HR rest h E NI NR H. cbn. apply wp_ret. eauto. Qed.
Lemma sim_mono {A B} I (m : M A) (v : V B) (R S : A -> B -> list item -> Prop) : sim I m v R -> (forall a b J, R a b J -> S a b J) -> sim I m v S.
Proof.
  intros H HR rest h E NI NR Hh. specialize (H rest h E NI NR Hh). destruct (v E) as [[b|e|w| |w|] E']; cbn in *; auto.
  destruct H as (a & h' & Em & J & Ra & Q). exists a, h'. split; [exact Em|]. eauto.
Qed.
(** Things that are not touched, and are destroyed on exceptions. *)
Definition destroys (J : list item) (m : M (K:=K) unit) : Prop := forall its h (Q : unit -> heap -> Prop), owns h (J ++ its) -> (forall h', owns h' its -> Q tt h') -> wp m Q h.
Lemma destroys_holds J m rest h E : destroys J m -> holds h E (J ++ rest) -> exists h', m h = (Ok tt, h') /\ holds h' E rest.
Proof.
  intros D (L & (its & R & P) & O). destruct (D (its ++ rest) h (fun _ h' => owns h' (its ++ rest))) as ([] & h' & Em & O').
  - refine (owns_perm _ _ _ _ O). rewrite P. perma.
  - auto.
  - exists h'. split; [exact Em|]. now apply holds_owns with its.
Qed.
Lemma sim_frame {A B} I J (m : M A) (v : V B) cleanup (R : A -> B -> list item -> Prop) : sim I m v R -> destroys J cleanup ->
  sim (I ++ J) (on_throw m cleanup) v (fun a b L => exists I', R a b I' /\ L = I' ++ J).
Proof.
  intros H D rest h E NI NR Hh. rewrite <- app_assoc in Hh. apply Forall_app in NI as [NI NJ].
  specialize (H (J ++ rest) h E NI (proj2 (Forall_app _ _ _) (conj NJ NR)) Hh). destruct (v E) as [[b|e|w| |w|] E']; cbn in *; auto.
  - destruct H as (a & h' & Em & I' & Ra & NI' & Q). exists a, h'. unfold on_throw. rewrite Em. split; [reflexivity|].
    exists (I' ++ J). split; [eauto|]. split; [now apply Forall_app|]. now rewrite <- app_assoc.
  - destruct H as (e' & h' & Em & Hk & Q). destruct (destroys_holds _ _ _ _ _ D Q) as (h2 & Ec & Q2).
    exists e', h2. unfold on_throw. rewrite Em. unfold bindM. rewrite Ec. auto.
  - destruct H as (h' & Em). exists h'. unfold on_throw. now rewrite Em.
Qed.
(** Lifting a wp triple that does not use the variables. *)
Lemma sim_wp {A B} I (m : M A) (b : B) (R : A -> B -> list item -> Prop) :
  (forall its h (Q : A -> heap -> Prop), Forall nolocal I -> Forall nolocal its -> owns h (I ++ its) -> (forall a h' J, R a b J -> Forall nolocal J -> owns h' (J ++ its) -> Q a h') -> wp m Q h) ->
  sim I m (vret b) R.
Proof.
  intros Hm rest h E NI NR (L & (its & Rp & P) & O). cbn. apply (Hm (its ++ rest)); [exact NI| | |].
  - apply Forall_app. split; [now apply reps_nolocal with E|exact NR].
  - refine (owns_perm _ _ _ _ O). rewrite P. perma.
  - intros a h' J Ra NJ O'. exists J. split; [exact Ra|]. split; [exact NJ|]. apply holds_owns with its; [exact Rp|]. owna O'.
Qed.

(** ** Values *)
Definition rval (p : option addr) (v : option expr) (J : list item) : Prop := exists a, p = point a v /\ J = contents a v.
Definition rexp (a : addr) (e : expr) (J : list item) : Prop := J = [ITree None (Some a) (embed e)].
Inductive rop : operand -> varg (K:=K) -> list item -> Prop :=
| rop_copy x : rop (CopyOf (uvar x)) (VCopy x) []
| rop_move x : rop (MoveOf (uvar x)) (VMove x) []
| rop_temp p v : rop (Temp (point p v)) (VTemp v) (contents p v).

Lemma destroys_drop o v J : rop o v J -> destroys J (drop o).
Proof.
  destruct 1; intros its h Q O HQ; cbn [drop]; try (apply wp_ret; auto).
  destruct v; cbn [point contents app] in *; [eapply wp_delete; [exact O|exact HQ]|apply wp_ret; auto].
Qed.

(** Consuming an operand. *)
Lemma rop_passes o vo J E e E' rest L : rop o vo J -> vtake vo E = (Ok e, E') -> rep E (J ++ rest) L ->
  exists i j its, passes (K:=K) o (embed e) i j /\ Permutation L (i ++ its) /\ rep E' rest (j ++ its).
Proof.
  intros Ro Ht (its & R & P). destruct Ro as [x|x|p v]; cbn [vtake vpeek] in Ht; unfold vbind, vget, vset in Ht.
  - destruct (get E x) as [[e0|]|] eqn:G; cbn in Ht; try discriminate. injection Ht as -> <-.
    destruct (reps_get _ _ R _ _ G) as (p & its' & P1 & U & _).
    cbn [point contents app] in P1.
    exists [IVar (User x) (Some p); ITree None (Some p) (embed e)], [IVar (User x) (Some p); ITree None (Some p) (embed e)], (its' ++ rest).
    split; [apply (pass_copy (uvar x) (IVar (User x))), sa_var|]. split; [rewrite P, P1; perm|].
    exists its. split; [exact R|]. rewrite P1. perma.
  - destruct (get E x) as [[e0|]|] eqn:G; cbn in Ht; try discriminate. rewrite G in Ht. cbn in Ht. injection Ht as -> <-.
    destruct (reps_get _ _ R _ _ G) as (p & its' & P1 & U & _). cbn [point contents app] in P1.
    exists [IVar (User x) (Some p); ITree None (Some p) (embed e)], [IVar (User x) None], (its' ++ rest).
    split; [apply (pass_move (uvar x) (IVar (User x))), sa_var|]. split; [rewrite P, P1; perm|].
    destruct (U None 0) as (its2 & R2 & P2). exists its2. split; [exact R2|]. rewrite P2. cbn [point contents app]. perma.
  - destruct v as [e0|]; cbn in Ht; [|discriminate]. injection Ht as -> <-. cbn [point contents app] in *.
    exists [ITree None (Some p) (embed e)], [], (its ++ rest). split; [constructor|]. split; [rewrite P; perm|].
    exists its. auto.
Qed.

(** ** Operands *)
Lemma holds_rep h E rest L : rep E rest L -> owns h L -> holds h E rest.
Proof. intros. exists L. auto. Qed.

Lemma sim_peek_clone o vo J : rop o vo J ->
  sim J (do p <- peek o; Clone pick p) (vpeek vo) (fun a e L => L = ITree None (Some a) (embed e) :: J).
Proof.
  intros Ro rest h E NJ NR Hh. destruct Ro as [x|x|p v]; cbn [vpeek peek uvar]; unfold vbind, vget.
  1,2: destruct (get E x) as [[e|]|] eqn:G; cbn; auto; destruct (holds_var _ _ _ _ _ Hh G) as (p & its & O & U & _); cbn [point contents app] in O;
    apply wp_bind; eapply wp_get_var; [exact O|]; front O (ITree None (Some p) (embed e)); eapply wp_Clone; [exact Hpick|exact O|apply embed_not_nil|];
    intros a h' O'; eexists; split; [reflexivity|]; split; [repeat constructor|]; rewrite <- (set_same _ _ _ G); apply (U h' (Some e) p); cbn [point contents app]; owna O'.
  destruct v as [e|]; cbn [nonempty vret vfail simr]; auto. cbn [contents point app] in *.
  destruct Hh as (L & (its & R & P) & O). apply wp_bind, wp_ret. eapply wp_Clone with (its := its ++ rest); [exact Hpick| |apply embed_not_nil|].
  - refine (owns_perm _ _ _ _ O). rewrite P. perma.
  - intros a h' O'. eexists. split; [reflexivity|]. split; [repeat constructor|]. eapply holds_owns; [exact R|]. owna O'.
Qed.

Lemma sim_acquire o vo J : rop o vo J -> sim J (acquire pick o) (vtake vo) (fun p e L => exists a, p = Some a /\ L = [ITree None (Some a) (embed e)]).
Proof.
  intros Ro rest h E NJ NR Hh. pose proof (sim_peek_clone _ _ _ Ro rest h E NJ NR Hh) as SC.
  destruct Ro as [x|x|p v]; cbn [vtake peek acquire] in *.
  - unfold simr in SC |- *. destruct (vpeek (VCopy x) E) as [[e|e|w| |w|] E'] eqn:Ev; auto.
    + destruct SC as (a & h' & Em & J & -> & NJ' & Hh'). unfold bindM in Em |- *. exists (Some a), h'.
      destruct (get_slot (uvar x) h) as [[q|?|?| |?|] h1]; try discriminate Em. rewrite Em. split; [reflexivity|].
      exists [ITree None (Some a) (embed e)]. split; [eauto|]. split; [repeat constructor|exact Hh'].
    + cbn in Ev. unfold vbind, vget in Ev. destruct (get E x) as [[?|]|]; discriminate Ev.
    + cbn in Ev. unfold vbind, vget in Ev. destruct (get E x) as [[?|]|]; discriminate Ev.
  - unfold vbind, vget, vset. destruct (get E x) as [[e|]|] eqn:G; cbn [nonempty vret vfail simr]; auto. rewrite G. cbn [vret].
    destruct (holds_var _ _ _ _ _ Hh G) as (p & its & O & U & _); cbn [point contents app] in O.
    eapply wp_move_out; [apply sa_var|exact O|]. intros h' O'. exists [ITree None (Some p) (embed e)]. split; [eauto|]. split; [repeat constructor|].
    apply (U h' None p). cbn [point contents app]. owna O'.
  - destruct v as [e|]; cbn [vpeek nonempty vret vfail simr]; auto. cbn [contents point app] in *. apply wp_ret. eexists. split; [eauto|]. split; [exact NJ|exact Hh].
Qed.

Lemma sim_unary o vo J op : rop o vo J -> sim J (HUnaryOperator pick op o) (vtake vo)
  (fun a e L => L = [ITree None (Some a) (N OPERATOR op (n_ofZ 0) "" (embed e) Nil)]).
Proof.
  intros Ro rest h E NJ NR (L & Rp & O). unfold simr. destruct (vtake vo E) as [[e|e|w| |w|] E'] eqn:Ev; auto.
  - destruct (rop_passes _ _ _ _ _ _ _ _ Ro Ev Rp) as (i & j & its & Ps & P & Rp'). eapply wp_HUnaryOperator; [exact Hpick|exact Ps|apply embed_not_nil| |].
    + refine (owns_perm _ _ _ _ O). exact P.
    + intros a h' O'. eexists. split; [reflexivity|]. split; [repeat constructor|]. destruct Rp' as (its' & R' & P').
      eapply holds_owns; [exact R'|]. refine (owns_perm _ _ _ _ O'). rewrite P'. perma.
  - destruct Ro; cbn in Ev; unfold vbind, vget, vset in Ev; try (destruct (get E x) as [[?|]|] eqn:G; cbn in Ev; try rewrite G in Ev; discriminate Ev). destruct v; discriminate Ev.
  - destruct Ro; cbn in Ev; unfold vbind, vget, vset in Ev; try (destruct (get E x) as [[?|]|] eqn:G; cbn in Ev; try rewrite G in Ev; discriminate Ev). destruct v; discriminate Ev.
Qed.
Lemma vtake_cases vo E : match vtake (K:=K) vo E with (Ok _, _) | (Undef _, _) => True | _ => False end.
Proof.
  destruct vo as [x|x|v]; cbn; unfold vbind, vget, vset; try (destruct (get E x) as [[?|]|] eqn:G; cbn; try rewrite G; exact I). destruct v; exact I.
Qed.
Lemma sim_binary o1 v1 J1 o2 v2 J2 op : rop o1 v1 J1 -> rop o2 v2 J2 ->
  sim (J1 ++ J2) (HBinaryOperator pick op o1 o2) (vbind (vtake v1) (fun e1 => vbind (vtake v2) (fun e2 => vret (e1, e2))))
  (fun a ee L => L = [ITree None (Some a) (N OPERATOR op (n_ofZ 0) "" (embed (fst ee)) (embed (snd ee)))]).
Proof.
  intros R1 R2 rest h E NJ NR (L & Rp & O). unfold simr, vbind. pose proof (vtake_cases v1 E) as C1.
  destruct (vtake v1 E) as [[e1|e|w| |w|] E'] eqn:Ev1; try destruct C1; auto. pose proof (vtake_cases v2 E') as C2.
  destruct (vtake v2 E') as [[e2|e|w| |w|] E2] eqn:Ev2; try destruct C2; auto. cbn [vret].
  rewrite <- app_assoc in Rp.
  destruct (rop_passes _ _ _ _ _ _ _ _ R1 Ev1 Rp) as (i1 & j1 & its1 & Ps1 & P1 & Rp1).
  destruct (rop_passes _ _ _ _ _ _ _ _ R2 Ev2 Rp1) as (i2 & j2 & its2 & Ps2 & P2 & Rp2).
  eapply wp_HBinaryOperator; [exact Hpick|exact Ps1|exact Ps2|exact P2|apply embed_not_nil|apply embed_not_nil| |].
  - refine (owns_perm _ _ _ _ O). exact P1.
  - intros a h' O'. eexists. split; [reflexivity|]. split; [repeat constructor|]. destruct Rp2 as (its' & R' & P').
    eapply holds_owns; [exact R'|]. refine (owns_perm _ _ _ _ O'). rewrite P'. perma.
Qed.

(** ** More on simulations *)
Lemma sim_perm {A B} I I' (m : M (K:=K) A) (v : V (K:=K) B) R : Permutation I I' -> sim I m v R -> sim I' m v R.
Proof.
  intros P H rest h E NI NR Hh. apply H; [|exact NR|].
  - rewrite Forall_forall in *. intros i Hi. apply NI. eapply Permutation_in; eauto.
  - refine (holds_perm _ _ _ _ _ Hh). now rewrite P.
Qed.
Lemma sim_ext {A B} I (m m' : M (K:=K) A) (v v' : V (K:=K) B) R : (forall h, m h = m' h) -> (forall E, v E = v' E) -> sim I m v R -> sim I m' v' R.
Proof.
  intros Em Ev H rest h E NI NR Hh. specialize (H rest h E NI NR Hh). rewrite Ev in H. unfold simr, wp, dies in *. rewrite Em in H. exact H.
Qed.
Lemma vbind_ret {A} (v : V (K:=K) A) E : vbind v vret E = v E.
Proof. unfold vbind. destruct (v E) as [[] ?]; reflexivity. Qed.
Lemma sim_vmap {A B C} I (m : M (K:=K) A) (v : V (K:=K) B) (f : B -> C) (R : A -> B -> list item -> Prop) (S : A -> C -> list item -> Prop) :
  sim I m v R -> (forall a b L, R a b L -> S a (f b) L) -> sim I m (vbind v (fun b => vret (f b))) S.
Proof.
  intros H HR. eapply sim_ext with (m := bindM m ret); [|reflexivity|].
  - intros h. unfold bindM, ret. destruct (m h) as [[] ?]; reflexivity.
  - eapply sim_bind; [exact H|]. intros a b L Ra. apply sim_ret. auto.
Qed.
Lemma sim_frame0 {A B} I J (m : M (K:=K) A) (v : V B) (R : A -> B -> list item -> Prop) : sim I m v R ->
  (forall E e E', v E <> (Throw e, E')) -> sim (I ++ J) m v (fun a b L => exists I', R a b I' /\ L = I' ++ J).
Proof.
  intros H Hn rest h E NI NR Hh. rewrite <- app_assoc in Hh. apply Forall_app in NI as [NI NJ].
  specialize (H (J ++ rest) h E NI (proj2 (Forall_app _ _ _) (conj NJ NR)) Hh). specialize (Hn E).
  destruct (v E) as [[b|e|w| |w|] E']; cbn in *; auto.
  - destruct H as (a & h' & Em & I' & Ra & NI' & Q). exists a, h'. split; [exact Em|].
    exists (I' ++ J). split; [eauto|]. split; [now apply Forall_app|]. now rewrite <- app_assoc.
  - now destruct (Hn e E').
Qed.
Lemma sim_destroy I (m : M (K:=K) unit) : destroys I m -> sim I m (vret tt) (fun _ _ L => L = []).
Proof.
  intros D. apply sim_wp. intros its h Q NI _ O HQ. eapply D; [exact O|]. intros h' O'. now apply (HQ tt h' []).
Qed.

(** ** Locals *)
Lemma wp_with_local n p t body its (Q : option addr -> heap -> Prop) h : Forall nolocal its -> owns h (ITree None p t :: its) ->
  (forall h (Q' : unit -> heap -> Prop), owns h (IVar (Local n) p :: ITree None p t :: its) ->
     (forall q t' h', owns h' (IVar (Local n) q :: ITree None q t' :: its) -> (forall h'', owns h'' (ITree None q t' :: its) -> Q q h'') -> Q' tt h') ->
     wp (body (SVar (Local n))) Q' h) ->
  wp (with_local n p body) Q h.
Proof.
  intros Nl O HB. unfold with_local. apply wp_bind. exists tt. eexists. split; [reflexivity|].
  assert (O1 : owns ((KVar (Local n), OPtr p) :: h) (IVar (Local n) p :: ITree None p t :: its)).
  { apply own_enter; [|exact O]. eapply no_local_var; [exact O|]. constructor; [exact I|exact Nl]. }
  apply wp_bind. destruct (HB _ (fun _ h' => wp (do q <- move_out (SVar (Local n)); leave (Local n);; ret q) Q h') O1) as ([] & h1 & Eb & W).
  - intros q t' h' O2 HQ. apply wp_bind. eapply wp_move_out; [apply sa_var|exact O2|]. intros h2 O3.
    apply wp_bind. exists tt. eexists. split; [reflexivity|]. apply wp_ret, HQ. eapply own_var_remove. exact O3.
  - exists tt, h1. unfold on_throw. rewrite Eb. split; [reflexivity|exact W].
Qed.
Lemma throws_with_local n p t body its e h : Forall nolocal its -> owns h (ITree None p t :: its) ->
  (forall h, owns h (IVar (Local n) p :: ITree None p t :: its) -> exists h' q t',
     body (SVar (Local n)) h = (Throw e, h') /\ owns h' (IVar (Local n) q :: ITree None q t' :: its)) ->
  exists h', with_local (K:=K) n p body h = (Throw e, h') /\ owns h' its.
Proof.
  intros Nl O HB. unfold with_local.
  assert (O1 : owns ((KVar (Local n), OPtr p) :: h) (IVar (Local n) p :: ITree None p t :: its)).
  { apply own_enter; [|exact O]. eapply no_local_var; [exact O|]. constructor; [exact I|exact Nl]. }
  destruct (HB _ O1) as (h1 & q & t' & Eb & O2).
  assert (W : wp (do q <- move_out (SVar (Local n)); delete q;; leave (Local n)) (fun _ h' => owns h' its) h1).
  { apply wp_bind. eapply wp_move_out; [apply sa_var|exact O2|]. intros h2 O3. front O3 (ITree None q t').
    apply wp_bind. eapply wp_delete; [exact O3|]. intros h3 O4. exists tt. eexists. split; [reflexivity|]. eapply own_var_remove. exact O4. }
  destruct W as ([] & h2 & Ew & O3). exists h2. split; [|exact O3].
  unfold bindM at 1. cbn [enter]. unfold bindM at 1. unfold on_throw. rewrite Eb.
  unfold bindM at 1. rewrite Ew. reflexivity.
Qed.
Lemma dies_with_local n p t body its h : Forall nolocal its -> owns h (ITree None p t :: its) ->
  (forall h, owns h (IVar (Local n) p :: ITree None p t :: its) -> dies (body (SVar (Local n))) h) -> dies (with_local (K:=K) n p body) h.
Proof.
  intros Nl O HB. unfold with_local.
  assert (O1 : owns ((KVar (Local n), OPtr p) :: h) (IVar (Local n) p :: ITree None p t :: its)).
  { apply own_enter; [|exact O]. eapply no_local_var; [exact O|]. constructor; [exact I|exact Nl]. }
  destruct (HB _ O1) as (h1 & Eb). exists h1. unfold bindM at 1. cbn [enter]. unfold bindM at 1, on_throw. now rewrite Eb.
Qed.

(** ** Diff *)
Lemma Diff_cases cfg (e : expr) x i : match Diff cfg (embed e) x i with
  | Ok t => exists e', t = embed e' | Throw w => exists m, w = RuntimeError m | OutOfFuel => False | _ => True end.
Proof.
  destruct (Z.leb_spec i 0) as [Hi|Hi].
  - destruct (C22_diff_order K cfg (embed e) x i Hi) as (w & ->). exact I.
  - rewrite <- (Z2Nat.id i) by lia. assert (Hn : (0 < Z.to_nat i)%nat) by lia. destruct (no_int_dec e) as [D|D].
    + destruct (C22_diff_outcome K cfg e x _ Hn D) as [(e' & -> & _)|[_ ->]]; eauto.
    + destruct (proj2 (C22_diff_throws_iff K cfg e x _ Hn) D) as (m & ->). eauto.
Qed.
Definition rnew (p : option addr) (e : expr) (L : list item) : Prop := exists a, p = Some a /\ L = [ITree None (Some a) (embed e)].
Lemma sim_diff_call cfg o vo J x i : rop o vo J ->
  sim J (HDiffCall pick cfg o x i) (vbind (vtake vo) (fun e => vfail (expression (Diff cfg (embed e) x i)))) rnew.
Proof.
  intros Ro. unfold HDiffCall. eapply sim_bind; [apply sim_acquire; exact Ro|]. intros p e L (a & -> & ->).
  intros rest h E NJ NR (L & (its & R & P) & O).
  assert (Nl : Forall nolocal (its ++ rest)) by (apply Forall_app; split; [eapply reps_nolocal; eauto|exact NR]).
  assert (O1 : owns h (ITree None (Some a) (embed e) :: its ++ rest)) by (refine (owns_perm _ _ _ _ O); rewrite P; perma).
  unfold vfail, expression. pose proof (Diff_cases cfg e x i) as C. destruct (Diff cfg (embed e) x i) as [t|w|w| |w|] eqn:Ed; cbn [bind simr]; auto.
  - destruct C as (e' & ->). rewrite expression_of_embed. eapply wp_with_local; [exact Nl|exact O1|].
    intros h1 Q' O2 HQ'. eapply wp_HDiff; [exact Hpick|apply sa_var|exact Ed|exact O2|]. intros q h2 O3.
    apply (HQ' _ _ _ O3). intros h3 O4. destruct (own_tree_cases _ _ _ _ _ O4) as [[_ Hn]|(b & -> & _)]; [now apply embed_not_nil in Hn|].
    eexists. split; [exists b; split; reflexivity|]. split; [repeat constructor|]. eapply holds_owns; [exact R|]. owna O4.
  - destruct C as (m & ->). assert (T : forall h, owns h (IVar (Local "n") (Some a) :: ITree None (Some a) (embed e) :: its ++ rest) ->
      exists m' h' q t', HDiff pick cfg (SVar (Local "n")) x i h = (Throw (RuntimeError m'), h') /\ owns h' (IVar (Local "n") q :: ITree None q t' :: its ++ rest)).
    { intros h1 O2. destruct (HDiff_throws pick Hpick cfg x i (SVar (Local "n")) _ _ _ _ _ _ (sa_var _) Ed O2) as (m' & h2 & r' & e' & E1 & O3). eauto 8. }
    assert (O2 : owns ((KVar (Local "n"), OPtr (Some a)) :: h) (IVar (Local "n") (Some a) :: ITree None (Some a) (embed e) :: its ++ rest)).
    { apply own_enter; [|exact O1]. eapply no_local_var; [exact O1|]. constructor; [exact I|exact Nl]. }
    destruct (T _ O2) as (m' & h1 & q & t' & E1 & O3).
    assert (W : wp (do q <- move_out (SVar (Local "n")); delete q;; leave (Local "n")) (fun _ h' => owns h' (its ++ rest)) h1).
    { apply wp_bind. eapply wp_move_out; [apply sa_var|exact O3|]. intros h2 O4. front O4 (ITree None q t').
      apply wp_bind. eapply wp_delete; [exact O4|]. intros h3 O5. exists tt. eexists. split; [reflexivity|]. eapply own_var_remove. exact O5. }
    destruct W as ([] & h2 & Ew & O4). exists (RuntimeError m'), h2. split; [|split; [reflexivity|eapply holds_owns; [exact R|exact O4]]].
    unfold with_local, bindM at 1. cbn [enter]. unfold bindM at 1. unfold on_throw. rewrite E1. unfold bindM at 1. rewrite Ew. reflexivity.
  - eapply dies_with_local; [exact Nl|exact O1|]. intros h1 O2. eapply dies_HDiff; [exact Hpick|apply sa_var|exact Ed|exact O2].
Qed.

(** ** Subs *)
Inductive rent : entry (K:=K) -> ventry (K:=K) -> list item -> Prop :=
| rent_node o v J : rop o v J -> rent (ENode o) (VNode v) J
| rent_num v : rent (ENumber v) (VNumber v) [].
Inductive rents : list (string * entry (K:=K)) -> list (string * ventry (K:=K)) -> list item -> Prop :=
| rents_nil : rents [] [] []
| rents_cons y e v J es vs I : rent e v J -> rents es vs I -> rents ((y, e) :: es) ((y, v) :: vs) (J ++ I).

Lemma destroys_app I J m1 m2 : destroys I m1 -> destroys J m2 -> destroys (I ++ J) (m1;; m2).
Proof.
  intros D1 D2 its h Q O HQ. apply wp_bind. eapply D1; [owna O|]. intros h1 O1. eapply D2; [exact O1|exact HQ].
Qed.
Lemma destroys_entries es vs I : rents es vs I -> destroys I (drop_entries es).
Proof.
  induction 1 as [|y e v J es vs I0 Re Rs IH]; cbn [drop_entries].
  - intros its h Q O HQ. apply wp_ret. auto.
  - destruct Re as [o v J Ro|v].
    + apply destroys_app; [now apply destroys_drop with v|exact IH].
    + exact IH.
Qed.
Lemma destroys_dict D : destroys (dict_items (K:=K) D) (delete_dict (ptrs D)).
Proof.
  induction D as [|[y [p t]] D IH]; unfold dict_items, ptrs; cbn [map delete_dict fst snd].
  - intros its h Q O HQ. apply wp_ret. auto.
  - apply (destroys_app [ITree None p t]); [|exact IH]. intros its h Q O HQ. eapply wp_delete; [exact O|exact HQ].
Qed.

Lemma ventry_nothrow v E e E' : ventry_value (K:=K) v E <> (Throw e, E').
Proof.
  destruct v as [[x|x|[]]|v]; cbn; unfold vbind, vget; try discriminate; destruct (get E x) as [[?|]|]; discriminate.
Qed.
Lemma vdict_nothrow vs : forall E e E', vdict (K:=K) vs E <> (Throw e, E').
Proof.
  induction vs as [|[y v] vs IH]; intros E e E'; cbn; [discriminate|]. unfold vbind. pose proof (ventry_nothrow v E) as Hn.
  destruct (ventry_value v E) as [[t|e1|w| |w|] E1]; try discriminate; [|exfalso; eapply Hn; reflexivity].
  specialize (IH E1). destruct (vdict vs E1) as [[d|e1|w| |w|] E2]; try discriminate. exfalso. eapply IH. reflexivity.
Qed.

Lemma map_insert_proj {T U} (f : T -> U) y t (m : smap T) : map_insert y (f t) (map (fun e => (fst e, f (snd e))) m) = map (fun e => (fst e, f (snd e))) (map_insert y t m).
Proof. induction m as [|[z u] m IH]; cbn; [reflexivity|]. destruct (String.compare y z); cbn; [reflexivity..|]. now rewrite IH. Qed.
Lemma map_find_proj {T U} (f : T -> U) y (m : smap T) : map_find y (map (fun e => (fst e, f (snd e))) m) = option_map f (map_find y m).
Proof. induction m as [|[z u] m IH]; cbn; [reflexivity|]. destruct (String.eqb y z); auto. Qed.
Lemma dict_insert y p t D : map_find y D = None -> Permutation (dict_items (K:=K) (map_insert y (p, t) D)) (ITree None p t :: dict_items D).
Proof.
  unfold dict_items. induction D as [|[z [q u]] D IH]; cbn; [reflexivity|]. destruct (String.eqb_spec y z) as [->|Hne]; [discriminate|].
  intros H. destruct (String.compare y z) eqn:C; cbn.
  - apply str_compare_eq in C. congruence.
  - reflexivity.
  - rewrite (IH H). apply perm_swap.
Qed.

(** A new node for an entry. *)
Lemma sim_entry_value e v J : rent e v J ->
  sim J (match e with ENode o => do p <- peek o; Clone pick p | ENumber v => make_node pick NUMBER MATH_NULL v "" end) (ventry_value v)
    (fun a e L => L = ITree None (Some a) (embed e) :: J).
Proof.
  destruct 1 as [o v J Ro|v]; cbn [ventry_value].
  - now apply sim_peek_clone.
  - apply sim_wp. intros its h Q NI _ O HQ. eapply wp_make_node; [exact Hpick|exact O|]. intros a h' O'. apply own_leaf in O'.
    eapply HQ; [reflexivity|repeat constructor|exact O'].
Qed.

Definition dict_sorted (D : list (string * (option addr * node))) : Prop := Sorted.StronglySorted str_lt (map fst D).
Lemma sim_build_dict es vs I : rents es vs I -> forall D, dict_sorted D ->
  sim (I ++ dict_items D) (build_dict pick (ptrs D) es) (vdict vs) (fun m d L => exists D', m = ptrs D' /\ Permutation L (I ++ dict_items D') /\
    forall y, map_find y (trees D') = match map_find y (trees D) with Some t => Some t | None => option_map embed (first_for d y) end).
Proof.
  induction 1 as [|y e v J es vs I Re Rs IH]; intros D HD; cbn [build_dict vdict].
  - apply sim_ret. exists D. split; [reflexivity|]. split; [reflexivity|]. intros y. cbn. now destruct (map_find y (trees D)).
  - unfold insert_entry. apply sim_ext with
      (m := do q <- match e with ENode o => do p <- peek o; Clone pick p | ENumber v => make_node pick NUMBER MATH_NULL v "" end;
            do m' <- match map_find y (ptrs D) with Some _ => delete (Some q);; ret (ptrs D) | None => ret (map_insert y (Some q) (ptrs D)) end; build_dict pick m' es)
      (v := vbind (ventry_value v) (fun t => vbind (vdict vs) (fun d => vret ((y, t) :: d)))).
    { intros h. unfold bindM. destruct e as [o|w]; [destruct (peek o h) as [[p|?|?| |?|] h0]; try reflexivity; destruct (Clone pick p h0) as [[] ?]|]; reflexivity. }
    { reflexivity. }
    apply sim_perm with (J ++ (I ++ dict_items D)); [perme|].
    eapply sim_bind; [apply sim_frame0 with (J := I ++ dict_items D); [apply sim_entry_value; exact Re|apply ventry_nothrow]|].
    intros a t L (L' & -> & ->).
    assert (Tail : forall D', dict_sorted D' -> (forall z, map_find z (trees D') = match map_find z (trees D) with Some u => Some u | None => if String.eqb z y then Some (embed t) else None end) ->
      sim (J ++ I ++ dict_items D') (build_dict pick (ptrs D') es) (vbind (vdict vs) (fun d => vret ((y, t) :: d)))
       (fun m d L => exists D', m = ptrs D' /\ Permutation L ((J ++ I) ++ dict_items D') /\
          forall y, map_find y (trees D') = match map_find y (trees D) with Some t => Some t | None => option_map embed (first_for d y) end)).
    { intros D' HD' Hf. eapply sim_vmap with (R := fun m d L => exists I', (exists D2, m = ptrs D2 /\ Permutation I' (I ++ dict_items D2) /\
          forall y, map_find y (trees D2) = match map_find y (trees D') with Some t => Some t | None => option_map embed (first_for d y) end) /\ L = I' ++ J).
      - apply sim_perm with ((I ++ dict_items D') ++ J); [perme|]. apply sim_frame0; [now apply IH|apply vdict_nothrow].
      - intros m d L (I' & (D2 & -> & P2 & H2) & ->). exists D2. split; [reflexivity|]. split; [rewrite P2; perme|].
        intros z. rewrite H2, Hf. destruct (map_find z (trees D)); [reflexivity|]. cbn [first_for]. now destruct (String.eqb z y). }
    unfold ptrs at 1. rewrite (map_find_proj fst). destruct (map_find y D) as [[p0 t0]|] eqn:F; cbn [option_map].
    + (* the name is present: the new node is deleted *)
      apply sim_ext with (m := delete (Some a);; build_dict pick (ptrs D) es) (v := vbind (vret tt) (fun _ => vbind (vdict vs) (fun d => vret ((y, t) :: d)))); [|reflexivity|].
      { intros h. unfold bindM, ret. destruct (delete (Some a) h) as [[] ?]; reflexivity. }
      apply sim_bind with (R := fun _ _ L => L = J ++ I ++ dict_items D).
      { apply sim_wp. intros its h Q NI _ O HQ. eapply wp_delete; [exact O|]. intros h' O'. apply (HQ tt h' (J ++ I ++ dict_items D)); [reflexivity| |first [exact O'|owna O']].
        now inversion NI. }
      intros [] [] L ->. apply Tail; [exact HD|]. intros z. destruct (map_find z (trees D)) eqn:Fz; [reflexivity|].
      destruct (String.eqb_spec z y) as [->|]; [|reflexivity]. unfold trees in Fz. rewrite (map_find_proj snd), F in Fz. discriminate.
    + change (ptrs D) with (map (fun e => (fst e, fst (snd e))) D). change (Some a) with (fst (Some a, embed t)) at 2. rewrite (map_insert_proj fst y (Some a, embed t) D).
      eapply sim_ext; [|reflexivity|apply sim_perm with (J ++ I ++ dict_items (map_insert y (Some a, embed t) D)); [rewrite (dict_insert _ _ _ _ F); perme|apply Tail]].
      * intros h. reflexivity.
      * unfold dict_sorted. now apply map_insert_sorted.
      * intros z. unfold trees. rewrite !(map_find_proj snd), map_find_insert by exact HD. destruct (map_find z D); [reflexivity|].
        now destruct (String.eqb z y).
Qed.

Definition noclaim {B} (r : res B * env) : Prop := match fst r with Undef _ | AssertFail _ | OutOfFuel => True | _ => False end.
Lemma sim_weaken {A B} I (m : M (K:=K) A) (v v' : V (K:=K) B) R : (forall E, v' E = v E \/ noclaim (v' E)) -> sim I m v R -> sim I m v' R.
Proof.
  intros Ev H rest h E NI NR Hh. destruct (Ev E) as [->|C]; [now apply H|]. unfold noclaim in C. destruct (v' E) as [[] ?]; try destruct C; exact Logic.I.
Qed.
Lemma vpeek_cases vo E : (exists e, vpeek (K:=K) vo E = (Ok e, E)) \/ (exists w, vpeek vo E = (Undef w, E)).
Proof.
  destruct vo as [x|x|[e|]]; cbn [vpeek nonempty]; unfold vbind, vget, vret, vfail.
  1,2: destruct (get E x) as [[?|]|]; cbn [nonempty]; unfold vret, vfail; eauto.
  - left. eauto.
  - right. eauto.
Qed.
Lemma vdict_cases vs : forall E, (exists d, vdict (K:=K) vs E = (Ok d, E)) \/ (exists w, vdict vs E = (Undef w, E)).
Proof.
  induction vs as [|[y v] vs IH]; intros E; cbn [vdict]; [left; unfold vret; eauto|]. unfold vbind.
  assert (C : (exists e, ventry_value v E = (Ok e, E)) \/ (exists w, ventry_value v E = (Undef w, E))) by (destruct v; cbn [ventry_value]; [apply vpeek_cases|left; unfold vret; eauto]).
  destruct C as [(e & ->)|(w & ->)]; [|eauto]. destruct (IH E) as [(d & ->)|(w & ->)]; unfold vret; eauto.
Qed.
Lemma vtake_nothrow vo E e E' : vtake (K:=K) vo E <> (Throw e, E').
Proof. intros H. pose proof (vtake_cases vo E) as C. now rewrite H in C. Qed.

(** The body of Subs once the dictionary is built. *)
Lemma sim_subs_body D d e a : (forall y, map_find y (trees D) = option_map embed (first_for d y)) ->
  sim (ITree None (Some a) (embed e) :: dict_items D)
    (do q <- with_local "node" (Some a) (fun s => HSubsInner pick s (ptrs D)); delete_dict (ptrs D);; ret q)
    (vret (subst (first_for d) e)) rnew.
Proof.
  intros HD. apply sim_wp. intros its h Q NI NR O HQ. apply wp_bind. apply Forall_inv_tail in NI.
  eapply wp_with_local with (its := dict_items D ++ its); [apply Forall_app; split; assumption|exact O|].
  intros h1 Q' O1 HQ'. eapply wp_HSubsInner with (t := embed e) (t' := embed (subst (first_for d) e)) (upd := IVar (Local "node")) (its := its);
    [exact Hpick|apply sa_var|apply embed_not_nil| |exact O1|].
  - apply SubsInner_ok. intros y. rewrite HD. now destruct (first_for d y).
  - intros q h2 O2. apply (HQ' _ _ _ O2). intros h3 O3. apply wp_bind. eapply destroys_dict with (its := ITree None (Some q) (embed (subst (first_for d) e)) :: its); [owna O3|].
    intros h4 O4. apply wp_ret. eapply HQ; [exists q; split; reflexivity|repeat constructor|exact O4].
Qed.
Lemma sim_subs o vo J es vs I : rop o vo J -> rents es vs I ->
  sim (J ++ I) (HSubs pick o es) (vbind (vdict vs) (fun d => vbind (vtake vo) (fun e => vret (subst (first_for d) e))))
    (fun p e L => exists a, p = Some a /\ Permutation L (ITree None (Some a) (embed e) :: I)).
Proof.
  intros Ro Rs.
  (* from the moment the operand is not an lvalue *)
  assert (Main : forall o vo J, rop o vo J -> sim (J ++ I)
     (do m <- build_dict pick [] es; do p <- acquire pick o;
      do q <- with_local "node" p (fun s => HSubsInner pick s m); delete_dict m;; ret q)
     (vbind (vdict vs) (fun d => vbind (vtake vo) (fun e => vret (subst (first_for d) e))))
     (fun p e L => exists a, p = Some a /\ Permutation L (ITree None (Some a) (embed e) :: I))).
  { clear o vo J Ro. intros o vo J Ro. eapply sim_bind with (R := fun m d L => exists D, m = ptrs D /\ Permutation L (J ++ I ++ dict_items D) /\
      forall y, map_find y (trees D) = option_map embed (first_for d y)).
    - eapply sim_mono; [apply sim_perm with ((I ++ dict_items []) ++ J); [cbn [dict_items map]; rewrite app_nil_r; perme|
        apply sim_frame0; [apply (sim_build_dict es vs I Rs []); constructor|apply vdict_nothrow]]|].
      intros m d L (I' & (D & -> & P & H) & ->). exists D. split; [reflexivity|]. split; [rewrite P; perme|exact H].
    - intros m d L (D & -> & P & HD). apply sim_perm with (J ++ (I ++ dict_items D)); [symmetry; exact P|].
      eapply sim_bind; [apply sim_frame0; [apply sim_acquire; exact Ro|apply vtake_nothrow]|].
      intros p e L' (I' & (a & -> & ->) & ->).
      eapply sim_mono; [apply sim_perm with ((ITree None (Some a) (embed e) :: dict_items D) ++ I); [perme|apply sim_frame0; [now apply sim_subs_body|discriminate]]|].
      intros q e' L' (I' & (b & -> & ->) & ->). exists b. split; [reflexivity|]. reflexivity. }
  unfold HSubs. destruct Ro as [x|x|p v].
  - eapply sim_weaken with (v := vbind (vtake (VCopy x)) (fun e => vbind (vdict vs) (fun d => vbind (vtake (VTemp (Some e))) (fun e => vret (subst (first_for d) e))))).
    { intros E. unfold vbind. destruct (vdict_cases vs E) as [(d & Ed)|(w & Ed)]; rewrite ?Ed; [|right; exact Logic.I].
      cbn [vtake]. destruct (vpeek_cases (VCopy x) E) as [(e & Ee)|(w & Ee)]; rewrite Ee; [left; now rewrite Ed|right; exact Logic.I]. }
    eapply sim_ext with (m := do p <- acquire pick (CopyOf (uvar x)); do m <- build_dict pick [] es; do p <- acquire pick (Temp p);
      do q <- with_local "node" p (fun s => HSubsInner pick s m); delete_dict m;; ret q); [|reflexivity|].
    { intros h. unfold bindM. destruct (acquire pick (CopyOf (uvar x)) h) as [[] ?]; reflexivity. }
    eapply sim_bind; [apply sim_frame0 with (I := []); [apply sim_acquire; constructor|apply vtake_nothrow]|].
    intros p e L (I' & (a & -> & ->) & ->). apply (Main (Temp (point a (Some e))) (VTemp (Some e)) (contents a (Some e))). constructor.
  - apply Main. constructor.
  - apply Main. constructor.
Qed.

(** ** Expressions *)
Lemma rop_temp' p v J : rval p v J -> rop (Temp p) (VTemp v) J.
Proof. intros (a & -> & ->). constructor. Qed.
Lemma rval_some a (e : expr) : rval (Some a) (Some e) [ITree None (Some a) (embed e)].
Proof. exists a. split; reflexivity. Qed.

Lemma Parse_reaction s : match Parse (K:=K) s with Ok t => exists e, t = embed e | Throw _ | Undef _ => True | _ => False end.
Proof.
  pose proof (C13_parse_outcome (K:=K) s) as R. destruct (Parse s) as [t|e|w| |w|] eqn:E; auto; try (inversion R; fail).
  destruct (C11_parse_sound s t E) as (ts & e & _ & -> & _). eauto.
Qed.

Scheme nexp_ind2 := Induction for nexp Sort Prop
  with arg_ind2 := Induction for arg Sort Prop
  with dict_ind2 := Induction for dict Sort Prop.
Combined Scheme nexp_arg_dict_ind from nexp_ind2, arg_ind2, dict_ind2.

Theorem eval_sim cfg :
  (forall e : nexp K, sim [] (eval_exp pick cfg e) (veval cfg e) rval) /\
  (forall a : arg K, sim [] (eval_arg pick cfg a) (veval_arg cfg a) rop) /\
  (forall d : dict K, sim [] (eval_dict pick cfg d) (veval_dict cfg d) rents).
Proof.
  apply nexp_arg_dict_ind.
  - intros v. cbn [eval_exp veval]. apply sim_wp. intros its h Q NI NR O HQ. apply wp_bind. eapply wp_make_node; [exact Hpick|exact O|].
    intros a h' O'. apply wp_ret. apply own_leaf in O'. eapply HQ; [apply (rval_some a (ENum v))|repeat constructor|exact O'].
  - intros x. cbn [eval_exp veval]. destruct (VarNameIsLegal x).
    + apply sim_wp. intros its h Q NI NR O HQ. apply wp_bind. eapply wp_make_node; [exact Hpick|exact O|].
      intros a h' O'. apply wp_ret. apply own_leaf in O'. eapply HQ; [apply (rval_some a (EVar x))|repeat constructor|exact O'].
    + intros rest h E NI NR Hh. cbn. eexists. exists h. split; [reflexivity|]. split; [reflexivity|exact Hh].
  - intros s. cbn [eval_exp veval].
    eapply sim_bind with (R := fun a e L => L = [ITree None (Some a) (embed e)]).
    + intros rest h E NI NR (L & (its & R & P) & O). unfold vfail, expression. pose proof (Parse_reaction s) as C.
      assert (O1 : owns h (its ++ rest)) by (refine (owns_perm _ _ _ _ O); exact P).
      pose proof (HParse_ok pick Hpick s _ _ O1) as HP. destruct (Parse s) as [t|e|w| |w|]; cbn [bind simr]; auto.
      * destruct C as (e & ->). rewrite expression_of_embed. eapply wp_mono; [exact HP|]. intros a h' O'. cbv beta.
        eexists. split; [reflexivity|]. split; [repeat constructor|]. eapply holds_owns; [exact R|]. owna O'.
      * destruct HP as (h' & EP & O'). exists e, h'. split; [exact EP|]. split; [reflexivity|]. eapply holds_owns; [exact R|exact O'].
      * destruct C.
    + intros a e L ->. apply sim_ret. apply rval_some.
  - intros x. cbn [eval_exp veval]. intros rest h E NI NR Hh. unfold vbind, vget, vset. destruct (get E x) as [v|] eqn:G; [|exact I]. rewrite G. cbn [vret simr].
    destruct (holds_var _ _ _ _ _ Hh G) as (p & its & O & U & _). eapply wp_move_out; [apply sa_var|exact O|]. intros h' O'.
    exists (contents p v). split; [exists p; split; reflexivity|]. split; [apply contents_nolocal|]. apply (U h' None p). cbn [point contents app]. owna O'.
  - intros a IH. cbn [eval_exp veval]. eapply sim_bind; [exact IH|]. intros o vo J Ro.
    eapply sim_ext with (m := do r <- (do p <- peek o; Clone pick p); drop o;; ret (Some r)); [|reflexivity|].
    { intros h. unfold bindM. destruct (peek o h) as [[] ?]; reflexivity. }
    eapply sim_bind; [apply sim_peek_clone; exact Ro|]. intros r e L ->.
    apply sim_wp. intros its h Q NI NR O HQ. apply wp_bind. eapply (destroys_drop _ _ _ Ro (ITree None (Some r) (embed e) :: its)).
    { owna O. }
    intros h' O'. apply wp_ret. eapply HQ; [apply rval_some|repeat constructor|exact O'].
  - intros u a IH. cbn [eval_exp veval]. eapply sim_bind; [exact IH|]. intros o vo J Ro.
    eapply sim_bind; [apply sim_unary; exact Ro|]. intros r e L ->. apply sim_ret. apply (rval_some r (EUn u e)).
  - intros lf b a1 IH1 a2 IH2. cbn [eval_exp veval].
    eapply sim_bind with (R := fun oo vv L => exists J1 J2, rop (fst oo) (fst vv) J1 /\ rop (snd oo) (snd vv) J2 /\ Permutation L (J1 ++ J2)).
    + destruct lf.
      * eapply sim_bind; [exact IH1|]. intros o1 v1 J1 R1.
        eapply sim_bind; [apply (sim_frame [] J1); [exact IH2|now apply destroys_drop with v1]|]. intros o2 v2 L (J2 & R2 & ->).
        apply sim_ret. exists J1, J2. cbn. split; [exact R1|]. split; [exact R2|]. apply Permutation_app_comm.
      * eapply sim_bind; [exact IH2|]. intros o2 v2 J2 R2.
        eapply sim_bind; [apply (sim_frame [] J2); [exact IH1|now apply destroys_drop with v2]|]. intros o1 v1 L (J1 & R1 & ->).
        apply sim_ret. exists J1, J2. cbn. split; [exact R1|]. split; [exact R2|]. reflexivity.
    + intros [o1 o2] [v1 v2] L (J1 & J2 & R1 & R2 & P). cbn [fst snd] in *. eapply sim_perm; [symmetry; exact P|].
      eapply sim_ext with (m := do r <- HBinaryOperator pick (binop_op b) o1 o2; ret (Some r))
        (v := vbind (vbind (vtake v1) (fun e1 => vbind (vtake v2) (fun e2 => vret (e1, e2)))) (fun ee => vret (Some (EBin b (fst ee) (snd ee))))); [reflexivity| |].
      { intros E. unfold vbind. destruct (vtake v1 E) as [[] E1]; try reflexivity. destruct (vtake v2 E1) as [[] E2]; reflexivity. }
      eapply sim_bind; [apply sim_binary; eassumption|]. intros r [e1 e2] L' ->. apply sim_ret. apply (rval_some r (EBin b e1 e2)).
  - intros a IHa d IHd. cbn [eval_exp veval]. eapply sim_bind; [exact IHd|]. intros es vs I0 Rs.
    eapply sim_bind; [apply (sim_frame [] I0); [exact IHa|now apply destroys_entries with vs]|]. intros o vo L (J & Ro & ->).
    eapply sim_ext with (v := vbind (vbind (vdict vs) (fun d => vbind (vtake vo) (fun e => vret (subst (first_for d) e)))) (fun e => vret (Some e)));
      [reflexivity| |].
    { intros E. unfold vbind. destruct (vdict vs E) as [[] E1]; try reflexivity. destruct (vtake vo E1) as [[] E2]; reflexivity. }
    eapply sim_bind; [apply sim_subs; eassumption|]. intros q e L (b & -> & P). eapply sim_perm; [symmetry; exact P|].
    apply sim_wp. intros its h Q NI NR O HQ. apply wp_bind. eapply (destroys_entries _ _ _ Rs (ITree None (Some b) (embed e) :: its)).
    { owna O. }
    intros h' O'. apply wp_ret. eapply HQ; [apply rval_some|repeat constructor|exact O'].
  - intros a IHa x i. cbn [eval_exp veval]. eapply sim_bind; [exact IHa|]. intros o vo J Ro.
    eapply sim_ext with (m := do r <- HDiffCall pick cfg o x i; ret r) (v := vbind (vbind (vtake vo) (fun e => vfail (expression (Diff cfg (embed e) x i)))) (fun e' => vret (Some e'))).
    { intros h. unfold bindM, ret. destruct (HDiffCall pick cfg o x i h) as [[] ?]; reflexivity. }
    { intros E. unfold vbind. destruct (vtake vo E) as [[] E1]; reflexivity. }
    eapply sim_bind; [apply sim_diff_call; exact Ro|]. intros r e L (b & -> & ->). apply sim_ret, rval_some.
  - intros x. apply sim_ret. constructor.
  - intros x. apply sim_ret. constructor.
  - intros e IH. cbn [eval_arg veval_arg]. eapply sim_bind; [exact IH|]. intros p v J Rv. apply sim_ret. now apply rop_temp'.
  - apply sim_ret. constructor.
  - intros y a IHa d IHd. cbn [eval_dict veval_dict]. eapply sim_bind; [exact IHa|]. intros o vo J Ro.
    eapply sim_bind; [apply (sim_frame [] J); [exact IHd|now apply destroys_drop with vo]|]. intros es vs L (I0 & Rs & ->).
    apply sim_perm with (J ++ I0); [apply Permutation_app_comm|]. apply sim_ret. constructor; [now constructor|exact Rs].
  - intros y v d IHd. cbn [eval_dict veval_dict]. eapply sim_bind; [exact IHd|]. intros es vs J Rs. apply sim_ret.
    apply (rents_cons y _ _ [] es vs J); [constructor|exact Rs].
Qed.

(** ** Statements *)
Lemma simr_bind {A B A' B'} (m : M (K:=K) A) (v : V (K:=K) B) (f : A -> M A') (g : B -> V B') (R : A -> B -> list item -> Prop) (S : A' -> B' -> list item -> Prop) rest h E :
  simr R m (v E) rest h -> (forall a b J h' E', R a b J -> Forall nolocal J -> holds h' E' (J ++ rest) -> simr S (f a) (g b E') rest h') ->
  simr S (bindM m f) (vbind v g E) rest h.
Proof.
  intros H1 H2. unfold vbind. destruct (v E) as [[b|e|w| |w|] E']; cbn [simr] in *; auto.
  - destruct H1 as (a & h1 & Em & J & Ra & NJ & Hh). specialize (H2 a b J h1 E' Ra NJ Hh).
    unfold bindM. destruct (g b E') as [[b'|e|w| |w|] E2]; cbn [simr] in *; auto.
    + destruct H2 as (a' & h2 & Ef & Q). exists a', h2. now rewrite Em.
    + destruct H2 as (e' & h2 & Ef & Q). exists e', h2. now rewrite Em.
    + destruct H2 as (h2 & Ef). exists h2. now rewrite Em.
  - destruct H1 as (e' & h' & Em & Q). exists e', h'. unfold bindM. now rewrite Em.
  - destruct H1 as (h' & Em). exists h'. unfold bindM. now rewrite Em.
Qed.
Definition plain {A} (a b : A) (L : list item) : Prop := a = b /\ L = [].
Lemma simr_done {A} (a : A) h E : holds h E [] -> simr plain (ret a) (vret a E) [] h.
Proof. intros Hh. cbn. apply wp_ret. exists []. repeat split; auto. Qed.
(** A unit operation that turns the environment into E', then Done. *)
Lemma simr_wp {A} (m : M (K:=K) A) (b : A) E' h : wp m (fun a h' => a = b /\ holds h' E' []) h -> simr plain m (Ok b, E') [] h.
Proof. intros W. cbn. eapply wp_mono; [exact W|]. intros a h' [-> Hh]. exists []. repeat split; auto. Qed.

Lemma reps_fresh E its J x : reps E its -> get E x = None -> Forall (fun i : item => match i with IVar _ _ => False | _ => True end) J ->
  forall h, owns h (its ++ J) -> lookup h (KVar (User x)) = None.
Proof.
  intros R G NJ h (os & F & P & _). destruct (lookup h (KVar (User x))) as [o|] eqn:El; [|reflexivity]. exfalso.
  apply lookup_in, (Permutation_in _ P) in El. clear P.
  assert (Hn : forall i, In i (its ++ J) -> forall q, i <> IVar (User x) q).
  { intros i Hi q ->. apply in_app_iff in Hi as [Hi|Hi].
    - clear - R G Hi. induction R as [|y v E p its R IH]; cbn in *; [exact Hi|]. destruct (String.eqb_spec x y) as [->|Hne]; [discriminate|].
      destruct Hi as [Hi|Hi]; [congruence|]. apply in_app_iff in Hi as [Hi|Hi]; [|now apply IH]. destruct v; cbn in Hi; [|exact Hi]. destruct Hi as [Hi|[]]; discriminate.
    - rewrite Forall_forall in NJ. apply (NJ _ Hi). }
  revert Hn El. generalize (its ++ J) F. clear. intros l F Hn El. induction F as [|i its o1 os Sa F IH]; [destruct El|].
  apply in_app_iff in El as [El|El]; [|apply IH; [intros j Hj; apply Hn; now right|exact El]].
  destruct Sa as [par p t os1 O|a c|y p].
  - destruct (objects_keys _ _ _ _ O _ _ El) as (a & [=]).
  - destruct El as [[=]|[]].
  - destruct El as [[= -> _]|[]]. now apply (Hn (IVar (User x) p) (or_introl eq_refl) p).
Qed.

Lemma reps_get2 E its x y v w : reps E its -> x <> y -> get E x = Some v -> get E y = Some w -> exists p q its',
  Permutation its (IVar (User x) (point p v) :: contents p v ++ IVar (User y) (point q w) :: contents q w ++ its') /\
  forall v' w' p' q', exists its2, reps (set (set E y w') x v') its2 /\
    Permutation its2 (IVar (User x) (point p' v') :: contents p' v' ++ IVar (User y) (point q' w') :: contents q' w' ++ its').
Proof.
  intros R Hne. revert its R. induction E as [|[z u] E IH]; intros its R; [discriminate|]. inversion R as [|? ? ? p0 its0 R0]; subst. cbn [get set].
  destruct (String.eqb_spec x z) as [->|Hx].
  - destruct (String.eqb_spec y z) as [->|Hy]; [congruence|]. intros [= ->] Gy.
    destruct (reps_get _ _ R0 _ _ Gy) as (q & its' & P & U & _). exists p0, q, its'. split; [rewrite P; perma|].
    intros v' w' p' q'. cbn [set]. destruct (String.eqb_spec z z); [|congruence]. destruct (U w' q') as (its2 & R2 & P2).
    eexists. split; [constructor; exact R2|]. rewrite P2. reflexivity.
  - destruct (String.eqb_spec y z) as [->|Hy].
    + intros Gx [= ->]. destruct (reps_get _ _ R0 _ _ Gx) as (p & its' & P & U & _). exists p, p0, its'. split; [rewrite P; perma|].
      intros v' w' p' q'. cbn [set]. destruct (String.eqb_spec x z); [congruence|]. destruct (U v' p') as (its2 & R2 & P2).
      eexists. split; [constructor; exact R2|]. rewrite P2. perma.
    + intros Gx Gy. destruct (IH _ R0 Gx Gy) as (p & q & its' & P & U). exists p, q, (IVar (User z) (point p0 u) :: contents p0 u ++ its').
      split; [rewrite P; perma|]. intros v' w' p' q'. cbn [set]. destruct (String.eqb_spec x z); [congruence|].
      destruct (U v' w' p' q') as (its2 & R2 & P2). eexists. split; [constructor; exact R2|]. rewrite P2. perma.
Qed.
Lemma holds_var2 h E rest x y v w : holds h E rest -> x <> y -> get E x = Some v -> get E y = Some w -> exists p q its,
  owns h (IVar (User x) (point p v) :: contents p v ++ IVar (User y) (point q w) :: contents q w ++ its ++ rest) /\
  (forall h' v' w' p' q' r, owns h' (IVar (User x) (point p' v') :: contents p' v' ++ IVar (User y) (point q' w') :: contents q' w' ++ its ++ r) ->
     holds h' (set (set E y w') x v') r).
Proof.
  intros (L & (its & R & P) & O) Hne Gx Gy. destruct (reps_get2 _ _ _ _ _ _ R Hne Gx Gy) as (p & q & its' & P1 & U). exists p, q, its'. split.
  - refine (owns_perm _ _ _ _ O). rewrite P, P1. perma.
  - intros h' v' w' p' q' r O'. destruct (U v' w' p' q') as (its2 & R2 & P2). eapply holds_owns; [exact R2|]. refine (owns_perm _ _ _ _ O'). rewrite P2. perma.
Qed.

Lemma vthe_cases x E : (exists e, get E x = Some (Some e) /\ vthe (K:=K) x E = (Ok e, E)) \/ (exists w, vthe x E = (Undef w, E)).
Proof.
  unfold vthe, vbind, vget. destruct (get E x) as [[e|]|]; cbn [nonempty]; unfold vret, vfail; [left|right|right]; eauto.
Qed.
Lemma the_ok h x p its : owns h (IVar (User x) (Some p) :: its) -> the x h = (Ok p, h).
Proof. intros O. unfold the, bindM, uvar. cbn [get_slot]. now rewrite (own_var_lookup _ _ _ _ O). Qed.

Lemma well_formed_embed (e : expr) : well_formed (embed e).
Proof.
  induction e as [v|x|u a IH|b a IHa c IHc]; cbn [embed well_formed]; auto.
  - repeat split; auto; destruct u; cbn; auto using embed_not_nil.
  - repeat split; auto; destruct b; cbn; auto using embed_not_nil.
Qed.

Lemma own_trees_ne h par par' a b (t t' : node) its : owns h (ITree par (Some a) t :: ITree par' (Some b) t' :: its) -> a <> b.
Proof.
  intros O. destruct (own_some _ _ _ _ _ O) as (ty & op & v & x & l & r & ->). apply own_open in O as (a' & pl & pr & [= <-] & O).
  front O (ITree par' (Some b) t'). destruct (own_some _ _ _ _ _ O) as (ty' & op' & v' & x' & l' & r' & ->). apply own_open in O as (b' & pl' & pr' & [= <-] & O).
  front O (ICell a (MkCell ty op v x par pl pr)). front O (ICell b (MkCell ty' op' v' x' par' pl' pr')). intros <-.
  destruct O as (os & F & P & Nd). apply flat_cons_inv in F as (o1 & os1 & S1 & F1 & ->). apply flat_cons_inv in F1 as (o2 & os2 & S2 & F2 & ->).
  inversion S1; subst. inversion S2; subst. apply (Permutation_NoDup (Permutation_map fst P)) in Nd. cbn in Nd. inversion Nd as [|? ? Hn _]. apply Hn. now left.
Qed.

Lemma Simplify_cases cfg (e : expr) : match Simplify cfg (embed e) with Ok t => exists e', t = embed e' | Terminate | Undef _ => True | _ => False end.
Proof.
  destruct (C19_simplify_refines K cfg e) as (r & _ & R). destruct r; cbn in R.
  - rewrite R. eauto.
  - now rewrite R.
  - destruct R as (w & ->). exact I.
Qed.

(** Observations. *)
Lemma reading_sim {A} (m : addr -> M (K:=K) A) (f : node -> res A) x e h E (g : A -> event K) :
  (forall a t its h, owns h (ITree None (Some a) t :: its) -> m a h = (f t, h)) -> holds h E [] -> get E x = Some (Some e) ->
  simr plain (do a <- the x; do r <- m a; ret (g r)) (vbind (vfail (f (embed e))) (fun r => vret (g r)) E) [] h.
Proof.
  intros Hm Hh G. destruct (holds_var _ _ _ _ _ Hh G) as (p & its & O & _). cbn [point contents app] in O.
  assert (Er : m p h = (f (embed e), h)) by (front O (ITree None (Some p) (embed e)); eapply Hm; exact O).
  unfold vbind, vfail. unfold simr, wp, dies, bindM. rewrite (the_ok _ _ _ _ O). rewrite Er.
  destruct (f (embed e)); cbn; auto.
  - eexists. exists h. split; [reflexivity|]. exists []. repeat split; auto.
  - eexists. exists h. auto.
  - eauto.
Qed.

Theorem step_sim cfg s h E : holds h E [] -> simr plain (step pick cfg s) (vstep cfg s E) [] h.
Proof.
  intros Hh. destruct (eval_sim cfg) as (Sx & Sa & _).
  assert (Decl : forall x p v h E, holds h E (contents p v) -> simr plain (enter (User x) (point p v);; ret Done) (vbind (vdeclare x v) (fun _ => vret (Done (K:=K))) E) [] h).
  { clear - Hpick. intros x p v h E (L & (its & R & P) & O). unfold vbind, vdeclare. destruct (get E x) eqn:G; [exact I|]. cbn [vret]. apply simr_wp.
    assert (O1 : owns h (its ++ contents p v)) by (exact (owns_perm _ _ _ P O)).
    apply wp_bind. exists tt. eexists. split; [reflexivity|]. apply wp_ret. split; [reflexivity|].
    assert (Lk : lookup h (KVar (User x)) = None) by (eapply reps_fresh; [exact R|exact G| |exact O1]; destruct v; repeat constructor).
    pose proof (own_enter _ _ (point p v) _ Lk O1) as O2. eapply holds_owns; [constructor; exact R|]. rewrite app_nil_r. refine (owns_perm _ _ _ _ O2).
    rewrite (Permutation_app_comm its). reflexivity. }
  destruct s as [x e|x|x e|b x a|x|x|x y|x y|x|x|x|x|x|x y|x|c]; cbn [step vstep].
  - (* Declare *)
    eapply simr_bind; [apply (Sx e); auto; constructor|]. intros p v J h' E' (a & -> & ->) NJ Hh'. rewrite app_nil_r in Hh'. now apply Decl.
  - (* DeclareEmpty *)
    apply (Decl x 0 None). exact Hh.
  - (* Assign *)
    eapply simr_bind; [apply (Sx e); auto; constructor|]. intros p v J h' E' (a & -> & ->) NJ Hh'. rewrite app_nil_r in Hh'.
    unfold vbind, vset. destruct (get E' x) as [w|] eqn:G; [|exact I]. cbn [vret]. apply simr_wp.
    destruct (holds_var _ _ _ _ _ Hh' G) as (q & its & O & U & _). apply wp_bind. destruct w as [w|]; cbn [point contents app] in O.
    + eapply wp_reset; [apply sa_var|exact O|]. intros h2 O2. apply wp_ret. split; [reflexivity|]. apply (U h2 v a). rewrite app_nil_r. refine (owns_perm _ _ _ _ O2). rewrite (Permutation_app_comm its). reflexivity.
    + eapply wp_reset_null; [apply sa_var|exact O|]. intros h2 O2. apply wp_ret. split; [reflexivity|]. apply (U h2 v a). rewrite app_nil_r. refine (owns_perm _ _ _ _ O2). rewrite (Permutation_app_comm its). reflexivity.
  - (* Compound *)
    eapply simr_bind; [apply (Sa a); auto; constructor|]. intros o vo J h' E' Ro NJ Hh'.
    assert (Hc : forall E, (let then_ m := vbind m (fun _ => vret (Done (K:=K))) in vbind (vtake (VMove x)) (fun e1 => vbind (vtake vo) (fun e2 => then_ (vset x (Some (EBin b e1 e2)))))) E =
      vbind (vbind (vtake (VMove x)) (fun e1 => vbind (vtake vo) (fun e2 => vret (e1, e2)))) (fun ee => vbind (vset x (Some (EBin b (fst ee) (snd ee)))) (fun _ => vret Done)) E).
    { intros E0. unfold vbind at 2 4 5. destruct (vtake (VMove x) E0) as [[] E1]; try reflexivity. unfold vbind at 1 3 4. destruct (vtake vo E1) as [[] E2]; reflexivity. }
    cbv zeta in Hc. rewrite Hc. clear Hc.
    eapply simr_bind; [apply (sim_binary (MoveOf (uvar x)) (VMove x) [] o vo J); [constructor|exact Ro|exact NJ|constructor|exact Hh']|].
    intros r [e1 e2] L h2 E2 -> _ Hh2. cbn [fst snd] in *. unfold vbind, vset. destruct (get E2 x) as [w|] eqn:G; [|exact I]. cbn [vret]. apply simr_wp.
    destruct (holds_var _ _ _ _ _ Hh2 G) as (q & its & O & U & _). apply wp_bind. destruct w as [w|]; cbn [point contents app] in O.
    + eapply wp_reset; [apply sa_var|exact O|]. intros h3 O3. apply wp_ret. split; [reflexivity|]. apply (U h3 (Some (EBin b e1 e2)) r). cbn [point contents app]. rewrite app_nil_r. refine (owns_perm _ _ _ _ O3). rewrite (Permutation_app_comm its). reflexivity.
    + eapply wp_reset_null; [apply sa_var|exact O|]. intros h3 O3. apply wp_ret. split; [reflexivity|]. apply (U h3 (Some (EBin b e1 e2)) r). cbn [point contents app]. rewrite app_nil_r. refine (owns_perm _ _ _ _ O3). rewrite (Permutation_app_comm its). reflexivity.
  - (* SimplifyVar *)
    unfold vbind at 1. destruct (vthe_cases x E) as [(e & G & ->)|(w & ->)]; [|exact I].
    destruct (holds_var _ _ _ _ _ Hh G) as (p & its & O & U & _). cbn [point contents app] in O.
    unfold vbind at 1, vfail, expression. pose proof (Simplify_cases cfg e) as C. destruct (Simplify cfg (embed e)) as [t|w|w| |w|] eqn:Es; cbn [bind]; try exact I; try destruct C.
    + subst t. rename x0 into e'. rewrite expression_of_embed. unfold vbind, vset. rewrite G. cbn [vret]. apply simr_wp.
      apply wp_bind. eapply wp_HSimplify; [exact Hpick|apply sa_var|exact Es|exact O|]. intros q h' O'. apply wp_ret. split; [reflexivity|].
      front O' (ITree None q (embed e')). destruct (own_tree_cases _ _ _ _ _ O') as [[_ Hn]|(a & -> & _)]; [now apply embed_not_nil in Hn|].
      apply (U h' (Some e') a). cbn [point contents app]. owna O'.
    + apply dies_here. eapply dies_HSimplify; [exact Hpick|apply sa_var|exact Es|exact O].
  - (* CalcVar *)
    unfold vbind at 1. destruct (vthe_cases x E) as [(e & G & ->)|(w & ->)]; [|exact I].
    destruct (holds_var _ _ _ _ _ Hh G) as (p & its & O & U & _). cbn [point contents app] in O. pose proof (the_ok _ _ _ _ O) as Et.
    front O (ITree None (Some p) (embed e)). unfold vbind at 1, vfail. destruct (Vpa cfg (embed e)) as [v|w|w| |w|] eqn:Ev; try exact I.
    + unfold vbind, vset. rewrite G. cbn [vret]. apply simr_wp. apply wp_bind. exists p, h. split; [exact Et|]. apply wp_bind.
      eapply wp_HCalc; [exact Hpick|exact O|exact Ev|]. intros h' O'. apply wp_ret. split; [reflexivity|].
      apply (U h' (Some (ENum v)) p). cbn [point contents app embed]. owna O'.
    + destruct (HCalc_other pick cfg _ _ _ _ _ _ O Ev ltac:(discriminate)) as (r' & Ec & ->). cbn. exists w, h. unfold bindM. rewrite Et, Ec. auto.
    + exfalso. pose proof (C02_vpa_errors K cfg e) as Rp. rewrite Ev in Rp. destruct (eval (throwOnInvalidValue cfg) e); cbn in Rp; [discriminate Rp| | |]; destruct Rp as [? Rp]; discriminate Rp.
  - (* CopyInto *)
    unfold vbind at 1. destruct (vthe_cases y E) as [(e & Gy & ->)|(w & ->)]; [|exact I]. unfold vbind at 1. destruct (vthe_cases x E) as [(e0 & Gx & ->)|(w & ->)]; [|exact I].
    unfold vbind, vset. rewrite Gx. cbn [vret]. apply simr_wp. destruct (String.eqb_spec x y) as [<-|Hne].
    + destruct (holds_var _ _ _ _ _ Hh Gx) as (p & its & O & U & _). cbn [point contents app] in O. pose proof (the_ok _ _ _ _ O) as Et.
      rewrite Gx in Gy. injection Gy as ->. front O (ITree None (Some p) (embed e)).
      apply wp_bind. exists p, h. split; [exact Et|]. apply wp_bind. exists p, h. split; [exact Et|]. apply wp_bind. eapply wp_CopyAssign_self; [exact Hpick|exact O|].
      intros h' O'. apply wp_ret. split; [reflexivity|]. apply (U h' (Some e) p). cbn [point contents app]. owna O'.
    + destruct (holds_var2 _ _ _ _ _ _ _ Hh Hne Gx Gy) as (p & q & its & O & U). cbn [point contents app] in O. pose proof (the_ok _ _ _ _ O) as Ex.
      assert (O1 := O). front O1 (IVar (K:=K) (User y) (Some q)). pose proof (the_ok _ _ _ _ O1) as Ey.
      front O (ITree None (Some p) (embed e0)). front O (ITree None (Some q) (embed e)).
      apply wp_bind. exists q, h. split; [exact Ey|]. apply wp_bind. exists p, h. split; [exact Ex|]. apply wp_bind. eapply wp_CopyAssign; [exact Hpick|exact O|].
      intros h' O'. apply wp_ret. split; [reflexivity|]. rewrite <- (set_same E y (Some e) Gy). apply (U h' (Some e) (Some e) p q). cbn [point contents app]. owna O'.
  - (* MoveInto *)
    unfold vbind at 1. destruct (vthe_cases y E) as [(e & Gy & ->)|(w & ->)]; [|exact I]. unfold vbind at 1. destruct (vthe_cases x E) as [(e0 & Gx & ->)|(w & ->)]; [|exact I].
    unfold vbind at 1, vset at 1. rewrite Gy. unfold vbind, vset. rewrite (get_set _ _ _ _ x Gy).
    assert (Ez : (if String.eqb x y then Some (Some (ENum (n_ofZ 0))) else get E x) <> None) by (destruct (String.eqb x y); congruence).
    destruct (if String.eqb x y then Some (Some (ENum (n_ofZ 0))) else get E x) as [v0|]; [|congruence]. clear Ez v0. cbn [vret].
    apply simr_wp. destruct (String.eqb_spec x y) as [<-|Hne].
    + destruct (holds_var _ _ _ _ _ Hh Gx) as (p & its & O & U & _). cbn [point contents app] in O. pose proof (the_ok _ _ _ _ O) as Et.
      rewrite Gx in Gy. injection Gy as ->. front O (ITree None (Some p) (embed e)).
      apply wp_bind. exists p, h. split; [exact Et|]. apply wp_bind. exists p, h. split; [exact Et|]. apply wp_bind. eapply wp_MoveAssign_self; [exact O|].
      intros h' O'. apply wp_ret. split; [reflexivity|]. rewrite set_set. apply (U h' (Some e) p). cbn [point contents app]. owna O'.
    + destruct (holds_var2 _ _ _ _ _ _ _ Hh Hne Gx Gy) as (p & q & its & O & U). cbn [point contents app] in O. pose proof (the_ok _ _ _ _ O) as Ex.
      assert (O1 := O). front O1 (IVar (K:=K) (User y) (Some q)). pose proof (the_ok _ _ _ _ O1) as Ey.
      front O (ITree None (Some p) (embed e0)). front O (ITree None (Some q) (embed e)).
      apply wp_bind. exists q, h. split; [exact Ey|]. apply wp_bind. exists p, h. split; [exact Ex|]. apply wp_bind. eapply wp_MoveAssign; [exact O|].
      intros h' O'. apply wp_ret. split; [reflexivity|]. apply (U h' (Some e) (Some (ENum (n_ofZ 0))) p q). cbn [point contents app embed]. owna O'.
  - (* EndOfScope *)
    unfold vbind, vend. destruct (get E x) as [v|] eqn:G; [|exact I]. cbn [vret]. apply simr_wp.
    destruct (holds_var _ _ _ _ _ Hh G) as (p & its & O & _ & Rd). apply wp_bind. eapply wp_get_var; [exact O|].
    assert (W : wp (delete (point p v)) (fun _ h' => owns h' (IVar (User x) (point p v) :: its ++ [])) h).
    { destruct v as [e|]; cbn [point contents app] in *.
      - front O (ITree None (Some p) (embed e)). eapply wp_delete; [exact O|]. auto.
      - apply wp_ret. exact O. }
    apply wp_bind. eapply wp_mono; [exact W|]. intros [] h1 O1. cbv beta. apply wp_bind. exists tt. eexists. split; [reflexivity|]. apply wp_ret. split; [reflexivity|].
    eapply holds_owns; [exact Rd|]. eapply own_var_remove. exact O1.
  - unfold vbind at 1. destruct (vthe_cases x E) as [(e & G & ->)|(w & ->)]; [|exact I]. apply (reading_sim (HVpa cfg) (Vpa cfg) x e h E Number); auto; intros; eapply HVpa_eq; eassumption.
  - unfold vbind at 1. destruct (vthe_cases x E) as [(e & G & ->)|(w & ->)]; [|exact I]. apply (reading_sim HToString ToString x e h E Text); auto; intros; eapply HToString_eq; eassumption.
  - unfold vbind at 1. destruct (vthe_cases x E) as [(e & G & ->)|(w & ->)]; [|exact I]. apply (reading_sim HGetAllVarNames GetAllVarNames x e h E Names); auto; intros; eapply HGetAllVarNames_eq; eassumption.
  - (* GetNumber *)
    unfold vbind at 1. destruct (vthe_cases x E) as [(e & G & ->)|(w & ->)]; [|exact I].
    set (num := fun t : node => match t with Nil => Undef "" | N NUMBER _ v _ _ _ => Ok v | _ => Throw (RuntimeError "ToMat error: node is not number") end).
    replace (match e with ENum v => Ok v | _ => Throw (RuntimeError "ToMat error: node is not number") end) with (num (embed e)) by (destruct e; reflexivity).
    apply (reading_sim HNumber num x e h E Number); auto. intros a t its h0 O. destruct (own_some _ _ _ _ _ O) as (ty & op & v & y & l & r & ->).
    destruct (own_open _ _ _ _ _ _ _ _ _ _ O) as (a' & pl & pr & [= <-] & O1). unfold HNumber, bindM, load. rewrite (own_lookup _ _ _ _ O1). cbn. destruct ty; reflexivity.
  - (* GetEqual *)
    unfold vbind at 1. destruct (vthe_cases x E) as [(e & Gx & ->)|(w & ->)]; [|exact I]. unfold vbind at 1. destruct (vthe_cases y E) as [(e' & Gy & ->)|(w & ->)]; [|exact I].
    destruct (String.eqb_spec x y) as [<-|Hne].
    + apply simr_wp. destruct (holds_var _ _ _ _ _ Hh Gx) as (p & its & O & U & _). cbn [point contents app] in O.
      apply wp_bind. exists p, h. split; [exact (the_ok _ _ _ _ O)|]. apply wp_bind. eapply wp_get_var; [exact O|]. cbv beta iota. apply wp_bind. exists true, h. split; [apply HEqual_self|]. apply wp_ret. auto.
    + destruct (holds_var2 _ _ _ _ _ _ _ Hh Hne Gx Gy) as (p & q & its & O & _). cbn [point contents app] in O. pose proof (the_ok _ _ _ _ O) as Ex.
      assert (O1 := O). front O1 (IVar (K:=K) (User y) (Some q)). pose proof (own_var_lookup _ _ _ _ O1) as Ly.
      front O (ITree None (Some q) (embed e')). pose proof O as Oq. front O (ITree None (Some p) (embed e)).
      assert (Hpq : p <> q) by (eapply own_trees_ne; exact O). pose proof (HEqual_eq _ _ _ _ _ _ _ _ _ O Oq Hpq) as Er.
      assert (Em : bindM (the x) (fun a => bindM (get_slot (uvar y)) (fun q => bindM (HEqual a q) (fun r => ret (Bool r)))) h = match Equal (embed e) (embed e') with Ok r => (Ok (Bool (K:=K) r), h) | Throw ex => (Throw ex, h) | Undef w => (Undef w, h) | Terminate => (Terminate, h) | AssertFail w => (AssertFail w, h) | OutOfFuel => (OutOfFuel, h) end).
      { unfold bindM. rewrite Ex. unfold uvar. cbn [get_slot]. rewrite Ly, Er. destruct (Equal (embed e) (embed e')); reflexivity. }
      unfold vbind, vfail. unfold simr, wp, dies. rewrite Em. destruct (Equal (embed e) (embed e')); cbn; auto.
      * eexists. exists h. split; [reflexivity|]. exists []. repeat split; auto.
      * eexists. exists h. auto.
      * eauto.
  - (* Check *)
    unfold vbind. destruct (vthe_cases x E) as [(e & G & ->)|(w & ->)]; [|exact I]. cbn [vret]. apply simr_wp.
    destruct (holds_var _ _ _ _ _ Hh G) as (p & its & O & _). cbn [point contents app] in O. apply wp_bind. exists p, h. split; [exact (the_ok _ _ _ _ O)|].
    front O (ITree None (Some p) (embed e)). apply wp_bind. exists tt, h. split; [eapply wp_CheckParent; [exact O|apply well_formed_embed]|]. apply wp_ret. auto.
  - (* Configure *)
    now apply simr_done.
Qed.

Theorem run_sim p : forall cfg h E, holds h E [] ->
  match vrun cfg p E with
  | (evs, (Ok _, E')) => exists h', run pick cfg p h = (evs, (Ok tt, h')) /\ holds h' E' []
  | (evs, (Terminate, _)) => exists h', run pick cfg p h = (evs, (Terminate, h'))
  | (evs, _) => exists evs' r, run pick cfg p h = (evs ++ evs', r)
  end.
Proof.
  induction p as [|s p IH]; intros cfg h E Hh; cbn [run vrun].
  - eauto.
  - pose proof (step_sim cfg s h E Hh) as Ss. unfold simr in Ss. destruct (vstep cfg s E) as [[ev|e|w| |w|] E1].
    + destruct Ss as (a & h1 & Em & J & (-> & ->) & _ & Hh1). rewrite Em. specialize (IH (next_config cfg s) h1 E1 Hh1).
      destruct (vrun (next_config cfg s) p E1) as [evs [[[]|e|w| |w|] E2]].
      * destruct IH as (h2 & -> & IH). now exists h2.
      * destruct IH as (evs' & r & ->). now exists evs', r.
      * destruct IH as (evs' & r & ->). now exists evs', r.
      * destruct IH as (h2 & ->). now exists h2.
      * destruct IH as (evs' & r & ->). now exists evs', r.
      * destruct IH as (evs' & r & ->). now exists evs', r.
    + destruct Ss as (e' & h1 & Em & Hk & Hh1). rewrite Em, Hk. specialize (IH (next_config cfg s) h1 E1 Hh1).
      destruct (vrun (next_config cfg s) p E1) as [evs [[[]|e0|w| |w|] E2]].
      * destruct IH as (h2 & -> & IH). now exists h2.
      * destruct IH as (evs' & r & ->). now exists evs', r.
      * destruct IH as (evs' & r & ->). now exists evs', r.
      * destruct IH as (h2 & ->). now exists h2.
      * destruct IH as (evs' & r & ->). now exists evs', r.
      * destruct IH as (evs' & r & ->). now exists evs', r.
    + cbn [app]. match goal with |- context [?t = (_, _)] => destruct t as [evs' r] end. now exists evs', r.
    + destruct Ss as (h1 & ->). eauto.
    + cbn [app]. match goal with |- context [?t = (_, _)] => destruct t as [evs' r] end. now exists evs', r.
    + cbn [app]. match goal with |- context [?t = (_, _)] => destruct t as [evs' r] end. now exists evs', r.
Qed.
Lemma holds_empty : holds [] [] [].
Proof. exists []. split; [exists []; split; constructor|]. exists []. repeat split; constructor. Qed.
End Api.
