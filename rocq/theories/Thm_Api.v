(** C06, C08, C44: programs over Node variables, on the heap, for every allocator and every
    finite history.

    The meaning of a program is given by [vrun] (ApiSpec.v), where variables hold values; [run]
    (ApiModel.v) executes it on objects with pointers.  [proper], [tree_of] and [uses] are
    defined in MemSpec.v. *)
From Coq Require Import String List ZArith Bool Permutation Lia Arith.
From Verif Require Import Base MathOp NodeModel ExprSpec HeapModel HeapSpec HeapProofs ApiModel ApiSpec ApiProofs MemSpec MemProofs IEEE SimplifyModel DiffModel NodeProofs Thm_Node Thm_Text.
Import ListNotations.
Local Open Scope string_scope. Local Open Scope list_scope. Local Open Scope nat_scope.

(** ** Auxiliary facts on the meaning of programs *)
Section Values.
Context {K : num_ops}.
Notation env := (env K).

Definition keeps {A} (x : string) (m : V (K:=K) A) : Prop := forall E, get (snd (m E)) x = get E x.
Lemma keeps_ret {A} x (a : A) : keeps x (vret a). Proof. now intros E. Qed.
Lemma keeps_fail {A} x (r : res A) : keeps x (vfail r). Proof. now intros E. Qed.
Lemma keeps_bind {A B} x (m : V A) (f : A -> V B) : keeps x m -> (forall a, keeps x (f a)) -> keeps x (vbind m f).
Proof.
  intros Hm Hf E. unfold vbind. specialize (Hm E). destruct (m E) as [[a|e|w| |w|] E']; cbn [snd] in *; auto. rewrite (Hf a E'). exact Hm.
Qed.
Lemma keeps_get x y : keeps x (vget y).
Proof. intros E. unfold vget. now destruct (get E y). Qed.
Lemma keeps_set x y v : x <> y -> keeps x (vset y v).
Proof.
  intros Hne E. unfold vset. destruct (get E y) as [w|] eqn:G; [|reflexivity]. cbn [snd]. rewrite (get_set _ _ _ _ x G).
  now destruct (String.eqb_spec x y).
Qed.
Lemma keeps_nonempty x v : keeps x (nonempty v).
Proof. destruct v; [apply keeps_ret|apply keeps_fail]. Qed.
Definition varg_uses (o : varg (K:=K)) : list string := match o with VCopy x | VMove x => [x] | VTemp _ => [] end.
Lemma keeps_peek x o : keeps x (vpeek o).
Proof. destruct o; cbn [vpeek]; try (apply keeps_bind; [apply keeps_get|intros; apply keeps_nonempty]). apply keeps_nonempty. Qed.
Lemma keeps_take x o : ~ In x (varg_uses o) -> keeps x (vtake o).
Proof.
  destruct o as [y|y|v]; cbn [vtake varg_uses In]; intros Hn; try apply keeps_peek.
  apply keeps_bind; [apply keeps_get|]. intros v. apply keeps_bind; [apply keeps_nonempty|]. intros e.
  apply keeps_bind; [apply keeps_set; intros ->; auto|intros; apply keeps_ret].
Qed.
Lemma keeps_dict x es : keeps x (vdict (K:=K) es).
Proof.
  induction es as [|[y [o|v]] es IH]; cbn [vdict ventry_value]; [apply keeps_ret| |].
  - apply keeps_bind; [apply keeps_peek|]. intros t. apply keeps_bind; [exact IH|intros; apply keeps_ret].
  - apply keeps_bind; [apply keeps_ret|]. intros t. apply keeps_bind; [exact IH|intros; apply keeps_ret].
Qed.
Lemma keeps_bind' {A B} x (m : V A) (f : A -> V B) (P : A -> Prop) : keeps x m -> (forall E a E', m E = (Ok a, E') -> P a) -> (forall a, P a -> keeps x (f a)) -> keeps x (vbind m f).
Proof.
  intros Hm HP Hf E. unfold vbind. specialize (Hm E). specialize (HP E). destruct (m E) as [[a|e|w| |w|] E']; cbn [snd] in *; auto. rewrite (Hf a (HP _ _ eq_refl) E'). exact Hm.
Qed.

Lemma arg_uses cfg (a : arg K) E o E' : veval_arg cfg a E = (Ok o, E') -> forall x, ~ In x (uses_arg a) -> ~ In x (varg_uses o).
Proof.
  destruct a as [y|y|e]; [intros [= <- _]; auto|intros [= <- _]; auto|]. change (veval_arg cfg (Prvalue e)) with (vbind (veval cfg e) (fun v => vret (VTemp v))). unfold vbind, vret.
  destruct (veval cfg e E) as [[v|?|?| |?|] E1]; try discriminate. intros [= <- _] x _ [].
Qed.
Definition entry_uses (v : ventry (K:=K)) := match v with VNode o => varg_uses o | VNumber _ => [] end.

Lemma keeps_eval cfg x :
  (forall e : nexp K, ~ In x (uses_exp e) -> keeps x (veval cfg e)) /\
  (forall a : arg K, ~ In x (uses_arg a) -> keeps x (veval_arg cfg a)) /\
  (forall d : dict K, ~ In x (uses_dict d) -> keeps x (veval_dict cfg d)).
Proof.
  apply nexp_arg_dict_ind; cbn [uses_exp uses_arg uses_dict veval veval_arg veval_dict].
  - intros; apply keeps_ret.
  - intros s _. destruct (VarNameIsLegal s); [apply keeps_ret|apply keeps_fail].
  - intros; apply keeps_bind; [apply keeps_fail|intros; apply keeps_ret].
  - intros y Hn. apply keeps_bind; [apply keeps_get|]. intros v. apply keeps_bind; [apply keeps_set; intros ->; apply Hn; now left|intros; apply keeps_ret].
  - intros a IH Hn. apply keeps_bind; [auto|]. intros o. apply keeps_bind; [apply keeps_peek|intros; apply keeps_ret].
  - intros u a IH Hn. eapply keeps_bind'; [auto|intros E o E' Eo; exact (arg_uses _ _ _ _ _ Eo x Hn)|]. intros o Ho.
    apply keeps_bind; [now apply keeps_take|intros; apply keeps_ret].
  - intros lf b a1 IH1 a2 IH2 Hn. rewrite in_app_iff in Hn.
    eapply (keeps_bind' x _ _ (fun oo => ~ In x (varg_uses (fst oo)) /\ ~ In x (varg_uses (snd oo)))).
    + destruct lf; (apply keeps_bind; [auto|]; intros o; apply keeps_bind; [auto|intros; apply keeps_ret]).
    + intros E [o1 o2] E' Eo. cbn [fst snd]. destruct lf.
      * change (vbind (veval_arg cfg a1) (fun o1 => vbind (veval_arg cfg a2) (fun o2 => vret (o1, o2))) E = (Ok (o1, o2), E')) in Eo. unfold vbind, vret in Eo. destruct (veval_arg cfg a1 E) as [[v1|?|?| |?|] E1] eqn:H1; try discriminate Eo. destruct (veval_arg cfg a2 E1) as [[v2|?|?| |?|] E2] eqn:H2; try discriminate Eo.
        injection Eo as <- <- _. split; eapply arg_uses; eauto.
      * change (vbind (veval_arg cfg a2) (fun o2 => vbind (veval_arg cfg a1) (fun o1 => vret (o1, o2))) E = (Ok (o1, o2), E')) in Eo. unfold vbind, vret in Eo. destruct (veval_arg cfg a2 E) as [[v1|?|?| |?|] E1] eqn:H1; try discriminate Eo. destruct (veval_arg cfg a1 E1) as [[v2|?|?| |?|] E2] eqn:H2; try discriminate Eo.
        injection Eo as <- <- _. split; eapply arg_uses; eauto.
    + intros [o1 o2] [H1 H2]. cbn [fst snd] in *. apply keeps_bind; [now apply keeps_take|]. intros e1. apply keeps_bind; [now apply keeps_take|intros; apply keeps_ret].
  - intros a IHa d IHd Hn. rewrite in_app_iff in Hn. apply keeps_bind; [auto|]. intros es.
    eapply keeps_bind'; [auto|intros E o E' Eo; refine (arg_uses _ _ _ _ _ Eo x _); auto|]. intros o Ho.
    apply keeps_bind; [apply keeps_dict|]. intros dd. apply keeps_bind; [now apply keeps_take|intros; apply keeps_ret].
  - intros a IHa y i Hn. eapply keeps_bind'; [auto|intros E o E' Eo; exact (arg_uses _ _ _ _ _ Eo x Hn)|]. intros o Ho.
    apply keeps_bind; [now apply keeps_take|]. intros e. apply keeps_bind; [apply keeps_fail|intros; apply keeps_ret].
  - intros y _. apply keeps_ret.
  - intros y _. apply keeps_ret.
  - intros e IH Hn. apply keeps_bind; [auto|intros; apply keeps_ret].
  - intros _. apply keeps_ret.
  - intros y a IHa d IHd Hn. rewrite in_app_iff in Hn. apply keeps_bind; [auto|]. intros o. apply keeps_bind; [auto|intros; apply keeps_ret].
  - intros y v d IHd Hn. apply keeps_bind; [auto|intros; apply keeps_ret].
Qed.

Lemma get_drop (E : env) x y : x <> y -> get (drop_var E y) x = get E x.
Proof.
  intros Hne. induction E as [|[z v] E IH]; cbn [get drop_var]; [reflexivity|].
  destruct (String.eqb_spec y z) as [->|Hy]; cbn [get]; destruct (String.eqb_spec x z); congruence.
Qed.
Lemma keeps_step cfg x s : ~ In x (uses s) -> keeps x (vstep (K:=K) cfg s).
Proof.
  destruct (keeps_eval cfg x) as (Ke & Ka & _).
  assert (Kt : forall y, keeps x (vthe y)) by (intros y; apply keeps_bind; [apply keeps_get|intros; apply keeps_nonempty]).
  assert (Kd : forall y v, x <> y -> keeps x (vdeclare y v)).
  { intros y v Hne E. unfold vdeclare. destruct (get E y); [reflexivity|]. cbn [snd get]. now destruct (String.eqb_spec x y). }
  destruct s as [y e|y|y e|b y a|y|y|y z|y z|y|y|y|y|y|y z|y|c]; cbn [uses In vstep]; intros Hn;
    try (assert (Hne : x <> y) by (intros ->; auto)); try (assert (Hne2 : x <> z) by (intros ->; auto)).
  - apply keeps_bind; [auto|]. intros v. apply keeps_bind; [now apply Kd|intros; apply keeps_ret].
  - apply keeps_bind; [now apply Kd|intros; apply keeps_ret].
  - apply keeps_bind; [auto|]. intros v. apply keeps_bind; [now apply keeps_set|intros; apply keeps_ret].
  - eapply keeps_bind'; [auto|intros E o E' Eo; refine (arg_uses _ _ _ _ _ Eo x _); auto|]. intros o Ho.
    apply keeps_bind; [apply keeps_take; cbn; intros [->|[]]; auto|]. intros e1. apply keeps_bind; [now apply keeps_take|]. intros e2. apply keeps_bind; [now apply keeps_set|intros; apply keeps_ret].
  - apply keeps_bind; [apply Kt|]. intros e. apply keeps_bind; [apply keeps_fail|]. intros e'. apply keeps_bind; [now apply keeps_set|intros; apply keeps_ret].
  - apply keeps_bind; [apply Kt|]. intros e. apply keeps_bind; [apply keeps_fail|]. intros e'. apply keeps_bind; [now apply keeps_set|intros; apply keeps_ret].
  - apply keeps_bind; [apply Kt|]. intros e. apply keeps_bind; [apply Kt|]. intros e'. apply keeps_bind; [now apply keeps_set|intros; apply keeps_ret].
  - apply keeps_bind; [apply Kt|]. intros e. apply keeps_bind; [apply Kt|]. intros e'. apply keeps_bind; [now apply keeps_set|]. intros _. apply keeps_bind; [now apply keeps_set|intros; apply keeps_ret].
  - apply keeps_bind; [|intros; apply keeps_ret]. intros E. unfold vend. destruct (get E y); [|reflexivity]. now apply get_drop.
  - apply keeps_bind; [apply Kt|]. intros e. apply keeps_bind; [apply keeps_fail|intros; apply keeps_ret].
  - apply keeps_bind; [apply Kt|]. intros e. apply keeps_bind; [apply keeps_fail|intros; apply keeps_ret].
  - apply keeps_bind; [apply Kt|]. intros e. apply keeps_bind; [apply keeps_fail|intros; apply keeps_ret].
  - apply keeps_bind; [apply Kt|]. intros e. apply keeps_bind; [apply keeps_fail|intros; apply keeps_ret].
  - apply keeps_bind; [apply Kt|]. intros e. apply keeps_bind; [apply Kt|]. intros e'. destruct (String.eqb y z); [apply keeps_ret|]. apply keeps_bind; [apply keeps_fail|intros; apply keeps_ret].
  - apply keeps_bind; [apply Kt|intros; apply keeps_ret].
  - apply keeps_ret.
Qed.
Lemma keeps_run x p : (forall s, In s p -> ~ In x (uses s)) -> forall cfg (E : env), get (snd (snd (vrun cfg p E))) x = get E x.
Proof.
  induction p as [|s p IH]; intros Hn cfg E; cbn [vrun]; [reflexivity|].
  assert (IH' : forall cfg E, get (snd (snd (vrun cfg p E))) x = get E x) by (apply IH; intros s' Hs; apply Hn; now right).
  pose proof (keeps_step cfg x s (Hn s (or_introl eq_refl)) E) as Ks. destruct (vstep cfg s E) as [[ev|e|w| |w|] E1]; cbn [snd] in *; auto;
    specialize (IH' (next_config cfg s) E1); destruct (vrun (next_config cfg s) p E1) as [evs r]; cbn [snd] in *; congruence.
Qed.

(** Running one program after another. *)
Definition last_config (cfg : config K) (p : list (stmt K)) : config K := fold_left next_config p cfg.
Lemma vrun_app p q : forall cfg (E : env) evs E1, vrun cfg p E = (evs, (Ok tt, E1)) ->
  vrun cfg (p ++ q) E = let '(evs', r) := vrun (last_config cfg p) q E1 in (evs ++ evs', r).
Proof.
  induction p as [|s p IH]; intros cfg E evs E1; cbn [vrun app last_config fold_left].
  - intros [= <- <-]. now destruct (vrun cfg q E).
  - destruct (vstep cfg s E) as [[ev|e|w| |w|] E']; try discriminate.
    + destruct (vrun (next_config cfg s) p E') as [evs0 r] eqn:Er. intros [= <- ->]. rewrite (IH _ _ _ _ Er).
      unfold last_config. destruct (vrun (fold_left next_config p (next_config cfg s)) q E1). reflexivity.
    + destruct (vrun (next_config cfg s) p E') as [evs0 r] eqn:Er. intros [= <- ->]. rewrite (IH _ _ _ _ Er).
      unfold last_config. destruct (vrun (fold_left next_config p (next_config cfg s)) q E1). reflexivity.
Qed.
Lemma run_app pick p q : forall cfg (h : heap K) evs h1, run pick cfg p h = (evs, (Ok tt, h1)) ->
  run pick cfg (p ++ q) h = let '(evs', r) := run pick (last_config cfg p) q h1 in (evs ++ evs', r).
Proof.
  induction p as [|s p IH]; intros cfg h evs h1; cbn [run app last_config fold_left].
  - intros [= <- <-]. now destruct (run pick cfg q h).
  - destruct (step pick cfg s h) as [[ev|e|w| |w|] h']; try discriminate.
    + destruct (run pick (next_config cfg s) p h') as [evs0 r] eqn:Er. intros [= <- ->]. rewrite (IH _ _ _ _ Er).
      unfold last_config. destruct (run pick (fold_left next_config p (next_config cfg s)) q h1). reflexivity.
    + destruct (run pick (next_config cfg s) p h') as [evs0 r] eqn:Er. intros [= <- ->]. rewrite (IH _ _ _ _ Er).
      unfold last_config. destruct (run pick (fold_left next_config p (next_config cfg s)) q h1). reflexivity.
Qed.

(** The tree a value stands for: null for an empty Node. *)
Definition value_tree (v : option (expr K)) : node K := match v with Some e => embed e | None => Nil end.
End Values.

(** ** C44 *)
Section C44.
Variables (K : num_ops) (pick : heap K -> addr).
Hypothesis Hpick : allocator pick.

(** After any history: the program has seen what its meaning says, every variable holds the
    tree of its value, memory is proper (nothing dangling, shared, doubly owned or leaked,
    parents right), CheckParent passes, and the number of objects is exactly one per variable
    and one per node of their values. *)
Theorem C44_every_history cfg p evs E : vrun cfg p [] = (evs, (Ok tt, E)) ->
  exists h, run pick cfg p [] = (evs, (Ok tt, h)) /\
    proper h /\
    (forall x, tree_of h x = option_map (fun v => Some (value_tree v)) (get E x)) /\
    (forall x e, get E x = Some (Some e) -> exists a, lookup h (KVar (User x)) = Some (OPtr (Some a)) /\ CheckParent a h = (Ok tt, h)) /\
    length h = length E + fold_right (fun v n => match snd v with Some e => esize e | None => 0 end + n) 0 E.
Proof.
  intros Hv. pose proof (run_sim pick Hpick p cfg [] [] holds_empty) as S. rewrite Hv in S. destruct S as (h & Er & Hh). exists h.
  split; [exact Er|]. split; [eapply holds_proper; exact Hh|]. split; [intros x; now apply holds_tree_of|].
  split; [intros x e; now apply holds_check|]. now apply holds_size.
Qed.
(** If a noexcept function would throw, the program ends there. *)
Theorem C44_terminates cfg p evs E : vrun cfg p [] = (evs, (Terminate, E)) ->
  exists h, run pick cfg p [] = (evs, (Terminate, h)).
Proof. intros Hv. pose proof (run_sim pick Hpick p cfg [] [] holds_empty) as S. now rewrite Hv in S. Qed.
(** A program without meaning behaves well up to the statement that has none. *)
Theorem C44_until_undefined cfg p evs w E : vrun cfg p [] = (evs, (Undef w, E)) ->
  exists evs' r, run pick cfg p [] = (evs ++ evs', r).
Proof. intros Hv. pose proof (run_sim pick Hpick p cfg [] [] holds_empty) as S. now rewrite Hv in S. Qed.

(** When all variables have gone out of scope, memory is empty. *)
Theorem C44_all_freed cfg p evs : vrun cfg p [] = (evs, (Ok tt, [])) -> run pick cfg p [] = (evs, (Ok tt, [])).
Proof.
  intros Hv. destruct (C44_every_history _ _ _ _ Hv) as (h & Er & _ & _ & _ & Hl). destruct h; [exact Er|discriminate].
Qed.
End C44.

(** These are the only ways a program can end. *)
Section Ends.
Context {K : num_ops}.
Definition fine {A} (r : res A) : Prop := match r with OutOfFuel => False | _ => True end.
Definition okV {A} (m : V (K:=K) A) : Prop := forall E, fine (fst (m E)).
Lemma ok_bind {A B} (m : V A) (f : A -> V B) : okV m -> (forall a, okV (f a)) -> okV (vbind m f).
Proof. intros Hm Hf E. unfold vbind. specialize (Hm E). destruct (m E) as [[a|e|w| |w|] E']; cbn [fst fine] in *; auto. apply Hf. Qed.
Lemma ok_ret {A} (a : A) : okV (vret a). Proof. now intros E. Qed.
Lemma ok_get y : okV (vget y). Proof. intros E. unfold vget. now destruct (get E y). Qed.
Lemma ok_set y v : okV (vset y v). Proof. intros E. unfold vset. now destruct (get E y). Qed.
Lemma ok_fail {A} (r : res A) : fine r -> okV (vfail r). Proof. intros Hr E. exact Hr. Qed.
Lemma ok_nonempty v : okV (nonempty v). Proof. destruct v; now intros E. Qed.
Lemma ok_the y : okV (vthe y). Proof. apply ok_bind; [apply ok_get|intros; apply ok_nonempty]. Qed.
Lemma ok_take o : okV (vtake o).
Proof. intros E. pose proof (vtake_cases o E) as C. destruct (vtake o E) as [[] ?]; cbn; auto. Qed.
Lemma ok_peek o : okV (vpeek o).
Proof. intros E. destruct (vpeek_cases o E) as [(e & ->)|(w & ->)]; exact Logic.I. Qed.
Lemma ok_dict es : okV (vdict es).
Proof. intros E. destruct (vdict_cases es E) as [(e & ->)|(w & ->)]; exact Logic.I. Qed.
Lemma ok_expression (r : res (node K)) : fine r -> fine (expression r).
Proof. destruct r; cbn; auto. now destruct (expression_of a). Qed.
Lemma ok_eval cfg :
  (forall e : nexp K, okV (veval cfg e)) /\ (forall a : arg K, okV (veval_arg cfg a)) /\ (forall d : dict K, okV (veval_dict cfg d)).
Proof.
  apply nexp_arg_dict_ind; cbn [veval veval_arg veval_dict].
  - intros; apply ok_ret.
  - intros s. destruct (VarNameIsLegal s); [apply ok_ret|now apply ok_fail].
  - intros s; apply ok_bind; [|intros; apply ok_ret]. apply ok_fail, ok_expression. pose proof (Parse_reaction (K:=K) s) as C. destruct (ParseModel.Parse s); cbn; auto.
  - intros y. apply ok_bind; [apply ok_get|]. intros v. apply ok_bind; [apply ok_set|intros; apply ok_ret].
  - intros a IH. apply ok_bind; [auto|]. intros o. apply ok_bind; [apply ok_peek|intros; apply ok_ret].
  - intros u a IH. apply ok_bind; [auto|]. intros o. apply ok_bind; [apply ok_take|intros; apply ok_ret].
  - intros lf b a1 IH1 a2 IH2. apply ok_bind.
    + destruct lf; (apply ok_bind; [auto|]; intros o; apply ok_bind; [auto|intros; apply ok_ret]).
    + intros oo. apply ok_bind; [apply ok_take|]. intros e1. apply ok_bind; [apply ok_take|intros; apply ok_ret].
  - intros a IHa d IHd. apply ok_bind; [auto|]. intros es. apply ok_bind; [auto|]. intros o.
    apply ok_bind; [apply ok_dict|]. intros dd. apply ok_bind; [apply ok_take|intros; apply ok_ret].
  - intros a IHa y i. apply ok_bind; [auto|]. intros o. apply ok_bind; [apply ok_take|]. intros e. apply ok_bind; [|intros; apply ok_ret].
    apply ok_fail, ok_expression. pose proof (Diff_cases cfg e y i) as C. destruct (Diff cfg (embed e) y i); cbn; auto.
  - intros; apply ok_ret.
  - intros; apply ok_ret.
  - intros e IH. apply ok_bind; [auto|intros; apply ok_ret].
  - apply ok_ret.
  - intros y a IHa d IHd. apply ok_bind; [auto|]. intros o. apply ok_bind; [auto|intros; apply ok_ret].
  - intros y v d IHd. apply ok_bind; [auto|intros; apply ok_ret].
Qed.
Lemma ok_step cfg s : okV (vstep (K:=K) cfg s).
Proof.
  destruct (ok_eval cfg) as (Ke & Ka & _).
  assert (Kd : forall y v, okV (vdeclare y v)) by (intros y v E; unfold vdeclare; now destruct (get E y)).
  assert (Kv : forall e : expr K, fine (Vpa cfg (embed e))).
  { intros e. pose proof (Vpa_reports cfg e) as Rp. destruct (eval (throwOnInvalidValue cfg) e); cbn in Rp; [now rewrite Rp| | |]; destruct Rp as (w & ->); exact Logic.I. }
  destruct s as [y e|y|y e|b y a|y|y|y z|y z|y|y|y|y|y|y z|y|c]; cbn [vstep].
  - apply ok_bind; [auto|]. intros v. apply ok_bind; [apply Kd|intros; apply ok_ret].
  - apply ok_bind; [apply Kd|intros; apply ok_ret].
  - apply ok_bind; [auto|]. intros v. apply ok_bind; [apply ok_set|intros; apply ok_ret].
  - apply ok_bind; [auto|]. intros o. apply ok_bind; [apply (ok_take (VMove y))|]. intros e1. apply ok_bind; [apply ok_take|]. intros e2. apply ok_bind; [apply ok_set|intros; apply ok_ret].
  - apply ok_bind; [apply ok_the|]. intros e. apply ok_bind.
    + apply ok_fail, ok_expression. pose proof (Simplify_cases cfg e) as C. destruct (Simplify cfg (embed e)); cbn; auto.
    + intros e'. apply ok_bind; [apply ok_set|intros; apply ok_ret].
  - apply ok_bind; [apply ok_the|]. intros e. apply ok_bind; [apply ok_fail, Kv|]. intros e'. apply ok_bind; [apply ok_set|intros; apply ok_ret].
  - apply ok_bind; [apply ok_the|]. intros e. apply ok_bind; [apply ok_the|]. intros e'. apply ok_bind; [apply ok_set|intros; apply ok_ret].
  - apply ok_bind; [apply ok_the|]. intros e. apply ok_bind; [apply ok_the|]. intros e'. apply ok_bind; [apply ok_set|]. intros _. apply ok_bind; [apply ok_set|intros; apply ok_ret].
  - apply ok_bind; [|intros; apply ok_ret]. intros E. unfold vend. now destruct (get E y).
  - apply ok_bind; [apply ok_the|]. intros e. apply ok_bind; [apply ok_fail, Kv|intros; apply ok_ret].
  - apply ok_bind; [apply ok_the|]. intros e. apply ok_bind; [|intros; apply ok_ret]. apply ok_fail. now rewrite C15_to_string.
  - apply ok_bind; [apply ok_the|]. intros e. apply ok_bind; [|intros; apply ok_ret]. apply ok_fail. destruct (C07_all_var_names K e) as (l & -> & _). exact Logic.I.
  - apply ok_bind; [apply ok_the|]. intros e. apply ok_bind; [|intros; apply ok_ret]. apply ok_fail. now destruct e.
  - apply ok_bind; [apply ok_the|]. intros e. apply ok_bind; [apply ok_the|]. intros e'. destruct (String.eqb y z); [apply ok_ret|]. apply ok_bind; [|intros; apply ok_ret]. apply ok_fail. rewrite Equal_node_eqb by apply embed_not_nil. exact Logic.I.
  - apply ok_bind; [apply ok_the|intros; apply ok_ret].
  - apply ok_ret.
Qed.
End Ends.
(** Every program ends: normally, by std::terminate, by an assertion (Diff with an order below 1)
    or at a statement without meaning.  No exception leaves it (they are events). *)
Theorem C44_ends (K : num_ops) cfg p (E : env K) : match fst (snd (vrun cfg p E)) with Throw _ | OutOfFuel => False | _ => True end.
Proof.
  revert cfg E. induction p as [|s p IH]; intros cfg E; cbn [vrun]; [exact Logic.I|].
  pose proof (ok_step cfg s E) as O. destruct (vstep cfg s E) as [[ev|e|w| |w|] E1]; cbn [fst snd fine] in *; auto;
    specialize (IH (next_config cfg s) E1); destruct (vrun (next_config cfg s) p E1) as [evs [[] ?]]; cbn [fst snd] in *; auto.
Qed.

(** ** C06 *)
Section C06.
Variables (K : num_ops) (pick : heap K -> addr).
Hypothesis Hpick : allocator pick.

(** On the heap, next to whatever else is in memory ([its]): Clone builds a second tree with the
    same contents out of new objects; the first tree and everything else stay. *)
Theorem C06_clone_fresh h par a t its : owns h (ITree par (Some a) t :: its) ->
  exists b h', Clone pick (Some a) h = (Ok b, h') /\ owns h' (ITree None (Some b) t :: ITree par (Some a) t :: its).
Proof.
  intros O. assert (W : wp (Clone pick (Some a)) (fun b h' => owns h' (ITree None (Some b) t :: ITree par (Some a) t :: its)) h).
  { eapply wp_Clone; [exact Hpick|exact O| |auto]. destruct (own_some _ _ _ _ _ O) as (ty & op & v & x & l & r & ->). discriminate. }
  exact W.
Qed.

(** [y = Clone(x); q]: if q does not mention y, then y holds the value x had, whatever q does
    with x; if q does not mention x, then x keeps it, whatever q does with y. *)
Theorem C06_clone_independent cfg p evs E x y e q evs' E' :
  vrun cfg p [] = (evs, (Ok tt, E)) -> get E x = Some (Some e) ->
  vrun cfg (p ++ Assign y (XClone (Lvalue x)) :: q) [] = (evs', (Ok tt, E')) ->
  exists h, run pick cfg (p ++ Assign y (XClone (Lvalue x)) :: q) [] = (evs', (Ok tt, h)) /\
    ((forall s, In s q -> ~ In y (uses s)) -> tree_of h y = Some (Some (embed e))) /\
    (x <> y -> (forall s, In s q -> ~ In x (uses s)) -> tree_of h x = Some (Some (embed e))).
Proof.
  intros Hp G Hq. destruct (C44_every_history K pick Hpick _ _ _ _ Hq) as (h & Er & _ & Ht & _). exists h. split; [exact Er|].
  rewrite (vrun_app _ _ _ _ _ _ Hp) in Hq. cbn [vrun vstep veval veval_arg] in Hq.
  unfold vbind at 1 2 3, vret at 1, vpeek, vbind at 1, vget at 1 in Hq. rewrite G in Hq. cbn [nonempty vret] in Hq. unfold vbind, vset in Hq.
  destruct (get E y) as [w|] eqn:Gy.
  - cbn [vret] in Hq. destruct (vrun _ q (set E y (Some e))) as [evs2 r] eqn:Ev. injection Hq as _ ->. split.
    + intros Hn. rewrite Ht. pose proof (keeps_run y q Hn (next_config (last_config cfg p) (Assign y (XClone (Lvalue x)))) (set E y (Some e))) as Kp.
      rewrite Ev in Kp. cbn [snd] in Kp. rewrite Kp, (get_set _ _ _ _ y Gy), String.eqb_refl. reflexivity.
    + intros Hne Hn. rewrite Ht. pose proof (keeps_run x q Hn (next_config (last_config cfg p) (Assign y (XClone (Lvalue x)))) (set E y (Some e))) as Kp.
      rewrite Ev in Kp. cbn [snd] in Kp. rewrite Kp, (get_set _ _ _ _ x Gy). destruct (String.eqb_spec x y); [congruence|]. now rewrite G.
  - discriminate Hq.
Qed.
End C06.

(** ** C08 *)
(** How an operand is passed: [x] or [std::move(x)]. *)
Inductive mode := ByCopy | ByMove.
Definition passed {K : num_ops} (m : mode) (x : string) : arg K := match m with ByCopy => Lvalue x | ByMove => Rvalue x end.
(** Was the variable [w] moved from? *)
Definition moved (m : mode) (x w : string) : bool := match m with ByCopy => false | ByMove => String.eqb w x end.

Section C08.
Variables (K : num_ops) (pick : heap K -> addr).
Hypothesis Hpick : allocator pick.
Notation trees E w := (option_map (fun v => Some (value_tree v)) (get E w)).

Definition after (m : mode) (x : string) (E : env K) : env K := match m with ByCopy => E | ByMove => set E x None end.
Lemma get_after m x E v w : get E x = Some v -> get (after m x E) w = if moved m x w then Some None else get E w.
Proof. intros G. destruct m; cbn; [reflexivity|]. now rewrite (get_set _ _ _ _ w G). Qed.
Lemma vtake_passed cfg m x (E : env K) e : get E x = Some (Some e) ->
  exists o, (forall E, veval_arg cfg (passed m x) E = (Ok o, E)) /\ vtake o E = (Ok e, after m x E).
Proof.
  intros G. destruct m; cbn [passed].
  - exists (VCopy x). split; [reflexivity|]. cbn. unfold vbind, vget. now rewrite G.
  - exists (VMove x). split; [reflexivity|]. cbn. unfold vbind, vget, nonempty, vret, vset. rewrite G. cbn [after]. rewrite G. reflexivity.
Qed.

(** [z = x op y;] after any history, for every operator and every way of passing the operands
    (except that y may not be x when x was moved first). *)
Theorem C08_binary cfg p evs (E : env K) leftFirst b m1 m2 x y z e1 e2 :
  vrun cfg p [] = (evs, (Ok tt, E)) ->
  get E x = Some (Some e1) -> get E y = Some (Some e2) -> get E z <> None ->
  (m1 = ByMove -> x <> y) ->
  exists h, run pick cfg (p ++ [Assign z (XBin leftFirst b (passed m1 x) (passed m2 y))]) [] = (evs ++ [Done], (Ok tt, h)) /\
    tree_of h z = Some (Some (embed (EBin b e1 e2))) /\
    forall w, w <> z -> tree_of h w = if moved m1 x w || moved m2 y w then Some (Some Nil) else trees E w.
Proof.
  intros Hp Gx Gy Gz Hxy.
  destruct (vtake_passed (last_config cfg p) m1 x E e1 Gx) as (o1 & A1 & T1).
  assert (Gy' : get (after m1 x E) y = Some (Some e2)).
  { rewrite (get_after _ _ _ _ y Gx). destruct m1; cbn [moved]; [exact Gy|]. destruct (String.eqb_spec y x) as [->|_]; [now destruct (Hxy eq_refl)|exact Gy]. }
  destruct (vtake_passed (last_config cfg p) m2 y (after m1 x E) e2 Gy') as (o2 & A2 & T2).
  set (E2 := after m2 y (after m1 x E)) in *.
  assert (G2 : forall w, get E2 w = if moved m1 x w || moved m2 y w then Some None else get E w).
  { intros w. unfold E2. rewrite (get_after _ _ _ _ w Gy'), (get_after _ _ _ _ w Gx). destruct (moved m2 y w), (moved m1 x w); reflexivity. }
  destruct (get E2 z) as [v|] eqn:Gz2; [|exfalso; rewrite G2 in Gz2; destruct (moved m1 x z || moved m2 y z); congruence].
  assert (Hv : vrun cfg (p ++ [Assign z (XBin leftFirst b (passed m1 x) (passed m2 y))]) [] = (evs ++ [Done], (Ok tt, set E2 z (Some (EBin b e1 e2))))).
  { rewrite (vrun_app _ _ _ _ _ _ Hp). cbn [vrun vstep].
    assert (Ev : veval (last_config cfg p) (XBin leftFirst b (passed m1 x) (passed m2 y)) E = (Ok (Some (EBin b e1 e2)), E2)).
    { change (veval (last_config cfg p) (XBin leftFirst b (passed m1 x) (passed m2 y))) with
        (vbind (if leftFirst : bool
             then vbind (veval_arg (last_config cfg p) (passed m1 x)) (fun o1 => vbind (veval_arg (last_config cfg p) (passed m2 y)) (fun o2 => vret (o1, o2)))
             else vbind (veval_arg (last_config cfg p) (passed m2 y)) (fun o2 => vbind (veval_arg (last_config cfg p) (passed m1 x)) (fun o1 => vret (o1, o2)))) (fun oo =>
         vbind (vtake (fst oo)) (fun e1 => vbind (vtake (snd oo)) (fun e2 => vret (Some (EBin b e1 e2)))))).
      unfold vbind, vret. destruct leftFirst; rewrite ?A1, ?A2, ?A1; cbn [fst snd]; rewrite T1, T2; reflexivity. }
    unfold vbind, vret. rewrite Ev. unfold vset. rewrite Gz2. reflexivity. }
  destruct (C44_every_history K pick Hpick _ _ _ _ Hv) as (h & Er & _ & Ht & _). exists h. split; [exact Er|].
  split; [rewrite Ht, (get_set _ _ _ _ z Gz2), String.eqb_refl; reflexivity|].
  intros w Hw. rewrite Ht, (get_set _ _ _ _ w Gz2). destruct (String.eqb_spec w z); [congruence|]. rewrite G2. now destruct (moved m1 x w || moved m2 y w).
Qed.

(** [z = sin(x);] and the like, the same way. *)
Theorem C08_unary cfg p evs (E : env K) u m x z e :
  vrun cfg p [] = (evs, (Ok tt, E)) -> get E x = Some (Some e) -> get E z <> None ->
  exists h, run pick cfg (p ++ [Assign z (XUn u (passed m x))]) [] = (evs ++ [Done], (Ok tt, h)) /\
    tree_of h z = Some (Some (embed (EUn u e))) /\
    forall w, w <> z -> tree_of h w = if moved m x w then Some (Some Nil) else trees E w.
Proof.
  intros Hp Gx Gz. destruct (vtake_passed (last_config cfg p) m x E e Gx) as (o & A & T).
  pose proof (fun w => get_after m x E _ w Gx) as G2.
  destruct (get (after m x E) z) as [v|] eqn:Gz2; [|exfalso; rewrite G2 in Gz2; destruct (moved m x z); congruence].
  assert (Hv : vrun cfg (p ++ [Assign z (XUn u (passed m x))]) [] = (evs ++ [Done], (Ok tt, set (after m x E) z (Some (EUn u e))))).
  { rewrite (vrun_app _ _ _ _ _ _ Hp). cbn [vrun vstep].
    change (veval (last_config cfg p) (XUn u (passed m x))) with (vbind (veval_arg (last_config cfg p) (passed m x)) (fun o => vbind (vtake o) (fun e => vret (Some (EUn u e))))).
    unfold vbind, vret. rewrite A, T. unfold vset. rewrite Gz2. reflexivity. }
  destruct (C44_every_history K pick Hpick _ _ _ _ Hv) as (h & Er & _ & Ht & _). exists h. split; [exact Er|].
  split; [rewrite Ht, (get_set _ _ _ _ z Gz2), String.eqb_refl; reflexivity|].
  intros w Hw. rewrite Ht, (get_set _ _ _ _ w Gz2). destruct (String.eqb_spec w z); [congruence|]. rewrite G2. now destruct (moved m x w).
Qed.

(** [x += y;] and the like, for different variables. *)
Theorem C08_compound cfg p evs (E : env K) b m x y e1 e2 :
  vrun cfg p [] = (evs, (Ok tt, E)) -> x <> y -> get E x = Some (Some e1) -> get E y = Some (Some e2) ->
  exists h, run pick cfg (p ++ [Compound b x (passed m y)]) [] = (evs ++ [Done], (Ok tt, h)) /\
    tree_of h x = Some (Some (embed (EBin b e1 e2))) /\
    forall w, w <> x -> tree_of h w = if moved m y w then Some (Some Nil) else trees E w.
Proof.
  intros Hp Hne Gx Gy.
  destruct (vtake_passed (last_config cfg p) ByMove x E e1 Gx) as (o1 & A1 & T1). injection (A1 []) as <-. cbn [after] in T1.
  assert (Gy' : get (set E x None) y = Some (Some e2)) by (rewrite (get_set _ _ _ _ y Gx); destruct (String.eqb_spec y x); congruence).
  destruct (vtake_passed (last_config cfg p) m y (set E x None) e2 Gy') as (o2 & A2 & T2).
  assert (G2 : forall w, get (after m y (set E x None)) w = if moved m y w then Some None else if String.eqb w x then Some None else get E w).
  { intros w. rewrite (get_after _ _ _ _ w Gy'), (get_set _ _ _ _ w Gx). reflexivity. }
  assert (Gx2 : exists v, get (after m y (set E x None)) x = Some v).
  { rewrite G2. rewrite String.eqb_refl. destruct (moved m y x); eauto. }
  destruct Gx2 as (v & Gx2).
  assert (Hv : vrun cfg (p ++ [Compound b x (passed m y)]) [] = (evs ++ [Done], (Ok tt, set (after m y (set E x None)) x (Some (EBin b e1 e2))))).
  { rewrite (vrun_app _ _ _ _ _ _ Hp). cbn [vrun]. 
    change (vstep (last_config cfg p) (Compound b x (passed m y))) with (vbind (veval_arg (last_config cfg p) (passed m y)) (fun o => vbind (vtake (VMove x)) (fun e1 => vbind (vtake o) (fun e2 =>
      vbind (vset x (Some (EBin b e1 e2))) (fun _ => vret (Done (K:=K))))))).
    unfold vbind at 1. rewrite A2. unfold vbind at 1. rewrite T1. unfold vbind at 1. rewrite T2. unfold vbind, vset. rewrite Gx2. reflexivity. }
  destruct (C44_every_history K pick Hpick _ _ _ _ Hv) as (h & Er & _ & Ht & _). exists h. split; [exact Er|].
  split; [rewrite Ht, (get_set _ _ _ _ x Gx2), String.eqb_refl; reflexivity|].
  intros w Hw. rewrite Ht, (get_set _ _ _ _ w Gx2). destruct (String.eqb_spec w x); [congruence|]. rewrite G2. destruct (moved m y w); [reflexivity|].
  now destruct (String.eqb_spec w x).
Qed.

(** The operands may be any expressions, for example prvalues: [z = e1 op e2;] *)
Theorem C08_prvalues cfg p evs (E : env K) b z x1 x2 e1 e2 E1 E2 leftFirst :
  vrun cfg p [] = (evs, (Ok tt, E)) ->
  (if leftFirst : bool
   then veval (last_config cfg p) x1 E = (Ok (Some e1), E1) /\ veval (last_config cfg p) x2 E1 = (Ok (Some e2), E2)
   else veval (last_config cfg p) x2 E = (Ok (Some e2), E1) /\ veval (last_config cfg p) x1 E1 = (Ok (Some e1), E2)) ->
  get E2 z <> None ->
  exists h, run pick cfg (p ++ [Assign z (XBin leftFirst b (Prvalue x1) (Prvalue x2))]) [] = (evs ++ [Done], (Ok tt, h)) /\
    tree_of h z = Some (Some (embed (EBin b e1 e2))) /\
    forall w, w <> z -> tree_of h w = trees E2 w.
Proof.
  intros Hp H12 Gz. destruct (get E2 z) as [v|] eqn:Gz2; [|congruence].
  assert (Hv : vrun cfg (p ++ [Assign z (XBin leftFirst b (Prvalue x1) (Prvalue x2))]) [] = (evs ++ [Done], (Ok tt, set E2 z (Some (EBin b e1 e2))))).
  { rewrite (vrun_app _ _ _ _ _ _ Hp). cbn [vrun vstep]. set (c := last_config cfg p) in *.
    change (veval c (XBin leftFirst b (Prvalue x1) (Prvalue x2))) with
        (vbind (if leftFirst : bool
             then vbind (vbind (veval c x1) (fun v => vret (VTemp v))) (fun o1 => vbind (vbind (veval c x2) (fun v => vret (VTemp v))) (fun o2 => vret (o1, o2)))
             else vbind (vbind (veval c x2) (fun v => vret (VTemp v))) (fun o2 => vbind (vbind (veval c x1) (fun v => vret (VTemp v))) (fun o1 => vret (o1, o2)))) (fun oo =>
         vbind (vtake (fst oo)) (fun e1 => vbind (vtake (snd oo)) (fun e2 => vret (Some (EBin b e1 e2)))))).
    unfold vbind, vret. destruct leftFirst; destruct H12 as [-> ->]; cbn [fst snd vtake vpeek nonempty vret]; unfold vret, vset; rewrite Gz2; reflexivity. }
  destruct (C44_every_history K pick Hpick _ _ _ _ Hv) as (h & Er & _ & Ht & _). exists h. split; [exact Er|].
  split; [rewrite Ht, (get_set _ _ _ _ z Gz2), String.eqb_refl; reflexivity|].
  intros w Hw. rewrite Ht, (get_set _ _ _ _ w Gz2). destruct (String.eqb_spec w z); [congruence|reflexivity].
Qed.

(** ** Uses that dereference a null pointer *)
Definition undefined {A} (m : M (K:=K) A) (h : heap K) : Prop := exists w h', m h = (Undef w, h').
Lemma undefined_bind {A B} (m : M A) (f : A -> M B) h : undefined m h -> undefined (bindM m f) h.
Proof. intros (w & h' & Em). exists w, h'. unfold bindM. now rewrite Em. Qed.
Lemma undefined_wp {A B} (m : M A) (f : A -> M B) h : wp m (fun a h' => undefined (f a) h') h -> undefined (bindM m f) h.
Proof. intros (a & h1 & Em & w & h' & Ef). exists w, h'. unfold bindM. now rewrite Em. Qed.
Lemma undefined_null x its h f r m : owns h (IVar (User x) None :: its) -> undefined (CopyOrMoveTo pick r f (match m with ByCopy => CopyOf (uvar x) | ByMove => MoveOf (uvar x) end)) h.
Proof.
  intros O. destruct m; cbn [CopyOrMoveTo]; apply undefined_wp; (eapply wp_get_var; [exact O|]); apply undefined_bind; eexists _, _; reflexivity.
Qed.
Lemma undefined_self cfg m b x h E e : holds h E [] -> get E x = Some (Some e) ->
  undefined (HBinaryOperator pick b (MoveOf (uvar x)) (match m with ByCopy => CopyOf (uvar x) | ByMove => MoveOf (uvar x) end)) h /\
  (forall lf z bb, undefined (step pick cfg (Assign z (XBin lf bb (Rvalue x) (passed m x)))) h) /\
  (forall bb, undefined (step pick cfg (Compound bb x (passed m x))) h).
Proof.
  intros Hh G.
  assert (U : forall b, undefined (HBinaryOperator pick b (MoveOf (uvar x)) (match m with ByCopy => CopyOf (uvar x) | ByMove => MoveOf (uvar x) end)) h).
  { clear b. intros b. destruct (holds_var _ _ _ _ _ Hh G) as (p & its & O & _). cbn [point contents app] in O. unfold HBinaryOperator.
    apply undefined_wp. eapply wp_make_node; [exact Hpick|exact O|]. intros r h1 O1. apply undefined_wp.
    eapply (wp_CopyOrMoveTo pick Hpick r L) with (c := MkCell OPERATOR b (n_ofZ 0) "" None None None) (t := embed e) (i := [IVar (User x) (Some p); ITree None (Some p) (embed e)]) (j := [IVar (User x) None]).
    - apply (pass_move (uvar x) (IVar (User x))), sa_var.
    - apply embed_not_nil.
    - exact O1.
    - intros q h2 O2. apply undefined_bind. front O2 (IVar (K:=K) (User x) None). eapply undefined_null. exact O2. }
  split; [apply U|]. split.
  - intros lf z bb. unfold step. apply undefined_bind. destruct (U (binop_op bb)) as (w & h' & Ew).
    exists w, h'. cbn [eval_exp]. unfold bindM, on_throw, ret. destruct lf, m; cbn [eval_arg passed fst snd] in *; unfold ret; cbn [fst snd]; now rewrite Ew.
  - intros bb. unfold step. destruct (U (binop_op bb)) as (w & h' & Ew). exists w, h'. unfold bindM. destruct m; cbn [eval_arg passed] in *; unfold ret; now rewrite Ew.
Qed.

Lemma undefined_run cfg p evs E s : vrun cfg p [] = (evs, (Ok tt, E)) ->
  (forall h, holds h E [] -> undefined (step pick (last_config cfg p) s) h) ->
  exists w h, run pick cfg (p ++ [s]) [] = (evs, (Undef w, h)).
Proof.
  intros Hp U. pose proof (run_sim pick Hpick p cfg [] [] holds_empty) as S. rewrite Hp in S. destruct S as (h & Er & Hh).
  destruct (U h Hh) as (w & h' & Es). exists w, h'. rewrite (run_app _ _ _ _ _ _ _ Er). cbn [run]. rewrite Es. now rewrite app_nil_r.
Qed.

(** [x += x], [x -= std::move(x)] ... are undefined for every operator, after every history. *)
Theorem C08_compound_self cfg p evs (E : env K) b m x e :
  vrun cfg p [] = (evs, (Ok tt, E)) -> get E x = Some (Some e) ->
  exists w h, run pick cfg (p ++ [Compound b x (passed m x)]) [] = (evs, (Undef w, h)).
Proof. intros Hp G. eapply undefined_run; [exact Hp|]. intros h Hh. now apply (undefined_self _ m MATH_ADD x h E e). Qed.
(** So is [std::move(x) + x]. *)
Theorem C08_moved_and_used cfg p evs (E : env K) leftFirst b m x z e :
  vrun cfg p [] = (evs, (Ok tt, E)) -> get E x = Some (Some e) ->
  exists w h, run pick cfg (p ++ [Assign z (XBin leftFirst b (Rvalue x) (passed m x))]) [] = (evs, (Undef w, h)).
Proof. intros Hp G. eapply undefined_run; [exact Hp|]. intros h Hh. now apply (undefined_self _ m MATH_ADD x h E e). Qed.
(** So is every operator or function applied to an empty Node, such as one that was moved from. *)
Theorem C08_empty_operand cfg p evs (E : env K) u m x z :
  vrun cfg p [] = (evs, (Ok tt, E)) -> get E x = Some None ->
  exists w h, run pick cfg (p ++ [Assign z (XUn u (passed m x))]) [] = (evs, (Undef w, h)).
Proof.
  intros Hp G. eapply undefined_run; [exact Hp|]. intros h Hh.
  destruct (holds_var _ _ _ _ _ Hh G) as (q & its & O & _). cbn [point contents app] in O.
  assert (U : undefined (HUnaryOperator pick (unop_op u) (match m with ByCopy => CopyOf (uvar x) | ByMove => MoveOf (uvar x) end)) h).
  { unfold HUnaryOperator. apply undefined_wp. eapply wp_make_node; [exact Hpick|exact O|]. intros r h1 O1. apply undefined_bind. front O1 (IVar (K:=K) (User x) None). eapply undefined_null. exact O1. }
  unfold step. apply undefined_bind. destruct U as (w & h' & Ew). exists w, h'. cbn [eval_exp]. unfold bindM. destruct m; cbn [eval_arg passed] in *; unfold ret; now rewrite Ew.
Qed.
(** [x + Move(x)]: the second operand is evaluated first or second, x is empty when it is copied. *)
Theorem C08_lvalue_and_Move cfg p evs (E : env K) leftFirst b x z e :
  vrun cfg p [] = (evs, (Ok tt, E)) -> get E x = Some (Some e) ->
  exists w h, run pick cfg (p ++ [Assign z (XBin leftFirst b (Lvalue x) (Prvalue (XMove x)))]) [] = (evs, (Undef w, h)).
Proof.
  intros Hp G. eapply undefined_run; [exact Hp|]. intros h Hh.
  destruct (holds_var _ _ _ _ _ Hh G) as (q & its & O & _). cbn [point contents app] in O.
  assert (Hm : wp (move_out (uvar x)) (fun r h' => undefined (HBinaryOperator pick (binop_op b) (CopyOf (uvar x)) (Temp r)) h') h).
  { eapply wp_move_out; [apply sa_var|exact O|]. intros h1 O1. unfold HBinaryOperator. apply undefined_wp. eapply wp_make_node; [exact Hpick|exact O1|]. intros r h2 O2.
    apply undefined_bind. front O2 (IVar (K:=K) (User x) None). apply (undefined_null _ _ _ L r ByCopy O2). }
  destruct Hm as (r & h1 & Em & w & h2 & Eb). unfold step. apply undefined_bind. exists w, h2. cbn [eval_exp]. unfold bindM, on_throw, ret.
  destruct leftFirst; cbn [eval_arg]; unfold bindM, ret; cbn [eval_exp]; rewrite Em; cbn [fst snd]; now rewrite Eb.
Qed.
End C08.

(** ** Examples *)
(** An allocator: one more than every address in use. *)
Definition next_addr {V} (h : heap V) : addr := S (fold_right (fun e n => match fst e with KObj a => Nat.max a n | _ => n end) 0 h).
Lemma next_addr_allocator {K : num_ops} : allocator (K:=K) next_addr.
Proof.
  intros h. assert (H : forall a o, lookup h (KObj a) = Some o -> a < next_addr h).
  { induction h as [|[k o'] h IH]; intros a o; cbn [lookup]; [discriminate|]. unfold next_addr in *. cbn [fold_right fst] in *.
    destruct (key_eqb_spec (KObj a) k) as [<-|_].
    - intros _. lia.
    - intros Lk. specialize (IH _ _ Lk). destruct k; lia. }
  destruct (lookup h (KObj (next_addr h))) as [o|] eqn:E; [|reflexivity]. specialize (H _ _ E). lia.
Qed.

(** What a program sees, as text. *)
Definition seen {K : num_ops} (ev : event K) : string :=
  match ev with Done => "." | Text s => s | Exception _ => "exception" | Bool true => "true" | Bool false => "false" | Number _ => "number" | Names l => String.concat "," l end.
Definition ending {A B} (r : res A * list B) : bool := match r with (Ok _, []) => true | _ => false end.
(** How many objects and variables exist. *)
Definition live {A B} (r : res A * list B) : option nat := match r with (Ok _, h) => Some (length h) | _ => None end.

Definition story : list (stmt D) :=
  [ Declare "x" (XParse "a+b*sin(a)");
    Declare "y" (XClone (Lvalue "x"));
    Compound BMul "y" (Lvalue "x");                                         (* y *= x *)
    Declare "z" (XBin true BAdd (Rvalue "x") (Prvalue (XDiff (Lvalue "y") "b" 1)));  (* z = std::move(x) + Diff(y, "b") *)
    GetString "z"; Check "z"; Check "y";
    Assign "x" (XParse "1+");                                               (* throws *)
    Assign "x" (XSubs (Lvalue "y") (DNode "a" (Prvalue (XParse "c+1")) (DNum "b" (n_ofZ 3) DNil)));
    GetString "x"; GetString "y"; GetVarNames "x";
    CopyInto "y" "x"; GetEqual "x" "y"; SimplifyVar "x"; MoveInto "z" "y"; GetString "y"; Check "z" ].
Definition epilogue : list (stmt D) := [ EndOfScope "x"; EndOfScope "z"; EndOfScope "y" ].

Example story_seen : map seen (fst (vrun (default_config D) (story ++ epilogue) [])) =
  [".";".";".";"."; "a+b*sin(a)+sin(a)*(a+b*sin(a))+(a+b*sin(a))*sin(a)"; ".";".";"exception";".";
   "(c+1+3*sin(c+1))*(c+1+3*sin(c+1))"; "(a+b*sin(a))*(a+b*sin(a))"; "c"; ".";"true";".";".";"0";".";".";".";"."].
Proof. vm_compute. reflexivity. Qed.

(** The hypotheses of C44_every_history and C44_all_freed are met, and the heap run agrees. *)
Example story_ends : ending (snd (vrun (default_config D) (story ++ epilogue) [])) = true.
Proof. vm_compute. reflexivity. Qed.
Example story_heap : map seen (fst (run next_addr (default_config D) (story ++ epilogue) [])) = map seen (fst (vrun (default_config D) (story ++ epilogue) [])) /\
  ending (snd (run next_addr (default_config D) (story ++ epilogue) [])) = true /\
  live (snd (run next_addr (default_config D) story [])) = Some (3 + 21 + 1 + 21).
Proof. split; [|split]; vm_compute; reflexivity. Qed.

(** A moved variable used again, as in the theorems of C08. *)
Example self_undefined : match run next_addr (default_config D) [Declare "x" (XVar "a"); Compound BAdd "x" (Lvalue "x")] [] with (evs, (Undef _, _)) => length evs | _ => 0 end = 1.
Proof. vm_compute. reflexivity. Qed.
Example moved_example : map seen (fst (run next_addr (default_config D) [Declare "x" (XVar "a"); Declare "y" (XVar "b"); Declare "z" (XBin true BMul (Rvalue "x") (Lvalue "y")); GetString "z"; GetString "y"] [])) =
  [".";".";".";"a*b";"b"].
Proof. vm_compute. reflexivity. Qed.
(** C06: x is destroyed, y remains. *)
Example clone_example : map seen (fst (run next_addr (default_config D) [Declare "x" (XParse "a+b"); DeclareEmpty "y"; Assign "y" (XClone (Lvalue "x")); Compound BMul "x" (Prvalue (XVar "c")); GetString "x"; EndOfScope "x"; GetString "y"] [])) =
  [".";".";".";".";"(a+b)*c";".";"a+b"].
Proof. vm_compute. reflexivity. Qed.
(** An expression assembled from a Subs whose Simplify divides by zero ends the program. *)
Example terminate_example : match run next_addr (default_config D) [Declare "x" (XParse "1/0"); SimplifyVar "x"; GetString "x"] [] with (evs, (Terminate, _)) => length evs | _ => 0 end = 1.
Proof. vm_compute. reflexivity. Qed.
