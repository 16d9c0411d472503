(** C62: threads that do not share changing variables do not notice each other, whatever the
    schedule and the allocator. *)
From Coq Require Import String List ZArith Bool Permutation Lia Arith.
From Verif Require Import Base MathOp NodeModel ExprSpec HeapModel HeapSpec HeapProofs ApiModel ApiSpec ApiProofs MemSpec MemProofs IEEE SimplifyModel DiffModel NodeProofs Thm_Node Thm_Text Thm_Api ThreadSpec.
Import ListNotations.
Local Open Scope string_scope. Local Open Scope list_scope. Local Open Scope nat_scope.

Section Local.
Context {K : num_ops}.
Notation env := (env K).

(** ** A statement only changes what it writes *)
Definition taken (o : varg (K:=K)) : list string := match o with VMove x => [x] | _ => [] end.
Lemma keeps_take' x o : ~ In x (taken o) -> keeps x (vtake o).
Proof.
  destruct o as [y|y|v]; intros Hn; try apply (keeps_peek x (VCopy y)); try apply (keeps_peek x (VTemp v)).
  apply keeps_take. exact Hn.
Qed.
Lemma arg_taken cfg (a : arg K) E o E' : veval_arg cfg a E = (Ok o, E') -> forall x, ~ In x (writes_arg a) -> ~ In x (taken o).
Proof.
  destruct a as [y|y|e]; [intros [= <- _]; auto|intros [= <- _]; auto|]. change (veval_arg cfg (Prvalue e)) with (vbind (veval cfg e) (fun v => vret (VTemp v))). unfold vbind, vret.
  destruct (veval cfg e E) as [[v|?|?| |?|] E1]; try discriminate. intros [= <- _] x _ [].
Qed.
Lemma writes_arg_in (a : arg K) x : In x (writes_in a) -> In x (writes_arg a).
Proof. destruct a; cbn; auto; intros []. Qed.
Lemma keeps_eval' cfg x :
  (forall e : nexp K, ~ In x (writes_exp e) -> keeps x (veval cfg e)) /\
  (forall a : arg K, ~ In x (writes_in a) -> keeps x (veval_arg cfg a)) /\
  (forall d : dict K, ~ In x (writes_dict d) -> keeps x (veval_dict cfg d)).
Proof.
  apply nexp_arg_dict_ind; cbn [veval veval_arg veval_dict].
  - intros; apply keeps_ret.
  - intros s _. destruct (VarNameIsLegal s); [apply keeps_ret|apply keeps_fail].
  - intros; apply keeps_bind; [apply keeps_fail|intros; apply keeps_ret].
  - intros y Hn. apply keeps_bind; [apply keeps_get|]. intros v. apply keeps_bind; [apply keeps_set; intros ->; apply Hn; now left|intros; apply keeps_ret].
  - intros a IH Hn. apply keeps_bind; [apply IH; exact Hn|]. intros o. apply keeps_bind; [apply keeps_peek|intros; apply keeps_ret].
  - intros u a IH Hn. assert (Hn1 : ~ In x (writes_arg a)) by exact Hn.
    eapply keeps_bind'; [apply IH; intros Q; apply Hn1, writes_arg_in, Q|intros E o E' Eo; exact (arg_taken _ _ _ _ _ Eo x Hn1)|]. intros o Ho.
    apply keeps_bind; [now apply keeps_take'|intros; apply keeps_ret].
  - intros lf b a1 IH1 a2 IH2 Hn. assert (Hn' : ~ In x (writes_arg a1 ++ writes_arg a2)) by exact Hn. rewrite in_app_iff in Hn'.
    assert (H1 : ~ In x (writes_arg a1)) by auto. assert (H2 : ~ In x (writes_arg a2)) by auto.
    assert (I1 : ~ In x (writes_in a1)) by (intros Q; apply H1, writes_arg_in, Q). assert (I2 : ~ In x (writes_in a2)) by (intros Q; apply H2, writes_arg_in, Q).
    eapply (keeps_bind' x _ _ (fun oo => ~ In x (taken (fst oo)) /\ ~ In x (taken (snd oo)))).
    + destruct lf; (apply keeps_bind; [auto|]; intros o; apply keeps_bind; [auto|intros; apply keeps_ret]).
    + intros E [o1 o2] E' Eo. cbn [fst snd]. destruct lf.
      * change (vbind (veval_arg cfg a1) (fun o1 => vbind (veval_arg cfg a2) (fun o2 => vret (o1, o2))) E = (Ok (o1, o2), E')) in Eo. unfold vbind, vret in Eo. destruct (veval_arg cfg a1 E) as [[v1|?|?| |?|] E1] eqn:Q1; try discriminate Eo. destruct (veval_arg cfg a2 E1) as [[v2|?|?| |?|] E2] eqn:Q2; try discriminate Eo.
        injection Eo as <- <- _. split; eapply arg_taken; eauto.
      * change (vbind (veval_arg cfg a2) (fun o2 => vbind (veval_arg cfg a1) (fun o1 => vret (o1, o2))) E = (Ok (o1, o2), E')) in Eo. unfold vbind, vret in Eo. destruct (veval_arg cfg a2 E) as [[v1|?|?| |?|] E1] eqn:Q1; try discriminate Eo. destruct (veval_arg cfg a1 E1) as [[v2|?|?| |?|] E2] eqn:Q2; try discriminate Eo.
        injection Eo as <- <- _. split; eapply arg_taken; eauto.
    + intros [o1 o2] [Ho1 Ho2]. cbn [fst snd] in *. apply keeps_bind; [now apply keeps_take'|]. intros e1. apply keeps_bind; [now apply keeps_take'|intros; apply keeps_ret].
  - intros a IHa d IHd Hn. assert (Hn' : ~ In x (writes_arg a ++ writes_dict d)) by exact Hn. rewrite in_app_iff in Hn'.
    assert (H1 : ~ In x (writes_arg a)) by auto. assert (I1 : ~ In x (writes_in a)) by (intros Q; apply H1, writes_arg_in, Q).
    apply keeps_bind; [auto|]. intros es. eapply keeps_bind'; [auto|intros E o E' Eo; exact (arg_taken _ _ _ _ _ Eo x H1)|]. intros o Ho.
    apply keeps_bind; [apply keeps_dict|]. intros dd. apply keeps_bind; [now apply keeps_take'|intros; apply keeps_ret].
  - intros a IH y i Hn. assert (H1 : ~ In x (writes_arg a)) by exact Hn.
    eapply keeps_bind'; [apply IH; intros Q; apply H1, writes_arg_in, Q|intros E o E' Eo; exact (arg_taken _ _ _ _ _ Eo x H1)|]. intros o Ho.
    apply keeps_bind; [now apply keeps_take'|]. intros e. apply keeps_bind; [apply keeps_fail|intros; apply keeps_ret].
  - intros; apply keeps_ret.
  - intros; apply keeps_ret.
  - intros e IH Hn. apply keeps_bind; [apply IH; exact Hn|intros; apply keeps_ret].
  - intros; apply keeps_ret.
  - intros y a IHa d IHd Hn. assert (Hn' : ~ In x (writes_in a ++ writes_dict d)) by exact Hn. rewrite in_app_iff in Hn'.
    apply keeps_bind; [auto|]. intros o. apply keeps_bind; [auto|intros; apply keeps_ret].
  - intros y v d IHd Hn. apply keeps_bind; [apply IHd; exact Hn|intros; apply keeps_ret].
Qed.
Lemma keeps_step' cfg x s : ~ In x (writes s) -> keeps x (vstep (K:=K) cfg s).
Proof.
  destruct (keeps_eval' cfg x) as (Ke & Ka & _).
  assert (Kt : forall y, keeps x (vthe (K:=K) y)) by (intros y; apply keeps_bind; [apply keeps_get|intros; apply keeps_nonempty]).
  assert (Kd : forall y v, x <> y -> keeps x (vdeclare (K:=K) y v)).
  { intros y v Hne E. unfold vdeclare. destruct (get E y); [reflexivity|]. cbn [snd get]. now destruct (String.eqb_spec x y). }
  destruct s as [y e|y|y e|b y a|y|y|y z|y z|y|y|y|y|y|y z|y|c]; cbn [writes In vstep]; intros Hn;
    try (assert (Hne : x <> y) by (intros ->; apply Hn; auto)); try (assert (Hne2 : x <> z) by (intros ->; apply Hn; auto)).
  - apply keeps_bind; [auto|]. intros v. apply keeps_bind; [now apply Kd|intros; apply keeps_ret].
  - apply keeps_bind; [now apply Kd|intros; apply keeps_ret].
  - apply keeps_bind; [auto|]. intros v. apply keeps_bind; [now apply keeps_set|intros; apply keeps_ret].
  - assert (H1 : ~ In x (writes_arg a)) by auto.
    eapply keeps_bind'; [apply Ka; intros Q; apply H1, writes_arg_in, Q|intros E o E' Eo; exact (arg_taken _ _ _ _ _ Eo x H1)|]. intros o Ho.
    apply keeps_bind; [apply keeps_take; cbn; intros [->|[]]; auto|]. intros e1. apply keeps_bind; [now apply keeps_take'|]. intros e2. apply keeps_bind; [now apply keeps_set|intros; apply keeps_ret].
  - apply keeps_bind; [apply Kt|]. intros e. apply keeps_bind; [apply keeps_fail|]. intros e'. apply keeps_bind; [now apply keeps_set|intros; apply keeps_ret].
  - apply keeps_bind; [apply Kt|]. intros e. apply keeps_bind; [apply keeps_fail|]. intros e'. apply keeps_bind; [now apply keeps_set|intros; apply keeps_ret].
  - apply keeps_bind; [apply Kt|]. intros e. apply keeps_bind; [apply Kt|]. intros e'. apply keeps_bind; [now apply keeps_set|intros; apply keeps_ret].
  - apply keeps_bind; [apply Kt|]. intros e. apply keeps_bind; [apply Kt|]. intros e'. apply keeps_bind; [now apply keeps_set|]. intros _. apply keeps_bind; [now apply keeps_set|intros; apply keeps_ret].
  - apply keeps_bind; [|intros; apply keeps_ret]. intros E. unfold vend. destruct (get E y); [|reflexivity]. now apply get_drop.
  - apply keeps_bind; [apply Kt|]. intros e. apply keeps_bind; [apply keeps_fail|intros; apply keeps_ret].
  - apply keeps_bind; [apply Kt|]. intros e. apply keeps_bind; [apply keeps_fail|intros; apply keeps_ret].
  - apply keeps_bind; [apply Kt|]. intros e. apply keeps_bind; [apply keeps_fail|intros; apply keeps_ret].
  - apply keeps_bind; [apply Kt|]. intros e. apply keeps_bind; [apply keeps_fail|intros; apply keeps_ret].
  - apply keeps_bind; [apply Kt|]. intros e. apply keeps_bind; [apply Kt|]. intros e'. destruct (String.eqb y z); [apply keeps_ret|]. apply keeps_bind; [apply keeps_fail|intros; apply keeps_ret].
  - apply keeps_bind; [apply Kt|intros; apply keeps_ret].
  - apply keeps_ret.
Qed.

(** ** A statement only depends on what it mentions *)
Definition uniq (E : env) : Prop := NoDup (map fst E).
Definition agree (P : string -> Prop) (E1 E2 : env) : Prop :=
  uniq E1 /\ uniq E2 /\ forall x, P x -> get E1 x = get E2 x.
Definition sim {A} (P : string -> Prop) (m : V (K:=K) A) : Prop :=
  forall E1 E2, agree P E1 E2 -> fst (m E1) = fst (m E2) /\ agree P (snd (m E1)) (snd (m E2)).
Variable P : string -> Prop.
Lemma sim_ret {A} (a : A) : sim P (vret a). Proof. now intros E1 E2 H. Qed.
Lemma sim_fail {A} (r : res A) : sim P (vfail r). Proof. now intros E1 E2 H. Qed.
Lemma sim_bind' {A B} (m : V A) (f : A -> V B) (Q : A -> Prop) : sim P m -> (forall E a E', m E = (Ok a, E') -> Q a) -> (forall a, Q a -> sim P (f a)) -> sim P (vbind m f).
Proof.
  intros Hm HQ Hf E1 E2 Ha. unfold vbind. destruct (Hm E1 E2 Ha) as [Hr Ha']. specialize (HQ E1).
  destruct (m E1) as [r1 E1'], (m E2) as [r2 E2']. cbn [fst snd] in *. subst r2. destruct r1 as [a|e|w| |w|]; cbn [fst snd]; auto. exact (Hf a (HQ a E1' eq_refl) E1' E2' Ha').
Qed.
Lemma sim_bind {A B} (m : V A) (f : A -> V B) : sim P m -> (forall a, sim P (f a)) -> sim P (vbind m f).
Proof. intros Hm Hf. apply (sim_bind' m f (fun _ => True)); auto. Qed.
Lemma sim_get x : P x -> sim P (vget x).
Proof. intros Hx E1 E2 Ha. unfold vget. assert (get E1 x = get E2 x) as -> by (now apply Ha). destruct (get E2 x); cbn [fst snd]; auto. Qed.
Lemma sim_nonempty v : sim P (nonempty v).
Proof. destruct v; [apply sim_ret|apply sim_fail]. Qed.
Lemma set_fst (E : env) x v : map fst (set E x v) = map fst E.
Proof. induction E as [|[y w] E IH]; cbn [set map fst]; [reflexivity|]. destruct (String.eqb x y); cbn [map fst]; congruence. Qed.
Lemma sim_set x v : P x -> sim P (vset x v).
Proof.
  intros Hx E1 E2 (U1 & U2 & Ha). unfold vset. pose proof (Ha x Hx) as Hg. destruct (get E1 x) as [w1|] eqn:G1; rewrite <- Hg; cbn [fst snd]; [|repeat split; auto].
  symmetry in Hg. split; [reflexivity|]. split; [unfold uniq; now rewrite set_fst|]. split; [unfold uniq; now rewrite set_fst|].
  intros y Hy. rewrite (get_set _ _ _ _ y G1), (get_set _ _ _ _ y Hg). destruct (String.eqb y x); auto.
Qed.
Lemma sim_peek o : (forall x, In x (varg_uses o) -> P x) -> sim P (vpeek o).
Proof. destruct o as [y|y|v]; cbn [vpeek varg_uses]; intros H; [| |apply sim_nonempty]; (apply sim_bind; [apply sim_get, H; now left|intros; apply sim_nonempty]). Qed.
Lemma sim_take o : (forall x, In x (varg_uses o) -> P x) -> sim P (vtake o).
Proof.
  destruct o as [y|y|v]; intros H; try (now apply sim_peek). cbn [vtake].
  apply sim_bind; [apply sim_get, H; now left|]. intros v. apply sim_bind; [apply sim_nonempty|]. intros e.
  apply sim_bind; [apply sim_set, H; now left|intros; apply sim_ret].
Qed.
Lemma sim_dict es : (forall y e x, In (y, e) es -> In x (entry_uses e) -> P x) -> sim P (vdict (K:=K) es).
Proof.
  induction es as [|[y [o|v]] es IH]; cbn [vdict ventry_value]; intros H; [apply sim_ret| |].
  - apply sim_bind; [apply sim_peek; intros x Hx; apply (H y (VNode o) x); [now left|exact Hx]|]. intros t. apply sim_bind; [apply IH; intros y' e x He; apply (H y'); now right|intros; apply sim_ret].
  - apply sim_bind; [apply sim_ret|]. intros t. apply sim_bind; [apply IH; intros y' e x He; apply (H y'); now right|intros; apply sim_ret].
Qed.
Lemma arg_used cfg (a : arg K) E o E' : veval_arg cfg a E = (Ok o, E') -> forall x, In x (varg_uses o) -> In x (uses_arg a).
Proof.
  intros Eo x Hx. destruct (in_dec string_dec x (uses_arg a)) as [H|H]; [exact H|]. now destruct (arg_uses _ _ _ _ _ Eo x H).
Qed.
Lemma dict_used cfg (d : dict K) : forall E es E', veval_dict cfg d E = (Ok es, E') -> forall y e x, In (y, e) es -> In x (entry_uses e) -> In x (uses_dict d).
Proof.
  induction d as [|y a d IH|y v d IH]; intros E es E'.
  - intros [= <- _] y e x [].
  - change (veval_dict cfg (DNode y a d)) with (vbind (veval_arg cfg a) (fun o => vbind (veval_dict cfg d) (fun es => vret ((y, VNode o) :: es)))). unfold vbind, vret.
    destruct (veval_arg cfg a E) as [[o|?|?| |?|] E1] eqn:Q1; try discriminate. destruct (veval_dict cfg d E1) as [[es1|?|?| |?|] E2] eqn:Q2; try discriminate.
    intros [= <- _] y' e x [[= <- <-]|He] Hx; cbn [uses_dict]; apply in_or_app; [left; eapply arg_used; eauto|right; eapply IH; eauto].
  - change (veval_dict cfg (DNum y v d)) with (vbind (veval_dict cfg d) (fun es => vret ((y, VNumber v) :: es))). unfold vbind, vret.
    destruct (veval_dict cfg d E) as [[es1|?|?| |?|] E2] eqn:Q2; try discriminate.
    intros [= <- _] y' e x [[= <- <-]|He] Hx; cbn [uses_dict]; [destruct Hx|eapply IH; eauto].
Qed.
Lemma sim_eval cfg :
  (forall e : nexp K, (forall x, In x (uses_exp e) -> P x) -> sim P (veval cfg e)) /\
  (forall a : arg K, (forall x, In x (uses_arg a) -> P x) -> sim P (veval_arg cfg a)) /\
  (forall d : dict K, (forall x, In x (uses_dict d) -> P x) -> sim P (veval_dict cfg d)).
Proof.
  apply nexp_arg_dict_ind; cbn [uses_exp uses_arg uses_dict veval veval_arg veval_dict].
  - intros; apply sim_ret.
  - intros s _. destruct (VarNameIsLegal s); [apply sim_ret|apply sim_fail].
  - intros; apply sim_bind; [apply sim_fail|intros; apply sim_ret].
  - intros y H. apply sim_bind; [apply sim_get, H; now left|]. intros v. apply sim_bind; [apply sim_set, H; now left|intros; apply sim_ret].
  - intros a IH H. eapply sim_bind'; [auto|intros E o E' Eo; exact (arg_used _ _ _ _ _ Eo)|]. intros o Ho. apply sim_bind; [apply sim_peek; auto|intros; apply sim_ret].
  - intros u a IH H. eapply sim_bind'; [auto|intros E o E' Eo; exact (arg_used _ _ _ _ _ Eo)|]. intros o Ho. apply sim_bind; [apply sim_take; auto|intros; apply sim_ret].
  - intros lf b a1 IH1 a2 IH2 H.
    assert (S1 : sim P (veval_arg cfg a1)) by (apply IH1; intros; apply H, in_or_app; auto). assert (S2 : sim P (veval_arg cfg a2)) by (apply IH2; intros; apply H, in_or_app; auto).
    eapply (sim_bind' _ _ (fun oo => (forall x, In x (varg_uses (fst oo)) -> P x) /\ (forall x, In x (varg_uses (snd oo)) -> P x))).
    + destruct lf; (apply sim_bind; [auto|]; intros o; apply sim_bind; [auto|intros; apply sim_ret]).
    + intros E [o1 o2] E' Eo. cbn [fst snd]. destruct lf.
      * change (vbind (veval_arg cfg a1) (fun o1 => vbind (veval_arg cfg a2) (fun o2 => vret (o1, o2))) E = (Ok (o1, o2), E')) in Eo. unfold vbind, vret in Eo. destruct (veval_arg cfg a1 E) as [[v1|?|?| |?|] E1] eqn:Q1; try discriminate Eo. destruct (veval_arg cfg a2 E1) as [[v2|?|?| |?|] E2] eqn:Q2; try discriminate Eo.
        injection Eo as <- <- _. split; intros x Hx; apply H, in_or_app; [left|right]; eapply arg_used; eauto.
      * change (vbind (veval_arg cfg a2) (fun o2 => vbind (veval_arg cfg a1) (fun o1 => vret (o1, o2))) E = (Ok (o1, o2), E')) in Eo. unfold vbind, vret in Eo. destruct (veval_arg cfg a2 E) as [[v1|?|?| |?|] E1] eqn:Q1; try discriminate Eo. destruct (veval_arg cfg a1 E1) as [[v2|?|?| |?|] E2] eqn:Q2; try discriminate Eo.
        injection Eo as <- <- _. split; intros x Hx; apply H, in_or_app; [left|right]; eapply arg_used; eauto.
    + intros [o1 o2] [Ho1 Ho2]. cbn [fst snd] in *. apply sim_bind; [now apply sim_take|]. intros e1. apply sim_bind; [now apply sim_take|intros; apply sim_ret].
  - intros a IHa d IHd H.
    eapply sim_bind'; [apply IHd; intros; apply H, in_or_app; auto|intros E es E' Ee; exact (dict_used _ _ _ _ _ Ee)|]. intros es Hes.
    eapply sim_bind'; [apply IHa; intros; apply H, in_or_app; auto|intros E o E' Eo; exact (arg_used _ _ _ _ _ Eo)|]. intros o Ho.
    apply sim_bind; [apply sim_dict; intros y e x Hy Hx; apply H, in_or_app; right; eapply Hes; eauto|]. intros dd.
    apply sim_bind; [apply sim_take; intros x Hx; apply H, in_or_app; left; auto|intros; apply sim_ret].
  - intros a IH y i H. eapply sim_bind'; [auto|intros E o E' Eo; exact (arg_used _ _ _ _ _ Eo)|]. intros o Ho.
    apply sim_bind; [apply sim_take; auto|]. intros e. apply sim_bind; [apply sim_fail|intros; apply sim_ret].
  - intros; apply sim_ret.
  - intros; apply sim_ret.
  - intros e IH H. apply sim_bind; [auto|intros; apply sim_ret].
  - intros; apply sim_ret.
  - intros y a IHa d IHd H. apply sim_bind; [apply IHa; intros; apply H, in_or_app; auto|]. intros o. apply sim_bind; [apply IHd; intros; apply H, in_or_app; auto|intros; apply sim_ret].
  - intros y v d IHd H. apply sim_bind; [auto|intros; apply sim_ret].
Qed.
Lemma get_None (E : env) x : get E x = None <-> ~ In x (map fst E).
Proof.
  induction E as [|[y v] E IH]; cbn [get map fst In]; [now split|]. destruct (String.eqb_spec x y) as [->|Hne]; [split; [discriminate|intros H; now destruct H; left]|].
  rewrite IH. split; [intros H [Q|Q]; [congruence|auto]|auto].
Qed.
Lemma drop_fst (E : env) x : forall y, In y (map fst (drop_var E x)) -> In y (map fst E).
Proof.
  induction E as [|[z v] E IH]; cbn [drop_var map fst In]; [auto|]. intros y. destruct (String.eqb x z); [now right|]. cbn [map fst In]. intros [H|H]; auto.
Qed.
Lemma drop_uniq (E : env) x : uniq E -> uniq (drop_var E x).
Proof.
  unfold uniq. induction E as [|[z v] E IH]; cbn [drop_var map fst]; [auto|]. intros H. inversion H as [|? ? Hn Hd]; subst. destruct (String.eqb x z); [exact Hd|].
  cbn [map fst]. constructor; [intros Q; apply Hn; eapply drop_fst; eauto|auto].
Qed.
Lemma get_drop_same (E : env) x : uniq E -> get (drop_var E x) x = None.
Proof.
  unfold uniq. induction E as [|[z v] E IH]; cbn [drop_var map fst]; [reflexivity|]. intros H. inversion H as [|? ? Hn Hd]; subst. destruct (String.eqb_spec x z) as [->|Hne].
  - now apply get_None.
  - cbn [get]. destruct (String.eqb_spec x z); [congruence|auto].
Qed.
Lemma sim_step cfg s : (forall x, In x (uses s) -> P x) -> sim P (vstep (K:=K) cfg s).
Proof.
  destruct (sim_eval cfg) as (Ke & Ka & _).
  assert (Kt : forall y, P y -> sim P (vthe (K:=K) y)) by (intros y Hy; apply sim_bind; [now apply sim_get|intros; apply sim_nonempty]).
  assert (Kd : forall y v, P y -> sim P (vdeclare (K:=K) y v)).
  { intros y v Hy E1 E2 (U1 & U2 & Ha). unfold vdeclare. pose proof (Ha y Hy) as Hg. destruct (get E1 y) as [w|] eqn:G1; rewrite <- Hg; cbn [fst snd]; [repeat split; auto|].
    split; [reflexivity|]. split; [unfold uniq; cbn [map fst]; constructor; [now apply get_None|exact U1]|].
    split; [unfold uniq; cbn [map fst]; constructor; [now apply get_None|exact U2]|]. intros z Hz. cbn [get]. destruct (String.eqb z y); auto. }
  destruct s as [y e|y|y e|b y a|y|y|y z|y z|y|y|y|y|y|y z|y|c]; cbn [uses In vstep]; intros H;
    try (assert (Hy : P y) by (apply H; auto)); try (assert (Hz : P z) by (apply H; auto)).
  - apply sim_bind; [apply Ke; auto|]. intros v. apply sim_bind; [now apply Kd|intros; apply sim_ret].
  - apply sim_bind; [now apply Kd|intros; apply sim_ret].
  - apply sim_bind; [apply Ke; auto|]. intros v. apply sim_bind; [now apply sim_set|intros; apply sim_ret].
  - eapply sim_bind'; [apply Ka; auto|intros E o E' Eo; exact (arg_used _ _ _ _ _ Eo)|]. intros o Ho.
    apply sim_bind; [apply sim_take; cbn; intros x [<-|[]]; auto|]. intros e1. apply sim_bind; [apply sim_take; auto|]. intros e2. apply sim_bind; [now apply sim_set|intros; apply sim_ret].
  - apply sim_bind; [now apply Kt|]. intros e. apply sim_bind; [apply sim_fail|]. intros e'. apply sim_bind; [now apply sim_set|intros; apply sim_ret].
  - apply sim_bind; [now apply Kt|]. intros e. apply sim_bind; [apply sim_fail|]. intros e'. apply sim_bind; [now apply sim_set|intros; apply sim_ret].
  - apply sim_bind; [now apply Kt|]. intros e. apply sim_bind; [now apply Kt|]. intros e'. apply sim_bind; [now apply sim_set|intros; apply sim_ret].
  - apply sim_bind; [now apply Kt|]. intros e. apply sim_bind; [now apply Kt|]. intros e'. apply sim_bind; [now apply sim_set|]. intros _. apply sim_bind; [now apply sim_set|intros; apply sim_ret].
  - apply sim_bind; [|intros; apply sim_ret]. intros E1 E2 (U1 & U2 & Ha). unfold vend. rewrite <- (Ha y Hy). destruct (get E1 y); cbn [fst snd]; [|repeat split; auto].
    split; [reflexivity|]. split; [now apply drop_uniq|]. split; [now apply drop_uniq|]. intros x Hx.
    destruct (string_dec x y) as [->|Hne]; [now rewrite !get_drop_same|now rewrite !get_drop by exact Hne; auto].
  - apply sim_bind; [now apply Kt|]. intros e. apply sim_bind; [apply sim_fail|intros; apply sim_ret].
  - apply sim_bind; [now apply Kt|]. intros e. apply sim_bind; [apply sim_fail|intros; apply sim_ret].
  - apply sim_bind; [now apply Kt|]. intros e. apply sim_bind; [apply sim_fail|intros; apply sim_ret].
  - apply sim_bind; [now apply Kt|]. intros e. apply sim_bind; [apply sim_fail|intros; apply sim_ret].
  - apply sim_bind; [now apply Kt|]. intros e. apply sim_bind; [now apply Kt|]. intros e'. destruct (String.eqb y z); [apply sim_ret|]. apply sim_bind; [apply sim_fail|intros; apply sim_ret].
  - apply sim_bind; [now apply Kt|intros; apply sim_ret].
  - apply sim_ret.
Qed.
End Local.

(** ** Interleavings of values *)
Section Interleave.
Context {K : num_ops}.
Notation env := (env K).
Notation schedule := (schedule K).

Lemma program_cons i j (s : stmt K) sc : program_of i ((j, s) :: sc) = if j =? i then s :: program_of i sc else program_of i sc.
Proof. unfold program_of. cbn [filter fst]. destruct (j =? i); reflexivity. Qed.
Lemma writes_uses_eval :
  (forall e : nexp K, incl (writes_exp e) (uses_exp e)) /\ (forall a : arg K, incl (writes_arg a) (uses_arg a)) /\ (forall d : dict K, incl (writes_dict d) (uses_dict d)).
Proof.
  apply nexp_arg_dict_ind; cbn [uses_exp uses_arg uses_dict]; intros.
  1-3: intros y [].
  - apply incl_refl.
  - intros x Hx. apply H. apply writes_arg_in. exact Hx.
  - exact H.
  - change (incl (writes_arg a1 ++ writes_arg a2) (uses_arg a1 ++ uses_arg a2)). now apply incl_app_app.
  - change (incl (writes_arg a ++ writes_dict d) (uses_arg a ++ uses_dict d)). now apply incl_app_app.
  - exact H.
  - intros y [].
  - apply incl_refl.
  - exact H.
  - intros y [].
  - change (incl (writes_in a ++ writes_dict d) (uses_arg a ++ uses_dict d)). apply incl_app_app; [|assumption]. intros x Hx. apply H, writes_arg_in, Hx.
  - exact H.
Qed.
Lemma writes_uses (s : stmt K) : incl (writes s) (uses s).
Proof.
  destruct writes_uses_eval as (We & Wa & _). destruct s; cbn [writes uses]; try apply incl_refl;
    try (intros z [->|Hz]; [now left|right; first [now apply We|now apply Wa]]).
  all: intros z Hz; cbn [In] in *; tauto.
Qed.
Definition completed (r : list (event K) * (res unit * env)) : Prop := fst (snd r) = Ok tt.

Lemma sim_agree {A} P (m : V (K:=K) A) E1 E2 r1 E1' r2 E2' : sim P m -> agree P E1 E2 -> m E1 = (r1, E1') -> m E2 = (r2, E2') -> r1 = r2 /\ agree P E1' E2'.
Proof. intros S Ha e1 e2. destruct (S E1 E2 Ha) as [Q1 Q2]. rewrite e1, e2 in *. auto. Qed.

(** Every thread alone, started in [Es i], against all threads together, started in [E]. *)
Lemma interleave (P : nat -> string -> Prop) cfg : forall (sc : schedule) (E : env) (Es : nat -> env),
  (forall i s x, In (i, s) sc -> In x (uses s) -> P i x) ->
  (forall i s j x, In (i, s) sc -> i <> j -> In x (writes s) -> ~ P j x) ->
  (forall i s, In (i, s) sc -> configures s = false) ->
  uniq E -> (forall i, agree (P i) E (Es i)) ->
  let all := vrun cfg (map snd sc) E in
  (completed all <-> forall i, completed (vrun cfg (program_of i sc) (Es i))) /\
  (forall i, exists rest, fst (vrun cfg (program_of i sc) (Es i)) = events_of i sc (fst all) ++ rest /\ (completed all -> rest = [])) /\
  (completed all -> length (fst all) = length sc /\ (forall i, agree (P i) (snd (snd all)) (snd (snd (vrun cfg (program_of i sc) (Es i))))) /\
     forall x, (forall i, ~ P i x) -> get (snd (snd all)) x = get E x).
Proof.
  induction sc as [|[i s] sc IH]; intros E Es HU HW HC UE HA all.
  { subst all. cbn. repeat split; auto; try apply HA; auto. intros j. exists []. auto. }
  assert (HUi : forall x, In x (uses s) -> P i x) by (intros x; exact (HU i s x (or_introl eq_refl))).
  assert (Nc : next_config cfg s = cfg) by (specialize (HC i s (or_introl eq_refl)); now destruct s).
  destruct (vstep cfg s E) as [r E1] eqn:Es1. destruct (vstep cfg s (Es i)) as [r' Ei1] eqn:Es2.
  destruct (sim_agree (P i) _ _ _ _ _ _ _ (sim_step (P i) cfg s HUi) (HA i) Es1 Es2) as [<- Ag].
  assert (U1 : uniq E1) by apply Ag.
  assert (Ks : forall x, ~ In x (writes s) -> get E1 x = get E x).
  { intros x Hx. pose proof (keeps_step' cfg x s Hx E) as Q. now rewrite Es1 in Q. }
  assert (Kj : forall j x, j <> i -> P j x -> get E1 x = get E x).
  { intros j x Hj Hx. apply Ks. intros Hw. apply (HW i s j x); auto. now left. }
  set (Es' := fun j => if j =? i then Ei1 else Es j).
  assert (HA' : forall j, agree (P j) E1 (Es' j)).
  { intros j. unfold Es'. destruct (Nat.eqb_spec j i) as [->|Hj]; [exact Ag|]. destruct (HA j) as (_ & Uj & Gj). split; [exact U1|]. split; [exact Uj|].
    intros x Hx. rewrite (Kj j x Hj Hx). auto. }
  assert (IH' := IH E1 Es' (fun i s x H => HU i s x (or_intror H)) (fun i s j x H => HW i s j x (or_intror H)) (fun i s H => HC i s (or_intror H)) U1 HA').
  cbv zeta in IH'. destruct IH' as (I1 & I2 & I3).
  (* the run of one thread *)
  assert (One : forall j, vrun cfg (program_of j ((i, s) :: sc)) (Es j) =
     if i =? j then match r with
       | Ok ev => let '(evs, q) := vrun cfg (program_of j sc) (Es' j) in (ev :: evs, q)
       | Throw e => let '(evs, q) := vrun cfg (program_of j sc) (Es' j) in (Exception (kind e) :: evs, q)
       | Undef w => ([], (Undef w, Ei1)) | Terminate => ([], (Terminate, Ei1)) | AssertFail w => ([], (AssertFail w, Ei1)) | OutOfFuel => ([], (OutOfFuel, Ei1)) end
     else vrun cfg (program_of j sc) (Es' j)).
  { intros j. rewrite program_cons. unfold Es'. rewrite (Nat.eqb_sym j i). destruct (Nat.eqb_spec i j) as [<-|Hj]; [|reflexivity].
    cbn [vrun]. rewrite Es2, Nc. reflexivity. }
  assert (All : all = match r with
       | Ok ev => let '(evs, q) := vrun cfg (map snd sc) E1 in (ev :: evs, q)
       | Throw e => let '(evs, q) := vrun cfg (map snd sc) E1 in (Exception (kind e) :: evs, q)
       | Undef w => ([], (Undef w, E1)) | Terminate => ([], (Terminate, E1)) | AssertFail w => ([], (AssertFail w, E1)) | OutOfFuel => ([], (OutOfFuel, E1)) end).
  { subst all. cbn [map snd vrun]. rewrite Es1, Nc. reflexivity. }
  clearbody all. clear Es1 Es2.
  assert (GO : forall ev, all = (let '(evs, q) := vrun cfg (map snd sc) E1 in (ev :: evs, q)) ->
     (forall j, vrun cfg (program_of j ((i, s) :: sc)) (Es j) = if i =? j then (let '(evs, q) := vrun cfg (program_of j sc) (Es' j) in (ev :: evs, q)) else vrun cfg (program_of j sc) (Es' j)) ->
     (completed all <-> forall i0, completed (vrun cfg (program_of i0 ((i, s) :: sc)) (Es i0))) /\
     (forall i0, exists rest, fst (vrun cfg (program_of i0 ((i, s) :: sc)) (Es i0)) = events_of i0 ((i, s) :: sc) (fst all) ++ rest /\ (completed all -> rest = [])) /\
     (completed all -> length (fst all) = length ((i, s) :: sc) /\ (forall i0, agree (P i0) (snd (snd all)) (snd (snd (vrun cfg (program_of i0 ((i, s) :: sc)) (Es i0))))) /\
        forall x, (forall i, ~ P i x) -> get (snd (snd all)) x = get E x)).
  { clear One All. intros ev All One. destruct (vrun cfg (map snd sc) E1) as [evs q] eqn:Ea. subst all. unfold completed in *. cbn [fst snd] in *.
    assert (Cj : forall j, fst (snd (vrun cfg (program_of j ((i, s) :: sc)) (Es j))) = fst (snd (vrun cfg (program_of j sc) (Es' j))) /\
                          snd (snd (vrun cfg (program_of j ((i, s) :: sc)) (Es j))) = snd (snd (vrun cfg (program_of j sc) (Es' j)))).
    { intros j. rewrite One. destruct (i =? j); [|auto]. destruct (vrun cfg (program_of j sc) (Es' j)); auto. }
    split; [|split].
    - rewrite I1. split; intros H j; destruct (Cj j) as [C _]; specialize (H j); congruence.
    - intros j. destruct (I2 j) as (rest & R1 & R2). exists rest. split; [|exact R2]. rewrite One. cbn [events_of].
      destruct (Nat.eqb_spec i j) as [<-|Hj]; [|exact R1]. destruct (vrun cfg (program_of i sc) (Es' i)) as [evs' q']. cbn [fst] in *. rewrite R1. reflexivity.
    - intros H. destruct (I3 H) as (J1 & J2 & J3). split; [cbn [length]; congruence|]. split; [intros j; destruct (Cj j) as [_ ->]; apply J2|].
      intros x Hx. rewrite (J3 x Hx). apply Ks. intros Hw. apply (Hx i). apply HUi. now apply writes_uses. }
  destruct r as [ev|e|w| |w|].
  - now apply (GO ev).
  - now apply (GO (Exception (kind e))).
  all: subst all; unfold completed; cbn [fst snd events_of].
  all: split; [split; [discriminate|intros H; specialize (H i); rewrite One, Nat.eqb_refl in H; discriminate H]|].
  all: split; [intros j; eexists; split; [reflexivity|discriminate]|discriminate].
Qed.

Lemma uniq_step cfg (s : stmt K) (E : env) : uniq E -> uniq (snd (vstep cfg s E)).
Proof. intros U. destruct (sim_step (fun _ => True) cfg s (fun _ _ => Logic.I) E E) as [_ H]; [repeat split; auto|]. apply H. Qed.
Lemma uniq_run p : forall cfg (E : env), uniq E -> uniq (snd (snd (vrun cfg p E))).
Proof.
  induction p as [|s p IH]; intros cfg E U; cbn [vrun]; [exact U|].
  pose proof (uniq_step cfg s E U) as U1. destruct (vstep cfg s E) as [[ev|e|w| |w|] E1]; cbn [snd] in *; auto;
    specialize (IH (next_config cfg s) E1 U1); destruct (vrun (next_config cfg s) p E1) as [evs r]; exact IH.
Qed.

(** The names a thread mentions. *)
Definition names_of (sc : schedule) (i : nat) (x : string) : Prop := exists s, In (i, s) sc /\ In x (uses s).
Lemma interleaved cfg (sc : schedule) (E : env) : race_free sc -> uniq E ->
  let all := vrun cfg (map snd sc) E in
  (completed all <-> forall i, completed (vrun cfg (program_of i sc) E)) /\
  (forall i, exists rest, fst (vrun cfg (program_of i sc) E) = events_of i sc (fst all) ++ rest /\ (completed all -> rest = [])) /\
  (completed all -> length (fst all) = length sc /\ (forall i, agree (names_of sc i) (snd (snd all)) (snd (snd (vrun cfg (program_of i sc) E)))) /\
     forall x, (forall i, ~ names_of sc i x) -> get (snd (snd all)) x = get E x).
Proof.
  intros [R1 R2] U. apply (interleave (names_of sc)); auto.
  - intros i s x Hs Hx. exists s. auto.
  - intros i s j x Hs Hj Hx (t & Ht & Hu). exact (R1 i s j t x Hs Ht Hj Hx Hu).
  - intros i. split; [exact U|split; [exact U|auto]].
Qed.
End Interleave.

(** ** C62 *)
Section C62.
Variables (K : num_ops) (pick : heap K -> addr).
Hypothesis Hpick : allocator pick.

(** A main program [p0] followed by the threads: all threads run to their end under the schedule
    if and only if each one does alone. *)
Theorem C62_completes (cfg : config K) p0 evs0 E0 sc : vrun cfg p0 [] = (evs0, (Ok tt, E0)) -> race_free sc ->
  (forall i, exists evs E, vrun (last_config cfg p0) (program_of i sc) E0 = (evs, (Ok tt, E))) <->
  (exists evs E, vrun (last_config cfg p0) (map snd sc) E0 = (evs, (Ok tt, E))).
Proof.
  intros H0 HR. assert (U : uniq E0) by (pose proof (uniq_run p0 cfg [] (NoDup_nil _)) as Q; now rewrite H0 in Q).
  destruct (interleaved (last_config cfg p0) sc E0 HR U) as (I1 & _). unfold completed in I1. split.
  - intros H. destruct I1 as [_ I1]. assert (Q := I1 (fun i => ltac:(destruct (H i) as (evs & E & Ev); now rewrite Ev))).
    destruct (vrun (last_config cfg p0) (map snd sc) E0) as [evs [r E]]. cbn [fst snd] in Q. subst r. eauto.
  - intros (evs & E & Ev) i. destruct I1 as [I1 _]. rewrite Ev in I1. specialize (I1 eq_refl i).
    destruct (vrun (last_config cfg p0) (program_of i sc) E0) as [evs' [r E']]. cbn [fst snd] in I1. subst r. eauto.
Qed.

(** Then, in the one memory they share, under any schedule and allocator, every thread sees what it
    sees alone, its variables end up with the values they have alone, nothing dangles, is shared or
    leaks, and other variables keep their values. *)
Theorem C62_threads (cfg : config K) p0 evs0 E0 sc : vrun cfg p0 [] = (evs0, (Ok tt, E0)) -> race_free sc ->
  (forall i, exists evs E, vrun (last_config cfg p0) (program_of i sc) E0 = (evs, (Ok tt, E))) ->
  exists evs h, run pick cfg (p0 ++ map snd sc) [] = (evs0 ++ evs, (Ok tt, h)) /\ proper h /\ length evs = length sc /\
    (forall i evsi Ei, vrun (last_config cfg p0) (program_of i sc) E0 = (evsi, (Ok tt, Ei)) ->
       events_of i sc evs = evsi /\
       forall s x, In (i, s) sc -> In x (uses s) -> tree_of h x = option_map (fun v => Some (value_tree v)) (get Ei x)) /\
    (forall x, (forall i s, In (i, s) sc -> ~ In x (uses s)) -> tree_of h x = option_map (fun v => Some (value_tree v)) (get E0 x)).
Proof.
  intros H0 HR H. assert (U : uniq E0) by (pose proof (uniq_run p0 cfg [] (NoDup_nil _)) as Q; now rewrite H0 in Q).
  destruct (proj1 (C62_completes _ _ _ _ _ H0 HR) H) as (evs & E & Ev).
  assert (Ea := vrun_app p0 (map snd sc) _ _ _ _ H0). rewrite Ev in Ea.
  destruct (C44_every_history K pick Hpick _ _ _ _ Ea) as (h & Er & Hp & Ht & _). exists evs, h. split; [exact Er|]. split; [exact Hp|].
  destruct (interleaved (last_config cfg p0) sc E0 HR U) as (_ & I2 & I3). rewrite Ev in I2, I3. unfold completed in I2, I3. cbn [fst snd] in I2, I3.
  destruct (I3 eq_refl) as (J1 & J2 & J3). split; [exact J1|]. split.
  - intros i evsi Ei Evi. destruct (I2 i) as (rest & R1 & R2). rewrite (R2 eq_refl), app_nil_r, Evi in R1. split; [symmetry; exact R1|].
    intros s x Hs Hx. rewrite Ht. specialize (J2 i). rewrite Evi in J2. destruct J2 as (_ & _ & J2). rewrite J2; [reflexivity|]. exists s. auto.
  - intros x Hx. rewrite Ht, J3; [reflexivity|]. intros i (s & Hs & Hu). exact (Hx i s Hs Hu).
Qed.

(** Whatever the threads do (even if one of them runs into undefined behaviour or ends the
    process): up to that point every thread has seen what it sees alone. *)
Theorem C62_until_then (cfg : config K) p0 evs0 E0 sc evs r E : vrun cfg p0 [] = (evs0, (Ok tt, E0)) -> race_free sc ->
  vrun (last_config cfg p0) (map snd sc) E0 = (evs, (r, E)) ->
  (exists evs' r', run pick cfg (p0 ++ map snd sc) [] = (evs0 ++ evs ++ evs', r')) /\
  forall i, exists rest, fst (vrun (last_config cfg p0) (program_of i sc) E0) = events_of i sc evs ++ rest.
Proof.
  intros H0 HR Ev. assert (U : uniq E0) by (pose proof (uniq_run p0 cfg [] (NoDup_nil _)) as Q; now rewrite H0 in Q).
  assert (Ea := vrun_app p0 (map snd sc) _ _ _ _ H0). rewrite Ev in Ea. split.
  - pose proof (C44_ends K cfg (p0 ++ map snd sc) []) as En. rewrite Ea in En. cbn [fst snd] in En. destruct r as [[]|e|w| |w|]; try contradiction.
    + destruct (C44_every_history K pick Hpick _ _ _ _ Ea) as (h & Er & _). exists [], (Ok tt, h). now rewrite app_nil_r.
    + destruct (C44_until_undefined K pick Hpick _ _ _ _ _ Ea) as (evs' & r' & Er). exists evs', r'. now rewrite app_assoc.
    + destruct (C44_terminates K pick Hpick _ _ _ _ Ea) as (h & Er). exists [], (Terminate, h). now rewrite app_nil_r.
    + pose proof (run_sim pick Hpick (p0 ++ map snd sc) cfg [] [] holds_empty) as S. rewrite Ea in S. destruct S as (evs' & r' & Er). exists evs', r'. now rewrite app_assoc.
  - intros i. destruct (interleaved (last_config cfg p0) sc E0 HR U) as (_ & I2 & _). rewrite Ev in I2. destruct (I2 i) as (rest & R1 & _). eauto.
Qed.

(** Two schedules of the same threads: same observations, same values at the end. *)
Theorem C62_any_schedule (cfg : config K) p0 evs0 E0 sc1 sc2 evs1 h1 : vrun cfg p0 [] = (evs0, (Ok tt, E0)) ->
  (forall i, program_of i sc1 = program_of i sc2) -> race_free sc1 ->
  (forall i, exists evs E, vrun (last_config cfg p0) (program_of i sc1) E0 = (evs, (Ok tt, E))) ->
  run pick cfg (p0 ++ map snd sc1) [] = (evs0 ++ evs1, (Ok tt, h1)) ->
  exists evs2 h2, run pick cfg (p0 ++ map snd sc2) [] = (evs0 ++ evs2, (Ok tt, h2)) /\
    (forall i, events_of i sc1 evs1 = events_of i sc2 evs2) /\ (forall x, tree_of h1 x = tree_of h2 x).
Proof.
  intros H0 HP R1 H Er1.
  destruct (C62_threads cfg p0 evs0 E0 sc1 H0 R1 H) as (evs1' & h1' & Er1' & _ & _ & T1 & N1).
  rewrite Er1 in Er1'. injection Er1' as Ee Eh. apply app_inv_head in Ee. subst evs1' h1'.
  assert (H' : forall i, exists evs E, vrun (last_config cfg p0) (program_of i sc2) E0 = (evs, (Ok tt, E))) by (intros i; rewrite <- HP; apply H).
  assert (Sym : forall i s, In (i, s) sc1 <-> In (i, s) sc2).
  { assert (G : forall sc i (s : stmt K), In (i, s) sc <-> In s (program_of i sc)).
    { intros sc i s. unfold program_of. rewrite in_map_iff. split.
      - intros Hs. exists (i, s). split; [reflexivity|]. apply filter_In. cbn [fst]. now rewrite Nat.eqb_refl.
      - intros ([j t] & <- & Hj). apply filter_In in Hj. cbn [fst snd] in *. destruct Hj as [Hj Q]. apply Nat.eqb_eq in Q. now subst j. }
    intros i s. rewrite !G, HP. reflexivity. }
  assert (R2 : race_free sc2).
  { destruct R1 as [A1 A2]. split; [intros i s j t x Hs Ht; apply Sym in Hs; apply Sym in Ht; eauto|intros i s Hs; apply Sym in Hs; eauto]. }
  destruct (C62_threads cfg p0 evs0 E0 sc2 H0 R2 H') as (evs2 & h2 & Er2 & _ & _ & T2 & N2).
  exists evs2, h2. split; [exact Er2|]. split.
  - intros i. destruct (H i) as (evsi & Ei & Evi). destruct (T1 i _ _ Evi) as [-> _]. rewrite HP in Evi. destruct (T2 i _ _ Evi) as [-> _]. reflexivity.
  - intros x. assert (Dec : (exists i s, In (i, s) sc1 /\ In x (uses s)) \/ forall i s, In (i, s) sc1 -> ~ In x (uses s)).
    { clear. induction sc1 as [|[i s] sc IH]; [right; intros i s []|]. destruct IH as [(j & t & Hj & Hx)|IH]; [left; exists j, t; split; [now right|exact Hx]|].
      destruct (in_dec string_dec x (uses s)) as [Hx|Hx]; [left; exists i, s; split; [now left|exact Hx]|right]. intros j t [[= <- <-]|Hj]; eauto. }
    destruct Dec as [(i & s & Hs & Hx)|Dec].
    + destruct (H i) as (evsi & Ei & Evi). destruct (T1 i _ _ Evi) as [_ Q1]. rewrite (Q1 s x Hs Hx). rewrite HP in Evi. destruct (T2 i _ _ Evi) as [_ Q2]. apply Sym in Hs. now rewrite (Q2 s x Hs Hx).
    + rewrite N1 by exact Dec. rewrite N2; [reflexivity|]. intros i s Hs. exact (Dec i s (proj2 (Sym i s) Hs)).
Qed.
End C62.

(** ** Examples *)
(** Both threads differentiate the shared expression; each changes its own copy. *)
Definition shared : list (stmt D) := [ Declare "e" (XParse "a*b+sin(a)") ].
Definition two_threads : schedule D :=
  [ (1, Declare "x" (XDiff (Lvalue "e") "a" 1)); (2, Declare "y" (XClone (Lvalue "e"))); (1, GetString "x");
    (2, Compound BMul "y" (Lvalue "e")); (2, Assign "y" (XDiff (Rvalue "y") "b" 1)); (1, GetString "e"); (1, EndOfScope "x"); (2, GetString "y") ].
Definition disjoint_names (l l' : list string) : bool := forallb (fun x => negb (existsb (String.eqb x) l')) l.
Definition race_free_test (sc : schedule D) : bool :=
  forallb (fun s => forallb (fun t => Nat.eqb (fst s) (fst t) || disjoint_names (writes (snd s)) (uses (snd t))) sc) sc &&
  forallb (fun s => negb (configures (snd s))) sc.
Lemma race_free_test_ok sc : race_free_test sc = true -> race_free sc.
Proof.
  unfold race_free_test. rewrite andb_true_iff, !forallb_forall. intros [H1 H2]. split.
  - intros i s j t x Hs Ht Hij Hw Hu. specialize (H1 _ Hs). rewrite forallb_forall in H1. specialize (H1 _ Ht). cbn [fst snd] in H1.
    destruct (Nat.eqb_spec i j); [contradiction|]. cbn [orb] in H1. unfold disjoint_names in H1. rewrite forallb_forall in H1. specialize (H1 x Hw).
    apply negb_true_iff in H1. assert (existsb (String.eqb x) (uses t) = true); [|congruence]. apply existsb_exists. exists x. split; [exact Hu|apply String.eqb_refl].
  - intros i s Hs. specialize (H2 _ Hs). now apply negb_true_iff in H2.
Qed.
Example two_threads_race_free : race_free two_threads.
Proof. apply race_free_test_ok. vm_compute. reflexivity. Qed.
Definition ends_well {A B} (r : list (event A) * (res unit * B)) : bool := match snd r with (Ok _, _) => true | _ => false end.
Lemma ends_well_ok {A B} (r : list (event A) * (res unit * B)) : ends_well r = true -> exists evs E, r = (evs, (Ok tt, E)).
Proof. destruct r as [evs [[[]|?|?| |?|] E]]; cbn; try discriminate. eauto. Qed.
(** The hypotheses of C62_threads hold of it. *)
Example two_threads_alone : exists evs0 E0, vrun (default_config D) shared [] = (evs0, (Ok tt, E0)) /\
  forall i, exists evs E, vrun (last_config (default_config D) shared) (program_of i two_threads) E0 = (evs, (Ok tt, E)).
Proof.
  destruct (ends_well_ok (vrun (default_config D) shared [])) as (evs0 & E0 & Ev); [vm_cast_no_check (eq_refl true)|]. exists evs0, E0. split; [exact Ev|].
  assert (Q : forall p, ends_well (vrun (default_config D) (shared ++ p) []) = true -> exists evs E, vrun (last_config (default_config D) shared) p E0 = (evs, (Ok tt, E))).
  { intros p Hp. rewrite (vrun_app shared p _ _ _ _ Ev) in Hp. apply ends_well_ok. destruct (vrun (last_config (default_config D) shared) p E0). exact Hp. }
  intros [|[|[|i]]]; apply Q.
  - vm_cast_no_check (eq_refl true).
  - vm_cast_no_check (eq_refl true).
  - vm_cast_no_check (eq_refl true).
  - change (program_of (S (S (S i))) two_threads) with (@nil (stmt D)). vm_cast_no_check (eq_refl true).
Qed.
Example two_threads_seen : map seen (events_of 1 two_threads (tl (fst (run next_addr (default_config D) (shared ++ map snd two_threads) [])))) = ["."; "b+cos(a)"; "a*b+sin(a)"; "."] /\
  map seen (events_of 2 two_threads (tl (fst (run next_addr (default_config D) (shared ++ map snd two_threads) [])))) = ["."; "."; "."; "a*(a*b+sin(a))+(a*b+sin(a))*a"].
Proof. vm_compute. split; reflexivity. Qed.

(** The configuration is shared: if one thread changes it, what the other sees depends on the
    schedule. *)
Definition lenient (c : config D) : config D :=
  {| initialValue := initialValue c; maxIterations := maxIterations c; epsilon := epsilon c; nonlinearMethod := nonlinearMethod c;
     allowIndeterminateEquation := allowIndeterminateEquation c; throwOnInvalidValue := false |}.
Definition before : schedule D := [ (1, Declare "x" (XParse "1/0")); (1, GetVpa "x"); (2, Configure (lenient (default_config D))) ].
Definition after_ : schedule D := [ (1, Declare "x" (XParse "1/0")); (2, Configure (lenient (default_config D))); (1, GetVpa "x") ].
Example config_is_shared : (forall i, program_of i before = program_of i after_) /\
  map seen (events_of 1 before (fst (run next_addr (default_config D) (map snd before) []))) = ["."; "exception"] /\
  map seen (events_of 1 after_ (fst (run next_addr (default_config D) (map snd after_) []))) = ["."; "number"].
Proof. split; [|split; vm_compute; reflexivity]. intros [|[|[|i]]]; reflexivity. Qed.
