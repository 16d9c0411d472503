(** From the representation invariant of ApiProofs.v to the raw heap facts of MemSpec.v. *)
From Coq Require Import String List ZArith Bool Permutation Lia Arith.
From Verif Require Import Base MathOp NodeModel ExprSpec HeapModel HeapSpec HeapProofs ApiModel ApiSpec ApiProofs MemSpec.
Import ListNotations.
Local Open Scope string_scope. Local Open Scope list_scope. Local Open Scope nat_scope.

Section Mem.
Context {K : num_ops}.
Notation node := (node K).
Notation heap := (heap K).
Notation expr := (expr K).
Notation env := (env K).
Implicit Types h os : heap.

Lemma in_lookup h k o : NoDup (map fst h) -> In (k, o) h -> lookup h k = Some o.
Proof.
  induction h as [|[k' o'] h IH]; cbn [lookup map fst In]; [tauto|]. intros N [[= -> ->]|Hi].
  - now rewrite key_eqb_refl.
  - inversion N as [|? ? Hn N']; subst. destruct (key_eqb_spec k k') as [<-|_]; [|now apply IH]. exfalso. apply Hn.
    change k with (fst (k, o)). now apply in_map.
Qed.

(** ** One tree *)
Inductive down (os : heap) (p : option addr) : addr -> Prop :=
| down_root a : p = Some a -> down os p a
| down_child b c s a : down os p b -> In (KObj b, OCell c) os -> child c s = Some a -> down os p a.

Lemma down_mono os os' p a : (forall x, In x os -> In x os') -> down os p a -> down os' p a.
Proof. intros H D. induction D as [a ->|b c s a D IH Hi Hc]; [now constructor|]. eapply down_child; eauto. Qed.
Lemma down_trans os p b c s a : down os p b -> In (KObj b, OCell c) os -> down os (child c s) a -> down os p a.
Proof. intros D Hi D2. induction D2 as [a Ha|b' c' s' a D2 IH Hi' Hc]; eapply down_child; eauto. Qed.

Lemma tree_root par p t os a : objects (K:=K) par p t os -> p = Some a -> exists c, In (KObj a, OCell c) os /\ c_parent c = par.
Proof. intros O ->. inversion O; subst. eexists. split; [now left|reflexivity]. Qed.
Lemma tree_edge par p t os : objects (K:=K) par p t os -> forall b c s a, In (KObj b, OCell c) os -> child c s = Some a ->
  exists c', In (KObj a, OCell c') os /\ c_parent c' = Some b.
Proof.
  induction 1 as [par|par a0 ty op v x l r pl pr ol or Ol IHl Or IHr]; intros b c s a Hi Hc; [destruct Hi|].
  destruct Hi as [[= <- <-]|Hi].
  - destruct s; cbn in Hc; subst.
    + destruct (tree_root _ _ _ _ _ Ol eq_refl) as (c' & Hi & E). exists c'. split; [right; apply in_app_iff; auto|exact E].
    + destruct (tree_root _ _ _ _ _ Or eq_refl) as (c' & Hi & E). exists c'. split; [right; apply in_app_iff; auto|exact E].
  - apply in_app_iff in Hi as [Hi|Hi].
    + destruct (IHl _ _ _ _ Hi Hc) as (c' & Hi' & E). exists c'. split; [right; apply in_app_iff; auto|exact E].
    + destruct (IHr _ _ _ _ Hi Hc) as (c' & Hi' & E). exists c'. split; [right; apply in_app_iff; auto|exact E].
Qed.
Lemma nodup_app_in {A} (l l' : list A) x : NoDup (l ++ l') -> In x l -> In x l' -> False.
Proof. induction l as [|y l IH]; cbn; [tauto|]. intros N [->|Hi] Hi'; inversion N; subst; [|now apply IH]. apply H1, in_app_iff. auto. Qed.
Lemma nodup_app_l {A} (l l' : list A) : NoDup (l ++ l') -> NoDup l.
Proof. induction l as [|x l IH]; cbn; intros N; [constructor|]. inversion N; subst. constructor; [|now apply IH]. intros Hi. apply H1, in_app_iff. auto. Qed.
Lemma nodup_app_r {A} (l l' : list A) : NoDup (l ++ l') -> NoDup l'.
Proof. induction l as [|x l IH]; cbn; intros N; [exact N|]. inversion N; subst. auto. Qed.

Lemma tree_children par p t os : objects (K:=K) par p t os -> NoDup (map fst os) ->
  forall b c a, In (KObj b, OCell c) os -> c_left c = Some a -> c_right c = Some a -> False.
Proof.
  induction 1 as [par|par a0 ty op v x l r pl pr ol or Ol IHl Or IHr]; intros N b c a Hi Hl Hr; [destruct Hi|].
  cbn [map fst] in N. rewrite map_app in N. inversion N as [|? ? _ N']; subst. destruct Hi as [[= <- <-]|Hi].
  - cbn in Hl, Hr. subst. destruct (tree_root _ _ _ _ _ Ol eq_refl) as (c1 & H1 & _). destruct (tree_root _ _ _ _ _ Or eq_refl) as (c2 & H2 & _).
    apply (nodup_app_in _ _ (KObj a) N'); [apply (in_map fst _ _ H1)|apply (in_map fst _ _ H2)].
  - apply in_app_iff in Hi as [Hi|Hi]; [eapply IHl|eapply IHr]; eauto using nodup_app_l, nodup_app_r.
Qed.
Lemma tree_down par p t os : objects (K:=K) par p t os -> forall b c, In (KObj b, OCell c) os -> down os p b.
Proof.
  induction 1 as [par|par a0 ty op v x l r pl pr ol or Ol IHl Or IHr]; intros b c Hi; [destruct Hi|].
  destruct Hi as [[= <- <-]|Hi]; [now constructor|]. apply in_app_iff in Hi as [Hi|Hi].
  - apply (down_trans _ _ a0 (MkCell ty op v x par pl pr) L); [now constructor|now left|]. apply (down_mono ol); [intros y Hy; right; apply in_app_iff; auto|]. eapply IHl; eauto.
  - apply (down_trans _ _ a0 (MkCell ty op v x par pl pr) R); [now constructor|now left|]. apply (down_mono or); [intros y Hy; right; apply in_app_iff; auto|]. eapply IHr; eauto.
Qed.
Lemma tree_keys par p t os : objects (K:=K) par p t os -> forall k o, In (k, o) os -> exists a c, k = KObj a /\ o = OCell c.
Proof.
  induction 1 as [par|par a0 ty op v x l r pl pr ol or Ol IHl Or IHr]; intros k o Hi; [destruct Hi|].
  destruct Hi as [[= <- <-]|Hi]; [eauto|]. apply in_app_iff in Hi as [Hi|Hi]; eauto.
Qed.

(** ** The parts of memory *)
Inductive part : string -> option addr -> heap -> Prop :=
| part_intro x p t os : objects None p t os -> part x p ((KVar (User x), OPtr p) :: os).
Definition parts (h : heap) (ps : list heap) : Prop :=
  Forall (fun l => exists x p, part x p l) ps /\ Permutation h (concat ps) /\ NoDup (map fst h).

Lemma reps_parts (E : env) its os : reps E its -> flat its os -> exists ps, Forall (fun l => exists x p, part x p l) ps /\ Permutation os (concat ps).
Proof.
  intros R. revert os. induction R as [|x v E p its R IH]; intros os F.
  - inversion F; subst. exists []. now split.
  - apply flat_cons_inv in F as (o1 & os1 & Sv & F & ->). inversion Sv; subst. destruct v as [e|]; cbn [point contents app] in *.
    + apply flat_cons_inv in F as (o2 & os2 & St & F & ->). destruct (IH _ F) as (ps & Fp & P). inversion St; subst.
      exists (((KVar (User x), OPtr (Some p)) :: o2) :: ps). split.
      * constructor; [|exact Fp]. exists x, (Some p). econstructor; eauto.
      * cbn. constructor. now rewrite P.
    + destruct (IH _ F) as (ps & Fp & P). exists ([(KVar (User x), OPtr None)] :: ps). split.
      * constructor; [|exact Fp]. exists x, None. econstructor. constructor.
      * cbn. now constructor.
Qed.
Lemma holds_parts h E : holds h E [] -> exists ps, parts h ps.
Proof.
  intros (Li & (its & R & P) & O). rewrite app_nil_r in P. apply (owns_perm _ _ _ P) in O. destruct O as (os & F & Ph & N).
  destruct (reps_parts _ _ _ R F) as (ps & Fp & Pp). exists ps. split; [exact Fp|]. split; [now rewrite Ph|exact N].
Qed.

Lemma concat_unique (ps : list heap) l l' k o o' : NoDup (map fst (concat ps)) -> In l ps -> In l' ps -> In (k, o) l -> In (k, o') l' -> l = l'.
Proof.
  induction ps as [|m ps IH]; [intros _ []|]. cbn [concat]. rewrite map_app. intros N Hl Hl' Hi Hi'.
  assert (Hc : forall q x, In q ps -> In (k, x) q -> In k (map fst (concat ps))).
  { intros q x Hq Hx. apply (in_map fst _ (k, x)). apply in_concat. eauto. }
  destruct Hl as [->|Hl], Hl' as [->|Hl']; [reflexivity| | |].
  - exfalso. apply (nodup_app_in _ _ k N); [apply (in_map fst _ _ Hi)|eauto].
  - exfalso. apply (nodup_app_in _ _ k N); [apply (in_map fst _ _ Hi')|eauto].
  - apply IH; eauto using nodup_app_r.
Qed.
Lemma concat_nodup (ps : list heap) l : NoDup (map fst (concat ps)) -> In l ps -> NoDup (map fst l).
Proof.
  induction ps as [|m ps IH]; [intros _ []|]. cbn [concat]. rewrite map_app. intros N [->|Hl]; eauto using nodup_app_l, nodup_app_r.
Qed.

Section Parts.
Variables (h : heap) (ps : list heap).
Hypothesis H : parts h ps.
Lemma parts_nodup : NoDup (map fst (concat ps)).
Proof. destruct H as (_ & P & N). exact (Permutation_NoDup (Permutation_map fst P) N). Qed.
Lemma parts_in k o : lookup h k = Some o -> exists x p os, part x p ((KVar (User x), OPtr p) :: os) /\ In ((KVar (User x), OPtr p) :: os) ps /\ In (k, o) ((KVar (User x), OPtr p) :: os) /\ exists t, objects None p t os.
Proof.
  intros Lk. apply lookup_in in Lk. destruct H as (F & P & N). apply (Permutation_in _ P), in_concat in Lk as (l & Hl & Hi).
  rewrite Forall_forall in F. destruct (F _ Hl) as (x & p & Hp). inversion Hp; subst. eauto 10.
Qed.
Lemma parts_lookup l k o : In l ps -> In (k, o) l -> lookup h k = Some o.
Proof. intros Hl Hi. destruct H as (_ & P & N). apply in_lookup; [exact N|]. apply (Permutation_in _ (Permutation_sym P)). apply in_concat. eauto. Qed.

Lemma parts_cell a c : lookup h (KObj a) = Some (OCell c) -> exists x p t os, objects None p t os /\ In ((KVar (User x), OPtr p) :: os) ps /\ In (KObj a, OCell c) os.
Proof. intros Lk. destruct (parts_in _ _ Lk) as (x & p & os & _ & Hp & [[=]|Hi] & (t & O)). eauto 8. Qed.
Lemma parts_var y p : lookup h (KVar y) = Some (OPtr p) -> exists x t os, y = User x /\ objects None p t os /\ In ((KVar (User x), OPtr p) :: os) ps.
Proof.
  intros Lk. destruct (parts_in _ _ Lk) as (x & q & os & _ & Hp & [[= <- <-]|Hi] & (t & O)); [eauto 8|].
  destruct (tree_keys _ _ _ _ O _ _ Hi) as (a & c & [=] & _).
Qed.

(** What a pointer leads to, and in which part it is. *)
Lemma parts_points s a : points h s a -> exists x p t os c, objects None p t os /\ In ((KVar (User x), OPtr p) :: os) ps /\ In (KObj a, OCell c) os /\
  c_parent c = match s with SVar _ => None | SFld b _ => Some b end /\
  match s with SVar y => y = User x /\ p = Some a | SFld b f => exists d, In (KObj b, OCell d) os /\ child d f = Some a end.
Proof.
  intros [y a' Lk|b d f a' Lk Hc].
  - destruct (parts_var _ _ Lk) as (x & t & os & -> & O & Hp). destruct (tree_root _ _ _ _ _ O eq_refl) as (c & Hi & Ec).
    exists x, (Some a'), t, os, c. split; [exact O|]. split; [exact Hp|]. split; [exact Hi|]. split; [exact Ec|]. now split.
  - destruct (parts_cell _ _ Lk) as (x & p & t & os & O & Hp & Hi). destruct (tree_edge _ _ _ _ O _ _ _ _ Hi Hc) as (c & Hi' & Ec).
    exists x, p, t, os, c. split; [exact O|]. split; [exact Hp|]. split; [exact Hi'|]. split; [exact Ec|]. eauto.
Qed.
Lemma parts_same x p os x' p' os' k o o' : In ((KVar (User x), OPtr p) :: os) ps -> In ((KVar (User x'), OPtr p') :: os') ps -> In (k, o) os -> In (k, o') os' ->
  x = x' /\ p = p' /\ os = os' /\ o = o'.
Proof.
  intros H1 H2 I1 I2. pose proof (concat_unique ps _ _ k o o' parts_nodup H1 H2 (or_intror I1) (or_intror I2)) as E. injection E as -> -> ->.
  repeat split. pose proof (parts_lookup _ _ _ H2 (or_intror I1)). pose proof (parts_lookup _ _ _ H2 (or_intror I2)). congruence.
Qed.

Lemma parts_belongs x a : belongs h x a -> exists p t os c, objects None p t os /\ In ((KVar (User x), OPtr p) :: os) ps /\ In (KObj a, OCell c) os.
Proof.
  induction 1 as [a Hp|b s a B IH Hp].
  - destruct (parts_points _ _ Hp) as (x' & p & t & os & c & O & Hps & Hi & _ & [= <-] & ->). eauto 8.
  - destruct IH as (p & t & os & c & O & Hps & Hi). destruct (parts_points _ _ Hp) as (x' & p' & t' & os' & c' & O' & Hps' & Hi' & _ & (d & Hd & Hc)).
    destruct (parts_same _ _ _ _ _ _ _ _ _ Hps Hps' Hi Hd) as (<- & <- & <- & _). eauto 8.
Qed.
Lemma parts_down x p os a : In ((KVar (User x), OPtr p) :: os) ps -> down os p a -> belongs h x a.
Proof.
  intros Hp D. induction D as [a ->|b c s a D IH Hi Hc].
  - apply belongs_root. constructor. eapply parts_lookup; [exact Hp|now left].
  - eapply belongs_child; [exact IH|]. econstructor; [|exact Hc]. eapply parts_lookup; [exact Hp|now right].
Qed.

Theorem parts_proper : proper h.
Proof.
  split.
  - intros s a Hp. destruct (parts_points _ _ Hp) as (x & p & t & os & c & O & Hps & Hi & _). exists c. eapply parts_lookup; [exact Hps|now right].
  - intros s s' a Hp Hp'. destruct (parts_points _ _ Hp) as (x & p & t & os & c & O & Hps & Hi & Ec & Es).
    destruct (parts_points _ _ Hp') as (x' & p' & t' & os' & c' & O' & Hps' & Hi' & Ec' & Es').
    destruct (parts_same _ _ _ _ _ _ _ _ _ Hps Hps' Hi Hi') as (<- & <- & <- & [= <-]). rewrite Ec in Ec'.
    destruct s as [y|b f], s' as [y'|b' f']; try discriminate.
    + destruct Es as [-> _], Es' as [-> _]. reflexivity.
    + injection Ec' as <-. destruct Es as (d & Hd & Hf), Es' as (d' & Hd' & Hf').
      destruct (parts_same _ _ _ _ _ _ _ _ _ Hps Hps Hd Hd') as (_ & _ & _ & [= <-]).
      assert (N : NoDup (map fst os)). { pose proof (concat_nodup _ _ parts_nodup Hps) as N. now inversion N. }
      destruct f, f'; cbn in Hf, Hf'; try reflexivity; exfalso; eapply (tree_children _ _ _ _ O N); eauto.
  - intros s a c Hp Lk. destruct (parts_points _ _ Hp) as (x & p & t & os & c' & O & Hps & Hi & Ec & _).
    rewrite (parts_lookup _ _ _ Hps (or_intror Hi)) in Lk. now injection Lk as <-.
  - intros a c Lk. destruct (parts_cell _ _ Lk) as (x & p & t & os & O & Hps & Hi). exists x. eapply parts_down; [exact Hps|]. eapply tree_down; eauto.
  - intros x y a Bx By. destruct (parts_belongs _ _ Bx) as (p & t & os & c & O & Hps & Hi). destruct (parts_belongs _ _ By) as (p' & t' & os' & c' & O' & Hps' & Hi').
    now destruct (parts_same _ _ _ _ _ _ _ _ _ Hps Hps' Hi Hi').
  - intros x. destruct (lookup h (KVar (Local x))) as [o|] eqn:Lk; [|reflexivity]. exfalso.
    destruct (parts_in _ _ Lk) as (y & q & os & _ & Hp & [[=]|Hi] & (t & O)). destruct (tree_keys _ _ _ _ O _ _ Hi) as (a & c & [=] & _).
Qed.
End Parts.

Theorem holds_proper h E : holds h E [] -> proper h.
Proof. intros Hh. destruct (holds_parts _ _ Hh) as (ps & Hp). eapply parts_proper; eauto. Qed.

(** ** The contents *)
Lemma holds_tree_of h E x : holds h E [] -> tree_of h x = option_map (fun v => Some (tree v)) (get E x).
Proof.
  intros Hh. unfold tree_of. destruct (get E x) as [v|] eqn:G; cbn [option_map].
  - destruct (holds_var _ _ _ _ _ Hh G) as (p & its & O & _). rewrite (own_var_lookup _ _ _ _ O). f_equal. destruct v as [e|]; cbn [point contents tree app] in *; [|reflexivity].
    front O (ITree None (Some p) (embed e)). apply (own_read _ _ _ _ _ _ O). pose proof (own_size _ _ _ _ _ O). lia.
  - destruct Hh as (Li & (its & R & P) & O). apply (owns_perm _ _ _ P) in O. rewrite (reps_fresh E its [] x R G (Forall_nil _) h O). reflexivity.
Qed.
Lemma holds_check h E x e : holds h E [] -> get E x = Some (Some e) -> exists a, lookup h (KVar (User x)) = Some (OPtr (Some a)) /\ CheckParent a h = (Ok tt, h).
Proof.
  intros Hh G. destruct (holds_var _ _ _ _ _ Hh G) as (p & its & O & _). cbn [point contents app] in O. exists p. split; [exact (own_var_lookup _ _ _ _ O)|].
  front O (ITree None (Some p) (embed e)). eapply wp_CheckParent; [exact O|apply well_formed_embed].
Qed.
Definition total_nodes (E : env) : nat := fold_right (fun v n => match snd v with Some e => esize e | None => 0 end + n) 0 E.
Lemma node_size_embed (e : expr) : node_size (embed e) = esize e.
Proof. induction e; cbn [embed node_size esize]; lia. Qed.
Lemma reps_size (E : env) its os : reps E its -> flat its os -> length os = length E + total_nodes E.
Proof.
  intros R. revert os. induction R as [|x v E p its R IH]; intros os F.
  - inversion F; subst. reflexivity.
  - apply flat_cons_inv in F as (o1 & os1 & Sv & F & ->). inversion Sv; subst. unfold total_nodes. cbn [fold_right snd]. fold (total_nodes E). destruct v as [e|]; cbn [point contents app] in *.
    + apply flat_cons_inv in F as (o2 & os2 & St & F & ->). inversion St; subst. match goal with O : objects _ _ _ _ |- _ => pose proof (objects_length _ _ _ _ O) as Lo end. rewrite node_size_embed in Lo.
      cbn [length]. rewrite app_length, (IH _ F), Lo. lia.
    + cbn [length]. rewrite (IH _ F). lia.
Qed.
Lemma holds_size h E : holds h E [] -> length h = length E + total_nodes E.
Proof.
  intros (Li & (its & R & P) & O). rewrite app_nil_r in P. apply (owns_perm _ _ _ P) in O. destruct O as (os & F & Ph & _).
  rewrite (Permutation_length Ph). eapply reps_size; eauto.
Qed.
End Mem.
