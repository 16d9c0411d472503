(** Reasoning about the heap: ownership lists. *)
From Coq Require Import String List ZArith Bool Arith Lia Permutation.
From Verif Require Import Base MathOp NodeModel ToStringModel SubsModel HeapModel HeapSpec.
Import ListNotations.
Local Open Scope string_scope. Local Open Scope list_scope. Local Open Scope nat_scope.

Lemma var_eqb_spec x y : reflect (x = y) (var_eqb x y).
Proof. destruct x, y; cbn; try (constructor; congruence); destruct (String.eqb_spec x x0); constructor; congruence. Qed.
Lemma key_eqb_spec x y : reflect (x = y) (key_eqb x y).
Proof.
  destruct x, y; cbn; try (constructor; congruence).
  - destruct (var_eqb_spec x x0); constructor; congruence.
  - destruct (Nat.eqb_spec a a0); constructor; congruence.
Qed.
Lemma key_eqb_refl k : key_eqb k k = true.
Proof. destruct (key_eqb_spec k k); congruence. Qed.

Section MapFacts.
Context {V : Type}.
Implicit Types h : heap V.

Lemma lookup_in h k o : lookup h k = Some o -> In (k, o) h.
Proof.
  induction h as [|[k' o'] h IH]; [discriminate|]. cbn. destruct (key_eqb_spec k k') as [->|].
  - intros [= ->]. now left.
  - intros H. right. auto.
Qed.
Lemma lookup_none h k : lookup h k = None -> ~ In k (map fst h).
Proof.
  induction h as [|[k' o'] h IH]; [intros _ []|]. cbn. destruct (key_eqb_spec k k') as [->|]; [discriminate|].
  intros H [E|Hin]; [congruence|]. now apply IH.
Qed.
Lemma lookup_split h k o os : NoDup (map fst h) -> Permutation h ((k, o) :: os) -> exists h1 h2,
  h = h1 ++ (k, o) :: h2 /\ ~ In k (map fst h1) /\ ~ In k (map fst h2) /\ Permutation (h1 ++ h2) os.
Proof.
  intros Hnd Hp. destruct (in_split (k, o) h) as (h1 & h2 & ->).
  { apply Permutation_in with (1 := Permutation_sym Hp). now left. }
  exists h1, h2. split; [reflexivity|]. rewrite map_app in Hnd. cbn in Hnd. apply NoDup_remove in Hnd as [_ Hn].
  rewrite in_app_iff in Hn. repeat split; try tauto.
  apply Permutation_cons_inv with (k, o). rewrite <- Hp. apply Permutation_middle.
Qed.
Lemma lookup_mid h1 h2 k o : ~ In k (map fst h1) -> lookup (h1 ++ (k, o) :: h2) k = Some o.
Proof.
  induction h1 as [|[k' o'] h1 IH]; cbn; intros H.
  - now rewrite key_eqb_refl.
  - destruct (key_eqb_spec k k') as [->|]; [tauto|]. apply IH. tauto.
Qed.
Lemma update_mid h1 h2 k o o' : ~ In k (map fst h1) -> update (h1 ++ (k, o) :: h2) k o' = h1 ++ (k, o') :: h2.
Proof.
  induction h1 as [|[k' ?] h1 IH]; cbn; intros H.
  - now rewrite key_eqb_refl.
  - destruct (key_eqb_spec k k') as [->|]; [tauto|]. rewrite IH by tauto. reflexivity.
Qed.
Lemma remove_mid h1 h2 k o : ~ In k (map fst h1) -> remove (h1 ++ (k, o) :: h2) k = h1 ++ h2.
Proof.
  induction h1 as [|[k' ?] h1 IH]; cbn; intros H.
  - now rewrite key_eqb_refl.
  - destruct (key_eqb_spec k k') as [->|]; [tauto|]. rewrite IH by tauto. reflexivity.
Qed.
End MapFacts.

(** Permutations of ownership lists. *)
Lemma pull_here {A} (x : A) l : Permutation (x :: l) (x :: l).
Proof. reflexivity. Qed.
Lemma pull_next {A} (x y : A) l l' : Permutation l (x :: l') -> Permutation (y :: l) (x :: y :: l').
Proof. intros H. rewrite H. apply perm_swap. Qed.
Lemma perm_cons_pull {A} (x : A) l r r' : Permutation r (x :: r') -> Permutation l r' -> Permutation (x :: l) r.
Proof. intros H1 H2. rewrite H1. now constructor. Qed.
Lemma pull_app {A} (x : A) d l l' : Permutation l (x :: l') -> Permutation (d ++ l) (x :: d ++ l').
Proof. intros H. rewrite H. symmetry. apply Permutation_middle. Qed.
Lemma pulld_here {A} (d l : list A) : Permutation (d ++ l) (d ++ l).
Proof. reflexivity. Qed.
Lemma pulld_next {A} (y : A) d l l' : Permutation l (d ++ l') -> Permutation (y :: l) (d ++ y :: l').
Proof. intros H. rewrite H. apply Permutation_middle. Qed.
Lemma pulld_app {A} (e d l l' : list A) : Permutation l (d ++ l') -> Permutation (e ++ l) (d ++ e ++ l').
Proof. intros H. rewrite H, !app_assoc. apply Permutation_app_tail, Permutation_app_comm. Qed.
Lemma perm_app_pull {A} (d l r r' : list A) : Permutation r (d ++ r') -> Permutation l r' -> Permutation (d ++ l) r.
Proof. intros H1 H2. rewrite H1. now apply Permutation_app_head. Qed.
Ltac pull := first [apply pull_here | apply pull_next; pull | apply pull_app; pull].
Ltac pulld := first [apply pulld_here | apply pulld_next; pulld | apply pulld_app; pulld].
Ltac perm := first [reflexivity | eapply perm_cons_pull; [pull|perm] | eapply perm_app_pull; [pulld|perm]].

Section Own.
Context {K : num_ops}.
Notation node := (node K).
Notation heap := (heap K).
Implicit Types h : heap.
Notation item := (item (K:=K)).

Lemma flat_cons_inv i its os : flat (K:=K) (i :: its) os -> exists o os', sat i o /\ flat its os' /\ os = o ++ os'.
Proof. inversion 1; subst; eauto. Qed.
Lemma flat_perm its its' os : Permutation its its' -> flat (K:=K) its os -> exists os', flat its' os' /\ Permutation os os'.
Proof.
  intros P. revert os. induction P as [|i a b P IH|i j a|a b c P1 IH1 P2 IH2]; intros os H.
  - exists os. auto.
  - apply flat_cons_inv in H as (o & os1 & S1 & F1 & ->). destruct (IH _ F1) as (os' & F & Q). exists (o ++ os'). split; [now constructor|]. now apply Permutation_app_head.
  - apply flat_cons_inv in H as (o & os1 & S1 & F1 & ->). apply flat_cons_inv in F1 as (o2 & os2 & S2 & F2 & ->).
    exists (o2 ++ o ++ os2). split; [now repeat constructor|].
    rewrite !app_assoc. apply Permutation_app_tail. apply Permutation_app_comm.
  - destruct (IH1 _ H) as (o1 & F1 & Q1). destruct (IH2 _ F1) as (o2 & F2 & Q2). exists o2. split; [exact F2|]. now rewrite Q1.
Qed.
Lemma owns_perm h its its' : Permutation its its' -> owns h its -> owns h its'.
Proof.
  intros P (os & F & Q & Nd). destruct (flat_perm _ _ _ P F) as (os' & F' & Q'). exists os'. split; [exact F'|].
  split; [now rewrite Q|exact Nd].
Qed.

Lemma own_open h par p ty op v x l r its : owns h (ITree par p (N ty op v x l r) :: its) ->
  exists a pl pr, p = Some a /\ owns h (ICell a (MkCell ty op v x par pl pr) :: ITree (Some a) pl l :: ITree (Some a) pr r :: its).
Proof.
  intros (os & F & Q & Nd). apply flat_cons_inv in F as (o & os1 & S1 & F1 & ->). inversion S1 as [? ? ? ? O| |]; subst. inversion O; subst.
  exists a, pl, pr. split; [reflexivity|]. eexists. split; [|split; [|exact Nd]].
  - apply flat_cons; [constructor|]. apply flat_cons; [constructor; eassumption|]. apply flat_cons; [constructor; eassumption|eassumption].
  - rewrite Q. cbn. now rewrite !app_assoc.
Qed.
Lemma own_close h par a ty op v x l r pl pr its :
  owns h (ICell a (MkCell ty op v x par pl pr) :: ITree (Some a) pl l :: ITree (Some a) pr r :: its) ->
  owns h (ITree par (Some a) (N ty op v x l r) :: its).
Proof.
  intros (os & F & Q & Nd). apply flat_cons_inv in F as (o & os1 & S1 & F1 & ->). apply flat_cons_inv in F1 as (o2 & os2 & S2 & F2 & ->).
  apply flat_cons_inv in F2 as (o3 & os3 & S3 & F3 & ->). inversion S1; subst. inversion S2; subst. inversion S3; subst.
  eexists. split; [|split; [|exact Nd]].
  - apply flat_cons; [|eassumption]. constructor. constructor; eassumption.
  - rewrite Q. cbn. now rewrite !app_assoc.
Qed.
Lemma own_nil_inv h par p its : owns h (ITree par p Nil :: its) -> p = None /\ owns h its.
Proof.
  intros (os & F & Q & Nd). apply flat_cons_inv in F as (o & os1 & S1 & F1 & ->). inversion S1 as [? ? ? ? O| |]; subst. inversion O; subst. split; [reflexivity|].
  exists os1. auto.
Qed.
Lemma own_nil h par its : owns h its -> owns h (ITree par None Nil :: its).
Proof. intros (os & F & Q & Nd). exists ([] ++ os). split; [|auto]. repeat constructor. exact F. Qed.
Lemma own_some h par a t its : owns h (ITree par (Some a) t :: its) -> exists ty op v x l r, t = N ty op v x l r.
Proof. destruct t; eauto 8. intros H. apply own_nil_inv in H as [H _]. discriminate. Qed.
Lemma own_none h par t its : owns h (ITree par None t :: its) -> t = Nil.
Proof. destruct t; auto. intros H. apply own_open in H as (? & ? & ? & H & _). discriminate. Qed.

Lemma own_cell h a c its : owns h (ICell a c :: its) -> exists h1 h2, h = h1 ++ (KObj a, OCell c) :: h2 /\
  ~ In (KObj a) (map fst h1) /\ ~ In (KObj a) (map fst h2) /\ exists os, flat its os /\ Permutation (h1 ++ h2) os /\ NoDup (map fst (h1 ++ (KObj a, OCell c) :: h2)).
Proof.
  intros (os & F & Q & Nd). apply flat_cons_inv in F as (o & os1 & S1 & F1 & ->). inversion S1; subst.
  destruct (lookup_split _ _ _ _ Nd Q) as (h1 & h2 & -> & N1 & N2 & P). exists h1, h2. repeat split; auto. exists os1. auto.
Qed.
Lemma own_lookup h a c its : owns h (ICell a c :: its) -> lookup h (KObj a) = Some (OCell c).
Proof. intros H. apply own_cell in H as (h1 & h2 & -> & N1 & _). now apply lookup_mid. Qed.
Lemma own_update h a c c' its : owns h (ICell a c :: its) -> owns (update h (KObj a) (OCell c')) (ICell a c' :: its).
Proof.
  intros H. apply own_cell in H as (h1 & h2 & -> & N1 & N2 & os & F & Q & Nd). rewrite update_mid by auto.
  exists ([(KObj a, OCell c')] ++ os). split; [constructor; [constructor|exact F]|]. split.
  - cbn. rewrite <- Q. symmetry. apply Permutation_middle.
  - rewrite map_app in *. exact Nd.
Qed.
Lemma own_remove h a c its : owns h (ICell a c :: its) -> owns (remove h (KObj a)) its.
Proof.
  intros H. apply own_cell in H as (h1 & h2 & -> & N1 & N2 & os & F & Q & Nd). rewrite remove_mid by auto.
  exists os. repeat split; auto. rewrite map_app in *. cbn in Nd. now apply NoDup_remove in Nd.
Qed.
Lemma own_var h x p its : owns h (IVar x p :: its) -> exists h1 h2, h = h1 ++ (KVar x, OPtr p) :: h2 /\
  ~ In (KVar x) (map fst h1) /\ ~ In (KVar x) (map fst h2) /\ exists os, flat its os /\ Permutation (h1 ++ h2) os /\ NoDup (map fst (h1 ++ (KVar x, OPtr p) :: h2)).
Proof.
  intros (os & F & Q & Nd). apply flat_cons_inv in F as (o & os1 & S1 & F1 & ->). inversion S1; subst.
  destruct (lookup_split _ _ _ _ Nd Q) as (h1 & h2 & -> & N1 & N2 & P). exists h1, h2. repeat split; auto. exists os1. auto.
Qed.
Lemma own_var_lookup h x p its : owns h (IVar x p :: its) -> lookup h (KVar x) = Some (OPtr p).
Proof. intros H. apply own_var in H as (h1 & h2 & -> & N1 & _). now apply lookup_mid. Qed.
Lemma own_var_update h x p p' its : owns h (IVar x p :: its) -> owns (update h (KVar x) (OPtr p')) (IVar x p' :: its).
Proof.
  intros H. apply own_var in H as (h1 & h2 & -> & N1 & N2 & os & F & Q & Nd). rewrite update_mid by auto.
  exists ([(KVar x, OPtr p')] ++ os). split; [constructor; [constructor|exact F]|]. split.
  - cbn. rewrite <- Q. symmetry. apply Permutation_middle.
  - rewrite map_app in *. exact Nd.
Qed.
Lemma own_var_remove h x p its : owns h (IVar x p :: its) -> owns (remove h (KVar x)) its.
Proof.
  intros H. apply own_var in H as (h1 & h2 & -> & N1 & N2 & os & F & Q & Nd). rewrite remove_mid by auto.
  exists os. repeat split; auto. rewrite map_app in *. cbn in Nd. now apply NoDup_remove in Nd.
Qed.
Lemma own_alloc h a c its : lookup h (KObj a) = None -> owns h its -> owns ((KObj a, OCell c) :: h) (ICell a c :: its).
Proof.
  intros Hl (os & F & Q & Nd). exists ([(KObj a, OCell c)] ++ os). split; [constructor; [constructor|exact F]|]. split.
  - now constructor.
  - cbn. constructor; [now apply lookup_none|exact Nd].
Qed.
Lemma own_enter h x p its : lookup h (KVar x) = None -> owns h its -> owns ((KVar x, OPtr p) :: h) (IVar x p :: its).
Proof.
  intros Hl (os & F & Q & Nd). exists ([(KVar x, OPtr p)] ++ os). split; [constructor; [constructor|exact F]|]. split.
  - now constructor.
  - cbn. constructor; [now apply lookup_none|exact Nd].
Qed.

(** Sizes: a tree has no more nodes than there are objects. *)
Lemma objects_length par p t os : objects (K:=K) par p t os -> length os = node_size t.
Proof. induction 1; cbn; [reflexivity|]. rewrite app_length. lia. Qed.
Definition item_size (i : item) : nat := match i with ITree _ _ t => node_size t | _ => 1 end.
Lemma flat_length its os : flat (K:=K) its os -> length os = fold_right (fun i n => item_size i + n) 0 its.
Proof.
  induction 1 as [|i its o os S F IH]; cbn; [reflexivity|]. rewrite app_length, IH.
  destruct S; cbn; try reflexivity. now rewrite (objects_length _ _ _ _ H).
Qed.
Lemma own_size h par p t its : owns h (ITree par p t :: its) -> node_size t <= length h.
Proof.
  intros (os & F & Q & _). rewrite (Permutation_length Q), (flat_length _ _ F). cbn. lia.
Qed.

(** ** Weakest preconditions *)
Definition wp {A} (m : M (K:=K) A) (Q : A -> heap -> Prop) (h : heap) : Prop :=
  exists a h', m h = (Ok a, h') /\ Q a h'.
Lemma wp_ret {A} (a : A) (Q : A -> heap -> Prop) h : Q a h -> wp (ret a) Q h.
Proof. exists a, h. auto. Qed.
Lemma wp_bind {A B} (m : M A) (f : A -> M B) Q h : wp m (fun a h' => wp (f a) Q h') h -> wp (bindM m f) Q h.
Proof. intros (a & h' & E & b & h2 & E2 & H). exists b, h2. unfold bindM. rewrite E. auto. Qed.
Lemma wp_mono {A} (m : M A) (Q Q' : A -> heap -> Prop) h : wp m Q h -> (forall a h', Q a h' -> Q' a h') -> wp m Q' h.
Proof. intros (a & h' & E & H) HQ. exists a, h'. auto. Qed.
Lemma wp_noexcept {A} (m : M A) Q h : wp m Q h -> wp (noexceptM m) Q h.
Proof. intros (a & h' & E & H). exists a, h'. unfold noexceptM. rewrite E. auto. Qed.

Lemma wp_fuel {A} (F : nat -> M A) (Q : A -> heap -> Prop) h : wp (F (length h)) Q h -> wp (fun h0 => F (length h0) h0) Q h.
Proof. intros (a & h' & E & H). exists a, h'. auto. Qed.

Lemma wp_load a c its (Q : cell K -> heap -> Prop) h : owns h (ICell a c :: its) -> Q c h -> wp (load a) Q h.
Proof. intros H HQ. exists c, h. unfold load. rewrite (own_lookup _ _ _ _ H). auto. Qed.
Lemma wp_store a c c' its (Q : unit -> heap -> Prop) h : owns h (ICell a c :: its) ->
  (forall h', owns h' (ICell a c' :: its) -> Q tt h') -> wp (store a c') Q h.
Proof.
  intros H HQ. exists tt, (update h (KObj a) (OCell c')). unfold store. rewrite (own_lookup _ _ _ _ H). split; [reflexivity|].
  apply HQ. eapply own_update; eauto.
Qed.
Lemma wp_free a c its (Q : unit -> heap -> Prop) h : owns h (ICell a c :: its) -> (forall h', owns h' its -> Q tt h') -> wp (free a) Q h.
Proof.
  intros H HQ. exists tt, (remove h (KObj a)). unfold free. rewrite (own_lookup _ _ _ _ H). split; [reflexivity|].
  apply HQ. eapply own_remove; eauto.
Qed.
Lemma wp_deref a (Q : addr -> heap -> Prop) h : Q a h -> wp (deref (Some a)) Q h.
Proof. apply wp_ret. Qed.
Lemma wp_get_fld a f c its (Q : option addr -> heap -> Prop) h : owns h (ICell a c :: its) -> Q (child c f) h -> wp (get_slot (SFld a f)) Q h.
Proof. intros H HQ. cbn. apply wp_bind. eapply wp_load; eauto. now apply wp_ret. Qed.
Lemma wp_get_var x p its (Q : option addr -> heap -> Prop) h : owns h (IVar x p :: its) -> Q p h -> wp (get_slot (SVar x)) Q h.
Proof. intros H HQ. exists p, h. cbn. rewrite (own_var_lookup _ _ _ _ H). auto. Qed.
Lemma wp_set_fld a f c its (Q : unit -> heap -> Prop) p h : owns h (ICell a c :: its) ->
  (forall h', owns h' (ICell a (with_child c f p) :: its) -> Q tt h') -> wp (set_slot (SFld a f) p) Q h.
Proof. intros H HQ. cbn. apply wp_bind. eapply wp_load; eauto. eapply wp_store; eauto. Qed.
Lemma wp_set_var x q p its (Q : unit -> heap -> Prop) h : owns h (IVar x q :: its) ->
  (forall h', owns h' (IVar x p :: its) -> Q tt h') -> wp (set_slot (SVar x) p) Q h.
Proof.
  intros H HQ. exists tt, (update h (KVar x) (OPtr p)). cbn. rewrite (own_var_lookup _ _ _ _ H). split; [reflexivity|].
  apply HQ. eapply own_var_update; eauto.
Qed.
Lemma wp_set_parent a c p its (Q : unit -> heap -> Prop) h : owns h (ICell a c :: its) ->
  (forall h', owns h' (ICell a (with_parent c p) :: its) -> Q tt h') -> wp (set_parent a p) Q h.
Proof. intros H HQ. unfold set_parent. apply wp_bind. eapply wp_load; eauto. eapply wp_store; eauto. Qed.
(** Changing the parent of a tree. *)
Lemma wp_adopt a t par p its (Q : unit -> heap -> Prop) h : owns h (ITree par (Some a) t :: its) ->
  (forall h', owns h' (ITree p (Some a) t :: its) -> Q tt h') -> wp (set_parent a p) Q h.
Proof.
  intros H HQ. destruct (own_some _ _ _ _ _ H) as (ty & op & v & x & l & r & ->).
  apply own_open in H as (a' & pl & pr & [= <-] & H). eapply wp_set_parent; eauto. intros h' H'. apply HQ.
  apply own_close with pl pr. exact H'.
Qed.
End Own.

(** Bring an item to the front of an ownership hypothesis. *)
Ltac front H x :=
  let P := fresh "P" in
  match type of H with
  | owns _ ?its => eassert (P : Permutation its (x :: _)) by pull; apply (owns_perm _ _ _ P) in H; clear P
  end.
Ltac own H := eapply owns_perm; [|exact H]; perm.
Ltac ownf H := refine (owns_perm _ _ _ _ H); pull.

Section Ops.
Context {K : num_ops}.
Notation node := (node K).
Notation heap := (heap K).
Implicit Types h : heap.
Notation item := (item (K:=K)).
Variable pick : heap -> addr.
Hypothesis Hpick : allocator pick.

Lemma with_child_eta (c : cell K) f : with_child c f (child c f) = c.
Proof. now destruct c, f. Qed.
Lemma child_with (c : cell K) f p : child (with_child c f p) f = p.
Proof. now destruct c, f. Qed.
Lemma with_child2 (c : cell K) f p q : with_child (with_child c f p) f q = with_child c f q.
Proof. now destruct c, f. Qed.

(** The item that contains a slot, as a function of the pointer in the slot. *)
Inductive slot_at : slot -> (option addr -> item) -> Prop :=
| sa_var x : slot_at (SVar x) (IVar x)
| sa_fld a f c : slot_at (SFld a f) (fun q => ICell a (with_child c f q)).

Lemma wp_get s upd p its (Q : option addr -> heap -> Prop) h : slot_at s upd -> owns h (upd p :: its) -> Q p h -> wp (get_slot s) Q h.
Proof.
  destruct 1; intros H HQ.
  - eapply wp_get_var; eauto.
  - eapply wp_get_fld; eauto. now rewrite child_with.
Qed.
Lemma wp_set s upd p q its (Q : unit -> heap -> Prop) h : slot_at s upd -> owns h (upd p :: its) ->
  (forall h', owns h' (upd q :: its) -> Q tt h') -> wp (set_slot s q) Q h.
Proof.
  destruct 1; intros H HQ.
  - eapply wp_set_var; eauto.
  - eapply wp_set_fld; eauto. intros h' H'. apply HQ. now rewrite with_child2 in H'.
Qed.
Lemma wp_move_out s upd p its (Q : option addr -> heap -> Prop) h : slot_at s upd -> owns h (upd p :: its) ->
  (forall h', owns h' (upd None :: its) -> Q p h') -> wp (move_out s) Q h.
Proof.
  intros S H HQ. unfold move_out. apply wp_bind. eapply wp_get; eauto. apply wp_bind. eapply wp_set; eauto.
  intros h' H'. apply wp_ret. auto.
Qed.

Lemma wp_emplaceChildren a ty op v x par pl pr its stk (Q : list addr -> heap -> Prop) h :
  owns h (ICell a (MkCell ty op v x par pl pr) :: its) ->
  (forall h', owns h' (ICell a (MkCell ty op v x par None None) :: its) -> Q (push pr (push pl stk)) h') ->
  wp (emplaceChildren a stk) Q h.
Proof.
  intros H HQ. unfold emplaceChildren. apply wp_bind.
  eapply wp_move_out with (p := pl); [apply (sa_fld a L (MkCell ty op v x par None pr))|exact H|]. intros h1 H1.
  apply wp_bind. eapply wp_move_out with (p := pr); [apply (sa_fld a R (MkCell ty op v x par None None))|exact H1|]. intros h2 H2.
  apply wp_ret. apply HQ. exact H2.
Qed.

(** A way to destroy a node without children. *)
Definition destroys_leaf (del : option addr -> M (K:=K) unit) : Prop := forall a ty op v x par its (Q : unit -> heap -> Prop) h,
  owns h (ICell a (MkCell ty op v x par None None) :: its) -> (forall h', owns h' its -> Q tt h') -> wp (del (Some a)) Q h.

Lemma wp_release_loop del (Hdel : destroys_leaf del) (t : node) : forall par p its stk fuel (Q : unit -> heap -> Prop) h,
  owns h (ITree par p t :: its) -> (forall h', owns h' its -> wp (ReleaseLoop del fuel stk) Q h') ->
  wp (ReleaseLoop del (node_size t + fuel) (push p stk)) Q h.
Proof.
  induction t as [|ty op v x l IHl r IHr]; intros par p its stk fuel Q h H HQ.
  - apply own_nil_inv in H as [-> H]. cbn. auto.
  - apply own_open in H as (a & pl & pr & -> & H). cbn [push node_size plus ReleaseLoop].
    apply wp_bind. eapply wp_emplaceChildren; [exact H|]. intros h1 H1.
    apply wp_bind. eapply wp_load; [exact H1|]. cbn [c_left c_right]. apply wp_bind. eapply Hdel; [exact H1|]. intros h2 H2.
    replace (node_size l + node_size r + fuel) with (node_size r + (node_size l + fuel)) by lia.
    eapply IHr; [ownf H2|]. intros h3 H3. eapply IHl; [exact H3|]. exact HQ.
Qed.

(** Destroying a node that has lost its children needs room for one destructor call. *)
Lemma wp_destroy_leaf room : destroys_leaf (destroy (S room)).
Proof.
  intros a ty op v x par its Q h H HQ. cbn [destroy]. apply wp_bind.
  apply (wp_fuel (fun n => bindM (emplaceChildren a []) (fun stk => ReleaseLoop (destroy room) (S n) stk))).
  set (n := length h) in *. clearbody n.
  apply wp_bind. eapply wp_emplaceChildren; [exact H|]. intros h1 H1. cbn [push ReleaseLoop]. apply wp_ret.
  apply wp_bind. eapply wp_load; [exact H1|]. cbn [c_left c_right]. destruct room; cbn [destroy]; (apply wp_bind, wp_ret; apply wp_bind, wp_ret; eapply wp_free; [exact H1|exact HQ]).
Qed.

(** Destroying a tree of any size needs room for two. *)
Lemma wp_destroy room par p t its (Q : unit -> heap -> Prop) h : owns h (ITree par p t :: its) ->
  (forall h', owns h' its -> Q tt h') -> wp (destroy (S (S room)) p) Q h.
Proof.
  intros H HQ. destruct t as [|ty op v x l r].
  - apply own_nil_inv in H as [-> H]. cbn. apply wp_ret. auto.
  - pose proof (own_size _ _ _ _ _ H) as Hs. apply own_open in H as (a & pl & pr & -> & H).
    change (destroy (S (S room)) (Some a)) with (Release (K:=K) (destroy (S room)) a;; do c <- load (K:=K) a; destroy (S room) (c_right c);; destroy (S room) (c_left c);; free a).
    apply wp_bind.
    apply (wp_fuel (fun n => bindM (emplaceChildren a []) (fun stk => ReleaseLoop (destroy (S room)) (S n) stk))).
    cbn [node_size] in Hs. set (n := length h) in *. clearbody n.
    apply wp_bind. eapply wp_emplaceChildren; [exact H|]. intros h1 H1.
    replace (S n) with (node_size r + (node_size l + S (n - node_size r - node_size l))) by lia.
    front H1 (ITree (Some a) pr r). eapply (wp_release_loop _ (wp_destroy_leaf room)); [exact H1|]. intros h2 H2.
    front H2 (ITree (Some a) pl l). eapply (wp_release_loop _ (wp_destroy_leaf room)); [exact H2|]. intros h3 H3.
    cbn [ReleaseLoop]. apply wp_ret. apply wp_bind. eapply wp_load; [exact H3|]. cbn [c_left c_right destroy].
    apply wp_bind, wp_ret. apply wp_bind, wp_ret. eapply wp_free; eauto.
Qed.

Lemma wp_delete par p t its (Q : unit -> heap -> Prop) h : owns h (ITree par p t :: its) ->
  (forall h', owns h' its -> Q tt h') -> wp (delete p) Q h.
Proof. exact (wp_destroy 0 par p t its Q h). Qed.

Lemma wp_reset s upd par p t q its (Q : unit -> heap -> Prop) h : slot_at s upd ->
  owns h (upd p :: ITree par p t :: its) -> (forall h', owns h' (upd q :: its) -> Q tt h') -> wp (reset s q) Q h.
Proof.
  intros S H HQ. unfold reset. apply wp_bind. eapply wp_get; eauto. apply wp_bind. eapply wp_set; eauto.
  intros h1 H1. eapply wp_delete; [ownf H1|]. intros h2 H2. auto.
Qed.
(** The slot was empty. *)
Lemma wp_reset_null s upd q its (Q : unit -> heap -> Prop) h : slot_at s upd ->
  owns h (upd None :: its) -> (forall h', owns h' (upd q :: its) -> Q tt h') -> wp (reset s q) Q h.
Proof.
  intros S H HQ. eapply wp_reset with (par := None) (t := Nil); eauto.
  refine (owns_perm _ _ _ (perm_swap _ _ _) _). apply own_nil. exact H.
Qed.

Lemma wp_make_node ty op v x its (Q : addr -> heap -> Prop) h : owns h its ->
  (forall a h', owns h' (ICell a (MkCell ty op v x None None None) :: its) -> Q a h') -> wp (make_node pick ty op v x) Q h.
Proof. intros H HQ. eexists. eexists. split; [reflexivity|]. apply HQ. apply own_alloc; auto. Qed.
(** A new node without children is a tree. *)
Lemma own_leaf h a ty op v x par its : owns h (ICell a (MkCell ty op v x par None None) :: its) ->
  owns h (ITree par (Some a) (N ty op v x Nil Nil) :: its).
Proof.
  intros H. apply own_close with None None. front H (ICell a (MkCell ty op v x par None None)).
  refine (owns_perm _ _ _ _ (own_nil _ (Some a) _ (own_nil _ (Some a) _ H))). perm.
Qed.

(** ** Clone *)
Definition cell_of (c : cell K) (par : option addr) : cell K := MkCell (c_type c) (c_op c) (c_value c) (c_name c) par None None.
Lemma wp_MakeNode src c par its (Q : addr -> heap -> Prop) h : owns h (ICell src c :: its) ->
  (forall a h', owns h' (ICell a (cell_of c par) :: ICell src c :: its) -> Q a h') -> wp (MakeNode pick src par) Q h.
Proof.
  intros H HQ. unfold MakeNode. apply wp_bind. eapply wp_load; [exact H|]. apply wp_bind. eapply wp_make_node; [exact H|].
  intros a h1 H1. apply wp_bind. eapply wp_set_parent; [exact H1|]. intros h2 H2. apply wp_ret. apply HQ. exact H2.
Qed.
Lemma wp_EmplaceChildren src c tgt its stk (Q : _ -> heap -> Prop) h : owns h (ICell src c :: its) ->
  Q (EmplaceNode (c_right c) tgt R (EmplaceNode (c_left c) tgt L stk)) h -> wp (EmplaceChildren src tgt stk) Q h.
Proof. intros H HQ. unfold EmplaceChildren. apply wp_bind. eapply wp_load; [exact H|]. now apply wp_ret. Qed.

Lemma wp_clone_loop (t : node) : forall spar p tgt f c its stk fuel (Q : unit -> heap -> Prop) h,
  owns h (ITree spar p t :: ICell tgt (with_child c f None) :: its) ->
  (forall q h', owns h' (ITree spar p t :: ICell tgt (with_child c f q) :: ITree (Some tgt) q t :: its) -> wp (CloneLoop pick fuel stk) Q h') ->
  wp (CloneLoop pick (node_size t + fuel) (EmplaceNode p tgt f stk)) Q h.
Proof.
  induction t as [|ty op v x l IHl r IHr]; intros spar p tgt f c its stk fuel Q h H HQ.
  - pose proof H as H0. apply own_nil_inv in H as [-> H]. cbn. apply (HQ None).
    refine (owns_perm _ _ _ _ (own_nil _ (Some tgt) _ H0)). perm.
  - apply own_open in H as (a & pl & pr & -> & H). cbn [EmplaceNode node_size plus CloneLoop].
    apply wp_bind. eapply wp_MakeNode; [exact H|]. intros a' h1 H1. cbn [cell_of c_type c_op c_value c_name] in H1.
    apply wp_bind. eapply wp_reset_null; [apply (sa_fld tgt f c)|ownf H1|]. intros h2 H2.
    apply wp_bind. front H2 (ICell a (MkCell ty op v x spar pl pr)). eapply wp_EmplaceChildren; [exact H2|]. cbn [c_left c_right].
    replace (node_size l + node_size r + fuel) with (node_size r + (node_size l + fuel)) by lia.
    front H2 (ICell a' (MkCell ty op v x (Some tgt) None None)). front H2 (ITree (Some a) pr r).
    eapply (IHr _ _ a' R (MkCell ty op v x (Some tgt) None None)); [exact H2|]. intros qr h3 H3. cbn [with_child c_type c_op c_value c_name c_parent c_left c_right] in H3.
    front H3 (ICell a' (MkCell ty op v x (Some tgt) None qr)). front H3 (ITree (Some a) pl l).
    eapply (IHl _ _ a' L (MkCell ty op v x (Some tgt) None qr)); [exact H3|]. intros ql h4 H4. cbn [with_child c_type c_op c_value c_name c_parent c_left c_right] in H4.
    apply (HQ (Some a')).
    apply own_close with pl pr.
    front H4 (ITree (Some a') qr r). front H4 (ITree (Some a') ql l). front H4 (ICell a' (MkCell ty op v x (Some tgt) ql qr)).
    apply own_close in H4. own H4.
Qed.

Lemma wp_Clone par p t its (Q : addr -> heap -> Prop) h : owns h (ITree par p t :: its) -> t <> Nil ->
  (forall a h', owns h' (ITree None (Some a) t :: ITree par p t :: its) -> Q a h') -> wp (Clone pick p) Q h.
Proof.
  intros H Ht HQ. destruct t as [|ty op v x l r]; [congruence|].
  pose proof (own_size _ _ _ _ _ H) as Hs. apply own_open in H as (a & pl & pr & -> & H).
  apply (wp_fuel (fun n => bindM (deref (Some a)) (fun src => bindM (MakeNode pick src None) (fun r0 => bindM (EmplaceChildren src r0 []) (fun stk =>
    bindM (CloneLoop pick (S n) stk) (fun _ => ret r0)))))).
  cbn [node_size] in Hs. set (n := length h) in *. clearbody n.
  apply wp_bind, wp_deref, wp_bind. eapply wp_MakeNode; [exact H|]. intros a' h1 H1. cbn [cell_of c_type c_op c_value c_name] in H1.
  apply wp_bind. front H1 (ICell a (MkCell ty op v x par pl pr)). eapply wp_EmplaceChildren; [exact H1|]. cbn [c_left c_right].
  apply wp_bind. replace (S n) with (node_size r + (node_size l + S (n - node_size r - node_size l))) by lia.
  front H1 (ICell a' (MkCell ty op v x None None None)). front H1 (ITree (Some a) pr r).
  eapply (wp_clone_loop r _ _ a' R (MkCell ty op v x None None None)); [exact H1|]. intros qr h3 H3. cbn [with_child c_type c_op c_value c_name c_parent c_left c_right] in H3.
  front H3 (ICell a' (MkCell ty op v x None None qr)). front H3 (ITree (Some a) pl l).
  eapply (wp_clone_loop l _ _ a' L (MkCell ty op v x None None qr)); [exact H3|]. intros ql h4 H4. cbn [with_child c_type c_op c_value c_name c_parent c_left c_right] in H4.
  cbn [CloneLoop]. apply wp_ret, wp_ret. apply HQ.
  front H4 (ITree (Some a') qr r). front H4 (ITree (Some a') ql l). front H4 (ICell a' (MkCell ty op v x None ql qr)).
  apply own_close in H4.
  front H4 (ITree (Some a) pr r). front H4 (ITree (Some a) pl l). front H4 (ICell a (MkCell ty op v x par pl pr)).
  apply own_close in H4. own H4.
Qed.

(** ** Copies *)
Lemma own_tree_cases h par p t its : owns h (ITree par p t :: its) -> (p = None /\ t = Nil) \/ (exists a, p = Some a /\ t <> Nil).
Proof.
  destruct t as [|ty op v x l r].
  - intros H. apply own_nil_inv in H as [-> _]. auto.
  - intros H. apply own_open in H as (a & ? & ? & -> & _). right. exists a. split; [reflexivity|discriminate].
Qed.

Lemma wp_CopyChild this rhs c d f p opar s0 s its (Q : unit -> heap -> Prop) h :
  owns h (ICell rhs c :: ITree (Some rhs) (child c f) s :: ICell this (with_child d f p) :: ITree opar p s0 :: its) ->
  (forall q h', owns h' (ICell rhs c :: ITree (Some rhs) (child c f) s :: ICell this (with_child d f q) :: ITree (Some this) q s :: its) -> Q tt h') ->
  wp (CopyChild pick this rhs f) Q h.
Proof.
  intros H HQ. unfold CopyChild. apply wp_bind. eapply wp_load; [exact H|].
  front H (ITree (Some rhs) (child c f) s). destruct (own_tree_cases _ _ _ _ _ H) as [[E ->]|(b & E & Hs)].
  - rewrite E in *. apply own_nil_inv in H as [_ H]. front H (ITree opar p s0). front H (ICell this (with_child d f p)).
    eapply wp_reset; [apply (sa_fld this f d)|exact H|]. intros h1 H1. apply (HQ None).
    refine (owns_perm _ _ _ _ (own_nil _ (Some rhs) _ (own_nil _ (Some this) _ H1))). perm.
  - rewrite E in *. apply wp_bind. eapply wp_Clone; [exact H|exact Hs|]. intros q h1 H1. apply wp_bind.
    front H1 (ITree opar p s0). front H1 (ICell this (with_child d f p)).
    eapply wp_reset; [apply (sa_fld this f d)|exact H1|]. intros h2 H2. apply wp_bind. eapply wp_load; [exact H2|].
    rewrite child_with. apply wp_bind, wp_deref. eapply wp_adopt; [ownf H2|]. intros h3 H3. apply (HQ (Some q)). own H3.
Qed.
Lemma wp_CopyChild_self a c f s its (Q : unit -> heap -> Prop) h :
  owns h (ICell a c :: ITree (Some a) (child c f) s :: its) ->
  (forall q h', owns h' (ICell a (with_child c f q) :: ITree (Some a) q s :: its) -> Q tt h') ->
  wp (CopyChild pick a a f) Q h.
Proof.
  intros H HQ. unfold CopyChild. apply wp_bind. eapply wp_load; [exact H|].
  rewrite <- (with_child_eta c f) in H at 1. remember (child c f) as p eqn:Ep.
  front H (ITree (Some a) p s). destruct (own_tree_cases _ _ _ _ _ H) as [[E ->]|(b & E & Hs)]; rewrite E in *.
  - front H (ICell a (with_child c f None)).
    eapply wp_reset; [apply (sa_fld a f c)|exact H|]. intros h1 H1. apply (HQ None).
    refine (owns_perm _ _ _ _ (own_nil _ (Some a) _ H1)). perm.
  - apply wp_bind. eapply wp_Clone; [exact H|exact Hs|]. intros q h1 H1. apply wp_bind.
    front H1 (ITree (Some a) (Some b) s). front H1 (ICell a (with_child c f (Some b))).
    eapply wp_reset; [apply (sa_fld a f c)|exact H1|]. intros h2 H2. apply wp_bind. eapply wp_load; [exact H2|].
    rewrite child_with. apply wp_bind, wp_deref. eapply wp_adopt; [ownf H2|]. intros h3 H3. apply (HQ (Some q)). own H3.
Qed.

(** [*this = *rhs] for different objects: this becomes a copy (parent pointer included). *)
Lemma wp_CopyAssign par par' this rhs t t' its (Q : unit -> heap -> Prop) h :
  owns h (ITree par (Some rhs) t :: ITree par' (Some this) t' :: its) ->
  (forall h', owns h' (ITree par (Some rhs) t :: ITree par (Some this) t :: its) -> Q tt h') -> wp (CopyAssign pick this rhs) Q h.
Proof.
  intros H HQ. destruct (own_some _ _ _ _ _ H) as (ty & op & v & x & l & r & ->).
  front H (ITree par' (Some this) t'). destruct (own_some _ _ _ _ _ H) as (ty' & op' & v' & x' & l' & r' & ->).
  apply own_open in H as (a & pl' & pr' & [= <-] & H). front H (ITree par (Some rhs) (N ty op v x l r)).
  apply own_open in H as (b & pl & pr & [= <-] & H).
  unfold CopyAssign. apply wp_bind. eapply wp_load; [exact H|]. apply wp_bind.
  eapply wp_load; [ownf H|]. apply wp_bind.
  eapply wp_store; [ownf H|]. intros h1 H1. cbn [with_parent with_data c_type c_op c_value c_name c_parent c_left c_right] in H1.
  apply wp_bind. front H1 (ITree (Some this) pl' l'). front H1 (ICell this (MkCell ty op v x par pl' pr')). front H1 (ITree (Some rhs) pl l).
  front H1 (ICell rhs (MkCell ty op v x par pl pr)).
  eapply (wp_CopyChild this rhs (MkCell ty op v x par pl pr) (MkCell ty op v x par None pr') L); [exact H1|]. intros ql h2 H2.
  cbn [with_child child c_type c_op c_value c_name c_parent c_left c_right] in H2.
  front H2 (ITree (Some this) pr' r'). front H2 (ICell this (MkCell ty op v x par ql pr')). front H2 (ITree (Some rhs) pr r).
  front H2 (ICell rhs (MkCell ty op v x par pl pr)).
  eapply (wp_CopyChild this rhs (MkCell ty op v x par pl pr) (MkCell ty op v x par ql None) R); [exact H2|]. intros qr h3 H3.
  cbn [with_child child c_type c_op c_value c_name c_parent c_left c_right] in H3.
  apply HQ. apply own_close with pl pr. front H3 (ITree (Some this) qr r). front H3 (ITree (Some this) ql l).
  front H3 (ICell this (MkCell ty op v x par ql qr)). apply own_close in H3. own H3.
Qed.
(** [*this = *this] *)
Lemma wp_CopyAssign_self par a t its (Q : unit -> heap -> Prop) h :
  owns h (ITree par (Some a) t :: its) -> (forall h', owns h' (ITree par (Some a) t :: its) -> Q tt h') -> wp (CopyAssign pick a a) Q h.
Proof.
  intros H HQ. destruct (own_some _ _ _ _ _ H) as (ty & op & v & x & l & r & ->).
  apply own_open in H as (b & pl & pr & [= <-] & H).
  unfold CopyAssign. apply wp_bind. eapply wp_load; [exact H|]. apply wp_bind. eapply wp_load; [exact H|]. apply wp_bind.
  eapply wp_store; [exact H|]. intros h1 H1. cbn [with_parent with_data c_type c_op c_value c_name c_parent c_left c_right] in H1.
  apply wp_bind. eapply wp_CopyChild_self with (f := L); [exact H1|]. intros ql h2 H2.
  cbn [with_child child c_type c_op c_value c_name c_parent c_left c_right] in H2.
  front H2 (ITree (Some a) pr r). front H2 (ICell a (MkCell ty op v x par ql pr)).
  eapply wp_CopyChild_self with (f := R); [exact H2|]. intros qr h3 H3.
  cbn [with_child child c_type c_op c_value c_name c_parent c_left c_right] in H3.
  apply HQ. apply own_close with ql qr. own H3.
Qed.

Lemma wp_CopyConstruct par rhs t its (Q : addr -> heap -> Prop) h : owns h (ITree par (Some rhs) t :: its) ->
  (forall a h', owns h' (ITree par (Some rhs) t :: ITree par (Some a) t :: its) -> Q a h') -> wp (CopyConstruct pick rhs) Q h.
Proof.
  intros H HQ. unfold CopyConstruct. apply wp_bind. eapply wp_make_node; [exact H|]. intros a h1 H1. apply own_leaf in H1.
  apply wp_bind. front H1 (ITree par (Some rhs) t). eapply wp_CopyAssign; [exact H1|]. intros h2 H2. apply wp_ret. auto.
Qed.

(** ** Moves *)
Lemma wp_MoveChild this rhs c d f p opar s0 s its (Q : unit -> heap -> Prop) h :
  owns h (ICell rhs c :: ITree (Some rhs) (child c f) s :: ICell this (with_child d f p) :: ITree opar p s0 :: its) ->
  (forall q h', owns h' (ICell rhs (with_child c f None) :: ICell this (with_child d f q) :: ITree (Some this) q s :: its) -> Q tt h') ->
  wp (MoveChild this rhs f) Q h.
Proof.
  intros H HQ. unfold MoveChild. apply wp_bind. rewrite <- (with_child_eta c f) in H at 1. remember (child c f) as q eqn:Eq.
  eapply wp_move_out; [apply (sa_fld rhs f c)|exact H|]. intros h1 H1. apply wp_bind.
  front H1 (ITree opar p s0). front H1 (ICell this (with_child d f p)). eapply wp_reset; [apply (sa_fld this f d)|exact H1|]. intros h2 H2.
  apply wp_bind. eapply wp_load; [exact H2|]. rewrite child_with. front H2 (ITree (Some rhs) q s).
  destruct (own_tree_cases _ _ _ _ _ H2) as [[-> ->]|(b & -> & Hs)].
  - apply own_nil_inv in H2 as [_ H2]. apply wp_ret. apply (HQ None). refine (owns_perm _ _ _ _ (own_nil _ (Some this) _ H2)). perm.
  - eapply wp_adopt; [exact H2|]. intros h3 H3. apply (HQ (Some b)). own H3.
Qed.
Lemma wp_MoveChild_self a c f s its (Q : unit -> heap -> Prop) h :
  owns h (ICell a c :: ITree (Some a) (child c f) s :: its) ->
  (forall h', owns h' (ICell a c :: ITree (Some a) (child c f) s :: its) -> Q tt h') -> wp (MoveChild a a f) Q h.
Proof.
  intros H HQ. unfold MoveChild. apply wp_bind. rewrite <- (with_child_eta c f) in H at 1. remember (child c f) as q eqn:Eq.
  eapply wp_move_out; [apply (sa_fld a f c)|exact H|]. intros h1 H1. apply wp_bind.
  eapply wp_reset_null; [apply (sa_fld a f c)|exact H1|]. intros h2 H2.
  apply wp_bind. eapply wp_load; [exact H2|]. rewrite child_with. front H2 (ITree (Some a) q s).
  assert (Ec : with_child c f q = c) by (rewrite Eq; apply with_child_eta). rewrite Ec in H2.
  destruct (own_tree_cases _ _ _ _ _ H2) as [[-> ->]|(b & -> & Hs)].
  - apply wp_ret. apply HQ. own H2.
  - eapply wp_adopt; [exact H2|]. intros h3 H3. apply HQ. own H3.
Qed.

Definition zero_node : node := N NUMBER MATH_NULL (n_ofZ 0) "" Nil Nil.
(** [*this = std::move( *rhs)] for different objects. *)
Lemma wp_MoveAssign par par' this rhs t t' its (Q : unit -> heap -> Prop) h :
  owns h (ITree par (Some rhs) t :: ITree par' (Some this) t' :: its) ->
  (forall h', owns h' (ITree None (Some rhs) zero_node :: ITree par (Some this) t :: its) -> Q tt h') -> wp (MoveAssign this rhs) Q h.
Proof.
  intros H HQ. destruct (own_some _ _ _ _ _ H) as (ty & op & v & x & l & r & ->).
  front H (ITree par' (Some this) t'). destruct (own_some _ _ _ _ _ H) as (ty' & op' & v' & x' & l' & r' & ->).
  apply own_open in H as (a & pl' & pr' & [= <-] & H). front H (ITree par (Some rhs) (N ty op v x l r)).
  apply own_open in H as (b & pl & pr & [= <-] & H).
  unfold MoveAssign. apply wp_bind. eapply wp_load; [exact H|]. apply wp_bind.
  eapply wp_store; [exact H|]. intros h1 H1. apply wp_bind. eapply wp_load; [ownf H1|]. apply wp_bind.
  eapply wp_store; [ownf H1|]. intros h2 H2. cbn [with_parent with_data c_type c_op c_value c_name c_parent c_left c_right] in H2.
  apply wp_bind. front H2 (ITree (Some this) pl' l'). front H2 (ICell this (MkCell ty op v x par pl' pr')). front H2 (ITree (Some rhs) pl l).
  front H2 (ICell rhs (MkCell NUMBER MATH_NULL (n_ofZ (n:=K) 0) "" None pl pr)).
  eapply (wp_MoveChild this rhs _ (MkCell ty op v x par None pr') L); [exact H2|]. intros ql h3 H3.
  cbn [with_child child c_type c_op c_value c_name c_parent c_left c_right] in H3.
  front H3 (ITree (Some this) pr' r'). front H3 (ICell this (MkCell ty op v x par ql pr')). front H3 (ITree (Some rhs) pr r).
  front H3 (ICell rhs (MkCell NUMBER MATH_NULL (n_ofZ (n:=K) 0) "" None None pr)).
  eapply (wp_MoveChild this rhs _ (MkCell ty op v x par ql None) R); [exact H3|]. intros qr h4 H4.
  cbn [with_child child c_type c_op c_value c_name c_parent c_left c_right] in H4.
  apply HQ. apply own_leaf. front H4 (ITree (Some this) qr r). front H4 (ITree (Some this) ql l).
  front H4 (ICell this (MkCell ty op v x par ql qr)). apply own_close in H4. own H4.
Qed.
Lemma wp_MoveAssign_self par a t its (Q : unit -> heap -> Prop) h : owns h (ITree par (Some a) t :: its) ->
  (forall h', owns h' (ITree par (Some a) t :: its) -> Q tt h') -> wp (MoveAssign a a) Q h.
Proof.
  intros H HQ. destruct (own_some _ _ _ _ _ H) as (ty & op & v & x & l & r & ->).
  apply own_open in H as (b & pl & pr & [= <-] & H).
  unfold MoveAssign. apply wp_bind. eapply wp_load; [exact H|]. apply wp_bind.
  eapply wp_store; [exact H|]. intros h1 H1. apply wp_bind. eapply wp_load; [exact H1|]. apply wp_bind.
  eapply wp_store; [exact H1|]. intros h2 H2. cbn [with_parent with_data c_type c_op c_value c_name c_parent c_left c_right] in H2.
  apply wp_bind. eapply wp_MoveChild_self with (f := L); [exact H2|]. intros h3 H3. cbn [child c_left] in H3.
  front H3 (ITree (Some a) pr r). front H3 (ICell a (MkCell ty op v x par pl pr)).
  eapply wp_MoveChild_self with (f := R); [exact H3|]. intros h4 H4. apply HQ. apply own_close with pl pr. own H4.
Qed.

(** ** Operators *)
(** Passing an operand: what is needed before, and what is left when the operand has become a
    child. *)
Inductive passes : operand -> node -> list item -> list item -> Prop :=
| pass_copy s upd p t : slot_at s upd -> passes (CopyOf s) t [upd p; ITree None p t] [upd p; ITree None p t]
| pass_move s upd p t : slot_at s upd -> passes (MoveOf s) t [upd p; ITree None p t] [upd None]
| pass_temp p t : passes (Temp p) t [ITree None p t] [].

Lemma wp_CopyOrMoveTo parent f o t i j its c (Q : unit -> heap -> Prop) h : passes o t i j -> t <> Nil ->
  owns h (ICell parent (with_child c f None) :: i ++ its) ->
  (forall q h', owns h' (ICell parent (with_child c f q) :: ITree (Some parent) q t :: j ++ its) -> Q tt h') -> wp (CopyOrMoveTo pick parent f o) Q h.
Proof.
  intros P Ht. destruct P as [s upd p t S|s upd p t S|p t]; intros H HQ; cbn [CopyOrMoveTo app] in *.
  - front H (ITree None p t). destruct (own_tree_cases _ _ _ _ _ H) as [[_ ->]|(a & -> & _)]; [congruence|].
    apply wp_bind. eapply wp_get; [exact S|ownf H|]. apply wp_bind, wp_deref, wp_bind.
    eapply wp_CopyConstruct; [exact H|]. intros q h1 H1. apply wp_bind. eapply wp_adopt; [ownf H1|]. intros h2 H2.
    eapply wp_reset_null; [apply (sa_fld parent f c)|ownf H2|]. intros h3 H3. apply (HQ (Some q)). own H3.
  - front H (ITree None p t). destruct (own_tree_cases _ _ _ _ _ H) as [[_ ->]|(a & -> & _)]; [congruence|].
    apply wp_bind. eapply wp_get; [exact S|ownf H|]. apply wp_bind, wp_deref, wp_bind.
    eapply wp_adopt; [exact H|]. intros h2 H2. apply wp_bind. eapply wp_move_out; [exact S|ownf H2|]. intros h3 H3.
    eapply wp_reset_null; [apply (sa_fld parent f c)|ownf H3|]. intros h4 H4. apply (HQ (Some a)). own H4.
  - front H (ITree None p t). destruct (own_tree_cases _ _ _ _ _ H) as [[_ ->]|(a & -> & _)]; [congruence|].
    apply wp_bind, wp_deref, wp_bind. eapply wp_adopt; [exact H|]. intros h2 H2.
    eapply wp_reset_null; [apply (sa_fld parent f c)|ownf H2|]. intros h4 H4. apply (HQ (Some a)). own H4.
Qed.

Lemma wp_HUnaryOperator op o t i j its (Q : addr -> heap -> Prop) h : passes o t i j -> t <> Nil ->
  owns h (i ++ its) -> (forall a h', owns h' (ITree None (Some a) (N OPERATOR op (n_ofZ 0) "" t Nil) :: j ++ its) -> Q a h') ->
  wp (HUnaryOperator pick op o) Q h.
Proof.
  intros P Ht H HQ. unfold HUnaryOperator. apply wp_bind. eapply wp_make_node; [exact H|]. intros r h1 H1. apply wp_bind.
  eapply (wp_CopyOrMoveTo r L) with (c := MkCell OPERATOR op (n_ofZ 0) "" None None None); [exact P|exact Ht|exact H1|].
  intros q h2 H2. cbn [with_child c_type c_op c_value c_name c_parent c_left c_right] in H2. apply wp_ret. apply HQ.
  apply own_close with q None. refine (owns_perm _ _ _ _ (own_nil _ (Some r) _ H2)). perm.
Qed.
Lemma wp_HBinaryOperator op o1 o2 t1 t2 i1 j1 i2 j2 its1 its2 (Q : addr -> heap -> Prop) h :
  passes o1 t1 i1 j1 -> passes o2 t2 i2 j2 -> Permutation (j1 ++ its1) (i2 ++ its2) -> t1 <> Nil -> t2 <> Nil ->
  owns h (i1 ++ its1) -> (forall a h', owns h' (ITree None (Some a) (N OPERATOR op (n_ofZ 0) "" t1 t2) :: j2 ++ its2) -> Q a h') ->
  wp (HBinaryOperator pick op o1 o2) Q h.
Proof.
  intros P1 P2 Hp Ht1 Ht2 H HQ. unfold HBinaryOperator. apply wp_bind. eapply wp_make_node; [exact H|]. intros r h1 H1. apply wp_bind.
  eapply (wp_CopyOrMoveTo r L) with (c := MkCell OPERATOR op (n_ofZ 0) "" None None None); [exact P1|exact Ht1|exact H1|].
  intros q h2 H2. cbn [with_child c_type c_op c_value c_name c_parent c_left c_right] in H2. apply wp_bind.
  eapply (wp_CopyOrMoveTo r R) with (c := MkCell OPERATOR op (n_ofZ 0) "" None q None) (its := ITree (Some r) q t1 :: its2); [exact P2|exact Ht2| |].
  - refine (owns_perm _ _ _ _ H2). constructor. rewrite Hp. apply Permutation_middle.
  - intros q' h3 H3. cbn [with_child c_type c_op c_value c_name c_parent c_left c_right] in H3. apply wp_ret. apply HQ.
    apply own_close with q q'. refine (owns_perm _ _ _ _ H3). constructor. etransitivity; [|apply perm_swap].
    constructor. symmetry. apply Permutation_middle.
Qed.

(** ** Reading *)
Lemma own_read (t : node) : forall fuel par p its h, owns h (ITree par p t :: its) -> node_size t <= fuel -> read_tree fuel h p = Some t.
Proof.
  induction t as [|ty op v x l IHl r IHr]; intros fuel par p its h H Hf.
  - apply own_nil_inv in H as [-> _]. now destruct fuel.
  - apply own_open in H as (a & pl & pr & -> & H). cbn [node_size] in Hf. destruct fuel as [|fuel]; [lia|]. cbn [read_tree].
    rewrite (own_lookup _ _ _ _ H). cbn [c_left c_right c_type c_op c_value c_name].
    rewrite (IHl fuel (Some a) pl (ICell a (MkCell ty op v x par pl pr) :: ITree (Some a) pr r :: its) h) by (try lia; own H).
    rewrite (IHr fuel (Some a) pr (ICell a (MkCell ty op v x par pl pr) :: ITree (Some a) pl l :: its) h) by (try lia; own H).
    reflexivity.
Qed.

(** What a reader sees: a tree of objects; nothing is said about ownership. *)
Inductive tree_at h : option addr -> option addr -> node -> Prop :=
| ta_nil par : tree_at h par None Nil
| ta_node par a ty op v x pl pr l r :
    lookup h (KObj a) = Some (OCell (MkCell ty op v x par pl pr)) ->
    (forall b, pl = Some b -> pr = Some b -> False) ->
    tree_at h (Some a) pl l -> tree_at h (Some a) pr r -> tree_at h par (Some a) (N ty op v x l r).
Lemma own_trees_ne2 par par' a b t t' its h : owns h (ITree par (Some a) t :: ITree par' (Some b) t' :: its) -> a <> b.
Proof.
  intros H. destruct (own_some _ _ _ _ _ H) as (ty & op & v & x & l & r & ->). apply own_open in H as (a' & pl & pr & [= <-] & H).
  assert (H2 : owns h (ITree par' (Some b) t' :: ICell a (MkCell ty op v x par pl pr) :: ITree (Some a) pl l :: ITree (Some a) pr r :: its)) by own H.
  destruct (own_some _ _ _ _ _ H2) as (ty' & op' & v' & x' & l' & r' & ->). apply own_open in H2 as (b' & pl' & pr' & [= <-] & H2).
  intros <-. destruct H2 as (os & F & P & Nd). apply flat_cons_inv in F as (o1 & os1 & S1 & F1 & ->).
  apply flat_cons_inv in F1 as (o2 & os2 & S2 & F2 & ->). apply flat_cons_inv in F2 as (o3 & os3 & S3 & F3 & ->). apply flat_cons_inv in F3 as (o4 & os4 & S4 & F4 & ->).
  inversion S1; subst. inversion S4; subst. apply (Permutation_NoDup (Permutation_map fst P)) in Nd. cbn in Nd. inversion Nd as [|? ? Hn _]. apply Hn.
  rewrite !map_app, !in_app_iff. cbn. tauto.
Qed.
Lemma own_tree_at (t : node) : forall par p its h, owns h (ITree par p t :: its) -> tree_at h par p t.
Proof.
  induction t as [|ty op v x l IHl r IHr]; intros par p its h H.
  - apply own_nil_inv in H as [-> _]. constructor.
  - apply own_open in H as (a & pl & pr & -> & H). econstructor.
    + exact (own_lookup _ _ _ _ H).
    + intros b -> ->. assert (H' : owns h (ITree (Some a) (Some b) l :: ITree (Some a) (Some b) r :: ICell a (MkCell ty op v x par (Some b) (Some b)) :: its)) by own H.
      now apply own_trees_ne2 in H'.
    + apply (IHl (Some a) pl (ICell a (MkCell ty op v x par pl pr) :: ITree (Some a) pr r :: its)). own H.
    + apply (IHr (Some a) pr (ICell a (MkCell ty op v x par pl pr) :: ITree (Some a) pl l :: its)). own H.
Qed.
Definition node_at h (a : addr) (t : node) : Prop := exists par, tree_at h par (Some a) t.
Lemma node_at_inv h a t : node_at h a t -> exists ty op v x par pl pr l r, t = N ty op v x l r /\
  lookup h (KObj a) = Some (OCell (MkCell ty op v x par pl pr)) /\ tree_at h (Some a) pl l /\ tree_at h (Some a) pr r.
Proof. intros (par & H). inversion H; subst. repeat eexists; eassumption. Qed.
Lemma push_at h par p t stk ts : tree_at h par p t -> Forall2 (node_at h) stk ts ->
  Forall2 (node_at h) (push p stk) (match t with Nil => ts | _ => t :: ts end).
Proof. intros H Hs. destruct H; [exact Hs|]. cbn [push]. constructor; [|exact Hs]. eexists. econstructor; eassumption. Qed.
Definition total (ts : list node) : nat := list_sum (map node_size ts).
Lemma total_cons t ts : total (t :: ts) = node_size t + total ts. Proof. reflexivity. Qed.
Lemma push_total (t : node) ts : total (match t with Nil => ts | _ => t :: ts end) = node_size t + total ts.
Proof. destruct t; reflexivity. Qed.

(** *** Vpa *)
Lemma HVpaOrder_eq h : forall f f' stk ts acc accT, Forall2 (node_at h) stk ts -> Forall2 (node_at h) acc accT -> total ts < f -> total ts < f' ->
  exists order orderT, HVpaOrder f stk acc h = (Ok order, h) /\ VpaOrder f' ts accT = Ok orderT /\ Forall2 (node_at h) order orderT.
Proof.
  induction f as [|f IH]; intros f' stk ts acc accT Hs Ha L1 L2; [lia|]. destruct f' as [|f']; [lia|].
  destruct Hs as [|a t stk ts Ht Hs]; cbn [HVpaOrder VpaOrder].
  - exists acc, accT. auto.
  - destruct (node_at_inv _ _ _ Ht) as (ty & op & v & x & par & pl & pr & l & r & -> & E & Tl & Tr). unfold bindM, load. rewrite E. cbn [c_left c_right].
    rewrite total_cons in L1, L2. cbn [node_size] in L1, L2.
    apply IH; try (rewrite !push_total; lia).
    + eapply push_at; [exact Tr|]. eapply push_at; eassumption.
    + now constructor.
Qed.
Lemma HVpaStep_eq cfg h a t stk : node_at h a t -> HVpaStep cfg stk a h = (VpaStep cfg stk t, h).
Proof.
  intros Ht. destruct (node_at_inv _ _ _ Ht) as (ty & op & v & x & par & pl & pr & l & r & -> & E & _ & _).
  unfold HVpaStep, bindM, load. rewrite E. cbn [c_type c_op c_value VpaStep]. destruct ty; try reflexivity.
  destruct (GetOperatorNum op) as [|[|[|n]]]; try reflexivity; destruct stk as [|y stk]; try reflexivity.
  - unfold fail. destruct (Calc cfg op y n_nan); reflexivity.
  - destruct stk as [|z stk]; [reflexivity|]. unfold fail. destruct (Calc cfg op z y); reflexivity.
Qed.
Lemma HVpaLoop_eq cfg h order ts : Forall2 (node_at h) order ts -> forall stk, HVpaLoop cfg order stk h = (foldM (VpaStep cfg) ts stk, h).
Proof.
  induction 1 as [|a t order ts Ht _ IH]; intros stk; [reflexivity|]. cbn [HVpaLoop foldM]. unfold bindM. rewrite (HVpaStep_eq _ _ _ _ _ Ht).
  destruct (VpaStep cfg stk t); cbn [bind]; try reflexivity. apply IH.
Qed.
Lemma HVpa_eq cfg par a t its h : owns h (ITree par (Some a) t :: its) -> HVpa cfg a h = (Vpa cfg t, h).
Proof.
  intros H. pose proof (own_size _ _ _ _ _ H) as Hsz. apply own_tree_at in H.
  assert (Ha : node_at h a t) by (eexists; exact H). destruct (node_at_inv _ _ _ Ha) as (ty & op & v & x & par' & pl & pr & l & r & -> & _).
  destruct (HVpaOrder_eq h (S (length h)) (S (node_size (N ty op v x l r))) [a] [N ty op v x l r] [] []) as (order & orderT & E1 & E2 & F); try (rewrite total_cons; cbn [total map list_sum fold_right]; lia).
  { repeat constructor. exact Ha. } { constructor. }
  unfold HVpa, Vpa, bindM. rewrite E1, E2. cbn [bind]. rewrite (HVpaLoop_eq _ _ _ _ F).
  destruct (foldM (VpaStep cfg) orderT []) as [stk| | | | |]; try reflexivity. destruct stk as [|y [|]]; reflexivity.
Qed.

(** *** GetAllVarNames *)
Lemma HEmplaceChild_eq h a t stk ts names : node_at h a t -> Forall2 (node_at h) stk ts ->
  exists stk', HEmplaceChild a stk names h = (Ok (stk', snd (EmplaceChild t (ts, names))), h) /\
    Forall2 (node_at h) stk' (fst (EmplaceChild t (ts, names))) /\ S (total (fst (EmplaceChild t (ts, names)))) = node_size t + total ts.
Proof.
  intros Ht Hs. destruct (node_at_inv _ _ _ Ht) as (ty & op & v & x & par & pl & pr & l & r & -> & E & Tl & Tr).
  unfold HEmplaceChild, bindM, load. rewrite E. cbn [c_left c_right c_type c_name EmplaceChild fst snd].
  eexists. split; [reflexivity|]. split; [|rewrite !push_total; cbn [node_size]; lia].
  eapply push_at; [exact Tr|]. eapply push_at; eassumption.
Qed.
Lemma HGetAllVarNamesLoop_eq h : forall f f' stk ts names, Forall2 (node_at h) stk ts -> total ts < f -> total ts < f' ->
  HGetAllVarNamesLoop f stk names h = (GetAllVarNamesLoop f' (ts, names), h).
Proof.
  induction f as [|f IH]; intros f' stk ts names Hs L1 L2; [lia|]. destruct f' as [|f']; [lia|].
  destruct Hs as [|a t stk ts Ht Hs]; cbn [HGetAllVarNamesLoop GetAllVarNamesLoop fst snd]; [reflexivity|].
  destruct (HEmplaceChild_eq h a t stk ts names Ht Hs) as (stk' & E & F & T). unfold bindM. rewrite E. cbn [fst snd].
  rewrite total_cons in L1, L2. rewrite (IH f' _ _ _ F) by lia. now rewrite <- surjective_pairing.
Qed.
Lemma HGetAllVarNames_eq par a t its h : owns h (ITree par (Some a) t :: its) -> HGetAllVarNames a h = (GetAllVarNames t, h).
Proof.
  intros H. pose proof (own_size _ _ _ _ _ H) as Hsz. apply own_tree_at in H.
  assert (Ha : node_at h a t) by (eexists; exact H).
  destruct (HEmplaceChild_eq h a t [] [] [] Ha (Forall2_nil _)) as (stk' & E & F & T).
  unfold HGetAllVarNames, bindM. rewrite E. cbn [fst snd]. change (total []) with 0 in T.
  assert (G : GetAllVarNames t = GetAllVarNamesLoop (S (node_size t)) (EmplaceChild t ([], []))).
  { destruct (node_at_inv _ _ _ Ha) as (ty & op & v & x & par' & pl & pr & l & r & -> & _). reflexivity. }
  rewrite G, (HGetAllVarNamesLoop_eq h _ (S (node_size t)) _ _ _ F) by lia. now rewrite <- surjective_pairing.
Qed.

(** *** Equal *)
Definition pair_at h (p : addr * addr) (q : node * node) : Prop := node_at h (fst p) (fst q) /\ node_at h (snd p) (snd q).
Definition opt_rel {A B} (R : A -> B -> Prop) (x : option A) (y : option B) : Prop :=
  match x, y with Some a, Some b => R a b | None, None => True | _, _ => False end.
Lemma HCheckChildren_eq h par par' p q l r stk ts : tree_at h par p l -> tree_at h par' q r -> Forall2 (pair_at h) stk ts ->
  opt_rel (Forall2 (pair_at h)) (HCheckChildren stk p q) (CheckChildren ts l r) /\
  (forall ts', CheckChildren ts l r = Some ts' -> total (map fst ts') = node_size l + total (map fst ts)).
Proof.
  intros H1 H2 Hs. destruct H1, H2; cbn [HCheckChildren CheckChildren opt_rel]; split; auto; try discriminate; try (intros ts' [= <-]; reflexivity).
  constructor; [|exact Hs]. split; eexists; econstructor; eassumption.
Qed.
Lemma HCheckNode_eq h a b t u stk ts : node_at h a t -> node_at h b u -> Forall2 (pair_at h) stk ts ->
  exists r, HCheckNode stk a b h = (Ok r, h) /\ opt_rel (Forall2 (pair_at h)) r (CheckNode ts t u) /\
  (forall ts', CheckNode ts t u = Some ts' -> S (total (map fst ts')) = node_size t + total (map fst ts)).
Proof.
  intros Ha Hb Hs. destruct (node_at_inv _ _ _ Ha) as (ty & op & v & x & par & pl & pr & l & r & -> & E & Tl & Tr).
  destruct (node_at_inv _ _ _ Hb) as (ty' & op' & v' & x' & par' & pl' & pr' & l' & r' & -> & E' & Tl' & Tr').
  unfold HCheckNode, bindM, load. rewrite E, E'. eexists. split; [reflexivity|]. unfold HIsSame. cbn [c_type c_op c_value c_name c_left c_right CheckNode IsSame].
  destruct (_ && _); [|split; [exact I|discriminate]].
  destruct (HCheckChildren_eq h _ _ _ _ _ _ _ _ Tl Tl' Hs) as (R1 & N1).
  destruct (HCheckChildren stk pl pl') as [s1|], (CheckChildren ts l l') as [t1|]; cbn [opt_rel] in R1; try contradiction; [|split; [exact I|discriminate]].
  destruct (HCheckChildren_eq h _ _ _ _ _ _ _ _ Tr Tr' R1) as (R2 & N2). split; [exact R2|].
  intros ts' E2. rewrite (N2 _ E2), (N1 _ eq_refl). cbn [node_size]. lia.
Qed.
Lemma HEqualLoop_eq h : forall f f' stk ts, Forall2 (pair_at h) stk ts -> total (map fst ts) < f -> total (map fst ts) < f' ->
  HEqualLoop f stk h = (EqualLoop f' ts, h).
Proof.
  induction f as [|f IH]; intros f' stk ts Hs L1 L2; [lia|]. destruct f' as [|f']; [lia|].
  destruct Hs as [|[a b] [t u] stk ts [Ha Hb] Hs]; cbn [HEqualLoop EqualLoop]; [reflexivity|]. cbn [fst snd] in Ha, Hb.
  destruct (HCheckNode_eq h a b t u stk ts Ha Hb Hs) as (r & E & R & T). unfold bindM. rewrite E.
  cbn [map fst] in L1, L2. rewrite total_cons in L1, L2.
  destruct r as [s1|], (CheckNode ts t u) as [t1|]; cbn [opt_rel] in R; try contradiction; [|reflexivity].
  specialize (T _ eq_refl). apply IH; [exact R| |]; lia.
Qed.
Lemma HEqual_eq par par' a b t u its its' h : owns h (ITree par (Some a) t :: its) -> owns h (ITree par' (Some b) u :: its') -> a <> b ->
  HEqual a (Some b) h = (Equal t u, h).
Proof.
  intros H H' Hne. pose proof (own_size _ _ _ _ _ H) as Hsz. apply own_tree_at in H. apply own_tree_at in H'.
  assert (Ha : node_at h a t) by (eexists; exact H). assert (Hb : node_at h b u) by (eexists; exact H').
  unfold HEqual. destruct (Nat.eqb_spec a b); [congruence|]. unfold bindM at 1. cbn [deref ret].
  destruct (HCheckNode_eq h a b t u [] [] Ha Hb (Forall2_nil _)) as (r & E & R & T). unfold bindM. rewrite E. change (total (map fst [])) with 0 in T.
  assert (G : Equal t u = match CheckNode [] t u with None => Ok false | Some s => EqualLoop (S (node_size t)) s end).
  { destruct (node_at_inv _ _ _ Ha) as (? & ? & ? & ? & ? & ? & ? & ? & ? & -> & _). destruct (node_at_inv _ _ _ Hb) as (? & ? & ? & ? & ? & ? & ? & ? & ? & -> & _). reflexivity. }
  rewrite G. destruct r as [s1|], (CheckNode [] t u) as [t1|]; cbn [opt_rel] in R; try contradiction; [|reflexivity].
  specialize (T _ eq_refl). apply HEqualLoop_eq; [exact R| |]; lia.
Qed.
Lemma HEqual_self a h : HEqual (K:=K) a (Some a) h = (Ok true, h).
Proof. unfold HEqual. now rewrite Nat.eqb_refl. Qed.

(** *** ToString *)
(** What the printer finds through [cur->parent]. *)
Definition ctx_at h (a : addr) (par : option addr) (ctx : pctx) : Prop :=
  match par, ctx with
  | None, None => True
  | Some p, Some (op, isRight) => exists c, lookup h (KObj p) = Some (OCell c) /\ c_op c = op /\ is_ptr (c_right c) a = isRight
  | _, _ => False
  end.
Inductive entry_at h : pref -> node * pctx -> Prop :=
| ea_par : entry_at h RightParenthesis (rightParenthesis, None)
| ea_ref a par t ctx : tree_at h par (Some a) t -> ctx_at h a par ctx -> node_size t <= length h -> entry_at h (Ref a) (t, ctx).
Lemma ctx_left h a ty op v x par pl pr b : lookup h (KObj a) = Some (OCell (MkCell ty op v x par pl pr)) -> (forall b, pl = Some b -> pr = Some b -> False) ->
  pl = Some b -> ctx_at h b (Some a) (Some (op, false)).
Proof.
  intros E Hd ->. cbn [ctx_at]. eexists. split; [exact E|]. split; [reflexivity|]. cbn [c_right]. destruct pr as [c|]; [|reflexivity]. cbn [is_ptr].
  destruct (Nat.eqb_spec c b) as [->|]; [|reflexivity]. exfalso. eapply Hd; reflexivity.
Qed.
Lemma HNodeToStr_eq ty op v x par pl pr (l r : node) : HNodeToStr (MkCell ty op v x par pl pr) = NodeToStr (N ty op v x l r).
Proof. destruct ty; reflexivity. Qed.
Lemma HNeedsParens_eq h a op p pop isRight : ctx_at h a (Some p) (Some (pop, isRight)) ->
  HNeedsParens a op p h = ((if Nat.eqb (GetOperatorNum pop) 0 then AssertFail "GetOperatorNum" else Ok (needsParens (Some (pop, isRight)) op)), h).
Proof.
  intros (c & E & <- & <-). unfold HNeedsParens, bindM, load. rewrite E. destruct (Nat.eqb (GetOperatorNum (c_op c)) 0); reflexivity.
Qed.

(** What is still on the stack, in objects. *)
Definition weight (q : node * pctx) : nat := match fst q with N _ _ _ _ _ r => S (2 * node_size r) | Nil => 0 end.
Definition weights (ts : list (node * pctx)) : nat := list_sum (map weight ts).
Lemma weight_le ty op v x l r ctx : weight (N ty op v x l r, ctx) <= S (2 * node_size r).
Proof. reflexivity. Qed.

Definition line_rel h (n : nat) (r : res (list pref * string)) (r' : res (pstate (K:=K))) : Prop :=
  match r' with
  | Ok (ts, out) => exists stk, r = Ok (stk, out) /\ Forall2 (entry_at h) stk ts /\ weights ts <= n
  | Throw e => r = Throw e | Undef w => r = Undef w | Terminate => r = Terminate | AssertFail w => r = AssertFail w | OutOfFuel => r = OutOfFuel
  end.
Lemma HAddLeftLine_eq h : forall t f par p ctx stk ts out, tree_at h par p t -> (forall a, p = Some a -> ctx_at h a par ctx) ->
  Forall2 (entry_at h) stk ts -> node_size t < f -> node_size t <= length h ->
  exists r, HAddLeftLine f p stk out h = (r, h) /\ line_rel h (2 * node_size t + weights ts) r (AddLeftLine t ctx (ts, out)).
Proof.
  induction t as [|ty op v x l IHl r IHr]; intros f par p ctx stk ts out Ht Hc Hs Hf Hh; (destruct f as [|f]; [lia|]); cbn [node_size] in Hf.
  - inversion Ht; subst. cbn [HAddLeftLine AddLeftLine]. eexists. split; [reflexivity|]. cbn. exists stk. repeat split; auto.
  - inversion Ht as [|? a ? ? ? ? pl pr ? ? E Hd Tl Tr]; subst. specialize (Hc a eq_refl).
    assert (Hpl : forall b, pl = Some b -> ctx_at h b (Some a) (Some (op, false))) by (intros b Eb; eapply ctx_left; eassumption).
    assert (Href : entry_at h (Ref a) (N ty op v x l r, ctx)) by (econstructor; eassumption).
    assert (Step : forall stk' ts' out', Forall2 (entry_at h) stk' ts' -> weights ts' <= 2 + 2 * node_size r + weights ts ->
      exists q, HAddLeftLine f pl stk' out' h = (q, h) /\ line_rel h (2 * node_size (N ty op v x l r) + weights ts) q (AddLeftLine l (Some (op, false)) (ts', out'))).
    { intros stk' ts' out' Hs' Hw. destruct (IHl f (Some a) pl (Some (op, false)) stk' ts' out' Tl Hpl Hs' ltac:(lia) ltac:(cbn [node_size] in Hh; lia)) as (q & Eq & Rq).
      exists q. split; [exact Eq|]. unfold line_rel in *. destruct (AddLeftLine l (Some (op, false)) (ts', out')) as [[ts2 out2]| | | | |]; try exact Rq.
      destruct Rq as (stk2 & -> & F2 & W2). exists stk2. repeat split; auto. cbn [node_size]. lia. }
    assert (Wself : weights ((N ty op v x l r, ctx) :: ts) <= 1 + 2 * node_size r + weights ts).
    { unfold weights. cbn [map list_sum fold_right]. fold (list_sum (map weight ts)). pose proof (weight_le ty op v x l r ctx). lia. }
    assert (Wpar : forall ts', weights ((rightParenthesis, None) :: ts') = S (weights ts')) by reflexivity.
    cbn [HAddLeftLine]. unfold bindM at 1, load at 1. rewrite E. cbn [c_type c_op c_left c_right c_parent].
    destruct ty; cbn [AddLeftLine].
    1, 3: apply Step; [now constructor|lia].
    unfold HNodeToStr. cbn [c_type c_op].
    destruct (GetOperatorNum op) as [|[|[|n]]].
    + eexists. split; [reflexivity|]. reflexivity.
    + destruct Tl as [|? b lty lop lv lx lpl lpr ll lr El Hdl Tll Tlr].
      * destruct (is_sign_op op); [eexists; split; [reflexivity|reflexivity]|]. cbn [bindM ret]. unfold bindM, ret.
        destruct f as [|f]; [lia|]. cbn [HAddLeftLine]. eexists. split; [reflexivity|]. exists (RightParenthesis :: stk). split; [reflexivity|]. split; [constructor; [constructor|exact Hs]|].
        rewrite Wpar. cbn [node_size]. lia.
      * destruct (is_sign_op op); cbn [andb].
        -- unfold bindM at 1 2 3, deref, ret at 1, load. rewrite El. cbn [c_type ret]. destruct (negb (node_type_eqb lty OPERATOR)).
           ++ apply Step; [exact Hs|lia].
           ++ apply Step; [constructor; [constructor|exact Hs]|rewrite Wpar; lia].
        -- unfold bindM, ret. apply Step; [constructor; [constructor|exact Hs]|rewrite Wpar; lia].
    + destruct par as [p|], ctx as [[pop isRight]|]; try contradiction.
      * unfold bindM. rewrite (HNeedsParens_eq _ _ _ _ _ _ Hc). destruct (Nat.eqb (GetOperatorNum pop) 0); [eexists; split; reflexivity|].
        destruct (needsParens (Some (pop, isRight)) op).
        -- apply Step; [constructor; [exact Href|]; constructor; [constructor|exact Hs]|].
           unfold weights in *. cbn [map list_sum fold_right] in *. change (weight (rightParenthesis, None)) with 1. lia.
        -- apply Step; [now constructor|lia].
      * unfold bindM, ret. apply Step; [now constructor|lia].
    + eexists. split; reflexivity.
Qed.
Lemma emit_eq h a par ty op v x pl pr l r ctx : lookup h (KObj a) = Some (OCell (MkCell ty op v x par pl pr)) -> ctx_at h a par ctx ->
  exists b, HNegativeSubtrahend a (MkCell ty op v x par pl pr) h = (Ok b, h) /\
  (if b then "(" ++ HNodeToStr (MkCell ty op v x par pl pr) ++ ")" else HNodeToStr (MkCell ty op v x par pl pr))%string = emit (N ty op v x l r) ctx.
Proof.
  intros E Hc. unfold HNegativeSubtrahend, isNumber_c. cbn [c_type c_value c_parent]. destruct ty; cbn [node_type_eqb andb].
  2, 3: exists false; split; [reflexivity|]; cbn; reflexivity.
  cbn [HNodeToStr c_type c_value emit NodeToStr].
  destruct (n_ltb v (n_ofZ 0)) eqn:Ev.
  - destruct par as [p|], ctx as [[pop isRight]|]; try contradiction; [|exists false; auto].
    destruct Hc as (c & Ec & <- & <-). unfold bindM, load. rewrite Ec. eexists. split; [reflexivity|].
    destruct (c_op c), (is_ptr (c_right c) a); reflexivity.
  - exists false. split; [reflexivity|]. destruct ctx as [[[] []]|]; reflexivity.
Qed.
Lemma HToStringLoop_eq h : forall f f' stk ts out, Forall2 (entry_at h) stk ts -> weights ts < f -> weights ts < f' ->
  HToStringLoop f stk out h = (ToStringLoop f' (ts, out), h).
Proof.
  induction f as [|f IH]; intros f' stk ts out Hs L1 L2; [lia|]. destruct f' as [|f']; [lia|].
  destruct Hs as [|e [t ctx] stk ts He Hs]; cbn [HToStringLoop ToStringLoop]; [reflexivity|].
  assert (W : weights ((t, ctx) :: ts) = weight (t, ctx) + weights ts) by reflexivity. rewrite W in L1, L2. clear W.
  inversion He as [|a par ? ? Ht Hc Hz]; subst.
  - change (weight (rightParenthesis, None)) with 1 in *. cbn [rightParenthesis]. apply IH; [exact Hs| |]; lia.
  - inversion Ht as [|? ? ty op v x pl pr l r E Hd Tl Tr]; subst.
    destruct (emit_eq h a par ty op v x pl pr l r ctx E Hc) as (b & Eb & Et).
    unfold bindM at 1, load. rewrite E. unfold bindM at 1. rewrite Eb. cbv zeta. rewrite Et. cbn [c_right].
    unfold weight in L1, L2. cbn [fst] in L1, L2. cbn [node_size] in Hz.
    destruct pr as [q|].
    + assert (Hq : ctx_at h q (Some a) (Some (op, true))).
      { eexists. split; [exact E|]. split; [reflexivity|]. cbn [c_right is_ptr]. apply Nat.eqb_refl. }
      destruct (HAddLeftLine_eq h r (S (length h)) (Some a) (Some q) (Some (op, true)) stk ts (out ++ emit (N ty op v x l r) ctx)%string Tr) as (w & Ew & Rw); auto; try lia.
      { intros ? [= <-]. exact Hq. }
      inversion Tr; subst. unfold bindM. rewrite Ew. unfold line_rel in Rw.
      destruct (AddLeftLine _ _ _) as [[ts1 out1]| | | | |]; try (subst w; reflexivity).
      destruct Rw as (stk1 & -> & F1 & W1). cbn [bind fst snd]. apply IH; [exact F1| |]; lia.
    + inversion Tr; subst. apply IH; [exact Hs| |]; lia.
Qed.
(** [a] is a root. *)
Lemma HToString_eq a t its h : owns h (ITree None (Some a) t :: its) -> HToString a h = (ToString t, h).
Proof.
  intros H. pose proof (own_size _ _ _ _ _ H) as Hsz. apply own_tree_at in H.
  destruct (HAddLeftLine_eq h t (S (length h)) None (Some a) None [] [] "" H) as (w & Ew & Rw); auto; try lia.
  { intros ? _. exact I. }
  assert (G : ToString t = (let* st := AddLeftLine t None ([], "") in ToStringLoop (S (2 * node_size t)) st)) by (inversion H; reflexivity).
  rewrite G. unfold HToString, bindM. rewrite Ew. unfold line_rel in Rw.
  destruct (AddLeftLine t None ([], "")) as [[ts1 out1]| | | | |]; try (subst w; reflexivity).
  destruct Rw as (stk1 & -> & F1 & W1). cbn [bind fst snd]. change (weights []) with 0 in W1. apply HToStringLoop_eq; [exact F1| |]; lia.
Qed.

(** ** Calc *)
Lemma wp_HCalc cfg par a t d its (Q : unit -> heap -> Prop) h : owns h (ITree par (Some a) t :: its) -> Vpa cfg t = Ok d ->
  (forall h', owns h' (ITree None (Some a) (mkNum d) :: its) -> Q tt h') -> wp (HCalc pick cfg a) Q h.
Proof.
  intros H Hd HQ. unfold HCalc. apply wp_bind. exists d, h. split; [rewrite (HVpa_eq _ _ _ _ _ _ H), Hd; reflexivity|].
  apply wp_bind. eapply wp_make_node; [exact H|]. intros tmp h1 H1. apply own_leaf in H1.
  apply wp_bind. eapply wp_MoveAssign; [exact H1|]. intros h2 H2. apply wp_bind. eapply wp_delete; [exact H2|]. intros h3 H3.
  apply own_open in H3 as (b & pl & pr & [= <-] & H3). apply wp_bind. eapply wp_load; [exact H3|].
  eapply wp_store; [exact H3|]. intros h4 H4. cbn [with_data c_type c_op c_value c_name c_parent c_left c_right] in H4.
  apply HQ. apply own_close in H4. exact H4.
Qed.
Lemma HCalc_other cfg par a t its h r : owns h (ITree par (Some a) t :: its) -> Vpa cfg t = r -> (forall d, r <> Ok d) ->
  exists r', HCalc pick cfg a h = (r', h) /\ match r with Throw e => r' = Throw e | _ => forall u, r' <> Ok u end.
Proof.
  intros H Hr Hn. unfold HCalc, bindM. rewrite (HVpa_eq _ _ _ _ _ _ H), Hr.
  destruct r; try (eexists; split; [reflexivity|]; discriminate || reflexivity). now destruct (Hn a0).
Qed.

(** ** CheckParent *)
Fixpoint well_formed (t : node) : Prop :=
  match t with
  | Nil => True
  | N ty op v x l r =>
      match ty with
      | OPERATOR => (GetOperatorNum op = 1 /\ l <> Nil /\ r = Nil) \/ (GetOperatorNum op = 2 /\ l <> Nil /\ r <> Nil)
      | _ => True
      end /\ well_formed l /\ well_formed r
  end.
Lemma wp_TryEmplaceChildren a ty op v x par pl pr l r its stk (Q : _ -> heap -> Prop) h :
  owns h (ICell a (MkCell ty op v x par pl pr) :: ITree (Some a) pl l :: ITree (Some a) pr r :: its) ->
  well_formed (N ty op v x l r) -> Q (push pr (push pl stk)) h -> wp (TryEmplaceChildren a stk) Q h.
Proof.
  intros H Hw HQ. unfold TryEmplaceChildren. apply wp_bind. eapply wp_load; [exact H|].
  assert (CheckOperatorNum (MkCell ty op v x par pl pr) = true) as ->; [|now apply wp_ret].
  front H (ITree (Some a) pr r). destruct (own_tree_cases _ _ _ _ _ H) as [[-> ->]|(b & -> & Hb)];
  front H (ITree (Some a) pl l); destruct (own_tree_cases _ _ _ _ _ H) as [[-> ->]|(b' & -> & Hb')];
  unfold CheckOperatorNum; cbn [c_type c_op c_left c_right]; destruct ty; try reflexivity;
  cbn [well_formed] in Hw; destruct Hw as [[(E & H1 & H2)|(E & H1 & H2)] _]; try congruence; now rewrite E.
Qed.
Lemma wp_CheckParentLoop (t : node) : forall ty op v x pp pl pr f p a its stk fuel (Q : unit -> heap -> Prop) h,
  let c := MkCell ty op v x pp pl pr in child c f = p ->
  owns h (ITree (Some a) p t :: ICell a c :: its) -> well_formed t ->
  wp (CheckParentLoop fuel stk) Q h ->
  wp (CheckParentLoop (node_size t + fuel) (push p stk)) Q h.
Proof.
  induction t as [|ty op v x l IHl r IHr]; intros ty' op' v' x' pp pl' pr' f p a its stk fuel Q h c Hc H Hw HQ.
  - apply own_nil_inv in H as [-> H]. exact HQ.
  - apply own_open in H as (b & pl & pr & -> & H). cbn [push node_size plus CheckParentLoop].
    apply wp_bind. eapply wp_load; [exact H|]. cbn [c_parent]. apply wp_bind. eapply wp_load; [ownf H|].
    assert (is_ptr (c_left c) b || is_ptr (c_right c) b = true) as ->.
    { destruct f; cbn [child] in Hc; rewrite Hc; cbn [is_ptr]; rewrite Nat.eqb_refl; [reflexivity|apply orb_true_r]. }
    apply wp_bind. eapply wp_TryEmplaceChildren; [exact H|exact Hw|]. destruct Hw as (_ & Hl & Hr).
    replace (node_size l + node_size r + fuel) with (node_size r + (node_size l + fuel)) by lia.
    eapply (IHr ty op v x (Some a) pl pr R); [reflexivity| |exact Hr|].
    + front H (ICell b (MkCell ty op v x (Some a) pl pr)). front H (ITree (Some b) pr r). exact H.
    + eapply (IHl ty op v x (Some a) pl pr L); [reflexivity| |exact Hl|exact HQ].
      front H (ICell b (MkCell ty op v x (Some a) pl pr)). front H (ITree (Some b) pl l). exact H.
Qed.
Lemma wp_CheckParent par a t its h : owns h (ITree par (Some a) t :: its) -> well_formed t -> CheckParent a h = (Ok tt, h).
Proof.
  intros H Hw. assert (W : wp (CheckParent a) (fun u h' => h' = h) h).
  { pose proof (own_size _ _ _ _ _ H) as Hs. destruct (own_some _ _ _ _ _ H) as (ty & op & v & x & l & r & ->).
    apply own_open in H as (b & pl & pr & [= <-] & H).
    apply (wp_fuel (fun n => bindM (TryEmplaceChildren a []) (fun stk => CheckParentLoop (S n) stk))).
    cbn [node_size] in Hs. apply wp_bind. eapply wp_TryEmplaceChildren; [exact H|exact Hw|]. destruct Hw as (_ & Hl & Hr).
    replace (S (length h)) with (node_size r + (node_size l + S (length h - node_size r - node_size l))) by lia.
    eapply (wp_CheckParentLoop r ty op v x par pl pr R); [reflexivity| |exact Hr|].
    - front H (ICell a (MkCell ty op v x par pl pr)). front H (ITree (Some a) pr r). exact H.
    - eapply (wp_CheckParentLoop l ty op v x par pl pr L); [reflexivity| |exact Hl|].
      + front H (ICell a (MkCell ty op v x par pl pr)). front H (ITree (Some a) pl l). exact H.
      + cbn [CheckParentLoop]. now apply wp_ret. }
  destruct W as ([] & h' & E & ->). exact E.
Qed.
End Ops.
