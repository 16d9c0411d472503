(** C77: substitution after substitution, and the derivative after a substitution. *)
From Coq Require Import String List ZArith Reals Lra Lia Bool.
From Coquelicot Require Import Coquelicot.
From Verif Require Import Base MathOp NodeModel SubsModel SimplifyModel DiffModel ExprSpec RealSpec SubsSpec DiffSpec ChainSpec NodeProofs Thm_Subs DiffProofs DiffReal DiffSmooth Thm_Diff.
Import ListNotations.
Local Open Scope R_scope.
Local Open Scope string_scope.
Local Open Scope list_scope.

(** ** Substitution after substitution *)
Section Subst.
Context {K : num_ops}.
Implicit Types (e a b t : expr K) (s : substitution (K:=K)).

Lemma subst_ext s s' e : (forall x, occurs x e -> s x = s' x) -> subst s e = subst s' e.
Proof.
  induction e as [v|x|u a IH|o a IHa c IHc]; simpl; intros H; auto.
  - now rewrite (H x (occ_var x)).
  - rewrite IH; auto. intros x Hx. apply H. now constructor.
  - rewrite IHa, IHc; auto; intros x Hx; apply H; [now apply occ_r|now apply occ_l].
Qed.

Lemma subst_subst s s' e : subst s' (subst s e) = subst (and_then s s') e.
Proof.
  induction e as [v|x|u a IH|o a IHa c IHc]; simpl; try congruence.
  unfold and_then. destruct (s x); reflexivity.
Qed.

Lemma one_eq x a : one x a x = Some a.
Proof. unfold one. now rewrite String.eqb_refl. Qed.
Lemma one_neq x a y : y <> x -> one x a y = None.
Proof. intros H. apply String.eqb_neq in H. unfold one. now rewrite H. Qed.

Lemma find_dict (d : list (string * expr K)) s : dict_subst d s -> forall x, map_find x d = s x.
Proof.
  intros [Hn H] x. destruct (map_find x d) as [t|] eqn:F.
  - symmetry. apply H. now apply map_find_in in F.
  - destruct (s x) as [t|] eqn:G; auto. apply H, map_find_in in G; auto. congruence.
Qed.
End Subst.

(** Two calls of Subs are one call with the composed dictionary: the replacements of the first
    are themselves substituted, then come the entries of the second for other variables. *)
Theorem C77_subs_subs (K : num_ops) (e : expr K) d s d' s' : dict_subst d s -> dict_subst d' s' ->
  let dd := map (fun p => (fst p, subst s' (snd p))) d ++
            filter (fun p => negb (existsb (String.eqb (fst p)) (map fst d))) d' in
  let entries := map (fun p => (fst p, embed (snd p))) in
  exists n r, SubsDict (embed e) (entries d) = Ok n /\ SubsDict n (entries d') = Ok r /\
    SubsDict (embed e) (entries dd) = Ok r.
Proof.
  intros D D' dd entries. exists (embed (subst s e)), (embed (subst s' (subst s e))).
  split; [now apply C24_subs_dict|]. split; [now apply C24_subs_dict|].
  rewrite subst_subst. apply C24_subs_dict. destruct D as [N H], D' as [N' H']. subst dd. split.
  - rewrite map_app, map_map. cbn [fst].
    assert (F : forall l : list (string * expr K), NoDup (map fst l) -> NoDup (map fst (filter (fun p => negb (existsb (String.eqb (fst p)) (map fst d))) l)) /\
              forall x, In x (map fst (filter (fun p => negb (existsb (String.eqb (fst p)) (map fst d))) l)) -> In x (map fst l) /\ ~ In x (map fst d)).
    { induction l as [|[y t] l IH]; cbn [map filter fst]; intros Nl; [split; [constructor|intros x []]|].
      inversion Nl as [|? ? Ny Nl']; subst. destruct (IH Nl') as [I1 I2].
      destruct (existsb (String.eqb y) (map fst d)) eqn:Ex; cbn [negb].
      - split; [exact I1|]. intros x Hx. destruct (I2 x Hx). split; [now right|auto].
      - cbn [map fst]. split; [constructor; [|exact I1]; intros Hy; apply Ny; now apply I2|].
        intros x [<-|Hx]; [|destruct (I2 x Hx); split; [now right|auto]]. split; [now left|].
        intros Hy. assert (existsb (String.eqb y) (map fst d) = true); [|congruence].
        apply existsb_exists. exists y. split; [exact Hy|apply String.eqb_refl]. }
    destruct (F d' N') as [F1 F2]. clear F. change (map (fun x : string * expr K => fst x) d) with (map fst d).
    set (q := map fst (filter _ d')) in *. assert (F3 : forall x, In x q -> ~ In x (map fst d)) by (intros x Hx; now apply F2).
    clearbody q. clear -N F1 F3. revert N F3. generalize (map fst d). intros l N F3.
    induction l as [|y l IH]; cbn [app]; [exact F1|]. inversion N as [|? ? Ny Nl]; subst. constructor.
    + rewrite in_app_iff. intros [Hy|Hy]; [auto|]. apply (F3 y Hy). now left.
    + apply IH; [exact Nl|]. intros x Hx C. apply (F3 x Hx). now right.
  - intros x t. rewrite in_app_iff, in_map_iff, filter_In. unfold and_then. cbn [fst snd]. split.
    + destruct (s x) as [u|] eqn:E.
      * intros [= <-]. left. exists (x, u). split; [reflexivity|]. now apply H.
      * intros E'. right. split; [now apply H'|].
        destruct (existsb (String.eqb x) (map fst d)) eqn:Ex; [|reflexivity]. exfalso.
        apply existsb_exists in Ex as (z & Hz & Ez). apply String.eqb_eq in Ez. subst z.
        apply in_map_iff in Hz as ([z u] & Ez & Hz). cbn in Ez. subst z. apply H in Hz. congruence.
    + intros [([z u] & E & I)|[I Nx]].
      * cbn in E. injection E as -> <-. apply H in I. now rewrite I.
      * destruct (s x) as [u|] eqn:E; [|now apply H'].
        exfalso. apply H in E. assert (Ex : existsb (String.eqb x) (map fst d) = true); [|now rewrite Ex in Nx].
        apply existsb_exists. exists x. split; [|apply String.eqb_refl]. apply in_map_iff. now exists (x, u).
Qed.

(** Replacements of different variables that do not mention each other's variable can be made one
    after the other, in either order, or at once. *)
Theorem C77_subs_commute (K : num_ops) (e a b : expr K) x y :
  x <> y -> ~ occurs y a -> ~ occurs x b ->
  exists n m r, Subs1 (embed e) x (embed a) = Ok n /\ Subs1 n y (embed b) = Ok r /\
    Subs1 (embed e) y (embed b) = Ok m /\ Subs1 m x (embed a) = Ok r /\
    SubsVec (embed e) [x; y] [embed a; embed b] = Ok r.
Proof.
  intros N Ha Hb. exists (embed (subst (one x a) e)), (embed (subst (one y b) e)), (embed (subst (one y b) (subst (one x a) e))).
  repeat (split; [apply C24_subs_single|]).
  assert (A : subst (one y b) a = a).
  { apply C24_subs_absent. intros z Hz. unfold one. destruct (String.eqb_spec z y); [subst; tauto|reflexivity]. }
  assert (B : subst (one x a) b = b).
  { apply C24_subs_absent. intros z Hz. unfold one. destruct (String.eqb_spec z x); [subst; tauto|reflexivity]. }
  assert (E : forall z, and_then (one x a) (one y b) z = and_then (one y b) (one x a) z).
  { intros z. unfold and_then. destruct (string_dec z x) as [->|Nx].
    - now rewrite one_eq, (one_neq y), A by exact N.
    - rewrite (one_neq x) by exact Nx. destruct (string_dec z y) as [->|Ny].
      + now rewrite one_eq, B.
      + now rewrite (one_neq y) by exact Ny. }
  split.
  - etransitivity; [apply C24_subs_single|]. do 2 f_equal. rewrite (subst_subst (one x a)). change (subst (one x a) (subst (one y b) e) = subst (and_then (one x a) (one y b)) e).
    rewrite subst_subst. apply subst_ext. intros z _. now rewrite E.
  - rewrite subst_subst. apply (C24_subs_vec K e [x; y] [a; b]). split; [reflexivity|].
    intros z t. unfold and_then, one. split.
    + destruct (String.eqb_spec z x) as [->|Nx].
      * intros [= <-]. exists 0%nat. cbn. repeat split; [now f_equal|]. intros j Hj. lia.
      * destruct (String.eqb_spec z y) as [->|Ny]; [|discriminate].
        intros [= <-]. exists 1%nat. cbn. repeat split. intros j Hj. replace j with 0%nat by lia. cbn. congruence.
    + intros ([|[|i]] & Hx & Ht & Hf); cbn in Hx, Ht; [| |destruct i; discriminate].
      * injection Hx as ->. injection Ht as ->. rewrite String.eqb_refl. now f_equal.
      * injection Hx as ->. injection Ht as ->. destruct (String.eqb_spec z x); [congruence|]. now rewrite String.eqb_refl.
Qed.

(** Renaming a variable to an unused name and back restores the expression. *)
Theorem C77_rename_back (K : num_ops) (e : expr K) x y : ~ occurs y e ->
  exists n, Subs1 (embed e) x (embed (EVar y)) = Ok n /\ Subs1 n y (embed (EVar x)) = Ok (embed e).
Proof.
  intros H. exists (embed (subst (one x (EVar y)) e)). split; [apply C24_subs_single|].
  etransitivity; [apply C24_subs_single|]. change (Ok (embed (subst (one y (EVar x)) (subst (one x (EVar y)) e))) = Ok (embed e)).
  do 2 f_equal. rewrite subst_subst. clear -H. induction e as [v|z|u a IH|o a IHa c IHc]; cbn [subst]; auto.
  - unfold and_then, one. destruct (String.eqb_spec z x) as [->|N].
    + cbn. now rewrite String.eqb_refl.
    + destruct (String.eqb_spec z y) as [->|N']; [|reflexivity]. destruct H. constructor.
  - rewrite IH; auto. intros O. apply H. now constructor.
  - rewrite IHa, IHc; auto; intros O; apply H; [now apply occ_r|now apply occ_l].
Qed.

(** Substituting the same again changes nothing if the replacement does not contain the variable. *)
Theorem C77_subs_again (K : num_ops) (e a : expr K) x : ~ occurs x a ->
  exists n, Subs1 (embed e) x (embed a) = Ok n /\ Subs1 n x (embed a) = Ok n.
Proof.
  intros H. exists (embed (subst (one x a) e)). split; [apply C24_subs_single|].
  etransitivity; [apply C24_subs_single|]. change (Ok (embed (subst (one x a) (subst (one x a) e))) = Ok (embed (subst (one x a) e))).
  do 2 f_equal. apply C24_subs_absent. intros z Hz. unfold one.
  destruct (String.eqb_spec z x) as [->|N]; [|reflexivity]. exfalso.
  apply C25_subs_vars in Hz as [[_ E]|(w & t & _ & E & O)]; unfold one in E.
  - now rewrite String.eqb_refl in E.
  - destruct (String.eqb w x); [|discriminate]. injection E as <-. auto.
Qed.

(** ** The chain rule *)
Implicit Types (env : string -> R) (e a c : expr Rops).

(** The value of e along a curve of assignments is differentiable at t0, with derivative d. *)
Definition moves (p : R -> string -> R) (t0 : R) e (d : R) : Prop :=
  exists F, locally t0 (fun t => rval (p t) e = Some (F t)) /\ is_derive F t0 d.

Lemma moves_value p t0 e d : moves p t0 e d -> exists v, rval (p t0) e = Some v.
Proof. intros (F & L & _). apply locally_singleton in L. eauto. Qed.

Lemma moves_eq p t0 e d d' : moves p t0 e d -> d = d' -> moves p t0 e d'.
Proof. now intros H <-. Qed.

Section Rules.
Context (p : R -> string -> R) (t0 : R).

Lemma moves_const e v : (forall t, rval (p t) e = Some v) -> moves p t0 e 0.
Proof.
  intros H. exists (fun _ => v). split; [now apply filter_forall|]. apply (is_derive_const (K:=R_AbsRing) v).
Qed.
Lemma moves_var x d : is_derive (fun t => p t x) t0 d -> moves p t0 (EVar x) d.
Proof. intros H. exists (fun t => p t x). split; [|exact H]. apply filter_forall. reflexivity. Qed.

Lemma moves_un u a d y : moves p t0 a d -> rval (p t0) a = Some y -> un_smooth 0 u y ->
  moves p t0 (EUn u a) (d * gder u y).
Proof.
  intros (f & L & D) Hy Hs. assert (E : f t0 = y) by (pose proof (locally_singleton _ _ L) as E; cbv beta in E; rewrite Hy in E; congruence).
  exists (fun t => gfun u (f t)). split.
  - generalize (filter_and _ _ L (along f _ d y _ D E (gfun_loc 0 u y Hs))). apply filter_imp.
    intros t [H1 H2]. cbn [rval]. rewrite H1. exact H2.
  - apply (is_derive_comp (gfun u) f); [rewrite E; eapply gder_ok; exact Hs|exact D].
Qed.

Section Bin.
Context (a c : expr Rops) (da dc y z : R).
Hypothesis (Pa : moves p t0 a da) (Pc : moves p t0 c dc).
Hypothesis (Va : rval (p t0) a = Some y) (Vc : rval (p t0) c = Some z).

Lemma moves_add : moves p t0 (EBin BAdd a c) (da + dc).
Proof using Pa Pc.
  destruct Pa as (f & La & Da), Pc as (g & Lc & Dc). eexists. split; [|exact (is_derive_plus _ _ _ _ _ Da Dc)].
  generalize (filter_and _ _ La Lc). apply filter_imp. intros t [H1 H2]. cbn [rval]. rewrite H1, H2. reflexivity.
Qed.
Lemma moves_sub : moves p t0 (EBin BSub a c) (da - dc).
Proof using Pa Pc.
  destruct Pa as (f & La & Da), Pc as (g & Lc & Dc). eexists. split; [|exact (is_derive_minus _ _ _ _ _ Da Dc)].
  generalize (filter_and _ _ La Lc). apply filter_imp. intros t [H1 H2]. cbn [rval]. rewrite H1, H2. reflexivity.
Qed.
Lemma moves_mul : moves p t0 (EBin BMul a c) (da * z + y * dc).
Proof using All.
  destruct Pa as (f & La & Da), Pc as (g & Lc & Dc).
  assert (Ea : f t0 = y) by (pose proof (locally_singleton _ _ La) as E; cbv beta in E; rewrite Va in E; congruence).
  assert (Ec : g t0 = z) by (pose proof (locally_singleton _ _ Lc) as E; cbv beta in E; rewrite Vc in E; congruence).
  pose proof (is_derive_mult _ _ _ _ _ Da Dc Rmult_comm) as D. rewrite Ea, Ec in D.
  eexists. split; [|exact D].
  generalize (filter_and _ _ La Lc). apply filter_imp. intros t [H1 H2]. cbn [rval]. rewrite H1, H2. reflexivity.
Qed.
Lemma moves_div : z <> 0 -> moves p t0 (EBin BDiv a c) ((da * z - y * dc) / (z * z)).
Proof using All.
  intros Hz. destruct Pa as (f & La & Da), Pc as (g & Lc & Dc).
  assert (Ea : f t0 = y) by (pose proof (locally_singleton _ _ La) as E; cbv beta in E; rewrite Va in E; congruence).
  assert (Ec : g t0 = z) by (pose proof (locally_singleton _ _ Lc) as E; cbv beta in E; rewrite Vc in E; congruence).
  pose proof (is_derive_div _ _ _ _ _ Da Dc) as D. rewrite Ea, Ec in D. specialize (D Hz).
  eexists. split; [|eapply is_derive_eq; [exact D|simpl; field; auto]].
  generalize (filter_and _ _ (filter_and _ _ La Lc) (along _ _ _ _ _ Dc Ec (open_neq_loc 0 z Hz))). apply filter_imp.
  intros t [[H1 H2] H3]. cbn [rval]. rewrite H1, H2. simpl. destruct (Req_EM_T _ 0); [now destruct H3|reflexivity].
Qed.
Lemma moves_pow_pos : 0 < y -> moves p t0 (EBin BPow a c) (exp (z * ln y) * (dc * ln y + z * (1 / y * da))).
Proof using All.
  intros Hy. destruct Pa as (f & La & Da), Pc as (g & Lc & Dc).
  assert (Ea : f t0 = y) by (pose proof (locally_singleton _ _ La) as E; cbv beta in E; rewrite Va in E; congruence).
  assert (Ec : g t0 = z) by (pose proof (locally_singleton _ _ Lc) as E; cbv beta in E; rewrite Vc in E; congruence).
  exists (fun t => exp (g t * ln (f t))). split.
  - generalize (filter_and _ _ (filter_and _ _ La Lc) (along _ _ _ _ _ Da Ea (open_lt_loc 0 y Hy))). apply filter_imp.
    intros t [[H1 H2] H3]. cbn [rval]. rewrite H1, H2. cbn [r_bin]. unfold Rpow. destruct (Rlt_dec 0 (f t)); [reflexivity|lra].
  - assert (Dl : is_derive (fun t => ln (f t)) t0 (da * / y)).
    { apply (is_derive_comp ln f); [rewrite Ea; now apply is_derive_ln|exact Da]. }
    pose proof (is_derive_mult g (fun t => ln (f t)) _ _ _ Dc Dl Rmult_comm) as Dm. cbv beta in Dm. rewrite Ea, Ec in Dm.
    eapply is_derive_eq.
    + apply (is_derive_comp exp (fun t => g t * ln (f t))); [apply is_derive_exp|exact Dm].
    + cbv beta. rewrite Ea, Ec. unfold scal, plus, mult; simpl; unfold mult; simpl. field. lra.
Qed.
End Bin.

Lemma moves_pow_int a da y n : moves p t0 a da -> rval (p t0) a = Some y -> y <> 0 \/ (1 <= n)%Z ->
  moves p t0 (EBin BPow a (ENum (Some (IZR n)))) (IZR n * powerRZ y (n - 1) * da).
Proof.
  intros (f & La & Da) Va Hn. assert (Ea : f t0 = y) by (pose proof (locally_singleton _ _ La) as E; cbv beta in E; rewrite Va in E; congruence).
  exists (fun t => powerRZ (f t) n). split.
  - assert (Ln : locally y (fun z => z <> 0 \/ (0 <= n)%Z)).
    { destruct Hn as [Hn|Hn].
      - generalize (open_neq_loc 0 y Hn). apply filter_imp. auto.
      - apply filter_forall. intros z0. right. lia. }
    generalize (filter_and _ _ La (along _ _ _ _ _ Da Ea Ln)). apply filter_imp.
    intros t [H1 H2]. cbn [rval]. rewrite H1. cbn [r_bin]. now apply Rpow_int.
  - eapply is_derive_eq; [apply (is_derive_comp (fun s => powerRZ s n) f); [rewrite Ea; apply is_derive_powerRZ; exact Hn|exact Da]|].
    unfold scal; simpl; unfold mult; simpl. ring.
Qed.
End Rules.

Lemma sum_ext xs f g : (forall x, In x xs -> f x = g x) -> sum_over xs f = sum_over xs g.
Proof. induction xs as [|x xs IH]; simpl; intros H; auto. rewrite H, IH; auto. Qed.
Lemma sum_lin xs (f g : string -> R) (r s : R) : sum_over xs (fun x => r * f x + s * g x) = r * sum_over xs f + s * sum_over xs g.
Proof. induction xs as [|x xs IH]; simpl; [|rewrite IH]; ring. Qed.
Lemma sum_zero xs f : (forall x, In x xs -> f x = 0) -> sum_over xs f = 0.
Proof. induction xs as [|x xs IH]; simpl; intros H; auto. rewrite H, IH; auto. ring. Qed.
Lemma sum_only xs f x : NoDup xs -> In x xs -> (forall y, y <> x -> f y = 0) -> sum_over xs f = f x.
Proof.
  induction xs as [|y xs IH]; simpl; intros N I Z; [tauto|]. inversion N as [|? ? Ny Nx]; subst.
  destruct (string_dec y x) as [->|D].
  - rewrite sum_zero; [ring|]. intros z Hz. apply Z. intros ->. auto.
  - destruct I as [I|I]; [congruence|]. rewrite Z, IH; auto. ring.
Qed.

(** The total derivative. *)
Definition gradient env e (g : string -> R) : Prop :=
  (forall x, ~ occurs x e -> g x = 0) /\
  forall (p : R -> string -> R) (t0 : R) (vel : string -> R), (forall x, occurs x e -> p t0 x = env x /\ is_derive (fun t => p t x) t0 (vel x)) ->
    forall xs, NoDup xs -> (forall x, occurs x e -> In x xs) ->
    moves p t0 e (sum_over xs (fun x => g x * vel x)).

Lemma rval_same (p : R -> string -> R) t0 env e : (forall x, occurs x e -> p t0 x = env x) -> rval (p t0) e = rval env e.
Proof.
  induction e as [v|x|u a IH|o a IHa c IHc]; cbn [rval]; intros H; auto.
  - now rewrite (H x (occ_var x)).
  - rewrite IH; auto. intros x Hx. apply H. now constructor.
  - rewrite IHa, IHc; auto; intros x Hx; apply H; [now apply occ_r|now apply occ_l].
Qed.

Lemma gradient_const env e v : (forall x, ~ occurs x e) -> rval env e = Some v -> gradient env e (fun _ => 0).
Proof.
  intros N V. split; [auto|]. intros p t0 vel H xs _ _.
  rewrite sum_zero by (intros; ring). apply (moves_const p t0 e v). intros t. rewrite <- V. apply rval_same. intros x Hx. now destruct (N x).
Qed.

Lemma gradient_bin env b a c ga gc (k1 k2 y z : R) :
  gradient env a ga -> gradient env c gc -> rval env a = Some y -> rval env c = Some z ->
  (forall p t0 da dc, moves p t0 a da -> moves p t0 c dc -> rval (p t0) a = Some y -> rval (p t0) c = Some z ->
     moves p t0 (EBin b a c) (k1 * da + k2 * dc)) ->
  gradient env (EBin b a c) (fun x => k1 * ga x + k2 * gc x).
Proof.
  intros [Na Ga] [Nc Gc] Va Vc R. split.
  - intros x N. rewrite Na, Nc; [ring| |]; intros O; apply N; [now apply occ_r|now apply occ_l].
  - intros p t0 vel H xs Nx Hxs.
    assert (Ea : rval (p t0) a = Some y) by (rewrite <- Va; apply rval_same; intros x Hx; apply H; now apply occ_l).
    assert (Ec : rval (p t0) c = Some z) by (rewrite <- Vc; apply rval_same; intros x Hx; apply H; now apply occ_r).
    eapply moves_eq; [apply R; [apply (Ga p t0 vel) with (xs := xs)|apply (Gc p t0 vel) with (xs := xs)|exact Ea|exact Ec]|].
    + intros x Hx. apply H. now apply occ_l.
    + exact Nx.
    + intros x Hx. apply Hxs. now apply occ_l.
    + intros x Hx. apply H. now apply occ_r.
    + exact Nx.
    + intros x Hx. apply Hxs. now apply occ_r.
    + cbv beta. rewrite <- sum_lin. apply sum_ext. intros x _. ring.
Qed.

Lemma gradient_scale env e e' g (k y : R) :
  gradient env e g -> rval env e = Some y -> (forall x, occurs x e <-> occurs x e') ->
  (forall p t0 d, moves p t0 e d -> rval (p t0) e = Some y -> moves p t0 e' (k * d)) ->
  gradient env e' (fun x => k * g x).
Proof.
  intros [N G] V O R. split.
  - intros x Nx. rewrite N; [ring|]. now rewrite O.
  - intros p t0 vel H xs Nx Hxs. eapply moves_eq; [apply R; [apply (G p t0 vel) with (xs := xs)|]|].
    + intros x Hx. apply H. now apply O.
    + exact Nx.
    + intros x Hx. apply Hxs. now apply O.
    + rewrite <- V. apply rval_same. intros x Hx. apply H. now apply O.
    + cbv beta. replace (k * sum_over xs (fun x => g x * vel x)) with (k * sum_over xs (fun x => g x * vel x) + 0 * sum_over xs (fun _ => 0)) by ring.
      rewrite <- sum_lin. apply sum_ext. intros x _. ring.
Qed.

Lemma interior_smooth u y : un_interior u y -> un_smooth 0 u y.
Proof. destruct u; cbn; auto; intros H; auto with arith. Qed.

Lemma analytic_un_inv env u a : analytic env (EUn u a) ->
  (numb a = true /\ rval env (EUn u a) <> None) \/ (analytic env a /\ exists y, rval env a = Some y /\ un_smooth 0 u y).
Proof.
  intros H. destruct a; [left; split; [reflexivity|exact H]|right..]; cbn [analytic] in H; destruct H as (A & y & V & I);
    (split; [exact A|]; exists y; split; [exact V|now apply interior_smooth]).
Qed.

Lemma analytic_pow_inv env a c : analytic env (EBin BPow a c) ->
  (numb a = true /\ numb c = true /\ rval env (EBin BPow a c) <> None) \/
  (analytic env a /\ exists y z, c = ENum (Some z) /\ rval env a = Some y /\ pow_interior y z) \/
  (analytic env a /\ analytic env c /\ exists y, rval env a = Some y /\ 0 < y).
Proof.
  intros H. destruct (numb a) eqn:Na, (numb c) eqn:Nc.
  - left. destruct a; try discriminate. destruct c; try discriminate. repeat split. exact H.
  - right; right. destruct a; try discriminate. destruct c; try discriminate; exact H.
  - right; left. destruct c as [w| | |]; try discriminate.
    assert (C : analytic env a /\ exists y z, rval env a = Some y /\ w = Some z /\ pow_interior y z) by (destruct a; try discriminate; exact H).
    destruct C as (Ha & y & z & ? & -> & ?). eauto 8.
  - right; right. destruct a; try discriminate; destruct c; try discriminate; exact H.
Qed.

Lemma numb_no_occurs a x : numb a = true -> ~ occurs x a.
Proof. destruct a; try discriminate. intros _ H. inversion H. Qed.

Lemma total env e : analytic env e -> exists v g, rval env e = Some v /\ gradient env e g.
Proof.
  induction e as [v|x|u a IH|b a IHa c IHc]; intros H.
  - cbn in H. destruct v as [v|]; [|congruence]. exists v, (fun _ => 0). split; [reflexivity|].
    apply (gradient_const _ _ v); [|reflexivity]. intros x O. inversion O.
  - exists (env x), (fun y => if String.eqb y x then 1 else 0). split; [reflexivity|]. split.
    + intros y N. destruct (String.eqb_spec y x) as [->|]; [|reflexivity]. destruct N. constructor.
    + intros p t0 vel Hp xs Nx Hx. eapply moves_eq; [apply moves_var; apply (Hp x); constructor|].
      rewrite (sum_only xs _ x); auto.
      * rewrite String.eqb_refl. change (@eq R (vel x) (1 * vel x)). ring.
      * apply Hx. constructor.
      * intros y D. apply String.eqb_neq in D. rewrite D. ring.
  - destruct (analytic_un_inv _ _ _ H) as [[Na D]|(Ha & y & Vy & S)].
    + destruct (rval env (EUn u a)) as [v|] eqn:V; [|congruence]. exists v, (fun _ => 0). split; [reflexivity|].
      apply (gradient_const _ _ v); [|exact V]. intros x O. inversion O; subst. eapply numb_no_occurs; eauto.
    + destruct (IH Ha) as (v & g & V & G). rewrite V in Vy. injection Vy as ->.
      exists (gfun u y), (fun x => gder u y * g x). split; [cbn [rval]; rewrite V; eapply un_smooth_defined; exact S|].
      apply (gradient_scale env a (EUn u a) g (gder u y) y G V).
      * intros x. split; [intros O; now constructor|intros O; inversion O; auto].
      * intros p t0 d M Vp. eapply moves_eq; [apply (moves_un p t0 u a d y M Vp S)|]. ring.
  - destruct b; cbn [analytic] in H; try tauto.
    + destruct H as [Ha Hc]. destruct (IHa Ha) as (y & ga & Va & Ga), (IHc Hc) as (z & gc & Vc & Gc).
      exists (y + z), (fun x => 1 * ga x + 1 * gc x). split; [cbn [rval]; rewrite Va, Vc; reflexivity|].
      apply (gradient_bin env _ a c ga gc 1 1 y z); auto. intros p t0 da dc Ma Mc _ _. eapply moves_eq; [apply (moves_add p t0 a c da dc Ma Mc)|ring].
    + destruct H as [Ha Hc]. destruct (IHa Ha) as (y & ga & Va & Ga), (IHc Hc) as (z & gc & Vc & Gc).
      exists (y - z), (fun x => 1 * ga x + (-1) * gc x). split; [cbn [rval]; rewrite Va, Vc; reflexivity|].
      apply (gradient_bin env _ a c ga gc 1 (-1) y z); auto. intros p t0 da dc Ma Mc _ _. eapply moves_eq; [apply (moves_sub p t0 a c da dc Ma Mc)|ring].
    + destruct H as [Ha Hc]. destruct (IHa Ha) as (y & ga & Va & Ga), (IHc Hc) as (z & gc & Vc & Gc).
      exists (y * z), (fun x => z * ga x + y * gc x). split; [cbn [rval]; rewrite Va, Vc; reflexivity|].
      apply (gradient_bin env _ a c ga gc z y y z); auto. intros p t0 da dc Ma Mc Wa Wc. eapply moves_eq; [now apply (moves_mul p t0 a c da dc y z)|ring].
    + destruct H as (Ha & Hc & Hz). destruct (IHa Ha) as (y & ga & Va & Ga), (IHc Hc) as (z & gc & Vc & Gc).
      assert (Nz : z <> 0) by (intros ->; auto).
      exists (y / z), (fun x => (1 / z) * ga x + (- y / (z * z)) * gc x). split.
      { cbn [rval]. rewrite Va, Vc. cbn [r_bin]. destruct (Req_EM_T z 0); [tauto|reflexivity]. }
      apply (gradient_bin env _ a c ga gc (1 / z) (- y / (z * z)) y z); auto. intros p t0 da dc Ma Mc Wa Wc.
      eapply moves_eq; [now apply (moves_div p t0 a c da dc y z)|field; auto].
    + destruct (analytic_pow_inv _ _ _ H) as [(Na & Nc & D)|[(Ha & y & z & -> & Vy & I)|(Ha & Hc & y & Vy & P)]].
      * destruct (rval env (EBin BPow a c)) as [v|] eqn:V; [|congruence]. exists v, (fun _ => 0). split; [reflexivity|].
        apply (gradient_const _ _ v); [|exact V]. intros x O. inversion O; subst; [exact (numb_no_occurs a x Na H1)|exact (numb_no_occurs c x Nc H1)].
      * destruct (IHa Ha) as (v & g & V & G). rewrite V in Vy. injection Vy as ->.
        assert (Oc : forall x, occurs x a <-> occurs x (EBin BPow a (ENum (Some z) : expr Rops))).
        { intros x. split; [intros O; now apply occ_l|]. intros O. inversion O as [| |? ? ? O'|? ? ? O']; subst; [exact O'|inversion O']. }
        destruct I as [P|[[n ->] I]].
        -- exists (exp (z * ln y)), (fun x => (exp (z * ln y) * (z * (1 / y))) * g x). split.
           { cbn [rval]. rewrite V. cbn [r_bin]. unfold Rpow. destruct (Rlt_dec 0 y); [reflexivity|lra]. }
           apply (gradient_scale env a _ g _ y G V Oc). intros p t0 d M Vp.
           eapply moves_eq; [apply (moves_pow_pos p t0 a (ENum (Some z)) d 0 y z M); auto; apply (moves_const p t0 _ z); reflexivity|]. ring.
        -- assert (C : y <> 0 \/ (0 <= n)%Z) by (destruct I as [I|I]; [auto|right; now apply le_IZR]).
           exists (powerRZ y n). destruct (Z.eq_dec n 0) as [->|Nn].
           ++ exists (fun x => 0 * g x). split; [cbn [rval]; rewrite V; now apply Rpow_int|].
              apply (gradient_scale env a _ g 0 y G V Oc). intros p t0 d (F & L & _) _. exists (fun _ => 1). split.
              ** revert L. apply filter_imp. intros t E. cbn [rval]. rewrite E. cbn [r_bin]. rewrite (Rpow_int _ 0) by (right; lia). reflexivity.
              ** eapply is_derive_eq; [apply (is_derive_const (K:=R_AbsRing) 1)|]. change (@eq R 0 (0 * d)). ring.
           ++ assert (C' : y <> 0 \/ (1 <= n)%Z) by (destruct C; [auto|right; lia]).
              exists (fun x => (IZR n * powerRZ y (n - 1)) * g x). split; [cbn [rval]; rewrite V; now apply Rpow_int|].
              apply (gradient_scale env a _ g _ y G V Oc). intros p t0 d M Vp. now apply moves_pow_int.
      * destruct (IHa Ha) as (v & ga & Va & Ga), (IHc Hc) as (z & gc & Vc & Gc). rewrite Va in Vy. injection Vy as ->.
        exists (exp (z * ln y)), (fun x => (exp (z * ln y) * (z * (1 / y))) * ga x + (exp (z * ln y) * ln y) * gc x). split.
        { cbn [rval]. rewrite Va, Vc. cbn [r_bin]. unfold Rpow. destruct (Rlt_dec 0 y); [reflexivity|lra]. }
        apply (gradient_bin env _ a c ga gc _ _ y z); auto. intros p t0 da dc Ma Mc Wa Wc.
        eapply moves_eq; [now apply (moves_pow_pos p t0 a c da dc y z)|ring].
Qed.

Lemma gradient_partial env e g x : (exists xs, NoDup xs /\ forall y, In y xs <-> occurs y e) -> gradient env e g -> partial env x e (g x).
Proof.
  intros (xs & N & I) [Z G]. destruct (G (upd env x) (env x) (fun y => if String.eqb y x then 1 else 0)) with (xs := xs) as (F & L & D).
  - intros y _. rewrite upd_same. split; [reflexivity|]. unfold upd. destruct (String.eqb_spec y x) as [->|Ny].
    + apply (is_derive_id (K:=R_AbsRing)).
    + apply (is_derive_const (K:=R_AbsRing) (env y)).
  - exact N.
  - intros y Hy. now apply I.
  - apply (partial_intro _ _ _ _ F L). eapply is_derive_eq; [exact D|].
    destruct (in_dec string_dec x xs) as [Ix|Nx].
    + rewrite (sum_only xs _ x N Ix); [rewrite String.eqb_refl; ring|].
      intros y Hy. apply String.eqb_neq in Hy. rewrite Hy. ring.
    + rewrite (Z x) by (rewrite <- I; exact Nx). apply sum_zero. intros y Hy.
      destruct (String.eqb_spec y x) as [->|]; [tauto|ring].
Qed.

Lemma locally_occurs e (t0 : R) (P : string -> R -> Prop) : (forall x, occurs x e -> locally t0 (P x)) ->
  locally t0 (fun t => forall x, occurs x e -> P x t).
Proof.
  induction e as [v|y|u a IH|b a IHa c IHc]; intros H.
  - apply filter_forall. intros t x O. inversion O.
  - generalize (H y (occ_var y)). apply filter_imp. intros t Ht x O. inversion O; subst. exact Ht.
  - assert (Q : locally t0 (fun t => forall x, occurs x a -> P x t)) by (apply IH; intros x Hx; apply H; now constructor).
    revert Q. apply filter_imp. intros t Ht x O. inversion O; subst. now apply Ht.
  - assert (Qa : locally t0 (fun t => forall x, occurs x a -> P x t)) by (apply IHa; intros x Hx; apply H; now apply occ_l).
    assert (Qc : locally t0 (fun t => forall x, occurs x c -> P x t)) by (apply IHc; intros x Hx; apply H; now apply occ_r).
    generalize (filter_and _ _ Qa Qc). apply filter_imp. intros t [Ha Hc] x O. inversion O; subst; auto.
Qed.

(** The chain rule for Subs: the partial derivative with respect to y of the expression after the
    substitution is the sum, over the variables x of the original, of the partial derivative of
    the original with respect to x (at the values the replacements have) times that of the
    replacement of x with respect to y.  [env' x] is the value x stands for, [vel x] its
    derivative with respect to y. *)
Theorem C77_chain_rule (s : substitution (K:=Rops)) e y (env env' vel : string -> R) (xs : list string) :
  analytic env' e -> NoDup xs -> (forall x, In x xs <-> occurs x e) ->
  (forall x, occurs x e ->
     match s x with
     | Some t => rval env t = Some (env' x) /\ partial env y t (vel x)
     | None => env' x = env x /\ vel x = if String.eqb x y then 1 else 0
     end) ->
  exists g, (forall x, partial env' x e (g x)) /\
    partial env y (subst s e) (sum_over xs (fun x => g x * vel x)).
Proof.
  intros A N I H. destruct (total env' e A) as (v & g & V & G). exists g.
  split; [intros x; eapply gradient_partial; eauto|]. destruct G as [_ G].
  set (p := fun t x => match s x with Some u => as_function env y u t | None => upd env y t x end).
  destruct (G p (env y) vel) with (xs := xs) as (F & L & D); auto.
  - intros x O. specialize (H x O). unfold p. destruct (s x) as [u|].
    + destruct H as [Vu [_ Du]]. split; [unfold as_function; now rewrite upd_same, Vu|exact Du].
    + destruct H as [E ->]. rewrite upd_same. split; [now rewrite E|].
      unfold upd. destruct (String.eqb_spec x y) as [->|Ny].
      * apply (is_derive_id (K:=R_AbsRing)).
      * apply (is_derive_const (K:=R_AbsRing) (env x)).
  - intros x O. now apply I.
  - apply (partial_intro _ _ _ _ F); [|exact D].
    assert (Q : locally (env y) (fun t => forall x, occurs x e -> match s x with Some u => rval (upd env y t) u <> None | None => True end)).
    { apply locally_occurs. intros x O. specialize (H x O). destruct (s x) as [u|]; [|now apply filter_forall].
      destruct H as [_ [Dn _]]. exact Dn. }
    generalize (filter_and _ _ L Q). apply filter_imp. intros t [Lt Qt].
    rewrite <- Lt. apply C24_subs_value. intros x O. specialize (Qt x O). unfold p. destruct (s x) as [u|]; [|reflexivity].
    unfold as_function. destruct (rval (upd env y t) u); [reflexivity|congruence].
Qed.

(** The same for the functions Subs and Diff. *)
Theorem C77_diff_of_subs (cfg : config Rops) d s e y (env env' : string -> R) (xs : list string) :
  dict_subst d s -> NoDup xs -> (forall x, In x xs <-> occurs x e) ->
  (forall x, occurs x e -> match s x with Some t => rval env t = Some (env' x) | None => env' x = env x end) ->
  analytic env' e -> (forall x, occurs x e -> smooth 1 x env' e) ->
  (forall x t, occurs x e -> s x = Some t -> smooth 1 y env t) -> smooth 1 y env (subst s e) ->
  exists n r (g vel : string -> R),
    SubsDict (embed e) (map (fun p => (fst p, embed (snd p))) d) = Ok n /\
    Diff cfg n y 1 = Ok (embed r) /\
    (forall x, occurs x e -> exists ex, Diff cfg (embed e) x 1 = Ok (embed ex) /\ rval env' ex = Some (g x)) /\
    (forall x, occurs x e ->
       match s x with
       | Some t => exists et, Diff cfg (embed t) y 1 = Ok (embed et) /\ rval env et = Some (vel x)
       | None => vel x = if String.eqb x y then 1 else 0
       end) /\
    rval env r = Some (sum_over xs (fun x => g x * vel x)).
Proof.
  intros Ds N I Hv A Se St Ss.
  set (vel := fun x => match s x with
     | Some t => Derive (as_function env y t) (env y)
     | None => if String.eqb x y then 1 else 0 end).
  assert (Hvel : forall x t, occurs x e -> s x = Some t ->
     exists et, Diff cfg (embed t) y 1 = Ok (embed et) /\ rval env et = Some (vel x) /\ partial env y t (vel x)).
  { intros x t O E. destruct (C20_diff cfg y env t (St x t O E)) as (et & dd & Dt & Vt & P).
    assert (Q : vel x = dd) by (unfold vel; rewrite E; apply is_derive_unique, P).
    exists et. rewrite Q. auto. }
  destruct (C77_chain_rule s e y env env' vel xs A N I) as (g & Pg & P).
  { intros x O. specialize (Hv x O). destruct (s x) as [t|] eqn:E.
    - split; [exact Hv|]. destruct (Hvel x t O E) as (_ & _ & _ & Q). exact Q.
    - split; [exact Hv|]. unfold vel. now rewrite E. }
  destruct (C20_diff cfg y env (subst s e) Ss) as (r & dd & Dr & Vr & Pr).
  exists (embed (subst s e)), r, g, vel. split; [now apply C24_subs_dict|]. split; [exact Dr|]. split; [|split].
  - intros x O. destruct (C20_diff cfg x env' e (Se x O)) as (ex & dx & Dx & Vx & Px). exists ex. split; [exact Dx|].
    now rewrite (C20_partial_unique _ _ _ _ _ (Pg x) Px).
  - intros x O. destruct (s x) as [t|] eqn:E; [|unfold vel; now rewrite E].
    destruct (Hvel x t O E) as (et & Q1 & Q2 & _). eauto.
  - now rewrite (C20_partial_unique _ _ _ _ _ P Pr).
Qed.

(** One variable, the form in which it is usually stated: d/dy f(g) = f'(g) * g'. *)
Theorem C77_chain_rule_1 (cfg : config Rops) (f a : expr Rops) x y env v :
  (forall z, occurs z f <-> z = x) -> rval env a = Some v ->
  analytic (upd env x v) f -> smooth 1 x (upd env x v) f -> smooth 1 y env a -> smooth 1 y env (subst (one x a) f) ->
  exists n r f' a' dv da, Subs1 (embed f) x (embed a) = Ok n /\ Diff cfg n y 1 = Ok (embed r) /\
    Diff cfg (embed f) x 1 = Ok (embed f') /\ Diff cfg (embed a) y 1 = Ok (embed a') /\
    rval (upd env x v) f' = Some dv /\ rval env a' = Some da /\ rval env r = Some (dv * da).
Proof.
  intros O V A Sf Sa Ss. pose proof (one_eq x a) as E1.
  destruct (C77_diff_of_subs cfg [(x, a)] (one x a) f y env (upd env x v) [x]) as (n & r & g & vel & H1 & H2 & H3 & H4 & H5); auto.
  - split; [repeat constructor; intros []|]. intros z t. unfold one. split.
    + destruct (String.eqb_spec z x) as [->|]; [|discriminate]. intros [= <-]. now left.
    + intros [Q|[]]. injection Q as <- <-. now rewrite String.eqb_refl.
  - repeat constructor. intros [].
  - intros z. rewrite O. cbn. split; [intros [->|[]]; auto|auto].
  - intros z Hz. apply O in Hz. subst z. rewrite E1, upd_at. exact V.
  - intros z Hz. apply O in Hz. now subst z.
  - intros z t Hz E. apply O in Hz. subst z. rewrite E1 in E. injection E as <-. exact Sa.
  - assert (Ox : occurs x f) by now apply O. destruct (H3 x Ox) as (f' & F1 & F2). specialize (H4 x Ox). rewrite E1 in H4.
    destruct H4 as (a' & A1 & A2).
    exists n, r, f', a', (g x), (vel x). cbn [sum_over] in H5. rewrite Rplus_0_r in H5.
    split; [|auto 8]. rewrite C24_subs_single. rewrite <- H1. symmetry.
    apply (C24_subs_dict Rops f [(x, a)] (one x a)). split; [repeat constructor; intros []|]. intros z t. unfold one. split.
    + destruct (String.eqb_spec z x) as [->|]; [|discriminate]. intros [= <-]. now left.
    + intros [Q|[]]. injection Q as <- <-. now rewrite String.eqb_refl.
Qed.

(** ** Concrete cases *)
(** The hypothesis "does not mention the other variable" is needed: x := y and y := 1 one after the
    other turn x - y into 1 - 1, in the other order into y - 1. *)
Example C77_ex_order (K : num_ops) (v : K) :
  let e := EBin BSub (EVar "x") (EVar "y") : expr K in
  (let* n := Subs1 (embed e) "x" (embed (EVar "y")) in Subs1 n "y" (embed (ENum v))) = Ok (embed (EBin BSub (ENum v) (ENum v))) /\
  (let* n := Subs1 (embed e) "y" (embed (ENum v)) in Subs1 n "x" (embed (EVar "y"))) = Ok (embed (EBin BSub (EVar "y") (ENum v))).
Proof. split; reflexivity. Qed.

(** d/dy of (sin(x)*z) with x := y^2 at y = 3: all hypotheses hold, and the two variables x and z
    both count. *)
Definition ex_f : expr Rops := EBin BMul (EUn USin (EVar "x")) (EVar "z").
Definition ex_d : list (string * expr Rops) := [("x", EBin BPow (EVar "y") (ENum (Some 2)))].
Definition ex_s : substitution (K:=Rops) := one "x" (EBin BPow (EVar "y") (ENum (Some 2))).
Definition ex_env : string -> R := fun x => if String.eqb x "y" then 3 else 5.
Definition ex_env' : string -> R := fun x => if String.eqb x "x" then 9 else 5.

Lemma occurs_ex_f x : occurs x ex_f <-> x = "x" \/ x = "z".
Proof.
  unfold ex_f. split.
  - intros O. inversion O as [| |? ? ? O'|? ? ? O']; subst.
    + left. inversion O' as [|? ? O2| |]; subst. inversion O2. reflexivity.
    + right. inversion O'. reflexivity.
  - intros [-> | ->]; [apply occ_l, occ_un, occ_var|apply occ_r, occ_var].
Qed.

Example C77_ex_chain (cfg : config Rops) : exists n r g vel,
  SubsDict (embed ex_f) (map (fun p => (fst p, embed (snd p))) ex_d) = Ok n /\
  n = embed (EBin BMul (EUn USin (EBin BPow (EVar "y") (ENum (Some 2)))) (EVar "z")) /\
  Diff cfg n "y" 1 = Ok (embed r) /\
  (exists ex, Diff cfg (embed ex_f) "x" 1 = Ok (embed ex) /\ rval ex_env' ex = Some (g "x")) /\
  (exists et, Diff cfg (embed (EBin BPow (EVar "y") (ENum (Some 2)))) "y" 1 = Ok (embed et) /\ rval ex_env et = Some (vel "x")) /\
  vel "z" = 0 /\ rval ex_env r = Some (g "x" * vel "x").
Proof.
  assert (P2 : rval ex_env (EBin BPow (EVar "y") (ENum (Some 2))) = Some 9).
  { change (Rpow 3 2 = Some 9). rewrite Rpow_2. enough (Q : 3 * 3 = 9) by (rewrite Q; reflexivity). lra. }
  assert (Sy : smooth 1 "y" ex_env (EBin BPow (EVar "y") (ENum (Some 2)))).
  { cbn. split; [exact Logic.I|]. exists 3, 2. repeat split. left. lra. }
  destruct (C77_diff_of_subs cfg ex_d ex_s ex_f "y" ex_env ex_env' ["x"; "z"]) as (n & r & g & vel & H1 & H2 & H3 & H4 & H5).
  - split; [repeat constructor; intros []|]. intros z t. unfold ex_s, one, ex_d. split.
    + destruct (String.eqb_spec z "x") as [->|]; [|discriminate]. intros [= <-]. now left.
    + intros [Q|[]]. injection Q as <- <-. reflexivity.
  - constructor; [intros [Q|[]]; discriminate|]. constructor; [intros []|constructor].
  - intros x. rewrite occurs_ex_f. cbn. split; [intros [<-|[<-|[]]]; auto|intros [->| ->]; auto].
  - intros x O. apply occurs_ex_f in O as [->| ->]; [exact P2|reflexivity].
  - cbn. repeat split. eexists. split; [reflexivity|exact Logic.I].
  - intros x O. cbn. repeat split. eexists. split; [reflexivity|exact Logic.I].
  - intros x t O E. apply occurs_ex_f in O as [->| ->]; [|discriminate]. injection E as <-. exact Sy.
  - unfold ex_f. cbn [subst]. change (ex_s "x") with (Some (EBin BPow (EVar "y") (ENum (Some 2)) : expr Rops)). change (ex_s "z") with (@None (expr Rops)).
    split; [|exact Logic.I]. split; [exact Sy|]. split; [|exact Logic.I]. exists 9. split; [exact P2|exact Logic.I].
  - exists n, r, g, vel. split; [exact H1|]. split.
    + assert (Q : SubsDict (embed ex_f) (map (fun p => (fst p, embed (snd p))) ex_d) = Ok (embed (subst ex_s ex_f))) by reflexivity.
      rewrite H1 in Q. injection Q as ->. reflexivity.
    + split; [exact H2|]. split; [apply H3, occurs_ex_f; auto|].
      assert (Oz : occurs "z" ex_f) by (apply occurs_ex_f; auto). assert (Ox : occurs "x" ex_f) by (apply occurs_ex_f; auto).
      pose proof (H4 "x" Ox) as Hx. pose proof (H4 "z" Oz) as Hz. cbn in Hz. split; [exact Hx|]. split; [exact Hz|].
      rewrite H5. cbn [sum_over]. rewrite Hz. enough (Q : g "x" * vel "x" + (g "z" * 0 + 0) = g "x" * vel "x") by (rewrite Q; reflexivity). ring.
Qed.
