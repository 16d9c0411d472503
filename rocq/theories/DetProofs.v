(** Det, Adjoint, Inverse, PositiveDetermine at the level of entries, for every arithmetic. *)
From Coq Require Import String List ZArith Bool Arith Lia.
From Verif Require Import Base MathOp MatModel MatSpec MatProofs.
Import ListNotations.
Local Open Scope list_scope.

Section Det.
Context {K : num_ops}.
Implicit Types (A B : mat K) (f g : nat -> nat -> K).

(** The value [Det] computes from the entries. *)
Fixpoint kdet (n : nat) (f : nat -> nat -> K) : K :=
  match n with
  | 0 => n_ofZ 0
  | S n' =>
    match n' with
    | 0 => f 0 0
    | S n'' =>
      match n'' with
      | 0 => n_sub (n_mul (f 0 0) (f 1 1)) (n_mul (f 1 0) (f 0 1))
      | _ => fst (fold_left (fun '(D, sign) q =>
               (n_add D (n_mul (n_mul (n_ofZ sign) (f 0 q)) (kdet n' (fun i j => f (S i) (skip q j)))), (- sign)%Z))
               (seq 0 n) (n_ofZ 0, 1%Z))
      end
    end
  end.

Lemma kdet_step n f : 3 <= n -> kdet n f = fst (fold_left (fun '(D, sign) q =>
  (n_add D (n_mul (n_mul (n_ofZ sign) (f 0 q)) (kdet (n - 1) (fun i j => f (S i) (skip q j)))), (- sign)%Z))
  (seq 0 n) (n_ofZ 0, 1%Z)).
Proof. destruct n as [|[|[|n]]]; try lia. intros _. reflexivity. Qed.

(** Only entries inside the leading n x n block matter. *)
Lemma kdet_ext n : forall f g, (forall i j, i < n -> j < n -> f i j = g i j) -> kdet n f = kdet n g.
Proof.
  induction n as [|n IH]; intros f g H; [reflexivity|].
  destruct n as [|[|n]].
  - simpl. apply H; lia.
  - cbn [kdet]. rewrite !H by lia. reflexivity.
  - rewrite (kdet_step (S (S (S n))) f), (kdet_step (S (S (S n))) g) by lia.
    f_equal. replace (S (S (S n)) - 1) with (S (S n)) by lia.
    assert (Q : forall q, In q (seq 0 (S (S (S n)))) -> q < S (S (S n))) by (intros q Hq; apply in_seq in Hq; lia).
    revert Q. generalize (seq 0 (S (S (S n)))) (n_ofZ 0 : K, 1%Z).
    induction l as [|q l IHl]; intros [D s] Q; cbn [fold_left]; [reflexivity|].
    rewrite (IHl _ (fun q' Hq' => Q q' (or_intror Hq'))). f_equal. rewrite (H 0 q) by (try lia; apply Q; now left).
    rewrite (IH (fun i j => f (S i) (skip q j)) (fun i j => g (S i) (skip q j))); [reflexivity|].
    intros i j Hi Hj. apply H; [lia|]. unfold skip. destruct (j <? q); lia.
Qed.

Lemma Det_rec_ok fuel : forall r c f A n, is_mat r c f A -> n <= r -> n <= c -> n < fuel ->
  Det_rec fuel A n = Ok (kdet n f).
Proof.
  induction fuel as [|fuel IH]; intros r c f A n HA Hr Hc Hf; [lia|]. pose proof HA as (_ & _ & _ & V).
  cbn [Det_rec]. destruct n as [|[|[|n]]].
  - reflexivity.
  - rewrite V by lia. reflexivity.
  - rewrite !V by lia. reflexivity.
  - set (N := S (S (S n))) in *. rewrite (kdet_step N f) by (unfold N; lia).
    destruct (Mat_make_ok (N - 1) (N - 1) (n_ofZ 0 : K)) as (cof & EC & HC); [unfold N; lia..|]. rewrite EC. cbn [bind].
    match goal with |- context [foldM ?s (seq 0 N)] => set (step := s) end.
    match goal with |- context [fold_left ?s (seq 0 N)] => set (kstep := s) end.
    assert (G : forall l cof D s g, is_mat (N - 1) (N - 1) g cof -> (forall q, In q l -> q < N) ->
      exists cof', foldM step l (cof, D, s) = Ok (cof', fst (fold_left kstep l (D, s)), snd (fold_left kstep l (D, s)))).
    { clear cof EC HC. induction l as [|q l IHl]; intros cof D s g HC Q.
      - exists cof. reflexivity.
      - cbn [foldM fold_left]. unfold step at 1.
        destruct (GetCofactor_ok r c f A N g cof 0 q HA HC) as (cof' & E & HC'); [lia|lia|unfold N; lia|apply Q; now left|unfold N; lia|].
        rewrite E. cbn [bind]. rewrite (IH _ _ _ _ (N - 1) HC') by (unfold N in *; lia). cbn [bind].
        rewrite V; [|unfold N in *; lia|]. 2:{ specialize (Q q (or_introl eq_refl)). lia. }
        cbn [bind].
        destruct (IHl cof' (fst (kstep (D, s) q)) (snd (kstep (D, s) q)) _ HC') as (cof2 & E2); [intros; apply Q; now right|].
        exists cof2. unfold kstep in E2 at 1 2. cbn [fst snd] in E2. rewrite <- surjective_pairing in E2.
        unfold skip in E2 at 1. cbn [Nat.ltb Nat.leb] in E2.
        etransitivity; [|etransitivity; [exact E2|]]; [reflexivity|]. reflexivity. }
    destruct (G (seq 0 N) cof (n_ofZ 0) 1%Z _ HC) as (cof' & E); [intros q Hq; apply in_seq in Hq; lia|].
    rewrite E. reflexivity.
Qed.

Lemma Det_ok r c f A n : is_mat r c f A -> n <= r -> n <= c -> Det A n = Ok (kdet n f).
Proof. intros. unfold Det. eapply Det_rec_ok; eauto. Qed.

(** The value [Adjoint] stores at (j, i). *)
Definition kcof (n : nat) f (i j : nat) : K :=
  let d := kdet (n - 1) (fun i' j' => f (skip i i') (skip j j')) in
  if ((i + j) mod 2 =? 0)%nat then d else n_neg d.

Lemma Adjoint_ok n f A g adj : 0 < n -> is_mat n n f A -> is_mat n n g adj ->
  exists B, Adjoint A adj = Ok B /\
    is_mat n n (fun i j => if n =? 1 then n_ofZ 1 else kcof n f j i) B.
Proof.
  intros Hn HA Hadj. pose proof HA as (E1 & E2 & _). unfold Adjoint. rewrite E1, E2.
  destruct (Nat.eqb_spec n 1) as [->|Hn1].
  { destruct (set_Value_ok 1 1 g adj 0 0 (n_ofZ 1) Hadj) as (B & EB & HB); [lia|lia|]. exists B. split; [exact EB|].
    eapply is_mat_ext; [|exact HB]. intros i j Hi Hj. destruct i, j; try lia. reflexivity. }
  destruct (Mat_make_ok (n - 1) (n - 1) (n_ofZ 0 : K)) as (cof & EC & HC); [lia..|]. rewrite EC. cbn [bind].
  set (inner := fun (i : nat) (x : mat K * mat K) =>
        let '(cofactor, adj) := x in fun j : nat =>
        let* cofactor := GetCofactor A cofactor i j n in
        let* det := Det cofactor (n - 1) in
        let det := if ((i + j) mod 2 =? 0)%nat then det else n_neg det in
        let* adj := set_Value adj j i det in
        Ok (cofactor, adj)).
  destruct (foldM_seq (fun i x => (exists g', is_mat (n - 1) (n - 1) g' (fst x)) /\
      is_mat n n (fun i' j' => if j' <? i then kcof n f j' i' else g i' j') (snd x))
      (fun st i => foldM (inner i) (seq 0 n) st) n 0 (cof, adj)) as ((cof', B) & EB & _ & HB).
  - split; [simpl; eauto|]. eapply is_mat_ext; [|exact Hadj]. intros; reflexivity.
  - intros i x Hi [Hc Ha].
    destruct (foldM_seq (fun j x => (exists g', is_mat (n - 1) (n - 1) g' (fst x)) /\
      is_mat n n (fun i' j' => if (j' <? i) || ((j' =? i) && (i' <? j)) then kcof n f j' i' else g i' j') (snd x))
      (inner i) n 0 x) as ((cof', B) & EB & Hc' & HB).
    + split; [exact Hc|]. eapply is_mat_ext; [|exact Ha]. intros i' j' _ _. cbv beta. rewrite andb_false_r, orb_false_r. reflexivity.
    + intros j [cof1 adj1] Hj [[g1 Hc1] Ha1]. simpl in Hc1, Ha1. unfold inner.
      destruct (GetCofactor_ok n n f A n g1 cof1 i j HA Hc1) as (cof2 & EC2 & HC2); try lia. rewrite EC2. cbn [bind].
      rewrite (Det_ok _ _ _ _ (n - 1) HC2) by lia. cbn [bind].
      destruct (set_Value_ok n n _ adj1 j i (kcof n f i j) Ha1) as (B & EB & HB); [lia|lia|].
      unfold kcof in EB. rewrite EB. cbn [bind]. eexists. split; [reflexivity|]. simpl. split; [eauto|].
      eapply is_mat_ext; [|exact HB]. intros i' j' _ _. cbv beta.
      destruct (Nat.eqb_spec i' j), (Nat.eqb_spec j' i), (Nat.ltb_spec j' i), (Nat.ltb_spec i' j), (Nat.ltb_spec i' (S j)); subst; simpl; try reflexivity; lia.
    + exists (cof', B). split; [exact EB|]. split; [exact Hc'|]. eapply is_mat_ext; [|exact HB]. intros i' j' Hi' _. cbv beta.
      destruct (Nat.ltb_spec i' (0 + n)); [|lia].
      destruct (Nat.eqb_spec j' i), (Nat.ltb_spec j' i), (Nat.ltb_spec j' (S i)); subst; simpl; try reflexivity; lia.
  - unfold inner in EB. exists B. rewrite EB. split; [reflexivity|]. eapply is_mat_ext; [|exact HB].
    intros i' j' _ Hj'. cbv beta. destruct (Nat.ltb_spec j' (0 + n)); [reflexivity|lia].
Qed.

Lemma Inverse_ok cfg n f A : 0 < n -> is_mat n n f A ->
  if n_leb (n_abs (kdet n f)) (epsilon cfg)
  then Inverse cfg A = Throw (MathError ERROR_SINGULAR_MATRIX "")
  else exists B, Inverse cfg A = Ok B /\
    is_mat n n (fun i j => n_div (if n =? 1 then n_ofZ 1 else kcof n f j i) (kdet n f)) B.
Proof.
  intros Hn HA. pose proof HA as (E1 & E2 & _). unfold Inverse. rewrite E1, E2, Nat.eqb_refl.
  rewrite (Det_ok _ _ _ _ n HA) by lia. cbn [bind]. destruct (n_leb _ _); [reflexivity|].
  destruct (Mat_make_ok n n (n_ofZ 0 : K)) as (Z & EZ & HZ); [lia..|]. rewrite EZ. cbn [bind].
  destruct (Adjoint_ok n f A _ Z Hn HA HZ) as (B & EB & HB). rewrite EB. cbn [bind].
  eexists. split; [reflexivity|].
  pose proof (map_is_mat n n _ B (fun v => n_div v (kdet n f)) HB) as M. destruct HB as (E3 & E4 & _). now rewrite E3, E4 in M.
Qed.

Lemma PositiveDetermine_ok n f A : is_mat n n f A ->
  PositiveDetermine A = Ok (forallb (fun i => negb (n_leb (kdet i f) (n_ofZ 0))) (seq 1 n)).
Proof.
  intros HA. pose proof HA as (E1 & E2 & _). unfold PositiveDetermine. rewrite E1, E2, Nat.eqb_refl.
  assert (G : forall l, (forall i, In i l -> i <= n) ->
    PositiveDetermine_loop A l = Ok (forallb (fun i => negb (n_leb (kdet i f) (n_ofZ 0))) l)).
  { induction l as [|i l IH]; intros H; [reflexivity|]. cbn [PositiveDetermine_loop forallb].
    assert (i <= n) by (apply H; now left). rewrite (Det_ok _ _ _ _ i HA) by lia. cbn [bind].
    destruct (n_leb _ _); [reflexivity|]. apply IH. intros; apply H; now right. }
  apply G. intros i Hi. apply in_seq in Hi. lia.
Qed.
End Det.
