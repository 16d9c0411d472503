(** FNV-1a: the step is a bijection for every byte; short words by a meet-in-the-middle check. *)
From Coq Require Import String Ascii List ZArith Bool Arith Lia FMapPositive.
From Verif Require Import Base MathOp NodeModel ParseModel ExprSpec GrammarSpec HashSpec.
Import ListNotations.
Local Open Scope Z_scope.

Definition M64 : Z := 2 ^ 64.
Definition prime : Z := 1099511628211.
Definition prime_inv : Z := 14886173955864302971.
Definition ones64 : Z := 18446744073709551615.
Definition fwd (h c : Z) : Z := Z.land (prime * Z.lxor h c) ones64.
Definition bwd (t c : Z) : Z := Z.lxor (Z.land (prime_inv * t) ones64) c.

Lemma land_ones64 a : Z.land a ones64 = a mod M64.
Proof. change ones64 with (Z.ones 64). apply Z.land_ones. lia. Qed.
Lemma fwd_range h c : 0 <= fwd h c < M64.
Proof. unfold fwd. rewrite land_ones64. apply Z.mod_pos_bound. reflexivity. Qed.
Lemma lxor_range a b : 0 <= a < M64 -> 0 <= b < M64 -> 0 <= Z.lxor a b < M64.
Proof.
  intros Ha Hb. assert (H0 : 0 <= Z.lxor a b) by (apply Z.lxor_nonneg; lia). split; [exact H0|].
  destruct (Z.eq_dec (Z.lxor a b) 0) as [->|N]; [reflexivity|].
  apply Z.log2_lt_pow2; [lia|].
  apply Z.le_lt_trans with (Z.max (Z.log2 a) (Z.log2 b)); [apply Z.log2_lxor; lia|].
  assert (G : forall x, 0 <= x < M64 -> Z.log2 x < 64).
  { intros x [H1 H2]. destruct (Z.eq_dec x 0) as [->|]; [reflexivity|]. apply Z.log2_lt_pow2; [lia|exact H2]. }
  pose proof (G a Ha). pose proof (G b Hb). lia.
Qed.
Lemma bwd_range t c : 0 <= c < M64 -> 0 <= bwd t c < M64.
Proof. intros Hc. unfold bwd. apply lxor_range; [|exact Hc]. rewrite land_ones64. apply Z.mod_pos_bound. reflexivity. Qed.
Lemma lxor_cancel a b : Z.lxor (Z.lxor a b) b = a.
Proof. rewrite Z.lxor_assoc, Z.lxor_nilpotent. apply Z.lxor_0_r. Qed.
Lemma bwd_fwd h c : 0 <= h < M64 -> 0 <= c < M64 -> bwd (fwd h c) c = h.
Proof.
  intros Hh Hc. unfold bwd, fwd. rewrite !land_ones64, Z.mul_mod_idemp_r by discriminate.
  rewrite Z.mul_assoc. rewrite <- Z.mul_mod_idemp_l by discriminate.
  change ((prime_inv * prime) mod M64) with 1. rewrite Z.mul_1_l, Z.mod_small by (now apply lxor_range).
  apply lxor_cancel.
Qed.

Definition hash_from (h : Z) (l : list Z) : Z := fold_left fwd l h.
Definition back (t : Z) (l : list Z) : Z := fold_right (fun c t => bwd t c) t l.
Definition is_byte (c : Z) : Prop := 0 <= c < M64.

Lemma hash_range l : forall h, 0 <= h < M64 -> 0 <= hash_from h l < M64.
Proof. induction l as [|c l IH]; intros h Hh; [exact Hh|]. apply IH, fwd_range. Qed.
Lemma hash_app h u v : hash_from h (u ++ v) = hash_from (hash_from h u) v.
Proof. apply fold_left_app. Qed.
Lemma back_hash l : Forall is_byte l -> forall h, 0 <= h < M64 -> back (hash_from h l) l = h.
Proof.
  induction 1 as [|c l Hc Hl IH]; intros h Hh; [reflexivity|].
  cbn [back fold_right]. unfold hash_from. cbn [fold_left]. fold (hash_from (fwd h c) l). fold (back (hash_from (fwd h c) l) l).
  rewrite IH by apply fwd_range. now apply bwd_fwd.
Qed.

(** Two words differing in one place only have different hashes. *)
Lemma hash_one_place h u c d v : 0 <= h < M64 -> Forall is_byte (u ++ c :: v) -> Forall is_byte (u ++ d :: v) ->
  hash_from h (u ++ c :: v) = hash_from h (u ++ d :: v) -> c = d.
Proof.
  intros Hh Hc Hd E. rewrite !hash_app in E. apply Forall_app in Hc as [_ Hc], Hd as [_ Hd].
  inversion Hc; subst. inversion Hd; subst. set (g := hash_from h u) in *.
  assert (Hg : 0 <= g < M64) by (now apply hash_range).
  unfold hash_from in E. cbn [fold_left] in E. apply (f_equal (fun t => back t v)) in E.
  change (fold_left fwd v (fwd g c)) with (hash_from (fwd g c) v) in E.
  change (fold_left fwd v (fwd g d)) with (hash_from (fwd g d) v) in E.
  rewrite !back_hash in E by (try apply fwd_range; assumption).
  apply (f_equal (fun t => Z.land (prime_inv * t) ones64)) in E.
  assert (G : forall x, is_byte x -> Z.land (prime_inv * fwd g x) ones64 = Z.lxor g x).
  { intros x Hx. unfold fwd. rewrite !land_ones64, Z.mul_mod_idemp_r by discriminate. rewrite Z.mul_assoc, <- Z.mul_mod_idemp_l by discriminate.
    change ((prime_inv * prime) mod M64) with 1. rewrite Z.mul_1_l. apply Z.mod_small. now apply lxor_range. }
  rewrite !G in E by assumption. rewrite <- (lxor_cancel c g), <- (lxor_cancel d g).
  rewrite (Z.lxor_comm c g), (Z.lxor_comm d g). now rewrite E.
Qed.

(** ** The check *)
Definition key (h : Z) : positive := match h with Zpos p => xI p | _ => xH end.
Definition alphabet : list Z := map Z.of_nat (seq 48 10 ++ seq 65 26 ++ [95%nat] ++ seq 97 26).
Definition wmap := PositiveMap.t (list Z).
Fixpoint build (n : nat) (h : Z) (w : list Z) (m : wmap) : wmap :=
  match n with
  | O => PositiveMap.add (key (Z.shiftr h 7)) w m
  | S n => fold_left (fun m c => build n (fwd h c) (w ++ [c]) m) alphabet m
  end.
Fixpoint all_fwd (n : nat) (h : Z) (w : list Z) (q : Z -> list Z -> bool) : bool :=
  match n with
  | O => q h w
  | S n => forallb (fun c => all_fwd n (fwd h c) (w ++ [c]) q) alphabet
  end.
Fixpoint all_back (n : nat) (t : Z) (w : list Z) (p : Z -> list Z -> bool) : bool :=
  match n with
  | O => p t w
  | S n => let q := Z.land (prime_inv * t) ones64 in
           forallb (fun c => all_back n (Z.lxor q c) (c :: w) p) alphabet
  end.
Fixpoint leqb (a b : list Z) : bool :=
  match a, b with
  | [], [] => true
  | x :: a, y :: b => (x =? y) && leqb a b
  | _, _ => false
  end.
Lemma leqb_eq a : forall b, leqb a b = true -> a = b.
Proof.
  induction a as [|x a IH]; intros [|y b] H; try discriminate H; [reflexivity|]. cbn [leqb] in H.
  apply andb_true_iff in H as [H1 H2]. apply Z.eqb_eq in H1. subst. f_equal. auto.
Qed.

Lemma all_fwd_sound n : forall h w q, all_fwd n h w q = true ->
  forall u, length u = n -> Forall (fun c => In c alphabet) u -> q (hash_from h u) (w ++ u) = true.
Proof.
  induction n as [|n IH]; intros h w q H u Hl Hu.
  - destruct u; [|discriminate]. rewrite app_nil_r. exact H.
  - destruct u as [|c u]; [discriminate|]. inversion Hu; subst. cbn [all_fwd] in H. rewrite forallb_forall in H.
    specialize (H c H2). specialize (IH _ _ _ H u ltac:(now injection Hl) H3). rewrite <- app_assoc in IH. exact IH.
Qed.
Lemma all_back_sound n : forall t w p, all_back n t w p = true ->
  forall v, length v = n -> Forall (fun c => In c alphabet) v -> p (back t v) (v ++ w) = true.
Proof.
  induction n as [|n IH]; intros t w p H v Hl Hv.
  - destruct v; [|discriminate]. exact H.
  - destruct (@exists_last _ v) as (v' & c & ->); [intros ->; discriminate|].
    apply Forall_app in Hv as [Hv' Hc]. inversion Hc; subst. rewrite app_length in Hl. cbn [length] in Hl.
    cbn [all_back] in H. rewrite forallb_forall in H. specialize (H c H2).
    specialize (IH _ _ _ H v' ltac:(lia) Hv'). unfold back. rewrite fold_right_app, <- app_assoc. exact IH.
Qed.

Definition codes (s : string) : list Z := map byte_of (list_ascii_of_string s).
Definition names : list (list Z) :=
  map codes ["sin"; "cos"; "tan"; "arcsin"; "arccos"; "arctan"; "sqrt"; "log"; "log2"; "log10"; "exp"]%string.
Definition start : Z := 14695981039346656037.

(** The letter between a prefix of two letters and a suffix of at most two is found by a trick:
    xor with a letter leaves all but the low seven bits alone. *)
Definition upper (h : Z) : Z := Z.shiftr h 7.
Definition fwd_ok (m : wmap) : bool :=
  all_fwd 2 start [] (fun h w => match PositiveMap.find (key (upper h)) m with Some u => leqb u w | None => false end).
Definition back_ok (m : wmap) (k : nat) (name : list Z) : bool :=
  all_back k (hash_from start name) [] (fun t w =>
    match PositiveMap.find (key (upper (Z.land (prime_inv * t) ones64))) m with
    | Some u => forallb (fun c => negb (hash_from start (u ++ [c]) =? t) || leqb (u ++ c :: w) name) alphabet
    | None => true
    end).
Definition short_ok (hashes : list Z) (k : nat) : bool :=
  all_fwd k start [] (fun h w => forallb (fun t => negb (h =? t)) hashes).
Definition names_ok (m : wmap) : bool :=
  let hashes := map (hash_from start) names in
  forallb (short_ok hashes) [0;1;2]%nat && forallb (fun name => forallb (fun k => back_ok m k name) [0;1;2]%nat) names.
Definition words2 : wmap := build 2 start [] (PositiveMap.empty _).
Lemma checks : fwd_ok words2 && names_ok words2 = true.
Proof. vm_cast_no_check (eq_refl true). Qed.
Lemma check_map : exists m, fwd_ok m = true /\ names_ok m = true.
Proof. exists words2. apply andb_true_iff. exact checks. Qed.

Lemma upper_lxor h c : 0 <= c < 128 -> upper (Z.lxor h c) = upper h.
Proof.
  intros Hc. unfold upper. rewrite Z.shiftr_lxor. replace (Z.shiftr c 7) with 0.
  - apply Z.lxor_0_r.
  - rewrite Z.shiftr_div_pow2 by lia. symmetry. apply Z.div_small. exact Hc.
Qed.
Lemma alphabet_small c : In c alphabet -> 0 <= c < 128.
Proof.
  intros Hc. unfold alphabet in Hc. apply in_map_iff in Hc as (k & <- & Hk').
  rewrite !in_app_iff, !in_seq in Hk'. cbn [In] in Hk'. lia.
Qed.

Lemma short_words w name : (length w <= 5)%nat -> Forall (fun c => In c alphabet) w -> In name names ->
  hash_from start w = hash_from start name -> w = name.
Proof.
  intros Hl Hw Hn E. destruct check_map as (m & C1 & C2). unfold names_ok in C2. cbv zeta in C2.
  apply andb_true_iff in C2 as [C3 C2]. rewrite forallb_forall in C2, C3. specialize (C2 name Hn). rewrite forallb_forall in C2.
  destruct (Nat.lt_ge_cases (length w) 3) as [L|L].
  - assert (Hk : In (length w) [0;1;2]%nat) by (cbn [In]; lia). specialize (C3 _ Hk). unfold short_ok in C3.
    pose proof (all_fwd_sound _ _ _ _ C3 w eq_refl Hw) as Q. cbv beta in Q. rewrite forallb_forall in Q.
    specialize (Q _ (in_map (hash_from start) names name Hn)). rewrite E, Z.eqb_refl in Q. discriminate.
  - destruct w as [|c1 [|c2 [|c v]]]; cbn [length] in Hl, L; try lia.
    change (c1 :: c2 :: c :: v) with ([c1; c2] ++ c :: v) in *. remember [c1; c2] as u eqn:Eu.
    assert (Lu : length u = 2%nat) by now subst. clear Eu c1 c2.
    apply Forall_app in Hw as [Hu Hcv]. inversion Hcv as [|? ? Hc Hv]; subst.
    assert (Hk : In (length v) [0;1;2]%nat) by (cbn [In]; lia). specialize (C2 _ Hk). unfold back_ok in C2.
    pose proof (all_back_sound _ _ _ _ C2 v eq_refl Hv) as Q. cbv beta in Q. rewrite app_nil_r in Q.
    rewrite <- E in Q. change (c :: v) with ([c] ++ v) in Q. rewrite !hash_app in Q.
    assert (Bv : Forall is_byte v).
    { refine (Forall_impl _ _ Hv). intros d Hd. apply alphabet_small in Hd. unfold is_byte, M64. lia. }
    assert (Hs : 0 <= start < M64) by (unfold start, M64; lia).
    rewrite back_hash in Q; [|exact Bv|apply hash_range, hash_range; exact Hs].
    change (hash_from (hash_from start u) [c]) with (fwd (hash_from start u) c) in Q.
    assert (G : Z.land (prime_inv * fwd (hash_from start u) c) ones64 = Z.lxor (hash_from start u) c).
    { unfold fwd. rewrite !land_ones64, Z.mul_mod_idemp_r by discriminate. rewrite Z.mul_assoc, <- Z.mul_mod_idemp_l by discriminate.
      change ((prime_inv * prime) mod M64) with 1. rewrite Z.mul_1_l. apply Z.mod_small. apply lxor_range; [now apply hash_range|].
      apply alphabet_small in Hc. unfold M64. lia. }
    rewrite G, upper_lxor in Q by (now apply alphabet_small).
    unfold fwd_ok in C1. pose proof (all_fwd_sound _ _ _ _ C1 u Lu Hu) as R. cbv beta in R. cbn [app] in R.
    destruct (PositiveMap.find (key (upper (hash_from start u))) m) as [u'|]; [|discriminate R].
    apply leqb_eq in R. subst u'. rewrite forallb_forall in Q. specialize (Q c Hc). rewrite hash_app in Q.
    change (hash_from (hash_from start u) [c]) with (fwd (hash_from start u) c) in Q. rewrite Z.eqb_refl in Q. cbn [negb orb] in Q.
    now apply leqb_eq in Q.
Qed.
