(** C51: the text of matrices, symbolic matrices and tables. *)
From Coq Require Import String Ascii List ZArith Bool Arith Lia Sorting.Sorted Reals Lra.
From Flocq Require Import IEEE754.BinarySingleNaN.
From Verif Require Import Base MathOp NodeModel ToStringModel SubsModel DiffModel MatModel VarsTableModel SymMatModel NonlinearModel
  ExprSpec SubsSpec MatSpec VarsSpec SymMatSpec GrammarSpec TextSpec MatTextSpec NodeProofs MatProofs Thm_Node Thm_Subs Thm_Vars SymMatProofs
  TextProofs NumTextSpec NumText IEEE Thm_Text.
Import ListNotations.
Local Open Scope string_scope.
Local Open Scope list_scope.
Local Open Scope nat_scope.

(** ** Layout *)
(** The printing loop over words. *)
Fixpoint word_loop (cols size i : nat) (ws : list string) : string :=
  match ws with
  | [] => ""
  | w :: ws' => ((if (i =? 0)%nat then "" else " ") ++ w ++
       (if (S i mod cols =? 0)%nat then (if (S i =? size)%nat then String "]" (String newline "") else String newline "") else ", ") ++
       word_loop cols size (S i) ws')%string
  end.
Lemma mat_loop {K : num_ops} cols size (d : list K) : forall i, Mat_ToString_loop cols size i d = word_loop cols size i (map n_tostr d).
Proof. induction d as [|v d IH]; intros i; [reflexivity|]. cbn [Mat_ToString_loop word_loop map]. rewrite IH. reflexivity. Qed.
Lemma sym_loop {K : num_ops} cols size (d : list (expr K)) : forall i,
  SymMat_ToString_loop cols size i (map embed d) = Ok (word_loop cols size i (map (text None) d)).
Proof.
  induction d as [|e d IH]; intros i; [reflexivity|]. cbn [SymMat_ToString_loop word_loop map]. rewrite ToString_text. cbn [bind]. rewrite IH. reflexivity.
Qed.

Lemma row_ok c size i0 rest : forall row m, length row = m -> 0 < m <= c ->
  word_loop c size (i0 * c + (c - m)) (row ++ rest) =
  ((if (i0 * c + (c - m) =? 0)%nat then "" else " ") ++ String.concat ",  " row ++
   (if (S i0 * c =? size)%nat then String "]" (String newline "") else String newline "") ++ word_loop c size (S i0 * c) rest)%string.
Proof.
  induction row as [|w row IH]; intros m Hm Hc; cbn [length] in Hm; [lia|]. cbn [app word_loop].
  destruct row as [|w' row].
  - cbn [length] in Hm. assert (m = 1) by lia. subst m. replace (S (i0 * c + (c - 1))) with (S i0 * c) by lia.
    rewrite Nat.mod_mul by lia. cbn [Nat.eqb app String.concat]. reflexivity.
  - cbn [length] in Hm. specialize (IH (m - 1) ltac:(cbn [length]; lia) ltac:(lia)).
    replace (S (i0 * c + (c - m))) with (i0 * c + (c - (m - 1))) by lia.
    assert (E : (i0 * c + (c - (m - 1))) mod c = c - (m - 1)).
    { rewrite Nat.add_comm, Nat.mod_add by lia. apply Nat.mod_small. lia. }
    rewrite E. destruct (Nat.eqb_spec (c - (m - 1)) 0); [lia|].
    rewrite IH. destruct (Nat.eqb_spec (i0 * c + (c - (m - 1))) 0); [lia|].
    change (String.concat ",  " (w :: w' :: row)) with (w ++ ",  " ++ String.concat ",  " (w' :: row))%string.
    rewrite !sapp_assoc. reflexivity.
Qed.

Lemma rows_ok c r (w : nat -> nat -> string) : 0 < c -> forall k i0, i0 + S k = r ->
  word_loop c (r * c) (i0 * c) (map (fun p => w (p / c) (p mod c)) (seq (i0 * c) (S k * c))) =
  ((if (i0 =? 0)%nat then "" else " ") ++
   String.concat (String newline " ") (map (fun i => String.concat ",  " (map (w i) (seq 0 c))) (seq i0 (S k))) ++ String "]" (String newline ""))%string.
Proof.
  intros Hc. assert (Hz : forall i0, (i0 * c =? 0) = (i0 =? 0)) by (intros i0; destruct (Nat.eqb_spec (i0 * c) 0), (Nat.eqb_spec i0 0); try reflexivity; nia).
  assert (Hrow : forall i0, map (fun p => w (p / c) (p mod c)) (seq (i0 * c) c) = map (w i0) (seq 0 c)).
  { intros i0. rewrite <- (Nat.add_0_r (i0 * c)). rewrite <- (Nat.add_0_r (i0 * c)).
    assert (G : forall n s, s + n <= c -> map (fun p => w (p / c) (p mod c)) (seq (i0 * c + s) n) = map (w i0) (seq s n)).
    { induction n as [|n IH]; intros s Hs; [reflexivity|]. cbn [seq map]. destruct (divmod_pos c i0 s) as [E1 E2]; [lia|]. rewrite E1, E2.
      rewrite <- Nat.add_succ_r, IH by lia. reflexivity. }
    rewrite !Nat.add_0_r. pose proof (G c 0 ltac:(lia)) as Q. now rewrite Nat.add_0_r in Q. }
  induction k as [|k IH]; intros i0 Hk.
  - rewrite Nat.mul_1_l. pose proof (row_ok c (r * c) i0 [] (map (w i0) (seq 0 c)) c) as Q. rewrite map_length, seq_length in Q. specialize (Q eq_refl ltac:(lia)).
    rewrite Nat.sub_diag, Nat.add_0_r, app_nil_r in Q. rewrite Hrow, Q, Hz. cbn [seq map String.concat word_loop]. replace (S i0) with r by lia.
    rewrite Nat.eqb_refl, sapp_nil. reflexivity.
  - replace (S (S k) * c) with (c + S k * c) by lia. rewrite seq_app, map_app, Hrow.
    pose proof (row_ok c (r * c) i0 (map (fun p => w (p / c) (p mod c)) (seq (i0 * c + c) (S k * c))) (map (w i0) (seq 0 c)) c) as Q.
    rewrite map_length, seq_length in Q. specialize (Q eq_refl ltac:(lia)). rewrite Nat.sub_diag, Nat.add_0_r in Q. rewrite Q, Hz.
    replace (i0 * c + c) with (S i0 * c) by lia. rewrite IH by lia.
    destruct (Nat.eqb_spec (S i0 * c) (r * c)) as [E|_]; [exfalso; nia|]. cbn [Nat.eqb].
    change (seq i0 (S (S k))) with (i0 :: seq (S i0) (S k)). cbn [map].
    assert (Ec : forall a l, l <> [] -> String.concat (String newline " ") (a :: l) = (a ++ String newline " " ++ String.concat (String newline " ") l)%string).
    { intros a l Hl. destruct l; [congruence|reflexivity]. }
    rewrite (Ec _ (map _ (seq (S i0) (S k)))) by discriminate. rewrite !sapp_assoc. reflexivity.
Qed.
Lemma grid_ok r c (w : nat -> nat -> string) : 0 < r -> 0 < c ->
  String.append "[" (word_loop c (r * c) 0 (map (fun p => w (p / c) (p mod c)) (seq 0 (r * c)))) = grid_text r c w.
Proof.
  intros Hr Hc. destruct r as [|k]; [lia|]. pose proof (rows_ok c (S k) w Hc k 0 eq_refl) as Q. rewrite Nat.mul_0_l in Q. rewrite Q. reflexivity.
Qed.

Theorem C51_mat {K : num_ops} r c (f : nat -> nat -> K) A : 0 < r -> 0 < c -> is_mat r c f A ->
  Mat_ToString A = grid_text r c (fun i j => n_tostr (f i j)).
Proof.
  intros Hr Hc H. pose proof (is_mat_nth _ _ _ _ H) as Nt. destruct H as (E1 & E2 & L & _).
  assert (D : m_data A = map (fun k => f (k / c) (k mod c)) (seq 0 (r * c))).
  { apply nth_error_ext. intros k. destruct (Nat.lt_ge_cases k (r * c)) as [Hk|Hk].
    - destruct (divmod_lt r c k Hk) as [H1 H2]. specialize (Nt _ _ H1 H2). rewrite (Nat.mul_comm _ c), <- Nat.div_mod in Nt by lia. rewrite Nt.
      symmetry. erewrite map_nth_error; [reflexivity|]. rewrite nth_error_nth' with (d := 0) by (now rewrite seq_length). now rewrite seq_nth.
    - rewrite !(proj2 (nth_error_None _ _)); auto; rewrite ?map_length, ?seq_length; lia. }
  unfold Mat_ToString. destruct (m_data A) as [|v d] eqn:Ed; [exfalso; cbn [length] in L; nia|]. rewrite <- Ed in *.
  rewrite mat_loop, E2, L, D, map_map. rewrite <- grid_ok by auto. reflexivity.
Qed.

Theorem C51_symmat {K : num_ops} r c (f : nat -> nat -> expr K) A : 0 < r -> 0 < c -> is_sym r c f A ->
  SymMat_ToString A = Ok (grid_text r c (fun i j => text None (f i j))).
Proof.
  intros Hr Hc H. rewrite (is_sym_eq _ _ _ _ H). unfold SymMat_ToString. cbn [s_data s_cols].
  destruct (map _ (seq 0 (r * c))) as [|v d] eqn:Ed; [exfalso; apply map_eq_nil in Ed; destruct (r * c) eqn:Erc; [nia|discriminate]|]. rewrite <- Ed. clear v d Ed.
  rewrite map_length, seq_length. rewrite <- (map_map (fun k => f (k / c) (k mod c)) embed), sym_loop, map_map. cbn [bind]. rewrite <- grid_ok by auto. reflexivity.
Qed.

(** Every variable on a line of its own, in increasing order of the names. *)
Theorem C51_table {K : num_ops} (t : vars_table K) xs vs : holds t xs vs ->
  exists items, VarsTable_ToString t = lines_text n_tostr items /\
    StronglySorted (fun x y => String.compare x y = Lt) (map fst items) /\
    forall x v, In (x, v) items <-> pair_in x v xs vs.
Proof.
  intros H. exists (Items t). split; [|split; [apply (h_sorted _ _ _ H)|apply (h_items _ _ _ H)]].
  unfold VarsTable_ToString, lines_text, Items.
  assert (G : forall (l : smap K) s, fold_left (fun ret item => (ret ++ (fst item ++ " = " ++ n_tostr (snd item) ++ String newline ""))%string) l s =
    (s ++ String.concat "" (map (fun p => (fst p ++ " = " ++ n_tostr (snd p) ++ String newline "")%string) l))%string).
  { induction l as [|p l IH]; intros s; cbn [fold_left map]; [now rewrite sapp_nil|]. rewrite IH, !sapp_assoc. f_equal.
    destruct l as [|q l]; cbn [map String.concat]; rewrite ?sapp_nil, ?sapp_assoc; reflexivity. }
  exact (G (vt_table t) "").
Qed.

(** ** The text determines the layout and the words *)
Lemma split_unique ch a b x y : without ch a -> without ch b -> (a ++ String ch x = b ++ String ch y)%string -> a = b /\ x = y.
Proof.
  revert b. induction a as [|c a IH]; intros [|d b] Ha Hb E; cbn in E; injection E; clear E.
  - auto.
  - intros _ ->. destruct Hb as [Hb _]. congruence.
  - intros _ ->. destruct Ha as [Ha _]. congruence.
  - intros E ->. destruct Ha as [_ Ha], Hb as [_ Hb]. destruct (IH b Ha Hb E). subst. auto.
Qed.
Lemma split_none ch a x b : without ch b -> (a ++ String ch x)%string <> b.
Proof.
  revert b. induction a as [|c a IH]; intros [|d b] Hb E; try discriminate; cbn in E; injection E as E1 E2; destruct Hb as [H Hb].
  - congruence.
  - exact (IH b Hb E2).
Qed.
Lemma without_app ch a b : without ch (a ++ b)%string <-> without ch a /\ without ch b. Proof. apply all_app. Qed.

Lemma concat_cons sep a l : l <> [] -> String.concat sep (a :: l) = (a ++ sep ++ String.concat sep l)%string.
Proof. destruct l; [congruence|reflexivity]. Qed.
Lemma commas_unique l : forall l', l <> [] -> l' <> [] -> (forall w, In w l -> without "," w) -> (forall w, In w l' -> without "," w) ->
  String.concat ",  " l = String.concat ",  " l' -> l = l'.
Proof.
  induction l as [|w l IH]; intros l' Hn Hn' H H' E; [congruence|]. destruct l' as [|w' l']; [congruence|].
  assert (Hw := H w (or_introl eq_refl)). assert (Hw' := H' w' (or_introl eq_refl)).
  destruct l as [|v l], l' as [|v' l'].
  - cbn in E. now subst.
  - exfalso. rewrite (concat_cons _ w') in E by discriminate. change (String.concat ",  " [w]) with w in E. symmetry in E. now apply (split_none "," w' _ w Hw) in E.
  - exfalso. rewrite (concat_cons _ w) in E by discriminate. change (String.concat ",  " [w']) with w' in E. now apply (split_none "," w _ w' Hw') in E.
  - rewrite !concat_cons in E by discriminate. apply (split_unique "," w w') in E as [-> E]; auto. f_equal. injection E as E.
    apply IH; try discriminate; auto; intros u Hu; [apply H|apply H']; now right.
Qed.
Lemma snoc_inj ch w : forall w', (w ++ String ch "" = w' ++ String ch "")%string -> w = w'.
Proof.
  induction w as [|c w IH]; intros [|d w'] E.
  - reflexivity.
  - cbn in E. injection E as _ E. destruct w'; discriminate.
  - cbn in E. injection E as _ E. destruct w; discriminate.
  - cbn in E. injection E as -> E. f_equal. auto.
Qed.
Lemma lines_unique l : forall l', l <> [] -> l' <> [] -> (forall w, In w l -> without newline w) -> (forall w, In w l' -> without newline w) ->
  (String.concat (String newline " ") l ++ String "]" (String newline ""))%string = (String.concat (String newline " ") l' ++ String "]" (String newline ""))%string -> l = l'.
Proof.
  assert (Last : forall w, without newline w -> without newline (w ++ "]")%string) by (intros w Hw; apply without_app; split; [exact Hw|split; [discriminate|exact I]]).
  assert (Re : forall w, (w ++ String "]" (String newline ""))%string = ((w ++ "]") ++ String newline "")%string) by (intros w; now rewrite sapp_assoc).
  induction l as [|w l IH]; intros l' Hn Hn' H H' E; [congruence|]. destruct l' as [|w' l']; [congruence|].
  assert (Hw := H w (or_introl eq_refl)). assert (Hw' := H' w' (or_introl eq_refl)).
  destruct l as [|v l], l' as [|v' l'].
  - cbn [String.concat] in E. rewrite !Re in E. apply split_unique in E as [E _]; auto. f_equal. exact (snoc_inj _ _ _ E).
  - exfalso. rewrite (concat_cons _ w') in E by discriminate. change (String.concat (String newline " ") [w]) with w in E. rewrite !sapp_assoc, (Re w) in E.
    apply (split_unique newline (w ++ "]")%string w') in E as [_ E]; auto. discriminate.
  - exfalso. rewrite (concat_cons _ w) in E by discriminate. change (String.concat (String newline " ") [w']) with w' in E. rewrite !sapp_assoc, (Re w') in E.
    apply (split_unique newline w (w' ++ "]")%string) in E as [_ E]; auto. discriminate.
  - rewrite (concat_cons _ w), (concat_cons _ w'), !sapp_assoc in E by discriminate. apply (split_unique newline w w') in E as [-> E]; auto. f_equal. injection E as E.
    apply IH; try discriminate; auto; intros u Hu; [apply H|apply H']; now right.
Qed.
Lemma without_concat ch sep l : without ch sep -> (forall w, In w l -> without ch w) -> without ch (String.concat sep l).
Proof.
  intros Hs. induction l as [|w l IH]; intros H; [exact I|]. destruct l as [|v l]; [apply H; now left|].
  rewrite concat_cons by discriminate. rewrite !without_app. split; [apply H; now left|]. split; [exact Hs|]. apply IH. intros u Hu. apply H. now right.
Qed.
Lemma map_seq_inj {B} (f g : nat -> B) n : map f (seq 0 n) = map g (seq 0 n) -> forall i, i < n -> f i = g i.
Proof.
  intros E i Hi. assert (H : nth_error (map f (seq 0 n)) i = nth_error (map g (seq 0 n)) i) by now rewrite E.
  rewrite !(map_nth_error _ _ _ (d := i)) in H by (rewrite nth_error_nth' with (d := 0) by (now rewrite seq_length); now rewrite seq_nth). congruence.
Qed.
Theorem C51_grid_unique r c r' c' w w' : 0 < r -> 0 < c -> 0 < r' -> 0 < c' ->
  (forall i j, i < r -> j < c -> without "," (w i j) /\ without newline (w i j)) ->
  (forall i j, i < r' -> j < c' -> without "," (w' i j) /\ without newline (w' i j)) ->
  grid_text r c w = grid_text r' c' w' -> r = r' /\ c = c' /\ forall i j, i < r -> j < c -> w i j = w' i j.
Proof.
  intros Hr Hc Hr' Hc' H H' E. unfold grid_text in E. injection E as E.
  assert (Ne : forall {B} (f : nat -> B) n, 0 < n -> map f (seq 0 n) <> []) by (intros B f [|n] Hn; [lia|discriminate]).
  assert (Rows : forall r c (w : nat -> nat -> string), (forall i j, i < r -> j < c -> without "," (w i j) /\ without newline (w i j)) ->
     forall s, In s (map (fun i => String.concat ",  " (map (w i) (seq 0 c))) (seq 0 r)) -> without newline s).
  { clear. intros r c w H s Hs. apply in_map_iff in Hs as (i & <- & Hi). apply in_seq in Hi. apply without_concat; [repeat split; discriminate|].
    intros u Hu. apply in_map_iff in Hu as (j & <- & Hj). apply in_seq in Hj. apply H; lia. }
  apply lines_unique in E; [|now apply Ne|now apply Ne|now apply Rows|now apply Rows].
  assert (Er : r = r') by (apply (f_equal (@length _)) in E; now rewrite !map_length, !seq_length in E). subst r'. split; [reflexivity|].
  assert (Row : forall i, i < r -> map (w i) (seq 0 c) = map (w' i) (seq 0 c')).
  { intros i Hi. apply commas_unique; [now apply Ne|now apply Ne| | |exact (map_seq_inj _ _ r E i Hi)];
      intros u Hu; apply in_map_iff in Hu as (j & <- & Hj); apply in_seq in Hj; [apply H|apply H']; lia. }
  assert (Ec : c = c') by (pose proof (Row 0 Hr) as Q; apply (f_equal (@length _)) in Q; now rewrite !map_length, !seq_length in Q). subst c'. split; [reflexivity|].
  intros i j Hi Hj. exact (map_seq_inj _ _ c (Row i Hi) j Hj).
Qed.

(** ** Binary64: the texts of numbers and of expressions contain no separators *)
Definition number_char (c : ascii) : Prop := digit c \/ In c ["."; "e"; "+"; "-"; "i"; "n"; "f"; "a"]%char.
Lemma fixdigits_digits w : forall n acc, all_chars digit acc -> all_chars digit (fixdigits w n acc).
Proof.
  induction w as [|w IH]; intros n acc H; cbn [fixdigits]; [exact H|]. apply IH. split; [|exact H].
  apply digit_char_ok. apply Z.mod_pos_bound. reflexivity.
Qed.
Lemma strip_leading_chars P s : all_chars P s -> all_chars P (strip_leading s).
Proof.
  induction s as [|c s IH]; intros H; [exact H|].
  assert (E : strip_leading (String c s) = String c s \/ strip_leading (String c s) = strip_leading s).
  { cbn [strip_leading]. destruct c as [[] [] [] [] [] [] [] []]; auto; destruct s; auto. }
  destruct E as [->| ->]; [exact H|]. apply IH, H.
Qed.
Lemma strip_trailing_chars P s : all_chars P s -> all_chars P (strip_trailing s).
Proof.
  induction s as [|c s IH]; intros H; [exact H|]. destruct H as [H1 H2]. cbn [strip_trailing]. specialize (IH H2).
  destruct (strip_trailing s) as [|d t]; [destruct (Ascii.eqb c "0"); [exact I|split; [exact H1|exact I]]|]. split; [exact H1|exact IH].
Qed.
Lemma digits_number s : all_chars digit s -> all_chars number_char s.
Proof. apply all_impl. intros c H. now left. Qed.
Lemma frac_chars n : all_chars number_char (frac_part (fixdigits 16 n "")).
Proof.
  unfold frac_part. pose proof (strip_trailing_chars digit _ (fixdigits_digits 16 n "" I)) as H.
  destruct (strip_trailing (fixdigits 16 n "")) as [|d t]; [exact I|]. split; [right; simpl; tauto|]. exact (digits_number _ H).
Qed.
Lemma number_chars (L : libm) (v : B64 L) : all_chars number_char (n_tostr v).
Proof.
  change (n_tostr v) with (b_tostr v). destruct v as [s|s| |s m e H]; cbn [b_tostr].
  - split; [left; cbv; lia|exact I].
  - destruct s; repeat split; right; simpl; tauto.
  - repeat split; right; simpl; tauto.
  - destruct (frac_of m e) as [num den]. 
    assert (Sg : all_chars number_char (if s then "-" else "")%string) by (destruct s; [split; [right; simpl; tauto|exact I]|exact I]).
    destruct (_ || _).
    + unfold fmt_e. destruct (if (_ =? 10 ^ 17)%Z then _ else _) as [n k]. rewrite !all_app. split; [exact Sg|]. split; [apply digits_number; now apply fixdigits_digits|]. split; [apply frac_chars|].
      split; [split; [right; simpl; tauto|exact I]|]. split; [destruct (k <? 0)%Z; (split; [right; simpl; tauto|exact I])|].
      destruct (Z.abs k <? 100)%Z; apply digits_number; now apply fixdigits_digits.
    + unfold fmt_f. rewrite !all_app. split; [exact Sg|]. split; [|apply frac_chars]. apply digits_number, strip_leading_chars. now apply fixdigits_digits.
Qed.
Lemma number_char_not c d : number_char c -> In d [","; newline; "="]%char -> c <> d.
Proof.
  intros H Hd ->. destruct Hd as [<-|[<-|[<-|[]]]]; destruct H as [H|H]; cbv in H; try lia; intuition discriminate.
Qed.
Theorem C51_number_text (L : libm) (v : B64 L) : without "," (n_tostr v) /\ without newline (n_tostr v) /\ without "=" (n_tostr v).
Proof. repeat split; (eapply all_impl; [|exact (number_chars L v)]); intros c Hc; (apply (number_char_not c _ Hc); simpl; auto). Qed.

Lemma word_char_not c d : letter c \/ digit c \/ c = "_"%char -> In d [","; newline; "="]%char -> c <> d.
Proof.
  intros H Hd ->. destruct Hd as [<-|[<-|[<-|[]]]]; destruct H as [H|[H|H]]; cbv in H; try discriminate; lia.
Qed.
Lemma identifier_without x d : identifier x -> In d [","; newline; "="]%char -> without d x.
Proof.
  destruct x as [|c x]; [contradiction|]. intros [H H'] Hd. split; [apply word_char_not; auto; intuition|].
  eapply all_impl; [|exact H']. intros a Ha. now apply word_char_not.
Qed.
Theorem C51_expr_text (L : libm) (e : expr (B64 L)) : (forall x, occurs x e -> identifier x) -> forall ctx,
  without "," (text ctx e) /\ without newline (text ctx e) /\ without "=" (text ctx e).
Proof.
  intros H ctx. assert (G : forall d, In d [","; newline; "="]%char -> without d (text ctx e)).
  2:{ repeat split; apply G; simpl; auto. }
  intros d Hd.
  assert (Par : forall b s, without d s -> without d (in_parens b s)).
  { intros [] s Hs; cbn [in_parens]; [|exact Hs]. rewrite !without_app. repeat split; auto; simpl in Hd; intuition subst; discriminate. }
  revert ctx. induction e as [v|x|u e IH|b e1 IH1 e2 IH2]; intros ctx; cbn [text].
  - apply Par. eapply all_impl; [|exact (number_chars L v)]. intros c Hc. exact (number_char_not c d Hc Hd).
  - apply identifier_without; auto. apply H. constructor.
  - apply without_app. split; [destruct u; simpl in Hd; intuition subst; repeat split; discriminate|]. apply Par, IH. intros x Hx. apply H. now constructor.
  - apply Par. apply without_app. split; [apply IH1; intros; apply H; now constructor|]. split; [destruct b; simpl in Hd; intuition subst; discriminate|].
    apply IH2. intros. apply H. now constructor.
Qed.

(** Equal texts: the same shape and the same entry texts. *)
Theorem C51_mat_unique (L : libm) r c r' c' (f g : nat -> nat -> B64 L) A B : 0 < r -> 0 < c -> 0 < r' -> 0 < c' ->
  is_mat r c f A -> is_mat r' c' g B ->
  (Mat_ToString (K:=B64 L) A = Mat_ToString (K:=B64 L) B <-> r = r' /\ c = c' /\ forall i j, i < r -> j < c -> n_tostr (f i j) = n_tostr (g i j)).
Proof.
  intros Hr Hc Hr' Hc' HA HB. rewrite (C51_mat r c f A Hr Hc HA), (C51_mat r' c' g B Hr' Hc' HB). split.
  - apply C51_grid_unique; auto; intros; split; apply C51_number_text.
  - intros (<- & <- & E). unfold grid_text. do 3 f_equal. apply map_ext_in. intros i Hi. apply in_seq in Hi. f_equal. apply map_ext_in. intros j Hj. apply in_seq in Hj. apply E; lia.
Qed.
Theorem C51_symmat_unique (L : libm) r c r' c' (f g : nat -> nat -> expr (B64 L)) A B : 0 < r -> 0 < c -> 0 < r' -> 0 < c' ->
  is_sym r c f A -> is_sym r' c' g B ->
  (forall i j x, i < r -> j < c -> occurs x (f i j) -> identifier x) -> (forall i j x, i < r' -> j < c' -> occurs x (g i j) -> identifier x) ->
  (SymMat_ToString A = SymMat_ToString B <-> r = r' /\ c = c' /\ forall i j, i < r -> j < c -> ToString (embed (f i j)) = ToString (embed (g i j))).
Proof.
  intros Hr Hc Hr' Hc' HA HB If Ig. rewrite (C51_symmat r c f A Hr Hc HA), (C51_symmat r' c' g B Hr' Hc' HB). split.
  - intros E. apply (f_equal (fun x => match x with Ok s => s | _ => "" end)) in E. apply C51_grid_unique in E; auto.
    + destruct E as (E1 & E2 & E). repeat split; auto. intros i j Hi Hj. rewrite !ToString_text. f_equal. auto.
    + intros i j Hi Hj. destruct (C51_expr_text L (f i j) (fun x => If i j x Hi Hj) None) as (? & ? & _). auto.
    + intros i j Hi Hj. destruct (C51_expr_text L (g i j) (fun x => Ig i j x Hi Hj) None) as (? & ? & _). auto.
  - intros (<- & <- & E). f_equal. unfold grid_text. do 3 f_equal. apply map_ext_in. intros i Hi. apply in_seq in Hi. f_equal. apply map_ext_in. intros j Hj. apply in_seq in Hj.
    specialize (E i j ltac:(lia) ltac:(lia)). rewrite !ToString_text in E. congruence.
Qed.

(** In the range where numbers are written exactly, the text determines the matrix. *)
Local Open Scope R_scope.
Definition exactly_written {L} (v : B64 L) : Prop := is_finite v = true /\ / 2 <= Rabs (B2R v) < 10 ^ 16.
Lemma tostr_inj (L : libm) (v w : B64 L) : exactly_written v -> exactly_written w -> n_tostr v = n_tostr w -> v = w.
Proof.
  intros [Fv Rv] [Fw Rw] E.
  destruct (tostr_ok v (half_plain v Fv Rv)) as (s & x & k & A & B & _ & _ & C & D).
  destruct (tostr_ok w (half_plain w Fw Rw)) as (s' & x' & k' & A' & B' & _ & _ & C' & D').
  pose proof (roundtrip v s x k Fv Rv B C D) as P. pose proof (roundtrip w s' x' k' Fw Rw B' C' D') as P'.
  change (b_tostr v = b_tostr w) in E. rewrite A, A' in E.
  rewrite (Bltb_correct _ _ v (b_ofZ 0) Fv eq_refl), (Bltb_correct _ _ w (b_ofZ 0) Fw eq_refl) in E.
  replace (B2R (b_ofZ 0)) with 0 in E by (symmetry; apply (f_equal (SF2R Zaux.radix2) (eq_refl : B2SF (b_ofZ 0) = SpecFloat.S754_zero false))).
  destruct (decimal_start s x k B) as (c & s0 & -> & Hc & _). destruct (decimal_start s' x' k' B') as (c' & s0' & -> & Hc' & _).
  assert (Dm : ~ digit "-") by (cbv; lia).
  assert (Ab : forall y z : B64 L, B2R (Babs y : b64) = B2R (Babs z : b64) -> Rabs (B2R (y : b64)) = Rabs (B2R (z : b64))) by (intros y z H; now rewrite !B2R_Babs in H).
  assert (N : forall y : b64, is_finite y = true -> / 2 <= Rabs (B2R y) -> is_finite_strict y = true).
  { intros [] F H; try discriminate; [|reflexivity]. cbn [B2R] in H. rewrite Rabs_R0 in H. lra. }
  assert (Fin : B2R (v : b64) = B2R (w : b64) -> v = w) by (intros H; apply (B2R_inj _ _ v w); auto; apply N; auto; [apply Rv|apply Rw]).
  destruct (Raux.Rlt_bool_spec (B2R v) 0) as [Lv|Lv], (Raux.Rlt_bool_spec (B2R w) 0) as [Lw|Lw]; cbn in E; injection E.
  - intros E0 Ec. subst. assert (Q : Babs v = Babs w) by congruence. apply (f_equal B2R) in Q. apply Ab in Q. apply Fin. revert Q. rewrite !Rabs_left by lra. lra.
  - intros _ Ec. subst. contradiction.
  - intros _ Ec. subst. contradiction.
  - intros E0 Ec. subst. assert (Q : Babs v = Babs w) by congruence. apply (f_equal B2R) in Q. apply Ab in Q. apply Fin. revert Q. rewrite !Rabs_right by lra. lra.
Qed.
Theorem C51_mat_determined (L : libm) r c r' c' (f g : nat -> nat -> B64 L) A B : (0 < r)%nat -> (0 < c)%nat -> (0 < r')%nat -> (0 < c')%nat ->
  is_mat r c f A -> is_mat r' c' g B ->
  (forall i j, (i < r)%nat -> (j < c)%nat -> exactly_written (f i j)) -> (forall i j, (i < r')%nat -> (j < c')%nat -> exactly_written (g i j)) ->
  Mat_ToString (K:=B64 L) A = Mat_ToString (K:=B64 L) B -> A = B.
Proof.
  intros Hr Hc Hr' Hc' HA HB Ef Eg E. apply (C51_mat_unique L r c r' c' f g A B Hr Hc Hr' Hc' HA HB) in E as (<- & <- & E).
  refine (is_mat_unique _ _ _ _ _ HA _). refine (is_mat_ext _ _ _ _ _ _ HB). intros i j Hi Hj. symmetry. apply tostr_inj; auto.
Qed.

(** Tables of variables with legal names: the text determines the names and the printed values. *)
Lemma table_lines_unique {V} (w : V -> string) : (forall v, without newline (w v)) -> forall l l' : list (string * V),
  (forall x v, In (x, v) l -> identifier x) -> (forall x v, In (x, v) l' -> identifier x) ->
  lines_text w l = lines_text w l' -> map (fun p => (fst p, w (snd p))) l = map (fun p => (fst p, w (snd p))) l'.
Proof.
  intros Hw.
  assert (Cc : forall p (l : list (string * V)), lines_text w (p :: l) = (fst p ++ String " " ("= " ++ w (snd p) ++ String newline (lines_text w l)))%string).
  { intros p l. unfold lines_text. cbn [map]. destruct l as [|q l]; [cbn [map String.concat]; reflexivity|].
    rewrite concat_cons by discriminate. rewrite !sapp_assoc. reflexivity. }
  assert (Sp : forall x, identifier x -> without " " x).
  { intros [|c x] H; [contradiction|]. destruct H as [H H'].
    assert (G : forall a, letter a \/ digit a \/ a = "_"%char -> a <> " "%char) by (intros a Ha ->; unfold letter, digit in Ha; revert Ha; cbv; intuition (lia || discriminate)).
    split; [apply G; intuition|]. eapply all_impl; [|exact H']. exact G. }
  induction l as [|[x v] l IH]; intros [|[y u] l'] H H' E.
  - reflexivity.
  - exfalso. rewrite Cc in E. cbn [fst] in E. destruct y; discriminate.
  - exfalso. rewrite Cc in E. cbn [fst] in E. destruct x; discriminate.
  - rewrite !Cc in E. cbn [fst snd] in E.
    apply split_unique in E as [-> E]; [|apply Sp, (H x v); now left|apply Sp, (H' y u); now left]. cbn in E. injection E as E.
    apply split_unique in E as [E1 E]; auto. cbn [map fst snd]. rewrite E1. f_equal. apply IH; auto; intros z a Hz; [apply (H z a)|apply (H' z a)]; now right.
Qed.
Theorem C51_table_unique (L : libm) (t t' : vars_table (B64 L)) xs vs xs' vs' : holds t xs vs -> holds t' xs' vs' ->
  (forall x, In x xs -> identifier x) -> (forall x, In x xs' -> identifier x) ->
  VarsTable_ToString (K:=B64 L) t = VarsTable_ToString (K:=B64 L) t' ->
  (forall x, In x xs <-> In x xs') /\
  forall x v v', VarsTable_get t x = Ok v -> VarsTable_get t' x = Ok v' -> n_tostr v = n_tostr v'.
Proof.
  intros H H' I I' E. destruct (C51_table t xs vs H) as (l & T & Srt & Il). destruct (C51_table t' xs' vs' H') as (l' & T' & Srt' & Il').
  rewrite T, T' in E.
  assert (Fst : forall (t : vars_table (B64 L)) xs vs (l : list (string * B64 L)), holds t xs vs -> (forall x v, In (x, v) l <-> pair_in x v xs vs) -> forall x, In x xs <-> exists v, In (x, v) l).
  { clear. intros t xs vs l H Hl x. split.
    - intros Hx. apply In_nth_error in Hx as [i Hi]. assert (Li : (i < length vs)%nat) by (rewrite <- (h_len _ _ _ H); apply nth_error_Some; congruence).
      destruct (nth_error vs i) as [v|] eqn:Ev; [|apply nth_error_None in Ev; lia]. exists v. apply Hl. exists i. auto.
    - intros [v Hv]. apply Hl in Hv as (i & Hi & _). eapply nth_error_In. eassumption. }
  apply table_lines_unique in E.
  2:{ intros v. apply C51_number_text. }
  2:{ intros x v Hx. apply I. apply (Fst t xs vs l H Il). eauto. }
  2:{ intros x v Hx. apply I'. apply (Fst t' xs' vs' l' H' Il'). eauto. }
  assert (Names : map fst l = map fst l').
  { apply (f_equal (map fst)) in E. now rewrite !map_map in E. }
  split.
  - intros x. rewrite (Fst t xs vs l H Il), (Fst t' xs' vs' l' H' Il'). split; intros [v Hv].
    + assert (G : In x (map fst l')) by (rewrite <- Names; apply in_map_iff; exists (x, v); auto). apply in_map_iff in G as ([x' v'] & <- & G). eauto.
    + assert (G : In x (map fst l)) by (rewrite Names; apply in_map_iff; exists (x, v); auto). apply in_map_iff in G as ([x' v'] & <- & G). eauto.
  - intros x v v' G G'. apply (h_get _ _ _ H), Il in G. apply (h_get _ _ _ H'), Il' in G'.
    assert (M : In (x, n_tostr v) (map (fun p => (fst p, n_tostr (snd p))) l')) by (rewrite <- E; apply in_map_iff; exists (x, v); auto).
    apply in_map_iff in M as ([x2 v2] & M & M2). cbn [fst snd] in M. injection M as -> M. transitivity (n_tostr v2); [symmetry; exact M|f_equal].
    apply Il' in M2 as (i & Hi & Hv). apply Il' in G' as (j & Hj & Hv').
    assert (i = j) by (apply (NoDup_nth_error xs' ) with (1 := h_nodup _ _ _ H'); [apply nth_error_Some; congruence|congruence]). subst j. congruence.
Qed.

(** ** Examples *)
Example C51_ex_mat : Mat_ToString (K:=D) (MkMat 2 2 [b_ofZ 1; b_dec false 25 (-1); b_ofZ (-3); b_ofZ 100]) = "[1,  2.5
 -3,  100]
".
Proof. vm_cast_no_check (eq_refl "[1,  2.5
 -3,  100]
"). Qed.
Example C51_ex_grid : grid_text 2 2 (fun i j => match i, j with O, O => "1" | O, _ => "2.5" | _, O => "-3" | _, _ => "100" end)%string = "[1,  2.5
 -3,  100]
".
Proof. reflexivity. Qed.
Example C51_ex_table : lines_text (fun s => s) [("x", "1"); ("y", "2.5")]%string = "x = 1
y = 2.5
".
Proof. reflexivity. Qed.
