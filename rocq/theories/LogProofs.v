(** Proofs about the output of the solvers. *)
From Coq Require Import String Ascii List ZArith Bool Arith Lia.
From Verif Require Import Base MathOp NodeModel ToStringModel SubsModel DiffModel MatModel LinearModel VarsTableModel SymMatModel NonlinearModel ErrorModel LogModel
  ExprSpec TextSpec SubsSpec MatSpec VarsSpec SymMatSpec NonlinearSpec MatTextSpec LogSpec NodeProofs MatProofs PivotProofs LinearTotal
  Thm_Node Thm_Subs Thm_Vars SymMatProofs DiffProofs Thm_Diff NonlinearProofs Thm_MatText.
From Verif Require ErrorSpec.
Import ListNotations.
Local Open Scope string_scope.
Local Open Scope list_scope.
Local Open Scope nat_scope.

(** ** The monad *)
Lemma app_nil (s : string) : (s ++ "")%string = s.
Proof. induction s; simpl; congruence. Qed.
Lemma app_assoc_s (a b c : string) : ((a ++ b) ++ c)%string = (a ++ (b ++ c))%string.
Proof. induction a; simpl; congruence. Qed.
Lemma snd_wbind {A B} (m : logged A) (f : A -> logged B) : snd (wbind m f) = bind (snd m) (fun a => snd (f a)).
Proof. unfold wbind. destruct (snd m); reflexivity. Qed.
Lemma snd_print_if b s : snd (print_if b s) = Ok tt.
Proof. destruct b; reflexivity. Qed.
Lemma wbind_ok {A B} s (a : A) (f : A -> logged B) : wbind (s, Ok a) f = ((s ++ fst (f a))%string, snd (f a)).
Proof. reflexivity. Qed.
Lemma wret_ok {A B} (a : A) (f : A -> logged B) : wbind (wret (Ok a)) f = f a.
Proof. unfold wbind, wret; cbn. now destruct (f a). Qed.
Lemma print_if_ok {B} b s (f : unit -> logged B) : wbind (print_if b s) f = ((shown b s ++ fst (f tt))%string, snd (f tt)).
Proof. destruct b; reflexivity. Qed.

(** Nothing is written. *)
Definition silent {A} (m : logged A) : Prop := fst m = "".
Lemma silent_wret {A} (r : res A) : silent (wret r).
Proof. reflexivity. Qed.
Lemma silent_bind {A B} (m : logged A) (f : A -> logged B) : silent m -> (forall a, silent (f a)) -> silent (wbind m f).
Proof. unfold silent, wbind. intros H1 H2. destruct (snd m); cbn [fst]; rewrite H1; auto. now rewrite H2. Qed.
Lemma silent_print_if s : silent (print_if false s).
Proof. reflexivity. Qed.
Lemma silent_noexcept {A} (m : logged A) : silent m -> silent (wnoexcept m).
Proof. auto. Qed.

Lemma level_progress lv : level_geb lv INFO = progress lv.
Proof. destruct lv; reflexivity. Qed.
Lemma level_details lv : level_geb lv TRACE = details lv.
Proof. destruct lv; reflexivity. Qed.
Lemma details_progress lv : progress lv = false -> details lv = false.
Proof. destruct lv; simpl; congruence. Qed.

Lemma nl_line s : (s ++ nl)%string = line s.
Proof. reflexivity. Qed.
Lemma signed_text_nat k : signed_text (Z.of_nat k) = ErrorSpec.decimal k.
Proof.
  unfold signed_text. destruct (Z.of_nat k) eqn:E; try lia; rewrite <- E, Nat2Z.id; reflexivity.
Qed.

Section P.
Context {K : num_ops} (cfg : config K) (lv : log_level) (show : K -> string).

(** ** The result does not depend on the output *)
Lemma map2_no_throw {A} (h : A -> A -> A) : forall l l' e, va_map2 h l l' <> Throw e.
Proof. induction l as [|a l IH]; intros [|b l'] e; cbn [va_map2]; try discriminate. destruct (va_map2 h l l') eqn:E; cbn [bind]; try discriminate. exfalso. now apply (IH _ _ E). Qed.
Lemma Mat_add_no_throw (A B : mat K) e : Mat_add A B <> Throw e.
Proof.
  unfold Mat_add, Mat_map2. destruct (same_shape A B); [|discriminate].
  destruct (va_map2 n_add (m_data A) (m_data B)) eqn:E; cbn [bind]; try discriminate. exfalso. now apply (map2_no_throw _ _ _ _ E).
Qed.
Lemma snd_SolveLinear A b : snd (SolveLinear_log cfg lv A b) = SolveLinear cfg A b.
Proof. unfold SolveLinear_log. now rewrite !snd_wbind, !snd_print_if. Qed.
Lemma snd_newton_try ja b q : snd (newton_try cfg lv ja b q) = (let* d := rethrow (SolveLinear cfg ja b) in Mat_add q d).
Proof.
  unfold newton_try. cbn [snd]. rewrite snd_wbind, snd_SolveLinear. destruct (SolveLinear cfg ja b) as [d|e| | | |]; cbn [bind rethrow]; auto.
  - rewrite snd_wbind, snd_print_if. cbn [bind]. destruct (Mat_add q d) eqn:E; cbn [wret snd rethrow]; rewrite ?E; auto. exfalso. now apply (Mat_add_no_throw _ _ _ E).
  - now destruct e as [[] | | | |].
Qed.
Lemma snd_at_iteration it : snd (PrintAtIterationStart lv it) = Ok tt.
Proof. unfold PrintAtIterationStart. destruct (level_geb lv INFO); reflexivity. Qed.

Lemma snd_newton_loop : forall fuel A J it q t, snd (Newton_loop_log cfg lv fuel A J it q t) = Newton_loop cfg fuel A J it q t.
Proof.
  induction fuel as [|fuel IH]; intros A J it q t; [reflexivity|]. cbn [Newton_loop_log Newton_loop].
  rewrite snd_wbind, snd_at_iteration. cbn [bind]. rewrite snd_wbind. cbn [wret snd]. apply bind_ext. intros phi.
  rewrite snd_wbind, snd_print_if. cbn [bind]. destruct (Mat_eq_num cfg phi (n_ofZ 0)); [reflexivity|]. destruct (_ <? _)%Z; [reflexivity|].
  rewrite snd_wbind. cbn [wret snd]. apply bind_ext. intros ja. rewrite snd_wbind. cbn [wret snd]. apply bind_ext. intros b.
  rewrite snd_wbind, snd_newton_try, bind_assoc. apply bind_ext. intros d. apply bind_ext. intros q'.
  rewrite snd_wbind, snd_print_if. cbn [bind]. rewrite snd_wbind, snd_print_if. cbn [bind]. rewrite snd_wbind. cbn [wret snd]. apply bind_ext. intros t'. apply IH.
Qed.

Lemma snd_LM_inner : forall fuel afuel A J it mu q F t, snd (LM_inner_log cfg lv show fuel afuel A J it mu q F t) = LM_inner cfg fuel afuel A J it mu q F t.
Proof.
  induction fuel as [|fuel IH]; intros afuel A J it mu q F t; [reflexivity|]. cbn [LM_inner_log LM_inner].
  repeat first [rewrite snd_wbind; rewrite snd_print_if; cbn [bind] | rewrite snd_wbind; rewrite snd_SolveLinear; apply bind_ext; intros ? | rewrite snd_wbind; cbn [wret snd]; apply bind_ext; intros ?].
  destruct (n_ltb _ _); [reflexivity|]. destruct (_ =? _)%Z; [reflexivity|]. apply IH.
Qed.
Lemma snd_LM_loop : forall fuel afuel A J it q t, snd (LM_loop_log cfg lv show fuel afuel A J it q t) = LM_loop cfg fuel afuel A J it q t.
Proof.
  induction fuel as [|fuel IH]; intros afuel A J it q t; [reflexivity|]. cbn [LM_loop_log LM_loop].
  rewrite snd_wbind, snd_at_iteration. cbn [bind]. rewrite snd_wbind. cbn [wret snd]. apply bind_ext. intros phi.
  rewrite snd_wbind, snd_print_if. cbn [bind]. destruct (Mat_eq_num cfg phi (n_ofZ 0)); [reflexivity|].
  rewrite snd_wbind, snd_LM_inner. apply bind_ext. intros [[[it' FN] dq] t1]. rewrite snd_wbind. cbn [wret snd]. apply bind_ext. intros q'.
  rewrite snd_wbind. cbn [wret snd]. apply bind_ext. intros t2. destruct (_ =? _)%Z; [reflexivity|].
  rewrite snd_wbind, snd_print_if. cbn [bind]. apply IH.
Qed.

Lemma snd_start A t n (f : nat -> expr K) : 0 < n -> is_sym n 1 (fun i _ => f i) A -> snd (PrintSolveStartInfo lv A t) = Ok tt.
Proof.
  intros Hn HA. unfold PrintSolveStartInfo. destruct (level_geb lv INFO); [|reflexivity].
  rewrite (C51_symmat n 1 _ A Hn Nat.lt_0_1 HA). reflexivity.
Qed.
Lemma snd_jacobian J n m (jac : nat -> nat -> expr K) : 0 < n -> 0 < m -> is_sym n m jac J -> snd (PrintJacobian lv J) = Ok tt.
Proof.
  intros Hn Hm HJ. unfold PrintJacobian. destruct (level_geb lv TRACE); [|reflexivity].
  rewrite (C51_symmat n m _ J Hn Hm HJ). reflexivity.
Qed.

(** ** Quiet levels *)
Lemma quiet_SolveLinear A b : details lv = false -> silent (SolveLinear_log cfg lv A b).
Proof. intros H. unfold SolveLinear_log. rewrite level_details, H. repeat (apply silent_bind; [reflexivity|intros]). reflexivity. Qed.
Lemma quiet_newton_loop : progress lv = false -> forall fuel A J it q t, silent (Newton_loop_log cfg lv fuel A J it q t).
Proof.
  intros H. pose proof (details_progress _ H) as H'. induction fuel as [|fuel IH]; intros A J it q t; [reflexivity|]. cbn [Newton_loop_log].
  apply silent_bind; [unfold PrintAtIterationStart; rewrite level_progress, H; reflexivity|intros _].
  apply silent_bind; [reflexivity|intros phi]. rewrite level_progress, level_details, H, H'. apply silent_bind; [reflexivity|intros _].
  destruct (Mat_eq_num _ _ _); [reflexivity|]. destruct (_ <? _)%Z; [reflexivity|]. do 2 (apply silent_bind; [reflexivity|intros ?]).
  apply silent_bind; [|intros q']; [|do 3 (apply silent_bind; [reflexivity|intros ?]); apply IH].
  unfold newton_try, silent. cbn [fst]. apply silent_bind; [now apply quiet_SolveLinear|intros ?].
  rewrite level_details, H'. apply silent_bind; [reflexivity|intros; reflexivity].
Qed.
Lemma quiet_LM_inner : details lv = false -> forall fuel afuel A J it mu q F t, silent (LM_inner_log cfg lv show fuel afuel A J it mu q F t).
Proof.
  intros H. induction fuel as [|fuel IH]; intros afuel A J it mu q F t; [reflexivity|]. cbn [LM_inner_log]. rewrite level_details, H.
  repeat (apply silent_bind; [first [reflexivity|now apply quiet_SolveLinear]|intros ?]).
  destruct (n_ltb _ _); [reflexivity|]. destruct (_ =? _)%Z; [reflexivity|]. apply IH.
Qed.
Lemma quiet_LM_loop : progress lv = false -> forall fuel afuel A J it q t, silent (LM_loop_log cfg lv show fuel afuel A J it q t).
Proof.
  intros H. pose proof (details_progress _ H) as H'. induction fuel as [|fuel IH]; intros afuel A J it q t; [reflexivity|]. cbn [LM_loop_log].
  apply silent_bind; [unfold PrintAtIterationStart; rewrite level_progress, H; reflexivity|intros _].
  apply silent_bind; [reflexivity|intros phi]. rewrite level_details, H'. apply silent_bind; [reflexivity|intros _].
  destruct (Mat_eq_num _ _ _); [reflexivity|]. apply silent_bind; [now apply quiet_LM_inner|intros [[[it' FN] dq] t1]].
  do 2 (apply silent_bind; [reflexivity|intros ?]). destruct (_ =? _)%Z; [reflexivity|]. apply silent_bind; [reflexivity|intros _]. apply IH.
Qed.
Lemma quiet_start (A : symmat K) (t : vars_table K) : progress lv = false -> silent (PrintSolveStartInfo lv A t).
Proof. intros H. unfold PrintSolveStartInfo. rewrite level_progress, H. reflexivity. Qed.
Lemma quiet_jacobian (J : symmat K) : details lv = false -> silent (PrintJacobian lv J).
Proof. intros H. unfold PrintJacobian. rewrite level_details, H. reflexivity. Qed.

(** ** What is written *)
Lemma fst_at_iteration k : fst (PrintAtIterationStart lv (Z.of_nat k)) = shown (progress lv) (iteration_text k).
Proof.
  unfold PrintAtIterationStart. rewrite level_progress. destruct (progress lv); [|reflexivity].
  cbn [wnoexcept fst wbind print snd shown]. rewrite signed_text_nat. reflexivity.
Qed.
Lemma fst_linear n m M b A B : 0 < n -> 0 < m -> is_mat n m M A -> is_vec n b B -> fst (SolveLinear_log cfg lv A B) = shown (details lv) (linear_text n m M b).
Proof.
  intros Hn Hm HA HB. unfold SolveLinear_log. rewrite !print_if_ok. cbn [fst wret]. rewrite level_details. destruct (details lv); [|reflexivity].
  cbn [shown]. rewrite app_nil. rewrite (C51_mat n m M A Hn Hm HA), (C51_mat n 1 _ B Hn Nat.lt_0_1 HB). unfold linear_text. rewrite !app_assoc_s. reflexivity.
Qed.
Lemma fst_start A t n (f : nat -> expr K) items : 0 < n -> is_sym n 1 (fun i _ => f i) A -> VarsTable_ToString t = lines_text n_tostr items ->
  fst (PrintSolveStartInfo lv A t) = shown (progress lv) (start_text n f items).
Proof.
  intros Hn HA Ht. unfold PrintSolveStartInfo. rewrite level_progress. destruct (progress lv); [|reflexivity].
  rewrite (C51_symmat n 1 _ A Hn Nat.lt_0_1 HA). cbn [wnoexcept fst]. rewrite wret_ok. cbn [wbind print fst snd shown]. unfold start_text.
  rewrite Ht, !app_assoc_s. reflexivity.
Qed.
Lemma fst_jacobian J n m (jac : nat -> nat -> expr K) : 0 < n -> 0 < m -> is_sym n m jac J ->
  fst (PrintJacobian lv J) = shown (details lv) (jacobian_text n m jac).
Proof.
  intros Hn Hm HJ. unfold PrintJacobian. rewrite level_details. destruct (details lv); [|reflexivity].
  rewrite (C51_symmat n m _ J Hn Hm HJ). cbn [wnoexcept fst]. rewrite wret_ok. reflexivity.
Qed.

Lemma pair_eq_log {A} (m : logged A) s r : fst m = s -> snd m = r -> m = (s, r).
Proof. destruct m; simpl; congruence. Qed.
Lemma fst_wbind_ok {A B} (m : logged A) a (f : A -> logged B) : snd m = Ok a -> fst (wbind m f) = (fst m ++ fst (f a))%string.
Proof. unfold wbind. now intros ->. Qed.
Lemma fst_wbind_fails {A B} (m : logged A) (f : A -> logged B) : fails (snd m) -> fst (wbind m f) = fst m /\ fails (snd (wbind m f)).
Proof. unfold wbind. destruct (snd m); simpl; intros H; auto; destruct H. Qed.
Lemma wbind_throw {A B} (m : logged A) (f : A -> logged B) e : snd m = Throw e -> wbind m f = (fst m, Throw e).
Proof. unfold wbind. now intros ->. Qed.
Lemma wbind_fuel {A B} (m : logged A) (f : A -> logged B) : snd m = OutOfFuel -> wbind m f = (fst m, OutOfFuel).
Proof. unfold wbind. now intros ->. Qed.
Lemma wbind_some {A B} (m : logged A) (f : A -> logged B) a : snd m = Ok a -> wbind m f = ((fst m ++ fst (f a))%string, snd (f a)).
Proof. unfold wbind. now intros ->. Qed.
Lemma shown_app b s s' : (shown b s ++ shown b s')%string = shown b (s ++ s').
Proof. now destruct b. Qed.

Section Newton.
Variables (xs : list string) (n : nat) (f : nat -> expr K) (jac : nat -> nat -> expr K) (A J : symmat K).
Hypotheses (Hn : 0 < n) (HA : is_sym n 1 (fun i _ => f i) A) (HJ : is_sym n (length xs) jac J).
Notation seen k phi := (shown (progress lv) (iteration_text k ++ residual_text n phi)).

Lemma newton_log_cases fuel k Q q t p (R := Newton_loop_log cfg lv (S fuel) A J (Z.of_nat k) Q t) : table_at xs t p -> is_vec (length xs) q Q ->
  (exists phi, values_at cfg xs p n f phi /\ vanish cfg n phi /\ R = (seen k phi, Ok t)) \/
  (exists phi, values_at cfg xs p n f phi /\ ~ vanish cfg n phi /\ (maxIterations cfg < Z.of_nat k)%Z /\ R = (seen k phi, Throw limit_exceeded)) \/
  (fails (snd R) /\ interrupted lv cfg xs n f jac k p (fst R)) \/
  (exists phi M d p' Q' t', (Z.of_nat k <= maxIterations cfg)%Z /\ newton_round cfg xs n f jac p q phi M d p' /\
     is_vec (length xs) p' Q' /\ table_at xs t' p' /\
     R = ((step_text lv n (length xs) k phi M d p' ++ fst (Newton_loop_log cfg lv fuel A J (Z.of_nat (S k)) Q' t'))%string,
          snd (Newton_loop_log cfg lv fuel A J (Z.of_nat (S k)) Q' t'))).
Proof.
  intros Ht HQ. pose proof (length_pos _ _ _ Ht) as Hm. subst R. cbn [Newton_loop_log].
  set (Rest := wbind (wret (eval_vec cfg A t)) _).
  assert (E0 : wbind (PrintAtIterationStart lv (Z.of_nat k)) (fun _ => Rest) = ((shown (progress lv) (iteration_text k) ++ fst Rest)%string, snd Rest)).
  { unfold wbind. rewrite snd_at_iteration, fst_at_iteration. reflexivity. }
  rewrite E0. clear E0. subst Rest.
  destruct (eval_vec_values cfg xs t p n f A Hn HA Ht) as [(phi & F & E & HF & V)|[Fl N]].
  2:{ right. right. left. match goal with |- context [wbind (wret ?m) ?g] => destruct (fst_wbind_fails (wret m) g Fl) as [E1 E2] end. split; cbn [fst snd]; [exact E2|rewrite E1].
      cbn [wret fst]. rewrite app_nil. now constructor. }
  rewrite E, wret_ok, print_if_ok. cbn [fst snd]. rewrite level_progress, level_details, (C51_mat n 1 _ F Hn Nat.lt_0_1 HF).
  rewrite <- app_assoc_s, shown_app. change ("phi = " ++ nl ++ grid_text n 1 (fun i _ => n_tostr (phi i)))%string with (residual_text n phi).
  destruct (Mat_eq_num cfg F (n_ofZ 0)) eqn:Eq.
  { left. exists phi. split; [exact V|]. split; [now apply (Mat_eq_num_vanish cfg n phi F HF)|]. cbn [wret fst snd]. now rewrite app_nil. }
  assert (Va : ~ vanish cfg n phi) by (intros Q0; apply (Mat_eq_num_vanish cfg n phi F HF) in Q0; congruence).
  right. destruct (Z.ltb_spec (maxIterations cfg) (Z.of_nat k)) as [Hlt|Hle].
  { left. exists phi. cbn [wret fst snd]. rewrite app_nil. auto. }
  right. destruct (eval_mat_values cfg xs t p n (length xs) jac J Hn Hm HJ Ht) as [(M & B & EB & HB & VM)|[Fl N]].
  2:{ left. match goal with |- context [wbind (wret ?m) ?g] => destruct (fst_wbind_fails (wret m) g Fl) as [E1 E2] end. split; cbn [fst snd]; [exact E2|rewrite E1].
      cbn [wret fst]. rewrite app_nil. now constructor. }
  rewrite EB, wret_ok. unfold Vec_neg. destruct (Vec_map_ok n phi F n_neg Hn HF) as (b & Eb & Hb). rewrite Eb, wret_ok.
  pose proof (SolveLinear_ends cfg n (length xs) B b Hn Hm (ex_intro (fun g => is_mat n (length xs) g B) M HB) (ex_intro (fun g => is_mat n 1 g b) (fun i _ => n_neg (phi i)) Hb)) as En.
  pose proof (fst_linear n (length xs) M (fun i => n_neg (phi i)) B b Hn Hm HB Hb) as FL.
  destruct (ends_cases _ _ En) as [(X & EX & [d0 HX])|Fl].
  - right. set (d := fun j => d0 j 0). assert (HX' : is_vec (length xs) d X).
    { eapply is_mat_ext; [|exact HX]. intros i j _ Hj. cbv beta. now replace j with 0 by lia. }
    destruct (Mat_map2_ok n_add _ _ _ _ Q X HQ HX') as (Q' & EQ & HQ').
    assert (HQ2 : is_vec (length xs) (fun j => n_add (q j) (d j)) Q') by exact HQ'.
    destruct (SetValues_ok xs t p _ Q' Ht HQ2) as (t' & ET & Ht').
    exists phi, M, d, (fun j => n_add (q j) (d j)), Q', t'. split; [exact Hle|]. split.
    { split; [exact V|]. split; [exact Va|]. split; [exact VM|]. split; [exists B, b, X; auto|auto]. }
    split; [exact HQ2|]. split; [exact Ht'|].
    assert (TR : newton_try cfg lv B b Q = (shown (details lv) (linear_text n (length xs) M (fun i => n_neg (phi i)) ++ line ("deltaq = " ++ column (length xs) d)), Ok Q')).
    { apply pair_eq_log; [|rewrite snd_newton_try, EX; cbn [rethrow bind]; exact EQ].
      unfold newton_try. cbn [fst]. rewrite (fst_wbind_ok _ X) by (now rewrite snd_SolveLinear). rewrite FL, print_if_ok. cbn [fst wret].
      rewrite app_nil, level_details, (C51_mat (length xs) 1 _ X Hm Nat.lt_0_1 HX'), shown_app. reflexivity. }
    rewrite TR, wbind_ok, !print_if_ok. cbn [fst snd]. rewrite ET, wret_ok.
    rewrite (C51_mat n (length xs) _ B Hn Hm HB), (C51_mat (length xs) 1 _ Q' Hm Nat.lt_0_1 HQ2).
    replace (Z.of_nat k + 1)%Z with (Z.of_nat (S k)) by lia. f_equal. unfold step_text. rewrite app_assoc_s. f_equal.
    rewrite <- !app_assoc_s, !shown_app. unfold line, table_of, column. rewrite !app_assoc_s. reflexivity.
  - left. assert (Fl' : fails (snd (newton_try cfg lv B b Q))).
    { rewrite snd_newton_try. apply fails_bind. destruct (SolveLinear cfg B b); simpl in *; try tauto.
      destruct e as [ty s| | | |]; auto. destruct ty; auto. right. red. eauto 8. }
    match goal with |- context [wbind (newton_try cfg lv B b Q) ?g] => destruct (fst_wbind_fails (newton_try cfg lv B b Q) g Fl') as [E1 E2] end. split; cbn [fst snd]; [exact E2|rewrite E1].
    + assert (FT : fst (newton_try cfg lv B b Q) = fst (SolveLinear_log cfg lv B b)).
      { unfold newton_try. cbn [fst]. apply fst_wbind_fails. now rewrite snd_SolveLinear. }
      rewrite FT, FL. apply no_direction; auto. intros d (B' & b' & X & HB' & Hb' & EX & _).
      rewrite (is_mat_unique _ _ _ _ _ HB' HB), (is_mat_unique _ _ _ _ _ Hb' Hb) in EX. rewrite EX in Fl. exact Fl.
Qed.

Lemma concat_cons a l : String.concat "" (a :: l) = (a ++ String.concat "" l)%string.
Proof. destruct l; [cbn; now rewrite app_nil|reflexivity]. Qed.
Lemma concat_app l l' : String.concat "" (l ++ l')%list = (String.concat "" l ++ String.concat "" l')%string.
Proof. induction l as [|a l IH]; [reflexivity|]. cbn [app]. now rewrite !concat_cons, IH, app_assoc_s. Qed.

Definition rounds_from (q0 p0 : nat -> K) (p phi : nat -> nat -> K) (M : nat -> nat -> nat -> K) (d : nat -> nat -> K) (k : nat) : Prop :=
  (forall j, j < length xs -> p 0 j = p0 j) /\
  forall i, i < k -> newton_round cfg xs n f jac (p i) (match i with O => q0 | _ => p i end) (phi i) (M i) (d i) (p (S i)).

Lemma newton_log_run fuel : forall k0 Q q t p (R := Newton_loop_log cfg lv fuel A J (Z.of_nat k0) Q t), table_at xs t p -> is_vec (length xs) q Q ->
  (Z.of_nat fuel > maxIterations cfg + 1 - Z.of_nat k0 + 0)%Z -> (Z.of_nat fuel >= 1)%Z ->
  exists k ps phi M d tail, rounds_from q p ps phi M d k /\
    fst R = (String.concat "" (map (fun i => step_text lv n (length xs) (k0 + i) (phi i) (M i) (d i) (ps (S i))) (seq 0 k)) ++ tail)%string /\
    ((values_at cfg xs (ps k) n f (phi k) /\ tail = seen (k0 + k) (phi k) /\
      ((exists t', snd R = Ok t' /\ vanish cfg n (phi k) /\ table_at xs t' (ps k)) \/ snd R = Throw limit_exceeded /\ ~ vanish cfg n (phi k) /\ (maxIterations cfg < Z.of_nat (k0 + k))%Z)) \/
     (fails (snd R) /\ interrupted lv cfg xs n f jac (k0 + k) (ps k) tail)).
Proof.
  induction fuel as [|fuel IH]; intros k0 Q q t p R Ht HQ Hf Hf1; [lia|].
  destruct (newton_log_cases fuel k0 Q q t p Ht HQ) as [(phi & V & Va & E)|[(phi & V & Va & Hl & E)|[[Fl In]|(phi & M & d & p' & Q' & t' & Hl & Rd & HQ' & Ht' & E)]]]; subst R.
  - exists 0, (fun _ => p), (fun _ => phi), (fun _ _ _ => n_ofZ 0), (fun _ _ => n_ofZ 0), (seen k0 phi). rewrite E. cbn [fst snd seq map String.concat].
    split; [split; [auto|lia]|]. split; [reflexivity|]. left. rewrite Nat.add_0_r. eauto 10.
  - exists 0, (fun _ => p), (fun _ => phi), (fun _ _ _ => n_ofZ 0), (fun _ _ => n_ofZ 0), (seen k0 phi). rewrite E. cbn [fst snd seq map String.concat].
    split; [split; [auto|lia]|]. split; [reflexivity|]. left. rewrite Nat.add_0_r. eauto 10.
  - exists 0, (fun _ => p), (fun _ _ => n_ofZ 0), (fun _ _ _ => n_ofZ 0), (fun _ _ => n_ofZ 0), (fst (Newton_loop_log cfg lv (S fuel) A J (Z.of_nat k0) Q t)).
    split; [split; [auto|lia]|]. split; [reflexivity|]. right. rewrite Nat.add_0_r. auto.
  - destruct (IH (S k0) Q' p' t' p' Ht' HQ') as (k & ps & phis & Ms & ds & tail & [P0 PS] & Ef & Oc); [lia|lia|].
    set (sh := fun {T} (x : T) (xs : nat -> T) i => match i with O => x | S i' => xs i' end).
    exists (S k), (sh _ p ps), (sh _ phi phis), (sh _ M Ms), (sh _ d ds), tail. rewrite E. cbn [fst snd].
    split; [|split].
    + split; [reflexivity|]. intros [|i] Hi; unfold sh; cbn.
      * destruct Rd as (R1 & R2 & R3 & R4 & R5). split; [auto|]. split; [auto|]. split; [auto|]. split; [auto|]. intros j Hj. rewrite P0; auto.
      * specialize (PS i ltac:(lia)). destruct i; [|exact PS]. destruct PS as (R1 & R2 & R3 & R4 & R5). split; [auto|]. split; [auto|]. split; [auto|]. split; [auto|].
        intros j Hj. rewrite P0 by auto. auto.
    + rewrite Ef. cbn [seq map]. rewrite concat_cons, <- seq_shift, map_map, app_assoc_s. rewrite Nat.add_0_r. unfold sh. cbn beta iota.
      assert (Es : step_text lv n (length xs) k0 phi M d (ps 0) = step_text lv n (length xs) k0 phi M d p').
      { unfold step_text, column, grid_text. f_equal. destruct (details lv); [|reflexivity]. cbn [shown]. do 3 f_equal. unfold line. do 3 f_equal. f_equal. f_equal.
        apply map_ext_in. intros i Hi. apply in_seq in Hi. rewrite P0 by lia. reflexivity. }
      rewrite Es. f_equal. f_equal. f_equal. apply map_ext. intros i. f_equal. lia.
    + rewrite <- !plus_n_Sm. exact Oc.
Qed.
End Newton.

(** ** LM, below the level of details *)
Section LM.
Variables (xs : list string) (n : nat) (f : nat -> expr K) (jac : nat -> nat -> expr K) (A J : symmat K).
Hypotheses (Hn : 0 < n) (HA : is_sym n 1 (fun i _ => f i) A) (HJ : is_sym n (length xs) jac J) (Hd : details lv = false).

Lemma LM_log_run afuel : forall fuel k0 Q t p (R := LM_loop_log cfg lv show fuel afuel A J (Z.of_nat k0) Q t), table_at xs t p -> is_vec (length xs) p Q ->
  exists k ps rej m, lm_points cfg xs n f jac p ps rej k /\
    fst R = String.concat "" (map (fun i => shown (progress lv) (iteration_text (k0 + lm_count rej i))) (seq 0 m)) /\
    (m = S k \/ m = k /\ (snd R = Throw limit_exceeded \/ snd R = OutOfFuel)) /\
    (forall t', snd R = Ok t' -> m = S k /\ table_at xs t' (ps k) /\ solved cfg xs n f (ps k)).
Proof.
  induction fuel as [|fuel IH]; intros k0 Q t p R Ht HQ; subst R.
  { exists 0, (fun _ => p), (fun _ => 0), 0. split; [split; [auto|lia]|]. split; [reflexivity|]. split; [right; split; [reflexivity|right; reflexivity]|discriminate]. }
  cbn [LM_loop_log]. set (Rest := wbind (wret (eval_vec cfg A t)) _).
  assert (E0 : wbind (PrintAtIterationStart lv (Z.of_nat k0)) (fun _ => Rest) = ((shown (progress lv) (iteration_text k0) ++ fst Rest)%string, snd Rest)).
  { unfold wbind. rewrite snd_at_iteration, fst_at_iteration. reflexivity. }
  rewrite E0. clear E0. subst Rest. cbn [fst snd].
  assert (One : forall r : res (vars_table K), (forall t', r = Ok t' -> table_at xs t' p /\ solved cfg xs n f p) ->
    exists k ps rej m, lm_points cfg xs n f jac p ps rej k /\
    (shown (progress lv) (iteration_text k0) ++ "")%string = String.concat "" (map (fun i => shown (progress lv) (iteration_text (k0 + lm_count rej i))) (seq 0 m)) /\
    (m = S k \/ m = k /\ (r = Throw limit_exceeded \/ r = OutOfFuel)) /\
    (forall t', r = Ok t' -> m = S k /\ table_at xs t' (ps k) /\ solved cfg xs n f (ps k))).
  { intros r Hr. exists 0, (fun _ => p), (fun _ => 0), 1. split; [split; [auto|lia]|]. split; [cbn; now rewrite app_nil, Nat.add_0_r|]. split; [auto|].
    intros t' Et. destruct (Hr t' Et). auto. }
  destruct (eval_vec_values cfg xs t p n f A Hn HA Ht) as [(phi & F & E & HF & V)|[Fl N]].
  2:{ match goal with |- context [wbind (wret ?m) ?g] => destruct (fst_wbind_fails (wret m) g Fl) as [E1 E2] end. rewrite E1. cbn [wret fst].
      apply One. intros t' Et. cbn [wret] in Et. rewrite Et in E2. destruct E2. }
  rewrite E, wret_ok, print_if_ok, level_details, Hd. cbn [fst snd shown append].
  destruct (Mat_eq_num cfg F (n_ofZ 0)) eqn:Eq.
  { cbn [wret fst snd]. apply One. intros t' Et. injection Et as <-. split; [exact Ht|]. exists phi. split; [exact V|]. now apply (Mat_eq_num_vanish cfg n phi F HF). }
  assert (Va : ~ vanish cfg n phi) by (intros Q0; apply (Mat_eq_num_vanish cfg n phi F HF) in Q0; congruence).
  set (IN := LM_inner_log cfg lv show (S fuel) afuel A J (Z.of_nat k0) (n_dec 1 (-5)) Q F t).
  assert (QI : fst IN = "") by (unfold IN; now apply quiet_LM_inner).
  assert (SI : snd IN = LM_inner cfg (S fuel) afuel A J (Z.of_nat k0) (n_dec 1 (-5)) Q F t) by apply snd_LM_inner.
  destruct (LM_inner_cases cfg xs n f jac A J Hn HA HJ afuel Q F p phi HQ HF (S fuel) (Z.of_nat k0) (n_dec 1 (-5)) t 0 p Ht (lm_first _ _ _ _ _ _ _)) as
      [(k2 & mu2 & z2 & p2 & phi2 & Fn2 & dq2 & Dq2 & t2 & H1 & H2 & H3 & H4 & H5 & H6 & H7 & H8 & H9 & E2)|[(k2 & mu2 & z2 & H1 & H2 & H3 & E2)|[Fl|[E2 H]]]].
  2:{ rewrite E2 in SI. rewrite (wbind_throw _ _ _ SI), QI. cbn [fst snd]. apply One. discriminate. }
  2:{ rewrite <- SI in Fl. match goal with |- context [wbind IN ?g] => destruct (fst_wbind_fails IN g Fl) as [E3 E4] end.
      rewrite E3, QI. apply One. intros t' Et. rewrite Et in E4. destruct E4. }
  2:{ rewrite E2 in SI. rewrite (wbind_fuel _ _ SI), QI. cbn [fst snd]. apply One. discriminate. }
  rewrite Nat.sub_0_r in *. rewrite E2 in SI. rewrite (wbind_some _ _ _ SI), QI. cbn [fst snd append].
  destruct (Mat_map2_ok n_add _ _ _ _ Q Dq2 HQ H6) as (Q' & EQ & HQ'). unfold Mat_add. rewrite EQ, wret_ok.
  assert (HQ2 : is_vec (length xs) p2 Q').
  { eapply is_mat_ext; [|exact HQ']. intros i j Hi _. cbv beta. symmetry. now apply H7. }
  destruct (SetValues_ok xs t2 p2 p2 Q' H8 HQ2) as (t' & -> & Ht'). rewrite wret_ok.
  assert (St : lm_step cfg xs n f jac k2 p p2) by (exists phi, phi2, mu2, z2; auto 10).
  destruct (Z.eqb_spec (Z.of_nat k0 + Z.of_nat k2) (maxIterations cfg)) as [Ei|Ei].
  { cbn [wret fst snd]. exists 1, (fun i => match i with O => p | S _ => p2 end), (fun _ => k2), 1.
    split; [split; [reflexivity|]; intros [|i] Hi; [exact St|lia]|]. split; [cbn; now rewrite app_nil, Nat.add_0_r|]. split; [auto|discriminate]. }
  rewrite print_if_ok. cbn [fst snd shown append]. replace (Z.of_nat k0 + Z.of_nat k2 + 1)%Z with (Z.of_nat (k0 + k2 + 1)) by lia.
  destruct (IH (k0 + k2 + 1) Q' t' p2 Ht' HQ2) as (k & ps & rej & m & [P0 PS] & Ef & Em & Ok').
  exists (S k), (fun i => match i with O => p | S i' => ps i' end), (fun i => match i with O => k2 | S i' => rej i' end), (S m).
  split; [split; [auto|]; intros [|i] Hi; [rewrite P0; exact St|exact (PS i ltac:(lia))]|]. split.
  { rewrite Ef. cbn [seq map]. rewrite concat_cons, <- seq_shift, map_map. cbn [lm_count]. rewrite Nat.add_0_r. f_equal. f_equal.
    apply map_ext. intros i.
    match goal with |- _ = shown _ (iteration_text (_ + ?c)) => replace c with (S k2 + lm_count rej i) end; [do 2 f_equal; lia|].
    exact (eq_sym (lm_count_shift n Hn (fun i => match i with O => k2 | S i' => rej i' end) i)). }
  split.
  - destruct Em as [->|[-> Em]]; auto.
  - intros t3 E3. destruct (Ok' t3 E3) as (-> & T & So). auto.
Qed.
End LM.
End P.
