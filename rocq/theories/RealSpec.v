(** Exact real arithmetic: the mathematical meaning of the operators and of expressions, and
    the corresponding instance of [num_ops] ("the program computed with exact reals").
    [None] stands for "no finite real value" (inf or nan). *)
From Coq Require Import String List ZArith Reals Lra Bool.
From Verif Require Import Base MathOp NodeModel ExprSpec.
Import ListNotations.
Local Open Scope R_scope.

(** Real power x^y with the domain of C's [pow]. *)
Definition Rpow (x y : R) : option R :=
  if Rlt_dec 0 x then Some (Rpower x y)
  else if Req_EM_T x 0 then
    (if Rlt_dec 0 y then Some 0 else if Req_EM_T y 0 then Some 1 else None)
  else if Req_EM_T (IZR (Int_part y)) y then Some (powerRZ x (Int_part y)) else None.

(** Truncation towards zero to a 32-bit integer, [None] if it does not fit. *)
Definition Rtrunc (x : R) : Z := if Rle_dec 0 x then Int_part x else (- Int_part (- x))%Z.
Definition Rtoint (x : R) : option Z :=
  let z := Rtrunc x in
  if ((-2147483648 <=? z) && (z <=? 2147483647))%Z then Some z else None.

Definition r_un (u : unop) (x : R) : option R :=
  match u with
  | UPos => Some x
  | UNeg => Some (- x)
  | USin => Some (sin x)
  | UCos => Some (cos x)
  | UTan => if Req_EM_T (cos x) 0 then None else Some (tan x)
  | UAsin => if Rle_dec (-1) x then if Rle_dec x 1 then Some (asin x) else None else None
  | UAcos => if Rle_dec (-1) x then if Rle_dec x 1 then Some (acos x) else None else None
  | UAtan => Some (atan x)
  | USqrt => if Rle_dec 0 x then Some (sqrt x) else None
  | ULog => if Rlt_dec 0 x then Some (ln x) else None
  | ULog2 => if Rlt_dec 0 x then Some (ln x / ln 2) else None
  | ULog10 => if Rlt_dec 0 x then Some (ln x / ln 10) else None
  | UExp => Some (exp x)
  end.

(** Operators other than %, &, |. *)
Definition r_bin (b : binop) (x y : R) : option R :=
  match b with
  | BAdd => Some (x + y)
  | BSub => Some (x - y)
  | BMul => Some (x * y)
  | BDiv => if Req_EM_T y 0 then None else Some (x / y)
  | BPow => Rpow x y
  | BAnd => match Rtoint x, Rtoint y with
            | Some a, Some c => Some (IZR (Z.land a c)) | _, _ => None end
  | BOr => match Rtoint x, Rtoint y with
            | Some a, Some c => Some (IZR (Z.lor a c)) | _, _ => None end
  | BMod => match Rtoint x, Rtoint y with
            | Some a, Some c =>
                if (Z.eqb c 0 || (Z.eqb a (-2147483648) && Z.eqb c (-1)))%bool then None
                else Some (IZR (Z.rem a c))
            | _, _ => None end
  end.

(** The mathematical value of an expression under an assignment of the variables; [None]
    when some sub-expression is undefined. *)
Fixpoint rval (env : string -> R) (e : expr (option R)) : option R :=
  match e with
  | ENum v => v
  | EVar x => Some (env x)
  | EUn u a => match rval env a with Some x => r_un u x | None => None end
  | EBin b a c =>
      match rval env a, rval env c with
      | Some x, Some y => r_bin b x y
      | _, _ => None
      end
  end.

Definition lift1 (f : R -> option R) (x : option R) : option R :=
  match x with Some a => f a | None => None end.
Definition lift2 (f : R -> R -> option R) (x y : option R) : option R :=
  match x, y with Some a, Some b => f a b | _, _ => None end.
Definition lift_rel (f : R -> R -> bool) (x y : option R) : bool :=
  match x, y with Some a, Some b => f a b | _, _ => false end.

Definition lift_int (f : R -> option Z) (x : option R) : option Z :=
  match x with Some a => f a | None => None end.

Definition Reqb (x y : R) : bool := if Req_EM_T x y then true else false.
Definition Rltb (x y : R) : bool := if Rlt_dec x y then true else false.
Definition Rleb (x y : R) : bool := if Rle_dec x y then true else false.

(** The program's arithmetic, computed exactly.  Text conversion is not meaningful here:
    [n_tostr] and [n_stod] are trivial, and no theorem about text uses this instance. *)
Canonical Rops : num_ops :=
  {| num := option R;
     n_ofZ := fun z => Some (IZR z);
     n_dec := fun m e => Some (IZR m * powerRZ 10 e);
     n_nan := None; n_inf := None;
     n_neg := lift1 (r_un UNeg); n_abs := lift1 (fun x => Some (Rabs x));
     n_add := lift2 (r_bin BAdd); n_sub := lift2 (r_bin BSub);
     n_mul := lift2 (r_bin BMul); n_div := lift2 (r_bin BDiv); n_pow := lift2 (r_bin BPow);
     n_sin := lift1 (r_un USin); n_cos := lift1 (r_un UCos); n_tan := lift1 (r_un UTan);
     n_asin := lift1 (r_un UAsin); n_acos := lift1 (r_un UAcos); n_atan := lift1 (r_un UAtan);
     n_sqrt := lift1 (r_un USqrt);
     n_log := lift1 (r_un ULog); n_log2 := lift1 (r_un ULog2); n_log10 := lift1 (r_un ULog10);
     n_exp := lift1 (r_un UExp);
     n_eqb := lift_rel Reqb; n_ltb := lift_rel Rltb; n_leb := lift_rel Rleb;
     n_toint := lift_int Rtoint;
     n_tostr := fun _ => EmptyString;
     n_stod := fun _ => None |}.

Definition finite (v : Rops) : Prop := v <> None.

Lemma Reqb_spec x y : Reqb x y = true <-> x = y.
Proof. unfold Reqb. destruct (Req_EM_T x y); split; congruence. Qed.
Lemma Rltb_spec x y : Rltb x y = true <-> x < y.
Proof. unfold Rltb. destruct (Rlt_dec x y); split; congruence. Qed.
Lemma Rleb_spec x y : Rleb x y = true <-> x <= y.
Proof. unfold Rleb. destruct (Rle_dec x y); split; congruence. Qed.

Lemma invalidb_R (v : Rops) : invalidb v = match v with Some _ => false | None => true end.
Proof.
  destruct v as [x|]; unfold invalidb; simpl; auto.
  rewrite (proj2 (Reqb_spec x x)); auto.
Qed.

Lemma un_sem_R u (x : Rops) : un_sem u x = match x with Some a => r_un u a | None => None end.
Proof. destruct u, x; reflexivity. Qed.

(** Strict evaluation over exact reals is the mathematical value. *)
Lemma eval_rval (env : string -> R) (e : expr Rops) : no_vars e -> all_nums finite e ->
  match rval env e with
  | Some r => eval true e = Value (Some r)
  | None => eval true e = InvalidNumber \/ eval true e = IntUndefined
  end.
Proof.
  induction e as [v|x|u a IH|b a IHa c IHc]; simpl; intros Hv Hn.
  - destruct v; auto. now destruct Hn.
  - destruct Hv.
  - specialize (IH Hv Hn). destruct (rval env a) as [x|].
    + rewrite IH. rewrite un_sem_R. simpl. rewrite invalidb_R. destruct (r_un u x); auto.
    + destruct IH as [-> | ->]; auto.
  - destruct Hv as [Hv1 Hv2], Hn as [Hn1 Hn2]. specialize (IHa Hv1 Hn1). specialize (IHc Hv2 Hn2).
    destruct (rval env a) as [x|].
    2:{ destruct IHa as [-> | ->]; auto. }
    rewrite IHa. destruct (rval env c) as [y|].
    2:{ destruct IHc as [-> | ->]; auto. }
    rewrite IHc.
    destruct b; simpl; rewrite ?invalidb_R; auto.
    + destruct (Req_EM_T y 0); auto.
    + destruct (Rpow x y); auto.
    + destruct (Rtoint x); auto. destruct (Rtoint y); auto. simpl. rewrite invalidb_R. auto.
    + destruct (Rtoint x); auto. destruct (Rtoint y); auto. simpl. rewrite invalidb_R. auto.
    + destruct (Rtoint x); auto. destruct (Rtoint y); auto.
      destruct (_ || _)%bool; simpl; auto. rewrite invalidb_R. auto.
Qed.
