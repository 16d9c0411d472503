(** Specification of simplification: the rules, the bottom-up strategy, and normal forms. *)
From Coq Require Import String List ZArith Bool Arith.
From Verif Require Import Base MathOp NodeModel ExprSpec.
Import ListNotations.

Section S.
Context {K : num_ops}.
Implicit Types (e a c : expr K).

Definition is_num e : Prop := match e with ENum _ => True | _ => False end.
(** The literal [e] compares equal to the integer [z]. *)
Definition is_lit (z : Z) e : Prop := match e with ENum v => n_eqb v (n_ofZ z) = true | _ => False end.

(** The rules "an operand makes the result 0". *)
Inductive absorbs : binop -> expr K -> expr K -> Prop :=
| ab_mul_l a c : is_lit 0 a -> absorbs BMul a c
| ab_mul_r a c : is_lit 0 c -> absorbs BMul a c
| ab_div a c : is_lit 0 a -> absorbs BDiv a c
| ab_pow a c : is_lit 0 a -> absorbs BPow a c.

(** The rules "a neutral operand is dropped"; the third expression is what remains. *)
Inductive neutral : binop -> expr K -> expr K -> expr K -> Prop :=
| ne_add_l a c : is_lit 0 a -> neutral BAdd a c c
| ne_add_r a c : is_lit 0 c -> neutral BAdd a c a
| ne_sub a c : is_lit 0 c -> neutral BSub a c a
| ne_mul_l a c : is_lit 1 a -> neutral BMul a c c
| ne_mul_r a c : is_lit 1 c -> neutral BMul a c a
| ne_div a c : is_lit 1 c -> neutral BDiv a c a
| ne_pow a c : is_lit 1 c -> neutral BPow a c a.

(** Result of simplifying. *)
Inductive sresult :=
| SDone (e : expr K)   (* the simplified expression *)
| SInvalid             (* folding a constant gave inf/nan while that is an error *)
| SIntUndef.           (* folding %,&,| outside its integer domain *)

Definition of_outcome (o : outcome K) : sresult :=
  match o with Value v => SDone (ENum v) | InvalidNumber => SInvalid | _ => SIntUndef end.

(** Simplification of one operator node whose operands are simplified. *)
Inductive contract (strict : bool) : expr K -> sresult -> Prop :=
| ct_un_fold u v : contract strict (EUn u (ENum v)) (of_outcome (finish strict (Some (un_sem u v))))
| ct_un_keep u a : ~ is_num a -> contract strict (EUn u a) (SDone (EUn u a))
| ct_bin_fold b v w : contract strict (EBin b (ENum v) (ENum w)) (of_outcome (finish strict (bin_sem b v w)))
| ct_absorb b a c : ~ (is_num a /\ is_num c) -> absorbs b a c ->
    contract strict (EBin b a c) (SDone (ENum (n_ofZ 0)))
| ct_neutral b a c d : ~ (is_num a /\ is_num c) -> ~ absorbs b a c -> neutral b a c d ->
    contract strict (EBin b a c) (SDone d)
| ct_keep b a c : ~ (is_num a /\ is_num c) -> ~ absorbs b a c -> (forall d, ~ neutral b a c d) ->
    contract strict (EBin b a c) (SDone (EBin b a c)).

(** Bottom-up, left to right; the first error stops. *)
Inductive simplifies (strict : bool) : expr K -> sresult -> Prop :=
| sp_num v : simplifies strict (ENum v) (SDone (ENum v))
| sp_var x : simplifies strict (EVar x) (SDone (EVar x))
| sp_un u a a' r : simplifies strict a (SDone a') -> contract strict (EUn u a') r ->
    simplifies strict (EUn u a) r
| sp_un_err u a r : simplifies strict a r -> (forall a', r <> SDone a') -> simplifies strict (EUn u a) r
| sp_bin b a c a' c' r : simplifies strict a (SDone a') -> simplifies strict c (SDone c') ->
    contract strict (EBin b a' c') r -> simplifies strict (EBin b a c) r
| sp_bin_err_l b a c r : simplifies strict a r -> (forall a', r <> SDone a') -> simplifies strict (EBin b a c) r
| sp_bin_err_r b a c a' r : simplifies strict a (SDone a') -> simplifies strict c r ->
    (forall c', r <> SDone c') -> simplifies strict (EBin b a c) r.

(** Normal forms: no rule applies anywhere. *)
Fixpoint normal (e : expr K) : Prop :=
  match e with
  | ENum _ | EVar _ => True
  | EUn _ a => normal a /\ ~ is_num a
  | EBin b a c => normal a /\ normal c /\ ~ (is_num a /\ is_num c) /\ ~ absorbs b a c /\
                  forall d, ~ neutral b a c d
  end.

End S.
