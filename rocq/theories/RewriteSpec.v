(** Specification of rewritings of expressions that do not change any computed result: exchanging the
    operands of + and * (in every commutative arithmetic, such as IEEE doubles), and a list of
    algebraic identities that hold exactly in IEEE doubles. *)
From Coq Require Import String List ZArith Bool.
From Flocq Require Import IEEE754.BinarySingleNaN.
From Verif Require Import Base MathOp IEEE NodeModel ExprSpec.
Import ListNotations.

(** Addition and multiplication of the arithmetic do not depend on the order of their operands. *)
Record commutative (K : num_ops) : Prop := {
  co_add : forall v w : K, n_add v w = n_add w v;
  co_mul : forall v w : K, n_mul v w = n_mul w v
}.

Section Reordered.
Context {K : num_ops}.

Definition a_number (e : expr K) : Prop := match e with ENum _ => True | _ => False end.

(** [reordered lits e e']: e' is e with the operands of any number of + and * exchanged; with
    [lits = false] no product of two literals is touched. *)
Inductive reordered (lits : bool) : expr K -> expr K -> Prop :=
| ro_num v : reordered lits (ENum v) (ENum v)
| ro_var x : reordered lits (EVar x) (EVar x)
| ro_un u a a' : reordered lits a a' -> reordered lits (EUn u a) (EUn u a')
| ro_bin b a a' c c' : reordered lits a a' -> reordered lits c c' -> reordered lits (EBin b a c) (EBin b a' c')
| ro_add a a' c c' : reordered lits a a' -> reordered lits c c' -> reordered lits (EBin BAdd a c) (EBin BAdd c' a')
| ro_mul a a' c c' : reordered lits a a' -> reordered lits c c' -> (lits = true \/ ~ (a_number a /\ a_number c)) ->
    reordered lits (EBin BMul a c) (EBin BMul c' a').
End Reordered.

(** [identical e e']: e' is obtained from e by using, anywhere and in either direction, the identities
      a+c = c+a, a*c = c*a, a-c = a+(-c), -(-a) = a, +a = a, -(a*c) = (-a)*c, -(a/c) = (-a)/c,
      a/(-c) = (-a)/c, 1*a = a, a/1 = a, 2*a = a+a. *)
Section Identical.
Context (L : libm).
Notation expr := (expr (B64 L)).
Notation lit z := (ENum (b_ofZ z : B64 L)).
Inductive identical : expr -> expr -> Prop :=
| id_refl e : identical e e
| id_sym e e' : identical e e' -> identical e' e
| id_trans e e' e'' : identical e e' -> identical e' e'' -> identical e e''
| id_un u a a' : identical a a' -> identical (EUn u a) (EUn u a')
| id_bin b a a' c c' : identical a a' -> identical c c' -> identical (EBin b a c) (EBin b a' c')
| id_add a c : identical (EBin BAdd a c) (EBin BAdd c a)
| id_mul a c : identical (EBin BMul a c) (EBin BMul c a)
| id_sub a c : identical (EBin BSub a c) (EBin BAdd a (EUn UNeg c))
| id_neg_neg a : identical (EUn UNeg (EUn UNeg a)) a
| id_pos a : identical (EUn UPos a) a
| id_neg_mul a c : identical (EUn UNeg (EBin BMul a c)) (EBin BMul (EUn UNeg a) c)
| id_neg_div a c : identical (EUn UNeg (EBin BDiv a c)) (EBin BDiv (EUn UNeg a) c)
| id_div_neg a c : identical (EBin BDiv a (EUn UNeg c)) (EBin BDiv (EUn UNeg a) c)
| id_one_mul a : identical (EBin BMul (lit 1) a) a
| id_div_one a : identical (EBin BDiv a (lit 1)) a
| id_double a : identical (EBin BMul (lit 2) a) (EBin BAdd a a).
End Identical.
