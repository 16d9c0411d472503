(** Specification of exact integer computations in doubles. *)
From Coq Require Import ZArith Reals Bool String.
From Flocq Require Import IEEE754.BinarySingleNaN.
From Verif Require Import Base MathOp IEEE NodeModel ExprSpec MatModel MatSpec FloatSpec.
Local Open Scope Z_scope.

(** The double [x] is the integer [z]. *)
Definition is_Z (x : b64) (z : Z) : Prop := fin x /\ B2R x = IZR z.

(** The range in which every integer is a double. *)
Definition exact_range (z : Z) : Prop := Z.abs z <= 2 ^ 53.
Definition int32 (z : Z) : Prop := -2147483648 <= z <= 2147483647.

(** [zvalue env e z]: in integer arithmetic the expression e has the value z at env, and no
    intermediate result leaves the exact range. Division must be without remainder; the operands
    of %, & and | must be 32-bit integers. *)
Inductive zvalue {V : Type} (is : V -> Z -> Prop) (env : string -> Z) : expr V -> Z -> Prop :=
| zv_num v z : is v z -> exact_range z -> zvalue is env (ENum v) z
| zv_var x : exact_range (env x) -> zvalue is env (EVar x) (env x)
| zv_pos a z : zvalue is env a z -> zvalue is env (EUn UPos a) z
| zv_neg a z : zvalue is env a z -> zvalue is env (EUn UNeg a) (- z)
| zv_add a c y z : zvalue is env a y -> zvalue is env c z -> exact_range (y + z) -> zvalue is env (EBin BAdd a c) (y + z)
| zv_sub a c y z : zvalue is env a y -> zvalue is env c z -> exact_range (y - z) -> zvalue is env (EBin BSub a c) (y - z)
| zv_mul a c y z : zvalue is env a y -> zvalue is env c z -> exact_range (y * z) -> zvalue is env (EBin BMul a c) (y * z)
| zv_div a c y z q : zvalue is env a y -> zvalue is env c z -> z <> 0 -> y = q * z -> zvalue is env (EBin BDiv a c) q
| zv_sqrt a z : zvalue is env a (z * z) -> 0 <= z -> zvalue is env (EUn USqrt a) z
| zv_mod a c y z : zvalue is env a y -> zvalue is env c z -> int32 y -> int32 z -> z <> 0 -> ~ (y = -2147483648 /\ z = -1) ->
    zvalue is env (EBin BMod a c) (Z.rem y z)
| zv_and a c y z : zvalue is env a y -> zvalue is env c z -> int32 y -> int32 z -> zvalue is env (EBin BAnd a c) (Z.land y z)
| zv_or a c y z : zvalue is env a y -> zvalue is env c z -> int32 y -> int32 z -> zvalue is env (EBin BOr a c) (Z.lor y z).

(** n! * M^n, a bound for the determinant of an n x n matrix with entries of size at most M and for
    every intermediate result of its expansion along the first row. *)
Fixpoint det_bound (n : nat) (M : Z) : Z := match n with O => 1 | S m => Z.of_nat n * M * det_bound m M end.

(** The object A is an r x c matrix of doubles that are the integers g. *)
Definition holds_Z (L : libm) (r c : nat) (g : nat -> nat -> Z) (A : mat (B64 L)) : Prop :=
  exists f : nat -> nat -> b64, is_mat (K:=B64 L) r c f A /\
    forall i j, (i < r)%nat -> (j < c)%nat -> is_Z (f i j) (g i j).
