(** Specification of the accuracy of computations in doubles: the unit roundoff, what is asked of
    the C library, the "standard model" of floating-point evaluation, error bounds for
    expressions, and the quantities in the bounds for sums, products and determinants. *)
From Coq Require Import ZArith Reals List Bool String.
From Flocq Require Import IEEE754.BinarySingleNaN Core.
From Verif Require Import Base MathOp IEEE RealSpec NodeModel ExprSpec MatModel MatSpec AffineSpec FloatSpec.
Import ListNotations.
Local Open Scope R_scope.

(** 2^-53 (half the distance between 1 and the next double), 2^-1075 (half the smallest positive
    double), and 2^1024 (the first power of two that is not a double). *)
Definition ulp1 : R := / IZR (2 ^ 53).
Definition tiny : R := / IZR (2 ^ 1075).
Definition huge : R := IZR (2 ^ 1024).

(** The operators computed by the C library. *)
Definition by_libm (u : unop) : bool := match u with UPos | UNeg | USqrt => false | _ => true end.

(** The C library has relative error at most [c] (plus one underflow): in the domain of the real
    function the result is finite unless the value is too large, and a finite result is close to
    the value; outside the domain the result is not finite. *)
Record accurate_libm (L : libm) (c : R) : Prop := {
  al_c : 0 <= c;
  al_un : forall u (x : b64), by_libm u = true -> fin x ->
    match r_un u (B2R x) with
    | Some y => (Rabs y * (1 + c) + tiny < huge -> fin (un_sem (K:=B64 L) u (x : B64 L))) /\
                (fin (un_sem (K:=B64 L) u (x : B64 L)) -> Rabs (B2R (un_sem (K:=B64 L) u (x : B64 L) : b64) - y) <= c * Rabs y + tiny)
    | None => ~ fin (un_sem (K:=B64 L) u (x : B64 L))
    end;
  al_pow : forall x y : b64, fin x -> fin y ->
    match Rpow (B2R x) (B2R y) with
    | Some z => (Rabs z * (1 + c) + tiny < huge -> fin (m_pow L x y)) /\
                (fin (m_pow L x y) -> Rabs (B2R (m_pow L x y) - z) <= c * Rabs z + tiny)
    | None => ~ fin (m_pow L x y)
    end }.

(** Relative error and underflow of one operation. *)
Definition rel_un (c : R) (u : unop) : R := match u with UPos | UNeg => 0 | USqrt => ulp1 | _ => c end.
Definition tiny_un (u : unop) : R := match u with UPos | UNeg | USqrt => 0 | _ => tiny end.
Definition rel_bin (c : R) (b : binop) : R :=
  match b with BAdd | BSub | BMul | BDiv => ulp1 | BPow => c | BAnd | BOr | BMod => 0 end.
Definition tiny_bin (b : binop) : R := match b with BMul | BDiv | BPow => tiny | _ => 0 end.

(** ** Expressions *)
Section E.
Context (L : libm) (c : R).
Notation expr := (expr (B64 L)).

(** [perturbed env e v]: v is the value of e in real arithmetic at env, where the result y of every
    operation is replaced by y * (1 + d) + t with |d| at most the relative error of the operation
    and |t| at most its underflow error. *)
Inductive perturbed (env : string -> R) : expr -> R -> Prop :=
| pt_num (v : b64) : perturbed env (ENum (v : B64 L)) (B2R v)
| pt_var x : perturbed env (EVar x) (env x)
| pt_un u a x y d t : perturbed env a x -> r_un u x = Some y ->
    Rabs d <= rel_un c u -> Rabs t <= tiny_un u -> perturbed env (EUn u a) (y * (1 + d) + t)
| pt_bin b a1 a2 x1 x2 y d t : perturbed env a1 x1 -> perturbed env a2 x2 -> r_bin b x1 x2 = Some y ->
    Rabs d <= rel_bin c b -> Rabs t <= tiny_bin b -> perturbed env (EBin b a1 a2) (y * (1 + d) + t).

(** [accuracy env err e y E]: the expression e has the real value y when the variables have the
    values env, and E bounds the error if the variables are known up to the errors err: E collects
    the effect of the errors of the operands and the rounding of every operation.  No intermediate
    result may come near overflow, and the operations must be defined at all points within the
    errors of the operands. *)
Definition with_rounding (rel t y E : R) : R := E + rel * (Rabs y + E) + t.
Inductive accuracy (env : string -> R) (err : string -> R) : expr -> R -> R -> Prop :=
| ac_num (v : b64) : fin v -> accuracy env err (ENum (v : B64 L)) (B2R v) 0
| ac_var x : accuracy env err (EVar x) (env x) (err x)
| ac_un u a x ex y E : accuracy env err a x ex -> r_un u x = Some y ->
    (forall x', Rabs (x' - x) <= ex -> exists y', r_un u x' = Some y' /\ Rabs (y' - y) <= E) ->
    Rabs y + with_rounding (rel_un c u) (tiny_un u) y E < huge ->
    accuracy env err (EUn u a) y (with_rounding (rel_un c u) (tiny_un u) y E)
| ac_bin b a1 a2 x1 ex1 x2 ex2 y E : accuracy env err a1 x1 ex1 -> accuracy env err a2 x2 ex2 -> r_bin b x1 x2 = Some y ->
    (forall x1' x2', Rabs (x1' - x1) <= ex1 -> Rabs (x2' - x2) <= ex2 -> exists y', r_bin b x1' x2' = Some y' /\ Rabs (y' - y) <= E) ->
    Rabs y + with_rounding (rel_bin c b) (tiny_bin b) y E < huge ->
    accuracy env err (EBin b a1 a2) y (with_rounding (rel_bin c b) (tiny_bin b) y E).

(** The expression with its numbers read as real numbers. *)
Fixpoint real_expr (e : expr) : ExprSpec.expr (option R) :=
  match e with
  | ENum v => ENum (Some (B2R (v : b64)))
  | EVar x => EVar x
  | EUn u a => EUn u (real_expr a)
  | EBin b a1 a2 => EBin b (real_expr a1) (real_expr a2)
  end.
End E.

(** ** Sums and products *)

(** (rsum n g is g 0 + ... + g (n-1), see AffineSpec.v.) *)

(** The error bound of a computation of k roundings one after the other whose terms, made positive,
    add up to B, when T is the total of the underflow errors. *)
Definition rounding_bound (k : nat) (B T : R) : R := (1 + ulp1) ^ k * (B + T) - B.

(** The permanent of the absolute values of the entries (the determinant without signs), expanded
    along the first row, the number of roundings of the expansion, and its underflow errors. *)
Definition omit (q j : nat) : nat := if Nat.ltb j q then j else S j.
Fixpoint permanent (n : nat) (f : nat -> nat -> R) : R :=
  match n with
  | O => 1
  | S m => rsum n (fun q => Rabs (f 0%nat q) * permanent m (fun i j => f (S i) (omit q j)))
  end.
Fixpoint det_roundings (n : nat) : nat := match n with O | 1%nat => 0 | S m => S (n + det_roundings m) end.
Fixpoint det_underflow (n : nat) (f : nat -> nat -> R) : R :=
  match n with
  | O => 0
  | S m => rsum n (fun q => Rabs (f 0%nat q) * det_underflow m (fun i j => f (S i) (omit q j)) + tiny)
  end.

(** The error bound of an n x n determinant with entries at most M, and the error bound of the entry
    x of the inverse (a cofactor divided by the determinant D, see IEEE division). *)
Definition det_error (n : nat) (M : R) : R := ((1 + ulp1) ^ det_roundings n * (1 + INR n * tiny) - 1) * (INR (fact n) * M ^ n).
Definition inverse_error (n : nat) (M D x : R) : R :=
  with_rounding ulp1 tiny x ((det_error (n - 1) M + Rabs x * det_error n M) / (Rabs D - det_error n M)).
