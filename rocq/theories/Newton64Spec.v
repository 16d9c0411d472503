(** Systems of equations over doubles whose rounding errors are bounded, for the theorem on
    Newton-Raphson in doubles. *)
From Coq Require Import String List Reals.
From Flocq Require Import IEEE754.BinarySingleNaN.
From Verif Require Import Base MathOp IEEE NodeModel ExprSpec SymMatSpec NonlinearSpec FloatSpec RoundSpec DerivSpec.
Local Open Scope R_scope.

(** The point of R^n with the coordinates of a point of doubles. *)
Definition reals (q : nat -> b64) : nat -> R := fun j => B2R (q j).

(** At every point of doubles in P the error analysis (C59) bounds the error of equation i, whose exact
    value is F i, by eF, and the error of the derivative of equation i with respect to the j-th unknown, as written
    down by the rules of differentiation, by eD; and no 0^0 is evaluated in the derivatives. *)
Definition analysed (L : libm) (c : R) (xs : list string) (n : nat) (f : nat -> expr (B64 L)) (F : nat -> (nat -> R) -> R) (D : nat -> nat -> (nat -> R) -> R)
    (eF eD : R) (P : (nat -> R) -> Prop) : Prop :=
  forall (q : nat -> b64) (env : string -> b64), P (reals q) -> (forall x, fin (env x)) -> at_point (K:=B64 L) xs (fun x => env x : B64 L) (fun j => q j : B64 L) ->
  forall i, (i < n)%nat ->
    (exists E, accuracy L c (fun x => B2R (env x)) (fun _ => 0) (f i) (F i (reals q)) E /\ E <= eF) /\
    forall j, (j < n)%nat -> let d := deriv (nth j xs EmptyString) (f i) in
      no_0_pow_0f L env d /\ exists E, accuracy L c (fun x => B2R (env x)) (fun _ => 0) d (D i j (reals q)) E /\ E <= eD.

(** The iteration near a root s at which the Jacobian is at distance d from the singular matrices and near
    which its entries vary by at most kappa, when the entries of the Jacobians are at most M and the values of
    the equations at most B: a step leads from distance e to distance at most rate * e + noise. *)
From Verif Require Import AffineSpec SolveSpec.
Definition newton_margin (n : nat) (eps M eD kappa d : R) : R := d - kappa - solve_tolerance n eps M - eD.
Definition newton_rate (n : nat) (eps M eD kappa d : R) : R :=
  (1 + ulp1) * (2 * kappa + solve_tolerance n eps M + eD) / newton_margin n eps M eD kappa d.
Definition newton_noise (n : nat) (eps M B eF eD kappa d : R) (s : nat -> R) : R :=
  (1 + ulp1) * (eF + solve_factor n * B) / newton_margin n eps M eD kappa d + ulp1 * norm1 n s.
