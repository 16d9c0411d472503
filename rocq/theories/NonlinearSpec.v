(** What Newton-Raphson and the damped (LM) iteration are, in terms of points, values of the
    equations and values of their derivatives.  [xs] are the unknowns, [f i] (i < n) the
    equations, [jac i j] the derivative of equation i with respect to unknown j. *)
From Coq Require Import String List ZArith Bool Arith.
From Verif Require Import Base MathOp NodeModel ExprSpec SubsSpec MatModel LinearModel MatSpec VarsTableModel VarsSpec DiffModel SymMatSpec.
Import ListNotations.

Section S.
Context {K : num_ops} (cfg : config K) (xs : list string) (n : nat).

(** The point with coordinates p 0, p 1, ... : [env] gives the j-th unknown the value p j. *)
Definition at_point (env : string -> K) (p : nat -> K) : Prop := forall j x, nth_error xs j = Some x -> env x = p j.

(** The table holds the unknowns [xs] with the coordinates of [p]. *)
Definition table_at (t : vars_table K) (p : nat -> K) : Prop := holds t xs (map p (seq 0 (length xs))).

(** The first k expressions contain no variable besides [xs] and have the values [v] at p. *)
Definition values_at (p : nat -> K) (k : nat) (e : nat -> expr K) (v : nat -> K) : Prop :=
  forall i, i < k -> vars_within xs (e i) /\
    forall env, at_point env p -> eval_in (throwOnInvalidValue cfg) env (e i) = ExprSpec.Value (v i).

(** Every value is closer to 0 than epsilon. *)
Definition vanish (phi : nat -> K) : Prop :=
  forall i, i < n -> n_ltb (n_abs (n_sub (phi i) (n_ofZ 0))) (epsilon cfg) = true.

(** [p] solves the equations up to epsilon. *)
Definition solved (f : nat -> expr K) (p : nat -> K) : Prop := exists phi, values_at p n f phi /\ vanish phi.

(** [x] is what SolveLinear returns for the n' x m' matrix M and the right hand side b. *)
Definition linear_solution (n' m' : nat) (M : nat -> nat -> K) (b : nat -> K) (d : nat -> K) : Prop :=
  exists A B X, is_mat n' m' M A /\ is_vec n' b B /\ SolveLinear cfg A B = Ok X /\ is_vec m' d X.

(** [jac i j] is the derivative of equation i with respect to the j-th unknown. *)
Definition jacobian (f : nat -> expr K) (jac : nat -> nat -> expr K) : Prop :=
  forall i j x, i < n -> nth_error xs j = Some x -> Diff cfg (embed (f i)) x 1 = Ok (embed (jac i j)).

(** One Newton step: J(p) d = -f(p), q' = q + d. *)
Definition newton_step (f : nat -> expr K) (jac : nat -> nat -> expr K) (p q q' : nat -> K) : Prop :=
  exists phi M d, values_at p n f phi /\ (forall i, i < n -> values_at p (length xs) (jac i) (M i)) /\
    linear_solution n (length xs) M (fun i => n_neg (phi i)) d /\
    forall j, j < length xs -> q' j = n_add (q j) (d j).

(** The points p 0, ..., p k.  The first increment is added to the zero vector, not to the
    starting point (nonlinear.cpp:92). *)
Definition newton_points (f : nat -> expr K) (jac : nat -> nat -> expr K) (p0 : nat -> K) (p : nat -> nat -> K) (k : nat) : Prop :=
  (forall j, j < length xs -> p 0 j = p0 j) /\
  forall i, i < k -> newton_step f jac (p i) (match i with O => fun _ => n_ofZ 0 | _ => p i end) (p (S i)).

(** ** The damped iteration *)
(** Sum of squares. *)
Definition sumsq (phi : nat -> K) : K := ksum n (fun i => n_mul (phi i) (phi i)).

(** The step lengths 1, 1/2, 1/4, ... *)
Definition step_length (k : nat) : K := Nat.iter k (fun a => n_mul a (n_dec 5 (-1))) (n_ofZ 1).

(** [b] is the outcome of the test of step length a along d from p:
    |f(p + a d)|^2 <= |f(p) + 0.4 a J(p)' d|^2. *)
Definition armijo_test (f : nat -> expr K) (jac : nat -> nat -> expr K) (p d : nat -> K) (a : K) (b : bool) : Prop :=
  exists phi1 phi M, values_at (fun j => n_add (p j) (n_mul (d j) a)) n f phi1 /\ values_at p n f phi /\
    (forall i, i < n -> values_at p (length xs) (jac i) (M i)) /\
    n_leb (sumsq phi1) (sumsq (fun i => n_add (phi i) (ksum n (fun l => n_mul (n_mul (M l i) (n_mul (n_dec 4 (-1)) a)) (d l))))) = b.

(** From [p] with values phi, with the derivatives taken at z and damping mu: (J'J + mu I) d = -J' phi. *)
Definition lm_direction (jac : nat -> nat -> expr K) (phi : nat -> K) (mu : K) (z d : nat -> K) : Prop :=
  exists M, (forall i, i < n -> values_at z (length xs) (jac i) (M i)) /\
    linear_solution n n (fun i j => n_add (ksum n (fun l => n_mul (M l i) (M l j))) (n_mul (if Nat.eqb i j then n_ofZ 1 else n_ofZ 0) mu))
      (fun i => n_neg (ksum n (fun l => n_mul (M l i) (phi l)))) d.

(** The trial point is p + a d for the first step length a that passes the test. *)
Definition lm_trial (f : nat -> expr K) (jac : nat -> nat -> expr K) (p phi : nat -> K) (mu : K) (z z' : nat -> K) : Prop :=
  exists d k, lm_direction jac phi mu z d /\ armijo_test f jac p d (step_length k) true /\
    (forall k', k' < k -> armijo_test f jac p d (step_length k') false) /\
    forall j, j < n -> z' j = n_add (p j) (n_mul (d j) (step_length k)).

(** [lm_tries p phi k mu z]: k trials from p have been rejected; the next one uses damping mu and
    the derivatives at z: the last rejected point (not p; nonlinear.cpp:172, 212). *)
Inductive lm_tries (f : nat -> expr K) (jac : nat -> nat -> expr K) (p phi : nat -> K) : nat -> K -> (nat -> K) -> Prop :=
| lm_first : lm_tries f jac p phi 0 (n_dec 1 (-5)) p
| lm_reject k mu z z' phi' : lm_tries f jac p phi k mu z -> lm_trial f jac p phi mu z z' ->
    values_at z' n f phi' -> n_ltb (sumsq phi') (sumsq phi) = false ->
    lm_tries f jac p phi (S k) (n_mul mu (n_ofZ 10)) z'.

(** An accepted step with k rejected trials: the sum of squares strictly decreases. *)
Definition lm_step (f : nat -> expr K) (jac : nat -> nat -> expr K) (k : nat) (p p' : nat -> K) : Prop :=
  exists phi phi' mu z, values_at p n f phi /\ ~ vanish phi /\ lm_tries f jac p phi k mu z /\
    lm_trial f jac p phi mu z p' /\ values_at p' n f phi' /\ n_ltb (sumsq phi') (sumsq phi) = true.

(** k accepted steps; [rej i] trials are rejected before the i-th is accepted. *)
Definition lm_points (f : nat -> expr K) (jac : nat -> nat -> expr K) (p0 : nat -> K) (ps : nat -> nat -> K) (rej : nat -> nat) (k : nat) : Prop :=
  ps 0 = p0 /\ forall i, i < k -> lm_step f jac (rej i) (ps i) (ps (S i)).

(** The number of trials made in these steps. *)
Fixpoint lm_count (rej : nat -> nat) (k : nat) : nat := match k with O => 0 | S k' => lm_count rej k' + S (rej k') end.

(** At [p], r trials are rejected (and p is no solution unless r = 0). *)
Definition lm_rejected (f : nat -> expr K) (jac : nat -> nat -> expr K) (p : nat -> K) (r : nat) : Prop :=
  r = 0 \/ exists phi mu z, values_at p n f phi /\ ~ vanish phi /\ lm_tries f jac p phi r mu z.

(** At [p], after r rejected trials, the first [steps] step lengths fail the test of the line search. *)
Definition lm_open (f : nat -> expr K) (jac : nat -> nat -> expr K) (steps : nat) (p : nat -> K) (r : nat) : Prop :=
  exists phi mu z d, values_at p n f phi /\ ~ vanish phi /\ lm_tries f jac p phi r mu z /\ lm_direction jac phi mu z d /\
    forall k, k < steps -> armijo_test f jac p d (step_length k) false.
End S.
