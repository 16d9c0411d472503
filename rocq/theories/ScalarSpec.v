(** One equation in one unknown: its value, its derivative, and the points of Newton's method. *)
From Coq Require Import String List Reals.
From Verif Require Import Base MathOp NodeModel ExprSpec SubsSpec SymMatSpec RealSpec DiffSpec.
Import ListNotations.
Local Open Scope R_scope.

(** [e] contains no variable but x; where x has a value v of [dom], e has the value F v, can be differentiated term by
    term, and has the derivative D v. *)
Definition curve (x : string) (e : expr Rops) (F D : R -> R) (dom : R -> Prop) : Prop :=
  vars_within [x] e /\
  forall env, dom (env x) -> rval env e = Some (F (env x)) /\ smooth 1 x env e /\ partial env x e (D (env x)).

(** With two points, [dom] contains the points between them. *)
Definition interval (dom : R -> Prop) : Prop := forall p q c, dom p -> dom q -> p <= c <= q -> dom c.
(** The derivative is nowhere zero and does not change sign. *)
Definition one_sign (dom : R -> Prop) (D : R -> R) : Prop := (forall p, dom p -> 0 < D p) \/ (forall p, dom p -> D p < 0).
(** The derivative is monotone: the curve is convex, or it is concave. *)
Definition monotone (dom : R -> Prop) (D : R -> R) : Prop :=
  (forall p q, dom p -> dom q -> p <= q -> D p <= D q) \/ (forall p q, dom p -> dom q -> p <= q -> D q <= D p).

(** The textbook step. *)
Definition next (F D : R -> R) (p : R) : R := p - F p / D p.
(** The first step of the program goes to [0 - F/D], not to [s0 - F/D] (nonlinear.cpp:92). *)
Definition landing (F D : R -> R) (s0 : R) : R := 0 - F s0 / D s0.
