(** Model of math_operator.h:9-19: the constant PI, radians and degrees. *)
From Coq Require Import ZArith.
From Verif Require Import MathOp.

(** math_operator.h:9 [constexpr double PI = M_PI]; <cmath> defines
    M_PI as 3.14159265358979323846. *)
Definition M_PI {K : num_ops} : K := n_dec 314159265358979323846 (-20).

(** math_operator.h:11-14 [radians]: [std::forward<T>(t) / 180.0 * PI].  Only T = double and the integer
    types compile (Node has no operators with numbers, and an lvalue argument makes the return type a
    reference to a temporary).  Simplified: 180.0 is the number 180. *)
Definition radians {K : num_ops} (t : K) : K := n_mul (n_div t (n_ofZ 180)) M_PI.
(** math_operator.h:16-19 [degrees]: [std::forward<T>(t) * 180.0 / PI]. *)
Definition degrees {K : num_ops} (t : K) : K := n_div (n_mul t (n_ofZ 180)) M_PI.

(** The same templates with T = int: the argument is converted to double, and the result back to int,
    which truncates; [None] is undefined behaviour (out of the range of int). *)
Definition radians_int {K : num_ops} (t : Z) : option Z := n_toint (radians (n_ofZ t : K)).
Definition degrees_int {K : num_ops} (t : Z) : option Z := n_toint (degrees (n_ofZ t : K)).
