(** Specification for C58: what a solver writes while it works. *)
From Coq Require Import String Ascii List ZArith Arith.
From Verif Require Import Base MathOp ExprSpec TextSpec MatTextSpec NonlinearSpec LogModel.
From Verif Require ErrorSpec.
Import ListNotations.
Local Open Scope string_scope. Local Open Scope list_scope.

Definition line (s : string) : string := (s ++ String newline "")%string.

(** Levels at which the progress of the iteration is shown, and those at which every detail is. *)
Definition progress (lv : log_level) : bool := match lv with OFF | FATAL | ERROR | WARN => false | _ => true end.
Definition details (lv : log_level) : bool := match lv with TRACE | ALL => true | _ => false end.
Definition shown (b : bool) (s : string) : string := if b then s else "".

Section S.
Context {K : num_ops}.

Definition column (n : nat) (v : nat -> K) : string := grid_text n 1 (fun i _ => n_tostr (v i)).
Definition table_of (n m : nat) (v : nat -> nat -> K) : string := grid_text n m (fun i j => n_tostr (v i j)).

(** The equations and the initial values.  The method is always said to be Newton Raphson. *)
Definition start_text (n : nat) (f : nat -> expr K) (items : list (string * K)) : string :=
  (line "Solve start." ++ line "  Method: Newton Raphson" ++
   line "Equations:" ++ grid_text n 1 (fun i _ => text None (f i)) ++
   line "Inital Values:" ++ lines_text n_tostr items)%string.
Definition jacobian_text (n m : nat) (jac : nat -> nat -> expr K) : string :=
  (line "Jacobian:" ++ grid_text n m (fun i j => text None (jac i j)))%string.
Definition iteration_text (k : nat) : string :=
  (line "====================" ++ line ("iteration times = " ++ ErrorSpec.decimal k))%string.
Definition residual_text (n : nat) (phi : nat -> K) : string := (line "phi = " ++ column n phi)%string.
(** A system of linear equations. *)
Definition linear_text (n m : nat) (M : nat -> nat -> K) (b : nat -> K) : string :=
  (line "SolveLinear:Ax=b (x is the wanted)" ++ line "A=" ++ table_of n m M ++ line "b=" ++ column n b)%string.

(** All that is shown of one step: point number k with values phi, derivatives M; solution d of M d = -phi;
    the next point p'. *)
Definition step_text (lv : log_level) (n m k : nat) (phi : nat -> K) (M : nat -> nat -> K) (d p' : nat -> K) : string :=
  (shown (progress lv) (iteration_text k ++ residual_text n phi) ++
   shown (details lv) (linear_text n m M (fun i => n_neg (phi i)) ++
     line ("deltaq = " ++ column m d) ++ line ("ja = " ++ table_of n m M) ++ line ("q = " ++ column m p')))%string.

Definition all_steps (k : nat) (s : nat -> string) : string := String.concat "" (map s (seq 0 k)).

(** One Newton step with all that is computed in it. *)
Definition newton_round (cfg : config K) (xs : list string) (n : nat) (f : nat -> expr K) (jac : nat -> nat -> expr K)
    (p q phi : nat -> K) (M : nat -> nat -> K) (d p' : nat -> K) : Prop :=
  values_at cfg xs p n f phi /\ ~ vanish cfg n phi /\ (forall i, i < n -> values_at cfg xs p (length xs) (jac i) (M i)) /\
  linear_solution cfg n (length xs) M (fun i => n_neg (phi i)) d /\ forall j, j < length xs -> p' j = n_add (q j) (d j).

(** The text written in a round, number k, that ends with an exception at the point p. *)
Inductive interrupted (lv : log_level) (cfg : config K) (xs : list string) (n : nat) (f : nat -> expr K) (jac : nat -> nat -> expr K)
    (k : nat) (p : nat -> K) : string -> Prop :=
| no_values : (forall phi, ~ values_at cfg xs p n f phi) ->
    interrupted lv cfg xs n f jac k p (shown (progress lv) (iteration_text k))
| no_derivatives phi : values_at cfg xs p n f phi -> ~ vanish cfg n phi ->
    (forall M, ~ forall i, i < n -> values_at cfg xs p (length xs) (jac i) (M i)) ->
    interrupted lv cfg xs n f jac k p (shown (progress lv) (iteration_text k ++ residual_text n phi))
| no_direction phi M : values_at cfg xs p n f phi -> ~ vanish cfg n phi ->
    (forall i, i < n -> values_at cfg xs p (length xs) (jac i) (M i)) ->
    (forall d, ~ linear_solution cfg n (length xs) M (fun i => n_neg (phi i)) d) ->
    interrupted lv cfg xs n f jac k p (shown (progress lv) (iteration_text k ++ residual_text n phi) ++
      shown (details lv) (linear_text n (length xs) M (fun i => n_neg (phi i)))).
End S.
