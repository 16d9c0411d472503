(** Doubles up to a given sign, the two zeros counting as one number. *)
From Coq Require Import List Bool.
From Flocq Require Import IEEE754.BinarySingleNaN.
From Verif Require Import MathOp IEEE.

Definition is_zero (a : b64) : Prop := match a with B754_zero _ => True | _ => False end.

(** a or -a. *)
Definition signed (s : bool) (a : b64) : b64 := if s then Bopp a else a.

(** b is [signed s a], except that a zero may have either sign. *)
Definition twin (s : bool) (a b : b64) : Prop := b = signed s a \/ (is_zero a /\ is_zero b).
