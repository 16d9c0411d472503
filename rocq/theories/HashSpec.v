(** Specification for C53: which words the parser takes for functions, numbers, variables. *)
From Coq Require Import String Ascii List ZArith.
From Verif Require Import ExprSpec GrammarSpec.
Import ListNotations.

(** The FNV-1a hash, 64 bits (Fowler, Noll, Vo; draft-eastlake-fnv): for each byte, xor it
    into the state, then multiply the state by the FNV prime modulo 2^64. *)
Definition FNV_prime : Z := (2 ^ 40 + 2 ^ 8 + 0xb3)%Z.
Definition FNV_offset : Z := 0xcbf29ce484222325%Z.
Fixpoint FNV1a_from (h : Z) (bytes : list Z) : Z :=
  match bytes with
  | [] => h
  | b :: l => FNV1a_from ((Z.lxor h b * FNV_prime) mod 2 ^ 64)%Z l
  end.
Definition FNV1a : list Z -> Z := FNV1a_from FNV_offset.

(** [char] is signed: a byte from 128 on enters the hash as the 64-bit two's complement of a
    negative number. *)
Definition byte_of (c : ascii) : Z := Z.of_nat (nat_of_ascii c).
Definition signed_byte (c : ascii) : Z :=
  if (byte_of c <? 128)%Z then byte_of c else (byte_of c + (2 ^ 64 - 2 ^ 8))%Z.

(** [x] is [p] (given in small letters) with some letters replaced by capitals. *)
Fixpoint same_ci (x p : string) : Prop :=
  match x, p with
  | EmptyString, EmptyString => True
  | String a x', String b p' => (a = b \/ nat_of_ascii a + 32 = nat_of_ascii b) /\ same_ci x' p'
  | _, _ => False
  end.

(** Words that look like variable names but are not: *)
Definition function_name (x : string) : Prop := exists u, fun_name u = Some x.
Definition number_name (x : string) : Prop :=
  same_ci x "inf" \/ same_ci x "infinity" \/ same_ci x "nan".
