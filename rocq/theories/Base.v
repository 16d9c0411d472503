(** Outcomes of C++ calls, exceptions and the process-wide configuration.

    Models: src/tomsolver/error_type.h, parse.h (exception classes), config.h. *)
From Coq Require Import String List ZArith.
Import ListNotations.
Local Open Scope string_scope.

(** error_type.h:8-25  [enum class ErrorType]. *)
Inductive error_type :=
| ERROR_INVALID_NUMBER | ERROR_ILLEGALCHAR | ERROR_INVALID_VARNAME
| ERROR_WRONG_EXPRESSION | ERROR_EMPTY_INPUT | ERROR_UNDEFINED_VARIABLE
| ERROR_SUBS_NOT_EQUAL | ERROR_NOT_LINK_VARIABLETABLE | ERROR_OUTOF_DOMAIN
| ERROR_VAR_COUNT_NOT_EQUAL_NUM_COUNT | ERROR_VAR_HAS_BEEN_DEFINED
| ERROR_INDETERMINATE_EQUATION | ERROR_SINGULAR_MATRIX
| ERROR_INFINITY_SOLUTIONS | ERROR_OVER_DETERMINED_EQUATIONS
| SIZE_NOT_MATCH.

(** The exceptions the library throws.
    - error_type.h:29-40 [MathError]; parse.h:64-108 [SingleParseError], [MultiParseError];
    - [std::runtime_error] and [std::out_of_range] thrown directly.
    Simplification: of a [SingleParseError] we keep the constructor arguments
    (line, pos, content, concatenated info); the text of [what()] is a function
    of these (parse.h:73-84), modelled in ErrorModel.v. *)
Inductive exn :=
| MathError (t : error_type) (info : string)
| RuntimeError (msg : string)
| OutOfRange (msg : string)
| SingleParseError (line pos : nat) (content info : string)
| MultiParseError (errs : list (nat * nat * string * string)).

(** Outcome of a call.
    - [Undef]: undefined behaviour in C++ (null dereference, [top()] of an empty
      stack, out-of-range index, invalid double->int conversion ...);
    - [Terminate]: an exception leaves a [noexcept] function: [std::terminate];
    - [AssertFail]: an [assert] fires (in an NDEBUG build execution would go on);
    - [OutOfFuel]: artefact of modelling [while] loops; proved unreachable where
      a theorem says so. *)
Inductive res (A : Type) :=
| Ok (a : A)
| Throw (e : exn)
| Undef (why : string)
| Terminate
| AssertFail (why : string)
| OutOfFuel.
Arguments Ok {A}. Arguments Throw {A}. Arguments Undef {A}.
Arguments Terminate {A}. Arguments AssertFail {A}. Arguments OutOfFuel {A}.

Definition bind {A B} (m : res A) (f : A -> res B) : res B :=
  match m with
  | Ok a => f a
  | Throw e => Throw e
  | Undef w => Undef w
  | Terminate => Terminate
  | AssertFail w => AssertFail w
  | OutOfFuel => OutOfFuel
  end.

Declare Scope res_scope.
Delimit Scope res_scope with res.
Notation "'let*' x ':=' e1 'in' e2" := (bind e1 (fun x => e2))
  (at level 200, x pattern, e1 at level 100, e2 at level 200, right associativity) : res_scope.
Open Scope res_scope.

(** A function declared [noexcept]: an escaping exception terminates the process. *)
Definition noexcept {A} (m : res A) : res A :=
  match m with Throw _ => Terminate | r => r end.

Definition res_map {A B} (f : A -> B) (m : res A) : res B := let* a := m in Ok (f a).

(** Sequential application over a list, stopping at the first abnormal outcome
    (a C++ range-for calling a possibly throwing function). *)
Fixpoint mapM {A B} (f : A -> res B) (l : list A) : res (list B) :=
  match l with
  | [] => Ok []
  | a :: l' => let* b := f a in let* bs := mapM f l' in Ok (b :: bs)
  end.

Fixpoint foldM {A B} (f : B -> A -> res B) (l : list A) (b : B) : res B :=
  match l with
  | [] => Ok b
  | a :: l' => let* b' := f b a in foldM f l' b'
  end.

Lemma bind_Ok_inv {A B} (m : res A) (f : A -> res B) b :
  bind m f = Ok b -> exists a, m = Ok a /\ f a = Ok b.
Proof. destruct m; simpl; intros H; try discriminate; eauto. Qed.

Lemma bind_assoc {A B C} (m : res A) (f : A -> res B) (g : B -> res C) :
  bind (bind m f) g = bind m (fun a => bind (f a) g).
Proof. destruct m; reflexivity. Qed.

Lemma bind_ret {A} (m : res A) : bind m Ok = m.
Proof. destruct m; reflexivity. Qed.

Lemma bind_ext {A B} (m : res A) (f g : A -> res B) :
  (forall a, f a = g a) -> bind m f = bind m g.
Proof. destruct m; simpl; auto. Qed.

Lemma mapM_Ok {A B} (f : A -> res B) l bs :
  mapM f l = Ok bs <-> Forall2 (fun a b => f a = Ok b) l bs.
Proof.
  revert bs; induction l as [|a l IH]; intros bs; simpl; split.
  - intros [= <-]. constructor.
  - inversion 1; reflexivity.
  - intros H. apply bind_Ok_inv in H as (b & Hb & H).
    apply bind_Ok_inv in H as (bs' & Hbs & [= <-]). constructor; [exact Hb|]. now apply IH.
  - inversion 1 as [|? b ? bs' Hb Hbs]; subst. rewrite Hb; simpl.
    apply IH in Hbs. rewrite Hbs. reflexivity.
Qed.
