(** Model of the program examples/diff_machine/main.cpp, which differentiates what the user types. *)
From Coq Require Import String Ascii List ZArith Bool.
From Verif Require Import Base MathOp NodeModel ParseModel ToStringModel SubsModel DiffModel VarsTableModel ErrorModel.
Import ListNotations.
Local Open Scope string_scope. Local Open Scope list_scope.

(** What is written, in this order: to cout or to cerr. *)
Inductive event := Out (s : string) | Err (s : string).
(** Afterwards the program waits with [rest] still to be read from cin, or it has ended in the
    way given by the outcome ([Terminate] also for an exception that main does not catch). *)
Inductive after := Reads (rest : string) | Dies (how : res unit).

(** [cin >> s] (main.cpp:27, 46): skips white space, then reads up to the next white space or the end; s is
    empty if there is nothing left.  (The state bits of cin are not modelled: once the end is
    reached every further read gives the empty word.) *)
Fixpoint skip_space (s : string) : string :=
  match s with
  | String c s' => if is_space c then skip_space s' else s
  | EmptyString => ""
  end.
Fixpoint take_word (s : string) : string * string :=
  match s with
  | String c s' => if is_space c then ("", s) else let '(w, r) := take_word s' in (String c w, r)
  | EmptyString => ("", "")
  end.
Definition read_word (input : string) : string * string := take_word (skip_space input).

(** main.cpp:9-18 [usage]. *)
Definition usage : string :=
  ("=========== diff machine ===========" ++ nl ++
   "example: " ++ nl ++ ">>x^5" ++ nl ++ "ans = " ++ nl ++ "  5*x^4" ++ nl ++ nl ++
   "optional functions:" ++ nl ++
   "sin(x) cos(x) tan(x) asin(x) acos(x) atan(x)" ++ nl ++
   "sqrt(x) log(x) log2(x) log10(x) exp(x)" ++ nl ++
   "====================================" ++ nl)%string.

Section Machine.
Context {K : num_ops} (cfg : config K).

(** main.cpp:55: std::runtime_error and the classes derived from it are caught (error_type.h:29,
    parse.h:64-108); std::out_of_range is a logic_error. *)
Definition caught (e : exn) : bool := match e with OutOfRange _ => false | _ => true end.

(** The end of a turn when a call did not return. *)
Definition failed {A} (evs : list event) (r : res A) (rest : string) : list event * after :=
  match r with
  | Ok _ => (evs, Reads rest)
  | Throw e => if caught e then (evs ++ [Err (what e ++ nl)%string], Reads rest) else (evs, Dies Terminate)
  | Undef w => (evs, Dies (Undef w))
  | Terminate => (evs, Dies Terminate)
  | AssertFail w => (evs, Dies (AssertFail w))
  | OutOfFuel => (evs, Dies OutOfFuel)
  end.

(** main.cpp:52-54. *)
Definition answer (evs : list event) (n : node K) (varname rest : string) : list event * after :=
  match Diff cfg n varname 1 with
  | Ok dnode =>
      let evs := evs ++ [Out ("ans = " ++ nl)%string] in
      match ToString dnode with
      | Ok s => (evs ++ [Out ("  " ++ s ++ nl)%string], Reads rest)
      | r => failed evs r rest
      end
  | r => failed evs r rest
  end.

(** main.cpp:24-55: one round of the loop. *)
Definition turn (input : string) : list event * after :=
  let evs := [Out ">>"] in
  let '(expr, rest) := read_word input in
  match (let* n := Parse expr in
         let* varnames := GetAllVarNames n in
         let* varsTable := VarsTable_make varnames (n_ofZ 0 : K) in
         Ok (n, varsTable)) with
  | Ok (n, varsTable) =>
      match Vars varsTable with
      | [] => answer evs n "" rest
      | [x] => answer evs n x rest
      | _ =>
          let evs := evs ++ [Out ("more than 1 variable. who do you want to differentiate?" ++ nl)%string; Out ">>"] in
          let '(varname, rest) := read_word rest in
          if Has varsTable varname then answer evs n varname rest
          else failed (A:=unit) evs (Throw (RuntimeError ("no variable " ++ quote ++ varname ++ quote ++ " in expression: " ++ expr)%string)) rest
      end
  | r => failed evs r rest
  end.

(** main.cpp:23: at most [rounds] rounds of the endless loop. *)
Fixpoint turns (rounds : nat) (input : string) : list event * after :=
  match rounds with
  | O => ([], Reads input)
  | S k =>
      match turn input with
      | (evs, Reads rest) => let '(evs', a) := turns k rest in (evs ++ evs', a)
      | (evs, Dies how) => (evs, Dies how)
      end
  end.

(** main.cpp:20-59 [main]. *)
Definition machine (rounds : nat) (input : string) : list event * after :=
  let '(evs, a) := turns rounds input in (Out (usage ++ nl)%string :: evs, a).
End Machine.
