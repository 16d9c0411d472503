(** Threads: several programs over Node variables whose API calls are interleaved in any order, in
    one memory.

    A schedule is the list of the statements in the order in which they are executed, each with the
    number of the thread that executes it.  Every list is a schedule.  A call is one step (the C++
    standard gives a meaning only to executions without data races; [race_free] excludes them). *)
From Coq Require Import String List Arith.
From Verif Require Import Base MathOp ApiModel MemSpec.
Import ListNotations.
Local Open Scope string_scope. Local Open Scope list_scope.

Section Threads.
Context {K : num_ops}.
Definition schedule := list (nat * stmt K).

(** What thread [i] executes, and what it sees when [evs] is what all threads together see. *)
Definition program_of (i : nat) (sc : schedule) : list (stmt K) := map snd (filter (fun s => Nat.eqb (fst s) i) sc).
Fixpoint events_of (i : nat) (sc : schedule) (evs : list (event K)) : list (event K) :=
  match sc, evs with
  | (j, _) :: sc', ev :: evs' => if Nat.eqb j i then ev :: events_of i sc' evs' else events_of i sc' evs'
  | _, _ => []
  end.

(** The variables a statement may change: those it declares, assigns, simplifies or destroys, and
    those passed by std::move to an operator or function that takes its argument over. *)
Fixpoint writes_exp (e : nexp K) : list string :=
  match e with
  | XNum _ | XVar _ | XParse _ => []
  | XMove x => [x]
  | XClone a => writes_in a
  | XUn _ a | XDiff a _ _ => writes_arg a
  | XBin _ _ a1 a2 => writes_arg a1 ++ writes_arg a2
  | XSubs a d => writes_arg a ++ writes_dict d
  end
with writes_arg (a : arg K) : list string :=
  match a with Lvalue _ => [] | Rvalue x => [x] | Prvalue e => writes_exp e end
with writes_in (a : arg K) : list string :=
  match a with Lvalue _ | Rvalue _ => [] | Prvalue e => writes_exp e end
with writes_dict (d : dict K) : list string :=
  match d with DNil => [] | DNode _ a d' => writes_in a ++ writes_dict d' | DNum _ _ d' => writes_dict d' end.
Definition writes (s : stmt K) : list string :=
  match s with
  | Declare x e | Assign x e => x :: writes_exp e
  | Compound _ x a => x :: writes_arg a
  | DeclareEmpty x | SimplifyVar x | CalcVar x | EndOfScope x | CopyInto x _ => [x]
  | MoveInto x y => [x; y]
  | GetVpa _ | GetString _ | GetVarNames _ | GetNumber _ | GetEqual _ _ | Check _ | Configure _ => []
  end.

(** No thread changes a variable that another one mentions (all may read the same variables), and
    no thread changes the configuration, which they share. *)
Definition configures (s : stmt K) : bool := match s with Configure _ => true | _ => false end.
Definition race_free (sc : schedule) : Prop :=
  (forall i s j t x, In (i, s) sc -> In (j, t) sc -> i <> j -> In x (writes s) -> ~ In x (uses t)) /\
  (forall i s, In (i, s) sc -> configures s = false).
End Threads.
Arguments schedule K : clear implicits.
