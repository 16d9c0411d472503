# Formal model of tomwillow/tomsolver in Rocq (Coq 8.16.1)

## Approach

* The C++ code in `/repo/src/tomsolver` is modelled function by function as Gallina functions
  (`rocq/theories/*Model.v`, `MathOp.v`, `IEEE.v`), each with a comment citing file and lines.
* `double` is a record `num_ops` (carrier, arithmetic, comparisons, libm functions, text conversion).
  - Structural theorems quantify over *every* `num_ops`.
  - `B64 L` (IEEE.v): IEEE 754 binary64 by Flocq with round-to-nearest-even for + - * / sqrt, comparisons,
    decimal reading and printing; `L` gives the libm functions (sin, pow, ...), over which theorems quantify.
    `D` is one such instance, used to run examples.
  - `Rops` (RealSpec.v): exact reals, `None` standing for inf/nan. Used for theorems of analysis and linear
    algebra ("exact reals" below).
* A `Node` (`unique_ptr<NodeImpl>`) is a raw tree with all data fields of `NodeImpl` (type, op, value,
  varname, left, right; `Nil` is the null pointer) in the tree models, and an address in a heap of objects with
  explicit `left`, `right`, `parent` pointers in HeapModel.v. The heap functions are proved to agree with the
  tree functions (HeapSubs, HeapSimplify, HeapDiff, HeapParse, HeapProofs).
* Every call has an outcome in `res`: `Ok v | Throw exn | Undef (undefined behaviour) | Terminate
  (exception escaping a noexcept function) | AssertFail | OutOfFuel`. Loops with explicit stacks are
  modelled as loops with explicit stacks, with fuel, and the fuel is proved sufficient (`OutOfFuel` never
  happens), except for the two loops of the Levenberg-Marquardt solver, whose fuel stays a parameter because
  they may really run forever (C42).
* Specifications live in separate `*Spec.v` files (a clean expression type with textbook evaluation, an infix
  grammar, matrix formulas, mathcomp determinants, Coquelicot derivatives, store-less programs over Node
  variables, ownership of memory); none uses model helpers. Theorems are in `Thm_*.v`, with examples that meet
  their hypotheses beside them; the remaining files are proofs.

## Per property: what is modelled, how it is proved

| id | model | specification | proof |
|----|-------|---------------|-------|
| C01-C04 | NodeModel: `Vpa` two-stack loop, `Calc`; MathOp: `Calc(op, a, b)` | ExprSpec `eval`: bottom-up evaluation with first error in post order; RealSpec `rval` | stack invariant, induction on trees |
| C05 | NodeModel `Equal` | ExprSpec `same` | worklist invariant; laws of IEEE == from Flocq |
| C06 | HeapModel `Clone` | HeapSpec `owns`, MemSpec `tree_of`, `uses` | ownership invariant; frame lemma: a program that does not mention a variable keeps it |
| C07 | NodeModel `GetAllVarNames` | `occurs`, strictly sorted | induction |
| C08 | HeapModel `HUnaryOperator`, `HBinaryOperator`, `CopyOrMoveTo`, copy/move assignment; ApiModel statements | ApiSpec values | corollaries of C44; undefined uses are computed on the heap |
| C09 | `VarNameIsLegal` (regex `(?=\w)\D\w*`) | character classes | equivalence |
| C10-C13 | ParseModel: lexer, hash map of function names, shunting yard, tree builder | GrammarSpec: an inductive infix grammar | induction on derivations (C10); stack invariants for arbitrary strings (C11-C13); totality with an exact characterisation of undefined inputs |
| C14-C16 | ToStringModel, IEEE text conversion, RegexModel (config.cpp:12-37 literally: format table, snprintf, regex_replace) | TextSpec `text`, NumTextSpec `decimal` | induction on trees on top of C10; Flocq rounding error analysis |
| C17-C19 | SimplifyModel | SimplifySpec | induction on trees; post-order pass equals bottom-up rewriting |
| C20-C23 | DiffModel (queue of sub-trees to differentiate) | DiffSpec, Coquelicot `is_derive`, `Derive_n` | queue invariant gives a recursive description; analysis by induction on trees; C21 at points where the unsimplified derivative contains 0*y^(-1): a value that ignores the second factor of 0*c (DiffLax), turned into the real value by simplification |
| C24-C25 | SubsModel | SubsSpec `subst` | induction |
| C26-C31 | MatModel: valarray-backed Mat/Vec | MatSpec entry formulas, MatRealSpec (mathcomp `\det`, `*m`) | refinement to mathcomp matrices over R (RField.v); Sylvester's criterion (Sylvester.v) |
| C32-C33, C46 | LinearModel `SolveLinear` | MatRealSpec | loop invariant: the eliminated system is row-equivalent to a system within epsilon of the given one |
| C34-C35 | SymMatModel, Jacobian | SymMatSpec | entrywise lemmas + C24/C20 |
| C36-C37 | VarsTableModel | VarsSpec | invariant over histories |
| C38-C42, C45, C49 | NonlinearModel: Newton-Raphson, Armijo search, Levenberg-Marquardt | NonlinearSpec | loop invariants, measures; hanging runs as counterexamples; binary64 error analysis of the line search (C45) |
| C43 | the same over exact reals | AffineSpec: affine expressions, conditioning | contraction argument on top of C32 and C35 |
| C44 | HeapModel, ApiModel: programs over Node variables with exceptions and destructors | ApiSpec (values), MemSpec `proper` | separation-style ownership predicate; simulation between heap and value executions for every statement, then every program |
| C47 | MatModel norms, `Dot` | AffineSpec `rsum` | folds; order lemmas for reals and finite doubles |
| C48 | `FindAlpha`, `EachDivide` | the statement itself | every quotient is 1 or nan; fuel is irrelevant from 102 on |
| C50 | SolveByNewtonRaphson on exact reals | NewtonSpec (values and partial derivatives on a box) | mean value theorem along a staircase path, perturbation of conditioned matrices, contraction |
| C51 | `Mat_ToString`, `SymMat_ToString`, `VarsTable_ToString` | MatTextSpec: layout of a grid and of lines | induction over rows; unique splitting at separators |
| C52 | MatModel: constructors, Row/Col/Value, Vec operations | MatSpec `is_mat r c f` | index arithmetic |
| C53 | `fnv1a`, `Str2Function`, the tokenizer | HashSpec: FNV-1a, reserved words | bijectivity of the hash step; meet-in-the-middle check of all words of up to 5 characters by `vm_compute` with a soundness proof |
| C54 | ErrorModel: `what()` of all exceptions; `Calc`'s message | ErrorSpec: layout of a report, failing operation | cases of C13; induction on the expression |
| C55 | `b_tostr` (`%.16e` and the regex), `b_stod` | NumTextSpec: `scientific`, `exponent` | decimal exponent search; gap between doubles versus 17 digits |
| C56 | `Simplify`, `Vpa` over binary64 | FloatSpec: `feq`, `ieee_libm`, `correct_libm` | rounding facts of Flocq, induction on the simplification derivation |
| C57 | `Vpa`, MatModel `Det`, `Inverse`, `PositiveDetermine`, product over binary64 | IntSpec: `is_Z`, `zvalue`, `det_bound` | exactness of rounding on integers; joint induction with the real instance |
| C58 | LogModel: SolveLinear, FindAlpha, the solvers and `operator<<` with their output | LogSpec: `start_text`, `step_text`, `newton_round`, `interrupted` | erasure of the output; induction over the rounds, in parallel with C38/C41 |
| C59 | `Vpa`, `Dot`, `Norm2`, product, `Det`, `Inverse`, `Solve` over binary64 | RoundSpec: `accurate_libm`, `perturbed`, `accuracy`, `rounding_bound`, `permanent` | standard model of rounding (Flocq `Relative`), induction over the expression; running error analysis of sums and of the Laplace expansion |
| C60 | SymHeapModel: SymMat/SymVec objects whose elements are Node objects of HeapModel; symmat.cpp as sequences of Node operations | SymHeapSpec: the same program on matrices of values (SymMatModel) | each function's operations on named Nodes compute the value model's matrix (lemmas `builds_*`), exec_sim lifts C44's simulation, invariant `wf` (elements live, owned once, nothing else in memory) over all programs |
| C61 | `SolveLinear` over binary64 (LinearModel) | SolveSpec: `far_from_singular`, `solve_tolerance`, `solve_factor`, `solve_range` | per-entry rounding bounds (quotient, update), growth invariant under partial pivoting, the residual of the original system bounded backwards through the elimination steps for an arbitrary vector (LinRound), applied to the computed solution, to the kernel vector of a skipped column and to the partially computed solution (no overflow) |
| C62 | threads over ApiModel/HeapModel: a schedule is the list of tagged API calls, executed by `run` in one heap | ThreadSpec: `program_of`, `events_of`, `writes`, `race_free` | a statement depends only on the variables it mentions and changes only those it writes (locality of `vstep`), induction over the schedule, then C44 for the heap |
| C63 | Diff, Simplify, Vpa, Jacobian over the B64 instance | DerivSpec: the rules of differentiation as expressions (`deriv`), proved correct in the reals (C63_rules); accuracy from RoundSpec | `dexpr` (what DiffOnce builds) evaluates to a double equal to that of `deriv` (congruence of evaluation under feq), then C56 for Simplify and C59 for the error bound |
| C64 | SolveByNewtonRaphson with SolveLinear, Jacobian, Subs, Calc over the B64 instance | Newton64Spec (`analysed`, `newton_rate`, `newton_noise`), NewtonSpec (`system`, `box`), SolveSpec (`far_from_singular`) | One step: C59 and C63 bound the errors of the values and of the Jacobian, C61 the residual of the linear solve, the mean value theorem the linearisation error (`step_real`, `step64`); induction on the steps keeps the ball invariant; C39 turns the points into the result |
| C65 | SolveByLM, Armijo, LM_inner over the Rops instance | LMSpec (`norm`, `stretches`, `near`), NewtonSpec (`system`, `box`) | One step: the normal equations are positive definite, so SolveLinear's residual is small (`solve_definite`); for symmetric J the transposed product equals J d, so the test accepts some length >= a and the sum of squares shrinks by a fixed factor (`lm_step_here`); induction over the steps, then C49. Negative part: the direction is known up to the residual, every power of 1/2 fails the test by interval arithmetic, then `C49_lm_endless` |
| C66 | Simplify, Diff, Jacobian, GetAllVarNames, Subs, Vpa (as in C07, C17-C25, C35) | ExprSpec `occurs` | induction over the derivation of `simplifies` (the rules only drop operands), over the derivative expression, over the entries of the Jacobian |
| C67 | AltModel.v: VpaRecursively (argument order a parameter), CloneRecursively and Operator on the heap | ExprSpec `eval`, HeapSpec `owns` | case analysis; weakest preconditions on the heap as for C44 |
| C68 | no new model: ParseModel, SimplifyModel, DiffModel, subs | SizeSpec.v (`size`, `depth`, number of occurrences) | induction on the expression; for order i by iterating the bound |
| C69 | no new model: DiffModel, SimplifyModel over the reals | RealSpec `rval`, DiffSpec `smooth`, `partial`, `no_exp_of_var` | structural induction on second-order jets with Coquelicot; normal forms keep exp away from bare variables |
| C70 | no new model: Parse, SymVec_of, Solve | NewtonSpec `system`, `box`; AffineSpec `conditioned`; RoundSpec `accuracy`; GrammarSpec | residual bound of C59 + existence of a root by the iteration with the Jacobian frozen at the returned point (limit of a Cauchy sequence); mean value theorem coordinate by coordinate |
| C71 | no new model: ToString, ToString(double), Parse | TextSpec, GrammarSpec, `lasting`, `storable` in Thm_Settle.v | text of a double depends only on its nearest multiple of 1e-16, which reading keeps (error below 2^-55 under 1/2; exact above); reassociated chains have the same text and are left-nested, hence fixed points |
| C72 | no new model: Vpa, Simplify, Diff, Jacobian, SolveLinear, Solve | `more_permissive` in Thm_Relax.v | a result of every model function under the strict configuration is a result under the permissive one: congruence of the relation `keeps` for sequencing, loops by induction on the fuel, LM with the invariant that the iteration number is below both limits |
| C73 | no new model: Vpa, Simplify, Diff, Subs, Equal, GetAllVarNames, Jacobian, Solve | RenameSpec.v: `rename`, `mentions_only`, `renamed_table`, `same_outcome` | every model function commutes with `rename f` for f injective on the names that occur; loops by induction on the fuel with `renamed_table` as the relation between the two tables; sets and maps commute with f when f keeps the order |
| C74 | no new model: Solve on exact reals | WrittenSpec.v: `same_equations` (same values wherever the first has values, both differentiable there) | at every point with values the two systems have the same values and, by C25/C35 (Diff computes the derivative, which is unique), the same Jacobian entries; so the sequences of points C39/C49 characterise the result by coincide; SolveFinite.v: solutions of finite linear systems are finite |
| C75 | MachineModel.v: examples/diff_machine/main.cpp (`cin >> word`, one round, the endless loop) on top of Parse, GetAllVarNames, VarsTable, Diff, ToString and the texts of errors | MachineSpec.v: `next_word`, `answers`, `round` | case analysis on the outcome of Parse (C13), the variables (C07, C36), Diff (C22); with C10, C63 the meaning of the printed derivative; induction on the number of rounds |
| C76 | no new model: Solve, Subs, Calc as in examples/solve and examples/set_initial_values | NonlinearSpec.v, SymMatSpec.v | C38 gives the values at the returned point, C34 that Subs and Calc compute them; the first test of both loops returns the table it got; Jacobian does not depend on the method or the limit (C72) |
| C77 | no new model: Subs, Diff | ChainSpec.v: composition of substitutions, `analytic`, sums over names; SubsSpec.v, DiffSpec.v | equations about `subst` by induction; the value along a differentiable curve of assignments is differentiable with derivative gradient * velocity (induction on the expression), applied to the curve of the replacements |
| C78 | no new model: Parse, Subs | ComposeSpec.v: `replaced` (a text with variables replaced by parenthesised texts); GrammarSpec.v, SubsSpec.v | frame property of the shunting-yard machine: what it does between parentheses does not depend on what is below on its stack; so the tokens of any accepted text act as one operand, and the completeness proof of C10 goes through with such blocks as leaves |
| C79 | `b_stod` (std::stod), Parse on one word | NumeralSpec.v: digits, mantissas, numerals and their real values; Flocq's rounding | lexical part: both directions between the digit readers and the grammar of numerals; value part: Bdiv_correct_aux for the quotient, overflow and inexact subnormal results characterised |
| C80 | MatModel.v, LinearModel.v | mathcomp matrices through `mx_is` | C26, C27, C28, C29, C32 combined with mathcomp's determinant and inverse |
| C81 | NonlinearModel.v `SolveByNewtonRaphson`, SolveLinear on 1 x 1 | ScalarSpec.v: curve, one_sign, monotone, landing | mean value theorem: after one step the iterates stay on the side where the derivative is larger and approach the root geometrically; C39_newton_result / C39_newton_limit turn the sequence into the call's outcome |
| C82 | NonlinearModel.v `Armijo` | LineSpec.v: moved, allowed, tested, residual, allowance | induction on the number of tests; derivative of the sum of squares at 0 against the linear lower bound of the allowance |
| C83 | HeapModel.v `destroy`, `Release`; ApiModel.v `run` | Thm_Stack.v: height, destroy_members; HeapSpec.v: owns | every node popped by Release has lost its children, so its destructor pops nothing; induction on the room for the contrast and for monotonicity |
| C84 | NonlinearModel.v `SolveByNewtonRaphson`, LinearModel.v `SolveLinear`, DiffModel.v | LinearSpec.v: linear_terms, left_side, dominant, linear_error | induction on the number of terms for the error of each row and of its derivatives, then C64_newton_converges with a constant Jacobian; existence of the root from C32_residual with epsilon 0 |
| C85 | AngleModel.v | the statements use only Coq's PI, IZR and B2R | Machin's formula (Machin.v of the standard library) with 22 terms evaluated in Q gives 20 digits of pi; then the rounding model of each operation |
| C86 | the model of Vpa, Simplify, Diff, Subs and Solve | RewriteSpec.v: `commutative`, the relations `reordered` and `identical` | determinism of the rewriting rules of SimplifySpec.v shows Simplify respects `reordered`; the unsimplified derivative by induction; then both solvers step by step; the identities of doubles from Flocq's operations (sign symmetry of round-to-nearest, Bmult_correct, Bdiv_correct, Bplus_correct) |
| C87 | the model of SolveLinear and Newton-Raphson | ClearSpec.v: `eliminates`, textbook elimination on lists of rows, closed under rearrangement | the elimination loop produces exactly the pivot rows of `eliminates` (invariant on the rows not yet used, up to permutation), and back substitution uses nothing else; then the characterisations C39 of Newton's result and limit are transferred |
| C88 | the model of SolveLinear and Newton-Raphson over doubles | SignSpec.v: `twin`, equal up to a given sign with the two zeros identified | the relation is a congruence for every operation of the elimination (the pivots are not zero), so the pivot rows of `eliminates` (C87) stay related; adding a related step to a point that is not -0 gives the same point, and points never are -0; the derivatives of reversed equations have opposite values because Diff and Simplify keep the forms a-b/b-a, e/-e, e/0-e |
| C89 | the model of SolveLinear and Newton-Raphson over doubles | TieSpec.v: `pivots`, elimination with the first largest entry of each column as pivot, none small; SignSpec.v | simulation of the two runs of the elimination loop by induction on `pivots`: the pivot search sees only absolute values, so the same rows are exchanged; finished rows are equal up to zero signs, the others up to one sign per row; then back substitution and Newton-Raphson as in C88 |

Further properties are appended below C59 in properties.jsonl as the model grows; MANIFEST.json names the
theorems of each.

## Modelled and not modelled

Modelled (all under `/repo/src/tomsolver`): `math_operator.{h,cpp}`, `node.{h,cpp}`, `functions.{h,cpp}`,
`parse.{h,cpp}`, `simplify.{h,cpp}`, `subs.{h,cpp}`, `diff.{h,cpp}`, `mat.{h,cpp}`, `symmat.{h,cpp}`,
`vars_table.{h,cpp}`, `linear.{h,cpp}`, `nonlinear.{h,cpp}`, `config.{h,cpp}`, the exception kinds of `error_type.h`; and `examples/diff_machine/main.cpp` (C75).
Simplifications, each repeated at the definition:

* `int`/`size_t` indices are natural numbers or Z (no overflow); `%` on doubles cast to `int` is undefined outside
  the range of int, as in C++.
* Exceptions keep the arguments of their constructors; the text of `what()` is a function of these (ErrorModel.v, C54).
* libm functions are parameters in binary64 theorems and the mathematical functions in real theorems.
  `printf("%.16f")`, `stod` are modelled exactly (round to nearest even); NaN prints as "nan" without sign.
  (`stod` of a numeral within 2^-1075 below 2^-1022: the model reads it as 2^-1022, glibc may report ERANGE instead.)
* Vpa, Equal, ToString and GetAllVarNames exist twice: on trees (NodeModel.v, ToStringModel.v; theorems C01-C16) and
  as pointer traversals (HeapModel.v: `HVpa`, `HEqual`, `HToString`, `HGetAllVarNames`); HeapProofs.v proves that
  both agree on every tree in memory, and the programs of C44 run the latter.
* In the heap model the node of a token is allocated when the post order is known; C++ evaluation order of
  operands is a flag of the statement (`leftFirst`) for programs, and left to right inside diff.cpp.
* SymMat and SymVec are modelled on values and, for C60, on the heap; VarsTable (which holds doubles only) on values.
* Memory exhaustion, stack depth, data races inside an API call (C62 covers interleavings of whole calls; the C++ memory model is not modelled), and failures of output
  streams are not modelled. What is written to standard output is modelled separately (LogModel.v); how a stream writes a
  single double there is left arbitrary. `Operator(...)` of node.cpp, which only the tests use, is in AltModel.v (C67).

## Trusted base

* The kernel of Coq 8.16.1 (vm_compute included), coqchk.
* The axioms printed by `Print Assumptions`, listed per theorem in ASSUMPTIONS.md (generated by
  tools/assumptions.py). They all come from the standard library:
  `ClassicalDedekindReals.sig_forall_dec`, `ClassicalDedekindReals.sig_not_dec`, `functional_extensionality_dep`
  (construction of R), `Classical_Prop.classic` (Flocq), `Epsilon.epsilon_statement` (choice used by Coquelicot-style
  limits and by the mathcomp structure on R in RField.v). The theorems that do not mention R or binary64 are closed
  under the global context. coqchk additionally lists constants sealed by module signatures in Coq's Reals and in
  mathcomp; these have bodies and are not axioms.
* That the models are faithful to the code: they were transcribed by hand, function by function, with line
  citations, and checked against the project's unit tests: Conformance.v replays the inputs and expected
  outputs of /repo's tests, read as text, on the model (binary64 with a 140-bit reference libm).
* No axioms, no admitted goals, no functors, no kernel flags.

## Testing the theorems

`seeded/LOG.jsonl`: realistic bugs seeded in the models in a scratch copy; each entry lists the theorems that stop
proving. Entries with `theorems_tightened` led to stronger statements.

Not expressible: wall-clock performance, stack-depth limits of the machine.
