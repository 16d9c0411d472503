{"id": "C01", "title": "Vpa computes the value of the expression", "statement": "For every variable-free expression built with Num and the operator/function API, node->Vpa() returns exactly the value obtained by evaluating the expression tree bottom-up with the library's arithmetic (and, over exact reals, the mathematical value of the expression), however deep the tree is.", "quantifier": "every well-formed expression tree of any size and depth, every number type/arithmetic", "why_tests_cant": "tests evaluate finitely many fixed trees; the stack-based traversal must be right for all shapes", "anchors": ["src/tomsolver/node.cpp:NodeImpl::VpaNonRecursively", "src/tomsolver/math_operator.cpp:Calc"]}
{"id": "C02", "title": "Vpa error contract", "statement": "With throwOnInvalidValue on, Vpa throws exactly when evaluation meets a variable (runtime_error) or an operator application whose result is inf/nan (MathError ERROR_INVALID_NUMBER), the first offending node in left-to-right post order deciding which; the result of any operator expression that is returned is never inf/nan. The only other outcome is undefined behaviour of the integer operators (%,&,|) on operands outside their domain.", "quantifier": "every well-formed expression and every arithmetic", "why_tests_cant": "the set of failing expressions is infinite; a test only sees single ones", "anchors": ["src/tomsolver/node.cpp:NodeImpl::VpaNonRecursively", "src/tomsolver/math_operator.cpp:Calc"]}
{"id": "C03", "title": "Vpa without throwing", "statement": "With throwOnInvalidValue off, Vpa of a variable-free expression never throws: it returns the value obtained by propagating inf/nan through the same operations.", "quantifier": "every well-formed variable-free expression without %,&,|", "why_tests_cant": "infinitely many expressions and operand values", "anchors": ["src/tomsolver/math_operator.cpp:Calc", "src/tomsolver/config.h:Config"]}
{"id": "C04", "title": "Calc() collapses an expression to its value or leaves it alone", "statement": "node->Calc() either replaces the expression by the single number Vpa() would have returned, or throws what Vpa() throws and leaves the expression unchanged; calling it again changes nothing.", "quantifier": "every expression", "why_tests_cant": "requires the failure path for every position of the failing node", "anchors": ["src/tomsolver/node.cpp:NodeImpl::Calc"]}
{"id": "C05", "title": "Equal is structural equality", "statement": "a->Equal(b) is true exactly when the two expressions are the same tree with equal numbers (IEEE ==), the same operators and the same variable names; it is symmetric and transitive, and reflexive on trees without NaN.", "quantifier": "all pairs of expressions", "why_tests_cant": "pairs of trees of unbounded size", "anchors": ["src/tomsolver/node.cpp:NodeImpl::Equal"]}
{"id": "C06", "title": "Clone copies the whole tree", "statement": "Clone(n) yields a tree identical to n in shape, operators, numbers and names; it shares no node with n, so changing or destroying one never affects the other.", "quantifier": "every expression and every later history", "why_tests_cant": "quantifies over trees and subsequent mutations", "anchors": ["src/tomsolver/node.cpp:CloneNonRecursively"]}
{"id": "C07", "title": "GetAllVarNames returns exactly the occurring variables", "statement": "GetAllVarNames() returns the set of the variable names occurring in the expression: every occurring name once, no other name, in increasing lexicographic order.", "quantifier": "every expression", "why_tests_cant": "infinitely many trees", "anchors": ["src/tomsolver/node.cpp:NodeImpl::GetAllVarNames"]}
{"id": "C08", "title": "Operators and functions build the written expression", "statement": "Each overloaded operator / function returns an operator node whose operands are the argument expressions; an argument passed by lvalue keeps its value, an argument passed by Move is left empty; compound assignments replace their left operand. Passing the same variable as moved and copied operand at once (n += n) dereferences a null pointer.", "quantifier": "every operator, every pair of operands, every passing mode, every history of a program over Node variables", "why_tests_cant": "aliasing and value categories must be right for every combination and history", "anchors": ["src/tomsolver/node.h:BinaryOperator", "src/tomsolver/node.h:UnaryOperator", "src/tomsolver/node.cpp:CopyOrMoveTo", "src/tomsolver/functions.h"]}
{"id": "C09", "title": "Legal variable names", "statement": "Var(name) succeeds exactly for names that are non-empty, consist of ASCII letters, digits and underscores and do not start with a digit; otherwise it throws runtime_error.", "quantifier": "every string", "why_tests_cant": "infinitely many strings", "anchors": ["src/tomsolver/node.cpp:VarNameIsLegal", "src/tomsolver/node.cpp:Var"]}
{"id": "C10", "title": "Parse implements the documented grammar", "statement": "Every string that is a rendering of an expression of the infix grammar (numbers, variables, functions f(...), parentheses, unary +/-, binary operators with precedence + - < * / < ^ < & | < %, all left associative except ^, unary signs binding tighter than every binary operator), with arbitrary white space between tokens, is parsed to exactly that expression. In particular the grammar is unambiguous and Parse never rejects a sentence of it.", "quantifier": "every derivation of the grammar and every placement of white space", "why_tests_cant": "infinitely many sentences", "anchors": ["src/tomsolver/parse.cpp:ParseToTokens", "src/tomsolver/parse.cpp:InOrderToPostOrder", "src/tomsolver/parse.cpp:BuildExpressionTree", "src/tomsolver/math_operator.cpp:Rank"]}
{"id": "C11", "title": "Parse never invents or drops anything", "statement": "Whenever Parse returns a tree for any string, the tree is well formed (every operator node has its number of operands, no parenthesis nodes) and its operands are exactly the number/variable tokens of the input, in input order, and its operators are exactly the operator/function tokens of the input other than parentheses.", "quantifier": "every input string", "why_tests_cant": "all strings, including ill-formed ones that are accepted", "anchors": ["src/tomsolver/parse.cpp:Parse"]}
{"id": "C12", "title": "Parse is insensitive to white space between tokens", "statement": "Inserting or deleting white space next to an operator character, or changing the kind/amount of white space between tokens, does not change the tree Parse returns.", "quantifier": "every input and every insertion point next to an operator or existing white space", "why_tests_cant": "all placements", "anchors": ["src/tomsolver/parse.cpp:ParseToTokens"]}
{"id": "C13", "title": "Outcome of Parse on arbitrary input", "statement": "For every string Parse returns a tree, throws ParseError (with a position inside the input) or MathError ERROR_WRONG_EXPRESSION, or - exactly in the cases characterised by the theorem: a ')' with no open '(' left after an earlier '(' was already closed, or a token list that yields no operand at all such as \"()\" or white space only - has undefined behaviour.", "quantifier": "every input string", "why_tests_cant": "needs all malformed strings", "anchors": ["src/tomsolver/parse.cpp:InOrderToPostOrder", "src/tomsolver/parse.cpp:BuildExpressionTree"]}
{"id": "C14", "title": "ToString prints an expression that parses back to the same value", "statement": "For every expression over printable literals, variables that are not function or number words, and functions other than asin/acos/atan, Parse(node->ToString()) succeeds and returns the same tree up to re-association of + - and * / chains and up to writing negative literals as unary minus; in exact arithmetic the value is unchanged.", "quantifier": "every expression tree of any size", "why_tests_cant": "the minimal-parentheses rules interact with every nesting of operators", "anchors": ["src/tomsolver/node.cpp:ToStringNonRecursively", "src/tomsolver/parse.cpp:Parse"]}
{"id": "C15", "title": "The two ToString implementations agree up to signs' parentheses", "statement": "The stack-based printer used by ToString emits, for every tree, exactly the in-order text given by the recursive description (parenthesise a binary operand iff precedence/associativity demands it).", "quantifier": "every expression", "why_tests_cant": "stack discipline over all shapes", "anchors": ["src/tomsolver/node.cpp:ToStringNonRecursively"]}
{"id": "C16", "title": "Number formatting", "statement": "ToString(double) prints a decimal text without exponent for 1e-16<|v|<1e16; the text denotes v rounded to 16 decimals, and reading it back gives exactly v whenever 0.5<=|v|<1e16.", "quantifier": "every finite double", "why_tests_cant": "2^64 values", "anchors": ["src/tomsolver/config.cpp:ToString"]}
{"id": "C17", "title": "Simplify preserves the value", "statement": "For every expression and every assignment under which it has a (finite real) value, the simplified expression has the same value, provided no sub-expression folds the rule 0^u -> 0 with u = 0.", "quantifier": "every expression, every assignment", "why_tests_cant": "all expressions and assignments", "anchors": ["src/tomsolver/simplify.cpp:SimplifySingleNode"]}
{"id": "C18", "title": "Simplify reaches a normal form", "statement": "After Simplify no operator node has only number operands, and no removable 0/1 operand (x*0, 0/x, 0^x, x+0, x-0, x*1, x/1, x^1) is left; the result is not larger than the input, has no new variables, and simplifying again changes nothing.", "quantifier": "every expression", "why_tests_cant": "all expressions", "anchors": ["src/tomsolver/simplify.cpp:SimplifyWholeNode"]}
{"id": "C19", "title": "Simplify terminates the process exactly on invalid constant folding", "statement": "Simplify (noexcept) calls std::terminate exactly when, with throwOnInvalidValue on, folding a constant sub-expression met during the bottom-up pass yields inf/nan; otherwise it returns.", "quantifier": "every expression", "why_tests_cant": "all expressions", "anchors": ["src/tomsolver/simplify.cpp:Simplify"]}
{"id": "C20", "title": "Diff is the derivative", "statement": "For every expression without &,|,% and without exp applied to a bare variable other than x, at every assignment where the expression is differentiable term by term, Diff(node,x) evaluates to the partial derivative of the expression with respect to x.", "quantifier": "every expression, variable and assignment", "why_tests_cant": "a statement of real analysis over all expressions", "anchors": ["src/tomsolver/diff.cpp:DiffOnceOperator", "src/tomsolver/diff.cpp:Diff"]}
{"id": "C21", "title": "Diff of order n is the n-th derivative", "statement": "At every assignment at which every function in the expression is applied in the interior of its domain (so the expression is infinitely differentiable there), the n-th partial derivative exists and Diff(node,x,n), whenever it returns, evaluates to it (with throwOnInvalidValue off the result may have no value, but never a wrong one). Diff either returns or, with throwOnInvalidValue on, terminates the process because a constant in the derivative is invalid; it certainly returns if the unsimplified derivative has a value at some assignment.", "quantifier": "every n>=1, expression, assignment", "why_tests_cant": "unbounded n", "anchors": ["src/tomsolver/diff.cpp:Diff"]}
{"id": "C22", "title": "Diff error behaviour", "statement": "Diff throws runtime_error exactly when differentiation reaches an &, | or % node, never modifies its const argument, and never introduces variables; the result is a well-formed expression.", "quantifier": "every expression", "why_tests_cant": "all expressions", "anchors": ["src/tomsolver/diff.cpp:DiffOnceOperator"]}
{"id": "C23", "title": "Derivative with respect to an absent variable is zero", "statement": "If x does not occur in the expression (and exp is not applied to a bare variable) then Diff(node,x) evaluates to 0 wherever the expression is defined.", "quantifier": "every expression not containing x", "why_tests_cant": "all expressions", "anchors": ["src/tomsolver/diff.cpp:DiffOnceOperator"]}
{"id": "C24", "title": "Subs is simultaneous substitution", "statement": "Subs replaces every occurrence of each listed variable by a copy of its replacement, all at once (variables inside replacements are not substituted again), and nothing else; evaluating the result equals evaluating the original with the listed variables bound to the values of the replacements.", "quantifier": "every expression, dictionary and assignment", "why_tests_cant": "all expressions and dictionaries", "anchors": ["src/tomsolver/subs.cpp:SubsInner"]}
{"id": "C25", "title": "Subs leaves no listed variable behind", "statement": "The variables of Subs(node,dict) are exactly the variables of node not in dict plus those of the replacements of variables that occur; substituting numbers for all variables makes the expression computable. With duplicate names in the vector overload the first entry wins.", "quantifier": "every expression and dictionary", "why_tests_cant": "all dictionaries", "anchors": ["src/tomsolver/subs.cpp:Subs"]}
{"id": "C26", "title": "Det is the determinant", "statement": "In exact arithmetic Det(A,n) is the determinant of the leading n x n block of A for every n>=1.", "quantifier": "every matrix of every size", "why_tests_cant": "all sizes", "anchors": ["src/tomsolver/mat.cpp:Det", "src/tomsolver/mat.cpp:GetCofactor"]}
{"id": "C27", "title": "Inverse is the inverse", "statement": "In exact arithmetic, for a square A, Inverse() throws ERROR_SINGULAR_MATRIX exactly when |det A| <= epsilon; otherwise the returned matrix multiplied by A on either side is the identity.", "quantifier": "every square matrix", "why_tests_cant": "all sizes and entries", "anchors": ["src/tomsolver/mat.cpp:Mat::Inverse", "src/tomsolver/mat.cpp:Adjoint"]}
{"id": "C28", "title": "Matrix arithmetic is entrywise/ row-by-column", "statement": "operator+,-,*,Transpose act on the valarray exactly as the textbook entrywise / row-by-column formulas; Transpose is an involution; in exact arithmetic multiplication is associative, distributes over + and (AB)^T = B^T A^T.", "quantifier": "all matrices with matching sizes", "why_tests_cant": "all sizes", "anchors": ["src/tomsolver/mat.cpp:Mat::operator*", "src/tomsolver/mat.cpp:Mat::Transpose"]}
{"id": "C29", "title": "SwapRow, SwapCol, Resize keep the right entries", "statement": "SwapRow/SwapCol exchange exactly the two rows/columns; Resize keeps entry (i,j) for every i,j inside both shapes and fills the rest with 0.", "quantifier": "all matrices and indices", "why_tests_cant": "all sizes", "anchors": ["src/tomsolver/mat.cpp:Mat::SwapRow", "src/tomsolver/mat.cpp:Mat::Resize"]}
{"id": "C30", "title": "Matrix comparisons", "statement": "A==B / A==m is true exactly when every entry differs by less than epsilon; IsZero exactly when all |entries| <= epsilon; AllIsLessThan / Vec::operator< exactly when every entry is smaller; GetMaxAbsRowIndex returns the first row of maximal absolute value.", "quantifier": "all matrices", "why_tests_cant": "all sizes", "anchors": ["src/tomsolver/mat.cpp:Mat::operator==", "src/tomsolver/mat.cpp:GetMaxAbsRowIndex"]}
{"id": "C31", "title": "PositiveDetermine tests the leading principal minors", "statement": "PositiveDetermine() is true exactly when all leading principal minors are positive; hence for a symmetric matrix in exact arithmetic exactly when it is positive definite.", "quantifier": "all square matrices", "why_tests_cant": "all sizes", "anchors": ["src/tomsolver/mat.cpp:Mat::PositiveDetermine"]}
{"id": "C32", "title": "SolveLinear returns a solution", "statement": "In exact arithmetic, for every square A that stays nonsingular under entrywise perturbations smaller than a bound proportional to epsilon, SolveLinear(A,b) returns x with residual bounded by epsilon times a bound on x; with epsilon = 0 it returns the exact solution of every nonsingular system.", "quantifier": "every size, A and b", "why_tests_cant": "all sizes; elimination order depends on data", "anchors": ["src/tomsolver/linear.cpp:SolveLinear"]}
{"id": "C33", "title": "SolveLinear error classification", "statement": "rows>cols always throws ERROR_OVER_DETERMINED_EQUATIONS; rows<cols throws ERROR_INDETERMINATE_EQUATION unless allowed; a reported ERROR_SINGULAR_MATRIX means the system is (numerically) singular; but a singular square system whose deficient column is not the last is not detected and a vector that is not a solution is returned.", "quantifier": "every A and b", "why_tests_cant": "all shapes", "anchors": ["src/tomsolver/linear.cpp:SolveLinear"]}
{"id": "C34", "title": "Symbolic matrices evaluate to numeric matrices", "statement": "SymMat product, difference, Subs, Calc and ToMat commute with evaluation: the entries of the resulting Mat are the values of the corresponding row-by-column expressions.", "quantifier": "all symbolic matrices", "why_tests_cant": "all sizes and entries", "anchors": ["src/tomsolver/symmat.cpp:SymMat::operator*", "src/tomsolver/symmat.cpp:SymMat::Calc"]}
{"id": "C35", "title": "Jacobian has the partial derivatives as entries", "statement": "Jacobian(eqs,vars) has shape rows x |vars| and entry (i,j) is Diff(eqs[i],vars[j]); it terminates the process if some Diff throws.", "quantifier": "all equation vectors and variable lists", "why_tests_cant": "all sizes", "anchors": ["src/tomsolver/symmat.cpp:Jacobian"]}
{"id": "C36", "title": "VarsTable stays consistent", "statement": "After construction and any sequence of SetValues, Vars() is unchanged, Values()[i] is the value of Vars()[i], lookup returns it, and iteration yields exactly these pairs in increasing name order.", "quantifier": "every construction and every history of updates", "why_tests_cant": "all histories", "anchors": ["src/tomsolver/vars_table.cpp:VarsTable"]}
{"id": "C37", "title": "VarsTable lookup and equality", "statement": "operator[] returns the stored value or throws out_of_range exactly for absent names; Has agrees with it; == is true exactly when the tables have the same names and values within epsilon.", "quantifier": "all tables and names", "why_tests_cant": "all tables", "anchors": ["src/tomsolver/vars_table.cpp:VarsTable::operator[]", "src/tomsolver/vars_table.cpp:VarsTable::operator=="]}
{"id": "C38", "title": "Newton-Raphson only returns roots", "statement": "If SolveByNewtonRaphson returns a table then every equation evaluated at that table is smaller than epsilon in absolute value.", "quantifier": "every equation system, starting table and arithmetic", "why_tests_cant": "the iteration is data dependent", "anchors": ["src/tomsolver/nonlinear.cpp:SolveByNewtonRaphson"]}
{"id": "C39", "title": "Newton-Raphson terminates within the iteration limit", "statement": "SolveByNewtonRaphson performs at most maxIterations+1 linear solves and then returns or throws; it never loops forever.", "quantifier": "every system and every arithmetic", "why_tests_cant": "all executions", "anchors": ["src/tomsolver/nonlinear.cpp:SolveByNewtonRaphson"]}
{"id": "C40", "title": "Solvers keep the variables", "statement": "The table returned by Solve has the same variables in the same order as the table passed in; Solve(equations) uses exactly the variables of the equations, in lexicographic order, all starting at initialValue.", "quantifier": "every system", "why_tests_cant": "all systems", "anchors": ["src/tomsolver/nonlinear.cpp:Solve"]}
{"id": "C41", "title": "LM only returns roots and decreases the residual", "statement": "If SolveByLM returns, the residual is below epsilon; every accepted step strictly decreases the squared residual norm.", "quantifier": "every system and every arithmetic", "why_tests_cant": "all executions", "anchors": ["src/tomsolver/nonlinear.cpp:SolveByLM"]}
{"id": "C42", "title": "LM iteration limit", "statement": "With maxIterations >= 0 SolveByLM makes at most maxIterations+1 counted iterations provided every line search ends.", "quantifier": "every system", "why_tests_cant": "all executions", "anchors": ["src/tomsolver/nonlinear.cpp:SolveByLM"]}
{"id": "C43", "title": "Newton-Raphson solves affine systems", "statement": "In exact arithmetic, for n affine equations in n unknowns (value A x - b everywhere) whose inverse has maximum norm at most 1/mu with mu > n*epsilon, Newton-Raphson returns a table after at most N+1 linear solves from any starting table, where theta = n*epsilon/(mu - n*epsilon) and theta^N*(max|b| + (1+theta)*max|residual at the start|) < epsilon, provided N <= maxIterations. The returned point has residual below epsilon and differs from the solution by at most epsilon/mu. In particular the default settings (1e-9, 100) succeed whenever mu >= 11*n*1e-9 and the data are at most 1e80; sums, differences and constant multiples of unknowns are such equations.", "quantifier": "every size, matrix, right hand side, starting table and iteration limit", "why_tests_cant": "all systems", "anchors": ["src/tomsolver/nonlinear.cpp:SolveByNewtonRaphson"]}
{"id": "C44", "title": "Parent links and ownership survive every history", "statement": "After any sequence of API calls every live expression is a proper tree: parent pointers are right (CheckParent passes), no node is shared, reachable twice or leaked.", "quantifier": "every finite history of API calls", "why_tests_cant": "unbounded histories", "anchors": ["src/tomsolver/node.cpp:NodeImpl::CheckParent", "src/tomsolver/node.cpp:NodeImpl::Release"]}
{"id": "C45", "title": "The line search of LM ends on finite data", "statement": "In IEEE double arithmetic, if the direction and the Jacobian at the current point are finite, no equation value is NaN and no coordinate is -0, the Armijo line search accepts one of its first 1076 step lengths; hence SolveByLM with a nonnegative iteration limit always ends unless it reaches a point violating one of these conditions.", "quantifier": "all systems, tables, configurations and directions, all libm implementations", "why_tests_cant": "the bound concerns the underflow of the step length after about a thousand halvings and must hold at every point any run can reach", "anchors": ["src/tomsolver/nonlinear.cpp:Armijo", "src/tomsolver/nonlinear.cpp:SolveByLM"]}
{"id": "C46", "title": "SolveLinear always ends", "statement": "For every matrix and right hand side (any shape, any entries, NaN and inf included) SolveLinear returns a vector with one entry per column, or throws one of the four documented MathErrors, or fails an assertion; it never loops and never accesses memory outside the arrays.", "quantifier": "all shapes, all entries, all arithmetics", "why_tests_cant": "index safety and termination for every shape and every pivoting history", "anchors": ["src/tomsolver/linear.cpp:SolveLinear"]}
{"id": "C47", "title": "Norms, minimum, dot product", "statement": "Norm2 is the sum of the squares of all entries (no root is taken), added row by row in every arithmetic; NormInfinity / NormNegInfinity / Min are the largest / smallest absolute value / smallest entry and are attained, both over exact reals and over finite doubles (where no rounding happens); Dot is the sum of the products. Over the reals Norm2 and NormInfinity vanish exactly for the zero matrix, NormInfinity satisfies the triangle inequality and Dot(a,b)^2 <= Norm2(a) Norm2(b).", "quantifier": "every matrix of every size", "why_tests_cant": "all sizes and entries", "anchors": ["src/tomsolver/mat.cpp:Mat::Norm2", "src/tomsolver/mat.cpp:Mat::NormInfinity", "src/tomsolver/mat.cpp:Mat::NormNegInfinity", "src/tomsolver/mat.cpp:Mat::Min", "src/tomsolver/mat.cpp:Dot"]}
{"id": "C48", "title": "FindAlpha ends, and never searches", "statement": "FindAlpha calls its function at most 103 times and always returns; whatever the function, point and direction, the only step lengths it can return are 1 and NaN (EachDivide ignores its first argument and divides the second by itself), in exact and in binary64 arithmetic; both occur.", "quantifier": "every function, point, direction and tolerance", "why_tests_cant": "ranges over all functions", "anchors": ["src/tomsolver/nonlinear.cpp:FindAlpha", "src/tomsolver/mat.cpp:EachDivide"]}
{"id": "C49", "title": "LM: which point is returned and when the limit is reported", "statement": "For as many equations as unknowns, SolveByLM returns a table exactly when accepted steps (each the first of the line search's step lengths that passes, along the damped Gauss-Newton direction, with the sum of squares decreasing) lead to a point that solves the equations within maxIterations trials, and it holds that point; it reports the iteration limit exactly when maxIterations+1 trials were made, even if the last one solves the equations. With different numbers of equations and unknowns it never makes a step: it returns the unchanged table only if that already is a solution.", "quantifier": "every system, starting point, configuration and arithmetic", "why_tests_cant": "all executions", "anchors": ["src/tomsolver/nonlinear.cpp:SolveByLM"]}
{"id": "C50", "title": "Newton-Raphson converges near a regular root", "statement": "Let the equations have a root s with a well conditioned Jacobian, and let their partial derivatives vary little (relative to the conditioning) over a box around s. If the first computed point lands in that box - in particular if the starting values are 0 and 0 is in the box - SolveByNewtonRaphson returns, within the iteration limit, a table at which every equation is below epsilon and every unknown is within epsilon/(mu - n*kappa) of s. With Lipschitz partial derivatives each step squares the distance to the root up to a term proportional to epsilon.", "quantifier": "every number of unknowns, every smooth system, root, box, epsilon and iteration limit satisfying the stated inequalities (exact reals)", "why_tests_cant": "infinitely many systems and starting points; a test runs a few", "anchors": ["src/tomsolver/nonlinear.cpp:SolveByNewtonRaphson", "src/tomsolver/linear.cpp:SolveLinear", "src/tomsolver/symmat.cpp:Jacobian"]}
{"id": "C51", "title": "Text of matrices and tables", "statement": "Mat::ToString and SymMat::ToString write the entries row by row in one pair of brackets, entries separated by a comma and two spaces, rows by a line break and one space; VarsTable::ToString writes one line \"name = value\" per variable in increasing order of the names. The text determines the shape and the text of every entry (the names and the printed values of a table); where numbers are printed exactly (1/2 <= |v| < 1e16) it determines the matrix.", "quantifier": "every matrix shape and entries, every binary64 value, every expression with legal variable names, every table", "why_tests_cant": "all shapes and contents", "anchors": ["src/tomsolver/mat.cpp:Mat::ToString", "src/tomsolver/symmat.cpp:SymMat::ToString", "src/tomsolver/vars_table.cpp:VarsTable::ToString"]}
{"id": "C52", "title": "Vectors, access to elements and rows, shapes and their assertions", "statement": "Mat(r,c,v), Vec(n,v) and Vec{...} have the stated shape and entries; Value, Row, Col (from an offset), [] and their assignments read and write exactly the addressed entries and nothing else; Zero/SetValue/Resize keep or zero what they should; v+w, v-w, v*w, v/w, -v, k*v, v<w act element by element; ToVec accepts exactly one-column matrices. Empty shapes and operands of different shapes fail an assertion (ToVec: runtime_error).", "quantifier": "every shape, every entry, every index and offset, every number system", "why_tests_cant": "all shapes and indices", "anchors": ["src/tomsolver/mat.h:Mat", "src/tomsolver/mat.cpp:Mat::Row", "src/tomsolver/mat.cpp:Mat::Resize", "src/tomsolver/mat.cpp:Vec", "src/tomsolver/mat.cpp:Vec::operator[]"]}
{"id": "C53", "title": "Which words are functions, numbers and variables", "statement": "A word is looked up by its FNV-1a hash. Two words that differ in a single character never collide; an identifier of at most five characters collides with no function name, so it is read as the variable of that name unless it is a function name or a spelling of inf/nan in any case (those are read as numbers). Longer names can collide: a concrete 14-letter name is taken for arccos.", "quantifier": "every word; every identifier of up to six characters; every libm", "why_tests_cant": "63^6 names and all longer words", "anchors": ["src/tomsolver/parse.cpp:fnv1a", "src/tomsolver/parse.cpp:Str2Function", "src/tomsolver/parse.cpp:ParseFunctions::ParseToTokens"]}
{"id": "C54", "title": "Texts of errors", "statement": "what() of every exception thrown by Parse is a three-line report naming the offence, showing a text and marking a column; for unmatched parentheses and left-over operands the text is the whole input and the mark stands exactly below the reported word; for an illegal word only the word is shown although the mark is indented by its position in the input. what() of MathError determines the error type and the details. When Vpa throws MathError, what() writes out an operation of the expression whose operands have valid values but whose result has none.", "quantifier": "every input text, every error type and detail text, every expression, every arithmetic", "why_tests_cant": "all texts and expressions", "anchors": ["src/tomsolver/parse.h:SingleParseError", "src/tomsolver/parse.cpp:MultiParseError", "src/tomsolver/error_type.cpp:GetErrorInfo", "src/tomsolver/math_operator.cpp:Calc"]}
{"id": "C55", "title": "Text of very large and very small numbers", "statement": "A finite non-zero number of magnitude at least 1e16, or at most the double 1e-16, is written as a sign and scientific notation: a decimal mantissa between 1 and 10 with at most 16 decimals and no needless zeros, \"e\", a signed exponent of two or three digits. The number written is off by at most half a unit of the 17th significant digit and the double is the nearest one to it, so nothing is lost; std::stod reads it back exactly unless it is subnormal. Two numbers outside the magnitudes between 1e-16 and 1/2 have the same text only if they are the same number. Zero is \"0\"; infinities are \"inf\" and \"-inf\".", "quantifier": "all finite doubles in those ranges", "why_tests_cant": "There are 2^63 such doubles; rounding at powers of ten and of two, carries into a new digit and subnormals are the rare cases.", "anchors": ["src/tomsolver/config.cpp:ToString(double)"]}
{"id": "C56", "title": "Simplify preserves values computed in doubles", "statement": "With throwOnInvalidValue on, for every expression whose literals are finite doubles and every assignment of finite doubles at which Vpa returns a value (so no intermediate result overflows) and no power evaluates 0^0, Simplify returns, and evaluating the simplified expression at the same point gives a double that compares equal (only the sign of a zero can change). An expression without variables becomes exactly the number that Vpa gives, or terminates the process exactly when Vpa would throw.", "quantifier": "every expression, every assignment of doubles, every C library meeting the listed guarantees", "why_tests_cant": "all expressions and all doubles, with rounding at every step", "anchors": ["src/tomsolver/simplify.cpp:SimplifySingleNode", "src/tomsolver/simplify.cpp:Simplify", "src/tomsolver/node.cpp:Vpa"]}
{"id": "C57", "title": "Integer computations in doubles are exact", "statement": "If the literals and the values of the variables are integers and evaluating the expression in integer arithmetic (+, -, *, exact division, square root of a square, %, &, |) never leaves [-2^53, 2^53], Vpa returns exactly that integer, whatever the C library. Products of integer matrices, and for an n x n integer matrix with entries of size at most M and n! M^n <= 2^53 also Det, are exact; Inverse throws ERROR_SINGULAR_MATRIX exactly when the determinant is 0 and otherwise every entry is the exact entry of the inverse correctly rounded; PositiveDetermine decides positive definiteness of symmetric ones. The bound 2^53 is sharp.", "quantifier": "every expression, integer assignment, integer matrix of any size within the bound", "why_tests_cant": "all integers and matrices; a rounding error anywhere would break it", "anchors": ["src/tomsolver/node.cpp:Vpa", "src/tomsolver/mat.cpp:Det", "src/tomsolver/mat.cpp:Inverse", "src/tomsolver/mat.cpp:PositiveDetermine", "src/tomsolver/mat.cpp:operator*"]}
{"id": "C58", "title": "Logging does not change results, and shows what happened", "statement": "The log level never changes what SolveLinear, SolveByNewtonRaphson, SolveByLM, Solve or FindAlpha return or throw. Below INFO (in particular at the default WARN) nothing is written to standard output. From INFO on SolveByNewtonRaphson writes the equations, the initial values (sorted by name) and one block per point, numbered 0,1,2,... in which the printed values are those of the equations at that point; the last block shows values below epsilon exactly when a table is returned; after an exception the log stops at the step that failed. At TRACE every linear system, its solution, the Jacobian and the next point are shown too. SolveByLM at INFO/DEBUG shows one numbered line per accepted point, the number counting accepted and rejected trials; its header also says 'Newton Raphson'. FindAlpha never writes its 'over iterator' message. operator<< writes exactly ToString().", "quantifier": "all systems of equations, starting tables, settings and log levels; every outcome of the call (result, exception, termination, non-termination)", "why_tests_cant": "the text depends on the whole history of an iteration on arbitrary equations, and the independence of the level must hold for each of them; tests look at a few runs and never capture stdout", "anchors": ["src/tomsolver/nonlinear.cpp: PrintSolveStartInfo, PrintJacobian, PrintAtIterationStart, SolveByNewtonRaphson, SolveByLM, FindAlpha", "src/tomsolver/linear.cpp: SolveLinear lines 19-23", "src/tomsolver/config.h: LogLevel", "operator<< in node.cpp, mat.cpp, symmat.cpp, vars_table.cpp"]}
{"id": "C59", "title": "Accuracy of results in doubles", "statement": "Let the C library's functions have relative error at most c (2^-53 for the correctly rounded ones). If Vpa returns a value under the default setting, that value is the value of the expression in exact real arithmetic where the result of each operation is perturbed by a relative error of at most 2^-53 (c for library functions; nothing for sign changes) and, for products, quotients and library functions, an absolute error of at most 2^-1075. If forward error analysis of the expression gives the real value y and error bound E (starting from errors of the variables, without coming near overflow or the edge of a domain), Vpa returns a finite value within E of y. Dot, Norm2, every entry of a matrix product and Det are within ((1+2^-53)^k (S+T) - S) of the exact value, where S is the same sum taken with absolute values, k the number of roundings and T the underflow errors, unless they overflow, and they do not overflow if S is below 2^1024 by that factor. The true residual of every equation at a point returned by Solve is below epsilon plus the error bound of that equation there. Inverse of a matrix of doubles at most M in absolute value reports a singular matrix if |det| plus the error bound of the determinant is at most epsilon, and if |det| exceeds epsilon plus that bound, every entry of its result is within an explicit bound (the errors of cofactor and determinant, divided by |det| less its error, and one rounding) of the entry of the exact inverse, unless it is out of range.", "quantifier": "every expression, assignment, configuration and C library of accuracy c; vectors and matrices of any size with finite entries", "why_tests_cant": "rounding errors depend on all inputs at once; a test compares a few values with a tolerance chosen by hand", "anchors": ["src/tomsolver/node.cpp: Vpa", "src/tomsolver/math_operator.cpp: Calc", "src/tomsolver/mat.cpp: Dot, Norm2, operator*, Det", "src/tomsolver/nonlinear.cpp: Solve"]}
{"id": "C60", "title": "Matrices of expressions own their elements", "statement": "A program that declares Node, SymMat and SymVec variables, builds matrices from initializer lists, numbers, clones, differences, products and Jacobians, moves them (std::move construction and assignment), reads and writes elements through references, substitutes, evaluates, compares, prints and destroys them, and catches exceptions, sees exactly what the same operations give on matrices of expression values. At every point memory is proper: no element is shared between two matrices or leaked, no pointer dangles, parents are right; a statement that does not mention a matrix leaves it unchanged, also when it throws; when all variables have ended memory is empty. If a noexcept member would throw, the program ends there. Using a moved-from matrix (even Empty()) or an element outside the matrix has no meaning.", "quantifier": "all programs of any length over any number of Node, SymMat and SymVec variables, all matrix sizes, settings, allocators and orders of operand evaluation", "why_tests_cant": "aliasing, leaks and use after move depend on the history of the program; tests check a few short ones and never look at the memory", "anchors": ["src/tomsolver/symmat.h: SymMat, SymVec (constructors, move operations, Value, operator[])", "src/tomsolver/symmat.cpp: Clone, ToSymVec, ToSymVecOneByOne, ToMat, Calc, Subs, GetAllVarNames, operator-, operator*, operator==, ToString, Jacobian", "src/tomsolver/node.h: Node"]}
{"id": "C61", "title": "SolveLinear in doubles solves the system up to the tolerance", "statement": "Let A be an n x n matrix and b a vector of finite doubles with |A_ij| <= M and |b_i| <= B (within a range in which nothing overflows: 2^(n+1) M B <= 2^1000 eps^2, where eps, the configured epsilon, is between 2^-1000 and min(1, M, B)). Put c = 12 (n+1) 2^n 2^-53 and tol = eps + c M. If no matrix whose entries differ from A's by at most tol is singular, SolveLinear returns a vector x; if its entries are finite, |A x - b|_i <= tol (|x_1|+...+|x_n|) + c B in every row. If this holds even for matrices within 2 tol, the entries of x are finite. If d >= 2 tol and no matrix within d of A is singular, then the returned x differs from the exact solution y by at most (2/d) (tol |y|_1 + c B) in the sum norm. If SolveLinear does not return (it throws that the matrix is singular or has infinitely many solutions), some matrix within tol of A is singular.", "quantifier": "every size n, all matrices and right-hand sides of finite doubles in the range, every configuration (epsilon) and order of pivots", "why_tests_cant": "the rounding errors of an elimination depend on all entries and on the pivot order; a test compares a handful of systems with a tolerance chosen by hand", "anchors": ["src/tomsolver/linear.cpp: SolveLinear", "src/tomsolver/mat.cpp: GetMaxAbsRowIndex, SwapRow, Row, Col", "src/tomsolver/config.h: epsilon"]}
{"id": "C62", "title": "Threads that share no changing variable do not notice each other", "statement": "Let a main program create Node variables and then let several threads run programs over Node variables such that no thread changes (declares, assigns, moves from, simplifies, destroys) a variable another thread mentions, and none changes Config; all may read the same expressions. Under every interleaving of their calls and every allocator, each thread sees exactly the values, texts and exceptions it sees when it runs alone after the main program, its variables end with the same values, no object is shared, dangling or leaked, and all threads run to their end if and only if each does alone. Two interleavings of the same threads cannot be told apart. If one thread runs into undefined behaviour or ends the process, the others have seen up to then what they see alone. Config is shared by all threads: if one changes it, what another sees depends on the interleaving.", "quantifier": "every main program, every number of threads, every program of each, every schedule (interleaving of API calls), every allocator", "why_tests_cant": "a test runs a handful of the exponentially many interleavings", "anchors": ["src/tomsolver/node.h: Node, operators", "src/tomsolver/node.cpp: Clone, Move, CopyOrMoveTo, Release", "src/tomsolver/config.cpp: Config::Get", "src/tomsolver/config.h: Config"]}
{"id": "C63", "title": "Derivatives computed in doubles are as accurate as the rules of differentiation allow", "statement": "Let e be an expression over finite doubles that is differentiable at a point, with exp applied to no bare variable but x. If the expression written down by the textbook rules (product, quotient, chain rule, ...) can be evaluated in doubles at the point, then Diff(e, x) returns and its result evaluates there to a double that compares equal to it: folding constants (log 2, w - 1), exp(x)*1 and all simplifications change nothing. Hence, if an error analysis of the rules' expression (rounding of every operation, inaccurate variables, inaccurate C library) gives the bound E, the value of the derivative returned by Diff is within E of the mathematical partial derivative. The same for every entry of a Jacobian.", "quantifier": "every expression, variable, point, every errors of the variables, every C library meeting the accuracy bound; every system of equations for the Jacobian", "why_tests_cant": "rounding errors depend on the point and on the shape of the expression; a test compares a few derivatives at a few points with a tolerance", "anchors": ["src/tomsolver/diff.cpp: DiffOnce, Diff", "src/tomsolver/simplify.cpp: Simplify", "src/tomsolver/node.cpp: Vpa", "src/tomsolver/symmat.cpp: Jacobian"]}
{"id": "C64", "title": "Newton-Raphson in doubles converges near a regular root", "statement": "Let the equations be expressions over finite doubles and s a (real) root of them, regular in the sense that the Jacobian at s is at distance d from the singular matrices. Suppose the derivatives vary by at most kappa on a box around s, the rounding errors of the equations and of the derivatives (with any C library of the given accuracy) are at most eF and eD there, and the resulting contraction (rate * r + noise <= r, with rate and noise given explicitly in terms of d, kappa, epsilon, the rounding errors and the bound on the entries) keeps the iteration in the ball of radius r. If the first step lands in the ball (for initial values 0: if 0 is in the ball) and N steps suffice with N <= maxIterations, then Solve by Newton-Raphson, computed in doubles, returns a table: no exception, no overflow, no NaN; the exact values of the equations at the returned doubles are smaller than epsilon + eF, and the result is within (epsilon + eF)/(d - kappa) of the root (or is the starting point, which then already passed the test).", "quantifier": "every system of equations, every root, every starting point, box and C library meeting the hypotheses; every configuration with throwOnInvalidValue", "why_tests_cant": "convergence in floating point depends on the whole trajectory and on every rounding error in evaluation, differentiation and elimination; a test runs one trajectory", "anchors": ["src/tomsolver/nonlinear.cpp: SolveByNewtonRaphson, Solve", "src/tomsolver/linear.cpp: SolveLinear", "src/tomsolver/symmat.cpp: Jacobian, Subs, Calc", "src/tomsolver/diff.cpp: Diff"]}
{"id": "C65", "title": "LM converges globally on symmetric Jacobians, and may run forever when the equations are listed in another order", "statement": "Over exact reals: let the n equations have, on a box of radius r around their root s, a symmetric matrix of partial derivatives (always so for one equation in one unknown) with singular values between m > 0 and G and Lipschitz constant L, let their length grow at least m times the distance from s, and let the starting point s0 lie in the box with 2|F(s0)| <= m r. Then the damped iteration (LM) returns a table within N steps, where N is given explicitly: every step reduces the sum of squares by the factor 1 - 0.64 a c^2 at least (a <= m^2/(13 n L |F(s0)|), c <= m^2/(G m + 2e-5)), every equation is smaller than epsilon at the result, and the result is within n epsilon / m of s. The symmetry is needed: the test of the line search multiplies the direction by the transposed Jacobian, and for the equations 0.01 y - 1 = 0, 0.028 x = 0 it rejects every step length, so LM never returns, while for the same two equations in the other order it returns the solution.", "quantifier": "every system, box, start, tolerance and iteration limit meeting the hypotheses; for the negative part: every bound on the loops", "why_tests_cant": "global convergence of an iteration and non-termination of a loop are statements about unbounded runs; a test sees finitely many steps of one run", "anchors": ["src/tomsolver/nonlinear.cpp: SolveByLM, Armijo, Solve", "src/tomsolver/linear.cpp: SolveLinear", "src/tomsolver/symmat.cpp: Jacobian"]}
{"id": "C66", "title": "Simplify, Diff and Jacobian never invent a variable", "statement": "Whatever Simplify, Diff (any order, any variable) or Jacobian return contains only variables of the argument: GetAllVarNames of the result is a subset of GetAllVarNames of the argument. So after Subs with values for all variables of an expression, Vpa of any of its derivatives never fails because of a variable.", "quantifier": "every expression, variable, order, configuration and number type; every vector of equations and list of variables", "why_tests_cant": "ranges over all expression trees and repeated rewriting; a test sees a few expressions", "anchors": ["src/tomsolver/simplify.cpp: Simplify", "src/tomsolver/diff.cpp: Diff", "src/tomsolver/symmat.cpp: Jacobian, SymMat::GetAllVarNames", "src/tomsolver/node.cpp: NodeImpl::GetAllVarNames"]}
{"id": "C67", "title": "The second implementations agree with the first", "statement": "VpaRecursively returns a number exactly when Vpa does, and the same number, whichever operand the compiler evaluates first; evaluated from left to right it also fails in the same way (from right to left it may report a different one of two errors). CloneRecursively makes a fresh copy of the whole tree with correct parent links and changes nothing else, as Clone does. Operator(op, left, right) takes ownership of its operands (either may be missing) and links them correctly.", "quantifier": "every expression, configuration and number type; every state of memory and every allocator", "why_tests_cant": "ranges over all trees, evaluation orders left open by the language, and memory states", "anchors": ["src/tomsolver/node.cpp: NodeImpl::VpaRecursively, CloneRecursively, Operator, NodeImpl::VpaNonRecursively, CloneNonRecursively"]}
{"id": "C68", "title": "How large expressions get", "statement": "Parse builds exactly one node for every token that is not a parenthesis, so never more nodes than the text has characters. Replacing a variable that occurs k times by an expression with m nodes adds exactly k*(m-1) nodes. Simplify never makes an expression larger or deeper. The derivative of an expression has at most 5 times as many nodes as the product of its size and its number of levels (so at most quadratically many), and derivatives of order i stay polynomial in the size for every i: no exponential growth.", "quantifier": "every text, expression, variable, order of differentiation, configuration and number type", "why_tests_cant": "ranges over all expressions; tests can only measure some", "anchors": ["src/tomsolver/parse.cpp: Parse", "src/tomsolver/subs.cpp: Subs", "src/tomsolver/simplify.cpp: Simplify", "src/tomsolver/diff.cpp: Diff"]}
{"id": "C69", "title": "Derivatives with respect to different variables can be taken in either order", "statement": "Wherever an expression is smooth, differentiating first by x and then by y, or first by y and then by x, gives two expressions with the same real value, and that value is the mixed second partial derivative: provided neither the expression nor its two first derivatives apply exp to a bare variable, which is automatic for the derivatives if the expression is already simplified. The condition is needed: for exp(x*1)*y the two orders give exp(x)*y+exp(x) and exp(x).", "quantifier": "every expression, every two variables, every point where it is smooth, every configuration", "why_tests_cant": "ranges over all expressions and all real points", "anchors": ["src/tomsolver/diff.cpp: Diff", "src/tomsolver/simplify.cpp: Simplify"]}
{"id": "C70", "title": "A returned solution is near a genuine root", "statement": "Solve only tests that the computed values of the equations are below epsilon. Whenever the Jacobian at the returned point is well enough conditioned (mu) compared with how much it varies nearby (kappa), there is a real point at which all equations are exactly zero within (epsilon + rounding error of the equations) / (mu - n*kappa) of the returned point, and it is the only root in the neighbourhood: for exact reals, for doubles, and starting from the texts of the equations (Parse, vector, Solve).", "quantifier": "every system of equations (and every way of writing it), every starting table, both methods, every configuration, every returned table, every C library of given accuracy", "why_tests_cant": "existence of an exact real root is not observable by running the program; ranges over all systems", "anchors": ["src/tomsolver/nonlinear.cpp: Solve, SolveByNewtonRaphson, SolveByLM", "src/tomsolver/parse.cpp: Parse"]}
{"id": "C71", "title": "Saved expressions settle after one reload", "statement": "If an expression is saved with ToString and loaded with Parse, then saving and loading the result again gives exactly the same expression: nothing drifts, whatever the number of save/load cycles, although the first load may reassociate chains, turn negative literals into unary minus and round literals to 16 decimals. If no literal is negative the saved text is also the same every time. Literals may be 0, infinite, NaN, or of magnitude between 1.5e-16 and 1e16; any literal below that which is still written without an exponent is reloaded as a number whose text cannot be loaded.", "quantifier": "every expression over such literals, legal variable names and functions other than asin, acos, atan; every double", "why_tests_cant": "needs an argument that formatting a double with 16 decimals, reading it and formatting it again gives the same digits, for all doubles, and that reassociation is invisible in the text of every tree", "anchors": ["src/tomsolver/node.cpp: NodeImpl::ToString", "src/tomsolver/config.cpp: ToString(double)", "src/tomsolver/parse.cpp: Parse, ParseFunctions::ParseToTokens"]}
{"id": "C72", "title": "Relaxing the configuration never changes a result", "statement": "If Vpa, Simplify, Diff, Jacobian, SolveLinear or Solve returns a result, then it returns the same result after switching throwOnInvalidValue off, switching allowIndeterminateEquation on, or raising maxIterations (for LM: to any larger limit if the old one is not negative, or to a negative one, which means no limit). So such settings only decide whether there is a result, never which.", "quantifier": "every expression, matrix, system, start table, both methods, every pair of configurations of which the second is more permissive", "why_tests_cant": "relational property over all inputs and all pairs of configurations; the iterations of both runs have to be compared step by step", "anchors": ["src/tomsolver/config.h: Config", "src/tomsolver/math_operator.cpp: Calc", "src/tomsolver/linear.cpp: SolveLinear", "src/tomsolver/nonlinear.cpp: Solve, SolveByNewtonRaphson, SolveByLM"]}
{"id": "C73", "title": "The names of the variables do not matter", "statement": "Rename the variables of an expression or a system so that different names stay different. Then Vpa and Simplify, Diff, Jacobian, Equal and Subs commute with the renaming (an exception, too, stays the same), and Solve from a table renamed likewise gives the renamed table or fails in exactly the same way. If the renaming also keeps the alphabetical order of the names, GetAllVarNames and Solve without a table commute with it as well; without that condition an indeterminate system can get another solution.", "quantifier": "every expression, system, table, configuration, both methods, every injective renaming (order-preserving for GetAllVarNames and Solve without a table), every arithmetic", "why_tests_cant": "relational property over all inputs and all renamings", "anchors": ["src/tomsolver/node.cpp: Vpa, Equal, GetAllVarNames", "src/tomsolver/simplify.cpp: Simplify", "src/tomsolver/diff.cpp: Diff", "src/tomsolver/subs.cpp: Subs", "src/tomsolver/symmat.cpp: GetAllVarNames", "src/tomsolver/nonlinear.cpp: Solve"]}
{"id": "C74", "title": "Solve depends on the functions, not on how they are written", "statement": "Write the same equations in another way, such as (x-2)*(x+2) instead of x*x-4: wherever the first system has values the second has the same ones, and both can be differentiated there. Then, in exact real arithmetic, if Solve finds a point for the first system it finds exactly the same point for the second, and if it reports that the iteration limit is exceeded for the first it does so for the second.", "quantifier": "every pair of systems that mean the same functions, every finite start, every limit, both methods (LM: as many equations as unknowns), with and without a table of initial values", "why_tests_cant": "relational property over all pairs of systems and all runs of the iteration", "anchors": ["src/tomsolver/nonlinear.cpp: Solve, SolveByNewtonRaphson, SolveByLM", "src/tomsolver/diff.cpp: Diff", "src/tomsolver/symmat.cpp: Jacobian", "src/tomsolver/linear.cpp: SolveLinear"]}
{"id": "C75", "title": "The diff machine answers every input as specified", "statement": "The program examples/diff_machine reads one word at a time. A word that is no expression is answered by the text of the parse error; an expression in one variable by the text of its derivative; an expression in several variables by a question, and the next word, if it is one of them, by the derivative with respect to it, otherwise by an error naming the word and the expression. A constant expression, a text on which Parse is undefined and a derivative that cannot be simplified end the program; nothing else does, not even the end of the input, at which it complains for ever. The printed derivative, evaluated in doubles at a point, differs from the mathematical derivative of what was typed by no more than the rules of differentiation allow.", "quantifier": "every input text, every number of rounds, every expression and point", "why_tests_cant": "a reactive program: the claim is about all inputs and all conversations, of any length", "anchors": ["examples/diff_machine/main.cpp: main", "src/tomsolver/parse.cpp: Parse", "src/tomsolver/diff.cpp: Diff", "src/tomsolver/node.cpp: ToString"]}
{"id": "C76", "title": "A returned solution passes its check and is a fixed point of Solve", "statement": "If Solve returns ans, then f.Subs(ans).Calc(), as in the example programs, succeeds and yields numbers that are all closer to 0 than epsilon; and Solve started from ans returns exactly ans, by either method and with any iteration limit.", "quantifier": "every system, start, configuration, both methods, every arithmetic", "why_tests_cant": "composition of several calls, for all systems and starts", "anchors": ["src/tomsolver/nonlinear.cpp: Solve", "src/tomsolver/symmat.cpp: Subs, Calc", "examples/solve/main.cpp", "examples/set_initial_values/main.cpp"]}
{"id": "C77", "title": "Substitutions compose, and the derivative after a substitution obeys the chain rule", "statement": "Subs with one dictionary and then with another is one Subs with the composed dictionary; replacements of different variables that do not mention each other's variable may be made one after the other in either order or at once; renaming a variable to an unused name and back restores the expression; repeating a substitution changes nothing if the replacement does not contain the variable. Diff(Subs(e,d),y) evaluates to the sum over the variables x of e of Diff(e,x), at the values of the replacements, times Diff of the replacement of x with respect to y.", "quantifier": "every expression, dictionaries, variables and points where the expressions are differentiable", "why_tests_cant": "relates several calls of Subs and Diff for all expressions and dictionaries; the chain rule is about all real points", "anchors": ["src/tomsolver/subs.cpp: Subs", "src/tomsolver/diff.cpp: Diff"]}
{"id": "C78", "title": "Texts compose as expressions do", "statement": "Replacing variables of a well-formed text by texts in parentheses (each of which Parse accepts) and parsing the result gives what parsing the original text and substituting the parsed expressions gives. In particular Parse(\"(\"+s+\")\") = Parse(s), Parse(\"(\"+s+\")\"+op+\"(\"+t+\")\") is op applied to Parse(s) and Parse(t), likewise for a sign and for a function name in front of \"(\"+s+\")\".", "quantifier": "every well-formed text (any white space), every set of replaced variables, every accepted replacement text (even one that is not well-formed), every operator and function", "why_tests_cant": "about all pairs of a context and replacement texts; the parser is a stack machine whose behaviour on a part could depend on what is around it (and does, for ill-formed contexts)", "anchors": ["src/tomsolver/parse.cpp: ParseToTokens, InOrderToPostOrder, BuildExpressionTree, Parse", "src/tomsolver/subs.cpp: Subs"]}
{"id": "C79", "title": "Which words are numbers, and which numbers", "statement": "A word of a text (no white space, no operator character) is taken as a number exactly if it is a decimal or hexadecimal numeral (with or without point and exponent) whose nearest double is finite and either normal or exact, or inf, infinity or nan in any case; its value is that nearest double. So Parse of such a word returns Num of it; a numeral of 2^1024-2^970 or more, or one whose nearest double is subnormal and inexact, is rejected as an invalid variable name.", "quantifier": "every word (string without white space and operator characters), every double, every libm", "why_tests_cant": "ranges over all strings and over all real values of numerals, including both ends of the range of doubles", "anchors": ["src/tomsolver/parse.cpp: ParseToTokens (tryComfirmToken, std::stod)"]}
{"id": "C80", "title": "Det, Inverse and SolveLinear agree with one another", "statement": "In exact arithmetic: Det of a product is the product of the Dets, Det of a transpose is unchanged, scaling by k multiplies it by k^n, exchanging two rows negates it; Inverse returns exactly when |Det| exceeds epsilon, and then Det of the result is the reciprocal; inverting twice gives the original object, Inverse(A*B) is Inverse(B)*Inverse(A), Inverse of the transpose is the transpose of the inverse; SolveLinear(A,b) and Inverse(A)*b differ at most by epsilon times the row sum of |Inverse(A)| times the sum of |x|, and not at all when epsilon is 0.", "quantifier": "all square matrices of all sizes over the reals, all right-hand sides, all configurations with epsilon >= 0", "why_tests_cant": "relates results of different calls for matrices of every size and all real entries", "anchors": ["src/tomsolver/mat.cpp: Det, Mat::Inverse, Mat::Transpose, Mat::SwapRow, Mat::operator*", "src/tomsolver/linear.cpp: SolveLinear"]}
{"id": "C81", "title": "Newton-Raphson finds the root of a convex or concave equation from far away", "statement": "One equation in one unknown with derivative D of constant sign and monotone (convex or concave curve), in exact arithmetic: Solve with Newton-Raphson returns a point with |F| < epsilon near the root s, provided D is not below epsilon at the start, at the point 0 - F(s0)/D(s0) where the first step really lands and at s, and (1-|D(s)|/|D(x2)|)^N |D(x2)| |x2-s| < epsilon for some N below the limit, x2 being the second point. If m <= |D| <= M on the whole line it works from every starting point. Without convexity it may alternate for ever: x^3-2x+2=0 from 0 exhausts every iteration limit although a root exists.", "quantifier": "every equation in one variable with such a derivative on an interval, every start, every configuration with epsilon > 0", "why_tests_cant": "ranges over all convex functions and all starting points at any distance; the failure holds for every iteration limit", "anchors": ["src/tomsolver/nonlinear.cpp: SolveByNewtonRaphson", "src/tomsolver/linear.cpp: SolveLinear"]}
{"id": "C82", "title": "Armijo returns the first step length that passes its test", "statement": "Called by a user with any vectors x, d of n entries and any functions f, df (f(x) with n entries, df(x) an n x n matrix J), Armijo returns a step length exactly when it is the first of 1, 1/2, 1/4, ... for which f has a value at x + a d and |f(x + a d)|^2 <= |f(x) + 0.4 a J'd|^2; it throws exactly what f throws at the first point tried at which f throws, and it runs for ever exactly when all step lengths fail. Over exact reals a step length is found whenever f has derivatives g along d at x with F.g < 0.4 F.(J'd); so for a symmetric Jacobian along every direction of decrease, in particular Newton's. Going uphill on f(x) = x it never ends. Since the test multiplies by the transposed matrix it may accept a step that increases the residual: f(x,y) = (1, x) from (1,0) along (1,10).", "quantifier": "every arithmetic, dimension, vectors, functions (also throwing ones); the termination part: all differentiable functions over the reals", "why_tests_cant": "whether the loop ends depends on infinitely many step lengths and on a derivative", "anchors": ["src/tomsolver/nonlinear.cpp: Armijo"]}
{"id": "C83", "title": "Expressions of any depth are destroyed in a bounded call stack", "statement": "Destroying an expression, of whatever size and shape, never has more than two destructor calls active at the same time, and frees exactly the objects of that expression; one is not enough as soon as the root has a child, and more make no difference. So no program over Node variables overflows the stack by destroying, overwriting or reducing deep expressions: after any number n of x = f(std::move(x)) the variable holds a tree of height n+1, and it is destroyed at the end of its scope, leaving nothing behind. The destructor that the compiler would have supplied needs room for exactly as many calls as the tree is high.", "quantifier": "every tree, heap, allocator; for every n, programs building trees of height n+1", "why_tests_cant": "the depth at which a recursive destructor fails is far beyond what a test builds, and differs between machines", "anchors": ["src/tomsolver/node.cpp: NodeImpl::~NodeImpl, NodeImpl::Release", "src/tomsolver/node.h: NodeImpl"]}
{"id": "C84", "title": "Systems of linear equations written term by term are solved in doubles", "statement": "Equations written as b_i + c_i0*x_0 + ... + c_i(n-1)*x_(n-1) are solved by SolveByNewtonRaphson in double arithmetic: whatever the size, the (finite) coefficients and the start, when the matrix is far enough from singular for the stated rounding errors of evaluation, differentiation and elimination, the call returns a table of finite numbers whose residuals are below epsilon plus the evaluation error, and whose distance from the exact solution is at most that over the distance from singularity. A diagonally dominant matrix is that far from singular and has exactly one solution. In particular, with the default settings, every system of one to four equations with coefficients up to 10 in absolute value, whose diagonal entries exceed the sum of the others of the row by more than n, is solved from any start in [-1,1] with an error of at most 1.1e-9, whichever library functions within the accuracy bound are used; so does Solve(f) without a table, which starts every variable at 1.", "quantifier": "every n, coefficients, names, starting values, configuration and library functions meeting the stated inequalities", "why_tests_cant": "the set of coefficient matrices is unbounded and the accuracy of the result depends on all roundings on the way", "anchors": ["src/tomsolver/nonlinear.cpp: SolveByNewtonRaphson", "src/tomsolver/linear.cpp: SolveLinear", "src/tomsolver/symmat.cpp: Jacobian, SymMat::Calc", "src/tomsolver/diff.cpp: Diff"]}
{"id": "C85", "title": "PI, radians and degrees", "statement": "PI is the double nearest to pi. radians(x) of a finite x is finite and within 2.8e-16 of x*pi/180 relatively (plus 5*2^-1075); degrees(x) is within 2.8e-16 of x*180/pi relatively for |x| up to 1/200 of the overflow threshold, while larger arguments may overflow although the exact result is representable; degrees(radians(x)) is x up to 5.7e-16; both are monotone, and return NaN and infinities unchanged. With an int argument the template returns an int: the truncated result, so that radians(180) is 3 and radians(90) is 1.", "quantifier": "every double, every int", "why_tests_cant": "an error bound over all doubles cannot be established by sampling, and rests on the digits of pi", "anchors": ["src/tomsolver/math_operator.h: PI, radians, degrees"]}
{"id": "C86", "title": "Rewritings that do not change computed results", "statement": "In IEEE doubles (and every arithmetic with commutative + and *) exchanging the operands of any number of + and * changes nothing that is computed: Vpa returns the same double for both or fails for both; Simplify and the first derivative return expressions that again differ only in such exchanges, and terminate the process for both or for neither; Solve returns the same table, bit for bit, with both methods, with and without a given start table. For Diff and Solve products of two literals must not be exchanged: the derivatives of (-3)*4 and 4*(-3) are -0 and 0. Vpa also returns the same double after rewriting with a-c = a+(-c), -(-a) = a, +a = a, -(a*c) = (-a)*c, -(a/c) = (-a)/c, a/(-c) = (-a)/c, 1*a = a, a/1 = a, 2*a = a+a, anywhere and in both directions (all numbers finite, or throwOnInvalidValue off), whatever finite numbers are substituted for the variables. Reassociation does change results.", "quantifier": "every expression, any number of exchanges and rewritings at any depth; every system of equations, table and configuration", "why_tests_cant": "tests compare a few pairs of texts; that the order of operands never influences a derivative, a simplification or an iteration is a statement about all expressions and all steps", "anchors": ["src/tomsolver/node.cpp: NodeImpl::Vpa", "src/tomsolver/simplify.cpp: Simplify", "src/tomsolver/diff.cpp: Diff", "src/tomsolver/nonlinear.cpp: Solve", "src/tomsolver/subs.cpp: Subs"]}
{"id": "C87", "title": "The order of the equations does not matter when the pivots are unambiguous", "statement": "Let Gaussian elimination, always choosing the row with the largest first entry, meet neither two rows with equally large first entries nor a pivot below epsilon. Then SolveLinear succeeds and returns the same vector, bit for bit, in whatever order the rows (with their right-hand sides) are given, in doubles and in every other arithmetic. If this holds for the linear system at every point that Newton-Raphson reaches, then Solve with Newton-Raphson returns the same table, bit for bit, or stops at the iteration limit, for every order of the equations, with and without a given start table. With a tie the order does matter: 3x+y=1, 3x+2y=3 has two results that differ in the last place.", "quantifier": "every square system of every size, every rearrangement of its rows or equations, every table and configuration", "why_tests_cant": "a test compares a few orders of a few systems; that no rearrangement of n rows (n! of them) changes a bit needs the invariant of the elimination", "anchors": ["src/tomsolver/linear.cpp: SolveLinear", "src/tomsolver/mat.cpp: GetMaxAbsRowIndex", "src/tomsolver/nonlinear.cpp: SolveByNewtonRaphson", "src/tomsolver/nonlinear.cpp: Solve"]}
{"id": "C88", "title": "Writing an equation the other way round does not change the solution", "statement": "Multiplying rows of a linear system (with their right-hand sides) by -1, and rearranging the rows, does not change what SolveLinear returns in doubles, except that a zero may get the other sign, as long as elimination meets no tie between pivots and no pivot below epsilon (and epsilon > 0). Rearranging a nonlinear system and writing some of its equations the other way round - b - a for a - b, -e for e (not a bare number), e for -e - does not change what Newton-Raphson returns: the same table, bit for bit, including the signs of zeros, or the iteration limit in both cases, with and without a given start table, if the linear systems at the points it reaches have such pivots and (when inf and nan are errors) the points stay finite.", "quantifier": "every square system of every size, every choice of signs and rearrangement, every table and configuration, every behaviour of the math library", "why_tests_cant": "the sign of every intermediate zero may differ between the two runs; that this never reaches the result must be shown for all doubles and all sizes", "anchors": ["src/tomsolver/linear.cpp: SolveLinear", "src/tomsolver/nonlinear.cpp: SolveByNewtonRaphson", "src/tomsolver/mat.cpp: GetMaxAbsRowIndex"]}
{"id": "C89", "title": "Writing an equation the other way round in its place does not change the solution, ties included", "statement": "Multiplying rows of a square linear system (with their right-hand sides) by -1, without moving them, does not change what SolveLinear returns in doubles, except that a zero may get the other sign, whenever in each pivot column the first entry of the largest absolute value is not below epsilon (and epsilon > 0); entries of the same absolute value are allowed, unlike in C88. Hence writing some equations of a nonlinear system the other way round, each staying where it is, does not change what Newton-Raphson returns: the same table, bit for bit, or the iteration limit in both cases, with and without a given start table, if the derivatives at the points it reaches have such pivots and (when inf and nan are errors) the points stay finite.", "quantifier": "every square system of every size, every choice of signs, every table and configuration, every behaviour of the math library", "why_tests_cant": "the row exchanges and the sign of every intermediate zero depend on the data; that the same rows are chosen and that the signs never reach the result must be shown for all doubles and all sizes", "anchors": ["src/tomsolver/linear.cpp: SolveLinear", "src/tomsolver/nonlinear.cpp: SolveByNewtonRaphson", "src/tomsolver/mat.cpp: GetMaxAbsRowIndex, SwapRow"]}
