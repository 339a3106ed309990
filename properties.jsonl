{"id": "C01", "title": "Sum evaluates to the sum", "statement": "Whatever two expressions a and b are (constants, sums that get flattened, anything) and in whichever of the Node/Node, Node/f64, f64/Node forms it is written, evaluating the expression returned by `a + b` at a point where a and b evaluate to finite values gives evaluate(a)+evaluate(b) in exact arithmetic; the flattening and constant merging never lose, duplicate or reorder away a term.", "quantifier": "all pairs of expressions, all maps of variable values", "why_tests_cant": "unboundedly many expression shapes hit the flattening and constant-merging branches in different combinations", "anchors": ["src/model/node.rs: impl_node_add_node!, impl_node_add_scalar!", "src/model/function/add.rs: FunctionAdd::evaluate"]}
{"id": "C02", "title": "Product evaluates to the product", "statement": "For every a and b (and every Node/f64 mix) the expression returned by `a * b` evaluates, in exact arithmetic, to evaluate(a)*evaluate(b) wherever both are finite, through every simplification (zero, one, constant folding, distribution of a constant over a sum, recursively).", "quantifier": "all pairs of expressions, all maps of variable values", "why_tests_cant": "the distribution branch is recursive over sums of any length and nesting", "anchors": ["src/model/node.rs: impl_node_mul_node!, impl_node_mul_scalar!", "src/model/function/mul.rs: FunctionMul::evaluate"]}
{"id": "C03", "title": "Negation and subtraction evaluate correctly", "statement": "`-a`, `a - b`, `a - s` and `s - a` evaluate to the negated value and the differences, in exact arithmetic, wherever the operands are finite.", "quantifier": "all expressions, scalars and maps of variable values", "why_tests_cant": "built on the recursive distribution of -1 over sums", "anchors": ["src/model/node.rs: impl_node_neg!, impl_node_sub_node!, impl_node_sub_scalar!"]}
{"id": "C04", "title": "Quotient evaluates to the quotient and rejects a constant zero", "statement": "`a / b` panics exactly when b is a constant equal to zero (or the scalar zero); otherwise the result evaluates, in exact arithmetic, to evaluate(a)/evaluate(b) wherever both are finite and evaluate(b) is not zero.", "quantifier": "all pairs of expressions, all maps of variable values", "why_tests_cant": "panic condition and value must be checked for every shape of operand", "anchors": ["src/model/node.rs: impl_node_div_node!, impl_node_div_scalar!", "src/model/function/div.rs: FunctionDiv::evaluate"]}
{"id": "C05", "title": "Sine and cosine", "statement": "a.sin() and a.cos() evaluate to the sine and cosine of evaluate(a), folding constants.", "quantifier": "all expressions and maps of variable values", "why_tests_cant": "quantifies over all expressions", "anchors": ["src/model/node_func.rs: NodeFunc::cos, NodeFunc::sin", "src/model/function/sin.rs", "src/model/function/cos.rs"]}
{"id": "C06", "title": "When adding panics", "statement": "`a + b`, `a + s` and `s + a` panic exactly when no operand is the constant zero, the terms of the two operands contain exactly one that is not a constant, and the constants among them sum to zero (the two-argument assertion of the sum constructor); in every other case they return. In particular `(x + 5.) + (-5.)` aborts although both operands are valid.", "quantifier": "all pairs of expressions", "why_tests_cant": "the abort needs a particular cancellation of constants that no unit test contains", "anchors": ["src/model/node.rs: impl_node_add_node!", "src/model/function/add.rs: FunctionAdd::new"]}
{"id": "C07", "title": "Operator-built expressions are in canonical form", "statement": "Every expression built only with variables, constants, + - * / negation, sin, cos (in any order and sharing) has: no sum directly inside a sum, at most one constant term per sum, at least two terms per sum, no variable-free node other than a plain constant, and no quotient whose denominator is the constant zero. The modelling layer's analysis of expressions relies on it.", "quantifier": "all finite sequences of expression-building API calls", "why_tests_cant": "an invariant over every construction history", "anchors": ["src/model/node.rs: all operator macros", "src/model/node_func.rs"]}
{"id": "C08", "title": "Evaluation depends only on the variables that occur", "statement": "evaluate returns the same value for two maps that agree on the variables occurring in the expression; a variable that occurs but is missing from the map makes a directly built sum, product, quotient, sine or cosine evaluate to NaN.", "quantifier": "all expressions, all pairs of maps", "why_tests_cant": "quantifies over all expressions and all maps", "anchors": ["src/model/node_base.rs: NodeBase::evaluate"]}
{"id": "C09", "title": "Node identity", "statement": "Node equality and hashing are object identity: two separately created variables are different keys even if they have the same name, a clone is the same key, and no operation ever returns a new node that is equal to a node existing before unless it is a clone of that node.", "quantifier": "all construction histories", "why_tests_cant": "identity must hold along every history of allocations", "anchors": ["src/model/node.rs: impl PartialEq, Hash, Clone for Node"]}
{"id": "C10", "title": "Variables of an expression", "statement": "The keys of std_properties().a are exactly the variables occurring in the expression, each once, whether or not the expression is affine.", "quantifier": "all expressions", "why_tests_cant": "quantifies over all expression trees", "anchors": ["src/model/node_std.rs: NodeStdProp, NodeStd::std_properties", "src/model/function/add.rs, src/model/function/mul.rs, src/model/function/div.rs, src/model/function/sin.rs, src/model/function/cos.rs: std_properties"]}
{"id": "C11", "title": "Affine form is correct", "statement": "If std_properties() of an operator-built expression says affine, then for every valuation the expression's value equals sum(a[v]*value(v)) + b in exact arithmetic.", "quantifier": "all operator-built expressions, all valuations", "why_tests_cant": "affine detection multiplies/merges coefficient maps through arbitrary nesting", "anchors": ["src/model/node_std.rs: std_properties", "src/model/function/add.rs, src/model/function/mul.rs, src/model/function/div.rs: std_properties"]}
{"id": "C12", "title": "Affine expressions are recognised", "statement": "Every expression built from variables and constants using only sums, differences, negation, multiplication by a constant expression and division by a nonzero constant is reported affine, so that linear models reach the linear solvers.", "quantifier": "all expressions of the affine grammar", "why_tests_cant": "quantifies over all expressions of a grammar", "anchors": ["src/model/function/add.rs, src/model/function/mul.rs, src/model/function/div.rs: std_properties"]}
{"id": "C13", "title": "First derivatives are correct", "statement": "For every operator-built expression e in which no quotient has the same node as numerator and denominator, every variable v and point at which e is defined: if e.derivative(v) returns a node d then e, as a function of v alone, is differentiable at the point with derivative evaluate(d). (With such a quotient it can be wrong: the derivative of x/x built from one node is 2/x, not 0.)", "quantifier": "all expressions, variables, points", "why_tests_cant": "calculus fact over all points and all expression graphs with arbitrary sharing", "anchors": ["src/model/node_diff.rs: NodeDiff::derivative, derivatives, all_simple_paths", "src/model/function/add.rs, src/model/function/mul.rs, src/model/function/div.rs, src/model/function/sin.rs, src/model/function/cos.rs: partial"]}
{"id": "C14", "title": "Derivative with respect to an absent variable is the constant zero", "statement": "If v does not occur in e then e.derivative(v) is a constant node with value zero.", "quantifier": "all expressions and variables", "why_tests_cant": "quantifies over all expressions", "anchors": ["src/model/node_diff.rs: derivatives"]}
{"id": "C15", "title": "When taking derivatives panics", "statement": "derivative/derivatives of an operator-built expression with respect to variables can panic only through the two-argument assertion of the sum constructor; they never do for expressions of the affine grammar, but can otherwise (d/dx of 5x + x*y - 5x aborts, since the path sum cancels its constants). With respect to a node that is not a variable they panic with 'variable expected'.", "quantifier": "all expressions and variables", "why_tests_cant": "needs a particular cancellation order", "anchors": ["src/model/node_diff.rs: derivatives", "src/model/function/add.rs: FunctionAdd::new"]}
{"id": "C16", "title": "derivatives agrees with derivative", "statement": "derivatives(vars) returns one entry per distinct variable requested, and no other, and the entry of v evaluates like derivative(v), whatever other variables are requested, in whatever order, with repetitions.", "quantifier": "all expressions, all slices of variables, all hash iteration orders", "why_tests_cant": "independent of hash order and duplicates", "anchors": ["src/model/node_diff.rs: derivative, derivatives"]}
{"id": "C17", "title": "Path enumeration terminates and is complete", "statement": "all_simple_paths(vars) terminates and returns, for each requested variable, every root-to-variable path of the expression (one per occurrence), each exactly once, and nothing else.", "quantifier": "all expressions and variable sets", "why_tests_cant": "termination and completeness for unbounded graphs", "anchors": ["src/model/node_diff.rs: all_simple_paths"]}
{"id": "C18", "title": "Gradient components", "statement": "std_components().gphi lists each variable of the expression exactly once, with an expression evaluating to the partial derivative, in both the affine and the nonlinear case and for every hash iteration order.", "quantifier": "all operator-built expressions without self-quotients, all points, all hash orders", "why_tests_cant": "calculus over all expressions, hash-order independence", "anchors": ["src/model/node_std.rs: NodeStd::std_components"]}
{"id": "C19", "title": "Hessian components", "statement": "std_components().hphi holds, for each unordered pair of variables at most one entry, evaluating to the mixed second partial derivative; every pair not listed has second partial identically zero where the expression is defined.", "quantifier": "all operator-built expressions without self-quotients, all points, all hash orders", "why_tests_cant": "second-order calculus over all expressions", "anchors": ["src/model/node_std.rs: NodeStd::std_components"]}
{"id": "C20", "title": "Constraint violation", "statement": "When both sides evaluate to finite values, violation() is nonnegative, is zero exactly when the relation (==, <=, >=) holds, and otherwise is the distance |lhs-rhs|. When a side is undefined (a variable missing from the map), == yields NaN but <= and >= yield 0, i.e. look satisfied.", "quantifier": "all constraints and maps of values", "why_tests_cant": "all values including missing ones", "anchors": ["src/model/constraint.rs: Constraint::violation"]}
{"id": "C21", "title": "Standard form of one constraint is equivalent", "statement": "For every constraint between operator-built expressions, a valuation of the variables satisfies the constraint iff some value of the added slack variable (if any) satisfies the standard components (linear row = rhs, or nonlinear function = 0, and the bounds) produced by std_components; <= and >= are never exchanged and right-hand sides keep their sign.", "quantifier": "all constraints, all valuations", "why_tests_cant": "semantic equivalence over all valuations and classification branches", "anchors": ["src/model/constraint_std.rs: ConstraintStd::std_components"]}
{"id": "C22", "title": "When standardising a constraint panics", "statement": "Constraint::std_components on a constraint between operator-built expressions panics exactly when computing lhs - rhs trips the assertion of the sum constructor, or lhs - rhs is not affine and its derivatives do; no other panic (unexpected kind, missing variable) is possible, and an affine difference never panics. In particular `(x + 5.).leq(5.)` aborts, and so do std_problem and solve on a model containing it.", "quantifier": "all constraints", "why_tests_cant": "needs a particular cancellation", "anchors": ["src/model/constraint_std.rs: std_components", "src/model/function/add.rs: FunctionAdd::new"]}
{"id": "C23", "title": "Row bookkeeping", "statement": "Over any list of constraints, the linear (resp. nonlinear) rows are numbered consecutively from 0, row k of A/b (resp. f/J/H) comes from the constraint that aindex2constr (resp. jindex2constr) maps k to, and every constraint contributes to exactly one of: a variable bound, a linear row, a nonlinear row.", "quantifier": "all lists of constraints", "why_tests_cant": "accumulating counters over unbounded lists", "anchors": ["src/model/constraint_std.rs: AddAssign, std_components", "src/model/model_std.rs: ModelStd::std_components"]}
{"id": "C24", "title": "Variable indexing", "statement": "var2index of std_problem is a bijection between the variables of the model (objective, constraints and slacks) and 0..n-1, ordered by name; distinct variables with equal names get distinct indices; the result is independent of hash order when names are distinct.", "quantifier": "all models, all hash orders", "why_tests_cant": "hash-order nondeterminism", "anchors": ["src/model/model_std.rs: ModelStd::std_problem"]}
{"id": "C25", "title": "Tightest bound wins", "statement": "u[i] (resp. l[i]) of the standard problem is the minimum (resp. maximum) of 1e8 (resp. -1e8) and all bounds the constraints put on variable i, and uindex2constr/lindex2constr name a constraint attaining it, the last added one among ties, and name none when every bound is weaker than the default.", "quantifier": "all lists of bound constraints", "why_tests_cant": "order and ties over unbounded lists", "anchors": ["src/model/model_std.rs: std_problem (Bounds)"]}
{"id": "C26", "title": "Standard problem has the model's feasible set", "statement": "The restriction to the model's variables of a feasible point of the standard problem satisfies every constraint of the model; conversely a valuation satisfying them extends to a feasible point if its values and the slack values lie within +-1e8. Every feasible point lies in that box, so the converse fails without it: x >= 2e8 is satisfiable but its standard problem is not.", "quantifier": "all models, all valuations", "why_tests_cant": "global equivalence over all models", "anchors": ["src/model/model_std.rs: std_problem, INF"]}
{"id": "C27", "title": "Objective of the standard problem", "statement": "For minimize(f) the standard objective equals f up to an additive constant (exactly, for nonlinear problems); for maximize(f) it equals -f likewise; for an empty objective it is 0. Hence minimisers of the standard problem are minimisers/maximisers of the model.", "quantifier": "all models, all points", "why_tests_cant": "sign and constant handling for all expressions", "anchors": ["src/model/model_std.rs: std_components, std_problem (c_data, eval_fn)"]}
{"id": "C28", "title": "Problem class", "statement": "std_problem returns Lp iff objective and constraints are affine and no variable is integer, Milp iff affine with some integer variable, Nlp iff something is non-affine and no variable is integer, Minlp otherwise; the integrality mask marks exactly the integer variables.", "quantifier": "all models", "why_tests_cant": "all combinations", "anchors": ["src/model/model_std.rs: std_problem (Integer restrictions, Problem)"]}
{"id": "C29", "title": "std_problem is well-formed and does not panic by itself", "statement": "Whenever the model's components can be computed, std_problem returns a problem: no unwrap of a missing variable and none of the dimension assertions of the problem constructors can fail, all row/column indices are within the declared shapes.", "quantifier": "all models, all hash orders", "why_tests_cant": "absence of aborts on all inputs", "anchors": ["src/model/model_std.rs: std_problem", "src/problem/minlp.rs: ProblemMinlp::new"]}
{"id": "C30", "title": "Problem evaluation", "statement": "After evaluate(x) on the (MI)NLP built from a model, phi, gphi, hphi, f, J and every H hold the values of the objective, its gradient, Hessian, the constraint functions, their Jacobian and Hessians at x, independently of any previous evaluate/combine_h calls.", "quantifier": "all models, all points, all call histories", "why_tests_cant": "histories and points are unbounded", "anchors": ["src/model/model_std.rs: std_problem (eval_fn)", "src/problem/minlp.rs: evaluate"]}
{"id": "C31", "title": "Hessians are lower triangular without duplicates", "statement": "Every Hessian matrix of the standard problem has row >= column in each entry and no (row, column) twice.", "quantifier": "all models, all hash orders", "why_tests_cant": "hash order decides the orientation of pairs", "anchors": ["src/model/model_std.rs: std_problem (hphi, h)"]}
{"id": "C32", "title": "Initial point", "statement": "x0 of the standard problem holds at the index of each variable its value from set_init_primals, 0 for the others (slacks included); values given for variables not in the model are ignored; a later set_init_primals replaces all earlier values.", "quantifier": "all models and histories of set_init_primals", "why_tests_cant": "histories", "anchors": ["src/model/model.rs: set_init_primals", "src/model/model_std.rs: std_problem (Initial values)"]}
{"id": "C33", "title": "Primal results", "statement": "After a successful solve, final_primals has exactly one entry per variable of the standard problem, equal to the solver's x at that variable's index.", "quantifier": "all models, solvers and solutions", "why_tests_cant": "any solver answer", "anchors": ["src/model/model.rs: Model::solve"]}
{"id": "C34", "title": "Dual results", "statement": "After a successful solve of a model whose constraints were each added once, final_duals maps an equality constraint to the multiplier of its row, an inequality that became a row to the multiplier of its slack's bound (mu for <=, pi for >=), and a bound constraint to the multiplier of its variable's bound if it is the one (the last one, in case of ties) that sets that bound, otherwise it has no entry; every equality and every non-bound inequality has an entry; no other key appears.", "quantifier": "all models (constraints added once), solvers and solutions", "why_tests_cant": "any solver answer, any hash order", "anchors": ["src/model/model.rs: Model::solve"]}
{"id": "C35", "title": "Solve is all-or-nothing and history independent", "statement": "solve discards the previous results first; if the solver returns an error, status, primals and duals are empty and objective, constraints and initial values unchanged; otherwise the results depend only on the current model and solver, not on earlier solves.", "quantifier": "all API call histories, all solver behaviours", "why_tests_cant": "histories", "anchors": ["src/model/model.rs: Model::solve, add_constraint, set_objective"]}
{"id": "C36", "title": "Optimality transfers to the model", "statement": "If the solver returns an optimal point of the standard problem, final_primals satisfies every constraint of the model and no other valuation (within the +-1e8 box) satisfying them has a better objective, in the sense chosen (minimise/maximise).", "quantifier": "all models, all optimal solver answers", "why_tests_cant": "end-to-end semantic claim over all models", "anchors": ["src/model/model.rs: Model::solve", "src/model/model_std.rs: std_problem"]}
{"id": "C37", "title": "COO to CSR conversion", "statement": "to_csr keeps every (row, column, value) entry, groups them by row and keeps the original order within each row; row pointers start at 0, are nondecreasing and end at nnz; it panics iff some row index is out of range.", "quantifier": "all coordinate matrices (duplicates, empty rows, any order)", "why_tests_cant": "unbounded matrices", "anchors": ["src/matrix/coo.rs: CooMat::to_csr"]}
{"id": "C38", "title": "sum_duplicates", "statement": "sum_duplicates leaves one entry per (row, column) present, in first-occurrence order, whose value is the left-to-right sum of the duplicates; the represented matrix is unchanged, and it panics iff a column index is out of range; applying it twice equals applying it once.", "quantifier": "all CSR matrices", "why_tests_cant": "unbounded matrices, stale column markers between rows", "anchors": ["src/matrix/csr.rs: CsrMat::sum_duplicates"]}
{"id": "C39", "title": "COO matrix-vector product", "statement": "&A * x returns for each row the sum over that row's entries of value*x[col] (duplicates adding up); it panics iff the length differs or an index is out of range.", "quantifier": "all matrices and vectors", "why_tests_cant": "unbounded", "anchors": ["src/matrix/coo.rs: Mul<Vec<T>> for &CooMat<T>"]}
{"id": "C40", "title": "COO iteration", "statement": "iter() yields each stored entry exactly once in storage order and then None.", "quantifier": "all matrices", "why_tests_cant": "unbounded", "anchors": ["src/matrix/coo.rs: CooMatIter::next"]}
{"id": "C41", "title": "Hessian combination", "statement": "combine_h(nu) makes hcomb represent sum_i nu[i]*H_i (entry by entry, structure fixed at construction), after any history of evaluate/combine_h calls, and panics iff the length of nu is wrong.", "quantifier": "all problems, multipliers and histories", "why_tests_cant": "histories", "anchors": ["src/problem/minlp.rs: ProblemMinlp::new, combine_h"]}
{"id": "C42", "title": "Linear problem views agree", "statement": "The Milp, Minlp and Nlp views of an Lp (and the Minlp view of a Milp) have the same A, b, l, u, x0, c and after evaluate(x) report phi = c^T x and gphi = c.", "quantifier": "all linear problems, all points", "why_tests_cant": "all problems", "anchors": ["src/problem/lp.rs: ProblemLp", "src/problem/milp.rs: ProblemMilp"]}
{"id": "C43", "title": "LP file describes the problem", "statement": "For a Milp with finite data, consistent sizes and in-range indices in which every row has a coefficient that is not zero after summing duplicates, write_to_lp_file returns a text that, read back as an LP file, has exactly the nonzero objective coefficients, for every row exactly the nonzero summed coefficients and the right-hand side, the bounds of every variable and the integer variables, with numbers as rendered by {:.10e}; for data that {:.10e} renders exactly the objective, the rows and the bounds have the same meaning as the problem's. A row without nonzero coefficient gives a text that is not an LP file.", "quantifier": "all Milps", "why_tests_cant": "text layout for all problems", "anchors": ["src/problem/milp.rs: write_to_lp_file"]}
{"id": "C44", "title": "LP file number precision", "statement": "A finite nonzero float written with {:.10e} denotes a decimal within relative error 5e-11 of it, with the same sign; exactly itself if it has at most 11 significant decimal digits; the rendering is monotone. Parsed back as f64 it is within 1e-10 relative (except next to the largest float: f64::MAX reads back as infinity), and normal floats obtained from texts of at most 11 digits read back unchanged.", "quantifier": "all finite nonzero floats", "why_tests_cant": "all 2^64 floats", "anchors": ["src/problem/milp.rs: write_to_lp_file"]}
{"id": "C45", "title": "Solution file reading", "statement": "read_sol_file on a file listing columns x_i and rows c_k in any order returns x[i]=value, reduced cost split by sign into pi (positive) and mu (negated), lam[k]=row multiplier, zeros for items not listed; status follows the first word; any non-optimal status gives an all-zero solution; a missing file gives Error status, and malformed lines an error, never partial data.", "quantifier": "all solution files", "why_tests_cant": "text inputs are unbounded", "anchors": ["src/solver/cbc_cmd.rs: SolverCbcCmd::read_sol_file"]}
{"id": "C46", "title": "When reading a solution file panics", "statement": "read_sol_file panics exactly when the file announces an optimal solution and the first line that is not a well-formed entry with index in range is a well-formed entry whose index is out of range; on every other content (missing, not UTF-8, malformed, truncated) it returns.", "quantifier": "all files", "why_tests_cant": "all inputs", "anchors": ["src/solver/cbc_cmd.rs: read_sol_file"]}
{"id": "C47", "title": "Solver parameters are type-safe", "statement": "After any sequence of set_param calls every parameter keeps its type and the set of parameter names is unchanged; a call with an unknown name or other type fails and changes nothing; a successful call changes exactly that parameter; hence solve never fails for a missing or mistyped parameter.", "quantifier": "all sequences of set_param", "why_tests_cant": "histories", "anchors": ["src/solver/base.rs: Solver::set_param", "src/solver/cbc_cmd.rs, src/solver/clp_cmd.rs, src/solver/ipopt.rs: new, solve"]}
{"id": "C48", "title": "Command-line solvers leave no files behind and accept only their problem classes", "statement": "Solve of Clp/Cbc on an unsupported problem class returns an error without touching the file system; otherwise, with parameters set only through set_param, whatever the external command does to its two files and however it exits, when solve returns the input and output files are gone and no other file has changed, and the result is that of reading the output file. (If the logLevel parameter is removed through get_params_mut the input file stays; if reading the solution panics the output file stays.)", "quantifier": "all problems, all external command behaviours, all failure points", "why_tests_cant": "failure points of file system and process", "anchors": ["src/solver/cbc_cmd.rs: solve", "src/solver/clp_cmd.rs: solve"]}
{"id": "C49", "title": "Ipopt callbacks return values at the current point", "statement": "For every sequence of callback invocations in which a callback is told new_x whenever x differs from the previous call, eval_f/eval_grad_f/eval_g/eval_jac_g return phi, gphi, (Ax-b, f) and the values of (A, J) at the passed x, and no call writes out of bounds. The (row, column) positions reported for the Jacobian are those of A followed by those of J without the offset of A's rows, hence right exactly when the problem has no linear equality rows or J has no entries. Problems built from models satisfy what this needs.", "quantifier": "all callback sequences honouring the new_x contract", "why_tests_cant": "protocol histories", "anchors": ["src/solver/ipopt.rs: eval_f_cb, eval_grad_f_cb, eval_g_cb, eval_jac_g_cb"]}
{"id": "C50", "title": "Ipopt Hessian callback returns the Lagrangian Hessian at the current point", "statement": "For every such sequence eval_h reports the positions of the lower triangle of the objective's Hessian and of the combined constraint Hessian, and, when told new_lambda, returns obj_factor*Hphi(x) + sum lambda_i*H_i(x) for the current x, lambda and factor. When told new_x but not new_lambda the constraint part is that of the last combination (stale x or lambda), and when told neither it leaves the array unwritten although it reports success.", "quantifier": "all callback sequences honouring the new_x/new_lambda contract", "why_tests_cant": "protocol histories", "anchors": ["src/solver/ipopt.rs: eval_h_cb"]}
{"id": "C51", "title": "Ipopt solution mapping", "statement": "Solve maps Ipopt's result arrays to the solution: x, lam = minus the first na constraint multipliers, nu = minus the rest, pi/mu = lower/upper bound multipliers, status Solved/Infeasible/Error according to the return code, whatever callbacks the library makes; it fails exactly for unsupported classes, refused creation or options or missing parameters, and then (after creation) leaks the library's problem object.", "quantifier": "all problems and Ipopt answers", "why_tests_cant": "all answers", "anchors": ["src/solver/ipopt.rs: solve"]}
{"id": "C52", "title": "Displayed text denotes the expression", "statement": "The text printed for an operator-built expression whose names and numerals are words that read back, read with the usual precedence and left associativity of + * /, has the same value as the expression in exact arithmetic (not always in floating point: x*(y*z) prints as x*y*z); a constraint prints as left side, relation, right side, and a model as one line for the sense, one for the objective and one per constraint with its label; the four solver statuses print as solved, infeasible, unknown and error.", "quantifier": "all operator-built expressions, all points", "why_tests_cant": "parenthesisation over all nestings", "anchors": ["src/model/function/add.rs, src/model/function/mul.rs, src/model/function/div.rs, src/model/function/sin.rs, src/model/function/cos.rs, src/model/node.rs: Display"]}
{"id": "C53", "title": "Hash order is unobservable in the standard problem's meaning", "statement": "Two runs of std_problem on the same model under different hash iteration orders, when both return, give the same problem up to a renumbering of the variables that keeps names: same class, l, u, x0, integrality mask, c, A entries, b, constraint maps, same constraint values, same feasible points, objective values and optimal points, and (no self-quotients, where the functions are defined) the same gradient, Jacobian and Hessians; with distinct names the renumbering is the identity. For a linear model the order does not decide whether std_problem panics; for a nonlinear one it can.", "quantifier": "all models, all pairs of hash orders", "why_tests_cant": "hash seeds are random per process", "anchors": ["src/model/model_std.rs: std_problem", "src/model/node_std.rs: std_components"]}
{"id": "C54", "title": "Lagrange multipliers carry over between model and standard problem", "statement": "If the solver's answer satisfies the first-order (KKT) conditions of the standard problem and every value lies strictly inside the +-1e8 default bounds, then final_primals and final_duals satisfy the first-order conditions of the model: stationarity of the Lagrangian, signs, complementary slackness. Conversely a point of the model with multipliers satisfying these conditions (within the box) comes from a KKT point of the standard problem.", "quantifier": "all models whose constraints were each added once, all solver answers", "why_tests_cant": "sign conventions over all constraint kinds, senses and combinations", "anchors": ["src/model/model.rs: solve, final_duals", "src/model/model_std.rs: std_problem"]}
{"id": "C55", "title": "A linear optimum inside the default bounds is a global optimum of the model", "statement": "For an affine model without integer variables, if the solver returns an optimal point (or just a KKT point) of the standard problem and every value lies strictly inside +-1e8, then the recorded values are feasible for the model and no valuation satisfying the constraints, inside or outside the box, has a better objective value.", "quantifier": "all affine continuous models, all solver answers", "why_tests_cant": "quantifies over all feasible points", "anchors": ["src/model/model.rs: solve", "src/model/model_std.rs: std_problem"]}
{"id": "C56", "title": "Ipopt callbacks refuse ill-formed calls", "statement": "A callback reports success exactly when the sizes it is passed are those of the problem and every pointer it needs is there; when it refuses a call it has written none of the memory passed to it, and it never faults on such a call.", "quantifier": "all callback calls (any integers, null or valid pointers), after any history", "why_tests_cant": "all argument combinations and histories", "anchors": ["src/solver/ipopt.rs: eval_f_cb, eval_grad_f_cb, eval_g_cb, eval_jac_g_cb, eval_h_cb"]}
{"id": "C57", "title": "A model solved with Clp or Cbc records what the solution file says", "statement": "When Model::solve with Clp or Cbc returns Ok, the command was run on a file with the text of the model's standard problem, and the value recorded for every variable is the one the command's output lists for the column numbered with the variable's index (0 if none), the multiplier of every constraint the one listed for its row or bound, the status the one announced. The call unwinds exactly when the model has no standard problem, or the output lists a row or column the problem does not have. The file written need not be an LP file: the model x - x == 0 gives one that is not.", "quantifier": "all models, all behaviours of the external command, all outputs", "why_tests_cant": "end to end over all models and outputs", "anchors": ["src/model/model.rs: solve", "src/solver/clp_cmd.rs: solve, read_sol_file", "src/solver/cbc_cmd.rs: solve, read_sol_file", "src/problem/milp.rs: write_to_lp_file"]}
{"id": "C58", "title": "A model solved with Ipopt: what the library is told and what is recorded", "statement": "While Model::solve runs Ipopt on a model, the reply to every request is, in terms of the model: the value and gradient of the objective (up to a constant for linear models), the values of the constraint functions (left minus right side, minus slack; one per constraint that is not a variable bound), their gradients as Jacobian values at the positions of that constraint's row, and, with new multipliers, the Hessian of factor * objective + sum lambda_k * function_k. When the call returns Ok the value recorded for every variable is the entry of the library's array with the variable's index, the starting point was the initial values, the multipliers are those of the constraint's row or bound, and the status follows from the code. A library that keeps its contract always gets an answer and solve returns. The sizes announced are bounded by the numbers of variables and constraints. The row numbers announced for the Jacobian are wrong for a model with linear rows and nonlinear functions.", "quantifier": "all models (derivatives: built without self-quotients), all libraries, all request sequences", "why_tests_cant": "end to end over all models and callers", "anchors": ["src/model/model.rs: solve", "src/solver/ipopt.rs: solve, callbacks", "src/model/model_std.rs: std_problem"]}
{"id": "C59", "title": "Texts mean what their grammar says", "statement": "A line is the words between blanks (space, tab, line feed, form feed, carriage return); a name is the pieces between underscores; a text is the lines between line feeds; bytes are a string exactly when they are the UTF-8 encoding of some sequence of Unicode scalar values; a text is read as an index exactly when it is an optional plus and decimal digits of a number below 2^64; a text is read as an f64 exactly when it is a signed decimal numeral with at least one digit and an optional exponent, and then the result is the binary64 number nearest to its real value (ties to even, infinity beyond the range, sign kept on zero), or a spelling of inf, infinity or nan in any case.  Numbers in problem files are written in scientific notation with the eleven digits nearest to the number, ties to even.  Consequently a solution file is accepted, refused or makes the reader panic exactly according to a grammar stated without reference to the reader.", "quantifier": "all texts (byte strings), all floats", "why_tests_cant": "both directions of each equivalence range over all byte strings of all lengths; nearest among infinitely many numerals is a statement about real numbers", "anchors": ["src/solver/cbc_cmd.rs: SolverCbcCmd::read_sol_file", "src/problem/milp.rs: ProblemMilp::write_to_lp_file"]}
{"id": "C60", "title": "Integer expressions are computed exactly in f64", "statement": "For an expression built with + - * and negation from variables and integer constants, such that the largest value it can get (sizes added under sums and differences, multiplied under products, with a bound V on the variables) never exceeds 2^53, evaluate on integer values bounded by V returns exactly the integer that the arithmetic expression denotes: no rounding anywhere, whatever merging, folding and reordering the constructors did. The violation of a comparison of two of them is exactly max(0, difference) or the absolute difference. The bound is sharp: at 2^53 + 1 the result is wrong.", "quantifier": "all programs of such calls, all integer points", "why_tests_cant": "all expressions and points; rounding errors appear only at large values", "anchors": ["src/model/node.rs: operators", "src/model/node_base.rs: evaluate", "src/model/constraint.rs: violation"]}
{"id": "C61", "title": "Integer linear models are standardised and solved exactly in f64", "statement": "For every history of calls building affine expressions on integers of sizes within 2^53, comparisons and models, in f64: reading every constant as a real number gives a history of the exact model; std_problem returns (or panics) exactly when it does in exact arithmetic, with the same class, c, A, b, l, u, mask, x0, index and constraint maps, and all these numbers integers without rounding; solve leaves the same model; and if the solver's point is an optimum of the data handed to it, the recorded values satisfy every constraint of the model exactly and no valuation within +-1e8 (none at all, if the values lie strictly within it and there are no integer variables) has a better objective value.", "quantifier": "all integer linear models, all solver answers, all hash orders that do not look at numbers", "why_tests_cant": "all models; floating point rounding depends on the data", "anchors": ["src/model/model.rs: solve", "src/model/model_std.rs: std_problem", "src/model/constraint_std.rs: std_components"]}
{"id": "C62", "title": "Where the constraint matrices have entries", "statement": "In the problem built by std_problem no (row, column) position is stored twice, neither in A nor in the Jacobian J. The row of a constraint has an entry in the column of a variable of the model exactly when the variable occurs in the constraint, on either side (even if its coefficient cancels to zero). It has an entry in the column of a slack exactly when the constraint is an inequality; then there is one such entry, and no two rows (of A or J) share a slack.", "quantifier": "all models with constraints built by the operators, every arithmetic with -1 <> 0, all hash orders", "why_tests_cant": "all models; the positions depend on iteration order and on cancellation", "anchors": ["src/model/model_std.rs: std_problem", "src/model/constraint_std.rs: std_components"]}
{"id": "C63", "title": "Integer linear models solved through the LP file are solved exactly", "statement": "For every linear or mixed-integer model built from integers of at most eleven digits, none of whose equalities has sides differing by a constant: the text handed to Clp or Cbc is a legal LP file whose variables are the model's, whose feasible points are exactly the feasible points of the model within +-1e8, and whose objective is the model's up to a constant. If the external program is correct (a file it calls optimal lists an optimum of the LP file it was given, a file it calls infeasible means that the LP file has no feasible point), then after Model::solve with status Solved the recorded values satisfy every constraint of the model exactly and no point within +-1e8 has a better objective (no point at all, if there are no integer variables and the values lie strictly within it), and status Infeasible means that the model has no point within +-1e8.", "quantifier": "all such models, all correct external programs, all hash orders that do not look at numbers", "why_tests_cant": "end to end over all models, files and programs: rounding in text, in arithmetic and in the solution file", "anchors": ["src/model/model.rs: solve", "src/model/model_std.rs: std_problem", "src/solver/clp_cmd.rs: solve, read_sol_file", "src/solver/cbc_cmd.rs: solve, read_sol_file", "src/problem/milp.rs: write_to_lp_file"]}
{"id": "C64", "title": "Calls of the command-line solvers side by side, or stopped at any point", "statement": "Any number of solve calls of Clp and Cbc share a working directory, their file operations (creating and writing the problem in pieces of any size, every operation of the external commands, removing, reading) interleaved in any order, any of them stopped for ever at any point. If the temporary names of different calls differ and each command uses only the files it is given (and reads files nobody changes), then every call that returns returns exactly what it returns alone, leaves none of its files, and at every moment every file other than the calls' own is as it was; what earlier stopped calls left behind does not change a later result. If two calls get the same name (nothing prevents it: the temporary file that reserves the name is deleted before the name is used), a call can return the other's solution as its own.", "quantifier": "all numbers of calls, problems, commands, schedules and crash points", "why_tests_cant": "all interleavings and crash points", "anchors": ["src/solver/clp_cmd.rs: solve", "src/solver/cbc_cmd.rs: solve", "src/problem/milp.rs: write_to_lp_file"]}
{"id": "C65", "title": "Violations in f64", "statement": "Whatever f64 values the two sides of an inequality have (finite or infinite, but not NaN), violation() is not NaN and not negative, it is zero exactly when the inequality holds on the extended real line, and otherwise, for finite sides, it is the f64 nearest to the difference (infinite if that overflows): rounding and underflow never turn a violated constraint into a satisfied one or conversely. The same holds for equalities with finite sides; for an equality with an infinite side it is NaN if the sides are the same infinity and infinite otherwise. If a side is NaN an equality gives NaN, an inequality 0.", "quantifier": "all constraints, all maps of values, all values of the sides", "why_tests_cant": "all pairs of f64 values, underflow and overflow included", "anchors": ["src/model/constraint.rs: violation"]}
{"id": "C66", "title": "Rounding error of expressions in f64", "statement": "For every expression built with + - * negation and division by scalars from variables and finite constants, and every map of values: if evaluate returns a finite number it differs from the exact value by at most ((1+2^-53)^k - 1)*M, at most k*2^-52*M for k up to 2^52, where k counts the operations of the program and M is the value obtained by replacing all numbers by their absolute values and subtractions by additions (products and quotients adding multiples of 2^-1022 for underflow), whatever merging, folding, distribution and dropping of zero terms the constructors did. Likewise for the violation of a comparison of two such expressions.", "quantifier": "all programs of such calls, all maps of values", "why_tests_cant": "all expressions and points; errors depend on the data", "anchors": ["src/model/node.rs: operators", "src/model/node_base.rs: evaluate", "src/model/constraint.rs: violation"]}
{"id": "C67", "title": "Constraints, bounds and multipliers in f64", "statement": "For f64 values as for any others, whatever they are (infinite and NaN included): in a standard problem every constraint has exactly one place - a nonlinear function if a side is not affine, otherwise a linear row, or, for an inequality in a single variable, a bound of that variable; rows and functions are numbered 0, 1, 2, ... in the order of the constraints; a row has an entry exactly for each variable of its constraint and for its slack; inequalities with a row or function have their own new slack, bounded by zero on the right side. The bound of every variable is the tightest of those contributed and +-1e8, NaN ones being ignored, with the last constraint attaining it held responsible. After a successful solve every constraint has the multiplier of its row, function, slack bound or variable bound, also through the files of Clp and Cbc and the arrays of Ipopt.", "quantifier": "all models, all f64 data, all solvers", "why_tests_cant": "all data including infinities and NaN; hash orders", "anchors": ["src/model/model_std.rs: std_problem, std_components", "src/model/constraint_std.rs: std_components", "src/model/model.rs: solve"]}
{"id": "C68", "title": "Rounding of the data of linear models in f64", "statement": "For every history of calls building affine expressions from variables and finite f64 constants (sums, differences, negation, products with constants, quotients by scalars), comparisons and models: the standard problem is linear, and every coefficient handed to the solver - matrix entries, right-hand sides, bounds and objective coefficients - that is finite differs from the exact coefficient of the model (of lhs - rhs, with the exact values of the constants) by at most ((1+2^-53)^k - 1)*M, k counting the operations of the program that made the expressions and M being the coefficient computed with absolute values; coefficients without an entry are within that bound of zero; a constraint becomes a bound of a variable only if the exact coefficient of that variable is within its bound of one and all others are within theirs of zero; slack entries are exactly -1 and objective coefficients of slacks exactly 0.", "quantifier": "all such histories, all models in them, all hash orders", "why_tests_cant": "all models; rounding depends on the data and on what the constructors merged, folded and distributed", "anchors": ["src/model/model_std.rs: std_problem, std_components", "src/model/constraint_std.rs: std_components", "src/model/node_std.rs: std_properties", "src/model/node.rs: operators"]}
{"id": "C69", "title": "Approximate solutions", "statement": "In exact arithmetic, for every tolerance eps >= 0: a point that misses the equations, functions, bounds and integrality requirements of the standard problem by at most eps each gives values of the model's variables that miss every equality by at most eps and every inequality by at most 2 eps, with integer variables within eps of integers; that amount is exactly what violation() reports. If moreover its objective exceeds that of no feasible point by more than delta, the objective of the model exceeds that of no valuation within +-1e8 satisfying the model by more than delta. Conversely values missing the constraints by at most eps (within +-(1e8+eps)) extend to a point feasible up to eps. So what solve records from a solver with these tolerances satisfies and optimises the model up to them.", "quantifier": "all models, all tolerances, all solvers within them", "why_tests_cant": "all models and all real points near the feasible set", "anchors": ["src/model/model.rs: solve", "src/model/model_std.rs: std_problem", "src/model/constraint_std.rs: std_components", "src/model/constraint.rs: violation"]}
{"id": "C70", "title": "Approximate solutions of rounded linear models", "statement": "With binary64 arithmetic, for a model of a history of linear-model calls whose data and bounds handed to the solver are finite: real numbers that satisfy the handed data (rows, bounds, integrality) up to eps give numbers of the variables which satisfy every equality of the exact model (the real coefficients the program text denotes) up to eps, and every inequality up to 2 eps, plus an explicit rounding term ((1+2^-53)^ops - 1 times the magnitudes). Conversely numbers within +-1e8 that satisfy the exact model up to eps extend to numbers that satisfy the data up to eps plus that term. The objective handed to the solver, plus the constant that is left out, differs from the exact one by at most such a term. So what solve records from a solver with tolerances eps and delta satisfies the exact model, and is optimal for it, up to tolerances and rounding.", "quantifier": "all such histories, models, hash orders, tolerances and solvers meeting them", "why_tests_cant": "all models and all points; what rounding does depends on data and on how expressions were built", "anchors": ["src/model/model.rs: solve", "src/model/model_std.rs: std_problem, std_components", "src/model/constraint_std.rs: std_components", "src/model/node_std.rs: std_properties", "src/model/node.rs: operators"]}
{"id": "C71", "title": "Derivatives of integer polynomials are exact in f64", "statement": "For every expression built from variables and integer constants with + - * and negation: if 1 + size*degree stays within 2^53 (size: the value obtained from the bound V on the variables and the absolute values of the constants by replacing subtractions by additions; degree: the number of factors that may be multiplied), then whatever derivative(v) returns evaluates in f64, at every point of integers within +-V, to exactly the partial derivative of the polynomial, and so do the entries of the gradient that std_components lists, one for each variable that occurs and no other. With the corresponding bound for two steps, derivatives of derivatives and the listed entries of the Hessian evaluate to exactly the second derivatives, in either order of their two variables, and a pair of variables without an entry has second derivative zero everywhere.", "quantifier": "all such expressions, variables, integer points and hash orders", "why_tests_cant": "all expressions and points: whether rounding occurs depends on how the derivative is assembled from the paths of the expression", "anchors": ["src/model/node_diff.rs: derivative, derivatives", "src/model/node_std.rs: std_components", "src/model/node.rs: operators", "src/model/node_base.rs: evaluate"]}
{"id": "C72", "title": "Problems of integer polynomials are evaluated exactly in f64", "statement": "For every history of model calls whose expressions are built from variables and integer constants with + - * and negation (sizes, in the sense of C71, within 2^53; scalars compared with are integers), every model of it whose standard problem is of class Nlp or Minlp, every state of that problem that evaluations can leave, and every point x of integers within +-V for all its variables, slacks included: evaluate(x) returns, and then the objective value, its gradient and the lower triangle of its Hessian, and for each nonlinear constraint the function value (lhs - rhs, minus the slack of an inequality), its Jacobian row and its Hessian, are exactly the values and derivatives of those polynomials at x, as far as the bounds on size times degree stay within 2^53; a position at which no entry is stored has derivative zero.", "quantifier": "all such histories, models, hash orders, problem states and integer points", "why_tests_cant": "all histories and points: whether any rounding occurs depends on how every derivative was assembled and stored", "anchors": ["src/model/model_std.rs: std_problem", "src/model/constraint_std.rs: std_components", "src/model/node_std.rs: std_components", "src/model/node_diff.rs: derivatives", "src/problem/minlp.rs: evaluate", "src/problem/nlp.rs: evaluate", "src/model/node.rs: operators"]}
{"id": "C73", "title": "Problems constructed directly", "statement": "ProblemMinlp::new and ProblemNlp::new, given Hessians made by the matrix constructors, return exactly when all sizes agree (a has nx columns and as many rows as b has entries; hphi and every Hessian are nx by nx; j has nx columns and one row for each Hessian; l, u and p have nx entries), and panic otherwise; ProblemLp::new exactly when c, l, u have nx and b has na entries; ProblemMilp::new likewise, but without looking at the length of c. A new problem holds what it was given, zeros, and a combined Hessian whose positions are those of the Hessians one after the other. evaluate(x) keeps what the evaluation function returns for the current arrays and x and changes nothing else; and after any history of evaluate and combine_h calls the linear part, bounds, flags, initial point and the positions of the combined Hessian are unchanged, and, if the evaluation function only writes values, so are all sizes and positions.", "quantifier": "all arguments, evaluation functions and histories of calls", "why_tests_cant": "all sizes and histories", "anchors": ["src/problem/minlp.rs: new, evaluate, combine_h", "src/problem/milp.rs: new", "src/problem/lp.rs: new", "src/problem/nlp.rs: new", "src/problem/base.rs: ProblemSol::new"]}
{"id": "C74", "title": "Evaluating the problem is evaluating the expressions, number for number", "statement": "For every history of model calls with any expressions, every model of it, every hash order and every point x for the variables of its standard problem, in f64 as in any other arithmetic: after evaluate(x) on a problem of class Nlp or Minlp, phi is exactly what evaluating the minimised expression gives with the variables set from x; each entry of its gradient is what evaluating the result of derivative(v) gives (0 for a variable that does not occur; the affine coefficient if the objective is affine); each position of the lower triangle of its Hessian holds what differentiating twice and evaluating gives, and nothing if that result is the constant 0; row i of the nonlinear functions, of their Jacobian and their Hessians likewise for left minus right side of constraint i, minus the slack of an inequality, whose Jacobian entry is -1. Row i of the linear constraints holds exactly the affine coefficients and the negated affine constant of constraint i, and -1 for its slack. For Lp and Milp the gradient is the affine coefficients and phi their product with x summed from left to right. No derivative mentions a variable its expression does not. In f64 maximising f minimises exactly minus the value of f (the sign of a zero aside).", "quantifier": "all histories, models, hash orders, points, problem states; any number type, and f64 for the last sentence", "why_tests_cant": "all expressions and points: equality of rounded results, not closeness, for whatever the simplifications and the path enumeration produce", "anchors": ["src/model/model_std.rs: std_problem", "src/model/constraint_std.rs: std_components", "src/model/node_std.rs: std_components, std_properties", "src/model/node_diff.rs: derivative, derivatives", "src/problem/minlp.rs: evaluate", "src/problem/nlp.rs: evaluate", "src/problem/lp.rs: evaluate", "src/model/node.rs: neg, sub", "src/model/node_base.rs: evaluate"]}
{"id": "C75", "title": "Rounding errors of derivatives, gradients and Jacobians", "statement": "In f64, for every operator-built expression made of finite constants, variables, sums, products and quotients by constants (which all programs of those operators build unless a folded constant overflows) and every point: evaluating it gives the value of the real function it stands for, and evaluating the result of derivative(v) gives the derivative of that function with respect to v, both within ((1+2^-53)^k - 1) * M whenever finite, where k and M are computed from the expression: for the derivative, one term for each occurrence of v, the product of the magnitudes of the factors beside the way down to it, and k counts the operations that may round. After evaluate(x) on a problem of class Nlp or Minlp whose minimised expression, or whose constraint's left minus right side, is such an expression, phi, every entry of the gradient, every value of a nonlinear row and every entry of its Jacobian row is within that bound of the exact value or derivative. (Second derivatives: C81.)", "quantifier": "all expressions of that form, variables, points, hash orders, histories of model calls", "why_tests_cant": "rounding errors of arbitrarily large expressions after arbitrary simplification and path enumeration", "anchors": ["src/model/node_diff.rs: derivative, derivatives, partial", "src/model/node.rs: add, sub, mul, div, neg", "src/model/node_base.rs: evaluate", "src/model/model_std.rs: std_problem", "src/model/constraint_std.rs: std_components", "src/problem/nlp.rs: evaluate"]}
{"id": "C76", "title": "Rounding errors of all expressions and of their first derivatives", "statement": "In f64, for every expression the operators build (sums, products, quotients, negation, sin and cos, simplified in any way) whose constants are finite, with library functions sin and cos that are within 2^-53 of the real ones at finite arguments and not finite elsewhere, at every point where each denominator that is not a constant evaluates to a finite number, stands for a number other than zero and has an error bound of at most half that number: evaluating it gives the value of the real function it stands for within ((1+2^-53)^k - 1) * M whenever finite, k and M being computed from the expression and the point. If the same holds of the squares of those denominators and nothing is divided by itself, evaluating the result of derivative(v) gives the derivative of that function with respect to v within such a bound. After evaluate(x) on a problem of class Nlp or Minlp the same holds of phi, the entries of the gradient, the nonlinear rows and the entries of the Jacobian. (Second derivatives: C81.)", "quantifier": "all expressions, variables, points, hash orders, histories of model calls; all such sin and cos", "why_tests_cant": "rounding errors of arbitrarily large expressions with nested functions and quotients, after arbitrary simplification and path enumeration", "anchors": ["src/model/node_diff.rs: derivative, derivatives, partial", "src/model/node.rs: add, sub, mul, div, neg, sin, cos", "src/model/node_base.rs: evaluate", "src/model/function/sin.rs: partial, evaluate", "src/model/function/cos.rs: partial, evaluate", "src/model/function/div.rs: partial, evaluate", "src/model/model_std.rs: std_problem", "src/model/constraint_std.rs: std_components", "src/problem/nlp.rs: evaluate"]}
{"id": "C77", "title": "Partial derivatives of one operation", "statement": "For every operator-built expression e and node a: if a is an argument of e, partial(a) evaluates, in exact arithmetic and wherever e has a value, to the derivative of the operation of e (sum, product, quotient, sin, cos) as a function of the first of its arguments that is a, the values of all others being fixed (so x by x for x*x, 1 for x+x); if a is neither an argument of e nor, for a variable, e itself, partial(a) is the constant 0; of a variable by itself it is 1. It never panics in exact arithmetic; in any arithmetic it panics exactly when a is the constant denominator c of e, c is not 1 and c*c is zero (x / 1e-200 in f64).", "quantifier": "all operator-built expressions, all nodes, all points, all number types", "why_tests_cant": "all expressions and points; identity of nodes", "anchors": ["src/model/node_base.rs: partial", "src/model/function/add.rs: partial", "src/model/function/mul.rs: partial", "src/model/function/div.rs: partial", "src/model/function/sin.rs: partial", "src/model/function/cos.rs: partial", "src/model/variable.rs: partial", "src/model/constant.rs: partial"]}
{"id": "C78", "title": "Expressions put together without the operators", "statement": "For every expression whatever, also one assembled by FunctionAdd::new, FunctionMul::new, FunctionDiv::new, FunctionSin::new and FunctionCos::new directly (constants not folded, sums nested, zero denominators): the keys of std_properties().a are exactly its variables, each once; if no quotient divides a node by itself and derivative(v) returns, the result evaluates to the derivative wherever the expression has a value; and, if every sine and cosine in it is of something containing a variable, an expression reported affine has the reported coefficients and constant, and std_components().gphi lists each variable once with its partial derivative. Without that condition a wrong affine form is reported silently: x * FunctionCos::new(0) is said to be affine with coefficient 0. derivative by a variable panics only through the sum constructor's assertion or a division by the constant zero, as it does for FunctionDiv::new(x, 0).", "quantifier": "all expressions (trees of nodes in which equal nodes are the same node), variables, points, hash orders", "why_tests_cant": "all expressions, including those the operators never build", "anchors": ["src/model/function/add.rs: FunctionAdd::new", "src/model/function/mul.rs: FunctionMul::new", "src/model/function/div.rs: FunctionDiv::new", "src/model/function/sin.rs: FunctionSin::new, std_properties", "src/model/function/cos.rs: FunctionCos::new, std_properties", "src/model/node_diff.rs: derivative", "src/model/node_std.rs: std_properties, std_components"]}
{"id": "C79", "title": "Residuals the solver sees and violations the user sees", "statement": "With binary64 arithmetic and sines and cosines within 2^-53: whenever the two sides of a constraint and violation(values) are finite, violation(values) is the violation of the real functions the sides stand for, up to an explicit rounding bound. For a nonlinear constraint of a model, the value the solver sees in its row is left minus right side minus the slack, up to such a bound; so the true violation and the reported one are at most the absolute value of that row, plus the amount by which the slack is on the wrong side of zero, plus rounding. After a solve whose answer satisfies the rows up to delta and the bounds up to eps, every nonlinear constraint of the model is violated at the recorded point by at most delta (+ eps for an inequality) plus the rounding terms, and violation() reports no more than that plus its own rounding.", "quantifier": "all histories of model calls, models, constraints, points, hash orders, tolerances, solvers meeting them and accurate machine sines", "why_tests_cant": "all models, expressions and points; the bound composes the rounding of every operation on both paths (violation evaluates the two sides and subtracts, the row evaluates the rewritten difference with its slack)", "anchors": ["src/model/constraint.rs: violation", "src/model/constraint_std.rs: std_components", "src/model/model.rs: solve", "src/model/model_std.rs: std_problem", "src/problem/minlp.rs: evaluate"]}
{"id": "C80", "title": "What Ipopt is told about a model", "statement": "For every model of any history of calls whose problem Ipopt accepts, and every sequence of callbacks that keeps Ipopt's contract: each request is answered with the numbers of the model, entry by entry. The objective is the value of the (sign-adjusted) objective expression (for linear problems, the sum of its coefficients times the point); the gradient its derivatives or coefficients; row i of the constraints is, for the affine constraint of row i, the coefficients of left minus right side (and -1 for its own slack) times the point minus the right-hand side, and for a nonlinear one the value of left minus right side minus its slack; the numbers announced for row i and column j of the Jacobian are exactly one derivative (or coefficient, or -1) if variable j occurs there and none otherwise; with new multipliers, the numbers announced for row i and column j of the Hessian are factor times the second derivative of a nonlinear objective and each multiplier times the second derivative of the nonlinear constraint it belongs to, absent where a variable does not occur. So during solve() a library that keeps the contract never sees any other numbers. In binary64 with sines and cosines within 2^-53, objective, rows, first derivatives and the second derivatives told for the Hessian of nonlinear continuous problems are, up to an explicit rounding bound, the values and derivatives of the real functions.", "quantifier": "all histories of model calls, models, hash orders, request sequences, points, factors, multipliers and number types in which -1 is not 0; binary64 with any accurate sines for the bounds", "why_tests_cant": "the library chooses the requests and the points; the positions and the numbers travel through separate arrays whose agreement no single request shows", "anchors": ["src/solver/ipopt.rs: eval_f_cb, eval_grad_f_cb, eval_g_cb, eval_jac_g_cb, eval_h_cb, solve", "src/problem/nlp.rs: evaluate, combine_h", "src/model/model_std.rs: std_problem", "src/model/constraint_std.rs: std_components", "src/model/node_std.rs: std_components, std_properties"]}
{"id": "C81", "title": "Rounding errors of second derivatives", "statement": "In f64, with library functions sin and cos within 2^-53 of the real ones, for every operator-built expression e with finite constants and variables v, w: if d is what derivative(v) builds from e and its constants are finite, then, at every point at which the denominators of e and of d are safe (as in C76), the real function e stands for has a derivative by v near the point and that has a derivative by w at the point (its second derivative), and evaluating the result of d.derivative(w), if finite, gives that number up to two explicit bounds: one, computed from d, for the rounding of the second derivation and the evaluation, and one, computed from e, for the constants multiplied in f64 when d was built (so d stands for a slightly different function than the derivative of e). After evaluate(x) on a problem of class Nlp or Minlp the same holds of every entry of the Hessian of the minimised expression and of each nonlinear constraint, where nothing stored means zero; and of each number that is scaled and told to Ipopt.", "quantifier": "all expressions, variables, points, hash orders, histories of model calls; all such sin and cos", "why_tests_cant": "rounding errors of arbitrarily large expressions, through two rounds of path enumeration and simplification in which the order of multiplications changes", "anchors": ["src/model/node_diff.rs: derivative, derivatives, partial", "src/model/node.rs: add, sub, mul, div, neg, sin, cos", "src/model/node_base.rs: evaluate", "src/model/node_std.rs: std_components", "src/model/model_std.rs: std_problem", "src/model/constraint_std.rs: std_components", "src/problem/nlp.rs: evaluate", "src/solver/ipopt.rs: eval_h_cb"]}
{"id": "C82", "title": "Coefficients are derivatives; first-order conditions with binary64 numbers", "statement": "In f64, for every operator-built affine expression with finite constants: the coefficient std_properties gives for a variable, if finite, is the partial derivative of the real function the expression stands for, and its constant term the value of that function where all variables are zero, up to explicit rounding bounds. Hence, for every model of any history of calls, every point and all multipliers: evaluate(x) succeeds, and wherever the stored numbers of a column are finite, the component of (objective gradient - A^T lambda - J^T nu + mu - pi) that a solver computes from the numbers of a problem differs from the same expression with the true derivatives of the objective and of left minus right side of the constraints by at most an explicit bound: that of the gradient plus each multiplier's absolute value times that of its row (with sines and cosines within 2^-53 and, for the expressions that are not affine, denominators safe as in C76). So a point that is stationary for the numbers told is stationary for the model up to that bound.", "quantifier": "all expressions, histories of model calls, models, hash orders, points and multipliers; all such sin and cos", "why_tests_cant": "rounding in coefficients that are merged, multiplied and divided along arbitrarily nested sums, and in derivatives, all weighted by arbitrary multipliers", "anchors": ["src/model/node_std.rs: std_properties", "src/model/node_std.rs: std_components", "src/model/constraint_std.rs: std_components", "src/model/model_std.rs: std_problem", "src/problem/nlp.rs: evaluate"]}
{"id": "C83", "title": "The multipliers recorded by a solve satisfy the first-order conditions of the model, with binary64 numbers", "statement": "In f64, for every history of calls, model whose constraints are added once each, and solver: let solve(m) return success, the solver having answered with a point and multipliers for which every component of (objective gradient - A^T lambda - J^T nu + mu - pi), computed from the numbers the problem holds at that point, is finite and at most eps, and for which multipliers of bounds that are the defaults +-1e8 are at most tau. Then, at the point recorded in final_primals, the derivative of the minimised objective by every variable of the model equals the sum over the constraints of the derivative of left minus right side times the recorded dual (negated for <=, zero if none is recorded), up to eps + 2 tau, plus the rounding bound of the gradient, plus for each constraint (|dual| + delta) times the rounding bound of its derivative + delta times the derivative's absolute value, where delta is 0 for equalities (whose multiplier is recorded exactly) and eps + tau for inequalities (whose dual is that of the bound of their slack, or of their variable). With sines and cosines within 2^-53, finite constants, and denominators safe as in C76 in the parts that are not affine.", "quantifier": "all histories of model calls, models, hash orders, solvers, answers, tolerances; all such sin and cos", "why_tests_cant": "multipliers pass through slack columns, bound tables with last-writer ownership and hash maps, and must still balance against rounded derivatives", "anchors": ["src/model/model.rs: Model::solve, final_duals, final_primals", "src/model/model_std.rs: std_problem", "src/model/constraint_std.rs: std_components", "src/model/node_std.rs: std_components, std_properties", "src/problem/nlp.rs: evaluate"]}
{"id": "C84", "title": "Signs and complementarity of the duals recorded by a solve, with binary64 numbers", "statement": "In f64, for every history of calls, model whose constraints are added once each, and solver: let solve(m) return success, the solver having answered with a finite point and multipliers such that, for the numbers the problem holds, each linear and nonlinear row is met up to delta, and each multiplier of a bound is at least -eta and its product with the distance to the bound at most eta in absolute value. Then the dual recorded in final_duals for every <= and >= constraint (zero if none is recorded) is at least -eta, and its product with left minus right side, as real functions at the recorded point, is at most eta + |dual| * (delta + the rounding bound of that expression) in absolute value: the dual of an inequality that does not bind is (almost) zero. The rounding bound is explicit: for affine expressions it covers the stored constant and coefficients, for others the evaluation together with the slack. With sines and cosines within 2^-53, finite constants, and denominators safe as in C76 in the expressions that are not affine.", "quantifier": "all histories of model calls, models, hash orders, solvers, answers, tolerances; all such sin and cos", "why_tests_cant": "which bound owns the dual depends on all constraints on a variable and on strict or weak comparison, and a swapped side or sign is invisible unless the constraint binds", "anchors": ["src/model/model.rs: Model::solve, final_duals, final_primals", "src/model/model_std.rs: std_problem", "src/model/constraint_std.rs: std_components", "src/model/node_std.rs: std_components, std_properties", "src/problem/nlp.rs: evaluate"]}
{"id": "C85", "title": "The point recorded by a solve satisfies the constraints of the model, with binary64 numbers", "statement": "In f64, for every history of calls, model whose constraints are added once each, and solver: let solve(m) return success, the solver having answered with a finite point that, for the numbers the problem holds, meets each linear and nonlinear row up to delta and each bound and integrality requirement up to eps. Then, at the point recorded in final_primals, integer variables are within eps of an integer, and for every constraint left minus right side, as a real function, is zero up to delta + the rounding bound of the expression for =, at most eps + delta + that bound for <=, at least minus that for >=: the rounding bound is explicit and covers the stored constant and coefficients of affine expressions and the evaluation of the others together with their slack. Bounds that lose against tighter ones are satisfied too. With sines and cosines within 2^-53, finite constants, and denominators safe as in C76 in the expressions that are not affine.", "quantifier": "all histories of model calls, models of every problem class, hash orders, solvers, answers, tolerances; all such sin and cos", "why_tests_cant": "slacks, merged bounds and rounded rows of arbitrary models must together imply every constraint as the user wrote it", "anchors": ["src/model/model.rs: Model::solve, final_primals", "src/model/model_std.rs: std_problem", "src/model/constraint_std.rs: std_components", "src/model/node_std.rs: std_components, std_properties", "src/problem/nlp.rs: evaluate"]}
{"id": "C86", "title": "A solve of a convex model is optimal up to tolerances, with binary64 numbers", "statement": "In f64, for every history of calls, model whose constraints are added once each, and solver: let solve(m) return success, the solver having answered stationary up to eps + tau (as in C83) and complementary up to eta and delta (as in C84), and let r be the recorded point. Take any real point z of the variables that satisfies every constraint of the model as a real relation and such that, on the segment from r to z, the minimised objective and left minus right side of every <= constraint are convex, of every >= constraint concave, of every = constraint both (or, weaker: they lie on the side of their tangents at r that this implies). Then the minimised objective at r is at most its value at z + the sum over variables of the first-order error of C83 times the distance between r and z in that variable + the sum over constraints of |recorded dual * (left minus right side at r)| (at most |dual| times (delta + the rounding bound), for inequalities plus eta, if the answer is also feasible as in C85) and, for inequalities, eta times the absolute change of the tangent. Affine expressions meet this everywhere, so for a model of affine expressions this holds against every feasible point, with no condition on tangents. With sines and cosines within 2^-53, finite constants, and denominators safe as in C76 in the expressions that are not affine.", "quantifier": "all histories of model calls, convex or partly affine models of every problem class, hash orders, solvers, answers, tolerances, competing points; all such sin and cos", "why_tests_cant": "a test compares with one known optimum; that the recorded point and duals certify a gap for every competing point needs the signs, columns and errors of all models at once", "anchors": ["src/model/model.rs: Model::solve, final_primals, final_duals", "src/model/model_std.rs: std_problem", "src/model/constraint_std.rs: std_components", "src/model/node_std.rs: std_components, std_properties", "src/problem/nlp.rs: evaluate"]}
