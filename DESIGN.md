# Formal model of ttinoco/numopt in Rocq (Coq 8.16.1)

## 1. Approach

* The code is modelled function by function as total Gallina functions, in
  `rocq/theories/*.v`; each definition cites the file and lines in `/repo` it models.
* Numbers. All code that computes with `f64` is modelled over an abstract type `T` with a record of
  operations (`Num`, no laws).  It is instantiated by
  * `option R` (`NumX`): exact real arithmetic, `None` standing for "not a finite number"
    (NaN, infinities, result of a division by zero, value of a missing variable);
  * `spec_float` (`NumF`): IEEE binary64 (`Coq.Floats.SpecFloat`, prec 53, emax 1024) with
    sin/cos as arbitrary functions.
  Theorems proved for every `Num` hold bit for bit of f64.  Theorems about *values* (sum, derivative,
  feasible set ...) are in exact arithmetic and say so; rounding is not covered by them.
* Pointers. A `Node` is an `Rc`; equality and hashing are by address.  Each model node carries an
  allocation number; allocation happens in a state monad `M A = nat -> res (A * nat)`; `Panic` is an
  explicit outcome.  Addresses are never reused in the model (a live node's address is never reused in
  Rust; addresses of dead nodes are never compared).
* Hash maps are association lists; wherever the code iterates over one and the order is observable
  the model applies an arbitrary permutation `ord t` (quantified universally, indexed by the time `t`),
  so every theorem holds for all iteration orders.
* External world (solver processes, file system, Ipopt library, f64 parsing/printing where not modelled)
  are function parameters quantified universally, with the contract, if any, an explicit hypothesis.

## 2. Plan per property

| id | what is modelled | how it is proved |
|----|------------------|------------------|
| C01-C05 | operators of node.rs/node_func.rs, evaluate | structural induction, exact arithmetic instance; f64 counterexample for 0*inf |
| C06 | add, FunctionAdd::new assertion | exact panic condition for every Num; refutation in f64 by computation |
| C07 | all operators, program of API calls | invariant over programs |
| C08 | evaluate | induction |
| C09 | ids, allocation | invariant (coherence of the allocated set) over programs |
| C10-C12 | std_properties | induction; keys = occurring variables; affine identity in exact arithmetic |
| C13-C17 | partial, all_simple_paths, derivatives | loop = recursive path enumeration; path sum = chain rule; `derivable_pt_lim` of stdlib |
| C18-C19 | std_components of nodes | from C13, coherence of derivative nodes |
| C20-C23 | constraint.rs, constraint_std.rs | case analysis, induction over lists |
| C24-C32, C53 | model_std.rs, problem/*.rs | invariants of the construction, exact arithmetic for semantics |
| C33-C36 | model.rs solve with an arbitrary solver | state machine; composition of the above |
| C37-C40 | matrix/*.rs over any element type | induction; loop invariants |
| C41-C42 | minlp.rs, milp.rs, lp.rs, nlp.rs | state machine |
| C43 | write_to_lp_file (bytes) and an independent LP reader | round trip |
| C44 | `{:.10e}` of a spec_float | exact integer arithmetic |
| C45-C46 | read_sol_file (bytes) | parser lemmas, refutation for out-of-range index |
| C47 | Solver::set_param | invariant over call sequences |
| C48 | solve of clp/cbc with a file-system map and an arbitrary external command | case analysis of every exit |
| C49-C51, C56 | ipopt.rs callbacks over an arbitrary caller | protocol invariant; refutation of the Hessian claim |
| C54-C55 | multipliers of the standard problem and of the model (`KktSpec.v`) | gradient of the Lagrangian row by row; convexity of the linear case |
| C57 | model.rs solve composed with clp_cmd.rs/cbc_cmd.rs | composition of C24, C33, C34, C43, C45, C46, C48 |
| C58 | model.rs solve composed with ipopt.rs (`EndSpec.v`) | composition of C24, C27, C30, C32-C34, C49-C51; second derivatives of linear combinations |
| C59 | the byte-level text primitives (`Text.v`) against a grammar (`TextSpec.v`) | induction on texts; Flocq's rounding for the numerals |
| C60 | `evaluate` and `violation` in binary64 on integer expressions (`ExactSpec.v`) | simulation of the binary64 run by the exact one (`ExactSim.v`), sizes bounding every intermediate value by 2^53, where Flocq's rounding is the identity |
| C61 | the whole linear pipeline (expressions, `std_components`, `std_problem`, `solve`) in binary64 on integer data | the same simulation, generic in two number types, through every function; then C26/C36/C55 of the exact model |
| C62 | positions of A and J in the output of `std_problem` | induction on the constraints; row numbers and node identities of slacks are increasing; `ix` is injective on the variables |
| C63 | the same pipeline continued through `write_to_lp_file`, the external command and `read_sol_file`, in binary64 | C61 for the arithmetic, C43/C44 for the file (integers of at most eleven digits are printed with all digits), C57 for the reading; the contract of the external program is `correct_program` in `LpModelSpec.v` |
| C64 | `solve` of the command-line solvers as a program of single file operations (`CmdSteps.v`), any number of them interleaved by any schedule, a stopped call being one the schedule no longer names | running such a program alone is `cmd_solve`; simulation of every interleaving by solo runs, by induction on the schedule, from disjointness of the files used; the collision is a computed schedule |
| C65 | `violation` in binary64 (`SpecFloat`), all values | Flocq: overflow and sign of differences; a rounded difference is zero only if the difference is; case analysis on infinities |
| C66 | programs of calls with estimates (operation count, exact value, magnitude: `RoundSpec.v`) | invariant that every term of every expression stands for a real number within the bound, by cases over the operators; Flocq's relative error of sums and of products with underflow |
| C67 | the bookkeeping of `std_problem` and `solve` for any number type (`PlaceSpec.v`), binary64 being one | as C23-C25, C34, C57, C58 but from the code's own coefficients instead of values; laws of the comparison of `SpecFloat` by cases |
| C68 | histories of linear models with estimates of every coefficient (`CoefSpec.v`) | per-coefficient version of the invariant of C66 through all operators; induction on histories; the arrangement of C67; that the estimates' coefficients are those of the exact value by a second induction |
| C69 | points that miss the requirements by a tolerance (`TolSpec.v`), model and `solve` as in C26/C36 | residuals of rows and functions are differences minus slacks (the places of C23), bounds from C25; the converse by setting each slack to its difference |
| C70 | as C68, with real points that miss the binary64 data by a tolerance (`RawSpec.v` (expressions of any shape), `PostSpec.v`) | rows as sums over cells compared with the exact coefficients (`PostProofs.v`) by the entry-wise bounds of C68, bounds by the order of floats (C67), slacks as in C69 |
| C71 | as C60, the programs also giving the degree and the real function of each expression (`PolySpec.v`) | `DerivSim.v`: the path sums in binary64 and in exact arithmetic built from related expressions stay related, with sizes at most size times degree (`DegProofs.v`: degrees of what constructors and path sums build); then C13/C14 for the exact side, C60 for the value |
| C72 | histories of model calls on integer polynomials, giving size, degree and real function of each expression (`PolyModelSpec.v`) | `PolyHist.v`: every side and objective keeps its polynomial; `PolyComp.v`, `PolyParts.v`: gradient and Hessian entries of the functions, with slacks and absent variables; then the evaluation of the problem as in C30, in binary64 |
| C73 | the four problem constructors, `evaluate`, `combine_h` for arbitrary evaluation functions | case analysis of the assertions, loop invariant of the pattern, induction on histories of calls |
| C74 | `std_problem`, the evaluation closures, `derivative(s)`, `std_components` over any arithmetic; negation in binary64 | the stored programs are those expressions (simulation of two calls at different moments), positions by bijection; evaluation depends only on the variables that occur, and derivatives mention no others; `-1 * x` and sums of negated terms are exact in binary64 |
| C75 | `derivative`, `partial`, path products and sums over binary64; the evaluation closures through C74 | an estimate per expression and one term per occurrence of the variable; each step down a path multiplies by a factor whose estimate is known (`mul_nn_good`), the sum of the terms by `add_nn_good`; the exact part is the real derivative by the product rule (second derivatives: C81) |
| C76 | the same for `sin`, `cos` and quotients by expressions; `sin`/`cos` of binary64 are any functions within 2^-53 of the real ones | sine and cosine are 1-Lipschitz, so they add their argument's error and one rounding; a quotient is bounded when the error bound of its denominator is at most half its value (`safe_denominator`); the induction of C75 with these cases; accurate `sin`/`cos` are exhibited (`C76_accurate`) |
| C77 | `partial` of every kind of node | `PartialSpec.operation` is the operation as a function of the list of its arguments' values; cases on the node with the evaluation lemmas of the operators; panics by cases, with `x / 1e-200` as the f64 case |
| C78 | arbitrary `node` trees, i.e. also those of the raw constructors; `std_properties`, `derivative`, `std_components` | only identity of equal nodes is assumed (`RawSpec.identities`); the inductions of C10, C11, C13, C18 without the canonical form, for which "without variables" replaces "constant"; panics by a closure argument over all operators; the false affine form is a theorem |
| C79 | `violation` against the rows of nonlinear constraints and what `solve` records, in binary64 | `GapSpec` gives the real violation, the excess of a slack, what an answer up to tolerances is, and the estimates of both paths; the value of a row is the difference of the sides minus *its own* slack (`nonlinear_slacks`, which also gives the bound the slack has), C76's estimates of the sides, C67's tightest bounds, the triangle inequality |
| C80 | What Ipopt is told about a model | `ToldSpec` says, request by request, what the right numbers are in terms of the constraints of the model and the positions announced (C50/C51); C49's reply = contents of the buffers, C74's contents of the buffers = numbers of the expressions, glued position by position (Jacobian: linear rows first, nonlinear rows shifted; Hessian: objective block, then one block per multiplier); `C80_returns` composes with C58 for whole solves; the rounding version uses C76/C79's estimates (class Nlp), and C81's for the Hessian |
| C81 | `derivative` twice, over binary64; the Hessians of the evaluation closures | besides C75/C76's estimate of evaluating, an estimate of the *derivative* of each factor, because what counts is the derivative of the function that was built: constants folded while multiplying drift from the exact ones. `drift_terms` carries the pair (factors so far, their derivative) down each occurrence; products of nodes by cases on the simplifications of `mul` (`product`), sums by terms; second half: those terms are the derivatives of the terms of the exact first derivative (`drift_derivative`), and denominators stay non-zero near a point (`nz_around`); C74 for the Hessians |
| C82 | `std_properties` over binary64; the coefficients, gradients and Jacobians of a problem | `AffSpec` gives the estimate of a coefficient by recursion on the expression (a sum adds, a product or quotient by a constant scales); by induction, `coef_sv` shows the coefficient made by the merging of hash maps is the derivative up to that estimate, an absent coefficient being a derivative that is zero up to it. In models, C74 says which number sits at each row and column; C82's and C76's bounds hold of each, and the weighted sums over the rows are compared term by term (`weighted_close`). Columns of slacks are not covered (they hold -1 or 0, C74) |
| C83 | `Model::solve`: what it records, `std_problem`, over binary64 | Slack columns hold -1 in their row and zero elsewhere (`row_new`, and C74's rows with the slack identified by the bounds it owns), so stationarity of such a column ties the multiplier of the row to that of the slack's bound, which is the recorded dual (C67) up to eps + tau (`close_dual`); a bound constraint has coefficient one, and the recorded duals of the bounds of one variable add up to its bound multipliers (`bu_sum`, `bl_sum`); the residual of the column is then a sum over the constraints (`told_sum`), compared with the true combination row by row using C82 (`one_share`) |
| C84 | `Model::solve`: what it records, `std_problem`, over binary64 | The bound of a slack is 0 and its own (`upper_zero`, `lower_zero`, from the tightest-bound theorem), so the sign and the product of the recorded dual with the slack are those of a bound of the problem; the slack differs from left minus right side by what the row misses (delta) and by rounding: an affine expression is its value at zero plus derivatives times variables (`affine_real`), its stored constant and coefficients are near those (C82), the slack's column holds -1 (`linear_close`); a nonlinear row evaluates the expression minus the slack (C75, `nonlinear_close`); a bound constraint owns its multiplier or records none (`bound_multiplier`). The two specifications are in `SlackSpec.v` |
| C85 | `Model::solve`: what it records, `std_problem`, over binary64, all classes | As C84 for rows; the value of a slack is on its side of zero up to eps because its own bound is the bound of the problem; a bound constraint is implied by the tightest one (C25 over binary64); integer flags by C28 |
| C86 | `Model::solve`: what it records, over binary64, convex models | Approximate weak duality: the tangents of the objective and of the constraints at the recorded point, weighted by the recorded duals (C83 by each variable, derivatives unique), sum to the slope of the objective up to the column errors; signs of duals from C84; the double sum over variables and constraints is exchanged; an affine expression equals its tangent (`affine_real`, `affine_dval`), so for a model of affine expressions the bound holds against every feasible point with no tangent condition left (`C86_linear`); C84 and C85 bound the share of each constraint by the tolerances (`C86_gap`). Convexity between the two points, in the usual sense, gives the tangent conditions (`C86_convex`): the derivative of an expression along a segment is the slope (`segment_derivative`), and a chord lies above the tangent. Tangents and gap are in `ConvSpec.v` |
| C52 | Display to tokens/strings and an independent expression reader | induction on precedence levels |

## 3. Trusted base

* Coq 8.16.1's kernel (including `vm_compute`, used for concrete binary64 examples and refutations).
* The axioms `Print Assumptions` lists, theorem by theorem: see `ASSUMPTIONS.md` (generated by
  `tools/assumptions.py`).  Most theorems have none.  The others use only the standard library's real
  numbers: `ClassicalDedekindReals.sig_forall_dec`, `sig_not_dec`,
  `FunctionalExtensionality.functional_extensionality_dep` and, for seventy theorems, `Classical_Prop.classic`.
  No axiom, section-less variable, admitted proof, functor or module type of our own.
* The correspondence between the Rust code and the model, which was made by hand, reading.  It is
  checked in two ways: the repository's own unit tests are replayed on the model as computed examples
  (`Tests.v`), and every definition cites the lines it models.

## 4. What is modelled, and what is not

| file | modelled | not modelled |
|------|----------|--------------|
| model/node.rs, node_base.rs, node_func.rs, variable.rs, constant.rs, function/*.rs | constructors, all operators in the Node/Node, Node/f64, f64/Node forms, sin, cos, `evaluate`, `partial`, accessors, identity, `Display` (`Display.v`) | the reference/value impls of one operator (macro copies of the same body) are one definition; `Debug`; raw struct constructors called outside the operators |
| model/node_diff.rs | `all_simple_paths`, `derivative`, `derivatives` with the worklist loop, fuel proved sufficient | — |
| model/node_std.rs | `std_properties`, `std_components` | — |
| model/node_cmp.rs, constraint.rs | the comparison operators, constraint accessors, `violation`, `tag`, `Display` | `Debug` |
| model/constraint_std.rs | all of it | — |
| model/model.rs | all `Model` calls, `solve` with an arbitrary solver, result maps, `Display` of the model | `Clone`/`Debug` derivations |
| model/model_std.rs | `model_std`, `std_problem`, the evaluation closure it builds | — |
| matrix/*.rs | `CooMat`, `CsrMat`, iterators, `to_csr`, `sum_duplicates`, products | `Debug` |
| problem/*.rs | constructors with their assertions, `evaluate`, `combine_h`, views | ndarray's summation order inside `dot` (taken left to right) |
| solver/base.rs | parameters, status, solution record | — |
| solver/clp_cmd.rs, cbc_cmd.rs, milp.rs (LP writer, solution reader) | byte-level writer and reader, `solve` over a file map and an arbitrary external command, every exit; the same call as a sequence of atomic file operations, interleaved with other calls or cut short (`CmdSteps.v`) | what the external solver computes |
| solver/ipopt.rs, cipopt.rs | the callbacks and `solve`, over an arbitrary library that follows (or does not follow) the C interface's rules | raw memory (buffers are lists; out-of-bounds writes are explicit outcomes), the library itself |

Numbers: `f64` parsing is modelled for all texts (Rust's saturation of exponents, which only matters for numerals of
hundreds of thousands of digits, is not); `{}` of an f64 (shortest
round-trip printing) is an arbitrary function wherever it occurs in `Display`; sin and cos in binary64
are arbitrary functions.  Rust's `Iterator::sum` starts at `0.0` (`-0.0` from 1.83 on; only the sign of
an empty or all `-0.0` sum is affected).  Memory exhaustion, stack overflow on deep expressions, usize
overflow and threads (`Rc` is not `Send`) are not modelled.

## 5. How statements are kept independent of proofs

Vocabulary used in statements lives in small files without proofs: `ExprSpec.v` (occurrence, agreement,
sums), `DiffSpec.v` (derivatives), `ConstrSpec.v`, `ModelSpec.v` (feasible, optimal, places of
constraints), `EvalSpec.v`, `MatSpec.v`, `HashSpec.v`, `LpSpec.v` (an LP-format reader), `SolSpec.v`,
`AffSpec.v` (coefficients and first-order conditions up to rounding), `LagSpec.v` (stationary answers and recorded multipliers up to tolerances), `SlackSpec.v` (complementary and feasible answers up to tolerances), `ConvSpec.v` (tangents and distance from optimality), `ConvexSpec.v` (convexity between two points), `TextSpec.v` (grammar of words, lines, UTF-8, numerals and solution files), `IpoptSpec.v`, `EndSpec.v` (what Ipopt should be told about a model), `KktSpec.v`, `DispSpec.v` (an expression reader), `ExactSpec.v` (sizes and integer meanings, reading floats as reals), `StepSpec.v` (interleavings of calls), `RoundSpec.v` (order of floats, rounding estimates), `PlaceSpec.v` (arrangement of constraints for any numbers), `CoefSpec.v` (exact coefficients and their rounding estimates), `TolSpec.v` (approximate feasibility and optimality), `PolySpec.v` (degrees and derivatives with respect to a cell), `PolyModelSpec.v` (polynomials of the expressions of a model), `BitSpec.v` (which expression each number of a problem is the value of), `DerEstSpec.v` (rounding estimates of derivatives), `SecondSpec.v` (of second derivatives), `PartialSpec.v` (one operation as a function of its arguments), `ToldSpec.v` (answers to Ipopt), `GapSpec.v` (real violations and answers up to tolerances), `PostSpec.v` (the same for binary64 data against exact coefficients).  Theorems are in `Properties_*.v`, each followed by a
concrete case that meets its hypotheses.

## 6. Claims found false of the code

Each is a theorem with a concrete case (names ending in `_refuted`, or the exact panic condition):
`(x+5)+(-5)` panics (C06); the derivative of `x/x` is 2/x (C13); differentiating `5x + xy - 5x` panics
(C15); `(x+5).leq(5.)` cannot be standardised (C22, C29); the default bounds of 1e8 cut off solutions
(C26); a Jacobian entry of Ipopt lacks its row offset (C49, and for a model C58); stale Hessians are returned to Ipopt (C50);
the largest f64 is read back as infinity (C44); a wrong index in a solution file panics (C46); a missing
logLevel leaves the input file behind (C48); the hash seed decides whether a nonlinear model can be
standardised (C53); `partial` by a constant denominator whose square underflows panics (C77); `x * FunctionCos::new(0)` is reported affine with coefficient 0 (C78); the model `x - x == 0` is written as a file that is not an LP file (C57).

## 7. Wrong programs

`seeded/LOG.jsonl` lists edits of the model that correspond to realistic bugs, the claim each breaks, and
what failed.
