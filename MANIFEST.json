{
 "claims": [
  {
   "property": "C01",
   "status": "proved",
   "theorems": [
    "C01_sum_value",
    "C01_sum_scalar_right",
    "C01_sum_scalar_left",
    "C01_sum_terms",
    "C01_sum_terms_scalar",
    "C01_sum_constant"
   ],
   "note": "Modelled: operators of node.rs/node_func.rs, evaluate. Proof: structural induction, exact arithmetic instance; f64 counterexample for 0*inf."
  },
  {
   "property": "C02",
   "status": "proved",
   "theorems": [
    "C02_product_value",
    "C02_product_scalar_right",
    "C02_product_scalar_left",
    "C02_product_total"
   ],
   "note": "Modelled: operators of node.rs/node_func.rs, evaluate. Proof: structural induction, exact arithmetic instance; f64 counterexample for 0*inf."
  },
  {
   "property": "C03",
   "status": "proved",
   "theorems": [
    "C03_neg_value",
    "C03_sub_value",
    "C03_sub_scalar_right",
    "C03_sub_scalar_left"
   ],
   "note": "Modelled: operators of node.rs/node_func.rs, evaluate. Proof: structural induction, exact arithmetic instance; f64 counterexample for 0*inf."
  },
  {
   "property": "C04",
   "status": "proved",
   "theorems": [
    "C04_quotient_value",
    "C04_quotient_scalar_right",
    "C04_quotient_scalar_left",
    "C04_quotient_panics_iff",
    "C04_quotient_scalar_right_panics_iff",
    "C04_quotient_scalar_left_panics_iff"
   ],
   "note": "Modelled: operators of node.rs/node_func.rs, evaluate. Proof: structural induction, exact arithmetic instance; f64 counterexample for 0*inf."
  },
  {
   "property": "C05",
   "status": "proved",
   "theorems": [
    "C05_sin",
    "C05_cos"
   ],
   "note": "Modelled: operators of node.rs/node_func.rs, evaluate. Proof: structural induction, exact arithmetic instance; f64 counterexample for 0*inf."
  },
  {
   "property": "C06",
   "status": "proved",
   "theorems": [
    "C06_add_panics_iff",
    "C06_add_scalar_right_panics_iff",
    "C06_add_scalar_left_panics_iff",
    "C06_add_never_panics_refuted"
   ],
   "note": "The exact panic condition is proved for every number type, and the concrete binary64 history (x+5)+(-5) is proved to panic."
  },
  {
   "property": "C07",
   "status": "proved",
   "theorems": [
    "C07_canonical_form"
   ],
   "note": "Modelled: all operators, program of API calls. Proof: invariant over programs."
  },
  {
   "property": "C08",
   "status": "proved",
   "theorems": [
    "C08_evaluate_local",
    "C08_missing_variable_is_nan"
   ],
   "note": "Modelled: evaluate. Proof: induction."
  },
  {
   "property": "C09",
   "status": "proved",
   "theorems": [
    "C09_equality_is_equivalence",
    "C09_equal_nodes_are_same",
    "C09_new_variable_is_different",
    "C09_result_new_or_same"
   ],
   "note": "Modelled: ids, allocation. Proof: invariant (coherence of the allocated set) over programs."
  },
  {
   "property": "C10",
   "status": "proved",
   "theorems": [
    "C10_variables"
   ],
   "note": "Modelled: std_properties. Proof: induction; keys = occurring variables; affine identity in exact arithmetic."
  },
  {
   "property": "C11",
   "status": "proved",
   "theorems": [
    "C11_affine_form"
   ],
   "note": "Modelled: std_properties. Proof: induction; keys = occurring variables; affine identity in exact arithmetic."
  },
  {
   "property": "C12",
   "status": "proved",
   "theorems": [
    "C12_affine_recognised"
   ],
   "note": "Modelled: std_properties. Proof: induction; keys = occurring variables; affine identity in exact arithmetic."
  },
  {
   "property": "C13",
   "status": "proved",
   "theorems": [
    "C13_derivative_correct",
    "C13_derivative_correct_history",
    "C13_derivative_correct_refuted"
   ],
   "note": "Proved for expressions without a self-quotient; the wrong derivative of x/x is proved as a refutation of the unrestricted claim."
  },
  {
   "property": "C14",
   "status": "proved",
   "theorems": [
    "C14_absent_variable"
   ],
   "note": "Modelled: partial, all_simple_paths, derivatives. Proof: loop = recursive path enumeration; path sum = chain rule; `derivable_pt_lim` of stdlib."
  },
  {
   "property": "C15",
   "status": "proved",
   "theorems": [
    "C15_derivatives_panic",
    "C15_non_variable",
    "C15_affine_never_panics",
    "C15_derivative_never_panics_refuted"
   ],
   "note": "Which panic is possible is proved for every history; affine expressions never panic; a concrete binary64 history that panics is given."
  },
  {
   "property": "C16",
   "status": "proved",
   "theorems": [
    "C16_derivatives_entries",
    "C16_derivatives_total"
   ],
   "note": "Modelled: partial, all_simple_paths, derivatives. Proof: loop = recursive path enumeration; path sum = chain rule; `derivable_pt_lim` of stdlib."
  },
  {
   "property": "C17",
   "status": "proved",
   "theorems": [
    "C17_path_enumeration",
    "C17_non_variable"
   ],
   "note": "Modelled: partial, all_simple_paths, derivatives. Proof: loop = recursive path enumeration; path sum = chain rule; `derivable_pt_lim` of stdlib."
  },
  {
   "property": "C18",
   "status": "proved",
   "theorems": [
    "C18_gradient",
    "C18_components_panic"
   ],
   "note": "Modelled: std_components of nodes. Proof: from C13, coherence of derivative nodes."
  },
  {
   "property": "C19",
   "status": "proved",
   "theorems": [
    "C19_hessian"
   ],
   "note": "Modelled: std_components of nodes. Proof: from C13, coherence of derivative nodes."
  },
  {
   "property": "C20",
   "status": "proved",
   "theorems": [
    "C20_violation",
    "C20_undefined_side",
    "C20_missing_variable_refuted"
   ],
   "note": "Includes the undefined case: equality gives NaN, inequalities give 0."
  },
  {
   "property": "C21",
   "status": "proved",
   "theorems": [
    "C21_equivalent",
    "C21_slack_value"
   ],
   "note": "Modelled: constraint.rs, constraint_std.rs. Proof: case analysis, induction over lists."
  },
  {
   "property": "C22",
   "status": "proved",
   "theorems": [
    "C22_panics_iff",
    "C22_affine_total",
    "C22_never_panics_refuted"
   ],
   "note": "Exact panic condition; a concrete model for which std_problem panics is given."
  },
  {
   "property": "C23",
   "status": "proved",
   "theorems": [
    "C23_rows"
   ],
   "note": "Modelled: constraint.rs, constraint_std.rs. Proof: case analysis, induction over lists."
  },
  {
   "property": "C24",
   "status": "proved",
   "theorems": [
    "C24_order",
    "C24_bijection",
    "C24_slacks"
   ],
   "note": "Modelled: model_std.rs, problem/*.rs. Proof: invariants of the construction, exact arithmetic for semantics."
  },
  {
   "property": "C25",
   "status": "proved",
   "theorems": [
    "C25_tightest"
   ],
   "note": "Modelled: model_std.rs, problem/*.rs. Proof: invariants of the construction, exact arithmetic for semantics."
  },
  {
   "property": "C26",
   "status": "proved",
   "theorems": [
    "C26_sound",
    "C26_box",
    "C26_complete",
    "C26_refuted"
   ],
   "note": "Both directions, the box every feasible point lies in, and the counterexample without it."
  },
  {
   "property": "C27",
   "status": "proved",
   "theorems": [
    "C27_objective"
   ],
   "note": "Modelled: model_std.rs, problem/*.rs. Proof: invariants of the construction, exact arithmetic for semantics."
  },
  {
   "property": "C28",
   "status": "proved",
   "theorems": [
    "C28_integer",
    "C28_class",
    "C28_mask",
    "C28_affine_histories"
   ],
   "note": "Modelled: model_std.rs, problem/*.rs. Proof: invariants of the construction, exact arithmetic for semantics."
  },
  {
   "property": "C29",
   "status": "proved",
   "theorems": [
    "C29_well_formed",
    "C29_panics"
   ],
   "note": "Modelled: model_std.rs, problem/*.rs. Proof: invariants of the construction, exact arithmetic for semantics."
  },
  {
   "property": "C30",
   "status": "proved",
   "theorems": [
    "C30_nonlinear",
    "C30_linear",
    "C30_history"
   ],
   "note": "Modelled: model_std.rs, problem/*.rs. Proof: invariants of the construction, exact arithmetic for semantics."
  },
  {
   "property": "C31",
   "status": "proved",
   "theorems": [
    "C31_lower_triangular"
   ],
   "note": "Modelled: model_std.rs, problem/*.rs. Proof: invariants of the construction, exact arithmetic for semantics."
  },
  {
   "property": "C32",
   "status": "proved",
   "theorems": [
    "C32_x0",
    "C32_slack_zero",
    "C32_replaces",
    "C32_kept"
   ],
   "note": "Modelled: model_std.rs, problem/*.rs. Proof: invariants of the construction, exact arithmetic for semantics."
  },
  {
   "property": "C33",
   "status": "proved",
   "theorems": [
    "C33_primals",
    "C33_returns"
   ],
   "note": "Modelled: model.rs solve with an arbitrary solver. Proof: state machine; composition of the above."
  },
  {
   "property": "C34",
   "status": "proved",
   "theorems": [
    "C34_duals",
    "C34_binding"
   ],
   "note": "Modelled: model.rs solve with an arbitrary solver. Proof: state machine; composition of the above."
  },
  {
   "property": "C35",
   "status": "proved",
   "theorems": [
    "C35_error",
    "C35_error_iff",
    "C35_unwound",
    "C35_history",
    "C35_twice",
    "C35_frame"
   ],
   "note": "Modelled: model.rs solve with an arbitrary solver. Proof: state machine; composition of the above."
  },
  {
   "property": "C36",
   "status": "proved",
   "theorems": [
    "C36_optimal",
    "C36_attained",
    "C36_solve"
   ],
   "note": "Modelled: model.rs solve with an arbitrary solver. Proof: state machine; composition of the above."
  },
  {
   "property": "C37",
   "status": "proved",
   "theorems": [
    "C37_to_csr",
    "C37_row_pointers"
   ],
   "note": "Modelled: matrix/*.rs over any element type. Proof: induction; loop invariants."
  },
  {
   "property": "C38",
   "status": "proved",
   "theorems": [
    "C38_sum_duplicates",
    "C38_merged_row"
   ],
   "note": "Modelled: matrix/*.rs over any element type. Proof: induction; loop invariants."
  },
  {
   "property": "C39",
   "status": "proved",
   "theorems": [
    "C39_mul"
   ],
   "note": "Modelled: matrix/*.rs over any element type. Proof: induction; loop invariants."
  },
  {
   "property": "C40",
   "status": "proved",
   "theorems": [
    "C40_iter",
    "C40_for_loop"
   ],
   "note": "Modelled: matrix/*.rs over any element type. Proof: induction; loop invariants."
  },
  {
   "property": "C41",
   "status": "proved",
   "theorems": [
    "C41_combine_h"
   ],
   "note": "Modelled: minlp.rs, milp.rs, lp.rs, nlp.rs. Proof: state machine."
  },
  {
   "property": "C42",
   "status": "proved",
   "theorems": [
    "C42_lp_views",
    "C42_milp_view",
    "C42_linear_evaluate"
   ],
   "note": "Modelled: minlp.rs, milp.rs, lp.rs, nlp.rs. Proof: state machine."
  },
  {
   "property": "C43",
   "status": "proved",
   "theorems": [
    "C43_file",
    "C43_returns",
    "C43_meaning",
    "C43_zero_row_refuted"
   ],
   "note": "Reading back is done by an independent grammar of LP files; the exact hypotheses are in the statement, with the failure for a zero row."
  },
  {
   "property": "C44",
   "status": "proved",
   "theorems": [
    "C44_precision",
    "C44_zero",
    "C44_exact",
    "C44_read_back",
    "C44_round_trip",
    "C44_top_refuted",
    "C44_lossy",
    "C44_order"
   ],
   "note": "In binary64, for every finite float; the failure next to the largest float is a theorem."
  },
  {
   "property": "C45",
   "status": "proved",
   "theorems": [
    "C45_solved",
    "C45_not_solved",
    "C45_missing_file",
    "C45_error",
    "C45_items",
    "C45_column",
    "C45_row",
    "C45_parts"
   ],
   "note": "Modelled: read_sol_file (bytes). Proof: parser lemmas, refutation for out-of-range index."
  },
  {
   "property": "C46",
   "status": "proved",
   "theorems": [
    "C46_panic",
    "C46_in_range",
    "C46_refuted"
   ],
   "note": "Exact panic condition for every file content."
  },
  {
   "property": "C47",
   "status": "proved",
   "theorems": [
    "C47_set_param",
    "C47_history",
    "C47_kinds",
    "C47_solvers",
    "C47_defaults"
   ],
   "note": "Modelled: Solver::set_param. Proof: invariant over call sequences."
  },
  {
   "property": "C48",
   "status": "proved",
   "theorems": [
    "C48_unsupported",
    "C48_no_files_left",
    "C48_clp",
    "C48_cbc",
    "C48_result",
    "C48_errors",
    "C48_unwinds",
    "C48_missing_parameter_refuted",
    "C48_panic_refuted"
   ],
   "note": "For every behaviour of the external command; the two ways in which a file is left are theorems as well."
  },
  {
   "property": "C49",
   "status": "proved",
   "theorems": [
    "C49_values",
    "C49_structure",
    "C49_structure_right_iff",
    "C49_in_bounds",
    "C49_models",
    "C49_structure_refuted"
   ],
   "note": "Values proved right for every legal history; the Jacobian structure is refuted in general (missing row offset) and proved right exactly when there are no linear rows or no J entries."
  },
  {
   "property": "C50",
   "status": "proved",
   "theorems": [
    "C50_characterised",
    "C50_new_lambda",
    "C50_stale_refuted",
    "C50_unwritten_refuted"
   ],
   "note": "Right whenever new_lambda is set, structure always right, exact answer in the remaining cases, and two concrete wrong answers."
  },
  {
   "property": "C51",
   "status": "proved",
   "theorems": [
    "C51_solution",
    "C51_returns",
    "C51_errors",
    "C51_leak",
    "C51_classes"
   ],
   "note": "Also proved: errors, the library object leaked on errors after its creation, and that a lawful library always gets its answers."
  },
  {
   "property": "C52",
   "status": "proved",
   "theorems": [
    "C52_unique",
    "C52_canonical",
    "C52_denotes",
    "C52_constraint",
    "C52_model",
    "C52_float_refuted",
    "C52_status"
   ],
   "note": "Exact arithmetic; a concrete binary64 difference is given."
  },
  {
   "property": "C53",
   "status": "proved",
   "theorems": [
    "C53_same_problem",
    "C53_solutions",
    "C53_derivatives",
    "C53_affine_panics",
    "C53_affine_same",
    "C53_panic_refuted"
   ],
   "note": "Exact arithmetic for solutions and derivatives, every number type for the data; the dependence of panics on the order is a theorem with a concrete binary64 model."
  },
  {
   "property": "C54",
   "status": "proved",
   "theorems": [
    "C54_linear",
    "C54_multipliers",
    "C54_complete"
   ],
   "note": "Exact arithmetic; C54_linear also allows self-quotients since the model is affine. Values on the default bounds are excluded: there the multiplier of a default bound has no constraint."
  },
  {
   "property": "C55",
   "status": "proved",
   "theorems": [
    "C55_global",
    "C55_kkt"
   ],
   "note": "Exact arithmetic."
  },
  {
   "property": "C56",
   "status": "proved",
   "theorems": [
    "C56_iff",
    "C56_refuses"
   ],
   "note": "Modelled: ipopt.rs callbacks over an arbitrary caller. Proof: protocol invariant; refutation of the Hessian claim."
  },
  {
   "property": "C57",
   "status": "proved",
   "theorems": [
    "C57_solution",
    "C57_writes",
    "C57_unwinds",
    "C57_duals",
    "C57_zero_row_refuted"
   ],
   "note": "Modelled: model.rs solve composed with clp_cmd.rs/cbc_cmd.rs. Proof: composition of C24, C33, C34, C43, C45, C46, C48."
  },
  {
   "property": "C58",
   "status": "proved",
   "theorems": [
    "C58_values",
    "C58_solution",
    "C58_returns",
    "C58_duals",
    "C58_sizes",
    "C58_jacobian_refuted"
   ],
   "note": "Modelled: model.rs solve composed with ipopt.rs (`EndSpec.v`). Proof: composition of C24, C27, C30, C32-C34, C49-C51; second derivatives of linear combinations."
  },
  {
   "property": "C59",
   "status": "proved",
   "theorems": [
    "C59_words",
    "C59_pieces",
    "C59_lines",
    "C59_utf8",
    "C59_integers",
    "C59_numbers",
    "C59_written",
    "C59_index",
    "C59_first_line",
    "C59_line",
    "C59_file",
    "C59_file_panic",
    "C59_file_refused"
   ],
   "note": "Modelled: the byte-level text primitives (`Text.v`) against a grammar (`TextSpec.v`). Proof: induction on texts; Flocq's rounding for the numerals."
  },
  {
   "property": "C60",
   "status": "proved",
   "theorems": [
    "C60_value",
    "C60_violation",
    "C60_sharp"
   ],
   "note": "Modelled: `evaluate` and `violation` in binary64 on integer expressions (`ExactSpec.v`). Proof: simulation of the binary64 run by the exact one (`ExactSim.v`), sizes bounding every intermediate value by 2^53, where Flocq's rounding is the identity."
  },
  {
   "property": "C61",
   "status": "proved",
   "theorems": [
    "C61_history",
    "C61_problem",
    "C61_solve",
    "C61_optimal",
    "C61_global"
   ],
   "note": "Modelled: the whole linear pipeline (expressions, `std_components`, `std_problem`, `solve`) in binary64 on integer data. Proof: the same simulation, generic in two number types, through every function; then C26/C36/C55 of the exact model."
  },
  {
   "property": "C62",
   "status": "proved",
   "theorems": [
    "C62_unique",
    "C62_pattern",
    "C62_slacks"
   ],
   "note": "Modelled: positions of A and J in the output of `std_problem`. Proof: induction on the constraints; row numbers and node identities of slacks are increasing; `ix` is injective on the variables."
  },
  {
   "property": "C63",
   "status": "proved",
   "theorems": [
    "C63_file",
    "C63_optimal",
    "C63_global",
    "C63_infeasible"
   ],
   "note": "Modelled: the same pipeline continued through `write_to_lp_file`, the external command and `read_sol_file`, in binary64. Proof: C61 for the arithmetic, C43/C44 for the file (integers of at most eleven digits are printed with all digits), C57 for the reading; the contract of the external program is `correct_program` in `LpModelSpec.v`."
  },
  {
   "property": "C64",
   "status": "proved",
   "theorems": [
    "C64_concurrent",
    "C64_other_files",
    "C64_cleaned",
    "C64_leftovers",
    "C64_progress",
    "C64_names",
    "C64_same_names_refuted"
   ],
   "note": "Modelled: `solve` of the command-line solvers as a program of single file operations (`CmdSteps.v`), any number of them interleaved by any schedule, a stopped call being one the schedule no longer names. Proof: running such a program alone is `cmd_solve`; simulation of every interleaving by solo runs, by induction on the schedule, from disjointness of the files used; the collision is a computed schedule."
  },
  {
   "property": "C65",
   "status": "proved",
   "theorems": [
    "C65_inequality",
    "C65_equality",
    "C65_infinite",
    "C65_nan"
   ],
   "note": "Modelled: `violation` in binary64 (`SpecFloat`), all values. Proof: Flocq: overflow and sign of differences; a rounded difference is zero only if the difference is; case analysis on infinities."
  },
  {
   "property": "C66",
   "status": "proved",
   "theorems": [
    "C66_value",
    "C66_violation",
    "C66_simple"
   ],
   "note": "Modelled: programs of calls with estimates (operation count, exact value, magnitude: `RoundSpec.v`). Proof: invariant that every term of every expression stands for a real number within the bound, by cases over the operators; Flocq's relative error of sums and of products with underflow."
  },
  {
   "property": "C67",
   "status": "proved",
   "theorems": [
    "C67_binary64",
    "C67_exact",
    "C67_arranged",
    "C67_tightest",
    "C67_duals",
    "C67_sizes",
    "C67_cmd_duals",
    "C67_ipopt_duals"
   ],
   "note": "Modelled: the bookkeeping of `std_problem` and `solve` for any number type (`PlaceSpec.v`), binary64 being one. Proof: as C23-C25, C34, C57, C58 but from the code's own coefficients instead of values; laws of the comparison of `SpecFloat` by cases."
  },
  {
   "property": "C68",
   "status": "proved",
   "theorems": [
    "C68_estimates",
    "C68_class",
    "C68_constraints",
    "C68_rows",
    "C68_bounds",
    "C68_objective",
    "C68_exact"
   ],
   "note": "Modelled: histories of linear models with estimates of every coefficient (`CoefSpec.v`). Proof: per-coefficient version of the invariant of C66 through all operators; induction on histories; the arrangement of C67; that the estimates' coefficients are those of the exact value by a second induction."
  },
  {
   "property": "C69",
   "status": "proved",
   "theorems": [
    "C69_violation",
    "C69_sound",
    "C69_optimal",
    "C69_complete",
    "C69_zero",
    "C69_solve"
   ],
   "note": "Modelled: points that miss the requirements by a tolerance (`TolSpec.v`), model and `solve` as in C26/C36. Proof: residuals of rows and functions are differences minus slacks (the places of C23), bounds from C25; the converse by setting each slack to its difference."
  },
  {
   "property": "C70",
   "status": "proved",
   "theorems": [
    "C70_sound",
    "C70_complete",
    "C70_objective",
    "C70_optimal",
    "C70_solve"
   ],
   "note": "Modelled: as C68, with real points that miss the binary64 data by a tolerance (`RawSpec.v` (expressions of any shape), `PostSpec.v`). Proof: rows as sums over cells compared with the exact coefficients (`PostProofs.v`) by the entry-wise bounds of C68, bounds by the order of floats (C67), slacks as in C69."
  },
  {
   "property": "C71",
   "status": "proved",
   "theorems": [
    "C71_derivative",
    "C71_second",
    "C71_gradient",
    "C71_hessian"
   ],
   "note": "Modelled: as C60, the programs also giving the degree and the real function of each expression (`PolySpec.v`). Proof: `DerivSim.v`: the path sums in binary64 and in exact arithmetic built from related expressions stay related, with sizes at most size times degree (`DegProofs.v`: degrees of what constructors and path sums build); then C13/C14 for the exact side, C60 for the value."
  },
  {
   "property": "C72",
   "status": "proved",
   "theorems": [
    "C72_polynomials",
    "C72_exact"
   ],
   "note": "Modelled: histories of model calls on integer polynomials, giving size, degree and real function of each expression (`PolyModelSpec.v`). Proof: `PolyHist.v`: every side and objective keeps its polynomial; `PolyComp.v`, `PolyParts.v`: gradient and Hessian entries of the functions, with slacks and absent variables; then the evaluation of the problem as in C30, in binary64."
  },
  {
   "property": "C73",
   "status": "proved",
   "theorems": [
    "C73_minlp",
    "C73_nlp",
    "C73_milp",
    "C73_lp",
    "C73_new",
    "C73_evaluate",
    "C73_history",
    "C73_solution"
   ],
   "note": "Modelled: the four problem constructors, `evaluate`, `combine_h` for arbitrary evaluation functions. Proof: case analysis of the assertions, loop invariant of the pattern, induction on histories of calls."
  },
  {
   "property": "C74",
   "status": "proved",
   "theorems": [
    "C74_variables",
    "C74_rows",
    "C74_linear",
    "C74_nonlinear",
    "C74_negation",
    "C74_maximize"
   ],
   "note": "Modelled: `std_problem`, the evaluation closures, `derivative(s)`, `std_components` over any arithmetic; negation in binary64. Proof: the stored programs are those expressions (simulation of two calls at different moments), positions by bijection; evaluation depends only on the variables that occur, and derivatives mention no others; `-1 * x` and sums of negated terms are exact in binary64."
  },
  {
   "property": "C75",
   "status": "proved",
   "theorems": [
    "C75_programs",
    "C75_value",
    "C75_derivative",
    "C75_model"
   ],
   "note": "Modelled: `derivative`, `partial`, path products and sums over binary64; the evaluation closures through C74. Proof: an estimate per expression and one term per occurrence of the variable; each step down a path multiplies by a factor whose estimate is known (`mul_nn_good`), the sum of the terms by `add_nn_good`; the exact part is the real derivative by the product rule (second derivatives: C81)."
  },
  {
   "property": "C76",
   "status": "proved",
   "theorems": [
    "C76_accurate",
    "C76_value",
    "C76_derivative",
    "C76_model"
   ],
   "note": "Modelled: the same for `sin`, `cos` and quotients by expressions; `sin`/`cos` of binary64 are any functions within 2^-53 of the real ones. Proof: sine and cosine are 1-Lipschitz, so they add their argument's error and one rounding; a quotient is bounded when the error bound of its denominator is at most half its value (`safe_denominator`); the induction of C75 with these cases; accurate `sin`/`cos` are exhibited (`C76_accurate`)."
  },
  {
   "property": "C77",
   "status": "proved",
   "theorems": [
    "C77_argument",
    "C77_other",
    "C77_itself",
    "C77_panics",
    "C77_exact",
    "C77_exact_refuted"
   ],
   "note": "Modelled: `partial` of every kind of node. Proof: `PartialSpec.operation` is the operation as a function of the list of its arguments' values; cases on the node with the evaluation lemmas of the operators; panics by cases, with `x / 1e-200` as the f64 case."
  },
  {
   "property": "C78",
   "status": "proved",
   "theorems": [
    "C78_variables",
    "C78_affine",
    "C78_affine_refuted",
    "C78_derivative",
    "C78_gradient",
    "C78_panics",
    "C78_zero_denominator"
   ],
   "note": "Modelled: arbitrary `node` trees, i.e. also those of the raw constructors; `std_properties`, `derivative`, `std_components`. Proof: only identity of equal nodes is assumed (`RawSpec.identities`); the inductions of C10, C11, C13, C18 without the canonical form, for which \"without variables\" replaces \"constant\"; panics by a closure argument over all operators; the false affine form is a theorem."
  },
  {
   "property": "C79",
   "status": "proved",
   "theorems": [
    "C79_violation",
    "C79_row",
    "C79_solve"
   ],
   "note": "Modelled: `violation` against the rows of nonlinear constraints and what `solve` records, in binary64. Proof: `GapSpec` gives the real violation, the excess of a slack, what an answer up to tolerances is, and the estimates of both paths; the value of a row is the difference of the sides minus *its own* slack (`nonlinear_slacks`, which also gives the bound the slack has), C76's estimates of the sides, C67's tightest bounds, the triangle inequality."
  },
  {
   "property": "C80",
   "status": "proved",
   "theorems": [
    "C80_exact",
    "C80_returns",
    "C80_rounded"
   ],
   "note": "Modelled: What Ipopt is told about a model. Proof: `ToldSpec` says, request by request, what the right numbers are in terms of the constraints of the model and the positions announced (C50/C51); C49's reply = contents of the buffers, C74's contents of the buffers = numbers of the expressions, glued position by position (Jacobian: linear rows first, nonlinear rows shifted; Hessian: objective block, then one block per multiplier); `C80_returns` composes with C58 for whole solves; the rounding version uses C76/C79's estimates (class Nlp), and C81's for the Hessian."
  },
  {
   "property": "C81",
   "status": "proved",
   "theorems": [
    "C81_derivative",
    "C81_model"
   ],
   "note": "Modelled: `derivative` twice, over binary64; the Hessians of the evaluation closures. Proof: besides C75/C76's estimate of evaluating, an estimate of the *derivative* of each factor, because what counts is the derivative of the function that was built: constants folded while multiplying drift from the exact ones. `drift_terms` carries the pair (factors so far, their derivative) down each occurrence; products of nodes by cases on the simplifications of `mul` (`product`), sums by terms; second half: those terms are the derivatives of the terms of the exact first derivative (`drift_derivative`), and denominators stay non-zero near a point (`nz_around`); C74 for the Hessians."
  },
  {
   "property": "C82",
   "status": "proved",
   "theorems": [
    "C82_coefficient",
    "C82_constant",
    "C82_first_order"
   ],
   "note": "Modelled: `std_properties` over binary64; the coefficients, gradients and Jacobians of a problem. Proof: `AffSpec` gives the estimate of a coefficient by recursion on the expression (a sum adds, a product or quotient by a constant scales); by induction, `coef_sv` shows the coefficient made by the merging of hash maps is the derivative up to that estimate, an absent coefficient being a derivative that is zero up to it. In models, C74 says which number sits at each row and column; C82's and C76's bounds hold of each, and the weighted sums over the rows are compared term by term (`weighted_close`). Columns of slacks are not covered (they hold -1 or 0, C74)."
  },
  {
   "property": "C83",
   "status": "proved",
   "theorems": [
    "C83_first_order"
   ],
   "note": "Modelled: `Model::solve`: what it records, `std_problem`, over binary64. Proof: Slack columns hold -1 in their row and zero elsewhere (`row_new`, and C74's rows with the slack identified by the bounds it owns), so stationarity of such a column ties the multiplier of the row to that of the slack's bound, which is the recorded dual (C67) up to eps + tau (`close_dual`); a bound constraint has coefficient one, and the recorded duals of the bounds of one variable add up to its bound multipliers (`bu_sum`, `bl_sum`); the residual of the column is then a sum over the constraints (`told_sum`), compared with the true combination row by row using C82 (`one_share`)."
  },
  {
   "property": "C84",
   "status": "proved",
   "theorems": [
    "C84_complementary"
   ],
   "note": "Modelled: `Model::solve`: what it records, `std_problem`, over binary64. Proof: The bound of a slack is 0 and its own (`upper_zero`, `lower_zero`, from the tightest-bound theorem), so the sign and the product of the recorded dual with the slack are those of a bound of the problem; the slack differs from left minus right side by what the row misses (delta) and by rounding: an affine expression is its value at zero plus derivatives times variables (`affine_real`), its stored constant and coefficients are near those (C82), the slack's column holds -1 (`linear_close`); a nonlinear row evaluates the expression minus the slack (C75, `nonlinear_close`); a bound constraint owns its multiplier or records none (`bound_multiplier`). The two specifications are in `SlackSpec.v`."
  },
  {
   "property": "C85",
   "status": "proved",
   "theorems": [
    "C85_feasible"
   ],
   "note": "Modelled: `Model::solve`: what it records, `std_problem`, over binary64, all classes. Proof: As C84 for rows; the value of a slack is on its side of zero up to eps because its own bound is the bound of the problem; a bound constraint is implied by the tightest one (C25 over binary64); integer flags by C28."
  },
  {
   "property": "C86",
   "status": "proved",
   "theorems": [
    "C86_optimal",
    "C86_affine",
    "C86_linear",
    "C86_gap",
    "C86_convex"
   ],
   "note": "Modelled: `Model::solve`: what it records, over binary64, convex models. Proof: Approximate weak duality: the tangents of the objective and of the constraints at the recorded point, weighted by the recorded duals (C83 by each variable, derivatives unique), sum to the slope of the objective up to the column errors; signs of duals from C84; the double sum over variables and constraints is exchanged; an affine expression equals its tangent (`affine_real`, `affine_dval`), so for a model of affine expressions the bound holds against every feasible point with no tangent condition left (`C86_linear`); C84 and C85 bound the share of each constraint by the tolerances (`C86_gap`). Convexity between the two points, in the usual sense, gives the tangent conditions (`C86_convex`): the derivative of an expression along a segment is the slope (`segment_derivative`), and a chord lies above the tangent. Tangents and gap are in `ConvSpec.v`."
  }
 ]
}