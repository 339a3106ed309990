{
 "C06": {
  "note": "The exact panic condition is proved for every number type, and the concrete binary64 history (x+5)+(-5) is proved to panic."
 },
 "C13": {
  "note": "Proved for expressions without a self-quotient; the wrong derivative of x/x is proved as a refutation of the unrestricted claim."
 },
 "C15": {
  "note": "Which panic is possible is proved for every history; affine expressions never panic; a concrete binary64 history that panics is given."
 },
 "C49": {
  "note": "Values proved right for every legal history; the Jacobian structure is refuted in general (missing row offset) and proved right exactly when there are no linear rows or no J entries."
 },
 "C50": {
  "note": "Right whenever new_lambda is set, structure always right, exact answer in the remaining cases, and two concrete wrong answers."
 },
 "C51": {
  "note": "Also proved: errors, the library object leaked on errors after its creation, and that a lawful library always gets its answers."
 },
 "C20": {
  "note": "Includes the undefined case: equality gives NaN, inequalities give 0."
 },
 "C22": {
  "note": "Exact panic condition; a concrete model for which std_problem panics is given."
 },
 "C26": {
  "note": "Both directions, the box every feasible point lies in, and the counterexample without it."
 },
 "C43": {
  "note": "Reading back is done by an independent grammar of LP files; the exact hypotheses are in the statement, with the failure for a zero row."
 },
 "C44": {
  "note": "In binary64, for every finite float; the failure next to the largest float is a theorem."
 },
 "C46": {
  "note": "Exact panic condition for every file content."
 },
 "C48": {
  "note": "For every behaviour of the external command; the two ways in which a file is left are theorems as well."
 },
 "C52": {
  "note": "Exact arithmetic; a concrete binary64 difference is given."
 },
 "C53": {
  "note": "Exact arithmetic for solutions and derivatives, every number type for the data; the dependence of panics on the order is a theorem with a concrete binary64 model."
 },
 "C54": {
  "note": "Exact arithmetic; C54_linear also allows self-quotients since the model is affine. Values on the default bounds are excluded: there the multiplier of a default bound has no constraint."
 },
 "C55": {
  "note": "Exact arithmetic."
 }
}