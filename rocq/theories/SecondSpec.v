(** Specification vocabulary: rounding errors of second derivatives. *)
From Verif Require Import Base Num Node NodeDiff ExprSpec TextSpec ExactSpec RoundSpec PolySpec DerEstSpec.
From Coq Require Import Reals Floats.SpecFloat.
Local Open Scope R_scope.

(** [l] is the second derivative of [f], with respect to cell [c] and then cell [c'], at [r]: near
    [r], [f] has a derivative with respect to [c], and the derivative of that with respect to
    [c'] at [r] is [l].  (For functions that have derivatives everywhere, [cell_derivative2].) *)
Definition second_derivative (f : (nat -> R) -> R) (c c' : nat) (r : nat -> R) (l : R) : Prop :=
  exists g, (exists eps, 0 < eps /\ forall t, Rabs (t - r c') < eps -> cell_derivative f c (set_cell r c' t) (g (set_cell r c' t))) /\
            cell_derivative g c' r l.

(** The derivative of an expression's real function. *)
Definition slope (c : nat) (n : node F) (r : nat -> R) : R := e_val (derivative_est c n) r.
(** A number that is exact. *)
Definition e_exact (f : (nat -> R) -> R) : est := mk_est 0 f (fun r => Rabs (f r)).
(** The derivative of a product, from the estimates [a] of a factor, [a'] of its derivative and [p]
    of the other factor, the derivative of which is [s]. *)
Definition product_slope (a a' p : est) (s : (nat -> R) -> R) : est := e_add (e_mul a' p) (e_mul a (e_exact s)).

(** The terms of a derivative (see [occurrence_terms]) are products of numbers and expressions.
    They are differentiated once more here, with respect to cell [c']: [a] is the estimate of the
    factors met so far, [a'] that of their derivative. *)
Fixpoint drift_terms (c c' : nat) (n : node F) (a a' : est) : list est :=
  match n with
  | NVar i _ _ => if Nat.eqb i c then [a'] else []
  | NAdd _ args => flat_map (fun x => drift_terms c c' x a a') args
  | NMul _ x y =>
    drift_terms c c' x (e_mul a (est_of y)) (product_slope a a' (est_of y) (slope c' y)) ++
    drift_terms c c' y (e_mul a (est_of x)) (product_slope a a' (est_of x) (slope c' x))
  | NDiv _ x (NConst _ v) =>
    let p := e_div (e_const (flit 1)) v in
    drift_terms c c' x (e_mul a p) (product_slope a a' p (fun _ => 0))
  | NDiv _ x y =>
    let p := e_quot (e_const (flit 1)) (est_of y) in
    let q := e_quot (e_neg (est_of x)) (e_mul (est_of y) (est_of y)) in
    drift_terms c c' x (e_mul a p) (product_slope a a' p (fun r => - slope c' y r / (real_value y r * real_value y r))) ++
    drift_terms c c' y (e_mul a q) (product_slope a a' q (fun r =>
      (2 * real_value x r * slope c' y r - slope c' x r * real_value y r) / (real_value y r * real_value y r * real_value y r)))
  | NSin _ x =>
    let p := e_cos (est_of x) in drift_terms c c' x (e_mul a p) (product_slope a a' p (fun r => - sin (real_value x r) * slope c' x r))
  | NCos _ x =>
    let p := e_neg (e_sin (est_of x)) in drift_terms c c' x (e_mul a p) (product_slope a a' p (fun r => - cos (real_value x r) * slope c' x r))
  | NConst _ _ => []
  end.
(** How far the real function of the expression that was built for a derivative may be, in its
    derivative with respect to [c'], from the exact second derivative: the constants in it have
    been multiplied in binary64. *)
Definition drift_est (c c' : nat) (n : node F) : est := e_sum (drift_terms c c' n (e_const (flit 1)) (e_exact (fun _ => 0))).

(** If the number [y] is finite, it is [z] up to the rounding errors of evaluating the derivative of
    [d] by cell [c'], and those made when [d], the derivative of [n] by cell [c], was built. *)
Definition near_second (y : F) (z : R) (c c' : nat) (n d : node F) (r : nat -> R) : Prop :=
  finiteb y = true ->
  Rabs (float_value y - z) <=
    error_bound (e_ops (derivative_est c' d)) (e_mag (derivative_est c' d) r) + error_bound (e_ops (drift_est c c' n)) (e_mag (drift_est c c' n) r).

(** What is stored for the second derivative of [e] by [v] and [w], at the point [vs] that reads [r]:
    the derivative [d] of [e] by [v] is built, and its derivative by [w] evaluated.  Nothing stored
    counts as zero. *)
Definition near_hessian (num : Num F) (vs : vals F) (r : nat -> R) (e v w : node F) (l : list F) : Prop :=
  exists (HO : HashOrd) d k k', @derivative F num HO e v k = Ok (d, k') /\
    (finite_constants e -> finite_constants d -> safe_quotients num true vs r e -> safe_quotients num true vs r d ->
     exists y D, (l = [] /\ y = flit 0 \/ l = [y]) /\
      second_derivative (real_value e) (nid v) (nid w) r D /\ near_second y D (nid v) (nid w) e d r).
(** For any two variables: nothing is stored if one of them does not occur. *)
Definition near_second_of (num : Num F) (vs : vals F) (r : nat -> R) (e v w : node F) (l : list F) : Prop :=
  (occurs v e -> occurs w e -> near_hessian num vs r e v w l \/ near_hessian num vs r e w v l) /\
  (~ occurs v e \/ ~ occurs w e -> l = []).
