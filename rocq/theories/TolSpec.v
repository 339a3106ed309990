(** Specification vocabulary for approximate solutions: the points and the
    valuations that miss their requirements by at most a tolerance
    (independent of the code that builds problems). *)
From Verif Require Import Base Num Node NodeStd Constraint Matrix MatSpec Problem ModelStd ExprSpec ConstrSpec ModelSpec.
From Coq Require Import Reals.
Local Open Scope R_scope.

(** The relation of a constraint, missed by at most [d]. *)
Definition rel_within (d : R) (kd : ckind) (a b : R) : Prop :=
  match kd with Equal => Rabs (a - b) <= d | LessEqual => a <= b + d | GreaterEqual => a >= b - d end.
(** Both sides have a value and the relation is missed by at most [d]. *)
Definition holds_within (d : R) (vs : valsX) (c : constraint X) : Prop :=
  exists a b, evaluate vs (clhs c) = Some a /\ evaluate vs (crhs c) = Some b /\ rel_within d (ckd c) a b.
(** Within [eps] of an integer. *)
Definition near_integer (eps r : R) : Prop := exists z, Rabs (r - IZR z) <= eps.

(** The valuation nearly satisfies the model: every variable has a value,
    integer variables one within [eps] of an integer; equalities are missed by
    at most [d], inequalities by at most [e]. *)
Definition model_near (eps d e : R) (m : model X) (vs : valsX) : Prop :=
  (forall v, model_var m v -> exists r, evaluate vs v = Some r /\ (is_integer v = true -> near_integer eps r)) /\
  Forall (fun c => holds_within (match ckd c with Equal => d | _ => e end) vs c) (md_constraints m).

(** The point [x] is feasible up to [eps] in each row, function, bound and
    integer component. *)
Definition feasible_within (eps : R) (p : problem X) (x : list R) : Prop :=
  length x = m_nx (base_of p) /\
  (forall r b, nth_error (m_b (base_of p)) r = Some b ->
     exists a b', ax_row p r (pt x) = Some a /\ b = Some b' /\ Rabs (a - b') <= eps) /\
  (exists q, minlp_evaluate (base_of p) (pt x) = Ok q /\
             Forall (fun f => exists r, f = Some r /\ Rabs r <= eps) (b_f (m_bufs q))) /\
  (forall i r, nth_error x i = Some r ->
     (exists l u, nth_error (m_l (base_of p)) i = Some (Some l) /\ nth_error (m_u (base_of p)) i = Some (Some u) /\
                  l - eps <= r <= u + eps) /\
     (nth_error (m_p (base_of p)) i = Some true -> near_integer eps r)).
(** ... and its objective value exceeds that of no feasible point by more than [delta]. *)
Definition optimal_within (eps delta : R) (p : problem X) (x : list R) : Prop :=
  feasible_within eps p x /\ exists a, prob_value p x (Some a) /\
  forall y b, feasible p y -> prob_value p y (Some b) -> a <= b + delta.
