(** Specification vocabulary: Lagrange multipliers of a standard problem and of
    a model (independent of the code). *)
From Verif Require Import Base Num Node NodeStd Constraint Matrix MatSpec Problem ModelStd ExprSpec DiffSpec ConstrSpec ModelSpec EvalSpec.
From Coq Require Import Reals.
Local Open Scope R_scope.

Definition total (l : list R) : R := fold_right Rplus 0 l.

(** Component [i] of the transpose of [M] times [y]. *)
Definition tr_mul (M : coo X) (y : list R) (i : nat) : X :=
  xsum (map (fun r => x2 Rmult (coo_at M r i) (Some (nth r y 0))) (seq 0 (length y))).

(** First-order (Karush-Kuhn-Tucker) conditions of
      minimise phi(x) subject to A x = b, f(x) = 0, l <= x <= u
    with multipliers [lam] of the linear rows, [nu] of the nonlinear functions,
    [mu] of the upper and [pi] of the lower bounds:
      grad phi - A^T lam - J^T nu + mu - pi = 0,  mu, pi >= 0,
      mu (u - x) = 0,  pi (x - l) = 0. *)
Record kkt (p : problem X) (x lam nu mu pi : list R) : Prop := {
  kkt_feasible : feasible p x;
  kkt_lam : length lam = length (m_b (base_of p));
  kkt_mu : length mu = length x;
  kkt_pi : length pi = length x;
  kkt_stationary : exists q,
    minlp_evaluate (base_of p) (pt x) = Ok q /\ length nu = length (b_f (m_bufs q)) /\
    forall i, (i < length x)%nat -> exists g aty jtn,
      nth_error (b_gphi (m_bufs q)) i = Some (Some g) /\
      tr_mul (m_a (base_of p)) lam i = Some aty /\ tr_mul (b_j (m_bufs q)) nu i = Some jtn /\
      g - aty - jtn + nth i mu 0 - nth i pi 0 = 0;
  kkt_signs : forall i, (i < length x)%nat -> 0 <= nth i mu 0 /\ 0 <= nth i pi 0;
  kkt_slackness : forall i xi l u, nth_error x i = Some xi ->
    nth_error (m_l (base_of p)) i = Some (Some l) -> nth_error (m_u (base_of p)) i = Some (Some u) ->
    nth i mu 0 * (u - xi) = 0 /\ nth i pi 0 * (xi - l) = 0
}.

(** The sign with which a multiplier enters the Lagrangian
      objective - sum over = and >= of d (lhs - rhs) + sum over <= of d (lhs - rhs). *)
Definition signed (k : ckind) (d : R) : R := match k with LessEqual => - d | _ => d end.

(** The valuation [vs] with the numbers [d], one for each constraint, satisfies the
    first-order conditions of the model: it is feasible; the multipliers of
    inequalities are not negative, and zero unless the constraint is active; and the
    derivative of the objective (of minus the objective, if it is maximised) by each
    variable is the combination of the derivatives of left minus right sides. *)
Record lagrange (m : model X) (vs : valsX) (d : constraint X -> R) : Prop := {
  lg_feasible : model_feasible m vs;
  lg_sign : forall c, In c (md_constraints m) -> ckd c <> Equal -> 0 <= d c;
  lg_active : forall c r, In c (md_constraints m) -> ckd c <> Equal -> diff vs c = Some r -> d c * r = 0;
  lg_stationary : forall v, model_var m v -> exists g ds,
    partial_of (obj_value m) vs v g /\
    Forall2 (fun c l => partial_of (fun vs => diff vs c) vs v l) (md_constraints m) ds /\
    g = total (map (fun cl => signed (ckd (fst cl)) (d (fst cl)) * snd cl) (combine (md_constraints m) ds))
}.

(** The multiplier the solved model gives a constraint (zero if it has none). *)
Definition dual_value (m : model X) (c : constraint X) : R :=
  match hget constr_eqb c (md_duals m) with Some (Some r) => r | _ => 0 end.

(** The solver's answer [s] to problem [p] consists of real numbers and satisfies
    the first-order conditions. *)
Definition kkt_answer (p : problem X) (s : sol X) : Prop := exists x lam nu mu pi,
  s_x s = pt x /\ s_lam s = pt lam /\ s_nu s = pt nu /\ s_mu s = pt mu /\ s_pi s = pt pi /\ kkt p x lam nu mu pi.

(** Every value of the solution is strictly between -1e8 and 1e8, the bounds the
    standard problem has by default. *)
Definition inside_defaults (vs : valsX) : Prop := forall v r, In (v, Some r) vs -> Rabs r < 100000000.
