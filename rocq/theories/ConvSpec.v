(** Specification vocabulary: tangents of real functions of many variables, and the distance from
    optimality of a solved model, in binary64. *)
From Verif Require Import Base Num Node NodeStd Constraint Matrix MatSpec Problem ModelStd Model ExprSpec ModelSpec KktSpec TextSpec ExactSpec RoundSpec PolySpec CoefSpec DerEstSpec BitSpec AffSpec LagSpec SlackSpec.
From Coq Require Import Reals.
Local Open Scope R_scope.

(** The linear part, along the cells [L], of the function with derivatives [D] at [r]: its change from [r] to [z]. *)
Definition slope (L : list nat) (D r z : nat -> R) : R := total (map (fun c => D c * (z c - r c)) L).
(** [D] are the derivatives of [f] at [r] by the variables of the model [m]. *)
Definition derivatives_at (m : model F) (f : (nat -> R) -> R) (D r : nat -> R) : Prop :=
  forall v, model_var m v -> cell_derivative f (nid v) r (D (nid v)).
(** At [z], the function [f] is on the side of its tangent at [r] that a convex problem asks of an
    expression with this relation to zero: above for [<=], below for [>=], on it for [=]. *)
Definition on_side (kd : ckind) (L : list nat) (f : (nat -> R) -> R) (D r z : nat -> R) : Prop :=
  match kd with
  | Equal => f z = f r + slope L D r z
  | LessEqual => f r + slope L D r z <= f z
  | GreaterEqual => f z <= f r + slope L D r z
  end.
(** The relation with zero. *)
Definition to_zero (kd : ckind) (a : R) : Prop := match kd with Equal => a = 0 | LessEqual => a <= 0 | GreaterEqual => 0 <= a end.
(** What a constraint adds to the distance from optimality: its multiplier times left minus right
    side at [r] (zero if it is complementary), and for an inequality whose multiplier may be as
    small as [-eta], that times the slope. *)
Definition gap_share (eta : R) (L : list nat) (r z : nat -> R) (m' : model F) (cdD : constraint F * (node F * (nat -> R))) : R :=
  let '(c, (d, D)) := cdD in Rabs (recorded_dual m' c * real_value d r) + bound_slop eta c * Rabs (slope L D r z).
(** What a variable adds: the error of the first-order condition (C83) by it. *)
Definition column_error (num : Num F) (eps tau : R) (m' : model F) (cs : list (constraint F)) (e : node F) (ds : list (node F)) (Ds : list (nat -> R)) (r : nat -> R) (c : nat) : R :=
  eps + 2 * tau + first_error num c r e + total (map (share num c r (eps + tau) m') (combine cs (combine ds (map (fun D => D c) Ds)))).
