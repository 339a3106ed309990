(** Specification vocabulary: what the rows handed to a nonlinear solver say about the
    constraints of the model, in binary64 arithmetic. *)
From Verif Require Import Base Num Node Constraint Problem ModelStd Model ExprSpec ModelSpec TextSpec ExactSpec RoundSpec PolySpec DerEstSpec.
From Coq Require Import Reals Floats.SpecFloat.
Local Open Scope R_scope.

(** The estimate of left minus right side. *)
Definition sides_est (c : constraint F) : est := e_sub (est_of (clhs c)) (est_of (crhs c)).
(** The estimate of left minus right side minus the slack of the row. *)
Definition full_est (c : constraint F) (sl : option (node F)) : est :=
  match sl with None => sides_est c | Some s => e_sub (sides_est c) (est_of s) end.
(** The number of the slack; an equality has none. *)
Definition slack_value (sl : option (node F)) (r : nat -> R) : R :=
  match sl with None => 0 | Some s => real_value s r end.
(** How far the slack is on the wrong side of zero: the slack of "left <= right" is at most
    zero, that of "left >= right" at least zero. *)
Definition slack_excess (k : ckind) (s : R) : R :=
  match k with Equal => Rabs s | LessEqual => Rmax 0 s | GreaterEqual => Rmax 0 (- s) end.
(** By how much the real functions of the sides of a constraint miss it. *)
Definition real_violation (c : constraint F) (r : nat -> R) : R :=
  let a := real_value (clhs c) r in let b := real_value (crhs c) r in
  match ckd c with Equal => Rabs (a - b) | LessEqual => Rmax 0 (a - b) | GreaterEqual => Rmax 0 (b - a) end.
(** The point [x] answers the problem up to [delta] in the rows of the nonlinear constraints, as
    evaluating the problem computes them, and up to [eps] in the bounds of the variables. *)
Record answer_within (num : Num F) (delta eps : R) (sp : std_prob F) (x : list F) : Prop := {
  aw_size : length x = m_nx (base_of (sp_prob sp));
  aw_rows : forall q, @minlp_evaluate F (base_of (sp_prob sp)) x = Ok q ->
              forall i y, nth_error (b_f (m_bufs q)) i = Some y -> finiteb y = true /\ Rabs (float_value y) <= delta;
  aw_bounds : forall i y l u, nth_error x i = Some y -> nth_error (m_l (base_of (sp_prob sp))) i = Some l -> nth_error (m_u (base_of (sp_prob sp))) i = Some u ->
              finite64 y /\ finite64 l /\ finite64 u /\ float_value l - eps <= float_value y <= float_value u + eps
}.
