(** Specification vocabulary: recorded multipliers and first-order conditions of the model in
    binary64, up to tolerances and rounding. *)
From Verif Require Import Base Num Node NodeStd Constraint Matrix MatSpec Problem ModelStd Model ExprSpec ModelSpec KktSpec TextSpec ExactSpec RoundSpec PolySpec DerEstSpec BitSpec AffSpec.
From Coq Require Import Reals Floats.SpecFloat.
Local Open Scope R_scope.

(** The real number at a place of a list of multipliers (zero past its end). *)
Definition multiplier (l : list F) (i : nat) : R := float_value (nth i l (flit 0)).
(** The multiplier the solved model records for a constraint; zero if there is none. *)
Definition recorded_dual (m' : model F) (c : constraint F) : R :=
  match hget constr_eqb c (md_duals m') with Some y => float_value y | None => 0 end.

(** The answer [s] of a solver to the problem of [sp] is stationary up to [eps] for the numbers
    of the problem, and the multipliers of bounds that are the defaults +-1e8 are at most [tau]. *)
Record near_stationary (num : Num F) (eps tau : R) (sp : std_prob F) (s : sol F) : Prop := {
  ns_x : length (s_x s) = m_nx (base_of (sp_prob sp));
  ns_residual : forall q, minlp_evaluate (base_of (sp_prob sp)) (s_x s) = Ok q ->
    forall j, (j < m_nx (base_of (sp_prob sp)))%nat ->
      column_finite (m_a (base_of (sp_prob sp))) (m_bufs q) j /\
      Rabs (told_residual (m_a (base_of (sp_prob sp))) (m_b (base_of (sp_prob sp))) (m_bufs q)
              (multiplier (s_lam s)) (multiplier (s_nu s)) (multiplier (s_mu s)) (multiplier (s_pi s)) j) <= eps;
  ns_upper : forall j, nth_error (m_u (base_of (sp_prob sp))) j = Some (@INF F num) -> Rabs (multiplier (s_mu s) j) <= tau;
  ns_lower : forall j, nth_error (m_l (base_of (sp_prob sp))) j = Some (@nneg F num (@INF F num)) -> Rabs (multiplier (s_pi s) j) <= tau
}.

(** The share of constraint [c] in the error: [d] is the expression of left minus right side, [D]
    its derivative by the variable with cell [v].  Multipliers of inequalities are known up to
    [delta] only, because they are recorded from the bound of the slack. *)
Definition dual_slop (delta : R) (c : constraint F) : R := match ckd c with Equal => 0 | _ => delta end.
Definition share (num : Num F) (v : nat) (r : nat -> R) (delta : R) (m' : model F) (cdD : constraint F * (node F * R)) : R :=
  let '(c, (d, D)) := cdD in
  (Rabs (recorded_dual m' c) + dual_slop delta c) * first_error num v r d + dual_slop delta c * Rabs D.
(** The combination of derivatives of left minus right sides with the recorded multipliers. *)
Definition combination (m' : model F) (cs : list (constraint F)) (Ds : list R) : R :=
  total (map (fun cD => signed (ckd (fst cD)) (recorded_dual m' (fst cD)) * snd cD) (combine cs Ds)).
