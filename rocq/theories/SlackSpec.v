(** Specification vocabulary: signs and complementarity of recorded multipliers in binary64, up to
    tolerances and rounding. *)
From Verif Require Import Base Num Node NodeStd Constraint Matrix MatSpec Problem ModelStd Model ExprSpec ModelSpec KktSpec TextSpec ExactSpec RoundSpec PolySpec CoefSpec DerEstSpec BitSpec AffSpec LagSpec TolSpec.
From Coq Require Import Reals Floats.SpecFloat.
Local Open Scope R_scope.

(** Entry [j] of a list of numbers, as a real number (zero past its end). *)
Definition entry (l : list F) (j : nat) : R := float_value (nth j l (flit 0)).
(** Row [i] of  A x - b  in real arithmetic, from the stored numbers, for [n] variables. *)
Definition linear_miss (a : coo F) (b : list F) (n : nat) (x : list F) (i : nat) : R :=
  total (map (fun j => stored a i j * entry x j) (seq 0 n)) - entry b i.

(** The answer [s] of a solver to the problem of [sp] satisfies the rows up to [delta] for the
    numbers of the problem; the multipliers of bounds are at least [-eta], and their products with
    the distance to the bound at most [eta]. *)
Record near_complementary (eta delta : R) (sp : std_prob F) (s : sol F) : Prop := {
  nc_x : length (s_x s) = m_nx (base_of (sp_prob sp));
  nc_finite : Forall (fun y => finiteb y = true) (s_x s);
  nc_linear : forall i, (i < length (m_b (base_of (sp_prob sp))))%nat ->
    finiteb (nth i (m_b (base_of (sp_prob sp))) (flit 0)) = true /\
    (forall j, stored_finite (m_a (base_of (sp_prob sp))) i j) /\
    Rabs (linear_miss (m_a (base_of (sp_prob sp))) (m_b (base_of (sp_prob sp))) (m_nx (base_of (sp_prob sp))) (s_x s) i) <= delta;
  nc_nonlinear : forall q, minlp_evaluate (base_of (sp_prob sp)) (s_x s) = Ok q ->
    forall i y, nth_error (b_f (m_bufs q)) i = Some y -> finiteb y = true /\ Rabs (float_value y) <= delta;
  nc_upper : forall j u, nth_error (m_u (base_of (sp_prob sp))) j = Some u ->
    finiteb u = true /\ - eta <= multiplier (s_mu s) j /\ Rabs (multiplier (s_mu s) j * (float_value u - entry (s_x s) j)) <= eta;
  nc_lower : forall j l, nth_error (m_l (base_of (sp_prob sp))) j = Some l ->
    finiteb l = true /\ - eta <= multiplier (s_pi s) j /\ Rabs (multiplier (s_pi s) j * (entry (s_x s) j - float_value l)) <= eta
}.

(** How far the number a problem holds for the expression [d] can be from the real function it
    stands for.  An affine one has a constant term and a coefficient for each of its variables (the
    cells below [k]); another one is evaluated together with its slack. *)
Definition row_est (d : node F) (sl : option (node F)) : est :=
  match sl with None => est_of d | Some v => e_sub (est_of d) (est_of v) end.
Definition row_error (num : Num F) (k : nat) (r : nat -> R) (sl : option (node F)) (d : node F) : R :=
  if p_affine (@std_properties F num d)
  then error_bound (e_ops (est_of d)) (e_mag (est_of d) (fun _ => 0)) + cells k (fun c => first_error num c r d * Rabs (r c))
  else error_bound (e_ops (row_est d sl)) (e_mag (row_est d sl) r).

(** The answer [s] of a solver to the problem of [sp] is feasible for the numbers of the problem:
    rows up to [delta], bounds and integers up to [eps]. *)
Record near_feasible (eps delta : R) (sp : std_prob F) (s : sol F) : Prop := {
  nf_x : length (s_x s) = m_nx (base_of (sp_prob sp));
  nf_finite : Forall (fun y => finiteb y = true) (s_x s);
  nf_linear : forall i, (i < length (m_b (base_of (sp_prob sp))))%nat ->
    finiteb (nth i (m_b (base_of (sp_prob sp))) (flit 0)) = true /\
    (forall j, stored_finite (m_a (base_of (sp_prob sp))) i j) /\
    Rabs (linear_miss (m_a (base_of (sp_prob sp))) (m_b (base_of (sp_prob sp))) (m_nx (base_of (sp_prob sp))) (s_x s) i) <= delta;
  nf_nonlinear : forall q, minlp_evaluate (base_of (sp_prob sp)) (s_x s) = Ok q ->
    forall i y, nth_error (b_f (m_bufs q)) i = Some y -> finiteb y = true /\ Rabs (float_value y) <= delta;
  nf_upper : forall j u, nth_error (m_u (base_of (sp_prob sp))) j = Some u -> finite64 u /\ entry (s_x s) j <= float_value u + eps;
  nf_lower : forall j l, nth_error (m_l (base_of (sp_prob sp))) j = Some l -> finite64 l /\ float_value l - eps <= entry (s_x s) j;
  nf_integer : forall j, nth_error (m_p (base_of (sp_prob sp))) j = Some true -> near_integer eps (entry (s_x s) j)
}.
(** The error allowed: an equality has no slack. *)
Definition bound_slop (eps : R) (c : constraint F) : R := match ckd c with Equal => 0 | _ => eps end.
