(** Specification vocabulary: what approximate solutions of the binary64 data of a linear model
    say about the exact model. *)
From Verif Require Import Base Num Node NodeStd Constraint Matrix MatSpec Problem ModelStd ExprSpec ModelSpec ModelApi FmtProofs TextSpec ExactSpec
     RoundSpec CoefSpec TolSpec.
From Coq Require Import Reals.
Local Open Scope R_scope.

(** The exact value of an affine expression with estimate [e], as a function of the numbers [r]
    of the cells below [n], and its magnitude: all coefficients and numbers by absolute value. *)
Definition exact_value (n : nat) (e : aest) (r : nat -> R) : R := a_coef e None + cells n (fun c => a_coef e (Some c) * r c).
Definition magnitude (n : nat) (e : aest) (r : nat -> R) : R := a_mag e None + cells n (fun c => a_mag e (Some c) * Rabs (r c)).
(** How much rounding may matter for a comparison of two such expressions. *)
Definition rounding (n : nat) (ea eb : aest) (r : nat -> R) : R :=
  error_bound (a_ops (a_sub ea eb)) (magnitude n (a_sub ea eb) r).

(** All the numbers handed to the solver are finite. *)
Definition data_finite (p : problem F) : Prop :=
  Forall finite64 (m_b (base_of p)) /\ Forall (fun e => finite64 (snd e)) (entries (m_a (base_of p))) /\
  Forall finite64 (m_l (base_of p)) /\ Forall finite64 (m_u (base_of p)) /\ Forall finite64 (lin_c p).

(** The real numbers [x] satisfy A x = b, l <= x <= u and the integrality requirements up to
    [eps], the data being read as real numbers. *)
Definition data_within (eps : R) (p : problem F) (x : list R) : Prop :=
  length x = m_nx (base_of p) /\
  (forall r b, nth_error (m_b (base_of p)) r = Some b -> Rabs (rowR (m_a (base_of p)) r x - fval b) <= eps) /\
  (forall i y, nth_error x i = Some y ->
     (exists l u, nth_error (m_l (base_of p)) i = Some l /\ nth_error (m_u (base_of p)) i = Some u /\
                  fval l - eps <= y <= fval u + eps) /\
     (nth_error (m_p (base_of p)) i = Some true -> near_integer eps y)).

(** The numbers [r] of the cells are those that [x] gives to the variables of the model (those
    that are not slacks). *)
Definition reads (k : nat) (sp : std_prob F) (x : list R) (r : nat -> R) : Prop :=
  forall v i, In (v, i) (sp_var2index sp) -> (nid v < k)%nat -> nth_error x i = Some (r (nid v)).

(** The numbers [r] satisfy the exact model up to [eps]: every constraint has estimates whose
    exact values are related up to [eps], differ by at most [B], and whose rounding matters by
    at most [rho]; variables lie within [B], integer ones near integers. *)
Definition exact_within (st : mstate F) (es : list aest) (m : model F) (eps rho B : R) (r : nat -> R) : Prop :=
  (forall v, model_var m v -> Rabs (r (nid v)) <= B /\ (is_integer v = true -> near_integer eps (r (nid v)))) /\
  Forall (fun c => exists ea eb, has_est st es (clhs c) ea /\ has_est st es (crhs c) eb /\
            rel_within eps (ckd c) (exact_value (st_k st) ea r) (exact_value (st_k st) eb r) /\
            Rabs (exact_value (st_k st) ea r - exact_value (st_k st) eb r) <= B /\
            rounding (st_k st) ea eb r <= rho) (md_constraints m).

(** All the bounds that constraints put on variables are finite (also those that are not the
    tightest, which the problem does not contain). *)
Definition bounds_finite `{Num F} `{HashOrd} (m : model F) (k : nat) : Prop :=
  forall obj cs k', model_std m k = Ok ((obj, cs), k') ->
  Forall (fun e => finite64 (snd (fst e))) (cs_u cs) /\ Forall (fun e => finite64 (snd (fst e))) (cs_l cs).

(** How much rounding may matter for the objective (its constant is not in the problem). *)
Definition obj_rounding (n : nat) (e : aest) (r : nat -> R) : R :=
  error_bound (a_ops e) (cells n (fun c => a_mag e (Some c) * Rabs (r c))).
