(** Specification vocabulary: what Ipopt should be told about a model. *)
From Verif Require Import Base Num Node NodeStd Constraint Matrix MatSpec Problem ModelStd ExprSpec DiffSpec ConstrSpec ModelSpec EvalSpec Ipopt IpoptSpec.
From Coq Require Import Reals.

(** The constraint functions, numbered: a linear row keeps its number, the
    nonlinear functions come after the [na] rows.  The function of a constraint is left
    minus right side, minus the slack of an inequality ([fun_value]); constraints that are
    bounds on one variable have none. *)
Definition functions (m : model X) (slots : list (slot X)) (na : nat) : list (nat * constraint X * option nodeX) :=
  flat_map (fun cs => match snd cs with
                      | SBound _ _ => []
                      | SRow r s => [(r, fst cs, s)]
                      | SFun r s => [((na + r)%nat, fst cs, s)]
                      end) (combine (md_constraints m) slots).

(** The entry at row [r], column [c] of a matrix given by three arrays. *)
Definition entry_at (rows cols : list Z) (vals : list X) (r c : nat) : X :=
  xsum (map snd (filter (fun e => (fst (fst e) =? Z.of_nat r)%Z && (snd (fst e) =? Z.of_nat c)%Z) (combine (combine rows cols) vals))).

(** Ipopt's Lagrangian [factor * objective + sum_k lambda_k * function_k]. *)
Definition lagrangian_of (m : model X) (fs : list (nat * constraint X * option nodeX)) (factor : R) (la : list R) (vs : valsX) : X :=
  x2 Rplus (x2 Rmult (Some factor) (obj_value m vs))
           (xsum (map (fun e => x2 Rmult (Some (nth (fst (fst e)) la 0%R)) (fun_value (snd (fst e)) (snd e) vs)) fs)).

(** The arguments of a request are real numbers. *)
Definition real_call (c : cb X) : Prop :=
  (forall xs, point_of c = Some xs -> exists x, xs = pt x) /\
  match c with
  | EvalH _ _ _ factor _ la _ _ _ _ _ => (exists f, factor = Some f) /\ forall l, la = Some l -> exists y, l = pt y
  | _ => True
  end.

(** The right answers, in terms of the model.  The objective may miss a constant
    ([shift]).  The Jacobian's values belong to the positions [jac_rows], [jac_cols], the
    Hessian's to those of [lag_pos] (which a request for the structure reports); only
    Hessian requests with new multipliers are considered. *)
Definition model_reply (m : model X) (sp : std_prob X) (q0 : minlp X) (fs : list (nat * constraint X * option nodeX)) (shift : X)
           (c : cb X) (r : reply X) : Prop :=
  match c with
  | EvalF _ (Some xs) _ _ =>
    exists phi, r = mk_reply true (Some [phi]) None None /\ obj_value m (at_point sp xs) = x2 Rplus phi shift
  | EvalGradF _ (Some xs) _ _ =>
    exists g, r = mk_reply true (Some g) None None /\ length g = m_nx q0 /\
      (obj_value m (at_point sp xs) <> None -> gradient_at (sp_var2index sp) (obj_value m) (at_point sp xs) (nth_error g))
  | EvalG _ (Some xs) _ _ _ =>
    exists g, r = mk_reply true (Some g) None None /\ length g = length fs /\
      forall k c sl, In (k, c, sl) fs -> nth_error g k = Some (fun_value c sl (at_point sp xs))
  | EvalJacG _ (Some xs) _ _ _ ir jc (Some _) =>
    exists vals, r = mk_reply true (Some vals) ir jc /\ length vals = nnzj q0 /\
      forall k c sl, In (k, c, sl) fs -> fun_value c sl (at_point sp xs) <> None ->
        gradient_at (sp_var2index sp) (fun_value c sl) (at_point sp xs) (fun i => Some (entry_at (jac_rows q0) (jac_cols q0) vals k i))
  | EvalH _ (Some xs) _ factor _ (Some la) new_lambda _ ir jc (Some _) =>
    new_lambda = 1%Z ->
    exists vals, r = mk_reply true (Some vals) ir jc /\ length vals = nnzh q0 /\
      (obj_value m (at_point sp xs) <> None ->
       (forall k c sl, In (k, c, sl) fs -> fun_value c sl (at_point sp xs) <> None) ->
       forall f y v i w j, factor = Some f -> la = pt y ->
         In (v, i) (sp_var2index sp) -> In (w, j) (sp_var2index sp) -> (j <= i)%nat ->
         exists l,
           entry_at (map (fun ij => Z.of_nat (fst ij)) (lag_pos (m_bufs q0))) (map (fun ij => Z.of_nat (snd ij)) (lag_pos (m_bufs q0))) vals i j = Some l /\
           second_partial_of (lagrangian_of m fs f y) (at_point sp xs) v w l /\
           second_partial_of (lagrangian_of m fs f y) (at_point sp xs) w v l)
  | _ => True
  end.
