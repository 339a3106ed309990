(** Specification vocabulary for the evaluation of a standard problem. *)
From Verif Require Import Base Num Node NodeStd Constraint Matrix MatSpec Problem ModelStd ExprSpec DiffSpec ConstrSpec ModelSpec.
From Coq Require Import Reals.

(** Partial derivatives of any function of the variables (for the value of an
    expression these are [has_partial] and [has_second_partial] of DiffSpec.v). *)
Definition partial_of (F : valsX -> X) (vs : valsX) (v : nodeX) (l : R) : Prop :=
  exists x0, evaluate vs v = Some x0 /\ has_derivative (fun t => F (upd vs v t)) x0 l.
Definition second_partial_of (F : valsX -> X) (vs : valsX) (v1 v2 : nodeX) (l : R) : Prop :=
  exists x2 (d : posreal) (g : R -> R),
    evaluate vs v2 = Some x2 /\
    (forall t, (Rabs (t - x2) < d)%R -> partial_of F (upd vs v2 t) v1 (g t)) /\
    derivable_pt_lim g x2 l.

(** The entry of a matrix at row [r] and column [c]: the sum of the values
    stored for that position. *)
Definition coo_at (m : coo X) (r c : nat) : X :=
  xsum (map snd (filter (fun e => (fst (fst e) =? r)%nat && (snd (fst e) =? c)%nat) (entries m))).

(** The vector [g] is the gradient of [F] at [vs]: its component at the index of
    each variable is the partial derivative by that variable. *)
Definition gradient_at (v2i : list (nodeX * nat)) (F : valsX -> X) (vs : valsX) (g : nat -> option X) : Prop :=
  forall v i, In (v, i) v2i -> exists l, g i = Some (Some l) /\ partial_of F vs v l.
(** The matrix [h] holds the lower triangle of the Hessian of [F] at [vs]. *)
Definition hessian_at (v2i : list (nodeX * nat)) (F : valsX -> X) (vs : valsX) (h : coo X) : Prop :=
  forall v i w j, In (v, i) v2i -> In (w, j) v2i -> (j <= i)%nat ->
    exists l, coo_at h i j = Some l /\ second_partial_of F vs v w l /\ second_partial_of F vs w v l.

(** The function that constraint [c] contributes: left minus right side, minus
    the slack of an inequality. *)
Definition fun_value (c : constraint X) (sl : option nodeX) (vs : valsX) : X :=
  x2 Rminus (diff vs c) (slack_value vs sl).

(** The buffers [bf] hold the objective [F], the nonlinear functions and their
    first and second derivatives, at [vs]. *)
Record evaluated (sp : std_prob X) (m : model X) (slots : list (slot X)) (vs : valsX) (bf : bufs X) : Prop := {
  ev_phi : b_phi bf = obj_value m vs;
  ev_gphi : obj_value m vs <> None -> gradient_at (sp_var2index sp) (obj_value m) vs (nth_error (b_gphi bf));
  ev_hphi : obj_value m vs <> None -> hessian_at (sp_var2index sp) (obj_value m) vs (b_hphi bf);
  ev_nf : length (b_f bf) = length (flat_map fun_no slots);
  ev_nh : length (b_h bf) = length (b_f bf);
  ev_f : forall c r sl, In (c, SFun r sl) (combine (md_constraints m) slots) ->
    nth_error (b_f bf) r = Some (fun_value c sl vs);
  ev_j : forall c r sl, In (c, SFun r sl) (combine (md_constraints m) slots) -> fun_value c sl vs <> None ->
    gradient_at (sp_var2index sp) (fun_value c sl) vs (fun i => Some (coo_at (b_j bf) r i));
  ev_h : forall c r sl, In (c, SFun r sl) (combine (md_constraints m) slots) -> fun_value c sl vs <> None ->
    exists h, nth_error (b_h bf) r = Some h /\ hessian_at (sp_var2index sp) (fun_value c sl) vs h
}.
