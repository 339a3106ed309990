(** Specification vocabulary for models and their standard problems
    (independent of the code that builds them). *)
From Verif Require Import Base Num Node NodeStd Constraint Matrix MatSpec Problem ModelStd ExprSpec ConstrSpec.
From Coq Require Import Reals.

(** The variables of a model: those in its objective and in its constraints. *)
Definition model_var {T} (m : model T) (v : node T) : Prop :=
  match md_objective m with Minimize f | Maximize f => occurs v f | EmptyObj => False end \/
  exists c, In c (md_constraints m) /\ (occurs v (clhs c) \/ occurs v (crhs c)).

(** The value of the expression to be minimised: the objective, or minus the
    objective to be maximised, or zero. *)
Definition obj_value (m : model X) (vs : valsX) : X :=
  match md_objective m with
  | Minimize f => evaluate vs f
  | Maximize f => x1 Ropp (evaluate vs f)
  | EmptyObj => Some 0%R
  end.

(** The valuation satisfies the model: every variable has a value, integer
    variables an integer one, and every constraint holds. *)
Definition model_feasible (m : model X) (vs : valsX) : Prop :=
  (forall v, model_var m v -> exists r, evaluate vs v = Some r /\ (is_integer v = true -> exists z, r = IZR z)) /\
  Forall (holds vs) (md_constraints m).

(** Every variable and every difference of two sides lies within [-B, B]. *)
Definition in_box (B : R) (m : model X) (vs : valsX) : Prop :=
  (forall v r, model_var m v -> evaluate vs v = Some r -> (Rabs r <= B)%R) /\
  Forall (fun c => forall a b, evaluate vs (clhs c) = Some a -> evaluate vs (crhs c) = Some b ->
                               (Rabs (a - b) <= B)%R) (md_constraints m).

(** The data of a problem, whatever its class. *)
Definition base_of {T} (p : problem T) : minlp T :=
  match p with
  | PMinlp q => q
  | PMilp q => milp_base q
  | PLp q => milp_base (lp_milp q)
  | PNlp q => nlp_base q
  end.
Inductive pclass := ClLp | ClMilp | ClNlp | ClMinlp.
Definition class_of {T} (p : problem T) : pclass :=
  match p with PMinlp _ => ClMinlp | PMilp _ => ClMilp | PLp _ => ClLp | PNlp _ => ClNlp end.

(** Row [r] of A times [x]. *)
Definition ax_row {T} `{Num T} (p : problem T) (r : nat) (x : list T) : T :=
  row_dot (row_of r (entries (m_a (base_of p)))) x.

(** The point [x] (real numbers) is feasible for the problem: A x = b, f(x) = 0,
    l <= x <= u, integer components where required. *)
Definition pt (x : list R) : list X := map Some x.
Definition feasible (p : problem X) (x : list R) : Prop :=
  length x = m_nx (base_of p) /\
  (forall r b, nth_error (m_b (base_of p)) r = Some b -> eqX (ax_row p r (pt x)) b) /\
  (exists q, minlp_evaluate (base_of p) (pt x) = Ok q /\ Forall (fun f => f = Some 0%R) (b_f (m_bufs q))) /\
  (forall i r, nth_error x i = Some r ->
     (exists l u, nth_error (m_l (base_of p)) i = Some l /\ nth_error (m_u (base_of p)) i = Some u /\
                  leX l (Some r) /\ leX (Some r) u) /\
     (nth_error (m_p (base_of p)) i = Some true -> exists z, r = IZR z)).
(** The objective value the problem computes at [x]. *)
Definition prob_value (p : problem X) (x : list R) (phi : X) : Prop :=
  exists q, minlp_evaluate (base_of p) (pt x) = Ok q /\ b_phi (m_bufs q) = phi.
(** [x] is an optimal point. *)
Definition optimal (p : problem X) (x : list R) : Prop :=
  feasible p x /\ exists a, prob_value p x (Some a) /\
  forall y b, feasible p y -> prob_value p y (Some b) -> (a <= b)%R.

(** The valuation that gives each variable of the standard problem its
    component of [x]. *)
Definition at_point {T} `{Num T} (sp : std_prob T) (x : list T) : vals T :=
  map (fun vi => (fst vi, nth (snd vi) x n0)) (sp_var2index sp).

(** How a constraint appears in the standard problem: a bound on a variable, a
    linear row, or a nonlinear function; rows of inequalities have a slack. *)
Inductive slot (T : Type) :=
| SBound (v : node T) (b : T)
| SRow (r : nat) (s : option (node T))
| SFun (r : nat) (s : option (node T)).
Arguments SBound {T}. Arguments SRow {T}. Arguments SFun {T}.
Definition row_no {T} (s : slot T) : list nat := match s with SRow r _ => [r] | _ => [] end.
Definition fun_no {T} (s : slot T) : list nat := match s with SFun r _ => [r] | _ => [] end.

Definition slack_of {T} (s : slot T) : list (node T) :=
  match s with SRow _ (Some v) | SFun _ (Some v) => [v] | _ => [] end.
(** The upper (lower) bounds a constraint contributes, given its place. *)
Definition upper_of {T} `{Num T} (cs : constraint T * slot T) : list (node T * T * constraint T) :=
  match ckd (fst cs), snd cs with
  | LessEqual, SBound v b => [(v, b, fst cs)]
  | LessEqual, SRow _ (Some s) | LessEqual, SFun _ (Some s) => [(s, n0, fst cs)]
  | _, _ => []
  end.
Definition lower_of {T} `{Num T} (cs : constraint T * slot T) : list (node T * T * constraint T) :=
  match ckd (fst cs), snd cs with
  | GreaterEqual, SBound v b => [(v, b, fst cs)]
  | GreaterEqual, SRow _ (Some s) | GreaterEqual, SFun _ (Some s) => [(s, n0, fst cs)]
  | _, _ => []
  end.
Definition uppers {T} `{Num T} (m : model T) (slots : list (slot T)) := flat_map upper_of (combine (md_constraints m) slots).
Definition lowers {T} `{Num T} (m : model T) (slots : list (slot T)) := flat_map lower_of (combine (md_constraints m) slots).

(** Left side minus right side. *)
Definition diff (vs : valsX) (c : constraint X) : X :=
  x2 Rminus (evaluate vs (clhs c)) (evaluate vs (crhs c)).
Definition slack_value (vs : valsX) (s : option nodeX) : X :=
  match s with Some v => evaluate vs v | None => Some 0%R end.

(** The bounds that inequality [c] puts on [v]: above for <=, below for >=. *)
Definition bounds_with {T} (cs : cstd T) (c : constraint T) (v : node T) (b : T) : Prop :=
  match ckd c with
  | LessEqual => In (v, b, c) (cs_u cs)
  | GreaterEqual => In (v, b, c) (cs_l cs)
  | Equal => False
  end.
(** Equalities have no slack; the slack of an inequality is a new continuous
    variable, bounded by zero on the right side. *)
Definition slack_ok (k : nat) (cs : cstd X) (c : constraint X) (s : option nodeX) : Prop :=
  match s with
  | None => ckd c = Equal
  | Some v => (k <= nid v)%nat /\ (exists i nm, v = NVar i nm VarContinuous) /\ bounds_with cs c v (Some 0%R)
  end.

(** Constraint [c] appears as [s] in the standard problem [sp] with nonlinear
    functions and bounds [cs]. *)
Definition slot_ok (k : nat) (cs : cstd X) (sp : std_prob X) (c : constraint X) (s : slot X) : Prop :=
  match s with
  | SBound v b =>
    bounds_with cs c v b /\ is_var v = true /\
    forall vs, diff vs c = x2 Rminus (evaluate vs v) b
  | SRow r sl =>
    hget Nat.eqb r (sp_acons sp) = Some c /\ slack_ok k cs c sl /\
    exists b, nth_error (m_b (base_of (sp_prob sp))) r = Some b /\
      forall x, length x = m_nx (base_of (sp_prob sp)) ->
        x2 Rminus (ax_row (sp_prob sp) r x) b =
        x2 Rminus (diff (at_point sp x) c) (slack_value (at_point sp x) sl)
  | SFun r sl =>
    hget Nat.eqb r (sp_jcons sp) = Some c /\ slack_ok k cs c sl /\
    exists f, nth_error (cs_f cs) r = Some f /\
      forall vs, evaluate vs f = x2 Rminus (diff vs c) (slack_value vs sl)
  end.

(** The places of all the constraints of a model: one each; the row numbers
    and the function numbers are 0, 1, 2, ... in the order of the constraints;
    the bounds are those the constraints contribute; each slack belongs to one
    constraint. *)
Record placed (k : nat) (m : model X) (cs : cstd X) (sp : std_prob X) (slots : list (slot X)) : Prop := {
  pl_slots : Forall2 (slot_ok k cs sp) (md_constraints m) slots;
  pl_rows : flat_map row_no slots = seq 0 (length (m_b (base_of (sp_prob sp))));
  pl_funs : flat_map fun_no slots = seq 0 (length (cs_f cs));
  pl_acons : length (sp_acons sp) = length (m_b (base_of (sp_prob sp)));
  pl_jcons : length (sp_jcons sp) = length (cs_f cs);
  pl_uppers : cs_u cs = uppers m slots;
  pl_lowers : cs_l cs = lowers m slots;
  pl_slacks : NoDup (flat_map slack_of slots)
}.

(** [u] is the upper bound of [v] resulting from the listed bounds and the
    default 1e8, and [oc] the constraint held responsible for it: the last one
    attaining it, or none when all the bounds are weaker than the default. *)
Definition tightest_upper (v : nodeX) (u : R) (oc : option (constraint X)) (bs : list (nodeX * X * constraint X)) : Prop :=
  (u <= 100000000)%R /\
  (forall b c, In (v, Some b, c) bs -> (u <= b)%R) /\
  match oc with
  | Some c => exists l1 l2, bs = l1 ++ (v, Some u, c) :: l2 /\
                            forall b c', In (v, Some b, c') l2 -> (u < b)%R
  | None => u = 100000000%R /\ forall b c, In (v, Some b, c) bs -> (100000000 < b)%R
  end.
Definition tightest_lower (v : nodeX) (l : R) (oc : option (constraint X)) (bs : list (nodeX * X * constraint X)) : Prop :=
  (- 100000000 <= l)%R /\
  (forall b c, In (v, Some b, c) bs -> (b <= l)%R) /\
  match oc with
  | Some c => exists l1 l2, bs = l1 ++ (v, Some l, c) :: l2 /\
                            forall b c', In (v, Some b, c') l2 -> (b < l)%R
  | None => l = (- 100000000)%R /\ forall b c, In (v, Some b, c) bs -> (b < - 100000000)%R
  end.

(** A matrix with [r] rows and [c] columns, three arrays of one length and all
    indices in range. *)
Definition mat_in {T} (r c : nat) (m : coo T) : Prop :=
  coo_rows m = r /\ coo_cols m = c /\
  length (coo_ri m) = length (coo_data m) /\ length (coo_ci m) = length (coo_data m) /\
  Forall (fun i => i < r) (coo_ri m) /\ Forall (fun i => i < c) (coo_ci m).

(** All the parts of a standard problem have matching sizes. *)
Record well_formed {T} (sp : std_prob T) : Prop := {
  wf_a : mat_in (length (m_b (base_of (sp_prob sp)))) (length (sp_var2index sp)) (m_a (base_of (sp_prob sp)));
  wf_j : mat_in (length (b_f (m_bufs (base_of (sp_prob sp))))) (length (sp_var2index sp)) (b_j (m_bufs (base_of (sp_prob sp))));
  wf_hphi : mat_in (length (sp_var2index sp)) (length (sp_var2index sp)) (b_hphi (m_bufs (base_of (sp_prob sp))));
  wf_h : Forall (mat_in (length (sp_var2index sp)) (length (sp_var2index sp))) (b_h (m_bufs (base_of (sp_prob sp))));
  wf_hn : length (b_h (m_bufs (base_of (sp_prob sp)))) = length (b_f (m_bufs (base_of (sp_prob sp))));
  wf_gphi : length (b_gphi (m_bufs (base_of (sp_prob sp)))) = length (sp_var2index sp);
  wf_l : length (m_l (base_of (sp_prob sp))) = length (sp_var2index sp);
  wf_u : length (m_u (base_of (sp_prob sp))) = length (sp_var2index sp);
  wf_p : length (m_p (base_of (sp_prob sp))) = length (sp_var2index sp);
  wf_x0 : exists x0, m_x0 (base_of (sp_prob sp)) = Some x0 /\ length x0 = length (sp_var2index sp);
  wf_c : match sp_prob sp with
         | PLp q => length (milp_c (lp_milp q)) = length (sp_var2index sp)
         | PMilp q => length (milp_c q) = length (sp_var2index sp)
         | _ => True
         end;
  wf_acons : map fst (sp_acons sp) = seq 0 (length (m_b (base_of (sp_prob sp))));
  wf_jcons : map fst (sp_jcons sp) = seq 0 (length (b_f (m_bufs (base_of (sp_prob sp)))));
  wf_ucons : NoDup (map fst (sp_ucons sp)) /\ Forall (fun i => i < length (sp_var2index sp)) (map fst (sp_ucons sp));
  wf_lcons : NoDup (map fst (sp_lcons sp)) /\ Forall (fun i => i < length (sp_var2index sp)) (map fst (sp_lcons sp))
}.
