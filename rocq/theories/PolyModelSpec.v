(** Specification vocabulary: models of integer polynomials in binary64. *)
From Verif Require Import Base Num Node NodeStd Constraint Matrix MatSpec Problem ModelStd Model ExprSpec ModelSpec Api ModelApi FmtProofs ExactSpec PolySpec.
From Coq Require Import Reals Floats.SpecFloat NArith.
Local Open Scope R_scope.

(** A polynomial with integer coefficients, as a function of the numbers of the cells, with its
    size (how large its value can get while it is evaluated, see [ExactSpec.op_size]) and its
    degree (how many factors may be multiplied together). *)
Record ipoly := mk_ipoly { q_size : N; q_degree : nat; q_val : (nat -> R) -> R }.
Definition q_num (z : Z) : ipoly := mk_ipoly (isize z) 0 (fun _ => IZR z).
(** A variable that does not exceed [V] in absolute value. *)
Definition q_var (V : N) (c : nat) : ipoly := mk_ipoly (N.max 1 V) 1 (fun r => r c).
Definition q_add (a b : ipoly) : ipoly := mk_ipoly (q_size a + q_size b) (Nat.max (q_degree a) (q_degree b)) (fun r => q_val a r + q_val b r).
Definition q_sub (a b : ipoly) : ipoly := mk_ipoly (q_size a + q_size b) (Nat.max (q_degree a) (q_degree b)) (fun r => q_val a r - q_val b r).
Definition q_mul (a b : ipoly) : ipoly := mk_ipoly (q_size a * q_size b) (q_degree a + q_degree b) (fun r => q_val a r * q_val b r).
Definition q_neg (a : ipoly) : ipoly := mk_ipoly (q_size a) (q_degree a) (fun r => - q_val a r).

(** The polynomial of the result of a call, from those of its operands. *)
Inductive poly_op (V : N) (k : nat) (ps : list ipoly) : op F -> ipoly -> Prop :=
| po_var s kd : poly_op V k ps (OVar s kd) (q_var V k)
| po_const v z : integer v z -> poly_op V k ps (OConst v) (q_num z)
| po_add_nn i j a b : nth_error ps i = Some a -> nth_error ps j = Some b -> poly_op V k ps (OAddNN i j) (q_add a b)
| po_add_ns i v z a : nth_error ps i = Some a -> integer v z -> poly_op V k ps (OAddNS i v) (q_add a (q_num z))
| po_add_sn i v z a : nth_error ps i = Some a -> integer v z -> poly_op V k ps (OAddSN v i) (q_add (q_num z) a)
| po_sub_nn i j a b : nth_error ps i = Some a -> nth_error ps j = Some b -> poly_op V k ps (OSubNN i j) (q_sub a b)
| po_sub_ns i v z a : nth_error ps i = Some a -> integer v z -> poly_op V k ps (OSubNS i v) (q_sub a (q_num z))
| po_sub_sn i v z a : nth_error ps i = Some a -> integer v z -> poly_op V k ps (OSubSN v i) (q_sub (q_num z) a)
| po_mul_nn i j a b : nth_error ps i = Some a -> nth_error ps j = Some b -> poly_op V k ps (OMulNN i j) (q_mul a b)
| po_mul_ns i v z a : nth_error ps i = Some a -> integer v z -> poly_op V k ps (OMulNS i v) (q_mul a (q_num z))
| po_mul_sn i v z a : nth_error ps i = Some a -> integer v z -> poly_op V k ps (OMulSN v i) (q_mul (q_num z) a)
| po_neg i a : nth_error ps i = Some a -> poly_op V k ps (ONeg i) (q_neg a)
| po_clone i a : nth_error ps i = Some a -> poly_op V k ps (OClone i) a.

Section Hist.
  Context `{Num F}.
  Variable V : N.
  (** Calls of models of integer polynomials whose sizes stay within the limit; other calls than
      those making expressions are unrestricted, but scalars compared with are integers. *)
  Inductive poly_call (st : mstate F) (ps : list ipoly) : call F -> list ipoly -> Prop :=
  | pc_expr o p : poly_op V (st_k st) ps o p -> (q_size p <= exact_limit)%N -> poly_call st ps (CExpr o) (ps ++ [p])
  | pc_nn i kd j label : poly_call st ps (CCmpNN i kd j label) ps
  | pc_ns i kd v z label : integer v z -> (isize z <= exact_limit)%N -> poly_call st ps (CCmpNS i kd v label) ps
  | pc_sn i kd v z label : integer v z -> (isize z <= exact_limit)%N -> poly_call st ps (CCmpSN v kd i label) ps
  | pc_new : poly_call st ps CNewModel ps
  | pc_add m i : poly_call st ps (CAddConstr m i) ps
  | pc_adds m is : poly_call st ps (CAddConstrs m is) ps
  | pc_obj m s i : poly_call st ps (CSetObj m s i) ps
  | pc_empty m : poly_call st ps (CSetEmpty m) ps
  | pc_init m vs : poly_call st ps (CInit m vs) ps
  | pc_solve m solver : poly_call st ps (CSolve m solver) ps
  | pc_key m i md vx : nth_error (st_models st) m = Some md -> nth_error (md_primals md) i = Some vx -> (N.max 1 V <= exact_limit)%N ->
      poly_call st ps (CPrimalKey m i) (ps ++ [q_var V (nid (fst vx))]).
  Inductive poly_hist : mstate F -> list ipoly -> Prop :=
  | ph_start : poly_hist mstart []
  | ph_step {HO : HashOrd} st ps c st' ps' :
      poly_hist st ps -> poly_call st ps c ps' -> mexec st c = Some st' -> poly_hist st' ps'.
End Hist.

(** [n] is an expression the program obtained, with its polynomial, or a scalar that was compared
    with one. *)
Definition has_poly (st : mstate F) (ps : list ipoly) (n : node F) (p : ipoly) : Prop :=
  (exists i, nth_error (st_pool st) i = Some n /\ nth_error ps i = Some p) \/
  (exists i v z, n = NConst i v /\ integer v z /\ (isize z <= exact_limit)%N /\ p = q_num z).
(** What the objective of a model minimises. *)
Definition obj_poly (st : mstate F) (ps : list ipoly) (o : objective F) (p : ipoly) : Prop :=
  match o with
  | Minimize f => has_poly st ps f p
  | Maximize f => exists p', has_poly st ps f p' /\ p = q_neg p'
  | EmptyObj => p = q_num 0
  end.
(** The function that a constraint contributes: left minus right side, minus the slack of an
    inequality. *)
Definition con_poly (V : N) (st : mstate F) (ps : list ipoly) (c : constraint F) (sl : option (node F)) (p : ipoly) : Prop :=
  exists a b, has_poly st ps (clhs c) a /\ has_poly st ps (crhs c) b /\
    p = match sl with None => q_sub a b | Some s => q_sub (q_sub a b) (q_var V (nid s)) end.

(** [x] is a binary64 number, and it is the real number [l], an integer. *)
Definition is_exactly (x : F) (l : R) : Prop := exists z, integer x z /\ l = IZR z.
(** What is stored at a position of a matrix: nothing, if [Q 0], or one integer for which [Q]
    holds. *)
Definition stored (m : coo F) (i j : nat) : list F :=
  map snd (filter (fun e => (fst (fst e) =? i)%nat && (snd (fst e) =? j)%nat) (entries m)).
Definition holds_entry (m : coo F) (i j : nat) (Q : R -> Prop) : Prop :=
  (stored m i j = [] /\ Q 0) \/ exists y l, stored m i j = [y] /\ is_exactly y l /\ Q l.

(** The components of [x] are the integers [r] of the variables, none larger than [V]. *)
Definition integer_point (V : N) (sp : std_prob F) (x : list F) (r : nat -> Z) : Prop :=
  length x = m_nx (base_of (sp_prob sp)) /\
  forall v i, In (v, i) (sp_var2index sp) -> exists y, nth_error x i = Some y /\ integer y (r (nid v)) /\ (Z.abs_N (r (nid v)) <= V)%N.

(** The value [y], the gradient [g] and the lower triangle of the Hessian [h] are those of the
    polynomial [p] at the integers [r], exactly, as far as its size and degree allow. *)
Record exactly_at (sp : std_prob F) (p : ipoly) (r : nat -> Z) (y : F) (g : nat -> (R -> Prop) -> Prop) (h : coo F) : Prop := {
  ea_val : is_exactly y (q_val p (fun c => IZR (r c)));
  ea_grad : (dsize (q_size p) (q_degree p) <= exact_limit)%N ->
    forall v i, In (v, i) (sp_var2index sp) -> g i (cell_derivative (q_val p) (nid v) (fun c => IZR (r c)));
  ea_hess : (dsize (q_size p) (q_degree p) <= exact_limit)%N -> (d2size (q_size p) (q_degree p) <= exact_limit)%N ->
    forall v i w j, In (v, i) (sp_var2index sp) -> In (w, j) (sp_var2index sp) -> (j <= i)%nat ->
    holds_entry h i j (fun l => cell_derivative2 (q_val p) (nid v) (nid w) (fun c => IZR (r c)) l /\
                                cell_derivative2 (q_val p) (nid w) (nid v) (fun c => IZR (r c)) l)
}.
