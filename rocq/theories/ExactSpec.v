(** Specification vocabulary: integer models in binary64. *)
From Verif Require Import Base Num Node NodeStd Constraint Matrix MatSpec Problem ModelStd Model ExprSpec ConstrSpec ModelSpec Api ModelApi FmtProofs.
From Coq Require Import Reals Floats.SpecFloat NArith.

Definition finiteb (v : F) : bool := match v with S754_zero _ | S754_finite _ _ _ => true | _ => false end.
(** [v] is a binary64 number, and it is the integer [z]. *)
Definition integer (v : F) (z : Z) : Prop :=
  valid_binary 53 1024 v = true /\ finiteb v = true /\ fval v = IZR z.
(** The real number a binary64 value stands for (none: NaN, an infinity). *)
Definition xval (v : F) : X := if finiteb v then Some (fval v) else None.

(** ** Sizes

    The size of an expression is how large its value can get while it is built and
    evaluated, if no variable exceeds [V] in absolute value (at least 1): sizes add up under
    sums and differences and multiply under products. *)
Definition exact_limit : N := 2 ^ 53.
Definition isize (z : Z) : N := N.max 1 (Z.abs_N z).
Section Sizes.
  Variable V : N.
  (** The call [o], on expressions of sizes [ws], gives one of size [w].  Only sums,
      differences, products, negation, copies, arguments, variables and integer constants. *)
  Inductive op_size (ws : list N) : op F -> N -> Prop :=
  | sz_var s kd : op_size ws (OVar s kd) (N.max 1 V)
  | sz_const v z : integer v z -> op_size ws (OConst v) (isize z)
  | sz_add_nn i j a b : nth_error ws i = Some a -> nth_error ws j = Some b -> op_size ws (OAddNN i j) (a + b)
  | sz_add_ns i v a z : nth_error ws i = Some a -> integer v z -> op_size ws (OAddNS i v) (a + isize z)
  | sz_add_sn i v a z : nth_error ws i = Some a -> integer v z -> op_size ws (OAddSN v i) (isize z + a)
  | sz_sub_nn i j a b : nth_error ws i = Some a -> nth_error ws j = Some b -> op_size ws (OSubNN i j) (a + b)
  | sz_sub_ns i v a z : nth_error ws i = Some a -> integer v z -> op_size ws (OSubNS i v) (a + isize z)
  | sz_sub_sn i v a z : nth_error ws i = Some a -> integer v z -> op_size ws (OSubSN v i) (isize z + a)
  | sz_mul_nn i j a b : nth_error ws i = Some a -> nth_error ws j = Some b -> op_size ws (OMulNN i j) (a * b)
  | sz_mul_ns i v a z : nth_error ws i = Some a -> integer v z -> op_size ws (OMulNS i v) (a * isize z)
  | sz_mul_sn i v a z : nth_error ws i = Some a -> integer v z -> op_size ws (OMulSN v i) (isize z * a)
  | sz_neg i a : nth_error ws i = Some a -> op_size ws (ONeg i) a
  | sz_clone i a : nth_error ws i = Some a -> op_size ws (OClone i) a
  | sz_arg i j a : nth_error ws i = Some a -> op_size ws (OArg i j) a.
End Sizes.

(** ** What integer programs mean

    The meaning of an expression is a function of the integers the variables stand for;
    variables are identified by their cell. *)
Definition meaning := (nat -> Z) -> Z.
Inductive op_means (k : nat) (fs : list meaning) : op F -> meaning -> Prop :=
| mn_var s kd : op_means k fs (OVar s kd) (fun r => r k)
| mn_const v z : integer v z -> op_means k fs (OConst v) (fun _ => z)
| mn_add_nn i j f g : nth_error fs i = Some f -> nth_error fs j = Some g -> op_means k fs (OAddNN i j) (fun r => f r + g r)%Z
| mn_add_ns i v f z : nth_error fs i = Some f -> integer v z -> op_means k fs (OAddNS i v) (fun r => f r + z)%Z
| mn_add_sn i v f z : nth_error fs i = Some f -> integer v z -> op_means k fs (OAddSN v i) (fun r => z + f r)%Z
| mn_sub_nn i j f g : nth_error fs i = Some f -> nth_error fs j = Some g -> op_means k fs (OSubNN i j) (fun r => f r - g r)%Z
| mn_sub_ns i v f z : nth_error fs i = Some f -> integer v z -> op_means k fs (OSubNS i v) (fun r => f r - z)%Z
| mn_sub_sn i v f z : nth_error fs i = Some f -> integer v z -> op_means k fs (OSubSN v i) (fun r => z - f r)%Z
| mn_mul_nn i j f g : nth_error fs i = Some f -> nth_error fs j = Some g -> op_means k fs (OMulNN i j) (fun r => f r * g r)%Z
| mn_mul_ns i v f z : nth_error fs i = Some f -> integer v z -> op_means k fs (OMulNS i v) (fun r => f r * z)%Z
| mn_mul_sn i v f z : nth_error fs i = Some f -> integer v z -> op_means k fs (OMulSN v i) (fun r => z * f r)%Z
| mn_neg i f : nth_error fs i = Some f -> op_means k fs (ONeg i) (fun r => - f r)%Z
| mn_clone i f : nth_error fs i = Some f -> op_means k fs (OClone i) f.

Section IntReach.
  Context `{Num F}.
  (** Programs of integer expression calls whose sizes stay within 2^53. *)
  Inductive int_reach (V : N) : nat -> list (node F) -> list N -> list meaning -> Prop :=
  | ir_nil : int_reach V 0 [] [] []
  | ir_step {HO : HashOrd} k pool ws fs o n k' w f :
      int_reach V k pool ws fs -> op_size V ws o w -> (w <= exact_limit)%N -> op_means k fs o f -> exec pool o k = Ok (n, k') ->
      int_reach V k' (pool ++ [n]) (ws ++ [w]) (fs ++ [f]).
End IntReach.
(** The values [vs] are the integers [r], none larger than [V], for the variables of [n]. *)
Definition stand_for (V : N) (r : nat -> Z) (vs : vals F) (n : node F) : Prop :=
  forall v, occurs v n -> exists x, hget ptr_eq v vs = Some x /\ integer x (r (nid v)) /\ (Z.abs_N (r (nid v)) <= V)%N.

(** ** Reading a model exactly: the constants as real numbers *)
Fixpoint exact_node (n : node F) : node X :=
  match n with
  | NConst i v => NConst i (xval v)
  | NVar i s k => NVar i s k
  | NAdd i l => NAdd i (map exact_node l)
  | NCos i a => NCos i (exact_node a)
  | NDiv i a b => NDiv i (exact_node a) (exact_node b)
  | NMul i a b => NMul i (exact_node a) (exact_node b)
  | NSin i a => NSin i (exact_node a)
  end.
Definition exact_con (c : constraint F) : constraint X :=
  mk_constraint (cid c) (exact_node (clhs c)) (ckd c) (exact_node (crhs c)) (clabel c).
Definition exact_obj (o : objective F) : objective X :=
  match o with Minimize f => Minimize (exact_node f) | Maximize f => Maximize (exact_node f) | EmptyObj => EmptyObj end.
Definition exact_vals (l : vals F) : valsX := map (fun kv => (exact_node (fst kv), xval (snd kv))) l.
Definition exact_model (m : model F) : model X :=
  mk_model (exact_obj (md_objective m)) (map exact_con (md_constraints m)) (exact_vals (md_init m)) (md_status m)
           (exact_vals (md_primals m)) (map (fun kv => (exact_con (fst kv), xval (snd kv))) (md_duals m)).
Definition exact_state (st : mstate F) : mstate X :=
  mk_mstate (st_k st) (map exact_node (st_pool st)) (map exact_con (st_cons st)) (map exact_model (st_models st)).

(** What a solver answers, read exactly. *)
Definition exact_sol (s : sol F) : sol X := mk_sol (map xval (s_x s)) (map xval (s_lam s)) (map xval (s_nu s)) (map xval (s_mu s)) (map xval (s_pi s)).
Definition exact_answer (a : res (@answer F)) : res (@answer X) :=
  match a with Ok (inl (st, s)) => Ok (inl (st, exact_sol s)) | Ok (inr e) => Ok (inr e) | Panic p => Panic p end.
(** The order in which a hash map is iterated does not depend on the numbers in it. *)
Definition neutral (O : HashOrd) : Prop :=
  forall A B (R : A -> B -> Prop) s t l l', Forall2 R l l' -> Forall2 R (@ord O A s t l) (@ord O B s t l').

Section IntHist.
  Context `{Num F}.
  Variable lim : N.
  (** Calls of integer linear models: affine expression calls on integers with sizes within
      the limit [lim], and comparisons whose two sides together stay within it; the other calls are
      unrestricted. *)
  Inductive int_call (st : mstate F) (ws : list N) : call F -> list N -> Prop :=
  | ic_expr o w : affine_op (st_pool st) o -> op_size 1 ws o w -> (w <= lim)%N -> int_call st ws (CExpr o) (ws ++ [w])
  | ic_nn i kd j label a b : nth_error ws i = Some a -> nth_error ws j = Some b -> (a + b <= lim)%N -> int_call st ws (CCmpNN i kd j label) ws
  | ic_ns i kd v label a z : nth_error ws i = Some a -> integer v z -> (a + isize z <= lim)%N -> int_call st ws (CCmpNS i kd v label) ws
  | ic_sn i kd v label a z : nth_error ws i = Some a -> integer v z -> (isize z + a <= lim)%N -> int_call st ws (CCmpSN v kd i label) ws
  | ic_new : int_call st ws CNewModel ws
  | ic_add m i : int_call st ws (CAddConstr m i) ws
  | ic_adds m is : int_call st ws (CAddConstrs m is) ws
  | ic_obj m s i : int_call st ws (CSetObj m s i) ws
  | ic_empty m : int_call st ws (CSetEmpty m) ws
  | ic_init m vs : int_call st ws (CInit m vs) ws
  | ic_solve m solver : int_call st ws (CSolve m solver) ws
  | ic_key m i : int_call st ws (CPrimalKey m i) (ws ++ [1%N]).
  Inductive int_hist_within : mstate F -> list N -> Prop :=
  | ih_start : int_hist_within mstart []
  | ih_step {HO : HashOrd} st ws c st' ws' :
      neutral HO -> int_hist_within st ws -> int_call st ws c ws' -> mexec st c = Some st' -> int_hist_within st' ws'.
End IntHist.
(** The limit up to which binary64 is exact. *)
Definition int_hist `{Num F} : mstate F -> list N -> Prop := int_hist_within exact_limit.

(** ** Linear problems, their data read as real numbers *)
Definition lin_c {T} (p : problem T) : list T := match p with PLp q => milp_c (lp_milp q) | PMilp q => milp_c q | _ => [] end.
(** [p'] is [p] with its numbers read exactly, and these are integers (starting values need
    not be). *)
Definition integral (l : list F) : Prop := Forall (fun v => exists z, integer v z) l.
Record same_data (p : problem F) (p' : problem X) : Prop := {
  sd_lin : class_of p = ClLp \/ class_of p = ClMilp;
  sd_class : class_of p' = class_of p;
  sd_ints : integral (lin_c p) /\ integral (coo_data (m_a (base_of p))) /\ integral (m_b (base_of p)) /\
            integral (m_l (base_of p)) /\ integral (m_u (base_of p));
  sd_nx : m_nx (base_of p') = m_nx (base_of p);
  sd_c : lin_c p' = map xval (lin_c p);
  sd_shape : coo_rows (m_a (base_of p')) = coo_rows (m_a (base_of p)) /\ coo_cols (m_a (base_of p')) = coo_cols (m_a (base_of p)) /\
             coo_ri (m_a (base_of p')) = coo_ri (m_a (base_of p)) /\ coo_ci (m_a (base_of p')) = coo_ci (m_a (base_of p));
  sd_a : coo_data (m_a (base_of p')) = map xval (coo_data (m_a (base_of p)));
  sd_b : m_b (base_of p') = map xval (m_b (base_of p));
  sd_l : m_l (base_of p') = map xval (m_l (base_of p));
  sd_u : m_u (base_of p') = map xval (m_u (base_of p));
  sd_p : m_p (base_of p') = m_p (base_of p);
  sd_x0 : m_x0 (base_of p') = option_map (map xval) (m_x0 (base_of p)) }.
Definition same_problem (sp : std_prob F) (sp' : std_prob X) : Prop :=
  same_data (sp_prob sp) (sp_prob sp') /\
  sp_var2index sp' = map (fun vi => (exact_node (fst vi), snd vi)) (sp_var2index sp) /\
  sp_acons sp' = map (fun ic => (fst ic, exact_con (snd ic))) (sp_acons sp) /\
  sp_jcons sp = [] /\ sp_jcons sp' = [] /\
  sp_ucons sp' = map (fun ic => (fst ic, exact_con (snd ic))) (sp_ucons sp) /\
  sp_lcons sp' = map (fun ic => (fst ic, exact_con (snd ic))) (sp_lcons sp).
Definition dotR (c : list F) (x : list R) : R := fold_right Rplus 0%R (map (fun p => fval (fst p) * snd p)%R (combine c x)).
(** Row [r] of A times [x]. *)
Definition rowR (a : coo F) (r : nat) (x : list R) : R :=
  fold_right Rplus 0%R (map (fun e => fval (snd e) * nth (snd (fst e)) x 0)%R (filter (fun e => fst (fst e) =? r) (entries a))).
Definition data_feasible (p : problem F) (x : list R) : Prop :=
  length x = m_nx (base_of p) /\
  (forall r b, nth_error (m_b (base_of p)) r = Some b -> rowR (m_a (base_of p)) r x = fval b) /\
  (forall i r, nth_error x i = Some r ->
     (exists l u, nth_error (m_l (base_of p)) i = Some l /\ nth_error (m_u (base_of p)) i = Some u /\ (fval l <= r <= fval u)%R) /\
     (nth_error (m_p (base_of p)) i = Some true -> exists z, r = IZR z)).
Definition data_optimal (p : problem F) (x : list R) : Prop :=
  data_feasible p x /\ forall y, data_feasible p y -> (dotR (lin_c p) x <= dotR (lin_c p) y)%R.
