(** Specification vocabulary: what Ipopt is told about a model, number for number, and up to
    rounding. *)
From Verif Require Import Base Num Node NodeDiff NodeStd Constraint Matrix MatSpec Problem ModelStd Model ExprSpec ModelSpec
     TextSpec ExactSpec RoundSpec PolySpec DerEstSpec SecondSpec BitSpec GapSpec Ipopt IpoptSpec.
From Coq Require Import Reals Floats.SpecFloat.

(** The numbers told for row [i], column [j], when [rows] and [cols] are the positions of [vals]. *)
Definition told_at {T} (rows cols : list Z) (vals : list T) (i j : nat) : list T :=
  map snd (filter (fun e => (fst (fst e) =? Z.of_nat i)%Z && (snd (fst e) =? Z.of_nat j)%Z) (combine (combine rows cols) vals)).

Section Told.
  Context {T : Type} `{Num T}.

  (** The positions of the numbers of a Hessian (C50: a request for the structure reports them). *)
  Definition hess_rows (q0 : minlp T) : list Z := map (fun ij => Z.of_nat (fst ij)) (lag_pos (m_bufs q0)).
  Definition hess_cols (q0 : minlp T) : list Z := map (fun ij => Z.of_nat (snd ij)) (lag_pos (m_bufs q0)).

  Definition is_linear (sp : std_prob T) : Prop := class_of (sp_prob sp) = ClLp \/ class_of (sp_prob sp) = ClMilp.

  (** The coefficients of a row: those of the affine form of [d], and minus one for the slack. *)
  Definition coefficients_of (sp : std_prob T) (d : node T) (sl : option (node T)) (row : nat -> list T) : Prop :=
    forall v j, In (v, j) (sp_var2index sp) ->
      (sl = Some v -> row j = [nm1]) /\
      (sl <> Some v -> row j = match hget ptr_eq v (p_a (std_properties d)) with Some y => [y] | None => [] end).
  (** What is stored for a second derivative; nothing if one of the variables does not occur. *)
  Definition second_of (sp : std_prob T) (x : list T) (e v w : node T) (l : list T) : Prop :=
    (occurs v e -> occurs w e -> is_second sp x e v w l \/ is_second sp x e w v l) /\
    (~ occurs v e \/ ~ occurs w e -> l = []).

  (** The right answer [r] to the request [c], number for number.  [k] is the clock when the model
      was solved, [q0] the problem made for it. *)
  Definition exact_reply (k : nat) (m : model T) (sp : std_prob T) (q0 : minlp T) (c : cb T) (r : reply T) : Prop :=
    match c with
    | EvalF _ (Some x) _ _ =>
      exists y, r = mk_reply true (Some [y]) None None /\
        (is_linear sp -> exists e g, minimises (md_objective m) e /\ is_coefficients sp e g /\
           y = fold_left (fun acc cx => nadd acc (nmul (fst cx) (snd cx))) (combine g x) n0) /\
        (~ is_linear sp -> forall e, minimises (md_objective m) e -> is_value sp x e y)
    | EvalGradF _ (Some x) _ _ =>
      exists g e, r = mk_reply true (Some g) None None /\ minimises (md_objective m) e /\
        if p_affine (std_properties e) then is_coefficients sp e g else is_gradient sp x e g
    | EvalG _ (Some x) _ _ _ =>
      exists g, r = mk_reply true (Some g) None None /\ length g = m_na q0 + m_nf q0 /\
        (forall i cn, In (i, cn) (sp_acons sp) -> In cn (md_constraints m) /\
           exists sl row, own_slack k sp cn sl /\ Forall (fun e => fst e < m_nx q0) row /\ (exists d, gives (sub_nn (clhs cn) (crhs cn)) d) /\
             forall d, gives (sub_nn (clhs cn) (crhs cn)) d ->
               coefficients_of sp d sl (fun j => at_col j row) /\
               nth_error g i = Some (nsub (row_dot row x) (nneg (p_b (std_properties d))))) /\
        (forall i cn, In (i, cn) (sp_jcons sp) -> In cn (md_constraints m) /\
           exists sl y, own_slack k sp cn sl /\ nth_error g (m_na q0 + i) = Some y /\
             forall d e, gives (sub_nn (clhs cn) (crhs cn)) d -> minus_slack d sl e -> is_value sp x e y)
    | EvalJacG _ (Some x) _ _ _ ir jc (Some _) =>
      exists vals, r = mk_reply true (Some vals) ir jc /\ length vals = nnzj q0 /\
        (forall i cn, In (i, cn) (sp_acons sp) -> In cn (md_constraints m) /\
           exists sl d, own_slack k sp cn sl /\ gives (sub_nn (clhs cn) (crhs cn)) d /\
             coefficients_of sp d sl (told_at (jac_rows q0) (jac_cols q0) vals i)) /\
        (forall i cn, In (i, cn) (sp_jcons sp) -> In cn (md_constraints m) /\
           exists sl d, own_slack k sp cn sl /\ gives (sub_nn (clhs cn) (crhs cn)) d /\
             forall v j, In (v, j) (sp_var2index sp) ->
               let l := told_at (jac_rows q0) (jac_cols q0) vals (m_na q0 + i) j in
               (occurs v d -> exists y, l = [y] /\ is_derivative sp x d v y) /\
               (sl = Some v -> l = [nm1]) /\
               (~ occurs v d -> sl <> Some v -> l = []))
    | EvalH _ (Some x) _ factor _ (Some la) new_lambda _ ir jc (Some _) =>
      new_lambda = 1%Z ->
      exists vals e, r = mk_reply true (Some vals) ir jc /\ length vals = nnzh q0 /\ minimises (md_objective m) e /\
        forall v i w j, In (v, i) (sp_var2index sp) -> In (w, j) (sp_var2index sp) -> j <= i ->
          exists lo ls,
            told_at (hess_rows q0) (hess_cols q0) vals i j =
              map (fun y => nmul factor y) lo ++
              concat (map (fun e => map (fun y => nmul (fst e) y) (snd e)) (combine (skipn (m_na q0) la) ls)) /\
            (if p_affine (std_properties e) then lo = [] else second_of sp x e v w lo) /\
            length ls = m_nf q0 /\
            forall t cn, In (t, cn) (sp_jcons sp) -> In cn (md_constraints m) /\
              exists d l, gives (sub_nn (clhs cn) (crhs cn)) d /\ nth_error ls t = Some l /\ second_of sp x d v w l
    | _ => True
    end.
End Told.

(** *** Up to rounding, in binary64 *)
Local Open Scope R_scope.
Definition e_var (j : nat) : est := mk_est 0 (fun r => r j) (fun r => Rabs (r j)).
(** The estimate of a row times the point, minus the right-hand side; here [r] gives the numbers of
    the components of the point. *)
Definition e_row (row : list (nat * F)) (b : F) : est :=
  e_sub (fold_left (fun s e => e_add s (e_mul (e_var (fst e)) (e_const (snd e)))) row (e_const (flit 0))) (e_const b).
Definition row_real (row : list (nat * F)) (x : list F) (b : F) : R :=
  fold_left (fun s e => s + float_value (nth (fst e) x (flit 0)) * float_value (snd e)) row 0 - float_value b.

(** The right answer up to rounding, at every reading [rr] of the point. *)
Definition near_reply (num : Num F) (k : nat) (m : model F) (sp : std_prob F) (q0 : minlp F) (c : cb F) (r : reply F) : Prop :=
  match c with
  | EvalF _ (Some x) _ _ =>
    exists y, r = mk_reply true (Some [y]) None None /\
      forall vs rr, assigns sp x vs -> reads vs rr -> exists e, @minimises F num (md_objective m) e /\
        (finite_constants e -> safe_quotients num false vs rr e -> near y (real_value e rr) (est_of e) rr)
  | EvalGradF _ (Some x) _ _ =>
    exists g, r = mk_reply true (Some g) None None /\
      forall vs rr, assigns sp x vs -> reads vs rr -> exists e, @minimises F num (md_objective m) e /\
        (finite_constants e -> safe_quotients num true vs rr e -> p_affine (@std_properties F num e) = false ->
           forall v i, In (v, i) (sp_var2index sp) -> occurs v e ->
             exists y D, nth_error g i = Some y /\ cell_derivative (real_value e) (nid v) rr D /\ near y D (derivative_est (nid v) e) rr)
  | EvalG _ (Some x) _ _ _ =>
    exists g, r = mk_reply true (Some g) None None /\
      (forall i b, nth_error (m_b q0) i = Some b -> exists y row, nth_error g i = Some y /\ (forall j, at_pos (m_a q0) i j = at_col j row) /\
         (finite64 b -> Forall (fun e => finite64 (snd e)) row -> Forall finite64 x ->
            near y (row_real row x b) (e_row row b) (fun j => float_value (nth j x (flit 0))))) /\
      (forall vs rr, assigns sp x vs -> reads vs rr -> forall i cn, In (i, cn) (sp_jcons sp) -> In cn (md_constraints m) /\
         exists sl y, own_slack k sp cn sl /\ nth_error g (m_na q0 + i) = Some y /\
           (finite_constants (clhs cn) -> finite_constants (crhs cn) -> safe_quotients num false vs rr (clhs cn) -> safe_quotients num false vs rr (crhs cn) ->
              near y (real_value (clhs cn) rr - real_value (crhs cn) rr - slack_value sl rr) (full_est cn sl) rr /\
              (finiteb y = true ->
                 real_violation cn rr <= Rabs (float_value y) + slack_excess (ckd cn) (slack_value sl rr) + error_bound (e_ops (full_est cn sl)) (e_mag (full_est cn sl) rr))))
  | EvalJacG _ (Some x) _ _ _ ir jc (Some _) =>
    exists vals, r = mk_reply true (Some vals) ir jc /\
      forall vs rr, assigns sp x vs -> reads vs rr -> forall i cn, In (i, cn) (sp_jcons sp) -> In cn (md_constraints m) /\
        exists d, gives (@sub_nn F num (clhs cn) (crhs cn)) d /\
          (finite_constants d -> safe_quotients num true vs rr d -> forall v j, In (v, j) (sp_var2index sp) -> occurs v d ->
             exists z D, told_at (jac_rows q0) (jac_cols q0) vals (m_na q0 + i) j = [z] /\
               cell_derivative (real_value d) (nid v) rr D /\ near z D (derivative_est (nid v) d) rr)
  | EvalH _ (Some x) _ factor _ (Some la) new_lambda _ ir jc (Some _) =>
    new_lambda = 1%Z ->
    exists vals, r = mk_reply true (Some vals) ir jc /\
      forall vs rr, assigns sp x vs -> reads vs rr -> exists e, @minimises F num (md_objective m) e /\
        forall v i w j, In (v, i) (sp_var2index sp) -> In (w, j) (sp_var2index sp) -> (j <= i)%nat ->
          exists lo ls,
            told_at (hess_rows q0) (hess_cols q0) vals i j =
              map (fun y => @nmul F num factor y) lo ++
              concat (map (fun e => map (fun y => @nmul F num (fst e) y) (snd e)) (combine (skipn (m_na q0) la) ls)) /\
            (if p_affine (@std_properties F num e) then lo = [] else near_second_of num vs rr e v w lo) /\
            length ls = m_nf q0 /\
            forall t cn, In (t, cn) (sp_jcons sp) -> In cn (md_constraints m) /\
              exists d l, gives (@sub_nn F num (clhs cn) (crhs cn)) d /\ nth_error ls t = Some l /\ near_second_of num vs rr d v w l
  | _ => True
  end.
