(** Specification vocabulary: evaluating a problem is evaluating expressions, number for number. *)
From Verif Require Import Base Num Node NodeDiff NodeStd Constraint Matrix MatSpec Problem ModelStd Model ExprSpec ModelSpec.

(** Some call of [f] returns [a] (there is a moment at which it does). *)
Definition gives {A} (f : M A) (a : A) : Prop := exists k k', f k = Ok (a, k').

Section Bit.
  Context {T : Type} `{Num T}.

  (** The map gives every variable of the problem its component of [x]. *)
  Definition assigns (sp : std_prob T) (x : list T) (vs : vals T) : Prop :=
    forall v i, In (v, i) (sp_var2index sp) -> exists y, nth_error x i = Some y /\ hget ptr_eq v vs = Some y.

  (** What a model minimises: the objective, what negating it gives, or zero. *)
  Definition minimises (o : objective T) (e : node T) : Prop :=
    match o with
    | Minimize f => e = f
    | Maximize f => gives (neg_n f) e
    | EmptyObj => gives (mk_const n0) e
    end.
  (** The function of a constraint: left minus right side [d], minus the slack of an inequality. *)
  Definition minus_slack (d : node T) (sl : option (node T)) (e : node T) : Prop :=
    match sl with None => e = d | Some s => gives (sub_nn d s) e end.

  (** The expression is in canonical form, and its nodes are told apart by their cells. *)
  Definition well_built (e : node T) : Prop :=
    canonical e /\ forall a b, sub a e -> sub b e -> nid a = nid b -> a = b.

  (** What is stored at a position of a matrix. *)
  Definition at_pos (m : coo T) (i j : nat) : list T :=
    map snd (filter (fun e => (fst (fst e) =? i) && (snd (fst e) =? j)) (entries m)).

  (** [y] is what evaluating [n] gives at [x]. *)
  Definition is_value (sp : std_prob T) (x : list T) (n : node T) (y : T) : Prop :=
    forall vs, assigns sp x vs -> evaluate vs n = y.

  (** The number [y] is the derivative of [e] with respect to [v] at [x]: what evaluating the
      result of [derivative] gives, whenever and under whatever hash order that is called. *)
  Definition is_derivative (sp : std_prob T) (x : list T) (e v : node T) (y : T) : Prop :=
    forall (HO : HashOrd) k, exists d k', @derivative T _ HO e v k = Ok (d, k') /\ is_value sp x d y.
  (** [l] is what is stored for the second derivative of [e] with respect to [v] and [w] at [x]:
      nothing if the result of differentiating twice is the constant zero, else its value.  The
      derivative [d] that is differentiated is well built like [e]. *)
  Definition is_second (sp : std_prob T) (x : list T) (e v w : node T) (l : list T) : Prop :=
    exists (HO : HashOrd) d k k', @derivative T _ HO e v k = Ok (d, k') /\ well_built d /\
      exists (HO' : HashOrd) dd k1 k2, k' <= k1 /\ @derivative T _ HO' d w k1 = Ok (dd, k2) /\
        if is_constant_with_value dd n0 then l = [] else exists y, is_value sp x dd y /\ l = [y].

  (** The entries [h] of the lower triangle are the second derivatives of [e]. *)
  Definition is_hessian (sp : std_prob T) (x : list T) (e : node T) (h : coo T) : Prop :=
    forall v i w j, In (v, i) (sp_var2index sp) -> In (w, j) (sp_var2index sp) -> j <= i ->
      (occurs v e -> occurs w e -> is_second sp x e v w (at_pos h i j) \/ is_second sp x e w v (at_pos h i j)) /\
      (~ occurs v e \/ ~ occurs w e -> at_pos h i j = []).

  (** The gradient and Hessian of the objective [e]. *)
  Definition is_gradient (sp : std_prob T) (x : list T) (e : node T) (g : list T) : Prop :=
    length g = length (sp_var2index sp) /\
    forall v i, In (v, i) (sp_var2index sp) -> exists y, nth_error g i = Some y /\
      (occurs v e -> is_derivative sp x e v y) /\ (~ occurs v e -> y = n0).
  (** If the objective is affine, its gradient is that of its affine form. *)
  Definition is_coefficients (sp : std_prob T) (e : node T) (g : list T) : Prop :=
    length g = length (sp_var2index sp) /\
    forall v i, In (v, i) (sp_var2index sp) -> exists y, nth_error g i = Some y /\
      y = match hget ptr_eq v (p_a (std_properties e)) with Some a => a | None => n0 end.

  Record objective_values (sp : std_prob T) (x : list T) (o : objective T) (b : bufs T) : Prop := {
    ov_phi : forall e, minimises o e -> is_value sp x e (b_phi b);
    ov_some : exists e, minimises o e /\ well_built e /\
      if p_affine (std_properties e)
      then is_coefficients sp e (b_gphi b) /\ entries (b_hphi b) = []
      else is_gradient sp x e (b_gphi b) /\ is_hessian sp x e (b_hphi b)
  }.

  (** Row [i] of the nonlinear functions belongs to constraint [c], with slack [sl]. *)
  Record row_values (sp : std_prob T) (x : list T) (c : constraint T) (sl : option (node T)) (i : nat) (b : bufs T) : Prop := {
    rv_f : exists y, nth_error (b_f b) i = Some y /\
      forall d e, gives (sub_nn (clhs c) (crhs c)) d -> minus_slack d sl e -> is_value sp x e y;
    rv_d : exists d h, gives (sub_nn (clhs c) (crhs c)) d /\ (exists e, minus_slack d sl e) /\ well_built d /\ p_affine (std_properties d) = false /\
      (forall v j, In (v, j) (sp_var2index sp) ->
         (occurs v d -> exists y, at_pos (b_j b) i j = [y] /\ is_derivative sp x d v y) /\
         (sl = Some v -> at_pos (b_j b) i j = [nm1]) /\
         (~ occurs v d -> sl <> Some v -> at_pos (b_j b) i j = [])) /\
      nth_error (b_h b) i = Some h /\ is_hessian sp x d h
  }.
  (** Row [i] of the linear constraints belongs to constraint [c], with slack [sl]: coefficients
      and constant of the affine form of left minus right side. *)
  Definition row_coefficients (sp : std_prob T) (c : constraint T) (sl : option (node T)) (i : nat) (a : coo T) (b : list T) : Prop :=
    (exists d, gives (sub_nn (clhs c) (crhs c)) d) /\
    forall d, gives (sub_nn (clhs c) (crhs c)) d ->
      p_affine (std_properties d) = true /\ nth_error b i = Some (nneg (p_b (std_properties d))) /\
      forall v j, In (v, j) (sp_var2index sp) ->
        (sl = Some v -> at_pos a i j = [nm1]) /\
        (sl <> Some v -> at_pos a i j = match hget ptr_eq v (p_a (std_properties d)) with Some y => [y] | None => [] end).

  (** The slack of a constraint: a variable of the problem made for it. *)
  Definition own_slack (k : nat) (sp : std_prob T) (c : constraint T) (sl : option (node T)) : Prop :=
    match sl with None => ckd c = Equal | Some s => ckd c <> Equal /\ In s (map fst (sp_var2index sp)) /\ k <= nid s end.
End Bit.

(** The same binary64 number, the sign of a zero aside. *)
From Coq Require Import Floats.SpecFloat.
Definition same_number (x y : F) : Prop := x = y \/ ((exists s, x = S754_zero s) /\ exists s, y = S754_zero s).
(** The values of an expression and of its parts are those of 64-bit numbers. *)
Definition in_binary64 (num : Num F) (vs : vals F) (n : node F) : Prop :=
  forall s, sub s n -> valid_binary 53 1024 (@evaluate F num vs s) = true.
