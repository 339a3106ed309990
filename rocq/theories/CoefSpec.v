(** Specification vocabulary: exact coefficients of linear models, and how far rounding can move
    the computed ones. *)
From Verif Require Import Base Num Node Constraint ExprSpec Api Matrix MatSpec Problem ModelStd Model ModelSpec ModelApi TextSpec ExactSpec RoundSpec.
From Coq Require Import Reals Floats.SpecFloat.
Local Open Scope R_scope.

(** For an affine expression: the number of operations that may round, whether it was made from
    constants only, and its exact coefficients and their magnitudes: [Some c] is the coefficient
    of the variable with cell [c], [None] the constant term.  As for values ([RoundSpec.est]),
    the magnitude of a coefficient is what it would be if no operation cancelled anything, and
    products and quotients add multiples of the smallest normal number to it. *)
Record aest := mk_aest { a_ops : nat; a_con : bool; a_coef : option nat -> R; a_mag : option nat -> R }.

Definition a_num (v : F) : aest :=
  mk_aest 0 true (fun i => match i with None => float_value v | Some _ => 0 end)
                 (fun i => match i with None => Rabs (float_value v) | Some _ => 0 end).
Definition a_var (k : nat) : aest :=
  mk_aest 0 false (fun i => match i with None => 0 | Some c => if Nat.eqb c k then 1 else 0 end)
                  (fun i => match i with None => 0 | Some c => if Nat.eqb c k then 1 else 0 end).
Definition a_add (a b : aest) : aest :=
  mk_aest (a_ops a + a_ops b + 1) (a_con a && a_con b) (fun i => a_coef a i + a_coef b i) (fun i => a_mag a i + a_mag b i).
Definition a_sub (a b : aest) : aest :=
  mk_aest (a_ops a + a_ops b + 1) (a_con a && a_con b) (fun i => a_coef a i - a_coef b i) (fun i => a_mag a i + a_mag b i).
(** [c] is a constant. *)
Definition a_scale (c b : aest) : aest :=
  mk_aest (a_ops c + a_ops b + 1) (a_con b) (fun i => a_coef c None * a_coef b i)
          (fun i => a_mag c None * a_mag b i + INR ((a_ops c + 1) * (a_ops b + 1)) * tiny).
Definition a_div (a : aest) (v : F) : aest :=
  mk_aest (a_ops a + 1) (a_con a) (fun i => a_coef a i / float_value v) (fun i => a_mag a i / Rabs (float_value v) + tiny).
Definition a_neg (a : aest) : aest := mk_aest (a_ops a) (a_con a) (fun i => - a_coef a i) (a_mag a).

(** The estimate of the result of a call, from those of its operands.  Scalars are finite, and
    one of the factors of a product was made from constants only. *)
Inductive aff_est (k : nat) (es : list aest) : op F -> aest -> Prop :=
| ae_var s kd : aff_est k es (OVar s kd) (a_var k)
| ae_const v : finite64 v -> aff_est k es (OConst v) (a_num v)
| ae_add_nn i j a b : nth_error es i = Some a -> nth_error es j = Some b -> aff_est k es (OAddNN i j) (a_add a b)
| ae_add_ns i v a : nth_error es i = Some a -> finite64 v -> aff_est k es (OAddNS i v) (a_add a (a_num v))
| ae_add_sn i v a : nth_error es i = Some a -> finite64 v -> aff_est k es (OAddSN v i) (a_add (a_num v) a)
| ae_sub_nn i j a b : nth_error es i = Some a -> nth_error es j = Some b -> aff_est k es (OSubNN i j) (a_sub a b)
| ae_sub_ns i v a : nth_error es i = Some a -> finite64 v -> aff_est k es (OSubNS i v) (a_sub a (a_num v))
| ae_sub_sn i v a : nth_error es i = Some a -> finite64 v -> aff_est k es (OSubSN v i) (a_sub (a_num v) a)
| ae_mul_l i j a b : nth_error es i = Some a -> nth_error es j = Some b -> a_con a = true -> aff_est k es (OMulNN i j) (a_scale a b)
| ae_mul_r i j a b : nth_error es i = Some a -> nth_error es j = Some b -> a_con b = true -> aff_est k es (OMulNN i j) (a_scale b a)
| ae_mul_ns i v a : nth_error es i = Some a -> finite64 v -> aff_est k es (OMulNS i v) (a_scale (a_num v) a)
| ae_mul_sn i v a : nth_error es i = Some a -> finite64 v -> aff_est k es (OMulSN v i) (a_scale (a_num v) a)
| ae_div_ns i v a : nth_error es i = Some a -> finite64 v -> aff_est k es (ODivNS i v) (a_div a v)
| ae_neg i a : nth_error es i = Some a -> aff_est k es (ONeg i) (a_neg a)
| ae_clone i a : nth_error es i = Some a -> aff_est k es (OClone i) a.

Section Hist.
  Context `{Num F}.
  (** Calls of linear models: affine expression calls as above, comparisons with finite scalars;
      the other calls are unrestricted. *)
  Inductive lin_call (st : mstate F) (es : list aest) : call F -> list aest -> Prop :=
  | lc_expr o e : aff_est (st_k st) es o e -> lin_call st es (CExpr o) (es ++ [e])
  | lc_nn i kd j label : lin_call st es (CCmpNN i kd j label) es
  | lc_ns i kd v label : finite64 v -> lin_call st es (CCmpNS i kd v label) es
  | lc_sn i kd v label : finite64 v -> lin_call st es (CCmpSN v kd i label) es
  | lc_new : lin_call st es CNewModel es
  | lc_add m i : lin_call st es (CAddConstr m i) es
  | lc_adds m is : lin_call st es (CAddConstrs m is) es
  | lc_obj m s i : lin_call st es (CSetObj m s i) es
  | lc_empty m : lin_call st es (CSetEmpty m) es
  | lc_init m vs : lin_call st es (CInit m vs) es
  | lc_solve m solver : lin_call st es (CSolve m solver) es
  | lc_key m i md vx : nth_error (st_models st) m = Some md -> nth_error (md_primals md) i = Some vx ->
      lin_call st es (CPrimalKey m i) (es ++ [a_var (nid (fst vx))]).
  Inductive lin_hist : mstate F -> list aest -> Prop :=
  | lh_start : lin_hist mstart []
  | lh_step {HO : HashOrd} st es c st' es' :
      lin_hist st es -> lin_call st es c es' -> mexec st c = Some st' -> lin_hist st' es'.
End Hist.

(** [n] has the estimate [e]: it is an expression the program obtained, with its estimate, or a
    scalar that was compared with one. *)
Definition has_est (st : mstate F) (es : list aest) (n : node F) (e : aest) : Prop :=
  (exists i, nth_error (st_pool st) i = Some n /\ nth_error es i = Some e) \/
  (exists i v, n = NConst i v /\ finite64 v /\ e = a_num v).
(** What the objective of a model minimises, as an estimate. *)
Definition obj_est (st : mstate F) (es : list aest) (o : objective F) (e : aest) : Prop :=
  match o with
  | Minimize f => has_est st es f e
  | Maximize f => exists e', has_est st es f e' /\ e = a_neg e'
  | EmptyObj => e = a_num (flit 0)
  end.
(** [x] is a binary64 value and within the error bound of [q], if it is finite. *)
Definition close (x : F) (q : R) (ops : nat) (mag : R) : Prop :=
  f64 x /\ (finiteb x = true -> Rabs (float_value x - q) <= error_bound ops mag).

(** What is stored for constraint [c] of a model, whose place in the standard problem is [s], is
    close to the exact coefficients of the difference of its sides (for all their estimates):
    for a bound, the contributed bound is close to minus the constant term, the coefficient of
    the variable is close to one and the other coefficients are close to zero; for a row, the
    right-hand side and the entries are close to the exact numbers, the coefficients without an
    entry are close to zero, and the entry of the slack is minus one. *)
Definition sl_eqb (sl : option (node F)) (v : node F) : bool := match sl with Some s => Nat.eqb (nid s) (nid v) | None => false end.
Definition near (e : aest) (i : option nat) (q : R) : Prop := Rabs (q - a_coef e i) <= error_bound (a_ops e) (a_mag e i).
Definition slot_close (st : mstate F) (es : list aest) (sp : std_prob F) (c : constraint F) (s : slot F) : Prop :=
  forall ea eb, has_est st es (clhs c) ea -> has_est st es (crhs c) eb ->
  let e := a_sub ea eb in
  match s with
  | SBound v b =>
    close b (- a_coef e None) (a_ops e) (a_mag e None) /\
    near e (Some (nid v)) 1 /\ (forall cell, cell <> nid v -> near e (Some cell) 0)
  | SRow r sl =>
    (exists b, nth_error (m_b (base_of (sp_prob sp))) r = Some b /\ close b (- a_coef e None) (a_ops e) (a_mag e None)) /\
    (forall v i a, In (v, i) (sp_var2index sp) -> In (r, i, a) (entries (m_a (base_of (sp_prob sp)))) ->
       if sl_eqb sl v then a = flit (-1) else close a (a_coef e (Some (nid v))) (a_ops e) (a_mag e (Some (nid v)))) /\
    (forall cell, (forall v i a, In (v, i) (sp_var2index sp) -> nid v = cell -> ~ In (r, i, a) (entries (m_a (base_of (sp_prob sp))))) ->
       near e (Some cell) 0)
  | SFun _ _ => False
  end.

(** ** The exact coefficients are those of the exact values of [RoundSpec]

    [a] gives the coefficients of the function [e_val e] of the numbers of the cells below [n]. *)
Fixpoint cells (n : nat) (f : nat -> R) : R := match n with O => 0 | Datatypes.S n' => cells n' f + f n' end.
Record agrees (n : nat) (e : est) (a : aest) : Prop := {
  ag_val : forall r, e_val e r = a_coef a None + cells n (fun c => a_coef a (Some c) * r c);
  ag_con : a_con a = true -> forall c, a_coef a (Some c) = 0
}.
(** Programs of calls with both estimates. *)
Section Both.
  Context `{Num F}.
  Inductive both_reach : nat -> list (node F) -> list est -> list aest -> Prop :=
  | br_nil : both_reach 0 [] [] []
  | br_step {HO : HashOrd} k pool es fs o n k' e a :
      both_reach k pool es fs -> op_est k es o e -> aff_est k fs o a -> exec pool o k = Ok (n, k') ->
      both_reach k' (pool ++ [n]) (es ++ [e]) (fs ++ [a]).
End Both.
