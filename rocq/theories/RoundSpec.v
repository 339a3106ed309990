(** Specification vocabulary: comparisons of binary64 values, and rounding errors. *)
From Verif Require Import Base Num Node Constraint ExprSpec Api TextSpec ExactSpec.
From Coq Require Import Reals Floats.SpecFloat.

(** A binary64 value (finite, infinite or NaN). *)
Definition f64 (v : F) : Prop := valid_binary 53 1024 v = true.
Definition is_nan (v : F) : Prop := v = S754_nan.
Definition is_zero (v : F) : Prop := exists s, v = S754_zero s.
(** Not NaN and not less than zero. *)
Definition nonnegative (v : F) : Prop :=
  match v with S754_zero _ | S754_finite false _ _ | S754_infinity false => True | _ => False end.
(** [a <= b] on the extended real line. *)
Definition ext_le (a b : F) : Prop :=
  match a, b with
  | S754_nan, _ | _, S754_nan => False
  | S754_infinity true, _ | _, S754_infinity false => True
  | S754_infinity false, _ | _, S754_infinity true => False
  | _, _ => (float_value a <= float_value b)%R
  end.
(** The two sides of a constraint, the one that should be the smaller first. *)
Definition lower_side (c : constraint F) : node F := match ckd c with GreaterEqual => crhs c | _ => clhs c end.
Definition upper_side (c : constraint F) : node F := match ckd c with GreaterEqual => clhs c | _ => crhs c end.

(** ** Rounding errors of expressions

    For an expression: the number of operations that may round, and, as functions of the real
    numbers the variables stand for (identified by their cells), its exact value and its
    magnitude, which is the value computed with all numbers replaced by their absolute values
    and all subtractions by additions.  Each product and quotient also adds a multiple of the
    smallest normal number to the magnitude, to pay for underflow. *)
Local Open Scope R_scope.
Record est := mk_est { e_ops : nat; e_val : (nat -> R) -> R; e_mag : (nat -> R) -> R }.
(** The unit roundoff and the smallest normal number. *)
Definition unit_roundoff : R := / 2 ^ 53.
Definition tiny : R := / 2 ^ 1022.
(** The bound. *)
Definition error_bound (ops : nat) (mag : R) : R := ((1 + unit_roundoff) ^ ops - 1) * mag.

Definition e_const (v : F) : est := mk_est 0 (fun _ => float_value v) (fun _ => Rabs (float_value v)).
Definition e_add (a b : est) : est :=
  mk_est (e_ops a + e_ops b + 1) (fun r => e_val a r + e_val b r) (fun r => e_mag a r + e_mag b r).
Definition e_sub (a b : est) : est :=
  mk_est (e_ops a + e_ops b + 1) (fun r => e_val a r - e_val b r) (fun r => e_mag a r + e_mag b r).
Definition e_mul (a b : est) : est :=
  mk_est (e_ops a + e_ops b + 1) (fun r => e_val a r * e_val b r)
         (fun r => e_mag a r * e_mag b r + INR ((e_ops a + 1) * (e_ops b + 1)) * tiny).
Definition e_div (a : est) (v : F) : est :=
  mk_est (e_ops a + 1) (fun r => e_val a r / float_value v) (fun r => e_mag a r / Rabs (float_value v) + tiny).
Definition e_neg (a : est) : est := mk_est (e_ops a) (fun r => - e_val a r) (e_mag a).

Definition finite64 (v : F) : Prop := f64 v /\ finiteb v = true.
(** The estimate of the result of a call, from those of its operands.  Scalars are finite. *)
Inductive op_est (k : nat) (es : list est) : op F -> est -> Prop :=
| oe_var s kd : op_est k es (OVar s kd) (mk_est 0 (fun r => r k) (fun r => Rabs (r k)))
| oe_const v : finite64 v -> op_est k es (OConst v) (e_const v)
| oe_add_nn i j a b : nth_error es i = Some a -> nth_error es j = Some b -> op_est k es (OAddNN i j) (e_add a b)
| oe_add_ns i v a : nth_error es i = Some a -> finite64 v -> op_est k es (OAddNS i v) (e_add a (e_const v))
| oe_add_sn i v a : nth_error es i = Some a -> finite64 v -> op_est k es (OAddSN v i) (e_add (e_const v) a)
| oe_sub_nn i j a b : nth_error es i = Some a -> nth_error es j = Some b -> op_est k es (OSubNN i j) (e_sub a b)
| oe_sub_ns i v a : nth_error es i = Some a -> finite64 v -> op_est k es (OSubNS i v) (e_sub a (e_const v))
| oe_sub_sn i v a : nth_error es i = Some a -> finite64 v -> op_est k es (OSubSN v i) (e_sub (e_const v) a)
| oe_mul_nn i j a b : nth_error es i = Some a -> nth_error es j = Some b -> op_est k es (OMulNN i j) (e_mul a b)
| oe_mul_ns i v a : nth_error es i = Some a -> finite64 v -> op_est k es (OMulNS i v) (e_mul a (e_const v))
| oe_mul_sn i v a : nth_error es i = Some a -> finite64 v -> op_est k es (OMulSN v i) (e_mul (e_const v) a)
| oe_div_ns i v a : nth_error es i = Some a -> finite64 v -> op_est k es (ODivNS i v) (e_div a v)
| oe_neg i a : nth_error es i = Some a -> op_est k es (ONeg i) (e_neg a)
| oe_clone i a : nth_error es i = Some a -> op_est k es (OClone i) a.

Section Reach.
  Context `{Num F}.
  (** Programs of such calls. *)
  Inductive est_reach : nat -> list (node F) -> list est -> Prop :=
  | er_nil : est_reach 0 [] []
  | er_step {HO : HashOrd} k pool es o n k' e :
      est_reach k pool es -> op_est k es o e -> exec pool o k = Ok (n, k') -> est_reach k' (pool ++ [n]) (es ++ [e]).
End Reach.
(** The values in the map are binary64, and those that are finite are the numbers [r] of their
    variables. *)
Definition reads (vs : vals F) (r : nat -> R) : Prop :=
  forall v x, is_var v = true -> hget ptr_eq v vs = Some x -> f64 x /\ (finiteb x = true -> r (nid v) = float_value x).
