(** Specification vocabulary: rounding errors of derivatives. *)
From Verif Require Import Base Num Node Problem ModelStd ExprSpec TextSpec ExactSpec RoundSpec PolySpec.
From Coq Require Import Reals Floats.SpecFloat.
Local Open Scope R_scope.

(** Expressions of finite constants, variables, sums, products and quotients by constants. *)
Fixpoint arith (n : node F) : Prop :=
  match n with
  | NConst _ v => finite64 v
  | NVar _ _ _ => True
  | NAdd _ args => (fix all l := match l with [] => True | a :: l' => arith a /\ all l' end) args
  | NMul _ a b => arith a /\ arith b
  | NDiv _ a (NConst _ v) => arith a /\ finite64 v
  | _ => False
  end.

(** The real function such an expression stands for: its constants are the real numbers they
    are, the variables are cells, the operations are those of the real numbers. *)
Fixpoint real_value (n : node F) (r : nat -> R) : R :=
  match n with
  | NConst _ v => float_value v
  | NVar i _ _ => r i
  | NAdd _ args => fold_right (fun a s => real_value a r + s) 0 args
  | NMul _ a b => real_value a r * real_value b r
  | NDiv _ a b => real_value a r / real_value b r
  | NSin _ a => sin (real_value a r)
  | NCos _ a => cos (real_value a r)
  end.

(** The rounding estimate (see [RoundSpec]) of evaluating an expression.  A sine or cosine adds
    one to the magnitude, to pay for its own error; a quotient divides by the square of its
    denominator. *)
Definition e_sin (a : est) : est := mk_est (e_ops a + 1) (fun r => sin (e_val a r)) (fun r => e_mag a r + 1).
Definition e_cos (a : est) : est := mk_est (e_ops a + 1) (fun r => cos (e_val a r)) (fun r => e_mag a r + 1).
Definition e_quot (a b : est) : est :=
  mk_est (e_ops a + e_ops b + 1) (fun r => e_val a r / e_val b r)
         (fun r => e_mag a r * (2 * e_mag b r / (e_val b r * e_val b r)) + tiny).
Definition e_sum (es : list est) : est := fold_right e_add (e_const (flit 0)) es.
Fixpoint est_of (n : node F) : est :=
  match n with
  | NConst _ v => e_const v
  | NVar i _ _ => mk_est 0 (fun r => r i) (fun r => Rabs (r i))
  | NAdd _ args => e_sum (map est_of args)
  | NMul _ a b => e_mul (est_of a) (est_of b)
  | NDiv _ a (NConst _ v) => e_div (est_of a) v
  | NDiv _ a b => e_quot (est_of a) (est_of b)
  | NSin _ a => e_sin (est_of a)
  | NCos _ a => e_cos (est_of a)
  end.
(** The estimates of the terms of a derivative: one for each occurrence of the variable, the
    product of the factors beside it on the way up from it.  [acc] is the estimate of the factors
    met so far. *)
Fixpoint occurrence_terms (c : nat) (n : node F) (acc : est) : list est :=
  match n with
  | NVar i _ _ => if Nat.eqb i c then [acc] else []
  | NAdd _ args => flat_map (fun a => occurrence_terms c a acc) args
  | NMul _ a b => occurrence_terms c a (e_mul acc (est_of b)) ++ occurrence_terms c b (e_mul acc (est_of a))
  | NDiv _ a (NConst _ v) => occurrence_terms c a (e_mul acc (e_div (e_const (flit 1)) v))
  | NDiv _ a b => occurrence_terms c a (e_mul acc (e_quot (e_const (flit 1)) (est_of b))) ++
                  occurrence_terms c b (e_mul acc (e_quot (e_neg (est_of a)) (e_mul (est_of b) (est_of b))))
  | NSin _ a => occurrence_terms c a (e_mul acc (e_cos (est_of a)))
  | NCos _ a => occurrence_terms c a (e_mul acc (e_neg (e_sin (est_of a))))
  | NConst _ _ => []
  end.
Definition derivative_est (c : nat) (n : node F) : est := e_sum (occurrence_terms c n (e_const (flit 1))).

(** The sine and cosine of the machine: within 2^-53 (a unit in the last place of the numbers from 1/2 to 1) of the real ones at
    finite numbers, and not finite elsewhere. *)
Definition accurate (g : F -> F) (f : R -> R) : Prop :=
  forall x, f64 x -> f64 (g x) /\ (finiteb (g x) = true -> finiteb x = true /\ Rabs (float_value (g x) - f (float_value x)) <= unit_roundoff).
(** A denominator: its value is finite, the number it stands for is not zero, and the bound on the
    rounding error is at most half of that number. *)
Definition safe_denominator (y : F) (e : est) (r : nat -> R) : Prop :=
  finiteb y = true /\ e_val e r <> 0 /\ 2 * error_bound (e_ops e) (e_mag e r) <= Rabs (e_val e r).
(** All denominators that are not constants are safe; if [der], so are their squares, and no
    expression is divided by itself. *)
Fixpoint safe_quotients (num : Num F) (der : bool) (vs : vals F) (r : nat -> R) (n : node F) : Prop :=
  match n with
  | NConst _ _ | NVar _ _ _ => True
  | NAdd _ args => (fix all l := match l with [] => True | a :: l' => safe_quotients num der vs r a /\ all l' end) args
  | NSin _ a | NCos _ a => safe_quotients num der vs r a
  | NMul _ a b => safe_quotients num der vs r a /\ safe_quotients num der vs r b
  | NDiv _ a (NConst _ v) => safe_quotients num der vs r a
  | NDiv _ a b => safe_quotients num der vs r a /\ safe_quotients num der vs r b /\ safe_denominator (@evaluate F num vs b) (est_of b) r /\
      (der = true -> nid a <> nid b /\ safe_denominator (SFmul 53 1024 (@evaluate F num vs b) (@evaluate F num vs b)) (e_mul (est_of b) (est_of b)) r)
  end.

(** All constants in an expression are finite. *)
Definition finite_constants (n : node F) : Prop := forall i v, sub (NConst i v) n -> finite64 v.
(** If the number [y] is finite, it is [z] up to the bound of the estimate. *)
Definition near (y : F) (z : R) (e : est) (r : nat -> R) : Prop :=
  finiteb y = true -> Rabs (float_value y - z) <= error_bound (e_ops e) (e_mag e r).
(** [r] gives the variables the numbers at their places in [x]. *)
Definition point_reads (sp : std_prob F) (x : list F) (r : nat -> R) : Prop :=
  forall v i y, In (v, i) (sp_var2index sp) -> nth_error x i = Some y -> f64 y /\ (finiteb y = true -> r (nid v) = float_value y).
(** The estimate of the function of a row: that of left minus right side, minus the slack. *)
Definition row_est (d : node F) (sl : option (node F)) : est :=
  match sl with None => est_of d | Some s => e_sub (est_of d) (est_of s) end.
Definition row_value (d : node F) (sl : option (node F)) (r : nat -> R) : R :=
  match sl with None => real_value d r | Some s => real_value d r - real_value s r end.
