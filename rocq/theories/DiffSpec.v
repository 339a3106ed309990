(** Specification of differentiation, independent of the code. *)
From Verif Require Import Base Num Node ExprSpec.
From Coq Require Import Reals.
Local Open Scope R_scope.

(** [g], a function with possibly undefined values, is defined around [x0] and
    differentiable there with derivative [l]. *)
Definition has_derivative (g : R -> X) (x0 l : R) : Prop :=
  exists (d : posreal) (f : R -> R),
    (forall t, Rabs (t - x0) < d -> g t = Some (f t)) /\ derivable_pt_lim f x0 l.

(** The valuation [vs] with the value of the variable [v] replaced by [t]. *)
Definition upd (vs : vals X) (v : node X) (t : R) : vals X := hinsert ptr_eq v (Some t) vs.

(** [e], as a function of the variable [v] alone, is differentiable at [vs] with
    derivative [l]. *)
Definition has_partial (e : node X) (vs : vals X) (v : node X) (l : R) : Prop :=
  exists x0, evaluate vs v = Some x0 /\
             has_derivative (fun t => evaluate (upd vs v t) e) x0 l.

(** The partial derivative of [e] by [v1] exists when [v2] varies around its
    value in [vs], and is, as a function of [v2], differentiable there with
    derivative [l]. *)
Definition has_second_partial (e : node X) (vs : vals X) (v1 v2 : node X) (l : R) : Prop :=
  exists x2 (d : posreal) (g : R -> R),
    evaluate vs v2 = Some x2 /\
    (forall t, Rabs (t - x2) < d -> has_partial e (upd vs v2 t) v1 (g t)) /\
    derivable_pt_lim g x2 l.

(** No quotient inside [n] has the same node as numerator and denominator. *)
Definition no_self_division {T} (n : node T) : Prop :=
  forall i a b, sub (NDiv i a b) n -> ptr_eq a b = false.
