(** Specification vocabulary: convexity between two points. *)
From Verif Require Import Base Num Node Constraint.
From Coq Require Import Reals.
Local Open Scope R_scope.

(** The point at [t] of the segment from [r] (at 0) to [z] (at 1). *)
Definition segment (r z : nat -> R) (t : R) : nat -> R := fun c => r c + t * (z c - r c).
(** The function lies below its chord from [r] to [z]. *)
Definition convex_between (f : (nat -> R) -> R) (r z : nat -> R) : Prop :=
  forall t, 0 <= t <= 1 -> f (segment r z t) <= (1 - t) * f r + t * f z.
(** What a convex problem asks of left minus right side of a constraint: convex for [<=], concave
    for [>=], both for [=]. *)
Definition convex_kind (kd : ckind) (f : (nat -> R) -> R) (r z : nat -> R) : Prop :=
  match kd with
  | Equal => convex_between f r z /\ convex_between (fun x => - f x) r z
  | LessEqual => convex_between f r z
  | GreaterEqual => convex_between (fun x => - f x) r z
  end.
