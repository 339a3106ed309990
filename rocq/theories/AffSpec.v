(** Specification vocabulary: how far the coefficients of affine expressions are from derivatives,
    and first-order conditions up to rounding. *)
From Verif Require Import Base Num Node NodeStd Constraint Matrix MatSpec Problem ModelStd Model ExprSpec KktSpec TextSpec ExactSpec RoundSpec PolySpec DerEstSpec BitSpec.
From Coq Require Import Reals Floats.SpecFloat.
Local Open Scope R_scope.

(** The rounding estimate of the coefficient of the variable with cell [c] in an affine
    expression: a sum adds the coefficients of its terms, a product with a constant and a quotient
    by one multiply and divide.  Its value is the derivative. *)
Definition e_one_if (b : bool) : est := mk_est 0 (fun _ => if b then 1 else 0) (fun _ => if b then 1 else 0).
Fixpoint coefficient_est (c : nat) (n : node F) : est :=
  match n with
  | NVar i _ _ => e_one_if (Nat.eqb i c)
  | NAdd _ args => e_sum (map (coefficient_est c) args)
  | NMul _ (NConst _ v) b => e_mul (coefficient_est c b) (e_const v)
  | NMul _ a (NConst _ v) => e_mul (coefficient_est c a) (e_const v)
  | NDiv _ a (NConst _ v) => e_div (coefficient_est c a) v
  | _ => e_const (flit 0)
  end.
(** The coefficient of a variable in the affine form the code makes; zero if it has none. *)
Definition coefficient (num : Num F) (n v : node F) : F :=
  match hget ptr_eq v (p_a (@std_properties F num n)) with Some y => y | None => flit 0 end.

(** The number stored at a position of a matrix (zero if there is none; several are added). *)
Definition stored (m : coo F) (i j : nat) : R := total (map float_value (at_pos m i j)).
Definition stored_finite (m : coo F) (i j : nat) : Prop := Forall (fun y => finiteb y = true) (at_pos m i j).

(** The estimate that bounds the error of the first derivative of [n]: its coefficient if it is
    affine, else the result of [derivative]. *)
Definition first_est (num : Num F) (c : nat) (n : node F) : est :=
  if p_affine (@std_properties F num n) then coefficient_est c n else derivative_est c n.
Definition first_error (num : Num F) (c : nat) (r : nat -> R) (n : node F) : R :=
  error_bound (e_ops (first_est num c n)) (e_mag (first_est num c n) r).

(** Sum of the products of multipliers and derivatives; of their absolute values and errors. *)
Fixpoint weighted (w : nat -> R) (l : list R) : R :=
  match l with [] => 0 | y :: l' => w 0%nat * y + weighted (fun i => w (Datatypes.S i)) l' end.
Definition weighted_error (w : nat -> R) (l : list R) : R := weighted (fun i => Rabs (w i)) l.

(** The numbers in column [j] of the gradient and of the two matrices are finite; [a] are the linear
    rows, [bf] what evaluating the problem left. *)
Definition column_finite (a : coo F) (bf : bufs F) (j : nat) : Prop :=
  finiteb (nth j (b_gphi bf) (flit 0)) = true /\ (forall i, stored_finite a i j) /\ (forall i, stored_finite (b_j bf) i j).
(** Component [j] of   grad phi - A^T lam - J^T nu + mu - pi   with the stored numbers, which are
    taken as the real numbers they are. *)
Definition told_residual (a : coo F) (b : list F) (bf : bufs F) (lam nu mu pi : nat -> R) (j : nat) : R :=
  float_value (nth j (b_gphi bf) (flit 0))
  - weighted lam (map (fun i => stored a i j) (seq 0 (length b)))
  - weighted nu (map (fun i => stored (b_j bf) i j) (seq 0 (length (b_f bf))))
  + mu j - pi j.
(** The same for the model: [d0] is the derivative of its objective, [da] and [dj] those of its
    linear and of its other rows. *)
Definition model_residual (d0 : R) (da dj : list R) (lam nu mu pi : nat -> R) (j : nat) : R :=
  d0 - weighted lam da - weighted nu dj + mu j - pi j.
