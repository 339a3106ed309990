(** Specification vocabulary: derivatives of integer polynomials in binary64. *)
From Verif Require Import Base Num Node Api FmtProofs ExactSpec RoundSpec.
From Coq Require Import Reals Floats.SpecFloat NArith.

(** Degrees: the largest number of factors that may be multiplied together. *)
Inductive op_degree (ds : list nat) : op F -> nat -> Prop :=
| dg_var s kd : op_degree ds (OVar s kd) 1
| dg_const v : op_degree ds (OConst v) 0
| dg_add_nn i j a b : nth_error ds i = Some a -> nth_error ds j = Some b -> op_degree ds (OAddNN i j) (Nat.max a b)
| dg_add_ns i v a : nth_error ds i = Some a -> op_degree ds (OAddNS i v) a
| dg_add_sn i v a : nth_error ds i = Some a -> op_degree ds (OAddSN v i) a
| dg_sub_nn i j a b : nth_error ds i = Some a -> nth_error ds j = Some b -> op_degree ds (OSubNN i j) (Nat.max a b)
| dg_sub_ns i v a : nth_error ds i = Some a -> op_degree ds (OSubNS i v) a
| dg_sub_sn i v a : nth_error ds i = Some a -> op_degree ds (OSubSN v i) a
| dg_mul_nn i j a b : nth_error ds i = Some a -> nth_error ds j = Some b -> op_degree ds (OMulNN i j) (a + b)
| dg_mul_ns i v a : nth_error ds i = Some a -> op_degree ds (OMulNS i v) a
| dg_mul_sn i v a : nth_error ds i = Some a -> op_degree ds (OMulSN v i) a
| dg_neg i a : nth_error ds i = Some a -> op_degree ds (ONeg i) a
| dg_clone i a : nth_error ds i = Some a -> op_degree ds (OClone i) a.

Section PolyReach.
  Context `{Num F}.
  (** Programs of integer polynomial calls, with the size of each expression (as in
      [ExactSpec.op_size], for variables of absolute value at most [V]), its degree, and the real
      function it denotes ([e_val] of [RoundSpec.op_est]). *)
  Inductive poly_reach (V : N) : nat -> list (node F) -> list N -> list nat -> list est -> Prop :=
  | pr_nil : poly_reach V 0 [] [] [] []
  | pr_step {HO : HashOrd} k pool ws ds es o n k' w g e :
      poly_reach V k pool ws ds es -> op_size V ws o w -> (w <= exact_limit)%N -> op_degree ds o g -> op_est k es o e -> exec pool o k = Ok (n, k') ->
      poly_reach V k' (pool ++ [n]) (ws ++ [w]) (ds ++ [g]) (es ++ [e]).
End PolyReach.

Definition set_cell (r : nat -> R) (c : nat) (t : R) : nat -> R := fun i => if Nat.eqb i c then t else r i.
(** [l] is the derivative of [f] with respect to cell [c] at [r]. *)
Definition cell_derivative (f : (nat -> R) -> R) (c : nat) (r : nat -> R) (l : R) : Prop :=
  derivable_pt_lim (fun t => f (set_cell r c t)) (r c) l.
(** [l] is the second derivative of [f], with respect to cell [c] and then cell [c'], at [r]. *)
Definition cell_derivative2 (f : (nat -> R) -> R) (c c' : nat) (r : nat -> R) (l : R) : Prop :=
  exists D, (forall r', cell_derivative f c r' (D r')) /\ cell_derivative D c' r l.
(** Sizes that bound the first and the second derivatives. *)
Definition dsize (w : N) (g : nat) : N := 1 + w * N.of_nat g.
Definition d2size (w : N) (g : nat) : N := dsize (dsize w g) (g - 1).
