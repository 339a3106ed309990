(** Vocabulary for property C77: one operation as a function of the values of its arguments. *)
From Verif Require Import Base Num Node ExprSpec.
From Coq Require Import Reals List.
Import ListNotations.
Local Open Scope R_scope.

(** What an operation makes of the values of its arguments. *)
Definition operation (n : node X) (zs : list R) : R :=
  match n, zs with
  | NAdd _ _, _ => fold_right Rplus 0 zs
  | NMul _ _ _, [a; b] => a * b
  | NDiv _ _ _, [a; b] => a / b
  | NSin _ _, [a] => sin a
  | NCos _ _, [a] => cos a
  | _, _ => 0
  end.
(** The list with its element at place [i] replaced. *)
Definition with_value (zs : list R) (i : nat) (t : R) : list R := firstn i zs ++ t :: skipn (S i) zs.
(** [i] is the first place at which [a] is an argument of [n]. *)
Definition first_place {T} (n a : node T) (i : nat) : Prop :=
  nth_error (arguments n) i = Some a /\ forall j, (j < i)%nat -> nth_error (arguments n) j <> Some a.
(** [a] is not an argument of [n], nor, if [n] is a variable, that variable. *)
Definition unrelated {T} (n a : node T) : Prop :=
  (forall b, In b (arguments n) -> ptr_eq b a = false) /\ (is_var n = true -> ptr_eq n a = false).
