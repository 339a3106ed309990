(** Vocabulary for property C78: expressions put together by the constructors [FunctionAdd::new],
    [FunctionMul::new], [FunctionDiv::new], [FunctionSin::new], [FunctionCos::new]
    (src/model/function/*.rs) instead of the operators: any nodes at all. *)
From Verif Require Import Base Num Node ExprSpec.

(** Nodes that compare equal (same kind, same address) are the same node. *)
Definition identities {T} (e : node T) : Prop := forall a b, sub a e -> sub b e -> ptr_eq a b = true -> a = b.
(** Every argument of a sine or cosine contains a variable. *)
Definition functions_of_variables {T} (e : node T) : Prop :=
  forall i a, sub (NSin i a) e \/ sub (NCos i a) e -> exists v, occurs v a.
