(** Vocabulary used in the statements about expressions.  Nothing here models
    code: these are the notions the English properties are stated with. *)
From Verif Require Import Base Num Node.
From Coq Require Import Reals.

Notation nodeX := (node X).
Notation valsX := (vals X).

(** [sub s n]: [s] occurs in the expression [n]. *)
Inductive sub {T} : node T -> node T -> Prop :=
| sub_refl n : sub n n
| sub_arg s c n : In c (arguments n) -> sub s c -> sub s n.

(** [occurs v n]: the variable [v] occurs in the expression [n]. *)
Definition occurs {T} (v n : node T) : Prop := is_var v = true /\ sub v n.

(** [b] is at least as defined as [a] and agrees with it. *)
Definition agrees (a b : X) : Prop := forall z, a = Some z -> b = Some z.

(** Sum of a list of values (undefined if one of them is). *)
Definition xsum (l : list X) : X := fold_left (x2 Rplus) l (Some 0%R).

(** [lin vs a] is the sum of coefficient times value. *)
Definition lin (vs : valsX) (a : list (nodeX * X)) : X :=
  xsum (map (fun kv => x2 Rmult (snd kv) (evaluate vs (fst kv))) a).

(** Canonical form of an expression.  Every expression inside it is either a
    plain constant or has a variable in it; a sum has at least two terms, none
    of them a sum, at most one of them a constant; no denominator is the
    constant zero. *)
Definition canonical {T} `{Num T} (n : node T) : Prop :=
  forall s, sub s n ->
    (is_constant s = true \/ exists v, occurs v s) /\
    match s with
    | NAdd _ args =>
      2 <= length args /\
      (forall x, In x args -> forall i l, x <> NAdd i l) /\
      length (filter is_constant args) <= 1
    | NDiv _ _ (NConst _ c) => neqb c n0 = false
    | _ => True
    end.
