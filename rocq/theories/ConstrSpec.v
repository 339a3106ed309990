(** Specification vocabulary for constraints and their standard form
    (independent of the code that builds it). *)
From Verif Require Import Base Num Node NodeStd Constraint ExprSpec.
From Coq Require Import Reals.
Local Open Scope R_scope.

(** Both values are defined and equal; both are defined and ordered. *)
Definition eqX (a b : X) : Prop := exists r, a = Some r /\ b = Some r.
Definition leX (a b : X) : Prop := exists r s, a = Some r /\ b = Some s /\ r <= s.

(** The relation of a constraint. *)
Definition rel (kd : ckind) (a b : R) : Prop :=
  match kd with Equal => a = b | LessEqual => a <= b | GreaterEqual => a >= b end.

(** The constraint holds at [vs]: both sides have a value and are related. *)
Definition holds (vs : valsX) (c : constraint X) : Prop :=
  exists a b, evaluate vs (clhs c) = Some a /\ evaluate vs (crhs c) = Some b /\ rel (ckd c) a b.

(** The two sides have a value for at least one valuation (for instance: no
    NaN constant in them). *)
Definition meaningful (c : constraint X) : Prop :=
  exists vs a b, evaluate vs (clhs c) = Some a /\ evaluate vs (crhs c) = Some b.

(** Row [r] of a list of [(row, variable, coefficient)]. *)
Definition lrow {T} (r : nat) (a : list (nat * node T * T)) : list (node T * T) :=
  map (fun e => (snd (fst e), snd e)) (filter (fun e => (fst (fst e) =? r)%nat) a).

(** The standard components hold at [vs]: the linear rows (numbered from
    [arow]) equal their right-hand sides, the nonlinear functions are zero, the
    variables are within their bounds. *)
Definition std_holds (arow : nat) (vs : valsX) (cs : cstd X) : Prop :=
  (forall i b, nth_error (cs_b cs) i = Some b -> eqX (lin vs (lrow (arow + i) (cs_a cs))) b) /\
  Forall (fun f => evaluate vs f = Some 0) (cs_f cs) /\
  Forall (fun e => leX (evaluate vs (fst (fst e))) (snd (fst e))) (cs_u cs) /\
  Forall (fun e => leX (snd (fst e)) (evaluate vs (fst (fst e)))) (cs_l cs).

(** The two valuations give the same value to every variable that existed
    when [k] cells had been allocated. *)
Definition same_before {T} `{Num T} (k : nat) (vs vs' : vals T) : Prop :=
  forall v, is_var v = true -> (nid v < k)%nat -> evaluate vs v = evaluate vs' v.
