(** What a solution file says, independently of how it is read. *)
From Verif Require Import Base Num Problem ModelStd Text LpFile.
Local Open Scope string_scope.
Local Open Scope list_scope.

(** One line of results: a variable with its value and reduced cost, or a row
    with its multiplier. *)
Inductive record (T : Type) := RVar (i : nat) (value mul : T) | RRow (k : nat) (mul : T).
Arguments RVar {T}. Arguments RRow {T}.

Section SolSpec.
  Context {T : Type} `{Num T} `{NumText T}.

  (** A line [number name value multiplier ...], with [name] made of [x] or [c], an
      underscore, an index, and possibly another underscore and more. *)
  Definition says (l : string) (r : record T) : Prop :=
    utf8_valid l = true /\
    exists w0 name value mul more a idx rest v m,
      words l = w0 :: name :: value :: mul :: more /\ split_on "_" name = a :: idx :: rest /\
      read_num value = Some v /\ read_num mul = Some m /\
      match r with
      | RVar i v' m' => a = "x" /\ parse_usize idx = Some i /\ v' = v /\ m' = m
      | RRow k m' => a = "c" /\ parse_usize idx = Some k /\ m' = m
      end.
  Definition malformed (l : string) : Prop := forall r, ~ says l r.

  (** The items of a problem with [nx] variables and [na] rows. *)
  Definition in_range (nx na : nat) (r : record T) : Prop :=
    match r with RVar i _ _ => i < nx | RRow k _ => k < na end.

  (** The solution listed by some lines: for each item the last one counts. *)
  Definition value_of (i : nat) (r : record T) : list T :=
    match r with RVar j v _ => if i =? j then [v] else [] | _ => [] end%nat.
  Definition pos_of (i : nat) (r : record T) : list T :=
    match r with RVar j _ m => if (i =? j) && nltb n0 m then [m] else [] | _ => [] end%nat.
  Definition neg_of (i : nat) (r : record T) : list T :=
    match r with RVar j _ m => if (i =? j) && negb (nltb n0 m) then [nneg m] else [] | _ => [] end%nat.
  Definition row_mul_of (k : nat) (r : record T) : list T :=
    match r with RRow j m => if k =? j then [m] else [] | _ => [] end%nat.
  Definition final (of : record T -> list T) (rs : list (record T)) : T := last (flat_map of rs) n0.
  Definition listed (nx na : nat) (rs : list (record T)) : sol T :=
    mk_sol (map (fun i => final (value_of i) rs) (seq 0 nx))
           (map (fun k => final (row_mul_of k) rs) (seq 0 na))
           []
           (map (fun i => final (neg_of i) rs) (seq 0 nx))
           (map (fun i => final (pos_of i) rs) (seq 0 nx)).
  Definition zeros (nx na : nat) : sol T := mk_sol (repeat n0 nx) (repeat n0 na) [] (repeat n0 nx) (repeat n0 nx).

  (** What the first line says. *)
  Definition header (cbc : bool) (l : string) : status :=
    match words l with
    | w :: _ =>
      if (w =? (if cbc then "Optimal" else "optimal"))%string then Solved
      else if (w =? (if cbc then "Infeasible" else "infeasible"))%string then Infeasible
      else Error
    | [] => Error
    end.
End SolSpec.
