(** Solver parameters: src/solver/base.rs and the constructors of the solvers. *)
From Verif Require Import Base Num ModelStd.

(** base.rs:29-39.  [i32] is any integer here. *)
Inductive param (T : Type) := IntParam (i : Z) | FloatParam (x : T) | StrParam (s : string).
Arguments IntParam {T}. Arguments FloatParam {T}. Arguments StrParam {T}.

(** [HashMap<String, SolverParam>]; only looked up, never iterated. *)
Definition params (T : Type) := list (string * param T).

Section SolverBase.
  Context {T : Type}.
  (** base.rs:46. *)
  Definition get_param (ps : params T) (name : string) : option (param T) := hget String.eqb name ps.

  (** base.rs:55-76.  The error leaves the map as it was. *)
  Definition set_param (ps : params T) (name : string) (value : param T) : sum (params T) string :=
    match hget String.eqb name ps with
    | None => inr "unknown parameter"%string
    | Some v =>
      match v, value with
      | IntParam _, IntParam y => inl (hinsert String.eqb name (IntParam y) ps)
      | FloatParam _, FloatParam y => inl (hinsert String.eqb name (FloatParam y) ps)
      | StrParam _, StrParam y => inl (hinsert String.eqb name (StrParam y) ps)
      | _, _ => inr "invalid parameter type"%string
      end
    end.

  (** clp_cmd.rs:31-39 and cbc_cmd.rs:35-43. *)
  Definition clp_new : params T := [("logLevel"%string, IntParam 5)].
  Definition cbc_new : params T := [("logLevel"%string, IntParam 5)].
  (** ipopt.rs:37-46. *)
  Definition ipopt_new : params T := [("print_level"%string, IntParam 5); ("sb"%string, StrParam "no"%string)].

  (** base.rs:84-94 [Display] of the status. *)
  Definition status_text (s : status) : string :=
    match s with
    | Error => "error" | Unknown => "unknown" | Solved => "solved" | Infeasible => "infeasible"
    end%string.
End SolverBase.
