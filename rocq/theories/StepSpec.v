(** Specification vocabulary for calls that run side by side. *)
From Verif Require Import Base Num Problem ModelStd Text LpFile SolverBase SolFile CmdSolver CmdSteps Properties_Cmd.

(** The program writes (creates, extends, removes) only files in [own] and reads only files in
    [own] or [shared], whatever it reads. *)
Inductive uses {A} (own shared : string -> Prop) : prog A -> Prop :=
| u_fin a : uses own shared (Fin a)
| u_create n k : own n -> (forall r, uses own shared (k r)) -> uses own shared (Op (FCreate n) k)
| u_append n s k : own n -> (forall r, uses own shared (k r)) -> uses own shared (Op (FAppend n s) k)
| u_remove n k : own n -> (forall r, uses own shared (k r)) -> uses own shared (Op (FRemove n) k)
| u_read n k : own n \/ shared n -> (forall r, uses own shared (k r)) -> uses own shared (Op (FRead n) k).

(** One call of [solve] of a command-line solver. *)
Record call_of (T : Type) := mk_call { cl_tool : tool; cl_set : list (string * param T); cl_problem : problem T; cl_env : cenv }.
Arguments mk_call {T}. Arguments cl_tool {T}. Arguments cl_set {T}. Arguments cl_problem {T}. Arguments cl_env {T}.

(** [n] is the name of one of the two files of the call. *)
Definition own_file {T} (c : call_of T) (n : string) : Prop :=
  (exists z, ce_tmp1 (cl_env c) = Some z /\ n = input_name (cl_tool c) z) \/
  (exists z, ce_tmp2 (cl_env c) = Some z /\ n = output_name (cl_tool c) z).
(** The command uses only the files it is given (first and last argument), apart from reading
    files that are [shared]. *)
Definition polite {T} (shared : string -> Prop) (c : call_of T) : Prop :=
  forall cmd args, uses (fun n => n = hd "" args \/ n = last args "")%string shared (ce_cmd (cl_env c) cmd args).
(** No file belongs to two calls, and the shared files belong to none. *)
Definition apart {T} (shared : string -> Prop) (calls : list (call_of T)) : Prop :=
  (forall i j c d, i <> j -> nth_error calls i = Some c -> nth_error calls j = Some d -> forall n, own_file c n -> ~ own_file d n) /\
  (forall c n, In c calls -> own_file c n -> ~ shared n).

Section Step.
  Context {T : Type} `{Num T} `{NumText T}.
  Definition call_params (c : call_of T) : params T := after (match cl_tool c with Clp => clp_new | Cbc => cbc_new end) (cl_set c).
  Definition call_prog (c : call_of T) := cmd_prog (cl_tool c) (call_params c) (cl_problem c) (cl_env c).
  (** The environment of the same call without the others. *)
  Definition call_env (c : call_of T) : osys :=
    mk_osys (ce_tmp1 (cl_env c)) (ce_tmp2 (cl_env c)) (ce_create (cl_env c)) (ce_disk (cl_env c)) (fun cmd args => run (ce_cmd (cl_env c) cmd args)).
  (** What the call returns when it is the only one, from the files [f]. *)
  Definition alone (c : call_of T) (f : files) : files * outcome_of (sum (status * sol T) string) :=
    cmd_solve (cl_tool c) (call_params c) (cl_problem c) (call_env c) f.
End Step.
