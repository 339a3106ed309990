(** The command-line solvers: src/solver/{clp_cmd,cbc_cmd}.rs. *)
From Verif Require Import Base Num Matrix Problem ModelStd Model Text LpFile SolverBase SolFile.

(** The files of the working directory. *)
Definition files := string -> option string.
Definition put (f : files) (name text : string) : files := fun n => if (n =? name)%string then Some text else f n.
Definition remove (f : files) (name : string) : files := fun n => if (n =? name)%string then None else f n.

(** What the environment does during one call of [solve]. *)
Record osys := mk_osys {
  os_tmp1 : option string;       (* the random part of the first temporary name, or failure *)
  os_tmp2 : option string;
  os_create : bool;              (* the input file can be created *)
  os_disk : option nat;          (* writing fails after that many bytes *)
  os_run : string -> list string -> files -> files * bool
                                 (* spawning and waiting: the files afterwards, success *)
}.

Inductive tool := Clp | Cbc.

(** A call returns or unwinds. *)
Inductive outcome_of (A : Type) := Returns (a : A) | Unwinds (p : panic).
Arguments Returns {A}. Arguments Unwinds {A}.

Section CmdSolver.
  Context {T : Type} `{Num T} `{NumText T}.

  Definition tool_name (t : tool) : string := match t with Clp => "clp" | Cbc => "cbc" end.
  (** clp_cmd.rs:50-53 and cbc_cmd.rs:156-160: the problem each tool accepts. *)
  Definition accepts (t : tool) (p : problem T) : option (milp T) :=
    match t, p with
    | Cbc, PMilp q => Some q
    | Cbc, PLp q | Clp, PLp q => Some (lp_milp q)
    | _, _ => None
    end.

  (** milp.rs:113-202 with its effects: the files, and success.  A failing write
      leaves a part of the text.  A panic comes after the file is created and unwinds; what
      part of the text the file then has is not modelled. *)
  Definition write_file (o : osys) (f : files) (name : string) (p : milp T) : files * res bool :=
    if os_create o then
      match write_to_lp_file p with
      | Panic e => (put f name "", Panic e)
      | Ok text =>
        match os_disk o with
        | Some n => if n <? String.length text then (put f name (substring 0 n text), Ok false)
                    else (put f name text, Ok true)
        | None => (put f name text, Ok true)
        end
      end
    else (f, Ok false).

  (** clp_cmd.rs:47-131 and cbc_cmd.rs:153-235, which differ in the tool, the
      accepted problems and the redirection of the output (not modelled).  The
      temporary files made to obtain the names are deleted before use and
      live in another directory; [remove_file] of a file that exists succeeds. *)
  Definition cmd_solve (t : tool) (ps : params T) (p : problem T) (o : osys) (f : files)
    : files * outcome_of (sum (status * sol T) string) :=
    match accepts t p with
    | None => (f, Returns (inr "problem type not supported"%string))
    | Some q =>
      match os_tmp1 o with
      | None => (f, Returns (inr "failed to create input filename"%string))
      | Some r1 =>
      let input := (tool_name t ++ r1 ++ ".lp")%string in
      match os_tmp2 o with
      | None => (f, Returns (inr "failed to create output filename"%string))
      | Some r2 =>
      let output := (tool_name t ++ r2 ++ ".sol")%string in
      match write_file o f input q with
      | (f1, Panic e) => (f1, Unwinds e)
      | (f1, Ok false) => (remove (remove f1 input) output, Returns (inr "failed to write lp file"%string))
      | (f1, Ok true) =>
        match get_param ps "logLevel" with
        | Some (IntParam lvl) =>
          match os_run o (tool_name t)
                  [input; "logLevel"; dec_Z lvl; "printingOptions"; "all"; "solve"; "solution"; output]%string f1 with
          | (f2, false) => (remove (remove f2 input) output,
                            Returns (inr ("failed executing " ++ tool_name t ++ " command")%string))
          | (f2, true) =>
            let f3 := remove f2 input in
            match read_sol_file (f3 output) (milp_nx q) (milp_na q) (match t with Cbc => true | Clp => false end) with
            | Panic e => (f3, Unwinds e)
            | Ok None => (remove f3 output, Returns (inr ("failed to read " ++ tool_name t ++ " solution file")%string))
            | Ok (Some r) => (remove f3 output, Returns (inl r))
            end
          end
        | _ => (f1, Returns (inr "unable to get parameter logLevel"%string))
        end
      end end end
    end.
End CmdSolver.
