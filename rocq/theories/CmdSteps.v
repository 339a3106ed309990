(** The command-line solvers once more (src/solver/{clp_cmd,cbc_cmd}.rs), as programs of single
    file operations that can be interleaved with those of other calls, or stopped between
    any two of them. *)
From Verif Require Import Base Num Matrix Problem ModelStd Model Text LpFile SolverBase SolFile CmdSolver.

(** One operation on the files of the working directory.  [FCreate] is [File::create]
    (empties a file that exists); [FAppend] a write through an open file, which has no visible
    effect once the file was removed; [FRead] reads a whole file, [None] if there is none. *)
Inductive fop := FCreate (n : string) | FAppend (n s : string) | FRemove (n : string) | FRead (n : string).
Definition fapply (o : fop) (f : files) : files * option string :=
  match o with
  | FCreate n => (put f n "", None)
  | FAppend n s => (match f n with Some t => put f n (t ++ s) | None => f end, None)
  | FRemove n => (remove f n, None)
  | FRead n => (f, f n)
  end.

(** A program: a result, or an operation and what to do with its answer. *)
Inductive prog (A : Type) : Type :=
| Fin (a : A)
| Op (o : fop) (k : option string -> prog A).
Arguments Fin {A}. Arguments Op {A}.
Fixpoint pbind {A B} (p : prog A) (g : A -> prog B) : prog B :=
  match p with Fin a => g a | Op o k => Op o (fun r => pbind (k r) g) end.

(** What the environment does during one call: as [osys], but the command is itself a program of
    file operations (of any kind and length), and the text of the problem reaches the file in
    pieces of any sizes. *)
Record cenv := mk_cenv {
  ce_tmp1 : option string;
  ce_tmp2 : option string;
  ce_create : bool;
  ce_disk : option nat;
  ce_split : list nat;
  ce_cmd : string -> list string -> prog bool
}.
Fixpoint chunks (l : list nat) (s : string) : list string :=
  match l with
  | [] => [s]
  | n :: l' => substring 0 n s :: chunks l' (substring n (String.length s - n) s)
  end.
Fixpoint appends {A} (n : string) (l : list string) (p : prog A) : prog A :=
  match l with [] => p | s :: l' => Op (FAppend n s) (fun _ => appends n l' p) end.

Section CmdSteps.
  Context {T : Type} `{Num T} `{NumText T}.

  (** milp.rs:113-202. *)
  Definition write_prog (e : cenv) (name : string) (p : milp T) : prog (res bool) :=
    if ce_create e then
      Op (FCreate name) (fun _ =>
      match write_to_lp_file p with
      | Panic x => Fin (Panic x)
      | Ok text =>
        match ce_disk e with
        | Some n => if n <? String.length text then appends name (chunks (ce_split e) (substring 0 n text)) (Fin (Ok false))
                    else appends name (chunks (ce_split e) text) (Fin (Ok true))
        | None => appends name (chunks (ce_split e) text) (Fin (Ok true))
        end
      end)
    else Fin (Ok false).

  (** clp_cmd.rs:47-131 and cbc_cmd.rs:153-235 (see [cmd_solve]). *)
  Definition cmd_prog (t : tool) (ps : params T) (p : problem T) (e : cenv)
    : prog (outcome_of (sum (status * sol T) string)) :=
    match accepts t p with
    | None => Fin (Returns (inr "problem type not supported"%string))
    | Some q =>
      match ce_tmp1 e with
      | None => Fin (Returns (inr "failed to create input filename"%string))
      | Some r1 =>
      let input := (tool_name t ++ r1 ++ ".lp")%string in
      match ce_tmp2 e with
      | None => Fin (Returns (inr "failed to create output filename"%string))
      | Some r2 =>
      let output := (tool_name t ++ r2 ++ ".sol")%string in
      pbind (write_prog e input q) (fun w =>
      match w with
      | Panic x => Fin (Unwinds x)
      | Ok false => Op (FRemove input) (fun _ => Op (FRemove output) (fun _ => Fin (Returns (inr "failed to write lp file"%string))))
      | Ok true =>
        match get_param ps "logLevel" with
        | Some (IntParam lvl) =>
          pbind (ce_cmd e (tool_name t) [input; "logLevel"; dec_Z lvl; "printingOptions"; "all"; "solve"; "solution"; output]%string) (fun ok =>
          if ok : bool then
            Op (FRemove input) (fun _ =>
            Op (FRead output) (fun c =>
            match read_sol_file c (milp_nx q) (milp_na q) (match t with Cbc => true | Clp => false end) with
            | Panic x => Fin (Unwinds x)
            | Ok None => Op (FRemove output) (fun _ => Fin (Returns (inr ("failed to read " ++ tool_name t ++ " solution file")%string)))
            | Ok (Some r) => Op (FRemove output) (fun _ => Fin (Returns (inl r)))
            end))
          else
            Op (FRemove input) (fun _ => Op (FRemove output) (fun _ =>
            Fin (Returns (inr ("failed executing " ++ tool_name t ++ " command")%string)))))
        | _ => Fin (Returns (inr "unable to get parameter logLevel"%string))
        end
      end)
      end end
    end.
End CmdSteps.

(** ** Executions *)
(** A program alone, to its end. *)
Fixpoint run {A} (p : prog A) (f : files) : files * A :=
  match p with Fin a => (f, a) | Op o k => run (k (snd (fapply o f))) (fst (fapply o f)) end.
(** Programs side by side: the [i]th one makes its next operation. *)
Definition step_one {A} (w : list (prog A) * files) (i : nat) : list (prog A) * files :=
  match nth_error (fst w) i with
  | Some (Op o k) => (set_nth (fst w) i (k (snd (fapply o (snd w)))), fst (fapply o (snd w)))
  | _ => w
  end.
(** Any schedule: the list of who makes the next operation.  A program that does not
    appear (any more) in the schedule has not started, was stopped, or waits. *)
Definition interleave {A} (schedule : list nat) (w : list (prog A) * files) : list (prog A) * files :=
  fold_left step_one schedule w.
