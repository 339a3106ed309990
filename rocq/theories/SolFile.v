(** Reading a solution file: src/solver/cbc_cmd.rs:46-145. *)
From Verif Require Import Base Num Matrix Problem ModelStd Text LpFile.

Section SolFile.
  Context {T : Type} `{Num T} `{NumText T}.
  Local Open Scope r_scope.

  (** cbc_cmd.rs:66-85: the status from the first word of the first line. *)
  Definition first_status (cbc : bool) (ws : list string) : status :=
    match ws with
    | s :: _ =>
      if negb cbc && (s =? "optimal")%string then Solved
      else if negb cbc && (s =? "infeasible")%string then Infeasible
      else if cbc && (s =? "Optimal")%string then Solved
      else if cbc && (s =? "Infeasible")%string then Infeasible
      else Error
    | [] => Error
    end.

  (** cbc_cmd.rs:98-142: one line; [None] is [Err(e)]. *)
  Definition sol_line (s : sol T) (text : string) : res (option (sol T)) :=
    if negb (utf8_valid text) then Ok None else
    match words text with
    | _ :: name :: value :: mul :: _ =>
      match read_num value, read_num mul with
      | Some value, Some mul =>
        match split_on "_" name with
        | dtype :: idx :: _ =>
          match parse_usize idx with
          | Some index =>
            if (dtype =? "x")%string then
              x <- vset (s_x s) index value ;;
              if nltb n0 mul then
                pi <- vset (s_pi s) index mul ;;
                Ok (Some (mk_sol x (s_lam s) (s_nu s) (s_mu s) pi))
              else
                mu <- vset (s_mu s) index (nneg mul) ;;
                Ok (Some (mk_sol x (s_lam s) (s_nu s) mu (s_pi s)))
            else if (dtype =? "c")%string then
              lam <- vset (s_lam s) index mul ;;
              Ok (Some (mk_sol (s_x s) lam (s_nu s) (s_mu s) (s_pi s)))
            else Ok None
          | None => Ok None
          end
        | _ => Ok None
        end
      | _, _ => Ok None
      end
    | _ => Ok None
    end.
  Fixpoint sol_lines (s : sol T) (ls : list string) : res (option (sol T)) :=
    match ls with
    | [] => Ok (Some s)
    | l :: ls' => r <- sol_line s l ;;
                  match r with Some s' => sol_lines s' ls' | None => Ok None end
    end.

  (** cbc_cmd.rs:46-145.  [content] is [None] when the file cannot be opened;
      [nx] and [na] are those of the problem; [None] is an [io::Error].  Errors
      of the operating system while reading are not modelled. *)
  Definition read_sol_file (content : option string) (nx na : nat) (cbc : bool)
    : res (option (status * sol T)) :=
    let sol0 := sol_new nx na 0 in
    match content with
    | None => Ok (Some (Error, sol0))
    | Some text =>
      let '(l1, rest) := cut_line text in
      if negb (utf8_valid l1) then Ok None else
      match first_status cbc (words l1) with
      | Solved =>
        let '(l2, rest) := if cbc then (EmptyString, rest) else cut_line rest in
        if negb (utf8_valid l2) then Ok None else
        r <- sol_lines sol0 (lines rest) ;;
        match r with Some s => Ok (Some (Solved, s)) | None => Ok None end
      | st => Ok (Some (st, sol0))
      end
    end.
End SolFile.
