(** The optimization model and [solve]: src/model/model.rs. *)
From Verif Require Import Base Num Node NodeDiff NodeStd Constraint Matrix Problem ModelStd.

Section Model.
  Context {T : Type} `{Num T} `{HashOrd}.

  (** model.rs:93-102. *)
  Definition model_new : model T := mk_model EmptyObj [] [] None [] [].
  (** model.rs:63-65. *)
  Definition add_constraint (m : model T) (c : constraint T) : model T :=
    mk_model (md_objective m) (md_constraints m ++ [c]) (md_init m) (md_status m)
             (md_primals m) (md_duals m).
  (** model.rs:68-72. *)
  Definition add_constraints (m : model T) (cs : list (constraint T)) : model T :=
    mk_model (md_objective m) (md_constraints m ++ cs) (md_init m) (md_status m)
             (md_primals m) (md_duals m).
  (** model.rs:108-110. *)
  Definition set_objective (m : model T) (o : objective T) : model T :=
    mk_model o (md_constraints m) (md_init m) (md_status m) (md_primals m) (md_duals m).
  (** model.rs:113-118; [values] is a hash map, iterated in any order. *)
  Definition set_init_primals (t : nat) (m : model T) (values : list (node T * T)) : model T :=
    mk_model (md_objective m) (md_constraints m)
             (fold_left hinsert_val (ord 9 t values) [])
             (md_status m) (md_primals m) (md_duals m).

  (** A loop whose body either updates the state or panics leaving it as it
      was: the final state and the panic, if any. *)
  Fixpoint loop_st {S A : Type} (f : S -> A -> res S) (l : list A) (s : S) : S * option panic :=
    match l with
    | [] => (s, None)
    | a :: l' => match f s a with
                 | Ok s' => loop_st f l' s'
                 | Panic p => (s, Some p)
                 end
    end.

  (** What a solver may answer: base.rs(solver):79. *)
  Definition answer := sum (status * sol T) string.

  (** The result of [solve], with the model as it is left, also when the call
      unwinds. *)
  Inductive outcome := Returned (r : sum unit string) | Unwound (p : panic).

  Definition add_primal (s : sol T) (m : model T) (vi : node T * nat) : res (model T) :=
    rbind (vget (s_x s) (snd vi)) (fun x =>
    Ok (mk_model (md_objective m) (md_constraints m) (md_init m) (md_status m)
                 (hinsert ptr_eq (fst vi) x (md_primals m)) (md_duals m))).
  Definition add_dual (d : list T) (m : model T) (ic : nat * constraint T) : res (model T) :=
    rbind (vget d (fst ic)) (fun x =>
    Ok (mk_model (md_objective m) (md_constraints m) (md_init m) (md_status m)
                 (md_primals m) (hinsert constr_eqb (snd ic) x (md_duals m)))).

  Definition then_loop {S} (r : S * option panic) (f : S -> S * option panic) : S * option panic :=
    match snd r with Some _ => r | None => f (fst r) end.

  (** model.rs:135-154: status, primals and duals from the solver's answer. *)
  Definition record_solution (t : nat) (sp : std_prob T) (st : status) (s : sol T) (m : model T)
    : model T * option panic :=
    let m := mk_model (md_objective m) (md_constraints m) (md_init m) (Some st)
                      (md_primals m) (md_duals m) in
    then_loop (loop_st (add_primal s) (ord 10 t (sp_var2index sp)) m) (fun m =>
    then_loop (loop_st (add_dual (s_lam s)) (ord 11 t (sp_acons sp)) m) (fun m =>
    then_loop (loop_st (add_dual (s_nu s)) (ord 12 t (sp_jcons sp)) m) (fun m =>
    then_loop (loop_st (add_dual (s_mu s)) (ord 13 t (sp_ucons sp)) m) (fun m =>
    loop_st (add_dual (s_pi s)) (ord 14 t (sp_lcons sp)) m)))).

  (** model.rs:124-126. *)
  Definition reset (m : model T) : model T :=
    mk_model (md_objective m) (md_constraints m) (md_init m) None [] [].

  (** model.rs:121-158.  [solver] is any function of the problem (it may mutate
      the problem, which is dropped afterwards, and it may panic). *)
  Definition solve (solver : problem T -> res answer) (m : model T) (k : nat)
    : model T * outcome * nat :=
    let m := reset m in
    match std_problem m k with
    | Panic p => (m, Unwound p, k)
    | Ok (sp, k') =>
      match solver (sp_prob sp) with
      | Panic p => (m, Unwound p, k')
      | Ok (inr e) => (m, Returned (inr e), k')
      | Ok (inl (st, s)) =>
        match record_solution k' sp st s m with
        | (m', None) => (m', Returned (inl tt), k')
        | (m', Some p) => (m', Unwound p, k')
        end
      end
    end.
End Model.
