(** Histories of API calls on expressions, constraints and models.

    The state holds what the program has obtained so far: expressions,
    constraints and models.  Each call takes its operands from there. *)
From Verif Require Import Base Num Node NodeDiff NodeStd Constraint Matrix Problem ModelStd Model Api.

Inductive sense := Minimise | Maximise.

Inductive call (T : Type) : Type :=
| CExpr (o : op T)                                            (* an expression call, Api.v *)
| CCmpNN (i : nat) (kd : ckind) (j : nat) (label : string)    (* a.equal/leq/geq(_and_tag)(&b) *)
| CCmpNS (i : nat) (kd : ckind) (v : T) (label : string)      (* a.leq(2.) ... *)
| CCmpSN (v : T) (kd : ckind) (i : nat) (label : string)      (* 2_f64.leq(&a) ... *)
| CNewModel                                                   (* Model::new() *)
| CAddConstr (m i : nat)                                      (* model.add_constraint(&c) *)
| CAddConstrs (m : nat) (is : list nat)                       (* model.add_constraints(&[..]) *)
| CSetObj (m : nat) (s : sense) (i : nat)                     (* set_objective(minimize/maximize(&f)) *)
| CSetEmpty (m : nat)                                         (* set_objective(Objective::empty()) *)
| CInit (m : nat) (values : list (nat * T))                   (* set_init_primals(&map) *)
| CSolve (m : nat) (solver : problem T -> res (answer (T := T)))   (* model.solve(&solver) *)
| CPrimalKey (m i : nat).                                     (* a key of model.final_primals() *)
Arguments CExpr {T}. Arguments CCmpNN {T}. Arguments CCmpNS {T}. Arguments CCmpSN {T}.
Arguments CNewModel {T}. Arguments CAddConstr {T}. Arguments CAddConstrs {T}. Arguments CSetObj {T}.
Arguments CSetEmpty {T}. Arguments CInit {T}. Arguments CSolve {T}. Arguments CPrimalKey {T}.

Record mstate (T : Type) := mk_mstate {
  st_k : nat;                          (* cells allocated so far *)
  st_pool : list (node T);
  st_cons : list (constraint T);
  st_models : list (model T)
}.
Arguments mk_mstate {T}. Arguments st_k {T}. Arguments st_pool {T}. Arguments st_cons {T}.
Arguments st_models {T}.

Section MApi.
  Context {T : Type} `{Num T} `{HashOrd}.

  (** All of [is] looked up in a list. *)
  Fixpoint picks {A} (l : list A) (is : list nat) : option (list A) :=
    match is with
    | [] => Some []
    | i :: is' => match nth_error l i, picks l is' with
                  | Some a, Some r => Some (a :: r)
                  | _, _ => None
                  end
    end.
  (** A hash map from expressions to numbers, built by insertions. *)
  Definition mk_map (kvs : list (node T * T)) : list (node T * T) := fold_left hinsert_val kvs [].

  Definition new_node (st : mstate T) (r : res (node T * nat)) : option (mstate T) :=
    match r with
    | Ok (n, k') => Some (mk_mstate k' (st_pool st ++ [n]) (st_cons st) (st_models st))
    | Panic _ => None
    end.
  Definition new_constr (st : mstate T) (r : res (constraint T * nat)) : option (mstate T) :=
    match r with
    | Ok (c, k') => Some (mk_mstate k' (st_pool st) (st_cons st ++ [c]) (st_models st))
    | Panic _ => None
    end.
  (** The state after updating model number [m]. *)
  Definition upd_model (st : mstate T) (m : nat) (f : model T -> option (model T)) : option (mstate T) :=
    match nth_error (st_models st) m with
    | Some md => match f md with
                 | Some md' => Some (mk_mstate (st_k st) (st_pool st) (st_cons st) (set_nth (st_models st) m md'))
                 | None => None
                 end
    | None => None
    end.
  Definition opt_map {A B} (f : A -> B) (o : option A) : option B :=
    match o with Some a => Some (f a) | None => None end.
  Definition opt_bind {A B} (o : option A) (f : A -> option B) : option B :=
    match o with Some a => f a | None => None end.

  (** One call; [None]: the operands do not exist, or an expression or
      comparison call panicked.  A panic inside [solve] leaves the model as it
      is at that moment, and the history may go on. *)
  Definition mexec (st : mstate T) (c : call T) : option (mstate T) :=
    match c with
    | CExpr o => new_node st (exec (st_pool st) o (st_k st))
    | CCmpNN i kd j label =>
      opt_bind (nth_error (st_pool st) i) (fun a =>
      opt_bind (nth_error (st_pool st) j) (fun b =>
      new_constr st (new_constraint a kd b label (st_k st))))
    | CCmpNS i kd v label =>
      opt_bind (nth_error (st_pool st) i) (fun a => new_constr st (cmp_ns a kd v label (st_k st)))
    | CCmpSN v kd i label =>
      opt_bind (nth_error (st_pool st) i) (fun a => new_constr st (cmp_sn v kd a label (st_k st)))
    | CNewModel => Some (mk_mstate (st_k st) (st_pool st) (st_cons st) (st_models st ++ [model_new]))
    | CAddConstr m i =>
      opt_bind (nth_error (st_cons st) i) (fun c => upd_model st m (fun md => Some (add_constraint md c)))
    | CAddConstrs m is =>
      opt_bind (picks (st_cons st) is) (fun cs => upd_model st m (fun md => Some (add_constraints md cs)))
    | CSetObj m s i =>
      opt_bind (nth_error (st_pool st) i) (fun f =>
      upd_model st m (fun md => Some (set_objective md (match s with Minimise => Minimize f | Maximise => Maximize f end))))
    | CSetEmpty m => upd_model st m (fun md => Some (set_objective md EmptyObj))
    | CInit m values =>
      opt_bind (picks (st_pool st) (map fst values)) (fun ns =>
      upd_model st m (fun md => Some (set_init_primals (st_k st) md (mk_map (combine ns (map snd values))))))
    | CSolve m solver =>
      opt_bind (nth_error (st_models st) m) (fun md =>
      let '(md', _, k') := solve solver md (st_k st) in
      Some (mk_mstate k' (st_pool st) (st_cons st) (set_nth (st_models st) m md')))
    | CPrimalKey m i =>
      opt_bind (nth_error (st_models st) m) (fun md =>
      opt_bind (nth_error (md_primals md) i) (fun vx =>
      Some (mk_mstate (st_k st) (st_pool st ++ [fst vx]) (st_cons st) (st_models st))))
    end.

End MApi.

Section Hist.
  Context {T : Type} `{Num T}.

  (** Expression calls must satisfy [P] (see [any_op] and [no_self_quotient] in
      Api.v); the other calls are unrestricted. *)
  Definition call_ok (P : list (node T) -> op T -> Prop) (st : mstate T) (c : call T) : Prop :=
    match c with CExpr o => P (st_pool st) o | _ => True end.

  Definition mstart : mstate T := mk_mstate 0 [] [] [].
  (** The states that histories of calls lead to; every call may see its own
      hash iteration order. *)
  Inductive hist (P : list (node T) -> op T -> Prop) : mstate T -> Prop :=
  | hist_start : hist P mstart
  | hist_step {HO : HashOrd} st c st' :
      hist P st -> call_ok P st c -> mexec st c = Some st' -> hist P st'.

End Hist.

Section MRun.
  Context {T : Type} `{Num T} `{HashOrd}.

  (** Running a concrete program, for examples. *)
  Fixpoint mrun (cs : list (call T)) (st : mstate T) : option (mstate T) :=
    match cs with
    | [] => Some st
    | c :: cs' => match mexec st c with Some st' => mrun cs' st' | None => None end
    end.
  Lemma mrun_hist cs st st' : hist any_op st -> mrun cs st = Some st' -> hist any_op st'.
  Proof.
    revert st; induction cs as [|c cs IH]; intros st Hs E; cbn in E; [congruence|].
    destruct (mexec st c) as [st1|] eqn:E1; [|discriminate]. eapply IH; [|exact E].
    eapply hist_step; eauto. destruct c; exact I.
  Qed.
End MRun.
