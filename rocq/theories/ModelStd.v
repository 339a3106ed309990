(** Optimization models in standard form: src/model/model_std.rs and the data
    types of src/model/model.rs. *)
From Verif Require Import Base Num Node NodeDiff NodeStd Constraint Matrix Problem.

(** model.rs:14-18. *)
Inductive objective (T : Type) :=
| Minimize (f : node T) | Maximize (f : node T) | EmptyObj.
Arguments Minimize {T}. Arguments Maximize {T}. Arguments EmptyObj {T}.

(** base.rs (solver) 11-26. *)
Inductive status := Solved | Infeasible | Unknown | Error.

(** model.rs:21-40. *)
Record model (T : Type) := mk_model {
  md_objective : objective T;
  md_constraints : list (constraint T);
  md_init : list (node T * T);
  md_status : option status;
  md_primals : list (node T * T);
  md_duals : list (constraint T * T)
}.
Arguments mk_model {T}. Arguments md_objective {T}. Arguments md_constraints {T}.
Arguments md_init {T}. Arguments md_status {T}. Arguments md_primals {T}. Arguments md_duals {T}.

(** model_std.rs:33-53. *)
Record std_prob (T : Type) := mk_std_prob {
  sp_prob : problem T;
  sp_var2index : list (node T * nat);
  sp_acons : list (nat * constraint T);
  sp_jcons : list (nat * constraint T);
  sp_ucons : list (nat * constraint T);
  sp_lcons : list (nat * constraint T)
}.
Arguments mk_std_prob {T}. Arguments sp_prob {T}. Arguments sp_var2index {T}.
Arguments sp_acons {T}. Arguments sp_jcons {T}. Arguments sp_ucons {T}. Arguments sp_lcons {T}.

(** [into_iter().enumerate()]. *)
Definition enum {A} (l : list A) : list (nat * A) := combine (seq 0 (length l)) l.

Section ModelStd.
  Context {T : Type} `{Num T} `{HashOrd}.

  (** model_std.rs:105: [vars.sort_by(|x,y| x.name().partial_cmp(y.name()))], a
      stable sort by name (bytewise); a stable sort has only one result. *)
  Fixpoint sort_insert (x : node T) (l : list (node T)) : list (node T) :=
    match l with
    | [] => [x]
    | y :: l' => if String.leb (name x) (name y) then x :: l else y :: sort_insert x l'
    end.
  Definition sort_vars (l : list (node T)) : list (node T) := fold_right sort_insert [] l.

  (** model_std.rs:97-102. *)
  Definition var_set (obj : std_prop T) (props : list (std_prop T)) : list (node T) :=
    fold_left (fun s p => sextend ptr_eq s (map fst (p_a p))) props
              (sextend ptr_eq [] (map fst (p_a obj))).

  (** [*var2index.get(v).unwrap()]. *)
  Definition vidx (v2i : list (node T * nat)) (v : node T) : res nat :=
    unwrap (hget ptr_eq v v2i).

  (** model_std.rs:122-143 and 196-217: one Hessian in lower triangular form. *)
  Definition hess_mat (v2i : list (node T * nat)) (n : nat)
             (hs : list (node T * node T * node T)) : res (coo T * list (node T)) :=
    rbind (mapR (fun e => let '(v1, v2, ex) := e in
                 rbind (vidx v2i v1) (fun i =>
                 rbind (vidx v2i v2) (fun j =>
                 Ok (if j <=? i then (i, j, ex) else (j, i, ex))))) hs) (fun ents =>
    rbind (coo_new n n (map (fun e => fst (fst e)) ents) (map (fun e => snd (fst e)) ents)
                   (repeat n0 (length ents))) (fun m =>
    Ok (m, map snd ents))).

  (** model_std.rs:226-232 (and 233-239 with [>=]). *)
  Definition bound_step (better : T -> T -> bool) (v2i : list (node T * nat))
             (st : list T * list (nat * constraint T)) (e : node T * T * constraint T)
    : res (list T * list (nat * constraint T)) :=
    let '(data, cmap) := st in
    let '(var, val, c) := e in
    rbind (vidx v2i var) (fun index =>
    rbind (vget data index) (fun cur =>
    if better val cur then
      rbind (vset data index val) (fun data' => Ok (data', hinsert Nat.eqb index c cmap))
    else Ok (data, cmap))).

  (** [for (val, exp) in dest.iter_mut().zip(exps.iter()) { *val = exp.evaluate(..) }]. *)
  Fixpoint zip_eval (vs : vals T) (dest : list T) (exps : list (node T)) : list T :=
    match dest, exps with
    | _ :: dest', e :: exps' => evaluate vs e :: zip_eval vs dest' exps'
    | _, _ => dest
    end.

  Definition hinsert_val (vs : vals T) (vx : node T * T) : vals T :=
    hinsert ptr_eq (fst vx) (snd vx) vs.

  (** model_std.rs:266-312: the evaluation closure.  The iteration order over
      [var2index_eval] cannot be observed (distinct keys). *)
  Definition model_eval (v2i : list (node T * nat)) (phi : node T)
             (gphi_idx : list nat) (gphi : list (node T)) (hphi : list (node T))
             (f : list (node T)) (j : list (node T)) (h : list (list (node T)))
    : eval_fn T := fun bf x =>
    rbind (foldR (fun vs vi => rbind (vget x (snd vi)) (fun xv => Ok (hinsert_val vs (fst vi, xv))))
                 v2i []) (fun vs =>
    rbind (foldR (fun g ie => vset g (fst ie) (evaluate vs (snd ie)))
                 (combine gphi_idx gphi) (b_gphi bf)) (fun g =>
    let zip_mats := (fix zip_mats (ms : list (coo T)) (hs : list (list (node T))) :=
                       match ms, hs with
                       | m :: ms', hh :: hs' =>
                         with_data m (zip_eval vs (coo_data m) hh) :: zip_mats ms' hs'
                       | _, _ => ms
                       end) in
    Ok (mk_bufs (evaluate vs phi) g
                (with_data (b_hphi bf) (zip_eval vs (coo_data (b_hphi bf)) hphi))
                (zip_eval vs (b_f bf) f)
                (with_data (b_j bf) (zip_eval vs (coo_data (b_j bf)) j))
                (zip_mats (b_h bf) h)))).

  Local Open Scope m_scope.

  (** model_std.rs:70-74. *)
  Definition obj_std (o : objective T) : M (std_comp T) :=
    match o with
    | Maximize f => n <- neg_n f ;; std_components n
    | Minimize f => std_components f
    | EmptyObj => c <- mk_const n0 ;; std_components c
    end.

  (** model_std.rs:77-82. *)
  Definition constrs_std (cs : list (constraint T)) : M (cstd T * nat * nat) :=
    foldM (fun st c =>
             let '(acc, arow, jrow) := st in
             r <- constr_std c arow jrow ;;
             let '(x, arow', jrow') := r in
             ret (cstd_app acc x, arow', jrow'))
          cs (cstd_new, 0, 0).

  (** model_std.rs:67-89. *)
  Definition model_std (m : model T) : M (std_comp T * cstd T) :=
    obj <- obj_std (md_objective m) ;;
    r <- constrs_std (md_constraints m) ;;
    ret (obj, fst (fst r)).

  (** model_std.rs:96-389, from the components on; [t] indexes the hash order. *)
  Definition build_problem (t : nat) (init : list (node T * T))
             (obj : std_comp T) (cs : cstd T) : res (std_prob T) :=
    (let varset := var_set (sc_prop obj) (cs_prop cs) in
     let vars := sort_vars (ord 5 t varset) in
     let n := length varset in
     let v2i := map (fun iv => (snd iv, fst iv)) (enum vars) in
     gphi_idx <- mapR (fun ge => vidx v2i (fst ge)) (sc_gphi obj) ;;
     hp <- hess_mat v2i n (sc_hphi obj) ;;
     c_data <- foldR (fun c kv => rbind (vidx v2i (fst kv)) (fun i => vset c i (snd kv)))
                     (ord 6 t (p_a (sc_prop obj))) (repeat n0 n) ;;
     let num_a := length (cs_b cs) in
     a_col <- mapR (fun e => vidx v2i (snd (fst e))) (cs_a cs) ;;
     a_mat <- coo_new num_a n (map (fun e => fst (fst e)) (cs_a cs)) a_col
                      (map snd (cs_a cs)) ;;
     let num_j := length (cs_f cs) in
     j_col <- mapR (fun e => vidx v2i (snd (fst e))) (cs_j cs) ;;
     j_mat <- coo_new num_j n (map (fun e => fst (fst e)) (cs_j cs)) j_col
                      (repeat n0 (length (cs_j cs))) ;;
     hs <- mapR (hess_mat v2i n) (cs_h cs) ;;
     ub <- foldR (bound_step (fun val cur => nleb val cur) v2i) (cs_u cs)
                 (repeat INF n, []) ;;
     lb <- foldR (bound_step (fun val cur => nleb cur val) v2i) (cs_l cs)
                 (repeat (nneg INF) n, []) ;;
     pi <- foldR (fun (st : list bool * nat) vi =>
                    if is_integer (fst vi) then
                      rbind (vset (fst st) (snd vi) true) (fun p => Ok (p, S (snd st)))
                    else Ok st)
                 (ord 7 t v2i) (repeat false n, 0) ;;
     x0 <- foldR (fun x vv =>
                    match hget ptr_eq (fst vv) v2i with
                    | Some i => vset x i (snd vv)
                    | None => Ok x
                    end)
                 (ord 8 t init) (repeat n0 n) ;;
     let ev := model_eval v2i (sc_phi obj) gphi_idx (map snd (sc_gphi obj)) (snd hp)
                          (cs_f cs) (map snd (cs_j cs)) (map snd hs) in
     let affine := p_affine (sc_prop obj) in
     let num_int := snd pi in
     prob <- (if affine && (num_j =? 0) && (num_int =? 0) then
                rbind (lp_new c_data a_mat (cs_b cs) (fst lb) (fst ub) (Some x0))
                      (fun p => Ok (PLp p))
              else if affine && (num_j =? 0) && (0 <? num_int) then
                rbind (milp_new c_data a_mat (cs_b cs) (fst lb) (fst ub) (fst pi) (Some x0))
                      (fun p => Ok (PMilp p))
              else if num_int =? 0 then
                rbind (nlp_new (fst hp) a_mat (cs_b cs) j_mat (map fst hs) (fst lb) (fst ub)
                               (Some x0) ev) (fun p => Ok (PNlp p))
              else
                rbind (minlp_new (fst hp) a_mat (cs_b cs) j_mat (map fst hs) (fst lb) (fst ub)
                                 (fst pi) (Some x0) ev) (fun p => Ok (PMinlp p))) ;;
     Ok (mk_std_prob prob v2i (enum (cs_ca cs)) (enum (cs_cj cs)) (snd ub) (snd lb)))%r.

  (** model_std.rs:91-390. *)
  Definition std_problem (m : model T) : M (std_prob T) :=
    oc <- model_std m ;;
    t <- now ;;
    lift (build_problem t (md_init m) (fst oc) (snd oc)).
End ModelStd.
