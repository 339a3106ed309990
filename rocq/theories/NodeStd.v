(** Standard properties and components of an expression: src/model/node_std.rs
    and the [NodeStd] implementations in src/model/function/*.rs. *)
From Verif Require Import Base Num Node NodeDiff.

(** node_std.rs:11-29. *)
Record std_prop (T : Type) := mk_std_prop {
  p_affine : bool;
  p_a : list (node T * T);
  p_b : T
}.
Arguments mk_std_prop {T}. Arguments p_affine {T}. Arguments p_a {T}. Arguments p_b {T}.

(** node_std.rs:32-46. *)
Record std_comp (T : Type) := mk_std_comp {
  sc_phi : node T;
  sc_gphi : list (node T * node T);
  sc_hphi : list (node T * node T * node T);
  sc_prop : std_prop T
}.
Arguments mk_std_comp {T}. Arguments sc_phi {T}. Arguments sc_gphi {T}.
Arguments sc_hphi {T}. Arguments sc_prop {T}.

Section Std.
  Context {T : Type} `{Num T} `{HashOrd}.

  (** add.rs:62-69: merging the coefficients of one argument. *)
  Definition merge_add (a : list (node T * T)) (kv : node T * T) : list (node T * T) :=
    match hget ptr_eq (fst kv) a with
    | Some x => hinsert ptr_eq (fst kv) (nadd x (snd kv)) a
    | None => hinsert ptr_eq (fst kv) (snd kv) a
    end.

  (** node_std.rs:74-98; add.rs:53-76, cos.rs:52-56, div.rs:54-72, mul.rs:54-73,
      sin.rs:52-56.  The order in which the maps are iterated inside is not
      modelled: every key is treated separately, so it cannot be observed. *)
  Fixpoint std_properties (n : node T) : std_prop T :=
    match n with
    | NConst _ v => mk_std_prop true [] v
    | NVar _ _ _ => mk_std_prop true [(n, n1)] n0
    | NAdd _ args =>
      fold_left (fun acc x =>
                   let p := std_properties x in
                   mk_std_prop (p_affine acc && p_affine p)
                               (fold_left merge_add (p_a p) (p_a acc))
                               (nadd (p_b acc) (p_b p)))
                args (mk_std_prop true [] n0)
    | NCos _ x | NSin _ x =>
      let p := std_properties x in mk_std_prop false (p_a p) (p_b p)
    | NDiv _ x y =>
      let p0 := std_properties x in
      let p1 := std_properties y in
      mk_std_prop
        (p_affine p0 && (length (p_a p1) =? 0))
        (fold_left (fun a kv => hinsert ptr_eq (fst kv) n0 a) (p_a p1)
          (fold_left (fun a kv => hinsert ptr_eq (fst kv) (ndiv (snd kv) (p_b p1)) a)
                     (p_a p0) []))
        (ndiv (p_b p0) (p_b p1))
    | NMul _ x y =>
      let p0 := std_properties x in
      let p1 := std_properties y in
      mk_std_prop
        ((p_affine p0 && (length (p_a p1) =? 0)) || (p_affine p1 && (length (p_a p0) =? 0)))
        (fold_left (fun a kv => hinsert ptr_eq (fst kv) (nmul (snd kv) (p_b p0)) a) (p_a p1)
          (fold_left (fun a kv => hinsert ptr_eq (fst kv) (nmul (snd kv) (p_b p1)) a)
                     (p_a p0) []))
        (nmul (p_b p0) (p_b p1))
    end.

  Local Open Scope m_scope.

  (** node_std.rs:127-132: the Hessian entries of one gradient entry. *)
  Fixpoint hess_entries (v1 : node T) (dderivs : list (node T * node T))
           (dvars : list (node T)) : res (list (node T * node T * node T)) :=
    match dvars with
    | [] => Ok []
    | v2 :: dvars' =>
      rbind (unwrap (hget ptr_eq v2 dderivs)) (fun dd =>
      rbind (hess_entries v1 dderivs dvars') (fun l =>
      Ok (if is_constant_with_value dd n0 then l else (v1, v2, dd) :: l)))
    end.

  (** node_std.rs:118-133; [vars] are the variables from index [i] on. *)
  Fixpoint grad_hess (derivs : list (node T * node T)) (vars : list (node T))
    : M (list (node T * node T) * list (node T * node T * node T)) :=
    match vars with
    | [] => ret ([], [])
    | v1 :: vars' =>
      d <- lift (unwrap (hget ptr_eq v1 derivs)) ;;
      dderivs <- derivatives d (v1 :: vars') ;;
      hs <- lift (hess_entries v1 dderivs (v1 :: vars')) ;;
      gh <- grad_hess derivs vars' ;;
      ret ((v1, d) :: fst gh, hs ++ snd gh)
    end.

  (** node_std.rs:100-143. *)
  Definition std_components (self : node T) : M (std_comp T) :=
    let prop := std_properties self in
    t <- now ;;
    if p_affine prop then
      gphi <- mapM (fun kv => c <- mk_const (snd kv) ;; ret (fst kv, c))
                   (ord 3 t (p_a prop)) ;;
      ret (mk_std_comp self gphi [] prop)
    else
      let vars := map fst (ord 3 t (p_a prop)) in
      derivs <- derivatives self vars ;;
      gh <- grad_hess derivs vars ;;
      ret (mk_std_comp self (fst gh) (snd gh) prop).
End Std.
