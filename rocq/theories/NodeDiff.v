(** Differentiation: src/model/node_diff.rs. *)
From Verif Require Import Base Num Node.

(** Number of nodes of the expression unfolded into a tree; only used as the
    loop counter of [paths_loop]. *)
Fixpoint tsize {T} (n : node T) : nat :=
  match n with
  | NConst _ _ | NVar _ _ _ => 1
  | NAdd _ args => S (fold_right (fun a s => tsize a + s) 0 args)
  | NCos _ a | NSin _ a => S (tsize a)
  | NDiv _ a b | NMul _ a b => S (tsize a + tsize b)
  end.

(** [path.as_slice().windows(2)]. *)
Fixpoint windows2 {A} (l : list A) : list (A * A) :=
  match l with
  | a :: ((b :: _) as l') => (a, b) :: windows2 l'
  | _ => []
  end.

(** node_diff.rs:30-35 and 93-98: "variable expected". *)
Definition check_vars {T} (vars : list (node T)) : res unit :=
  if forallb is_var vars then Ok tt else Panic PVarExpected.

Definition pathmap T := list (node T * list (list (node T))).

Section Diff.
  Context {T : Type} `{Num T} `{HashOrd}.

  (** node_diff.rs:61-71: adding the path that ends at a variable.  The loop
      over [varset] pushes at most once because the set has no duplicates. *)
  Definition add_path (t : nat) (varset : list (node T)) (path : list (node T))
             (nd : node T) (paths : pathmap T) : res (pathmap T) :=
    if is_var nd then
      foldR (fun ps v =>
               if ptr_eq nd v then
                 match hget ptr_eq nd ps with
                 | Some l => Ok (hinsert ptr_eq nd (l ++ [path]) ps)
                 | None => Panic PUnwrap
                 end
               else Ok ps)
            (ord 1 t varset) paths
    else Ok paths.

  (** node_diff.rs:51-79 (the work loop; [push_front] of every argument). *)
  Fixpoint paths_loop (fuel t : nat) (varset : list (node T))
           (wq : list (list (node T))) (paths : pathmap T) : res (pathmap T) :=
    match fuel with
    | O => Panic PFuel
    | S fuel' =>
      match wq with
      | [] => Ok paths
      | path :: wq' =>
        match rev path with
        | [] => Panic PUnwrap
        | nd :: _ =>
          rbind (add_path t varset path nd paths) (fun paths' =>
          paths_loop fuel' t varset
            (fold_left (fun q n => (path ++ [n]) :: q) (arguments nd) wq') paths')
        end
      end
    end.

  (** node_diff.rs:27-83. *)
  Definition all_simple_paths (t : nat) (self : node T) (vars : list (node T))
    : res (pathmap T) :=
    rbind (check_vars vars) (fun _ =>
    let varset := sextend ptr_eq [] vars in
    let paths := fold_left (fun m v => hinsert ptr_eq v [] m) (ord 0 t varset) [] in
    paths_loop (S (tsize self)) t varset [[self]] paths).

  Local Open Scope m_scope.

  (** node_diff.rs:109-112. *)
  Definition path_prod (path : list (node T)) : M (node T) :=
    one <- mk_const n1 ;;
    foldM (fun prod pr => d <- partial (fst pr) (snd pr) ;; mul_nn prod d)
          (windows2 path) one.
  (** node_diff.rs:107-114. *)
  Definition path_sum (paths : list (list (node T))) : M (node T) :=
    zero <- mk_const n0 ;;
    foldM (fun d path => prod <- path_prod path ;; add_nn d prod) paths zero.

  (** node_diff.rs:90-118. *)
  Definition derivatives (self : node T) (vars : list (node T))
    : M (list (node T * node T)) :=
    _ <- lift (check_vars vars) ;;
    t <- now ;;
    let varset := sextend ptr_eq [] vars in
    paths <- lift (all_simple_paths t self vars) ;;
    foldM (fun derivs v =>
             ps <- lift (unwrap (hget ptr_eq v paths)) ;;
             d <- path_sum ps ;;
             ret (hinsert ptr_eq v d derivs))
          (ord 2 t varset) [].

  (** node_diff.rs:85-88. *)
  Definition derivative (self var : node T) : M (node T) :=
    derivs <- derivatives self [var] ;;
    lift (unwrap (hget ptr_eq var derivs)).
End Diff.
