(** Constraints and their standard form: src/model/constraint.rs,
    src/model/node_cmp.rs, src/model/constraint_std.rs. *)
From Verif Require Import Base Num Node NodeDiff NodeStd.
From Coq Require Import DecimalString.

(** constraint.rs:17-21. *)
Inductive ckind := Equal | LessEqual | GreaterEqual.
Definition ckind_eqb (a b : ckind) : bool :=
  match a, b with
  | Equal, Equal | LessEqual, LessEqual | GreaterEqual, GreaterEqual => true
  | _, _ => false
  end.

(** constraint.rs:24-32; [cid] is the address of the [Rc]. *)
Record constraint (T : Type) := mk_constraint {
  cid : nat;
  clhs : node T;
  ckd : ckind;
  crhs : node T;
  clabel : string
}.
Arguments mk_constraint {T}. Arguments cid {T}. Arguments clhs {T}. Arguments ckd {T}.
Arguments crhs {T}. Arguments clabel {T}.

(** constraint.rs:82-87. *)
Definition constr_eqb {T} (a b : constraint T) : bool := cid a =? cid b.

(** [format!("{}", n)] for a [usize]. *)
Definition nat_str (n : nat) : string := NilEmpty.string_of_uint (Nat.to_uint n).

(** constraint_std.rs:13-44. *)
Record cstd (T : Type) := mk_cstd {
  cs_ca : list (constraint T);
  cs_cj : list (constraint T);
  cs_a : list (nat * node T * T);
  cs_b : list T;
  cs_f : list (node T);
  cs_j : list (nat * node T * node T);
  cs_h : list (list (node T * node T * node T));
  cs_u : list (node T * T * constraint T);
  cs_l : list (node T * T * constraint T);
  cs_prop : list (std_prop T)
}.
Arguments mk_cstd {T}. Arguments cs_ca {T}. Arguments cs_cj {T}. Arguments cs_a {T}.
Arguments cs_b {T}. Arguments cs_f {T}. Arguments cs_j {T}. Arguments cs_h {T}.
Arguments cs_u {T}. Arguments cs_l {T}. Arguments cs_prop {T}.

(** constraint_std.rs:56-69. *)
Definition cstd_new {T} : cstd T := mk_cstd [] [] [] [] [] [] [] [] [] [].
(** constraint_std.rs:72-85. *)
Definition cstd_app {T} (x y : cstd T) : cstd T :=
  mk_cstd (cs_ca x ++ cs_ca y) (cs_cj x ++ cs_cj y) (cs_a x ++ cs_a y) (cs_b x ++ cs_b y)
          (cs_f x ++ cs_f y) (cs_j x ++ cs_j y) (cs_h x ++ cs_h y) (cs_u x ++ cs_u y)
          (cs_l x ++ cs_l y) (cs_prop x ++ cs_prop y).

Section Constr.
  Context {T : Type} `{Num T} `{HashOrd}.
  Local Open Scope m_scope.

  (** constraint.rs:46-55; node_cmp.rs:66-85 ([Node] compared with [Node]). *)
  Definition new_constraint (lhs : node T) (k : ckind) (rhs : node T) (label : string)
    : M (constraint T) :=
    fun n => Ok (mk_constraint n lhs k rhs label, S n).
  (** node_cmp.rs:36-55 ([Node] compared with [f64]). *)
  Definition cmp_ns (lhs : node T) (k : ckind) (rhs : T) (label : string) : M (constraint T) :=
    c <- mk_const rhs ;; new_constraint lhs k c label.
  (** node_cmp.rs:97-116 ([f64] compared with [Node]). *)
  Definition cmp_sn (lhs : T) (k : ckind) (rhs : node T) (label : string) : M (constraint T) :=
    c <- mk_const lhs ;; new_constraint c k rhs label.

  (** constraint.rs:61-73. *)
  Definition violation (vs : vals T) (c : constraint T) : T :=
    match ckd c with
    | Equal => nabs (nsub (evaluate vs (clhs c)) (evaluate vs (crhs c)))
    | LessEqual => nmax n0 (nsub (evaluate vs (clhs c)) (evaluate vs (crhs c)))
    | GreaterEqual => nmax n0 (nsub (evaluate vs (crhs c)) (evaluate vs (clhs c)))
    end.

  (** constraint_std.rs:106-109: the test for a bound constraint. *)
  Definition is_bound (k : ckind) (p : std_prop T) : option (node T) :=
    match p_a p with
    | [(x, v)] => if p_affine p && neqb v n1 && negb (ckind_eqb k Equal) then Some x else None
    | _ => None
    end.

  (** constraint_std.rs:148-155 and 191-198. *)
  Definition slack_bounds (c : constraint T) (s : node T)
    : res (list (node T * T * constraint T) * list (node T * T * constraint T)) :=
    match ckd c with
    | LessEqual => Ok ([(s, n0, c)], [])
    | GreaterEqual => Ok ([], [(s, n0, c)])
    | Equal => Panic PKind
    end.

  (** constraint_std.rs:89-217; returns the components and the new values of
      [arow] and [jrow]. *)
  Definition constr_std (c : constraint T) (arow jrow : nat) : M (cstd T * nat * nat) :=
    exp <- sub_nn (clhs c) (crhs c) ;;
    comp <- std_components exp ;;
    t <- now ;;
    let p := sc_prop comp in
    match is_bound (ckd c) p with
    | Some x =>
      match ckd c with
      | LessEqual =>
        ret (mk_cstd [] [] [] [] [] [] [] [(x, nneg (p_b p), c)] [] [p], arow, jrow)
      | GreaterEqual =>
        ret (mk_cstd [] [] [] [] [] [] [] [] [(x, nneg (p_b p), c)] [p], arow, jrow)
      | Equal => fail PKind
      end
    | None =>
      if p_affine p then
        let row := map (fun kv => (arow, fst kv, snd kv)) (ord 4 t (p_a p)) in
        if ckind_eqb (ckd c) Equal then
          ret (mk_cstd [c] [] row [nneg (p_b p)] [] [] [] [] [] [p], S arow, jrow)
        else
          s <- mk_var ("_s_a" ++ nat_str arow ++ "_")%string VarContinuous ;;
          ul <- lift (slack_bounds c s) ;;
          ret (mk_cstd [c] [] (row ++ [(arow, s, nm1)]) [nneg (p_b p)] [] [] []
                       (fst ul) (snd ul)
                       [mk_std_prop (p_affine p) (hinsert ptr_eq s nm1 (p_a p)) (p_b p)],
               S arow, jrow)
      else
        let jr := map (fun ge => (jrow, fst ge, snd ge)) (sc_gphi comp) in
        if ckind_eqb (ckd c) Equal then
          ret (mk_cstd [] [c] [] [] [sc_phi comp] jr [sc_hphi comp] [] [] [p], arow, S jrow)
        else
          s <- mk_var ("_s_j" ++ nat_str jrow ++ "_")%string VarContinuous ;;
          f <- sub_nn (sc_phi comp) s ;;
          m1 <- mk_const nm1 ;;
          ul <- lift (slack_bounds c s) ;;
          ret (mk_cstd [] [c] [] [] [f] (jr ++ [(jrow, s, m1)]) [sc_hphi comp]
                       (fst ul) (snd ul)
                       [mk_std_prop (p_affine p) (hinsert ptr_eq s nm1 (p_a p)) (p_b p)],
               arow, S jrow)
    end.
End Constr.
