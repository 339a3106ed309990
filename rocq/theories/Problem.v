(** Problems: src/problem/{base,minlp,milp,lp,nlp}.rs. *)
From Verif Require Import Base Num Matrix.

(** The buffers an evaluation function writes (base.rs:21-28). *)
Record bufs (T : Type) := mk_bufs {
  b_phi : T; b_gphi : list T; b_hphi : coo T;
  b_f : list T; b_j : coo T; b_h : list (coo T)
}.
Arguments mk_bufs {T}. Arguments b_phi {T}. Arguments b_gphi {T}. Arguments b_hphi {T}.
Arguments b_f {T}. Arguments b_j {T}. Arguments b_h {T}.

(** base.rs:21-28 [ProblemEval]. *)
Definition eval_fn T := bufs T -> list T -> res (bufs T).

(** minlp.rs:15-37. *)
Record minlp (T : Type) := mk_minlp {
  m_x0 : option (list T);
  m_bufs : bufs T;
  m_a : coo T; m_b : list T;
  m_hcomb : coo T;
  m_l : list T; m_u : list T;
  m_p : list bool;
  m_eval : eval_fn T
}.
Arguments mk_minlp {T}. Arguments m_x0 {T}. Arguments m_bufs {T}. Arguments m_a {T}.
Arguments m_b {T}. Arguments m_hcomb {T}. Arguments m_l {T}. Arguments m_u {T}.
Arguments m_p {T}. Arguments m_eval {T}.

(** milp.rs:18-21, nlp.rs:14-16, lp.rs:16-19, base.rs:12-17. *)
Record milp (T : Type) := mk_milp { milp_c : list T; milp_base : minlp T }.
Arguments mk_milp {T}. Arguments milp_c {T}. Arguments milp_base {T}.
Record nlp (T : Type) := mk_nlp { nlp_base : minlp T }.
Arguments mk_nlp {T}. Arguments nlp_base {T}.
Record lp (T : Type) := mk_lp { lp_milp : milp T; lp_nlp : nlp T }.
Arguments mk_lp {T}. Arguments lp_milp {T}. Arguments lp_nlp {T}.
Inductive problem (T : Type) :=
| PMinlp (p : minlp T) | PMilp (p : milp T) | PLp (p : lp T) | PNlp (p : nlp T).
Arguments PMinlp {T}. Arguments PMilp {T}. Arguments PLp {T}. Arguments PNlp {T}.

(** base.rs:31-47. *)
Record sol (T : Type) := mk_sol {
  s_x : list T; s_lam : list T; s_nu : list T; s_mu : list T; s_pi : list T
}.
Arguments mk_sol {T}. Arguments s_x {T}. Arguments s_lam {T}. Arguments s_nu {T}.
Arguments s_mu {T}. Arguments s_pi {T}.

Section Prob.
  Context {T : Type} `{Num T}.
  Local Open Scope r_scope.

  (** base.rs:53-61. *)
  Definition sol_new (nx na nf : nat) : sol T :=
    mk_sol (repeat n0 nx) (repeat n0 na) (repeat n0 nf) (repeat n0 nx) (repeat n0 nx).

  (** minlp.rs:82-86: the pattern of the combined Hessian. *)
  Definition hcomb_pattern (st : coo T * nat) (hh : coo T) : res (coo T * nat) :=
    items <- coo_items hh ;;
    foldR (fun (st : coo T * nat) it =>
             let '(m, k) := st in
             let '(row, col, _) := it in
             m1 <- set_row_ind m k row ;;
             m2 <- set_col_ind m1 k col ;;
             Ok (m2, S k))
          items st.

  (** minlp.rs:43-105. *)
  Definition minlp_new (hphi a : coo T) (b : list T) (j : coo T) (h : list (coo T))
             (l u : list T) (p : list bool) (x0 : option (list T)) (ev : eval_fn T)
    : res (minlp T) :=
    let nx := coo_cols a in
    let na := coo_rows a in
    let nf := coo_rows j in
    _ <- rassert (coo_cols hphi =? nx) ;;
    _ <- rassert (coo_rows hphi =? nx) ;;
    _ <- rassert (length b =? na) ;;
    _ <- rassert (coo_cols j =? nx) ;;
    _ <- rassert (length h =? nf) ;;
    _ <- rassert (forallb (fun hh => (coo_rows hh =? nx) && (coo_cols hh =? nx)) h) ;;
    _ <- rassert (length l =? nx) ;;
    _ <- rassert (length u =? nx) ;;
    _ <- rassert (length p =? nx) ;;
    let nnz := fold_right (fun hh s => coo_nnz hh + s) 0 h in
    st <- foldR hcomb_pattern h (coo_from_nnz nx nx nnz, 0) ;;
    Ok (mk_minlp x0 (mk_bufs n0 (repeat n0 nx) hphi (repeat n0 nf) j h) a b (fst st)
                 l u p ev).

  (** minlp.rs:155-161: [nx], [na], [nf]. *)
  Definition m_nx (p : minlp T) : nat := coo_cols (m_a p).
  Definition m_na (p : minlp T) : nat := length (m_b p).
  Definition m_nf (p : minlp T) : nat := length (b_f (m_bufs p)).

  (** minlp.rs:165-173. *)
  Definition minlp_evaluate (p : minlp T) (x : list T) : res (minlp T) :=
    bf <- m_eval p (m_bufs p) x ;;
    Ok (mk_minlp (m_x0 p) bf (m_a p) (m_b p) (m_hcomb p) (m_l p) (m_u p) (m_p p) (m_eval p)).

  (** minlp.rs:175-187. *)
  Definition combine_h (p : minlp T) (nu : list T) : res (minlp T) :=
    _ <- rassert (m_nf p =? length nu) ;;
    st <- foldR (fun (st : list T * nat) (hn : coo T * T) =>
                   foldR (fun (st : list T * nat) v =>
                            let '(data, k) := st in
                            data' <- vset data k (nmul (snd hn) v) ;;
                            Ok (data', S k))
                         (coo_data (fst hn)) st)
                (combine (b_h (m_bufs p)) nu) (coo_data (m_hcomb p), 0) ;;
    Ok (mk_minlp (m_x0 p) (m_bufs p) (m_a p) (m_b p) (with_data (m_hcomb p) (fst st))
                 (m_l p) (m_u p) (m_p p) (m_eval p)).

  (** [ArrayView1::dot] (milp.rs:53, lp.rs:45): asserts equal lengths.  ndarray
      adds the products in an unrolled order; here from left to right. *)
  Definition dot (c x : list T) : res T :=
    _ <- rassert (length c =? length x) ;;
    Ok (fold_left (fun acc p => nadd acc (nmul (fst p) (snd p))) (combine c x) n0).
  (** [dst.copy_from_slice(src)]. *)
  Definition copy_from_slice (dst src : list T) : res (list T) :=
    if length dst =? length src then Ok src else Panic PIndex.

  (** milp.rs:46-55 and lp.rs:38-47: the evaluation function of a linear objective. *)
  Definition linear_eval (c : list T) : eval_fn T := fun bf x =>
    phi <- dot c x ;;
    g <- copy_from_slice (b_gphi bf) c ;;
    Ok (mk_bufs phi g (b_hphi bf) (b_f bf) (b_j bf) (b_h bf)).

  (** milp.rs:38-71. *)
  Definition milp_new (c : list T) (a : coo T) (b l u : list T) (p : list bool)
             (x0 : option (list T)) : res (milp T) :=
    let nx := coo_cols a in
    base <- minlp_new (coo_from_nnz nx nx 0) a b (coo_from_nnz 0 nx 0) [] l u p x0
                      (linear_eval c) ;;
    Ok (mk_milp c base).
  (** milp.rs:96. *)
  Definition milp_nx (p : milp T) : nat := length (milp_c p).
  Definition milp_na (p : milp T) : nat := length (m_b (milp_base p)).

  (** nlp.rs:21-35. *)
  Definition nlp_new (hphi a : coo T) (b : list T) (j : coo T) (h : list (coo T))
             (l u : list T) (x0 : option (list T)) (ev : eval_fn T) : res (nlp T) :=
    base <- minlp_new hphi a b j h l u (repeat false (coo_cols a)) x0 ev ;;
    Ok (mk_nlp base).

  (** lp.rs:24-61. *)
  Definition lp_new (c : list T) (a : coo T) (b l u : list T) (x0 : option (list T))
    : res (lp T) :=
    let nx := length c in
    bm <- milp_new c a b l u (repeat false nx) x0 ;;
    bn <- nlp_new (coo_from_nnz nx nx 0) a b (coo_from_nnz 0 nx 0) [] l u x0 (linear_eval c) ;;
    Ok (mk_lp bm bn).

  (** nlp.rs:86-90. *)
  Definition nlp_evaluate (p : nlp T) (x : list T) : res (nlp T) :=
    b <- minlp_evaluate (nlp_base p) x ;; Ok (mk_nlp b).
  Definition nlp_combine_h (p : nlp T) (nu : list T) : res (nlp T) :=
    b <- combine_h (nlp_base p) nu ;; Ok (mk_nlp b).
End Prob.
