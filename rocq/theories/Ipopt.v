(** The Ipopt interface: src/solver/ipopt.rs and the constants of src/solver/cipopt.rs. *)
From Verif Require Import Base Num Matrix Problem ModelStd Model Text SolverBase.

Section Ipopt.
  Context {T : Type} `{Num T}.
  Local Open Scope r_scope.

  (** Pointers passed by the library; [None] is the null pointer.  A pointer is given
      by the values of the memory it points to.  Access past their end, undefined
      in Rust, is [PIndex] here. *)
  Definition ptr (A : Type) := option (list A).

  (** The callbacks with their arguments (cipopt.rs:16-56), except [user_data],
      which is the pointer that [solve] passes (ipopt.rs:126) and never null.
      [c_int] is any integer. *)
  Inductive cb :=
  | EvalF (n : Z) (x : ptr T) (new_x : Z) (obj_value : ptr T)
  | EvalGradF (n : Z) (x : ptr T) (new_x : Z) (grad_f : ptr T)
  | EvalG (n : Z) (x : ptr T) (new_x : Z) (m : Z) (g : ptr T)
  | EvalJacG (n : Z) (x : ptr T) (new_x : Z) (m nele : Z) (irow jcol : ptr Z) (values : ptr T)
  | EvalH (n : Z) (x : ptr T) (new_x : Z) (obj_factor : T) (m : Z) (lambda : ptr T) (new_lambda : Z) (nele : Z)
          (irow jcol : ptr Z) (values : ptr T).

  (** What a callback leaves: the return value (is it TRUE), the number memory
      ([obj_value], [grad_f], [g] or [values]), and the two index memories. *)
  Record reply := mk_reply { rp_ok : bool; rp_out : ptr T; rp_irow : ptr Z; rp_jcol : ptr Z }.

  (** [c_int::to_usize] and [usize::to_i32] followed by [unwrap]. *)
  Definition to_usize (z : Z) : option nat := if (z <? 0)%Z then None else Some (Z.to_nat z).
  Definition to_i32 (n : nat) : res Z := if (Z.of_nat n <=? 2147483647)%Z then Ok (Z.of_nat n) else Panic PUnwrap.
  (** The tests [match n.to_usize() { Some(nn) => if nn != k {FALSE}, None => FALSE }]. *)
  Definition is_count (z : Z) (k : nat) : bool := match to_usize z with Some n => n =? k | None => false end.
  (** [slice::from_raw_parts(x, n)]. *)
  Definition raw_slice {A} (l : list A) (n : nat) : res (list A) := if n <=? length l then Ok (firstn n l) else Panic PIndex.
  (** [ptr::copy(src, dst.add(off), n)]. *)
  Definition mem_copy {A} (src : list A) (dst : list A) (off n : nat) : res (list A) :=
    v <- raw_slice src n ;;
    if off + n <=? length dst then Ok (firstn off dst ++ v ++ skipn (off + n) dst) else Panic PIndex.
  (** The loops [for ... { *mem.add(k) = v; k += 1; }]. *)
  Definition store_from {A} (mem : list A) (k : nat) (vs : list A) : res (list A * nat) :=
    foldR (fun (st : list A * nat) v => m <- vset (fst st) (snd st) v ;; Ok (m, S (snd st))) vs (mem, k).

  (** [if new_x == TRUE { p.evaluate(from_raw_parts(x, p.nx())) }]; [None] when
      [x] is null. *)
  Definition update (p : nlp T) (x : ptr T) (new_x : Z) : res (option (nlp T)) :=
    if (new_x =? 1)%Z then
      match x with
      | None => Ok None
      | Some xs => v <- raw_slice xs (m_nx (nlp_base p)) ;; q <- nlp_evaluate p v ;; Ok (Some q)
      end
    else Ok (Some p).

  (** ipopt.rs:157-177. *)
  Definition eval_f_cb (p : nlp T) (n : Z) (x : ptr T) (new_x : Z) (obj : ptr T) : res (nlp T * reply) :=
    match x, obj with
    | Some _, Some mem =>
      if is_count n (m_nx (nlp_base p)) then
        r <- update p x new_x ;;
        match r with
        | None => Ok (p, mk_reply false obj None None)
        | Some q => st <- store_from mem 0 [b_phi (m_bufs (nlp_base q))] ;; Ok (q, mk_reply true (Some (fst st)) None None)
        end
      else Ok (p, mk_reply false obj None None)
    | _, _ => Ok (p, mk_reply false obj None None)
    end.
  (** ipopt.rs:179-199. *)
  Definition eval_grad_f_cb (p : nlp T) (n : Z) (x : ptr T) (new_x : Z) (grad : ptr T) : res (nlp T * reply) :=
    match x, grad with
    | Some _, Some mem =>
      if is_count n (m_nx (nlp_base p)) then
        r <- update p x new_x ;;
        match r with
        | None => Ok (p, mk_reply false grad None None)
        | Some q => mem' <- mem_copy (b_gphi (m_bufs (nlp_base q))) mem 0 (m_nx (nlp_base q)) ;;
                    Ok (q, mk_reply true (Some mem') None None)
        end
      else Ok (p, mk_reply false grad None None)
    | _, _ => Ok (p, mk_reply false grad None None)
    end.
  (** ipopt.rs:201-230.  The difference of two [ArrayView1] asserts equal lengths
      (ndarray also broadcasts a single element; [m_b] has one element per row). *)
  Definition eval_g_cb (p : nlp T) (n : Z) (x : ptr T) (new_x m : Z) (g : ptr T) : res (nlp T * reply) :=
    match x, g with
    | Some xs, Some mem =>
      if is_count n (m_nx (nlp_base p)) then
        if is_count m (m_na (nlp_base p) + m_nf (nlp_base p)) then
          xx <- raw_slice xs (m_nx (nlp_base p)) ;;
          r <- update p x new_x ;;
          match r with
          | None => Ok (p, mk_reply false g None None)
          | Some q =>
            let b := nlp_base q in
            ax <- coo_mul (m_a b) xx ;;
            _ <- rassert (length ax =? length (m_b b)) ;;
            let axmb := map (fun e => nsub (fst e) (snd e)) (combine ax (m_b b)) in
            mem1 <- mem_copy axmb mem 0 (m_na b) ;;
            mem2 <- mem_copy (b_f (m_bufs b)) mem1 (m_na b) (m_nf b) ;;
            Ok (q, mk_reply true (Some mem2) None None)
          end
        else Ok (p, mk_reply false g None None)
      else Ok (p, mk_reply false g None None)
    | _, _ => Ok (p, mk_reply false g None None)
    end.

  (** The pattern of a matrix written to the index memories (ipopt.rs:263-272, 329-338). *)
  Definition store_pattern (st : list Z * list Z * nat) (m : coo T) : res (list Z * list Z * nat) :=
    items <- coo_items m ;;
    foldR (fun (st : list Z * list Z * nat) (it : nat * nat * T) =>
             let '(ir, jc, k) := st in
             let '(row, col, _) := it in
             r <- to_i32 row ;; ir' <- vset ir k r ;;
             c <- to_i32 col ;; jc' <- vset jc k c ;;
             Ok (ir', jc', S k)) items st.
  (** The values of a matrix written to [values] (ipopt.rs:282-289, 355-362). *)
  Definition store_values (f : T -> T) (st : list T * nat) (m : coo T) : res (list T * nat) :=
    items <- coo_items m ;;
    store_from (fst st) (snd st) (map (fun it : nat * nat * T => f (snd it)) items).

  (** ipopt.rs:232-293. *)
  Definition eval_jac_g_cb (p : nlp T) (n : Z) (x : ptr T) (new_x m nele : Z) (irow jcol : ptr Z) (values : ptr T)
    : res (nlp T * reply) :=
    let b := nlp_base p in
    let no := Ok (p, mk_reply false values irow jcol) in
    if is_count n (m_nx b) && is_count m (m_na b + m_nf b) && is_count nele (coo_nnz (m_a b) + coo_nnz (b_j (m_bufs b))) then
      match values with
      | None =>
        match irow, jcol with
        | Some ir, Some jc =>
          st <- store_pattern (ir, jc, 0) (m_a b) ;;
          st <- store_pattern st (b_j (m_bufs b)) ;;
          Ok (p, mk_reply true None (Some (fst (fst st))) (Some (snd (fst st))))
        | _, _ => no
        end
      | Some mem =>
        r <- update p x new_x ;;
        match r with
        | None => no
        | Some q =>
          st <- store_values (fun v => v) (mem, 0) (m_a (nlp_base q)) ;;
          st <- store_values (fun v => v) st (b_j (m_bufs (nlp_base q))) ;;
          Ok (q, mk_reply true (Some (fst st)) irow jcol)
        end
      end
    else no.

  (** ipopt.rs:295-367. *)
  Definition eval_h_cb (p : nlp T) (n : Z) (x : ptr T) (new_x : Z) (obj_factor : T) (m : Z) (lambda : ptr T)
             (new_lambda nele : Z) (irow jcol : ptr Z) (values : ptr T) : res (nlp T * reply) :=
    let b := nlp_base p in
    let no q := Ok (q, mk_reply false values irow jcol) in
    if is_count n (m_nx b) && is_count m (m_na b + m_nf b) && is_count nele (coo_nnz (b_hphi (m_bufs b)) + coo_nnz (m_hcomb b)) then
      match values with
      | None =>
        match irow, jcol with
        | Some ir, Some jc =>
          st <- store_pattern (ir, jc, 0) (b_hphi (m_bufs b)) ;;
          st <- store_pattern st (m_hcomb b) ;;
          Ok (p, mk_reply true None (Some (fst (fst st))) (Some (snd (fst st))))
        | _, _ => no p
        end
      | Some mem =>
        r <- update p x new_x ;;
        match r with
        | None => no p
        | Some q =>
          r <- (if (new_lambda =? 1)%Z then
                  match lambda with
                  | None => Ok (q, false)
                  | Some la =>
                    nu <- raw_slice (skipn (m_na (nlp_base q)) la) (m_nf (nlp_base q)) ;;
                    q' <- nlp_combine_h q nu ;; Ok (q', true)
                  end
                else Ok (q, true)) ;;
          let '(q, ok) := r in
          if negb ok then no q
          else if (new_x =? 1)%Z || (new_lambda =? 1)%Z then
            st <- store_values (fun v => nmul obj_factor v) (mem, 0) (b_hphi (m_bufs (nlp_base q))) ;;
            st <- store_values (fun v => v) st (m_hcomb (nlp_base q)) ;;
            Ok (q, mk_reply true (Some (fst st)) irow jcol)
          else Ok (q, mk_reply true (Some mem) irow jcol)
        end
      end
    else no p.

  Definition callback (p : nlp T) (c : cb) : res (nlp T * reply) :=
    match c with
    | EvalF n x new_x obj => eval_f_cb p n x new_x obj
    | EvalGradF n x new_x grad => eval_grad_f_cb p n x new_x grad
    | EvalG n x new_x m g => eval_g_cb p n x new_x m g
    | EvalJacG n x new_x m nele ir jc v => eval_jac_g_cb p n x new_x m nele ir jc v
    | EvalH n x new_x f m la nl nele ir jc v => eval_h_cb p n x new_x f m la nl nele ir jc v
    end.

  (** ** The library: it calls back as it likes and finally returns a code and
      fills the four arrays of [IpoptSolve] (as functions of the index, so they keep
      their lengths). *)
  Inductive play :=
  | Finish (code : Z) (x lamnu pi mu : nat -> T)
  | Ask (c : cb) (k : reply -> play).
  (** The arguments of [CreateIpoptProblem] (ipopt.rs:71-86): the sizes, the bounds of
      the variables and of the constraints. *)
  Record create_args := mk_create {
    ca_n : Z; ca_l : list T; ca_u : list T; ca_m : Z; ca_gl : list T; ca_gu : list T; ca_nnzj : Z; ca_nnzh : Z
  }.
  Record library := mk_library {
    lib_create : create_args -> bool;                       (* not null *)
    lib_int : string -> Z -> bool;                          (* AddIpoptIntOption returns TRUE *)
    lib_str : string -> string -> bool;
    lib_solve : create_args -> Z -> string -> list T -> play (* with the options and the starting point *)
  }.
  Record answer := mk_answer { an_code : Z; an_x : list T; an_lamnu : list T; an_pi : list T; an_mu : list T }.
  Fixpoint run_play (s : play) (p : nlp T) : res (nlp T * answer) :=
    match s with
    | Finish code x la pi mu =>
      let n := m_nx (nlp_base p) in
      Ok (p, mk_answer code (map x (seq 0 n)) (map la (seq 0 (m_na (nlp_base p) + m_nf (nlp_base p)))) (map pi (seq 0 n)) (map mu (seq 0 n)))
    | Ask c k => r <- callback p c ;; run_play (k (snd r)) (fst r)
    end.

  Fixpoint has_nul (s : string) : bool :=
    match s with EmptyString => false | String c r => (c =? "000")%char || has_nul r end.

  (** ipopt.rs:130-136. *)
  Definition ipopt_status (code : Z) : status :=
    if ((code =? 0) || (code =? 1))%Z then Solved else if (code =? 2)%Z then Infeasible else Error.
  (** ipopt.rs:137-146. *)
  Definition ipopt_sol (p : nlp T) (r : answer) : res (sol T) :=
    let na := m_na (nlp_base p) in
    let nf := m_nf (nlp_base p) in
    let s := sol_new (m_nx (nlp_base p)) na nf in
    x <- copy_from_slice (s_x s) (an_x r) ;;
    lam <- foldR (fun lam k => v <- vget (an_lamnu r) k ;; vset lam k (nneg v)) (seq 0 na) (s_lam s) ;;
    nu <- foldR (fun nu k => v <- vget (an_lamnu r) k ;; vset nu (k - na) (nneg v)) (seq na nf) (s_nu s) ;;
    pi <- copy_from_slice (s_pi s) (an_pi r) ;;
    mu <- copy_from_slice (s_mu s) (an_mu r) ;;
    Ok (mk_sol x lam nu mu pi).

  (** ipopt.rs:63-153, after the choice of the problem.  The middle component says whether the library's
      problem object is still allocated at the end. *)
  Definition ipopt_solve_nlp (lib : library) (ps : params T) (p : nlp T) : res (nlp T * bool * sum (status * sol T) string) :=
    let b := nlp_base p in
    n <- to_i32 (m_nx b) ;;
    m <- to_i32 (m_na b + m_nf b) ;;
    nnzj <- to_i32 (coo_nnz (m_a b) + coo_nnz (b_j (m_bufs b))) ;;
    nnzh <- to_i32 (coo_nnz (b_hphi (m_bufs b)) + coo_nnz (m_hcomb b)) ;;
    let glu := repeat n0 (m_na b + m_nf b) in
    let args := mk_create n (m_l b) (m_u b) m glu glu nnzj nnzh in
    if lib_create lib args then
      match get_param ps "print_level" with
      | Some (IntParam lvl) =>
        if lib_int lib "print_level" lvl then
          match get_param ps "sb" with
          | Some (StrParam sb) =>
            _ <- (if has_nul sb then Panic PUnwrap else Ok tt) ;;
            if lib_str lib "sb" sb then
              x <- match m_x0 b with Some x0 => copy_from_slice (repeat n0 (m_nx b)) x0 | None => Ok (repeat n0 (m_nx b)) end ;;
              r <- run_play (lib_solve lib args lvl sb x) p ;;
              s <- ipopt_sol (fst r) (snd r) ;;
              Ok (fst r, false, inl (ipopt_status (an_code (snd r)), s))
            else Ok (p, true, inr "unable to set parameter sb"%string)
          | _ => Ok (p, true, inr "unable to get parameter sb"%string)
          end
        else Ok (p, true, inr "unable to set parameter print_level"%string)
      | _ => Ok (p, true, inr "unable to get parameter print_level"%string)
      end
    else Ok (p, false, inr "failed to create ipopt problem"%string).
  (** ipopt.rs:54-61. *)
  Definition ipopt_solve (lib : library) (ps : params T) (p : problem T) : res (problem T * bool * sum (status * sol T) string) :=
    match p with
    | PNlp q => r <- ipopt_solve_nlp lib ps q ;; Ok (PNlp (fst (fst r)), snd (fst r), snd r)
    | PLp q => r <- ipopt_solve_nlp lib ps (lp_nlp q) ;; Ok (PLp (mk_lp (lp_milp q) (fst (fst r))), snd (fst r), snd r)
    | _ => Ok (p, false, inr "problem type not supported"%string)
    end.
End Ipopt.
Arguments cb : clear implicits. Arguments play : clear implicits. Arguments reply : clear implicits. Arguments library : clear implicits.
Arguments answer : clear implicits. Arguments create_args : clear implicits.
