(** Sparse matrices: src/matrix/{coo,csr,item}.rs. *)
From Verif Require Import Base Num.

(** item.rs:7 ([Zero + Mul + AddAssign + Copy]; no laws). *)
Class MatItem (T : Type) := { mzero : T; madd : T -> T -> T; mmul : T -> T -> T }.
#[export] Instance mat_item_num {T} `{Num T} : MatItem T :=
  {| mzero := n0; madd := nadd; mmul := nmul |}.

(** coo.rs:10-15. *)
Record coo (T : Type) := mk_coo {
  coo_rows : nat; coo_cols : nat;
  coo_ri : list nat; coo_ci : list nat; coo_data : list T
}.
Arguments mk_coo {T}. Arguments coo_rows {T}. Arguments coo_cols {T}.
Arguments coo_ri {T}. Arguments coo_ci {T}. Arguments coo_data {T}.

(** csr.rs:7-12. *)
Record csr (T : Type) := mk_csr {
  csr_rows : nat; csr_cols : nat;
  csr_indptr : list nat; csr_indices : list nat; csr_data : list T
}.
Arguments mk_csr {T}. Arguments csr_rows {T}. Arguments csr_cols {T}.
Arguments csr_indptr {T}. Arguments csr_indices {T}. Arguments csr_data {T}.

Section Mat.
  Context {T : Type} `{MatItem T}.
  Local Open Scope r_scope.

  (** coo.rs:26-38. *)
  Definition coo_new (rows cols : nat) (ri ci : list nat) (data : list T) : res (coo T) :=
    _ <- rassert (length ri =? length ci) ;;
    _ <- rassert (length ri =? length data) ;;
    Ok (mk_coo rows cols ri ci data).
  (** coo.rs:41-52. *)
  Definition coo_from_pattern (rows cols : nat) (ri ci : list nat) : res (coo T) :=
    _ <- rassert (length ri =? length ci) ;;
    Ok (mk_coo rows cols ri ci (repeat mzero (length ri))).
  (** coo.rs:55-62. *)
  Definition coo_from_nnz (rows cols nnz : nat) : coo T :=
    mk_coo rows cols (repeat 0 nnz) (repeat 0 nnz) (repeat mzero nnz).
  (** coo.rs:71. *)
  Definition coo_nnz (m : coo T) : nat := length (coo_ri m).
  (** coo.rs:86 and 89. *)
  Definition set_row_ind (m : coo T) (k row : nat) : res (coo T) :=
    ri <- vset (coo_ri m) k row ;;
    Ok (mk_coo (coo_rows m) (coo_cols m) ri (coo_ci m) (coo_data m)).
  Definition set_col_ind (m : coo T) (k col : nat) : res (coo T) :=
    ci <- vset (coo_ci m) k col ;;
    Ok (mk_coo (coo_rows m) (coo_cols m) (coo_ri m) ci (coo_data m)).
  (** Writing through [data_mut] (coo.rs:83), which cannot change the length. *)
  Definition with_data (m : coo T) (d : list T) : coo T :=
    mk_coo (coo_rows m) (coo_cols m) (coo_ri m) (coo_ci m) d.

  (** coo.rs:162-174: [CooMatIter::next]; the iterator's state is [k]. *)
  Definition coo_next (m : coo T) (k : nat) : res (option (nat * nat * T) * nat) :=
    if k <? coo_nnz m then
      i <- vget (coo_ri m) k ;;
      j <- vget (coo_ci m) k ;;
      v <- vget (coo_data m) k ;;
      Ok (Some (i, j, v), S k)
    else Ok (None, 0).

  (** A [for] loop over the iterator starting at state [k], collecting the
      items; [fuel] bounds the number of calls of [next]. *)
  Fixpoint coo_collect (fuel : nat) (m : coo T) (k : nat) : res (list (nat * nat * T)) :=
    match fuel with
    | O => Panic PFuel
    | S fuel' =>
      rbind (coo_next m k) (fun r =>
        match r with
        | (Some it, k') => rbind (coo_collect fuel' m k') (fun l => Ok (it :: l))
        | (None, _) => Ok []
        end)
    end.
  (** [for (row, col, val) in m.iter()] (coo.rs:92 creates the iterator at 0). *)
  Definition coo_items (m : coo T) : res (list (nat * nat * T)) :=
    coo_collect (S (coo_nnz m)) m 0.

  (** [v[i] += 1]. *)
  Definition incr (v : list nat) (i : nat) : res (list nat) :=
    c <- vget v i ;; vset v i (S c).

  (** coo.rs:109-114 (also csr.rs:90-95): running sums of [counter]. *)
  Fixpoint prefix_sums (offset : nat) (counter : list nat) : list nat :=
    match counter with
    | [] => []
    | c :: counter' => (offset + c) :: prefix_sums (offset + c) counter'
    end.
  Definition build_indptr (counter : list nat) : list nat := 0 :: prefix_sums 0 counter.

  (** csr.rs:17-30. *)
  Definition csr_new (rows cols : nat) (indptr indices : list nat) (data : list T) : res (csr T) :=
    _ <- rassert (length indptr =? rows + 1) ;;
    _ <- rassert (length indices =? length data) ;;
    l <- unwrap (nth_error indptr (pred (length indptr))) ;;
    _ <- rassert (l =? length data) ;;
    Ok (mk_csr rows cols indptr indices data).

  (** coo.rs:120-125: placing one element. *)
  Definition place (indptr : list nat) (st : list nat * list T * list nat)
             (it : nat * nat * T) : res (list nat * list T * list nat) :=
    let '(indices, data, counter) := st in
    let '(row, col, v) := it in
    p <- vget indptr row ;;
    c <- vget counter row ;;
    indices' <- vset indices (p + c) col ;;
    data' <- vset data (p + c) v ;;
    counter' <- vset counter row (S c) ;;
    Ok (indices', data', counter').

  (** coo.rs:95-134. *)
  Definition to_csr (m : coo T) : res (csr T) :=
    counter <- foldR incr (coo_ri m) (repeat 0 (coo_rows m)) ;;
    let indptr := build_indptr counter in
    l <- vget indptr (coo_rows m) ;;
    _ <- rassert (l =? coo_nnz m) ;;
    items <- coo_items m ;;
    st <- foldR (place indptr) items
                (repeat 0 (coo_nnz m), repeat mzero (coo_nnz m), repeat 0 (coo_rows m)) ;;
    let '(indices, data, _) := st in
    csr_new (coo_rows m) (coo_cols m) indptr indices data.

  (** coo.rs:141-148. *)
  Definition coo_mul (m : coo T) (rhs : list T) : res (list T) :=
    _ <- rassert (coo_cols m =? length rhs) ;;
    items <- coo_items m ;;
    foldR (fun y it =>
             let '(row, col, v) := it in
             x <- vget rhs col ;;
             y0 <- vget y row ;;
             vset y row (madd y0 (mmul x v)))
          items (repeat mzero (coo_rows m)).

  (** csr.rs:53-62: the local state of [sum_duplicates]. *)
  Record sd_state := mk_sd {
    sd_colseen : list bool; sd_colrow : list nat; sd_colnewk : list nat;
    sd_newk : nat; sd_counter : list nat; sd_indices : list nat; sd_data : list T
  }.

  (** csr.rs:66-85. *)
  Definition sd_step (m : csr T) (row : nat) (s : sd_state) (k : nat) : res sd_state :=
    col <- vget (csr_indices m) k ;;
    d <- vget (csr_data m) k ;;
    seen <- vget (sd_colseen s) col ;;
    crow <- vget (sd_colrow s) col ;;
    s' <- (if negb seen || negb (crow =? row) then
             colnewk <- vset (sd_colnewk s) col (sd_newk s) ;;
             counter <- incr (sd_counter s) row ;;
             Ok (mk_sd (sd_colseen s) (sd_colrow s) colnewk (S (sd_newk s)) counter
                       (sd_indices s ++ [col]) (sd_data s ++ [d]))
           else
             nk <- vget (sd_colnewk s) col ;;
             x <- vget (sd_data s) nk ;;
             data <- vset (sd_data s) nk (madd x d) ;;
             Ok (mk_sd (sd_colseen s) (sd_colrow s) (sd_colnewk s) (sd_newk s)
                       (sd_counter s) (sd_indices s) data)) ;;
    colseen <- vset (sd_colseen s') col true ;;
    colrow <- vset (sd_colrow s') col row ;;
    Ok (mk_sd colseen colrow (sd_colnewk s') (sd_newk s') (sd_counter s')
              (sd_indices s') (sd_data s')).

  (** csr.rs:64-86: one row. *)
  Definition sd_row (m : csr T) (s : sd_state) (row : nat) : res sd_state :=
    p0 <- vget (csr_indptr m) row ;;
    p1 <- vget (csr_indptr m) (S row) ;;
    foldR (sd_step m row) (seq p0 (p1 - p0)) s.

  (** csr.rs:51-104. *)
  Definition sum_duplicates (m : csr T) : res (csr T) :=
    s <- foldR (sd_row m) (seq 0 (csr_rows m))
               (mk_sd (repeat false (csr_cols m)) (repeat 0 (csr_cols m))
                      (repeat 0 (csr_cols m)) 0 (repeat 0 (csr_rows m)) [] []) ;;
    let indptr := build_indptr (sd_counter s) in
    _ <- rassert (length indptr =? csr_rows m + 1) ;;
    l <- vget indptr (csr_rows m) ;;
    _ <- rassert (length (sd_indices s) =? l) ;;
    _ <- rassert (length (sd_indices s) =? length (sd_data s)) ;;
    Ok (mk_csr (csr_rows m) (csr_cols m) indptr (sd_indices s) (sd_data s)).
End Mat.
