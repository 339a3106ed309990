(** Specification vocabulary for sparse matrices (independent of the code). *)
From Verif Require Import Base Num Matrix.

(** The stored entries of a COO matrix, in storage order. *)
Definition entries {T} (m : coo T) : list (nat * nat * T) :=
  combine (combine (coo_ri m) (coo_ci m)) (coo_data m).

(** The entries [(column, value)] of row [r], in storage order. *)
Definition row_of {T} (r : nat) (es : list (nat * nat * T)) : list (nat * T) :=
  map (fun e => (snd (fst e), snd e)) (filter (fun e => fst (fst e) =? r) es).

(** The CSR matrix whose rows are the lists of [(column, value)] pairs [rows]. *)
Definition row_starts (lens : list nat) : list nat :=
  map (fun r => list_sum (firstn r lens)) (seq 0 (S (length lens))).
Definition csr_of {T} (cols : nat) (rows : list (list (nat * T))) : csr T :=
  mk_csr (length rows) cols (row_starts (map (@length _) rows))
         (map fst (concat rows)) (map snd (concat rows)).

(** All the values stored for column [c] in a row. *)
Definition at_col {T} (c : nat) (row : list (nat * T)) : list T :=
  map snd (filter (fun e => fst e =? c) row).
(** Left-to-right sum of one or more values. *)
Definition sum1 {T} `{MatItem T} (l : list T) : T :=
  match l with [] => mzero | v :: l' => fold_left madd l' v end.
(** A row with one entry per column present, in order of first occurrence,
    holding the sum of that column's values. *)
Fixpoint firsts (l : list nat) : list nat :=
  match l with
  | [] => []
  | a :: l' => a :: filter (fun b => negb (b =? a)) (firsts l')
  end.
Definition merged_row {T} `{MatItem T} (row : list (nat * T)) : list (nat * T) :=
  map (fun c => (c, sum1 (at_col c row))) (firsts (map fst row)).

(** Row [r] of a matrix times a vector: the products added in storage order. *)
Definition row_dot {T} `{MatItem T} (row : list (nat * T)) (x : list T) : T :=
  fold_left (fun acc e => madd acc (mmul (nth (fst e) x mzero) (snd e))) row mzero.

(** Matrices obtained through the public API: the constructors, the index
    setters, and writing values through [data_mut]. *)
Inductive coo_built {T} `{MatItem T} : coo T -> Prop :=
| built_new rows cols ri ci data m :
    coo_new rows cols ri ci data = Ok m -> coo_built m
| built_pattern rows cols ri ci m :
    coo_from_pattern rows cols ri ci = Ok m -> coo_built m
| built_nnz rows cols nnz : coo_built (coo_from_nnz rows cols nnz)
| built_row m k row m' : coo_built m -> set_row_ind m k row = Ok m' -> coo_built m'
| built_col m k col m' : coo_built m -> set_col_ind m k col = Ok m' -> coo_built m'
| built_data m d : coo_built m -> length d = length (coo_data m) -> coo_built (with_data m d).

(** What [n] successive calls of [next] on one iterator return. *)
Fixpoint nexts {T} (m : coo T) (n k : nat) : res (list (option (nat * nat * T))) :=
  match n with
  | O => Ok []
  | S n' => rbind (coo_next m k) (fun r =>
            rbind (nexts m n' (snd r)) (fun l => Ok (fst r :: l)))
  end.
