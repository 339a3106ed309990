(** Writing a linear problem as an LP file: src/problem/milp.rs:106-203. *)
From Verif Require Import Base Num Matrix Problem Text.

(** Text of numbers. *)
Class NumText (T : Type) := {
  show_e10 : T -> string;              (* format!("{:.10e}", x) *)
  read_num : string -> option T        (* str::parse::<f64> *)
}.
#[export] Instance TextF : NumText F := { show_e10 := fmt_e10; read_num := parse_f64 }.

Section LpFile.
  Context {T : Type} `{Num T} `{NumText T}.
  Local Open Scope r_scope.

  Definition line (l : list string) : string := (String.concat "" l ++ nls)%string.

  (** milp.rs:128-144 and 157-174: one term, or nothing for a coefficient that
      is neither positive nor negative. *)
  Definition term_text (d : T) (j : nat) : string :=
    let body (pre : string) :=
      if neqb (nabs d) n1 then line ["     "; pre; " x_"; dec_nat j]%string
      else line ["     "; pre; " "; show_e10 (nabs d); " x_"; dec_nat j]%string in
    if nltb n0 d then body "+"%string
    else if nltb d n0 then body "-"%string
    else ""%string.

  (** milp.rs:127-145. *)
  Definition obj_text (c : list T) : string :=
    String.concat "" (map (fun ic => term_text (snd ic) (fst ic)) (combine (seq 0 (length c)) c)).

  (** milp.rs:151-177: one row. *)
  Definition row_text (b : list T) (a : csr T) (i : nat) : res string :=
    bi <- vget b i ;;
    p0 <- vget (csr_indptr a) i ;;
    p1 <- vget (csr_indptr a) (S i) ;;
    ts <- mapR (fun k =>
                  j <- vget (csr_indices a) k ;;
                  d <- vget (csr_data a) k ;;
                  Ok (term_text d j)) (seq p0 (p1 - p0)) ;;
    Ok (line ["  c_"; dec_nat i; ":"] ++ String.concat "" ts ++ line ["     = "; show_e10 bi])%string.

  (** milp.rs:181-186: one bound. *)
  Definition bound_text (l u : list T) (i : nat) : res string :=
    li <- vget l i ;;
    ui <- vget u i ;;
    Ok (line [" "; show_e10 li; " <= x_"; dec_nat i; " <= "; show_e10 ui])%string.

  (** milp.rs:190-194. *)
  Definition general_text (p : list bool) : string :=
    String.concat "" (map (fun ib => if snd ib : bool then line [" x_"; dec_nat (fst ib)]%string else ""%string)
                          (combine (seq 0 (length p)) p)).

  (** milp.rs:113-202: the whole text (what a complete run writes).  Each [w.write]
      goes to a [BufWriter] of 8 KiB and is shorter, so it is taken whole. *)
  Definition write_to_lp_file (p : milp T) : res string :=
    a0 <- to_csr (m_a (milp_base p)) ;;
    a <- sum_duplicates a0 ;;
    rows <- mapR (row_text (m_b (milp_base p)) a) (seq 0 (csr_rows a)) ;;
    bounds <- mapR (bound_text (m_l (milp_base p)) (m_u (milp_base p))) (seq 0 (milp_nx p)) ;;
    Ok (line ["Minimize"] ++ line [" obj:"] ++ obj_text (milp_c p) ++
        line ["Subject to"] ++ String.concat "" rows ++
        line ["Bounds"] ++ String.concat "" bounds ++
        line ["General"] ++ general_text (m_p (milp_base p)) ++ line ["End"])%string.
End LpFile.
