(** Specification vocabulary for the Ipopt callbacks. *)
From Verif Require Import Base Num Matrix MatSpec MatrixProofs Problem ProblemProofs Ipopt.

Section Spec.
  Context {T : Type} `{Num T}.

  (** A problem made by the constructor, with well-formed matrices (three arrays of one
      length) and indices in range (and below 2^31), whose evaluation function only writes values and whose
      evaluation at a point does not depend on what was evaluated before. *)
  Definition repeatable (q0 : minlp T) : Prop :=
    forall q x, evolves q0 q -> length x = m_nx q0 ->
      exists q' q0', minlp_evaluate q x = Ok q' /\ minlp_evaluate q0 x = Ok q0' /\ m_bufs q' = m_bufs q0'.
  Definition indices_ok (m : coo T) : Prop := forall i j v, In (i, j, v) (entries m) -> i < coo_rows m /\ j < coo_cols m.
  Record nlp_sane (q0 : minlp T) : Prop := {
    ns_made : exists hphi a b j h l u p x0 ev, minlp_new hphi a b j h l u p x0 ev = Ok q0 /\
                coo_wf hphi /\ coo_wf a /\ coo_wf j /\ Forall coo_wf h /\ keeps_shape ev /\
                indices_ok hphi /\ indices_ok a /\ indices_ok j /\ Forall indices_ok h;
    ns_repeat : repeatable q0;
    ns_small : (Z.of_nat (m_nx q0) <= 2147483647)%Z /\ (Z.of_nat (m_na q0 + m_nf q0) <= 2147483647)%Z
  }.

  (** The values at [x]: what evaluating the problem, as constructed, leaves in it. *)
  Definition values_at (q0 : minlp T) (x : list T) (bf : bufs T) : Prop :=
    exists q', minlp_evaluate q0 x = Ok q' /\ m_bufs q' = bf.
  (** [A x - b]. *)
  Definition residuals (q0 : minlp T) (x : list T) : list T :=
    map (fun e => nsub (fst e) (snd e))
        (combine (map (fun r => row_dot (row_of r (entries (m_a q0))) x) (seq 0 (coo_rows (m_a q0)))) (m_b q0)).
  (** The values of [sum_i nu_i H_i], position by position. *)
  Definition combined (hs : list (coo T)) (nu : list T) : list T :=
    concat (map (fun e => map (fun v => nmul (snd e) v) (coo_data (fst e))) (combine hs nu)).

  (** Number of nonzeros the callbacks work with. *)
  Definition nnzj (q0 : minlp T) : nat := coo_nnz (m_a q0) + coo_nnz (b_j (m_bufs q0)).
  Definition nnzh (q0 : minlp T) : nat := coo_nnz (b_hphi (m_bufs q0)) + list_sum (map (@coo_nnz T) (b_h (m_bufs q0))).

  (** Arguments as Ipopt passes them: the sizes announced to [CreateIpoptProblem],
      and memory of these sizes. *)
  Definition point_ok (q0 : minlp T) (x : ptr T) : Prop := exists xs, x = Some xs /\ length xs = m_nx q0.
  Definition memory {A} (n : nat) (p : ptr A) : Prop := exists l, p = Some l /\ length l = n.
  Definition well_called (q0 : minlp T) (c : cb T) : Prop :=
    let n := Z.of_nat (m_nx q0) in
    let m := Z.of_nat (m_na q0 + m_nf q0) in
    match c with
    | EvalF n' x _ obj => n' = n /\ point_ok q0 x /\ memory 1 obj
    | EvalGradF n' x _ g => n' = n /\ point_ok q0 x /\ memory (m_nx q0) g
    | EvalG n' x _ m' g => n' = n /\ m' = m /\ point_ok q0 x /\ memory (m_na q0 + m_nf q0) g
    | EvalJacG n' x _ m' k ir jc vals =>
      n' = n /\ m' = m /\ k = Z.of_nat (nnzj q0) /\
      ((vals = None /\ memory (nnzj q0) ir /\ memory (nnzj q0) jc) \/ (point_ok q0 x /\ memory (nnzj q0) vals))
    | EvalH n' x _ _ m' la _ k ir jc vals =>
      n' = n /\ m' = m /\ k = Z.of_nat (nnzh q0) /\
      ((vals = None /\ memory (nnzh q0) ir /\ memory (nnzh q0) jc) \/
       (point_ok q0 x /\ memory (nnzh q0) vals /\ memory (m_na q0 + m_nf q0) la))
    end.

  (** The point of a request for values (none for a request for structure), and the
      flag that says that it is new. *)
  Definition point_of (c : cb T) : option (list T) :=
    match c with
    | EvalF _ x _ _ | EvalGradF _ x _ _ | EvalG _ x _ _ _ => x
    | EvalJacG _ x _ _ _ _ _ (Some _) | EvalH _ x _ _ _ _ _ _ _ _ (Some _) => x
    | _ => None
    end.
  Definition flag_of (c : cb T) : bool :=
    match c with
    | EvalF _ _ f _ | EvalGradF _ _ f _ | EvalG _ _ f _ _ | EvalJacG _ _ f _ _ _ _ _ | EvalH _ _ f _ _ _ _ _ _ _ _ => (f =? 1)%Z
    end.
  (** Ipopt's contract: a point that differs from the one of the previous request for
      values is announced as new. *)
  Fixpoint honours (last : option (list T)) (cs : list (cb T)) : Prop :=
    match cs with
    | [] => True
    | c :: cs =>
      match point_of c with
      | None => honours last cs
      | Some x => (last = Some x \/ flag_of c = true) /\ honours (Some x) cs
      end
    end.

  (** A sequence of callbacks on one problem. *)
  Fixpoint run_calls (p : nlp T) (cs : list (cb T)) : res (nlp T * list (reply T)) :=
    match cs with
    | [] => Ok (p, [])
    | c :: cs => rbind (callback p c) (fun r => rbind (run_calls (fst r) cs) (fun s => Ok (fst s, snd r :: snd s)))
    end.

  (** The positions of the entries of a matrix, with an offset for the rows. *)
  Definition rows_at (off : nat) (m : coo T) : list Z := map (fun e => Z.of_nat (off + fst (fst e))) (entries m).
  Definition cols_at (m : coo T) : list Z := map (fun e => Z.of_nat (snd (fst e))) (entries m).

  (** The right answer to a request for values other than the Hessian. *)
  Definition right_values (q0 : minlp T) (c : cb T) (r : reply T) : Prop :=
    match c with
    | EvalF _ (Some x) _ _ => exists bf, values_at q0 x bf /\ r = mk_reply true (Some [b_phi bf]) None None
    | EvalGradF _ (Some x) _ _ => exists bf, values_at q0 x bf /\ r = mk_reply true (Some (b_gphi bf)) None None
    | EvalG _ (Some x) _ _ _ => exists bf, values_at q0 x bf /\ r = mk_reply true (Some (residuals q0 x ++ b_f bf)) None None
    | EvalJacG _ (Some x) _ _ _ ir jc (Some _) =>
      exists bf, values_at q0 x bf /\ r = mk_reply true (Some (coo_data (m_a q0) ++ coo_data (b_j bf))) ir jc
    | _ => rp_ok r = true
    end.

  (** The point and the multipliers of the last Hessian request with new multipliers. *)
  Definition step_lambda (old : option (list T * list T)) (c : cb T) : option (list T * list T) :=
    match c with
    | EvalH _ (Some x) _ _ _ (Some la) f _ _ _ (Some _) => if (f =? 1)%Z then Some (x, la) else old
    | _ => old
    end.
  Definition latest_lambda (cs : list (cb T)) : option (list T * list T) := fold_left step_lambda cs None.

  (** *** Structure *)
  (** The Jacobian of [(A x - b, f)]: the rows of [A], then those of [J] below. *)
  Definition jac_rows (q0 : minlp T) : list Z := rows_at 0 (m_a q0) ++ rows_at (m_na q0) (b_j (m_bufs q0)).
  Definition jac_cols (q0 : minlp T) : list Z := cols_at (m_a q0) ++ cols_at (b_j (m_bufs q0)).
  Definition in_bounds (n : nat) (l : list Z) : Prop := Forall (fun z => 0 <= z < Z.of_nat n)%Z l.

  (** *** The Hessian of the Lagrangian: [factor * Hphi + sum_i nu_i H_i] *)
  Definition scaled (v : T) (m : coo T) : list (nat * nat * T) := map (fun e => (fst e, nmul v (snd e))) (entries m).
  Definition lagrangian (bf : bufs T) (factor : T) (nu : list T) : list (nat * nat * T) :=
    scaled factor (b_hphi bf) ++ flat_map (fun hn => scaled (snd hn) (fst hn)) (combine (b_h bf) nu).
  Definition lag_pos (bf : bufs T) : list (nat * nat) := map fst (entries (b_hphi bf)) ++ flat_map (fun h => map fst (entries h)) (b_h bf).
  Definition new_lambda_of (c : cb T) : bool := match c with EvalH _ _ _ _ _ _ f _ _ _ _ => (f =? 1)%Z | _ => false end.

  (** The right answer to a request for the Hessian (structure or values). *)
  Definition right_hessian (q0 : minlp T) (c : cb T) (r : reply T) : Prop :=
    match c with
    | EvalH _ _ _ _ _ _ _ _ _ _ None =>
      r = mk_reply true None (Some (map (fun ij => Z.of_nat (fst ij)) (lag_pos (m_bufs q0))))
                             (Some (map (fun ij => Z.of_nat (snd ij)) (lag_pos (m_bufs q0))))
    | EvalH _ (Some x) _ factor _ (Some la) _ _ ir jc (Some _) =>
      exists bf, values_at q0 x bf /\ map fst (lagrangian bf factor (skipn (m_na q0) la)) = lag_pos (m_bufs q0) /\
        r = mk_reply true (Some (map snd (lagrangian bf factor (skipn (m_na q0) la)))) ir jc
    | _ => True
    end.

  (** What the code answers instead: with no flag the memory is left as it was; with only
      [new_x] the constraint part is the one of the last request with new multipliers
      ([d0], the values the problem held at the start, when there was none). *)
  Definition actual_hessian (q0 : minlp T) (d0 : list T) (before : list (cb T)) (c : cb T) (r : reply T) : Prop :=
    match c with
    | EvalH _ (Some x) new_x factor _ (Some la) new_lambda _ ir jc (Some mem) =>
      if (new_lambda =? 1)%Z then right_hessian q0 c r
      else if (new_x =? 1)%Z then
        exists bf, values_at q0 x bf /\
          match latest_lambda before with
          | None => r = mk_reply true (Some (map snd (scaled factor (b_hphi bf)) ++ d0)) ir jc
          | Some (x', la') => exists bf', values_at q0 x' bf' /\
              r = mk_reply true (Some (map snd (scaled factor (b_hphi bf)) ++ combined (b_h bf') (skipn (m_na q0) la'))) ir jc
          end
      else r = mk_reply true (Some mem) ir jc
    | _ => True
    end.

  (** Ipopt's contract for the multipliers: those that differ from the ones of the
      previous request are announced as new. *)
  Fixpoint honours_lambda (last : option (list T)) (cs : list (cb T)) : Prop :=
    match cs with
    | [] => True
    | EvalH _ _ _ _ _ (Some la) f _ _ _ (Some _) :: cs => (last = Some la \/ (f =? 1)%Z = true) /\ honours_lambda (Some la) cs
    | _ :: cs => honours_lambda last cs
    end.

  (** *** A run of the library: its calls, answered by the callbacks, up to its return. *)
  Inductive plays : play T -> nlp T -> nlp T -> list (cb T) -> Z -> (nat -> T) -> (nat -> T) -> (nat -> T) -> (nat -> T) -> Prop :=
  | plays_end p code x la pi mu : plays (Finish code x la pi mu) p p [] code x la pi mu
  | plays_ask c k p r p1 p' cs code x la pi mu :
      callback p c = Ok (p1, r) -> plays (k r) p1 p' cs code x la pi mu -> plays (Ask c k) p p' (c :: cs) code x la pi mu.
  (** A library that keeps Ipopt's contract, whatever it is answered. *)
  Fixpoint lawful (q0 : minlp T) (last : option (list T)) (s : play T) : Prop :=
    match s with
    | Finish _ _ _ _ _ => True
    | Ask c k =>
      well_called q0 c /\
      match point_of c with
      | None => forall r, lawful q0 last (k r)
      | Some x => (last = Some x \/ flag_of c = true) /\ forall r, lawful q0 (Some x) (k r)
      end
    end.
  (** The string contains a NUL byte. *)
  Definition contains_nul (s : string) : Prop := In Ascii.zero (list_ascii_of_string s).
  Definition present {A} (p : ptr A) : Prop := p <> None.
  (** The calls a callback accepts: the sizes are those of the problem, and every
      pointer it has to use is there. *)
  Definition accepted (q0 : minlp T) (c : cb T) : Prop :=
    let n := Z.of_nat (m_nx q0) in
    let m := Z.of_nat (m_na q0 + m_nf q0) in
    match c with
    | EvalF n' x _ obj => n' = n /\ present x /\ present obj
    | EvalGradF n' x _ g => n' = n /\ present x /\ present g
    | EvalG n' x _ m' g => n' = n /\ m' = m /\ present x /\ present g
    | EvalJacG n' x new_x m' k ir jc vals =>
      n' = n /\ m' = m /\ k = Z.of_nat (nnzj q0) /\
      match vals with None => present ir /\ present jc | Some _ => new_x = 1%Z -> present x end
    | EvalH n' x new_x _ m' la new_lambda k ir jc vals =>
      n' = n /\ m' = m /\ k = Z.of_nat (nnzh q0) /\
      match vals with
      | None => present ir /\ present jc
      | Some _ => (new_x = 1%Z -> present x) /\ (new_lambda = 1%Z -> present la)
      end
    end.
  (** The memory a call passes, as it is left by a callback that writes nothing. *)
  Definition untouched (c : cb T) : reply T :=
    match c with
    | EvalF _ _ _ o | EvalGradF _ _ _ o | EvalG _ _ _ _ o => mk_reply false o None None
    | EvalJacG _ _ _ _ _ ir jc v => mk_reply false v ir jc
    | EvalH _ _ _ _ _ _ _ _ ir jc v => mk_reply false v ir jc
    end.
  (** The memory behind [x] holds a point. *)
  Definition point_memory (q0 : minlp T) (c : cb T) : Prop :=
    match c with
    | EvalF _ x _ _ | EvalGradF _ x _ _ | EvalG _ x _ _ _ | EvalJacG _ x _ _ _ _ _ _ | EvalH _ x _ _ _ _ _ _ _ _ _ =>
      match x with Some l => length l = m_nx q0 | None => True end
    end.
  Definition tabulate {A} (n : nat) (f : nat -> A) : list A := map f (seq 0 n).
End Spec.
