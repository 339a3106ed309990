(** Vocabulary for comparing two runs of the standardisation that see different
    hash orders. *)
From Verif Require Import Base Num Node NodeStd Constraint Matrix MatSpec Problem ModelStd ExprSpec ModelSpec.
From Coq Require Import Reals.

(** The objective coefficients of a linear problem. *)
Definition costs {T} (p : problem T) : option (list T) :=
  match p with
  | PLp q => Some (milp_c (lp_milp q))
  | PMilp q => Some (milp_c q)
  | _ => None
  end.

(** Two problems with the same data up to the numbering of the variables: [tw]
    gives the variable of the second problem that plays the role of a variable
    of the first one, [pi] does the same for indices.  Variables made before
    (identities below [k]) correspond to themselves. *)
Record same_up_to {T} `{Num T} (k : nat) (sp1 sp2 : std_prob T) (tw : node T -> node T) (pi : nat -> nat) : Prop := {
  su_old : forall v, nid v < k -> tw v = v;
  su_var : forall v i, In (v, i) (sp_var2index sp1) ->
    In (tw v, pi i) (sp_var2index sp2) /\ name (tw v) = name v /\ is_integer (tw v) = is_integer v;
  su_len : length (sp_var2index sp2) = length (sp_var2index sp1);
  su_inj : forall i j, i < length (sp_var2index sp1) -> j < length (sp_var2index sp1) -> pi i = pi j -> i = j;
  su_class : class_of (sp_prob sp2) = class_of (sp_prob sp1);
  su_l : forall i, i < length (sp_var2index sp1) ->
    nth_error (m_l (base_of (sp_prob sp2))) (pi i) = nth_error (m_l (base_of (sp_prob sp1))) i;
  su_u : forall i, i < length (sp_var2index sp1) ->
    nth_error (m_u (base_of (sp_prob sp2))) (pi i) = nth_error (m_u (base_of (sp_prob sp1))) i;
  su_p : forall i, i < length (sp_var2index sp1) ->
    nth_error (m_p (base_of (sp_prob sp2))) (pi i) = nth_error (m_p (base_of (sp_prob sp1))) i;
  su_x0 : exists x1 x2, m_x0 (base_of (sp_prob sp1)) = Some x1 /\ m_x0 (base_of (sp_prob sp2)) = Some x2 /\
    forall i, i < length (sp_var2index sp1) -> nth_error x2 (pi i) = nth_error x1 i;
  su_c : match costs (sp_prob sp1), costs (sp_prob sp2) with
         | Some c1, Some c2 => forall i, i < length (sp_var2index sp1) -> nth_error c2 (pi i) = nth_error c1 i
         | None, None => True
         | _, _ => False
         end;
  su_a : Permutation (map (fun e => (fst (fst e), pi (snd (fst e)), snd e)) (entries (m_a (base_of (sp_prob sp1)))))
                     (entries (m_a (base_of (sp_prob sp2))));
  su_b : m_b (base_of (sp_prob sp2)) = m_b (base_of (sp_prob sp1));
  su_nf : length (b_f (m_bufs (base_of (sp_prob sp2)))) = length (b_f (m_bufs (base_of (sp_prob sp1))));
  su_j : Permutation (map (fun e => (fst (fst e), pi (snd (fst e)))) (entries (b_j (m_bufs (base_of (sp_prob sp1))))))
                     (map fst (entries (b_j (m_bufs (base_of (sp_prob sp2))))));
  su_acons : sp_acons sp2 = sp_acons sp1;
  su_jcons : sp_jcons sp2 = sp_jcons sp1;
  su_ucons : forall i, i < length (sp_var2index sp1) ->
    hget Nat.eqb (pi i) (sp_ucons sp2) = hget Nat.eqb i (sp_ucons sp1);
  su_lcons : forall i, i < length (sp_var2index sp1) ->
    hget Nat.eqb (pi i) (sp_lcons sp2) = hget Nat.eqb i (sp_lcons sp1)
}.

(** The point [x2] is [x1] with its components renumbered. *)
Definition renumbered {T} (pi : nat -> nat) (x1 x2 : list T) : Prop :=
  length x2 = length x1 /\ forall i, i < length x1 -> nth_error x2 (pi i) = nth_error x1 i.

(** The variables have pairwise different names. *)
Definition distinct_names {T} (sp : std_prob T) : Prop := NoDup (map (fun vi => name (fst vi)) (sp_var2index sp)).
