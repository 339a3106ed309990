(** Property C62: where the constraint matrices of a standard problem have entries. *)
From Verif Require Import Base Num Node NodeInd NodeStd Constraint Matrix MatSpec Problem ModelStd Model ExprSpec Api ModelApi HistProofs
     ConstrSpec ModelSpec World Fresh MapProofs StdPropProofs EvalProofs DerivProofs DiffProofs PanicProofs GradProofs CompProofs OccProofs ConstrEquiv PartsProofs BuildProofs BuildMain StdMain PointProofs StdFacts ConstrProofs SlotProofs ModelExample Properties_Constr Properties_Std SparseProofs.

Section Sparse.
  Context {T : Type} `{Num T} `{HashOrd}.
  (** The (row, column) positions at which a matrix stores an entry. *)
  Definition positions (a : coo T) : list (nat * nat) := map fst (entries a).
  Definition lin_rows (sp : std_prob T) : coo T := m_a (base_of (sp_prob sp)).
  Definition fun_rows (sp : std_prob T) : coo T := b_j (m_bufs (base_of (sp_prob sp))).

  Lemma enum_nth {A} (l : list A) i x : In (i, x) (enum l) -> nth_error l i = Some x.
  Proof.
    unfold enum. intros Hin. assert (G : forall l s, In (i, x) (combine (seq s (length l)) l) -> s <= i /\ nth_error l (i - s) = Some x).
    { clear. induction l as [|a l IH]; intros s Hin; [destruct Hin|]. cbn in Hin. destruct Hin as [E|Hin].
      - injection E as -> ->. rewrite Nat.sub_diag. auto.
      - apply IH in Hin as [H1 H2]. split; [lia|]. replace (i - s) with (S (i - S s)) by lia. exact H2. }
    apply G in Hin as [_ Hn]. rewrite Nat.sub_0_r in Hn. exact Hn.
  Qed.

  (** ** C62 Sparsity pattern
      No position is stored twice, in A or in the Jacobian. *)
  Lemma sparse_all (st : mstate T) m sp k' :
    hist any_op st -> In m (st_models st) -> std_problem m (st_k st) = Ok (sp, k') -> neqb (@nm1 T _) n0 = false ->
    exists cs, parts_pos (st_k st) (st_k st) 0 0 cs k' /\ sp_acons sp = enum (cs_ca cs) /\ sp_jcons sp = enum (cs_cj cs) /\
      NoDup (positions (lin_rows sp)) /\ NoDup (positions (fun_rows sp)) /\
      (forall r v i, In (v, i) (sp_var2index sp) -> In (r, i) (positions (lin_rows sp)) <-> In (r, v) (pos (cs_a cs))) /\
      (forall r v i, In (v, i) (sp_var2index sp) -> In (r, i) (positions (fun_rows sp)) <-> In (r, v) (posj (cs_j cs))) /\
      (forall r v, In (r, v) (pos (cs_a cs)) \/ In (r, v) (posj (cs_j cs)) -> exists i, In (v, i) (sp_var2index sp)).
  Proof.
    intros Hh Hm E Hnm.
    destruct (hist_run st m sp k' Hh Hm E) as (S & obj & S' & eo & ke & ko & ps & ar & jr & uc & lc & Hi & Mi & HW & Em & R & -> & _).
    exists (cat ps). pose proof (sr_le _ _ _ _ _ _ _ _ _ _ _ _ _ R) as Hle.
    destruct (sr_w2 _ _ _ _ _ _ _ _ _ _ _ _ _ R) as (S2 & I2 & _ & W2 & _).
    assert (Hc : Forall (fun c => S2 (clhs c) /\ S2 (crhs c)) (md_constraints m)).
    { eapply Forall_impl; [|apply mi_cons with (1 := Mi)]. intros c []; auto. }
    assert (Hold : forall c v, In c (md_constraints m) -> in_con c v -> nid v < st_k st).
    { intros c v Hin Hv. pose proof (mi_cons _ _ Mi) as G. rewrite Forall_forall in G. destruct (G c Hin) as [Gl Gr].
      destruct Hv as [Hv|Hv]; [exact (w_lt _ _ _ HW v (world_sub _ _ S _ v HW Gl (proj2 Hv)))|exact (w_lt _ _ _ HW v (world_sub _ _ S _ v HW Gr (proj2 Hv)))]. }
    pose proof (parts_pos_ok _ (st_k st) S2 (md_constraints m) 0 0 ko ps ar jr k' Hnm W2 Hc ltac:(lia) Hold (sr_parts _ _ _ _ _ _ _ _ _ _ _ _ _ R)) as Q.
    split; [|].
    { destruct Q as [Q1 Q2 Q3 Q4 Q5 Q6 Q7 Q8]. constructor; auto. intros r v Hin Hv. specialize (Q5 r v Hin Hv). lia. }
    split; [reflexivity|]. split; [reflexivity|]. unfold lin_rows, fun_rows. cbn [sp_prob sp_var2index].
    set (vars := problem_vars k' obj (cat ps)). pose proof (run_vars_nodup _ _ _ _ _ _ _ _ _ _ _ _ _ R) as Hnd. fold vars in Hnd.
    pose proof (sr_in _ _ _ _ _ _ _ _ _ _ _ _ _ R) as [_ P2 _ P4 _ _ _].
    assert (Fa : Forall (fun e => In (snd (fst e)) vars) (cs_a (cat ps))).
    { eapply Forall_impl; [|exact P2]. cbn. intros e He. apply (run_vars_in _ _ _ _ _ _ _ _ _ _ _ _ _ _ R). auto. }
    assert (Fj : Forall (fun e => In (snd (fst e)) vars) (cs_j (cat ps))).
    { eapply Forall_impl; [|exact P4]. cbn. intros e [He _]. apply (run_vars_in _ _ _ _ _ _ _ _ _ _ _ _ _ _ R). auto. }
    destruct (base_shape k' (md_init m) obj (cat ps)) as (-> & _). destruct (base_bufs k' (md_init m) obj (cat ps)) as (-> & _).
    destruct (pos_matrix vars (length (cs_b (cat ps))) (length vars) (cs_a (cat ps)) (map snd (cs_a (cat ps))) Hnd Fa (map_length _ _) (qp_a _ _ _ _ _ _ Q)) as [A1 A2].
    destruct (pos_matrix vars (length (cs_f (cat ps))) (length vars) (cs_j (cat ps)) (repeat (@n0 T _) (length (cs_j (cat ps)))) Hnd Fj (repeat_length _ _) (qp_j _ _ _ _ _ _ Q)) as [J1 J2].
    split; [exact A1|].
    assert (Elin : p_linear obj (cat ps) = true -> cs_j (cat ps) = []).
    { unfold p_linear. intros Hl. apply andb_prop in Hl as [_ Hl]. apply Nat.eqb_eq in Hl.
      destruct (sr_rows _ _ _ _ _ _ _ _ _ _ _ _ _ R) as [_ _ _ B1 _ _ B2]. rewrite Hl in B1. destruct (cs_j (cat ps)) as [|e l]; [reflexivity|]. inversion B2; subst. lia. }
    split.
    - destruct (p_linear obj (cat ps)); cbn [lin_bufs nl_bufs b_j]; [constructor|exact J1].
    - split; [|split].
      + intros r v i Hv. apply enum_in in Hv. exact (A2 r v i Hv).
      + intros r v i Hv. apply enum_in in Hv. destruct (p_linear obj (cat ps)); cbn [lin_bufs nl_bufs b_j]; [|exact (J2 r v i Hv)].
        rewrite (Elin eq_refl). cbn. tauto.
      + intros r v Hin. assert (Hv : In v vars).
        { rewrite Forall_forall in Fa, Fj. destruct Hin as [Hin|Hin]; apply in_map_iff in Hin as (e & E' & Hin); [specialize (Fa e Hin)|specialize (Fj e Hin)];
            rewrite E' in *; assumption. }
        apply In_nth_error in Hv as [i Ni]. exists i. apply enum_in. exact Ni.
  Qed.
  Theorem C62_unique (st : mstate T) m sp k' :
    hist any_op st -> In m (st_models st) -> std_problem m (st_k st) = Ok (sp, k') -> neqb (@nm1 T _) n0 = false ->
    NoDup (positions (lin_rows sp)) /\ NoDup (positions (fun_rows sp)).
  Proof. intros Hh Hm E Hnm. destruct (sparse_all st m sp k' Hh Hm E Hnm) as (cs & _ & _ & _ & A & B & _ & _). auto. Qed.

  (** A row has an entry in the column of a variable of the model exactly when the variable
      occurs in the constraint of that row, on one of its sides. *)
  Theorem C62_pattern (st : mstate T) m sp k' :
    hist any_op st -> In m (st_models st) -> std_problem m (st_k st) = Ok (sp, k') -> neqb (@nm1 T _) n0 = false ->
    forall v i, In (v, i) (sp_var2index sp) -> nid v < st_k st ->
      (forall r c, In (r, c) (sp_acons sp) -> In (r, i) (positions (lin_rows sp)) <-> occurs v (clhs c) \/ occurs v (crhs c)) /\
      (forall r c, In (r, c) (sp_jcons sp) -> In (r, i) (positions (fun_rows sp)) <-> occurs v (clhs c) \/ occurs v (crhs c)).
  Proof.
    intros Hh Hm E Hnm v i Hv Hk. destruct (sparse_all st m sp k' Hh Hm E Hnm) as (cs & Q & Ea & Ej & _ & _ & A & J & _). rewrite Ea, Ej.
    split; intros r c Hc; apply enum_nth in Hc.
    - rewrite (A r v i Hv). apply (proj1 (qp_row_a _ _ _ _ _ _ Q r c Hc) v Hk).
    - rewrite (J r v i Hv). apply (proj1 (qp_row_j _ _ _ _ _ _ Q r c Hc) v Hk).
  Qed.

  (** The other columns, those of the slacks: the row of a constraint has an entry in one of
      them exactly when the constraint is an inequality; no two rows share one, no row has
      two. *)
  Definition slack_col (st : mstate T) (sp : std_prob T) (i : nat) : Prop := exists v, In (v, i) (sp_var2index sp) /\ st_k st <= nid v.
  Theorem C62_slacks (st : mstate T) m sp k' :
    hist any_op st -> In m (st_models st) -> std_problem m (st_k st) = Ok (sp, k') -> neqb (@nm1 T _) n0 = false ->
    (forall r c, In (r, c) (sp_acons sp) -> (exists i, slack_col st sp i /\ In (r, i) (positions (lin_rows sp))) <-> ckd c <> Equal) /\
    (forall r c, In (r, c) (sp_jcons sp) -> (exists i, slack_col st sp i /\ In (r, i) (positions (fun_rows sp))) <-> ckd c <> Equal) /\
    (forall r i r' i', slack_col st sp i -> slack_col st sp i' ->
       (In (r, i) (positions (lin_rows sp)) -> In (r', i') (positions (lin_rows sp)) -> (i = i' <-> r = r')) /\
       (In (r, i) (positions (fun_rows sp)) -> In (r', i') (positions (fun_rows sp)) -> (i = i' <-> r = r')) /\
       (In (r, i) (positions (lin_rows sp)) -> In (r', i') (positions (fun_rows sp)) -> i <> i')).
  Proof.
    intros Hh Hm E Hnm. destruct (sparse_all st m sp k' Hh Hm E Hnm) as (cs & Q & Ea & Ej & _ & _ & A & J & Hix). rewrite Ea, Ej.
    destruct (C24_bijection st m sp k' Hh Hm E Hnm) as (Ei & Hinj & _). 
    assert (Hcol : forall v i j, In (v, i) (sp_var2index sp) -> In (v, j) (sp_var2index sp) -> i = j) by (intros v i j H1 H2; apply (Hinj v v i j H1 H2 eq_refl)).
    assert (Hvar : forall v w i, In (v, i) (sp_var2index sp) -> In (w, i) (sp_var2index sp) -> v = w).
    { intros v w i H1 H2. apply In_nth_error in H1 as [n1 N1]. apply In_nth_error in H2 as [n2 N2].
      assert (Eq : n1 = n2). { apply (f_equal (@nth_error nat)) in Ei. assert (G1 := f_equal (fun f => f n1) Ei). assert (G2 := f_equal (fun f => f n2) Ei). cbn in G1, G2.
        rewrite nth_error_map, N1 in G1. rewrite nth_error_map, N2 in G2. cbn in G1, G2. symmetry in G1, G2.
        assert (n1 < m_nx (base_of (sp_prob sp))) by (rewrite <- (seq_length (m_nx (base_of (sp_prob sp))) 0); apply nth_error_Some; congruence).
        assert (n2 < m_nx (base_of (sp_prob sp))) by (rewrite <- (seq_length (m_nx (base_of (sp_prob sp))) 0); apply nth_error_Some; congruence).
        apply (nth_error_nth _ _ 0) in G1, G2. rewrite seq_nth in G1, G2 by assumption. lia. }
      congruence. }
    split; [|split].
    - intros r c Hc. apply enum_nth in Hc. rewrite <- (proj2 (qp_row_a _ _ _ _ _ _ Q r c Hc)). split.
      + intros (i & (v & Hv & Hk) & Hin). exists v. split; [exact Hk|]. apply (A r v i Hv), Hin.
      + intros (v & Hk & Hin). destruct (Hix r v (or_introl Hin)) as [i Hi]. exists i. split; [exists v; auto|]. apply (A r v i Hi), Hin.
    - intros r c Hc. apply enum_nth in Hc. rewrite <- (proj2 (qp_row_j _ _ _ _ _ _ Q r c Hc)). split.
      + intros (i & (v & Hv & Hk) & Hin). exists v. split; [exact Hk|]. apply (J r v i Hv), Hin.
      + intros (v & Hk & Hin). destruct (Hix r v (or_intror Hin)) as [i Hi]. exists i. split; [exists v; auto|]. apply (J r v i Hi), Hin.
    - intros r i r' i' (v & Hv & Hk) (w & Hw & Hk'). split; [|split].
      + intros H1 H2. apply (A r v i Hv) in H1. apply (A r' w i' Hw) in H2. rewrite <- (qp_slack_a _ _ _ _ _ _ Q r v r' w H1 H2 Hk Hk').
        split; intros; subst; eauto.
      + intros H1 H2. apply (J r v i Hv) in H1. apply (J r' w i' Hw) in H2. rewrite <- (qp_slack_j _ _ _ _ _ _ Q r v r' w H1 H2 Hk Hk').
        split; intros; subst; eauto.
      + intros H1 H2 ->. apply (A r v i' Hv) in H1. apply (J r' w i' Hw) in H2. apply (qp_slack _ _ _ _ _ _ Q r v r' w H1 H2 Hk Hk'). eauto.
  Qed.
End Sparse.

(** In exact arithmetic, the model [em] of ModelExample.v meets the hypotheses. *)
Example C62_example : exists sp k', @hist X _ any_op est /\ In em (st_models est) /\ @std_problem X _ ord_id em (st_k est) = Ok (sp, k') /\
  neqb (@nm1 X _) n0 = false /\ NoDup (positions (lin_rows sp)) /\ NoDup (positions (fun_rows sp)).
Proof.
  destruct C23_example as (sp & k' & Hh & Hm & E). exists sp, k'. do 3 (split; [assumption|]). split; [exact x_nm1|].
  exact (@C62_unique X _ ord_id est em sp k' Hh Hm E x_nm1).
Qed.
