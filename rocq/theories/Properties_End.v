(** Property C57: a model solved with Clp or Cbc, from the call to the values it records. *)
From Verif Require Import Base Num Node Constraint NodeInd Matrix Problem ModelStd Model MatSpec MatrixProofs SumDupProofs ProblemProofs SolverBase Text LpFile SolFile CmdSolver
     ModelApi ExprSpec Api ApiProofs PartsProofs BuildProofs BuildMain ModelSpec PointProofs EvalRun HistProofs StdMain Properties_Std SolveProofs Properties_Solve
     LpSpec LpProofs Properties_Lp SolSpec Properties_Sol Properties_Cmd.
From Coq Require Import Floats.SpecFloat.
Local Open Scope string_scope.
Local Open Scope list_scope.

(** The command-line solver [t] with parameters [ps], in the environment [o] and with the
    files [f], as a solver of problems. *)
Definition cmd_solver {T} `{Num T} `{NumText T} (t : tool) (ps : params T) (o : osys) (f : files) : problem T -> res answer :=
  fun p => match snd (cmd_solve t ps p o f) with Returns r => Ok r | Unwinds e => Panic e end.
(** Its parameters after some calls of [set_param]. *)
Definition parameters {T} (t : tool) (calls : list (string * param T)) : params T :=
  after (match t with Clp => clp_new | Cbc => cbc_new end) calls.
Definition is_cbc (t : tool) : bool := match t with Cbc => true | Clp => false end.
(** The linear problem in a problem, as far as the tool solves its class. *)
Definition linear_part {T} (t : tool) (p : problem T) (q : milp T) : Prop :=
  (exists l, p = PLp l /\ lp_milp l = q) \/ t = Cbc /\ p = PMilp q.

Section End.
  Context {T : Type} `{Num T} `{NumText T}.
  Lemma linear_sizes `{HashOrd} t (st : mstate T) m sp k' q :
    hist any_op st -> In m (st_models st) -> std_problem m (st_k st) = Ok (sp, k') -> linear_part t (sp_prob sp) q ->
    base_of (sp_prob sp) = milp_base q /\ milp_nx q = length (sp_var2index sp) /\ milp_na q = length (m_b (base_of (sp_prob sp))) /\
    m_nx (base_of (sp_prob sp)) = milp_nx q /\ b_f (m_bufs (base_of (sp_prob sp))) = [].
  Proof.
    intros Hh Hm E Hq.
    destruct (hist_run st m sp k' Hh Hm E) as (S & obj & S' & eo & ke & ko & ps & ar & jr & uc & lc & Hi & Mi & HW & Em & R & Esp & _).
    destruct (C29_well_formed st m _ k' Hh Hm Em) as (sp' & E' & WF). rewrite E in E'. injection E' as <-.
    assert (Eb : base_of (sp_prob sp) = milp_base q) by (destruct Hq as [(l & -> & <-)|[_ ->]]; reflexivity).
    assert (Ec : length (milp_c q) = length (sp_var2index sp)).
    { pose proof (wf_c _ WF) as Hc. destruct Hq as [(l & Eq & <-)|[_ Eq]]; rewrite Eq in Hc; exact Hc. }
    split; [exact Eb|]. split; [exact Ec|]. split; [rewrite Eb; reflexivity|]. split.
    - unfold m_nx, milp_nx. rewrite Ec. destruct (wf_a _ WF) as (_ & Hc & _). exact Hc.
    - rewrite Esp in *. cbn [sp_prob] in *. unfold p_problem in *. destruct (p_linear obj (cat ps)), (no_int k' obj (cat ps));
        try reflexivity; destruct Hq as [(l & Eq & _)|[_ Eq]]; discriminate Eq.
  Qed.

  (** ** C57 What a solved model records is what the solution file says
      The command was run on a file with the text of the standard problem of the model, and the
      value recorded for each variable is the one its output lists for the column with
      the variable's index. *)
  Theorem C57_solution `{HashOrd} t calls o f (st : mstate T) m m' k' :
    hist any_op st -> In m (st_models st) -> neqb (@nm1 T _) n0 = false ->
    solve (cmd_solver t (parameters t calls) o f) m (st_k st) = (m', Returned (inl tt), k') ->
    exists sp q z1 z2 text lvl f2,
      std_problem m (st_k st) = Ok (sp, k') /\ linear_part t (sp_prob sp) q /\
      os_tmp1 o = Some z1 /\ os_tmp2 o = Some z2 /\ write_to_lp_file q = Ok text /\
      get_param (parameters t calls) "logLevel" = Some (IntParam lvl) /\
      os_run o (program t) (arguments t z1 z2 lvl) (put f (input_name t z1) text) = (f2, true) /\
      (forall v, model_var m v -> exists i, In (v, i) (sp_var2index sp)) /\
      match f2 (output_name t z2) with
      | None => md_status m' = Some Error /\ forall v i, In (v, i) (sp_var2index sp) -> hget ptr_eq v (md_primals m') = Some n0
      | Some file =>
        md_status m' = Some (header (is_cbc t) (part1 file)) /\
        (header (is_cbc t) (part1 file) = Solved ->
           exists rs, Forall2 says (body (is_cbc t) file) rs /\ Forall (in_range (milp_nx q) (milp_na q)) rs /\
             forall v i, In (v, i) (sp_var2index sp) -> hget ptr_eq v (md_primals m') = Some (final (value_of i) rs)) /\
        (header (is_cbc t) (part1 file) <> Solved ->
           forall v i, In (v, i) (sp_var2index sp) -> hget ptr_eq v (md_primals m') = Some n0)
      end.
  Proof.
    intros Hh Hm Hnm E.
    destruct (C33_primals st _ m m' k' Hh Hm E) as (sp & stat & s & Esp & Es & Hst & _ & _ & Hv).
    unfold cmd_solver in Es. destruct (cmd_solve t (parameters t calls) (sp_prob sp) o f) as [f' [r|e]] eqn:Ec; cbn [snd] in Es; [|discriminate].
    injection Es as ->.
    destruct (proj1 (C48_result t calls _ (sp_prob sp) o f (stat, s) eq_refl) (ex_intro _ f' Ec))
      as (q & z1 & z2 & text & lvl & f2 & Hq & E1 & E2 & _ & Ew & _ & Hl & Er & Hread).
    exists sp, q, z1, z2, text, lvl, f2. do 7 (split; [assumption|]).
    destruct (linear_sizes t st m sp k' q Hh Hm Esp Hq) as (Eb & Enx & Ena & _).
    destruct (C24_bijection st m sp k' Hh Hm Esp Hnm) as (Hidx & _ & Hin & _).
    split; [intros v Hmv; apply Hin in Hmv; apply in_map_iff in Hmv as ([w i] & <- & Hw); eauto|].
    assert (Hlt : forall v i, In (v, i) (sp_var2index sp) -> i < milp_nx q).
    { intros v i Hi. assert (Hs : In i (map snd (sp_var2index sp))) by (apply in_map_iff; exists (v, i); auto).
      rewrite Hidx in Hs. apply in_seq in Hs. assert (L : length (map snd (sp_var2index sp)) = m_nx (base_of (sp_prob sp))) by (rewrite Hidx; apply seq_length).
      rewrite map_length in L. lia. }
    assert (Hzero : s = zeros (milp_nx q) (milp_na q) -> forall v i, In (v, i) (sp_var2index sp) -> hget ptr_eq v (md_primals m') = Some n0).
    { intros -> v i Hi. destruct (Hv v i Hi) as (x & Hx & _ & Hg). rewrite Hg. cbn [zeros s_x] in Hx. rewrite <- Hx. apply nth_error_repeat. apply (Hlt v i Hi). }
    change (match t with Cbc => true | Clp => false end) with (is_cbc t) in Hread.
    destruct (f2 (output_name t z2)) as [file|].
    - assert (Hst' : stat = header (is_cbc t) (part1 file)).
      { destruct (utf8_valid (part1 file)) eqn:Eu.
        - assert (D : header (is_cbc t) (part1 file) = Solved \/ header (is_cbc t) (part1 file) <> Solved) by (destruct (header _ _); auto; right; discriminate).
          destruct D as [D|D]; [|rewrite (C45_not_solved _ _ _ _ Eu D) in Hread; injection Hread as <- _; reflexivity].
          destruct stat; [symmetry; exact D| | |]; exfalso; revert Hread; rewrite read_cases, Eu, D; cbn [negb];
            destruct (utf8_valid (part2 (is_cbc t) file)); cbn [negb]; try discriminate;
            destruct (outcome_exists (milp_nx q) (milp_na q) (body (is_cbc t) file)) as [oc Ho]; rewrite (sol_lines_outcome _ _ _ _ Ho);
            destruct oc as [[rs|]|]; discriminate.
        - rewrite (proj2 (C45_error _ _ _ _) (or_introl Eu)) in Hread. discriminate. }
      rewrite <- Hst'. split; [exact Hst|]. split.
      + intros ->. apply C45_solved in Hread as (_ & _ & _ & rs & Hrs & Hran & ->). exists rs. do 2 (split; [assumption|]).
        intros v i Hi. destruct (Hv v i Hi) as (x & Hx & _ & Hg). rewrite Hg, <- Hx. unfold listed. cbn [s_x].
        rewrite nth_error_map, nth_error_nth' with (d := 0) by (rewrite seq_length; apply (Hlt v i Hi)). rewrite seq_nth by apply (Hlt v i Hi). reflexivity.
      + intros Hns. apply Hzero. destruct (utf8_valid (part1 file)) eqn:Eu.
        * rewrite Hst' in Hns. rewrite (C45_not_solved _ _ _ _ Eu Hns) in Hread. injection Hread as _ <-. reflexivity.
        * rewrite (proj2 (C45_error _ _ _ _) (or_introl Eu)) in Hread. discriminate.
    - rewrite C45_missing_file in Hread. injection Hread as <- <-. split; [exact Hst|]. apply Hzero. reflexivity.
  Qed.
End End.

Section Float.
  Context (fsin fcos : F -> F).
  Local Instance num_end : Num F := NumF fsin fcos.
  (** The linear problem of a model is written without a fault: every size and index fits. *)
  Lemma linear_made `{HashOrd} t (st : mstate F) m sp k' q :
    hist any_op st -> In m (st_models st) -> std_problem m (st_k st) = Ok (sp, k') -> linear_part t (sp_prob sp) q ->
    let b := milp_base q in
    milp_new (milp_c q) (m_a b) (m_b b) (m_l b) (m_u b) (m_p b) (m_x0 b) = Ok q /\ coo_built (m_a b) /\
    (forall i j v, In (i, j, v) (entries (m_a b)) -> i < coo_rows (m_a b) /\ j < coo_cols (m_a b)) /\ length (milp_c q) = coo_cols (m_a b).
  Proof.
    intros Hh Hm E Hq b. destruct (linear_sizes t st m sp k' q Hh Hm E Hq) as (Eb & Enx & Ena & Emx & _).
    destruct (hist_run st m sp k' Hh Hm E) as (S & obj & S' & eo & ke & ko & ps & ar & jr & uc & lc & Hi & Mi & HW & Em & R & Esp & _).
    destruct (C29_well_formed st m _ k' Hh Hm Em) as (sp' & E' & WF). rewrite E in E'. injection E' as <-.
    destruct WF as [Wa _ _ _ _ _ Wl Wu Wp _ _ _ _ _ _]. rewrite Eb in Wa, Wl, Wu, Wp. fold b in Wa, Wl, Wu, Wp.
    destruct Wa as (A1 & A2 & A3 & A4 & A5 & A6).
    split; [|split; [|split]].
    - unfold milp_new. rewrite minlp_new_ok; [|constructor|].
      + cbn [rbind]. rewrite Esp in Hq. cbn [sp_prob] in Hq. unfold p_problem in Hq. subst b.
        destruct (p_linear obj (cat ps)), (no_int k' obj (cat ps));
          (destruct Hq as [(l & Eq & Eq')|[_ Eq]]; [|]); try discriminate Eq; injection Eq as <-; try subst q; try (cbn [lp_milp] in Eq'; subst q); reflexivity.
      + unfold dims_ok. cbn. rewrite A1, A2, Wl, Wu, Wp. repeat split; auto; contradiction.
    - destruct (m_a b) as [r c ri ci d] eqn:Ea. cbn in A1, A2, A3, A4. apply (built_new r c ri ci d). unfold coo_new, rassert.
      rewrite A3, A4, Nat.eqb_refl. reflexivity.
    - intros i j v Hin. rewrite A1, A2. rewrite Forall_forall in A5, A6. unfold entries in Hin. apply in_combine_l in Hin.
      split; [apply A5; eapply in_combine_l|apply A6; eapply in_combine_r]; exact Hin.
    - unfold milp_nx in Enx. rewrite A2. exact Enx.
  Qed.
  (** The hypotheses of C43 (which says what the text means) are met, as far as sizes go. *)
  Theorem C57_writes `{HashOrd} t (st : mstate F) m sp k' q :
    hist any_op st -> In m (st_models st) -> std_problem m (st_k st) = Ok (sp, k') -> linear_part t (sp_prob sp) q ->
    (exists text, write_to_lp_file q = Ok text) /\
    exists c a b l u ints x0, milp_new c a b l u ints x0 = Ok q /\
      (Forall finite c -> (forall i j, finite (coefficient fsin fcos a i j)) ->
       Forall (fun x => ~ is_nan x) b -> Forall (fun x => ~ is_nan x) l -> Forall (fun x => ~ is_nan x) u -> lp_sane fsin fcos c a b l u).
  Proof.
    intros Hh Hm E Hq. destruct (linear_made t st m sp k' q Hh Hm E Hq) as (H1 & H2 & H3 & H4).
    split; [exact (C43_returns fsin fcos _ _ _ _ _ _ _ _ H1 H2 H3 H4)|].
    do 7 eexists. split; [exact H1|]. intros Fc Fa Nb Nl Nu. split; [exact H2|]. split; [exact H3|]. auto 10.
  Qed.

  (** ** C57 When solving a model with Clp or Cbc unwinds
      Exactly when the model has no standard problem, or the output of the command lists a column or
      a row that the problem does not have. *)
  Theorem C57_unwinds `{HashOrd} t calls o f (st : mstate F) m e :
    hist any_op st -> In m (st_models st) ->
    ((exists m' k', solve (cmd_solver t (parameters t calls) o f) m (st_k st) = (m', Unwound e, k')) <->
     (std_problem m (st_k st) = Panic e \/
      e = PIndex /\
      exists sp k' q z1 z2 text lvl f2 file,
        std_problem m (st_k st) = Ok (sp, k') /\ linear_part t (sp_prob sp) q /\
        os_tmp1 o = Some z1 /\ os_tmp2 o = Some z2 /\ os_create o = true /\ write_to_lp_file q = Ok text /\
        (forall n, os_disk o = Some n -> String.length text <= n) /\
        get_param (parameters t calls) "logLevel" = Some (IntParam lvl) /\
        os_run o (program t) (arguments t z1 z2 lvl) (put f (input_name t z1) text) = (f2, true) /\
        f2 (output_name t z2) = Some file /\
        utf8_valid (part1 file) = true /\ header (is_cbc t) (part1 file) = Solved /\ utf8_valid (part2 (is_cbc t) file) = true /\
        exists pre rs l r post, body (is_cbc t) file = pre ++ l :: post /\ Forall2 says pre rs /\
          Forall (in_range (milp_nx q) (milp_na q)) rs /\ says l r /\ ~ in_range (milp_nx q) (milp_na q) r)).
  Proof.
    intros Hh Hm. split.
    - intros (m' & k' & E). pose proof E as E0. unfold solve in E. rewrite std_problem_reset in E. destruct (std_problem m (st_k st)) as [[sp k1]|p] eqn:Esp.
      2:{ injection E as _ -> _. left. reflexivity. }
      right. destruct (cmd_solver t (parameters t calls) o f (sp_prob sp)) as [[[stat s]|er]|p] eqn:Es; [|discriminate|].
      + destruct (record_solution k1 sp stat s (reset m)) as [m2 [p|]] eqn:Er; [|discriminate]. exfalso.
        unfold cmd_solver in Es. destruct (cmd_solve t (parameters t calls) (sp_prob sp) o f) as [f' [r|x]] eqn:Ec; cbn [snd] in Es; [|discriminate]. injection Es as ->.
        destruct (proj1 (C48_result t calls _ (sp_prob sp) o f (stat, s) eq_refl) (ex_intro _ f' Ec))
          as (q & z1 & z2 & text & lvl & f2 & Hq & _ & _ & _ & _ & _ & _ & _ & Hread).
        destruct (linear_sizes t st m sp k1 q Hh Hm Esp Hq) as (Eb & Enx & Ena & Emx & Ef).
        assert (L : length (s_x s) = milp_nx q /\ length (s_lam s) = milp_na q /\ s_nu s = [] /\ length (s_mu s) = milp_nx q /\ length (s_pi s) = milp_nx q).
        { destruct (f2 (output_name t z2)) as [file|]; [|rewrite C45_missing_file in Hread; injection Hread as _ <-; cbn; rewrite !repeat_length; auto].
          destruct (utf8_valid (part1 file)) eqn:Eu; [|rewrite (proj2 (C45_error _ _ _ _) (or_introl Eu)) in Hread; discriminate].
          destruct stat.
          { apply C45_solved in Hread as (_ & _ & _ & rs & _ & _ & ->). destruct (C45_items (milp_nx q) (milp_na q) rs) as (_ & _ & _ & _ & L1 & L2 & L3 & L4 & L5). auto. }
          all: assert (D : header (is_cbc t) (part1 file) <> Solved).
          1,3,5: intros D; revert Hread; rewrite read_cases; change (match t with Cbc => true | Clp => false end) with (is_cbc t); rewrite Eu, D; cbn [negb];
            destruct (utf8_valid (part2 (is_cbc t) file)); cbn [negb]; try discriminate;
            destruct (outcome_exists (milp_nx q) (milp_na q) (body (is_cbc t) file)) as [oc Ho]; rewrite (sol_lines_outcome _ _ _ _ Ho);
            destruct oc as [[rs|]|]; discriminate.
          all: change (match t with Cbc => true | Clp => false end) with (is_cbc t) in Hread; rewrite (C45_not_solved _ _ _ _ Eu D) in Hread; injection Hread as _ <-; cbn; rewrite !repeat_length; auto. }
        destruct L as (L1 & L2 & L3 & L4 & L5).
        assert (Es' : cmd_solver t (parameters t calls) o f (sp_prob sp) = Ok (inl (stat, s))) by (unfold cmd_solver; rewrite Ec; reflexivity).
        destruct (C33_returns st (cmd_solver t (parameters t calls) o f) m sp k1 stat s Hh Hm Esp Es') as [m3 E3].
        * rewrite Emx, L1. lia.
        * rewrite <- Ena, L2. lia.
        * rewrite Ef. cbn. lia.
        * rewrite Emx, L4. lia.
        * rewrite Emx, L5. lia.
        * rewrite E3 in E0. discriminate E0.
      + injection E as _ -> _. unfold cmd_solver in Es. destruct (cmd_solve t (parameters t calls) (sp_prob sp) o f) as [f' [r|x]] eqn:Ec; cbn [snd] in Es; [discriminate|]. injection Es as ->.
        destruct (proj1 (C48_unwinds t calls _ (sp_prob sp) o f e eq_refl) (ex_intro _ f' Ec)) as (q & z1 & z2 & Hq & E1 & E2 & Ecr & Hw).
        destruct Hw as [Hw|(text & lvl & f2 & Ew & Hd & Hl & Er & Hread)].
        { destruct (C57_writes t st m sp k1 q Hh Hm Esp Hq) as [[text Ew] _]. congruence. }
        destruct (f2 (output_name t z2)) as [file|] eqn:Eo; [|rewrite C45_missing_file in Hread; discriminate].
        apply C46_panic in Hread as (-> & Hrest). split; [reflexivity|]. exists sp, k1, q, z1, z2, text, lvl, f2, file.
        repeat (split; [first [reflexivity|assumption|apply Hrest]|]). apply Hrest.
    - intros [E|(-> & sp & k' & q & z1 & z2 & text & lvl & f2 & file & Esp & Hq & E1 & E2 & Ecr & Ew & Hd & Hl & Er & Eo & Hrest)].
      + exists (reset m), (st_k st). unfold solve. rewrite std_problem_reset, E. reflexivity.
      + assert (Hun : exists f', cmd_solve t (parameters t calls) (sp_prob sp) o f = (f', Unwinds PIndex)).
        { apply (C48_unwinds t calls _ (sp_prob sp) o f PIndex eq_refl). exists q, z1, z2. do 4 (split; [assumption|]). right.
          exists text, lvl, f2. do 4 (split; [assumption|]). rewrite Eo. apply C46_panic. split; [reflexivity|]. exact Hrest. }
        destruct Hun as [f' Ec]. exists (reset m), k'. unfold solve. rewrite std_problem_reset, Esp. unfold cmd_solver. rewrite Ec. reflexivity.
  Qed.
End Float.

(** ** C57 The multipliers, in exact arithmetic (with any way of printing and reading numbers) *)
Theorem C57_duals `{NumText X} `{HashOrd} t calls o f (st : mstate X) m m' k' :
  hist any_op st -> In m (st_models st) -> NoDup (map cid (md_constraints m)) ->
  solve (cmd_solver t (parameters t calls) o f) m (st_k st) = (m', Returned (inl tt), k') -> md_status m' = Some Solved ->
  exists sp obj cs slots q z1 z2 text lvl f2 file rs,
    std_problem m (st_k st) = Ok (sp, k') /\ model_std m (st_k st) = Ok ((obj, cs), k') /\ placed (st_k st) m cs sp slots /\
    linear_part t (sp_prob sp) q /\
    os_tmp1 o = Some z1 /\ os_tmp2 o = Some z2 /\ write_to_lp_file q = Ok text /\
    get_param (parameters t calls) "logLevel" = Some (IntParam lvl) /\
    os_run o (program t) (arguments t z1 z2 lvl) (put f (input_name t z1) text) = (f2, true) /\
    f2 (output_name t z2) = Some file /\ Forall2 says (body (is_cbc t) file) rs /\ Forall (in_range (milp_nx q) (milp_na q)) rs /\
    Forall2 (fun c sl => dual_of sp (listed (milp_nx q) (milp_na q) rs) c sl (hget constr_eqb c (md_duals m'))) (md_constraints m) slots /\
    (forall c, In c (map fst (md_duals m')) -> In c (md_constraints m)).
Proof.
  intros Hh Hm Hnd E Hst.
  destruct (C34_duals st _ m m' k' Hh Hm E Hnd) as (sp & stat & s & obj & cs & slots & Esp & Es & Em & Hp & Hd & Hk).
  destruct (C33_primals st _ m m' k' Hh Hm E) as (sp' & stat' & s' & Esp' & Es' & Hst' & _).
  rewrite Esp in Esp'. injection Esp' as <-. rewrite Es in Es'. injection Es' as <- <-. rewrite Hst in Hst'. injection Hst' as <-.
  unfold cmd_solver in Es. destruct (cmd_solve t (parameters t calls) (sp_prob sp) o f) as [f' [r|e]] eqn:Ec; cbn [snd] in Es; [|discriminate].
  injection Es as ->.
  destruct (proj1 (C48_result t calls _ (sp_prob sp) o f (Solved, s) eq_refl) (ex_intro _ f' Ec))
    as (q & z1 & z2 & text & lvl & f2 & Hq & E1 & E2 & _ & Ew & _ & Hl & Er & Hread).
  destruct (f2 (output_name t z2)) as [file|] eqn:Eo; [|rewrite C45_missing_file in Hread; discriminate].
  apply C45_solved in Hread as (_ & _ & _ & rs & Hrs & Hran & ->).
  exists sp, obj, cs, slots, q, z1, z2, text, lvl, f2, file, rs.
  repeat (split; [assumption|]). assumption.
Qed.

(** ** A model solved with Clp
      minimise x + 2 y   subject to   x + y == 4,  x <= 3,  y >= 0
    The standard problem has columns x_0 = x, x_1 = y and row c_0. *)
#[local] Existing Instance NumF0.
Definition c57_prog : list (call F) :=
  [CExpr (OVar "x" VarContinuous); CExpr (OVar "y" VarContinuous); CExpr (OMulNS 1 (flit 2)); CExpr (OAddNN 0 2); CExpr (OAddNN 0 1);
   CCmpNS 4 Equal (flit 4) "sum"; CCmpNS 0 LessEqual (flit 3) "cap"; CCmpNS 1 GreaterEqual (flit 0) ""; CNewModel;
   CSetObj 0 Minimise 3; CAddConstrs 0 [0; 1; 2]].
Definition c57_text : string :=
  ("optimal" ++ nls ++ "Objective value 5" ++ nls ++ "0 c_0 4 2" ++ nls ++ "0 x_0 3 -1" ++ nls ++ "1 x_1 1 0" ++ nls)%string.
Example C57_example :
  match @mrun F NumF0 ord_id c57_prog mstart with
  | Some st =>
    match st_models st with
    | [m] =>
      let '(m', oc, _) := @solve F NumF0 ord_id (cmd_solver Clp (parameters Clp [("logLevel", IntParam 0)]) (c48_sys c57_text) c48_files) m (st_k st) in
      oc = Returned (inl tt) /\ md_status m' = Some Solved /\
      map (fun vx => (name (fst vx), snd vx)) (md_primals m') = [("x", flit 3); ("y", flit 1)] /\
      map (fun cx => (clabel (fst cx), snd cx)) (md_duals m') = [("sum", flit 2); ("cap", flit 1); ("", flit 0)]
    | _ => False
    end
  | None => False
  end.
Proof. vm_compute. repeat split. Qed.

(** *** A model whose file is not an LP file
      minimise x   subject to   x - x == 0
    is accepted, but its row has no term left. *)
Definition c57_zero : list (call F) :=
  [CExpr (OVar "x" VarContinuous); CExpr (OSubNN 0 0); CCmpNS 1 Equal (flit 0) ""; CNewModel; CSetObj 0 Minimise 0; CAddConstrs 0 [0]].
Theorem C57_zero_row_refuted : exists (st : mstate F) m sp k' q text,
  @hist F NumF0 any_op st /\ In m (st_models st) /\ @std_problem F NumF0 ord_id m (st_k st) = Ok (sp, k') /\ linear_part Clp (sp_prob sp) q /\
  write_to_lp_file q = Ok text /\ @read_lp F _ _ (words text) = None.
Proof.
  assert (C : match @mrun F NumF0 ord_id c57_zero mstart with
              | Some st => match st_models st with
                | [m] => match @std_problem F NumF0 ord_id m (st_k st) with
                  | Ok (sp, _) => match sp_prob sp with
                    | PLp l => match write_to_lp_file (lp_milp l) with Ok text => match @read_lp F _ _ (words text) with None => true | Some _ => false end | _ => false end
                    | _ => false end
                  | _ => false end
                | _ => false end
              | None => false end = true) by (vm_compute; reflexivity).
  destruct (@mrun F NumF0 ord_id c57_zero mstart) as [st|] eqn:E; [|discriminate].
  destruct (st_models st) as [|m [|]] eqn:Em; try discriminate.
  destruct (@std_problem F NumF0 ord_id m (st_k st)) as [[sp k']|] eqn:Es; [|discriminate].
  destruct (sp_prob sp) as [|? | l|] eqn:Ep; try discriminate.
  destruct (write_to_lp_file (lp_milp l)) as [text|] eqn:Ew; [|discriminate].
  destruct (@read_lp F _ _ (words text)) eqn:Er; [discriminate|].
  exists st, m, sp, k', (lp_milp l), text.
  split; [eapply (@mrun_hist F NumF0 ord_id c57_zero mstart); [constructor|exact E]|].
  split; [rewrite Em; left; reflexivity|]. split; [exact Es|]. split; [left; exists l; auto|]. split; [exact Ew|exact Er].
Qed.
