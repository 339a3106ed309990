(** Properties C33-C36: what [solve] leaves in the model. *)
From Verif Require Import Base Num Node NodeInd NodeDiff NodeStd Constraint Matrix Problem ModelStd Model
     ExprSpec World MapProofs Properties_Diff StdPropProofs EvalProofs DiffSpec DiffProofs GradProofs ConstrSpec ConstrProofs PartsProofs
     MatSpec ProblemProofs BuildProofs BuildMain ModelSpec PointProofs EvalRun SlotProofs
     Api ApiProofs ModelApi StdMain HistProofs ModelExample Properties_Constr Properties_Std Properties_Feas SolveProofs.
From Coq Require Import Reals Lra.

Lemma hist_v2i_nodup {T} `{Num T} `{HashOrd} (st : mstate T) m sp k' :
  hist any_op st -> In m (st_models st) -> std_problem m (st_k st) = Ok (sp, k') ->
  nodupk ptr_eq (map fst (sp_var2index sp)).
Proof.
  intros Hh Hm E.
  destruct (hist_run st m sp k' Hh Hm E) as (S & obj & S' & eo & ke & ko & ps & ar & jr & uc & lc & Hi & Mi & HW & Em & R & -> & _).
  cbn [sp_var2index]. rewrite enum_keys. exact (run_vars_nodup _ _ _ _ _ _ _ _ _ _ _ _ _ R).
Qed.

(** ** C33 Primal results *)
Theorem C33_primals {T} `{Num T} `{HashOrd} (st : mstate T) solver m m' k' :
  hist any_op st -> In m (st_models st) -> solve solver m (st_k st) = (m', Returned (inl tt), k') ->
  exists sp stat s,
    std_problem m (st_k st) = Ok (sp, k') /\ solver (sp_prob sp) = Ok (inl (stat, s)) /\
    md_status m' = Some stat /\
    Permutation (map fst (md_primals m')) (map fst (sp_var2index sp)) /\
    nodupk ptr_eq (map fst (md_primals m')) /\
    forall v i, In (v, i) (sp_var2index sp) ->
      exists x, nth_error (s_x s) i = Some x /\ In (v, x) (md_primals m') /\ hget ptr_eq v (md_primals m') = Some x.
Proof.
  intros Hh Hm E. destruct (solve_ok _ _ _ _ _ E) as (sp & stat & s & Esp & Es & Er).
  pose proof (hist_v2i_nodup st m sp k' Hh Hm Esp) as Hn.
  pose proof (record_spec _ _ _ _ _ _ Er Hn) as [R1 R2 R3 R4 R5 R6 R7 R8].
  assert (Hperm : Permutation (map fst (md_primals m')) (map fst (sp_var2index sp))).
  { rewrite R3, map_map. cbn [fst]. apply Permutation_map, ord_perm. }
  assert (Hn' : nodupk ptr_eq (map fst (md_primals m'))).
  { eapply pnodup_perm; [apply Permutation_sym; exact Hperm|exact Hn]. }
  exists sp, stat, s. repeat (split; [assumption|]). intros v i Hv.
  rewrite Forall_forall in R4. specialize (R4 _ Hv). cbn [snd] in R4.
  destruct (nth_error (s_x s) i) as [x|] eqn:Ex; [|apply nth_error_None in Ex; lia]. exists x. split; [reflexivity|].
  assert (Hin : In (v, x) (md_primals m')).
  { rewrite R3. apply in_map_iff. exists (v, i). cbn [fst snd]. rewrite (nth_error_nth _ _ _ Ex). split; [reflexivity|].
    eapply Permutation_in; [apply Permutation_sym, ord_perm|exact Hv]. }
  split; [exact Hin|]. apply pget_in; assumption.
Qed.

(** A solution with enough components is recorded without panic. *)
Theorem C33_returns {T} `{Num T} `{HashOrd} (st : mstate T) solver m sp k' stat s :
  hist any_op st -> In m (st_models st) -> std_problem m (st_k st) = Ok (sp, k') ->
  solver (sp_prob sp) = Ok (inl (stat, s)) ->
  m_nx (base_of (sp_prob sp)) <= length (s_x s) ->
  length (m_b (base_of (sp_prob sp))) <= length (s_lam s) ->
  length (b_f (m_bufs (base_of (sp_prob sp)))) <= length (s_nu s) ->
  m_nx (base_of (sp_prob sp)) <= length (s_mu s) ->
  m_nx (base_of (sp_prob sp)) <= length (s_pi s) ->
  exists m', solve solver m (st_k st) = (m', Returned (inl tt), k').
Proof.
  intros Hh Hm E Es Hx Hl Hnu Hmu Hpi.
  assert (Hlen : length (sp_var2index sp) = m_nx (base_of (sp_prob sp)) /\
                 map snd (sp_var2index sp) = seq 0 (m_nx (base_of (sp_prob sp)))).
  { destruct (hist_run st m sp k' Hh Hm E) as (S & obj & S' & eo & ke & ko & ps & ar & jr & uc & lc & Hi & Mi & HW & Em & R & -> & _).
    cbn [sp_var2index sp_prob]. destruct (base_shape k' (md_init m) obj (cat ps)) as (_ & _ & _ & _ & _ & _ & ->).
    rewrite v2i_len, v2i_snd. auto. }
  destruct Hlen as [Hlen Hsnd].
  destruct (hist_run st m sp k' Hh Hm E) as (S & obj & S' & eo & ke & ko & ps & ar & jr & uc & lc & Hi & Mi & HW & Em & _).
  destruct (C29_well_formed st m (obj, cat ps) k' Hh Hm Em) as (sp' & E' & Hwf). rewrite E in E'. injection E' as <-.
  destruct Hwf as [_ _ _ _ _ _ _ _ _ _ _ Wa Wj [_ Wu] [_ Wl]].
  rewrite Hlen in Wu, Wl.
  destruct (record_total k' sp stat s (reset m)) as (m' & Er).
  - apply Forall_forall. intros [v i] Hv. cbn [snd]. assert (In i (map snd (sp_var2index sp))) by (apply in_map_iff; exists (v, i); auto).
    rewrite Hsnd in H1. apply in_seq in H1. lia.
  - assert (G : forall (d : list T) site l n, Forall (fun i => i < n) (map fst l) -> n <= length d ->
              Forall (fun t => tval t <> None) (map (pair d) (ord (A := nat * constraint T) site k' l))).
    { intros d site l n HF Hn. apply Forall_forall. intros t Ht. apply in_map_iff in Ht as ([i c] & <- & Ht).
      unfold tval. cbn [fst snd]. apply nth_error_Some. rewrite Forall_forall in HF.
      assert (i < n); [|lia]. apply HF. apply in_map_iff. exists (i, c). split; [reflexivity|].
      eapply Permutation_in; [apply ord_perm|exact Ht]. }
    assert (Hseq : forall n, Forall (fun i => i < n) (seq 0 n)).
    { intros n. apply Forall_forall. intros i Hin. apply in_seq in Hin. lia. }
    unfold dual_tasks. repeat (apply Forall_app; split).
    + eapply G; [rewrite Wa; apply Hseq|exact Hl].
    + eapply G; [rewrite Wj; apply Hseq|exact Hnu].
    + eapply G; [exact Wu|exact Hmu].
    + eapply G; [exact Wl|exact Hpi].
  - exists m'. unfold solve. rewrite std_problem_reset, E, Es, Er. reflexivity.
Qed.

(** ** C34 Dual results *)
(** The multiplier [d] that constraint [c], placed at [sl], should get: that of
    its row for an equality, that of its slack's bound for an inequality with a
    slack, that of the variable's bound for a bound constraint held responsible
    for that bound, and none for the other bound constraints. *)
Definition dual_of {T} (sp : std_prob T) (s : sol T) (c : constraint T) (sl : slot T) (d : option T) : Prop :=
  match ckd c, sl with
  | Equal, SRow r None => d = nth_error (s_lam s) r /\ d <> None
  | Equal, SFun r None => d = nth_error (s_nu s) r /\ d <> None
  | LessEqual, SRow _ (Some v) | LessEqual, SFun _ (Some v) =>
    exists i, In (v, i) (sp_var2index sp) /\ d = nth_error (s_mu s) i /\ d <> None
  | GreaterEqual, SRow _ (Some v) | GreaterEqual, SFun _ (Some v) =>
    exists i, In (v, i) (sp_var2index sp) /\ d = nth_error (s_pi s) i /\ d <> None
  | LessEqual, SBound v _ =>
    exists i, In (v, i) (sp_var2index sp) /\
      (hget Nat.eqb i (sp_ucons sp) = Some c -> d = nth_error (s_mu s) i /\ d <> None) /\
      (hget Nat.eqb i (sp_ucons sp) <> Some c -> d = None)
  | GreaterEqual, SBound v _ =>
    exists i, In (v, i) (sp_var2index sp) /\
      (hget Nat.eqb i (sp_lcons sp) = Some c -> d = nth_error (s_pi s) i /\ d <> None) /\
      (hget Nat.eqb i (sp_lcons sp) <> Some c -> d = None)
  | _, _ => False
  end.

Lemma in_combine_F2 {A B} (P : A -> B -> Prop) l l' a b : Forall2 P l l' -> In (a, b) (combine l l') -> P a b.
Proof. induction 1; cbn; [tauto|]. intros [E|E]; [injection E as <- <-; auto|auto]. Qed.
Lemma combine_nodup {A B} (f : A -> nat) (l : list A) (l' : list B) a a' b b' :
  NoDup (map f l) -> In (a, b) (combine l l') -> In (a', b') (combine l l') -> f a = f a' -> a = a' /\ b = b'.
Proof.
  revert l'; induction l as [|x l IH]; intros [|y l'] Hn H1 H2 E; cbn in *; try tauto.
  apply NoDup_cons_iff in Hn as [Hx Hn].
  destruct H1 as [H1|H1], H2 as [H2|H2].
  - injection H1 as <- <-. injection H2 as <- <-. auto.
  - injection H1 as <- <-. exfalso. apply Hx. rewrite E. apply in_map. exact (in_combine_l _ _ _ _ H2).
  - injection H2 as <- <-. exfalso. apply Hx. rewrite <- E. apply in_map. exact (in_combine_l _ _ _ _ H1).
  - eapply IH; eauto.
Qed.
Lemma flat_nodup {A B} (f : A -> list B) (l : list A) a a' x :
  NoDup (flat_map f l) -> In a l -> In a' l -> In x (f a) -> In x (f a') -> a = a'.
Proof.
  induction l as [|b l IH]; cbn; [tauto|]. intros Hn H1 H2 X1 X2.
  assert (Hd : forall y, In y (f b) -> In y (flat_map f l) -> False).
  { clear -Hn. induction (f b) as [|z t IHt]; cbn in *; [tauto|]. apply NoDup_cons_iff in Hn as [Hz Hn].
    intros y [->|Hy] Hf; [apply Hz; apply in_or_app; auto|eauto]. }
  assert (Hn2 : NoDup (flat_map f l)).
  { clear -Hn. induction (f b) as [|z t IHt]; cbn in *; auto. apply NoDup_cons_iff in Hn as [_ Hn]. auto. }
  destruct H1 as [->|H1], H2 as [->|H2]; auto; exfalso; eapply Hd; eauto; apply in_flat_map; eauto.
Qed.
Lemma flat_map_snd {A B C} (f : B -> list C) (l : list A) (l' : list B) :
  length l = length l' -> flat_map f l' = flat_map (fun ab => f (snd ab)) (combine l l').
Proof. revert l'; induction l as [|a l IH]; intros [|b l'] E; cbn in *; auto; try discriminate. f_equal; auto. Qed.

Lemma hget_nat {V} (l : list (nat * V)) i v : NoDup (map fst l) -> In (i, v) l -> hget Nat.eqb i l = Some v.
Proof.
  induction l as [|[j w] l IH]; cbn; [tauto|]. intros Hn [Hin|Hin]; apply NoDup_cons_iff in Hn as [Hj Hn].
  - injection Hin as -> ->. rewrite Nat.eqb_refl. reflexivity.
  - destruct (Nat.eqb i j) eqn:Ee; [|auto]. apply Nat.eqb_eq in Ee. subst. exfalso. apply Hj. apply in_map_iff. exists (j, v); auto.
Qed.
Section Duals.
  Context `{HashOrd}.
  Variables (st : mstate X) (m : model X) (sp : std_prob X) (k' : nat).
  Hypothesis Hh : hist any_op st.
  Hypothesis Hm : In m (st_models st).
  Hypothesis E : std_problem m (st_k st) = Ok (sp, k').
  Hypothesis Hnd : NoDup (map cid (md_constraints m)).
  Variables (obj : std_comp X) (cs : cstd X) (slots : list (slot X)).
  Hypothesis Em : model_std m (st_k st) = Ok ((obj, cs), k').
  Hypothesis Hp : placed (st_k st) m cs sp slots.

  Let CS := combine (md_constraints m) slots.

  Lemma cs_len : length (md_constraints m) = length slots.
  Proof. pose proof (pl_slots _ _ _ _ _ Hp) as F. clear -F. induction F; cbn; [reflexivity|f_equal; assumption]. Qed.
  Lemma cs_ok c sl : In (c, sl) CS -> slot_ok (st_k st) cs sp c sl.
  Proof. apply in_combine_F2. exact (pl_slots _ _ _ _ _ Hp). Qed.
  Lemma cs_inj c sl c' sl' : In (c, sl) CS -> In (c', sl') CS -> constr_eqb c c' = true -> c = c' /\ sl = sl'.
  Proof. intros H1 H2 Ec. apply Nat.eqb_eq in Ec. exact (combine_nodup cid _ _ _ _ _ _ Hnd H1 H2 Ec). Qed.
  Lemma cs_of c : In c (md_constraints m) -> exists sl, In (c, sl) CS.
  Proof.
    unfold CS. pose proof cs_len as L. clear -L. revert L. generalize slots as l'. induction (md_constraints m) as [|a l IH]; intros [|b l'] L Hc; cbn in *; try tauto; try discriminate.
    destruct Hc as [->|Hc]; [exists b; auto|]. destruct (IH l') as [sl Hsl]; auto. exists sl. auto.
  Qed.

  (** Entries of the row tables. *)
  Lemma acons_slot r c : In (r, c) (sp_acons sp) -> exists sl, In (c, SRow r sl) CS.
  Proof.
    intros Hin.
    assert (Hw : map fst (sp_acons sp) = seq 0 (length (m_b (base_of (sp_prob sp))))).
    { destruct (C29_well_formed st m (obj, cs) k' Hh Hm Em) as (sp' & E' & Hwf). rewrite E in E'. injection E' as <-. apply Hwf. }
    assert (Hr : In r (flat_map row_no slots)).
    { rewrite (pl_rows _ _ _ _ _ Hp), <- Hw. apply in_map_iff. exists (r, c); auto. }
    rewrite (flat_map_snd row_no _ _ cs_len) in Hr. apply in_flat_map in Hr as ([c' sl] & Hc' & Hr). cbn [snd] in Hr.
    destruct sl as [|r' sl|]; cbn in Hr; try tauto. destruct Hr as [->|[]].
    destruct (cs_ok _ _ Hc') as (Hg & _).
    assert (Hg' : hget Nat.eqb r (sp_acons sp) = Some c).
    { apply hget_nat; [rewrite Hw; apply seq_NoDup|exact Hin]. }
    exists sl. rewrite Hg in Hg'. injection Hg' as <-. exact Hc'.
  Qed.
  Lemma jcons_slot r c : In (r, c) (sp_jcons sp) -> exists sl, In (c, SFun r sl) CS.
  Proof.
    intros Hin.
    assert (Hw : map fst (sp_jcons sp) = seq 0 (length (cs_f cs))).
    { destruct (C29_well_formed st m (obj, cs) k' Hh Hm Em) as (sp' & E' & Hwf). rewrite E in E'. injection E' as <-.
      pose proof (wf_jcons _ Hwf) as W. pose proof (f_equal (@length nat) W) as L. rewrite map_length, seq_length in L.
      rewrite W, <- L, (pl_jcons _ _ _ _ _ Hp). reflexivity. }
    assert (Hr : In r (flat_map fun_no slots)).
    { rewrite (pl_funs _ _ _ _ _ Hp), <- Hw. apply in_map_iff. exists (r, c); auto. }
    rewrite (flat_map_snd fun_no _ _ cs_len) in Hr. apply in_flat_map in Hr as ([c' sl] & Hc' & Hr). cbn [snd] in Hr.
    destruct sl as [| |r' sl]; cbn in Hr; try tauto. destruct Hr as [->|[]].
    destruct (cs_ok _ _ Hc') as (Hg & _).
    assert (Hg' : hget Nat.eqb r (sp_jcons sp) = Some c).
    { apply hget_nat; [rewrite Hw; apply seq_NoDup|exact Hin]. }
    exists sl. rewrite Hg in Hg'. injection Hg' as <-. exact Hc'.
  Qed.

  (** Slacks are new; the variables of bound constraints are not. *)
  Lemma old_var v c : In c (md_constraints m) -> occurs v (clhs c) \/ occurs v (crhs c) -> nid v < st_k st.
  Proof.
    intros Hc Hv. destruct (hist_inv false st Hh) as (S & Hi).
    pose proof (hi_models _ _ _ Hi) as G. rewrite Forall_forall in G. destruct (G m Hm) as (Mi & _ & _).
    pose proof (hi_world _ _ _ Hi) as HW.
    pose proof (mi_cons _ _ Mi) as HC. rewrite Forall_forall in HC. destruct (HC c Hc) as [S1 S2].
    destruct Hv as [[_ Hv]|[_ Hv]]; apply (w_lt _ _ _ HW); [exact (world_sub _ _ _ _ _ HW S1 Hv)|exact (world_sub _ _ _ _ _ HW S2 Hv)].
  Qed.

  Lemma bound_old c v r : In (c, SBound v (Some r)) CS -> nid v < st_k st.
  Proof.
    intros Hin. destruct (cs_ok _ _ Hin) as (_ & Hv & Hd).
    destruct (le_lt_dec (st_k st) (nid v)) as [Hle|]; [exfalso|assumption].
    assert (G : diff (upd [] v 0) c = diff (upd [] v 1) c).
    { assert (G : forall w t, is_var w = true -> occurs w (clhs c) \/ occurs w (crhs c) -> evaluate (upd [] v t) w = evaluate [] w).
      { intros w t Hw Ho. apply evaluate_upd_other; [exact Hw|].
        pose proof (old_var w c (in_combine_l _ _ _ _ Hin) Ho). destruct w; try discriminate; destruct v; try discriminate. apply Nat.eqb_neq. cbn [nid] in *. lia. }
      unfold diff. f_equal; apply evaluate_ext; intros w Hw; rewrite !G; auto; apply Hw. }
    rewrite !Hd in G. assert (S1 : forall t, evaluate (upd [] v t) v = Some t) by (intros t; exact (evaluate_upd_same [] v t v Hv (ptr_eq_refl v))).
    rewrite !S1 in G. cbn in G. injection G as G. lra.
  Qed.
  Lemma bnd_var v b c : In (v, b, c) (cs_u cs) \/ In (v, b, c) (cs_l cs) -> exists i, In (v, i) (sp_var2index sp).
  Proof.
    intros Hin.
    destruct (hist_run st m sp k' Hh Hm E) as (S & obj' & S' & eo & ke & ko & ps & ar & jr & uc & lc & Hi & Mi & HW & Em' & R & Esp & _).
    rewrite Em in Em'. injection Em' as <- Ec.
    pose proof (sr_in _ _ _ _ _ _ _ _ _ _ _ _ _ R) as [_ _ _ _ _ Pu Pl]. rewrite Forall_forall in Pu, Pl.
    assert (Hv : In v (prop_keys (cat ps))) by (rewrite <- Ec in *; destruct Hin as [Hin|Hin]; [apply (Pu _ Hin)|apply (Pl _ Hin)]).
    assert (Hin' : In v (problem_vars k' obj (cat ps))) by (apply (run_vars_in _ _ _ _ _ _ _ _ _ _ _ _ _ v R); auto).
    apply In_nth_error in Hin' as [i Hin']. exists i. rewrite Esp. cbn [sp_var2index]. apply enum_in. exact Hin'.
  Qed.
  Lemma v2i_fun v w i : In (v, i) (sp_var2index sp) -> In (w, i) (sp_var2index sp) -> v = w.
  Proof.
    destruct (C24_bijection st m sp k' Hh Hm E x_nm1) as (B & _). intros H1 H2.
    assert (Hn : NoDup (map snd (sp_var2index sp))) by (rewrite B; apply seq_NoDup).
    clear -Hn H1 H2. induction (sp_var2index sp) as [|[a j] l IH]; cbn in *; [tauto|].
    apply NoDup_cons_iff in Hn as [Hj Hn]. destruct H1 as [H1|H1], H2 as [H2|H2]; auto.
    - congruence.
    - injection H1 as -> ->. exfalso. apply Hj. apply in_map_iff. exists (w, i); auto.
    - injection H2 as -> ->. exfalso. apply Hj. apply in_map_iff. exists (v, i); auto.
  Qed.
  Lemma v2i_inj v i j : In (v, i) (sp_var2index sp) -> In (v, j) (sp_var2index sp) -> i = j.
  Proof. intros H1 H2. destruct (C24_bijection st m sp k' Hh Hm E x_nm1) as (_ & B & _). exact (proj2 (B _ _ _ _ H1 H2 eq_refl)). Qed.
  Lemma slack_new c sl s : In (c, sl) CS -> slack_of sl = [s] -> st_k st <= nid s /\ bounds_with cs c s (Some 0%R).
  Proof.
    intros Hin Hs. pose proof (cs_ok _ _ Hin) as Ho.
    destruct sl as [v b|r [v|]|r [v|]]; cbn in Hs; try discriminate; injection Hs as ->; destruct Ho as (_ & (Hk & _ & Hb) & _); auto.
  Qed.
  Lemma slack_inj c sl c' sl' s : In (c, sl) CS -> In (c', sl') CS -> slack_of sl = [s] -> slack_of sl' = [s] -> c = c' /\ sl = sl'.
  Proof.
    intros H1 H2 S1 S2. pose proof (pl_slacks _ _ _ _ _ Hp) as Hn. rewrite (flat_map_snd slack_of _ _ cs_len) in Hn.
    pose proof (flat_nodup _ _ (c, sl) (c', sl') s Hn H1 H2) as G. cbn [snd] in G. rewrite S1, S2 in G.
    specialize (G (or_introl eq_refl) (or_introl eq_refl)). injection G as -> ->. auto.
  Qed.
  Let Hplu : cs_u cs = uppers m slots := pl_uppers _ _ _ _ _ Hp.
  Let Hpll : cs_l cs = lowers m slots := pl_lowers _ _ _ _ _ Hp.

  Lemma ucons_slot i c : In (i, c) (sp_ucons sp) ->
    exists v sl, In (v, i) (sp_var2index sp) /\ In (c, sl) CS /\ ckd c = LessEqual /\
      ((exists r, sl = SBound v (Some r)) \/ slack_of sl = [v]).
  Proof.
    intros Hin. destruct (C29_well_formed st m (obj, cs) k' Hh Hm Em) as (sp' & E' & Hwf). rewrite E in E'. injection E' as <-.
    destruct (wf_ucons _ Hwf) as [Wn Wl]. rewrite Forall_forall in Wl.
    assert (Hi : i < m_nx (base_of (sp_prob sp))).
    { rewrite (nx_len st m sp k' Hh Hm E). apply Wl. apply in_map_iff. exists (i, c); auto. }
    destruct (var_at st m sp k' Hh Hm E i Hi) as [v Hv]. exists v.
    destruct (tightest_of st m sp k' obj cs slots Hh Hm E Em Hp v i Hv) as ((x & Ex & _ & _ & Hc) & _).
    assert (Hg : hget Nat.eqb i (sp_ucons sp) = Some c).
    { apply hget_nat; [exact Wn|exact Hin]. }
    rewrite Hg in Hc. destruct Hc as (l1 & l2 & EL & _).
    assert (Hu : In (v, Some x, c) (uppers m slots)) by (rewrite EL; apply in_or_app; cbn; auto).
    apply in_flat_map in Hu as ([c' sl] & Hin' & Hu). exists sl. split; [exact Hv|].
    unfold upper_of in Hu. cbn [fst snd] in Hu.
    destruct (ckd c') eqn:Ek, sl as [v' b|r [s|]|r [s|]]; cbn [In] in Hu; try tauto; destruct Hu as [Hu|[]]; injection Hu as -> Hb ->;
      (split; [exact Hin'|]; split; [exact Ek|]); try (right; reflexivity). left. exists x. rewrite Hb. reflexivity.
  Qed.
  Lemma uslack c sl s : In (c, sl) CS -> ckd c = LessEqual -> slack_of sl = [s] ->
    exists i, In (s, i) (sp_var2index sp) /\ In (i, c) (sp_ucons sp).
  Proof.
    intros Hin Ek Hs. destruct (slack_new c sl s Hin Hs) as (Hnew & Hb). unfold bounds_with in Hb. rewrite Ek in Hb.
    destruct (bnd_var s (Some 0%R) c) as [i Hi]; [auto|]. exists i. split; [exact Hi|].
    destruct (tightest_of st m sp k' obj cs slots Hh Hm E Em Hp s i Hi) as ((x & Ex & _ & _ & Hc) & _).
    destruct (hget Nat.eqb i (sp_ucons sp)) as [c'|] eqn:Hg.
    - apply hget_some_in in Hg as (j & Hj & Ej). apply Nat.eqb_eq in Ej. subst j.
      destruct (ucons_slot i c' Hj) as (v & sl' & Hv & Hin' & _ & Hsl).
      pose proof (v2i_fun _ _ _ Hv Hi) as ->. destruct Hsl as [(r & ->)|Hsl].
      + exfalso. exact (Nat.lt_irrefl _ (Nat.lt_le_trans _ _ _ (bound_old _ _ _ Hin') Hnew)).
      + destruct (slack_inj c sl c' sl' s) as [-> ->]; auto.
    - destruct Hc as [_ Hc]. rewrite <- (Hplu) in Hc. specialize (Hc _ _ Hb). lra.
  Qed.
  Lemma lcons_slot i c : In (i, c) (sp_lcons sp) ->
    exists v sl, In (v, i) (sp_var2index sp) /\ In (c, sl) CS /\ ckd c = GreaterEqual /\
      ((exists r, sl = SBound v (Some r)) \/ slack_of sl = [v]).
  Proof.
    intros Hin. destruct (C29_well_formed st m (obj, cs) k' Hh Hm Em) as (sp' & E' & Hwf). rewrite E in E'. injection E' as <-.
    destruct (wf_lcons _ Hwf) as [Wn Wl]. rewrite Forall_forall in Wl.
    assert (Hi : i < m_nx (base_of (sp_prob sp))).
    { rewrite (nx_len st m sp k' Hh Hm E). apply Wl. apply in_map_iff. exists (i, c); auto. }
    destruct (var_at st m sp k' Hh Hm E i Hi) as [v Hv]. exists v.
    destruct (tightest_of st m sp k' obj cs slots Hh Hm E Em Hp v i Hv) as (_ & (x & Ex & _ & _ & Hc)).
    assert (Hg : hget Nat.eqb i (sp_lcons sp) = Some c).
    { apply hget_nat; [exact Wn|exact Hin]. }
    rewrite Hg in Hc. destruct Hc as (l1 & l2 & EL & _).
    assert (Hu : In (v, Some x, c) (lowers m slots)) by (rewrite EL; apply in_or_app; cbn; auto).
    apply in_flat_map in Hu as ([c' sl] & Hin' & Hu). exists sl. split; [exact Hv|].
    unfold lower_of in Hu. cbn [fst snd] in Hu.
    destruct (ckd c') eqn:Ek, sl as [v' b|r [s|]|r [s|]]; cbn [In] in Hu; try tauto; destruct Hu as [Hu|[]]; injection Hu as -> Hb ->;
      (split; [exact Hin'|]; split; [exact Ek|]); try (right; reflexivity). left. exists x. rewrite Hb. reflexivity.
  Qed.
  Lemma lslack c sl s : In (c, sl) CS -> ckd c = GreaterEqual -> slack_of sl = [s] ->
    exists i, In (s, i) (sp_var2index sp) /\ In (i, c) (sp_lcons sp).
  Proof.
    intros Hin Ek Hs. destruct (slack_new c sl s Hin Hs) as (Hnew & Hb). unfold bounds_with in Hb. rewrite Ek in Hb.
    destruct (bnd_var s (Some 0%R) c) as [i Hi]; [auto|]. exists i. split; [exact Hi|].
    destruct (tightest_of st m sp k' obj cs slots Hh Hm E Em Hp s i Hi) as (_ & (x & Ex & _ & _ & Hc)).
    destruct (hget Nat.eqb i (sp_lcons sp)) as [c'|] eqn:Hg.
    - apply hget_some_in in Hg as (j & Hj & Ej). apply Nat.eqb_eq in Ej. subst j.
      destruct (lcons_slot i c' Hj) as (v & sl' & Hv & Hin' & _ & Hsl).
      pose proof (v2i_fun _ _ _ Hv Hi) as ->. destruct Hsl as [(r & ->)|Hsl].
      + exfalso. exact (Nat.lt_irrefl _ (Nat.lt_le_trans _ _ _ (bound_old _ _ _ Hin') Hnew)).
      + destruct (slack_inj c sl c' sl' s) as [-> ->]; auto.
    - destruct Hc as [_ Hc]. rewrite <- (Hpll) in Hc. specialize (Hc _ _ Hb). lra.
  Qed.
  Variables (stat : status) (s : sol X) (m' : model X).
  Hypothesis Hrec : recorded k' sp stat s m m'.

  (** The tasks of a constraint. *)
  Lemma task_cases ts : In ts (dual_tasks k' sp s) ->
    exists i c, snd ts = (i, c) /\
    ((fst ts = s_lam s /\ In (i, c) (sp_acons sp)) \/ (fst ts = s_nu s /\ In (i, c) (sp_jcons sp)) \/
     (fst ts = s_mu s /\ In (i, c) (sp_ucons sp)) \/ (fst ts = s_pi s /\ In (i, c) (sp_lcons sp))).
  Proof.
    destruct ts as [d [i c]]. intros Hin. exists i, c. split; [reflexivity|]. cbn [fst]. unfold dual_tasks in Hin. rewrite !in_app_iff, !in_map_iff in Hin.
    destruct Hin as [(x & Ex & Hin)|[(x & Ex & Hin)|[(x & Ex & Hin)|(x & Ex & Hin)]]]; injection Ex as <- ->;
      apply (Permutation_in _ (ord_perm _ _ _ _)) in Hin; auto.
  Qed.
  Lemma bound_tasks ts : In ts (map (pair (s_mu s)) (ord 13 k' (sp_ucons sp)) ++ map (pair (s_pi s)) (ord 14 k' (sp_lcons sp))) ->
    exists i c, snd ts = (i, c) /\
    ((fst ts = s_mu s /\ In (i, c) (sp_ucons sp)) \/ (fst ts = s_pi s /\ In (i, c) (sp_lcons sp))).
  Proof.
    destruct ts as [d [i c]]. intros Hin. exists i, c. split; [reflexivity|]. cbn [fst]. rewrite !in_app_iff, !in_map_iff in Hin.
    destruct Hin as [(x & Ex & Hin)|(x & Ex & Hin)]; injection Ex as <- ->;
      apply (Permutation_in _ (ord_perm _ _ _ _)) in Hin; auto.
  Qed.
  Lemma tasks_in d i c : 
    (d = s_lam s /\ In (i, c) (sp_acons sp)) \/ (d = s_nu s /\ In (i, c) (sp_jcons sp)) \/
    (d = s_mu s /\ In (i, c) (sp_ucons sp)) \/ (d = s_pi s /\ In (i, c) (sp_lcons sp)) -> In (d, (i, c)) (dual_tasks k' sp s).
  Proof.
    intros Hin. unfold dual_tasks. rewrite !in_app_iff, !in_map_iff.
    assert (P : forall site (l : list (nat * constraint X)) x, In x l -> In x (ord site k' l)).
    { intros site l x Hx. exact (Permutation_in _ (Permutation_sym (ord_perm _ _ _ _)) Hx). }
    destruct Hin as [(-> & Hin)|[(-> & Hin)|[(-> & Hin)|(-> & Hin)]]]; eauto 10.
  Qed.
  Lemma tval_some ts : In ts (dual_tasks k' sp s) -> tval ts <> None.
  Proof. pose proof (rc_tasks _ _ _ _ _ _ Hrec) as F. rewrite Forall_forall in F. apply F. Qed.

  Lemma dual_ok c sl : In (c, sl) CS -> dual_of sp s c sl (hget constr_eqb c (md_duals m')).
  Proof.
    intros Hin. pose proof (cs_ok _ _ Hin) as Ho.
    (* every task for c comes from its slot *)
    assert (TA : forall i c', In (i, c') (sp_acons sp) -> constr_eqb c c' = true -> exists o, sl = SRow i o).
    { intros i c' Hi Ec. destruct (acons_slot i c' Hi) as [o Hi']. exists o. exact (proj2 (cs_inj _ _ _ _ Hin Hi' Ec)). }
    assert (TJ : forall i c', In (i, c') (sp_jcons sp) -> constr_eqb c c' = true -> exists o, sl = SFun i o).
    { intros i c' Hi Ec. destruct (jcons_slot i c' Hi) as [o Hi']. exists o. exact (proj2 (cs_inj _ _ _ _ Hin Hi' Ec)). }
    assert (TU : forall i c', In (i, c') (sp_ucons sp) -> constr_eqb c c' = true -> c = c' /\ ckd c = LessEqual /\ exists v,
                   In (v, i) (sp_var2index sp) /\ ((exists r, sl = SBound v (Some r)) \/ slack_of sl = [v])).
    { intros i c' Hi Ec. destruct (ucons_slot i c' Hi) as (v & sl' & Hv & Hi' & Ek & Hs).
      destruct (cs_inj _ _ _ _ Hin Hi' Ec) as [<- <-]. eauto. }
    assert (TL : forall i c', In (i, c') (sp_lcons sp) -> constr_eqb c c' = true -> c = c' /\ ckd c = GreaterEqual /\ exists v,
                   In (v, i) (sp_var2index sp) /\ ((exists r, sl = SBound v (Some r)) \/ slack_of sl = [v])).
    { intros i c' Hi Ec. destruct (lcons_slot i c' Hi) as (v & sl' & Hv & Hi' & Ek & Hs).
      destruct (cs_inj _ _ _ _ Hin Hi' Ec) as [<- <-]. eauto. }
    (* equality rows *)
    assert (Heq : forall d i, ckd c = Equal -> In (d, (i, c)) (dual_tasks k' sp s) ->
              (forall ts, In ts (dual_tasks k' sp s) -> constr_eqb c (tcon ts) = true -> tval ts = nth_error d i) ->
              hget constr_eqb c (md_duals m') = nth_error d i /\ hget constr_eqb c (md_duals m') <> None).
    { intros d i Ek Ht Hu.
      assert (Eg : hget constr_eqb c (md_duals m') = tval (d, (i, c))).
      { apply (rc_last _ _ _ _ _ _ Hrec [] (dual_tasks k' sp s)); auto. apply constr_eqb_refl. }
      rewrite Eg. split; [reflexivity|]. apply tval_some. exact Ht. }
    (* slacks *)
    assert (Hslk : forall v, slack_of sl = [v] ->
        (ckd c = LessEqual -> exists i, In (v, i) (sp_var2index sp) /\
            hget constr_eqb c (md_duals m') = nth_error (s_mu s) i /\ hget constr_eqb c (md_duals m') <> None) /\
        (ckd c = GreaterEqual -> exists i, In (v, i) (sp_var2index sp) /\
            hget constr_eqb c (md_duals m') = nth_error (s_pi s) i /\ hget constr_eqb c (md_duals m') <> None)).
    { intros v Hs. split; intros Ek.
      - destruct (uslack c sl v Hin Ek Hs) as (i & Hi & Hc). exists i. split; [exact Hi|].
        assert (Eg : hget constr_eqb c (md_duals m') = tval (s_mu s, (i, c))).
        { unfold dual_tasks in *.
          eapply (rc_last _ _ _ _ _ _ Hrec (map (pair (s_lam s)) (ord 11 k' (sp_acons sp)) ++ map (pair (s_nu s)) (ord 12 k' (sp_jcons sp)))).
          - unfold dual_tasks. rewrite <- app_assoc. reflexivity.
          - apply in_or_app. left. apply in_map. exact (Permutation_in _ (Permutation_sym (ord_perm _ _ _ _)) Hc).
          - apply constr_eqb_refl.
          - intros ts Hts Ec. apply bound_tasks in Hts as (j & c' & Ets & Hts). unfold tval, tcon in *. rewrite Ets in *. cbn [fst snd] in *.
            destruct Hts as [[-> Hts]|[-> Hts]].
            + destruct (TU j c' Hts Ec) as (_ & _ & w & Hw & [(r & ->)|Hs']); [discriminate|].
              rewrite Hs in Hs'. injection Hs' as <-. rewrite (v2i_inj _ _ _ Hi Hw). reflexivity.
            + destruct (TL j c' Hts Ec) as (_ & Ek' & _). congruence. }
        rewrite Eg. split; [reflexivity|]. apply tval_some. apply tasks_in. auto.
      - destruct (lslack c sl v Hin Ek Hs) as (i & Hi & Hc). exists i. split; [exact Hi|].
        assert (Eg : hget constr_eqb c (md_duals m') = tval (s_pi s, (i, c))).
        { unfold dual_tasks in *.
          eapply (rc_last _ _ _ _ _ _ Hrec (map (pair (s_lam s)) (ord 11 k' (sp_acons sp)) ++ map (pair (s_nu s)) (ord 12 k' (sp_jcons sp)))).
          - unfold dual_tasks. rewrite <- app_assoc. reflexivity.
          - apply in_or_app. right. apply in_map. exact (Permutation_in _ (Permutation_sym (ord_perm _ _ _ _)) Hc).
          - apply constr_eqb_refl.
          - intros ts Hts Ec. apply bound_tasks in Hts as (j & c' & Ets & Hts). unfold tval, tcon in *. rewrite Ets in *. cbn [fst snd] in *.
            destruct Hts as [[-> Hts]|[-> Hts]].
            + destruct (TU j c' Hts Ec) as (_ & Ek' & _). congruence.
            + destruct (TL j c' Hts Ec) as (_ & _ & w & Hw & [(r & ->)|Hs']); [discriminate|].
              rewrite Hs in Hs'. injection Hs' as <-. rewrite (v2i_inj _ _ _ Hi Hw). reflexivity. }
        rewrite Eg. split; [reflexivity|]. apply tval_some. apply tasks_in. auto. }
    unfold dual_of. destruct sl as [v b|r [v|]|r [v|]].
    - (* a bound *)
      destruct Ho as (Hb & _). unfold bounds_with in Hb. destruct (ckd c) eqn:Ek; [destruct Hb| |].
      + destruct (bnd_var v b c (or_introl Hb)) as [i Hi]. exists i. split; [exact Hi|].
        assert (Ht : forall ts, In ts (dual_tasks k' sp s) -> constr_eqb c (tcon ts) = true -> snd ts = (i, c) /\ fst ts = s_mu s /\ In (i, c) (sp_ucons sp)).
        { intros ts Hts Ec. apply task_cases in Hts as (j & c' & Ets & Hts). unfold tcon in Ec. rewrite Ets in *. cbn [snd] in Ec.
          destruct Hts as [[_ Hts]|[[_ Hts]|[[Ef Hts]|[_ Hts]]]].
          - destruct (TA _ _ Hts Ec) as [o Eo]. discriminate.
          - destruct (TJ _ _ Hts Ec) as [o Eo]. discriminate.
          - destruct (TU _ _ Hts Ec) as (-> & _ & w & Hw & [(r & Eb)|Hs]); [|discriminate]. injection Eb as -> ->.
            pose proof (v2i_inj _ _ _ Hi Hw) as ->. auto.
          - destruct (TL _ _ Hts Ec) as (_ & Ek' & _). congruence. }
        split; intros Hc.
        * apply hget_some_in in Hc as (j & Hj & Ej). apply Nat.eqb_eq in Ej. subst j.
          assert (Hin' : In (s_mu s, (i, c)) (dual_tasks k' sp s)) by (apply tasks_in; auto).
          assert (Eg : hget constr_eqb c (md_duals m') = tval (s_mu s, (i, c))).
          { apply (rc_last _ _ _ _ _ _ Hrec [] (dual_tasks k' sp s)); auto; [apply constr_eqb_refl|].
            intros ts Hts Ec. destruct (Ht ts Hts Ec) as (E1 & E2 & _). unfold tval. rewrite E1, E2. reflexivity. }
          rewrite Eg. split; [reflexivity|apply tval_some; exact Hin'].
        * apply (rc_none _ _ _ _ _ _ Hrec). intros ts Hts. apply not_true_is_false. intros Ec.
          destruct (Ht ts Hts Ec) as (_ & _ & Hic). apply Hc. apply hget_nat; [|exact Hic].
          destruct (C29_well_formed st m (obj, cs) k' Hh Hm Em) as (sp' & E' & Hwf). rewrite E in E'. injection E' as <-. apply (wf_ucons _ Hwf).
      + destruct (bnd_var v b c (or_intror Hb)) as [i Hi]. exists i. split; [exact Hi|].
        assert (Ht : forall ts, In ts (dual_tasks k' sp s) -> constr_eqb c (tcon ts) = true -> snd ts = (i, c) /\ fst ts = s_pi s /\ In (i, c) (sp_lcons sp)).
        { intros ts Hts Ec. apply task_cases in Hts as (j & c' & Ets & Hts). unfold tcon in Ec. rewrite Ets in *. cbn [snd] in Ec.
          destruct Hts as [[_ Hts]|[[_ Hts]|[[_ Hts]|[Ef Hts]]]].
          - destruct (TA _ _ Hts Ec) as [o Eo]. discriminate.
          - destruct (TJ _ _ Hts Ec) as [o Eo]. discriminate.
          - destruct (TU _ _ Hts Ec) as (_ & Ek' & _). congruence.
          - destruct (TL _ _ Hts Ec) as (-> & _ & w & Hw & [(r & Eb)|Hs]); [|discriminate]. injection Eb as -> ->.
            pose proof (v2i_inj _ _ _ Hi Hw) as ->. auto. }
        split; intros Hc.
        * apply hget_some_in in Hc as (j & Hj & Ej). apply Nat.eqb_eq in Ej. subst j.
          assert (Hin' : In (s_pi s, (i, c)) (dual_tasks k' sp s)) by (apply tasks_in; auto).
          assert (Eg : hget constr_eqb c (md_duals m') = tval (s_pi s, (i, c))).
          { apply (rc_last _ _ _ _ _ _ Hrec [] (dual_tasks k' sp s)); auto; [apply constr_eqb_refl|].
            intros ts Hts Ec. destruct (Ht ts Hts Ec) as (E1 & E2 & _). unfold tval. rewrite E1, E2. reflexivity. }
          rewrite Eg. split; [reflexivity|apply tval_some; exact Hin'].
        * apply (rc_none _ _ _ _ _ _ Hrec). intros ts Hts. apply not_true_is_false. intros Ec.
          destruct (Ht ts Hts Ec) as (_ & _ & Hic). apply Hc. apply hget_nat; [|exact Hic].
          destruct (C29_well_formed st m (obj, cs) k' Hh Hm Em) as (sp' & E' & Hwf). rewrite E in E'. injection E' as <-. apply (wf_lcons _ Hwf).
    - destruct (Hslk v eq_refl) as [H1 H2]. destruct Ho as (_ & (_ & _ & Hb) & _). unfold bounds_with in Hb. destruct (ckd c); auto.
    - destruct Ho as (Hg & Hk & _). cbn in Hk. rewrite Hk. apply hget_some_in in Hg as (j & Hj & Ej). apply Nat.eqb_eq in Ej. subst j.
      apply Heq; [exact Hk|apply tasks_in; auto|].
      intros ts Hts Ec. apply task_cases in Hts as (j & c' & Ets & Hts). unfold tval, tcon in *. rewrite Ets in *. cbn [fst snd] in *.
      destruct Hts as [[-> Hts]|[[_ Hts]|[[_ Hts]|[_ Hts]]]].
      + destruct (TA _ _ Hts Ec) as [o Eo]. injection Eo as <- _. reflexivity.
      + destruct (TJ _ _ Hts Ec) as [o Eo]. discriminate.
      + destruct (TU _ _ Hts Ec) as (_ & Ek' & _). congruence.
      + destruct (TL _ _ Hts Ec) as (_ & Ek' & _). congruence.
    - destruct (Hslk v eq_refl) as [H1 H2]. destruct Ho as (_ & (_ & _ & Hb) & _). unfold bounds_with in Hb. destruct (ckd c); auto.
    - destruct Ho as (Hg & Hk & _). cbn in Hk. rewrite Hk. apply hget_some_in in Hg as (j & Hj & Ej). apply Nat.eqb_eq in Ej. subst j.
      apply Heq; [exact Hk|apply tasks_in; auto|].
      intros ts Hts Ec. apply task_cases in Hts as (j & c' & Ets & Hts). unfold tval, tcon in *. rewrite Ets in *. cbn [fst snd] in *.
      destruct Hts as [[_ Hts]|[[-> Hts]|[[_ Hts]|[_ Hts]]]].
      + destruct (TA _ _ Hts Ec) as [o Eo]. discriminate.
      + destruct (TJ _ _ Hts Ec) as [o Eo]. injection Eo as <- _. reflexivity.
      + destruct (TU _ _ Hts Ec) as (_ & Ek' & _). congruence.
      + destruct (TL _ _ Hts Ec) as (_ & Ek' & _). congruence.
  Qed.
  Lemma dual_keys c : In c (map fst (md_duals m')) -> In c (md_constraints m).
  Proof.
    intros Hc. apply (rc_keys _ _ _ _ _ _ Hrec) in Hc. apply in_map_iff in Hc as (ts & <- & Hts).
    apply task_cases in Hts as (i & c & Ets & Hts). unfold tcon. rewrite Ets. cbn [snd].
    destruct Hts as [[_ Hts]|[[_ Hts]|[[_ Hts]|[_ Hts]]]].
    - destruct (acons_slot _ _ Hts) as (sl & Hi). exact (in_combine_l _ _ _ _ Hi).
    - destruct (jcons_slot _ _ Hts) as (sl & Hi). exact (in_combine_l _ _ _ _ Hi).
    - destruct (ucons_slot _ _ Hts) as (v & sl & _ & Hi & _). exact (in_combine_l _ _ _ _ Hi).
    - destruct (lcons_slot _ _ Hts) as (v & sl & _ & Hi & _). exact (in_combine_l _ _ _ _ Hi).
  Qed.
End Duals.

Lemma F2_combine {A B} (P : A -> B -> Prop) l l' : length l = length l' ->
  (forall a b, In (a, b) (combine l l') -> P a b) -> Forall2 P l l'.
Proof.
  revert l'; induction l as [|a l IH]; intros [|b l'] L Hc; cbn in *; try discriminate; constructor; auto.
Qed.

Theorem C34_duals `{HashOrd} (st : mstate X) solver m m' k' :
  hist any_op st -> In m (st_models st) -> solve solver m (st_k st) = (m', Returned (inl tt), k') ->
  NoDup (map cid (md_constraints m)) ->
  exists sp stat s obj cs slots,
    std_problem m (st_k st) = Ok (sp, k') /\ solver (sp_prob sp) = Ok (inl (stat, s)) /\
    model_std m (st_k st) = Ok ((obj, cs), k') /\ placed (st_k st) m cs sp slots /\
    Forall2 (fun c sl => dual_of sp s c sl (hget constr_eqb c (md_duals m'))) (md_constraints m) slots /\
    (forall c, In c (map fst (md_duals m')) -> In c (md_constraints m)).
Proof.
  intros Hh Hm E Hnd. destruct (solve_ok _ _ _ _ _ E) as (sp & stat & s & Esp & Es & Er).
  pose proof (record_spec _ _ _ _ _ _ Er (hist_v2i_nodup st m sp k' Hh Hm Esp)) as Hrec.
  destruct (placed_all st m sp k' Hh Hm Esp) as (obj & cs & slots & Em & Hp & _).
  exists sp, stat, s, obj, cs, slots. repeat (split; [assumption|]). split.
  - apply F2_combine; [eapply cs_len; eauto|]. intros c sl Hin.
    exact (dual_ok st m sp k' Hh Hm Esp Hnd obj cs slots Em Hp stat s m' Hrec c sl Hin).
  - intros c. exact (dual_keys st m sp k' Hh Hm Esp obj cs slots Em Hp stat s m' Hrec c).
Qed.
(** The only constraint attaining the least upper (greatest lower) bound of its
    variable, within the defaults, gets that bound's multiplier. *)
Theorem C34_binding `{HashOrd} (st : mstate X) solver m m' k' :
  hist any_op st -> In m (st_models st) -> solve solver m (st_k st) = (m', Returned (inl tt), k') ->
  NoDup (map cid (md_constraints m)) ->
  exists sp stat s obj cs slots,
    std_problem m (st_k st) = Ok (sp, k') /\ solver (sp_prob sp) = Ok (inl (stat, s)) /\
    model_std m (st_k st) = Ok ((obj, cs), k') /\ placed (st_k st) m cs sp slots /\
    forall c v r, In (c, SBound v (Some r)) (combine (md_constraints m) slots) ->
      exists i, In (v, i) (sp_var2index sp) /\
      (ckd c = LessEqual -> (r <= 100000000)%R ->
       (forall b c', In (v, Some b, c') (uppers m slots) -> cid c' <> cid c -> (r < b)%R) ->
       hget constr_eqb c (md_duals m') = nth_error (s_mu s) i) /\
      (ckd c = GreaterEqual -> (- 100000000 <= r)%R ->
       (forall b c', In (v, Some b, c') (lowers m slots) -> cid c' <> cid c -> (b < r)%R) ->
       hget constr_eqb c (md_duals m') = nth_error (s_pi s) i).
Proof.
  intros Hh Hm E Hnd. destruct (C34_duals st solver m m' k' Hh Hm E Hnd) as (sp & stat & s & obj & cs & slots & Esp & Es & Em & Hp & Hd & _).
  exists sp, stat, s, obj, cs, slots. repeat (split; [assumption|]). intros c v r Hin.
  pose proof (in_combine_F2 _ _ _ _ _ Hd Hin) as Ho. pose proof (in_combine_F2 _ _ _ _ _ (pl_slots _ _ _ _ _ Hp) Hin) as (Hb & _ & _).
  unfold bounds_with in Hb. unfold dual_of in Ho. destruct (ckd c) eqn:Ek; [destruct Hb| |]; destruct Ho as (i & Hi & Ho & _); exists i; (split; [exact Hi|]); (split; [|]); try discriminate; intros _ Hr Hs; apply Ho; clear Ho.
  - destruct (tightest_of st m sp k' obj cs slots Hh Hm Esp Em Hp v i Hi) as ((u & _ & _ & Hle & Hc) & _).
    rewrite (pl_uppers _ _ _ _ _ Hp) in Hb.
    destruct (hget Nat.eqb i (sp_ucons sp)) as [c'|].
    + destruct Hc as (l1 & l2 & EL & _). assert (Hin' : In (v, Some u, c') (uppers m slots)) by (rewrite EL; apply in_or_app; cbn; auto).
      f_equal. destruct (Nat.eq_dec (cid c') (cid c)) as [Eq|Ne].
      * apply in_flat_map in Hin' as ([c2 sl2] & Hin2 & Hu). assert (c2 = c') as ->.
        { unfold upper_of in Hu. cbn [fst snd] in Hu. destruct (ckd c2), sl2 as [?|? [?|]|? [?|]]; cbn in Hu; try tauto; destruct Hu as [Hu|[]]; congruence. }
        exact (proj1 (combine_nodup cid _ _ _ _ _ _ Hnd Hin2 Hin Eq)).
      * specialize (Hs _ _ Hin' Ne). specialize (Hle _ _ Hb). lra.
    + destruct Hc as [_ Hc]. specialize (Hc _ _ Hb). lra.
  - destruct (tightest_of st m sp k' obj cs slots Hh Hm Esp Em Hp v i Hi) as (_ & (u & _ & _ & Hle & Hc)).
    rewrite (pl_lowers _ _ _ _ _ Hp) in Hb.
    destruct (hget Nat.eqb i (sp_lcons sp)) as [c'|].
    + destruct Hc as (l1 & l2 & EL & _). assert (Hin' : In (v, Some u, c') (lowers m slots)) by (rewrite EL; apply in_or_app; cbn; auto).
      f_equal. destruct (Nat.eq_dec (cid c') (cid c)) as [Eq|Ne].
      * apply in_flat_map in Hin' as ([c2 sl2] & Hin2 & Hu). assert (c2 = c') as ->.
        { unfold lower_of in Hu. cbn [fst snd] in Hu. destruct (ckd c2), sl2 as [?|? [?|]|? [?|]]; cbn in Hu; try tauto; destruct Hu as [Hu|[]]; congruence. }
        exact (proj1 (combine_nodup cid _ _ _ _ _ _ Hnd Hin2 Hin Eq)).
      * specialize (Hs _ _ Hin' Ne). specialize (Hle _ _ Hb). lra.
    + destruct Hc as [_ Hc]. specialize (Hc _ _ Hb). lra.
Qed.

(** A solver that answers with zeros of the right sizes. *)
Definition zeros {T} `{Num T} (p : problem T) : res (answer (T := T)) :=
  Ok (inl (Solved, mk_sol (repeat n0 (m_nx (base_of p))) (repeat n0 (length (m_b (base_of p))))
                          (repeat n0 (length (b_f (m_bufs (base_of p))))) (repeat n0 (m_nx (base_of p)))
                          (repeat n0 (m_nx (base_of p))))).
Example C33_C34_example : exists m' k', @hist X _ any_op est /\ In em (st_models est) /\
  @solve X _ ord_id zeros em (st_k est) = (m', Returned (inl tt), k') /\ NoDup (map cid (md_constraints em)).
Proof.
  destruct ex_std as (obj & cs & k' & Ems).
  assert (Hin : In em (st_models est)) by (cbn; auto).
  destruct (@C29_well_formed X _ ord_id est em _ k' ex_hist Hin Ems) as (sp & E & _).
  destruct (@C33_returns X _ ord_id est zeros em sp k' Solved _ ex_hist Hin E eq_refl) as (m' & Em);
    cbn [s_x s_lam s_nu s_mu s_pi]; rewrite ?repeat_length; auto.
  exists m', k'. split; [exact ex_hist|]. split; [exact Hin|]. split; [exact Em|].
  cbn. repeat constructor; cbn; intuition discriminate.
Qed.

(** ** C35 All or nothing *)
Theorem C35_error {T} `{Num T} `{HashOrd} solver (m m' : model T) k k' e :
  solve solver m k = (m', Returned (inr e), k') ->
  md_status m' = None /\ md_primals m' = [] /\ md_duals m' = [] /\
  md_objective m' = md_objective m /\ md_constraints m' = md_constraints m /\ md_init m' = md_init m.
Proof.
  unfold solve. rewrite std_problem_reset. destruct (std_problem m k) as [[sp k1]|p]; [|discriminate].
  destruct (solver (sp_prob sp)) as [[[st s]|e']|p]; try discriminate.
  - destruct (record_solution k1 sp st s (reset m)) as [m2 [p|]]; discriminate.
  - intros E. injection E as <- <- <-. repeat split; reflexivity.
Qed.
(** An error is exactly an error of the solver. *)
Theorem C35_error_iff {T} `{Num T} `{HashOrd} solver (m : model T) k e :
  (exists m' k', solve solver m k = (m', Returned (inr e), k')) <->
  exists sp k', std_problem m k = Ok (sp, k') /\ solver (sp_prob sp) = Ok (inr e).
Proof.
  unfold solve. rewrite std_problem_reset. split.
  - intros (m' & k' & E). destruct (std_problem m k) as [[sp k1]|p]; [|discriminate]. exists sp, k1. split; [reflexivity|].
    destruct (solver (sp_prob sp)) as [[[st s]|e']|p]; try discriminate.
    + destruct (record_solution k1 sp st s (reset m)) as [m2 [p|]]; discriminate.
    + injection E as _ -> _. reflexivity.
  - intros (sp & k' & E & Es). rewrite E, Es. eauto.
Qed.
(** Unwinding: from the transformation or the solver, with no results either;
    otherwise the solver answered with too short an array. *)
Theorem C35_unwound {T} `{Num T} `{HashOrd} (st : mstate T) solver m m' k' p :
  hist any_op st -> In m (st_models st) ->
  solve solver m (st_k st) = (m', Unwound p, k') ->
  (md_objective m' = md_objective m /\ md_constraints m' = md_constraints m /\ md_init m' = md_init m) /\
  ((md_status m' = None /\ md_primals m' = [] /\ md_duals m' = []) \/
   exists sp stat s, std_problem m (st_k st) = Ok (sp, k') /\ solver (sp_prob sp) = Ok (inl (stat, s)) /\
     md_status m' = Some stat /\
     (length (s_x s) < m_nx (base_of (sp_prob sp)) \/ length (s_lam s) < length (m_b (base_of (sp_prob sp))) \/
      length (s_nu s) < length (b_f (m_bufs (base_of (sp_prob sp)))) \/
      length (s_mu s) < m_nx (base_of (sp_prob sp)) \/ length (s_pi s) < m_nx (base_of (sp_prob sp)))).
Proof.
  intros Hh Hm E. split; [exact (solve_inputs _ _ _ _ _ _ E)|]. pose proof E as E0.
  unfold solve in E. rewrite std_problem_reset in E. destruct (std_problem m (st_k st)) as [[sp k1]|q] eqn:Esp.
  2:{ injection E as <- <- <-. left. repeat split. }
  destruct (solver (sp_prob sp)) as [[[stat s]|e]|q] eqn:Es; try discriminate.
  2:{ injection E as <- <- <-. left. repeat split. }
  destruct (record_solution k1 sp stat s (reset m)) as [m2 [q|]] eqn:Er; [|discriminate].
  injection E as -> -> ->. right. exists sp, stat, s. split; [reflexivity|]. split; [exact Es|]. split.
  - assert (I : md_status (fst (record_solution k' sp stat s (reset m))) = Some stat).
    { unfold record_solution. set (I := fun m : model T => md_status m = Some stat).
      assert (Hd : forall d l m0, I m0 -> I (fst (loop_st (add_dual d) l m0))).
      { intros d l m0 H0'. apply loop_st_inv; auto. intros m1 a m2 _ I1 E1. unfold add_dual in E1.
        destruct (vget d (fst a)); cbn in E1; inversion E1; subst. exact I1. }
      change (I (fst (record_solution k' sp stat s (reset m)))). unfold record_solution.
      apply then_loop_inv; [|intros; apply then_loop_inv; [auto|intros; apply then_loop_inv; [auto|intros; apply then_loop_inv; auto]]].
      apply loop_st_inv; [|reflexivity]. intros m1 a m2 _ I1 E1. unfold add_primal in E1.
      destruct (vget (s_x s) (snd a)); cbn in E1; inversion E1; subst. exact I1. }
    rewrite Er in I. exact I.
  - destruct (le_lt_dec (m_nx (base_of (sp_prob sp))) (length (s_x s))) as [Hx|]; [|auto].
    destruct (le_lt_dec (length (m_b (base_of (sp_prob sp)))) (length (s_lam s))) as [Hl|]; [|auto].
    destruct (le_lt_dec (length (b_f (m_bufs (base_of (sp_prob sp))))) (length (s_nu s))) as [Hn|]; [|auto].
    destruct (le_lt_dec (m_nx (base_of (sp_prob sp))) (length (s_mu s))) as [Hu|]; [|auto].
    destruct (le_lt_dec (m_nx (base_of (sp_prob sp))) (length (s_pi s))) as [Hp|]; [|auto 6].
    destruct (C33_returns st solver m sp k' stat s Hh Hm Esp Es Hx Hl Hn Hu Hp) as (m2 & E2). rewrite E0 in E2. discriminate.
Qed.
(** Earlier results do not matter. *)
Theorem C35_history {T} `{Num T} `{HashOrd} solver (m1 m2 : model T) k :
  md_objective m1 = md_objective m2 -> md_constraints m1 = md_constraints m2 -> md_init m1 = md_init m2 ->
  solve solver m1 k = solve solver m2 k.
Proof.
  intros E1 E2 E3. unfold solve, reset. rewrite E1, E2, E3. reflexivity.
Qed.
(** Solving twice gives the results of the second call alone. *)
Corollary C35_twice {T} `{Num T} `{HashOrd} solver1 solver2 (m : model T) k :
  let '(m1, _, k1) := solve solver1 m k in solve solver2 m1 k1 = solve solver2 m k1.
Proof.
  destruct (solve solver1 m k) as [[m1 o] k1] eqn:E. destruct (solve_inputs _ _ _ _ _ _ E) as (A & B & C).
  apply C35_history; assumption.
Qed.
(** Nothing but the solved model changes. *)
Theorem C35_frame {T} `{Num T} `{HashOrd} (st st' : mstate T) j solver :
  mexec st (CSolve j solver) = Some st' ->
  st_pool st' = st_pool st /\ st_cons st' = st_cons st /\ length (st_models st') = length (st_models st) /\
  (forall i, i <> j -> nth_error (st_models st') i = nth_error (st_models st) i) /\
  exists m m' o, nth_error (st_models st) j = Some m /\ nth_error (st_models st') j = Some m' /\
    solve solver m (st_k st) = (m', o, st_k st').
Proof.
  cbn [mexec]. unfold opt_bind. destruct (nth_error (st_models st) j) as [m|] eqn:Ej; [|discriminate].
  destruct (solve solver m (st_k st)) as [[m' o] k'] eqn:Es. intros E. injection E as <-. cbn [st_pool st_cons st_models st_k].
  assert (G : length (set_nth (st_models st) j m') = length (st_models st) /\
              (forall i, i <> j -> nth_error (set_nth (st_models st) j m') i = nth_error (st_models st) i) /\
              nth_error (set_nth (st_models st) j m') j = Some m').
  { clear -Ej. revert j Ej. induction (st_models st) as [|a l IH]; intros [|j] Ej; cbn in *; try discriminate.
    - split; [reflexivity|]. split; [|reflexivity]. intros [|i] Hi; [congruence|reflexivity].
    - destruct (IH j Ej) as (A & B & C). split; [f_equal; exact A|]. split; [|exact C].
      intros [|i] Hi; [reflexivity|]. cbn. apply B. congruence. }
  destruct G as (A & B & C). repeat (split; [auto|]). exists m, m', o. auto.
Qed.
Example C35_example : exists m' k', @hist X _ any_op est /\ In em (st_models est) /\
  @solve X _ ord_id (fun _ => Ok (inr "no licence"%string)) em (st_k est) = (m', Returned (inr "no licence"%string), k').
Proof.
  destruct ex_std as (obj & cs & k' & Ems).
  assert (Hin : In em (st_models est)) by (cbn; auto).
  destruct (@C29_well_formed X _ ord_id est em _ k' ex_hist Hin Ems) as (sp & E & _).
  exists (reset em), k'. split; [exact ex_hist|]. split; [exact Hin|]. unfold solve. rewrite std_problem_reset, E. reflexivity.
Qed.

(** ** C36 Optimality of what [solve] records *)
Theorem C36_solve `{HashOrd} (st : mstate X) solver m m' k' :
  hist any_op st -> In m (st_models st) -> solve solver m (st_k st) = (m', Returned (inl tt), k') ->
  Forall meaningful (md_constraints m) ->
  (forall sp stat s, std_problem m (st_k st) = Ok (sp, k') -> solver (sp_prob sp) = Ok (inl (stat, s)) ->
     exists x, s_x s = pt x /\ optimal (sp_prob sp) x) ->
  model_feasible m (md_primals m') /\
  forall vs b, model_feasible m vs -> in_box 100000000 m vs -> obj_value m vs = Some b ->
    exists a, obj_value m (md_primals m') = Some a /\ (a <= b)%R.
Proof.
  intros Hh Hm E Hmean Hsol. destruct (C33_primals st solver m m' k' Hh Hm E) as (sp & stat & s & Esp & Es & _ & _ & _ & Hval).
  destruct (Hsol _ _ _ Esp Es) as (x & Ex & Hopt).
  destruct (C36_optimal st m sp k' Hh Hm Esp x Hmean Hopt) as [Hf Ho].
  assert (Hv : forall v, model_var m v -> evaluate (md_primals m') v = evaluate (at_point sp (pt x)) v).
  { intros v Hmv. destruct (C24_bijection st m sp k' Hh Hm Esp x_nm1) as (_ & _ & HA & _).
    pose proof (HA v Hmv) as Hin. apply in_map_iff in Hin as ([w i] & <- & Hin). cbn [fst] in *.
    rewrite (value_at st m sp k' Hh Hm Esp (pt x) w i Hin). destruct (Hval w i Hin) as (r & Er & _ & Hg).
    assert (Hw : is_var w = true).
    { destruct Hmv as [Hmv|(c & _ & [Hmv|Hmv])]; [destruct (md_objective m); [apply Hmv|apply Hmv|destruct Hmv]|apply Hmv|apply Hmv]. }
    destruct w; try discriminate. cbn [evaluate]. rewrite <- Ex. rewrite (nth_error_nth _ _ _ Er).
    rewrite Hg. reflexivity. }
  assert (Hc : forall c, In c (md_constraints m) ->
             evaluate (md_primals m') (clhs c) = evaluate (at_point sp (pt x)) (clhs c) /\
             evaluate (md_primals m') (crhs c) = evaluate (at_point sp (pt x)) (crhs c)).
  { intros c Hc. split; apply evaluate_ext; intros v Ho'; apply Hv; right; eauto. }
  assert (Eo : obj_value m (md_primals m') = obj_value m (at_point sp (pt x))).
  { unfold obj_value. assert (G : forall f, (forall v, occurs v f -> model_var m v) ->
      evaluate (md_primals m') f = evaluate (at_point sp (pt x)) f).
    { intros f Hocc. apply evaluate_ext. intros v Hv'. apply Hv. auto. }
    unfold model_var in G. destruct (md_objective m) as [f|f|]; [apply G; auto|f_equal; apply G; auto|reflexivity]. }
  split.
  - destruct Hf as [F1 F2]. split.
    + intros v Hmv. rewrite (Hv v Hmv). apply F1. exact Hmv.
    + rewrite Forall_forall in F2 |- *. intros c Hin. destruct (F2 c Hin) as (a & b & Ea & Eb & Hr).
      destruct (Hc c Hin) as [C1 C2]. exists a, b. rewrite C1, C2. auto.
  - intros vs b Hvs Hbox Hb. rewrite Eo. exact (Ho vs b Hvs Hbox Hb).
Qed.
Example C36_example : exists solver m' k', @hist X _ any_op (lst 1) /\ In (lm 1) (st_models (lst 1)) /\
  @solve X _ ord_id solver (lm 1) (st_k (lst 1)) = (m', Returned (inl tt), k') /\
  Forall meaningful (md_constraints (lm 1)) /\
  (forall sp stat s, @std_problem X _ ord_id (lm 1) (st_k (lst 1)) = Ok (sp, k') -> solver (sp_prob sp) = Ok (inl (stat, s)) ->
     exists x, s_x s = pt x /\ optimal (sp_prob sp) x).
Proof.
  destruct C26_C36_example as (sp & k' & x & Hh & Hin & E & Hmean & Hx).
  set (b := base_of (sp_prob sp)).
  set (solver := fun _ : problem X => Ok (inl (Solved, mk_sol (pt x) (repeat n0 (length (m_b b)))
                          (repeat n0 (length (b_f (m_bufs b)))) (repeat n0 (m_nx b)) (repeat n0 (m_nx b)))) : res (answer (T := X))).
  destruct (@C33_returns X _ ord_id (lst 1) solver (lm 1) sp k' Solved _ Hh Hin E eq_refl) as (m' & Em);
    cbn [s_x s_lam s_nu s_mu s_pi]; fold b; rewrite ?repeat_length; auto.
  { unfold pt. rewrite map_length. destruct Hx as [[Hl _] _]. rewrite Hl. auto. }
  exists solver, m', k'. repeat (split; [assumption|]). intros sp' stat s E' Es. rewrite E in E'. injection E' as <-.
  injection Es as <- <-. exists x. split; [reflexivity|exact Hx].
Qed.
