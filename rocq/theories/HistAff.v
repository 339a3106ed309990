(** Histories whose expression calls are all affine. *)
From Verif Require Import Base Num Node NodeInd NodeDiff NodeStd Constraint Matrix Problem ModelStd Model
     ExprSpec World MapProofs StdPropProofs GradProofs ConstrProofs PartsProofs
     BuildProofs BuildMain StdMain Api ApiProofs ModelApi HistProofs.

Section HistAff1.
  Context {T : Type} `{Num T} `{HashOrd}.

  Definition aff_model (m : model T) : Prop :=
    match md_objective m with Minimize f | Maximize f => aff f = true | EmptyObj => True end /\
    Forall (fun c => aff (clhs c) = true /\ aff (crhs c) = true) (md_constraints m) /\
    Forall (fun vx => aff (fst vx) = true) (md_primals m).

  Lemma solve_aff k S solver (m m' : model T) o k' :
    world false k S -> model_in S m -> aff_model m -> solve solver m k = (m', o, k') -> aff_model m'.
  Proof.
    intros HW Hm (A1 & A2 & A3) E. destruct (solve_inputs solver m k m' o k' E) as (Q1 & Q2 & _).
    split; [rewrite Q1; exact A1|]. split; [rewrite Q2; exact A2|]. clear Q1 Q2 A1 A2 A3.
    unfold solve in E. destruct (std_problem (reset m) k) as [[sp k1]|p] eqn:Ep.
    2: { inversion E; subst. constructor. }
    destruct (std_problem_run false k S (reset m) sp k1 HW (reset_in _ _ Hm) Ep)
      as (obj & S' & eo & ke & ko & ps & ar & jr & uc & lc & Em & R & -> & _).
    destruct (solver _) as [[[s0 s]|e]|p]; [|inversion E; subst; constructor|inversion E; subst; constructor].
    destruct (record_solution _ _ s0 s (reset m)) as [m2 op] eqn:Er.
    assert (m' = m2) as -> by (destruct op; inversion E; auto).
    match type of Er with record_solution ?t ?sp0 _ _ _ = _ =>
      pose proof (record_inputs t sp0 s0 s (reset m)) as [_ G] end.
    rewrite Er in G. cbn [fst md_primals reset map sp_var2index] in G.
    apply Forall_forall. intros [v x] Hv. cbn [fst].
    destruct (G v) as [Gv|[]]; [apply (in_map fst) in Hv; exact Hv|].
    rewrite run_v2i_keys in Gv. destruct (run_vars_world _ _ _ _ _ _ _ _ _ _ _ _ _ v R Gv) as [_ Hvar].
    destruct v; try discriminate. reflexivity.
  Qed.

  Lemma set_nth_Forall {A} (P : A -> Prop) l i a : Forall P l -> P a -> Forall P (set_nth l i a).
  Proof. intros Hl Ha. revert i; induction Hl as [|b l Hb Hl IH]; intros [|i]; cbn; constructor; auto. Qed.

End HistAff1.

Section HistAff2.
  Context {T : Type} `{Num T}.

  Lemma hist_weaken (P Q : list (node T) -> op T -> Prop) st :
    (forall pool o, P pool o -> Q pool o) -> hist P st -> hist Q st.
  Proof.
    intros Hpq. induction 1 as [|HO st c st' Hh IH Hok E]; [constructor|].
    eapply hist_step; eauto. destruct c; cbn in *; auto.
  Qed.

  Theorem hist_aff st : hist affine_op st ->
    Forall (fun n => aff n = true) (st_pool st) /\
    Forall (fun c => aff (clhs c) = true /\ aff (crhs c) = true) (st_cons st) /\
    Forall aff_model (st_models st).
  Proof.
    induction 1 as [|HO st c st' Hh (IP & IC & IM) Hok E]; [repeat split; constructor|].
    destruct (hist_inv false st) as (S & Hi); [eapply hist_weaken; [|exact Hh]; intros; exact I|].
    assert (Hp : forall i a, nth_error (st_pool st) i = Some a -> aff a = true).
    { intros i a Ha. rewrite Forall_forall in IP. eauto using nth_error_In. }
    assert (HC : forall i a, nth_error (st_cons st) i = Some a -> aff (clhs a) = true /\ aff (crhs a) = true).
    { intros i a Ha. rewrite Forall_forall in IC. eauto using nth_error_In. }
    assert (HM : forall i a, nth_error (st_models st) i = Some a -> aff_model a).
    { intros i a Ha. rewrite Forall_forall in IM. eauto using nth_error_In. }
    assert (Hupd : forall j f st1, upd_model st j f = Some st1 ->
      (forall md md', aff_model md -> f md = Some md' -> aff_model md') ->
      Forall (fun n => aff n = true) (st_pool st1) /\
      Forall (fun c => aff (clhs c) = true /\ aff (crhs c) = true) (st_cons st1) /\
      Forall aff_model (st_models st1)).
    { intros j f st1 Eu Hf. unfold upd_model in Eu. destruct (nth_error (st_models st) j) as [md|] eqn:Ej; [|discriminate].
      destruct (f md) as [md'|] eqn:Ef; [|discriminate]. inversion Eu; subst. cbn.
      split; [exact IP|]. split; [exact IC|]. apply set_nth_Forall; [exact IM|]. eauto. }
    assert (Hnew : forall a kd b label k1, aff a = true -> aff b = true ->
      Forall (fun c => aff (clhs c) = true /\ aff (crhs c) = true) (st_cons st ++ [mk_constraint k1 a kd b label])).
    { intros. apply Forall_app. split; [exact IC|]. constructor; [cbn; auto|constructor]. }
    destruct c as [o|i kd j label|i kd v label|v kd i label| |j i|j is|j s i|j|j values|j solver|j i]; cbn [mexec] in E.
    - unfold new_node in E. destruct (exec (st_pool st) o (st_k st)) as [[n k']|p] eqn:Eo; [|discriminate].
      inversion E; subst. cbn. split; [|split; auto]. apply Forall_app. split; [exact IP|]. constructor; [|constructor].
      eapply (exec_aff false _ S (st_pool st) o (hi_world _ _ _ Hi) (hi_pool _ _ _ Hi) IP Hok); eauto.
    - unfold opt_bind in E. destruct (nth_error (st_pool st) i) as [a|] eqn:Ea; [|discriminate].
      destruct (nth_error (st_pool st) j) as [b|] eqn:Eb; [|discriminate]. cbn in E. inversion E; subst. cbn.
      split; [exact IP|]. split; [|exact IM]. apply Hnew; eauto.
    - unfold opt_bind in E. destruct (nth_error (st_pool st) i) as [a|] eqn:Ea; [|discriminate].
      cbn in E. inversion E; subst. cbn. split; [exact IP|]. split; [|exact IM]. apply Hnew; eauto.
    - unfold opt_bind in E. destruct (nth_error (st_pool st) i) as [a|] eqn:Ea; [|discriminate].
      cbn in E. inversion E; subst. cbn. split; [exact IP|]. split; [|exact IM]. apply Hnew; eauto.
    - inversion E; subst. cbn. split; [exact IP|]. split; [exact IC|]. apply Forall_app. split; [exact IM|].
      constructor; [|constructor]. repeat split; constructor.
    - unfold opt_bind in E. destruct (nth_error (st_cons st) i) as [c|] eqn:Ec; [|discriminate].
      eapply Hupd; [exact E|]. intros md md' (M1 & M2 & M3) Ef. inversion Ef; subst. split; [exact M1|]. split; [|exact M3].
      cbn. apply Forall_app. split; [exact M2|]. constructor; [eauto|constructor].
    - unfold opt_bind in E. destruct (picks (st_cons st) is) as [cs|] eqn:Ec; [|discriminate].
      eapply Hupd; [exact E|]. intros md md' (M1 & M2 & M3) Ef. inversion Ef; subst. split; [exact M1|]. split; [|exact M3].
      cbn. apply Forall_app. split; [exact M2|]. apply Forall_forall. intros c Hc. pose proof (picks_in _ _ _ Ec c Hc) as Hin.
      rewrite Forall_forall in IC. auto.
    - unfold opt_bind in E. destruct (nth_error (st_pool st) i) as [f|] eqn:Ef; [|discriminate].
      eapply Hupd; [exact E|]. intros md md' (M1 & M2 & M3) Ef'. inversion Ef'; subst. split; [|split; [exact M2|exact M3]].
      cbn. destruct s; eauto.
    - eapply Hupd; [exact E|]. intros md md' (M1 & M2 & M3) Ef'. inversion Ef'; subst. split; [exact I|]. split; [exact M2|exact M3].
    - unfold opt_bind in E. destruct (picks (st_pool st) (map fst values)) as [ns|] eqn:Ec; [|discriminate].
      eapply Hupd; [exact E|]. intros md md' HA Ef'. inversion Ef'; subst. exact HA.
    - unfold opt_bind in E. destruct (nth_error (st_models st) j) as [md|] eqn:Ej; [|discriminate].
      destruct (solve solver md (st_k st)) as [[md' o] k'] eqn:Es. inversion E; subst. cbn.
      split; [exact IP|]. split; [exact IC|]. apply set_nth_Forall; [exact IM|].
      pose proof (hi_models _ _ _ Hi) as G. rewrite Forall_forall in G.
      destruct (G md (nth_error_In _ _ Ej)) as (M1 & _ & _).
      exact (solve_aff _ S solver md md' o k' (hi_world _ _ _ Hi) M1 (HM j md Ej) Es).
    - unfold opt_bind in E. destruct (nth_error (st_models st) j) as [md|] eqn:Ej; [|discriminate].
      destruct (nth_error (md_primals md) i) as [vx|] eqn:Ei; [|discriminate]. inversion E; subst. cbn.
      split; [|split; auto]. apply Forall_app. split; [exact IP|]. constructor; [|constructor].
      destruct (HM j md Ej) as (_ & _ & M3). rewrite Forall_forall in M3. eauto using nth_error_In.
  Qed.
End HistAff2.
