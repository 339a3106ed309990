(** Invariants of API histories. *)
From Verif Require Import Base Num Node NodeInd NodeDiff NodeStd Constraint Matrix Problem ModelStd Model
     ExprSpec World MapProofs StdPropProofs GradProofs ConstrProofs PartsProofs
     BuildProofs BuildMain StdMain Api ApiProofs ModelApi.

Section Hist1.
  Context {T : Type} `{Num T} `{HashOrd}.

  (** ** [solve] and the fields it leaves alone *)
  Definition same_inputs (m m' : model T) : Prop :=
    md_objective m' = md_objective m /\ md_constraints m' = md_constraints m /\ md_init m' = md_init m.
  Lemma same_inputs_refl m : same_inputs m m. Proof. repeat split. Qed.
  Lemma same_inputs_trans a b c : same_inputs a b -> same_inputs b c -> same_inputs a c.
  Proof. intros (?&?&?) (?&?&?); repeat split; congruence. Qed.

  Lemma loop_st_inv {St A} (f : St -> A -> res St) (I : St -> Prop) l s :
    (forall s a s', In a l -> I s -> f s a = Ok s' -> I s') -> I s -> I (fst (loop_st f l s)).
  Proof.
    revert s; induction l as [|a l IH]; intros s Hf Hs; cbn; auto.
    destruct (f s a) as [s'|p] eqn:E; auto. apply IH; [intros; eapply Hf; cbn; eauto|]. eapply Hf; cbn; eauto.
  Qed.
  Lemma then_loop_inv {St} (I : St -> Prop) r f :
    I (fst r) -> (forall s, I s -> I (fst (f s))) -> I (fst (then_loop (S := St) r f)).
  Proof. unfold then_loop. destruct (snd r); auto. Qed.

  Lemma hinsert_keys_in {V} (k : node T) (v : V) m x :
    In x (map fst (hinsert ptr_eq k v m)) -> x = k \/ In x (map fst m).
  Proof.
    rewrite keys_hinsert. destruct (existsb (ptr_eq k) (map fst m)); auto.
    rewrite in_app_iff; cbn; intuition.
  Qed.

  Lemma record_inputs t sp s0 s m :
    same_inputs m (fst (record_solution t sp s0 s m)) /\
    forall v, In v (map fst (md_primals (fst (record_solution t sp s0 s m)))) ->
              In v (map fst (sp_var2index sp)) \/ In v (map fst (md_primals m)).
  Proof.
    set (Iv := fun m' : model T => same_inputs m m' /\
      forall v, In v (map fst (md_primals m')) -> In v (map fst (sp_var2index sp)) \/ In v (map fst (md_primals m))).
    change (Iv (fst (record_solution t sp s0 s m))). unfold record_solution.
    assert (Hd : forall d l m0, Iv m0 -> Iv (fst (loop_st (add_dual d) l m0))).
    { intros d l m0 Hm0. apply loop_st_inv; auto. intros m1 a m2 _ I1 E. unfold add_dual in E.
      destruct (vget d (fst a)); cbn in E; inversion E; subst. destruct I1 as [J1 J2]. split; auto. }
    apply then_loop_inv; [|intros; apply then_loop_inv; [auto|intros; apply then_loop_inv; [auto|intros; apply then_loop_inv; auto]]].
    apply loop_st_inv.
    - intros m1 a m2 Ha [J1 J2] E. unfold add_primal in E. destruct (vget (s_x s) (snd a)); cbn in E; inversion E; subst.
      split; [exact J1|]. cbn [md_primals]. intros v Hv. apply hinsert_keys_in in Hv as [->|Hv]; auto.
      left. apply in_map. eapply Permutation_in; [apply ord_perm|]. exact Ha.
    - split; [repeat split|]. cbn. auto.
  Qed.

  Lemma solve_inputs solver m k m' o k' :
    solve solver m k = (m', o, k') -> same_inputs m m'.
  Proof.
    unfold solve. intros E. destruct (std_problem (reset m) k) as [[sp k1]|p].
    2: { inversion E; subst. repeat split. }
    destruct (solver (sp_prob sp)) as [[[s0 s]|e]|p].
    - destruct (record_solution k1 sp s0 s (reset m)) as [m2 op] eqn:Er.
      pose proof (record_inputs k1 sp s0 s (reset m)) as [G _]. rewrite Er in G. cbn in G.
      assert (m' = m2) by (destruct op; inversion E; auto). subst. exact G.
    - inversion E; subst. repeat split.
    - inversion E; subst. repeat split.
  Qed.

  Lemma reset_in (S : node T -> Prop) (m : model T) : model_in S m -> model_in S (reset m).
  Proof. intros [A B C D]. constructor; auto. Qed.

  Lemma run_v2i_keys (vars : list (node T)) : map fst (v2i_of vars) = vars.
  Proof. apply enum_keys. Qed.

  Lemma solve_grows nsq k S solver (m m' : model T) o k' :
    world nsq k S -> model_in S m -> solve solver m k = (m', o, k') ->
    k <= k' /\ exists S', incl S S' /\ world nsq k' S' /\ Forall (fun vx => S' (fst vx)) (md_primals m').
  Proof.
    intros HW Hm. unfold solve. intros E. destruct (std_problem (reset m) k) as [[sp k1]|p] eqn:Ep.
    2: { inversion E; subst. split; auto. exists S. split; [apply incl_refl|]. split; [exact HW|constructor]. }
    destruct (std_problem_run nsq k S (reset m) sp k1 HW (reset_in _ _ Hm) Ep)
      as (obj & S' & eo & ke & ko & ps & ar & jr & uc & lc & Em & R & -> & _).
    pose proof (sr_le _ _ _ _ _ _ _ _ _ _ _ _ _ R) as Hle.
    destruct (solver _) as [[[s0 s]|e]|p].
    - destruct (record_solution _ _ s0 s (reset m)) as [m2 op] eqn:Er.
      assert (m' = m2 /\ k' = k1) as [-> ->] by (destruct op; inversion E; auto).
      split; [lia|]. exists S'. split; [apply R|]. split; [apply R|].
      match type of Er with record_solution ?t ?sp0 _ _ _ = _ =>
        pose proof (record_inputs t sp0 s0 s (reset m)) as [_ G] end.
      rewrite Er in G. cbn [fst md_primals reset map sp_var2index] in G.
      apply Forall_forall. intros [v x] Hv. cbn [fst].
      destruct (G v) as [Gv|[]]; [apply (in_map fst) in Hv; exact Hv|].
      rewrite run_v2i_keys in Gv. apply (run_vars_world _ _ _ _ _ _ _ _ _ _ _ _ _ v R Gv).
    - inversion E; subst. split; [lia|]. exists S'. split; [apply R|]. split; [apply R|constructor].
    - inversion E; subst. split; [lia|]. exists S'. split; [apply R|]. split; [apply R|constructor].
  Qed.

  (** ** The invariant *)
  Record hinv (nsq : bool) (st : mstate T) (S : node T -> Prop) : Prop := {
    hi_world : world nsq (st_k st) S;
    hi_pool : Forall S (st_pool st);
    hi_cons : Forall (fun c => S (clhs c) /\ S (crhs c) /\ cid c < st_k st) (st_cons st);
    hi_coh : forall c c', In c (st_cons st) -> In c' (st_cons st) -> cid c = cid c' -> c = c';
    hi_models : Forall (fun m => model_in S m /\ (forall c, In c (md_constraints m) -> In c (st_cons st)) /\
                                 Forall (fun vx => S (fst vx)) (md_primals m)) (st_models st)
  }.

  Lemma model_in_mono (S S' : node T -> Prop) m : incl S S' -> model_in S m -> model_in S' m.
  Proof.
    intros Hi [A B C D]. constructor; auto.
    - destruct (md_objective m); auto.
    - eapply Forall_impl; [|exact B]. intros c []; auto.
    - eapply Forall_impl; [|exact D]. intros c; apply Hi.
  Qed.
  Lemma hinv_mono nsq st S k' S' :
    hinv nsq st S -> st_k st <= k' -> incl S S' -> world nsq k' S' ->
    hinv nsq (mk_mstate k' (st_pool st) (st_cons st) (st_models st)) S'.
  Proof.
    intros [A B C D E] Hk Hi HW. constructor; cbn; auto.
    - eapply Forall_impl; [|exact B]. auto.
    - eapply Forall_impl; [|exact C]. cbn. intros c (H1 & H2 & H3). repeat split; auto. lia.
    - eapply Forall_impl; [|exact E]. cbn. intros m (H1 & H2 & H3). split; [|split; [exact H2|]].
      + eapply model_in_mono; eauto.
      + eapply Forall_impl; [|exact H3]. cbn; auto.
  Qed.
  Lemma hinv_pool nsq st S n : hinv nsq st S -> S n ->
    hinv nsq (mk_mstate (st_k st) (st_pool st ++ [n]) (st_cons st) (st_models st)) S.
  Proof. intros [A B C D E] Sn. constructor; cbn; auto. apply Forall_app; auto. Qed.
  Lemma hinv_cons nsq st S c : hinv nsq st S -> S (clhs c) -> S (crhs c) -> cid c < st_k st ->
    (forall c', In c' (st_cons st) -> cid c' <> cid c) ->
    hinv nsq (mk_mstate (st_k st) (st_pool st) (st_cons st ++ [c]) (st_models st)) S.
  Proof.
    intros [A B C D E] Sl Sr Hc Hn. constructor; cbn; auto.
    - apply Forall_app; auto.
    - intros c1 c2 H1 H2 E12. apply in_app_or in H1 as [H1|[<-|[]]]; apply in_app_or in H2 as [H2|[<-|[]]]; auto.
      + destruct (Hn _ H1); auto.
      + destruct (Hn _ H2); auto.
    - eapply Forall_impl; [|exact E]. cbn. intros m (H1 & H2 & H3). split; [auto|]. split; [|auto].
      intros c' Hc'. apply in_or_app; auto.
  Qed.
  Lemma hinv_model nsq st S i m : hinv nsq st S ->
    model_in S m -> (forall c, In c (md_constraints m) -> In c (st_cons st)) ->
    Forall (fun vx => S (fst vx)) (md_primals m) ->
    hinv nsq (mk_mstate (st_k st) (st_pool st) (st_cons st) (set_nth (st_models st) i m)) S.
  Proof.
    intros [A B C D E] H1 H2 H3. constructor; cbn; auto. clear -E H1 H2 H3. revert i.
    induction E as [|x l Hx E IH]; intros [|i]; cbn; constructor; auto.
  Qed.
  (** A new constraint takes the next cell. *)
  Lemma hinv_new_constr nsq st S a kd b label :
    hinv nsq st S -> S a -> S b ->
    hinv nsq (mk_mstate (Datatypes.S (st_k st)) (st_pool st) (st_cons st ++ [mk_constraint (st_k st) a kd b label]) (st_models st)) S.
  Proof.
    intros Hi Sa Sb.
    assert (W : world nsq (Datatypes.S (st_k st)) S).
    { destruct (hi_world _ _ _ Hi) as [A B C D]. constructor; auto. intros n Sn. specialize (B n Sn). lia. }
    pose proof (hinv_mono nsq st S _ S Hi (Nat.le_succ_diag_r _) (incl_refl S) W) as Hi1.
    apply (hinv_cons _ _ _ (mk_constraint (st_k st) a kd b label) Hi1); cbn; auto.
    intros c' Hc'. pose proof (hi_cons _ _ _ Hi) as G. rewrite Forall_forall in G.
    destruct (G c' Hc') as (_ & _ & G3). lia.
  Qed.

  Lemma mk_map_nodup (kvs : list (node T * T)) : nodupk ptr_eq (map fst (mk_map kvs)).
  Proof.
    unfold mk_map. assert (G : nodupk ptr_eq (map fst (@nil (node T * T)))) by exact I.
    revert G. generalize (@nil (node T * T)) as l. induction kvs as [|[v x] kvs IH]; intros l Hl; cbn [fold_left]; auto.
    apply IH. unfold hinsert_val. apply nodupk_hinsert; auto.
  Qed.
  Lemma mk_map_keys (kvs : list (node T * T)) v : In v (map fst (mk_map kvs)) -> In v (map fst kvs).
  Proof.
    unfold mk_map. assert (G : forall l, In v (map fst (fold_left hinsert_val kvs l)) -> In v (map fst l) \/ In v (map fst kvs)).
    { induction kvs as [|[w x] kvs IH]; intros l Hv; cbn [fold_left map] in *; [auto|].
      apply IH in Hv as [Hv|Hv]; [|cbn; auto]. unfold hinsert_val in Hv. rewrite keys_hinsert in Hv. cbn [fst] in Hv.
      destruct (existsb _ _); [auto|]. apply in_app_or in Hv as [Hv|[Hv|[]]]; cbn; auto. }
    intros Hv. apply G in Hv as [[]|Hv]; exact Hv.
  Qed.
  Lemma picks_in {A} (l : list A) is r : picks l is = Some r -> forall a, In a r -> In a l.
  Proof.
    revert r; induction is as [|i is IH]; intros r E a Ha; cbn in E.
    - inversion E; subst. destruct Ha.
    - destruct (nth_error l i) eqn:E1; [|discriminate]. destruct (picks l is) eqn:E2; [|discriminate].
      inversion E; subst. destruct Ha as [<-|Ha]; eauto using nth_error_In.
  Qed.

End Hist1.

Section Hist2.
  Context {T : Type} `{Num T}.

  Theorem hist_inv nsq st : hist (allowed nsq) st -> exists S, hinv nsq st S.
  Proof.
    induction 1 as [|HO st c st' Hh (S & Hi) Hok E].
    - exists (fun _ => False). constructor; cbn; auto; [apply world_empty|intros c c' []].
    - assert (Hp : forall i a, nth_error (st_pool st) i = Some a -> S a).
      { intros i a Ha. pose proof (hi_pool _ _ _ Hi) as G. rewrite Forall_forall in G. eauto using nth_error_In. }
      assert (Hm : forall i m, nth_error (st_models st) i = Some m -> model_in S m /\
                 (forall c, In c (md_constraints m) -> In c (st_cons st)) /\ Forall (fun vx => S (fst vx)) (md_primals m)).
      { intros i m Hm. pose proof (hi_models _ _ _ Hi) as G. rewrite Forall_forall in G. eauto using nth_error_In. }
      assert (Hc : forall c, In c (st_cons st) -> S (clhs c) /\ S (crhs c)).
      { intros c0 Hc0. pose proof (hi_cons _ _ _ Hi) as G. rewrite Forall_forall in G. destruct (G c0 Hc0) as (?&?&?); auto. }
      pose proof (hi_world _ _ _ Hi) as HW.
      assert (Hupd : forall j f st1, upd_model st j f = Some st1 ->
        (forall md md', nth_error (st_models st) j = Some md -> f md = Some md' ->
           model_in S md -> (forall c, In c (md_constraints md) -> In c (st_cons st)) ->
           Forall (fun vx => S (fst vx)) (md_primals md) ->
           model_in S md' /\ (forall c, In c (md_constraints md') -> In c (st_cons st)) /\
           Forall (fun vx => S (fst vx)) (md_primals md')) -> hinv nsq st1 S).
      { intros j f st1 Eu Hf. unfold upd_model in Eu. destruct (nth_error (st_models st) j) as [md|] eqn:Ej; [|discriminate].
        destruct (f md) as [md'|] eqn:Ef; [|discriminate]. inversion Eu; subst.
        destruct (Hm j md Ej) as (M1 & M2 & M3). destruct (Hf md md' eq_refl Ef M1 M2 M3) as (N1 & N2 & N3).
        apply hinv_model; auto. }
      destruct c as [o|i kd j label|i kd v label|v kd i label| |j i|j is|j s i|j|j values|j solver|j i]; cbn [mexec] in E.
      + unfold new_node in E. destruct (exec (st_pool st) o (st_k st)) as [[n k']|p] eqn:Eo; [|discriminate].
        inversion E; subst. destruct (exec_grows nsq _ S _ o HW (hi_pool _ _ _ Hi) Hok _ _ Eo) as (K & S' & I' & W' & Sn).
        exists S'. apply (hinv_pool nsq (mk_mstate k' (st_pool st) (st_cons st) (st_models st))); auto.
        eapply hinv_mono; eauto.
      + unfold opt_bind in E. destruct (nth_error (st_pool st) i) as [a|] eqn:Ea; [|discriminate].
        destruct (nth_error (st_pool st) j) as [b|] eqn:Eb; [|discriminate]. cbn in E. inversion E; subst.
        exists S. apply hinv_new_constr; eauto.
      + unfold opt_bind in E. destruct (nth_error (st_pool st) i) as [a|] eqn:Ea; [|discriminate].
        destruct (mk_const_grows nsq _ S v HW _ _ eq_refl) as (K & S' & I' & W' & Sn & _).
        cbn in E. inversion E; subst. exists S'.
        apply (hinv_new_constr nsq (mk_mstate (Datatypes.S (st_k st)) (st_pool st) (st_cons st) (st_models st)) S'); eauto.
        eapply hinv_mono; eauto.
      + unfold opt_bind in E. destruct (nth_error (st_pool st) i) as [a|] eqn:Ea; [|discriminate].
        destruct (mk_const_grows nsq _ S v HW _ _ eq_refl) as (K & S' & I' & W' & Sn & _).
        cbn in E. inversion E; subst. exists S'.
        apply (hinv_new_constr nsq (mk_mstate (Datatypes.S (st_k st)) (st_pool st) (st_cons st) (st_models st)) S'); eauto.
        eapply hinv_mono; eauto.
      + inversion E; subst. exists S. destruct Hi as [A B C D F]. constructor; cbn; auto.
        apply Forall_app; split; auto. constructor; [|constructor]. cbn. split; [|split; [intros c []|constructor]].
        constructor; cbn; auto.
      + unfold opt_bind in E. destruct (nth_error (st_cons st) i) as [c|] eqn:Ec; [|discriminate].
        exists S. eapply Hupd; [exact E|]. intros md md' _ Ef [M1a M1b M1c M1d] M2 M3. inversion Ef; subst.
        assert (In c (st_cons st)) by eauto using nth_error_In.
        split; [constructor; cbn; auto; apply Forall_app; auto|]. split; auto. cbn. intros c0 Hc0.
        apply in_app_or in Hc0 as [Hc0|[<-|[]]]; auto.
      + unfold opt_bind in E. destruct (picks (st_cons st) is) as [cs|] eqn:Ec; [|discriminate].
        exists S. eapply Hupd; [exact E|]. intros md md' _ Ef [M1a M1b M1c M1d] M2 M3. inversion Ef; subst.
        pose proof (picks_in _ _ _ Ec) as Hin.
        split; [constructor; cbn; auto; apply Forall_app; split; auto; apply Forall_forall; auto|]. split; auto. cbn. intros c0 Hc0.
        apply in_app_or in Hc0 as [Hc0|Hc0]; auto.
      + unfold opt_bind in E. destruct (nth_error (st_pool st) i) as [f|] eqn:Ef; [|discriminate].
        exists S. eapply Hupd; [exact E|]. intros md md' _ Ef' [M1a M1b M1c M1d] M2 M3. inversion Ef'; subst.
        split; [constructor; cbn; auto; destruct s; eauto|]. split; auto.
      + exists S. eapply Hupd; [exact E|]. intros md md' _ Ef' [M1a M1b M1c M1d] M2 M3. inversion Ef'; subst.
        split; [constructor; cbn; auto|]. split; auto.
      + unfold opt_bind in E. destruct (picks (st_pool st) (map fst values)) as [ns|] eqn:Ec; [|discriminate].
        exists S. eapply Hupd; [exact E|]. intros md md' _ Ef' [M1a M1b M1c M1d] M2 M3. inversion Ef'; subst.
        split; [constructor; cbn; auto; [apply mk_map_nodup|]|split; auto].
        apply Forall_forall. intros vx Hvx. apply (in_map fst) in Hvx. apply mk_map_keys in Hvx.
        assert (Hvx' : In (fst vx) (map fst (mk_map (combine ns (map snd values))))).
        { eapply Permutation_in; [apply Permutation_map, ord_perm|exact Hvx]. }
        apply mk_map_keys in Hvx'. clear Hvx. rename Hvx' into Hvx.
        apply in_map_iff in Hvx as ([a b] & <- & Hab). apply in_combine_l in Hab. cbn [fst].
        pose proof (hi_pool _ _ _ Hi) as G. rewrite Forall_forall in G. apply G. exact (picks_in _ _ _ Ec a Hab).
      + unfold opt_bind in E. destruct (nth_error (st_models st) j) as [md|] eqn:Ej; [|discriminate].
        destruct (solve solver md (st_k st)) as [[md' o] k'] eqn:Es. inversion E; subst.
        destruct (Hm j md Ej) as (M1 & M2 & M3).
        destruct (solve_grows nsq _ S solver md md' o k' HW M1 Es) as (K & S' & I' & W' & HP).
        destruct (solve_inputs solver md _ md' o k' Es) as (Q1 & Q2 & Q3).
        exists S'. apply (hinv_model nsq (mk_mstate k' (st_pool st) (st_cons st) (st_models st)) S'); auto.
        * eapply hinv_mono; eauto.
        * apply (model_in_mono S S' md' I'). destruct M1 as [A B C D]. constructor; rewrite ?Q1, ?Q2, ?Q3; auto.
        * rewrite Q2. auto.
      + unfold opt_bind in E. destruct (nth_error (st_models st) j) as [md|] eqn:Ej; [|discriminate].
        destruct (nth_error (md_primals md) i) as [vx|] eqn:Ei; [|discriminate]. inversion E; subst.
        exists S. destruct (Hm j md Ej) as (M1 & M2 & M3). apply hinv_pool; auto.
        rewrite Forall_forall in M3. eauto using nth_error_In.
  Qed.
End Hist2.
