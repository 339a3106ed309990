(** Histories of integer linear models in binary64 mirror exact ones. *)
From Verif Require Import Base Num Node NodeDiff NodeStd NodeInd Constraint Matrix MatSpec Problem ModelStd Model ExprSpec EvalProofs DiffProofs
     ConstrSpec ModelSpec Api ApiProofs ModelApi HistProofs HistAff FmtProofs FloatProofs FloatOps ExactSpec ExactSim ExactF.
From Coq Require Import Reals Lra Floats.SpecFloat NArith.

Definition xrel (x : F) (y : X) : Prop := y = xval x.
Notation vw1 := (N.max 1 1).

Section Within.
(** Any limit from 1e8 (the default bounds are data too) to 2^53. *)
Variable lim : N.
Hypothesis Hlim : (lim <= exact_limit)%N.
Hypothesis Hbig : (100000000 <= lim)%N.
Notation rl := (rlim lim).
Notation RNd := (@RNode F X lim vw1 rl).
Notation RCn := (@RCon F X lim vw1 rl).
Notation RMd := (@RModel F X lim vw1 rl xrel).
Notation RNds := (@RNodes F X lim vw1 rl).

Lemma rnode_exact w n n' : RNd w n n' -> n' = exact_node n.
Proof.
  revert w n n'.
  apply (@RNode_both_ind F X lim vw1 rl (fun w n n' => n' = exact_node n) (fun w l l' => l' = map exact_node l)).
  - intros w i v v' Hw Hv. cbn. rewrite (rl_xval _ _ _ _ Hv). reflexivity.
  - reflexivity.
  - intros w i l l' Hw Hl IH. cbn. rewrite IH. reflexivity.
  - intros w w1 w2 i a a' b b' Ha IHa Hb IHb Hw Hl. cbn. rewrite IHa, IHb. reflexivity.
  - reflexivity.
  - intros w w1 w2 a a' l l' Ha IHa Hl IHl Hw Hlm. cbn. rewrite IHa, IHl. reflexivity.
Qed.
Lemma rcon_exact c c' : RCn c c' -> c' = exact_con c.
Proof.
  intros (H1 & H2 & H3 & w1 & w2 & H4 & H5 & _). destruct c, c'. cbn in *. unfold exact_con. cbn. apply rnode_exact in H4 as ->. apply rnode_exact in H5 as ->. subst. reflexivity.
Qed.
Lemma same_var_exact (n : node F) (n' : node X) : same_var n n' -> n' = exact_node n.
Proof. intros (i & s & kd & -> & ->). reflexivity. Qed.
Lemma Forall2_exact {A B} (R : A -> B -> Prop) (f : A -> B) l l' : (forall a b, R a b -> b = f a) -> Forall2 R l l' -> l' = map f l.
Proof. intros Hf. induction 1; cbn; [reflexivity|]. f_equal; auto. Qed.
Lemma rmodel_exact m m' : RMd m m' -> m' = exact_model m.
Proof.
  intros (H1 & H2 & H3 & H4 & H5 & H6). destruct m as [ob cs ini sta pr du], m' as [ob' cs' ini' sta' pr' du']. cbn in *. unfold exact_model. cbn. f_equal.
  - destruct ob, ob'; cbn in *; try contradiction; try reflexivity; destruct H1 as [w Hw]; apply rnode_exact in Hw as ->; reflexivity.
  - eapply Forall2_exact; [|exact H2]. exact rcon_exact.
  - unfold exact_vals. eapply Forall2_exact; [|exact H3]. intros [k v] [k' v'] [[w Hw] Hv]. cbn in *. apply rnode_exact in Hw as ->. rewrite Hv. reflexivity.
  - symmetry. exact H4.
  - unfold exact_vals. eapply Forall2_exact; [|exact H5]. intros [k v] [k' v'] [Hw Hv]. cbn in *. apply same_var_exact in Hw as ->. rewrite Hv. reflexivity.
  - eapply Forall2_exact; [|exact H6]. intros [k v] [k' v'] [Hw Hv]. cbn in *. apply rcon_exact in Hw as ->. rewrite Hv. reflexivity.
Qed.

Lemma map_xrel l : Forall2 xrel l (map xval l).
Proof. induction l; constructor; auto. reflexivity. Qed.
Lemma exact_answer_rel a : ans_rel xrel a (exact_answer a).
Proof. destruct a as [[[st s]|e]|p]; cbn; auto. split; [reflexivity|]. repeat split; apply map_xrel. Qed.

Section ExactHist.
  Variables fsin fcos : F -> F.
  Notation NF := (NumF fsin fcos).

  Lemma sim_sp (HO : HashOrd) m m' : neutral HO -> RMd m m' -> @aff_mod F NF m ->
    simM2 (@RSP F X lim vw1 rl xrel) (@std_problem F NF HO m) (@std_problem X _ HO m').
  Proof.
    intros Hn. apply sim_std_problem.
    - vm_compute. discriminate.
    - exact (rl_lim lim).
    - exact (rl_mono lim Hlim).
    - apply rl_lit; exact Hlim.
    - apply rl_add; exact Hlim.
    - apply rl_mul; exact Hlim.
    - apply rl_neg; exact Hlim.
    - apply rl_eqb.
    - apply rl_leb.
    - apply rl_zero; exact Hlim.
    - exact Hn.
    - intros w x y Hr. exact (rl_xval _ _ _ _ Hr).
    - exact Hbig.
  Qed.
  Lemma sim_sv (HO : HashOrd) f f' m m' k : neutral HO -> RMd m m' -> @aff_mod F NF m ->
    (forall sp sp' k1, @std_problem F NF HO (reset m) k = Ok (sp, k1) -> @std_problem X _ HO (reset m') k = Ok (sp', k1) -> @RSP F X lim vw1 rl xrel sp sp' ->
       ans_rel xrel (f (sp_prob sp)) (f' (sp_prob sp'))) ->
    let r := @solve F NF HO f m k in let r' := @solve X _ HO f' m' k in
    RMd (fst (fst r)) (fst (fst r')) /\ snd (fst r) = snd (fst r') /\ snd r = snd r'.
  Proof.
    intros Hn. apply (sim_solve lim vw1 rl).
    - vm_compute. discriminate.
    - exact (rl_lim lim).
    - exact (rl_mono lim Hlim).
    - apply rl_lit; exact Hlim.
    - apply rl_add; exact Hlim.
    - apply rl_mul; exact Hlim.
    - apply rl_neg; exact Hlim.
    - apply rl_eqb.
    - apply rl_leb.
    - apply rl_zero; exact Hlim.
    - exact Hn.
    - intros w x y Hr. exact (rl_xval _ _ _ _ Hr).
    - exact Hbig.
  Qed.

  Lemma rnode_const w n n' : RNd w n n' -> is_constant n = is_constant n'.
  Proof. destruct 1; reflexivity. Qed.

  Record HI (st : mstate F) (ws : list N) (st' : mstate X) : Prop := {
    hi_k : st_k st = st_k st';
    hi_pools : pools lim 1 (st_pool st) (st_pool st') ws;
    hi_con : Forall2 RCn (st_cons st) (st_cons st');
    hi_mod : Forall2 RMd (st_models st) (st_models st') }.
  Lemma HI_exact st ws st' : HI st ws st' -> st' = exact_state st.
  Proof.
    intros [H1 (L1 & L2 & HP) H3 H4]. destruct st as [k pool cons mods], st' as [k' pool' cons' mods']. cbn in *. unfold exact_state. cbn. f_equal.
    - auto.
    - assert (G : Forall2 (fun n n' => n' = exact_node n) pool pool').
      { clear -L1 L2 HP. revert pool' ws L1 L2 HP. induction pool as [|n pool IH]; intros [|n' pool'] [|w ws] L1 L2 HP; try discriminate; constructor.
        - destruct (HP 0 w eq_refl) as (a & a' & E1 & E2 & Hr). cbn in E1, E2. injection E1 as <-. injection E2 as <-. eapply rnode_exact, Hr.
        - apply (IH pool' ws); cbn in *; try lia. intros i u Hu. exact (HP (Datatypes.S i) u Hu). }
      eapply Forall2_exact; [|exact G]. auto.
    - eapply Forall2_exact; [|exact H3]. exact rcon_exact.
    - eapply Forall2_exact; [|exact H4]. exact rmodel_exact.
  Qed.

  Lemma Forall2_nth_l {A B} (R : A -> B -> Prop) l l' i a : Forall2 R l l' -> nth_error l i = Some a -> exists b, nth_error l' i = Some b /\ R a b.
  Proof. intros H. revert i. induction H as [|x y l l' Hxy H IH]; intros [|i] E; try discriminate; cbn in *; [injection E as <-; eauto|eauto]. Qed.
  Lemma Forall2_set_nth {A B} (R : A -> B -> Prop) l l' i a b : Forall2 R l l' -> R a b -> Forall2 R (set_nth l i a) (set_nth l' i b).
  Proof. intros H Hab. revert i. induction H as [|x y l l' Hxy H IH]; intros [|i]; cbn; constructor; auto. Qed.
  Lemma picks_sim {A B} (R : A -> B -> Prop) l l' is r : Forall2 R l l' -> picks l is = Some r -> exists r', picks l' is = Some r' /\ Forall2 R r r'.
  Proof.
    intros Hl. revert r. induction is as [|i is IH]; intros r E; cbn [picks] in *; [injection E as <-; eauto|].
    destruct (nth_error l i) as [a|] eqn:Ea; [|discriminate]. destruct (picks l is) as [r0|] eqn:Er; [|discriminate]. injection E as <-.
    destruct (Forall2_nth_l _ _ _ _ _ Hl Ea) as (b & Eb & Hab). destruct (IH _ eq_refl) as (r' & Er' & Hr'). rewrite Eb, Er'. eauto.
  Qed.
  Lemma vals_insert k k' v v' l l' : Forall2 (fun kv kv' => (exists w, RNd w (fst kv) (fst kv')) /\ xrel (snd kv) (snd kv')) l l' -> (exists w, RNd w k k') -> xrel v v' ->
    Forall2 (fun kv kv' => (exists w, RNd w (fst kv) (fst kv')) /\ xrel (snd kv) (snd kv')) (hinsert ptr_eq k v l) (hinsert ptr_eq k' v' l').
  Proof.
    intros Hl Hk Hv. induction Hl as [|[q x] [q' x'] l l' [Hq Hx] Hl IH]; cbn [hinsert]; [constructor; [split; auto|constructor]|]. cbn [fst snd] in Hq, Hx.
    assert (E : ptr_eq k q = ptr_eq k' q').
    { destruct Hk as [w1 H1], Hq as [w2 H2]. apply same_cell_ptr; eapply RNode_cell; eauto. }
    rewrite <- E. destruct (ptr_eq k q); constructor; auto; split; auto.
  Qed.
  Lemma vals_inserts kvs kvs' : Forall2 (fun kv kv' => (exists w, RNd w (fst kv) (fst kv')) /\ xrel (snd kv) (snd kv')) kvs kvs' -> forall l l',
    Forall2 (fun kv kv' => (exists w, RNd w (fst kv) (fst kv')) /\ xrel (snd kv) (snd kv')) l l' ->
    Forall2 (fun kv kv' => (exists w, RNd w (fst kv) (fst kv')) /\ xrel (snd kv) (snd kv')) (fold_left hinsert_val kvs l) (fold_left hinsert_val kvs' l').
  Proof.
    induction 1 as [|kv kv' kvs kvs' [H1 H2] H IH]; intros l l' Hl; cbn [fold_left]; [exact Hl|]. apply IH. unfold hinsert_val. apply vals_insert; auto.
  Qed.

  Lemma int_hist_aff st ws : @int_hist_within NF lim st ws -> @hist F NF affine_op st.
  Proof.
    induction 1 as [|HO st ws c st' ws' Hn Hh IH Hc E]; [apply hist_start|]. eapply (@hist_step F NF affine_op HO); [exact IH| |exact E].
    destruct Hc; cbn; auto.
  Qed.
  Lemma aff_model_mod m : @aff_model F NF m -> @aff_mod F NF m.
  Proof. intros (H1 & H2 & _). split; [exact H1|exact H2]. Qed.
  Lemma hist_mods st ws m : @int_hist_within NF lim st ws -> In m (st_models st) -> @aff_mod F NF m.
  Proof.
    intros Hh Hm. apply aff_model_mod. destruct (@hist_aff F NF st (int_hist_aff st ws Hh)) as (_ & _ & H3). rewrite Forall_forall in H3. auto.
  Qed.
  Definition pool_rel (n : node F) (n' : node X) : Prop := exists w, RNd w n n'.
  Lemma pools_forall pool pool' ws : pools lim 1 pool pool' ws -> Forall2 pool_rel pool pool'.
  Proof.
    intros (L1 & L2 & HP). revert pool' ws L1 L2 HP. induction pool as [|n pool IH]; intros [|n' pool'] [|w ws] L1 L2 HP; try discriminate; constructor.
    - destruct (HP 0 w eq_refl) as (a & a' & E1 & E2 & Hr). cbn in E1, E2. injection E1 as <-. injection E2 as <-. exists w. exact Hr.
    - apply (IH pool' ws); cbn in *; try lia. intros i u Hu. exact (HP (Datatypes.S i) u Hu).
  Qed.

  Theorem hist_exact st ws : @int_hist_within NF lim st ws -> exists st', HI st ws st' /\ @hist X _ affine_op st'.
  Proof.
    induction 1 as [|HO st ws c st2 ws2 Hn Hh (st' & HIs & Hx) Hc E].
    { exists mstart. split; [|apply hist_start]. constructor; cbn; auto. split; [reflexivity|]. split; [reflexivity|]. intros [|i] w Ei; discriminate. }
    pose proof HIs as [K1 K2 K3 K4]. pose proof (pools_forall _ _ _ K2) as KP.
    assert (Hup : forall j f f', upd_model st j f = Some st2 -> (forall md md' md1, RMd md md' -> f md = Some md1 -> exists md1', f' md' = Some md1' /\ RMd md1 md1') -> exists st2', upd_model st' j f' = Some st2' /\ HI st2 ws st2').
    { intros j f f' Eu Hf. unfold upd_model in *. destruct (nth_error (st_models st) j) as [md|] eqn:Ej; [|discriminate].
      destruct (Forall2_nth_l _ _ _ _ _ K4 Ej) as (md' & Ej' & Hmd). rewrite Ej'. destruct (f md) as [md1|] eqn:Ef; [|discriminate]. injection Eu as <-.
      destruct (Hf _ _ _ Hmd Ef) as (md1' & -> & Hmd1). eexists. split; [reflexivity|]. constructor; cbn; auto. apply Forall2_set_nth; auto. }
    assert (Hst : forall c' st2', call_ok affine_op st' c' -> @mexec X _ HO st' c' = Some st2' -> HI st2 ws2 st2' -> exists st2', HI st2 ws2 st2' /\ @hist X _ affine_op st2').
    { intros c' st2' H1 H2 H3. exists st2'. split; [exact H3|]. eapply (@hist_step X _ affine_op HO); eauto. }
    assert (Hnc : forall a a' kd b b' label wa wb, RNd wa a a' -> RNd wb b b' -> (wa + wb <= lim)%N ->
       forall k1, HI (mk_mstate (Datatypes.S k1) (st_pool st) (st_cons st ++ [mk_constraint k1 a kd b label]) (st_models st)) ws
                     (mk_mstate (Datatypes.S k1) (st_pool st') (st_cons st' ++ [mk_constraint k1 a' kd b' label]) (st_models st'))).
    { intros a a' kd b b' label wa wb Ha Hb Hl k1. constructor; cbn; auto. apply Forall2_app2; [exact K3|]. constructor; [|constructor].
      split; [reflexivity|]. split; [reflexivity|]. split; [reflexivity|]. exists wa, wb. auto. }
    destruct K2 as (L1 & L2 & HP).
    destruct Hc as [o w Ho Hs Hw|i kd j label a b Ha Hb Hl|i kd v label a z Ha Hz Hl|i kd v label a z Ha Hz Hl| |mi i|mi is|mi s i|mi|mi vs|mi solver|mi i]; cbn [mexec] in E.
    - pose proof (exec_sim fsin fcos lim Hlim 1 HO HO (st_pool st) (st_pool st') ws o w ltac:(split; auto) Hs Hw (st_k st)) as G.
      unfold new_node in E. destruct (@exec F NF HO (st_pool st) o (st_k st)) as [[n k2]|p] eqn:Eo; [|discriminate]. injection E as <-.
      destruct (@exec X _ HO (st_pool st') (exact_op o) (st_k st)) as [[n' k2']|p] eqn:Eo'; [|contradiction]. destruct G as [G1 G2]. cbn [fst snd] in G1, G2. subst k2'.
      eapply (Hst (CExpr (exact_op o))).
      + cbn [call_ok]. clear -HP Ho Hs. destruct Hs; cbn [exact_op affine_op] in *; auto.
        intros x y Ex Ey. destruct (HP _ _ H) as (n1 & n1' & E1 & E1' & R1). destruct (HP _ _ H0) as (n2 & n2' & E2 & E2' & R2).
        assert (x = n1') as -> by congruence. assert (y = n2') as -> by congruence. rewrite <- (rnode_const _ _ _ R1), <- (rnode_const _ _ _ R2). eauto.
      + cbn [mexec]. rewrite <- K1, Eo'. reflexivity.
      + constructor; cbn; auto. apply pools_snoc; [exact Hlim|split; auto|exact G2].
    - destruct (HP _ _ Ha) as (n1 & n1' & E1 & E1' & R1). destruct (HP _ _ Hb) as (n2 & n2' & E2 & E2' & R2). rewrite E1, E2 in E. cbn in E. injection E as <-.
      eapply (Hst (CCmpNN i kd j label)); [exact I| |].
      + cbn [mexec]. rewrite E1', E2'. cbn. reflexivity.
      + rewrite <- K1. eapply Hnc; eauto.
    - destruct (HP _ _ Ha) as (n1 & n1' & E1 & E1' & R1). rewrite E1 in E. cbn in E. injection E as <-.
      eapply (Hst (CCmpNS i kd (xval v) label)); [exact I| |].
      + cbn [mexec]. rewrite E1'. cbn. reflexivity.
      + rewrite <- K1. eapply (Hnc _ _ _ _ _ _ a (isize z)); eauto. constructor; [unfold isize; lia|]. apply rl_int; auto; lia.
    - destruct (HP _ _ Ha) as (n1 & n1' & E1 & E1' & R1). rewrite E1 in E. cbn in E. injection E as <-.
      eapply (Hst (CCmpSN (xval v) kd i label)); [exact I| |].
      + cbn [mexec]. rewrite E1'. cbn. reflexivity.
      + rewrite <- K1. eapply (Hnc _ _ _ _ _ _ (isize z) a); eauto. constructor; [unfold isize; lia|]. apply rl_int; auto; lia.
    - injection E as <-. eapply (Hst CNewModel); [exact I|reflexivity|]. constructor; cbn; auto; [split; auto|]. apply Forall2_app2; [exact K4|].
      constructor; [|constructor]. repeat split; constructor.
    - unfold opt_bind in E. destruct (nth_error (st_cons st) i) as [c|] eqn:Ec; [|discriminate]. destruct (Forall2_nth_l _ _ _ _ _ K3 Ec) as (c' & Ec' & Hc').
      destruct (Hup mi _ (fun md => Some (add_constraint md c')) E ltac:(clear -Hc'; intros md md' md1 (M1 & M2 & M3 & M4 & M5 & M6) Ef; injection Ef as <-; eexists; split; [reflexivity|];
        repeat split; auto; apply Forall2_app2; auto)) as (st2' & E' & Hi).
      eapply (Hst (CAddConstr mi i)); [exact I| |exact Hi]. cbn [mexec]. rewrite Ec'. exact E'.
    - unfold opt_bind in E. destruct (picks (st_cons st) is) as [cs|] eqn:Ec; [|discriminate]. destruct (picks_sim _ _ _ _ _ K3 Ec) as (cs' & Ec' & Hc').
      destruct (Hup mi _ (fun md => Some (add_constraints md cs')) E ltac:(clear -Hc'; intros md md' md1 (M1 & M2 & M3 & M4 & M5 & M6) Ef; injection Ef as <-; eexists; split; [reflexivity|];
        repeat split; auto; apply Forall2_app2; auto)) as (st2' & E' & Hi).
      eapply (Hst (CAddConstrs mi is)); [exact I| |exact Hi]. cbn [mexec]. rewrite Ec'. exact E'.
    - unfold opt_bind in E. destruct (nth_error (st_pool st) i) as [f|] eqn:Ef; [|discriminate]. destruct (Forall2_nth_l _ _ _ _ _ KP Ef) as (f' & Ef' & Hf').
      destruct (Hup mi _ (fun md => Some (set_objective md (match s with Minimise => Minimize f' | Maximise => Maximize f' end))) E ltac:(clear -Hf'; intros md md' md1 (M1 & M2 & M3 & M4 & M5 & M6) Eq; injection Eq as <-; eexists; split; [reflexivity|];
        repeat split; auto; destruct s; exact Hf')) as (st2' & E' & Hi).
      eapply (Hst (CSetObj mi s i)); [exact I| |exact Hi]. cbn [mexec]. rewrite Ef'. exact E'.
    - destruct (Hup mi _ (fun md => Some (set_objective md EmptyObj)) E ltac:(clear; intros md md' md1 (M1 & M2 & M3 & M4 & M5 & M6) Eq; injection Eq as <-; eexists; split; [reflexivity|]; repeat split; auto)) as (st2' & E' & Hi).
      eapply (Hst (CSetEmpty mi)); [exact I| |exact Hi]. exact E'.
    - unfold opt_bind in E. destruct (picks (st_pool st) (map fst vs)) as [ns|] eqn:Ec; [|discriminate]. destruct (picks_sim _ _ _ _ _ KP Ec) as (ns' & Ec' & Hns).
      set (vs' := map (fun iv => (fst iv, xval (snd iv))) vs).
      assert (Hkv : Forall2 (fun kv kv' => (exists w, RNd w (fst kv) (fst kv')) /\ xrel (snd kv) (snd kv')) (combine ns (map snd vs)) (combine ns' (map snd vs'))).
      { unfold vs'. rewrite map_map. cbn [snd]. clear -Hns. generalize vs. induction Hns as [|n n' ns ns' Hnn Hns IH]; intros [|v us]; cbn; constructor; auto. split; [exact Hnn|reflexivity]. }
      destruct (Hup mi _ (fun md => Some (@set_init_primals X HO (st_k st') md (mk_map (combine ns' (map snd vs'))))) E ltac:(clear -Hkv Hn K1; intros md md' md1 (M1 & M2 & M3 & M4 & M5 & M6) Eq; injection Eq as <-; eexists; split; [reflexivity|];
        repeat split; auto; cbn; rewrite <- K1; apply vals_inserts; [|constructor]; apply Hn; unfold mk_map; apply vals_inserts; [exact Hkv|constructor])) as (st2' & E' & Hi).
      eapply (Hst (CInit mi vs')); [exact I| |exact Hi]. cbn [mexec]. replace (map fst vs') with (map fst vs) by (unfold vs'; rewrite map_map; reflexivity). rewrite Ec'. exact E'.
    - unfold opt_bind in E. destruct (nth_error (st_models st) mi) as [md|] eqn:Ej; [|discriminate]. destruct (Forall2_nth_l _ _ _ _ _ K4 Ej) as (md' & Ej' & Hmd).
      set (ans := match @std_problem F NF HO (reset md) (st_k st) with Ok (sp, _) => exact_answer (solver (sp_prob sp)) | Panic p => Panic p end).
      pose proof (sim_sv HO solver (fun _ => ans) md md' (st_k st) Hn Hmd (hist_mods st ws md Hh (nth_error_In _ _ Ej))) as G. cbv zeta in G.
      destruct G as (G1 & G2 & G3).
      { intros sp sp' k1 Es Es' _. unfold ans. rewrite Es. apply exact_answer_rel. }
      destruct (@solve F NF HO solver md (st_k st)) as [[md1 o1] k1] eqn:Esv. destruct (@solve X _ HO (fun _ => ans) md' (st_k st)) as [[md1' o1'] k1'] eqn:Esv'. cbn [fst snd] in G1, G2, G3. subst o1' k1'. injection E as <-.
      eapply (Hst (CSolve mi (fun _ => ans))); [exact I| |].
      + cbn [mexec]. rewrite Ej'. cbn [opt_bind]. rewrite <- K1, Esv'. reflexivity.
      + constructor; cbn; auto; [split; auto|]. apply Forall2_set_nth; auto.
    - unfold opt_bind in E. destruct (nth_error (st_models st) mi) as [md|] eqn:Ej; [|discriminate]. destruct (Forall2_nth_l _ _ _ _ _ K4 Ej) as (md' & Ej' & Hmd).
      destruct (nth_error (md_primals md) i) as [vx|] eqn:Ei; [|discriminate]. injection E as <-. pose proof Hmd as (_ & _ & _ & _ & M5 & _).
      destruct (Forall2_nth_l _ _ _ _ _ M5 Ei) as (vx' & Ei' & (Hv & _)).
      eapply (Hst (CPrimalKey mi i)); [exact I| |].
      + cbn [mexec]. rewrite Ej'. cbn [opt_bind]. rewrite Ei'. reflexivity.
      + constructor; cbn; auto. apply pools_snoc; [exact Hlim|split; auto|]. destruct Hv as (q & s & kd & -> & ->). constructor; lia.
  Qed.
End ExactHist.
End Within.
