(** The components of a standard problem are what the operators return. *)
From Verif Require Import Base Num Node NodeInd NodeDiff NodeStd Constraint Matrix Problem ModelStd Api ApiProofs
     ExprSpec World MapProofs StdPropProofs EvalProofs PathProofs DerivProofs DiffProofs PanicProofs GradProofs CompProofs
     Sim OccProofs ConstrSpec ConstrProofs ConstrEquiv PartsProofs StdFacts JacProofs HashProofs
     MatSpec MatrixProofs ProblemProofs BuildProofs BuildMain ModelSpec PointProofs EvalRun Properties_Eval
     DerivVars BitSpec.

(** *** Entries of the matrices *)
Lemma entries_with {T A} (l : list A) (r c : A -> nat) (d : A -> T) n m dd :
  entries (with_data (mk_coo n m (map r l) (map c l) dd) (map d l)) = map (fun a => (r a, c a, d a)) l.
Proof.
  unfold entries, with_data. cbn [coo_ri coo_ci coo_data]. induction l as [|a l IH]; [reflexivity|].
  cbn [map combine]. rewrite IH. reflexivity.
Qed.
Lemma entries_plain {T A} (l : list A) (r c : A -> nat) (d : A -> T) n m :
  entries (mk_coo n m (map r l) (map c l) (map d l)) = map (fun a => (r a, c a, d a)) l.
Proof.
  unfold entries. cbn [coo_ri coo_ci coo_data]. induction l as [|a l IH]; [reflexivity|].
  cbn [map combine]. rewrite IH. reflexivity.
Qed.

Section At.
  Context {T : Type} `{Num T}.
  Variable vars : list (node T).
  Hypothesis Hnd : nodupk ptr_eq vars.

  (** Rows of a matrix given by rows, variables and anything with a value. *)
  Lemma row_pos {A} (cs : list (nat * node T * A)) (f : A -> T) mat r v i :
    entries mat = map (fun e => (fst (fst e), ix vars (snd (fst e)), f (snd e))) cs ->
    nth_error vars i = Some v -> Forall (fun e => In (snd (fst e)) vars) cs -> NoDup (map fst (jrow r cs)) ->
    (forall d, In (v, d) (jrow r cs) -> at_pos mat r i = [f d]) /\
    (~ In v (map fst (jrow r cs)) -> at_pos mat r i = []).
  Proof.
    intros Em Hi HF HN.
    assert (E : at_pos mat r i = map (fun e => f (snd e)) (filter (fun e => (ix vars (fst e) =? i)%nat) (jrow r cs))).
    { unfold at_pos. rewrite Em. clear -HF. unfold jrow.
      induction HF as [|e cs He HF IH]; [reflexivity|]. cbn [map filter fst snd].
      destruct (fst (fst e) =? r)%nat; cbn [andb map filter fst snd]; [|exact IH].
      destruct (ix vars (snd (fst e)) =? i)%nat; cbn [map fst snd]; [f_equal|]; exact IH. }
    assert (Hv : forall e, In e (jrow r cs) -> (ix vars (fst e) =? i)%nat = true -> fst e = v).
    { intros e He Ee. apply Nat.eqb_eq in Ee. unfold jrow in He. apply in_map_iff in He as (e0 & <- & He). cbn [fst] in *.
      apply filter_In in He as [He _]. rewrite Forall_forall in HF. pose proof (ix_nth vars Hnd _ (HF _ He)) as Hn. congruence. }
    assert (Hiv : (ix vars v =? i)%nat = true) by (apply Nat.eqb_eq; apply (nth_ix vars Hnd); exact Hi).
    rewrite E. split.
    - intros d Hd. rewrite (filter_one _ _ (v, d)); [reflexivity| | | |].
      + apply NoDup_fst. exact HN.
      + exact Hd.
      + exact Hiv.
      + intros [w d'] Hb Eb. pose proof (Hv _ Hb Eb) as Ew. cbn [fst] in Ew. subst w.
        revert Hd Hb HN. clear. induction (jrow r cs) as [|[a b] l IH]; [intros []|]. cbn [map fst].
        intros [E1|H1] [E2|H2] HN; inversion HN as [|? ? Hx HN']; subst.
        * congruence.
        * injection E1 as -> ->. exfalso. apply Hx. apply in_map_iff. exists (v, d'). auto.
        * injection E2 as -> ->. exfalso. apply Hx. apply in_map_iff. exists (v, d). auto.
        * auto.
    - intros Hn. rewrite filter_zero; [reflexivity|]. intros e He Ee. apply Hn. rewrite <- (Hv e He Ee). apply in_map. exact He.
  Qed.

  Lemma hess_pos (hs : list (node T * node T * node T)) n (vs : vals T) v i w j :
    nth_error vars i = Some v -> nth_error vars j = Some w -> (j <= i)%nat -> upairs hs ->
    Forall (fun e => In (fst (fst e)) vars /\ In (snd (fst e)) vars) hs ->
    let mat := with_data (hess_of vars n hs) (map (fun e => evaluate vs (snd e)) hs) in
    (forall d, In (v, w, d) hs \/ In (w, v, d) hs -> at_pos mat i j = [evaluate vs d]) /\
    (~ In (v, w) (map fst hs) -> ~ In (w, v) (map fst hs) -> at_pos mat i j = []).
  Proof.
    intros Hi Hj Hji [HN HU] HF mat.
    pose proof (nth_ix vars Hnd _ _ Hi) as Iv. pose proof (nth_ix vars Hnd _ _ Hj) as Iw.
    set (p := fun e : node T * node T * node T => ((Nat.max (ix vars (fst (fst e))) (ix vars (snd (fst e))) =? i) &&
                       (Nat.min (ix vars (fst (fst e))) (ix vars (snd (fst e))) =? j))%nat).
    assert (E : at_pos mat i j = map (fun e => evaluate vs (snd e)) (filter p hs)).
    { unfold at_pos, mat, hess_of. rewrite entries_with. clear. unfold p.
      induction hs as [|e hs IH]; [reflexivity|]. cbn [map filter fst snd].
      match goal with |- context [if ?b then _ else _] => destruct b end; cbn [map snd]; [f_equal|]; exact IH. }
    assert (Hp : forall e, In e hs -> p e = true -> fst e = (v, w) \/ fst e = (w, v)).
    { intros [[a b] d] He Ee. unfold p in Ee. cbn [fst snd] in *. apply andb_true_iff in Ee as [E1 E2].
      apply Nat.eqb_eq in E1. apply Nat.eqb_eq in E2. rewrite Forall_forall in HF. destruct (HF _ He) as [Fa Fb]. cbn [fst snd] in *.
      pose proof (ix_nth vars Hnd a Fa) as Na. pose proof (ix_nth vars Hnd b Fb) as Nb.
      assert (Hc : (ix vars a = i /\ ix vars b = j) \/ (ix vars a = j /\ ix vars b = i)) by lia.
      destruct Hc as [[Ea Eb]|[Ea Eb]]; rewrite Ea in Na; rewrite Eb in Nb; [left|right]; congruence. }
    rewrite E. split.
    - intros d Hd.
      assert (G : exists e, In e hs /\ snd e = d /\ (fst e = (v, w) \/ fst e = (w, v))) by (destruct Hd; eauto).
      destruct G as (e & He & <- & Hfe). clear Hd.
      rewrite (filter_one _ _ e); [reflexivity| | | |].
      + apply NoDup_fst. exact HN.
      + exact He.
      + unfold p. destruct Hfe as [-> | ->]; cbn [fst snd]; rewrite Iv, Iw; apply andb_true_iff; split; apply Nat.eqb_eq; lia.
      + intros b Hb Eb. pose proof (Hp b Hb Eb) as Hfb.
        assert (Eq : fst b = fst e).
        { pose proof (in_map fst _ _ He) as Me. pose proof (in_map fst _ _ Hb) as Mb.
          destruct Hfe as [Fe|Fe], Hfb as [Fb|Fb]; rewrite Fe, Fb in *; auto.
          - rewrite (HU v w Me Mb) in *. reflexivity.
          - rewrite (HU v w Mb Me) in *. reflexivity. }
        revert He Hb Eq HN. clear. induction hs as [|c hs IH]; [intros []|]. cbn [map].
        intros [->|H1] [->|H2] Eq HN; inversion HN as [|? ? Hx HN']; subst; auto.
        * exfalso. apply Hx. rewrite <- Eq. apply in_map. exact H2.
        * exfalso. apply Hx. rewrite Eq. apply in_map. exact H1.
    - intros N1 N2. rewrite filter_zero; [reflexivity|]. intros e He Ee.
      pose proof (in_map fst _ _ He) as Me. destruct (Hp e He Ee) as [Y|Y]; rewrite Y in Me; auto.
  Qed.
End At.

(** *** The components of one expression *)
Section Comp.
  Context {T : Type} `{Num T} `{HashOrd}.

  (** The result of differentiating [e] by [v] and then by [w]. *)
  Definition twice (e v w dd : node T) : Prop :=
    exists d k1 k2 k3 k4, k2 <= k3 /\ path_sum (rpaths v e) k1 = Ok (d, k2) /\ well_built d /\ path_sum (rpaths w d) k3 = Ok (dd, k4).

  Record comp_bits (e : node T) (gs : list (node T * node T)) (hs : list (node T * node T * node T)) : Prop := {
    cb_wb : well_built e;
    cb_nodup : NoDup (map fst gs);
    cb_keys : forall v, In v (map fst gs) <-> occurs v e;
    cb_grad : forall v d, In (v, d) gs -> exists k1 k2, path_sum (rpaths v e) k1 = Ok (d, k2);
    cb_up : upairs hs;
    cb_in : forall v w, In (v, w) (map fst hs) -> occurs v e /\ occurs w e;
    cb_hess : forall v w, occurs v e -> occurs w e -> exists a b dd, ((a, b) = (v, w) \/ (a, b) = (w, v)) /\ twice e a b dd /\
      if is_constant_with_value dd n0 then ~ In (v, w) (map fst hs) /\ ~ In (w, v) (map fst hs) else In (a, b, dd) hs
  }.

  Lemma world_built nsq k S (e : node T) : world nsq k S -> S e -> well_built e.
  Proof.
    intros HW Se. split; [eapply world_canonical; eauto|]. intros a b Ha Hb. apply (w_coh _ _ _ HW); eapply world_sub; eauto.
  Qed.
  Lemma comp_bits_ok nsq k S (e : node T) sc k' : world nsq k S -> S e -> std_components e k = Ok (sc, k') ->
    p_affine (std_properties e) = false -> comp_bits e (sc_gphi sc) (sc_hphi sc).
  Proof.
    intros HW Se E Ha. pose proof (hphi_upairs _ _ _ _ E) as HU.
    pose proof (std_components_ok _ _ _ _ E) as (_ & _ & _ & Ev & G). rewrite Ha in G. destruct G as (Hg & dds & Hlen & HF & Eh).
    destruct (std_vars nsq k S k e HW Se) as [Hn Hk]. set (vars := map fst (ord 3 k (p_a (std_properties e)))) in *.
    constructor.
    - exact (world_built _ _ _ _ HW Se).
    - rewrite Ev. exact Hn.
    - intros v. rewrite Ev. apply Hk.
    - intros v d Hin. rewrite Forall_forall in Hg. destruct (Hg _ Hin) as (k1 & k2 & _ & P). eauto.
    - exact HU.
    - intros v w Hin. rewrite Eh in Hin. apply in_map_iff in Hin as ([p dd] & Ep & Hin). cbn [fst] in Ep. subst p.
      apply in_flat_map in Hin as ([q dd'] & H1 & H2). unfold nz_entry in H2. destruct (is_constant_with_value _ _); [destruct H2|].
      destruct H2 as [E2|[]]. injection E2 as -> ->. apply in_combine_l in H1. apply pairs_in in H1 as [H1 H2]. split; apply Hk; assumption.
    - intros v w Hv Hw. apply Hk in Hv. apply Hk in Hw.
      assert (Hp : exists a b, ((a, b) = (v, w) \/ (a, b) = (w, v)) /\ In (a, b) (pairs vars)).
      { destruct (pairs_all vars v w Hv Hw) as [Hp|Hp]; [exists v, w|exists w, v]; auto. }
      destruct Hp as (a & b & Hab & Hp). destruct (Forall2_in_ex _ _ _ _ HF Hp) as (dd & Hc & Hd).
      exists a, b, dd. split; [exact Hab|]. split.
      { destruct Hd as (d & k1 & k2 & k3 & k4 & L0 & L & P1 & P2). exists d, k1, k2, k3, k4. split; [exact L|]. split; [exact P1|]. split; [|exact P2].
        destruct (path_sum_grows nsq k1 S (rpaths a e) (world_le _ _ _ _ L0 HW) (rpaths_world _ _ _ _ _ HW Se) _ _ P1) as (_ & S1 & _ & W1 & Hd1).
        exact (world_built _ _ _ _ W1 Hd1). }
      destruct (is_constant_with_value dd n0) eqn:Ec.
      + (* neither order has an entry *)
        assert (Hno : forall p, p = (a, b) \/ p = (b, a) -> ~ In p (map fst (sc_hphi sc))).
        { intros p Hpp Hin. rewrite Eh in Hin. apply in_map_iff in Hin as ([q d2] & Eq & Hin). cbn [fst] in Eq. subst q.
          apply in_flat_map in Hin as ([q d3] & H1 & H2). unfold nz_entry in H2. destruct (is_constant_with_value _ _) eqn:Ec2 in H2; [destruct H2|].
          destruct H2 as [E2|[]]. injection E2 as -> ->. cbn [snd] in Ec2.
          assert (p = (a, b)) as ->.
          { destruct Hpp as [Ep|Ep]; [exact Ep|]. rewrite Ep in *. rewrite (pairs_asym vars a b Hn Hp (in_combine_l _ _ _ _ H1)). reflexivity. }
          assert (d2 = dd); [|congruence].
          pose proof (pairs_nodup vars Hn) as Hpn. clear -Hc H1 Hpn. revert dds Hc H1.
          induction Hpn as [|x l Hx Hpn IH]; intros [|y dds]; cbn; try (intros []; fail).
          intros [E1|H1] [E2|H2].
          - congruence.
          - injection E1 as -> ->. exfalso. apply Hx. eapply in_combine_l; eauto.
          - injection E2 as -> ->. exfalso. apply Hx. eapply in_combine_l; eauto.
          - eauto. }
        destruct Hab as [Eab|Eab]; injection Eab as -> ->; split; apply Hno; auto.
      + rewrite Eh. apply in_flat_map. exists ((a, b), dd). split; [exact Hc|]. unfold nz_entry. cbn [snd]. rewrite Ec. left. reflexivity.
  Qed.
End Comp.

(** *** The same call at another moment *)
Section Again.
  Context {T : Type} `{Num T}.
  Lemma gives_sim {A} (R : A -> A -> Prop) (f g : M A) a b : simM R f g -> gives f a -> gives g b -> R a b.
  Proof. intros Hs (k & k' & E) (j & j' & F). specialize (Hs k j). rewrite E, F in Hs. exact Hs. Qed.
  Lemma minimises_sim (o : objective T) (a b : node T) : minimises o a -> minimises o b -> gsim e0 a b.
  Proof.
    destruct o as [f|f|]; cbn [minimises].
    - intros -> ->. reflexivity.
    - apply gives_sim. apply neg_n_sim. reflexivity.
    - apply gives_sim. apply simM_const.
  Qed.
  Lemma slack_sim (d d' a b : node T) sl : gsim e0 d d' -> minus_slack d sl a -> minus_slack d' sl b -> gsim e0 a b.
  Proof.
    intros Hs. destruct sl as [s|]; cbn [minus_slack]; [|intros -> ->; exact Hs].
    apply gives_sim. apply sub_nn_sim; [exact Hs|reflexivity].
  Qed.
End Again.

(** *** Rows of constraints *)
Section Parts.
  Context {T : Type} `{Num T} `{HashOrd}.
  Hypothesis Hnm : neqb (@nm1 T _) n0 = false.

  Definition slack_fits (k : nat) (c : constraint T) (sl : option (node T)) : Prop :=
    match sl with None => ckd c = Equal | Some s => ckd c <> Equal /\ is_var s = true /\ k <= nid s end.

  Lemma parts_fun nsq S cs ar jr k ps ar' jr' k' :
    world nsq k S -> Forall (fun c => S (clhs c) /\ S (crhs c)) cs -> parts cs ar jr k ps ar' jr' k' ->
    forall r f, nth_error (cs_f (cat ps)) r = Some f ->
      exists c sl d gs hs, nth_error (cs_cj (cat ps)) r = Some c /\ In c cs /\ slack_fits k c sl /\ nth_error (cs_h (cat ps)) r = Some hs /\
        gives (sub_nn (clhs c) (crhs c)) d /\ p_affine (std_properties d) = false /\ minus_slack d sl f /\ comp_bits d gs hs /\
        NoDup (map fst (jrow (jr + r) (cs_j (cat ps)))) /\
        (forall v, occurs v f <-> occurs v d \/ sl = Some v) /\
        (forall s, sl = Some s -> bounds_with (cat ps) c s n0) /\
        exists i, jrow (jr + r) (cs_j (cat ps)) = gs ++ match sl with None => [] | Some s => [(s, NConst i nm1)] end.
  Proof.
    intros HW HS HP; revert S HW HS.
    induction HP as [ar jr k|c cs ar jr k p ar1 jr1 k1 ps ar2 jr2 k2 E HP IH]; intros S HW HS r f Hf.
    - destruct r; discriminate Hf.
    - inversion HS as [|? ? [Sl Sr] HS']; subst.
      pose proof (constr_std_rows _ _ _ _ _ _ _ _ E) as HR1. pose proof (parts_rows _ _ _ _ _ _ _ _ HP) as HR2.
      destruct HR1 as [? ? Q0 Q1 Qc Q2 Q3]. destruct HR2 as [? ? Q0' Q1' Qc' Q2' Q3'].
      destruct (constr_std_in nsq k S c ar jr p ar1 jr1 k1 HW Sl Sr E) as (K1 & S1 & I1 & W1 & _).
      specialize (IH S1 W1). assert (HS1 : Forall (fun c => S1 (clhs c) /\ S1 (crhs c)) cs).
      { eapply Forall_impl; [|exact HS']. cbn; intuition. }
      specialize (IH HS1). change (cat (p :: ps)) with (cstd_app p (cat ps)) in *. cbn [cs_f cs_j cs_h cs_cj cstd_app] in *.
      assert (Hbw : forall c0 v b0, bounds_with p c0 v b0 \/ bounds_with (cat ps) c0 v b0 -> bounds_with (cstd_app p (cat ps)) c0 v b0).
      { intros c0 v b0. unfold bounds_with. destruct (ckd c0); cbn [cs_u cs_l cstd_app]; rewrite ?in_app_iff; tauto. }
      rewrite jrow_app.
      destruct (Nat.lt_ge_cases r (length (cs_f p))) as [Hr|Hr].
      + rewrite nth_error_app1 in Hf by exact Hr. rewrite !nth_error_app1 by (rewrite ?Q2, ?Qc; exact Hr).
        rewrite (jrow_none _ (cs_j (cat ps)) jr1 jr2 Q3') by lia. rewrite app_nil_r. clear IH HP Q0 Q0' Q1' Qc' Q2' Q3'.
        apply constr_std_inv in E as (e & ke & sc & ks & E1 & E2 & E).
        destruct (sub_nn_grows nsq k S _ _ HW Sl Sr _ _ E1) as (K2 & S2 & I2 & W2 & Se).
        pose proof (std_components_grows nsq ke S2 e W2 Se _ _ E2) as (K3 & S3 & I3 & W3 & _).
        assert (Hgn : NoDup (map fst (sc_gphi sc))).
        { pose proof (std_components_ok _ _ _ _ E2) as (_ & _ & _ & -> & _). exact (proj1 (std_vars nsq ke S2 ke e W2 Se)). }
        destruct E as [x v Ha Hp0 Hv Hk|Ha Hk|s Ha Hk Hb Es|Ha Hk|s g k3 m1 Ha Hk Es E3 Em];
          cbn [cs_f cs_j cs_h cs_cj length] in *; try lia; (destruct r as [|r]; [|lia]); cbn [nth_error] in *;
          injection Hf as <-; rewrite Nat.add_0_r; exists c.
        * exists None, e, (sc_gphi sc), (sc_hphi sc). split; [reflexivity|]. split; [left; reflexivity|]. split; [exact Hk|]. split; [reflexivity|].
          split; [exists k, ke; exact E1|]. split; [exact Ha|]. split; [reflexivity|]. split; [exact (comp_bits_ok nsq ke S2 e sc ks W2 Se E2 Ha)|].
          rewrite jrow_all. split; [exact Hgn|]. split; [intros v; split; [auto|intros [Ho|Ho]; [exact Ho|discriminate Ho]]|]. split; [discriminate|]. exists 0. rewrite app_nil_r. reflexivity.
        * assert (Hs : is_var s = true) by (rewrite Es; reflexivity).
          assert (Hid : nid s = ks) by (rewrite Es; reflexivity).
          assert (Hfr : forall w, occurs w e -> ptr_eq w s = false).
          { intros w Hw. apply not_true_is_false. intros Ep. apply ptr_eq_nid in Ep.
            pose proof (w_lt _ _ _ W3 w (world_sub nsq ks S3 e w W3 (I3 _ Se) (proj2 Hw))). lia. }
          assert (Ej : jrow jr (map (fun ge : node T * node T => (jr, fst ge, snd ge)) (sc_gphi sc) ++ [(jr, s, m1)]) = sc_gphi sc ++ [(s, m1)]).
          { rewrite jrow_app, jrow_all. f_equal. unfold jrow; cbn [filter fst snd]; rewrite Nat.eqb_refl; reflexivity. }
          exists (Some s), e, (sc_gphi sc), (sc_hphi sc). split; [reflexivity|]. split; [left; reflexivity|]. split; [split; [exact Hk|split; [exact Hs|lia]]|]. split; [reflexivity|].
          split; [exists k, ke; exact E1|]. split; [exact Ha|]. split; [do 2 eexists; exact E3|]. split; [exact (comp_bits_ok nsq ke S2 e sc ks W2 Se E2 Ha)|].
          rewrite Ej. split.
          { rewrite map_app. cbn [map fst]. apply NoDup_app_intro; [exact Hgn|constructor; [intros []|constructor]|].
            intros w Hw [<-|[]]. apply (gphi_keys _ _ _ _ E2) in Hw. apply keys_occur in Hw. pose proof (Hfr _ Hw) as E0. rewrite ptr_eq_refl in E0. discriminate E0. }
          split.
          { intros v. rewrite (sub_nn_occurs v _ _ _ _ _ Hnm E3). split; (intros [Ho|Ho]; [left; exact Ho|right]).
            - destruct Ho as [_ Ho]. rewrite Es in *. inversion Ho; subst; [reflexivity|]. cbn in *. contradiction.
            - injection Ho as ->. split; [exact Hs|apply sub_refl]. }
          split; [|exists k3; rewrite Em; reflexivity]. intros s' Es'. injection Es' as <-. apply Hbw. left. unfold bounds_with. cbn [cs_u cs_l].
          destruct (ckd c); [congruence|left; reflexivity|left; reflexivity].
      + rewrite nth_error_app2 in Hf by exact Hr. rewrite !nth_error_app2 by (rewrite ?Q2, ?Qc; exact Hr). rewrite Q2, Qc.
        rewrite (jrow_none _ (cs_j p) jr jr1 Q3) by lia. cbn [app].
        destruct (IH _ _ Hf) as (c' & sl & d & gs & hs & H1 & H2 & H3 & H4 & H5 & H6 & H7 & H8 & H9 & H9' & Hbnd & H10). exists c', sl, d, gs, hs. split; [exact H1|].
        split; [right; exact H2|]. split.
        { destruct sl as [s|]; [|exact H3]. destruct H3 as (A & B & C). split; [exact A|]. split; [exact B|lia]. }
        replace (jr + r)%nat with (jr1 + (r - length (cs_f p)))%nat by lia.
        repeat (split; [assumption|]). split; [|exact H10]. intros s Es. apply Hbw. right. exact (Hbnd s Es).
  Qed.

  Lemma parts_lin nsq S cs ar jr k ps ar' jr' k' :
    world nsq k S -> Forall (fun c => S (clhs c) /\ S (crhs c)) cs -> parts cs ar jr k ps ar' jr' k' ->
    forall r b, nth_error (cs_b (cat ps)) r = Some b ->
      exists c sl d, nth_error (cs_ca (cat ps)) r = Some c /\ In c cs /\ slack_fits k c sl /\
        gives (sub_nn (clhs c) (crhs c)) d /\ p_affine (std_properties d) = true /\ b = nneg (p_b (std_properties d)) /\
        NoDup (map fst (jrow (ar + r) (cs_a (cat ps)))) /\
        (forall s, sl = Some s -> In s (prop_keys (cat ps)) /\ ~ occurs s d) /\ (forall v, occurs v d -> In v (prop_keys (cat ps))) /\
        Permutation (jrow (ar + r) (cs_a (cat ps))) (p_a (std_properties d) ++ match sl with None => [] | Some s => [(s, nm1)] end).
  Proof.
    intros HW HS HP; revert S HW HS.
    induction HP as [ar jr k|c cs ar jr k p ar1 jr1 k1 ps ar2 jr2 k2 E HP IH]; intros S HW HS r b Hf.
    - destruct r; discriminate Hf.
    - inversion HS as [|? ? [Sl Sr] HS']; subst.
      pose proof (constr_std_rows _ _ _ _ _ _ _ _ E) as HR1. pose proof (parts_rows _ _ _ _ _ _ _ _ HP) as HR2.
      destruct HR1 as [P0 P1 P2 _ _ _ _]. destruct HR2 as [P0' P1' P2' _ _ _ _].
      destruct (constr_std_in nsq k S c ar jr p ar1 jr1 k1 HW Sl Sr E) as (K1 & S1 & I1 & W1 & _).
      specialize (IH S1 W1). assert (HS1 : Forall (fun c => S1 (clhs c) /\ S1 (crhs c)) cs).
      { eapply Forall_impl; [|exact HS']. cbn; intuition. }
      specialize (IH HS1). change (cat (p :: ps)) with (cstd_app p (cat ps)) in *.
      assert (Epk : prop_keys (cstd_app p (cat ps)) = prop_keys p ++ prop_keys (cat ps)) by (unfold prop_keys, cstd_app; cbn [cs_prop]; rewrite map_app, concat_app; reflexivity).
      rewrite Epk. cbn [cs_b cs_a cs_ca cstd_app] in *.
      rewrite jrow_app.
      destruct (Nat.lt_ge_cases r (length (cs_b p))) as [Hr|Hr].
      + rewrite nth_error_app1 in Hf by exact Hr. rewrite !nth_error_app1 by (rewrite ?P1; exact Hr).
        rewrite (jrow_none _ (cs_a (cat ps)) ar1 ar2 P2') by lia. rewrite app_nil_r. clear IH HP P0 P0' P1' P2'.
        apply constr_std_inv in E as (e & ke & sc & ks & E1 & E2 & E).
        destruct (sub_nn_grows nsq k S _ _ HW Sl Sr _ _ E1) as (K2 & S2 & I2 & W2 & Se).
        pose proof (std_components_grows nsq ke S2 e W2 Se _ _ E2) as (K3 & S3 & I3 & W3 & _).
        destruct (std_vars nsq ke S2 ke e W2 Se) as [_ _]. destruct (keys_are_vars nsq ke S2 e W2 Se) as [Hkn Hk].
        destruct E as [x v Ha Hp0 Hv Hkd|Ha Hkd|s Ha Hkd Hb Es|Ha Hkd|s g k3 m1 Ha Hkd Es E3 Em];
          cbn [cs_a cs_b cs_ca length] in *; try lia; (destruct r as [|r]; [|lia]); cbn [nth_error] in *;
          injection Hf as <-; rewrite Nat.add_0_r; exists c.
        * exists None, e. split; [reflexivity|]. split; [left; reflexivity|]. split; [exact Hkd|].
          split; [exists k, ke; exact E1|]. split; [exact Ha|]. split; [reflexivity|]. rewrite jrow_all.
          split. { eapply Permutation_NoDup; [apply Permutation_map, Permutation_sym, ord_perm|exact Hkn]. }
          split; [discriminate|]. split.
          { intros v Ho. apply in_or_app. left. unfold prop_keys. cbn [cs_prop map concat]. rewrite app_nil_r. apply Hk. exact Ho. }
          rewrite app_nil_r. apply ord_perm.
        * assert (Hs : is_var s = true) by (rewrite Es; reflexivity).
          assert (Hid : nid s = ks) by (rewrite Es; reflexivity).
          assert (Hfr : ~ occurs s e).
          { intros Hw. pose proof (w_lt _ _ _ W3 s (world_sub nsq ks S3 e s W3 (I3 _ Se) (proj2 Hw))). lia. }
          assert (Ej : jrow ar (map (fun kv : node T * T => (ar, fst kv, snd kv)) (ord 4 ks (p_a (std_properties e))) ++ [(ar, s, nm1)]) = ord 4 ks (p_a (std_properties e)) ++ [(s, nm1)]).
          { rewrite jrow_app, jrow_all. f_equal. unfold jrow; cbn [filter fst snd]; rewrite Nat.eqb_refl; reflexivity. }
          exists (Some s), e. split; [reflexivity|]. split; [left; reflexivity|]. split; [split; [exact Hkd|split; [exact Hs|lia]]|].
          split; [exists k, ke; exact E1|]. split; [exact Ha|]. split; [reflexivity|]. rewrite Ej.
          assert (Hpk : forall v, In v (map fst (p_a (std_properties e))) \/ v = s -> In v (prop_keys
              (mk_cstd [c] [] (map (fun kv => (ar, fst kv, snd kv)) (ord 4 ks (p_a (std_properties e))) ++ [(ar, s, nm1)])
                       [nneg (p_b (std_properties e))] [] [] []
                       (if ckind_eqb (ckd c) LessEqual then [(s, n0, c)] else [])
                       (if ckind_eqb (ckd c) LessEqual then [] else [(s, n0, c)])
                       [mk_std_prop (p_affine (std_properties e)) (hinsert ptr_eq s nm1 (p_a (std_properties e)))
                                    (p_b (std_properties e))]))).
          { intros v Hv. unfold prop_keys. cbn [cs_prop map concat p_a]. rewrite app_nil_r, keys_hinsert, (fresh_keys nsq ke S2 e s W2 Se Hs ltac:(lia)).
            apply in_or_app. destruct Hv as [Hv| -> ]; [left; exact Hv|right; left; reflexivity]. }
          split.
          { eapply Permutation_NoDup; [apply Permutation_map; apply Permutation_app_tail; apply Permutation_sym, ord_perm|]. rewrite map_app. cbn [map fst].
            apply NoDup_app_intro; [exact Hkn|constructor; [intros []|constructor]|]. intros w Hw [<-|[]]. apply Hfr. apply Hk. exact Hw. }
          split; [intros s' E'; injection E' as <-; split; [apply in_or_app; left; apply Hpk; auto|exact Hfr]|].
          split; [intros v Ho; apply in_or_app; left; apply Hpk; left; apply Hk; exact Ho|].
          apply Permutation_app_tail. apply ord_perm.
      + rewrite nth_error_app2 in Hf by exact Hr. rewrite !nth_error_app2 by (rewrite ?P1; exact Hr). rewrite P1.
        rewrite (jrow_none _ (cs_a p) ar ar1 P2) by lia. cbn [app].
        destruct (IH _ _ Hf) as (c' & sl & d & H1 & H2 & H3 & H4 & H5 & H6 & H7 & H8 & H9 & H10). exists c', sl, d. split; [exact H1|].
        split; [right; exact H2|]. split.
        { destruct sl as [s|]; [|exact H3]. destruct H3 as (A & B & C). split; [exact A|]. split; [exact B|lia]. }
        replace (ar + r)%nat with (ar1 + (r - length (cs_b p)))%nat by lia.
        split; [exact H4|]. split; [exact H5|]. split; [exact H6|]. split; [exact H7|]. split; [intros s Es; destruct (H8 s Es); split; [apply in_or_app; auto|assumption]|].
        split; [intros v Hv; apply in_or_app; right; apply H9; exact Hv|exact H10].
  Qed.
End Parts.
