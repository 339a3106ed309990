(** The standard components of a list of constraints. *)
From Verif Require Import Base Num Node NodeDiff NodeInd NodeStd Constraint ModelStd ExprSpec ConstrSpec World Fresh
     EvalProofs MapProofs StdPropProofs DerivProofs DiffProofs GradProofs PanicProofs CompProofs OccProofs
     ConstrProofs ConstrEquiv.
From Coq Require Import Reals Lra.

Section Parts.
  Context {T : Type} `{Num T} `{HashOrd}.

  (** [parts cs arow jrow k ps ar' jr' k']: standardising the constraints one
      after the other, from these counters, gives the parts [ps]. *)
  Inductive parts : list (constraint T) -> nat -> nat -> nat -> list (cstd T) -> nat -> nat -> nat -> Prop :=
  | parts_nil ar jr k : parts [] ar jr k [] ar jr k
  | parts_cons c cs ar jr k p ar1 jr1 k1 ps ar2 jr2 k2 :
      constr_std c ar jr k = Ok ((p, ar1, jr1), k1) ->
      parts cs ar1 jr1 k1 ps ar2 jr2 k2 ->
      parts (c :: cs) ar jr k (p :: ps) ar2 jr2 k2.

  Definition cat (ps : list (cstd T)) : cstd T := fold_right cstd_app cstd_new ps.

  Lemma cstd_app_assoc (x y z : cstd T) : cstd_app (cstd_app x y) z = cstd_app x (cstd_app y z).
  Proof. unfold cstd_app; cbn; rewrite !app_assoc; auto. Qed.
  Lemma cstd_app_new_l (x : cstd T) : cstd_app cstd_new x = x.
  Proof. destruct x; reflexivity. Qed.
  Lemma cstd_app_new_r (x : cstd T) : cstd_app x cstd_new = x.
  Proof. destruct x; unfold cstd_app; cbn; rewrite !app_nil_r; reflexivity. Qed.

  Definition constr_step : cstd T * nat * nat -> constraint T -> M (cstd T * nat * nat) :=
    fun st c => let '(acc, arow, jrow) := st in
                bind (constr_std c arow jrow)
                     (fun r => let '(x, arow', jrow') := r in ret (cstd_app acc x, arow', jrow')).

  Lemma parts_fold cs acc ar jr k r k' :
    foldM constr_step cs (acc, ar, jr) k = Ok (r, k') <->
    exists ps ar' jr', parts cs ar jr k ps ar' jr' k' /\ r = (cstd_app acc (cat ps), ar', jr').
  Proof.
    revert acc ar jr k; induction cs as [|c cs IH]; intros acc ar jr k; cbn [foldM].
    - split.
      + intros E; inversion E; subst. exists [], ar, jr. split; [constructor|]. cbn. rewrite cstd_app_new_r; auto.
      + intros (ps & ar' & jr' & HP & ->). inversion HP; subst. cbn. rewrite cstd_app_new_r; auto.
    - rewrite bind_ok. split.
      + intros (s & k1 & E1 & E2). unfold constr_step in E1 at 1. apply bind_ok in E1 as ([[x ar1] jr1] & k1' & E1 & E).
        inversion E; subst. apply IH in E2 as (ps & ar' & jr' & HP & ->).
        exists (x :: ps), ar', jr'. split; [econstructor; eauto|]. cbn [cat fold_right]. rewrite cstd_app_assoc; auto.
      + intros (ps & ar' & jr' & HP & ->). inversion HP; subst.
        exists (cstd_app acc p, ar1, jr1), k1. split.
        * unfold constr_step. rewrite bind_ok. exists (p, ar1, jr1), k1. split; auto.
        * apply IH. exists ps0, ar', jr'. split; auto. cbn [cat fold_right]. rewrite cstd_app_assoc; auto.
  Qed.

  Lemma constrs_std_parts cs k r k' :
    constrs_std cs k = Ok (r, k') <->
    exists ps ar' jr', parts cs 0 0 k ps ar' jr' k' /\ r = (cat ps, ar', jr').
  Proof.
    unfold constrs_std. rewrite (parts_fold cs cstd_new 0 0 k r k').
    split; intros (ps & ar' & jr' & HP & ->); exists ps, ar', jr'; split; auto; rewrite cstd_app_new_l; auto.
  Qed.

  (** *** Structure. *)
  Lemma prop_keys_app (x y : cstd T) : prop_keys (cstd_app x y) = prop_keys x ++ prop_keys y.
  Proof. unfold prop_keys, cstd_app; cbn. rewrite map_app, concat_app; auto. Qed.

  Lemma part_in_mono (S S' : node T -> Prop) cs : (forall n, S n -> S' n) -> part_in S cs -> part_in S' cs.
  Proof.
    intros Hi [A B C D E F G].
    constructor; auto; (eapply Forall_impl; [|eassumption]); cbn; intuition.
    eapply Forall_impl; [|eassumption]. cbn; intuition.
  Qed.
  Lemma part_in_app (S : node T -> Prop) x y : part_in S x -> part_in S y -> part_in S (cstd_app x y).
  Proof.
    intros [A B C D E F G] [A' B' C' D' E' F' G'].
    constructor; rewrite ?prop_keys_app; unfold cstd_app;
      cbn [cs_ca cs_cj cs_a cs_b cs_f cs_j cs_h cs_u cs_l cs_prop]; apply Forall_app; split; auto;
      (eapply Forall_impl; [|eassumption]); cbn; intros; rewrite ?in_app_iff; intuition;
      try (apply in_or_app; auto);
      (eapply Forall_impl; [|eassumption]); cbn; intros; rewrite ?in_app_iff; intuition.
  Qed.
  Lemma part_in_new (S : node T -> Prop) : part_in S cstd_new.
  Proof. constructor; constructor. Qed.

  Lemma parts_in nsq S cs ar jr k ps ar' jr' k' :
    world nsq k S -> Forall (fun c => S (clhs c) /\ S (crhs c)) cs ->
    parts cs ar jr k ps ar' jr' k' ->
    k <= k' /\ exists S', incl S S' /\ world nsq k' S' /\ part_in S' (cat ps).
  Proof.
    intros HW HS HP; revert S HW HS.
    induction HP as [ar jr k|c cs ar jr k p ar1 jr1 k1 ps ar2 jr2 k2 E HP IH]; intros S HW HS.
    - split; auto. exists S. split; [apply incl_refl|]. split; auto. apply part_in_new.
    - inversion HS as [|? ? [Sl Sr] HS']; subst.
      destruct (constr_std_in nsq k S c ar jr p ar1 jr1 k1 HW Sl Sr E) as (K1 & S1 & I1 & W1 & P1).
      destruct (IH S1 W1) as (K2 & S2 & I2 & W2 & P2).
      { eapply Forall_impl; [|exact HS']. cbn; intuition. }
      split; [lia|]. exists S2. split; [eapply incl_trans; eauto|]. split; auto.
      cbn. apply part_in_app; auto. eapply part_in_mono; [|exact P1]. exact I2.
  Qed.

  (** The variables of one part: those of the two sides and the slack. *)
  Lemma constr_std_keys nsq k S c ar jr p ar1 jr1 k1 v :
    world nsq k S -> S (clhs c) -> S (crhs c) ->
    constr_std c ar jr k = Ok ((p, ar1, jr1), k1) -> In v (prop_keys p) ->
    occurs v (clhs c) \/ occurs v (crhs c) \/
    (k <= nid v < k1 /\ exists nm, v = NVar (nid v) nm VarContinuous).
  Proof.
    intros HW Sl Sr E. apply constr_std_inv in E as (e & k0 & sc & k2 & E1 & E2 & E).
    destruct (sub_nn_grows nsq k S _ _ HW Sl Sr _ _ E1) as (K1 & S1 & I1 & W1 & Se).
    destruct (std_components_grows nsq k0 S1 _ W1 Se _ _ E2) as (K2 & S2 & I2 & W2 & _ & _ & _).
    assert (Hold : forall v, In v (map fst (p_a (std_properties e))) -> occurs v (clhs c) \/ occurs v (crhs c)).
    { intros w Hw. apply keys_occur in Hw. apply (sub_nn_occurs_l w _ _ _ _ _ E1) in Hw. exact Hw. }
    unfold prop_keys.
    destruct E as [x w Ha Hp Hv Hne|Ha He|s Ha Hne Hb Hs|Ha He|s f k3 m1 Ha Hne Hs Ef Hm1]; cbn [cs_prop map concat];
      rewrite app_nil_r; cbn [p_a]; intros Hin.
    1,2,4: apply Hold in Hin; tauto.
    - assert (Hfr : existsb (ptr_eq s) (map fst (p_a (std_properties e))) = false).
      { apply (fresh_keys nsq k2 S2); auto; rewrite Hs; cbn; auto. }
      rewrite keys_hinsert, Hfr in Hin. apply in_app_or in Hin as [Hin|[<-|[]]]; [apply Hold in Hin; tauto|].
      right; right. rewrite Hs. cbn [nid]. split; [lia|]. eauto.
    - assert (Hfr : existsb (ptr_eq s) (map fst (p_a (std_properties e))) = false).
      { apply (fresh_keys nsq k2 S2); auto; rewrite Hs; cbn; auto. }
      rewrite keys_hinsert, Hfr in Hin. apply in_app_or in Hin as [Hin|[<-|[]]]; [apply Hold in Hin; tauto|].
      right; right. destruct (mk_var_grows nsq k2 S2 (slack_name "_s_j" jr) VarContinuous W2 _ _ eq_refl)
        as (_ & S3 & I3 & W3 & Ss & _). rewrite <- Hs in Ss.
      destruct (sub_nn_grows nsq _ S3 e s W3 (I3 _ (I2 _ Se)) Ss _ _ Ef) as (K4 & _).
      rewrite Hs. cbn [nid]. split; [lia|]. eauto.
  Qed.
  Lemma constr_std_keys_all nsq k S c ar jr p ar1 jr1 k1 v :
    neqb (nm1 : T) n0 = false -> world nsq k S -> S (clhs c) -> S (crhs c) ->
    constr_std c ar jr k = Ok ((p, ar1, jr1), k1) ->
    occurs v (clhs c) \/ occurs v (crhs c) -> In v (prop_keys p).
  Proof.
    intros Hm HW Sl Sr E. apply constr_std_inv in E as (e & k0 & sc & k2 & E1 & E2 & E).
    destruct (sub_nn_grows nsq k S _ _ HW Sl Sr _ _ E1) as (K1 & S1 & I1 & W1 & Se).
    intros Ho. apply (sub_nn_occurs v _ _ _ _ _ Hm E1) in Ho.
    apply (keys_are_vars nsq k0 S1 e W1 Se) in Ho. unfold prop_keys.
    destruct E as [x w Ha Hp Hv Hne|Ha He|s Ha Hne Hb Hs|Ha He|s f k3 m1 Ha Hne Hs Ef Hm1]; cbn [cs_prop map concat];
      rewrite app_nil_r; cbn [p_a]; auto; rewrite keys_hinsert;
      destruct (existsb _ _); auto; apply in_or_app; auto.
  Qed.
  Lemma parts_keys nsq S cs ar jr k ps ar' jr' k' v :
    world nsq k S -> Forall (fun c => S (clhs c) /\ S (crhs c)) cs ->
    parts cs ar jr k ps ar' jr' k' -> In v (prop_keys (cat ps)) ->
    (exists c, In c cs /\ (occurs v (clhs c) \/ occurs v (crhs c))) \/
    (k <= nid v < k' /\ exists nm, v = NVar (nid v) nm VarContinuous).
  Proof.
    intros HW HS HP; revert S HW HS.
    induction HP as [ar jr k|c cs ar jr k p ar1 jr1 k1 ps ar2 jr2 k2 E HP IH]; intros S HW HS Hv; [destruct Hv|].
    inversion HS as [|? ? [Sl Sr] HS']; subst.
    destruct (constr_std_in nsq k S c ar jr p ar1 jr1 k1 HW Sl Sr E) as (K1 & S1 & I1 & W1 & P1).
    assert (HS1 : Forall (fun c => S1 (clhs c) /\ S1 (crhs c)) cs).
    { eapply Forall_impl; [|exact HS']. cbn; intuition. }
    destruct (parts_in nsq S1 cs ar1 jr1 k1 ps ar2 jr2 k2 W1 HS1 HP) as (K2 & _).
    change (cat (p :: ps)) with (cstd_app p (cat ps)) in Hv. rewrite prop_keys_app in Hv. apply in_app_or in Hv as [Hv|Hv].
    - destruct (constr_std_keys nsq k S c ar jr p ar1 jr1 k1 v HW Sl Sr E Hv) as [Ho|[Ho|[Hn Hs]]].
      + left; exists c; cbn; auto.
      + left; exists c; cbn; auto.
      + right. split; [lia|exact Hs].
    - destruct (IH S1 W1 HS1 Hv) as [(d & Hd & Ho)|[Hn Hs]].
      + left; exists d; cbn; auto.
      + right. split; [lia|exact Hs].
  Qed.
  Lemma parts_keys_all nsq S cs ar jr k ps ar' jr' k' v c :
    neqb (nm1 : T) n0 = false ->
    world nsq k S -> Forall (fun c => S (clhs c) /\ S (crhs c)) cs ->
    parts cs ar jr k ps ar' jr' k' -> In c cs -> occurs v (clhs c) \/ occurs v (crhs c) ->
    In v (prop_keys (cat ps)).
  Proof.
    intros Hm HW HS HP; revert S HW HS.
    induction HP as [ar jr k|d cs ar jr k p ar1 jr1 k1 ps ar2 jr2 k2 E HP IH]; intros S HW HS Hc Ho; [destruct Hc|].
    inversion HS as [|? ? [Sl Sr] HS']; subst.
    change (cat (p :: ps)) with (cstd_app p (cat ps)). rewrite prop_keys_app. apply in_or_app.
    destruct Hc as [<-|Hc]; [left; eapply constr_std_keys_all; eauto|right].
    destruct (constr_std_in nsq k S d ar jr p ar1 jr1 k1 HW Sl Sr E) as (K1 & S1 & I1 & W1 & P1).
    apply (IH S1 W1); auto. eapply Forall_impl; [|exact HS']. cbn; intuition.
  Qed.

  Lemma part_rows_app ar jr x ar1 jr1 y ar2 jr2 :
    part_rows (T := T) ar jr x ar1 jr1 -> part_rows ar1 jr1 y ar2 jr2 -> part_rows ar jr (cstd_app x y) ar2 jr2.
  Proof.
    intros [A B C D E F G] [A' B' C' D' E' F' G'].
    constructor; cbn; rewrite ?app_length; try lia; apply Forall_app; split;
      (eapply Forall_impl; [|eassumption]); cbn; lia.
  Qed.
  Lemma constr_std_rows c ar jr k p ar1 jr1 k1 :
    constr_std c ar jr k = Ok ((p, ar1, jr1), k1) -> part_rows ar jr p ar1 jr1.
  Proof. intros E. apply constr_std_inv in E as (e & ? & ? & ? & _ & _ & E). eapply case_rows; eauto. Qed.
  Lemma parts_rows cs ar jr k ps ar' jr' k' :
    parts cs ar jr k ps ar' jr' k' -> part_rows ar jr (cat ps) ar' jr'.
  Proof.
    induction 1 as [ar jr k|c cs ar jr k p ar1 jr1 k1 ps ar2 jr2 k2 E HP IH].
    - constructor; cbn; auto; lia.
    - cbn. eapply part_rows_app; [|exact IH]. eapply constr_std_rows; eauto.
  Qed.
End Parts.

(** *** Meaning, in exact arithmetic. *)
Section Meaning.
  Context `{HashOrd}.
  Local Open Scope R_scope.

  Lemma lrow_none {T} r (l : list (nat * node T * T)) lo hi :
    Forall (fun e => (lo <= fst (fst e) < hi)%nat) l -> (r < lo \/ hi <= r)%nat -> lrow r l = [].
  Proof.
    intros HF Hr. unfold lrow. induction HF as [|e l He HF IH]; cbn; auto.
    destruct (Nat.eqb_spec (fst (fst e)) r); auto. lia.
  Qed.

  Lemma std_holds_app ar jr (x y : cstd X) ar1 jr1 ar2 jr2 vs :
    part_rows ar jr x ar1 jr1 -> part_rows ar1 jr1 y ar2 jr2 ->
    std_holds ar vs (cstd_app x y) <-> std_holds ar vs x /\ std_holds ar1 vs y.
  Proof.
    intros [A B C D E F G] [A' B' C' D' E' F' G']. unfold std_holds, cstd_app; cbnc.
    rewrite !Forall_app.
    assert (Q : (forall i b, nth_error (cs_b x ++ cs_b y) i = Some b ->
                   eqX (lin vs (lrow (ar + i) (cs_a x ++ cs_a y))) b) <->
                (forall i b, nth_error (cs_b x) i = Some b -> eqX (lin vs (lrow (ar + i) (cs_a x))) b) /\
                (forall i b, nth_error (cs_b y) i = Some b -> eqX (lin vs (lrow (ar1 + i) (cs_a y))) b)).
    { split.
      - intros Hi. split; intros i b Hb.
        + assert (i < length (cs_b x))%nat by (apply nth_error_Some; congruence).
          specialize (Hi i b). rewrite nth_error_app1, lrow_app in Hi by auto.
          rewrite (lrow_none (ar + i) (cs_a y) ar1 ar2) in Hi by (auto; lia). rewrite app_nil_r in Hi. auto.
        + specialize (Hi (length (cs_b x) + i)%nat b).
          rewrite nth_error_app2, lrow_app in Hi by lia.
          replace (length (cs_b x) + i - length (cs_b x))%nat with i in Hi by lia.
          rewrite (lrow_none _ (cs_a x) ar ar1) in Hi by (auto; lia).
          replace (ar + (length (cs_b x) + i))%nat with (ar1 + i)%nat in Hi by lia. auto.
      - intros [H1 H2] i b Hb. rewrite lrow_app.
        destruct (Nat.lt_ge_cases i (length (cs_b x))) as [Hi|Hi].
        + rewrite nth_error_app1 in Hb by auto.
          rewrite (lrow_none (ar + i) (cs_a y) ar1 ar2) by (auto; lia). rewrite app_nil_r. auto.
        + rewrite nth_error_app2 in Hb by auto.
          rewrite (lrow_none _ (cs_a x) ar ar1) by (auto; lia). cbn [app].
          replace (ar + i)%nat with (ar1 + (i - length (cs_b x)))%nat by lia. auto. }
    rewrite Q. tauto.
  Qed.

  Lemma std_holds_new ar vs : std_holds ar vs cstd_new.
  Proof. repeat split; cbn; auto. intros [|i] b E; discriminate. Qed.

  Lemma std_holds_same nsq k S ar (vs vs' : valsX) cs :
    world nsq k S -> part_in S cs -> same_before k vs vs' -> std_holds ar vs cs -> std_holds ar vs' cs.
  Proof.
    intros HW [A B C D E F G] Hs (H1 & H2 & H3 & H4).
    rewrite Forall_forall in A, B, C, F, G.
    assert (Hk : forall v, In v (prop_keys cs) -> evaluate vs v = evaluate vs' v).
    { intros v Hv. destruct (A v Hv) as [Sv Vv]. apply Hs; auto. eapply w_lt; eauto. }
    split; [|split; [|split]].
    - intros i b Hb. specialize (H1 i b Hb). rewrite <- (lin_ext vs vs'); auto.
      intros kv Hkv. unfold lrow in Hkv. apply in_map_iff in Hkv as (e & <- & He).
      apply filter_In in He as [He _]. cbn. apply Hk, B; auto.
    - rewrite Forall_forall in *. intros f Hf. rewrite <- (H2 f Hf). destruct (C f Hf) as [Sf _].
      symmetry. eapply same_before_eval; eauto.
    - rewrite Forall_forall in *. intros f Hf. rewrite <- Hk; auto.
    - rewrite Forall_forall in *. intros f Hf. rewrite <- Hk; auto.
  Qed.

  Theorem parts_sound nsq S cs ar jr k ps ar' jr' k' vs :
    world nsq k S -> Forall (fun c : constraint X => S (clhs c) /\ S (crhs c)) cs ->
    parts cs ar jr k ps ar' jr' k' -> std_holds ar vs (cat ps) -> Forall (holds vs) cs.
  Proof.
    intros HW HS HP; revert S HW HS.
    induction HP as [ar jr k|c cs ar jr k p ar1 jr1 k1 ps ar2 jr2 k2 E HP IH]; intros S HW HS Hst; [constructor|].
    inversion HS as [|? ? [Sl Sr] HS']; subst. cbn in Hst.
    apply (std_holds_app ar jr p (cat ps) ar1 jr1 ar2 jr2) in Hst as [H1 H2];
      [|eapply constr_std_rows; eauto|eapply parts_rows; eauto].
    constructor; [exact (constr_std_sound nsq k S vs c ar jr p ar1 jr1 k1 HW Sl Sr E H1)|].
    destruct (constr_std_in nsq k S c ar jr p ar1 jr1 k1 HW Sl Sr E) as (K1 & S1 & I1 & W1 & P1).
    apply (IH S1); auto. eapply Forall_impl; [|exact HS']. cbn; intuition.
  Qed.

  Theorem parts_complete nsq S cs ar jr k ps ar' jr' k' vs :
    world nsq k S -> Forall (fun c : constraint X => S (clhs c) /\ S (crhs c)) cs ->
    parts cs ar jr k ps ar' jr' k' -> Forall (holds vs) cs ->
    exists vs', same_before k vs vs' /\ std_holds ar vs' (cat ps) /\
      forall v, In v (prop_keys (cat ps)) -> (k <= nid v)%nat ->
        exists c, In c cs /\ evaluate vs' v = x2 Rminus (evaluate vs (clhs c)) (evaluate vs (crhs c)).
  Proof.
    intros HW HS HP; revert S vs HW HS.
    induction HP as [ar jr k|c cs ar jr k p ar1 jr1 k1 ps ar2 jr2 k2 E HP IH]; intros S vs HW HS Hh.
    - exists vs. split; [apply same_before_refl|]. split; [apply std_holds_new|]. intros v [].
    - inversion HS as [|? ? [Sl Sr] HS']; subst. inversion Hh as [|? ? Hc Hh']; subst.
      destruct (constr_std_in nsq k S c ar jr p ar1 jr1 k1 HW Sl Sr E) as (K1 & S1 & I1 & W1 & P1).
      destruct (constr_std_complete nsq k S vs c ar jr p ar1 jr1 k1 HW Sl Sr E Hc) as (vs1 & Hs1 & Hst1 & Hk1).
      assert (HS1 : Forall (fun c : constraint X => S1 (clhs c) /\ S1 (crhs c)) cs).
      { eapply Forall_impl; [|exact HS']. cbn; intuition. }
      destruct (IH S1 vs1 W1 HS1) as (vs2 & Hs2 & Hst2 & Hk2).
      { rewrite Forall_forall in *. intros d Hd. destruct (HS' d Hd).
        eapply (same_before_holds nsq k S vs); eauto. }
      exists vs2. split; [|split].
      + eapply same_before_trans; [exact K1|exact Hs1|exact Hs2].
      + cbn. apply (std_holds_app ar jr p (cat ps) ar1 jr1 ar2 jr2);
          [eapply constr_std_rows; eauto|eapply parts_rows; eauto|]. split; auto.
        eapply (std_holds_same nsq k1 S1); eauto.
      + intros v Hv Hk. change (cat (p :: ps)) with (cstd_app p (cat ps)) in Hv. rewrite prop_keys_app in Hv. apply in_app_or in Hv as [Hv|Hv].
        * exists c. split; [cbn; auto|]. rewrite <- (Hk1 v Hv Hk).
          destruct P1 as [A _ _ _ _ _ _]. rewrite Forall_forall in A. destruct (A v Hv) as [Sv Vv].
          symmetry. apply Hs2; auto. eapply w_lt; eauto.
        * destruct (Nat.lt_ge_cases (nid v) k1) as [Hlt|Hge].
          -- exfalso. destruct (parts_keys nsq S1 cs ar1 jr1 k1 ps ar2 jr2 k2 v W1 HS1 HP Hv)
               as [(d & Hd & Ho)|[Hn _]]; [|lia].
             rewrite Forall_forall in HS'. destruct (HS' d Hd) as [Sl' Sr'].
             assert (Sv : S v).
             { destruct Ho as [[_ Ho]|[_ Ho]];
                 [exact (world_sub nsq k S _ _ HW Sl' Ho)|exact (world_sub nsq k S _ _ HW Sr' Ho)]. }
             pose proof (w_lt _ _ _ HW v Sv). lia.
          -- destruct (Hk2 v Hv Hge) as (d & Hd & Ed). exists d. split; [cbn; auto|]. rewrite Ed.
             rewrite Forall_forall in HS'. destruct (HS' d Hd) as [Sl' Sr'].
             rewrite (same_before_eval nsq k S vs vs1 _ HW Sl' Hs1), (same_before_eval nsq k S vs vs1 _ HW Sr' Hs1). auto.
  Qed.
End Meaning.
