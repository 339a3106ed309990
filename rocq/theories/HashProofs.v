(** Two runs of the standardisation that see different hash orders. *)
From Verif Require Import Base Num Node NodeInd NodeDiff NodeStd Constraint Matrix Problem ModelStd Model
     ExprSpec World Fresh MapProofs StdPropProofs GradProofs OccProofs Sim ConstrProofs PartsProofs.

Section Two.
  Context {T : Type} `{Num T}.

  (** *** Renaming. *)
  Lemma er_same (g : nat -> nat) (e : node T) :
    (forall v, occurs v e -> g (nid v) = nid v) -> er g e = er e0 e.
  Proof.
    induction e as [i v|i s kd|i args IH|i a IH|i a1 a2 IH1 IH2|i a1 a2 IH1 IH2|i a IH] using node_ind'; intros Hg; cbn [er].
    - reflexivity.
    - f_equal. apply (Hg (NVar i s kd)). split; [reflexivity|constructor].
    - f_equal. apply map_ext_in. intros x Hx. rewrite Forall_forall in IH. apply IH; auto.
      intros v Hv. apply Hg. eapply occurs_arg; [|exact Hv]. exact Hx.
    - f_equal. apply IH. intros v Hv. apply Hg. eapply occurs_arg; [|exact Hv]. cbn; auto.
    - f_equal; [apply IH1|apply IH2]; intros v Hv; apply Hg; (eapply occurs_arg; [|exact Hv]); cbn; auto.
    - f_equal; [apply IH1|apply IH2]; intros v Hv; apply Hg; (eapply occurs_arg; [|exact Hv]); cbn; auto.
    - f_equal. apply IH. intros v Hv. apply Hg. eapply occurs_arg; [|exact Hv]. cbn; auto.
  Qed.
  Lemma sim_var (v w : node T) : is_var v = true -> gsim e0 v w -> w = v.
  Proof. intros Hv E. destruct v; try discriminate. destruct w; inversion E; subst. reflexivity. Qed.

  Lemma std_properties_er (e : node T) : std_properties (er e0 e) = std_properties e.
  Proof.
    induction e as [i v|i s kd|i args IH|i a IH|i a1 a2 IH1 IH2|i a1 a2 IH1 IH2|i a IH] using node_ind';
      cbn [er std_properties]; rewrite ?IH, ?IH1, ?IH2; try reflexivity.
    generalize (mk_std_prop true [] (@n0 T _)) as acc. induction IH as [|x l Hx Hl IHl]; intros acc; [reflexivity|].
    cbn [map fold_left]. rewrite Hx. apply IHl.
  Qed.
  Lemma std_properties_sim (a b : node T) : gsim e0 a b -> std_properties a = std_properties b.
  Proof. intros E. rewrite <- (std_properties_er a), <- (std_properties_er b). f_equal. exact E. Qed.

  (** *** Corresponding parts. *)
  Record twins (tw : node T -> node T) (p1 p2 : cstd T) : Prop := {
    tn_ca : cs_ca p2 = cs_ca p1;
    tn_cj : cs_cj p2 = cs_cj p1;
    tn_b : cs_b p2 = cs_b p1;
    tn_a : Permutation (map (fun e => (fst (fst e), tw (snd (fst e)), snd e)) (cs_a p1)) (cs_a p2);
    tn_j : Permutation (map (fun e => (fst (fst e), tw (snd (fst e)))) (cs_j p1)) (map fst (cs_j p2));
    tn_u : cs_u p2 = map (fun e => (tw (fst (fst e)), snd (fst e), snd e)) (cs_u p1);
    tn_l : cs_l p2 = map (fun e => (tw (fst (fst e)), snd (fst e), snd e)) (cs_l p1);
    tn_keys : prop_keys p2 = map tw (prop_keys p1);
    tn_f : Forall2 (fun f1 f2 => forall vs1 vs2 : vals T,
              (forall v, In v (prop_keys p1) -> evaluate vs1 v = evaluate vs2 (tw v)) ->
              evaluate vs1 f1 = evaluate vs2 f2) (cs_f p1) (cs_f p2)
  }.

  Lemma twins_new tw : twins tw cstd_new cstd_new.
  Proof. constructor; cbn; auto. Qed.
  Lemma F2_imp {A B} (P Q : A -> B -> Prop) l l' : (forall a b, P a b -> Q a b) -> Forall2 P l l' -> Forall2 Q l l'.
  Proof. intros HI. induction 1; constructor; auto. Qed.
  Lemma twins_app tw p1 p2 q1 q2 : twins tw p1 p2 -> twins tw q1 q2 -> twins tw (cstd_app p1 q1) (cstd_app p2 q2).
  Proof.
    intros [A1 A2 A3 A4 A5 A6 A7 A8 A9] [B1 B2 B3 B4 B5 B6 B7 B8 B9].
    constructor; rewrite ?prop_keys_app; unfold cstd_app;
      cbn [cs_ca cs_cj cs_a cs_b cs_f cs_j cs_h cs_u cs_l cs_prop]; rewrite ?map_app; try congruence;
      try (apply Permutation_app; assumption).
    apply Forall2_app; (eapply F2_imp; [|eassumption]); cbn; intros f1 f2 Hf vs1 vs2 Hv; apply Hf; intros v Hin;
      apply Hv; apply in_or_app; auto.
  Qed.

  Section Step.
    Variables (O1 O2 : HashOrd) (nsq : bool) (k0 : nat) (S : node T -> Prop).
    Hypothesis HW : world nsq k0 S.
    (* the variables of an expression built from the world are old *)
    Definition old_vars (e : node T) : Prop := forall v, occurs v e -> nid v < k0.

    Lemma old_world e : S e -> old_vars e.
    Proof.
      intros Se v [Hv Hs]. eapply w_lt; [exact HW|]. eapply world_sub; eauto.
    Qed.

    Definition slack_pair (k1 k1' k2 k2' : nat) (ss : node T * node T) : Prop :=
      (k1 <= nid (fst ss) < k1') /\ (k2 <= nid (snd ss) < k2') /\
      exists nm, fst ss = NVar (nid (fst ss)) nm VarContinuous /\ snd ss = NVar (nid (snd ss)) nm VarContinuous.

    Lemma old_tw tw (e : node T) : old_vars e -> (forall v, nid v < k0 -> tw v = v) ->
      map tw (map fst (p_a (std_properties e))) = map fst (p_a (std_properties e)).
    Proof.
      intros He Ht. rewrite <- (map_id (map fst (p_a (std_properties e)))) at 2.
      apply map_ext_in. intros v Hv. apply Ht, He, keys_occur; auto.
    Qed.
    Lemma old_fresh (e s : node T) : old_vars e -> k0 <= nid s ->
      existsb (ptr_eq s) (map fst (p_a (std_properties e))) = false.
    Proof.
      intros He Hk. apply not_true_is_false. intros E. apply existsb_exists in E as (w & Hw & Ew).
      apply keys_occur in Hw. apply ptr_eq_nid in Ew. specialize (He w Hw). lia.
    Qed.

    Lemma lin_row_perm tw (e : node T) t t' ar : old_vars e -> (forall v, nid v < k0 -> tw v = v) ->
      Permutation
        (map (fun x : nat * node T * T => (fst (fst x), tw (snd (fst x)), snd x))
             (map (fun kv => (ar, fst kv, snd kv)) (@ord O1 _ 4 t (p_a (std_properties e)))))
        (map (fun kv => (ar, fst kv, snd kv)) (@ord O2 _ 4 t' (p_a (std_properties e)))).
    Proof.
      intros He Ht. rewrite map_map. cbn [fst snd].
      eapply perm_trans; [apply Permutation_map, ord_perm|].
      eapply perm_trans; [|apply Permutation_map, Permutation_sym, ord_perm].
      erewrite map_ext_in; [apply Permutation_refl|]. intros kv Hkv. cbn. rewrite Ht; auto.
      apply He, keys_occur. apply in_map; auto.
    Qed.
    Lemma jac_row_perm tw (e1 e2 : node T) k1 k1' k2 k2' sc1 sc2 jr : old_vars e1 -> (forall v, nid v < k0 -> tw v = v) ->
      std_properties e1 = std_properties e2 ->
      @std_components T _ O1 e1 k1 = Ok (sc1, k1') -> @std_components T _ O2 e2 k2 = Ok (sc2, k2') ->
      Permutation
        (map (fun x : nat * node T * node T => (fst (fst x), tw (snd (fst x))))
             (map (fun ge => (jr, fst ge, snd ge)) (sc_gphi sc1)))
        (map fst (map (fun ge : node T * node T => (jr, fst ge, snd ge)) (sc_gphi sc2))).
    Proof.
      intros He Ht Ep E1 E2. rewrite !map_map. cbn [fst snd].
      apply std_components_ok in E1 as (_ & _ & _ & G1 & _). apply std_components_ok in E2 as (_ & _ & _ & G2 & _).
      assert (P : Permutation (map tw (map fst (sc_gphi sc1))) (map fst (sc_gphi sc2))).
      { rewrite G1, G2, <- Ep.
        eapply perm_trans; [apply Permutation_map, Permutation_map, ord_perm|]. rewrite (old_tw tw e1 He Ht).
        apply Permutation_map, Permutation_sym, ord_perm. }
      rewrite map_map in P.
      assert (Q : Permutation (map (fun v => (jr, v)) (map (fun x : node T * node T => tw (fst x)) (sc_gphi sc1)))
                              (map (fun v => (jr, v)) (map fst (sc_gphi sc2)))) by (apply Permutation_map; exact P).
      rewrite !map_map in Q. exact Q.
    Qed.

    Lemma constr_two c ar jr k1 k2 p1 p2 ar1 ar2 jr1 jr2 k1' k2' :
      S (clhs c) -> S (crhs c) -> k0 <= k1 -> k0 <= k2 ->
      @constr_std T _ O1 c ar jr k1 = Ok ((p1, ar1, jr1), k1') ->
      @constr_std T _ O2 c ar jr k2 = Ok ((p2, ar2, jr2), k2') ->
      k1 <= k1' /\ k2 <= k2' /\ ar1 = ar2 /\ jr1 = jr2 /\
      exists sl, Forall (slack_pair k1 k1' k2 k2') sl /\ length sl <= 1 /\
        (forall v, In v (prop_keys p1) -> nid v < k0 \/ In v (map fst sl)) /\
        forall tw, (forall v, nid v < k0 -> tw v = v) -> (forall a b, In (a, b) sl -> tw a = b) -> twins tw p1 p2.
    Proof.
      intros Sl Sr K1 K2 E1 E2.
      apply constr_std_inv in E1 as (e1 & j1 & sc1 & m1 & E1 & C1 & D1).
      apply constr_std_inv in E2 as (e2 & j2 & sc2 & m2 & E2 & C2 & D2).
      pose proof (fresh_mono _ _ (sub_nn_fresh (clhs c) (crhs c)) _ _ _ E1) as M1.
      pose proof (fresh_mono _ _ (sub_nn_fresh (clhs c) (crhs c)) _ _ _ E2) as M2.
      assert (Ho : old_vars e1).
      { intros v Hv. apply (sub_nn_occurs_l v _ _ _ _ _ E1) in Hv as [Hv|Hv]; revert Hv; apply old_world; auto. }
      assert (Hs : gsim e0 e1 e2).
      { pose proof (sub_nn_sim e0 (clhs c) (crhs c) _ _ (sim_refl _) (sim_refl _) k1 k2) as G.
        rewrite E1, E2 in G. exact G. }
      pose proof (std_properties_sim e1 e2 Hs) as Ep.
      pose proof (std_components_ok _ _ _ _ C1) as (N1 & _). pose proof (std_components_ok _ _ _ _ C2) as (N2 & _).
      assert (Hall : forall v, occurs v e1 -> In v (map fst (p_a (std_properties e1)))).
      { intros v Hv. pose proof (occurs_has _ _ Hv) as Hh. apply existsb_exists in Hh as (w & Hw & Eq).
        assert (HoS : forall u, occurs u e1 -> S u).
        { intros u Hu. apply (sub_nn_occurs_l u _ _ _ _ _ E1) in Hu as [[_ Hu]|[_ Hu]];
            [exact (world_sub nsq k0 S _ _ HW Sl Hu)|exact (world_sub nsq k0 S _ _ HW Sr Hu)]. }
        rewrite (world_ptr_eq nsq k0 S v w HW (HoS v Hv) (HoS w (keys_occur _ _ Hw)) Eq). exact Hw. }
      assert (Hkeys : forall v, In v (map fst (p_a (std_properties e1))) -> nid v < k0).
      { intros v Hv. apply Ho, keys_occur; exact Hv. }
      destruct D1 as [x1 w1 Ha1 Hp1 Hv1 Hne1|Ha1 He1|s1 Ha1 Hne1 Hb1 Hs1|Ha1 He1|s1 f1 q1 o1 Ha1 Hne1 Hs1 Ef1 Hm1];
        destruct D2 as [x2 w2 Ha2 Hp2 Hv2 Hne2|Ha2 He2|s2 Ha2 Hne2 Hb2 Hs2|Ha2 He2|s2 f2 q2 o2 Ha2 Hne2 Hs2 Ef2 Hm2];
        rewrite <- Ep in *; try congruence.
      - (* both bounds *)
        rewrite Hp1 in Hp2. injection Hp2 as <- <-.
        do 4 (split; [lia|]). exists []. split; [constructor|]. split; [cbn; lia|].
        split. { unfold prop_keys; cbn. rewrite app_nil_r. intros v Hv. left. apply Hkeys; exact Hv. }
        intros tw Ht _. assert (Hx : tw x1 = x1). { apply Ht, Hkeys. rewrite Hp1. cbn; auto. }
        constructor; cbn; auto.
        + destruct (ckind_eqb (ckd c) LessEqual); cbn; rewrite ?Hx; reflexivity.
        + destruct (ckind_eqb (ckd c) LessEqual); cbn; rewrite ?Hx; reflexivity.
        + unfold prop_keys; cbn. rewrite !app_nil_r. symmetry. apply old_tw; auto.
      - exfalso. clear - Ha1 Hp1 Hv1 Hne1 Hb2. unfold is_bound in Hb2. rewrite Hp1, Ha1, Hv1 in Hb2.
        destruct (ckd c); cbn in Hb2; congruence.
      - (* linear equality *)
        do 4 (split; [lia|]). exists []. split; [constructor|]. split; [cbn; lia|].
        split. { unfold prop_keys; cbn. rewrite app_nil_r. intros v Hv. left. apply Hkeys; exact Hv. }
        intros tw Ht _. constructor; cbn; auto.
        + apply lin_row_perm; auto.
        + unfold prop_keys; cbn. rewrite !app_nil_r. symmetry. apply old_tw; auto.
      - exfalso. clear - Ha1 Hp2 Hv2 Hne2 Hb1. unfold is_bound in Hb1. rewrite Hp2, Ha1, Hv2 in Hb1.
        destruct (ckd c); cbn in Hb1; congruence.
      - (* linear inequality *)
        do 4 (split; [lia|]). exists [(s1, s2)]. split; [constructor; [|constructor]|].
        { rewrite Hs1, Hs2. unfold slack_pair; cbn [fst snd nid]. split; [lia|]. split; [lia|]. eauto. }
        split; [cbn; lia|].
        assert (Hf1 : existsb (ptr_eq s1) (map fst (p_a (std_properties e1))) = false) by (apply old_fresh; auto; rewrite Hs1; cbn; lia).
        assert (Hf2 : existsb (ptr_eq s2) (map fst (p_a (std_properties e1))) = false) by (apply old_fresh; auto; rewrite Hs2; cbn; lia).
        split.
        { unfold prop_keys; cbn. rewrite app_nil_r, keys_hinsert, Hf1. intros v Hv. apply in_app_or in Hv as [Hv|[<-|[]]]; [|auto].
          left. apply Hkeys; exact Hv. }
        intros tw Ht Hsl. assert (Hx : tw s1 = s2) by (apply Hsl; cbn; auto). clear Hs1 Hs2.
        constructor; cbn; auto.
        + rewrite map_app. apply Permutation_app; [apply lin_row_perm; auto|]. cbn. rewrite Hx. apply Permutation_refl.
        + destruct (ckind_eqb (ckd c) LessEqual); cbn; rewrite ?Hx; reflexivity.
        + destruct (ckind_eqb (ckd c) LessEqual); cbn; rewrite ?Hx; reflexivity.
        + unfold prop_keys; cbn. rewrite !app_nil_r, !keys_hinsert, Hf1, Hf2, map_app, old_tw by auto. cbn. rewrite Hx. reflexivity.
      - (* nonlinear equality *)
        do 4 (split; [lia|]). exists []. split; [constructor|]. split; [cbn; lia|].
        split. { unfold prop_keys; cbn. rewrite app_nil_r. intros v Hv. left. apply Hkeys; exact Hv. }
        intros tw Ht _. constructor; cbn; auto.
        + eapply (jac_row_perm tw e1 e2); eauto.
        + unfold prop_keys; cbn. rewrite !app_nil_r. symmetry. apply old_tw; auto.
        + constructor; [|constructor]. intros vs1 vs2 Hv. unfold prop_keys in Hv; cbn in Hv. rewrite app_nil_r in Hv.
          apply (sim_evaluate_gen e0); [|exact Hs]. intros v w Ov Ow Evw.
          rewrite (sim_var v w (proj1 Ov) Evw). rewrite (Hv v (Hall v Ov)). f_equal. apply Ht, Ho. exact Ov.
      - (* nonlinear inequality *)
        pose proof (fresh_mono _ _ (sub_nn_fresh e1 s1) _ _ _ Ef1) as M3.
        pose proof (fresh_mono _ _ (sub_nn_fresh e2 s2) _ _ _ Ef2) as M4.
        do 4 (split; [lia|]). exists [(s1, s2)]. split; [constructor; [|constructor]|].
        { rewrite Hs1, Hs2. unfold slack_pair; cbn [fst snd nid]. split; [lia|]. split; [lia|]. eauto. }
        split; [cbn; lia|].
        assert (Hf1 : existsb (ptr_eq s1) (map fst (p_a (std_properties e1))) = false) by (apply old_fresh; auto; rewrite Hs1; cbn; lia).
        assert (Hf2 : existsb (ptr_eq s2) (map fst (p_a (std_properties e1))) = false) by (apply old_fresh; auto; rewrite Hs2; cbn; lia).
        split.
        { unfold prop_keys; cbn. rewrite app_nil_r, keys_hinsert, Hf1. intros v Hv. apply in_app_or in Hv as [Hv|[<-|[]]]; [|auto].
          left. apply Hkeys; exact Hv. }
        intros tw Ht Hsl. assert (Hx : tw s1 = s2) by (apply Hsl; cbn; auto).
        set (g := fun i => if i =? m1 then m2 else i).
        assert (Hg : forall v, occurs v e1 -> g (nid v) = nid v).
        { intros v Hv. unfold g. specialize (Ho v Hv). destruct (Nat.eqb_spec (nid v) m1); [lia|reflexivity]. }
        assert (Gs : gsim g s1 s2). { rewrite Hs1, Hs2. unfold gsim, g. cbn. rewrite Nat.eqb_refl. reflexivity. }
        assert (Ge : gsim g e1 e2). { unfold gsim. rewrite (er_same g e1 Hg). exact Hs. }
        assert (Gf : gsim g f1 f2).
        { pose proof (sub_nn_sim g e1 s1 e2 s2 Ge Gs (Datatypes.S m1) (Datatypes.S m2)) as G. rewrite Ef1, Ef2 in G. exact G. }
        constructor; cbn; auto.
        + rewrite map_app. rewrite map_app. apply Permutation_app; [eapply (jac_row_perm tw e1 e2); eauto|]. cbn. rewrite Hx. apply Permutation_refl.
        + destruct (ckind_eqb (ckd c) LessEqual); cbn; rewrite ?Hx; reflexivity.
        + destruct (ckind_eqb (ckd c) LessEqual); cbn; rewrite ?Hx; reflexivity.
        + unfold prop_keys; cbn. rewrite !app_nil_r, !keys_hinsert, Hf1, Hf2, map_app, old_tw by auto. cbn. rewrite Hx. reflexivity.
        + constructor; [|constructor]. intros vs1 vs2 Hv. unfold prop_keys in Hv; cbn in Hv. rewrite app_nil_r, keys_hinsert, Hf1 in Hv.
          apply (sim_evaluate_gen g); [|exact Gf]. intros v w Ov Ow Evw.
          apply (sub_nn_occurs_l v _ _ _ _ _ Ef1) in Ov as [Ov|[Vv Sv]].
          * assert (w = v) as ->.
            { destruct v as [|i nm kd| | | | |]; try (destruct Ov; discriminate). destruct w; inversion Evw; subst.
              f_equal. exact (Hg _ Ov). }
            rewrite (Hv v) by (apply in_or_app; auto). f_equal. apply Ht, Ho. exact Ov.
          * assert (v = s1) as -> by (rewrite Hs1 in Sv |- *; inversion Sv as [|? ? ? Hin]; subst; [reflexivity|destruct Hin]).
            assert (w = s2) as ->.
            { rewrite Hs1 in Evw. unfold gsim, g in Evw. cbn in Evw. rewrite Nat.eqb_refl in Evw.
              destruct w; inversion Evw; subst. reflexivity. }
            rewrite (Hv s1) by (apply in_or_app; cbn; auto). rewrite Hx. reflexivity.
    Qed.

    (** The whole list of constraints. *)
    Lemma parts_two cs : forall ar jr k1 k2 ps1 ps2 ar1 ar2 jr1 jr2 k1' k2',
      Forall (fun c => S (clhs c) /\ S (crhs c)) cs -> k0 <= k1 -> k0 <= k2 ->
      @parts T _ O1 cs ar jr k1 ps1 ar1 jr1 k1' -> @parts T _ O2 cs ar jr k2 ps2 ar2 jr2 k2' ->
      k1 <= k1' /\ k2 <= k2' /\
      exists sl, Forall (slack_pair k1 k1' k2 k2') sl /\ NoDup (map (fun ss => nid (fst ss)) sl) /\ NoDup (map (fun ss => nid (snd ss)) sl) /\
        (forall v, In v (prop_keys (cat ps1)) -> nid v < k0 \/ In v (map fst sl)) /\
        forall tw, (forall v, nid v < k0 -> tw v = v) -> (forall a b, In (a, b) sl -> tw a = b) -> twins tw (cat ps1) (cat ps2).
    Proof.
      induction cs as [|c cs IH]; intros ar jr k1 k2 ps1 ps2 ar1 ar2 jr1 jr2 k1' k2' HS K1 K2 P1 P2.
      - inversion P1; subst. inversion P2; subst. split; [lia|]. split; [lia|]. exists [].
        split; [constructor|]. split; [constructor|]. split; [constructor|]. split; [intros v []|]. intros; apply twins_new.
      - inversion HS as [|? ? [Sl Sr] HS']; subst.
        inversion P1 as [|? ? ? ? ? p1 a1 j1 h1 qs1 ? ? ? E1 Q1]; subst.
        inversion P2 as [|? ? ? ? ? p2 a2 j2 h2 qs2 ? ? ? E2 Q2]; subst.
        destruct (constr_two c ar jr k1 k2 p1 p2 a1 a2 j1 j2 h1 h2 Sl Sr K1 K2 E1 E2)
          as (L1 & L2 & <- & <- & sl & F & Ln & Hk & Htw).
        destruct (IH a1 j1 h1 h2 qs1 qs2 ar1 ar2 jr1 jr2 k1' k2' HS' ltac:(lia) ltac:(lia) Q1 Q2)
          as (L3 & L4 & sl' & F' & N1 & N2 & Hk' & Htw').
        split; [lia|]. split; [lia|]. exists (sl ++ sl').
        rewrite Forall_forall in F, F'.
        split; [|split; [|split; [|split]]].
        + apply Forall_forall. intros ss Hin. apply in_app_or in Hin as [Hin|Hin].
          * destruct (F ss Hin) as (A & B & C). split; [lia|]. split; [lia|exact C].
          * destruct (F' ss Hin) as (A & B & C). split; [lia|]. split; [lia|exact C].
        + rewrite map_app. apply NoDup_app_intro; auto.
          * destruct sl as [|a [|b sl]]; cbn in Ln |- *; [constructor|constructor; [intros []|constructor]|lia].
          * intros i Hi Hi'. apply in_map_iff in Hi as (x & <- & Hx). apply in_map_iff in Hi' as (y & Ey & Hy).
            destruct (F x Hx) as (A & _). destruct (F' y Hy) as (A' & _). lia.
        + rewrite map_app. apply NoDup_app_intro; auto.
          * destruct sl as [|a [|b sl]]; cbn in Ln |- *; [constructor|constructor; [intros []|constructor]|lia].
          * intros i Hi Hi'. apply in_map_iff in Hi as (x & <- & Hx). apply in_map_iff in Hi' as (y & Ey & Hy).
            destruct (F x Hx) as (_ & A & _). destruct (F' y Hy) as (_ & A' & _). lia.
        + intros v Hv. change (cat (p1 :: qs1)) with (cstd_app p1 (cat qs1)) in Hv. rewrite prop_keys_app in Hv.
          rewrite map_app, in_app_iff. apply in_app_or in Hv as [Hv|Hv]; [destruct (Hk v Hv)|destruct (Hk' v Hv)]; auto.
        + intros tw Ht Hsl. change (twins tw (cstd_app p1 (cat qs1)) (cstd_app p2 (cat qs2))).
          apply twins_app; [apply Htw|apply Htw']; auto; intros a b Hin; apply Hsl, in_or_app; auto.
    Qed.
  End Step.
End Two.
