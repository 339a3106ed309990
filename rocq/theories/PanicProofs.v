(** Which operations can panic, and exactly when. *)
From Verif Require Import Base Num Node NodeDiff NodeInd NodeStd World Fresh MapProofs
     StdPropProofs PathProofs DerivProofs.

Section Panics.
  Context {T : Type} `{Num T} `{HashOrd}.

  (** [tot m]: [m] never panics. *)
  Definition tot {A} (m : M A) : Prop := forall k, exists r k', m k = Ok (r, k').

  Lemma tot_ret {A} (a : A) : tot (ret a).
  Proof. intros k; unfold ret; eauto. Qed.
  Lemma tot_bind {A B} (m : M A) (f : A -> M B) : tot m -> (forall a, tot (f a)) -> tot (bind m f).
  Proof.
    intros Hm Hf k. destruct (Hm k) as (a & k1 & E1). destruct (Hf a k1) as (b & k2 & E2).
    exists b, k2. apply bind_ok; eauto.
  Qed.
  Lemma tot_const (v : T) : tot (mk_const v). Proof. intros k; unfold mk_const; eauto. Qed.
  Lemma tot_mul (a b : node T) : tot (mk_mul a b). Proof. intros k; unfold mk_mul; eauto. Qed.
  Lemma tot_div (a b : node T) : tot (mk_div a b). Proof. intros k; unfold mk_div; eauto. Qed.
  Lemma tot_cos (a : node T) : tot (mk_cos a). Proof. intros k; unfold mk_cos; eauto. Qed.
  Lemma tot_sin (a : node T) : tot (mk_sin a). Proof. intros k; unfold mk_sin; eauto. Qed.
  Lemma tot_mapM_add {A} (f : A -> M (node T)) l :
    (forall x, In x l -> tot (f x)) -> 2 <= length l -> tot (bind (mapM f l) mk_add).
  Proof.
    intros Hf Hl k.
    assert (G : forall k, exists r k', mapM f l k = Ok (r, k') /\ length r = length l).
    { clear Hl k. induction l as [|x l IH]; intros k.
      - exists [], k; auto.
      - destruct (Hf x (or_introl eq_refl) k) as (b & k1 & E1).
        destruct (IH (fun y Hy => Hf y (or_intror Hy)) k1) as (bs & k2 & E2 & L2).
        exists (b :: bs), k2. split; [|cbn; auto]. apply mapM_cons_ok. eauto 8. }
    destruct (G k) as (r & k1 & E1 & L1). exists (NAdd k1 r), (S k1). apply bind_ok.
    exists r, k1. split; auto. unfold mk_add. rewrite L1.
    destruct (Nat.ltb_spec (length l) 2); [lia|auto].
  Qed.

  (** Every sum inside [n] has at least two terms. *)
  Definition sums2 (n : node T) : Prop := forall i args, sub (NAdd i args) n -> 2 <= length args.
  Lemma sums2_arg n c : sums2 n -> In c (arguments n) -> sums2 c.
  Proof. intros Hn Hc i args Hs. apply (Hn i). eapply sub_arg; eauto. Qed.
  Lemma world_sums2 nsq k S n : world nsq k S -> S n -> sums2 n.
  Proof.
    intros HW Hn i args Hs. apply (world_add_args nsq k S i args HW).
    eapply world_sub; eauto.
  Qed.

  Hint Resolve tot_ret tot_const tot_mul tot_div tot_cos tot_sin : tot.

  Lemma mul_cn_tot s r : sums2 r -> tot (mul_cn s r).
  Proof.
    induction r as [i v|i st kd|i args IH|i a IHa|i a b IHa IHb|i a b IHa IHb|i a IHa] using node_ind';
      intros Hs; cbn [mul_cn];
      repeat match goal with |- tot (if ?b then _ else _) => destruct b end; auto with tot.
    apply tot_mapM_add; [|apply (Hs i); constructor].
    rewrite Forall_forall in IH. intros x Hx. apply IH; auto. apply (sums2_arg _ x Hs); auto.
  Qed.
  Lemma mul_nc_tot s r : sums2 s -> tot (mul_nc s r).
  Proof.
    induction s as [i v|i st kd|i args IH|i a IHa|i a b IHa IHb|i a b IHa IHb|i a IHa] using node_ind';
      intros Hs; cbn [mul_nc];
      repeat match goal with |- tot (if ?b then _ else _) => destruct b end; auto with tot.
    apply tot_mapM_add; [|apply (Hs i); constructor].
    rewrite Forall_forall in IH. intros x Hx. apply IH; auto. apply (sums2_arg _ x Hs); auto.
  Qed.
  Lemma mul_nn_tot a b : sums2 a -> sums2 b -> tot (mul_nn a b).
  Proof.
    intros Ha Hb. unfold mul_nn.
    repeat match goal with |- tot (if ?b then _ else _) => destruct b end; auto with tot.
    destruct a; auto with tot.
    - destruct b; auto with tot. apply tot_mapM_add; [|apply (Hb id0); constructor].
      intros x Hx. apply mul_cn_tot. apply (sums2_arg _ x Hb); auto.
    - destruct b; auto with tot. apply tot_mapM_add; [|apply (Ha id); constructor].
      intros x Hx. apply mul_nc_tot. apply (sums2_arg _ x Ha); auto.
  Qed.
  Lemma mul_ns_tot s r : sums2 s -> tot (mul_ns s r).
  Proof.
    induction s as [i v|i st kd|i args IH|i a IHa|i a b IHa IHb|i a b IHa IHb|i a IHa] using node_ind';
      intros Hs; cbn [mul_ns];
      repeat match goal with |- tot (if ?b then _ else _) => destruct b end; auto with tot;
        try solve [apply tot_bind; auto with tot].
    apply tot_mapM_add; [|apply (Hs i); constructor].
    rewrite Forall_forall in IH. intros x Hx. apply IH; auto. apply (sums2_arg _ x Hs); auto.
  Qed.
  Lemma mul_sn_tot s r : sums2 r -> tot (mul_sn s r).
  Proof.
    induction r as [i v|i st kd|i args IH|i a IHa|i a b IHa IHb|i a b IHa IHb|i a IHa] using node_ind';
      intros Hs; cbn [mul_sn];
      repeat match goal with |- tot (if ?b then _ else _) => destruct b end; auto with tot;
        try solve [apply tot_bind; auto with tot].
    apply tot_mapM_add; [|apply (Hs i); constructor].
    rewrite Forall_forall in IH. intros x Hx. apply IH; auto. apply (sums2_arg _ x Hs); auto.
  Qed.
  Lemma neg_n_tot n : sums2 n -> tot (neg_n n).
  Proof. intros Hn. unfold neg_n. destruct n; try (apply mul_sn_tot; auto). auto with tot. Qed.
  Lemma cos_n_tot n : tot (cos_n n).
  Proof. unfold cos_n. destruct n; auto with tot. Qed.
  Lemma sin_n_tot n : tot (sin_n n).
  Proof. unfold sin_n. destruct n; auto with tot. Qed.

  (** *** Addition: the exact panic condition.

      [terms n] are the summands [n] contributes, [consts] their constants. *)
  Definition terms (n : node T) : list (node T) :=
    match n with NAdd _ xs => xs | _ => [n] end.
  Definition const_vals (l : list (node T)) : list T :=
    flat_map (fun x => match x with NConst _ v => [v] | _ => [] end) l.
  Definition nonconsts (l : list (node T)) : list (node T) :=
    filter (fun x => negb (is_constant x)) l.

  Lemma add_inner_spec xs c args :
    fold_left add_inner xs (c, args) =
    (fold_left nadd (const_vals xs) c, args ++ nonconsts xs).
  Proof.
    revert c args; induction xs as [|x xs IH]; intros c args; cbn [fold_left].
    - rewrite app_nil_r; auto.
    - unfold add_inner at 2. destruct x; rewrite IH; cbn; rewrite <- ?app_assoc; auto.
  Qed.

  Lemma add_outer_spec a c args :
    add_outer (c, args) a = (fold_left nadd (const_vals (terms a)) c, args ++ nonconsts (terms a)).
  Proof.
    unfold add_outer. destruct a; cbn [terms]; try reflexivity.
    - cbn. rewrite app_nil_r; auto.
    - apply add_inner_spec.
  Qed.

  Lemma const_vals_app l l' : const_vals (l ++ l') = const_vals l ++ const_vals l'.
  Proof. unfold const_vals. apply flat_map_app. Qed.
  Lemma nonconsts_app l l' : nonconsts (l ++ l') = nonconsts l ++ nonconsts l'.
  Proof. unfold nonconsts. apply filter_app. Qed.

  Lemma add_fold_spec a b :
    fold_left add_outer [a; b] (n0, []) =
    (fold_left nadd (const_vals (terms a ++ terms b)) n0, nonconsts (terms a ++ terms b)).
  Proof.
    cbn [fold_left]. rewrite !add_outer_spec, const_vals_app, nonconsts_app, fold_left_app. reflexivity.
  Qed.

  Definition add_collapses (a b : node T) : Prop :=
    length (nonconsts (terms a ++ terms b)) = 1 /\
    neqb (fold_left nadd (const_vals (terms a ++ terms b)) n0) n0 = true.

  Lemma add_other_panic a b k p :
    add_other a b k = Panic p <-> p = PAssert /\ add_collapses a b.
  Proof.
    unfold add_other, add_collapses. rewrite add_fold_spec.
    set (c := fold_left _ _ _). set (args := nonconsts _).
    destruct args as [|x args]; [cbn; split; [discriminate|intros (_ & E & _); discriminate]|].
    destruct (neqb c n0) eqn:Ec; cbn [negb].
    - unfold mk_add. destruct args as [|y args]; cbn [length].
      + cbn. split; [intros E; inversion E; auto|intros (-> & _); auto].
      + destruct (Nat.ltb_spec (S (S (length args))) 2); [lia|].
        split; [discriminate|intros (_ & E & _); discriminate].
    - rewrite bind_panic. unfold mk_const, mk_add.
      split.
      + intros [E|(cn & k1 & E1 & E2)]; [discriminate|]. exfalso.
        destruct (Nat.ltb_spec (length ((x :: args) ++ [cn])) 2) as [Hl|Hl]; [|discriminate].
        rewrite app_length in Hl. cbn in Hl. lia.
      + intros (_ & _ & E); discriminate.
  Qed.

  Theorem add_nn_panic a b k p :
    add_nn a b k = Panic p <->
    p = PAssert /\ is_constant_with_value a n0 = false /\ is_constant_with_value b n0 = false /\
    add_collapses a b.
  Proof.
    unfold add_nn. destruct (is_constant_with_value a n0) eqn:Ea.
    { split; [discriminate|]. intros (_ & E & _); discriminate. }
    destruct (is_constant_with_value b n0) eqn:Eb.
    { split; [discriminate|]. intros (_ & _ & E & _); discriminate. }
    rewrite add_other_panic. intuition.
  Qed.

  Theorem add_ns_panic a v k p :
    add_ns a v k = Panic p <->
    p = PAssert /\ neqb v n0 = false /\ add_collapses a (NConst k v).
  Proof.
    unfold add_ns. destruct (neqb v n0) eqn:Ev.
    { split; [discriminate|]. intros (_ & E & _); discriminate. }
    rewrite bind_panic. split.
    - intros [E|(x & k1 & E1 & E2)]; [discriminate|]. inversion E1; subst.
      apply add_other_panic in E2. intuition.
    - intros (-> & _ & Hc). right. exists (NConst k v), (S k). split; auto.
      apply add_other_panic. auto.
  Qed.

  Theorem add_sn_panic v a k p :
    add_sn v a k = Panic p <->
    p = PAssert /\ neqb v n0 = false /\ add_collapses (NConst k v) a.
  Proof.
    unfold add_sn. destruct (neqb v n0) eqn:Ev.
    { split; [discriminate|]. intros (_ & E & _); discriminate. }
    rewrite bind_panic. split.
    - intros [E|(x & k1 & E1 & E2)]; [discriminate|]. inversion E1; subst.
      apply add_other_panic in E2. intuition.
    - intros (-> & _ & Hc). right. exists (NConst k v), (S k). split; auto.
      apply add_other_panic. auto.
  Qed.

  Lemma tot_panic {A} (m : M A) k p : tot m -> m k = Panic p -> False.
  Proof. intros Hm E. destruct (Hm k) as (r & k' & E'). congruence. Qed.

  (** Subtraction panics only through that assertion. *)
  Theorem sub_nn_panic a b k p : sums2 b -> sub_nn a b k = Panic p -> p = PAssert.
  Proof.
    intros Hb E. unfold sub_nn in E. apply bind_panic in E as [E|(m & k1 & E1 & E2)].
    - exfalso. eapply tot_panic; [|exact E]. apply mul_sn_tot; auto.
    - apply add_nn_panic in E2. intuition.
  Qed.

  (** *** Division panics exactly on a constant zero denominator. *)
  Theorem div_nn_panic a b k p :
    div_nn a b k = Panic p <-> p = PDivZero /\ is_constant_with_value b n0 = true.
  Proof.
    unfold div_nn, fail. destruct (is_constant_with_value b n0).
    - split; [intros E; inversion E; auto|intros [-> _]; auto].
    - split; [|intros [_ E]; discriminate].
      destruct (is_constant_with_value b n1); [discriminate|].
      destruct (is_constant_with_value a n0); [discriminate|].
      destruct (is_constant a && is_constant b); discriminate.
  Qed.
  Theorem div_ns_panic a v k p :
    div_ns a v k = Panic p <-> p = PDivZero /\ neqb v n0 = true.
  Proof.
    unfold div_ns, fail. destruct (neqb v n0).
    - split; [intros E; inversion E; auto|intros [-> _]; auto].
    - split; [|intros [_ E]; discriminate].
      destruct (neqb v n1); [discriminate|].
      destruct (is_constant_with_value a n0); [discriminate|].
      destruct (is_constant a); [discriminate|]. unfold bind, mk_const, mk_div; discriminate.
  Qed.
  Theorem div_sn_panic v b k p :
    div_sn v b k = Panic p <-> p = PDivZero /\ is_constant_with_value b n0 = true.
  Proof.
    unfold div_sn, fail. destruct (is_constant_with_value b n0).
    - split; [intros E; inversion E; auto|intros [-> _]; auto].
    - split; [|intros [_ E]; discriminate].
      destruct (is_constant_with_value b n1); [discriminate|].
      destruct (neqb v n0); [discriminate|].
      destruct (is_constant b); [discriminate|]. unfold bind, mk_const, mk_div; discriminate.
  Qed.

  (** *** Derivatives *)
  Lemma sub_sums2 n s : sums2 n -> sub s n -> sums2 s.
  Proof. intros Hn Hs i args Ha. apply (Hn i). eapply sub_trans; eauto. Qed.

  Lemma partial_tot nsq k S n c :
    world nsq k S -> S n -> In c (arguments n) -> is_constant c = false -> tot (partial n c).
  Proof.
    intros HW Hn Hc Hnc.
    assert (Hs : forall x, In x (arguments n) -> sums2 x).
    { intros x Hx. eapply world_sums2; eauto. eapply w_closed; eauto. }
    pose proof (w_shape _ _ _ HW _ Hn) as Hsh.
    destruct n as [i w|i st kd|i args|i a|i a b|i a b|i a]; cbn [partial arguments shape] in *.
    - auto with tot.
    - destruct c; auto with tot. destruct (_ =? _); auto with tot.
    - destruct (existsb _ _); auto with tot.
    - destruct (ptr_eq a c); auto with tot.
      intros k0. destruct (sin_n_tot a k0) as (s & k1 & E1).
      destruct (neg_n_tot s) with (k := k1) as (r & k2 & E2).
      { assert (Hcase : (exists j w, s = NConst j w) \/ s = NSin k0 a).
        { unfold sin_n in E1. destruct a; inversion E1; subst; eauto. }
        destruct Hcase as [(j & w & ->)| ->]; intros j' args' Hj; inversion Hj as [|? ch ? Hin Hj']; subst.
        - destruct Hin.
        - destruct Hin as [<-|[]]. eapply Hs; [left; reflexivity|exact Hj']. }
      exists r, k2. apply bind_ok; eauto.
    - destruct Hsh as (Hab & Hb0 & _). destruct (ptr_eq a c) eqn:Eac.
      + intros k0. destruct (div_sn n1 b k0) as [[r k1]|p] eqn:E; eauto.
        apply div_sn_panic in E as [_ E]. congruence.
      + destruct (ptr_eq b c) eqn:Ebc; auto with tot.
        intros k0.
        destruct (neg_n_tot a) with (k := k0) as (x & k1 & E1); [apply Hs; cbn; auto|].
        destruct (mul_nn_tot b b) with (k := k1) as (y & k2 & E2); [apply Hs; cbn; auto|apply Hs; cbn; auto|].
        destruct (div_nn x y k2) as [[r k3]|p] eqn:E3.
        * exists r, k3. apply bind_ok. exists x, k1. split; auto. apply bind_ok. eauto.
        * exfalso. apply div_nn_panic in E3 as [_ E3].
          assert (Hbc : is_constant b = false).
          { destruct b, c; cbn in Ebc, Hnc |- *; try discriminate; auto. }
          assert (Hb1 : forall v, is_constant_with_value b v = false).
          { intros v. destruct b; auto; discriminate. }
          unfold mul_nn in E2. rewrite !Hb1, Hbc in E2. cbn [orb andb] in E2.
          destruct b; try discriminate Hbc; inversion E2; subst; discriminate.
    - destruct (ptr_eq a c); auto with tot. destruct (ptr_eq b c); auto with tot.
    - destruct (ptr_eq a c); auto using cos_n_tot with tot.
  Qed.

  Lemma path_prod_no_panic nsq k S p k0 :
    world nsq k S -> k <= k0 -> Forall S p -> chain p -> Forall (fun x => is_constant x = false) p ->
    world nsq k0 S -> exists r k1, path_prod p k0 = Ok (r, k1).
  Proof.
    intros _ _ Hp Hch Hnc HW. unfold path_prod.
    assert (G : forall ws one k S, world nsq k S -> S one ->
       Forall (fun pr => In (snd pr) (arguments (fst pr)) /\ S (fst pr) /\ is_constant (snd pr) = false) ws ->
       exists r k1, foldM (fun prod pr => bind (partial (fst pr) (snd pr)) (fun d => mul_nn prod d)) ws one k
                    = Ok (r, k1)).
    { clear. induction ws as [|[a b] ws IH]; intros one k S HW Hone Hws.
      - exists one, k; reflexivity.
      - inversion Hws as [|? ? (Hin & Sa & Hc) Hws']; subst. cbn [fst snd] in *.
        destruct (partial_tot nsq k S a b HW Sa Hin Hc k) as (d & k1 & E1).
        destruct (partial_grows nsq k S a b HW Sa _ _ E1) as (Hk1 & S1 & Hi1 & HW1 & Hd).
        destruct (mul_nn_tot one d) with (k := k1) as (m & k2 & E2).
        { eapply world_sums2; eauto. } { eapply world_sums2; eauto. }
        destruct (mul_nn_grows nsq k1 S1 one d HW1 (Hi1 _ Hone) Hd _ _ E2) as (Hk2 & S2 & Hi2 & HW2 & Hm).
        destruct (IH m k2 S2 HW2 Hm) as (r & k3 & E3).
        { eapply Forall_impl; [|exact Hws']. cbn. intros [x y] (H1 & H2 & H3). cbn in *. auto. }
        exists r, k3. apply foldM_cons_ok. exists m, k2. split; auto. apply bind_ok; eauto. }
    destruct (mk_const_grows nsq k0 S n1 HW (NConst k0 n1) (Datatypes.S k0) eq_refl) as (_ & S1 & Hi1 & HW1 & Hone & _).
    destruct (G (windows2 p) (NConst k0 n1) (Datatypes.S k0) S1 HW1 Hone) as (r & k1 & E).
    - apply Forall_forall. intros [a b] Hab. cbn. unfold chain in Hch. rewrite Forall_forall in Hch, Hp, Hnc.
      pose proof (Hch _ Hab) as H1. apply windows2_in in Hab as [Ha Hb]. auto.
    - exists r, k1. apply bind_ok. exists (NConst k0 n1), (Datatypes.S k0). split; auto.
  Qed.

  Lemma path_sum_panic nsq k S self v p :
    world nsq k S -> S self -> path_sum (rpaths v self) k = Panic p -> p = PAssert.
  Proof.
    intros HW Hs. unfold path_sum. intros E. apply bind_panic in E as [E|(z & k1 & E1 & E)]; [discriminate|].
    destruct (mk_const_grows nsq k S n0 HW _ _ E1) as (_ & S1 & Hi1 & HW1 & Hz & _).
    clear E1.
    assert (HF : Forall (fun q => Forall S1 q /\ chain q /\ Forall (fun x => is_constant x = false) q) (rpaths v self)).
    { apply Forall_forall. intros q Hq. pose proof (rpaths_world nsq k S v self HW Hs) as HFw.
      rewrite Forall_forall in HFw. split; [|split].
      - eapply Forall_impl; [|apply HFw; auto]. exact Hi1.
      - apply rpaths_chain in Hq; tauto.
      - eapply rpaths_no_const; eauto. }
    clear Hs HW Hi1 k S. revert z k1 S1 HW1 Hz HF E.
    generalize (rpaths v self) as l. induction l as [|q l IH]; intros z k S HW Hz HF E; [discriminate|].
    inversion HF as [|? ? (Hq & Hch & Hnc) HF']; subst.
    cbn [foldM] in E. apply bind_panic in E as [E|(m & k2 & E1 & E2)].
    - apply bind_panic in E as [E|(d & k1 & E1 & E2)].
      + exfalso. destruct (path_prod_no_panic nsq k S q k HW (le_n _) Hq Hch Hnc HW) as (r & k1 & E1). congruence.
      + apply add_nn_panic in E2; tauto.
    - apply bind_ok in E1 as (d & k1 & E1 & E3).
      destruct (path_prod_grows nsq k S q HW Hq _ _ E1) as (_ & S1 & Hi1 & HW1 & Hd).
      destruct (add_nn_grows nsq k1 S1 z d HW1 (Hi1 _ Hz) Hd _ _ E3) as (_ & S2 & Hi2 & HW2 & Hm).
      eapply (IH m k2 S2); eauto. eapply Forall_impl; [|exact HF'].
      cbn. intros x (H1 & H2 & H3). repeat split; auto. eapply Forall_impl; [|exact H1]. auto.
  Qed.

  (** [derivatives] panics only on a non-variable or through the assertion of
      the sum constructor. *)
  Theorem derivatives_panic nsq k S self vars p :
    world nsq k S -> S self -> derivatives self vars k = Panic p ->
    (p = PVarExpected /\ forallb is_var vars = false) \/ (p = PAssert /\ forallb is_var vars = true).
  Proof.
    intros HW Hs E. destruct (forallb is_var vars) eqn:Hv.
    2:{ left. unfold derivatives, check_vars in E. rewrite Hv in E. inversion E; auto. }
    right; split; auto. unfold derivatives in E.
    apply bind_panic in E as [E|(u & k0 & E0 & E)].
    { unfold check_vars in E. rewrite Hv in E. discriminate. }
    apply lift_ok in E0 as [_ ->].
    apply bind_panic in E as [E|(t & k0 & Et & E)]; [discriminate|].
    inversion Et; subst t k0; clear Et.
    destruct (all_simple_paths_ok k self vars Hv) as (ps & Eps & Kps & Gps).
    rewrite Eps in E. apply bind_panic in E as [E|(ps' & k0 & Ep & E)]; [discriminate|].
    apply lift_ok in Ep as [Ep ->]. inversion Ep; subst ps'; clear Ep.
    change (foldM (dfold ps) (ord 2 k (sextend ptr_eq [] vars)) [] k = Panic p) in E.
    revert E.
    assert (Hall : forall v, In v (ord 2 k (sextend ptr_eq [] vars)) -> hget ptr_eq v ps = Some (rpaths v self)).
    { intros v Hin. rewrite Gps. replace (smem ptr_eq v vars) with true; auto. symmetry.
      assert (Hin' : In v (sextend ptr_eq [] vars)) by (eapply Permutation_in; [apply ord_perm|eauto]).
      apply sextend_incl in Hin' as [[]|Hin']. apply existsb_exists; eauto. }
    revert Hall. generalize (ord 2 k (sextend ptr_eq [] vars)) as L. intros L.
    enough (G : forall L ds k S, world nsq k S -> S self -> (forall v, In v L -> hget ptr_eq v ps = Some (rpaths v self)) ->
       foldM (dfold ps) L ds k = Panic p -> p = PAssert) by (intros Hall E; eapply (G L [] k S HW Hs Hall E)).
    clear. induction L as [|v L IH]; intros ds k S HW Hs Hall E; [discriminate|].
    cbn [foldM] in E. apply bind_panic in E as [E|(m & k2 & E1 & E2)].
    - unfold dfold in E. rewrite Hall in E by (cbn; auto).
      apply bind_panic in E as [E|(l & k1 & E1 & E2)]; [discriminate|].
      cbn in E1. inversion E1; subst.
      apply bind_panic in E2 as [E2|(d & k3 & E3 & E4)]; [|discriminate].
      eapply path_sum_panic; eauto.
    - unfold dfold in E1. rewrite Hall in E1 by (cbn; auto).
      apply bind_ok in E1 as (l & k1 & El & E1). cbn in El. inversion El; subst.
      apply bind_ok in E1 as (d & k3 & E3 & E4). inversion E4; subst.
      destruct (path_sum_grows nsq k1 S _ HW (rpaths_world nsq k1 S v self HW Hs) _ _ E3) as (_ & S1 & Hi1 & HW1 & Hd).
      eapply (IH _ k2 S1); eauto. intros w Hw; apply Hall; cbn; auto.
  Qed.
End Panics.
