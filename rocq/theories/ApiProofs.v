(** Invariants of every history of expression-building calls. *)
From Verif Require Import Base Num Node NodeDiff NodeInd NodeStd World Fresh MapProofs
     StdPropProofs PathProofs DerivProofs PanicProofs Api.

Section ApiProofs1.
  Context {T : Type} `{Num T} `{HashOrd}.

  (** Whether the calls may divide a node by itself. *)
  Definition allowed (nsq : bool) : list (node T) -> op T -> Prop :=
    if nsq then no_self_quotient else any_op.

  Lemma world_empty nsq : world nsq 0 (fun _ : node T => False).
  Proof. constructor; intros; contradiction. Qed.

  Lemma with1_grows nsq k S pool i f :
    (forall a, nth_error pool i = Some a -> grows nsq k S (f a) here) ->
    grows nsq k S (with1 (T := T) pool i f) here.
  Proof. intros Hf. unfold with1. destruct (nth_error pool i) eqn:E; auto. apply grows_fail. Qed.

  Lemma derivative_grows nsq k S self v :
    world nsq k S -> S self -> grows nsq k S (derivative self v) here.
  Proof.
    intros HW Hs. unfold derivative. eapply grows_bind; [apply derivatives_grows; eauto|].
    intros ds k1 S1 _ Hi1 HW1 Hds. apply grows_lift; auto. intros d Hd.
    unfold unwrap in Hd. destruct (hget ptr_eq v ds) eqn:E; [|discriminate]. inversion Hd; subst.
    apply hget_some_in in E as (w & Hw & _). rewrite Forall_forall in Hds.
    apply (Hds _ Hw).
  Qed.

  Lemma exec_grows nsq k S pool o :
    world nsq k S -> Forall S pool -> allowed nsq pool o -> grows nsq k S (exec pool o) here.
  Proof.
    intros HW Hp Hal.
    assert (Hn : forall i a, nth_error pool i = Some a -> S a).
    { intros i a Hi. rewrite Forall_forall in Hp. apply Hp. eapply nth_error_In; eauto. }
    destruct o; cbn [exec]; unfold with2; repeat (apply with1_grows; intros);
      try (first [ apply add_nn_grows | apply add_ns_grows | apply add_sn_grows
                 | apply mul_nn_grows | apply mul_ns_grows | apply mul_sn_grows
                 | apply sub_nn_grows | apply sub_ns_grows | apply sub_sn_grows
                 | apply div_ns_grows | apply div_sn_grows | apply neg_n_grows
                 | apply sin_n_grows | apply cos_n_grows | apply partial_grows
                 | apply derivative_grows ]; solve [eauto]).
    - eapply grows_weaken; [apply mk_var_grows; auto|]. intros r S' _ [Hr _]; exact Hr.
    - eapply grows_weaken; [apply mk_const_grows; auto|]. intros r S' _ [Hr _]; exact Hr.
    - apply div_nn_grows; eauto. intros ->. cbn in Hal. specialize (Hal _ _ H1 H2).
      intros E. assert (a = a0) by (eapply w_coh; eauto). subst. rewrite ptr_eq_refl in Hal. discriminate.
    - apply grows_ret; eauto. eapply Hn; eauto.
    - apply grows_ret; auto. unfold here. eapply w_closed; eauto. eapply nth_error_In; eauto.
  Qed.

End ApiProofs1.

Section ApiProofs2.
  Context {T : Type} `{Num T}.

  Theorem reach_world nsq k pool :
    reach (allowed nsq) k pool -> exists S, world nsq k S /\ Forall S pool.
  Proof.
    induction 1 as [|HO k pool o n k' Hr (S & HW & HS) Hal E].
    - exists (fun _ => False). split; [apply world_empty|constructor].
    - destruct (exec_grows nsq k S pool o HW HS Hal _ _ E) as (_ & S' & Hi & HW' & Hn).
      exists S'. split; auto. apply Forall_app. split; [|auto].
      eapply Forall_impl; [|exact HS]. exact Hi.
  Qed.

End ApiProofs2.

Section ApiProofs3.
  Context {T : Type} `{Num T} `{HashOrd}.

  Lemma args_ok_spec args :
    add_args_ok (T := T) args = true ->
    (forall x, In x args -> forall i l, x <> NAdd i l) /\ length (filter is_constant args) <= 1.
  Proof.
    intros Hok. split.
    - intros x Hx i l ->. pose proof (forall_not_add _ _ Hok Hx) as E. discriminate.
    - revert Hok. induction args as [|a [|b args] IH]; cbn [add_args_ok filter]; [cbn; lia| |].
      + intros _. destruct (is_constant a); cbn; lia.
      + intros Hok. apply andb_true_iff in Hok as [Hok1 Hok2].
        apply andb_true_iff in Hok1 as [_ Ha]. apply negb_true_iff in Ha. rewrite Ha.
        apply IH; auto.
  Qed.

  Theorem world_canonical nsq k S n : world nsq k S -> S n -> canonical n.
  Proof.
    intros HW Hn s Hs. assert (HS : S s) by (eapply world_sub; eauto). split.
    - destruct (is_constant s) eqn:E; auto. right. eapply canonical_has_var; eauto.
    - pose proof (w_shape _ _ _ HW _ HS) as Hsh. destruct s; auto; cbn [shape] in Hsh.
      + destruct Hsh as [H1' H2']. split; auto. apply args_ok_spec; auto.
      + destruct Hsh as (_ & Hz & _). destruct s2; auto.
  Qed.

  (** *** Affine grammar *)
  Definition aff (n : node T) : bool := p_affine (std_properties n).

  Lemma aff_add i args : aff (NAdd i args) = forallb aff args.
  Proof.
    unfold aff. cbn [std_properties].
    enough (G : forall acc, p_affine (fold_left (fun acc x =>
                   let p := std_properties x in
                   mk_std_prop (p_affine acc && p_affine p)
                               (fold_left merge_add (p_a p) (p_a acc))
                               (nadd (p_b acc) (p_b p))) args acc) =
              p_affine acc && forallb (fun x => p_affine (std_properties x)) args)
      by (rewrite G; reflexivity).
    induction args as [|x args IH]; intros acc; cbn [fold_left forallb].
    - rewrite andb_true_r; auto.
    - rewrite IH. cbn [p_affine]. rewrite andb_assoc; auto.
  Qed.

  Lemma aff_terms a : aff a = true -> forallb aff (terms a) = true.
  Proof.
    intros Ha. destruct a; cbn [terms forallb]; rewrite ?Ha; auto. rewrite aff_add in Ha; auto.
  Qed.

  Lemma forallb_filter {A} (f g : A -> bool) l : forallb f l = true -> forallb f (filter g l) = true.
  Proof.
    induction l as [|x l IH]; cbn; auto. intros E. apply andb_true_iff in E as [E1 E2].
    destruct (g x); cbn; rewrite ?E1; auto.
  Qed.

  Definition yields (m : M (node T)) : Prop := forall k r k', m k = Ok (r, k') -> aff r = true.

  Lemma yields_const v : yields (mk_const v). Proof. intros k r k' E; inversion E; auto. Qed.
  Lemma yields_ret n : aff n = true -> yields (ret n).
  Proof. intros Hn k r k' E; inversion E; subst; auto. Qed.
  Lemma yields_mk_add l : forallb aff l = true -> yields (mk_add l).
  Proof.
    intros Hl k r k' E. unfold mk_add in E. destruct (_ <? _); [discriminate|]. inversion E; subst.
    rewrite aff_add; auto.
  Qed.

  Lemma add_other_aff a b : aff a = true -> aff b = true -> yields (add_other a b).
  Proof.
    intros Ha Hb k r k' E. unfold add_other in E. rewrite add_fold_spec in E.
    assert (Hl : forallb aff (nonconsts (terms a ++ terms b)) = true).
    { apply forallb_filter. rewrite forallb_app, !aff_terms; auto. }
    destruct (nonconsts _) as [|x l]; [inversion E; auto|].
    destruct (negb _).
    - apply bind_ok in E as (c & k1 & E1 & E2). inversion E1; subst.
      eapply yields_mk_add; [|exact E2]. rewrite forallb_app, Hl. reflexivity.
    - eapply yields_mk_add; eauto.
  Qed.
  Lemma add_nn_aff a b : aff a = true -> aff b = true -> yields (add_nn a b).
  Proof.
    intros Ha Hb. unfold add_nn. destruct (is_constant_with_value a n0); [apply yields_ret; auto|].
    destruct (is_constant_with_value b n0); [apply yields_ret; auto|]. apply add_other_aff; auto.
  Qed.
  Lemma yields_bind {A} (m : M A) f : (forall k a k', m k = Ok (a, k') -> yields (f a)) -> yields (bind m f).
  Proof. intros Hf k r k' E. apply bind_ok in E as (a & k1 & E1 & E2). eapply Hf; eauto. Qed.
  Lemma add_ns_aff a v : aff a = true -> yields (add_ns a v).
  Proof.
    intros Ha. unfold add_ns. destruct (neqb v n0); [apply yields_ret; auto|].
    apply yields_bind. intros k c k' E; inversion E; subst. apply add_other_aff; auto.
  Qed.
  Lemma add_sn_aff a v : aff a = true -> yields (add_sn v a).
  Proof.
    intros Ha. unfold add_sn. destruct (neqb v n0); [apply yields_ret; auto|].
    apply yields_bind. intros k c k' E; inversion E; subst. apply add_other_aff; auto.
  Qed.

  Lemma mapM_aff {A} (f : A -> M (node T)) l k rs k' :
    (forall x, In x l -> yields (f x)) -> mapM f l k = Ok (rs, k') -> forallb aff rs = true.
  Proof.
    revert k rs; induction l as [|x l IH]; intros k rs Hf E.
    - inversion E; auto.
    - apply mapM_cons_ok in E as (b & k1 & bs & E1 & E2 & ->). cbn.
      rewrite (Hf x (or_introl eq_refl) _ _ _ E1). cbn. eapply IH; [|exact E2].
      intros y Hy; apply Hf; cbn; auto.
  Qed.
  Lemma mapM_add_aff {A} (f : A -> M (node T)) l :
    (forall x, In x l -> yields (f x)) -> yields (bind (mapM f l) mk_add).
  Proof. intros Hf. apply yields_bind. intros k rs k' E. apply yields_mk_add. eapply mapM_aff; eauto. Qed.

  Lemma aff_mul_const_l i a b : is_constant a = true -> aff b = true -> aff (NMul i a b) = true.
  Proof. destruct a; try discriminate. unfold aff; cbn. intros _ ->. rewrite andb_true_r, orb_true_r; auto. Qed.
  Lemma aff_mul_const_r i a b : is_constant b = true -> aff a = true -> aff (NMul i a b) = true.
  Proof. destruct b; try discriminate. unfold aff; cbn. intros _ ->. auto. Qed.
  Lemma aff_div_const i a b : is_constant b = true -> aff a = true -> aff (NDiv i a b) = true.
  Proof. destruct b; try discriminate. unfold aff; cbn. intros _ ->. auto. Qed.
  Lemma const_aff a : is_constant a = true -> aff a = true.
  Proof. destruct a; try discriminate; auto. Qed.

  Lemma yields_mk_mul a b : is_constant a = true \/ is_constant b = true ->
    aff a = true -> aff b = true -> yields (mk_mul a b).
  Proof.
    intros [Hc|Hc] Ha Hb k r k' E; inversion E; subst;
      [apply aff_mul_const_l|apply aff_mul_const_r]; auto.
  Qed.

  Lemma mul_cn_aff s r : is_constant s = true -> aff r = true -> yields (mul_cn s r).
  Proof.
    intros Hs.
    induction r as [i v|i st kd|i args IH|i a IHa|i a b IHa IHb|i a b IHa IHb|i a IHa] using node_ind';
      intros Hr; cbn [mul_cn];
      repeat match goal with |- yields (if ?b then _ else _) => destruct b end;
      try solve [apply yields_const|apply yields_ret; auto using const_aff|
                 apply yields_mk_mul; auto using const_aff].
    apply mapM_add_aff. rewrite Forall_forall in IH. intros x Hx. apply IH; auto.
    rewrite aff_add, forallb_forall in Hr. auto.
  Qed.
  Lemma mul_nc_aff s r : is_constant r = true -> aff s = true -> yields (mul_nc s r).
  Proof.
    intros Hr.
    induction s as [i v|i st kd|i args IH|i a IHa|i a b IHa IHb|i a b IHa IHb|i a IHa] using node_ind';
      intros Hs; cbn [mul_nc];
      repeat match goal with |- yields (if ?b then _ else _) => destruct b end;
      try solve [apply yields_const|apply yields_ret; auto using const_aff|
                 apply yields_mk_mul; auto using const_aff].
    apply mapM_add_aff. rewrite Forall_forall in IH. intros x Hx. apply IH; auto.
    rewrite aff_add, forallb_forall in Hs. auto.
  Qed.
  Lemma mul_nn_aff a b : is_constant a = true \/ is_constant b = true ->
    aff a = true -> aff b = true -> yields (mul_nn a b).
  Proof.
    intros Hc Ha Hb. unfold mul_nn.
    repeat match goal with |- yields (if ?b then _ else _) => destruct b end;
      try solve [apply yields_const|apply yields_ret; auto].
    destruct a; try solve [apply yields_mk_mul; auto].
    - destruct b; try solve [apply yields_mk_mul; auto]. apply mapM_add_aff.
      intros x Hx. apply mul_cn_aff; auto. rewrite aff_add, forallb_forall in Hb. auto.
    - destruct b; try solve [apply yields_mk_mul; auto]. apply mapM_add_aff.
      intros x Hx. apply mul_nc_aff; auto. rewrite aff_add, forallb_forall in Ha. auto.
  Qed.
  Lemma mul_ns_aff s r : aff s = true -> yields (mul_ns s r).
  Proof.
    induction s as [i v|i st kd|i args IH|i a IHa|i a b IHa IHb|i a b IHa IHb|i a IHa] using node_ind';
      intros Hs; cbn [mul_ns];
      repeat match goal with |- yields (if ?b then _ else _) => destruct b end;
      try solve [apply yields_const|apply yields_ret; auto|
                 apply yields_bind; intros k c k' E; inversion E; subst; apply yields_mk_mul; auto].
    apply mapM_add_aff. rewrite Forall_forall in IH. intros x Hx. apply IH; auto.
    rewrite aff_add, forallb_forall in Hs. auto.
  Qed.
  Lemma mul_sn_aff s r : aff r = true -> yields (mul_sn s r).
  Proof.
    induction r as [i v|i st kd|i args IH|i a IHa|i a b IHa IHb|i a b IHa IHb|i a IHa] using node_ind';
      intros Hs; cbn [mul_sn];
      repeat match goal with |- yields (if ?b then _ else _) => destruct b end;
      try solve [apply yields_const|apply yields_ret; auto|
                 apply yields_bind; intros k c k' E; inversion E; subst; apply yields_mk_mul; auto].
    apply mapM_add_aff. rewrite Forall_forall in IH. intros x Hx. apply IH; auto.
    rewrite aff_add, forallb_forall in Hs. auto.
  Qed.
  Lemma neg_n_aff n : aff n = true -> yields (neg_n n).
  Proof. intros Hn. unfold neg_n. destruct n; try (apply mul_sn_aff; auto). apply yields_const. Qed.
  Lemma sub_nn_aff a b : aff a = true -> aff b = true -> yields (sub_nn a b).
  Proof.
    intros Ha Hb. unfold sub_nn. apply yields_bind. intros k m k' E.
    apply add_nn_aff; auto. eapply mul_sn_aff; eauto.
  Qed.
  Lemma sub_ns_aff a v : aff a = true -> yields (sub_ns a v).
  Proof.
    intros Ha. unfold sub_ns. apply yields_bind. intros k c k' E. inversion E; subst.
    apply yields_bind. intros k1 m k1' E1.
    apply add_nn_aff; auto. eapply mul_sn_aff; [|exact E1]. auto.
  Qed.
  Lemma sub_sn_aff a v : aff a = true -> yields (sub_sn v a).
  Proof.
    intros Ha. unfold sub_sn. apply yields_bind. intros k c k' E. inversion E; subst.
    apply yields_bind. intros k1 m k1' E1.
    apply add_nn_aff; auto. eapply mul_sn_aff; eauto.
  Qed.
  Lemma div_nn_aff a b : is_constant b = true -> aff a = true -> yields (div_nn a b).
  Proof.
    intros Hc Ha. unfold div_nn.
    repeat match goal with |- yields (if ?b then _ else _) => destruct b end;
      try solve [intros k r k' E; discriminate | apply yields_const|apply yields_ret; auto].
    intros k r k' E; inversion E; subst. apply aff_div_const; auto.
  Qed.
  Lemma div_ns_aff a v : aff a = true -> yields (div_ns a v).
  Proof.
    intros Ha. unfold div_ns.
    repeat match goal with |- yields (if ?b then _ else _) => destruct b end;
      try solve [intros k r k' E; discriminate | apply yields_const|apply yields_ret; auto].
    apply yields_bind. intros k c k' E. inversion E; subst.
    intros k1 r k1' E1; inversion E1; subst. apply aff_div_const; auto.
  Qed.
  Lemma div_sn_aff b v : is_constant b = true -> yields (div_sn v b).
  Proof.
    intros Hc. unfold div_sn. rewrite Hc.
    repeat match goal with |- yields (if ?b then _ else _) => destruct b end;
      try solve [intros k r k' E; discriminate | apply yields_const|apply yields_ret; auto].
  Qed.

  Lemma world_aff_arg nsq k S n c :
    world nsq k S -> S n -> aff n = true -> In c (arguments n) -> aff c = true.
  Proof.
    intros HW Hn Ha Hc.
    assert (HS : forall x, In x (arguments n) -> S x) by (intros x Hx; eapply w_closed; eauto).
    destruct n as [i w|i st kd|i args|i a|i a b|i a b|i a]; cbn [arguments] in *.
    - destruct Hc.
    - destruct Hc.
    - rewrite aff_add, forallb_forall in Ha. auto.
    - discriminate.
    - unfold aff in Ha. cbn [std_properties p_affine] in Ha. apply andb_true_iff in Ha as [Ha Hb].
      destruct (no_keys_const nsq k S b HW) as (j & v & ->); auto; [apply HS; cbn; auto|].
      destruct Hc as [<-|[<-|[]]]; auto.
    - unfold aff in Ha. cbn [std_properties p_affine] in Ha.
      apply orb_true_iff in Ha as [Ha|Ha]; apply andb_true_iff in Ha as [Ha Hb].
      + destruct (no_keys_const nsq k S b HW) as (j & v & ->); auto; [apply HS; cbn; auto|].
        destruct Hc as [<-|[<-|[]]]; auto.
      + destruct (no_keys_const nsq k S a HW) as (j & v & ->); auto; [apply HS; cbn; auto|].
        destruct Hc as [<-|[<-|[]]]; auto.
    - discriminate.
  Qed.

  Lemma exec_aff nsq k0 S pool o :
    world nsq k0 S -> Forall S pool ->
    Forall (fun n => aff n = true) pool -> affine_op pool o -> yields (exec pool o).
  Proof.
    intros HW HS Hp Hop.
    assert (Hn : forall i a, nth_error pool i = Some a -> aff a = true).
    { intros i a Hi. rewrite Forall_forall in Hp. apply Hp. eapply nth_error_In; eauto. }
    assert (Hs : forall i a, nth_error pool i = Some a -> S a).
    { intros i a Hi. rewrite Forall_forall in HS. apply HS. eapply nth_error_In; eauto. }
    destruct o; cbn [exec affine_op] in *; unfold with2, with1;
      repeat match goal with |- yields (match nth_error ?l ?i with _ => _ end) =>
               let E := fresh "E" in destruct (nth_error l i) eqn:E end;
      try solve [intros kk rr kk' EE; discriminate | contradiction
                | apply add_nn_aff; eauto | apply add_ns_aff; eauto | apply add_sn_aff; eauto
                | apply mul_nn_aff; eauto | apply mul_ns_aff; eauto | apply mul_sn_aff; eauto
                | apply sub_nn_aff; eauto | apply sub_ns_aff; eauto | apply sub_sn_aff; eauto
                | apply div_nn_aff; eauto | apply div_ns_aff; eauto | apply div_sn_aff; eauto
                | apply neg_n_aff; eauto | apply yields_const | apply yields_ret; eauto].
    - intros k r k' E; inversion E; auto.
    - specialize (Hop _ eq_refl). destruct n; try discriminate. apply yields_const.
    - specialize (Hop _ eq_refl). destruct n; try discriminate. apply yields_const.
    - apply yields_ret. eapply (world_aff_arg nsq k0 S n); eauto. eapply nth_error_In; eauto.
  Qed.

End ApiProofs3.

Section ApiProofs4.
  Context {T : Type} `{Num T}.

  Lemma reach_weaken (P Q : list (node T) -> op T -> Prop) k pool :
    (forall pool o, P pool o -> Q pool o) -> reach P k pool -> reach Q k pool.
  Proof. intros HPQ. induction 1; econstructor; eauto. Qed.

  Theorem reach_aff k pool :
    reach affine_op k pool -> Forall (fun n => aff n = true) pool.
  Proof.
    intros Hr. induction Hr as [|HO k pool o n k' Hr IH Hop E]; [constructor|].
    apply Forall_app. split; [exact IH|]. constructor; [|constructor].
    destruct (reach_world false k pool) as (S & HW & HS).
    { eapply reach_weaken; [|exact Hr]. intros; exact I. }
    eapply (exec_aff false k S pool o); eauto.
  Qed.

End ApiProofs4.

Section ApiProofs5.
  Context {T : Type} `{Num T} `{HashOrd}.

  (** *** Derivatives of affine expressions never panic. *)
  Lemma const_partial nsq k S n c :
    world nsq k S -> S n -> aff n = true -> In c (arguments n) -> is_constant c = false ->
    forall k r k', partial n c k = Ok (r, k') -> is_constant r = true.
  Proof.
    intros HW Hn Ha Hc Hnc k0 r k1 E.
    assert (HS : forall x, In x (arguments n) -> S x) by (intros x Hx; eapply w_closed; eauto).
    pose proof (w_shape _ _ _ HW _ Hn) as Hsh.
    destruct n as [i w|i st kd|i args|i a|i a b|i a b|i a]; cbn [arguments partial shape] in *.
    - destruct Hc.
    - destruct Hc.
    - destruct (existsb _ _); inversion E; auto.
    - discriminate.
    - unfold aff in Ha. cbn [std_properties p_affine] in Ha. apply andb_true_iff in Ha as [Ha Hb].
      destruct (no_keys_const nsq k S b HW) as (j & v & ->); auto; [apply HS; cbn; auto|].
      destruct Hc as [<-|[<-|[]]]; [|discriminate]. rewrite ptr_eq_refl in E.
      unfold div_sn in E. destruct Hsh as (_ & Hz & _). rewrite Hz in E.
      destruct (is_constant_with_value (NConst j v) n1); [inversion E; auto|].
      destruct (neqb n1 n0); [inversion E; auto|]. cbn in E. inversion E; auto.
    - unfold aff in Ha. cbn [std_properties p_affine] in Ha.
      apply orb_true_iff in Ha as [Ha|Ha]; apply andb_true_iff in Ha as [Ha Hb].
      + destruct (no_keys_const nsq k S b HW) as (j & v & ->); auto; [apply HS; cbn; auto|].
        destruct Hc as [<-|[<-|[]]]; [|discriminate]. rewrite ptr_eq_refl in E. inversion E; subst; auto.
      + destruct (no_keys_const nsq k S a HW) as (j & v & ->); auto; [apply HS; cbn; auto|].
        destruct Hc as [<-|[<-|[]]]; [discriminate|].
        destruct (ptr_eq (NConst j v) b) eqn:Ep.
        * exfalso. destruct b; cbn in Ep, Hnc; discriminate.
        * rewrite ptr_eq_refl in E. inversion E; subst; auto.
    - discriminate.
  Qed.

  Lemma mul_nn_const a b k r k' :
    is_constant a = true -> is_constant b = true -> mul_nn a b k = Ok (r, k') -> is_constant r = true.
  Proof.
    intros Ha Hb E. unfold mul_nn in E. rewrite Ha, Hb in E. cbn [andb] in E.
    destruct (is_constant_with_value a n0 || is_constant_with_value b n0); [inversion E; auto|].
    destruct (is_constant_with_value a n1); [inversion E; subst; auto|].
    destruct (is_constant_with_value b n1); inversion E; subst; auto.
  Qed.

  Lemma add_nn_const a b : is_constant a = true -> is_constant b = true ->
    forall k, exists r k', add_nn a b k = Ok (r, k') /\ is_constant r = true.
  Proof.
    destruct a as [i v| | | | | |]; try discriminate. destruct b as [j w| | | | | |]; try discriminate.
    intros _ _ k. unfold add_nn.
    destruct (is_constant_with_value (NConst i v) n0); [exists (NConst j w), k; split; reflexivity|].
    destruct (is_constant_with_value (NConst j w) n0); [exists (NConst i v), k; split; reflexivity|].
    unfold add_other. rewrite add_fold_spec. cbn. unfold mk_const. eauto.
  Qed.

  Lemma path_prod_const nsq k0 S p k r k' :
    world nsq k0 S -> Forall S p -> Forall (fun x => aff x = true) p -> chain p ->
    Forall (fun x => is_constant x = false) p ->
    path_prod p k = Ok (r, k') -> is_constant r = true.
  Proof.
    intros HW Hp Ha Hch Hnc E. unfold path_prod in E. apply bind_ok in E as (one & k1 & E1 & E).
    inversion E1; subst one k1. clear E1.
    assert (G : forall ws one k r k',
      Forall (fun pr => In (snd pr) (arguments (fst pr)) /\ S (fst pr) /\ aff (fst pr) = true /\ is_constant (snd pr) = false) ws ->
      is_constant one = true ->
      foldM (fun prod pr => bind (partial (fst pr) (snd pr)) (fun d => mul_nn prod d)) ws one k = Ok (r, k') ->
      is_constant r = true).
    { clear -HW. induction ws as [|[a b] ws IH]; intros one k r k' Hws Hone E.
      - inversion E; subst; auto.
      - apply foldM_cons_ok in E as (m & k1 & E1 & E2). apply bind_ok in E1 as (d & k2 & E1 & E3).
        inversion Hws as [|? ? (H1 & H2 & H3 & H4) Hws']; subst. cbn [fst snd] in *.
        eapply IH; [exact Hws'| |exact E2]. eapply mul_nn_const; [exact Hone| |exact E3].
        eapply (const_partial nsq k0 S a b); eauto. }
    eapply G; [| |exact E]; auto.
    apply Forall_forall. intros [a b] Hab. cbn. unfold chain in Hch. rewrite Forall_forall in *.
    pose proof (Hch _ Hab) as H1'. apply windows2_in in Hab as [H2' H3']. auto.
  Qed.

  Lemma world_aff_sub nsq k S n s : world nsq k S -> S n -> aff n = true -> sub s n -> aff s = true.
  Proof.
    intros HW Hn Ha Hs. revert Hn Ha. induction Hs as [n|s c n Hc Hs IH]; intros Hn Ha; auto.
    apply IH. { eapply w_closed; eauto. } eapply world_aff_arg; eauto.
  Qed.

  Lemma path_sum_aff nsq k S self v :
    world nsq k S -> S self -> aff self = true ->
    exists d k', path_sum (rpaths v self) k = Ok (d, k') /\ is_constant d = true.
  Proof.
    intros HW Hs Ha. unfold path_sum.
    destruct (mk_const_grows nsq k S n0 HW (NConst k n0) (Datatypes.S k) eq_refl) as (_ & S1 & Hi1 & HW1 & Hz & _).
    assert (HF : Forall (fun q => Forall S1 q /\ chain q /\ Forall (fun x => is_constant x = false) q
                                 /\ Forall (fun x => aff x = true) q) (rpaths v self)).
    { apply Forall_forall. intros q Hq. pose proof (rpaths_world nsq k S v self HW Hs) as HFw.
      rewrite Forall_forall in HFw. split; [|split; [|split]].
      - eapply Forall_impl; [|apply HFw; auto]. exact Hi1.
      - apply rpaths_chain in Hq; tauto.
      - eapply rpaths_no_const; eauto.
      - apply rpaths_chain in Hq as [_ Hq]. eapply Forall_impl; [|exact Hq].
        cbn. intros x Hx. apply (world_aff_sub nsq k S self x HW Hs Ha Hx). }
    assert (G : forall l z k S, world nsq k S -> S z -> is_constant z = true ->
       Forall (fun q => Forall S q /\ chain q /\ Forall (fun x => is_constant x = false) q
                                 /\ Forall (fun x => aff x = true) q) l ->
       exists d k', foldM (fun d path => bind (path_prod path) (fun prod => add_nn d prod)) l z k = Ok (d, k')
            /\ is_constant d = true).
    { clear. induction l as [|q l IH]; intros z k S HW Hz Hzc HF.
      - exists z, k. split; auto.
      - inversion HF as [|? ? (Hq & Hch & Hnc & Haq) HF']; subst.
        destruct (path_prod_no_panic nsq k S q k HW (le_n _) Hq Hch Hnc HW) as (d & k1 & E1).
        destruct (path_prod_grows nsq k S q HW Hq _ _ E1) as (_ & S1 & Hi1 & HW1 & Hd).
        assert (Hdc : is_constant d = true) by (eapply (path_prod_const nsq k S q); eauto).
        destruct (add_nn_const z d Hzc Hdc k1) as (m & k2 & E2 & Hmc).
        destruct (add_nn_grows nsq k1 S1 z d HW1 (Hi1 _ Hz) Hd _ _ E2) as (_ & S2 & Hi2 & HW2 & Hm).
        destruct (IH m k2 S2 HW2 Hm Hmc) as (r & k3 & E3 & Hrc).
        { eapply Forall_impl; [|exact HF']. cbn. intros x (F1 & F2 & F3 & F4). refine (conj _ (conj F2 (conj F3 F4))).
          eapply Forall_impl; [|exact F1]. intros y Hy. apply Hi2, Hi1, Hy. }
        exists r, k3. split; auto. apply foldM_cons_ok. exists m, k2. split; auto. apply bind_ok; eauto. }
    destruct (G (rpaths v self) (NConst k n0) (Datatypes.S k) S1 HW1 Hz eq_refl HF) as (d & k1 & E & Hd).
    exists d, k1. split; auto.
  Qed.

  Theorem derivatives_aff_total nsq k S self vars :
    world nsq k S -> S self -> aff self = true -> forallb is_var vars = true ->
    exists ds k', derivatives self vars k = Ok (ds, k') /\
      Forall (fun kv => is_constant (snd kv) = true) ds.
  Proof.
    intros HW Hs Ha Hv. unfold derivatives, check_vars. rewrite Hv.
    destruct (all_simple_paths_ok k self vars Hv) as (ps & Eps & Kps & Gps).
    assert (Hall : forall v, In v (ord 2 k (sextend ptr_eq [] vars)) -> hget ptr_eq v ps = Some (rpaths v self)).
    { intros v Hin. rewrite Gps. replace (smem ptr_eq v vars) with true; auto. symmetry.
      assert (Hin' : In v (sextend ptr_eq [] vars)) by (eapply Permutation_in; [apply ord_perm|eauto]).
      apply sextend_incl in Hin' as [[]|Hin']. apply existsb_exists; eauto. }
    enough (G : forall L ds k S, world nsq k S -> S self ->
       (forall v, In v L -> hget ptr_eq v ps = Some (rpaths v self)) ->
       Forall (fun kv => is_constant (snd kv) = true) ds ->
       exists ds' k', foldM (dfold ps) L ds k = Ok (ds', k') /\ Forall (fun kv => is_constant (snd kv) = true) ds').
    { destruct (G _ [] k S HW Hs Hall (Forall_nil _)) as (ds & k' & E & HF). exists ds, k'. split; auto.
      apply bind_ok. exists tt, k. split; [reflexivity|]. apply bind_ok. exists k, k. split; [reflexivity|].
      apply bind_ok. exists ps, k. split; [rewrite Eps; reflexivity|exact E]. }
    clear -Ha. induction L as [|v L IH]; intros ds k S HW Hs Hall Hds.
    - exists ds, k; auto.
    - destruct (path_sum_aff nsq k S self v HW Hs Ha) as (d & k1 & E1 & Hd).
      destruct (path_sum_grows nsq k S _ HW (rpaths_world nsq k S v self HW Hs) _ _ E1) as (_ & S1 & Hi1 & HW1 & Sd).
      destruct (IH (hinsert ptr_eq v d ds) k1 S1 HW1 (Hi1 _ Hs)) as (ds' & k' & E & HF).
      + intros w Hw; apply Hall; cbn; auto.
      + clear -Hds Hd. induction Hds as [|[w e] ds He Hds IH]; cbn [hinsert].
        * repeat constructor; auto.
        * destruct (ptr_eq v w); constructor; auto.
      + exists ds', k'. split; auto. apply foldM_cons_ok. exists (hinsert ptr_eq v d ds), k1. split; auto.
        unfold dfold. apply bind_ok. exists (rpaths v self), k. rewrite Hall by (cbn; auto). split; [reflexivity|].
        apply bind_ok. exists d, k1. split; auto.
  Qed.
End ApiProofs5.
