(** What an operation returns is one of its operands or a newly allocated node
    (no assumption on the operands, any [Num]). *)
From Verif Require Import Base Num Node NodeDiff NodeInd World.

Section Fresh.
  Context {T : Type} `{Num T}.

  (** [m] only moves the counter forward, and returns one of [ops] or a node
      allocated by itself. *)
  Definition fresh_or (ops : list (node T)) (m : M (node T)) : Prop :=
    forall k r k', m k = Ok (r, k') -> k <= k' /\ (In r ops \/ k <= nid r < k').

  Definition mono {A} (m : M A) : Prop := forall k r k', m k = Ok (r, k') -> k <= k'.

  Lemma fresh_mono ops m : fresh_or ops m -> mono m.
  Proof. intros Hm k r k' E. apply (Hm _ _ _ E). Qed.

  Lemma fresh_weaken ops ops' m :
    fresh_or ops m -> (forall x, In x ops -> In x ops') -> fresh_or ops' m.
  Proof. intros Hm Hi k r k' E. destruct (Hm _ _ _ E) as [Hk [Hr|Hr]]; auto. Qed.

  Lemma mono_bind {A B} (m : M A) (f : A -> M B) :
    mono m -> (forall a, mono (f a)) -> mono (bind m f).
  Proof.
    intros Hm Hf k r k' E. apply bind_ok in E as (a & k1 & E1 & E2).
    apply Hm in E1. apply Hf in E2. lia.
  Qed.

  Lemma mono_mapM {A B} (f : A -> M B) l : (forall a, In a l -> mono (f a)) -> mono (mapM f l).
  Proof.
    induction l as [|a l IH]; intros Hf k r k' E.
    - inversion E; lia.
    - apply mapM_cons_ok in E as (b & k1 & bs & E1 & E2 & _).
      apply Hf in E1; [|left; reflexivity]. apply IH in E2; [lia|]. intros; apply Hf; right; auto.
  Qed.

  Lemma mono_foldM {A B} (g : B -> A -> M B) l : (forall s a, mono (g s a)) -> forall s, mono (foldM g l s).
  Proof.
    intros Hg; induction l as [|a l IH]; intros s k r k' E.
    - inversion E; lia.
    - apply foldM_cons_ok in E as (s' & k1 & E1 & E2).
      apply Hg in E1. apply IH in E2. lia.
  Qed.

  Lemma mono_ret {A} (a : A) : mono (ret a).
  Proof. intros k r k' E; inversion E; lia. Qed.
  Lemma mono_lift {A} (r : res A) : mono (lift r).
  Proof. intros k a k' E. apply lift_ok in E as [_ ->]; lia. Qed.
  Lemma mono_now : mono now.
  Proof. intros k a k' E. inversion E; lia. Qed.
  Lemma mono_fail {A} p : mono (@fail A p).
  Proof. intros k a k' E; discriminate. Qed.

  Lemma fresh_ret ops n : In n ops -> fresh_or ops (ret n).
  Proof. intros Hn k r k' E; inversion E; subst; split; [lia|auto]. Qed.
  Lemma fresh_fail ops p : fresh_or ops (fail p).
  Proof. intros k r k' E; discriminate. Qed.
  Lemma fresh_const ops v : fresh_or ops (mk_const v).
  Proof. intros k r k' E; inversion E; subst; cbn; split; [lia|right; lia]. Qed.
  Lemma fresh_var ops s kd : fresh_or ops (mk_var s kd).
  Proof. intros k r k' E; inversion E; subst; cbn; split; [lia|right; lia]. Qed.
  Lemma fresh_add ops l : fresh_or ops (mk_add l).
  Proof.
    intros k r k' E; unfold mk_add in E. destruct (_ <? _); [discriminate|].
    inversion E; subst; cbn; split; [lia|right; lia].
  Qed.
  Lemma fresh_cos ops a : fresh_or ops (mk_cos a).
  Proof. intros k r k' E; inversion E; subst; cbn; split; [lia|right; lia]. Qed.
  Lemma fresh_sin ops a : fresh_or ops (mk_sin a).
  Proof. intros k r k' E; inversion E; subst; cbn; split; [lia|right; lia]. Qed.
  Lemma fresh_mul ops a b : fresh_or ops (mk_mul a b).
  Proof. intros k r k' E; inversion E; subst; cbn; split; [lia|right; lia]. Qed.
  Lemma fresh_div ops a b : fresh_or ops (mk_div a b).
  Proof. intros k r k' E; inversion E; subst; cbn; split; [lia|right; lia]. Qed.

  (** After something that moves the counter forward. *)
  Lemma fresh_bind {A} ops (m : M A) (f : A -> M (node T)) :
    mono m -> (forall a, fresh_or ops (f a)) -> fresh_or ops (bind m f).
  Proof.
    intros Hm Hf k r k' E. apply bind_ok in E as (a & k1 & E1 & E2).
    apply Hm in E1. destruct (Hf _ _ _ _ E2) as [Hk [Hr|Hr]]; split; auto; try lia.
  Qed.

  (** The second step may also return the result of the first. *)
  Lemma fresh_bind2 ops (m : M (node T)) (f : node T -> M (node T)) :
    fresh_or ops m -> (forall a, fresh_or (a :: ops) (f a)) -> fresh_or ops (bind m f).
  Proof.
    intros Hm Hf k r k' E. apply bind_ok in E as (a & k1 & E1 & E2).
    destruct (Hm _ _ _ E1) as [Hk1 Ha]. destruct (Hf _ _ _ _ E2) as [Hk2 Hr].
    split; [lia|]. destruct Hr as [[->|Hr]|Hr]; auto; [|right; lia].
    destruct Ha as [Ha|Ha]; auto. right; lia.
  Qed.

  Hint Resolve fresh_const fresh_var fresh_add fresh_cos fresh_sin fresh_mul fresh_div
       fresh_fail fresh_mono mono_ret mono_lift mono_now mono_fail : fresh.

  Lemma mul_cn_mono s r : mono (mul_cn s r).
  Proof.
    induction r as [i v|i st kd|i args IH|i a IHa|i a b IHa IHb|i a b IHa IHb|i a IHa] using node_ind';
      cbn [mul_cn];
      repeat match goal with |- mono (if ?b then _ else _) => destruct b end;
      try solve [apply (fresh_mono []); auto with fresh | apply mono_ret].
    apply mono_bind.
    - apply mono_mapM. rewrite Forall_forall in IH. exact IH.
    - intros; apply (fresh_mono []); auto with fresh.
  Qed.
  Lemma mul_nc_mono s r : mono (mul_nc s r).
  Proof.
    induction s as [i v|i st kd|i args IH|i a IHa|i a b IHa IHb|i a b IHa IHb|i a IHa] using node_ind';
      cbn [mul_nc];
      repeat match goal with |- mono (if ?b then _ else _) => destruct b end;
      try solve [apply (fresh_mono []); auto with fresh | apply mono_ret].
    apply mono_bind.
    - apply mono_mapM. rewrite Forall_forall in IH. exact IH.
    - intros; apply (fresh_mono []); auto with fresh.
  Qed.
  Lemma mul_ns_fresh s v : fresh_or [s] (mul_ns s v).
  Proof.
    induction s as [i w|i st kd|i args IH|i a IHa|i a b IHa IHb|i a b IHa IHb|i a IHa] using node_ind';
      cbn [mul_ns];
      repeat match goal with |- fresh_or _ (if ?b then _ else _) => destruct b end;
      try solve [auto with fresh | apply fresh_ret; left; reflexivity
                | apply fresh_bind; [apply (fresh_mono []); auto with fresh|intros; auto with fresh]].
    apply fresh_bind; [|auto with fresh].
    apply mono_mapM. rewrite Forall_forall in IH. intros a Ha. eapply fresh_mono, IH; exact Ha.
  Qed.
  Lemma mul_sn_fresh v s : fresh_or [s] (mul_sn v s).
  Proof.
    induction s as [i w|i st kd|i args IH|i a IHa|i a b IHa IHb|i a b IHa IHb|i a IHa] using node_ind';
      cbn [mul_sn];
      repeat match goal with |- fresh_or _ (if ?b then _ else _) => destruct b end;
      try solve [auto with fresh | apply fresh_ret; left; reflexivity
                | apply fresh_bind; [apply (fresh_mono []); auto with fresh|intros; auto with fresh]].
    apply fresh_bind; [|auto with fresh].
    apply mono_mapM. rewrite Forall_forall in IH. intros a Ha. eapply fresh_mono, IH; exact Ha.
  Qed.

  Lemma mul_nn_fresh a b : fresh_or [a; b] (mul_nn a b).
  Proof.
    unfold mul_nn.
    repeat match goal with |- fresh_or _ (if ?b then _ else _) => destruct b end;
      try solve [auto with fresh | apply fresh_ret; cbn; auto].
    destruct a; try apply fresh_mul; destruct b; try apply fresh_mul.
    - apply fresh_bind; [apply mono_mapM; intros; apply mul_cn_mono|auto with fresh].
    - apply fresh_bind; [apply mono_mapM; intros; apply mul_nc_mono|auto with fresh].
  Qed.

  Lemma add_other_fresh a b : fresh_or [] (add_other a b).
  Proof.
    unfold add_other. destruct (fold_left _ _ _) as [c args].
    destruct args; [auto with fresh|]. destruct (negb _); [|auto with fresh].
    apply fresh_bind; [apply (fresh_mono []); auto with fresh|intros; auto with fresh].
  Qed.
  Lemma add_nn_fresh a b : fresh_or [a; b] (add_nn a b).
  Proof.
    unfold add_nn. destruct (is_constant_with_value a n0); [apply fresh_ret; cbn; auto|].
    destruct (is_constant_with_value b n0); [apply fresh_ret; cbn; auto|].
    eapply fresh_weaken; [apply add_other_fresh|intros x []].
  Qed.
  Lemma add_ns_fresh a v : fresh_or [a] (add_ns a v).
  Proof.
    unfold add_ns. destruct (neqb v n0); [apply fresh_ret; cbn; auto|].
    apply fresh_bind; [apply (fresh_mono []); auto with fresh|]. intros x.
    eapply fresh_weaken; [apply add_other_fresh|intros y []].
  Qed.
  Lemma add_sn_fresh v a : fresh_or [a] (add_sn v a).
  Proof.
    unfold add_sn. destruct (neqb v n0); [apply fresh_ret; cbn; auto|].
    apply fresh_bind; [apply (fresh_mono []); auto with fresh|]. intros x.
    eapply fresh_weaken; [apply add_other_fresh|intros y []].
  Qed.
  Lemma neg_n_fresh a : fresh_or [a] (neg_n a).
  Proof. unfold neg_n. destruct a; try apply mul_sn_fresh. auto with fresh. Qed.
  Lemma sub_nn_fresh a b : fresh_or [a; b] (sub_nn a b).
  Proof.
    unfold sub_nn. apply fresh_bind2.
    - eapply fresh_weaken; [apply mul_sn_fresh|]. cbn; intuition.
    - intros x. eapply fresh_weaken; [apply add_nn_fresh|]. cbn; intuition.
  Qed.
  Lemma sub_ns_fresh a v : fresh_or [a] (sub_ns a v).
  Proof.
    unfold sub_ns. apply fresh_bind2; [auto with fresh|]. intros c.
    apply fresh_bind2.
    - eapply fresh_weaken; [apply mul_sn_fresh|]. cbn; intuition.
    - intros x. eapply fresh_weaken; [apply add_nn_fresh|]. cbn; intuition.
  Qed.
  Lemma sub_sn_fresh v b : fresh_or [b] (sub_sn v b).
  Proof.
    unfold sub_sn. apply fresh_bind2; [auto with fresh|]. intros c.
    apply fresh_bind2.
    - eapply fresh_weaken; [apply mul_sn_fresh|]. cbn; intuition.
    - intros x. eapply fresh_weaken; [apply add_nn_fresh|]. cbn; intuition.
  Qed.
  Lemma div_nn_fresh a b : fresh_or [a; b] (div_nn a b).
  Proof.
    unfold div_nn.
    repeat match goal with |- fresh_or _ (if ?b then _ else _) => destruct b end;
      auto with fresh. apply fresh_ret; cbn; auto.
  Qed.
  Lemma div_ns_fresh a v : fresh_or [a] (div_ns a v).
  Proof.
    unfold div_ns.
    repeat match goal with |- fresh_or _ (if ?b then _ else _) => destruct b end;
      auto with fresh; [apply fresh_ret; cbn; auto|].
    apply fresh_bind; [apply (fresh_mono []); auto with fresh|auto with fresh].
  Qed.
  Lemma div_sn_fresh v b : fresh_or [b] (div_sn v b).
  Proof.
    unfold div_sn.
    repeat match goal with |- fresh_or _ (if ?b then _ else _) => destruct b end;
      auto with fresh.
    apply fresh_bind; [apply (fresh_mono []); auto with fresh|auto with fresh].
  Qed.
  Lemma cos_n_fresh a : fresh_or [a] (cos_n a).
  Proof. unfold cos_n; destruct a; auto with fresh. Qed.
  Lemma sin_n_fresh a : fresh_or [a] (sin_n a).
  Proof. unfold sin_n; destruct a; auto with fresh. Qed.

  Lemma partial_fresh a b : fresh_or (a :: arguments a) (partial a b).
  Proof.
    destruct a; cbn [partial arguments]; auto with fresh.
    - destruct b; auto with fresh. destruct (_ =? _); auto with fresh.
    - destruct (existsb _ _); auto with fresh.
    - destruct (ptr_eq a b); auto with fresh.
      apply fresh_bind2; [eapply fresh_weaken; [apply sin_n_fresh|cbn; intuition]|].
      intros s. eapply fresh_weaken; [apply neg_n_fresh|cbn; intuition].
    - destruct (ptr_eq a1 b); [eapply fresh_weaken; [apply div_sn_fresh|cbn; intuition]|].
      destruct (ptr_eq a2 b); auto with fresh.
      apply fresh_bind2; [eapply fresh_weaken; [apply neg_n_fresh|cbn; intuition]|].
      intros s. apply fresh_bind2; [eapply fresh_weaken; [apply mul_nn_fresh|cbn; intuition]|].
      intros y. eapply fresh_weaken; [apply div_nn_fresh|cbn; intuition].
    - destruct (ptr_eq a1 b); [apply fresh_ret; cbn; intuition|].
      destruct (ptr_eq a2 b); [apply fresh_ret; cbn; intuition|auto with fresh].
    - destruct (ptr_eq a b); auto with fresh.
      eapply fresh_weaken; [apply cos_n_fresh|cbn; intuition].
  Qed.

  (** *** [partial] and the derivative grow the world. *)
  Variable nsq : bool.

  Lemma partial_grows k S a b :
    world nsq k S -> S a -> grows nsq k S (partial a b) here.
  Proof.
    intros HW Sa.
    assert (Hconst : forall v, grows nsq k S (mk_const v) here).
    { intros v. eapply grows_weaken; [apply mk_const_grows; auto|]. intros r S' _ [Hr _]; exact Hr. }
    assert (Hch : forall c, In c (arguments a) -> S c) by (intros; eapply w_closed; eauto).
    destruct a as [i v|i st kd|i args|i x|i x y|i x y|i x]; cbn [partial arguments] in *.
    - apply Hconst.
    - destruct b; try apply Hconst. destruct (_ =? _); apply Hconst.
    - destruct (existsb _ _); apply Hconst.
    - destruct (ptr_eq x b); [|apply Hconst].
      eapply grows_bind; [apply sin_n_grows; auto; apply Hch; left; reflexivity|].
      intros s k' S' _ _ HW' Hs. apply neg_n_grows; auto.
    - assert (Sx : S x) by (apply Hch; left; reflexivity).
      assert (Sy : S y) by (apply Hch; right; left; reflexivity).
      destruct (ptr_eq x b); [apply div_sn_grows; auto|].
      destruct (ptr_eq y b); [|apply Hconst].
      pose proof (w_shape _ _ _ HW _ Sa) as Hsh. cbn in Hsh. destruct Hsh as (_ & _ & Hne).
      pose proof (w_lt _ _ _ HW _ Sx) as Lx. pose proof (w_lt _ _ _ HW _ Sy) as Ly.
      intros r k3 E.
      apply bind_ok in E as (nx & k1 & E1 & E2). apply bind_ok in E2 as (yy & k2 & E2 & E3).
      destruct (neg_n_grows nsq _ _ _ HW Sx _ _ E1) as (Hk1 & S1 & Hi1 & HW1 & Snx).
      destruct (mul_nn_grows nsq _ _ _ _ HW1 (Hi1 _ Sy) (Hi1 _ Sy) _ _ E2) as (Hk2 & S2 & Hi2 & HW2 & Syy).
      assert (Hd : nsq = true -> nid nx <> nid yy).
      { intros Hn. specialize (Hne Hn).
        destruct (neg_n_fresh _ _ _ _ E1) as [_ [Hx|Hx]];
        destruct (mul_nn_fresh _ _ _ _ _ E2) as [_ [Hy|Hy]].
        - destruct Hx as [<-|[]]. destruct Hy as [<-|[<-|[]]]; auto.
        - destruct Hx as [<-|[]]. lia.
        - destruct Hy as [<-|[<-|[]]]; lia.
        - lia. }
      destruct (div_nn_grows nsq _ _ _ _ HW2 (Hi2 _ Snx) Syy Hd _ _ E3) as (Hk3 & S3 & Hi3 & HW3 & Sr).
      split; [lia|]. exists S3. repeat split; auto; try apply HW3.
      eapply incl_trans; [exact Hi1|]. eapply incl_trans; [exact Hi2|exact Hi3].
    - destruct (ptr_eq x b); [apply grows_ret; auto; apply Hch; right; left; reflexivity|].
      destruct (ptr_eq y b); [apply grows_ret; auto; apply Hch; left; reflexivity|apply Hconst].
    - destruct (ptr_eq x b); [|apply Hconst].
      apply cos_n_grows; auto. apply Hch; left; reflexivity.
  Qed.
End Fresh.
