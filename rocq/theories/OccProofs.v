(** The variables of a difference. *)
From Verif Require Import Base Num Node NodeInd NodeStd ExprSpec PanicProofs ExprExtra.

Section Occ.
  Context {T : Type} `{Num T}.

  Lemma occurs_arg (v c n : node T) : In c (arguments n) -> occurs v c -> occurs v n.
  Proof. intros Hc [Hv Hs]. split; auto. eapply sub_arg; eauto. Qed.
  Lemma occurs_inv (v n : node T) :
    occurs v n -> (v = n /\ is_var n = true) \/ exists c, In c (arguments n) /\ occurs v c.
  Proof. intros [Hv Hs]. destruct Hs as [n|s c n Hc Hs]; [auto|]. right. exists c. repeat split; auto. Qed.
  Lemma occurs_const (v : node T) i w : ~ occurs v (NConst i w).
  Proof. intros Ho. apply occurs_inv in Ho as [[_ E]|(c & [] & _)]. discriminate. Qed.

  Lemma occurs_terms (v n : node T) :
    occurs v n <-> exists t, In t (nonconsts (terms n)) /\ occurs v t.
  Proof.
    assert (G : forall n, (exists t, In t (nonconsts [n]) /\ occurs v t) <-> occurs v n).
    { clear n. intros n. split.
      - intros (t & Ht & Ho). unfold nonconsts in Ht. apply filter_In in Ht as [[<-|[]] _]. auto.
      - intros Ho. exists n. split; auto. destruct n; cbn; auto. destruct (occurs_const _ _ _ Ho). }
    destruct n; try (symmetry; apply G). cbn [terms]. split.
    - intros Ho. apply occurs_inv in Ho as [[_ E]|(c & Hc & Ho)]; [discriminate|]. exists c. split; auto.
      apply filter_In. split; [exact Hc|]. destruct c; auto. destruct (occurs_const _ _ _ Ho).
    - intros (t & Ht & Ho). apply filter_In in Ht as [Ht _]. eapply occurs_arg; [|exact Ho]. exact Ht.
  Qed.

  Lemma add_nn_occurs (v a b : node T) k r k' :
    add_nn a b k = Ok (r, k') -> occurs v r <-> occurs v a \/ occurs v b.
  Proof.
    intros E. apply add_nn_terms in E. rewrite !occurs_terms, E. split.
    - intros (t & Ht & Ho). apply in_app_or in Ht as [Ht|Ht]; [left|right]; eauto.
    - intros [(t & Ht & Ho)|(t & Ht & Ho)]; exists t; split; auto; apply in_or_app; auto.
  Qed.

  Lemma mapM_occurs (v : node T) (f : node T -> M (node T)) l k rs k' :
    mapM f l k = Ok (rs, k') ->
    (forall x, In x l -> forall k r k', f x k = Ok (r, k') -> occurs v r <-> occurs v x) ->
    (exists t, In t rs /\ occurs v t) <-> (exists t, In t l /\ occurs v t).
  Proof.
    revert k rs; induction l as [|x l IH]; intros k rs E Hf.
    - inversion E; subst. split; intros (t & [] & _).
    - apply mapM_cons_ok in E as (b & k1 & bs & E1 & E2 & ->).
      specialize (IH _ _ E2 (fun y Hy => Hf y (or_intror Hy))).
      pose proof (Hf x (or_introl eq_refl) _ _ _ E1) as Hx. split.
      + intros (t & [<-|Ht] & Ho); [exists x; cbn; split; auto; tauto|].
        destruct (proj1 IH (ex_intro _ t (conj Ht Ho))) as (t' & Ht' & Ho'). exists t'; cbn; auto.
      + intros (t & [<-|Ht] & Ho); [exists b; cbn; split; auto; tauto|].
        destruct (proj2 IH (ex_intro _ t (conj Ht Ho))) as (t' & Ht' & Ho'). exists t'; cbn; auto.
  Qed.

  Lemma mul_sn_occurs (v a : node T) s k r k' :
    neqb s n0 = false -> mul_sn s a k = Ok (r, k') -> occurs v r <-> occurs v a.
  Proof.
    intros Hs. revert k r k'.
    induction a as [i w|i st kd|i args IH|i a _|i a b _ _|i a b _ _|i a _] using node_ind'; intros k r k' E;
      cbn [mul_sn is_constant is_constant_with_value orb] in E; rewrite Hs in E; cbn [orb] in E.
    1: { inversion E; subst. split; intros Ho; destruct (occurs_const _ _ _ Ho). }
    all: destruct (neqb s n1) eqn:Hv1; [inversion E; subst; tauto|].
    2: { rewrite Forall_forall in IH. apply bind_ok in E as (rs & k1 & E1 & E2).
         unfold mk_add in E2. destruct (_ <? _); [discriminate|]. inversion E2; subst.
         pose proof (mapM_occurs v _ _ _ _ _ E1 (fun x Hx k r k' => IH x Hx k r k')) as G.
         split; intros Ho; apply occurs_inv in Ho as [[_ X]|(c & Hc & Ho)]; try discriminate.
         - destruct (proj1 G (ex_intro _ c (conj Hc Ho))) as (t & Ht & Hot). eapply occurs_arg; eauto.
         - destruct (proj2 G (ex_intro _ c (conj Hc Ho))) as (t & Ht & Hot). eapply occurs_arg; eauto. }
    all: apply bind_ok in E as (d & k1 & E1 & E2); inversion E1; subst; inversion E2; subst.
    all: split;
      [intros Ho; apply occurs_inv in Ho as [[_ X]|(c & [<-|[<-|[]]] & Ho)];
         [discriminate|destruct (occurs_const _ _ _ Ho)|exact Ho]
      |intros Ho; eapply occurs_arg; [|exact Ho]; cbn; auto].
  Qed.

  Lemma sub_nn_occurs (v a b : node T) k r k' :
    neqb (nm1 : T) n0 = false -> sub_nn a b k = Ok (r, k') -> occurs v r <-> occurs v a \/ occurs v b.
  Proof.
    intros Hm E. unfold sub_nn in E. apply bind_ok in E as (m & k1 & E1 & E2).
    rewrite (add_nn_occurs v _ _ _ _ _ E2), (mul_sn_occurs v _ _ _ _ _ Hm E1). tauto.
  Qed.

  (** Without knowing [-1. <> 0.]: no variable appears from nowhere. *)
  Lemma mul_sn_occurs_l (v a : node T) s k r k' :
    mul_sn s a k = Ok (r, k') -> occurs v r -> occurs v a.
  Proof.
    intros E Ho. destruct (neqb s n0) eqn:Hs; [|exact (proj1 (mul_sn_occurs v a s k r k' Hs E) Ho)].
    exfalso. destruct a; cbn [mul_sn] in E; rewrite Hs in E; cbn [orb] in E; inversion E; subst;
      destruct (occurs_const _ _ _ Ho).
  Qed.
  Lemma sub_nn_occurs_l (v a b : node T) k r k' :
    sub_nn a b k = Ok (r, k') -> occurs v r -> occurs v a \/ occurs v b.
  Proof.
    intros E Ho. unfold sub_nn in E. apply bind_ok in E as (m & k1 & E1 & E2).
    apply (add_nn_occurs v _ _ _ _ _ E2) in Ho as [Ho|Ho]; auto. right. eapply mul_sn_occurs_l; eauto.
  Qed.
End Occ.
