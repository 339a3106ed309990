(** Expressions without sines and cosines: the constant term that the code extracts is the value
    where all variables are zero. *)
From Verif Require Import Base Num Node NodeInd NodeStd ExprSpec.

Section NoFun.
  Context {T : Type} `{Num T}.
  Fixpoint nofun (n : node T) : bool :=
    match n with
    | NConst _ _ | NVar _ _ _ => true
    | NAdd _ l => forallb nofun l
    | NCos _ _ | NSin _ _ => false
    | NDiv _ a b | NMul _ a b => nofun a && nofun b
    end.
  Lemma pb_evaluate vs (n : node T) : nofun n = true ->
    (forall v, occurs v n -> hget ptr_eq v vs = Some n0) -> p_b (std_properties n) = evaluate vs n.
  Proof.
    induction n as [i v|i s kd|i args IH|i a IHa|i a b IHa IHb|i a b IHa IHb|i a IHa] using node_ind'; intros Hn Hv; cbn [nofun] in Hn; try discriminate.
    - reflexivity.
    - cbn. rewrite (Hv (NVar i s kd)); [reflexivity|]. split; [reflexivity|apply sub_refl].
    - cbn [std_properties evaluate].
      assert (Hargs : forall x, In x args -> p_b (std_properties x) = evaluate vs x).
      { rewrite forallb_forall in Hn. rewrite Forall_forall in IH. intros x Hx. apply IH; auto. intros v [V1 V2]. apply Hv. split; [exact V1|].
        eapply sub_arg; [|exact V2]. exact Hx. }
      enough (G : forall acc, p_b (fold_left (fun acc x => let p := std_properties x in
          mk_std_prop (p_affine acc && p_affine p) (fold_left merge_add (p_a p) (p_a acc)) (nadd (p_b acc) (p_b p))) args acc) =
        fold_left (fun a x => nadd a (evaluate vs x)) args (p_b acc)) by apply G.
      clear IH Hn Hv. induction args as [|x args IH]; intros acc; cbn [fold_left]; [reflexivity|]. rewrite IH.
      + cbn [p_b]. rewrite Hargs by (left; reflexivity). reflexivity.
      + intros y Hy. apply Hargs. right. exact Hy.
    - apply andb_true_iff in Hn as [Na Nb]. cbn [std_properties evaluate p_b]. rewrite IHa, IHb; auto; intros v [V1 V2]; apply Hv; (split; [exact V1|]).
      + eapply sub_arg; [|exact V2]. cbn. auto.
      + eapply sub_arg; [|exact V2]. cbn. auto.
    - apply andb_true_iff in Hn as [Na Nb]. cbn [std_properties evaluate p_b]. rewrite IHa, IHb; auto; intros v [V1 V2]; apply Hv; (split; [exact V1|]).
      + eapply sub_arg; [|exact V2]. cbn. auto.
      + eapply sub_arg; [|exact V2]. cbn. auto.
  Qed.

  (** The operators keep it. *)
  Definition keeps (m : M (node T)) : Prop := forall k n k', m k = Ok (n, k') -> nofun n = true.
  Lemma keeps_const v : keeps (mk_const v).
  Proof. intros k n k' E. injection E as <- _. reflexivity. Qed.
  Lemma keeps_ret n : nofun n = true -> keeps (ret n).
  Proof. intros Hn k n' k' E. injection E as <- _. exact Hn. Qed.
  Lemma keeps_add l : forallb nofun l = true -> keeps (mk_add l).
  Proof. intros Hl k n k' E. unfold mk_add in E. destruct (length l <? 2); [discriminate|]. injection E as <- _. exact Hl. Qed.
  Lemma keeps_mul a b : nofun a = true -> nofun b = true -> keeps (mk_mul a b).
  Proof. intros Ha Hb k n k' E. injection E as <- _. cbn. rewrite Ha, Hb. reflexivity. Qed.
  Lemma keeps_div a b : nofun a = true -> nofun b = true -> keeps (mk_div a b).
  Proof. intros Ha Hb k n k' E. injection E as <- _. cbn. rewrite Ha, Hb. reflexivity. Qed.
  Lemma keeps_if (c : bool) m m' : keeps m -> keeps m' -> keeps (if c then m else m').
  Proof. intros H1 H2. destruct c; assumption. Qed.
  Lemma keeps_cbind v (f : node T -> M (node T)) : (forall i, keeps (f (NConst i v))) -> keeps (bind (mk_const v) f).
  Proof. intros Hf k n k' E. apply bind_ok in E as (c & k1 & E1 & E2). injection E1 as <- <-. eapply Hf. exact E2. Qed.
  Lemma keeps_bind m (f : node T -> M (node T)) : keeps m -> (forall x, nofun x = true -> keeps (f x)) -> keeps (bind m f).
  Proof. intros Hm Hf k n k' E. apply bind_ok in E as (c & k1 & E1 & E2). eapply Hf; [|exact E2]. eapply Hm. exact E1. Qed.
  Lemma keeps_map (f : node T -> M (node T)) l : forallb nofun l = true -> (forall x, In x l -> nofun x = true -> keeps (f x)) -> keeps (bind (mapM f l) mk_add).
  Proof.
    intros Hl Hf k n k' E. apply bind_ok in E as (l' & k1 & E1 & E2). eapply keeps_add; [|exact E2]. clear E2 n k'. revert k l' k1 E1.
    induction l as [|x l IH]; intros k l' k1 E1.
    - injection E1 as <- _. reflexivity.
    - cbn in Hl. apply andb_true_iff in Hl as [Hx Hl]. apply mapM_cons_ok in E1 as (y & k2 & ys & E1 & E2 & ->). cbn.
      rewrite (Hf x (or_introl eq_refl) Hx _ _ _ E1). cbn. eapply IH; [exact Hl| |exact E2]. intros z Hz. apply Hf. right. exact Hz.
  Qed.
  Lemma inner_nofun l : forall st, forallb nofun l = true -> forallb nofun (snd st) = true -> forallb nofun (snd (fold_left add_inner l st)) = true.
  Proof.
    induction l as [|x l IH]; intros [c args] Hl Ha; cbn [fold_left]; [exact Ha|]. cbn in Hl. apply andb_true_iff in Hl as [Hx Hl].
    apply IH; [exact Hl|]. destruct x; cbn [add_inner snd] in *; auto; rewrite forallb_app; cbn [forallb]; rewrite Ha, Hx; reflexivity.
  Qed.
  Lemma outer_nofun st a : nofun a = true -> forallb nofun (snd st) = true -> forallb nofun (snd (add_outer st a)) = true.
  Proof.
    destruct st as [c args]. intros Ha Hs. destruct a; cbn [add_outer snd] in *; auto; try (rewrite forallb_app; cbn [forallb]; rewrite Hs, Ha; reflexivity).
    apply inner_nofun; auto.
  Qed.
  Lemma add_other_keeps a b : nofun a = true -> nofun b = true -> keeps (add_other a b).
  Proof.
    intros Ha Hb. unfold add_other. cbn [fold_left]. pose proof (outer_nofun (n0, []) a Ha eq_refl) as G1. pose proof (outer_nofun _ b Hb G1) as G2.
    destruct (add_outer (add_outer (n0, []) a) b) as [c args]. cbn [snd] in G2. destruct args as [|x args]; [apply keeps_const|].
    apply keeps_if; [|apply keeps_add; exact G2]. apply keeps_cbind. intros i. apply keeps_add. rewrite forallb_app, G2. reflexivity.
  Qed.
  Lemma add_nn_keeps a b : nofun a = true -> nofun b = true -> keeps (add_nn a b).
  Proof. intros Ha Hb. unfold add_nn. repeat apply keeps_if; try (apply keeps_ret; assumption). apply add_other_keeps; assumption. Qed.
  Lemma add_ns_keeps a v : nofun a = true -> keeps (add_ns a v).
  Proof. intros Ha. unfold add_ns. apply keeps_if; [apply keeps_ret; assumption|]. apply keeps_cbind. intros i. apply add_other_keeps; auto. Qed.
  Lemma add_sn_keeps a v : nofun a = true -> keeps (add_sn v a).
  Proof. intros Ha. unfold add_sn. apply keeps_if; [apply keeps_ret; assumption|]. apply keeps_cbind. intros i. apply add_other_keeps; auto. Qed.
  Lemma mul_cn_keeps s r : nofun s = true -> nofun r = true -> keeps (mul_cn s r).
  Proof.
    intros Hs. induction r as [i v|i nm kd|i args IH|i a IHa|i a b IHa IHb|i a b IHa IHb|i a IHa] using node_ind'; intros Hr; cbn [mul_cn];
      repeat apply keeps_if; try apply keeps_const; try (apply keeps_ret; assumption); try (apply keeps_mul; assumption).
    apply keeps_map; [exact Hr|]. rewrite Forall_forall in IH. intros x Hx Nx. apply IH; auto.
  Qed.
  Lemma mul_nc_keeps s r : nofun r = true -> nofun s = true -> keeps (mul_nc s r).
  Proof.
    intros Hs. induction s as [i v|i nm kd|i args IH|i a IHa|i a b IHa IHb|i a b IHa IHb|i a IHa] using node_ind'; intros Hr; cbn [mul_nc];
      repeat apply keeps_if; try apply keeps_const; try (apply keeps_ret; assumption); try (apply keeps_mul; assumption).
    apply keeps_map; [exact Hr|]. rewrite Forall_forall in IH. intros x Hx Nx. apply IH; auto.
  Qed.
  Lemma mul_nn_keeps s r : nofun s = true -> nofun r = true -> keeps (mul_nn s r).
  Proof.
    intros Hs Hr. unfold mul_nn. repeat apply keeps_if; try apply keeps_const; try (apply keeps_ret; assumption).
    destruct s; try (apply keeps_mul; assumption); destruct r; try (apply keeps_mul; assumption); (apply keeps_map; [assumption|]); intros x Hx Nx;
      [apply mul_cn_keeps|apply mul_nc_keeps]; auto.
  Qed.
  Lemma mul_ns_keeps a v : nofun a = true -> keeps (mul_ns a v).
  Proof.
    induction a as [i w|i nm kd|i args IH|i a IHa|i a b IHa IHb|i a b IHa IHb|i a IHa] using node_ind'; intros Hr; cbn [mul_ns];
      repeat apply keeps_if; try apply keeps_const; try (apply keeps_ret; assumption); try (apply keeps_cbind; intros j; apply keeps_mul; auto).
    apply keeps_map; [exact Hr|]. rewrite Forall_forall in IH. intros x Hx Nx. apply IH; auto.
  Qed.
  Lemma mul_sn_keeps a v : nofun a = true -> keeps (mul_sn v a).
  Proof.
    induction a as [i w|i nm kd|i args IH|i a IHa|i a b IHa IHb|i a b IHa IHb|i a IHa] using node_ind'; intros Hr; cbn [mul_sn];
      repeat apply keeps_if; try apply keeps_const; try (apply keeps_ret; assumption); try (apply keeps_cbind; intros j; apply keeps_mul; auto).
    apply keeps_map; [exact Hr|]. rewrite Forall_forall in IH. intros x Hx Nx. apply IH; auto.
  Qed.
  Lemma neg_n_keeps a : nofun a = true -> keeps (neg_n a).
  Proof. intros Ha. unfold neg_n. destruct a; try (apply mul_sn_keeps; exact Ha). apply keeps_const. Qed.
  Lemma sub_nn_keeps a b : nofun a = true -> nofun b = true -> keeps (sub_nn a b).
  Proof. intros Ha Hb. unfold sub_nn. apply keeps_bind; [apply mul_sn_keeps; exact Hb|]. intros x Hx. apply add_nn_keeps; auto. Qed.
  Lemma sub_ns_keeps a v : nofun a = true -> keeps (sub_ns a v).
  Proof. intros Ha. unfold sub_ns. apply keeps_cbind. intros i. apply keeps_bind; [apply mul_sn_keeps; reflexivity|]. intros x Hx. apply add_nn_keeps; auto. Qed.
  Lemma sub_sn_keeps a v : nofun a = true -> keeps (sub_sn v a).
  Proof. intros Ha. unfold sub_sn. apply keeps_cbind. intros i. apply keeps_bind; [apply mul_sn_keeps; exact Ha|]. intros x Hx. apply add_nn_keeps; auto. Qed.
  Lemma div_ns_keeps a v : nofun a = true -> keeps (div_ns a v).
  Proof.
    intros Ha. unfold div_ns. apply keeps_if; [intros k n k' E; discriminate|]. repeat apply keeps_if; try apply keeps_const; try (apply keeps_ret; assumption).
    apply keeps_cbind. intros i. apply keeps_div; auto.
  Qed.
End NoFun.
