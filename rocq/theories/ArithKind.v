(** The operators that take no quotient but by a scalar build sums, products and quotients by constants. *)
From Verif Require Import Base Num Node NodeInd NodeStd ExprSpec.

Section ArithKind.
  Context {T : Type} `{Num T}.
  Fixpoint akind (n : node T) : bool :=
    match n with
    | NConst _ _ | NVar _ _ _ => true
    | NAdd _ l => forallb akind l
    | NCos _ _ | NSin _ _ => false
    | NMul _ a b => akind a && akind b
    | NDiv _ a (NConst _ _) => akind a
    | NDiv _ _ _ => false
    end.
  (** The operators keep it. *)
  Definition keeps (m : M (node T)) : Prop := forall k n k', m k = Ok (n, k') -> akind n = true.
  Lemma keeps_const v : keeps (mk_const v).
  Proof. intros k n k' E. injection E as <- _. reflexivity. Qed.
  Lemma keeps_ret n : akind n = true -> keeps (ret n).
  Proof. intros Hn k n' k' E. injection E as <- _. exact Hn. Qed.
  Lemma keeps_add l : forallb akind l = true -> keeps (mk_add l).
  Proof. intros Hl k n k' E. unfold mk_add in E. destruct (length l <? 2); [discriminate|]. injection E as <- _. exact Hl. Qed.
  Lemma keeps_mul a b : akind a = true -> akind b = true -> keeps (mk_mul a b).
  Proof. intros Ha Hb k n k' E. injection E as <- _. cbn. rewrite Ha, Hb. reflexivity. Qed.
  Lemma keeps_div a i v : akind a = true -> keeps (mk_div a (NConst i v)).
  Proof. intros Ha k n k' E. injection E as <- _. exact Ha. Qed.
  Lemma keeps_if (c : bool) m m' : keeps m -> keeps m' -> keeps (if c then m else m').
  Proof. intros H1 H2. destruct c; assumption. Qed.
  Lemma keeps_cbind v (f : node T -> M (node T)) : (forall i, keeps (f (NConst i v))) -> keeps (bind (mk_const v) f).
  Proof. intros Hf k n k' E. apply bind_ok in E as (c & k1 & E1 & E2). injection E1 as <- <-. eapply Hf. exact E2. Qed.
  Lemma keeps_bind m (f : node T -> M (node T)) : keeps m -> (forall x, akind x = true -> keeps (f x)) -> keeps (bind m f).
  Proof. intros Hm Hf k n k' E. apply bind_ok in E as (c & k1 & E1 & E2). eapply Hf; [|exact E2]. eapply Hm. exact E1. Qed.
  Lemma keeps_map (f : node T -> M (node T)) l : forallb akind l = true -> (forall x, In x l -> akind x = true -> keeps (f x)) -> keeps (bind (mapM f l) mk_add).
  Proof.
    intros Hl Hf k n k' E. apply bind_ok in E as (l' & k1 & E1 & E2). eapply keeps_add; [|exact E2]. clear E2 n k'. revert k l' k1 E1.
    induction l as [|x l IH]; intros k l' k1 E1.
    - injection E1 as <- _. reflexivity.
    - cbn in Hl. apply andb_true_iff in Hl as [Hx Hl]. apply mapM_cons_ok in E1 as (y & k2 & ys & E1 & E2 & ->). cbn.
      rewrite (Hf x (or_introl eq_refl) Hx _ _ _ E1). cbn. eapply IH; [exact Hl| |exact E2]. intros z Hz. apply Hf. right. exact Hz.
  Qed.
  Lemma inner_akind l : forall st, forallb akind l = true -> forallb akind (snd st) = true -> forallb akind (snd (fold_left add_inner l st)) = true.
  Proof.
    induction l as [|x l IH]; intros [c args] Hl Ha; cbn [fold_left]; [exact Ha|]. cbn in Hl. apply andb_true_iff in Hl as [Hx Hl].
    apply IH; [exact Hl|]. destruct x; cbn [add_inner snd] in *; auto; rewrite forallb_app; cbn [forallb]; rewrite Ha, Hx; reflexivity.
  Qed.
  Lemma outer_akind st a : akind a = true -> forallb akind (snd st) = true -> forallb akind (snd (add_outer st a)) = true.
  Proof.
    destruct st as [c args]. intros Ha Hs. destruct a; cbn [add_outer snd] in *; auto; try (rewrite forallb_app; cbn [forallb]; rewrite Hs, Ha; reflexivity).
    apply inner_akind; auto.
  Qed.
  Lemma add_other_keeps a b : akind a = true -> akind b = true -> keeps (add_other a b).
  Proof.
    intros Ha Hb. unfold add_other. cbn [fold_left]. pose proof (outer_akind (n0, []) a Ha eq_refl) as G1. pose proof (outer_akind _ b Hb G1) as G2.
    destruct (add_outer (add_outer (n0, []) a) b) as [c args]. cbn [snd] in G2. destruct args as [|x args]; [apply keeps_const|].
    apply keeps_if; [|apply keeps_add; exact G2]. apply keeps_cbind. intros i. apply keeps_add. rewrite forallb_app, G2. reflexivity.
  Qed.
  Lemma add_nn_keeps a b : akind a = true -> akind b = true -> keeps (add_nn a b).
  Proof. intros Ha Hb. unfold add_nn. repeat apply keeps_if; try (apply keeps_ret; assumption). apply add_other_keeps; assumption. Qed.
  Lemma add_ns_keeps a v : akind a = true -> keeps (add_ns a v).
  Proof. intros Ha. unfold add_ns. apply keeps_if; [apply keeps_ret; assumption|]. apply keeps_cbind. intros i. apply add_other_keeps; auto. Qed.
  Lemma add_sn_keeps a v : akind a = true -> keeps (add_sn v a).
  Proof. intros Ha. unfold add_sn. apply keeps_if; [apply keeps_ret; assumption|]. apply keeps_cbind. intros i. apply add_other_keeps; auto. Qed.
  Lemma mul_cn_keeps s r : akind s = true -> akind r = true -> keeps (mul_cn s r).
  Proof.
    intros Hs. induction r as [i v|i nm kd|i args IH|i a IHa|i a b IHa IHb|i a b IHa IHb|i a IHa] using node_ind'; intros Hr; cbn [mul_cn];
      repeat apply keeps_if; try apply keeps_const; try (apply keeps_ret; assumption); try (apply keeps_mul; assumption).
    apply keeps_map; [exact Hr|]. rewrite Forall_forall in IH. intros x Hx Nx. apply IH; auto.
  Qed.
  Lemma mul_nc_keeps s r : akind r = true -> akind s = true -> keeps (mul_nc s r).
  Proof.
    intros Hs. induction s as [i v|i nm kd|i args IH|i a IHa|i a b IHa IHb|i a b IHa IHb|i a IHa] using node_ind'; intros Hr; cbn [mul_nc];
      repeat apply keeps_if; try apply keeps_const; try (apply keeps_ret; assumption); try (apply keeps_mul; assumption).
    apply keeps_map; [exact Hr|]. rewrite Forall_forall in IH. intros x Hx Nx. apply IH; auto.
  Qed.
  Lemma mul_nn_keeps s r : akind s = true -> akind r = true -> keeps (mul_nn s r).
  Proof.
    intros Hs Hr. unfold mul_nn. repeat apply keeps_if; try apply keeps_const; try (apply keeps_ret; assumption).
    destruct s; try (apply keeps_mul; assumption); destruct r; try (apply keeps_mul; assumption); (apply keeps_map; [assumption|]); intros x Hx Nx;
      [apply mul_cn_keeps|apply mul_nc_keeps]; auto.
  Qed.
  Lemma mul_ns_keeps a v : akind a = true -> keeps (mul_ns a v).
  Proof.
    induction a as [i w|i nm kd|i args IH|i a IHa|i a b IHa IHb|i a b IHa IHb|i a IHa] using node_ind'; intros Hr; cbn [mul_ns];
      repeat apply keeps_if; try apply keeps_const; try (apply keeps_ret; assumption); try (apply keeps_cbind; intros j; apply keeps_mul; auto).
    apply keeps_map; [exact Hr|]. rewrite Forall_forall in IH. intros x Hx Nx. apply IH; auto.
  Qed.
  Lemma mul_sn_keeps a v : akind a = true -> keeps (mul_sn v a).
  Proof.
    induction a as [i w|i nm kd|i args IH|i a IHa|i a b IHa IHb|i a b IHa IHb|i a IHa] using node_ind'; intros Hr; cbn [mul_sn];
      repeat apply keeps_if; try apply keeps_const; try (apply keeps_ret; assumption); try (apply keeps_cbind; intros j; apply keeps_mul; auto).
    apply keeps_map; [exact Hr|]. rewrite Forall_forall in IH. intros x Hx Nx. apply IH; auto.
  Qed.
  Lemma neg_n_keeps a : akind a = true -> keeps (neg_n a).
  Proof. intros Ha. unfold neg_n. destruct a; try (apply mul_sn_keeps; exact Ha). apply keeps_const. Qed.
  Lemma sub_nn_keeps a b : akind a = true -> akind b = true -> keeps (sub_nn a b).
  Proof. intros Ha Hb. unfold sub_nn. apply keeps_bind; [apply mul_sn_keeps; exact Hb|]. intros x Hx. apply add_nn_keeps; auto. Qed.
  Lemma sub_ns_keeps a v : akind a = true -> keeps (sub_ns a v).
  Proof. intros Ha. unfold sub_ns. apply keeps_cbind. intros i. apply keeps_bind; [apply mul_sn_keeps; reflexivity|]. intros x Hx. apply add_nn_keeps; auto. Qed.
  Lemma sub_sn_keeps a v : akind a = true -> keeps (sub_sn v a).
  Proof. intros Ha. unfold sub_sn. apply keeps_cbind. intros i. apply keeps_bind; [apply mul_sn_keeps; exact Ha|]. intros x Hx. apply add_nn_keeps; auto. Qed.
  Lemma div_ns_keeps a v : akind a = true -> keeps (div_ns a v).
  Proof.
    intros Ha. unfold div_ns. apply keeps_if; [intros k n k' E; discriminate|]. repeat apply keeps_if; try apply keeps_const; try (apply keeps_ret; assumption).
    apply keeps_cbind. intros i. apply keeps_div; auto.
  Qed.
End ArithKind.
