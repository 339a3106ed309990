(** Polynomials, the variables of which are in a given set: the operators and the derivatives keep it. *)
From Verif Require Import Base Num Node NodeDiff NodeInd ExprSpec Api ApiProofs PathProofs DerivProofs.

Section PolyVars.
  Context {T : Type} `{Num T}.
  Variable P : node T -> bool.
  Fixpoint polyv (n : node T) : bool :=
    match n with
    | NConst _ _ => true
    | NVar _ _ _ => P n
    | NAdd _ l => forallb polyv l
    | NMul _ a b => polyv a && polyv b
    | _ => false
    end.
  Lemma polyv_arg n a : polyv n = true -> In a (arguments n) -> polyv a = true.
  Proof.
    intros Hn Ha. destruct n; cbn [polyv arguments] in *; try discriminate; try (destruct Ha; fail).
    - rewrite forallb_forall in Hn. auto.
    - apply andb_true_iff in Hn as [H1 H2]. destruct Ha as [<-|[<-|[]]]; assumption.
  Qed.
  Lemma polyv_sub a n : sub a n -> polyv n = true -> polyv a = true.
  Proof. induction 1 as [n|s c n Hc Hs IH]; intros Hn; [exact Hn|]. apply IH. eapply polyv_arg; eauto. Qed.
  Lemma polyv_occurs v n : occurs v n -> polyv n = true -> P v = true.
  Proof. intros [Hv Hs] Hn. pose proof (polyv_sub _ _ Hs Hn) as G. destruct v; try discriminate Hv. exact G. Qed.

  (** The operators keep it. *)
  Definition keeps (m : M (node T)) : Prop := forall k n k', m k = Ok (n, k') -> polyv n = true.
  Lemma keeps_const v : keeps (mk_const v).
  Proof. intros k n k' E. injection E as <- _. reflexivity. Qed.
  Lemma keeps_ret n : polyv n = true -> keeps (ret n).
  Proof. intros Hn k n' k' E. injection E as <- _. exact Hn. Qed.
  Lemma keeps_add l : forallb polyv l = true -> keeps (mk_add l).
  Proof. intros Hl k n k' E. unfold mk_add in E. destruct (length l <? 2); [discriminate|]. injection E as <- _. exact Hl. Qed.
  Lemma keeps_mul a b : polyv a = true -> polyv b = true -> keeps (mk_mul a b).
  Proof. intros Ha Hb k n k' E. injection E as <- _. cbn. rewrite Ha, Hb. reflexivity. Qed.
  Lemma keeps_if (c : bool) m m' : keeps m -> keeps m' -> keeps (if c then m else m').
  Proof. intros H1 H2. destruct c; assumption. Qed.
  Lemma keeps_cbind v (f : node T -> M (node T)) : (forall i, keeps (f (NConst i v))) -> keeps (bind (mk_const v) f).
  Proof. intros Hf k n k' E. apply bind_ok in E as (c & k1 & E1 & E2). injection E1 as <- <-. eapply Hf. exact E2. Qed.
  Lemma keeps_bind m (f : node T -> M (node T)) : keeps m -> (forall x, polyv x = true -> keeps (f x)) -> keeps (bind m f).
  Proof. intros Hm Hf k n k' E. apply bind_ok in E as (c & k1 & E1 & E2). eapply Hf; [|exact E2]. eapply Hm. exact E1. Qed.
  Lemma keeps_map (f : node T -> M (node T)) l : forallb polyv l = true -> (forall x, In x l -> polyv x = true -> keeps (f x)) -> keeps (bind (mapM f l) mk_add).
  Proof.
    intros Hl Hf k n k' E. apply bind_ok in E as (l' & k1 & E1 & E2). eapply keeps_add; [|exact E2]. clear E2 n k'. revert k l' k1 E1.
    induction l as [|x l IH]; intros k l' k1 E1.
    - injection E1 as <- _. reflexivity.
    - cbn in Hl. apply andb_true_iff in Hl as [Hx Hl]. apply mapM_cons_ok in E1 as (y & k2 & ys & E1 & E2 & ->). cbn.
      rewrite (Hf x (or_introl eq_refl) Hx _ _ _ E1). cbn. eapply IH; [exact Hl| |exact E2]. intros z Hz. apply Hf. right. exact Hz.
  Qed.
  Lemma inner_pv l : forall st, forallb polyv l = true -> forallb polyv (snd st) = true -> forallb polyv (snd (fold_left add_inner l st)) = true.
  Proof.
    induction l as [|x l IH]; intros [c args] Hl Ha; cbn [fold_left]; [exact Ha|]. cbn in Hl. apply andb_true_iff in Hl as [Hx Hl].
    apply IH; [exact Hl|]. destruct x; cbn [add_inner snd] in *; auto; rewrite forallb_app; cbn [forallb]; rewrite Ha, Hx; reflexivity.
  Qed.
  Lemma outer_pv st a : polyv a = true -> forallb polyv (snd st) = true -> forallb polyv (snd (add_outer st a)) = true.
  Proof.
    destruct st as [c args]. intros Ha Hs. destruct a; cbn [add_outer snd] in *; auto; try (rewrite forallb_app; cbn [forallb]; rewrite Hs, Ha; reflexivity).
    apply inner_pv; auto.
  Qed.
  Lemma add_other_keeps a b : polyv a = true -> polyv b = true -> keeps (add_other a b).
  Proof.
    intros Ha Hb. unfold add_other. cbn [fold_left]. pose proof (outer_pv (n0, []) a Ha eq_refl) as G1. pose proof (outer_pv _ b Hb G1) as G2.
    destruct (add_outer (add_outer (n0, []) a) b) as [c args]. cbn [snd] in G2. destruct args as [|x args]; [apply keeps_const|].
    apply keeps_if; [|apply keeps_add; exact G2]. apply keeps_cbind. intros i. apply keeps_add. rewrite forallb_app, G2. reflexivity.
  Qed.
  Lemma add_nn_keeps a b : polyv a = true -> polyv b = true -> keeps (add_nn a b).
  Proof. intros Ha Hb. unfold add_nn. repeat apply keeps_if; try (apply keeps_ret; assumption). apply add_other_keeps; assumption. Qed.
  Lemma add_ns_keeps a v : polyv a = true -> keeps (add_ns a v).
  Proof. intros Ha. unfold add_ns. apply keeps_if; [apply keeps_ret; assumption|]. apply keeps_cbind. intros i. apply add_other_keeps; auto. Qed.
  Lemma add_sn_keeps a v : polyv a = true -> keeps (add_sn v a).
  Proof. intros Ha. unfold add_sn. apply keeps_if; [apply keeps_ret; assumption|]. apply keeps_cbind. intros i. apply add_other_keeps; auto. Qed.
  Lemma mul_cn_keeps s r : polyv s = true -> polyv r = true -> keeps (mul_cn s r).
  Proof.
    intros Hs. induction r as [i v|i nm kd|i args IH|i a IHa|i a b IHa IHb|i a b IHa IHb|i a IHa] using node_ind'; intros Hr; cbn [mul_cn];
      repeat apply keeps_if; try apply keeps_const; try (apply keeps_ret; assumption); try (apply keeps_mul; assumption).
    apply keeps_map; [exact Hr|]. rewrite Forall_forall in IH. intros x Hx Nx. apply IH; auto.
  Qed.
  Lemma mul_nc_keeps s r : polyv r = true -> polyv s = true -> keeps (mul_nc s r).
  Proof.
    intros Hs. induction s as [i v|i nm kd|i args IH|i a IHa|i a b IHa IHb|i a b IHa IHb|i a IHa] using node_ind'; intros Hr; cbn [mul_nc];
      repeat apply keeps_if; try apply keeps_const; try (apply keeps_ret; assumption); try (apply keeps_mul; assumption).
    apply keeps_map; [exact Hr|]. rewrite Forall_forall in IH. intros x Hx Nx. apply IH; auto.
  Qed.
  Lemma mul_nn_keeps s r : polyv s = true -> polyv r = true -> keeps (mul_nn s r).
  Proof.
    intros Hs Hr. unfold mul_nn. repeat apply keeps_if; try apply keeps_const; try (apply keeps_ret; assumption).
    destruct s; try (apply keeps_mul; assumption); destruct r; try (apply keeps_mul; assumption); (apply keeps_map; [assumption|]); intros x Hx Nx;
      [apply mul_cn_keeps|apply mul_nc_keeps]; auto.
  Qed.
  Lemma mul_ns_keeps a v : polyv a = true -> keeps (mul_ns a v).
  Proof.
    induction a as [i w|i nm kd|i args IH|i a IHa|i a b IHa IHb|i a b IHa IHb|i a IHa] using node_ind'; intros Hr; cbn [mul_ns];
      repeat apply keeps_if; try apply keeps_const; try (apply keeps_ret; assumption); try (apply keeps_cbind; intros j; apply keeps_mul; auto).
    apply keeps_map; [exact Hr|]. rewrite Forall_forall in IH. intros x Hx Nx. apply IH; auto.
  Qed.
  Lemma mul_sn_keeps a v : polyv a = true -> keeps (mul_sn v a).
  Proof.
    induction a as [i w|i nm kd|i args IH|i a IHa|i a b IHa IHb|i a b IHa IHb|i a IHa] using node_ind'; intros Hr; cbn [mul_sn];
      repeat apply keeps_if; try apply keeps_const; try (apply keeps_ret; assumption); try (apply keeps_cbind; intros j; apply keeps_mul; auto).
    apply keeps_map; [exact Hr|]. rewrite Forall_forall in IH. intros x Hx Nx. apply IH; auto.
  Qed.
  Lemma neg_n_keeps a : polyv a = true -> keeps (neg_n a).
  Proof. intros Ha. unfold neg_n. destruct a; try (apply mul_sn_keeps; exact Ha). apply keeps_const. Qed.
  Lemma sub_nn_keeps a b : polyv a = true -> polyv b = true -> keeps (sub_nn a b).
  Proof. intros Ha Hb. unfold sub_nn. apply keeps_bind; [apply mul_sn_keeps; exact Hb|]. intros x Hx. apply add_nn_keeps; auto. Qed.
  Lemma sub_ns_keeps a v : polyv a = true -> keeps (sub_ns a v).
  Proof. intros Ha. unfold sub_ns. apply keeps_cbind. intros i. apply keeps_bind; [apply mul_sn_keeps; reflexivity|]. intros x Hx. apply add_nn_keeps; auto. Qed.
  Lemma sub_sn_keeps a v : polyv a = true -> keeps (sub_sn v a).
  Proof. intros Ha. unfold sub_sn. apply keeps_cbind. intros i. apply keeps_bind; [apply mul_sn_keeps; exact Ha|]. intros x Hx. apply add_nn_keeps; auto. Qed.
  (** Differentiation. *)
  Lemma partial_keeps n a : polyv n = true -> keeps (partial n a).
  Proof.
    intros Hn. destruct n; cbn [partial polyv] in *; try discriminate; try apply keeps_const.
    - destruct a; repeat apply keeps_if; apply keeps_const.
    - apply keeps_if; apply keeps_const.
    - apply andb_true_iff in Hn as [H1 H2]. repeat apply keeps_if; try apply keeps_const; apply keeps_ret; assumption.
  Qed.
  Lemma keeps_fold {A} (f : node T -> A -> M (node T)) (Q : A -> Prop) l x : polyv x = true -> Forall Q l ->
    (forall y a, polyv y = true -> Q a -> keeps (f y a)) -> keeps (foldM f l x).
  Proof.
    intros Hx Hl Hf. revert x Hx. induction Hl as [|a l Ha Hl IH]; intros x Hx; cbn [foldM]; [apply keeps_ret; exact Hx|].
    apply keeps_bind; [apply Hf; assumption|]. exact IH.
  Qed.
  Lemma windows_in (p : list (node T)) : Forall (fun x => polyv x = true) p -> Forall (fun pr => polyv (fst pr) = true) (windows2 p).
  Proof.
    induction 1 as [|a p Ha Hp IH]; [constructor|]. destruct p as [|b p]; [constructor|]. cbn [windows2]. constructor; [exact Ha|exact IH].
  Qed.
  Lemma path_sum_keeps v n : polyv n = true -> keeps (path_sum (rpaths v n)).
  Proof.
    intros Hn. unfold path_sum. apply keeps_cbind. intros i.
    apply (keeps_fold _ (fun p => Forall (fun x => polyv x = true) p)); [reflexivity| |].
    - apply Forall_forall. intros p Hp. apply rpaths_chain in Hp as [_ Hp]. eapply Forall_impl; [|exact Hp]. cbv beta. intros x Hx. eapply polyv_sub; eauto.
    - intros y p Hy Hp. apply keeps_bind; [|intros x Hx; apply add_nn_keeps; assumption].
      unfold path_prod. apply keeps_cbind. intros j. apply (keeps_fold _ (fun pr => polyv (fst pr) = true)); [reflexivity|apply windows_in; exact Hp|].
      intros z pr Hz Hpr. apply keeps_bind; [apply partial_keeps; exact Hpr|]. intros x Hx. apply mul_nn_keeps; assumption.
  Qed.
End PolyVars.
