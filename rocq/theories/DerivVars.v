(** Expressions, the variables of which are in a given set: the operators and the derivatives keep it. *)
From Verif Require Import Base Num Node NodeDiff NodeInd ExprSpec Api ApiProofs PathProofs DerivProofs.

Section DerivVars.
  Context {T : Type} `{Num T}.
  Variable P : node T -> bool.
  Fixpoint varsin (n : node T) : bool :=
    match n with
    | NConst _ _ => true
    | NVar _ _ _ => P n
    | NAdd _ l => forallb varsin l
    | NMul _ a b => varsin a && varsin b
    | NDiv _ a b => varsin a && varsin b
    | NSin _ a => varsin a
    | NCos _ a => varsin a
    end.
  Lemma varsin_arg n a : varsin n = true -> In a (arguments n) -> varsin a = true.
  Proof.
    intros Hn Ha. destruct n; cbn [varsin arguments] in *; try (destruct Ha; fail);
      try (apply andb_true_iff in Hn as [H1 H2]; destruct Ha as [<-|[<-|[]]]; assumption); try (destruct Ha as [<-|[]]; assumption).
    rewrite forallb_forall in Hn. auto.
  Qed.
  Lemma varsin_sub a n : sub a n -> varsin n = true -> varsin a = true.
  Proof. induction 1 as [n|s c n Hc Hs IH]; intros Hn; [exact Hn|]. apply IH. eapply varsin_arg; eauto. Qed.
  Lemma varsin_occurs v n : occurs v n -> varsin n = true -> P v = true.
  Proof. intros [Hv Hs] Hn. pose proof (varsin_sub _ _ Hs Hn) as G. destruct v; try discriminate Hv. exact G. Qed.

  (** The operators keep it. *)
  Definition keeps (m : M (node T)) : Prop := forall k n k', m k = Ok (n, k') -> varsin n = true.
  Lemma keeps_const v : keeps (mk_const v).
  Proof. intros k n k' E. injection E as <- _. reflexivity. Qed.
  Lemma keeps_ret n : varsin n = true -> keeps (ret n).
  Proof. intros Hn k n' k' E. injection E as <- _. exact Hn. Qed.
  Lemma keeps_add l : forallb varsin l = true -> keeps (mk_add l).
  Proof. intros Hl k n k' E. unfold mk_add in E. destruct (length l <? 2); [discriminate|]. injection E as <- _. exact Hl. Qed.
  Lemma keeps_mul a b : varsin a = true -> varsin b = true -> keeps (mk_mul a b).
  Proof. intros Ha Hb k n k' E. injection E as <- _. cbn. rewrite Ha, Hb. reflexivity. Qed.
  Lemma keeps_div a b : varsin a = true -> varsin b = true -> keeps (mk_div a b).
  Proof. intros Ha Hb k n k' E. injection E as <- _. cbn. rewrite Ha, Hb. reflexivity. Qed.
  Lemma keeps_sin a : varsin a = true -> keeps (mk_sin a).
  Proof. intros Ha k n k' E. injection E as <- _. exact Ha. Qed.
  Lemma keeps_cos a : varsin a = true -> keeps (mk_cos a).
  Proof. intros Ha k n k' E. injection E as <- _. exact Ha. Qed.
  Lemma keeps_fail p : keeps (fail p).
  Proof. intros k n k' E. discriminate E. Qed.
  Lemma keeps_if (c : bool) m m' : keeps m -> keeps m' -> keeps (if c then m else m').
  Proof. intros H1 H2. destruct c; assumption. Qed.
  Lemma keeps_cbind v (f : node T -> M (node T)) : (forall i, keeps (f (NConst i v))) -> keeps (bind (mk_const v) f).
  Proof. intros Hf k n k' E. apply bind_ok in E as (c & k1 & E1 & E2). injection E1 as <- <-. eapply Hf. exact E2. Qed.
  Lemma keeps_bind m (f : node T -> M (node T)) : keeps m -> (forall x, varsin x = true -> keeps (f x)) -> keeps (bind m f).
  Proof. intros Hm Hf k n k' E. apply bind_ok in E as (c & k1 & E1 & E2). eapply Hf; [|exact E2]. eapply Hm. exact E1. Qed.
  Lemma keeps_map (f : node T -> M (node T)) l : forallb varsin l = true -> (forall x, In x l -> varsin x = true -> keeps (f x)) -> keeps (bind (mapM f l) mk_add).
  Proof.
    intros Hl Hf k n k' E. apply bind_ok in E as (l' & k1 & E1 & E2). eapply keeps_add; [|exact E2]. clear E2 n k'. revert k l' k1 E1.
    induction l as [|x l IH]; intros k l' k1 E1.
    - injection E1 as <- _. reflexivity.
    - cbn in Hl. apply andb_true_iff in Hl as [Hx Hl]. apply mapM_cons_ok in E1 as (y & k2 & ys & E1 & E2 & ->). cbn.
      rewrite (Hf x (or_introl eq_refl) Hx _ _ _ E1). cbn. eapply IH; [exact Hl| |exact E2]. intros z Hz. apply Hf. right. exact Hz.
  Qed.
  Lemma inner_pv l : forall st, forallb varsin l = true -> forallb varsin (snd st) = true -> forallb varsin (snd (fold_left add_inner l st)) = true.
  Proof.
    induction l as [|x l IH]; intros [c args] Hl Ha; cbn [fold_left]; [exact Ha|]. cbn in Hl. apply andb_true_iff in Hl as [Hx Hl].
    apply IH; [exact Hl|]. destruct x; cbn [add_inner snd] in *; auto; rewrite forallb_app; cbn [forallb]; rewrite Ha, Hx; reflexivity.
  Qed.
  Lemma outer_pv st a : varsin a = true -> forallb varsin (snd st) = true -> forallb varsin (snd (add_outer st a)) = true.
  Proof.
    destruct st as [c args]. intros Ha Hs. destruct a; cbn [add_outer snd] in *; auto; try (rewrite forallb_app; cbn [forallb]; rewrite Hs, Ha; reflexivity).
    apply inner_pv; auto.
  Qed.
  Lemma add_other_keeps a b : varsin a = true -> varsin b = true -> keeps (add_other a b).
  Proof.
    intros Ha Hb. unfold add_other. cbn [fold_left]. pose proof (outer_pv (n0, []) a Ha eq_refl) as G1. pose proof (outer_pv _ b Hb G1) as G2.
    destruct (add_outer (add_outer (n0, []) a) b) as [c args]. cbn [snd] in G2. destruct args as [|x args]; [apply keeps_const|].
    apply keeps_if; [|apply keeps_add; exact G2]. apply keeps_cbind. intros i. apply keeps_add. rewrite forallb_app, G2. reflexivity.
  Qed.
  Lemma add_nn_keeps a b : varsin a = true -> varsin b = true -> keeps (add_nn a b).
  Proof. intros Ha Hb. unfold add_nn. repeat apply keeps_if; try (apply keeps_ret; assumption). apply add_other_keeps; assumption. Qed.
  Lemma add_ns_keeps a v : varsin a = true -> keeps (add_ns a v).
  Proof. intros Ha. unfold add_ns. apply keeps_if; [apply keeps_ret; assumption|]. apply keeps_cbind. intros i. apply add_other_keeps; auto. Qed.
  Lemma add_sn_keeps a v : varsin a = true -> keeps (add_sn v a).
  Proof. intros Ha. unfold add_sn. apply keeps_if; [apply keeps_ret; assumption|]. apply keeps_cbind. intros i. apply add_other_keeps; auto. Qed.
  Lemma mul_cn_keeps s r : varsin s = true -> varsin r = true -> keeps (mul_cn s r).
  Proof.
    intros Hs. induction r as [i v|i nm kd|i args IH|i a IHa|i a b IHa IHb|i a b IHa IHb|i a IHa] using node_ind'; intros Hr; cbn [mul_cn];
      repeat apply keeps_if; try apply keeps_const; try (apply keeps_ret; assumption); try (apply keeps_mul; assumption).
    apply keeps_map; [exact Hr|]. rewrite Forall_forall in IH. intros x Hx Nx. apply IH; auto.
  Qed.
  Lemma mul_nc_keeps s r : varsin r = true -> varsin s = true -> keeps (mul_nc s r).
  Proof.
    intros Hs. induction s as [i v|i nm kd|i args IH|i a IHa|i a b IHa IHb|i a b IHa IHb|i a IHa] using node_ind'; intros Hr; cbn [mul_nc];
      repeat apply keeps_if; try apply keeps_const; try (apply keeps_ret; assumption); try (apply keeps_mul; assumption).
    apply keeps_map; [exact Hr|]. rewrite Forall_forall in IH. intros x Hx Nx. apply IH; auto.
  Qed.
  Lemma mul_nn_keeps s r : varsin s = true -> varsin r = true -> keeps (mul_nn s r).
  Proof.
    intros Hs Hr. unfold mul_nn. repeat apply keeps_if; try apply keeps_const; try (apply keeps_ret; assumption).
    destruct s; try (apply keeps_mul; assumption); destruct r; try (apply keeps_mul; assumption); (apply keeps_map; [assumption|]); intros x Hx Nx;
      [apply mul_cn_keeps|apply mul_nc_keeps]; auto.
  Qed.
  Lemma mul_ns_keeps a v : varsin a = true -> keeps (mul_ns a v).
  Proof.
    induction a as [i w|i nm kd|i args IH|i a IHa|i a b IHa IHb|i a b IHa IHb|i a IHa] using node_ind'; intros Hr; cbn [mul_ns];
      repeat apply keeps_if; try apply keeps_const; try (apply keeps_ret; assumption); try (apply keeps_cbind; intros j; apply keeps_mul; auto).
    apply keeps_map; [exact Hr|]. rewrite Forall_forall in IH. intros x Hx Nx. apply IH; auto.
  Qed.
  Lemma mul_sn_keeps a v : varsin a = true -> keeps (mul_sn v a).
  Proof.
    induction a as [i w|i nm kd|i args IH|i a IHa|i a b IHa IHb|i a b IHa IHb|i a IHa] using node_ind'; intros Hr; cbn [mul_sn];
      repeat apply keeps_if; try apply keeps_const; try (apply keeps_ret; assumption); try (apply keeps_cbind; intros j; apply keeps_mul; auto).
    apply keeps_map; [exact Hr|]. rewrite Forall_forall in IH. intros x Hx Nx. apply IH; auto.
  Qed.
  Lemma neg_n_keeps a : varsin a = true -> keeps (neg_n a).
  Proof. intros Ha. unfold neg_n. destruct a; try (apply mul_sn_keeps; exact Ha). apply keeps_const. Qed.
  Lemma sub_nn_keeps a b : varsin a = true -> varsin b = true -> keeps (sub_nn a b).
  Proof. intros Ha Hb. unfold sub_nn. apply keeps_bind; [apply mul_sn_keeps; exact Hb|]. intros x Hx. apply add_nn_keeps; auto. Qed.
  Lemma sub_ns_keeps a v : varsin a = true -> keeps (sub_ns a v).
  Proof. intros Ha. unfold sub_ns. apply keeps_cbind. intros i. apply keeps_bind; [apply mul_sn_keeps; reflexivity|]. intros x Hx. apply add_nn_keeps; auto. Qed.
  Lemma sub_sn_keeps a v : varsin a = true -> keeps (sub_sn v a).
  Proof. intros Ha. unfold sub_sn. apply keeps_cbind. intros i. apply keeps_bind; [apply mul_sn_keeps; exact Ha|]. intros x Hx. apply add_nn_keeps; auto. Qed.
  Lemma div_nn_keeps a b : varsin a = true -> varsin b = true -> keeps (div_nn a b).
  Proof. intros Ha Hb. unfold div_nn. repeat apply keeps_if; try apply keeps_fail; try apply keeps_const; try (apply keeps_ret; assumption). apply keeps_div; assumption. Qed.
  Lemma div_sn_keeps s b : varsin b = true -> keeps (div_sn s b).
  Proof. intros Hb. unfold div_sn. repeat apply keeps_if; try apply keeps_fail; try apply keeps_const. apply keeps_cbind. intros i. apply keeps_div; auto. Qed.
  Lemma sin_n_keeps a : varsin a = true -> keeps (sin_n a).
  Proof. intros Ha. destruct a; cbn [sin_n]; try (apply keeps_sin; exact Ha). apply keeps_const. Qed.
  Lemma cos_n_keeps a : varsin a = true -> keeps (cos_n a).
  Proof. intros Ha. destruct a; cbn [cos_n]; try (apply keeps_cos; exact Ha). apply keeps_const. Qed.
  (** Differentiation. *)
  Lemma partial_keeps n a : varsin n = true -> keeps (partial n a).
  Proof.
    intros Hn. destruct n; cbn [partial varsin] in *; try (apply keeps_const; fail).
    - destruct a; repeat apply keeps_if; apply keeps_const.
    - apply keeps_if; apply keeps_const.
    - apply keeps_if; [|apply keeps_const]. apply keeps_bind; [apply sin_n_keeps; exact Hn|]. intros x Hx. apply neg_n_keeps. exact Hx.
    - apply andb_true_iff in Hn as [H1 H2]. destruct (ptr_eq n1 a); [apply div_sn_keeps; assumption|]. apply keeps_if; [|apply keeps_const].
      apply keeps_bind; [apply neg_n_keeps; assumption|]. intros x Hx. apply keeps_bind; [apply mul_nn_keeps; assumption|]. intros y Hy. apply div_nn_keeps; assumption.
    - apply andb_true_iff in Hn as [H1 H2]. repeat apply keeps_if; try apply keeps_const; apply keeps_ret; assumption.
    - apply keeps_if; [|apply keeps_const]. apply cos_n_keeps; exact Hn.
  Qed.
  Lemma keeps_fold {A} (f : node T -> A -> M (node T)) (Q : A -> Prop) l x : varsin x = true -> Forall Q l ->
    (forall y a, varsin y = true -> Q a -> keeps (f y a)) -> keeps (foldM f l x).
  Proof.
    intros Hx Hl Hf. revert x Hx. induction Hl as [|a l Ha Hl IH]; intros x Hx; cbn [foldM]; [apply keeps_ret; exact Hx|].
    apply keeps_bind; [apply Hf; assumption|]. exact IH.
  Qed.
  Lemma windows_in (p : list (node T)) : Forall (fun x => varsin x = true) p -> Forall (fun pr => varsin (fst pr) = true) (windows2 p).
  Proof.
    induction 1 as [|a p Ha Hp IH]; [constructor|]. destruct p as [|b p]; [constructor|]. cbn [windows2]. constructor; [exact Ha|exact IH].
  Qed.
  Lemma path_sum_keeps v n : varsin n = true -> keeps (path_sum (rpaths v n)).
  Proof.
    intros Hn. unfold path_sum. apply keeps_cbind. intros i.
    apply (keeps_fold _ (fun p => Forall (fun x => varsin x = true) p)); [reflexivity| |].
    - apply Forall_forall. intros p Hp. apply rpaths_chain in Hp as [_ Hp]. eapply Forall_impl; [|exact Hp]. cbv beta. intros x Hx. eapply varsin_sub; eauto.
    - intros y p Hy Hp. apply keeps_bind; [|intros x Hx; apply add_nn_keeps; assumption].
      unfold path_prod. apply keeps_cbind. intros j. apply (keeps_fold _ (fun pr => varsin (fst pr) = true)); [reflexivity|apply windows_in; exact Hp|].
      intros z pr Hz Hpr. apply keeps_bind; [apply partial_keeps; exact Hpr|]. intros x Hx. apply mul_nn_keeps; assumption.
  Qed.
End DerivVars.

(** A derivative mentions no other variables than its expression. *)
Definition veqb {T} (a b : node T) : bool :=
  match a, b with
  | NVar i s k, NVar j s' k' => (i =? j) && String.eqb s s' && match k, k' with VarContinuous, VarContinuous => true | VarInteger, VarInteger => true | _, _ => false end
  | _, _ => false
  end.
Lemma veqb_eq {T} (a b : node T) : veqb a b = true -> a = b.
Proof.
  destruct a, b; cbn; try discriminate. intros E. apply andb_true_iff in E as [E E3]. apply andb_true_iff in E as [E1 E2].
  apply Nat.eqb_eq in E1. apply String.eqb_eq in E2. subst. f_equal. destruct kind, kind0; try discriminate; reflexivity.
Qed.
Lemma veqb_refl {T} (a : node T) : is_var a = true -> veqb a a = true.
Proof. destruct a; try discriminate. intros _. cbn. rewrite Nat.eqb_refl, String.eqb_refl. destruct kind; reflexivity. Qed.

Section Deriv.
  Context {T : Type} `{Num T}.
  Lemma varsin_all (P : node T -> bool) n : (forall v, occurs v n -> P v = true) -> varsin P n = true.
  Proof.
    induction n as [i v|i nm kd|i args IH|i a IHa|i a b IHa IHb|i a b IHa IHb|i a IHa] using node_ind'; intros Hp; cbn [varsin].
    - reflexivity.
    - apply Hp. split; [reflexivity|apply sub_refl].
    - apply forallb_forall. intros x Hx. rewrite Forall_forall in IH. apply IH; [exact Hx|]. intros v [Hv Hs]. apply Hp. split; [exact Hv|]. eapply sub_arg; [|exact Hs]. exact Hx.
    - apply IHa. intros v [Hv Hs]. apply Hp. split; [exact Hv|]. eapply sub_arg; [|exact Hs]. left; reflexivity.
    - rewrite IHa, IHb; [reflexivity| |]; intros v [Hv Hs]; apply Hp; (split; [exact Hv|]); (eapply sub_arg; [|exact Hs]); cbn; auto.
    - rewrite IHa, IHb; [reflexivity| |]; intros v [Hv Hs]; apply Hp; (split; [exact Hv|]); (eapply sub_arg; [|exact Hs]); cbn; auto.
    - apply IHa. intros v [Hv Hs]. apply Hp. split; [exact Hv|]. eapply sub_arg; [|exact Hs]. left; reflexivity.
  Qed.
  (** The variables of [n]. *)
  Lemma path_sum_vars v n k d k' (l : list (node T)) :
    (forall w, occurs w n -> In w l) -> path_sum (rpaths v n) k = Ok (d, k') -> forall w, occurs w d -> In w l.
  Proof.
    intros Hl E w Hw.
    assert (G : varsin (fun u => existsb (veqb u) l) n = true).
    { apply varsin_all. intros u Hu. apply existsb_exists. exists u. split; [apply Hl; exact Hu|apply veqb_refl; apply Hu]. }
    pose proof (path_sum_keeps _ v n G _ _ _ E) as Gd. pose proof (varsin_occurs _ _ _ Hw Gd) as Gw. cbv beta in Gw.
    apply existsb_exists in Gw as (u & Hu & Eu). apply veqb_eq in Eu. subst. exact Hu.
  Qed.
End Deriv.

Section Leaves.
  Context {T : Type} `{Num T}.
  Fixpoint var_leaves (n : node T) : list (node T) :=
    match n with
    | NConst _ _ => []
    | NVar _ _ _ => [n]
    | NAdd _ l => flat_map var_leaves l
    | NMul _ a b => var_leaves a ++ var_leaves b
    | NDiv _ a b => var_leaves a ++ var_leaves b
    | NSin _ a => var_leaves a
    | NCos _ a => var_leaves a
    end.
  Lemma leaves_occur w n : In w (var_leaves n) <-> occurs w n.
  Proof.
    assert (Ho : forall n, occurs w n <-> (w = n /\ is_var n = true) \/ exists c, In c (arguments n) /\ occurs w c).
    { intros m. split.
      - intros [Hw Hs]. inversion Hs; subst; [left; auto|right]. exists c. split; [assumption|split; assumption].
      - intros [[-> Hv]|(c & Hc & Hw & Hs)]; [split; [exact Hv|apply sub_refl]|]. split; [exact Hw|]. eapply sub_arg; eauto. }
    induction n as [i v|i nm kd|i args IH|i a IHa|i a b IHa IHb|i a b IHa IHb|i a IHa] using node_ind'; rewrite Ho; cbn [var_leaves arguments is_var].
    - split; [intros []|]. intros [[_ E]|(c & [] & _)]. discriminate E.
    - split; [intros [<-|[]]; left; auto|]. intros [[-> _]|(c & [] & _)]. left; reflexivity.
    - rewrite in_flat_map. rewrite Forall_forall in IH. split.
      + intros (c & Hc & Hw). right. exists c. split; [exact Hc|]. apply IH; assumption.
      + intros [[_ E]|(c & Hc & Hw)]; [discriminate E|]. exists c. split; [exact Hc|]. apply IH; assumption.
    - split; [intros Hw; right; exists a; split; [left; reflexivity|apply IHa; exact Hw]|]. intros [[_ E]|(c & [<-|[]] & Hw)]; [discriminate E|apply IHa; exact Hw].
    - rewrite in_app_iff. split.
      + intros [Hw|Hw]; right; [exists a|exists b]; (split; [cbn; auto|]); [apply IHa|apply IHb]; exact Hw.
      + intros [[_ E]|(c & [<-|[<-|[]]] & Hw)]; [discriminate E|left; apply IHa; exact Hw|right; apply IHb; exact Hw].
    - rewrite in_app_iff. split.
      + intros [Hw|Hw]; right; [exists a|exists b]; (split; [cbn; auto|]); [apply IHa|apply IHb]; exact Hw.
      + intros [[_ E]|(c & [<-|[<-|[]]] & Hw)]; [discriminate E|left; apply IHa; exact Hw|right; apply IHb; exact Hw].
    - split; [intros Hw; right; exists a; split; [left; reflexivity|apply IHa; exact Hw]|]. intros [[_ E]|(c & [<-|[]] & Hw)]; [discriminate E|apply IHa; exact Hw].
  Qed.
  Lemma path_sum_occurs v n k d k' w : path_sum (rpaths v n) k = Ok (d, k') -> occurs w d -> occurs w n.
  Proof.
    intros E Hw. apply leaves_occur. eapply path_sum_vars; [|exact E|exact Hw]. intros u Hu. apply leaves_occur. exact Hu.
  Qed.
End Leaves.
