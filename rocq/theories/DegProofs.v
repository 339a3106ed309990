(** Degrees of built expressions. *)
From Verif Require Import Base Num Node NodeDiff NodeInd Api ApiProofs PathProofs.

Fixpoint degree {T} (n : node T) : nat :=
  match n with
  | NVar _ _ _ => 1
  | NAdd _ l => fold_right (fun a d => Nat.max (degree a) d) 0 l
  | NMul _ a b => degree a + degree b
  | _ => 0
  end.

Section Degree.
  Context {T : Type} `{Num T}.
  Notation dle g := (fun n : node T => degree n <= g).

  Lemma degree_add i (l : list (node T)) g : degree (NAdd i l) <= g <-> Forall (dle g) l.
  Proof.
    cbn [degree]. induction l as [|a l IH]; cbn [fold_right].
    - split; [constructor|lia].
    - split; intros G; [constructor; [lia|apply IH; lia]|]. inversion G; subst. pose proof (proj2 IH H3). lia.
  Qed.
  Lemma mk_const_deg (v : T) k n k' : mk_const v k = Ok (n, k') -> degree n = 0.
  Proof. intros E. injection E as <- _. reflexivity. Qed.
  Lemma mk_add_deg (l : list (node T)) g k n k' : Forall (dle g) l -> mk_add l k = Ok (n, k') -> degree n <= g.
  Proof. intros Hl E. unfold mk_add in E. destruct (length l <? 2); [discriminate|]. injection E as <- _. apply degree_add. exact Hl. Qed.

  Definition RSd (g : nat) (s : T * list (node T)) : Prop := Forall (dle g) (snd s).
  Lemma inner_deg g s (a : node T) : RSd g s -> degree a <= g -> RSd g (add_inner s a).
  Proof.
    destruct s as [c args]. unfold RSd. cbn [snd]. intros Hs Ha. destruct a; cbn [add_inner snd]; auto; apply Forall_app; split; auto.
  Qed.
  Lemma inners_deg g l s : RSd g s -> Forall (dle g) l -> RSd g (fold_left add_inner l s).
  Proof. intros Hs Hl. revert s Hs. induction Hl; intros s Hs; cbn; auto. apply IHHl. apply inner_deg; auto. Qed.
  Lemma outer_deg g s (a : node T) : RSd g s -> degree a <= g -> RSd g (add_outer s a).
  Proof.
    destruct s as [c args]. unfold RSd. cbn [snd]. intros Hs Ha.
    destruct a; cbn [add_outer snd]; auto; try (apply Forall_app; split; auto; fail). apply inners_deg; [exact Hs|]. eapply degree_add. exact Ha.
  Qed.
  Lemma add_other_deg g (a b : node T) k n k' : degree a <= g -> degree b <= g -> add_other a b k = Ok (n, k') -> degree n <= g.
  Proof.
    intros Ha Hb E. unfold add_other in E. cbn [fold_left] in E. assert (Hs : RSd g (add_outer (add_outer (n0, []) a) b)).
    { apply outer_deg; [apply outer_deg; [constructor|exact Ha]|exact Hb]. }
    destruct (add_outer (add_outer (n0, []) a) b) as [c args]. unfold RSd in Hs. cbn [snd] in Hs.
    destruct args as [|x args]; [apply mk_const_deg in E; lia|].
    destruct (negb (neqb c n0)); [|exact (mk_add_deg _ _ _ _ _ Hs E)].
    apply bind_ok in E as (y & k1 & E1 & E). apply mk_const_deg in E1. eapply mk_add_deg; [|exact E]. apply Forall_app. split; [exact Hs|]. constructor; [lia|constructor].
  Qed.
  Lemma add_nn_deg g (a b : node T) k n k' : degree a <= g -> degree b <= g -> add_nn a b k = Ok (n, k') -> degree n <= g.
  Proof.
    intros Ha Hb E. unfold add_nn in E. destruct (is_constant_with_value a n0); [injection E as <- _; exact Hb|].
    destruct (is_constant_with_value b n0); [injection E as <- _; exact Ha|]. exact (add_other_deg _ _ _ _ _ _ Ha Hb E).
  Qed.
  Lemma add_ns_deg g (a : node T) v k n k' : degree a <= g -> add_ns a v k = Ok (n, k') -> degree n <= g.
  Proof.
    intros Ha E. unfold add_ns in E. destruct (neqb v n0); [injection E as <- _; exact Ha|].
    apply bind_ok in E as (y & k1 & E1 & E). apply mk_const_deg in E1. eapply add_other_deg; [exact Ha| |exact E]. lia.
  Qed.
  Lemma add_sn_deg g (a : node T) v k n k' : degree a <= g -> add_sn v a k = Ok (n, k') -> degree n <= g.
  Proof.
    intros Ha E. unfold add_sn in E. destruct (neqb v n0); [injection E as <- _; exact Ha|].
    apply bind_ok in E as (y & k1 & E1 & E). apply mk_const_deg in E1. eapply add_other_deg; [|exact Ha|exact E]. lia.
  Qed.

  Lemma mapM_deg (f : node T -> M (node T)) g l : (forall a k n k', In a l -> f a k = Ok (n, k') -> degree n <= g) ->
    forall k l' k', mapM f l k = Ok (l', k') -> Forall (dle g) l'.
  Proof.
    induction l as [|a l IH]; intros Hf k l' k' E; cbn [mapM] in E.
    - injection E as <- _. constructor.
    - apply bind_ok in E as (n & k1 & E1 & E). apply bind_ok in E as (ns & k2 & E2 & E). injection E as <- _.
      constructor; [eapply Hf; [left; reflexivity|exact E1]|]. eapply IH; [|exact E2]. intros. eapply Hf; [right|]; eauto.
  Qed.
  Lemma const_deg (n : node T) : is_constant n = true -> degree n = 0.
  Proof. destruct n; cbn; congruence. Qed.
  Lemma cwv_deg (n : node T) v : is_constant_with_value n v = true -> degree n = 0.
  Proof. destruct n; cbn; congruence. Qed.
  Lemma mk_mul_deg (a b : node T) k n k' : mk_mul a b k = Ok (n, k') -> degree n = degree a + degree b.
  Proof. intros E. injection E as <- _. reflexivity. Qed.

  Lemma head_deg (s r : node T) g (m : M (node T)) k n k' : degree s + degree r <= g ->
    (forall k, m k = Ok (n, k') -> degree n <= g) ->
    (if is_constant_with_value s n0 || is_constant_with_value r n0 then mk_const n0
     else if is_constant_with_value s n1 then ret r
     else if is_constant_with_value r n1 then ret s
     else if is_constant s && is_constant r then mk_const (nmul (evaluate [] s) (evaluate [] r)) else m) k = Ok (n, k') -> degree n <= g.
  Proof.
    intros Hg Hm E. destruct (_ || _); [apply mk_const_deg in E; lia|]. destruct (is_constant_with_value s n1); [injection E as <- _; lia|].
    destruct (is_constant_with_value r n1); [injection E as <- _; lia|]. destruct (_ && _); [apply mk_const_deg in E; lia|]. eauto.
  Qed.
  Lemma mul_cn_deg (s r : node T) g : degree s + degree r <= g -> forall k n k', mul_cn s r k = Ok (n, k') -> degree n <= g.
  Proof.
    revert g. induction r as [i w|i st kd|i args IH|i a IHa|i a b IHa IHb|i a b IHa IHb|i a IHa] using node_ind'; intros g Hg k n k' E;
      cbn [mul_cn] in E; (eapply head_deg; [exact Hg| |exact E]); intros k1 E1; try (apply mk_mul_deg in E1; cbn [degree] in *; lia).
    apply bind_ok in E1 as (l & k2 & E2 & E1). eapply mk_add_deg; [|exact E1]. eapply mapM_deg; [|exact E2]. cbv beta.
    intros a k3 n3 k4 Ha E3. rewrite Forall_forall in IH. eapply (IH a Ha); [|exact E3].
    assert (degree a <= g - degree s); [|lia]. assert (Hl : degree (NAdd i args) <= g - degree s) by lia. apply degree_add in Hl. rewrite Forall_forall in Hl. auto.
  Qed.
  Lemma mul_nc_deg (s r : node T) g : degree s + degree r <= g -> forall k n k', mul_nc s r k = Ok (n, k') -> degree n <= g.
  Proof.
    revert g. induction s as [i w|i st kd|i args IH|i a IHa|i a b IHa IHb|i a b IHa IHb|i a IHa] using node_ind'; intros g Hg k n k' E;
      cbn [mul_nc] in E; (eapply head_deg; [exact Hg| |exact E]); intros k1 E1; try (apply mk_mul_deg in E1; cbn [degree] in *; lia).
    apply bind_ok in E1 as (l & k2 & E2 & E1). eapply mk_add_deg; [|exact E1]. eapply mapM_deg; [|exact E2]. cbv beta.
    intros a k3 n3 k4 Ha E3. rewrite Forall_forall in IH. eapply (IH a Ha); [|exact E3].
    assert (degree a <= g - degree r); [|lia]. assert (Hl : degree (NAdd i args) <= g - degree r) by lia. apply degree_add in Hl. rewrite Forall_forall in Hl. auto.
  Qed.
  Lemma mul_nn_deg (s r : node T) g k n k' : degree s + degree r <= g -> mul_nn s r k = Ok (n, k') -> degree n <= g.
  Proof.
    intros Hg E. unfold mul_nn in E. eapply head_deg; [exact Hg| |exact E]. intros k1 E1.
    destruct s as [i1 v1|i1 s1 kd1|i1 l1|i1 a1|i1 a1 b1|i1 a1 b1|i1 a1], r as [i2 v2|i2 s2 kd2|i2 l2|i2 a2|i2 a2 b2|i2 a2 b2|i2 a2];
      try (apply mk_mul_deg in E1; cbn [degree] in *; lia).
    - apply bind_ok in E1 as (l & k2 & E2 & E1). eapply mk_add_deg; [|exact E1]. eapply mapM_deg; [|exact E2]. cbv beta.
      intros a k3 n3 k4 Ha E3. eapply mul_cn_deg; [|exact E3]. cbn [degree]. assert (Hl : degree (NAdd i2 l2) <= g) by (cbn [degree] in *; lia).
      apply degree_add in Hl. rewrite Forall_forall in Hl. exact (Hl a Ha).
    - apply bind_ok in E1 as (l & k2 & E2 & E1). eapply mk_add_deg; [|exact E1]. eapply mapM_deg; [|exact E2]. cbv beta.
      intros a k3 n3 k4 Ha E3. eapply mul_nc_deg; [|exact E3]. cbn [degree]. rewrite Nat.add_0_r. assert (Hl : degree (NAdd i1 l1) <= g) by (cbn [degree] in *; lia).
      apply degree_add in Hl. rewrite Forall_forall in Hl. exact (Hl a Ha).
  Qed.
  Lemma mul_sn_deg v (r : node T) g : degree r <= g -> forall k n k', mul_sn v r k = Ok (n, k') -> degree n <= g.
  Proof.
    revert g. induction r as [i w|i st kd|i args IH|i a IHa|i a b IHa IHb|i a b IHa IHb|i a IHa] using node_ind'; intros g Hg k n k' E;
      cbn [mul_sn is_constant is_constant_with_value] in E; rewrite ?orb_true_r, ?orb_false_r in E.
    1: apply mk_const_deg in E; lia.
    all: destruct (neqb v n0); [apply mk_const_deg in E; lia|]; destruct (neqb v n1); [injection E as <- _; exact Hg|]; cbn iota in E; apply bind_ok in E as (c & k2 & E2 & E1).
    all: try (apply mk_const_deg in E2; apply mk_mul_deg in E1; cbn [degree] in *; lia).
    eapply mk_add_deg; [|exact E1]. eapply mapM_deg; [|exact E2]. cbv beta.
    intros a k3 n3 k4 Ha E3. rewrite Forall_forall in IH. eapply (IH a Ha); [|exact E3]. apply degree_add in Hg. rewrite Forall_forall in Hg. auto.
  Qed.
  Lemma mul_ns_deg v (r : node T) g : degree r <= g -> forall k n k', mul_ns r v k = Ok (n, k') -> degree n <= g.
  Proof.
    revert g. induction r as [i w|i st kd|i args IH|i a IHa|i a b IHa IHb|i a b IHa IHb|i a IHa] using node_ind'; intros g Hg k n k' E;
      cbn [mul_ns is_constant is_constant_with_value orb] in E.
    1: apply mk_const_deg in E; lia.
    all: destruct (neqb v n0); [apply mk_const_deg in E; lia|]; cbn iota in E; destruct (neqb v n1); [injection E as <- _; exact Hg|]; apply bind_ok in E as (c & k2 & E2 & E1).
    all: try (apply mk_const_deg in E2; apply mk_mul_deg in E1; cbn [degree] in *; lia).
    eapply mk_add_deg; [|exact E1]. eapply mapM_deg; [|exact E2]. cbv beta.
    intros a k3 n3 k4 Ha E3. rewrite Forall_forall in IH. eapply (IH a Ha); [|exact E3]. apply degree_add in Hg. rewrite Forall_forall in Hg. auto.
  Qed.
  Lemma neg_n_deg (n0 : node T) g k n k' : degree n0 <= g -> neg_n n0 k = Ok (n, k') -> degree n <= g.
  Proof. intros Hg E. unfold neg_n in E. destruct n0; try (exact (mul_sn_deg _ _ _ Hg _ _ _ E)). apply mk_const_deg in E. lia. Qed.
  Lemma sub_nn_deg g (a b : node T) k n k' : degree a <= g -> degree b <= g -> sub_nn a b k = Ok (n, k') -> degree n <= g.
  Proof. intros Ha Hb E. apply bind_ok in E as (m & k1 & E1 & E). eapply add_nn_deg; [exact Ha| |exact E]. exact (mul_sn_deg _ _ _ Hb _ _ _ E1). Qed.
  Lemma sub_ns_deg g (a : node T) v k n k' : degree a <= g -> sub_ns a v k = Ok (n, k') -> degree n <= g.
  Proof.
    intros Ha E. apply bind_ok in E as (c & k0 & E0 & E). apply bind_ok in E as (m & k1 & E1 & E). apply mk_const_deg in E0.
    eapply add_nn_deg; [exact Ha| |exact E]. eapply mul_sn_deg; [|exact E1]. lia.
  Qed.
  Lemma sub_sn_deg g (a : node T) v k n k' : degree a <= g -> sub_sn v a k = Ok (n, k') -> degree n <= g.
  Proof.
    intros Ha E. apply bind_ok in E as (c & k0 & E0 & E). apply bind_ok in E as (m & k1 & E1 & E). apply mk_const_deg in E0.
    eapply add_nn_deg; [| |exact E]; [lia|]. exact (mul_sn_deg _ _ _ Ha _ _ _ E1).
  Qed.
End Degree.
